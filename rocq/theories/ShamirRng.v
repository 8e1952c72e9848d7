(** * Correlated randomness of the Shamir protocol: proofs *)
From Coq Require Import String List Arith Lia Bool Ring.
From Verif Require Import Proc Alg NNet Rep3 Rep3Proofs ShamirPoly Shamir ShamirAlg ShamirSpec.
Import ListNotations.
Set Implicit Arguments.
Local Open Scope grp_scope.

(** ** Lists *)
Lemma length_set_nth {A} i (x : A) l : length (set_nth i x l) = length l.
Proof. revert i. induction l as [|a l IH]; intros [|i]; cbn; auto. Qed.
Lemma nth_set_nth {A} i (x : A) l j d : i < length l -> nth j (set_nth i x l) d = if (j =? i)%nat then x else nth j l d.
Proof.
  revert i j. induction l as [|a l IH]; intros [|i] [|j] H; cbn in *; try lia; try reflexivity. apply IH. lia.
Qed.
Lemma length_set_nths {A} is : forall xs (l : list A), length (set_nths is xs l) = length l.
Proof. induction is as [|i is IH]; intros [|x xs] l; cbn; auto. rewrite IH. apply length_set_nth. Qed.
Lemma nth_set_nths {A} (f : nat -> A) is : forall (l : list A) j d, NoDup is -> (forall i, In i is -> i < length l) ->
  nth j (set_nths is (map f is) l) d = if in_dec Nat.eq_dec j is then f j else nth j l d.
Proof.
  induction is as [|i is IH]; intros l j d ND H; cbn [map set_nths]; [reflexivity|].
  inversion ND as [|a b N1 N2]; subst.
  rewrite IH; [|exact N2|intros k Hk; rewrite length_set_nth; apply H; right; exact Hk].
  rewrite nth_set_nth by (apply H; left; reflexivity).
  destruct (in_dec Nat.eq_dec j is) as [I|I], (in_dec Nat.eq_dec j (i :: is)) as [J|J]; try reflexivity.
  - exfalso. apply J. right. exact I.
  - destruct (Nat.eqb_spec j i) as [->|Hne]; [reflexivity|]. exfalso. destruct J as [J|J]; congruence.
  - destruct (Nat.eqb_spec j i) as [->|Hne]; [|reflexivity]. exfalso. apply J. left. reflexivity.
Qed.
Lemma nth_map_in {A B} (f : A -> B) l k da db : k < length l -> nth k (map f l) db = f (nth k l da).
Proof. intros H. rewrite (nth_indep _ db (f da)) by (rewrite map_length; exact H). apply map_nth. Qed.
Lemma nth_map_seq {B} (f : nat -> B) a k len d : k < len -> nth k (map f (seq a len)) d = f (a + k)%nat.
Proof. intros H. rewrite (nth_map_in f _ O) by (rewrite seq_length; exact H). rewrite seq_nth by exact H. reflexivity. Qed.
Lemma map_seq_shift {B} (f : nat -> B) a b len : map f (seq (a + b) len) = map (fun k => f (k + a)%nat) (seq b len).
Proof.
  revert b. induction len as [|len IH]; intros b; cbn; [reflexivity|]. f_equal; [f_equal; lia|].
  rewrite <- IH. f_equal. f_equal. lia.
Qed.

(** ** Cyclic neighbourhoods *)
Section Ring.
  Variable n : nat.
  (** the parties at distance [lo] .. [lo+len-1] after (before) party [i] *)
  Definition after_ids (i lo len : nat) : list nat := map (fun k => (i + k) mod n)%nat (seq lo len).
  Definition before_ids (i lo len : nat) : list nat := map (fun k => (i + n - k) mod n)%nat (seq lo len).
  Lemma in_after i p lo len : i < n -> p < n -> lo + len <= S n -> 1 <= lo ->
    In p (after_ids i lo len) <-> exists k, lo <= k < lo + len /\ (k <= n)%nat /\ (p + n = i + k \/ p = i + k)%nat.
  Proof.
    intros Hi Hp Hl H1. unfold after_ids. rewrite in_map_iff. split.
    - intros (k & E & Hk). apply in_seq in Hk. exists k. split; [exact Hk|]. split; [lia|].
      rewrite mod_add_lt in E by lia. destruct (Nat.ltb_spec (i + k) n); lia.
    - intros (k & Hk & Hk' & E). exists k. split; [|apply in_seq; exact Hk].
      rewrite mod_add_lt by lia. destruct (Nat.ltb_spec (i + k) n); lia.
  Qed.
  Lemma in_before i p lo len : i < n -> p < n -> lo + len <= S n -> 1 <= lo ->
    In p (before_ids i lo len) <-> exists k, lo <= k < lo + len /\ (k <= n)%nat /\ (i + n = p + k \/ i = p + k)%nat.
  Proof.
    intros Hi Hp Hl H1. unfold before_ids. rewrite in_map_iff. split.
    - intros (k & E & Hk). apply in_seq in Hk. exists k. split; [exact Hk|]. split; [lia|].
      rewrite mod_sub_lt in E by lia. destruct (Nat.ltb_spec i k); lia.
    - intros (k & Hk & Hk' & E). exists k. split; [|apply in_seq; exact Hk].
      rewrite mod_sub_lt by lia. destruct (Nat.ltb_spec i k); lia.
  Qed.
  Lemma before_after i p lo len : i < n -> p < n -> lo + len <= S n -> 1 <= lo ->
    In p (before_ids i lo len) <-> In i (after_ids p lo len).
  Proof. intros Hi Hp Hl H1. rewrite in_before, in_after by assumption. reflexivity. Qed.
  Lemma after_lt i lo len : 0 < n -> forall p, In p (after_ids i lo len) -> p < n.
  Proof. intros Hn p Hp. apply in_map_iff in Hp. destruct Hp as (k & <- & _). apply Nat.mod_upper_bound. lia. Qed.
  Lemma before_lt i lo len : 0 < n -> forall p, In p (before_ids i lo len) -> p < n.
  Proof. intros Hn p Hp. apply in_map_iff in Hp. destruct Hp as (k & <- & _). apply Nat.mod_upper_bound. lia. Qed.
  Lemma after_nodup i lo len : i < n -> lo + len <= S n -> 1 <= lo -> NoDup (after_ids i lo len).
  Proof.
    intros Hi Hl H1. apply NoDup_map_seq. intros x y Hx Hy. rewrite !mod_add_lt by lia.
    destruct (Nat.ltb_spec (i + x) n), (Nat.ltb_spec (i + y) n); lia.
  Qed.
  Lemma before_nodup i lo len : i < n -> lo + len <= S n -> 1 <= lo -> NoDup (before_ids i lo len).
  Proof.
    intros Hi Hl H1. apply NoDup_map_seq. intros x y Hx Hy. rewrite !mod_sub_lt by lia.
    destruct (Nat.ltb_spec i x), (Nat.ltb_spec i y); lia.
  Qed.
  (** every other party is at distance 1..d or beyond *)
  Lemma after_split i p d : i < n -> p < n -> S d <= n ->
    (p = i /\ ~ In p (after_ids i 1 d) /\ ~ In p (after_ids i (S d) (n - S d))) \/
    (p <> i /\ In p (after_ids i 1 d) /\ ~ In p (after_ids i (S d) (n - S d))) \/
    (p <> i /\ ~ In p (after_ids i 1 d) /\ In p (after_ids i (S d) (n - S d))).
  Proof.
    intros Hi Hp Hd. rewrite !in_after by lia.
    destruct (Nat.lt_trichotomy p i) as [H|[H|H]].
    - destruct (le_lt_dec (p + n - i) d).
      + right; left. split; [lia|]. split; [exists (p + n - i)%nat; lia|]. intros (k & Hk & _ & E). lia.
      + right; right. split; [lia|]. split; [intros (k & Hk & _ & E); lia|]. exists (p + n - i)%nat. lia.
    - left. split; [exact H|]. split; intros (k & Hk & _ & E); lia.
    - destruct (le_lt_dec (p - i) d).
      + right; left. split; [lia|]. split; [exists (p - i)%nat; lia|]. intros (k & Hk & _ & E). lia.
      + right; right. split; [lia|]. split; [intros (k & Hk & _ & E); lia|]. exists (p - i)%nat. lia.
  Qed.
End Ring.

Section RngProofs.
  Context {M : Type} {F : Type} {FF : Fld F} {Sg : Type} {DF : Draw Sg F} {EF : Enc M (list F)}.
  Notation srng := (srng (F := F) (Sg := Sg)).
  Add Ring FringR : (@cring_theory F _).
  Infix "*" := rmul : grp_scope.
  Notation "1" := rone : grp_scope.
  Variables (n t cap amount : nat).

  (** ** Generators *)
  Definition same_cfg (r r' : srng) : Prop :=
    sr_id r' = sr_id r /\ sr_t r' = sr_t r /\ sr_n r' = sr_n r /\ sr_pre_t r' = sr_pre_t r /\ sr_pre_2t r' = sr_pre_2t r /\
    sr_matrix r' = sr_matrix r /\ sr_rt r' = sr_rt r /\ sr_r2t r' = sr_r2t r /\ length (sr_shared r') = length (sr_shared r).
  Lemma same_refl r : same_cfg r r.
  Proof. repeat split. Qed.
  Lemma same_trans r r1 r2 : same_cfg r r1 -> same_cfg r1 r2 -> same_cfg r r2.
  Proof. unfold same_cfg. intuition congruence. Qed.
  Lemma same_set (r : srng) p s : same_cfg r (set_rng r p s).
  Proof.
    unfold set_rng, sr_with. destruct (p <? sr_id r)%nat; [|destruct (sr_id r <? p)%nat]; unfold same_cfg; cbn;
      rewrite ?length_set_nth; repeat split; reflexivity.
  Qed.
  Lemma get_set (r : srng) p s q : sr_id r < n -> length (sr_shared r) = (n - 1)%nat -> p < n -> q < n ->
    get_rng (set_rng r p s) q = if (q =? p)%nat then s else get_rng r q.
  Proof.
    intros Hi Hl Hp Hq. unfold set_rng, get_rng, sr_with.
    destruct (Nat.ltb_spec p (sr_id r)) as [H1|H1]; [|destruct (Nat.ltb_spec (sr_id r) p) as [H2|H2]]; cbn [sr_id sr_shared sr_rng].
    - destruct (Nat.ltb_spec q (sr_id r)) as [K1|K1]; [|destruct (Nat.ltb_spec (sr_id r) q) as [K2|K2]].
      + apply nth_set_nth. lia.
      + destruct (Nat.eqb_spec q p); [lia|]. rewrite nth_set_nth by lia. destruct (Nat.eqb_spec (q - 1) p); [lia|reflexivity].
      + destruct (Nat.eqb_spec q p); [lia|reflexivity].
    - destruct (Nat.ltb_spec q (sr_id r)) as [K1|K1]; [|destruct (Nat.ltb_spec (sr_id r) q) as [K2|K2]].
      + destruct (Nat.eqb_spec q p); [lia|]. rewrite nth_set_nth by lia. destruct (Nat.eqb_spec q (p - 1)); [lia|reflexivity].
      + rewrite nth_set_nth by lia. destruct (Nat.eqb_spec q p), (Nat.eqb_spec (q - 1) (p - 1)); try lia; reflexivity.
      + destruct (Nat.eqb_spec q p); [lia|reflexivity].
    - destruct (Nat.ltb_spec q (sr_id r)) as [K1|K1]; [|destruct (Nat.ltb_spec (sr_id r) q) as [K2|K2]].
      + destruct (Nat.eqb_spec q p); [lia|]. apply nth_indep. lia.
      + destruct (Nat.eqb_spec q p); [lia|]. apply nth_indep. lia.
      + destruct (Nat.eqb_spec q p); [reflexivity|lia].
  Qed.
  Notation drw := (draws (X := F) amount).
  Lemma draw_from_ok ps : forall r, sr_id r < n -> length (sr_shared r) = (n - 1)%nat -> NoDup ps -> (forall p, In p ps -> p < n) ->
    same_cfg r (snd (draw_from amount ps r)) /\
    fst (draw_from amount ps r) = map (fun p => fst (drw (get_rng r p))) ps /\
    forall q, q < n -> get_rng (snd (draw_from amount ps r)) q = if in_dec Nat.eq_dec q ps then snd (drw (get_rng r q)) else get_rng r q.
  Proof.
    induction ps as [|p ps IH]; intros r Hi Hl ND Hp; cbn [draw_from].
    - split; [apply same_refl|]. split; reflexivity.
    - inversion ND as [|a b N1 N2]; subst. cbn [fst snd map].
      set (r1 := set_rng r p (snd (drw (get_rng r p)))).
      assert (S1 : same_cfg r r1) by apply same_set.
      assert (Hpn : p < n) by (apply Hp; left; reflexivity).
      destruct (IH r1) as (I1 & I2 & I3).
      + destruct S1 as (-> & _). exact Hi.
      + destruct S1 as (_ & _ & _ & _ & _ & _ & _ & _ & ->). exact Hl.
      + exact N2.
      + intros q Hq. apply Hp. right. exact Hq.
      + split; [exact (same_trans S1 I1)|]. split.
        * f_equal. rewrite I2. apply map_ext_in. intros q Hq. unfold r1. rewrite get_set; try assumption; [|apply Hp; right; exact Hq].
          destruct (Nat.eqb_spec q p) as [->|Hne]; [contradiction|reflexivity].
        * intros q Hq. rewrite I3 by exact Hq. unfold r1. rewrite get_set by assumption.
          destruct (Nat.eqb_spec q p) as [->|Hne].
          -- destruct (in_dec Nat.eq_dec p ps); [contradiction|]. destruct (in_dec Nat.eq_dec p (p :: ps)) as [J|J]; [reflexivity|].
             exfalso. apply J. left. reflexivity.
          -- destruct (in_dec Nat.eq_dec q ps) as [I|I], (in_dec Nat.eq_dec q (p :: ps)) as [J|J]; try reflexivity.
             ++ exfalso. apply J. right. exact I.
             ++ exfalso. destruct J as [J|J]; congruence.
  Qed.

  (** ** One round of seeded dealing *)
  Definition phase (d : nat) (r : srng) : list (list F) * list (list F) * srng :=
    let a := receive_seeded_next amount d r (repeat [] (sr_n r)) in
    let dl := draw_from amount (next_ids (snd a) d) (snd a) in
    let b := receive_seeded_prev amount d (snd dl) (fst a) in
    (fst b, fst dl, snd b).
  Definition inb (l : list nat) (p : nat) : bool := if in_dec Nat.eq_dec p l then true else false.
  Definition nx (d i p : nat) : bool := inb (after_ids n i 1 d) p.
  Lemma nx_in d i p : nx d i p = true <-> In p (after_ids n i 1 d).
  Proof. unfold nx, inb. destruct (in_dec Nat.eq_dec p (after_ids n i 1 d)); split; intros; congruence || contradiction || assumption || reflexivity. Qed.
  (** shares that [i] deals to [p], and the generator afterwards: the party with the larger id
      deals first *)
  Definition deal (d i p : nat) (g : Sg) : list F :=
    fst (drw (if (i <? p)%nat then (if nx d p i then snd (drw g) else g) else g)).
  Definition gafter (d i p : nat) (g : Sg) : Sg :=
    let hi := Nat.max i p in let lo := Nat.min i p in
    let g1 := if nx d hi lo then snd (drw g) else g in if nx d lo hi then snd (drw g1) else g1.
  Lemma filter_in (f : nat -> bool) l p : In p (filter f l) <-> In p l /\ f p = true.
  Proof. apply filter_In. Qed.
  Lemma prev_next d i p : i < n -> p < n -> S d <= n -> In p (before_ids n i 1 d) <-> nx d p i = true.
  Proof. intros Hi Hp Hd. rewrite nx_in. apply before_after; lia. Qed.
  Lemma nx_self d i : i < n -> S d <= n -> nx d i i = false.
  Proof.
    intros Hi Hd. unfold nx, inb. destruct (in_dec Nat.eq_dec i (after_ids n i 1 d)) as [I|I]; [|reflexivity].
    apply in_after in I; [|lia..]. destruct I as (k & Hk & _ & E). lia.
  Qed.
  Lemma phase_ok d i r : i < n -> S d <= n -> sr_id r = i -> sr_n r = n -> length (sr_shared r) = (n - 1)%nat ->
    same_cfg r (snd (phase d r)) /\
    snd (fst (phase d r)) = map (fun p => deal d i p (get_rng r p)) (after_ids n i 1 d) /\
    length (fst (fst (phase d r))) = n /\
    (forall p, p < n -> nth p (fst (fst (phase d r))) [] = if nx d p i then deal d p i (get_rng r p) else []) /\
    (forall p, p < n -> p <> i -> get_rng (snd (phase d r)) p = gafter d i p (get_rng r p)).
  Proof.
    intros Hi Hd Eid En El. unfold phase, receive_seeded_next, receive_seeded_prev. cbn [fst snd].
    set (ps1 := filter (fun send_id => negb (send_id <? sr_id r)%nat) (prev_ids r d)).
    assert (Eps1 : prev_ids r d = before_ids n i 1 d) by (unfold prev_ids, before_ids; rewrite Eid, En; reflexivity).
    assert (N1 : NoDup ps1) by (apply NoDup_filter; rewrite Eps1; apply before_nodup; lia).
    assert (B1 : forall p, In p ps1 -> p < n).
    { intros p Hp. apply filter_In in Hp. rewrite Eps1 in Hp. eapply before_lt; [|exact (proj1 Hp)]. lia. }
    assert (I1 : forall p, p < n -> In p ps1 <-> i < p /\ nx d p i = true).
    { intros p Hp. unfold ps1. rewrite filter_In, Eps1, Eid, prev_next by lia. rewrite negb_true_iff, Nat.ltb_ge.
      split; intros [H1 H2]; split; try assumption; try lia.
      assert (p <> i) by (intros ->; rewrite nx_self in H1 by lia; discriminate). lia. }
    destruct (@draw_from_ok ps1 r) as (A1 & A2 & A3); [lia|exact El|exact N1|exact B1|].
    set (ra := snd (draw_from amount ps1 r)) in *.
    destruct A1 as (Aid & At & An & Ap & Ap2 & Am & Ar & Ar2 & Al).
    assert (Enx : next_ids ra d = after_ids n i 1 d) by (unfold next_ids, after_ids; rewrite Aid, An, Eid, En; reflexivity).
    rewrite Enx.
    destruct (@draw_from_ok (after_ids n i 1 d) ra) as (D1 & D2 & D3); [lia|congruence|apply after_nodup; lia|apply after_lt; lia|].
    set (rd := snd (draw_from amount (after_ids n i 1 d) ra)) in *.
    pose proof D1 as D1'. destruct D1' as (Did & Dt & Dn & Dp & Dp2 & Dm & Dr & Dr2 & Dl).
    set (ps3 := filter (fun send_id => negb (sr_id rd <? send_id)%nat) (prev_ids rd d)).
    assert (Eps3 : prev_ids rd d = before_ids n i 1 d) by (unfold prev_ids, before_ids; rewrite Did, Dn, Aid, An, Eid, En; reflexivity).
    assert (N3 : NoDup ps3) by (apply NoDup_filter; rewrite Eps3; apply before_nodup; lia).
    assert (B3 : forall p, In p ps3 -> p < n).
    { intros p Hp. apply filter_In in Hp. rewrite Eps3 in Hp. eapply before_lt; [|exact (proj1 Hp)]. lia. }
    assert (I3 : forall p, p < n -> In p ps3 <-> p < i /\ nx d p i = true).
    { intros p Hp. unfold ps3. rewrite filter_In, Eps3, Did, Aid, Eid, prev_next by lia. rewrite negb_true_iff, Nat.ltb_ge.
      split; intros [H1 H2]; split; try assumption; try lia.
      assert (p <> i) by (intros ->; rewrite nx_self in H1 by lia; discriminate). lia. }
    destruct (@draw_from_ok ps3 rd) as (B3a & B3b & B3c); [lia|congruence|exact N3|exact B3|].
    set (rb := snd (draw_from amount ps3 rd)) in *.
    assert (Gd : forall p, p < n -> get_rng ra p = if (i <? p)%nat then (if nx d p i then snd (drw (get_rng r p)) else get_rng r p) else get_rng r p).
    { intros p Hp. rewrite A3 by exact Hp. destruct (in_dec Nat.eq_dec p ps1) as [I|I].
      - apply I1 in I; [|exact Hp]. destruct I as [H1 H2]. rewrite (proj2 (Nat.ltb_lt i p) H1), H2. reflexivity.
      - destruct (Nat.ltb_spec i p) as [H1|H1]; [|reflexivity]. destruct (nx d p i) eqn:E; [|reflexivity].
        exfalso. apply I. apply I1; auto. }
    split; [|split; [|split; [|split]]].
    - eapply same_trans; [|exact B3a]. eapply same_trans; [|exact D1]. repeat split; assumption.
    - rewrite D2. apply map_ext_in. intros p Hp. unfold deal. rewrite Gd; [reflexivity|]. eapply after_lt; [|exact Hp]. lia.
    - rewrite !length_set_nths, repeat_length. exact En.
    - intros p Hp. rewrite B3b, nth_set_nths; [|exact N3|intros q Hq; rewrite length_set_nths, repeat_length, En; apply B3; exact Hq].
      rewrite A2, nth_set_nths; [|exact N1|intros q Hq; rewrite repeat_length, En; apply B1; exact Hq].
      rewrite nth_repeat. destruct (in_dec Nat.eq_dec p ps3) as [J|J].
      + apply I3 in J; [|exact Hp]. destruct J as [H1 H2]. rewrite H2. unfold deal.
        rewrite (proj2 (Nat.ltb_lt p i) H1). rewrite D3 by exact Hp. rewrite Gd by exact Hp.
        rewrite (proj2 (Nat.ltb_ge i p)) by lia. unfold nx at 1, inb.
        destruct (in_dec Nat.eq_dec p (after_ids n i 1 d)); reflexivity.
      + destruct (in_dec Nat.eq_dec p ps1) as [I|I].
        * apply I1 in I; [|exact Hp]. destruct I as [H1 H2]. rewrite H2. unfold deal.
          rewrite (proj2 (Nat.ltb_ge p i)) by lia. reflexivity.
        * destruct (nx d p i) eqn:E; [|reflexivity]. exfalso.
          destruct (Nat.lt_trichotomy p i) as [H|[->|H]]; [apply J, I3; auto|rewrite nx_self in E by lia; discriminate|apply I, I1; auto].
    - intros p Hp Hne. rewrite B3c, D3, Gd by exact Hp. unfold gafter.
      assert (Enp : (if in_dec Nat.eq_dec p (after_ids n i 1 d) then true else false) = nx d i p) by reflexivity.
      destruct (Nat.lt_trichotomy p i) as [H|[H|H]]; [|lia|].
      + rewrite Nat.max_l, Nat.min_r by lia. rewrite (proj2 (Nat.ltb_ge i p)) by lia.
        destruct (in_dec Nat.eq_dec p (after_ids n i 1 d)) as [K|K]; rewrite <- Enp;
          destruct (in_dec Nat.eq_dec p ps3) as [J|J].
        * apply I3 in J; [|exact Hp]. rewrite (proj2 J). reflexivity.
        * destruct (nx d p i) eqn:E; [exfalso; apply J, I3; auto|reflexivity].
        * apply I3 in J; [|exact Hp]. rewrite (proj2 J). reflexivity.
        * destruct (nx d p i) eqn:E; [exfalso; apply J, I3; auto|reflexivity].
      + rewrite Nat.max_r, Nat.min_l by lia. rewrite (proj2 (Nat.ltb_lt i p)) by lia.
        destruct (in_dec Nat.eq_dec p ps3) as [J|J]; [apply I3 in J; [lia|exact Hp]|].
        destruct (in_dec Nat.eq_dec p (after_ids n i 1 d)) as [K|K]; rewrite <- Enp; reflexivity.
  Qed.
  Lemma gafter_comm d i p g : gafter d i p g = gafter d p i g.
  Proof. unfold gafter. rewrite (Nat.max_comm i p), (Nat.min_comm i p). reflexivity. Qed.
  Lemma deal_length d i p g : length (deal d i p g) = amount.
  Proof. apply draws_length. Qed.
End RngProofs.
