(** * Radix sort of shared field elements: correctness under every schedule *)
From Coq Require Import Permutation String List Arith NArith Lia Bool Ring.
From Verif Require Import Proc Alg Rep3Net Rep3 Rep3Spec Rep3Proofs Rep3Wp Uint Binary BinaryWp Conv ConvWp CmpWp Ring2k Ring2kWp LutWp Shamir ShamirAlg Poseidon2 Merkle MerkleMem SortRank Sort SortWp.
From Verif Require Import Rep3Net Rep3 Rep3Spec Rep3Proofs.
Import ListNotations.
Set Implicit Arguments.
Local Open Scope grp_scope.
Arguments perm_len [n p] _. Arguments perm_nodup [n p] _. Arguments perm_compose [n p q] _ _. Arguments perm_inverse [n p] _.
Arguments tab_nth {X n} f {k} d _. Arguments perm_of_inj {n} f _ _.

(** The merge of two lists according to a list of choices ([true]: from the first list). *)
Inductive interleaves {A} : list bool -> list A -> list A -> list A -> Prop :=
| il_nil : interleaves [] [] [] []
| il_fst o x xs ys zs : interleaves o xs ys zs -> interleaves (true :: o) (x :: xs) ys (x :: zs)
| il_snd o y xs ys zs : interleaves o xs ys zs -> interleaves (false :: o) xs (y :: ys) (y :: zs).
Lemma interleaves_map {A B} (f : A -> B) o xs ys zs : interleaves o xs ys zs -> interleaves o (map f xs) (map f ys) (map f zs).
Proof. induction 1; cbn; constructor; assumption. Qed.
Lemma interleaves_count {A} o (xs ys zs : list A) : interleaves o xs ys zs ->
  length xs = length (filter (fun b => b) o) /\ length ys = length (filter negb o) /\ length zs = (length xs + length ys)%nat.
Proof. induction 1 as [|o x xs ys zs IH (E1 & E2 & E3)|o x xs ys zs IH (E1 & E2 & E3)]; cbn; repeat split; lia. Qed.

(** ** Running sums *)
Lemma scan_app {A B} (f : A -> B -> A) l : forall s l', scan f s (l ++ l') =
  (fst (scan f s l) ++ fst (scan f (snd (scan f s l)) l'), snd (scan f (snd (scan f s l)) l')).
Proof. induction l as [|x l IH]; intros s l'; cbn; [destruct (scan f s l'); reflexivity|]. rewrite IH. reflexivity. Qed.
Lemma scan_len {A B} (f : A -> B -> A) l : forall s, length (fst (scan f s l)) = length l.
Proof. induction l as [|x l IH]; intros s; cbn; [reflexivity|]. rewrite IH. reflexivity. Qed.
Lemma scan_shares {A B G} `{AbGrp G} (R : (pid -> A) -> B -> Prop) (f : pid -> share G -> A -> share G) (g : G -> B -> G)
  (Hf : forall z v a x, shares z v -> R a x -> shares (fun i => f i (z i) (a i)) (g v x)) xs :
  forall l z v, pvec R l xs -> shares z v ->
    shares_vec (fun i => fst (scan (f i) (z i) (l i))) (fst (scan g v xs)) /\ shares (fun i => snd (scan (f i) (z i) (l i))) (snd (scan g v xs)).
Proof.
  induction xs as [|x xs IH]; intros l z v Hl Hz.
  - pose proof (pvec_nil_inv Hl) as E. split.
    + apply pvec_nil. intros i. rewrite E. reflexivity.
    + eapply shares_ext; [|exact Hz]. intros i. cbn. rewrite E. reflexivity.
  - destruct (pvec_cons_inv Hl) as (h & t & E & Hh & Ht). destruct (IH t _ _ Ht (Hf _ _ _ _ Hz Hh)) as [I1 I2]. split.
    + eapply pvec_cons; [|exact (Hf _ _ _ _ Hz Hh)|exact I1]. intros i. rewrite E. reflexivity.
    + eapply shares_ext; [|exact I2]. intros i. cbn. rewrite E. reflexivity.
Qed.
Lemma list_tab {A} (d : A) l : l = map (fun k => nth k l d) (seq 0 (length l)).
Proof. apply (list_ext d); [rewrite tab_len; reflexivity|]. intros k L. rewrite tab_nth by exact L. reflexivity. Qed.
Lemma map2_app2 {A B C} (f : A -> B -> C) l l' m m' : length l = length m -> map2 f (l ++ l') (m ++ m') = map2 f l m ++ map2 f l' m'.
Proof. revert m. induction l as [|x l IH]; intros [|y m] E; try discriminate; cbn; [reflexivity|]. rewrite IH by (cbn in E; lia). reflexivity. Qed.
Lemma map2_tab {A B C X} (f : A -> B -> C) (g : X -> A) (h : X -> B) l : map2 f (map g l) (map h l) = map (fun x => f (g x) (h x)) l.
Proof. induction l; cbn; congruence. Qed.

Section Radix.
  Context {T : Type} `{IR : IntRing T} {F : Type} `{FU : FieldUint F} {S M : Type}.
  Context {DT : Draw S T} {DF : Draw S F} {ET : Enc M (list T)} {EF : Enc M (list F)} {EN : Enc M (list N)}.
  Context (W : nat) (dperm : nat -> S -> list nat * S) (dperm_ok : forall n s, Permutation (fst (dperm n s)) (seq 0 n)).
  Context (cap : nat) (cap_pos : (1 <= cap)%nat).
  Implicit Types (st : pid -> rst S).
  Add Ring Rt : (cring_theory (R := T)).

  (** an index as an element of [PermRing] *)
  Definition tn (v : nat) : T := rof (N.of_nat v).
  Lemma tn_add a b : tn a + tn b = tn (a + b).
  Proof.
    unfold tn. apply rto_inj. rewrite rto_add, !rto_rof, Nat2N.inj_add. symmetry. apply N.add_mod. apply N.pow_nonzero. discriminate.
  Qed.
  Lemma tn_bit (b : bool) : tn (if b then 1 else 0)%nat = bitval b.
  Proof. rewrite <- rof_bit. destruct b; reflexivity. Qed.
  Lemma tn_zero : tn 0 = 0. Proof. exact (tn_bit false). Qed.
  Definition fits (n : nat) : Prop := (N.of_nat n <= 2 ^ N.of_nat (rK T) - 1)%N.
  Lemma tn_val n v : fits n -> (v <= n)%nat -> N.to_nat (rto (tn v)) = v.
  Proof.
    unfold fits. intros Hn L. unfold tn. rewrite rto_rof, N.mod_small; [apply Nat2N.id|].
    pose proof (N.pow_nonzero 2 (N.of_nat (rK T))). lia.
  Qed.
  (** ** The permutation of one bit *)
  Lemma scan_tn P n : forall v, scan gadd (tn v) (map (fun k => bitval (P k)) (seq 0 n)) =
    (map (fun m => tn (v + cnt P (Datatypes.S m))) (seq 0 n), tn (v + cnt P n)).
  Proof.
    induction n as [|n IH]; intros v.
    - cbn. rewrite Nat.add_0_r. reflexivity.
    - rewrite seq_S, !map_app, scan_app, IH. cbn [map scan fst snd Nat.add].
      rewrite <- tn_bit, tn_add, <- Nat.add_assoc, <- cnt_S. reflexivity.
  Qed.

  Lemma gen_bit_perm_wp st s (bs cs : list bool) n : synced st -> shares_vec s (map bitval bs) -> n = (length bs + length cs)%nat ->
    wp cap (fun i => gen_bit_perm (S := S) (M := M) (T := T) i (st i) (s i) (map bitval cs))
      (fun r => shares_vec (fun i => fst (r i)) (map (fun m => tn (Datatypes.S (rank n (fun k => N.b2n (nth k (bs ++ cs) false)) m))) (seq 0 n)) /\
                synced (fun i => snd (r i))).
  Proof.
    intros Hst Hs En. set (b := fun k => nth k (bs ++ cs) false).
    assert (Eb : bs ++ cs = map b (seq 0 n)) by (subst n; rewrite <- app_length; apply list_tab).
    unfold gen_bit_perm. cbv zeta.
    assert (Hf0 : shares_vec (fun i => map (fun x => add_public i (shneg x) rone) (s i)) (map (fun b => bitval (negb b)) bs)).
    { replace (map (fun b => bitval (negb b)) bs) with (map (fun x : T => - x + rone) (map bitval bs)).
      - apply (@pvec_map _ _ _ _ (@shares T _) (@shares T _) (fun i x => add_public i (shneg x) rone) (fun x : T => - x + rone)); [|exact Hs].
        intros a x Ha. apply add_public_ok, shneg_ok, Ha.
      - rewrite map_map. apply map_ext. intros []; cbn [negb bitval]; ring. }
    assert (Ef0 : map (fun x : T => rone - x) (map bitval cs) = map (fun b => bitval (negb b)) cs).
    { rewrite map_map. apply map_ext. intros []; cbn [negb bitval]; unfold gsub; ring. }
    rewrite Ef0.
    set (c0 := fun i => scan shadd zero_share (map (fun x => add_public i (shneg x) rone) (s i))).
    set (d0 := fun i => scan (add_public i) (snd (c0 i)) (map (fun b => bitval (negb b)) cs)).
    set (c1 := fun i => scan shadd (snd (d0 i)) (s i)).
    set (d1 := fun i => scan (add_public i) (snd (c1 i)) (map bitval cs)).
    set (C0 := scan gadd (0 : T) (map (fun b => bitval (negb b)) bs)).
    set (D0 := scan gadd (snd C0) (map (fun b => bitval (negb b)) cs)).
    set (C1 := scan gadd (snd D0) (map bitval bs)). set (D1 := scan gadd (snd C1) (map bitval cs)).
    pose proof (fun z v a x => @shadd_ok T _ z a v x) as Hadd.
    assert (Hpub : forall (z : pid -> share T) v (a : pid -> T) x, shares z v -> (forall i, a i = x) -> shares (fun i => add_public i (z i) (a i)) (v + x)).
    { intros z v a x Hz Ha. eapply shares_ext; [|exact (add_public_ok x Hz)]. intros i. rewrite Ha. reflexivity. }
    assert (Hconst : forall l : list T, pvec (fun a x => forall i : pid, a i = x) (fun _ => l) l).
    { intros l. apply pvec_of_nth with (d := 0) (dx := 0); reflexivity. }
    destruct (scan_shares (fun _ => shadd) gadd Hadd Hf0 zero_share_ok) as [Hc0 Hc0']. fold c0 C0 in Hc0, Hc0'.
    destruct (scan_shares (fun i => add_public i) gadd Hpub (Hconst (map (fun b => bitval (negb b)) cs)) Hc0') as [Hd0 Hd0']. fold d0 D0 in Hd0, Hd0'.
    destruct (scan_shares (fun _ => shadd) gadd Hadd Hs Hd0') as [Hc1 Hc1']. fold c1 C1 in Hc1, Hc1'.
    destruct (scan_shares (fun i => add_public i) gadd Hpub (Hconst (map bitval cs)) Hc1') as [Hd1 Hd1']. fold d1 D1 in Hd1, Hd1'.
    destruct (local_mul_vec_ok (draws (X := T)) (draws_length (X := T)) Hst Hf0 Hc0) as (z1 & Ez1 & Hz1 & Hst1); [unfold C0; rewrite scan_len, !map_length; reflexivity|].
    destruct (local_mul_vec_ok (draws (X := T)) (draws_length (X := T)) Hst1 Hs Hc1) as (z2 & Ez2 & Hz2 & Hst2); [unfold C1; rewrite scan_len, !map_length; reflexivity|].
    eapply wp_ext with (qs := fun i => bind (reshare_vec i (map2 gadd (fst (z1 i)) (fst (z2 i)))) (fun perm =>
      Ret (perm ++ map2 shadd (map2 mul_public (fst (d0 i)) (map (fun b => bitval (negb b)) cs)) (map2 mul_public (fst (d1 i)) (map bitval cs)), snd (z2 i)))).
    { intros i. fold (c0 i). fold (d0 i). fold (c1 i). fold (d1 i). rewrite Ez1. cbn [orp bind]. rewrite Ez2. reflexivity. }
    apply wp_bind.
    assert (Hz : additive_vec (fun i => map2 gadd (fst (z1 i)) (fst (z2 i))) (map2 gadd (map2 rmul (map (fun b => bitval (negb b)) bs) (fst C0)) (map2 rmul (map bitval bs) (fst C1)))).
    { apply (@pvec_map2 _ _ _ _ _ _ (@additive T _) (@additive T _) (@additive T _) (fun _ => gadd) gadd); [|exact Hz1|exact Hz2].
      intros a a' x x' Ha Ha'. unfold additive in *. rewrite <- Ha, <- Ha'. grp. }
    eapply wp_mono; [|apply (reshare_vec_wp cap_pos Hz)]. intros perm Hperm. apply wp_ret. cbn [fst snd]. split; [|exact Hst2].
    assert (Hmp : forall (x c : list T) (l : pid -> list (share T)), shares_vec l x -> shares_vec (fun i => map2 mul_public (l i) c) (map2 rmul x c)).
    { intros x c l Hl. apply (@pvec_map2 _ _ _ _ _ _ (@shares T _) (fun a x => forall i : pid, a i = x) (@shares T _) (fun _ => mul_public) rmul); [|exact Hl|apply Hconst].
      intros a a' y y' Ha Ha'. eapply shares_ext; [|exact (mul_public_ok y' Ha)]. intros i. rewrite Ha'. reflexivity. }
    assert (Hq : shares_vec (fun i => map2 shadd (map2 mul_public (fst (d0 i)) (map (fun b => bitval (negb b)) cs)) (map2 mul_public (fst (d1 i)) (map bitval cs)))
       (map2 gadd (map2 rmul (fst D0) (map (fun b => bitval (negb b)) cs)) (map2 rmul (fst D1) (map bitval cs)))).
    { apply (@pvec_map2 _ _ _ _ _ _ (@shares T _) (@shares T _) (@shares T _) (fun _ => shadd) gadd); [intros; apply shadd_ok; assumption|apply Hmp; exact Hd0|apply Hmp; exact Hd1]. }
    pose proof (pvec_app Hperm Hq) as Hall. match type of Hall with pvec _ _ ?v => replace (map (fun m => tn (Datatypes.S (rank n (fun k => N.b2n (nth k (bs ++ cs) false)) m))) (seq 0 n)) with v; [exact Hall|] end.
    assert (ES0 : scan gadd (0 : T) (map (fun b => bitval (negb b)) (bs ++ cs)) = (fst C0 ++ fst D0, snd D0)) by (rewrite map_app; apply scan_app).
    assert (ES1 : scan gadd (snd D0) (map bitval (bs ++ cs)) = (fst C1 ++ fst D1, snd D1)) by (rewrite map_app; apply scan_app).
    rewrite Eb in ES0, ES1. rewrite map_map in ES0, ES1. rewrite <- tn_zero in ES0. rewrite (scan_tn (fun k => negb (b k)) n) in ES0.
    injection ES0 as ES0 ED0. rewrite <- ED0, scan_tn in ES1. injection ES1 as ES1 _. cbn [Nat.add] in ES0, ES1.
    assert (El : forall (x y : list T), map2 rmul x y = map2 (fun b a => rmul b a) y x).
    { clear. induction x as [|a x IH]; intros [|c y]; cbn; try reflexivity. rewrite IH. f_equal. ring. }
    rewrite (El (fst D0)), (El (fst D1)).
    rewrite <- map2_app2 by (rewrite !map2_length, !map_length; unfold C0, C1; rewrite !scan_len, !map_length; reflexivity).
    rewrite <- !map2_app2 by (unfold C0, C1; rewrite ?scan_len, !map_length; reflexivity).
    rewrite <- !map_app, <- ES0, <- ES1, Eb, !map_map, !map2_tab. apply map_ext_in. intros m Lm. apply in_seq in Lm.
    rewrite (@rank_ext n (fun k => N.b2n (nth k (map b (seq 0 n)) false)) (fun k => N.b2n (b k))) by (try (intros k Lk; rewrite tab_nth by exact Lk; reflexivity); lia).
    destruct (b m) eqn:E.
    - rewrite rank_one by (try exact E; lia). cbn [negb bitval]. unfold bitval. ring.
    - rewrite rank_zero by (try exact E; lia). cbn [negb]. unfold bitval. ring.
  Qed.

  (** ** Applying and composing shared permutations *)
  Definition jp (n : nat) st : pid -> list nat := fun i => fst (dperm n (rng1 (st i))).
  Lemma random_perm_ok n st : synced st ->
    (forall i, random_perm dperm n (st i) = ((jp n st i, jp n st (prev i)), snd (random_perm dperm n (st i)))) /\
    synced (fun i => snd (random_perm dperm n (st i))).
  Proof.
    intros Hst. split.
    - intros i. unfold random_perm, jp. cbn [fst snd]. rewrite (sync_rand Hst i). reflexivity.
    - destruct Hst as [T1 T2 T3]. constructor; cbn; [|exact T2|exact T3]. intros i. cbn. rewrite T1. reflexivity.
  Qed.
  Lemma to_index_ok n (f : nat -> nat) : fits n -> (forall k, (k < n)%nat -> (f k < n)%nat) ->
    to_index (map (fun k => tn (Datatypes.S (f k))) (seq 0 n)) = Some (map f (seq 0 n)).
  Proof.
    intros Hn Hf. unfold to_index. rewrite <- (map_id (map f (seq 0 n))). 
    rewrite (@map_opt_some _ _ _ (fun x : T => pred (N.to_nat (rto x)))).
    - f_equal. rewrite map_map, map_id. apply map_ext_in. intros k L. apply in_seq in L. rewrite (@tn_val n) by (try exact Hn; specialize (Hf k); lia). reflexivity.
    - intros x Hin. apply in_map_iff in Hin. destruct Hin as (k & <- & L). apply in_seq in L.
      rewrite (@tn_val n) by (try exact Hn; specialize (Hf k); lia). reflexivity.
  Qed.
  Lemma map_at {X Y} (f : X -> Y) l k dx dy : (k < length l)%nat -> nth k (map f l) dy = f (nth k l dx).
  Proof. intros L. rewrite (nth_indep _ dy (f dx)) by (rewrite map_length; exact L). apply map_nth. Qed.
  Section Apply.
    Context {G : Type} {AG : AbGrp G} {DG : Draw S G} {EG : Enc M (list G)}.
    Lemma apply_inv_wp st0 st1 rho s pub (xs ws : list G) n (r : nat -> nat) : synced st0 -> synced st1 -> fits n ->
      Permutation (map r (seq 0 n)) (seq 0 n) -> shares_vec rho (map (fun j => tn (Datatypes.S (r j))) (seq 0 n)) ->
      shares_vec s xs -> n = (length xs + length pub)%nat -> length ws = n ->
      (forall j, (j < n)%nat -> nth (r j) ws 0 = nth j (xs ++ pub) 0) ->
      wp cap (fun i => apply_inv dperm i (st0 i) (st1 i) (rho i) (s i) pub)
        (fun o => shares_vec (fun i => fst (o i)) ws /\ synced (fun i => fst (snd (o i))) /\ synced (fun i => snd (snd (o i)))).
    Proof.
      intros Y0 Y1 Hn Hr Hrho Hs En Lws Hws. destruct (random_perm_ok n Y0) as [Ep Hp].
      assert (Lr : forall i, length (rho i) = n) by (intros i; rewrite (pvec_len i Hrho); apply tab_len).
      assert (Pj : forall i, Permutation (jp n st0 i) (seq 0 n)) by (intros i; apply dperm_ok).
      assert (Rlt : forall j, (j < n)%nat -> (r j < n)%nat).
      { intros j L. pose proof (perm_lt Hr L) as E. rewrite tab_nth in E by exact L. exact E. }
      unfold apply_inv. cbv zeta.
      eapply wp_ext with (qs := fun i => bind (shuffle_reveal i (snd (random_perm dperm n (st0 i))) (jp n st0 i) (jp n st0 (prev i)) (rho i)) (fun opened =>
        bind (shuffle i (st1 i) (jp n st0 i) (jp n st0 (prev i)) (s i) pub) (fun bits =>
        bind (orp oob (to_index (fst opened))) (fun idx =>
        bind (orp oob (scatter (repeat zero_share n) idx (fst bits))) (fun r => Ret (r, (snd opened, snd bits))))))).
      { intros i. rewrite Lr, Ep. reflexivity. }
      apply wp_bind. eapply wp_mono; [|apply (shuffle_reveal_wp cap_pos _ Pj Hp Hrho); symmetry; apply tab_len]. intros o [Eo Ho].
      apply wp_bind. eapply wp_mono; [|apply (shuffle_wp cap_pos _ pub Pj Y1 Hs En)]. intros b [Hb Hb1].
      set (idx := map (fun k => r (joint (jp n st0) k)) (seq 0 n)).
      assert (Hidx : forall i, to_index (fst (o i)) = Some idx).
      { intros i. rewrite Eo. unfold idx. rewrite <- (@to_index_ok n (fun k => r (joint (jp n st0) k)) Hn).
        - f_equal. apply map_ext_in. intros k L. apply in_seq in L. rewrite tab_nth by (apply joint_lt; [exact Pj|lia]). reflexivity.
        - intros k L. apply Rlt. apply joint_lt; assumption. }
      assert (Pidx : Permutation idx (seq 0 n)).
      { unfold idx. apply perm_of_inj.
        - intros k L. apply Rlt. apply joint_lt; assumption.
        - intros j k Lj Lk E. assert (E2 : joint (jp n st0) j = joint (jp n st0) k).
          { apply (perm_inj Hr); try (apply joint_lt; assumption). rewrite !tab_nth by (apply joint_lt; assumption). exact E. }
          apply (perm_inj (joint_perm _ _ Pj) Lj Lk). rewrite !tab_nth by assumption. exact E2. }
      assert (Lb : forall i, length (fst (b i)) = n) by (intros i; rewrite (pvec_len i Hb); apply tab_len).
      pose proof (fun i => @scatter_ok (share G) zero_share n idx (repeat zero_share n) (fst (b i)) Pidx (repeat_length _ _) (Lb i)) as Hsc.
      assert (Hres : exists res, forall i, scatter (repeat zero_share n) idx (fst (b i)) = Some (res i) /\ length (res i) = n /\
        forall k, (k < n)%nat -> nth (nth k idx O) (res i) zero_share = nth k (fst (b i)) zero_share).
      { destruct (Hsc P0) as [r0 E0], (Hsc P1) as [r1 E1], (Hsc P2) as [r2 E2].
        exists (fun i => match i with P0 => r0 | P1 => r1 | P2 => r2 end). intros []; assumption. }
      destruct Hres as [res Hres].
      eapply wp_ext with (qs := fun i => Ret (res i, (snd (o i), snd (b i)))).
      { intros i. rewrite Hidx. cbn [orp bind]. rewrite (proj1 (Hres i)). reflexivity. }
      apply wp_ret. cbn [fst snd]. split; [|split; [exact Ho|exact Hb1]].
      apply pvec_of_nth with (d := zero_share) (dx := 0).
      - intros i. rewrite Lws. apply (proj1 (proj2 (Hres i))).
      - rewrite Lws. intros j Lj. destruct (perm_index Pidx Lj) as [I1 I2]. set (k := pindex idx j) in *.
        assert (Lk : (k < length (map (fun k0 => nth (joint (jp n st0) k0) (xs ++ pub) 0%grp) (seq 0 n)))%nat) by (rewrite tab_len; exact I1).
        pose proof (shares_vec_at Hb Lk) as Hk. rewrite tab_nth in Hk by exact I1.
        replace (nth j ws 0) with (nth (joint (jp n st0) k) (xs ++ pub) 0).
        + eapply shares_ext; [|exact Hk]. intros i. cbv beta. rewrite <- I2. symmetry. apply (proj2 (proj2 (Hres i))). exact I1.
        + rewrite <- Hws by (apply joint_lt; assumption). f_equal. rewrite <- I2. unfold idx. rewrite tab_nth by exact I1. reflexivity.
    Qed.
  End Apply.

  Lemma compose_wp st sigma phi (ys : list T) n (r : nat -> nat) : synced st -> fits n ->
    Permutation (map r (seq 0 n)) (seq 0 n) -> shares_vec sigma (map (fun j => tn (Datatypes.S (r j))) (seq 0 n)) ->
    shares_vec phi ys -> length ys = n ->
    wp cap (fun i => compose dperm i (st i) (sigma i) (phi i))
      (fun o => shares_vec (fun i => fst (o i)) (map (fun j => nth (r j) ys 0) (seq 0 n)) /\ synced (fun i => snd (o i))).
  Proof.
    intros Y0 Hn Hr Hrho Hs En. destruct (random_perm_ok n Y0) as [Ep Hp].
    assert (Lr : forall i, length (sigma i) = n) by (intros i; rewrite (pvec_len i Hrho); apply tab_len).
    assert (Pj : forall i, Permutation (jp n st i) (seq 0 n)) by (intros i; apply dperm_ok).
    assert (Rlt : forall j, (j < n)%nat -> (r j < n)%nat).
    { intros j L. pose proof (perm_lt Hr L) as E. rewrite tab_nth in E by exact L. exact E. }
    unfold compose. cbv zeta.
    eapply wp_ext with (qs := fun i => bind (shuffle_reveal i (snd (random_perm dperm n (st i))) (jp n st i) (jp n st (prev i)) (sigma i)) (fun opened =>
      bind (orp oob (to_index (fst opened))) (fun idx =>
      bind (orp oob (pick (phi i) idx)) (fun sh => unshuffle i (snd opened) (jp n st i) (jp n st (prev i)) sh)))).
    { intros i. rewrite Lr, Ep. reflexivity. }
    apply wp_bind. eapply wp_mono; [|apply (shuffle_reveal_wp cap_pos _ Pj Hp Hrho); symmetry; apply tab_len]. intros o [Eo Ho].
    set (f := fun k => r (joint (jp n st) k)). set (idx := map f (seq 0 n)).
    assert (Flt : forall k, (k < n)%nat -> (f k < n)%nat) by (intros k L; apply Rlt, joint_lt; assumption).
    assert (Hidx : forall i, to_index (fst (o i)) = Some idx).
    { intros i. rewrite Eo. unfold idx. rewrite <- (@to_index_ok n f Hn Flt).
      f_equal. apply map_ext_in. intros k L. apply in_seq in L. rewrite tab_nth by (apply joint_lt; [exact Pj|lia]). reflexivity. }
    eapply wp_ext with (qs := fun i => unshuffle i (snd (o i)) (jp n st i) (jp n st (prev i)) (map (fun k => nth (f k) (phi i) zero_share) (seq 0 n))).
    { intros i. rewrite Hidx. cbn [orp bind]. rewrite (@pick_ok _ zero_share).
      - unfold idx. rewrite map_map. reflexivity.
      - intros k Hin. unfold idx in Hin. apply in_map_iff in Hin. destruct Hin as (j & <- & L). apply in_seq in L. rewrite (pvec_len i Hs), En. apply Flt. lia. }
    assert (Hsh : shares_vec (fun i => map (fun k => nth (f k) (phi i) zero_share) (seq 0 n)) (map (fun k => nth (f k) ys 0) (seq 0 n))).
    { apply (pvec_tab (@shares T _) (fun i k => nth (f k) (phi i) zero_share)). intros k L. apply in_seq in L. apply (shares_vec_at Hs). rewrite En. apply Flt. lia. }
    apply (unshuffle_wp cap_pos _ _ Pj Ho Hsh); [symmetry; apply tab_len|apply tab_len|].
    intros k L. rewrite !tab_nth by (try apply joint_lt; assumption). reflexivity.
  Qed.

  (** ** The rounds *)
  Section Rounds.
    Context (n : nat) (Hn : fits n) (key : nat -> N).
    (** the inputs of round [k]: private and public bits, whose concatenation lists the bits [k] of the keys *)
    Definition round_bits (k : nat) (q : pid -> (list (share T) * list T) * rst S) : Prop :=
      exists bs cs, shares_vec (fun i => fst (fst (q i))) (map bitval bs) /\ (forall i, snd (fst (q i)) = map bitval cs) /\
        n = (length bs + length cs)%nat /\ (forall j, (j < n)%nat -> nth j (bs ++ cs) false = ubit (key j) k) /\ synced (fun i => snd (q i)).
    Definition low (k : nat) (j : nat) : N := (key j mod 2 ^ N.of_nat k)%N.
    Lemma low_S k j : low (Datatypes.S k) j = (2 ^ N.of_nat k * N.b2n (ubit (key j) k) + low k j)%N.
    Proof.
      unfold low. rewrite Nat2N.inj_succ, N.pow_succ_r', (N.mul_comm 2), N.mod_mul_r by (try apply N.pow_nonzero; discriminate).
      rewrite N.add_comm. f_equal. f_equal. unfold ubit. rewrite N.testbit_spec'. reflexivity.
    Qed.
    Definition ranked (k : nat) (perm : pid -> list (share T)) : Prop :=
      shares_vec perm (map (fun j => tn (Datatypes.S (rank n (low k) j))) (seq 0 n)).
    Lemma radix_loop_wp (bits : pid -> rst S -> nat -> prog pid M ((list (share T) * list T) * rst S)) m : forall k st0 st1 perm,
      (forall st j, (k <= j < k + m)%nat -> synced st -> wp cap (fun i => bits i (st i) j) (round_bits j)) ->
      synced st0 -> synced st1 -> ranked k perm ->
      wp cap (fun i => radix_loop dperm i (seq k m) (bits i) (st0 i) (st1 i) (perm i))
        (fun o => ranked (k + m) (fun i => fst (o i)) /\ synced (fun i => fst (snd (o i))) /\ synced (fun i => snd (snd (o i)))).
    Proof.
      induction m as [|m IH]; intros k st0 st1 perm Hb Y0 Y1 Hp; cbn [seq radix_loop].
      - apply wp_ret. cbn [fst snd]. rewrite Nat.add_0_r. auto.
      - apply wp_bind. eapply wp_mono; [|apply (Hb st0 k); [lia|exact Y0]]. intros q (bs & cs & Q1 & Q2 & Q3 & Q4 & Q5).
        set (sb := fun x => nth (nth x (sorted_positions n (low k)) O) (bs ++ cs) false).
        apply wp_bind.
        eapply wp_ext with (qs := fun i => apply_inv dperm i (snd (q i)) (st1 i) (perm i) (fst (fst (q i))) (map bitval cs)); [intros i; rewrite Q2; reflexivity|].
        eapply wp_mono; [|apply (@apply_inv_wp T _ _ _ (fun i => snd (q i)) st1 perm (fun i => fst (fst (q i))) (map bitval cs) (map bitval bs)
          (map bitval (map sb (seq 0 n))) n (rank n (low k)) Q5 Y1 Hn (rank_perm _ _) Hp Q1)].
        2: rewrite !map_length; exact Q3. 2: rewrite map_length; apply tab_len.
        2: { intros j L. rewrite <- map_app. pose proof (@rank_lt n (low k) j L) as Lr.
             rewrite !(@map_at _ _ bitval _ _ false) by (rewrite ?tab_len, ?app_length; lia). rewrite tab_nth by exact Lr. unfold sb.
             rewrite sorted_rank by exact L. reflexivity. }
        intros a (A1 & A2 & A3). apply wp_bind.
        eapply wp_mono; [|apply (@gen_bit_perm_wp (fun i => fst (snd (a i))) (fun i => fst (a i)) (map sb (seq 0 n)) [] n A2 A1)].
        2: cbn [length]; rewrite tab_len; lia.
        intros g [G1 G2]. apply wp_bind.
        eapply wp_mono; [|apply (@compose_wp (fun i => snd (g i)) perm (fun i => fst (g i)) _ n (rank n (low k)) G2 Hn (rank_perm _ _) Hp G1); apply tab_len].
        intros c [C1 C2]. replace (k + Datatypes.S m)%nat with (Datatypes.S k + m)%nat by lia. apply IH.
        + intros st j L. apply Hb. lia.
        + exact C2.
        + exact A3.
        + unfold ranked. erewrite map_ext_in; [exact C1|]. intros j L. apply in_seq in L. cbv beta.
          rewrite tab_nth by (apply rank_lt; lia). f_equal. f_equal. rewrite app_nil_r.
          rewrite (@rank_ext n (low (Datatypes.S k)) (fun j => (2 ^ N.of_nat k * N.b2n (ubit (key j) k) + low k j)%N)) by (try (intros; apply low_S); lia).
          rewrite <- (@rank_step n (low k) (fun j => ubit (key j) k) (fun x => nth x (map sb (seq 0 n)) false)).
          * reflexivity.
          * intros x _. apply N.mod_lt, N.pow_nonzero. discriminate.
          * intros x Lx. rewrite tab_nth by (apply rank_lt; lia). unfold sb. rewrite sorted_rank by exact Lx. apply Q4. exact Lx.
          * lia.
    Qed.
  End Rounds.

  (** ** Bits of the keys *)
  Context (a2b : pid -> rst S -> share F -> prog pid M (share N * rst S)).
  Context (a2b_ok : forall st a x, synced st -> shares a x ->
    wp cap (fun i => a2b i (st i) (a i)) (fun r => shares (fun i => fst (r i)) (to_uint x) /\ synced (fun i => snd (r i)))).
  Lemma a2b_loop_wp mask xs : forall st s, synced st -> shares_vec s xs ->
    wp cap (fun i => a2b_loop a2b i (st i) mask (s i))
      (fun r => shares_vec (fun i => fst (r i)) (map (fun x => N.land (to_uint x) mask) xs) /\ synced (fun i => snd (r i))).
  Proof.
    induction xs as [|x xs IH]; intros st s Hst Hs.
    - eapply wp_ext with (qs := fun i => Ret ([], st i)).
      + intros i. rewrite (pvec_nil_inv Hs). reflexivity.
      + apply wp_ret. split; [apply pvec_nil; reflexivity|exact Hst].
    - destruct (pvec_cons_inv Hs) as (h & t & E & Hh & Ht).
      eapply wp_ext with (qs := fun i => bind (a2b i (st i) (h i)) (fun r => bind (a2b_loop a2b i (snd r) mask (t i)) (fun q => Ret (and_mask (fst r) mask :: fst q, snd q)))).
      + intros i. rewrite E. reflexivity.
      + apply wp_bind. eapply wp_mono; [|apply (a2b_ok Hst Hh)]. intros r [R1 R2]. apply wp_bind. eapply wp_mono; [|apply (IH _ _ R2 Ht)].
        intros q [Q1 Q2]. apply wp_ret. cbn [fst snd]. split; [|exact Q2]. cbn [map]. eapply pvec_cons; [reflexivity| |exact Q1].
        exact (shmap_ok (lin3_land mask) R1).
  Qed.
  Lemma decompose_wp st0 st1 s xs bitsize : synced st0 -> synced st1 -> shares_vec s xs -> (bitsize <= W)%nat ->
    wp cap (fun i => decompose W a2b i (st0 i) (st1 i) (s i) bitsize)
      (fun r => shares_vec (fun i => fst (r i)) (map (fun x => N.land (to_uint x) (umask bitsize)) xs) /\
                synced (fun i => fst (snd (r i))) /\ synced (fun i => snd (snd (r i)))).
  Proof.
    intros Y0 Y1 Hs Lb. unfold decompose. rewrite umask_ok by exact Lb. cbn [orp bind]. cbv zeta.
    eapply wp_ext with (qs := fun i => bind (a2b_loop a2b i (st0 i) (umask bitsize) (firstn (length xs / 2) (s i))) (fun r0 =>
      bind (a2b_loop a2b i (st1 i) (umask bitsize) (skipn (length xs / 2) (s i))) (fun r1 => Ret (fst r0 ++ fst r1, (snd r0, snd r1))))).
    { intros i. rewrite (pvec_len i Hs). reflexivity. }
    apply wp_bind. eapply wp_mono; [|apply (a2b_loop_wp (umask bitsize) Y0 (pvec_firstn (length xs / 2) Hs))]. intros r [R1 R2].
    apply wp_bind. eapply wp_mono; [|apply (a2b_loop_wp (umask bitsize) Y1 (pvec_skipn (length xs / 2) Hs))]. intros q [Q1 Q2].
    apply wp_ret. cbn [fst snd]. split; [|split; assumption].
    pose proof (pvec_app R1 Q1) as RQ. rewrite <- map_app, firstn_skipn in RQ. exact RQ.
  Qed.
  Lemma inject_bit_wp st s us k : synced st -> shares_vec s us ->
    wp cap (fun i => inject_bit (T := T) i (st i) (s i) k)
      (fun r => shares_vec (fun i => fst (r i)) (map bitval (map (fun u => ubit u k) us)) /\ synced (fun i => snd (r i))).
  Proof.
    intros Hst Hs. unfold inject_bit, rbit_inject_many.
    assert (Hb : shares_vec (fun i => map (fun x => rget_bit x k) (s i)) (map (fun u => N.b2n (ubit u k)) us)).
    { apply (@pvec_map _ _ _ _ (@shares N _) (@shares N _) (fun _ x => rget_bit x k) (fun u => N.b2n (ubit u k))); [|exact Hs].
      intros a x Ha. apply rget_bit_ok. exact Ha. }
    eapply wp_mono; [|apply (bit_inject_many_wp cap_pos Hst Hb)].
    - intros r [R1 R2]. split; [|exact R2]. rewrite !map_map in *. erewrite map_ext; [exact R1|]. intros u. cbv beta.
      destruct (ubit u k); reflexivity.
    - intros i. apply Forall_forall. intros x Hx. apply in_map_iff in Hx. destruct Hx as (y & <- & _).
      unfold rget_bit, and_mask, shmap. cbn [sa sb].
      assert (L : forall u, (N.land u 1 < 2)%N) by (intros u; change 1%N with (N.ones 1); rewrite N.land_ones; apply N.mod_lt; discriminate).
      split; apply L.
  Qed.

  Definition sort_key (bitsize : nat) (xs : list F) (j : nat) : N := (to_uint (nth j xs 0%grp) mod 2 ^ N.of_nat bitsize)%N.
  Lemma mask_bit bitsize (x : F) k : (k < bitsize)%nat -> ubit (N.land (to_uint x) (umask bitsize)) k = ubit (to_uint x) k.
  Proof.
    intros L. unfold ubit, umask. rewrite N.land_spec, N.ones_spec_low by lia. apply andb_true_r.
  Qed.
  Lemma key_bit bitsize zs j k : (k < bitsize)%nat -> ubit (sort_key bitsize zs j) k = ubit (to_uint (nth j zs 0)) k.
  Proof. intros L. unfold ubit, sort_key. apply N.mod_pow2_bits_low. lia. Qed.
  Lemma perm_bits_wp st d pub xs bitsize k : synced st -> (k < bitsize)%nat ->
    shares_vec d (map (fun x => N.land (to_uint x) (umask bitsize)) xs) ->
    wp cap (fun i => perm_bits i (d i) pub (st i) k) (round_bits (length xs + length pub) (sort_key bitsize (xs ++ pub)) k).
  Proof.
    intros Hst L Hd. unfold perm_bits. apply wp_bind. eapply wp_mono; [|apply (inject_bit_wp k Hst Hd)]. intros r [R1 R2].
    apply wp_ret. exists (map (fun u => ubit u k) (map (fun x => N.land (to_uint x) (umask bitsize)) xs)), (map (fun x => ubit (to_uint x) k) pub).
    cbn [fst snd]. split; [exact R1|]. split; [|split; [|split]].
    - intros i. unfold inject_public_bit. rewrite map_map. reflexivity.
    - rewrite !map_length. reflexivity.
    - intros j Lj. rewrite key_bit by exact L. rewrite map_map. erewrite map_ext by (intros x; apply mask_bit; exact L).
      rewrite <- map_app. rewrite (@map_at _ _ (fun x => ubit (to_uint x) k) _ _ 0) by (rewrite app_length; exact Lj). reflexivity.
    - exact R2.
  Qed.
  Lemma merge_shares o : forall (xs ys zs : list T) s, interleaves o xs ys zs -> shares_vec s xs ->
    exists t, (forall i, merge_order (promote i) o (s i) ys = Some (t i)) /\ shares_vec t zs.
  Proof.
    intros xs ys zs s Ho. revert s. induction Ho as [|o x xs ys zs Ho IH|o x xs ys zs Ho IH]; intros s Hs.
    - exists (fun _ => []). split; [reflexivity|apply pvec_nil; reflexivity].
    - destruct (pvec_cons_inv Hs) as (h & t & E & Hh & Ht). destruct (IH _ Ht) as (u & Eu & Hu). exists (fun i => h i :: u i). split.
      + intros i. rewrite E. cbn [merge_order]. rewrite Eu. reflexivity.
      + eapply pvec_cons; [reflexivity|exact Hh|exact Hu].
    - destruct (IH _ Hs) as (u & Eu & Hu). exists (fun i => promote i x :: u i). split.
      + intros i. cbn [merge_order]. rewrite Eu. reflexivity.
      + eapply pvec_cons; [reflexivity|apply promote_ok|exact Hu].
  Qed.
  Lemma order_ok o (xs ys zs : list T) s : interleaves o xs ys zs -> shares_vec s xs ->
    exists t, (forall i, order_and_promote i o (s i) ys = Some (t i)) /\ shares_vec t zs.
  Proof.
    intros Ho Hs. destruct (merge_shares Ho Hs) as (t & Et & Ht). exists t. split; [|exact Ht]. intros i.
    destruct (interleaves_count Ho) as (C1 & C2 & _). unfold order_and_promote. rewrite (pvec_len i Hs), C1, C2, !Nat.eqb_refl. apply Et.
  Qed.
  Lemma ordered_bits_wp st o d pub xs zs bitsize k : synced st -> (k < bitsize)%nat -> interleaves o xs pub zs ->
    shares_vec d (map (fun x => N.land (to_uint x) (umask bitsize)) xs) ->
    wp cap (fun i => ordered_bits i o (d i) pub (st i) k) (round_bits (length xs + length pub) (sort_key bitsize zs) k).
  Proof.
    intros Hst L Ho Hd. unfold ordered_bits. apply wp_bind. eapply wp_mono; [|apply (inject_bit_wp k Hst Hd)]. intros r [R1 R2].
    assert (Hi : interleaves o (map bitval (map (fun u => ubit u k) (map (fun x => N.land (to_uint x) (umask bitsize)) xs)))
       (inject_public_bit (T := T) pub k) (map bitval (map (fun x => ubit (to_uint x) k) zs))).
    { pose proof (interleaves_map (fun x => bitval (R := T) (ubit (to_uint x) k)) Ho) as HI. unfold inject_public_bit. rewrite !map_map.
      replace (map (fun x => bitval (R := T) (ubit (N.land (to_uint x) (umask bitsize)) k)) xs) with (map (fun x => bitval (R := T) (ubit (to_uint x) k)) xs); [exact HI|].
      apply map_ext. intros x. rewrite mask_bit by exact L. reflexivity. }
    destruct (order_ok Hi R1) as (t & Et & Ht).
    eapply wp_ext with (qs := fun i => Ret ((t i, []), snd (r i))); [intros i; rewrite Et; reflexivity|].
    apply wp_ret. exists (map (fun x => ubit (to_uint x) k) zs), []. cbn [fst snd length]. destruct (interleaves_count Ho) as (_ & _ & C3). split; [exact Ht|]. split; [reflexivity|]. split; [|split].
    - rewrite map_length, Nat.add_0_r. symmetry. exact C3.
    - intros j Lj. rewrite app_nil_r, key_bit by exact L. apply (@map_at _ _ (fun x => ubit (to_uint x) k)). lia.
    - exact R2.
  Qed.

  (** ** The whole protocol *)
  Definition sort_ranks (n bitsize : nat) (zs : list F) (perm : pid -> list (share T)) : Prop :=
    shares_vec perm (map (fun j => tn (Datatypes.S (rank n (sort_key bitsize zs) j))) (seq 0 n)).
  Lemma radix_wp (bits : pid -> rst S -> nat -> prog pid M ((list (share T) * list T) * rst S)) n bitsize zs st0 st1 :
    fits n -> (1 <= bitsize)%nat -> synced st0 -> synced st1 ->
    (forall st k, (k < bitsize)%nat -> synced st -> wp cap (fun i => bits i (st i) k) (round_bits n (sort_key bitsize zs) k)) ->
    wp cap (fun i => b <- bits i (st0 i) O ;; perm <- gen_bit_perm i (snd b) (fst (fst b)) (snd (fst b)) ;;
                     radix_loop dperm i (seq 1 (bitsize - 1)) (bits i) (snd perm) (st1 i) (fst perm))
      (fun r => sort_ranks n bitsize zs (fun i => fst (r i)) /\ synced (fun i => fst (snd (r i))) /\ synced (fun i => snd (snd (r i)))).
  Proof.
    intros Hn Lb Y0 Y1 Hb. apply wp_bind. eapply wp_mono; [|apply (Hb st0 O Lb Y0)]. intros q (bs & cs & Q1 & Q2 & Q3 & Q4 & Q5).
    apply wp_bind. eapply wp_ext with (qs := fun i => gen_bit_perm i (snd (q i)) (fst (fst (q i))) (map bitval cs)); [intros i; rewrite Q2; reflexivity|].
    eapply wp_mono; [|apply (@gen_bit_perm_wp (fun i => snd (q i)) (fun i => fst (fst (q i))) bs cs n Q5 Q1 Q3)]. intros p [R1 R2].
    eapply wp_mono; [|apply (@radix_loop_wp n Hn (sort_key bitsize zs) bits (bitsize - 1) 1 (fun i => snd (p i)) st1 (fun i => fst (p i)))].
    - intros o (O1 & O2 & O3). split; [|split; assumption]. replace (1 + (bitsize - 1))%nat with bitsize in O1 by lia.
      unfold ranked, sort_ranks in *. erewrite map_ext_in; [exact O1|]. intros j Lj. apply in_seq in Lj. cbv beta. f_equal. f_equal.
      apply rank_ext; [|lia]. intros k _. unfold low, sort_key. symmetry. apply N.mod_mod, N.pow_nonzero. discriminate.
    - intros st j Lj Hst. apply Hb; [lia|exact Hst].
    - exact R2.
    - exact Y1.
    - unfold ranked. erewrite map_ext_in; [exact R1|]. intros j Lj. apply in_seq in Lj. cbv beta. f_equal. f_equal.
      apply rank_ext; [|lia]. intros k Lk. cbv beta. rewrite Q4 by exact Lk. unfold low. change (2 ^ N.of_nat 1)%N with 2%N.
      unfold ubit. rewrite N.bit0_mod. reflexivity.
  Qed.
  Lemma gen_perm_wp st0 st1 s pub xs bitsize : synced st0 -> synced st1 -> shares_vec s xs -> (1 <= bitsize <= W)%nat -> fits (length xs + length pub) ->
    wp cap (fun i => gen_perm W dperm a2b i (st0 i) (st1 i) (s i) pub bitsize)
      (fun r => sort_ranks (length xs + length pub) bitsize (xs ++ pub) (fun i => fst (r i)) /\ synced (fun i => fst (snd (r i))) /\ synced (fun i => snd (snd (r i)))).
  Proof.
    intros Y0 Y1 Hs [L1 L2] Hn. unfold gen_perm. apply wp_bind. eapply wp_mono; [|apply (decompose_wp Y0 Y1 Hs L2)]. intros d (D1 & D2 & D3).
    apply (@radix_wp (fun i => perm_bits i (fst (d i)) pub)); try assumption. intros st k Lk Hst. exact (@perm_bits_wp st (fun i => fst (d i)) pub xs bitsize k Hst Lk D1).
  Qed.
  Lemma gen_perm_ordered_wp st0 st1 s pub o xs zs bitsize : synced st0 -> synced st1 -> shares_vec s xs -> (1 <= bitsize <= W)%nat -> fits (length xs + length pub) ->
    interleaves o xs pub zs ->
    wp cap (fun i => gen_perm_ordered W dperm a2b i (st0 i) (st1 i) (s i) pub o bitsize)
      (fun r => sort_ranks (length xs + length pub) bitsize zs (fun i => fst (r i)) /\ synced (fun i => fst (snd (r i))) /\ synced (fun i => snd (snd (r i)))).
  Proof.
    intros Y0 Y1 Hs [L1 L2] Hn Ho. unfold gen_perm_ordered. apply wp_bind. eapply wp_mono; [|apply (decompose_wp Y0 Y1 Hs L2)]. intros d (D1 & D2 & D3).
    apply (@radix_wp (fun i => ordered_bits i o (fst (d i)) pub)); try assumption. intros st k Lk Hst. exact (@ordered_bits_wp st o (fun i => fst (d i)) pub xs zs bitsize k Hst Lk Ho D1).
  Qed.
  Lemma too_many_fits n : too_many (T := T) n = false <-> fits n.
  Proof. unfold too_many, fits. rewrite N.ltb_ge. reflexivity. Qed.
  Lemma apply_sorted st0 st1 perm s (ws : list F) n bitsize zs : synced st0 -> synced st1 -> fits n -> sort_ranks n bitsize zs perm -> shares_vec s ws -> length ws = n ->
    wp cap (fun i => apply_inv dperm i (st0 i) (st1 i) (perm i) (s i) [])
      (fun r => shares_vec (fun i => fst (r i)) (select_at 0 ws (sorted_positions n (sort_key bitsize zs))) /\
                synced (fun i => fst (snd (r i))) /\ synced (fun i => snd (snd (r i)))).
  Proof.
    intros Y0 Y1 Hn Hp Hs Ln. set (key := sort_key bitsize zs).
    pose proof (perm_len (proj1 (sorted_stable n key))) as Lsp.
    apply (@apply_inv_wp F _ _ _ st0 st1 perm s [] ws (select_at 0 ws (sorted_positions n key)) n (rank n key) Y0 Y1 Hn (rank_perm _ _) Hp Hs).
    - cbn [length]. lia.
    - unfold select_at. rewrite map_length. exact Lsp.
    - intros j Lj. unfold select_at. rewrite (@map_at _ _ (fun k => nth k ws 0) _ _ O) by (rewrite Lsp; apply rank_lt; exact Lj).
      rewrite sorted_rank by exact Lj. rewrite app_nil_r. reflexivity.
  Qed.
  Lemma promote_all (pub : list F) : shares_vec (fun i => map (promote i) pub) pub.
  Proof. pose proof (pvec_tab (@shares F _) (fun i x => promote i x) (fun x => x) pub (fun x _ => promote_ok x)) as HP. rewrite map_id in HP. exact HP. Qed.
  Lemma radix_sort_fields_wp st0 st1 s pub xs bitsize : synced st0 -> synced st1 -> shares_vec s xs -> (1 <= bitsize <= W)%nat -> fits (length xs + length pub) ->
    wp cap (fun i => radix_sort_fields W dperm a2b i (st0 i) (st1 i) (s i) pub bitsize)
      (fun r => shares_vec (fun i => fst (r i)) (select_at 0 (xs ++ pub) (sorted_positions (length (xs ++ pub)) (sort_key bitsize (xs ++ pub)))) /\
                synced (fun i => fst (snd (r i))) /\ synced (fun i => snd (snd (r i)))).
  Proof.
    intros Y0 Y1 Hs Lb Hn. unfold radix_sort_fields.
    eapply wp_ext with (qs := fun i => bind (gen_perm W dperm a2b i (st0 i) (st1 i) (s i) pub bitsize) (fun perm =>
      apply_inv dperm i (fst (snd perm)) (snd (snd perm)) (fst perm) (s i ++ map (promote i) pub) [])).
    { intros i. rewrite (pvec_len i Hs), (proj2 (too_many_fits _) Hn). reflexivity. }
    apply wp_bind. eapply wp_mono; [|apply (@gen_perm_wp st0 st1 s pub xs bitsize Y0 Y1 Hs Lb Hn)]. intros p (Hp1 & Hp2 & Hp3). rewrite <- app_length in Hp1, Hn.
    apply (@apply_sorted (fun i => fst (snd (p i))) (fun i => snd (snd (p i))) (fun i => fst (p i)) (fun i => s i ++ map (promote i) pub) (xs ++ pub) _ bitsize (xs ++ pub) Hp2 Hp3 Hn Hp1); [|reflexivity].
    apply pvec_app; [exact Hs|apply promote_all].
  Qed.
  Lemma apply_all_wp n bitsize zs perm wss : fits n -> sort_ranks n bitsize zs perm -> Forall (fun ws => length ws = n) wss -> forall st0 st1 s, synced st0 -> synced st1 ->
    pvec (@shares_vec F _) s wss ->
    wp cap (fun i => apply_all dperm i (st0 i) (st1 i) (perm i) (s i))
      (fun r => pvec (@shares_vec F _) (fun i => fst (r i)) (map (fun ws => select_at 0 ws (sorted_positions n (sort_key bitsize zs))) wss) /\
                synced (fun i => fst (snd (r i))) /\ synced (fun i => snd (snd (r i)))).
  Proof.
    intros Hn Hp Hl. induction Hl as [|ws wss Hw Hl IH]; intros st0 st1 s Y0 Y1 Hs.
    - eapply wp_ext with (qs := fun i => Ret ([], (st0 i, st1 i))); [intros i; rewrite (pvec_nil_inv Hs); reflexivity|].
      apply wp_ret. cbn [fst snd]. split; [apply pvec_nil; reflexivity|split; assumption].
    - destruct (pvec_cons_inv Hs) as (h & t & E & Hh & Ht).
      eapply wp_ext with (qs := fun i => bind (apply_inv dperm i (st0 i) (st1 i) (perm i) (h i) []) (fun r =>
        bind (apply_all dperm i (fst (snd r)) (snd (snd r)) (perm i) (t i)) (fun q => Ret (fst r :: fst q, snd q)))); [intros i; rewrite E; reflexivity|].
      apply wp_bind. eapply wp_mono; [|apply (@apply_sorted st0 st1 perm h ws n bitsize zs Y0 Y1 Hn Hp Hh Hw)]. intros r (R1 & R2 & R3).
      apply wp_bind. eapply wp_mono; [|apply (IH (fun i => fst (snd (r i))) (fun i => snd (snd (r i))) t R2 R3 Ht)]. intros q (Q1 & Q2 & Q3).
      apply wp_ret. cbn [fst snd map]. split; [|split; assumption]. eapply pvec_cons; [reflexivity|exact R1|exact Q1].
  Qed.
  Lemma radix_sort_fields_vec_by_wp st0 st1 s pub o xs zs t wss bitsize : synced st0 -> synced st1 -> shares_vec s xs -> (1 <= bitsize <= W)%nat -> fits (length zs) ->
    interleaves o xs pub zs -> pvec (@shares_vec F _) t wss -> Forall (fun ws => length ws = length zs) wss ->
    wp cap (fun i => radix_sort_fields_vec_by W dperm a2b i (st0 i) (st1 i) (s i) pub o (t i) bitsize)
      (fun r => pvec (@shares_vec F _) (fun i => fst (r i)) (map (fun ws => select_at 0 ws (sorted_positions (length zs) (sort_key bitsize zs))) wss) /\
                synced (fun i => fst (snd (r i))) /\ synced (fun i => snd (snd (r i)))).
  Proof.
    intros Y0 Y1 Hs Lb Hn Ho Ht Hl. unfold radix_sort_fields_vec_by. pose proof (proj2 (proj2 (interleaves_count Ho))) as Lz.
    eapply wp_ext with (qs := fun i => bind (gen_perm_ordered W dperm a2b i (st0 i) (st1 i) (s i) pub o bitsize) (fun perm =>
      apply_all dperm i (fst (snd perm)) (snd (snd perm)) (fst perm) (t i))).
    { intros i. rewrite (pvec_len i Hs), <- Lz, (proj2 (too_many_fits _) Hn). reflexivity. }
    apply wp_bind. rewrite Lz in Hn. eapply wp_mono; [|apply (@gen_perm_ordered_wp st0 st1 s pub o xs zs bitsize Y0 Y1 Hs Lb Hn Ho)]. intros p (Hp1 & Hp2 & Hp3). rewrite <- Lz in Hp1, Hn.
    apply (@apply_all_wp (length zs) bitsize zs (fun i => fst (p i)) wss Hn Hp1 Hl (fun i => fst (snd (p i))) (fun i => snd (snd (p i))) t Hp2 Hp3 Ht).
  Qed.
End Radix.
