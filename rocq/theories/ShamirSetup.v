(** * Shamir protocol: seed exchange, preprocessing, histories, sharing and combining *)
From Coq Require Import FinFun Permutation String List Arith Lia Bool Ring.
From Verif Require Import Proc Alg NNet Rep3 Rep3Proofs ShamirPoly Shamir ShamirAlg ShamirSpec ShamirRng ShamirDeal ShamirWp ShamirRed.
Import ListNotations.
Set Implicit Arguments.
Local Open Scope grp_scope.

(** ** Sharing and combining *)
Section Combine.
  Context {F : Type} {FF : Fld F} {Sg : Type} {G : Type} {AG : AbGrp G} {MD : Mod F G} {DG : Draw Sg G}.
  Lemma sm_share_ok (secret : G) n d (s : Sg) :
    fst (sm_share secret n d s) = map (fun i => peval (secret :: fst (draws d s)) (fnat i)) (seq 1 n).
  Proof. unfold sm_share. cbn [fst]. apply map_ext. intros i. apply evaluate_poly_ok. Qed.
  Lemma sm_share_sharing (secret : G) n d (s : Sg) : length (fst (sm_share secret n d s)) = n /\
    sharing n d (fun i => nth i (fst (sm_share secret n d s)) 0) secret.
  Proof.
    rewrite sm_share_ok. split; [rewrite map_length, seq_length; reflexivity|].
    exists (secret :: fst (draws d s)). split; [cbn [length]; rewrite draws_length; lia|]. split; [rewrite peval_0; reflexivity|].
    intros i Hi. rewrite nth_map_seq by exact Hi. reflexivity.
  Qed.
  (** [combine] on evaluations of a polynomial at any [d+1] (or more) distinct points *)
  Lemma combine_ok c d (coeffs : list nat) : length c <= S d -> d < length coeffs -> points (F := F) (firstn (d + 1) coeffs) ->
    combine_field_element (map (fun i => peval (G := G) c (fnat i)) coeffs) coeffs d = Done (peval c 0).
  Proof.
    intros Hc Hl P. unfold combine_field_element. rewrite map_length, Nat.eqb_refl. cbn [negb].
    rewrite (proj2 (Nat.leb_gt _ _) Hl). rewrite (lagrange_ok P).
    assert (Hk : length c <= length (firstn (d + 1) coeffs)) by (rewrite firstn_length; lia).
    destruct (@reconstruct_poly F FF G AG MD _ _ c P Hk (lagrange_ok P)) as (_ & R).
    rewrite firstn_map. rewrite R. reflexivity.
  Qed.
  Lemma points_firstn k l : points (F := F) l -> points (F := F) (firstn k l).
  Proof.
    unfold points. rewrite <- firstn_map. generalize (map fnat l : list F). clear l. intros l. revert k.
    induction l as [|a l IH]; intros [|k] H; cbn [firstn]; try constructor; inversion H as [|? ? N1 N2]; subst.
    - intros I. apply N1. rewrite <- (firstn_skipn k l). apply in_or_app. left. exact I.
    - apply IH. exact N2.
  Qed.
  Lemma sharing_shares n d (s : nat -> G) x (ids : list nat) : sharing n d s x -> (forall i, In i ids -> i < n) ->
    exists c, length c <= S d /\ peval c 0 = x /\ map s ids = map (fun i => peval c (fnat i)) (map S ids).
  Proof.
    intros (c & H1 & H2 & H3) Hi. exists c. split; [exact H1|]. split; [exact H2|]. rewrite map_map. apply map_ext_in. intros i Hin. apply H3, Hi, Hin.
  Qed.
  Lemma combine_sharing n d (s : nat -> G) x (ids : list nat) :
    (forall a b, a <= n -> b <= n -> fnat a = (fnat b : F) -> a = b) -> sharing n d s x -> NoDup ids -> (forall i, In i ids -> i < n) -> d < length ids ->
    combine_field_element (map s ids) (map S ids) d = Done x.
  Proof.
    intros inj H ND Hi Hl. destruct (sharing_shares ids H Hi) as (c & H1 & <- & ->). apply combine_ok; [exact H1|rewrite map_length; exact Hl|].
    apply points_firstn. apply (points_le inj).
    - apply Injective_map_NoDup; [intros a b; lia|exact ND].
    - intros a Ha. apply in_map_iff in Ha. destruct Ha as (i & <- & Ha). specialize (Hi i Ha). lia.
  Qed.
  Lemma share_each_ok n d vals : forall s : Sg,
    length (fst (share_each vals d n s)) = length vals /\
    forall k, k < length vals -> sharing n d (fun i => nth i (nth k (fst (share_each vals d n s)) []) 0) (nth k vals 0).
  Proof.
    induction vals as [|v vals IH]; intros s; cbn [share_each fst]; [split; [reflexivity|cbn; lia]|].
    destruct (IH (snd (sm_share v n d s))) as [I1 I2]. split; [cbn [length]; rewrite I1; reflexivity|].
    intros [|k] Hk; cbn [nth]; [apply sm_share_sharing|]. apply I2. cbn in Hk. lia.
  Qed.
  Lemma share_field_elements_ok n d vals (s : Sg) : length (fst (share_field_elements vals d n s)) = n /\
    sharings n d (fun i => nth i (fst (share_field_elements vals d n s)) []) vals.
  Proof.
    unfold share_field_elements. cbn [fst]. split; [rewrite map_length, seq_length; reflexivity|].
    destruct (share_each_ok n d vals s) as [H1 H2]. split.
    - intros i Hi. rewrite nth_map_seq by exact Hi. rewrite map_length. exact H1.
    - intros k Hk. eapply sharing_ext; [|exact (H2 k Hk)]. intros i Hi. cbv beta. rewrite nth_map_seq by exact Hi. cbn [Nat.add].
      apply (nth_map_in (fun shares => nth i shares 0)). rewrite H1. exact Hk.
  Qed.
  Lemma combine_sharings n d (s : nat -> list G) xs (ids : list nat) :
    (forall a b, a <= n -> b <= n -> fnat a = (fnat b : F) -> a = b) -> sharings n d s xs -> NoDup ids -> (forall i, In i ids -> i < n) -> d < length ids ->
    combine_field_elements (map s ids) (map S ids) d = Done xs.
  Proof.
    intros inj [H1 H2] ND Hi Hl. unfold combine_field_elements. rewrite !map_length, Nat.eqb_refl. cbn [negb]. rewrite (proj2 (Nat.leb_gt _ _) Hl).
    destruct ids as [|i0 ids]; [cbn in Hl; lia|]. cbn [map hd tl].
    assert (E0 : length (s i0) = length xs) by (apply H1, Hi; left; reflexivity). rewrite E0.
    assert (Ef : forallb (fun s0 => (length s0 =? length xs)%nat) (map s ids) = true).
    { apply forallb_forall. intros l Hin. apply in_map_iff in Hin. destruct Hin as (j & <- & Hj). apply Nat.eqb_eq. apply H1, Hi. right. exact Hj. }
    rewrite Ef. cbn [negb]. change (S i0 :: map S ids) with (map S (i0 :: ids)). change (s i0 :: map s ids) with (map s (i0 :: ids)).
    set (l := i0 :: ids) in *.
    assert (P : points (F := F) (firstn (d + 1) (map S l))).
    { apply points_firstn. apply (points_le inj).
      - apply Injective_map_NoDup; [intros a b; lia|exact ND].
      - intros a Ha. apply in_map_iff in Ha. destruct Ha as (i & <- & Ha). specialize (Hi i Ha). lia. }
    rewrite (lagrange_ok P). f_equal. apply (list_ext 0); [rewrite map_length, seq_length; reflexivity|].
    intros k Hk. rewrite map_length, seq_length in Hk. rewrite nth_map_seq by exact Hk. cbn [Nat.add].
    destruct (sharing_shares l (H2 k Hk) Hi) as (c & C1 & C2 & C3). rewrite <- C2.
    assert (Hc : length c <= length (firstn (d + 1) (map S l))) by (rewrite firstn_length, map_length; lia).
    destruct (@reconstruct_poly F FF G AG MD _ _ c P Hc (lagrange_ok P)) as (_ & R).
    rewrite <- R. f_equal. rewrite <- firstn_map, map_map, C3, firstn_map. reflexivity.
  Qed.
End Combine.

(** ** Polynomials with shared coefficients *)
Section EvalPoly.
  Context {F : Type} {FF : Fld F}.
  Add Ring FringV : (@cring_theory F _).
  Infix "*" := rmul : grp_scope.
  Notation "1" := rone : grp_scope.
  Lemma horner_peval cs x : sm_horner cs x = peval cs (x : F).
  Proof. unfold sm_horner. induction cs as [|a cs IH]; cbn [fold_right peval]; [reflexivity|]. rewrite IH. change (smul x (peval cs x)) with (x * peval cs x). ring. Qed.
  Lemma fpow_add x a b : fpow x (a + b) = fpow x a * (fpow x b : F).
  Proof. induction a as [|a IH]; cbn; [ring|]. rewrite IH. ring. Qed.
  Lemma peval_split cs k x : k <= length cs -> peval cs x = peval (firstn k cs) x + fpow x k * (peval (skipn k cs) x : F).
  Proof.
    revert k. induction cs as [|a cs IH]; intros [|k] Hk; cbn [length firstn skipn peval fpow] in *; try lia; try ring.
    rewrite (IH k) by lia. change (@smul F F _ _ _) with (@rmul F _). ring.
  Qed.
  Lemma eval_chunks_ok k x : 0 < k -> forall fuel cs idx, length cs <= fuel ->
    sm_eval_chunks k x idx (sm_chunks k cs fuel) = fpow x (idx * k)%nat * (peval cs x : F).
  Proof.
    intros Hk. induction fuel as [|fuel IH]; intros cs idx Hl.
    - destruct cs; [|cbn in Hl; lia]. cbn. ring.
    - destruct cs as [|a cs]; [cbn; ring|]. cbn [sm_chunks sm_eval_chunks]. rewrite horner_peval, IH.
      + replace (S idx * k)%nat with (idx * k + k)%nat by lia. rewrite fpow_add.
        destruct (le_lt_dec k (length (a :: cs))) as [H|H].
        * rewrite (peval_split (a :: cs) x H). ring.
        * rewrite firstn_all2, skipn_all2 by lia. cbn [peval]. ring.
      + rewrite skipn_length. cbn [length] in *. lia.
  Qed.
  Lemma sm_eval_poly_ok threads cs x : cs <> [] -> sm_eval_poly threads cs x = Some (peval cs (x : F)).
  Proof.
    intros Hc. unfold sm_eval_poly. destruct (feqb x 0) eqn:Ex.
    - apply feqb_spec in Ex. subst x. destruct cs as [|c cs]; [contradiction|]. rewrite peval_0. reflexivity.
    - f_equal. rewrite eval_chunks_ok by lia. cbn. ring.
  Qed.
End EvalPoly.

(** ** Seed exchange *)
Section Setup.
  Local Close Scope grp_scope.
  Context {M : Type} {F : Type} {FF : Fld F} {Sg : Type} {DF : Draw Sg F} {EF : Enc M (list F)}.
  Context {Seed : Type} {SDS : Seeded Sg Seed} {DS : Draw Sg Seed} {ES : Enc M (list Seed)} (seed0 : Seed).
  Notation srng := (srng (F := F) (Sg := Sg)).
  Notation sst := (sst (F := F) (Sg := Sg)).
  Variables (n t cap : nat).
  Hypothesis n2 : 2 <= n.
  Hypothesis c1 : 1 <= cap.
  Notation send i := (seeds_sent i n).
  Definition off (i j : nat) : nat := if (i <=? j)%nat then (j - i)%nat else (j + n - i)%nat.
  Lemma off_sym i j : i < n -> j < n -> i <> j -> off i j + off j i = n /\ 1 <= off i j.
  Proof. intros Hi Hj Hne. unfold off. destruct (Nat.leb_spec i j), (Nat.leb_spec j i); lia. Qed.
  Lemma send_le i : send i <= n - 1.
  Proof.
    unfold seeds_sent. set (k := (n - 1)%nat). pose proof (Nat.div_mod k 2 ltac:(lia)) as D. pose proof (Nat.mod_upper_bound k 2 ltac:(lia)) as B.
    destruct (Nat.odd k) eqn:O; cbn [andb]; [|lia].
    assert (k mod 2 = 1)%nat. { pose proof (Nat.div2_odd k) as D2. rewrite O in D2. rewrite Nat.div2_div in D2. cbn [Nat.b2n] in D2. lia. }
    destruct (i <? n / 2)%nat; lia.
  Qed.
  (** exactly one of the two parties of each pair draws the common seed *)
  Lemma one_sender i j : i < n -> j < n -> i <> j -> off i j <= send i <-> ~ off j i <= n - 1 - send i.
  Proof. intros Hi Hj Hne. pose proof (off_sym Hi Hj Hne). pose proof (send_le i). lia. Qed.
  Lemma sender_receiver i j : i < n -> j < n -> i <> j -> off i j <= send i <-> off i j <= n - 1 - send j.
  Proof.
    intros Hi Hj Hne. pose proof (off_sym Hi Hj Hne) as [S1 S2]. unfold seeds_sent. set (k := (n - 1)%nat).
    assert (En : n = S k) by (unfold k; lia).
    pose proof (Nat.div2_odd k) as D. rewrite Nat.div2_div in D. destruct (Nat.odd k) eqn:O; cbn [andb Nat.b2n] in *.
    - assert (Eh : (n / 2 = k / 2 + 1)%nat).
      { rewrite En. rewrite D at 1. replace (S (2 * (k / 2) + 1)) with (0 + (k / 2 + 1) * 2)%nat by lia. rewrite Nat.div_add by lia. reflexivity. }
      rewrite Eh. set (h := (k / 2)%nat) in *. destruct (Nat.ltb_spec i (h + 1)), (Nat.ltb_spec j (h + 1)); unfold off in *; destruct (Nat.leb_spec i j), (Nat.leb_spec j i); lia.
    - set (h := (k / 2)%nat) in *. lia.
  Qed.
  Definition tos i := after_ids n i 1 (send i).
  Definition froms i := before_ids n i 1 (n - 1 - send i).
  Lemma in_tos i j : i < n -> j < n -> In j (tos i) <-> i <> j /\ off i j <= send i.
  Proof.
    intros Hi Hj. unfold tos. pose proof (send_le i). rewrite in_after by lia. unfold off. split.
    - intros (k & Hk & _ & E). destruct (Nat.leb_spec i j); lia.
    - intros (Hne & H1). exists (if (i <=? j)%nat then (j - i)%nat else (j + n - i)%nat). destruct (Nat.leb_spec i j); lia.
  Qed.
  Lemma in_froms i j : i < n -> j < n -> In j (froms i) <-> i <> j /\ off j i <= n - 1 - send i.
  Proof.
    intros Hi Hj. unfold froms. pose proof (send_le i). rewrite in_before by lia. unfold off. split.
    - intros (k & Hk & _ & E). destruct (Nat.leb_spec j i); lia.
    - intros (Hne & H1). exists (if (j <=? i)%nat then (i - j)%nat else (i + n - j)%nat). destruct (Nat.leb_spec j i); lia.
  Qed.
  Variable g : nat -> Sg.
  (** the seed that [i] draws for [j] *)
  Definition drawn i j : Seed := nth (off i j - 1) (fst (draws (X := Seed) (send i) (g i))) seed0.
  Definition pair_seed i j : Seed := if (off i j <=? send i)%nat then drawn i j else drawn j i.
  Lemma pair_seed_sym i j : i < n -> j < n -> i <> j -> pair_seed i j = pair_seed j i.
  Proof.
    intros Hi Hj Hne. unfold pair_seed. pose proof (sender_receiver Hi Hj Hne) as A. pose proof (off_sym Hi Hj Hne). pose proof (send_le i). pose proof (send_le j).
    destruct (Nat.leb_spec (off i j) (send i)), (Nat.leb_spec (off j i) (send j)); try reflexivity; exfalso; lia.
  Qed.
  Lemma tos_draws i : i < n -> map (drawn i) (tos i) = fst (draws (X := Seed) (send i) (g i)).
  Proof.
    intros Hi. pose proof (send_le i). apply (list_ext seed0).
    - unfold tos, after_ids. rewrite !map_length, seq_length, draws_length. reflexivity.
    - intros k Hk. unfold tos, after_ids in *. rewrite !map_length, seq_length in Hk.
      rewrite (nth_map_in _ _ O) by (rewrite map_length, seq_length; exact Hk). rewrite nth_map_seq by exact Hk. unfold drawn. f_equal.
      rewrite mod_add_lt by lia. unfold off. destruct (Nat.ltb_spec (i + (1 + k)) n); [destruct (Nat.leb_spec i (i + (1 + k)))|destruct (Nat.leb_spec i (i + (1 + k) - n))]; lia.
  Qed.
  Definition drop_nth {A} (i : nat) (l : list A) : list A := firstn i l ++ tl (skipn i l).
  Lemma length_drop {A} i (l : list A) : i < length l -> length (drop_nth i l) = (length l - 1)%nat.
  Proof.
    intros H. unfold drop_nth. rewrite app_length, firstn_length. assert (E : length (tl (skipn i l)) = (length (skipn i l) - 1)%nat) by (destruct (skipn i l); cbn; lia).
    rewrite E, skipn_length. lia.
  Qed.
  Lemma nth_drop {A} (d : A) : forall i l j, i < length l -> j <> i -> nth (if (j <? i)%nat then j else (j - 1)%nat) (drop_nth i l) d = nth j l d.
  Proof.
    unfold drop_nth. induction i as [|i IH]; intros l j Hi Hne.
    - destruct l as [|a l]; [cbn in Hi; lia|]. cbn [Nat.ltb firstn skipn app tl]. destruct j as [|j]; [lia|]. cbn [nth]. 
      replace (if (S j <? 0)%nat then S j else (S j - 1)%nat) with j by (cbn; lia). reflexivity.
    - destruct l as [|a l]; [cbn in Hi; lia|]. cbn [firstn skipn app]. destruct j as [|j]; [reflexivity|]. cbn [nth]. cbn in Hi.
      rewrite <- (IH l j) by lia. destruct (Nat.ltb_spec (S j) (S i)), (Nat.ltb_spec j i); try lia; [reflexivity|].
      destruct j as [|j]; [lia|]. replace (S (S j) - 1)%nat with (S j) by lia. cbn [nth]. replace (S j - 1)%nat with j by lia. reflexivity.
  Qed.
  Lemma get_shared_rngs_wp : wpn n cap (fun i => get_shared_rngs (M := M) seed0 i n (g i)) (fun o =>
    forall i, i < n -> length (fst (o i)) = (n - 1)%nat /\
      forall j d, j < n -> j <> i -> nth (if (j <? i)%nat then j else (j - 1)%nat) (fst (o i)) d = from_seed (pair_seed i j)).
  Proof.
    set (seeds := fun i => set_nths (froms i) (map (fun j => drawn j i) (froms i)) (set_nths (tos i) (map (drawn i) (tos i)) (repeat seed0 n))).
    set (bx := box n tos (fun a b => enc [drawn a b])).
    apply wpn_ext with (qs := fun i =>
      _ <- send_list (map (fun j => (j, enc [drawn i j])) (tos i)) (Ret tt) ;;
      rcv <- n_recv_from_each (froms i) ;;
      Ret (map from_seed (drop_nth i (set_nths (froms i) rcv (set_nths (tos i) (map (drawn i) (tos i)) (repeat seed0 n)))), snd (draws (X := Seed) (send i) (g i)))).
    { intros i Hi. unfold get_shared_rngs. destruct (Nat.eqb_spec n 0) as [E|_]; [lia|].
      change (map (fun off0 => (i + off0) mod n)%nat (seq 1 (send i))) with (tos i).
      change (map (fun off0 => (i + n - off0) mod n)%nat (seq 1 (n - 1 - send i))) with (froms i).
      rewrite <- tos_draws by exact Hi.
      assert (E2 : forall l, map2 (fun j s => (j, enc [s])) l (map (drawn i) l) = map (fun j => (j, enc [drawn i j])) l).
      { induction l as [|a l IH]; cbn; [reflexivity|]. rewrite IH. reflexivity. }
      rewrite E2. reflexivity. }
    unfold wpn. eapply wpq_bind.
    eapply wpq_q with (q1 := q0) (q1' := fun a b => q0 a b ++ bx a b); [intros ? ?; reflexivity|intros ? ?; reflexivity|].
    apply wpq_send_box with (m := fun a b => enc [drawn a b]) (v := fun _ => tt).
    { intros a Ha. pose proof (send_le a). apply after_nodup; lia. }
    { intros a b _ _. cbn. lia. }
    { intros a b _. cbn. lia. }
    eapply wpq_bind. eapply wpq_q with (q1 := fun a b => bx a b ++ q0 a b) (q1' := q0);
      [intros a b; apply app_nil_r|intros ? ?; reflexivity|].
    apply wpq_recv_box with (srcs := froms) (r := fun i => map (fun j => drawn j i) (froms i)).
    { intros b Hb. apply before_nodup; lia. }
    { intros a b _. apply after_lt. lia. }
    { intros a b _. apply before_lt. lia. }
    { intros a b Ha Hb. rewrite in_tos, in_froms by assumption. split; intros [Hne H]; (split; [congruence|]); pose proof (sender_receiver Ha Hb); tauto || (assert (a <> b) by congruence; tauto). }
    { intros i Hi. apply (recvs_from_each (fun j => drawn j i)). }
    apply wpq_ret. cbn [fst]. intros i Hi. fold (seeds i).
    assert (Ls : length (seeds i) = n) by (unfold seeds; rewrite !length_set_nths; apply repeat_length).
    split; [rewrite map_length, length_drop by lia; lia|]. intros j d Hj Hne.
    assert (Hp : (if (j <? i)%nat then j else (j - 1)%nat) < length (drop_nth i (seeds i))).
    { rewrite length_drop by lia. destruct (Nat.ltb_spec j i); lia. }
    rewrite (nth_map_in from_seed _ seed0) by exact Hp. f_equal. rewrite nth_drop by lia. unfold seeds.
    pose proof (send_le i).
    rewrite nth_set_nths; [|apply before_nodup; lia|intros k Hk; rewrite length_set_nths, repeat_length; eapply before_lt; [|exact Hk]; lia].
    rewrite nth_set_nths; [|apply after_nodup; lia|intros k Hk; rewrite repeat_length; eapply after_lt; [|exact Hk]; lia].
    unfold pair_seed. assert (Hne' : i <> j) by congruence. pose proof (one_sender Hi Hj Hne') as A. pose proof (off_sym Hi Hj Hne').
    destruct (in_dec Nat.eq_dec j (froms i)) as [I|I].
    - apply in_froms in I; [|assumption..]. destruct I as [_ I]. destruct (Nat.leb_spec (off i j) (send i)); [exfalso; lia|reflexivity].
    - destruct (in_dec Nat.eq_dec j (tos i)) as [J|J].
      + apply in_tos in J; [|assumption..]. destruct J as [_ J]. rewrite (proj2 (Nat.leb_le _ _) J). reflexivity.
      + exfalso. apply I. apply in_froms; try assumption. split; [exact Hne'|]. rewrite in_tos in J by assumption. lia.
  Qed.
End Setup.

(** ** Preprocessing *)
Section Preprocess.
  Local Close Scope grp_scope.
  Context {M : Type} {F : Type} {FF : Fld F} {Sg : Type} {DF : Draw Sg F} {EF : Enc M (list F)}.
  Context {Seed : Type} {SDS : Seeded Sg Seed} {DS : Draw Sg Seed} {ES : Enc M (list Seed)} (seed0 : Seed).
  Notation srng := (srng (F := F) (Sg := Sg)).
  Notation sst := (sst (F := F) (Sg := Sg)).
  Variables (n t cap : nat).
  Hypothesis n2 : 2 <= n.
  Hypothesis nt : 2 * t + 1 <= n.
  Hypothesis hcap : cap_ok n t cap.
  Hypothesis inj : forall a b, a <= n -> b <= n -> fnat a = (fnat b : F) -> a = b.
  Lemma srng_new_wp (seed : nat -> Seed) :
    wpn n cap (fun i => srng_new (M := M) (F := F) seed0 i (seed i) n t) (fun r => rng_wf n t [] r).
  Proof.
    unfold srng_new. apply wpn_bind. eapply wpn_mono; [|apply (get_shared_rngs_wp seed0 n2 (cap1 n2 nt hcap) (fun i => from_seed (seed i)))].
    intros sr Hsr.
    apply wpn_ret_ext with (a := fun i => mkSrng i (snd (sr i)) t n (map (lag_poly (pts n i (t + 1))) (pts n i (t + 1)))
      (map (lag_poly (O :: pts n i (2 * t))) (O :: pts n i (2 * t))) (fst (sr i)) (create_vandermonde_matrix n t) [] []).
    - intros i Hi. change (map (fun k => (i + k) mod n + 1) (seq 1 (t + 1))) with (pts n i (t + 1)).
      change (map (fun k => (i + k) mod n + 1) (seq 1 (t * 2))) with (pts n i (t * 2)). replace (t * 2) with (2 * t) by lia.
      rewrite (precompute_ok (pts_ok t n2 nt inj (d := t + 1) Hi ltac:(lia))). cbn [or_panic bind].
      rewrite (precompute_ok (pts0_ok t n2 nt inj (d := 2 * t) Hi ltac:(lia))). reflexivity.
    - constructor; cbn [sr_id sr_t sr_n sr_pre_t sr_pre_2t sr_shared sr_matrix sr_rt sr_r2t]; try reflexivity.
      + intros i Hi. apply (precompute_ok (pts_ok t n2 nt inj (d := t + 1) Hi ltac:(lia))).
      + intros i Hi. apply (precompute_ok (pts0_ok t n2 nt inj (d := 2 * t) Hi ltac:(lia))).
      + intros i Hi. apply Hsr. exact Hi.
      + intros i j Hi Hj Hne. unfold get_rng. cbn [sr_id sr_rng sr_shared].
        assert (K : forall a b, a < n -> b < n -> a <> b ->
          (if b <? a then nth b (fst (sr a)) (snd (sr a)) else if a <? b then nth (b - 1) (fst (sr a)) (snd (sr a)) else snd (sr a)) =
          from_seed (pair_seed seed0 n (fun i => from_seed (seed i)) a b)).
        { intros a b Ha Hb Hab. destruct (Hsr a Ha) as [_ H]. rewrite <- (H b (snd (sr a))) by lia.
          destruct (Nat.ltb_spec b a); [reflexivity|]. destruct (Nat.ltb_spec a b); [reflexivity|lia]. }
        rewrite (K i j), (K j i) by lia. rewrite (@pair_seed_sym Sg Seed DS seed0 n cap n2 (cap1 n2 nt hcap)) by lia. reflexivity.
      + constructor.
  Qed.
  Lemma sst_from_wp L (r : nat -> srng) : rng_wf n t L r ->
    wpn n cap (fun i => sst_from (M := M) i n t (r i)) (fun st => sm_wf n t 1024 L st).
  Proof.
    intros R. unfold sst_from.
    destruct (@zero_points_ok F FF (seq (n - t + 1) t)) as (z & Z1 & _).
    { intros j Hj. apply in_seq in Hj. intros E. assert (j = O) by (apply inj; [lia|lia|exact E]). lia. }
    assert (P1 : forall i, i < n -> points (F := F) (open_points i n (t + 1))) by (intros i Hi; apply (open_points_ok t n2 nt (cap1 n2 nt hcap) inj Hi); lia).
    assert (P2 : forall i, i < n -> points (F := F) (open_points i n (2 * t + 1))) by (intros i Hi; apply (open_points_ok t n2 nt (cap1 n2 nt hcap) inj Hi); lia).
    assert (P3 : points (F := F) (seq 1 (2 * t + 1))).
    { apply (points_le inj); [apply seq_NoDup|]. intros a Ha. apply in_seq in Ha. lia. }
    apply wpn_ret_ext with (a := fun i => mkSst i n t
      (map (fun j => peval (lag_poly (open_points i n (t + 1)) j) gzero) (open_points i n (t + 1)))
      (map (fun j => peval (lag_poly (open_points i n (2 * t + 1)) j) gzero) (open_points i n (2 * t + 1)))
      (map (fun j => peval (lag_poly (seq 1 (2 * t + 1)) j) gzero) (seq 1 (2 * t + 1))) z (r i) DEFAULT_PAIR_GEN_AMOUNT).
    - intros i Hi. rewrite (lagrange_ok (P1 i Hi)). cbn [or_panic bind]. rewrite (lagrange_ok (P2 i Hi)). cbn [or_panic bind].
      rewrite (lagrange_ok P3). cbn [or_panic bind]. rewrite Z1. reflexivity.
    - constructor; cbn [ss_id ss_n ss_t ss_open_t ss_open_2t ss_mul_2t ss_zeros ss_rng ss_gen]; try reflexivity.
      + intros i Hi. apply (lagrange_ok (P1 i Hi)).
      + intros i Hi. apply (lagrange_ok (P2 i Hi)).
      + intros i Hi. apply (lagrange_ok P3).
      + intros i Hi. exact Z1.
      + apply Nat.lt_0_succ.
      + exact R.
  Qed.
  Lemma preprocessing_new_wp (seed : nat -> Seed) amount :
    wpn n cap (fun i => preprocessing_new (M := M) (F := F) seed0 i (seed i) n t amount) (fun st =>
      exists L, amount <= length L /\ length L < amount + S t /\ sm_wf n t 1024 L st).
  Proof.
    unfold preprocessing_new. rewrite (proj2 (Nat.ltb_ge _ _) nt). apply wpn_bind. eapply wpn_mono; [|apply srng_new_wp]. intros r R.
    apply wpn_bind. apply wpn_ext with (qs := fun i => rng_buffer_triples (div_ceil amount (S t)) (r i)).
    { intros i Hi. unfold size_per_batch. rewrite (rw_matrix R) by exact Hi. rewrite length_vander. reflexivity. }
    eapply wpn_mono; [|apply (rng_buffer_triples_wp n2 nt hcap inj _ R)]. intros r' (L' & El & R'). cbn [app] in R'.
    eapply wpn_mono; [|apply (sst_from_wp R')]. intros st W. exists L'.
    assert (D : amount <= div_ceil amount (S t) * S t /\ div_ceil amount (S t) * S t < amount + S t).
    { unfold div_ceil. pose proof (Nat.div_mod (amount + S t - 1) (S t) ltac:(lia)) as D.
      pose proof (Nat.mod_upper_bound (amount + S t - 1) (S t) ltac:(lia)). nia. }
    split; [lia|]. split; [lia|exact W].
  Qed.
End Preprocess.

(** ** Histories of a protocol state *)
Section History.
  Local Close Scope grp_scope.
  Context {M : Type} {F : Type} {FF : Fld F} {Sg : Type} {DF : Draw Sg F} {EF : Enc M (list F)}.
  Context {Seed : Type} {SDS : Seeded Sg Seed} {DS : Draw Sg Seed}.
  Notation sst := (sst (F := F) (Sg := Sg)).
  (** A script over a growing list of states: the calls a party can make to shamir.rs:127-185. [OFork k amount] appends the child of state [k]. *)
  Inductive sop := OGet (k : nat) | OBuffer (k num : nat) | OFork (k amount : nat).
  Definition sop_step (op : sop) (sts : list sst) : prog nat M (list (F * F) * list sst) :=
    match op with
    | OGet k => match nth_error sts k with
                | None => Ret ([], sts)
                | Some st => r <- get_pair st ;; Ret ([fst r], set_nth k (snd r) sts)
                end
    | OBuffer k num => match nth_error sts k with
                | None => Ret ([], sts)
                | Some st => st' <- sm_buffer_triples num st ;; Ret ([], set_nth k st' sts)
                end
    | OFork k amount => match nth_error sts k with
                | None => Ret ([], sts)
                | Some st => match sm_fork (Seed := Seed) amount st with
                             | Done (c, p) => Ret ([], set_nth k p sts ++ [c])
                             | Failed e => Fail e
                             end
                end
    end.
  Fixpoint run_script (ops : list sop) (sts : list sst) : prog nat M (list (F * F) * list sst) :=
    match ops with
    | [] => Ret ([], sts)
    | op :: ops => r <- sop_step op sts ;; r' <- run_script ops (snd r) ;; Ret (fst r ++ fst r', snd r')
    end.
  Variables (n t cap : nat).
  Hypothesis n2 : 2 <= n.
  Hypothesis nt : 2 * t + 1 <= n.
  Hypothesis hcap : cap_ok n t cap.
  Hypothesis inj : forall a b, a <= n -> b <= n -> fnat a = (fnat b : F) -> a = b.
  Definition at_party (i : nat) (fs : list (nat -> sst)) : list sst := map (fun f => f i) fs.
  Definition all_wf (Ls : list (list (list F * list F))) (fs : list (nat -> sst)) : Prop := Forall2 (fun L f => exists gen, sm_wf n t gen L f) Ls fs.
  Definition script_post (Ls : list (list (list F * list F))) (o : nat -> outcome (list (F * F) * list sst)) : Prop :=
    (exists e, forall i, i < n -> o i = Failed e) \/
    exists handed fresh Ls' fs', (forall i, i < n -> o i = Done (map (evals i) handed, at_party i fs')) /\ all_wf Ls' fs' /\
      Forall (dpair t) handed /\ Permutation (concat Ls ++ fresh) (handed ++ concat Ls').
  Lemma set_nth_app {A} (a : list A) x y b : set_nth (length a) y (a ++ x :: b) = a ++ y :: b.
  Proof. induction a as [|z a IH]; cbn; [reflexivity|]. rewrite IH. reflexivity. Qed.
  Lemma sop_step_wp op Ls fs : all_wf Ls fs -> wpon n cap (fun i => sop_step op (at_party i fs)) (script_post Ls).
  Proof.
    intros W.
    assert (Skip : forall ps : nat -> prog nat M (list (F * F) * list sst), (forall i, i < n -> ps i = Ret ([], at_party i fs)) -> wpon n cap ps (script_post Ls)).
    { intros ps E. apply wpn_wpon. apply wpn_ret_ext with (a := fun i => ([], at_party i fs)); [exact E|]. right.
      exists [], [], Ls, fs. split; [reflexivity|]. split; [exact W|]. split; [constructor|]. rewrite app_nil_r. apply Permutation_refl. }
    assert (Hsome : forall k f, nth_error fs k = Some f -> exists fa fb La L gen Lb, k = length fa /\ fs = fa ++ f :: fb /\ Ls = La ++ L :: Lb /\
      length La = length fa /\ all_wf La fa /\ all_wf Lb fb /\ sm_wf n t gen L f).
    { intros k f Hk. apply nth_error_split in Hk. destruct Hk as (fa & fb & -> & <-). apply Forall2_app_inv_r in W. destruct W as (La & Lb' & W1 & W2 & ->).
      inversion W2 as [|L f' Lb fb' (gen & W3) W4]; subst. exists fa, fb, La, L, gen, Lb. repeat (split; [try reflexivity; try assumption|]); [|exact W3].
      clear -W1. induction W1; cbn; congruence. }
    assert (Hn : forall i k, nth_error (at_party i fs) k = option_map (fun f => f i) (nth_error fs k)) by (intros; apply nth_error_map).
    destruct op as [k|k num|k amount]; cbn [sop_step]; destruct (nth_error fs k) as [f|] eqn:Ef;
      try (apply Skip; intros i Hi; rewrite Hn, Ef; reflexivity);
      destruct (Hsome k f Ef) as (fa & fb & La & L & gen & Lb & -> & -> & -> & Hl & Wa & Wb & Wf).
    - apply wpon_ext with (qs := fun i => r <- get_pair (f i) ;; Ret ([fst r], set_nth (length fa) (snd r) (at_party i (fa ++ f :: fb)))).
      { intros i Hi. rewrite Hn, Ef. reflexivity. }
      apply wpon_bind. eapply wpn_mono; [|apply (get_pair_wp n2 nt hcap inj Wf)]. intros o (pq & gen' & L' & T & D & E & W').
      apply wpn_wpon. apply wpn_ret. right.
      assert (exists fresh, Permutation (L ++ fresh) (pq :: L')) as (fresh & PL).
      { inversion T as [g l p E1 E2 E3 E4 E5|g l p E0 E1 E2 E3 E4 E5]; subst.
        - exists []. rewrite app_nil_r. symmetry. apply Permutation_cons_append.
        - exists (pq :: L'). apply Permutation_refl. }
      exists [pq], fresh, (La ++ L' :: Lb), (fa ++ (fun i => snd (o i)) :: fb). split; [|split; [|split]].
      + intros i Hi. rewrite E by exact Hi. unfold at_party. rewrite !map_app. cbn [map]. rewrite <- (map_length (fun f => f i) fa). rewrite set_nth_app. reflexivity.
      + apply Forall2_app; [exact Wa|]. constructor; [exists gen'; exact W'|exact Wb].
      + constructor; [exact D|constructor].
      + rewrite !concat_app. cbn [concat app]. rewrite (Permutation_middle (concat La) _ pq).
        rewrite <- !app_assoc. apply Permutation_app_head. rewrite (Permutation_app_comm (concat Lb)), !app_assoc. rewrite PL. apply Permutation_refl.
    - apply wpon_ext with (qs := fun i => st' <- sm_buffer_triples num (f i) ;; Ret ([], set_nth (length fa) st' (at_party i (fa ++ f :: fb)))).
      { intros i Hi. rewrite Hn, Ef. reflexivity. }
      apply wpon_bind. eapply wpn_mono; [|apply (sm_buffer_triples_wp n2 nt hcap inj num Wf)]. intros st' (L' & _ & _ & W').
      apply wpn_wpon. apply wpn_ret. right. exists [], L', (La ++ (L ++ L') :: Lb), (fa ++ st' :: fb). split; [|split; [|split]].
      + intros i Hi. unfold at_party. rewrite !map_app. cbn [map]. rewrite <- (map_length (fun f => f i) fa). rewrite set_nth_app. reflexivity.
      + apply Forall2_app; [exact Wa|]. constructor; [exists gen; exact W'|exact Wb].
      + constructor.
      + rewrite !concat_app. cbn [concat app]. rewrite <- !app_assoc. apply Permutation_app_head, Permutation_app_head. apply Permutation_app_comm.
    - destruct (le_lt_dec amount (length L)) as [Ha|Ha].
      + destruct (sm_fork_ok n2 nt hcap (Seed := Seed) Wf Ha) as (c & p & E & Wc & Wp).
        apply wpn_wpon. apply wpn_ret_ext with (a := fun i => ([], at_party i ((fa ++ p :: fb) ++ [c]))).
        { intros i Hi. rewrite Hn, Ef. cbn [option_map]. rewrite E by exact Hi. unfold at_party. rewrite !map_app. cbn [map].
          rewrite <- (map_length (fun f => f i) fa). rewrite set_nth_app. reflexivity. }
        right. exists [], [], ((La ++ skipn amount L :: Lb) ++ [firstn amount L]), ((fa ++ p :: fb) ++ [c]). split; [|split; [|split]].
        * reflexivity.
        * apply Forall2_app; [apply Forall2_app; [exact Wa|]; constructor; [exists gen; exact Wp|exact Wb]|]. constructor; [exists gen; exact Wc|constructor].
        * constructor.
        * rewrite !concat_app. cbn [concat app]. rewrite !app_nil_r, <- !app_assoc. apply Permutation_app_head.
          rewrite <- (firstn_skipn amount L) at 1. rewrite <- app_assoc. rewrite (Permutation_app_comm (firstn amount L)). rewrite <- app_assoc. apply Permutation_refl.
      + apply wpon_fail with (e := Panic "not enough corr rand pairs").
        * intros i Hi. rewrite Hn, Ef. cbn [option_map]. rewrite (sm_fork_fail (Seed := Seed) Wf Ha) by exact Hi. reflexivity.
        * left. exists (Panic "not enough corr rand pairs"). reflexivity.
  Qed.
  Lemma run_script_wp ops : forall Ls fs, all_wf Ls fs -> wpon n cap (fun i => run_script ops (at_party i fs)) (script_post Ls).
  Proof.
    induction ops as [|op ops IH]; intros Ls fs W; cbn [run_script].
    - apply wpn_wpon. apply wpn_ret. right. exists [], [], Ls, fs. split; [reflexivity|]. split; [exact W|]. split; [constructor|].
      rewrite app_nil_r. apply Permutation_refl.
    - apply wpon_seq. eapply wpon_mono; [|apply (sop_step_wp op W)]. intros o [(e & He)|(h1 & fr1 & L1 & f1 & E1 & W1 & D1 & P1)].
      + apply wpon_fail with (e := e); [intros i Hi; rewrite He by exact Hi; reflexivity|]. left. exists e. reflexivity.
      + apply wpon_ext with (qs := fun i => r' <- run_script ops (at_party i f1) ;; Ret (map (evals i) h1 ++ fst r', snd r')).
        { intros i Hi. rewrite E1 by exact Hi. reflexivity. }
        apply wpon_seq. eapply wpon_mono; [|apply (IH _ _ W1)]. intros o2 [(e & He)|(h2 & fr2 & L2 & f2 & E2 & W2 & D2 & P2)].
        * apply wpon_fail with (e := e); [intros i Hi; rewrite He by exact Hi; reflexivity|]. left. exists e. reflexivity.
        * apply wpn_wpon. apply wpn_ret_ext with (a := fun i => (map (evals i) (h1 ++ h2), at_party i f2)).
          { intros i Hi. rewrite E2 by exact Hi. cbn [leaf bind fst snd]. rewrite map_app. reflexivity. }
          right. exists (h1 ++ h2), (fr1 ++ fr2), L2, f2. split; [reflexivity|]. split; [exact W2|]. split; [apply Forall_app; auto|].
          rewrite app_assoc, P1, <- !app_assoc, P2. apply Permutation_refl.
  Qed.
End History.
