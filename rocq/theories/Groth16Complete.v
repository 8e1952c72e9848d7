(** * Groth16: key, verification equation, completeness of the plain prover *)
From Coq Require Import String List Arith Bool Lia Ring.
From Verif Require Import Proc Alg Rep3Net Rep3 ShamirPoly Shamir ShamirAlg Dft Groth16 Groth16Gen.
Import ListNotations.
Set Implicit Arguments.
Unset Strict Implicit.
Local Open Scope grp_scope.
Local Open Scope list_scope.

(** ** Specification: satisfied constraint systems, the key of [Gro16], the verifier *)
Section Spec.
  Context {F : Type} {FF : Fld F}.
  Infix "*" := rmul : grp_scope.
  Notation "1" := rone : grp_scope.
  (** the value of a linear combination *)
  Definition dot (row : list (F * nat)) (z : list F) : F := fold_right (fun ci acc => fst ci * nth (snd ci) z 0 + acc) 0 row.
  Definition satisfied (m : matrices F) (z : list F) : Prop :=
    forall i, i < num_constraints m -> dot (nth i (mat_a m) []) z * dot (nth i (mat_b m) []) z = dot (nth i (mat_c m) []) z.
  Definition well_formed (m : matrices F) : Prop :=
    length (mat_a m) = num_constraints m /\ length (mat_b m) = num_constraints m /\ length (mat_c m) = num_constraints m /\
    forall rows row c ix, In rows [mat_a m; mat_b m; mat_c m] -> In row rows -> In (c, ix) row ->
      ix < num_instance_variables m + num_witness_variables m.
  (** coefficient of variable [j] in a linear combination *)
  Definition coef (row : list (F * nat)) (j : nat) : F := fold_right (fun ci acc => (if (snd ci =? j)%nat then fst ci else 0) + acc) 0 row.

  (** values that evaluate every polynomial of degree below [d] at [tau] from its values at the powers of [g] *)
  Definition lagrange_at (g : F) (n d : nat) (tau : F) (L : nat -> F) : Prop :=
    forall c, length c <= d -> sumn n (fun i => L i * peval c (fpow g i)) = peval c tau.

  Record trapdoor := mkTrap { t_tau : F; t_alpha : F; t_beta : F; t_gamma : F; t_delta : F }.
  Context {G1 G2 : Type} {AG1 : AbGrp G1} {MG1 : Mod F G1} {AG2 : AbGrp G2} {MG2 : Mod F G2}.
  Section Setup.
    Context (m : matrices F) (L : nat -> F) (hq : list F) (P1 : G1) (P2 : G2) (T : trapdoor).
    Let nc := num_constraints m.
    Let ni := num_instance_variables m.
    Let n := (2 ^ Nat.log2_up (nc + ni))%nat.
    (** the column of variable [j] in row [i] of the extended matrix: the public inputs have rows of their own in [A] *)
    Definition col_a (j i : nat) : F :=
      if (i <? nc)%nat then coef (nth i (mat_a m) []) j else if ((i - nc =? j) && (j <? ni))%nat then 1 else 0.
    Definition col (rows : list (list (F * nat))) (j i : nat) : F := coef (nth i rows []) j.
    Definition at_tau (c : nat -> F) : F := sumn n (fun i => L i * c i).
    Definition key_a (j : nat) : F := at_tau (col_a j).
    Definition key_b (j : nat) : F := at_tau (col (mat_b m) j).
    Definition key_c (j : nat) : F := at_tau (col (mat_c m) j).
    Definition key_abc (j : nat) : F := t_beta T * key_a j + t_alpha T * key_b j + key_c j.
    Definition setup : pkey G1 G2 :=
      let nv := (ni + num_witness_variables m)%nat in
      mkPk (smul (t_alpha T) P1) (smul (t_beta T) P1) (smul (t_beta T) P2) (smul (t_gamma T) P2) (smul (t_delta T) P1) (smul (t_delta T) P2)
        (map (fun j => smul (finv (t_gamma T) * key_abc j) P1) (seq 0 ni))
        (map (fun j => smul (key_a j) P1) (seq 0 nv))
        (map (fun j => smul (key_b j) P1) (seq 0 nv))
        (map (fun j => smul (key_b j) P2) (seq 0 nv))
        (map (fun c => smul (finv (t_delta T) * c) P1) hq)
        (map (fun j => smul (finv (t_delta T) * key_abc j) P1) (seq ni (num_witness_variables m))).
  End Setup.
  (** the scalars of the [h_query]: snarkjs (Lagrange basis of the domain of twice the size, odd positions) and libsnark *)
  Definition circom_hq (n : nat) (L2 : nat -> F) : list F := map (fun j => L2 (2 * j + 1)%nat) (seq 0 n).
  Definition libsnark_hq (n : nat) (tau : F) : list F := map (fun j => fpow tau j * (fpow tau n - 1)) (seq 0 (n - 1)).

  (** ark_groth16 [verify_proof] after [prepare_verifying_key], called by verifier.rs:17-33 *)
  Context {GT : Type} {AGT : AbGrp GT} {MGT : Mod F GT}.
  Definition verify (e : G1 -> G2 -> GT) (pk : pkey G1 G2) (public_inputs : list F) (p : proof G1 G2) : outcome Prop :=
    match gamma_abc_g1 pk with
    | ic0 :: ics =>
        if (length public_inputs =? length ics)%nat
        then Done (e (pf_a p) (pf_b p) = e (alpha_g1 pk) (beta_g2 pk) + e (ic0 + msm ics public_inputs) (gamma_g2 pk) + e (pf_c p) (delta_g2 pk))
        else Failed (Eyre "malformed verifying key")
    | [] => Failed (Eyre "malformed verifying key")
    end.
  Record pairing (e : G1 -> G2 -> GT) : Prop := {
    pair_smul : forall a b x y, e (smul a x) (smul b y) = smul (a * b) (e x y) }.
End Spec.

Section Proofs.
  Context {F : Type} {FF : Fld F} {FT : Fft F}.
  Add Ring FringC : (@cring_theory F _).
  Infix "*" := rmul : grp_scope.
  Notation "1" := rone : grp_scope.
  Context {G1 G2 : Type} {AG1 : AbGrp G1} {MG1 : Mod F G1} {AG2 : AbGrp G2} {MG2 : Mod F G2}.
  Notation PD := (plain_driver (F := F) (G1 := G1) (G2 := G2)).

  (** ** Rows *)
  Lemma dot_coef row (z : list F) : (forall c ix, In (c, ix) row -> ix < length z) -> dot row z = sumn (length z) (fun j => coef row j * nth j z 0).
  Proof.
    induction row as [|[c ix] row IH]; intros B; cbn [dot coef fold_right fst snd].
    - symmetry. apply sumn_0. intros k _. ring.
    - fold (dot row z). rewrite IH by (intros; eapply B; right; eassumption).
      transitivity (sumn (length z) (fun j => (if (ix =? j)%nat then c else 0) * nth j z 0 + coef row j * nth j z 0));
        [|apply sumn_ext; intros j _; fold (coef row j); ring].
      rewrite sumn_add. f_equal. rewrite (@sumn_delta _ _ (length z) _ ix).
      + rewrite Nat.eqb_refl. reflexivity.
      + eapply B. left. reflexivity.
      + intros k _ Hk. destruct (Nat.eqb_spec ix k); [congruence|ring].
  Qed.
  Lemma eval_dot pub wit row : (forall c ix, In (c, ix) row -> ix < length (pub ++ wit)) -> forall acc,
    evaluate_constraint PD pub wit row acc = Done (acc + dot row (pub ++ wit)).
  Proof.
    induction row as [|[c ix] row IH]; intros B acc; cbn [evaluate_constraint dot fold_right fst snd].
    - f_equal. ring.
    - fold (dot row (pub ++ wit)). pose proof (B c ix (or_introl eq_refl)) as Bx. rewrite app_length in Bx.
      destruct (nth_error pub ix) as [v|] eqn:E.
      + rewrite IH by (intros; eapply B; right; eassumption). f_equal. cbn. assert (Lx : ix < length pub) by (apply nth_error_Some; congruence).
        rewrite app_nth1 by exact Lx. rewrite (nth_error_nth _ _ 0 E). ring.
      + apply nth_error_None in E. destruct (nth_error wit (ix - length pub)) as [w|] eqn:Ew.
        * rewrite IH by (intros; eapply B; right; eassumption). f_equal. cbn. rewrite app_nth2 by exact E. rewrite (nth_error_nth _ _ 0 Ew). ring.
        * apply nth_error_None in Ew. lia.
  Qed.
  Lemma eval_half_dot pub wit row : (forall c ix, In (c, ix) row -> ix < length (pub ++ wit)) -> forall acc,
    evaluate_constraint_half PD pub wit row acc = Done (acc + dot row (pub ++ wit)).
  Proof.
    induction row as [|[c ix] row IH]; intros B acc; cbn [evaluate_constraint_half dot fold_right fst snd].
    - f_equal. ring.
    - fold (dot row (pub ++ wit)). pose proof (B c ix (or_introl eq_refl)) as Bx. rewrite app_length in Bx.
      destruct (nth_error pub ix) as [v|] eqn:E.
      + rewrite IH by (intros; eapply B; right; eassumption). f_equal. cbn. assert (Lx : ix < length pub) by (apply nth_error_Some; congruence).
        rewrite app_nth1 by exact Lx. rewrite (nth_error_nth _ _ 0 E). ring.
      + apply nth_error_None in E. destruct (nth_error wit (ix - length pub)) as [w|] eqn:Ew.
        * rewrite IH by (intros; eapply B; right; eassumption). f_equal. cbn. rewrite app_nth2 by exact E. rewrite (nth_error_nth _ _ 0 Ew). ring.
        * apply nth_error_None in Ew. lia.
  Qed.
  Lemma traverse_done {A B} (f : A -> outcome B) (g : A -> B) l : (forall a, In a l -> f a = Done (g a)) -> traverse f l = Done (map g l).
  Proof. induction l as [|a l IH]; intros K; [reflexivity|]. cbn. rewrite K by (left; reflexivity). cbn. rewrite IH by (intros; apply K; right; assumption). reflexivity. Qed.
  Lemma rows_dot n rows pub wit : (forall row c ix, In row rows -> In (c, ix) row -> ix < length (pub ++ wit)) ->
    evaluate_rows PD n rows pub wit = Done (resize n 0 (map (fun row => dot row (pub ++ wit)) rows)).
  Proof.
    intros B. unfold evaluate_rows. rewrite (traverse_done (g := fun row => dot row (pub ++ wit))); [reflexivity|].
    intros row Hr. rewrite eval_dot by (intros; eapply B; eassumption). f_equal. ring.
  Qed.
  Lemma rows_half_dot n rows pub wit : (forall row c ix, In row rows -> In (c, ix) row -> ix < length (pub ++ wit)) ->
    evaluate_rows_half PD n rows pub wit = Done (resize n 0 (map (fun row => dot row (pub ++ wit)) rows)).
  Proof.
    intros B. unfold evaluate_rows_half. rewrite (traverse_done (g := fun row => dot row (pub ++ wit))); [reflexivity|].
    intros row Hr. rewrite eval_half_dot by (intros; eapply B; eassumption). f_equal. ring.
  Qed.
  Lemma nth_resize n (l : list F) i : i < n -> nth i (resize n 0 l) 0 = nth i l 0.
  Proof.
    intros L. unfold resize. destruct (Nat.lt_ge_cases i (length l)) as [Li|Li].
    - rewrite app_nth1 by (rewrite firstn_length; lia). revert i l L Li. induction n as [|n IH]; intros i l L Li; [lia|].
      destruct l as [|x l]; [cbn in Li; lia|]. destruct i as [|i]; [reflexivity|]. cbn in *. apply IH; lia.
    - rewrite (nth_overflow l) by exact Li. rewrite app_nth2 by (rewrite firstn_length; lia). rewrite firstn_length.
      generalize (i - Nat.min n (length l))%nat as a, (n - length l)%nat as b. intros a b. revert a. induction b; intros [|a]; cbn; auto.
  Qed.
  Lemma nth_firstn n (l : list F) i d : i < n -> nth i (firstn n l) d = nth i l d.
  Proof. revert i l. induction n as [|n IH]; intros i l L; [lia|]. destruct l as [|x l]; [destruct i; reflexivity|]. destruct i as [|i]; [reflexivity|]. cbn. apply IH. lia. Qed.
  Lemma nth_skipn n (l : list F) i d : nth i (skipn n l) d = nth (n + i) l d.
  Proof. revert l. induction n as [|n IH]; intros l; [reflexivity|]. destruct l as [|x l]; [destruct i; reflexivity|]. apply IH. Qed.
  Lemma nth_map2 {A B C} (f : A -> B -> C) : forall a b i da db dc, length a = length b -> i < length a -> nth i (map2 f a b) dc = f (nth i a da) (nth i b db).
  Proof. induction a as [|x a IH]; intros [|y b] i da db dc L Li; cbn in *; try lia. destruct i; [reflexivity|]. apply IH; lia. Qed.
  Lemma msm_map {X G} {AG : AbGrp G} {MG : Mod F G} (f : X -> F) (P : G) : forall (l : list X) (d : X) (xs : list F),
    msm (map (fun j => smul (f j) P) l) xs = smul (sumn (Nat.min (length l) (length xs)) (fun i => f (nth i l d) * nth i xs 0)) P.
  Proof.
    induction l as [|x l IH]; intros d xs; [symmetry; apply smul_0_l|]. destruct xs as [|y xs]; [symmetry; apply smul_0_l|].
    cbn [map msm length]. rewrite (IH d). rewrite <- Nat.succ_min_distr, sumn_first. cbn [nth]. rewrite smul_add_l, <- smul_mul. f_equal. f_equal. ring.
  Qed.
  Lemma sumn_split {G} {AG : AbGrp G} n k (f : nat -> G) : sumn (n + k) f = sumn n f + sumn k (fun i => f (n + i)%nat).
  Proof. induction k as [|k IH]; [rewrite Nat.add_0_r; cbn; grp|]. rewrite Nat.add_succ_r. cbn. rewrite IH. grp. Qed.
  Lemma sumn_scale n (c : F) f : sumn n (fun i => c * f i) = c * sumn n f.
  Proof. symmetry. exact (smul_sumn (G := F) n c f). Qed.
  Lemma sumn_sub n (f g : nat -> F) : sumn n (fun i => f i - g i) = sumn n f - sumn n g.
  Proof. induction n as [|n IH]; cbn; [ring|]. rewrite IH. ring. Qed.

  (** ** The polynomials at the secret point *)
  Section Fixed.
    Context (m : matrices F) (pub wit : list F).
    Let nc := num_constraints m.
    Let ni := num_instance_variables m.
    Let nw := num_witness_variables m.
    Let k := Nat.log2_up (nc + ni).
    Let n := (2 ^ k)%nat.
    Let z := pub ++ wit.
    Context (Wf : well_formed m) (Lp : length pub = ni) (Lw : length wit = nw).
    Definition val_a : list F := with_public PD nc ni (resize n 0 (map (fun row => dot row z) (mat_a m))) pub.
    Definition val_b : list F := resize n 0 (map (fun row => dot row z) (mat_b m)).
    Definition val_c : list F := resize n 0 (map (fun row => dot row z) (mat_c m)).
    Lemma dom_ge : nc + ni <= n.
    Proof. apply domain_ge. Qed.
    Lemma len_a : length val_a = n.
    Proof. apply with_public_length; [apply resize_length|exact dom_ge|exact Lp]. Qed.
    Lemma len_b : length val_b = n.  Proof. apply resize_length. Qed.
    Lemma len_c : length val_c = n.  Proof. apply resize_length. Qed.
    Lemma len_z : length z = (ni + nw)%nat.
    Proof. unfold z. rewrite app_length. lia. Qed.
    Lemma in_bound rows row c ix : In rows [mat_a m; mat_b m; mat_c m] -> In row rows -> In (c, ix) row -> ix < length z.
    Proof. intros A B C. rewrite len_z. destruct Wf as (_ & _ & _ & K). eapply K; eassumption. Qed.
    Lemma nth_rows rows i : In rows [mat_a m; mat_b m; mat_c m] -> i < n ->
      nth i (resize n 0 (map (fun row => dot row z) rows)) 0 = sumn (ni + nw) (fun j => col rows j i * nth j z 0).
    Proof.
      intros Hr Li. rewrite nth_resize by exact Li. rewrite <- len_z. destruct (Nat.lt_ge_cases i (length rows)) as [L|L].
      - rewrite (nth_indep _ 0 (dot [] z)) by (rewrite map_length; exact L). rewrite (map_nth (fun row => dot row z)). apply dot_coef.
        intros c ix Hc. eapply in_bound; [exact Hr|apply nth_In; exact L|exact Hc].
      - rewrite nth_overflow by (rewrite map_length; exact L). symmetry. apply sumn_0. intros j _. unfold col. rewrite nth_overflow by exact L. cbn. ring.
    Qed.
    Lemma nth_a i : i < n -> nth i val_a 0 = sumn (ni + nw) (fun j => col_a m j i * nth j z 0).
    Proof.
      intros Li. unfold val_a, with_public. assert (DG := dom_ge).
      assert (L1 : length (firstn nc (resize n 0 (map (fun row => dot row z) (mat_a m)))) = nc) by (rewrite firstn_length, resize_length; lia).
      unfold col_a. fold nc ni. destruct (Nat.ltb_spec i nc) as [L|L].
      - rewrite app_nth1 by (rewrite L1; exact L). rewrite nth_firstn by exact L. rewrite nth_rows; [reflexivity|cbn; auto|exact Li].
      - rewrite app_nth2 by (rewrite L1; exact L). rewrite L1. destruct (Nat.lt_ge_cases (i - nc) ni) as [L2|L2].
        + rewrite app_nth1 by (rewrite map_length; lia). cbn [drv_promote PD plain_driver]. rewrite map_id.
          rewrite (@sumn_delta _ _ _ _ (i - nc)%nat).
          * rewrite Nat.eqb_refl. rewrite (proj2 (Nat.ltb_lt _ _) L2). cbn [andb]. unfold z. rewrite app_nth1 by lia. ring.
          * lia.
          * intros j _ Hj. destruct (Nat.eqb_spec (i - nc) j); [congruence|]. cbn [andb]. ring.
        + rewrite app_nth2 by (rewrite map_length; lia). rewrite map_length, Lp, nth_skipn, nth_resize by lia.
          rewrite nth_overflow by (rewrite map_length; destruct Wf as (-> & _); fold nc; lia). symmetry. apply sumn_0. intros j _.
          destruct (Nat.eqb_spec (i - nc) j); [|cbn; ring]. destruct (Nat.ltb_spec j ni); [lia|cbn; ring].
    Qed.
    Lemma sat_points : satisfied m z -> map2 rmul val_a val_b = val_c.
    Proof.
      intros Sat. apply (list_ext 0).
      - rewrite map2_length, len_a, len_b, len_c. lia.
      - rewrite map2_length, len_a, len_b, Nat.min_id. intros i Li.
        rewrite (@nth_map2 _ _ _ rmul val_a val_b i 0 0 0) by (rewrite ?len_a, ?len_b; auto).
        assert (NB : forall rows, length rows = nc -> nth i (resize n 0 (map (fun row => dot row z) rows)) 0 = if (i <? nc)%nat then dot (nth i rows []) z else 0).
        { intros rows Lr. rewrite nth_resize by exact Li. destruct (Nat.ltb_spec i nc) as [L|L].
          - rewrite (nth_indep _ 0 (dot [] z)) by (rewrite map_length, Lr; exact L). apply (map_nth (fun row => dot row z)).
          - apply nth_overflow. rewrite map_length, Lr. exact L. }
        destruct Wf as (La & Lb & Lc & _). unfold val_b, val_c. rewrite !NB by assumption.
        destruct (Nat.ltb_spec i nc) as [L|L]; [|ring]. rewrite <- Sat by exact L. f_equal.
        unfold val_a, with_public. rewrite app_nth1 by (rewrite firstn_length, resize_length; pose proof dom_ge; lia).
        rewrite nth_firstn by exact L. rewrite NB by exact La. reflexivity.
    Qed.

    Context (g : F) (Rg : root g n).
    Definition pa : list F := idft g n val_a.
    Definition pb : list F := idft g n val_b.
    Definition pc : list F := idft g n val_c.
    (** [A B - C] *)
    Definition pq : list F := padd (pmul pa pb) (map gneg pc).
    Lemma peval_pq x : peval pq x = peval pa x * peval pb x - peval pc x.
    Proof. unfold pq. rewrite peval_padd, peval_pmul, peval_map_neg. reflexivity. Qed.
    Lemma npos : 0 < n.
    Proof. clear. unfold n. apply Nat.neq_0_lt_0. apply Nat.pow_nonzero. discriminate. Qed.
    Lemma length_pq : length pq <= 2 * n - 1.
    Proof.
      clear Wf Lp Lw Rg. unfold pq. rewrite length_padd, map_length. unfold pc. rewrite idft_length. pose proof npos.
      pose proof (@length_pmul F F _ _ _ pa pb (n - 1) (n - 1)) as K. unfold pa, pb in *. rewrite !idft_length in K. lia.
    Qed.
    Lemma pq_roots i : satisfied m z -> i < n -> peval pq (fpow g i) = 0.
    Proof.
      intros Sat Li. rewrite peval_pq. unfold pa, pb, pc. rewrite !idft_points by (try exact Rg; try exact Li; apply len_a || apply len_b || apply len_c).
      rewrite <- (sat_points Sat). rewrite (@nth_map2 _ _ _ rmul val_a val_b i 0 0 0) by (rewrite ?len_a, ?len_b; auto). ring.
    Qed.
    Context (tau : F) (L : nat -> F) (HL : lagrange_at g n n tau L).
    Lemma at_tau_swap (c : nat -> nat -> F) (v : list F) : length v = n -> (forall i, i < n -> nth i v 0 = sumn (ni + nw) (fun j => c j i * nth j z 0)) ->
      sumn (ni + nw) (fun j => at_tau m L (c j) * nth j z 0) = peval (idft g n v) tau.
    Proof.
      intros Lv E. rewrite <- (HL (c := idft g n v)) by (rewrite idft_length; lia).
      transitivity (sumn (ni + nw) (fun j => sumn n (fun i => L i * c j i * nth j z 0))).
      { apply sumn_ext. intros j _. unfold at_tau. fold nc ni k n. rewrite (rmul_comm (sumn _ _)). rewrite <- sumn_scale. apply sumn_ext. intros i _. ring. }
      rewrite sumn_swap. apply sumn_ext. intros i Li. rewrite idft_points by assumption. rewrite E by exact Li. rewrite <- sumn_scale.
      apply sumn_ext. intros j _. ring.
    Qed.
    Lemma a_tau : sumn (ni + nw) (fun j => key_a m L j * nth j z 0) = peval pa tau.
    Proof. apply at_tau_swap; [exact len_a|exact nth_a]. Qed.
    Lemma b_tau : sumn (ni + nw) (fun j => key_b m L j * nth j z 0) = peval pb tau.
    Proof. apply at_tau_swap; [exact len_b|]. intros i Li. apply nth_rows; [cbn; auto|exact Li]. Qed.
    Lemma c_tau : sumn (ni + nw) (fun j => key_c m L j * nth j z 0) = peval pc tau.
    Proof. apply at_tau_swap; [exact len_c|]. intros i Li. apply nth_rows; [cbn; auto|exact Li]. Qed.
  End Fixed.

  Lemma nodup_app {A} (a b : list A) : NoDup a -> NoDup b -> (forall x, In x a -> In x b -> False) -> NoDup (a ++ b).
  Proof.
    induction a as [|x a IH]; intros NA NB D; [exact NB|]. inversion NA; subst. cbn. constructor.
    - rewrite in_app_iff. intros [I|I]; [contradiction|]. apply (D x); [left; reflexivity|exact I].
    - apply IH; auto. intros y Y1 Y2. apply (D y); [right; exact Y1|exact Y2].
  Qed.
  Lemma peval_shift (c : list F) n x : peval (repeat 0 n ++ c) x = fpow x n * peval c x.
  Proof. induction n as [|n IH]; cbn; [ring|]. rewrite IH. cbn. ring. Qed.
  (** ** The quotient: circom *)
  Section Maps.
    Context (m : matrices F) (pub wit : list F) (fuel threads : nat).
    Let nc := num_constraints m.
    Let ni := num_instance_variables m.
    Let nw := num_witness_variables m.
    Let k := Nat.log2_up (nc + ni).
    Let n := (2 ^ k)%nat.
    Let z := pub ++ wit.
    Context (Wf : well_formed m) (Lp : length pub = ni) (Lw : length wit = nw) (Sat : satisfied m z).
    Lemma shifted_coset (g s : F) (v : list F) : shifted g k (bit_reversed_coset_table threads s k) v = coset_eval g s k v.
    Proof. rewrite table_eq. reflexivity. Qed.
    Lemma a_rows : evaluate_rows PD n (mat_a m) pub wit = Done (resize n 0 (map (fun row => dot row z) (mat_a m))).
    Proof. apply rows_dot. intros row c ix A B. eapply in_bound; try eassumption. cbn; auto. Qed.
    Lemma b_rows : evaluate_rows PD n (mat_b m) pub wit = Done (val_b m pub wit).
    Proof. apply rows_dot. intros row c ix A B. eapply in_bound; try eassumption. cbn; auto. Qed.
    Lemma c_rows : evaluate_rows_half PD n (mat_c m) pub wit = Done (val_c m pub wit).
    Proof. apply rows_half_dot. intros row c ix A B. eapply in_bound; try eassumption. cbn; auto. Qed.

    Lemma circom_map g w st : k <= two_adicity -> groth16_roots_of_unity fuel k = Some (g, w) ->
      exists h, circom_witness_map PD fuel threads m pub wit st = Done (h, st) /\ length h = n /\
        (forall i, i < n -> nth i h 0 = peval (pq m pub wit g) (w * fpow g i)).
    Proof.
      intros K Rt. unfold circom_witness_map. fold nc ni k n. rewrite (proj2 (Nat.ltb_ge _ _) K). rewrite Rt.
      rewrite !a_rows, !b_rows. cbn [obd]. cbn [drv_local_mul_vec plain_driver obd fst snd]. rewrite !shifted_coset.
      change (with_public (plain_driver (F := F) (G1 := G1) (G2 := G2)) nc ni (resize n 0 (map (fun row => dot row z) (mat_a m))) pub) with (val_a m pub wit).
      rewrite (sat_points Wf Lp Lw Sat). eexists. split; [reflexivity|].
      assert (LM : length (map2 rmul (coset_eval g w k (val_a m pub wit)) (coset_eval g w k (val_b m pub wit))) = n) by (rewrite map2_length, !coset_eval_length; unfold n; lia).
      split.
      - rewrite map2_length, LM, coset_eval_length. unfold n. lia.
      - intros i Li. rewrite (@nth_map2 _ _ _ gsub _ _ i 0 0 0) by (rewrite LM, ?coset_eval_length; auto).
        rewrite (@nth_map2 _ _ _ rmul _ _ i 0 0 0) by (rewrite !coset_eval_length; auto).
        rewrite !coset_eval_nth by exact Li. rewrite peval_pq. reflexivity.
    Qed.
    Lemma circom_quotient g w tau L2 st : k <= two_adicity -> groth16_roots_of_unity fuel k = Some (g, w) -> root g n -> g = w * w ->
      lagrange_at w (2 * n) (2 * n - 1) tau L2 ->
      exists h, circom_witness_map PD fuel threads m pub wit st = Done (h, st) /\
        sumn (Nat.min (length (circom_hq n L2)) (length h)) (fun i => nth i (circom_hq n L2) 0 * nth i h 0) = peval (pq m pub wit g) tau.
    Proof.
      intros K Rt Rg Gw HL. destruct (circom_map st K Rt) as (h & E & Lh & Nh). exists h. split; [exact E|].
      unfold circom_hq at 1. rewrite map_length, seq_length, Lh, Nat.min_id.
      assert (LQ := @length_pq m pub wit g). fold nc ni k n in LQ. rewrite <- (HL _ LQ).
      assert (S2 : forall q (f : nat -> F), sumn (2 * q) f = sumn q (fun i => f (2 * i)%nat) + sumn q (fun i => f (2 * i + 1)%nat)).
      { induction q as [|q IH]; intros f; [cbn; ring|]. replace (2 * S q)%nat with (S (S (2 * q))) by lia. cbn [sumn]. rewrite IH.
        replace (2 * q + 1)%nat with (S (2 * q)) by lia. ring. }
      rewrite S2. rewrite (@sumn_0 F _ n (fun i => L2 (2 * i)%nat * peval (pq m pub wit g) (fpow w (2 * i)))).
      - assert (Z0 : forall x : F, 0 + x = x) by (intros; ring). rewrite Z0. apply sumn_ext. intros i Li. unfold circom_hq.
        rewrite (@nth_map_seq F (fun j => L2 (2 * j + 1)%nat)) by exact Li. rewrite Nh by exact Li. f_equal. f_equal.
        rewrite fpow_add, fpow_mul. replace (fpow w 2) with g by (rewrite Gw; cbn; ring). cbn. ring.
      - intros i Li. rewrite fpow_mul. replace (fpow w 2) with g by (rewrite Gw; cbn; ring).
        rewrite (pq_roots Wf Lp Lw Rg Sat Li). ring.
    Qed.

    (** ** The quotient: libsnark *)
    Lemma libsnark_quotient tau st : k <= two_adicity -> root (ark_root k) n -> fgenerator <> 0 -> fpow fgenerator n <> 1 ->
      exists h, libsnark_witness_map PD threads m pub wit st = Done (h, st) /\
        sumn (Nat.min (length (libsnark_hq n tau)) (length h)) (fun i => nth i (libsnark_hq n tau) 0 * nth i h 0) = peval (pq m pub wit (ark_root k)) tau.
    Proof.
      intros K Rg G0 Gn. unfold libsnark_witness_map. fold nc ni k n. rewrite (proj2 (Nat.ltb_ge _ _) K).
      rewrite !a_rows, !b_rows, !c_rows. cbn [obd]. cbn [drv_local_mul_vec plain_driver obd fst snd]. rewrite !shifted_coset.
      change (with_public (plain_driver (F := F) (G1 := G1) (G2 := G2)) nc ni (resize n 0 (map (fun row => dot row z) (mat_a m))) pub) with (val_a m pub wit).
      set (g := ark_root k) in *. set (s := fgenerator) in *. set (v := fpow s n - 1).
      assert (V0 : v <> 0). { unfold v. intro E. apply Gn. transitivity (fpow s n - 1 + 1); [ring|rewrite E; ring]. }
      rewrite (feqb_0 V0), (feqb_0 G0). cbn [orb].
      set (q := map2 (fun x y : F => (x - y) * finv v) (map2 rmul (coset_eval g s k (val_a m pub wit)) (coset_eval g s k (val_b m pub wit))) (coset_eval g s k (val_c m pub wit))).
      assert (LM : length (map2 rmul (coset_eval g s k (val_a m pub wit)) (coset_eval g s k (val_b m pub wit))) = n) by (rewrite map2_length, !coset_eval_length; unfold n; lia).
      assert (Lq : length q = n) by (unfold q; rewrite map2_length, LM, coset_eval_length; unfold n; lia).
      assert (Nq : forall i, i < n -> nth i q 0 = peval (pq m pub wit g) (s * fpow g i) * finv v).
      { intros i Li. unfold q. rewrite (@nth_map2 _ _ _ (fun x y : F => (x - y) * finv v) _ _ i 0 0 0) by (rewrite LM, ?coset_eval_length; auto).
        rewrite (@nth_map2 _ _ _ rmul _ _ i 0 0 0) by (rewrite !coset_eval_length; auto).
        rewrite !coset_eval_nth by exact Li. rewrite peval_pq. reflexivity. }
      unfold ifft_in_to_out. fold n. rewrite bit_reverse_invol by apply idft_length. rewrite chunked_powers_eq.
      set (h := map2 rmul (idft g n q) (map (fpow (finv s)) (seq 0 n))). exists h. split; [reflexivity|].
      assert (Lh : length h = n) by (unfold h; rewrite map2_length, idft_length, map_length, seq_length; lia).
      assert (Eh : forall x, peval h x = peval (idft g n q) (finv s * x)).
      { intros x. rewrite <- (@peval_scale F F _ _ _ (idft g n q) (finv s) x n) by apply idft_length. f_equal.
        unfold h. generalize (idft g n q) (map (fpow (finv s)) (seq 0 n)). clear. induction l as [|a l IH]; intros [|b l']; cbn; [reflexivity..|].
        rewrite IH. f_equal. ring. }
      set (Dl := padd (pq m pub wit g) (padd (repeat 0 n ++ map gneg h) h)).
      assert (ED : forall x, peval Dl x = peval (pq m pub wit g) x - (fpow x n - 1) * peval h x).
      { intros x. unfold Dl. rewrite !peval_padd, peval_shift, peval_map_neg. ring. }
      assert (NP : 0 < n) by exact (npos m).
      assert (LPq : length (pq m pub wit g) <= 2 * n - 1) by exact (length_pq m pub wit g).
      assert (LD : length Dl <= 2 * n) by (unfold Dl; rewrite !length_padd, app_length, map_length, repeat_length, Lh; lia).
      set (xs := map (fun i => 1 * fpow g i) (seq 0 n) ++ map (fun i => s * fpow g i) (seq 0 n)).
      assert (One : (1 : F) <> 0) by apply f_1_neq_0.
      assert (Gpow : forall i, fpow (fpow g i) n = 1).
      { intros i. rewrite <- fpow_mul, Nat.mul_comm, fpow_mul, (root_n Rg), fpow_1. reflexivity. }
      assert (NX : NoDup xs).
      { apply nodup_app; [apply nodup_powers; assumption|apply nodup_powers; assumption|]. intros x X1 X2.
        apply in_map_iff in X1. destruct X1 as (i & X1 & _). apply in_map_iff in X2. destruct X2 as (j & X2 & _). apply Gn.
        transitivity (fpow x n).
        - rewrite <- X2, fpow_mul_l, Gpow. ring.
        - rewrite <- X1, fpow_mul_l, Gpow, fpow_1. ring. }
      assert (LX : length xs = (2 * n)%nat) by (unfold xs; rewrite app_length, !map_length, !seq_length; lia).
      assert (ZX : forall x, In x xs -> peval Dl x = 0).
      { intros x X. rewrite ED. unfold xs in X. apply in_app_iff in X. destruct X as [X|X]; apply in_map_iff in X; destruct X as (i & <- & I); apply in_seq in I.
        - replace (1 * fpow g i) with (fpow g i) by ring. rewrite Gpow. rewrite (pq_roots Wf Lp Lw Rg Sat (proj2 I)). ring.
        - rewrite Eh. replace (finv s * (s * fpow g i)) with (fpow g i).
          + rewrite idft_points by (assumption || lia). rewrite Nq by lia. rewrite fpow_mul_l, Gpow. replace (fpow s n * 1 - 1) with v by (unfold v; ring).
            transitivity (peval (pq m pub wit g) (s * fpow g i) - peval (pq m pub wit g) (s * fpow g i) * (v * finv v)); [ring|]. rewrite finv_r by exact V0. ring.
          + transitivity ((s * finv s) * fpow g i); [rewrite finv_r by exact G0; ring|ring]. }
      assert (Top : nth (n - 1) h 0 = 0).
      { assert (T0 : nth (2 * n - 1) Dl 0 = 0) by (apply (@top_zero F F _ _ _ xs); try assumption; lia).
        unfold Dl in T0. rewrite !nth_padd in T0. rewrite (nth_overflow (pq m pub wit g)) in T0 by lia. rewrite (nth_overflow h) in T0 by lia.
        rewrite app_nth2 in T0 by (rewrite repeat_length; lia). rewrite repeat_length in T0. replace (2 * n - 1 - n)%nat with (n - 1)%nat in T0 by lia.
        rewrite (nth_indep _ 0 (- 0)) in T0 by (rewrite map_length; lia). rewrite map_nth in T0.
        transitivity (- (0 + (- nth (n - 1) h 0 + 0))); [ring|rewrite T0; ring]. }
      assert (Fin : peval (pq m pub wit g) tau = (fpow tau n - 1) * peval h tau).
      { assert (Z := @peval_roots F F _ _ _ xs Dl NX ltac:(lia) ZX tau). rewrite ED in Z.
        transitivity (peval (pq m pub wit g) tau - (fpow tau n - 1) * peval h tau + (fpow tau n - 1) * peval h tau); [ring|rewrite Z; ring]. }
      rewrite Fin. unfold libsnark_hq at 1. rewrite map_length, seq_length, Lh. replace (Nat.min (n - 1) n) with (n - 1)%nat by lia.
      assert (SS : forall f : nat -> F, sumn n f = sumn (n - 1) f + f (n - 1)%nat) by (intros f; replace n with (S (n - 1)) at 1 by lia; reflexivity).
      rewrite peval_sumn, Lh, SS, Top.
      transitivity ((fpow tau n - 1) * sumn (n - 1) (fun j => smul (fpow tau j) (nth j h 0))).
      - rewrite <- sumn_scale. apply sumn_ext. intros i Li. unfold libsnark_hq.
        rewrite (@nth_map_seq F (fun j => fpow tau j * (fpow tau n - 1))) by lia. cbn. ring.
      - rewrite smul_0_r. ring.
    Qed.
  End Maps.

  (** ** The three proof elements *)
  Lemma msm_app {G} {AG : AbGrp G} {MG : Mod F G} (l : list G) (x y : list F) : length x <= length l ->
    msm (firstn (length x) l) x + msm (skipn (length x) l) y = msm l (x ++ y).
  Proof.
    revert l. induction x as [|a x IH]; intros l Lx; [cbn; grp|]. destruct l as [|p l]; [cbn in Lx; lia|]. cbn in *.
    rewrite <- IH by lia. grp.
  Qed.
  Lemma coeff_plain {G} {AG : AbGrp G} {MG : Mod F G} (f : nat -> F) (P : G) i0 vk input wit ni nw :
    length (1 :: input) = ni -> length wit = nw ->
    calculate_coeff PD (smul i0 P) (map (fun j => smul (f j) P) (seq 0 (ni + nw))) (smul vk P) input wit =
    Done (smul (vk + sumn (ni + nw) (fun j => f j * nth j ((1 :: input) ++ wit) 0) + i0) P).
  Proof.
    intros Lp Lw. unfold calculate_coeff. destruct ni as [|ni]; [discriminate|]. cbn in Lp. injection Lp as Lp.
    cbn [Nat.add seq map]. rewrite map_length, seq_length. rewrite (proj2 (Nat.ltb_ge _ _)) by lia. cbn [drv_adds plain_driver]. f_equal.
    transitivity (smul i0 P + smul vk P + (smul (f O) P + (msm (firstn (length input) (map (fun j => smul (f j) P) (seq 1 (ni + nw)))) input
      + msm (skipn (length input) (map (fun j => smul (f j) P) (seq 1 (ni + nw)))) wit))); [grp|].
    rewrite msm_app by (rewrite map_length, seq_length; lia). rewrite (@msm_map nat G _ _ f P (seq 1 (ni + nw)) O).
    rewrite seq_length, app_length. replace (Nat.min _ _) with (ni + nw)%nat by lia. rewrite sumn_first. rewrite <- !smul_add_l. f_equal.
    assert (E : sumn (ni + nw) (fun i => f (nth i (seq 1 (ni + nw)) O) * nth i (input ++ wit) 0) = sumn (ni + nw) (fun k => f (S k) * nth (S k) ((1 :: input) ++ wit) 0)).
    { apply sumn_ext. intros k Hk. rewrite seq_nth by exact Hk. reflexivity. }
    rewrite E. cbn [app nth]. ring.
  Qed.
  Lemma plain_form R fuel threads m L hq (P1 : G1) (P2 : G2) T pub wit r s h st :
    length pub = num_instance_variables m -> length wit = num_witness_variables m -> nth_error pub 0 = Some 1 ->
    witness_map R PD fuel threads m pub wit [r; s] = Done (h, st) -> st = [r; s] ->
    let ni := num_instance_variables m in let nw := num_witness_variables m in
    let key f := sumn (ni + nw) (fun j => f j * nth j (pub ++ wit) 0) in
    let A := t_alpha T + key (key_a m L) + r * t_delta T in
    let B := t_beta T + key (key_b m L) + s * t_delta T in
    plain_prove R fuel threads (setup m L hq P1 P2 T) m pub wit r s =
    Done (mkProof (smul A P1) (smul B P2)
      (smul (s * A + B * r - r * s * t_delta T + sumn nw (fun j => finv (t_delta T) * key_abc m L T (ni + j) * nth j wit 0)
             + sumn (Nat.min (length hq) (length h)) (fun j => finv (t_delta T) * nth j hq 0 * nth j h 0)) P1)).
  Proof.
    intros Lp Lw One W ->. cbn zeta. destruct pub as [|o input]; [discriminate|]. injection One as ->.
    unfold plain_prove, prove_inner. rewrite Lp, Lw, !Nat.eqb_refl. cbn [negb]. rewrite W. cbn [leaf bind fst snd plain_driver drv_rand pop].
    unfold create_proof. cbn [drv_to_half_share drv_local_mul_vec drv_open_1 drv_open_2 drv_scalar_mul plain_driver]. rewrite map_id.
    unfold setup. cbn [a_query b_g1_query b_g2_query alpha_g1 beta_g1 beta_g2 delta_g1 delta_g2 l_query h_query].
    rewrite <- !smul_mul. rewrite !coeff_plain by assumption. cbn [leaf bind fst snd map2 local obd]. f_equal. f_equal.
    rewrite (@msm_map nat G1 _ _ (fun j => finv (t_delta T) * key_abc m L T j) P1 (seq (num_instance_variables m) (num_witness_variables m)) O).
    rewrite (@msm_map F G1 _ _ (fun c => finv (t_delta T) * c) P1 hq 0). rewrite seq_length, Lw, Nat.min_id.
    rewrite <- !smul_mul, <- !smul_add_l, <- smul_sub_l, <- !smul_add_l. f_equal. f_equal.
    assert (E : sumn (num_witness_variables m) (fun i => finv (t_delta T) * key_abc m L T (nth i (seq (num_instance_variables m) (num_witness_variables m)) O) * nth i wit 0)
      = sumn (num_witness_variables m) (fun j => finv (t_delta T) * key_abc m L T (num_instance_variables m + j) * nth j wit 0)).
    { apply sumn_ext. intros j Hj. rewrite seq_nth by exact Hj. reflexivity. }
    rewrite E. ring.
  Qed.

  Context {GT : Type} {AGT : AbGrp GT} {MGT : Mod F GT}.
  (** ** The proof in closed form, completeness from the quotient *)
  (** the simulator of [Gro16]: a proof from the trapdoor, the public input and two field elements *)
  Definition simulate (m : matrices F) (L : nat -> F) (P1 : G1) (P2 : G2) (T : trapdoor) (input : list F) (x y : F) : proof G1 G2 :=
    mkProof (smul x P1) (smul y P2)
      (smul (finv (t_delta T) * (x * y - t_alpha T * t_beta T - sumn (num_instance_variables m) (fun j => key_abc m L T j * nth j (1 :: input) 0))) P1).
  Lemma plain_closed R fuel threads m L hq (P1 : G1) (P2 : G2) T g input wit r s h :
    let n := (2 ^ Nat.log2_up (num_constraints m + num_instance_variables m))%nat in let pub := 1 :: input in
    t_delta T <> 0 -> well_formed m -> length pub = num_instance_variables m -> length wit = num_witness_variables m ->
    root g n -> lagrange_at g n n (t_tau T) L -> witness_map R PD fuel threads m pub wit [r; s] = Done (h, [r; s]) ->
    sumn (Nat.min (length hq) (length h)) (fun i => nth i hq 0 * nth i h 0) = peval (pq m pub wit g) (t_tau T) ->
    plain_prove R fuel threads (setup m L hq P1 P2 T) m pub wit r s =
    Done (simulate m L P1 P2 T input (t_alpha T + peval (pa m pub wit g) (t_tau T) + r * t_delta T) (t_beta T + peval (pb m pub wit g) (t_tau T) + s * t_delta T)).
  Proof.
    intros n pub D0 Wf Lp Lw Rg HL W Q.
    rewrite (plain_form L hq P1 P2 T Lp Lw eq_refl W eq_refl). rewrite (a_tau Wf Lp Lw Rg HL), (b_tau Wf Lp Lw Rg HL).
    unfold simulate. f_equal. f_equal. f_equal. fold pub.
    set (T' := T) in *. destruct T as [tau al be ga de]. cbn in T'. subst T'. cbn [t_tau t_alpha t_beta t_gamma t_delta] in *.
    set (T := mkTrap tau al be ga de) in *. clearbody pub.
    set (ni := num_instance_variables m) in *. set (nw := num_witness_variables m) in *.
    assert (Sp : sumn nw (fun j => finv de * key_abc m L T (ni + j) * nth j wit 0) * de
                 = be * peval (pa m pub wit g) tau + al * peval (pb m pub wit g) tau + peval (pc m pub wit g) tau - sumn ni (fun j => key_abc m L T j * nth j pub 0)).
    { rewrite <- (a_tau Wf Lp Lw Rg HL), <- (b_tau Wf Lp Lw Rg HL), <- (c_tau Wf Lp Lw Rg HL). rewrite <- !sumn_scale, <- !sumn_add.
      fold ni nw. rewrite sumn_split.
      match goal with |- _ = ?X + ?Y - ?Z => assert (EX : X = Z); [|rewrite EX; transitivity Y; [|ring]] end.
      - apply sumn_ext. intros j Hj. rewrite app_nth1 by (rewrite Lp; exact Hj). unfold key_abc. cbn [t_alpha t_beta T]. ring.
      - rewrite rmul_comm, <- sumn_scale. apply sumn_ext. intros j Hj. rewrite app_nth2 by (rewrite Lp; fold ni; lia). rewrite Lp. fold ni.
        replace (ni + j - ni)%nat with j by lia. unfold key_abc. cbn [t_alpha t_beta T].
        transitivity ((de * finv de) * ((be * key_a m L (ni + j) + al * key_b m L (ni + j) + key_c m L (ni + j)) * nth j wit 0)); [ring|]. rewrite finv_r by exact D0. ring. }
    assert (Sh : sumn (Nat.min (length hq) (length h)) (fun j => finv de * nth j hq 0 * nth j h 0) * de
                 = peval (pa m pub wit g) tau * peval (pb m pub wit g) tau - peval (pc m pub wit g) tau).
    { rewrite <- peval_pq, <- Q. rewrite rmul_comm, <- sumn_scale. apply sumn_ext. intros j _.
      transitivity ((de * finv de) * (nth j hq 0 * nth j h 0)); [ring|]. rewrite finv_r by exact D0. ring. }
    clear Q W. set (X := sumn ni _) in *. set (Y := sumn nw _) in *. set (Z := sumn (Nat.min _ _) _) in *.
    assert (Cancel : forall u v : F, u * de = v -> u = finv de * v).
    { intros u v <-. transitivity ((de * finv de) * u); [rewrite finv_r by exact D0; ring|ring]. }
    apply Cancel.
    transitivity ((s * (al + peval (pa m pub wit g) tau + r * de) + (be + peval (pb m pub wit g) tau + s * de) * r - r * s * de) * de + Y * de + Z * de); [ring|].
    rewrite Sp, Sh. ring.
  Qed.
  Lemma simulate_verifies m L hq (P1 : G1) (P2 : G2) T (e : G1 -> G2 -> GT) input x y :
    pairing e -> t_gamma T <> 0 -> t_delta T <> 0 -> length (1 :: input) = num_instance_variables m ->
    exists V, verify e (setup m L hq P1 P2 T) input (simulate m L P1 P2 T input x y) = Done V /\ V.
  Proof.
    intros Pe G0 D0 Lp. unfold verify. set (pub := 1 :: input) in *.
    assert (LG : length (gamma_abc_g1 (setup m L hq P1 P2 T)) = length pub) by (cbn -[pub]; rewrite map_length, seq_length; symmetry; exact Lp).
    assert (MG : msm (gamma_abc_g1 (setup m L hq P1 P2 T)) pub = smul (sumn (num_instance_variables m) (fun j => finv (t_gamma T) * key_abc m L T j * nth j pub 0)) P1).
    { unfold setup. cbn [gamma_abc_g1]. rewrite (@msm_map nat G1 _ _ (fun j => finv (t_gamma T) * key_abc m L T j) P1 _ O). rewrite seq_length, Lp, Nat.min_id.
      f_equal. apply sumn_ext. intros j Hj. rewrite seq_nth by exact Hj. reflexivity. }
    destruct (gamma_abc_g1 (setup m L hq P1 P2 T)) as [|ic0 ics]; [discriminate|]. cbn [length pub] in LG. injection LG as LG.
    rewrite <- LG, Nat.eqb_refl. eexists. split; [reflexivity|]. cbn [msm pub] in MG. rewrite smul_1 in MG. rewrite MG.
    unfold setup, simulate. cbn [alpha_g1 beta_g2 gamma_g2 delta_g2 pf_a pf_b pf_c]. rewrite !(pair_smul Pe), <- !smul_add_l. f_equal. fold pub.
    set (X := sumn _ (fun j => key_abc m L T j * nth j pub 0)).
    assert (EX : sumn (num_instance_variables m) (fun j => finv (t_gamma T) * key_abc m L T j * nth j pub 0) = finv (t_gamma T) * X).
    { unfold X. rewrite <- sumn_scale. apply sumn_ext. intros j _. ring. }
    rewrite EX.
    transitivity (t_alpha T * t_beta T + (t_gamma T * finv (t_gamma T)) * X + (t_delta T * finv (t_delta T)) * (x * y - t_alpha T * t_beta T - X)); [|ring].
    rewrite !finv_r by assumption. ring.
  Qed.
End Proofs.

(** ** Roots of unity *)
Lemma chunks_le threads size : (0 < threads)%nat -> let cs := chunk_size threads size in (0 < cs /\ (size + cs - 1) / cs <= threads)%nat.
Proof.
  intros T. cbv zeta. unfold chunk_size. set (a := ((size + threads - 1) / threads)%nat). split; [lia|].
  assert (S1 : (size <= a * threads)%nat).
  { pose proof (Nat.div_mod (size + threads - 1) threads ltac:(lia)) as D. pose proof (Nat.mod_upper_bound (size + threads - 1) threads ltac:(lia)). fold a in D. nia. }
  set (cs := Nat.max a 1). assert (C : (1 <= cs)%nat) by (unfold cs; lia). assert (S2 : (size <= cs * threads)%nat) by (unfold cs; nia).
  enough ((size + cs - 1) / cs < threads + 1)%nat by lia. apply Nat.div_lt_upper_bound; [lia|]. nia.
Qed.

Section RootsOk.
  Context {F : Type} {FF : Fld F} {FT : Fft F}.
  Add Ring FringR : (@cring_theory F _).
  Infix "*" := rmul : grp_scope.
  Notation "1" := rone : grp_scope.
  (** what the constants of an [FftField] are: Euler's criterion for [legendre] (the order of the
      multiplicative group is [TRACE * 2 ^ TWO_ADICITY]), odd characteristic *)
  Record fft_ok : Prop := {
    fft_euler : forall q : F, nonresidue q = true -> fpow q (trace * 2 ^ (two_adicity - 1)) = - (1);
    fft_odd : (1 : F) + 1 <> 0;
    fft_adic : 0 < two_adicity }.
  Lemma minus_one : (1 : F) + 1 <> 0 -> - (1) <> (1 : F).
  Proof. intros C E. apply C. transitivity (- (1) + 1 : F); [rewrite E; reflexivity|ring]. Qed.
  Lemma minus_odd j : fpow (- (1) : F) (2 * j + 1) = - (1).
  Proof. rewrite fpow_add, fpow_mul. replace (fpow (- (1) : F) 2) with (1 : F) by (cbn; ring). rewrite fpow_1. cbn. ring. Qed.
  Lemma order_div : (1 : F) + 1 <> 0 -> forall k (y : F), fpow y (2 ^ k) = - (1) -> forall j, fpow y j = 1 -> exists q, j = (2 ^ (S k) * q)%nat.
  Proof.
    intros C. induction k as [|k IH]; intros y Y j Hj.
    - assert (Y' : y = - (1)) by (rewrite <- Y; cbn; ring). subst y. destruct (Nat.Even_or_Odd j) as [[q ->]|[q ->]]; [exists q; cbn; lia|].
      rewrite minus_odd in Hj. exfalso. exact (minus_one C Hj).
    - assert (Y2 : fpow (y * y) (2 ^ k) = - (1)). { rewrite <- Y. replace (2 ^ S k)%nat with (2 * 2 ^ k)%nat by (cbn; lia). rewrite fpow_mul. f_equal. cbn. ring. }
      destruct (IH _ Y2 j) as (q & E). { rewrite fpow_mul_l, Hj. ring. }
      assert (Ej : j = (2 * (2 ^ k * q))%nat) by (rewrite E; cbn; lia).
      destruct (IH _ Y2 (2 ^ k * q)%nat) as (q' & E'). { rewrite <- Hj. transitivity (fpow y (2 * (2 ^ k * q))); [|f_equal; symmetry; exact Ej]. rewrite (fpow_mul y 2). f_equal. cbn. ring. }
      exists q'. rewrite Ej, E'. cbn. lia.
  Qed.
  Lemma fnat_pow2 : (1 : F) + 1 <> 0 -> forall k, fnat (2 ^ k) <> (0 : F).
  Proof.
    intros C. induction k as [|k IH]; [cbn; intro E; apply (f_1_neq_0 (F := F)); etransitivity; [|exact E]; ring|].
    replace (2 ^ S k)%nat with (2 * 2 ^ k)%nat by (cbn; lia). rewrite fnat_mul. apply fmul_neq; [|exact IH].
    intro E. apply C. etransitivity; [|exact E]. cbn. ring.
  Qed.
  Lemma root_of_minus k (y : F) : (1 : F) + 1 <> 0 -> fpow y (2 ^ k) = - (1) -> root y (2 ^ S k).
  Proof.
    intros C Y. split.
    - apply Nat.neq_0_lt_0, Nat.pow_nonzero. discriminate.
    - replace (2 ^ S k)%nat with (2 ^ k * 2)%nat by (cbn; lia). rewrite fpow_mul, Y. cbn. ring.
    - intros j Lj E. destruct (order_div C Y E) as (q & ->). destruct q; [lia|]. nia.
    - apply fnat_pow2. exact C.
  Qed.
  Lemma root_1 : root (1 : F) (2 ^ 0).
  Proof. split; [cbn; lia|cbn; ring|cbn; lia|]. cbn. intro E. apply (f_1_neq_0 (F := F)). etransitivity; [|exact E]. ring. Qed.
  Lemma squares_nth : forall a i (y : F), i <= a -> nth_error (squares a y) i = Some (fpow y (2 ^ i)).
  Proof.
    induction a as [|a IH]; intros i y L.
    - assert (i = O) by lia. subst. cbn. f_equal. ring.
    - destruct i as [|i]; [cbn; f_equal; ring|]. cbn [squares nth_error]. rewrite IH by lia. f_equal.
      replace (2 ^ S i)%nat with (2 * 2 ^ i)%nat by (cbn; lia). rewrite fpow_mul. f_equal. cbn. ring.
  Qed.
  Lemma squares_length : forall a (y : F), length (squares a y) = S a.
  Proof. induction a; intros y; cbn; auto. Qed.
  Lemma nth_error_rev {A} (l : list A) i : i < length l -> nth_error (rev l) i = nth_error l (length l - S i).
  Proof.
    intros L. destruct l as [|d l']; [cbn in L; lia|]. set (l := d :: l') in *.
    rewrite (nth_error_nth' (rev l) d) by (rewrite rev_length; exact L). rewrite (nth_error_nth' l d) by lia. f_equal. apply rev_nth. exact L.
  Qed.
  Lemma find_nonresidue_spec fuel : forall q r, find_nonresidue fuel q = Some r -> nonresidue r = true.
  Proof. induction fuel as [|fuel IH]; intros q r; cbn; destruct (nonresidue q) eqn:E; intros H; try discriminate; try (injection H as <-; exact E). eapply IH; exact H. Qed.

  (** groth16.rs:60-100: the generators of the domains *)
  (** the smallest non-residue among 1, 1+1, ... *)
  Lemma find_nonresidue_least fuel : forall q r, find_nonresidue fuel q = Some r -> nonresidue r = true /\
    exists k, r = Nat.iter k (fun x => x + 1) q /\ forall j, (j < k)%nat -> nonresidue (Nat.iter j (fun x => x + 1) q) = false.
  Proof.
    induction fuel as [|fuel IH]; intros q r E; cbn [find_nonresidue] in E; destruct (nonresidue q) eqn:Q; try discriminate;
      try (injection E as <-; split; [exact Q|exists O; split; [reflexivity|intros j J; lia]]).
    destruct (IH _ _ E) as (R & k & K1 & K2). split; [exact R|]. exists (S k).
    assert (It : forall j, Nat.iter (S j) (fun x => x + 1) q = Nat.iter j (fun x => x + 1) (q + 1)).
    { intros j. induction j as [|j IHj]; [reflexivity|]. change (Nat.iter (S (S j)) (fun x => x + 1) q) with (Nat.iter (S j) (fun x => x + 1) q + 1). rewrite IHj. reflexivity. }
    split; [rewrite It; exact K1|]. intros [|j] J; [exact Q|]. rewrite It. apply K2. lia.
  Qed.
  Lemma roots_ok fuel q k : fft_ok -> find_nonresidue fuel 1 = Some q -> k <= two_adicity ->
    exists g w, groth16_roots_of_unity fuel k = Some (g, w) /\ root g (2 ^ k) /\
      (k < two_adicity -> g = w * w /\ root w (2 ^ S k)) /\ (k = two_adicity -> w = q * q).
  Proof.
    intros [Eu C Ad] Fq K. pose proof (Eu q (find_nonresidue_spec Fq)) as Em. rewrite fpow_mul in Em. set (z := fpow q trace) in *.
    assert (Nr : forall i, i <= two_adicity -> nth_error (rev (squares two_adicity z)) i = Some (fpow z (2 ^ (two_adicity - i)))).
    { intros i L. rewrite nth_error_rev by (rewrite squares_length; lia). rewrite squares_length, squares_nth by lia. reflexivity. }
    assert (Rt : forall i, i <= two_adicity -> root (fpow z (2 ^ (two_adicity - i))) (2 ^ i)).
    { intros [|i] L.
      - rewrite Nat.sub_0_r. replace (2 ^ two_adicity)%nat with (2 ^ (two_adicity - 1) * 2)%nat.
        + rewrite fpow_mul, Em. replace (fpow (- (1)) 2) with (1 : F) by (cbn; ring). exact root_1.
        + replace two_adicity with (S (two_adicity - 1)) at 2 by lia. cbn. lia.
      - apply root_of_minus; [exact C|]. rewrite <- fpow_mul, <- Nat.pow_add_r. rewrite <- Em. f_equal. replace (two_adicity - S i + i)%nat with (two_adicity - 1)%nat by lia. reflexivity. }
    unfold groth16_roots_of_unity, roots_of_unity. rewrite Fq. fold z. rewrite Nr by exact K. destruct (Nat.eqb_spec two_adicity k) as [E|E].
    - do 2 eexists. split; [reflexivity|]. split; [apply Rt; exact K|]. split; [lia|reflexivity].
    - rewrite Nr by lia. do 2 eexists. split; [reflexivity|]. split; [apply Rt; exact K|]. split; [|lia]. intros _.
      replace (k + 1)%nat with (S k) by lia. split; [|apply Rt; lia].
      replace (two_adicity - k)%nat with ((two_adicity - S k) + 1)%nat by lia. rewrite Nat.pow_add_r, fpow_mul. cbn. ring.
  Qed.

  (** Lagrange coefficients exist *)
  Definition lagrange (g : F) (n : nat) (tau : F) (i : nat) : F := finv (fnat n) * sumn n (fun j => fpow tau j * fpow (finv g) (i * j)).
  Lemma lagrange_ok g n d tau : root g n -> d <= n -> lagrange_at g n d tau (lagrange g n tau).
  Proof.
    intros Rg Ld c Lc. set (v := dft g n c).
    transitivity (peval (idft g n v) tau).
    - rewrite peval_sumn, idft_length.
      transitivity (sumn n (fun j => sumn n (fun i => fpow tau j * (finv (fnat n) * (fpow (finv g) (i * j) * nth i v 0))))).
      + rewrite sumn_swap. apply sumn_ext. intros i Li. unfold v. rewrite dft_nth by exact Li. unfold lagrange.
        rewrite <- sumn_scale. rewrite rmul_comm, <- sumn_scale. apply sumn_ext. intros j _. ring.
      + apply sumn_ext. intros j Lj. rewrite idft_nth by exact Lj. rewrite peval_sumn. unfold v. rewrite dft_length.
        rewrite sumn_scale. change (smul (fpow tau j)) with (rmul (fpow tau j)). change (smul (finv (fnat n))) with (rmul (finv (fnat n) : F)).
        f_equal. rewrite sumn_scale. f_equal. apply sumn_ext. intros i _. rewrite <- fpow_mul. rewrite (Nat.mul_comm j i). reflexivity.
    - apply (@peval_unique F F _ _ _ (map (fun i => 1 * fpow g i) (seq 0 n))).
      + apply nodup_powers; [exact Rg|apply f_1_neq_0].
      + rewrite idft_length, map_length, seq_length. lia.
      + rewrite map_length, seq_length. lia.
      + intros a Ia. apply in_map_iff in Ia. destruct Ia as (i & <- & I). apply in_seq in I. replace (1 * fpow g i) with (fpow g i) by ring.
        rewrite idft_points by (try exact Rg; unfold v; rewrite ?dft_length; lia). unfold v. apply dft_nth. lia.
  Qed.
End RootsOk.

Arguments circom_quotient : clear implicits.
Arguments libsnark_quotient : clear implicits.
(** ** Completeness of both reductions *)
Section Complete.
  Context {F G1 G2 GT : Type} {FF : Fld F} {FT : Fft F} {AG1 : AbGrp G1} {MG1 : Mod F G1} {AG2 : AbGrp G2} {MG2 : Mod F G2} {AGT : AbGrp GT} {MGT : Mod F GT}.
  Add Ring FringX : (@cring_theory F _).
  Infix "*" := rmul : grp_scope.
  Notation "1" := rone : grp_scope.
  (** the key of a reduction: the scalars of [h_query] *)
  Definition domain_log (m : matrices F) : nat := Nat.log2_up (num_constraints m + num_instance_variables m).
  (** a proving key that the setup of the reduction makes from the trapdoor [T] *)
  Definition valid_key (R : reduction) (m : matrices F) (T : trapdoor) (P1 : G1) (P2 : G2) (fuel : nat) (pk : pkey G1 G2) : Prop :=
    let n := (2 ^ domain_log m)%nat in
    match R with
    | CircomReduction => exists g w L L2, groth16_roots_of_unity fuel (domain_log m) = Some (g, w) /\
        lagrange_at g n n (t_tau T) L /\ lagrange_at w (2 * n) (2 * n - 1) (t_tau T) L2 /\ pk = setup m L (circom_hq n L2) P1 P2 T
    | LibSnarkReduction => exists L, lagrange_at (ark_root (domain_log m)) n n (t_tau T) L /\ pk = setup m L (libsnark_hq n (t_tau T)) P1 P2 T
    end.
  (** the domain exists: circom needs the domain of twice the size, libsnark a coset *)
  Definition domain_ok (R : reduction) (m : matrices F) (fuel : nat) : Prop :=
    match R with
    | CircomReduction => fft_ok (F := F) /\ find_nonresidue fuel (1 : F) <> None /\ domain_log m < two_adicity
    | LibSnarkReduction => root (ark_root (domain_log m) : F) (2 ^ domain_log m) /\ domain_log m <= two_adicity /\
        (fgenerator : F) <> 0 /\ fpow (fgenerator : F) (2 ^ domain_log m) <> 1
    end.
  Lemma plain_simulated R fuel threads m T (P1 : G1) (P2 : G2) (pk : pkey G1 G2) :
    t_delta T <> 0 -> well_formed m -> domain_ok R m fuel -> valid_key R m T P1 P2 fuel pk ->
    exists L hq, pk = setup m L hq P1 P2 T /\ forall input wit,
      length (1 :: input) = num_instance_variables m -> length wit = num_witness_variables m -> satisfied m ((1 :: input) ++ wit) ->
      exists a b, forall r s, plain_prove R fuel threads pk m (1 :: input) wit r s = Done (simulate m L P1 P2 T input (a + r * t_delta T) (b + s * t_delta T)).
  Proof.
    intros D0 Wf DO VK. destruct R; cbn [domain_ok valid_key] in *.
    - destruct DO as (Fo & Fn & K). destruct (find_nonresidue fuel 1) as [q|] eqn:Fq; [|congruence]. clear Fn.
      destruct VK as (g & w & L & L2 & Rt & HL & HL2 & ->).
      destruct (@roots_ok F _ _ fuel q (domain_log m) Fo Fq ltac:(lia)) as (g' & w' & Rt' & Rg & Rw & _).
      rewrite Rt in Rt'. injection Rt' as <- <-. destruct (Rw K) as (Gw & _).
      exists L, (circom_hq (2 ^ domain_log m) L2). split; [reflexivity|]. intros input wit Lp Lw Sat. do 2 eexists. intros r s.
      destruct (@circom_quotient F _ _ G1 G2 _ _ m (1 :: input) wit fuel threads Wf Lp Lw Sat g w (t_tau T) L2 [r; s] (Nat.lt_le_incl _ _ K) Rt Rg Gw HL2) as (h & W & Q).
      eapply plain_closed with (R := CircomReduction) (g := g); eassumption.
    - destruct DO as (Rg & K & G & Gn). destruct VK as (L & HL & ->).
      exists L, (libsnark_hq (2 ^ domain_log m) (t_tau T)). split; [reflexivity|]. intros input wit Lp Lw Sat. do 2 eexists. intros r s.
      destruct (@libsnark_quotient F _ _ G1 G2 _ _ m (1 :: input) wit threads Wf Lp Lw Sat (t_tau T) [r; s] K Rg G Gn) as (h & W & Q).
      eapply plain_closed with (R := LibSnarkReduction); eassumption.
  Qed.
  Lemma plain_complete R fuel threads m T (P1 : G1) (P2 : G2) (pk : pkey G1 G2) (e : G1 -> G2 -> GT) input wit r s :
    pairing e -> t_gamma T <> 0 -> t_delta T <> 0 -> well_formed m -> domain_ok R m fuel -> valid_key R m T P1 P2 fuel pk ->
    length (1 :: input) = num_instance_variables m -> length wit = num_witness_variables m -> satisfied m ((1 :: input) ++ wit) ->
    exists p, plain_prove R fuel threads pk m (1 :: input) wit r s = Done p /\ exists V, verify e pk input p = Done V /\ V.
  Proof.
    intros Pe G0 D0 Wf DO VK Lp Lw Sat. destruct (plain_simulated threads D0 Wf DO VK) as (L & hq & -> & K).
    destruct (K input wit Lp Lw Sat) as (a & b & E). rewrite E. eexists. split; [reflexivity|]. apply simulate_verifies; assumption.
  Qed.
  (** two satisfying assignments with the same public input give the same proofs *)
  Lemma plain_indist R fuel threads m T (P1 : G1) (P2 : G2) (pk : pkey G1 G2) input wit wit' :
    t_delta T <> 0 -> well_formed m -> domain_ok R m fuel -> valid_key R m T P1 P2 fuel pk ->
    length (1 :: input) = num_instance_variables m ->
    length wit = num_witness_variables m -> satisfied m ((1 :: input) ++ wit) ->
    length wit' = num_witness_variables m -> satisfied m ((1 :: input) ++ wit') ->
    exists c d, forall r s, plain_prove R fuel threads pk m (1 :: input) wit r s = plain_prove R fuel threads pk m (1 :: input) wit' (r + c) (s + d).
  Proof.
    intros D0 Wf DO VK Lp Lw Sat Lw' Sat'. destruct (plain_simulated threads D0 Wf DO VK) as (L & hq & _ & K).
    destruct (K input wit Lp Lw Sat) as (a & b & E). destruct (K input wit' Lp Lw' Sat') as (a' & b' & E').
    exists ((a - a') * finv (t_delta T)), ((b - b') * finv (t_delta T)). intros r s. rewrite E, E'. f_equal.
    assert (X : forall u v w : F, u + w * t_delta T = v + (w + (u - v) * finv (t_delta T)) * t_delta T).
    { intros u v w. transitivity (v + w * t_delta T + (u - v) * (t_delta T * finv (t_delta T))); [rewrite finv_r by exact D0; ring|ring]. }
    f_equal; apply X.
  Qed.
  (** keys exist *)
  Lemma key_exists R fuel m T (P1 : G1) (P2 : G2) : domain_ok R m fuel -> exists pk, valid_key R m T P1 P2 fuel pk.
  Proof.
    destruct R; cbn [domain_ok valid_key].
    - intros (Fo & Fn & K). destruct (find_nonresidue fuel 1) as [q|] eqn:Fq; [|congruence].
      destruct (@roots_ok F _ _ fuel q (domain_log m) Fo Fq ltac:(lia)) as (g & w & Rt & Rg & Rw & _). destruct (Rw K) as (_ & Rw').
      eexists. exists g, w, (lagrange g (2 ^ domain_log m) (t_tau T)), (lagrange w (2 * 2 ^ domain_log m) (t_tau T)).
      split; [exact Rt|]. split; [apply lagrange_ok; [exact Rg|lia]|]. split; [apply lagrange_ok; [exact Rw'|lia]|reflexivity].
    - intros (Rg & _). eexists. exists (lagrange (ark_root (domain_log m)) (2 ^ domain_log m) (t_tau T)).
      split; [apply lagrange_ok; [exact Rg|lia]|reflexivity].
  Qed.
End Complete.
