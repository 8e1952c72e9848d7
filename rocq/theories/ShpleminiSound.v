(** * Soundness of Shplemini (C74)

    Specification ([lucky_tau], [lucky_z], [lucky_first], [lucky_fold], [lucky_rho]) and proof; no code of /repo is
    modelled here. *)
From Coq Require Import String List Arith Lia Bool Ring.
From Verif Require Import Proc Alg NNet Rep3 ShamirPoly Shamir ShamirAlg Univariate Sumcheck SumcheckSpec SumcheckSound Shplemini ShpleminiFold ShpleminiPoly ShpleminiQuot ShpleminiVerify ShpleminiComplete.
From Verif Require Groth16Complete.
Import ListNotations.
Set Implicit Arguments.
Local Open Scope grp_scope.
Local Open Scope list_scope.

Section Lucky.
  Context {F : Type} {FF : Fld F}.
  Add Ring FringGS : (@cring_theory F _).
  Infix "*" := rmul : grp_scope.
  Notation "1" := rone : grp_scope.
  Notation opening := (list F * F * F)%type.

  (** the combination of polynomials with s, s rho, s rho², ... *)
  Fixpoint comb (rho s : F) (ps : list (list F)) : list F :=
    match ps with [] => [] | p :: ps => padd (map (smul s) p) (comb rho (s * rho) ps) end.
  (** the openings to the values [n0 :: negs] that the prover sent and [p0 :: poss] that the verifier recovered *)
  Definition all_ops (bf bg : list F) (bs : list (list F)) (r p0 n0 : F) (poss negs : list F) : list opening :=
    (padd bf (map (smul (finv r)) bg), r, p0) :: (padd bf (map (smul (- finv r)) bg), - r, n0) :: vops bs (r * r) poss negs.
  (** the product of all y - x_j, and the sum of nu^j (f_j(y) - v_j) times the product without y - x_j *)
  Definition vanish (os : list opening) (y : F) : F := fold_right (fun o p => (y - op_point o) * p) 1 os.
  Fixpoint cross (nu s : F) (os : list opening) (y : F) : F :=
    match os with [] => 0 | o :: os => s * (peval (op_poly o) y - op_value o) * vanish os y + (y - op_point o) * cross nu (s * nu) os y end.
  (** the secret of the reference string is a root of a polynomial that is not zero *)
  Definition opened (q w : list F) (os : list opening) (nu z y : F) : F := peval q y - lin nu 1 (terms z y os) - (y - z) * peval w y.
  Definition lucky_tau (q w : list F) (os : list opening) (nu z tau : F) : Prop := opened q w os nu z tau = 0 /\ exists y, opened q w os nu z y <> 0.
  (** so is the challenge [z] *)
  Definition batched (q : list F) (os : list opening) (nu y : F) : F := peval q y * vanish os y - cross nu 1 os y.
  Definition lucky_z (q : list F) (os : list opening) (nu z : F) : Prop := batched q os nu z = 0 /\ exists y, batched q os nu y <> 0.
  (** a polynomial of the prover is not the fold of the one before, but agrees with it at the square of the point *)
  Fixpoint lucky_fold (us : list F) (As : list (list F)) (v p : F) : Prop :=
    match us, As with
    | u :: us, a :: As => (~ folds u a (hd [v] As) /\ peval (hd [v] As) (p * p) = peval (fold_col u a) (p * p)) \/ lucky_fold us As v (p * p)
    | _, _ => False
    end.
  (** the same for the first, A(X) + g/X with a constant [g] *)
  Definition lucky_first (u : F) (a : list F) (g : F) (b : list F) (r : F) : Prop :=
    ~ (u * g = 0 /\ folds u a b) /\ peval (0 :: b) (r * r) = peval (u * g :: fold_col u a) (r * r).
  (** different lists of values have the same combination with powers of [rho] *)
  Definition lucky_rho (l m : list F) (rho : F) : Prop := l <> m /\ length l = length m /\ peval l rho = peval m rho.

  (** ** Combinations *)
  Lemma lin_peval rho l : forall s, lin rho s l = s * peval l rho.
  Proof. induction l as [|a l IH]; intros s; cbn [lin peval]; [ring|]. rewrite IH, smulU. ring. Qed.
  Lemma comb_peval rho x ps : forall s, peval (comb rho s ps) x = lin rho s (map (fun p => peval p x) ps).
  Proof. induction ps as [|p ps IH]; intros s; cbn [comb map lin]; [reflexivity|]. rewrite peval_padd, peval_map_smul, IH. reflexivity. Qed.
  Lemma comb_nth rho i ps : forall s, nth i (comb rho s ps) 0 = lin rho s (map (fun p => nth i p 0) ps).
  Proof. induction ps as [|p ps IH]; intros s; cbn [comb map lin]; [destruct i; reflexivity|]. rewrite nth_padd, nth_smul, IH. reflexivity. Qed.
  Lemma lin_sumn rho n (w : nat -> F) (f : list F -> nat -> F) ps : forall s,
    sumn n (fun x => w x * lin rho s (map (fun p => f p x) ps)) = lin rho s (map (fun p => sumn n (fun x => w x * f p x)) ps).
  Proof.
    induction ps as [|p ps IH]; intros s; cbn [map lin].
    - apply sumn_0. intros; ring.
    - rewrite <- IH, sumn_scale, <- sumn_add. apply sumn_ext. intros; ring.
  Qed.
  Lemma comb_mle us rho s ps : mle us (comb rho s ps) = lin rho s (map (mle us) ps).
  Proof.
    unfold mle. rewrite <- (@lin_sumn rho (2 ^ length us) (eqw us) (fun p x => nth x p 0)). apply sumn_ext. intros i _. rewrite comb_nth. reflexivity.
  Qed.
  Lemma comb_mle_tl us rho s ps : mle us (tl (comb rho s ps)) = lin rho s (map (fun p => mle us (tl p)) ps).
  Proof.
    unfold mle. transitivity (lin rho s (map (fun p => sumn (2 ^ length us) (fun x => eqw us x * nth (S x) p 0)) ps)).
    - rewrite <- (@lin_sumn rho (2 ^ length us) (eqw us) (fun p x => nth (S x) p 0)). apply sumn_ext. intros i _. rewrite nth_tl, comb_nth. reflexivity.
    - f_equal. apply map_ext. intros p. apply sumn_ext. intros i _. rewrite nth_tl. reflexivity.
  Qed.
  Lemma mle_padd us a b : mle us (padd a b) = mle us a + mle us b.
  Proof. unfold mle. rewrite <- sumn_add. apply sumn_ext. intros i _. rewrite nth_padd. ring. Qed.

  (** ** Decisions *)
  Definition peq (a b : list F) : bool := forallb (fun i => feqb (nth i a 0) (nth i b 0)) (seq 0 (Nat.max (length a) (length b))).
  Lemma peq_spec a b : peq a b = true <-> forall i, nth i a 0 = nth i b 0.
  Proof.
    unfold peq. rewrite forallb_forall. split.
    - intros H i. destruct (Nat.lt_ge_cases i (Nat.max (length a) (length b))) as [L|L].
      + apply feqb_spec, H, in_seq. lia.
      + rewrite !nth_overflow by lia. reflexivity.
    - intros H i _. apply feqb_spec, H.
  Qed.
  Lemma folds_col u a b : folds u a b <-> forall i, nth i b 0 = nth i (fold_col u a) 0.
  Proof. pose proof (fold_folds u a) as E. split; intros H i; rewrite H, ?(E i); try rewrite <- (E i); reflexivity. Qed.
  Lemma folds_dec u a b : folds u a b \/ ~ folds u a b.
  Proof.
    destruct (peq b (fold_col u a)) eqn:E; [left; apply folds_col, peq_spec, E|right].
    intros H. pose proof (proj1 (folds_col u a b) H) as H'. apply peq_spec in H'. congruence.
  Qed.
  Lemma list_dec (l m : list F) : l = m \/ l <> m.
  Proof.
    revert m; induction l as [|a l IH]; intros [|b m]; [left; reflexivity|right; discriminate|right; discriminate|].
    destruct (feqb a b) eqn:E; [apply feqb_spec in E; subst b|right; intros H; injection H as -> ->; rewrite (proj2 (feqb_spec b b) eq_refl) in E; discriminate].
    destruct (IH m) as [->|N]; [left; reflexivity|right; congruence].
  Qed.
  Lemma zero_dec (x : F) : x = 0 \/ x <> 0.
  Proof. destruct (feqb x 0) eqn:E; [left; apply feqb_spec, E|right; intros ->; rewrite (proj2 (feqb_spec 0 0) eq_refl) in E; discriminate]. Qed.

  (** ** The openings *)
  Lemma lin_vanish nu z os : Forall (fun o => z <> op_point o) os -> forall s, lin nu s (terms z z os) * vanish os z = cross nu s os z.
  Proof.
    induction os as [|o os IH]; intros H s; [cbn; ring|]. apply Forall_cons_iff in H. destruct H as [N H]. specialize (IH H (s * nu)).
    unfold terms, vanish in *. cbn [map lin fold_right cross]. fold (vanish os z) in *.
    assert (N' : z - op_point o <> 0) by (apply fsub_neq; exact N).
    assert (E : inv0 (z - op_point o) * (z - op_point o) = 1).
    { unfold inv0. destruct (feqb (z - op_point o) 0) eqn:E; [apply feqb_spec in E; contradiction|]. apply finv_l, N'. }
    match type of IH with ?A * _ = _ => set (T := A) in * end. rewrite <- IH.
    transitivity ((inv0 (z - op_point o) * (z - op_point o)) * (s * (peval (op_poly o) z - op_value o) * vanish os z) + (z - op_point o) * (T * vanish os z)); [ring|rewrite E; ring].
  Qed.
  Lemma vanish_zero os o : In o os -> vanish os (op_point o) = 0.
  Proof. induction os as [|o' os IH]; intros []; unfold vanish in *; cbn [fold_right]; [subst; ring|]. rewrite IH by assumption. ring. Qed.
  Lemma fmul_neq (x y : F) : x <> 0 -> y <> 0 -> x * y <> 0.
  Proof. intros Nx Ny E. apply Ny. exact (@fmul_zero _ _ x y Nx E). Qed.
  Lemma vanish_neq (s : F) os x : s <> 0 -> ~ In x (map op_point os) -> vanish os x <> 0.
  Proof.
    intros Ns. induction os as [|o os IH]; intros N; unfold vanish in *; cbn [fold_right map] in *.
    - intros E. apply Ns. transitivity (s * 1); [ring|]. rewrite E. ring.
    - apply fmul_neq; [|apply IH; intros H; apply N; right; exact H]. apply fsub_neq. intros ->. apply N. left. reflexivity.
  Qed.
  (** if the sum vanishes at all points, all openings are true *)
  Lemma cross_true nu os : nu <> 0 -> forall s, s <> 0 -> NoDup (map op_point os) -> (forall o, In o os -> cross nu s os (op_point o) = 0) -> Forall op_true os.
  Proof.
    intros Nn. induction os as [|o os IH]; intros s Ns ND H; [constructor|]. cbn [map] in ND. apply NoDup_cons_iff in ND. destruct ND as [N1 N2]. constructor.
    - pose proof (H o (or_introl eq_refl)) as E. cbn [cross] in E. unfold op_true.
      assert (E1 : (s * vanish os (op_point o)) * (peval (op_poly o) (op_point o) - op_value o) = 0) by (rewrite <- E; ring).
      apply fmul_zero in E1; [|apply fmul_neq; [exact Ns|eapply vanish_neq; [exact Ns|exact N1]]].
      transitivity (peval (op_poly o) (op_point o) - op_value o + op_value o); [ring|]. rewrite E1. ring.
    - apply (IH (s * nu)); [apply fmul_neq; assumption|exact N2|]. intros o' Ho'.
      pose proof (H o' (or_intror Ho')) as E. cbn [cross] in E. rewrite (vanish_zero os o' Ho') in E.
      assert (E1 : (op_point o' - op_point o) * cross nu (s * nu) os (op_point o') = 0) by (rewrite <- E; ring).
      apply fmul_zero in E1; [exact E1|]. apply fsub_neq. intros E2. apply N1. rewrite <- E2. apply in_map. exact Ho'.
  Qed.

  (** ** The values the verifier recovers *)
  Fixpoint frel (us : list F) (p : F) (poss negs : list F) (v : F) : Prop :=
    match us, poss, negs with
    | [], [], [] => True
    | u :: us, a :: poss, n :: negs => p * hd v poss * (1 + 1) = a * (p * (1 - u) + u) + n * (p * (1 - u) - u) /\ frel us (p * p) poss negs v
    | _, _, _ => False
    end.
  Lemma fold_pos_inv us : forall p negs v v0 poss, length negs = length us ->
    fold_pos_evaluations (repeat 1 (length us)) us (sq p (length us)) negs v = Done (v0, poss) -> v0 = hd v poss /\ length poss = length us /\ frel us p poss negs v.
  Proof.
    induction us as [|u us IH]; intros p negs v v0 poss L E; destruct negs as [|n negs]; cbn [length] in L; try lia.
    - cbn in E. injection E as <- <-. repeat split.
    - cbn [length repeat sq fold_pos_evaluations] in E.
      destruct (fold_pos_evaluations (repeat 1 (length us)) us (sq (p * p) (length us)) negs v) as [[prev l]|] eqn:E1; [|discriminate]. cbn [obind] in E.
      destruct (IH (p * p) negs v prev l) as (-> & Ll & Hr); [lia|exact E1|].
      destruct (feqb (p * (1 - u) + u) 0) eqn:Ed; [discriminate|].
      assert (Nd : p * (1 - u) + u <> 0) by (intros E0; rewrite (proj2 (feqb_spec _ _) E0) in Ed; discriminate).
      set (ev := (p * hd v l * (1 + 1) - n * (p * (1 - u) - u)) * finv (p * (1 - u) + u)) in *.
      injection E as <- <-. cbn [hd length]. split; [ring|]. split; [lia|]. cbn [frel]. split; [|exact Hr].
      assert (Ee : (1 * (1 * ev + (1 - 1) * hd v l)) * (p * (1 - u) + u) = p * hd v l * (1 + 1) - n * (p * (1 - u) - u)).
      { transitivity ((p * hd v l * (1 + 1) - n * (p * (1 - u) - u)) * (finv (p * (1 - u) + u) * (p * (1 - u) + u))); [unfold ev; ring|].
        rewrite finv_l by exact Nd. ring. }
      rewrite Ee. ring.
  Qed.

  (** the relation of the verifier, for a polynomial [a] with an additional term [g]/X *)
  Lemma rel_fold u a p g pos neg nxt : p <> 0 -> (1 + 1 : F) <> 0 ->
    pos = peval a p + g * finv p -> neg = peval a (- p) - g * finv p ->
    p * nxt * (1 + 1) = pos * (p * (1 - u) + u) + neg * (p * (1 - u) - u) ->
    (p * p) * nxt = u * g + (p * p) * peval (fold_col u a) (p * p).
  Proof.
    intros Np N2 -> -> E. rewrite (folds_peval (fold_folds u a)).
    rewrite (peval_split a p), (peval_split a (- p)) in E. replace (- p * - p) with (p * p) in E by ring.
    set (ev := peval (evens a) (p * p)) in *. set (od := peval (odds a) (p * p)) in *.
    assert (Ei : p * finv p = 1) by (rewrite rmul_comm; apply finv_l, Np).
    assert (E1 : (1 + 1) * (p * p * nxt) = (1 + 1) * (u * g + p * p * ((1 - u) * ev + u * od))).
    { transitivity (p * (p * nxt * (1 + 1))); [ring|]. rewrite E.
      transitivity ((1 + 1) * ((p * finv p) * (u * g) + p * p * ((1 - u) * ev + u * od))); [ring|]. rewrite Ei. ring. }
    transitivity (finv (1 + 1) * (1 + 1) * (p * p * nxt)); [rewrite finv_l by exact N2; ring|].
    transitivity (finv (1 + 1) * ((1 + 1) * (p * p * nxt))); [ring|]. rewrite E1.
    transitivity ((finv (1 + 1) * (1 + 1)) * (u * g + p * p * ((1 - u) * ev + u * od))); [ring|]. rewrite finv_l by exact N2. ring.
  Qed.
  (** all polynomials are folds, and the last folds to the constant *)
  Fixpoint nchain (us : list F) (As : list (list F)) (v : F) : Prop :=
    match us, As with
    | [], [] => True
    | u :: us, a :: As => folds u a (hd [v] As) /\ nchain us As v
    | _, _ => False
    end.
  Lemma nchain_mle us : forall As v, nchain us As v -> mle us (hd [v] As) = v.
  Proof.
    induction us as [|u us IH]; intros [|a As] v H; try contradiction; [apply mle_nil|]. destruct H as [H1 H2]. cbn [hd].
    rewrite (mle_folds us H1). apply IH, H2.
  Qed.
  Lemma hd_evals As p v : hd v (evals (fun x => x) As p) = peval (hd [v] As) p.
  Proof. destruct As; [cbn [evals List.combine map hd peval]; rewrite smulU|reflexivity]. unfold evals. cbn. ring. Qed.
  Lemma chain_or_lucky us : (1 + 1 : F) <> 0 -> forall As v p, p <> 0 -> length As = length us ->
    frel us p (evals (fun x => x) As p) (evals gneg As p) v -> nchain us As v \/ lucky_fold us As v p.
  Proof.
    intros N2. induction us as [|u us IH]; intros As v p Np L H; destruct As as [|a As]; cbn [length] in L; try lia; [left; exact I|].
    rewrite !evals_cons in H. cbn [frel] in H. destruct H as [H1 H2]. rewrite hd_evals in H1. cbn [nchain lucky_fold].
    destruct (IH As v (p * p)) as [Hc|Hl]; [apply fmul_neq; exact Np|lia|exact H2| |right; right; exact Hl].
    destruct (folds_dec u a (hd [v] As)) as [Hf|Hf]; [left; split; assumption|right; left; split; [exact Hf|]].
    assert (E : (p * p) * peval (hd [v] As) (p * p) = u * 0 + (p * p) * peval (fold_col u a) (p * p)).
    { eapply rel_fold; [exact Np|exact N2| | |exact H1]; ring. }
    assert (Npp : p * p <> 0) by (apply fmul_neq; exact Np).
    transitivity (finv (p * p) * (p * p) * peval (hd [v] As) (p * p)); [rewrite finv_l by exact Npp; ring|].
    transitivity (finv (p * p) * ((p * p) * peval (hd [v] As) (p * p))); [ring|]. rewrite E.
    transitivity (finv (p * p) * (p * p) * peval (fold_col u a) (p * p)); [ring|]. rewrite finv_l by exact Npp. ring.
  Qed.
  Lemma vops_true bs : forall p poss negs, length poss = length bs -> length negs = length bs -> Forall op_true (vops bs p poss negs) ->
    poss = evals (fun x => x) bs p /\ negs = evals gneg bs p.
  Proof.
    induction bs as [|b bs IH]; intros p [|v poss] [|n negs] Lp Ln H; cbn [length] in Lp, Ln; try lia; [split; reflexivity|].
    rewrite !evals_cons. cbn [vops] in H. apply Forall_cons_iff in H. destruct H as [T1 H]. apply Forall_cons_iff in H. destruct H as [T2 H].
    destruct (IH (p * p) poss negs) as [-> ->]; [lia|lia|exact H|]. unfold op_true, op_poly, op_point, op_value in T1, T2. cbn [fst snd] in T1, T2. rewrite T1, T2. split; reflexivity.
  Qed.
  (** p, -p, p², -p², ... *)
  Fixpoint points (p : F) (n : nat) : list F := match n with O => [] | S n => p :: - p :: points (p * p) n end.
  Lemma vops_points bs : forall p poss negs, length poss = length bs -> length negs = length bs -> map op_point (vops bs p poss negs) = points p (length bs).
  Proof.
    induction bs as [|b bs IH]; intros p [|v poss] [|n negs] Lp Ln; cbn [length] in Lp, Ln; try lia; [reflexivity|].
    cbn [vops map points length]. rewrite IH by lia. reflexivity.
  Qed.
End Lucky.

Section Sound.
  Context {F : Type} {FF : Fld F} {G : Type} {GG : AbGrp G} {MG : Mod F G}.
  Context {G2 : Type} {GG2 : AbGrp G2} {MG2 : Mod F G2} {GT : Type} {GGT : AbGrp GT} {MGT : Mod F GT}.
  Variable e : G -> G2 -> GT.
  Add Ring FringGS2 : (@cring_theory F _).
  Infix "*" := rmul : grp_scope.
  Notation "1" := rone : grp_scope.
  Variables (tau : F) (gen : G) (h : G2).
  Notation com p := (smul (peval p tau) gen).
  Hypothesis HP : Groth16Complete.pairing e.
  Hypothesis HN : forall a, smul a (e gen h) = 0 -> a = 0.

  Lemma check_inv gt w z : pairing_product e (smul gt gen + smul z (smul w gen)) (- smul w gen) (smul tau h) h = 0 -> gt - (tau - z) * w = 0.
  Proof.
    intros E. apply HN. rewrite <- E. unfold pairing_product.
    replace (smul gt gen + smul z (smul w gen)) with (smul (gt + z * w) gen) by (rewrite <- smul_mul, <- smul_add_l; reflexivity).
    replace (- smul w gen) with (smul (- w) gen) by apply smul_neg_l.
    replace (e (smul (gt + z * w) gen) h) with (e (smul (gt + z * w) gen) (smul 1 h)) by (rewrite smul_1; reflexivity).
    rewrite !(Groth16Complete.pair_smul HP), <- smul_add_l. f_equal. ring.
  Qed.

  Lemma shplemini_sound u us fs gs bs q w fevs gevs n0 negs rho r nu z :
    (1 + 1 : F) <> 0 -> length fevs = length fs -> length gevs = length gs -> length bs = length us -> length negs = length us ->
    nu <> 0 -> NoDup (points r (S (length us))) -> ~ In z (points r (S (length us))) ->
    shplemini_verify e gen (smul tau h) h (map (fun p => com p) fs) (map (fun p => com p) gs) fevs gevs (u :: us) rho r nu z
      {| op_folds := map (fun b => com b) bs; op_negs := n0 :: negs; op_q := com q; op_w := com w |} = Done 0 ->
    let bf := comb rho 1 fs in
    let bg := comb rho (spow rho 1 (length fs)) gs in
    let v := lin rho 1 (fevs ++ gevs) in
    (fevs = map (mle (u :: us)) fs /\ gevs = map (fun p => mle (u :: us) (tl p)) gs /\ u * nth 0 bg 0 = 0) \/
    lucky_rho (fevs ++ gevs) (map (mle (u :: us)) fs ++ map (fun p => mle (u :: us) (tl p)) gs) rho \/
    lucky_first u (padd bf (tl bg)) (nth 0 bg 0) (hd [v] bs) r \/ lucky_fold us bs v (r * r) \/
    exists p0 poss, fold_pos_evaluations (repeat 1 (S (length us))) (u :: us) (sq r (S (length us))) (n0 :: negs) v = Done (p0, p0 :: poss) /\
      (lucky_z q (all_ops bf bg bs r p0 n0 poss negs) nu z \/ lucky_tau q w (all_ops bf bg bs r p0 n0 poss negs) nu z tau).
  Proof.
    intros N2 Lf Lg Lb Ln Nnu ND Nz E bf bg v.
    destruct (zero_dec r) as [->|Nr].
    { cbn [points] in ND. apply NoDup_cons_iff in ND. destruct ND as [ND _]. exfalso. apply ND. left. ring. }
    destruct (fold_pos_evaluations (repeat 1 (S (length us))) (u :: us) (sq r (S (length us))) (n0 :: negs) v) as [[v0 l0]|er] eqn:EF.
    2: { exfalso. unfold shplemini_verify, compute_batch_opening_claim in E. cbn [op_folds op_negs op_q op_w length] in E. rewrite powers_sq in E.
      cbn [sq inverted_denominators flat_map app] in E. destruct (feqb r 0); [discriminate|].
      destruct (@update_batch_ok _ _ _ _ _ tau gen fs fevs (inv0 (z - r) + nu * inv0 (z + r)) rho 1 0 Lf) as (lf & Ef & _). rewrite Ef in E.
      destruct (@update_batch_ok _ _ _ _ _ tau gen gs gevs (finv r * (inv0 (z - r) - nu * inv0 (z + r))) rho (spow rho 1 (length fs)) (0 + lin rho 1 fevs) Lg) as (lg & Eg & _). rewrite Eg in E.
      replace (0 + lin rho 1 fevs + lin rho (spow rho 1 (length fs)) gevs) with v in E by (unfold v; rewrite lin_app, Lf; ring).
      change (r :: sq (r * r) (length us)) with (sq r (S (length us))) in E. rewrite EF in E. discriminate. }
    destruct (@fold_pos_inv _ _ (u :: us) r (n0 :: negs) v v0 l0) as (E0 & Ll & HR); [cbn; lia|exact EF|].
    destruct l0 as [|p0 poss]; [cbn in Ll; lia|]. cbn [hd] in E0. subst v0. cbn [length] in Ll.
    set (os := all_ops bf bg bs r p0 n0 poss negs).
    destruct (@verifier_ok _ _ _ _ _ tau gen fs gs bs q fevs gevs (length us) (u :: us) rho r nu z n0 negs p0 poss p0 (padd bf (map (smul (finv r)) bg)) (padd bf (map (smul (- finv r)) bg))) as (l & El & HL);
      [exact Lf|exact Lg|reflexivity|exact Lb|exact Ln|exact Nr| | |exact EF|lia|].
    { rewrite peval_padd, peval_map_smul. unfold bf, bg. rewrite !comb_peval. reflexivity. }
    { rewrite peval_padd, peval_map_smul. unfold bf, bg. rewrite !comb_peval, smulU. ring. }
    assert (exists gv, gv = peval q tau - lin nu 1 (terms z tau os) /\ psm l = smul gv gen) as (gv & Egv & HL') by (eexists; split; [reflexivity|exact HL]).
    unfold shplemini_verify in E. cbn [op_folds op_negs op_q op_w length] in E. rewrite El in E. cbn [obind] in E. unfold reduce_verify in E.
    change (msm (map snd ?l) (map fst ?l)) with (psm l) in E. rewrite psm_app, HL', psm_cons in E.
    replace (psm []) with (0 : G) in E by reflexivity. rewrite gadd_0_r in E. injection E as E. apply check_inv in E.
    rewrite Egv in E.
    assert (Po : map op_point os = points r (S (length us))).
    { unfold os, all_ops. cbn [map points]. rewrite vops_points by lia. rewrite Lb. reflexivity. }
    (* the secret of the reference string *)
    destruct (zero_dec (opened q w os nu z z)) as [Ez|Ez].
    2: { do 4 right. exists p0, poss. split; [reflexivity|]. right. split; [exact E|]. exists z. exact Ez. }
    assert (Hz : Forall (fun o => z <> op_point o) os).
    { apply Forall_forall. intros o Ho Eo. apply Nz. rewrite <- Po, Eo. apply in_map, Ho. }
    assert (Eb : batched q os nu z = 0).
    { unfold batched. rewrite <- (lin_vanish nu Hz 1). unfold opened in Ez.
      transitivity ((peval q z - lin nu 1 (terms z z os) - (z - z) * peval w z) * vanish os z); [ring|]. rewrite Ez. ring. }
    (* the challenge z *)
    assert (D : (forall o, In o os -> batched q os nu (op_point o) = 0) \/ exists o, In o os /\ batched q os nu (op_point o) <> 0).
    { clear. generalize (batched q os nu) as f. intros f. induction os as [|o os' IH]; [left; intros o []|].
      destruct (zero_dec (f (op_point o))) as [Z|Z]; [|right; exists o; split; [left; reflexivity|exact Z]].
      destruct IH as [IH|[o' [Ho' Z']]]; [left; intros o' [<-|Ho']; [exact Z|apply IH, Ho']|right; exists o'; split; [right; exact Ho'|exact Z']]. }
    destruct D as [D|[o [Ho D]]].
    2: { do 4 right. exists p0, poss. split; [reflexivity|]. left. split; [exact Eb|]. exists (op_point o). exact D. }
    assert (N1 : (1 : F) <> 0). { intros E1. apply N2. rewrite E1. ring. }
    assert (HT : Forall op_true os).
    { apply (@cross_true _ _ nu os Nnu 1 N1); [rewrite Po; exact ND|]. intros o Ho. specialize (D o Ho). unfold batched in D.
      rewrite (vanish_zero os o Ho) in D. transitivity (- (peval q (op_point o) * 0 - cross nu 1 os (op_point o))); [ring|]. rewrite D. ring. }
    (* the folds *)
    unfold os, all_ops in HT. apply Forall_cons_iff in HT. destruct HT as [T1 HT]. apply Forall_cons_iff in HT. destruct HT as [T2 HT].
    unfold op_true, op_poly, op_point, op_value in T1, T2. cbn [fst snd] in T1, T2.
    destruct (vops_true bs (r * r) poss negs) as [Ep En]; [lia|lia|exact HT|].
    cbn [frel] in HR. destruct HR as [HR1 HR2]. rewrite Ep in HR1, HR2. rewrite En in HR2. rewrite hd_evals in HR1.
    destruct (@chain_or_lucky _ _ us N2 bs v (r * r)) as [HC|HC]; [apply fmul_neq; exact Nr|exact Lb|exact HR2| |do 3 right; left; exact HC].
    set (a := padd bf (tl bg)) in *. set (g := nth 0 bg 0) in *.
    assert (Bg : forall x, peval bg x = g + x * peval (tl bg) x).
    { intros x. unfold g. destruct bg; cbn [peval nth tl]; rewrite ?smulU; ring. }
    assert (Ei : r * finv r = 1) by (rewrite rmul_comm; apply finv_l, Nr).
    assert (ER : (r * r) * peval (hd [v] bs) (r * r) = u * g + (r * r) * peval (fold_col u a) (r * r)).
    { eapply rel_fold; [exact Nr|exact N2| | |exact HR1].
      - rewrite <- T1, peval_padd, peval_map_smul, smulU, Bg. unfold a. rewrite peval_padd.
        transitivity (peval bf r + g * finv r + (r * finv r) * peval (tl bg) r); [ring|rewrite Ei; ring].
      - rewrite <- T2, peval_padd, peval_map_smul, smulU, Bg. unfold a. rewrite peval_padd.
        transitivity (peval bf (- r) - g * finv r + (r * finv r) * peval (tl bg) (- r)); [ring|rewrite Ei; ring]. }
    assert (DF : (u * g = 0 /\ folds u a (hd [v] bs)) \/ ~ (u * g = 0 /\ folds u a (hd [v] bs))).
    { destruct (zero_dec (u * g)) as [Z|Z]; [|right; tauto]. destruct (folds_dec u a (hd [v] bs)) as [K|K]; [left; tauto|right; tauto]. }
    destruct DF as [[DU DF]|DF].
    2: { right. right. left. split; [exact DF|]. cbn [peval]. rewrite !smulU, ER. ring. }
    assert (EM : mle (u :: us) a = v).
    { rewrite (mle_folds us DF). apply nchain_mle, HC. }
    unfold a in EM. rewrite mle_padd in EM. unfold bf, bg in EM. rewrite comb_mle, comb_mle_tl in EM.
    set (l1 := map (mle (u :: us)) fs) in *. set (l2 := map (fun p => mle (u :: us) (tl p)) gs) in *.
    assert (EL : lin rho 1 (fevs ++ gevs) = lin rho 1 (l1 ++ l2)).
    { rewrite (lin_app rho l1). replace (length l1) with (length fs) by (unfold l1; rewrite map_length; reflexivity). rewrite EM. reflexivity. }
    destruct (list_dec (fevs ++ gevs) (l1 ++ l2)) as [ED|ED].
    - left. assert (L1 : length fevs = length l1) by (unfold l1; rewrite map_length; exact Lf).
      assert (X : fevs = l1 /\ gevs = l2); [|split; [apply X|split; [apply X|exact DU]]].
      clear -ED L1. revert ED L1. generalize l1, l2. clear. intros l1 l2. revert l1. induction fevs as [|x l IH]; intros [|y l1] ED L1; cbn [length] in L1; try lia; [split; [reflexivity|exact ED]|].
      injection ED as -> ED. destruct (IH l1 ED) as [-> ->]; [lia|split; reflexivity].
    - right. left. split; [exact ED|]. split; [unfold l1, l2; rewrite !app_length, !map_length; lia|].
      rewrite !lin_peval in EL. transitivity (1 * peval (fevs ++ gevs) rho); [ring|]. rewrite EL. ring.
  Qed.
End Sound.
