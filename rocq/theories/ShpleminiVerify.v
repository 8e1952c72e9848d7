(** * What the Shplemini verifier computes, and completeness (C73, C74)

    Specification ([srs], [vops]) and proof; no code of /repo is modelled here. *)
From Coq Require Import String List Arith Lia Bool Ring.
From Verif Require Import Proc Alg NNet Rep3 ShamirPoly Shamir ShamirAlg Univariate Sumcheck SumcheckSpec SumcheckSound Shplemini ShpleminiFold ShpleminiPoly ShpleminiQuot.
Import ListNotations.
Set Implicit Arguments.
Local Open Scope grp_scope.
Local Open Scope list_scope.

Section Verify.
  Context {F : Type} {FF : Fld F} {G : Type} {GG : AbGrp G} {MG : Mod F G}.
  Add Ring FringGV : (@cring_theory F _).
  Infix "*" := rmul : grp_scope.
  Notation "1" := rone : grp_scope.
  Notation opening := (list F * F * F)%type.

  (** the reference string: gen, tau gen, tau² gen, ... *)
  Fixpoint srs (tau : F) (gen : G) (n : nat) : list G := match n with O => [] | S n => gen :: srs tau (smul tau gen) n end.
  Lemma length_srs tau n : forall gen, length (srs tau gen n) = n.
  Proof. induction n as [|n IH]; intros gen; [reflexivity|]. cbn. f_equal. apply IH. Qed.
  Lemma msm_srs tau p : forall gen n, length p <= n -> msm (srs tau gen n) p = smul (peval p tau) gen.
  Proof.
    induction p as [|c p IH]; intros gen n L.
    - destruct n; cbn; symmetry; apply smul_0_l.
    - destruct n as [|n]; [cbn in L; lia|]. cbn [srs msm peval]. rewrite IH by (cbn in L; lia).
      rewrite smul_add_l, smulU, <- smul_mul. f_equal. f_equal. ring.
  Qed.
  Lemma commit_ok tau gen n p : length p <= n -> commit (srs tau gen n) p = Done (smul (peval p tau) gen).
  Proof. intros L. unfold commit. rewrite length_srs. destruct (Nat.ltb_spec n (length p)); [lia|]. rewrite msm_srs by exact L. reflexivity. Qed.

  (** the sum of the commitments times their scalars *)
  Definition psm (l : list (F * G)) : G := msm (map snd l) (map fst l).
  Lemma psm_cons s c l : psm ((s, c) :: l) = smul s c + psm l.
  Proof. reflexivity. Qed.
  Lemma psm_app l m : psm (l ++ m) = psm l + psm m.
  Proof.
    induction l as [|[s c] l IH]; [symmetry; apply gadd_0|]. cbn [app]. rewrite !psm_cons, IH. grp.
  Qed.

  Variables (tau : F) (gen : G).
  Notation com p := (smul (peval p tau) gen).

  Lemma update_batch_ok ps : forall evs scalar rho s acc, length evs = length ps ->
    exists l, update_batch (map (fun p => com p) ps) evs scalar rho s acc = (l, acc + lin rho s evs, spow rho s (length ps)) /\
      psm l = smul (- (scalar * lin rho s (map (fun p => peval p tau) ps))) gen.
  Proof.
    induction ps as [|p ps IH]; intros evs scalar rho s acc L; destruct evs as [|e evs]; cbn [length] in L; try lia.
    - exists []. split; [cbn; f_equal; f_equal; ring|]. cbn [map lin]. replace (- (scalar * 0)) with (0 : F) by ring. symmetry. apply smul_0_l.
    - destruct (IH evs scalar rho (s * rho) (acc + e * s)) as (l & E & Hl); [lia|].
      cbn [map update_batch]. rewrite E. eexists. split; [cbn [lin length spow]; f_equal; f_equal; ring|].
      rewrite psm_cons, Hl, <- smul_mul, <- smul_add_l. f_equal. cbn [lin]. ring.
  Qed.

  (** the openings of the polynomials [bs] to the values [poss] at p, p², ... and [negs] at the opposite points *)
  Fixpoint vops (bs : list (list F)) (p : F) (poss negs : list F) : list opening :=
    match bs, poss, negs with
    | b :: bs, v :: poss, n :: negs => (b, p, v) :: (b, - p, n) :: vops bs (p * p) poss negs
    | _, _, _ => []
    end.
  Lemma fold_vops bs : forall p, fold_ops bs p = vops bs p (evals (fun x => x) bs p) (evals gneg bs p).
  Proof. induction bs as [|b bs IH]; intros p; [reflexivity|]. rewrite !evals_cons. cbn [fold_ops vops]. rewrite IH. reflexivity. Qed.

  Lemma batch_gemini_ok bs : forall p poss negs nu z s acc, length poss = length bs -> length negs = length bs ->
    exists l acc' k, batch_gemini (repeat 1 (length bs)) (map (fun b => com b) bs) negs poss (inverted_denominators z (sq p (length bs))) (nu_powers nu s (2 * length bs)) acc = Done (l, acc') /\
      psm l = smul k gen /\ k + acc' = acc - lin nu s (terms z tau (vops bs p poss negs)).
  Proof.
    induction bs as [|b bs IH]; intros p poss negs nu z s acc Lp Ln; destruct poss as [|v poss]; destruct negs as [|n negs]; cbn [length] in Lp, Ln; try lia.
    - exists [], acc, 0. split; [reflexivity|]. split; [symmetry; apply smul_0_l|]. cbn. ring.
    - cbn [length]. replace (2 * S (length bs))%nat with (S (S (2 * length bs))) by lia.
      cbn [repeat map sq inverted_denominators flat_map app nu_powers batch_gemini].
      change (flat_map (fun p : F => [inv0 (z - p); inv0 (z + p)]) (sq (p * p) (length bs))) with (inverted_denominators z (sq (p * p) (length bs))).
      destruct (IH (p * p) poss negs nu z (s * nu * nu) (acc + (s * nu * inv0 (z + p) * n + s * inv0 (z - p) * v))) as (l & acc' & k & E & Hl & Hk); [lia|lia|].
      rewrite E. cbn [obind]. do 2 eexists. exists (- (1) * (s * nu * inv0 (z + p) + s * inv0 (z - p)) * peval b tau + k). split; [reflexivity|]. split.
      + rewrite psm_cons, Hl, <- smul_mul, <- smul_add_l. reflexivity.
      + unfold terms in *. cbn [vops map lin]. unfold op_point at 1 2, op_poly at 1 2, op_value at 1 2. cbn [fst snd]. replace (z - - p) with (z + p) by ring.
        match goal with |- ?A + k + acc' = _ => transitivity (A + (k + acc')); [ring|] end. rewrite Hk. ring.
  Qed.

  (** the verifier computes the commitment to Q - sum of nu^j (f_j - v_j) / (z - x_j), where the v_j at the positive
      points are the ones it recovered *)
  Lemma verifier_ok fs gs bs q fevs gevs n us rho r nu z n0 negs p0 poss v0 pos neg :
    length fevs = length fs -> length gevs = length gs -> length us = S n -> length bs = n -> length negs = n -> r <> 0 ->
    peval pos tau = lin rho 1 (map (fun p => peval p tau) fs) + finv r * lin rho (spow rho 1 (length fs)) (map (fun p => peval p tau) gs) ->
    peval neg tau = lin rho 1 (map (fun p => peval p tau) fs) - finv r * lin rho (spow rho 1 (length fs)) (map (fun p => peval p tau) gs) ->
    fold_pos_evaluations (repeat 1 (S n)) us (sq r (S n)) (n0 :: negs) (lin rho 1 (fevs ++ gevs)) = Done (v0, p0 :: poss) -> length poss = n ->
    exists l, compute_batch_opening_claim gen (map (fun p => com p) fs) (map (fun p => com p) gs) fevs gevs (repeat 1 (S n)) us rho r nu z (map (fun b => com b) bs) (n0 :: negs) (com q) = Done l /\
      psm l = smul (peval q tau - lin nu 1 (terms z tau ((pos, r, p0) :: (neg, - r, n0) :: vops bs (r * r) poss negs))) gen.
  Proof.
    intros Lf Lg Lu Lb Ln Nr Hp Hn Hf Lp. unfold compute_batch_opening_claim. rewrite Lu, powers_sq.
    cbn [sq inverted_denominators flat_map app].
    change (flat_map (fun p : F => [inv0 (z - p); inv0 (z + p)]) (sq (r * r) n)) with (inverted_denominators z (sq (r * r) n)).
    destruct (feqb r 0) eqn:Er; [apply feqb_spec in Er; contradiction|].
    destruct (@update_batch_ok fs fevs (inv0 (z - r) + nu * inv0 (z + r)) rho 1 0 Lf) as (lf & Ef & Hlf). rewrite Ef.
    destruct (@update_batch_ok gs gevs (finv r * (inv0 (z - r) - nu * inv0 (z + r))) rho (spow rho 1 (length fs)) (0 + lin rho 1 fevs) Lg) as (lg & Eg & Hlg). rewrite Eg.
    replace (0 + lin rho 1 fevs + lin rho (spow rho 1 (length fs)) gevs) with (lin rho 1 (fevs ++ gevs)) by (rewrite lin_app, Lf; ring).
    change (r :: sq (r * r) n) with (sq r (S n)). rewrite Hf. cbn [obind].
    cbn [repeat skipn]. replace (2 * S n)%nat with (S (S (2 * n))) by lia. cbn [nu_powers skipn].
    destruct (@batch_gemini_ok bs (r * r) poss negs nu z (1 * nu * nu) 0) as (l & acc & k & E & Hl & Hk); [lia|lia|]. rewrite Lb in E. rewrite E. cbn [obind].
    eexists. split; [reflexivity|]. rewrite psm_cons, !psm_app, Hlf, Hlg, Hl, psm_cons, <- smul_mul.
    replace (psm []) with (0 : G) by reflexivity. rewrite gadd_0_r, <- !smul_add_l. f_equal.
    unfold terms in *. cbn [map lin]. unfold op_point at 1 2, op_poly at 1 2, op_value at 1 2. cbn [fst snd]. replace (z - - r) with (z + r) by ring.
    rewrite Hp, Hn.
    match type of Hk with _ = 0 - ?T => set (T1 := T) in * end.
    replace k with (0 - T1 - acc) by (rewrite <- Hk; ring). ring.
  Qed.
End Verify.
