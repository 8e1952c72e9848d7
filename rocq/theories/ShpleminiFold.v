(** * Folds of polynomials and what the Gemini verifier recovers from them (C73)

    Specification ([gfold], [gchain], [evals]) and proof; no code of /repo is modelled here. *)
From Coq Require Import String List Arith Lia Bool Ring.
From Verif Require Import Proc Alg NNet Rep3 ShamirPoly Shamir ShamirAlg Univariate Sumcheck SumcheckSpec SumcheckSound Shplemini.
Import ListNotations.
Set Implicit Arguments.
Local Open Scope grp_scope.
Local Open Scope list_scope.

Section Fold.
  Context {F : Type} {FF : Fld F}.
  Add Ring FringGF : (@cring_theory F _).
  Infix "*" := rmul : grp_scope.
  Notation "1" := rone : grp_scope.

  (** [b] folds [a] with [u], as polynomials: b(x²) = (1-u) (a(x)+a(-x))/2 + u (a(x)-a(-x))/2x *)
  Definition gfold (u : F) (a b : F -> F) : Prop :=
    forall x, x * b (x * x) * (1 + 1) = (1 - u) * x * (a x + a (- x)) + u * (a x - a (- x)).
  (** the polynomials [As] are folded one to the next, and the last to the constant [v] *)
  Fixpoint gchain (us : list F) (As : list (list F)) (v : F) : Prop :=
    match us, As with
    | [], [] => True
    | u :: us, a :: As => gfold u (peval a) (peval (hd [v] As)) /\ gchain us As v
    | _, _ => False
    end.
  (** the same for coefficients *)
  Fixpoint fchain (us : list F) (a : list F) (bs : list (list F)) : Prop :=
    match us, bs with
    | [], [] => True
    | u :: us, b :: bs => folds u a b /\ fchain us b bs
    | _, _ => False
    end.
  (** p, p², p⁴, ... *)
  Fixpoint sq (p : F) (n : nat) : list F := match n with O => [] | S n => p :: sq (p * p) n end.
  (** the polynomials at these points, or at the opposite ones *)
  Definition evals (sign : F -> F) (As : list (list F)) (p : F) : list F :=
    map (fun q => peval (fst q) (sign (snd q))) (List.combine As (sq p (length As))).
  (** no denominator of the verifier vanishes *)
  Fixpoint dens_ok (us : list F) (p : F) : Prop :=
    match us with [] => True | u :: us => p * (1 - u) + u <> 0 /\ dens_ok us (p * p) end.

  Lemma powers_sq r n : powers_of_evaluation_challenge r (S n) = sq r (S n).
  Proof.
    unfold powers_of_evaluation_challenge. replace (S n - 1)%nat with n by lia.
    revert r; induction n as [|n IH]; intros r; [reflexivity|]. cbn [squares]. rewrite IH. reflexivity.
  Qed.
  Lemma length_sq p n : length (sq p n) = n.
  Proof. revert p; induction n as [|n IH]; intros p; [reflexivity|]. cbn. f_equal. apply IH. Qed.
  Lemma evals_cons sign a As p : evals sign (a :: As) p = peval a (sign p) :: evals sign As (p * p).
  Proof. reflexivity. Qed.

  Lemma peval_ext (a : list F) : forall b x, (forall i, nth i a 0 = nth i b 0) -> peval a x = peval b x.
  Proof.
    induction a as [|y a IH]; intros b x E.
    - revert E; induction b as [|z b IHb]; intros E; [reflexivity|]. cbn [peval].
      rewrite <- IHb by (intros i; specialize (E (S i)); destruct i; exact E). pose proof (E O) as E0. cbn in E0. rewrite <- E0. cbn [peval]. rewrite smul_0_r. symmetry. apply gadd_0.
    - destruct b as [|z b]; cbn [peval].
      + rewrite (IH [] x) by (intros i; specialize (E (S i)); cbn in E; rewrite E; destruct i; reflexivity). pose proof (E O) as E0. cbn in E0. rewrite E0. cbn [peval]. rewrite smul_0_r. apply gadd_0.
      + rewrite (IH b x) by (intros i; apply (E (S i))). pose proof (E O) as E0. cbn in E0. rewrite E0. reflexivity.
  Qed.
  Lemma list2_ind (P : list F -> Prop) : P [] -> (forall x, P [x]) -> (forall x y l, P l -> P (x :: y :: l)) -> forall l, P l.
  Proof.
    intros H0 H1 H2. fix IH 1. intros [|x [|y l]]; [exact H0|apply H1|apply H2, IH].
  Qed.
  (** coefficients at even positions *)
  Fixpoint evens (a : list F) : list F := match a with [] => [] | x :: a => x :: match a with [] => [] | _ :: a => evens a end end.
  (** coefficients at odd positions *)
  Fixpoint odds (a : list F) : list F := match a with [] => [] | _ :: a => match a with [] => [] | y :: a => y :: odds a end end.
  Lemma peval_split a : forall x, peval a x = peval (evens a) (x * x) + x * peval (odds a) (x * x).
  Proof.
    induction a as [|x|x y l IH] using list2_ind; intros p; cbn [evens odds peval]; rewrite ?smulU; [ring|ring|].
    rewrite IH. rewrite ?smulU. ring.
  Qed.
  Lemma nth_evens a : forall l, nth l (evens a) 0 = nth (2 * l) a 0.
  Proof.
    induction a as [|x|x y t IH] using list2_ind; intros l.
    - rewrite !nth_overflow by (cbn; lia). reflexivity.
    - destruct l; [reflexivity|]. rewrite !nth_overflow by (cbn; lia). reflexivity.
    - destruct l as [|l]; [reflexivity|]. replace (2 * S l)%nat with (S (S (2 * l))) by lia. cbn [evens nth]. apply IH.
  Qed.
  Lemma nth_odds a : forall l, nth l (odds a) 0 = nth (S (2 * l)) a 0.
  Proof.
    induction a as [|x|x y t IH] using list2_ind; intros l.
    - rewrite !nth_overflow by (cbn; lia). reflexivity.
    - rewrite !nth_overflow by (cbn; lia). reflexivity.
    - destruct l as [|l]; [reflexivity|]. replace (2 * S l)%nat with (S (S (2 * l))) by lia. cbn [odds nth]. apply IH.
  Qed.
  Lemma nth_padd (a : list F) : forall b i, nth i (padd a b) 0 = nth i a 0 + nth i b 0.
  Proof.
    induction a as [|x a IH]; intros [|y b] [|i]; cbn; try (symmetry; apply gadd_0); try (symmetry; apply gadd_0_r); try reflexivity. apply IH.
  Qed.
  Lemma nth_smul s (a : list F) : forall i, nth i (map (smul s) a) 0 = s * nth i a 0.
  Proof. induction a as [|x a IH]; intros [|i]; cbn; [ring|ring|reflexivity|apply IH]. Qed.
  (** folding of coefficients folds the polynomials *)
  Lemma folds_peval u a b : folds u a b -> forall x, peval b x = (1 - u) * peval (evens a) x + u * peval (odds a) x.
  Proof.
    intros H x. rewrite (peval_ext b (padd (map (smul (1 - u)) (evens a)) (map (smul u) (odds a))) x).
    - rewrite peval_padd, !peval_map_smul. reflexivity.
    - intros i. rewrite nth_padd, !nth_smul, nth_evens, nth_odds, (H i). ring.
  Qed.
  Lemma folds_gfold u a b : folds u a b -> gfold u (peval a) (peval b).
  Proof.
    intros H x. rewrite (folds_peval H), (peval_split a x), (peval_split a (- x)).
    replace (- x * - x) with (x * x) by ring. ring.
  Qed.
  Lemma fchain_gchain us : forall a bs v, fchain us a (bs ++ [[v]]) -> length us = S (length bs) -> gchain us (a :: bs) v.
  Proof.
    induction us as [|u us IH]; intros a bs v H L; [cbn in L; lia|].
    destruct bs as [|b bs].
    - destruct us; [|cbn in L; lia]. cbn in H. cbn [gchain hd]. split; [apply folds_gfold; apply H|exact I].
    - destruct H as [H1 H2]. cbn [gchain hd]. split; [apply folds_gfold, H1|]. apply IH; [exact H2|cbn in L; lia].
  Qed.
  Lemma fchain_mle us : forall a bs v, fchain us a (bs ++ [[v]]) -> mle us a = v.
  Proof.
    induction us as [|u us IH]; intros a bs v H.
    - destruct bs; contradiction.
    - destruct bs as [|b bs].
      + destruct us; [|cbn in H; destruct H as [_ []]]. cbn in H. rewrite (@mle_folds _ _ u [] a [v]) by apply H. apply mle_nil.
      + destruct H as [H1 H2]. rewrite (mle_folds us H1). eapply IH, H2.
  Qed.

  (** the verifier recovers the values at the positive points from the others and the value of the last *)
  Lemma fold_pos_ok us : forall As v p, gchain us As v -> dens_ok us p ->
    fold_pos_evaluations (repeat 1 (length us)) us (sq p (length us)) (evals gneg As p) v = Done (peval (hd [v] As) p, evals (fun x => x) As p).
  Proof.
    induction us as [|u us IH]; intros As v p H D.
    - destruct As; [|contradiction]. replace (peval (hd [v] []) p) with v; [reflexivity|]. cbn [hd peval]. rewrite smulU. ring.
    - destruct As as [|a As]; [contradiction|]. destruct H as [H1 H2]. destruct D as [D1 D2].
      rewrite !evals_cons. cbn [length sq repeat fold_pos_evaluations]. rewrite (IH As v (p * p) H2 D2). cbn [obind].
      destruct (feqb (p * (1 - u) + u) 0) eqn:Ed; [apply feqb_spec in Ed; contradiction|]. cbn [hd].
      assert (E : (p * peval (hd [v] As) (p * p) * (1 + 1) - peval a (- p) * (p * (1 - u) - u)) * finv (p * (1 - u) + u) = peval a p).
      { rewrite (H1 p). transitivity (peval a p * (finv (p * (1 - u) + u) * (p * (1 - u) + u))); [ring|]. rewrite finv_l by exact D1. ring. }
      rewrite E. f_equal. f_equal; [ring|f_equal; ring].
  Qed.
End Fold.
