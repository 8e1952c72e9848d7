(** * Proofs about the relations of UltraHonk (C71, C72) *)
From Coq Require Import String List Arith Lia Bool Ring.
From Verif Require Import Proc Alg NNet Rep3 ShamirPoly Shamir ShamirAlg Univariate Sumcheck SumcheckSpec HonkRelations.
Import ListNotations.
Set Implicit Arguments.
Local Open Scope grp_scope.
Local Open Scope list_scope.

Section Proofs.
  Context {F : Type} {FF : Fld F}.
  Add Ring FringHR : (@cring_theory F _).
  Infix "*" := rmul : grp_scope.
  Notation "1" := rone : grp_scope.
  Variable P : rparams (F := F).

  (** ** Degrees *)
  Definition pdeg (d : nat) (f : F -> F) : Prop := poly_fun (S d) f.
  Lemma pd_const a : pdeg 0 (fun _ => a).
  Proof. exists [a]. split; [cbn; lia|]. intros x. cbn. rewrite ?smulU. ring. Qed.
  Lemma pd_ent i e : pdeg 1 (fun x => ent i (line e x)).
  Proof.
    destruct (le_lt_dec (length e) i) as [H|H].
    - exists []. split; [cbn; lia|]. intros x. cbn. unfold ent. apply nth_overflow. unfold line. rewrite map_length. exact H.
    - exists [fst (nth i e (0, 0)); snd (nth i e (0, 0))]. split; [cbn; lia|]. intros x. unfold ent, line.
      set (f := fun p : F * F => fst p + snd p * x). rewrite (nth_indep (map f e) 0 (f (0, 0))) by (rewrite map_length; exact H).
      rewrite map_nth. unfold f. cbn. rewrite ?smulU. ring.
  Qed.
  Lemma pd_le a b f : a <= b -> pdeg a f -> pdeg b f.
  Proof. intros L. apply poly_le. lia. Qed.
  Lemma pd_add a b f g : pdeg a f -> pdeg b g -> pdeg (Nat.max a b) (fun x => f x + g x).
  Proof. intros A B. apply poly_add; [apply (@poly_le _ _ (S a))|apply (@poly_le _ _ (S b))]; try assumption; lia. Qed.
  Lemma pd_neg a f : pdeg a f -> pdeg a (fun x => - f x).
  Proof. intros A. apply (@poly_ext _ _ _ (fun x => - (1) * f x)); [intros x; ring|]. apply poly_mul. exact A. Qed.
  Lemma pd_mul a b f g : pdeg a f -> pdeg b g -> pdeg (a + b) (fun x => f x * g x).
  Proof.
    intros (p & Lp & Ep) (q & Lq & Eq). exists (pmul p q). split; [apply length_pmul; assumption|].
    intros x. rewrite peval_pmul, Ep, Eq. reflexivity.
  Qed.

  (** ** Skipping *)
  Lemma is_zero_values a b n : 2 <= n -> is_zero (values [a; b] n) = true -> a = 0 /\ b = 0.
  Proof.
    intros L H. unfold is_zero in H. rewrite forallb_forall in H.
    assert (V : forall k, k < n -> peval [a; b] (fnat k) = 0).
    { intros k Lk. specialize (H (nth k (values [a; b] n) 0)). rewrite nth_values in H by exact Lk.
      apply (feqb_spec (peval [a; b] (fnat k)) 0). apply H.
      rewrite <- (@nth_values _ _ [a; b] n k) by exact Lk. apply nth_In. rewrite length_values. exact Lk. }
    assert (V0 := V 0%nat ltac:(lia)). assert (V1 := V 1%nat ltac:(lia)). cbn in V0, V1. rewrite ?smulU in V0, V1.
    assert (A : a = 0) by (rewrite <- V0; ring). split; [exact A|]. rewrite A in V1. rewrite <- V1. ring.
  Qed.
  Lemma zero_line i (e : list (F * F)) n : 2 <= n -> is_zero (nth i (map (fun p => values [fst p; snd p] n) e) []) = true -> forall x, ent i (line e x) = 0.
  Proof.
    intros Ln H x. destruct (le_lt_dec (length e) i) as [L|L].
    - unfold ent. apply nth_overflow. unfold line. rewrite map_length. exact L.
    - set (f := fun p : F * F => values [fst p; snd p] n) in H. rewrite (nth_indep (map f e) [] (f (0, 0))) in H by (rewrite map_length; exact L).
      rewrite map_nth in H. apply is_zero_values in H; [|exact Ln]. destruct H as [A B].
      unfold ent, line. set (g := fun p : F * F => fst p + snd p * x). rewrite (nth_indep (map g e) 0 (g (0, 0))) by (rewrite map_length; exact L).
      rewrite map_nth. unfold g. rewrite A, B. ring.
  Qed.
  Lemma ent_zero i : ent i (repeat 0 41) = 0 :> F.
  Proof. unfold ent. apply nth_repeat. Qed.

  (** ** Every subrelation is a polynomial along lines and vanishes where it is skipped *)
  Lemma sub_ok_selected len q (f : list F -> F) : 1 <= len -> len <= 7 ->
    (forall e, pdeg (len - 1) (fun x => f (line e x))) -> (forall r, ent q r = 0 -> f r = 0) ->
    sub_ok 7 8 41 (mk len true (selected q) f).
  Proof.
    intros L1 L7 D Z. unfold sub_ok. cbn [sb_len sb_verify sb_prover sb_skip sb_indep mk]. repeat split; try lia.
    - intros e _. destruct (D e) as (p & Lp & Ep). exists p. split; [lia|exact Ep].
    - apply Z. apply ent_zero.
    - intros e _ H x. apply Z. unfold selected in H. apply (@zero_line q e 7); [lia|exact H].
  Qed.
  Lemma sub_ok_never len indep (f : list F -> F) : 1 <= len -> len <= 7 ->
    (forall e, pdeg (len - 1) (fun x => f (line e x))) -> f (repeat 0 41) = 0 ->
    sub_ok 7 8 41 (mk len indep (fun _ => false) f).
  Proof.
    intros L1 L7 D Z. unfold sub_ok. cbn [sb_len sb_verify sb_prover sb_skip sb_indep mk]. repeat split; try lia.
    - intros e _. destruct (D e) as (p & Lp & Ep). exists p. split; [lia|exact Ep].
    - exact Z.
  Qed.
End Proofs.

(** the degree of an expression, following its syntax *)
Ltac pd := first [apply pd_const | apply pd_ent | eapply pd_neg; pd | eapply pd_add; [pd|pd] | eapply pd_mul; [pd|pd]].
Ltac unf := unfold arith0, arith1, perm0, perm1, perm_numerator, perm_denominator, lookup0, lookup1, lookup2, inverse_exists, read_term, write_term,
  delta0, delta1, delta2, delta3, delta_term, elliptic0, elliptic1, elliptic, memory0, memory1, memory2, memory3, memory4, memory5, partial_record,
  index_delta_is_zero, index_increasing, neg_index_delta, neg_next_access, q_one_two_memory, q_3_memory, nnf0, pos_ext0, pos_ext1, pos_ext2, pos_ext3, pos_ext,
  pos_int0, pos_int1, pos_int2, pos_int3, pos_int_sum, sbox, sqr, double in *; cbv zeta; cbn [fst snd].
Ltac deg := intros e; unf; unfold gsub; eapply pd_le; [|pd]; cbn; lia.
Section All.
  Context {F : Type} {FF : Fld F}.
  Add Ring FringHR2 : (@cring_theory F _).
  Infix "*" := rmul : grp_scope.
  Notation "1" := rone : grp_scope.
  Variable P : rparams (F := F).
  Ltac sel := apply sub_ok_selected; [lia|lia|deg|intros r H; unf; rewrite H; unfold gsub; ring].
  Ltac nev := apply sub_ok_never; [lia|lia|deg|unf; rewrite !ent_zero; unfold gsub; ring].
  Theorem honk_ok : Forall (sub_ok 7 8 41) (honk_relations_full P).
  Proof.
    unfold honk_relations_full, relations_with.
    repeat first [apply Forall_nil | apply Forall_cons; [first [sel|nev]|]].
  Qed.
End All.
