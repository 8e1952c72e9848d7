(** * Which relations hold in every row, and when the lookups may be skipped (C71)

    Proofs only; no code of /repo is modelled here. *)
From Coq Require Import String List Arith Lia Bool Ring.
From Verif Require Import Proc Alg NNet Rep3 ShamirPoly Shamir ShamirAlg Univariate Sumcheck SumcheckSpec HonkRelations HonkProofs.
Import ListNotations.
Set Implicit Arguments.
Local Open Scope grp_scope.
Local Open Scope list_scope.

Section Skip.
  Context {F : Type} {FF : Fld F}.
  Add Ring FringHK : (@cring_theory F _).
  Infix "*" := rmul : grp_scope.
  Notation "1" := rone : grp_scope.
  Variable P : rparams (F := F).

  (** all but one of the relations *)
  Definition in_rows : list (list F -> F) :=
    [arith0; arith1; perm0 P; perm1; lookup0 P; lookup2; delta0; delta1; delta2; delta3; elliptic0 P; elliptic1 P;
     memory0 P; memory1; memory2; memory3 P; memory4; memory5 P; nnf0 P; pos_ext0; pos_ext1; pos_ext2; pos_ext3; pos_int0 P; pos_int1 P; pos_int2 P; pos_int3 P].
  Lemma honk_satisfied m cols : satisfied (honk_relations P) m cols <->
    (forall f, In f in_rows -> forall i, i < 2 ^ m -> f (row cols i) = 0) /\ sumn (2 ^ m) (fun i => lookup1 P (row cols i)) = 0.
  Proof.
    unfold satisfied, honk_relations, relations_with. rewrite Forall_forall. split.
    - intros H. split.
      + intros f Hf i Hi. unfold in_rows in Hf. cbn [In] in Hf.
        repeat (destruct Hf as [<-|Hf]; [match goal with |- ?g (row cols i) = 0 => refine (match H (mk _ true _ g) _ with K => K i Hi end); cbn [In]; tauto end|]). destruct Hf.
      + refine (H (mk _ false _ (lookup1 P)) _). cbn [In]. tauto.
    - intros [H1 H2] s Hs. cbn [In] in Hs.
      repeat (destruct Hs as [<-|Hs]; [unfold mk; cbn [sb_indep sb_prover]; first [exact H2|intros i Hi; apply H1; [unfold in_rows; cbn [In]; tauto|exact Hi]]|]). destruct Hs.
  Qed.

  (** rows in which a table entry is tagged only if it is counted, and the inverse is zero where nothing is looked up *)
  Definition honest_lookup (r : list F) : Prop :=
    (ent 34 r = 0 -> ent 35 r = 0) /\ (ent 6 r = 0 -> ent 35 r = 0 -> ent 33 r = 0).
  Lemma values_zero (a b : F) : is_zero (values [a; b] 7) = true -> a = 0 /\ a + b = 0.
  Proof.
    unfold is_zero, values. rewrite forallb_forall. intros H.
    assert (K : forall k, k < 7 -> peval [a; b] (fnat k) = 0). { intros k Hk. apply feqb_spec, H, in_map_iff. exists k. split; [reflexivity|]. apply in_seq. lia. }
    pose proof (K 0%nat ltac:(lia)) as K0. pose proof (K 1%nat ltac:(lia)) as K1. cbn [peval fnat] in K0, K1. rewrite !smulU in K0, K1. split.
    - etransitivity; [|exact K0]. ring.
    - etransitivity; [|exact K1]. ring.
  Qed.
  Lemma ent_line k cols l x : ent k (line (edge cols l) x) = ent k (row cols (2 * l)) + (ent k (row cols (S (2 * l))) - ent k (row cols (2 * l))) * x.
  Proof.
    unfold ent, line, edge, row. rewrite map_map. cbn [fst snd].
    destruct (Nat.lt_ge_cases k (length cols)) as [L|L]; [|rewrite !nth_overflow by (rewrite map_length; exact L); ring].
    assert (E : forall f : list F -> F, forall d, nth k (map f cols) d = f (nth k cols [])).
    { intros f d. rewrite (nth_indep _ d (f [])) by (rewrite map_length; exact L). apply map_nth. }
    rewrite !E. reflexivity.
  Qed.
  Lemma lookup_skip_ok cols l : length cols = 41 -> honest_lookup (row cols (2 * l)) -> honest_lookup (row cols (S (2 * l))) ->
    lookup_skip (map (fun p => values [fst p; snd p] 7) (edge cols l)) = true ->
    forall x, lookup0 P (line (edge cols l) x) = 0 /\ lookup1 P (line (edge cols l) x) = 0 /\ lookup2 (line (edge cols l) x) = 0.
  Proof.
    intros Lc [A1 A2] [B1 B2] H x. unfold lookup_skip in H. apply andb_prop in H. destruct H as [H6 H34].
    assert (K : forall k, k < 41 -> is_zero (nth k (map (fun p => values [fst p; snd p] 7) (edge cols l)) []) = true -> ent k (row cols (2 * l)) = 0 /\ ent k (row cols (S (2 * l))) = 0).
    { intros k Hk Z. set (f := fun p : F * F => values [fst p; snd p] 7) in *.
      rewrite (nth_indep (map f (edge cols l)) [] (f (0, 0))) in Z by (unfold edge; rewrite !map_length; lia). rewrite map_nth in Z. unfold f in Z. apply values_zero in Z.
      unfold edge in Z. set (g := fun col : list F => (nth (2 * l) col 0, nth (S (2 * l)) col 0 - nth (2 * l) col 0)) in *.
      rewrite (nth_indep (map g cols) (0, 0) (g [])) in Z by (rewrite map_length; lia). rewrite map_nth in Z. unfold g in Z. cbn [fst snd] in Z. destruct Z as [Z1 Z2].
      assert (E : forall i, ent k (row cols i) = nth i (nth k cols []) 0).
      { intros i. unfold ent, row. rewrite (nth_indep _ 0 ((fun col => nth i col 0) [])) by (rewrite map_length; lia). apply (map_nth (fun col => nth i col 0)). }
      rewrite !E. split; [exact Z1|]. etransitivity; [|exact Z2]. ring. }
    destruct (K 6%nat ltac:(lia) H6) as [Q0 Q1]. destruct (K 34%nat ltac:(lia) H34) as [C0 C1].
    pose proof (A1 C0) as T0. pose proof (B1 C1) as T1. pose proof (A2 Q0 T0) as I0. pose proof (B2 Q1 T1) as I1.
    assert (E : forall k, ent k (row cols (2 * l)) = 0 -> ent k (row cols (S (2 * l))) = 0 -> ent k (line (edge cols l) x) = 0).
    { intros k E0 E1. rewrite ent_line, E0, E1. ring. }
    unfold lookup0, lookup1, lookup2, inverse_exists.
    rewrite (E 6%nat Q0 Q1), (E 34%nat C0 C1), (E 35%nat T0 T1), (E 33%nat I0 I1). repeat split; ring.
  Qed.
End Skip.
