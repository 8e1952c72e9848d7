(** * Poseidon2: the plain permutation is the specified one *)
From Coq Require Import String List Arith NArith Lia Bool Ring.
From Verif Require Import Proc Alg Rep3Net NNet Rep3 Shamir Poseidon2 Poseidon2Spec.
Import ListNotations.
Set Implicit Arguments.
Local Open Scope grp_scope.

Lemma cons_eq {A} (a b : A) l k : a = b -> l = k -> a :: l = b :: k.
Proof. congruence. Qed.
Section PlainOk.
  Context {F : Type} `{CRing F}.
  Add Ring Fring0 : (@cring_theory F _).
  Lemma ext_p_spec t (l : list F) : valid_t t -> length l = t -> ext_p t l = Some (ext_layer t l).
  Proof.
    intros Hv E. unfold valid_t in Hv. cbn [In] in Hv.
    repeat (destruct Hv as [Hv|Hv]; [subst t|]); try contradiction;
      repeat (destruct l as [|? l]; [discriminate E|]); destruct l; try discriminate E; clear E;
      cbv -[gadd gzero]; apply f_equal;
      repeat (apply cons_eq; [grp|]); reflexivity.
  Qed.
  Lemma ext_layer_length t (l : list F) : length (ext_layer t l) = t.
  Proof. unfold ext_layer. rewrite map_length, seq_length. reflexivity. Qed.
  Lemma fold_left_fsum l : forall a : F, fold_left gadd l a = a + fsum l.
  Proof. induction l as [|x l IH]; intros a; cbn [fold_left fsum fold_right]; [grp|]. rewrite IH. unfold fsum. grp. Qed.
  Lemma int_p_spec t (diag l : list F) : valid_t t -> length l = t -> length diag = t ->
    (t = 2%nat -> diag = [rone; rone + rone]) -> (t = 3%nat -> diag = [rone; rone; rone + rone]) ->
    int_p t diag l = int_layer diag l.
  Proof.
    intros Hv E Ed H2 H3. unfold valid_t in Hv. cbn [In] in Hv. destruct Hv as [Hv|[Hv|Hv]].
    - rewrite H2 by auto. subst t. destruct l as [|x [|y [|]]]; try discriminate E.
      cbv -[gadd gzero rmul rone cr_grp]. apply cons_eq; [ring|]. apply cons_eq; [ring|reflexivity].
    - rewrite H3 by auto. subst t. destruct l as [|x [|y [|z [|]]]]; try discriminate E.
      cbv -[gadd gzero rmul rone cr_grp]. apply cons_eq; [ring|]. apply cons_eq; [ring|]. apply cons_eq; [ring|reflexivity].
    - assert (Ht : (4 <= t)%nat) by (clear -Hv; lia).
      unfold int_p, int_layer, matmul_internal, sum_from_zero. rewrite fold_left_fsum.
      assert (Em : map2 (fun s m => rmul s m + (0 + fsum l)) l diag = map2 (fun x m => fsum l + rmul x m) l diag).
      { generalize (fsum l). clear. intros a. revert diag. induction l as [|x l IH]; intros [|m k]; cbn; auto. rewrite IH. f_equal. grp. }
      rewrite <- Em. destruct t as [|[|[|[|t]]]]; [lia..|reflexivity].
  Qed.
  Lemma int_layer_length (diag l : list F) : length diag = length l -> length (int_layer diag l) = length l.
  Proof. intros E. unfold int_layer. rewrite map2_length, E. apply Nat.min_id. Qed.
  Lemma single_sbox_spec d (x : F) : single_sbox d x = power d x.
  Proof.
    unfold single_sbox, power. destruct d as [|[[[|[]|]|[]|]|[[]|[]|]|]]; try reflexivity; cbv -[gadd gzero rmul rone cr_grp]; ring.
  Qed.
  Lemma external_round_spec t d p (l : list F) r rc : wf_params t p -> length l = t ->
    nth_error (round_constants_external p) r = Some rc ->
    external_round t d p l r = Some (ext_round t d l rc) /\ length (ext_round t d l rc) = t.
  Proof.
    intros (Hv & _ & _ & Hrc & _) E Er. split; [|apply ext_layer_length].
    unfold external_round, add_rc_external, ext_round. rewrite Er. cbn [option_map obind].
    rewrite (map_ext _ _ (single_sbox_spec d)). apply ext_p_spec; [exact Hv|].
    rewrite map_length, map2_length, E. rewrite Forall_forall in Hrc.
    rewrite (Hrc rc) by (eapply nth_error_In; eauto). apply Nat.min_id.
  Qed.
  Lemma internal_round_spec t d p (l : list F) r c : wf_params t p -> length l = t ->
    nth_error (round_constants_internal p) r = Some c ->
    internal_round t d p l r = Some (int_round d (mat_internal_diag_m_1 p) l c) /\
    length (int_round d (mat_internal_diag_m_1 p) l c) = t.
  Proof.
    intros (Hv & Hd & _ & _ & _ & H2 & H3) E Er.
    assert (El : length (match l with [] => [] | x :: l => power d (x + c) :: l end) = t) by (destruct l; exact E).
    split; [|unfold int_round; rewrite int_layer_length; congruence].
    unfold internal_round, add_rc_internal, int_round. rewrite Er. cbn [option_map obind]. f_equal.
    rewrite <- (@int_p_spec t); try assumption. f_equal. destruct l; cbn [on_first]; [reflexivity|]. rewrite single_sbox_spec. reflexivity.
  Qed.
  Lemma fold_opt_spec {A C : Type} (step : A -> nat -> option A) (g : A -> C -> A) (cs : list C) (P : A -> Prop) :
    (forall a r c, P a -> nth_error cs r = Some c -> step a r = Some (g a c) /\ P (g a c)) ->
    forall n k a, P a -> (k + n <= length cs)%nat ->
    fold_opt step (seq k n) a = Some (fold_left g (firstn n (skipn k cs)) a) /\ P (fold_left g (firstn n (skipn k cs)) a).
  Proof.
    intros Hs. induction n as [|n IH]; intros k a Ha E; cbn [seq fold_opt firstn fold_left]; [auto|].
    destruct (nth_error cs k) as [c|] eqn:Ek; [|apply nth_error_None in Ek; lia].
    assert (Es : skipn k cs = c :: skipn (Datatypes.S k) cs).
    { clear -Ek. revert cs Ek. induction k as [|k IH]; intros [|x cs] Ek; cbn in *; try discriminate; [congruence|]. apply IH. exact Ek. }
    rewrite Es. cbn [fold_left]. destruct (Hs a k c Ha Ek) as [E1 P1]. rewrite E1. cbn [obind]. apply IH; [exact P1|lia].
  Qed.
  Lemma permutation_spec t d p (l : list F) : wf_params t p -> length l = t ->
    permutation t d p l = Some (poseidon2 t d p l) /\ length (poseidon2 t d p l) = t.
  Proof.
    intros W E. pose proof W as (Hv & Hd & Hl & Hrc & Hi & _). unfold permutation, poseidon2.
    rewrite ext_p_spec by assumption. cbn [obind].
    destruct (@fold_opt_spec (list F) (list F) (external_round t d p) (ext_round t d) (round_constants_external p) (fun l => length l = t)
                (fun a r c Ha Hr => @external_round_spec t d p a r c W Ha Hr) (rounds_f_beginning p) 0 (ext_layer t l)) as [E1 L1].
    { apply ext_layer_length. } { lia. }
    rewrite skipn_O in E1, L1. rewrite E1. cbn [obind].
    match goal with |- context [fold_opt (internal_round _ _ _) _ ?aa] =>
      destruct (@fold_opt_spec (list F) F (internal_round t d p) (int_round d (mat_internal_diag_m_1 p)) (round_constants_internal p) (fun l => length l = t)
                (fun a r c Ha Hr => @internal_round_spec t d p a r c W Ha Hr) (rounds_p p) 0 aa L1) as [E2 L2] end.
    { lia. }
    rewrite skipn_O in E2, L2. rewrite E2. cbn [obind].
    apply (@fold_opt_spec (list F) (list F) (external_round t d p) (ext_round t d) (round_constants_external p) (fun l => length l = t)
                (fun a r c Ha Hr => @external_round_spec t d p a r c W Ha Hr) (rounds_f_end p)); [exact L2|lia].
  Qed.
  (** sizes that [Poseidon2Params::new] accepts *)
  Lemma params_new_wf t d rounds_f rounds_p diag rce rci (p : pparams F) :
    params_new t d rounds_f rounds_p diag rce rci = Some p -> (0 < t)%nat ->
    length diag = t -> Forall (fun rc => length rc = t) rce ->
    (t = 2%nat -> diag = [rone; rone + rone]) -> (t = 3%nat -> diag = [rone; rone; rone + rone]) ->
    wf_params t p /\ N.odd d = true.
  Proof.
    unfold params_new. intros Hp Ht Hd Hrc H2 H3.
    match type of Hp with (if ?b then _ else _) = _ => destruct b eqn:E end; [|discriminate].
    assert (Ep : p = mkPP (rounds_f / 2) (rounds_f / 2) rounds_p diag rce rci) by congruence. clear Hp. subst p.
    rewrite !andb_true_iff in E. destruct E as [[[[E1 E2] E3] E4] E5].
    apply Nat.eqb_eq in E3, E4, E5. apply N.eqb_eq in E2. split.
    - repeat split; cbn [rounds_f_beginning rounds_f_end Poseidon2.rounds_p mat_internal_diag_m_1 round_constants_external round_constants_internal]; try assumption.
      + unfold valid_t. rewrite !orb_true_iff, !Nat.eqb_eq, andb_true_iff, Nat.leb_le, Nat.eqb_eq in E1. cbn [In].
        clear -E1 Ht. destruct E1 as [[E1|E1]|[E1 E2]]; [lia..|]. apply Nat.mod_divides in E2; [|lia]. destruct E2 as [c ->].
        assert (c = 1 \/ c = 2 \/ c = 3 \/ c = 4 \/ c = 5 \/ c = 6)%nat by lia. intuition subst; cbn; auto 10.
      + rewrite E4. pose proof (Nat.div_mod rounds_f 2 ltac:(lia)). lia.
    - rewrite <- N.bit0_odd. pose proof (N.bit0_mod d) as B. rewrite E2 in B. destruct (N.testbit d 0); [reflexivity|discriminate].
  Qed.
End PlainOk.
