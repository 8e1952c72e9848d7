(** * From the sum over all rows to every row (C75)

    Models the challenges that separate relations and rows (co-noir/ultrahonk/src/oink/oink_prover.rs:417-431,
    co-noir/co-noir-common/src/transcript.rs:435-448); the rest is specification and proofs. *)
From Coq Require Import String List Arith Lia Bool Ring.
From Verif Require Import Proc Alg NNet Rep3 ShamirPoly Shamir ShamirAlg Dft Univariate Sumcheck SumcheckSpec SumcheckSound ShpleminiFold ShpleminiPoly ShpleminiSound ShpleminiFew.
Import ListNotations.
Set Implicit Arguments.
Local Open Scope grp_scope.
Local Open Scope list_scope.

Section Rows.
  Context {F : Type} {FF : Fld F}.
  Add Ring FringHR : (@cring_theory F _).
  Infix "*" := rmul : grp_scope.
  Notation "1" := rone : grp_scope.
  Notation sub := (sub (F := F)).

  (** co-noir-common/src/transcript.rs:435-448 [compute_round_challenge_pows]: every entry is the square of the one before
      (ultra_prover.rs:21-29, ultra_verifier.rs:44 [generate_gate_challenges]) *)
  Fixpoint challenge_pows (num_powers : nat) (round_challenge : F) : list F :=
    match num_powers with O => [] | S n => round_challenge :: challenge_pows n (round_challenge * round_challenge) end.
  (** oink_prover.rs:425-430: every entry is the one before times alpha *)
  Fixpoint alpha_powers (n : nat) (a alpha : F) : list F :=
    match n with O => [] | S n => a :: alpha_powers n (a * alpha) alpha end.
  (** oink_prover.rs:418-431 [generate_alphas_round] with NUM_ALPHAS = [n] *)
  Definition generate_alphas (n : nat) (alpha : F) : list F := alpha_powers n alpha alpha.

  (** ** Specification *)
  Variables (subs : list sub) (m : nat) (cols : list (list F)).
  (** what the subrelation [s] adds to row [l]: its value there; a subrelation that holds in the sum adds its sum to row 0 *)
  Definition share_of (l : nat) (s : sub) : F :=
    if sb_indep s then sb_prover s (row cols l) else if Nat.eqb l 0 then sumn (2 ^ m) (fun i => sb_prover s (row cols i)) else 0.
  (** the rows, each a combination with powers of [alpha] *)
  Definition alpha_row (alpha : F) (l : nat) : F := peval (map (share_of l) subs) alpha.
  (** in some row a combination of values that are not all zero is zero *)
  Definition lucky_alpha (alpha : F) : Prop := exists l, l < 2 ^ m /\ alpha_row alpha l = 0 /\ exists s, In s subs /\ share_of l s <> 0.
  (** a combination of rows that are not all zero is zero *)
  Definition lucky_beta (alpha beta : F) : Prop :=
    peval (map (alpha_row alpha) (seq 0 (2 ^ m))) beta = 0 /\ exists l, l < 2 ^ m /\ alpha_row alpha l <> 0.

  (** ** Powers *)
  Lemma fpow_sq (b : F) k : fpow (b * b) k = fpow b (2 * k).
  Proof.
    induction k as [|k IH]; [reflexivity|]. replace (2 * S k)%nat with (S (S (2 * k))) by lia. cbn [fpow]. rewrite IH. ring.
  Qed.
  Lemma pow_pows n : forall b i, i < 2 ^ n -> pow (challenge_pows n b) i = fpow b i.
  Proof.
    induction n as [|n IH]; intros b i H; cbn [challenge_pows pow].
    - cbn in H. replace i with 0%nat by lia. reflexivity.
    - cbn [Nat.pow] in H. rewrite IH.
      + rewrite fpow_sq. destruct (Nat.odd i) eqn:O.
        * apply Nat.odd_spec in O. destruct O as [k ->]. replace (2 * k + 1)%nat with (S (2 * k)) by lia. rewrite Nat.div2_succ_double. reflexivity.
        * assert (E : Nat.even i = true) by (unfold Nat.odd in O; destruct (Nat.even i); [reflexivity|discriminate]). apply Nat.even_spec in E. destruct E as [k ->]. rewrite Nat.div2_double. ring.
      + rewrite Nat.div2_div. apply Nat.div_lt_upper_bound; lia.
  Qed.
  Lemma wsum_powers (f : sub -> F) alpha : forall ss a, wsum ss (alpha_powers (length ss) a alpha) f = a * peval (map f ss) alpha.
  Proof.
    induction ss as [|s ss IH]; intros a; cbn [length alpha_powers wsum map peval]; [ring|]. rewrite IH, smulU. ring.
  Qed.
  Lemma wsum_alphas (f : sub -> F) n alpha : S n = length subs -> wsum subs (1 :: generate_alphas n alpha) f = peval (map f subs) alpha.
  Proof.
    intros H. transitivity (1 * peval (map f subs) alpha); [|ring]. rewrite <- wsum_powers. f_equal. rewrite <- H. unfold generate_alphas. cbn [alpha_powers].
    replace (1 * alpha) with alpha by ring. reflexivity.
  Qed.
  Lemma sumn_scaled n (c : F) f : sumn n (fun i => c * f i) = c * sumn n f.
  Proof. induction n as [|n IH]; cbn [sumn]; [ring|]. rewrite IH. ring. Qed.
  Lemma wsum_sumn n (f : sub -> nat -> F) : forall ss xs, wsum ss xs (fun s => sumn n (f s)) = sumn n (fun l => wsum ss xs (fun s => f s l)).
  Proof.
    induction ss as [|s ss IH]; intros [|x xs]; cbn [wsum]; try (symmetry; apply sumn_0; reflexivity).
    rewrite IH, sumn_add, sumn_scaled. reflexivity.
  Qed.
  Lemma wsum_scale c (f : sub -> F) : forall ss xs, wsum ss xs (fun s => c * f s) = c * wsum ss xs f.
  Proof. induction ss as [|s ss IH]; intros [|x xs]; cbn [wsum]; try ring. rewrite IH. ring. Qed.
  Lemma two_pos : (0 < 2 ^ m)%nat.
  Proof. apply Nat.neq_0_lt_0, Nat.pow_nonzero. lia. Qed.
  Lemma total_rows n alpha beta : S n = length subs ->
    total subs (1 :: generate_alphas n alpha) m (challenge_pows m beta) 1 cols = peval (map (alpha_row alpha) (seq 0 (2 ^ m))) beta.
  Proof.
    intros H. unfold total. rewrite Dft.peval_sumn, map_length, seq_length.
    rewrite (@wsum_ext _ _ _ _ _ (fun s => sumn (2 ^ m) (fun l => fpow beta l * share_of l s))).
    - rewrite wsum_sumn. apply sumn_ext. intros l Hl. rewrite wsum_scale, (wsum_alphas _ alpha H), smulU. f_equal. fold (alpha_row alpha l).
      rewrite (nth_indep _ 0 (alpha_row alpha 0)) by (rewrite map_length, seq_length; exact Hl). rewrite map_nth, seq_nth by exact Hl. reflexivity.
    - intros s _. unfold sval, share_of. destruct (sb_indep s).
      + apply sumn_ext. intros l Hl. rewrite pow_pows by exact Hl. ring.
      + symmetry. rewrite (@sumn_delta _ _ (2 ^ m) _ 0 two_pos).
        * cbn [Nat.eqb fpow]. ring.
        * intros k _ Hk. destruct (Nat.eqb_spec k 0); [contradiction|]. ring.
  Qed.

  (** ** Every row *)
  Lemma bounded_dec (P : nat -> Prop) : (forall l, P l \/ ~ P l) -> forall n, (forall l, l < n -> P l) \/ exists l, l < n /\ ~ P l.
  Proof.
    intros D. induction n as [|n IH]; [left; intros; lia|]. destruct IH as [IH|[l [Hl N]]]; [|right; exists l; split; [lia|exact N]].
    destruct (D n) as [Y|N]; [left; intros l Hl; destruct (Nat.eq_dec l n) as [->|]; [exact Y|apply IH; lia]|right; exists n; split; [lia|exact N]].
  Qed.
  Lemma subs_dec (f : sub -> F) ss : (forall s, In s ss -> f s = 0) \/ exists s, In s ss /\ f s <> 0.
  Proof.
    induction ss as [|s ss IH]; [left; intros s []|]. destruct (zero_dec (f s)) as [Z|Z]; [|right; exists s; split; [left; reflexivity|exact Z]].
    destruct IH as [IH|[s' [H N]]]; [left; intros s' [<-|H]; [exact Z|apply IH, H]|right; exists s'; split; [right; exact H|exact N]].
  Qed.
  Lemma rows_satisfied n alpha beta : S n = length subs ->
    total subs (1 :: generate_alphas n alpha) m (challenge_pows m beta) 1 cols = 0 ->
    satisfied subs m cols \/ lucky_alpha alpha \/ lucky_beta alpha beta.
  Proof.
    intros H E. rewrite (total_rows alpha beta H) in E.
    destruct (@bounded_dec (fun l => alpha_row alpha l = 0) (fun l => zero_dec _) (2 ^ m)) as [A|[l [Hl N]]].
    2: { right; right. split; [exact E|]. exists l. split; assumption. }
    destruct (@bounded_dec (fun l => forall s, In s subs -> share_of l s = 0)) with (n := (2 ^ m)%nat) as [B|[l [Hl N]]].
    { intros l. destruct (subs_dec (share_of l) subs) as [Y|[s [I N]]]; [left; exact Y|right; intros Y; apply N, Y, I]. }
    - left. apply Forall_forall. intros s Hs. pose proof (fun l Hl => B l Hl s Hs) as C. unfold share_of in C. destruct (sb_indep s); [exact C|].
      exact (C 0%nat two_pos).
    - right; left. exists l. split; [exact Hl|]. split; [apply A, Hl|].
      destruct (subs_dec (share_of l) subs) as [Y|Y]; [contradiction|exact Y].
  Qed.

  (** ** Few exceptions *)
  Lemma few_beta alpha betas : NoDup betas -> Forall (lucky_beta alpha) betas -> length betas < 2 ^ m.
  Proof.
    intros ND H. destruct betas as [|b betas]; [exact two_pos|]. assert (H' := H). apply Forall_cons_iff in H'. destruct H' as [[_ [l [Hl N]]] _].
    replace (2 ^ m)%nat with (2 ^ 0 * 2 ^ m)%nat by (cbn [Nat.pow]; lia). apply (@few_squares _ _ 0 (2 ^ m) (map (alpha_row alpha) (seq 0 (2 ^ m)))).
    - rewrite map_length, seq_length. lia.
    - exists l. rewrite (nth_indep _ 0 (alpha_row alpha 0)) by (rewrite map_length, seq_length; exact Hl). rewrite map_nth, seq_nth by exact Hl. exact N.
    - exact ND.
    - eapply Forall_impl; [|exact H]. intros x [E _]. exact E.
  Qed.
  Lemma few_alpha_upto k : forall alphas, NoDup alphas ->
    Forall (fun a => exists l, l < k /\ alpha_row a l = 0 /\ exists s, In s subs /\ share_of l s <> 0) alphas -> length alphas <= k * length subs.
  Proof.
    induction k as [|k IH]; intros alphas ND H.
    - destruct alphas as [|a alphas]; [cbn; lia|]. apply Forall_cons_iff in H. destruct H as [(l & Hl & _) _]. lia.
    - replace (S k * length subs)%nat with (length subs + k * length subs)%nat by lia.
      apply (@split_list _ (fun a => alpha_row a k = 0 /\ exists s, In s subs /\ share_of k s <> 0)
        (fun a => exists l, l < k /\ alpha_row a l = 0 /\ exists s, In s subs /\ share_of l s <> 0)).
      + intros a. destruct (zero_dec (alpha_row a k)) as [Z|Z]; [|right; intros [Y _]; contradiction].
        destruct (subs_dec (share_of k) subs) as [Y|Y]; [right; intros [_ [s [I N]]]; apply N, Y, I|left; split; assumption].
      + exact ND.
      + eapply Forall_impl; [|exact H]. cbn beta. intros a (l & Hl & E & S). destruct (Nat.eq_dec l k) as [->|]; [left; split; assumption|right; exists l; repeat split; [lia|assumption|assumption]].
      + intros qs NDq Hq. destruct qs as [|q qs]; [cbn; lia|]. assert (H' := Hq). apply Forall_cons_iff in H'. destruct H' as [[_ [s [I N]]] _].
        apply Nat.lt_le_incl. replace (length subs) with (2 ^ 0 * length subs)%nat by (cbn [Nat.pow]; lia). apply (@few_squares _ _ 0 (length subs) (map (share_of k) subs)).
        * rewrite map_length. lia.
        * apply (in_map (share_of k)) in I. destruct (In_nth _ _ 0 I) as (j & _ & Ej). exists j. rewrite Ej. exact N.
        * exact NDq.
        * eapply Forall_impl; [|exact Hq]. intros x [E _]. exact E.
      + intros qs NDq Hq. exact (IH qs NDq Hq).
  Qed.
  Lemma few_alpha alphas : NoDup alphas -> Forall lucky_alpha alphas -> length alphas <= 2 ^ m * length subs.
  Proof. apply few_alpha_upto. Qed.
End Rows.
