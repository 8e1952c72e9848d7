(** * The verifier of the sumcheck accepts a wrong sum only if a challenge is a root (C70)

    Specification ([fold_col], [lucky]) and proof; no code of /repo is modelled here. *)
From Coq Require Import String List Arith Lia Bool Ring.
From Verif Require Import Proc Alg NNet Rep3 ShamirPoly Shamir ShamirAlg Univariate Sumcheck SumcheckSpec SumcheckProofs.
Import ListNotations.
Set Implicit Arguments.
Local Open Scope grp_scope.
Local Open Scope string_scope.
Local Open Scope list_scope.

Section Sound.
  Context {F : Type} {FF : Fld F}.
  Add Ring FringSS : (@cring_theory F _).
  Infix "*" := rmul : grp_scope.
  Notation "1" := rone : grp_scope.
  Notation sub := (sub (F := F)).
  Notation gates := (gates (F := F)).
  Variables (subs : list sub) (xs : list F) (MAX SIZE : nat).

  (** a column with its first variable set to [u] *)
  Definition fold_col (u : F) (col : list F) : list F :=
    map (fun l => nth (2 * l) col 0 + (nth (S (2 * l)) col 0 - nth (2 * l) col 0) * u) (seq 0 (length col)).
  (** some univariate is not that of the columns (it has another value at one of 0, ..., SIZE-1), but has the same
      value at the challenge that was drawn after it *)
  Fixpoint lucky (bs : list F) (c : F) (cols : list (list F)) (uns : list (list F)) (us : list F) : Prop :=
    match bs, uns, us with
    | b :: bs, un :: uns, u :: us =>
        let honest := round_poly subs xs (length us) b bs c cols in
        ((exists k, k < SIZE /\ nth k un 0 <> honest (fnat k)) /\ exists p, length p <= SIZE /\ values p SIZE = un /\ peval p u = honest u)
        \/ lucky bs (c * (1 + u * (b - 1))) (map (fold_col u) cols) uns us
    | _, _, _ => False
    end.

  Lemma fold_folds u col : folds u col (fold_col u col).
  Proof.
    intros l. set (f := fun l => nth (2 * l) col 0 + (nth (S (2 * l)) col 0 - nth (2 * l) col 0) * u). unfold fold_col. fold f.
    destruct (lt_dec l (length col)) as [H|H].
    - rewrite (nth_indep (map f (seq 0 (length col))) 0 (f O)) by (rewrite map_length, seq_length; exact H). rewrite map_nth, seq_nth by exact H. reflexivity.
    - rewrite !nth_overflow; [ring|lia|lia|rewrite map_length, seq_length; lia].
  Qed.
  Lemma fold_all u cols : Forall2 (folds u) cols (map (fold_col u) cols).
  Proof. induction cols; constructor; [apply fold_folds|assumption]. Qed.

  Variable N : nat.
  Hypothesis WS : wide (F := F) SIZE.
  Hypothesis HS : 2 <= SIZE.
  Hypothesis OK : Forall (sub_ok MAX SIZE N) subs.
  Variable chal : list (list F) -> F.
  Notation vr := (verify_rounds SIZE chal).
  Notation tot := (total subs xs).
  Notation folded us cols := (fold_left (fun cols u => map (fold_col u) cols) us cols).

  Lemma evaluate_done un u v : length un = SIZE -> evaluate un u = Done v -> exists p, length p <= SIZE /\ values p SIZE = un /\ peval p u = v.
  Proof.
    intros L E. destruct (interpolation un) as (p & Lp & Vp); [rewrite L; exact WS|]. rewrite L in Lp, Vp. exists p. split; [exact Lp|]. split; [exact Vp|].
    pose proof (is_bad_spec SIZE u) as B. destruct (is_bad SIZE u).
    - destruct B as (i & Hi & ->). rewrite evaluate_panics in E by (rewrite L; assumption). discriminate E.
    - rewrite <- Vp, evaluate_ok in E; [injection E as E; exact E|exact WS|exact Lp|lia|exact B].
  Qed.
  (** two polynomials with the same values at 0, ..., SIZE-1, or a point where they differ *)
  Lemma same_or_not un R p : poly_fun SIZE R -> length p <= SIZE -> values p SIZE = un ->
    (forall x, peval p x = R x) \/ exists k, k < SIZE /\ nth k un 0 <> R (fnat k).
  Proof.
    intros (q & Lq & Eq) Lp Vp.
    destruct (forallb (fun k => feqb (nth k un 0) (R (fnat k))) (seq 0 SIZE)) eqn:E.
    - left. intros x. rewrite Eq. rewrite forallb_forall in E.
      apply (peval_unique (xs := map fnat (seq 0 SIZE)) p q WS); rewrite ?map_length, ?seq_length; try assumption.
      intros a Ha. apply in_map_iff in Ha. destruct Ha as (k & <- & Hk). specialize (E k Hk). apply feqb_spec in E. apply in_seq in Hk.
      rewrite <- Eq, <- E, <- Vp. rewrite nth_values by lia. reflexivity.
    - right. assert (H : exists k, In k (seq 0 SIZE) /\ feqb (nth k un 0) (R (fnat k)) = false).
      { clear - E. induction (seq 0 SIZE) as [|k l IH]; cbn [forallb] in E; [discriminate|]. destruct (feqb (nth k un 0) (R (fnat k))) eqn:Ek.
        - destruct IH as (j & Hj & Ej); [exact E|]. exists j. split; [right; exact Hj|exact Ej].
        - exists k. split; [left; reflexivity|exact Ek]. }
      destruct H as (k & Hk & Ek). exists k. split; [apply in_seq in Hk; lia|]. intros Eq'. apply feqb_spec in Eq'. congruence.
  Qed.
  Lemma length_folded us : forall cols : list (list F), length (folded us cols) = length cols.
  Proof. induction us as [|u us IH]; intros cols; [reflexivity|]. cbn [fold_left]. rewrite IH, map_length. reflexivity. Qed.
  Lemma mle_folded us : forall cols, map (mle us) cols = row (folded us cols) 0.
  Proof.
    induction us as [|u us IH]; intros cols; cbn [fold_left].
    - unfold row. apply map_ext. intros. apply mle_nil.
    - rewrite <- IH, map_map. apply map_ext. intros col. apply mle_folds, fold_folds.
  Qed.
  Lemma verify_inv n : forall sent rest target ok betas c r period us0 t g us' cols, length cols = N -> (r + n <= length betas)%nat ->
    vr (repeat 1 n) sent rest target ok (vgates betas c r period) us0 = Done (t, true, g, us') ->
    ok = true /\ exists us, us' = us0 ++ us /\ length us = n /\
      (t = tot 0 [] (gs_result g) (folded us cols) -> target = tot n (skipn r betas) c cols \/ lucky (skipn r betas) c cols rest us).
  Proof.
    induction n as [|n IH]; intros sent rest target ok betas c r period us0 t g us' cols Lc Hr E; cbn [repeat verify_rounds] in E.
    - injection E as <- -> <- <-. split; [reflexivity|]. exists []. rewrite app_nil_r. split; [reflexivity|]. split; [reflexivity|]. cbn [fold_left gs_result vgates]. intros ->. left.
      unfold total. apply wsum_ext. intros s _. cbn [Nat.pow sumn]. rewrite !pow_0. reflexivity.
    - destruct rest as [|un rest]; [discriminate E|]. destruct (length un =? SIZE)%nat eqn:L; [|discriminate E]. apply Nat.eqb_eq in L.
      set (u := chal (sent ++ [un])) in *. rewrite total_sum_1 in E by lia. cbn [obind] in E. destruct (evaluate un u) as [v|] eqn:Ev; [|discriminate E]. cbn [obind] in E.
      destruct (nth_error betas r) as [b|] eqn:Hb; [|apply nth_error_None in Hb; lia].
      unfold gates_evaluate_padded, current_element, at_index, vgates in E. cbn [gs_betas gs_idx gs_result gs_products gs_period] in E. rewrite Hb in E. cbn [obind] in E.
      replace ((1 - 1) * c + 1 * c * (1 + u * (b - 1))) with (c * (1 + u * (b - 1))) in E by ring.
      replace ((1 - 1) * target + 1 * v) with v in E by ring.
      destruct (@evaluate_done un u v L Ev) as (p & Lp & Vp & Pv).
      destruct (IH (sent ++ [un]) rest v (ok && feqb target (nth 0 un 0 + nth 1 un 0))%bool betas (c * (1 + u * (b - 1))) (S r) (2 * period)%nat (us0 ++ [u]) t g us' (map (fold_col u) cols)) as (Ok & us & Eu & Lu & H); [rewrite map_length; exact Lc|lia|exact E|].
      apply andb_prop in Ok. destruct Ok as (-> & Et). apply feqb_spec in Et. split; [reflexivity|].
      exists (u :: us). split; [rewrite Eu, <- app_assoc; reflexivity|]. split; [cbn [length]; lia|]. cbn [fold_left]. intros Ht. specialize (H Ht).
      assert (Eb : skipn r betas = b :: skipn (S r) betas).
      { clear - Hb. revert r Hb. induction betas as [|x l IHl]; intros [|r] H; cbn in H; try discriminate; [injection H as <-; reflexivity|]. cbn [skipn]. rewrite (IHl r H). reflexivity. }
      rewrite Eb. cbn [lucky]. destruct H as [H|H]; [|right; right; exact H].
      rewrite Lu. rewrite <- (round_next subs xs n b (skipn (S r) betas) c (fold_all u cols)) in H.
      set (R := round_poly subs xs n b (skipn (S r) betas) c cols) in *.
      assert (PR : poly_fun SIZE R) by (apply round_degree with (MAX := MAX) (N := N); assumption).
      destruct (@same_or_not un R p PR Lp Vp) as [Sm|Df].
      + left. rewrite Et, <- round_sum. fold R. rewrite <- !Sm, <- Vp, !nth_values by lia. rewrite fnat_0, fnat_1. reflexivity.
      + right. left. split; [exact Df|]. exists p. split; [exact Lp|]. split; [exact Vp|]. congruence.
  Qed.
  Variable alphas : list F.
  Hypothesis Exs : xs = 1 :: alphas.
  Theorem sumcheck_sound n betas uns evals us cols : length cols = N -> n <= length betas ->
    sumcheck_verify subs SIZE chal (repeat 1 n) betas alphas uns evals = Done (true, us) -> evals = map (mle us) cols ->
    length us = n /\ (tot n betas 1 cols = 0 \/ lucky betas 1 cols uns us).
  Proof.
    intros Lc Lb E Ee. unfold sumcheck_verify in E. destruct (verify_rounds SIZE chal (repeat 1 n) [] uns 0 true (gates_bare betas) []) as [(((t & ok) & g) & us')|] eqn:V; [|discriminate E].
    cbn [obind] in E. destruct (S (length alphas) =? length subs)%nat; [|discriminate E]. injection E as Eo ->. apply andb_prop in Eo. destruct Eo as (-> & Ef). apply feqb_spec in Ef.
    destruct (@verify_inv n [] uns 0 true betas 1 0 2 [] t g us cols Lc) as (_ & us2 & E2 & Lu & H); [lia|exact V|]. cbn [app] in E2. subst us2.
    split; [exact Lu|]. cbn [skipn] in H. destruct H as [H|H]; [|left; symmetry; exact H|right; exact H].
    rewrite <- Ef, Ee, mle_folded.
    rewrite (@batch_evaluations_ok _ _ MAX SIZE N) by ((unfold row; rewrite map_length, length_folded; exact Lc) || exact OK).
    rewrite <- Exs, gadd_0. unfold total. apply wsum_ext. intros s _. cbn [Nat.pow sumn]. rewrite pow_0, gadd_0. unfold sval. destruct (sb_indep s); ring.
  Qed.
  (** few challenges are roots *)
  Lemma few_roots un R p us : poly_fun SIZE R -> length p <= SIZE -> values p SIZE = un -> (exists k, k < SIZE /\ nth k un 0 <> R (fnat k)) ->
    NoDup us -> (forall u, In u us -> peval p u = R u) -> length us < SIZE.
  Proof.
    intros (q & Lq & Eq) Lp Vp (k & Hk & D) ND H. destruct (lt_dec (length us) SIZE) as [L|L]; [exact L|]. exfalso. apply D. rewrite <- Vp, nth_values by exact Hk. rewrite Eq.
    apply (peval_unique (xs := us) p q ND); [lia|lia|]. intros a Ha. rewrite (H a Ha). apply Eq.
  Qed.
End Sound.
