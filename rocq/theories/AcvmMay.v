(** * The co-noir ACVM: runs in which no masked inversion happens *)
From Coq Require Import String List Arith NArith Lia Bool.
From Verif Require Import Proc Alg Rep3Net Rep3 Uint Conv Lut VmDriver VmIdeal VmRun Acvm AcvmSpec AcvmRun AcvmRef.
Import ListNotations.
Local Open Scope grp_scope.
Local Open Scope list_scope.
Local Open Scope acvm_scope.

Section May.
  Context {F : Type} `{FU : FieldUint F}.
  Notation tv := (tv F).
  Notation tl := (tl F).
  Variable tbrillig : nat -> list tv -> outcome (list tv).
  Variable bmay : nat -> list tv -> bool.
  Hypothesis no_bmay : forall id l, bmay id l = false.
  Notation RI := (run_ideal_ac tbrillig).
  Notation MAY := (run_may_ac tbrillig bmay).
  (** in every assertion the products are of witnesses that are known when it is reached *)
  Fixpoint linear (kn : nat -> bool) (ops : list (aopc F)) : Prop :=
    match ops with
    | [] => True
    | o :: l => match o with
                | OAssert e => forall c i j, In (c, i, j) (e_mul e) -> c <> 0 -> kn i = true /\ kn j = true
                | _ => True
                end /\ linear (learn kn (gives o)) l
    end.
  Definition kinv (kn : nat -> bool) (w : wmap tv) : Prop := forall i, kn i = true -> wget i w <> None.

  Lemma may_bind {A B} (q : acp F tv tl A) (f : A -> acp F tv tl B) : MAY q = false -> (forall v, RI q = Done v -> MAY (f v) = false) -> MAY (abind q f) = false.
  Proof.
    induction q as [x|e|o k IH|l k IH|x t k IH|x y t k IH|l k IH|n k IH|n l k IH]; cbn [abind run_may_ac run_ideal_ac]; intros E K.
    - apply K. reflexivity.
    - reflexivity.
    - apply orb_false_elim in E as [E1 E2]. rewrite E1. cbn [orb]. unfold after in *. destruct (ideal_aop o) as [v|e]; [|reflexivity]. apply IH; [exact E2|exact K].
    - apply IH; [exact E|exact K].
    - unfold after in *. destruct (ideal_read x t) as [v|e]; [|reflexivity]. apply IH; [exact E|exact K].
    - unfold after in *. destruct (ideal_write x y t) as [v|e]; [|reflexivity]. apply IH; [exact E|exact K].
    - apply IH; [exact E|exact K].
    - apply IH; [exact E|exact K].
    - apply orb_false_elim in E as [E1 E2]. rewrite E1. cbn [orb]. unfold after in *. destruct (tbrillig n l) as [v|e]; [|reflexivity]. apply IH; [exact E2|exact K].
  Qed.
  Lemma may_op {B} (o : aop F tv) (f : tv -> acp F tv tl B) : may_aop o = false -> (forall v, MAY (f v) = false) -> MAY (abind (aop1 o) f) = false.
  Proof.
    intros E K. apply may_bind; [|intros v _; apply K]. cbn [aop1 run_may_ac]. rewrite E. unfold after. now destruct (ideal_aop o).
  Qed.
  Lemma may_mul wt l : forall acc, MAY (evaluate_mul_terms (L := tl) wt l acc) = false.
  Proof.
    induction l as [|[[c k] j] l IH]; intros acc; cbn [evaluate_mul_terms]; [reflexivity|]. destruct (feqb c 0); [apply IH|].
    destruct (wget k wt), (wget j wt); try reflexivity; repeat (apply may_op; [reflexivity|intros ?]); apply IH.
  Qed.
  Lemma may_lin wt l : forall acc, MAY (evaluate_linear_terms (L := tl) (@Pub F) wt l acc) = false.
  Proof.
    induction l as [|[q k] l IH]; intros acc; cbn [evaluate_linear_terms]; [reflexivity|]. destruct (wget k wt); [apply may_op; [reflexivity|intros ?]|]; apply IH.
  Qed.
  Lemma may_simplify wt e : MAY (simplify_expression (L := tl) (@Pub F) wt e) = false.
  Proof.
    unfold simplify_expression. apply may_bind; [apply may_mul|intros a _]. apply may_bind; [apply may_lin|intros b _]. apply may_op; [reflexivity|intros c; reflexivity].
  Qed.
  Lemma may_eval wt e : MAY (evaluate_expression (L := tl) (@Pub F) wt e) = false.
  Proof. unfold evaluate_expression. apply may_bind; [apply may_simplify|]. intros [[|? ?] c] _; reflexivity. Qed.
  (** the unknowns and their coefficients *)
  Lemma mul_known wt kn l (Hk : kinv kn wt) : (forall c i j, In (c, i, j) l -> c <> 0 -> kn i = true /\ kn j = true) ->
    forall acc acc', RI (evaluate_mul_terms (L := tl) wt l acc) = Done acc' -> fst acc' = fst acc.
  Proof.
    induction l as [|[[c k] j] l IH]; intros Hl acc acc' E; cbn [evaluate_mul_terms] in E; [apply done_eq in E; now subst|].
    specialize (IH (fun c i j Hi => Hl c i j (or_intror Hi))). destruct (feqb c 0) eqn:Ec; [exact (IH _ _ E)|].
    assert (Nc : c <> 0) by (intros C; apply (proj2 (feqb_spec c 0)) in C; congruence).
    destruct (Hl c k j (or_introl eq_refl) Nc) as [K1 K2]. apply Hk in K1. apply Hk in K2.
    destruct (wget k wt); [|contradiction]. destruct (wget j wt); [|contradiction].
    cbn [aop1 abind run_ideal_ac ideal_aop obind] in E. exact (IH _ _ E).
  Qed.
  Lemma lin_known wt l : forall acc acc', RI (evaluate_linear_terms (L := tl) (@Pub F) wt l acc) = Done acc' ->
    exists us, fst acc' = fst acc ++ us /\ Forall (fun u => tshared (fst u) = false) us /\ forall q i, In (q, i) l -> wget i wt = None -> In i (map snd us).
  Proof.
    induction l as [|[q k] l IH]; intros acc acc' E; cbn [evaluate_linear_terms] in E.
    - apply done_eq in E. subst. exists []. split; [now rewrite app_nil_r|]. split; [constructor|]. intros q i [].
    - destruct (wget k wt) as [x|] eqn:Ek.
      + cbn [aop1 abind run_ideal_ac ideal_aop obind] in E. destruct (IH _ _ E) as (us & E1 & E2 & E3). exists us. split; [exact E1|]. split; [exact E2|].
        intros q' i [C|C] En; [injection C as -> ->; congruence|exact (E3 q' i C En)].
      + destruct (IH _ _ E) as (us & E1 & E2 & E3). cbn [fst] in E1. exists ((Pub q, k) :: us). split; [rewrite E1, <- app_assoc; reflexivity|].
        split; [constructor; [reflexivity|exact E2]|]. intros q' i [C|C] En; [injection C as -> ->; left; reflexivity|right; exact (E3 q' i C En)].
  Qed.
  Lemma simplify_known wt kn e s (Hk : kinv kn wt) : (forall c i j, In (c, i, j) (e_mul e) -> c <> 0 -> kn i = true /\ kn j = true) ->
    RI (simplify_expression (L := tl) (@Pub F) wt e) = Done s ->
    Forall (fun u => tshared (fst u) = false) (fst s) /\ forall i, In i (vars e) -> wget i wt = None -> In i (map snd (fst s)).
  Proof.
    intros Hl E. unfold simplify_expression in E. rewrite ri_bind in E. destruct (RI (evaluate_mul_terms wt (e_mul e) ([], Pub 0))) as [a|] eqn:Ea; [|discriminate].
    cbn [obind] in E. rewrite ri_bind in E. destruct (RI (evaluate_linear_terms (@Pub F) wt (e_lin e) a)) as [b|] eqn:Eb; [|discriminate].
    cbn [obind aop1 abind run_ideal_ac ideal_aop] in E. apply done_eq in E. subst s. cbn [fst].
    pose proof (mul_known wt kn _ Hk Hl _ _ Ea) as E1. destruct (lin_known wt _ _ _ Eb) as (us & E2 & E3 & E4). rewrite E1 in E2. cbn [fst app] in E2. rewrite E2.
    split; [exact E3|]. intros i Hi En. unfold vars in Hi. apply in_app_iff in Hi as [Hi|Hi].
    - exfalso. apply in_flat_map in Hi as ([[c k] j] & Ht & Hi). cbn [fst snd] in Hi. destruct (feqb c 0) eqn:Ec; [destruct Hi|].
      assert (Nc : c <> 0) by (intros C; apply (proj2 (feqb_spec c 0)) in C; congruence).
      destruct (Hl c k j Ht Nc) as [K1 K2]. apply Hk in K1. apply Hk in K2. destruct Hi as [<-|[<-|[]]]; contradiction.
    - apply in_map_iff in Hi as ([q k] & <- & Hi). exact (E4 q k Hi En).
  Qed.
  Lemma put_inv kn kn' w i v : kinv kn w -> (forall j, kn' j = true -> kn j = true \/ j = i) -> kinv kn' (wput i v w).
  Proof. intros Hk Hl j Hj. rewrite wget_wput. destruct (Nat.eqb_spec j i) as [C|C]; [discriminate|]. destruct (Hl j Hj) as [G|G]; [exact (Hk j G)|contradiction]. Qed.
  Lemma learn_cases kn l i : learn kn l i = true -> kn i = true \/ In i l.
  Proof.
    unfold learn. intros E. apply orb_prop in E as [E|E]; [now left|right]. apply existsb_exists in E as (j & Hj & E). apply Nat.eqb_eq in E. now subst.
  Qed.
  Lemma assert_may wt kn e (Hk : kinv kn wt) : (forall c i j, In (c, i, j) (e_mul e) -> c <> 0 -> kn i = true /\ kn j = true) ->
    MAY (solve_assert_zero (L := tl) (@Pub F) wt e) = false /\
    forall w', RI (solve_assert_zero (L := tl) (@Pub F) wt e) = Done w' -> kinv (learn kn (vars e)) w'.
  Proof.
    intros Hl. unfold solve_assert_zero. split.
    - apply may_bind; [apply may_simplify|]. intros [l c] Es. destruct (simplify_known wt kn e _ Hk Hl Es) as [S1 _]. cbn [fst snd] in *.
      destruct l as [|[q i] [|u l]]; [reflexivity| |reflexivity]. apply may_op; [|reflexivity]. apply Forall_inv in S1. exact S1.
    - intros w' E. rewrite ri_bind in E. destruct (RI (simplify_expression (@Pub F) wt e)) as [[l c]|] eqn:Es; [|discriminate].
      destruct (simplify_known wt kn e _ Hk Hl Es) as [_ S2]. cbn [obind fst snd] in *. destruct l as [|[q i] [|u l]].
      + apply done_eq in E. subst w'. intros j Hj C. apply learn_cases in Hj as [Hj|Hj]; [exact (Hk j Hj C)|exact (S2 j Hj C)].
      + rewrite ri_bind in E. destruct (RI (aop1 (SolveEq q c))) as [v|]; [|discriminate]. apply done_eq in E. subst w'.
        intros j Hj. rewrite wget_wput. destruct (Nat.eqb_spec j i) as [C|C]; [discriminate|]. intros En.
        apply learn_cases in Hj as [Hj|Hj]; [exact (Hk j Hj En)|]. destruct (S2 j Hj En) as [G|[]]. cbn [snd] in G. congruence.
      + discriminate.
  Qed.
  Lemma may_eval_all wt l : MAY (eval_all (L := tl) (@Pub F) wt l) = false.
  Proof. induction l as [|e l IH]; cbn [eval_all]; [reflexivity|]. apply may_bind; [apply may_eval|intros a _]. apply may_bind; [exact IH|reflexivity]. Qed.
  Lemma may_calldata wt l : MAY (calldata (L := tl) (@Pub F) wt l) = false.
  Proof.
    induction l as [|[es|] l IH]; cbn [calldata]; [reflexivity| |reflexivity]. apply may_bind; [apply may_eval_all|intros a _]. apply may_bind; [exact IH|reflexivity].
  Qed.
  Lemma fill_may : forall res outs wt kn, kinv kn wt -> MAY (fill_output (F := F) (L := tl) res outs wt) = false /\
    forall w', RI (fill_output (F := F) (L := tl) res outs wt) = Done w' -> kinv (learn kn outs) w'.
  Proof.
    assert (Base : forall (wt : wmap tv) kn, kinv kn wt -> kinv (learn kn []) wt).
    { intros wt kn Hk j Hj. apply learn_cases in Hj as [Hj|[]]. exact (Hk j Hj). }
    induction res as [|v res IH]; intros [|k outs] wt kn Hk; cbn [fill_output].
    - split; [reflexivity|]. intros w' E. apply done_eq in E. subst w'. apply Base, Hk.
    - split; [reflexivity|]. discriminate.
    - split; [reflexivity|]. intros w' E. apply done_eq in E. subst w'. apply Base, Hk.
    - destruct (IH outs (wput k v wt) (learn kn [k])) as [I1 I2].
      + eapply put_inv; [exact Hk|]. intros j Hj. apply learn_cases in Hj as [Hj|[Hj|[]]]; [now left|now right].
      + split; [exact I1|]. intros w' E j Hj. apply (I2 w' E). apply learn_cases in Hj. unfold learn. cbn [existsb].
        destruct Hj as [->|[<-|Hj]]; [reflexivity|now rewrite Nat.eqb_refl, !orb_true_r|].
        replace (existsb (Nat.eqb j) outs) with true; [now rewrite orb_true_r|]. symmetry. apply existsb_exists. exists j. split; [exact Hj|apply Nat.eqb_refl].
  Qed.
  Lemma may_mask_all c l : MAY (mask_all (F := F) (L := tl) c l) = false.
  Proof. induction l as [|[x z] l IH]; cbn [mask_all]; [reflexivity|]. apply may_op; [reflexivity|intros v]. apply may_bind; [exact IH|reflexivity]. Qed.
  Lemma brillig_may wt kn id ins outs e (Hk : kinv kn wt) :
    MAY (brillig_call (L := tl) (@Pub F) (@tpub F) wt id ins outs e) = false /\
    forall w', RI (brillig_call (L := tl) (@Pub F) (@tpub F) wt id ins outs e) = Done w' -> kinv (learn kn outs) w'.
  Proof.
    unfold brillig_call. cbv zeta. split.
    - apply may_bind; [apply may_eval|]. intros p _. destruct (match tpub p with Some y => feqb y 0 | None => false end); [apply (fill_may _ outs wt kn Hk)|].
      apply may_bind; [apply may_calldata|intros args _]. cbn [run_may_ac]. rewrite no_bmay. cbn [orb]. unfold after. destruct (tbrillig id args) as [res|]; [|reflexivity].
      apply may_bind; [|intros r _; apply (fill_may _ outs wt kn Hk)]. destruct (match tpub p with Some y => feqb y rone | None => false end); [reflexivity|].
      unfold mask_brillig_result. cbn [run_may_ac]. apply may_mask_all.
    - intros w' E. rewrite ri_bind in E. destruct (RI (evaluate_expression (@Pub F) wt e)) as [p|]; [|discriminate]. cbn [obind] in E.
      destruct (match tpub p with Some y => feqb y 0 | None => false end); [exact (proj2 (fill_may _ outs wt kn Hk) w' E)|].
      rewrite ri_bind in E. destruct (RI (calldata (@Pub F) wt ins)) as [args|]; [|discriminate]. cbn [obind run_ideal_ac] in E.
      destruct (tbrillig id args) as [res|]; [|discriminate]. cbn [obind] in E. rewrite ri_bind in E.
      match type of E with obind ?z _ = _ => destruct z as [r|] end; [|discriminate]. exact (proj2 (fill_may _ outs wt kn Hk) w' E).
  Qed.
  Lemma step_may s kn o (Hk : kinv kn (a_w s)) : linear kn [o] ->
    MAY (step (@Pub F) (@tpub F) s o) = false /\ forall s', RI (step (@Pub F) (@tpub F) s o) = Done s' -> kinv (learn kn (gives o)) (a_w s').
  Proof.
    intros [Hl _].
    assert (Keep : forall q kn', MAY q = false /\ (forall w', RI q = Done w' -> kinv kn' w') ->
      MAY (w <~ q; ARet (mkA w (a_mem s))) = false /\ forall s', RI (w <~ q; ARet (mkA w (a_mem s))) = Done s' -> kinv kn' (a_w s')).
    { intros q kn' [Q1 Q2]. split; [apply may_bind; [exact Q1|reflexivity]|]. intros s' E. rewrite ri_bind in E. destruct (RI q) as [w'|]; [|discriminate].
      apply done_eq in E. subst s'. exact (Q2 w' eq_refl). }
    assert (Same : kinv (learn kn []) (a_w s)) by (intros j Hj; apply learn_cases in Hj as [Hj|[]]; exact (Hk j Hj)).
    destruct o as [e|b init|b write index value|x bits|is_and x y bits out|id inputs outs predicate|xs|]; cbn [step gives].
    - apply Keep, assert_may; assumption.
    - unfold solve_memory_init_block. destruct (wget b (a_mem s)); [split; [reflexivity|discriminate]|]. destruct (fold_right _ (Some []) init) as [vs|]; cbn [aopt abind run_may_ac run_ideal_ac]; [|split; [reflexivity|discriminate]].
      split; [reflexivity|]. intros s' E. apply done_eq in E. subst s'. exact Same.
    - unfold solve_memory_op, witness_to_value. destruct (wget index (a_w s)) as [x|]; [|split; [reflexivity|discriminate]]. destruct write; cbn [aopt abind].
      + destruct (wget value (a_w s)) as [v|]; [|split; [reflexivity|discriminate]]. cbn [aopt abind]. destruct (wget b (a_mem s)) as [t|]; [|split; [reflexivity|discriminate]].
        cbn [aopt abind run_may_ac run_ideal_ac]. unfold after. destruct (ideal_write x v t) as [t'|]; [|split; [reflexivity|discriminate]]. split; [reflexivity|].
        intros s' E. apply done_eq in E. subst s'. exact Same.
      + destruct (wget b (a_mem s)) as [t|]; [|split; [reflexivity|discriminate]].
        cbn [aopt abind run_may_ac run_ideal_ac]. unfold after. destruct (ideal_read x t) as [t'|]; [|split; [reflexivity|discriminate]]. split; [reflexivity|].
        intros s' E. apply done_eq in E. subst s'. cbn [a_w]. eapply put_inv; [exact Hk|]. intros j Hj. apply learn_cases in Hj as [Hj|[Hj|[]]]; [now left|now right].
    - assert (M : MAY (_ <~ guard (F := F) (L := tl) (a_w s) [x]; _ <~ solve_range (@Pub F) (@tpub F) (a_w s) x bits; ARet s) = false /\
        forall s', RI (_ <~ guard (F := F) (L := tl) (a_w s) [x]; _ <~ solve_range (@Pub F) (@tpub F) (a_w s) x bits; ARet s) = Done s' -> s' = s).
      { unfold guard. destruct (forallb _ [x]); [|split; [reflexivity|discriminate]]. cbn [abind]. unfold solve_range, input_to_value, witness_to_value, check_bits.
        destruct x as [k|c]; [destruct (wget k (a_w s)) as [v|]|]; cbn [aopt abind tpub].
        - destruct (tpub v); [destruct (num_bits f <=? bits)%nat|]; (split; [reflexivity|]); try discriminate; intros s' E; apply done_eq in E; now subst.
        - split; [reflexivity|discriminate].
        - destruct (num_bits c <=? bits)%nat; (split; [reflexivity|]); try discriminate; intros s' E; apply done_eq in E; now subst. }
      destruct M as [M1 M2]. split; [exact M1|]. intros s' E. rewrite (M2 s' E). exact Same.
    - unfold guard. destruct (forallb _ [x; y]); [|split; [reflexivity|discriminate]]. cbn [abind]. apply Keep. unfold solve_logic.
      assert (In_ : forall x, MAY (input_to_value (L := tl) (@Pub F) (a_w s) x) = false).
      { intros [k|c]; cbn [input_to_value]; [|reflexivity]. unfold witness_to_value. now destruct (wget k (a_w s)). }
      assert (Ck : forall e v n, MAY (check_bits (L := tl) (@tpub F) e v n) = false).
      { intros e v n. unfold check_bits. destruct (tpub v); [destruct (num_bits f <=? n)%nat|]; reflexivity. }
      assert (Ins : forall v, MAY (insert_value (L := tl) (@tpub F) out v (a_w s)) = false /\ forall w', RI (insert_value (L := tl) (@tpub F) out v (a_w s)) = Done w' -> kinv (learn kn [out]) w').
      { intros v. assert (P : kinv (learn kn [out]) (wput out v (a_w s))).
        { eapply put_inv; [exact Hk|]. intros j Hj. apply learn_cases in Hj as [Hj|[Hj|[]]]; [now left|now right]. }
        unfold insert_value. destruct (wget out (a_w s)) as [u|]; [destruct (tpub u), (tpub v); try destruct (feqb _ _)|];
          (split; [reflexivity|]); try discriminate; intros w' E; apply done_eq in E; subst w'; exact P. }
      split.
      + apply may_bind; [apply In_|intros a _]. apply may_bind; [apply In_|intros b _]. apply may_bind; [apply Ck|intros _ _]. apply may_bind; [apply Ck|intros _ _].
        apply may_op; [reflexivity|intros v]. apply Ins.
      + intros w' E. rewrite ri_bind in E. destruct (RI (input_to_value (@Pub F) (a_w s) x)) as [a|]; [|discriminate]. cbn [obind] in E.
        rewrite ri_bind in E. destruct (RI (input_to_value (@Pub F) (a_w s) y)) as [b|]; [|discriminate]. cbn [obind] in E.
        rewrite ri_bind in E. destruct (RI (check_bits (@tpub F) _ a bits)) as [[]|]; [|discriminate]. cbn [obind] in E.
        rewrite ri_bind in E. destruct (RI (check_bits (@tpub F) _ b bits)) as [[]|]; [|discriminate]. cbn [obind] in E.
        rewrite ri_bind in E. destruct (RI (aop1 (BitA is_and a b bits))) as [v|]; [|discriminate]. cbn [obind] in E. exact (proj2 (Ins v) w' E).
    - apply Keep, brillig_may; assumption.
    - unfold guard. destruct (forallb _ xs); (split; [reflexivity|]); [|discriminate]. intros s' E. apply done_eq in E. subst s'. exact Same.
    - split; [reflexivity|discriminate].
  Qed.
  Lemma steps_may ops : forall s kn, kinv kn (a_w s) -> linear kn ops -> MAY (steps (@Pub F) (@tpub F) s ops) = false.
  Proof.
    induction ops as [|o ops IH]; intros s kn Hk Hl; cbn [steps]; [reflexivity|]. destruct Hl as [Hl1 Hl2].
    destruct (step_may s kn o Hk (conj Hl1 I)) as [S1 S2]. apply may_bind; [exact S1|]. intros s' E. exact (IH s' _ (S2 s' E) Hl2).
  Qed.
  Lemma may_gather wt rets : MAY (gather (F := F) (L := tl) (@tpub F) wt rets) = false.
  Proof.
    induction rets as [|k rets IH]; cbn [gather]; [reflexivity|]. destruct (wget k wt); cbn [aopt abind]; [|reflexivity]. apply may_bind; [exact IH|reflexivity].
  Qed.
  Lemma may_take rets : forall wt xs res, MAY (take_opened (L := tl) (@Pub F) (@tpub F) wt rets xs res) = false.
  Proof.
    induction rets as [|k rets IH]; intros wt xs res; cbn [take_opened]; [reflexivity|]. destruct (wget k wt) as [v|]; cbn [aopt abind]; [|reflexivity].
    destruct (shv (@tpub F) v); [destruct xs; [reflexivity|]|]; apply IH.
  Qed.
  Theorem solve_may wt ops rets : linear (fun i => match wget i wt with Some _ => true | None => false end) ops ->
    MAY (solve (L := tl) (@Pub F) (@tpub F) wt ops rets) = false.
  Proof.
    intros Hl. unfold solve. apply may_bind; [eapply steps_may; [|exact Hl]|].
    - intros i Hi C. cbn [a_w] in C. rewrite C in Hi. discriminate.
    - intros s _. unfold open_results. apply may_bind; [apply may_gather|]. intros vs _. cbn [run_may_ac]. apply may_take.
  Qed.
End May.
