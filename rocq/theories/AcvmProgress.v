(** * The co-noir ACVM on clear values: programs that are solved in order

    A program whose opcodes can be solved one after the other, each assertion for at most one unknown
    with a nonzero coefficient, and that some assignment satisfies, is solved. *)
From Coq Require Import String List Arith NArith Lia Bool Ring.
From Verif Require Import Proc Alg Rep3Net Rep3 Rep3Spec Uint Binary Conv Lut LutProv VmDriver Acvm AcvmSpec.
Import ListNotations.
Set Implicit Arguments.
Local Open Scope grp_scope.
Local Open Scope acvm_scope.

Section Progress.
  Context {F : Type} `{FU : FieldUint F}.
  Variable brillig : nat -> list F -> outcome (list F).
  Implicit Types a : nat -> F.
  Add Ring Fr : (cring_theory (R := F)).

  (** ** Specification *)
  (** the terms of an expression with an unknown: (coefficient, witness) *)
  Definition open_mul a (kn : nat -> bool) (l : list (F * nat * nat)) : list (F * nat) :=
    flat_map (fun t => let '(c, i, j) := t in
      if feqb c 0 then [] else if kn i then (if kn j then [] else [(rmul (a i) c, j)]) else if kn j then [(rmul (a j) c, i)] else []) l.
  Definition open_lin (kn : nat -> bool) (l : list (F * nat)) : list (F * nat) := filter (fun t => negb (kn (snd t))) l.
  (** at most one term with an unknown, and no product of two *)
  Definition solvable a (kn : nat -> bool) (e : expr F) : Prop :=
    (forall c i j, In (c, i, j) (e_mul e) -> c <> 0 -> kn i = true \/ kn j = true) /\
    match open_mul a kn (e_mul e) ++ open_lin kn (e_lin e) with [] => True | [(q, _)] => q <> 0 | _ => False end.
  Definition in_known (kn : nat -> bool) (x : finput F) : Prop := match x with InW i => kn i = true | InC _ => True end.
  Definition expr_known (kn : nat -> bool) (e : expr F) : Prop := forall i, In i (vars e) -> kn i = true.
  Definition arg_known (kn : nat -> bool) (b : binput F) : Prop :=
    match b with BExprs l => Forall (expr_known kn) l | BMemory => False end.
  Definition ready a (kn : nat -> bool) (o : aopc F) : Prop :=
    match o with
    | OAssert e => solvable a kn e
    | OMemInit _ init => Forall (fun i => kn i = true) init
    | OMemOp _ wr i v => kn i = true /\ (to_uint (a i) < 2 ^ 64)%N /\ (wr = true -> kn v = true)
    | ORange x _ => in_known kn x
    | OLogic _ x y _ _ => in_known kn x /\ in_known kn y
    | OBrillig id ins outs pr => expr_known kn pr /\ (eval a pr = 0 \/ eval a pr = rone /\ Forall (arg_known kn) ins /\
        exists res, brillig id (flat_map (barg a) ins) = Done res /\ (length outs <= length res)%nat)
    | ORecursion xs => Forall (in_known kn) xs
    | OOther => False
    end.
  Fixpoint ordered a (kn : nat -> bool) (ops : list (aopc F)) : Prop :=
    match ops with [] => True | o :: l => ready a kn o /\ ordered a (learn kn (gives o)) l end.
  Definition blocks (ops : list (aopc F)) : list nat := flat_map (fun o => match o with OMemInit b _ => [b] | _ => [] end) ops.
  Definition known_after (kn : nat -> bool) (ops : list (aopc F)) : nat -> bool := fold_left (fun kn o => learn kn (gives o)) ops kn.

  Unset Implicit Arguments.
  (** ** The run *)
  Notation run := (run_plain_ac brillig).
  Notation pv := (fun x : F => x).
  Lemma knows_some kn (w : wmap F) i : knows kn w -> kn i = true -> exists v, wget i w = Some v.
  Proof. intros HH E. rewrite HH in E. unfold known in E. destruct (wget i w); [eauto|discriminate]. Qed.
  Lemma mul_terms_done a kn w l : knows kn w -> agrees a w -> (forall c i j, In (c, i, j) l -> c <> 0 -> kn i = true \/ kn j = true) ->
    forall acc, exists r, run (evaluate_mul_terms (L := list F) w l acc) = Done (fst acc ++ open_mul a kn l, r).
  Proof.
    intros Hk Ha. induction l as [|[[c i] j] l IH]; intros Hl acc; cbn [evaluate_mul_terms open_mul flat_map].
    - exists (snd acc). rewrite app_nil_r. now destruct acc.
    - specialize (IH (fun c i j Hi => Hl c i j (or_intror Hi))). fold (open_mul a kn l).
      destruct (feqb c 0) eqn:Ec; [exact (IH acc)|].
      assert (Nc : c <> 0) by (intros C; apply (proj2 (feqb_spec c 0)) in C; congruence).
      specialize (Hl c i j (or_introl eq_refl) Nc).
      destruct (kn i) eqn:Ki, (kn j) eqn:Kj; try (destruct Hl; discriminate).
      + destruct (knows_some _ _ _ Hk Ki) as [x ->], (knows_some _ _ _ Hk Kj) as [y ->].
        rewrite run_bind, run_op. cbn [plain_aop obind]. rewrite run_bind, run_op. cbn [plain_aop obind]. apply (IH (_, _)).
      + destruct (knows_some _ _ _ Hk Ki) as [x Ex]. rewrite Ex, (knows_none _ _ _ Hk Kj). rewrite run_bind, run_op. cbn [plain_aop obind].
        rewrite (Ha _ _ Ex). destruct (IH (fst acc ++ [(rmul x c, j)], snd acc)) as [r Er]. exists r. rewrite Er. cbn [fst]. now rewrite <- app_assoc.
      + destruct (knows_some _ _ _ Hk Kj) as [x Ex]. rewrite Ex, (knows_none _ _ _ Hk Ki). rewrite run_bind, run_op. cbn [plain_aop obind].
        rewrite (Ha _ _ Ex). destruct (IH (fst acc ++ [(rmul x c, i)], snd acc)) as [r Er]. exists r. rewrite Er. cbn [fst]. now rewrite <- app_assoc.
  Qed.
  Lemma lin_terms_done kn w l : knows kn w ->
    forall acc, exists r, run (evaluate_linear_terms (L := list F) pv w l acc) = Done (fst acc ++ open_lin kn l, r).
  Proof.
    intros Hk. induction l as [|[q i] l IH]; intros acc; cbn [evaluate_linear_terms open_lin filter snd].
    - exists (snd acc). rewrite app_nil_r. now destruct acc.
    - destruct (kn i) eqn:Ki; cbn [negb].
      + destruct (knows_some _ _ _ Hk Ki) as [x ->]. rewrite run_bind, run_op. cbn [plain_aop obind]. apply (IH (_, _)).
      + rewrite (knows_none _ _ _ Hk Ki). destruct (IH (fst acc ++ [(q, i)], snd acc)) as [r Er]. exists r. rewrite Er. cbn [fst]. now rewrite <- app_assoc.
  Qed.
  Lemma simplify_done a kn w e : knows kn w -> agrees a w -> (forall c i j, In (c, i, j) (e_mul e) -> c <> 0 -> kn i = true \/ kn j = true) ->
    exists r, run (simplify_expression (L := list F) pv w e) = Done (open_mul a kn (e_mul e) ++ open_lin kn (e_lin e), r).
  Proof.
    intros Hk Ha Hl. unfold simplify_expression. destruct (mul_terms_done a kn w _ Hk Ha Hl ([], 0)) as [r Er].
    rewrite run_bind, Er. cbn [obind fst app]. destruct (lin_terms_done kn w (e_lin e) Hk (open_mul a kn (e_mul e), r)) as [r' Er'].
    rewrite run_bind, Er'. cbn [obind fst snd]. rewrite run_bind, run_op. cbn [plain_aop obind run_plain_ac]. eauto.
  Qed.
  Lemma assert_done a kn w e : knows kn w -> agrees a w -> solvable a kn e -> exists w', run (solve_assert_zero (L := list F) pv w e) = Done w'.
  Proof.
    intros Hk Ha [H1 H2]. unfold solve_assert_zero. destruct (simplify_done a kn w e Hk Ha H1) as [r Er]. rewrite run_bind, Er. cbn [obind fst snd].
    destruct (open_mul a kn (e_mul e) ++ open_lin kn (e_lin e)) as [|[q i] [|? ?]]; [cbn; eauto| |destruct H2].
    rewrite run_bind, run_op. cbn [plain_aop]. unfold plain_solve_eq. destruct (feqb q 0) eqn:Eq; [apply feqb_spec in Eq; contradiction|]. cbn [obind run_plain_ac]. eauto.
  Qed.
  Lemma expr_done a kn w e : knows kn w -> agrees a w -> expr_known kn e -> run (evaluate_expression (L := list F) pv w e) = Done (eval a e).
  Proof.
    intros Hk Ha He. unfold evaluate_expression.
    assert (Hm : forall c i j, In (c, i, j) (e_mul e) -> c <> 0 -> kn i = true /\ kn j = true).
    { intros c i j Hi Nc. assert (V : forall k, In k [i; j] -> kn k = true).
      { intros k Hin. apply He. unfold vars. apply in_or_app. left. apply in_flat_map. exists (c, i, j). split; [exact Hi|]. cbn [fst snd].
        destruct (feqb c 0) eqn:Ec; [apply feqb_spec in Ec; contradiction|exact Hin]. }
      split; apply V; cbn; auto. }
    destruct (simplify_done a kn w e Hk Ha) as [r Er]. { intros c i j Hi Nc. left. exact (proj1 (Hm c i j Hi Nc)). }
    assert (O1 : open_mul a kn (e_mul e) = []).
    { clear -Hm. induction (e_mul e) as [|[[c i] j] l IH]; [reflexivity|]. cbn [open_mul flat_map]. fold (open_mul a kn l). rewrite IH by (intros c' i' j' Hi; exact (Hm c' i' j' (or_intror Hi))).
      destruct (feqb c 0) eqn:Ec; [reflexivity|]. assert (Nc : c <> 0) by (intros C; apply (proj2 (feqb_spec c 0)) in C; congruence).
      destruct (Hm c i j (or_introl eq_refl) Nc) as [-> ->]. reflexivity. }
    assert (O2 : open_lin kn (e_lin e) = []).
    { assert (Hl : forall t, In t (e_lin e) -> kn (snd t) = true). { intros t Ht. apply He. unfold vars. apply in_or_app. right. apply in_map. exact Ht. }
      clear -Hl. induction (e_lin e) as [|t l IH]; [reflexivity|]. cbn. rewrite (Hl t (or_introl eq_refl)). cbn. apply IH. intros t' Ht. exact (Hl t' (or_intror Ht)). }
    pose proof (simplify_run _ a _ _ _ Ha Er) as [_ HH]. rewrite run_bind, Er. cbn [fst snd] in HH. rewrite O1, O2 in *. cbn [obind fst snd app run_plain_ac] in *.
    f_equal. rewrite <- HH, lin_nil. ring.
  Qed.
  Lemma init_done kn (w : wmap F) init : knows kn w -> Forall (fun i => kn i = true) init ->
    exists vs, fold_right (fun i o => match wget i w, o with Some v, Some l => Some (v :: l) | _, _ => None end) (Some []) init = Some vs.
  Proof.
    intros Hk HH. induction HH as [|i l Hi _ [vs E]]; cbn [fold_right]; [eauto|]. rewrite E. destruct (knows_some _ _ _ Hk Hi) as [v ->]. eauto.
  Qed.
  Lemma value_done a kn w i : knows kn w -> agrees a w -> kn i = true -> run (witness_to_value (L := list F) w i) = Done (a i).
  Proof. intros Hk Ha Ki. unfold witness_to_value. rewrite run_opt. destruct (knows_some _ _ _ Hk Ki) as [v E]. rewrite E, (Ha _ _ E). reflexivity. Qed.
  Lemma input_done a kn w x : knows kn w -> agrees a w -> in_known kn x -> run (input_to_value (L := list F) pv w x) = Done (ival a x).
  Proof. intros Hk Ha Hx. destruct x as [i|c]; [exact (value_done _ _ _ _ Hk Ha Hx)|reflexivity]. Qed.
  Lemma check_done e (v : F) bits : bits_below v bits -> run (check_bits (L := list F) (@Some F) e v bits) = Done tt.
  Proof. intros HH. unfold check_bits. apply num_bits_below in HH. destruct (Nat.leb_spec (num_bits v) bits); [reflexivity|lia]. Qed.
  Lemma guard_done {A} kn w xs (k : acp F F (list F) A) : knows kn w -> Forall (in_known kn) xs -> run (_ <~ guard (L := list F) w xs; k) = run k.
  Proof.
    intros Hk HH. unfold guard. replace (forallb (assigned w) xs) with true; [reflexivity|]. symmetry. apply forallb_forall. intros x Hx.
    rewrite Forall_forall in HH. specialize (HH x Hx). destruct x as [i|c]; [|reflexivity]. cbn. destruct (knows_some _ _ _ Hk HH) as [v ->]. reflexivity.
  Qed.
  Lemma eval_all_done a kn w l : knows kn w -> agrees a w -> Forall (expr_known kn) l -> run (eval_all (L := list F) pv w l) = Done (map (eval a) l).
  Proof.
    intros Hk Ha HH. induction HH as [|e l He _ IH]; cbn [eval_all map]; [reflexivity|]. rewrite run_bind, (expr_done _ _ _ _ Hk Ha He). cbn [obind].
    rewrite run_bind, IH. reflexivity.
  Qed.
  Lemma calldata_done a kn w l : knows kn w -> agrees a w -> Forall (arg_known kn) l -> run (calldata (L := list F) pv w l) = Done (flat_map (barg a) l).
  Proof.
    intros Hk Ha HH. induction HH as [|[es|] l He _ IH]; cbn [calldata flat_map barg]; [reflexivity| |destruct He].
    rewrite run_bind, (eval_all_done _ _ _ _ Hk Ha He). cbn [obind]. rewrite run_bind, IH. reflexivity.
  Qed.
  Lemma fill_done outs : forall kn w res, knows kn w -> (length outs <= length res)%nat ->
    exists w', run (fill_output (L := list F) res outs w) = Done w' /\ knows (learn kn outs) w'.
  Proof.
    induction outs as [|i outs IH]; intros kn w res Hk Hl.
    - exists w. split; [now destruct res|]. apply knows_same; [exact Hk|intros k []].
    - destruct res as [|v res]; [cbn in Hl; lia|]. cbn [fill_output]. destruct (IH (learn kn [i]) (wput i v w) res) as (w' & E & K).
      + apply knows_wput; [exact Hk| |now left]. intros k _. cbn. split; [intros [->|[]]; reflexivity|auto].
      + cbn in Hl. lia.
      + exists w'. split; [exact E|]. intros k. rewrite <- K. unfold learn. cbn. now rewrite orb_false_r, orb_assoc.
  Qed.
  Lemma brillig_done a kn w id ins outs pr : knows kn w -> agrees a w -> ready a kn (OBrillig id ins outs pr) ->
    exists w', run (brillig_call pv (@Some F) w id ins outs pr) = Done w' /\ knows (learn kn outs) w'.
  Proof.
    intros Hk Ha [H1 H2]. unfold brillig_call. rewrite run_bind, (expr_done _ _ _ _ Hk Ha H1). cbn [obind].
    assert (N01 : feqb rone (0 : F) = false). { destruct (feqb rone (0 : F)) eqn:E; [|reflexivity]. apply feqb_spec in E. destruct (f_1_neq_0 E). }
    destruct H2 as [E0|(E1 & H3 & res & E2 & Hl)].
    - rewrite E0. rewrite (proj2 (feqb_spec (0 : F) 0) eq_refl). apply fill_done; [exact Hk|]. now rewrite map_length.
    - rewrite E1. rewrite N01. rewrite run_bind, (calldata_done _ _ _ _ Hk Ha H3). cbn [obind run_plain_ac]. rewrite E2. cbn [obind].
      rewrite (proj2 (feqb_spec (rone : F) rone) eq_refl). cbn [abind]. apply fill_done; [exact Hk|exact Hl].
  Qed.
  Lemma step_done a kn s o l mem : knows kn (a_w s) -> agrees a (a_w s) -> mem_agrees mem (a_mem s) -> sat brillig a mem (o :: l) -> ready a kn o ->
    (forall b, In b (blocks [o]) -> wget b (a_mem s) = None) ->
    exists s', run (step pv (@Some F) s o) = Done s' /\ knows (learn kn (gives o)) (a_w s') /\
      forall b, wget b (a_mem s) = None -> ~ In b (blocks [o]) -> wget b (a_mem s') = None.
  Proof.
    intros Hk Ha Hm Hs Hr Hb. pose proof (fun l => knows_same _ _ l Hk) as Ks.
    destruct o as [e|b init|b wr i v|x bits|is_and x y bits out|id ins outs pr|xs|]; cbn [step gives ready sat] in *.
    - destruct (assert_done _ _ _ _ Hk Ha Hr) as [w' E]. exists (mkA w' (a_mem s)). rewrite run_bind, E. split; [reflexivity|]. cbn [a_w a_mem].
      split; [exact (proj1 (assert_solved _ _ _ _ _ Hk E))|auto].
    - unfold solve_memory_init_block. rewrite (Hb b (or_introl eq_refl)). destruct (init_done _ _ _ Hk Hr) as [vs E]. rewrite run_bind, E. cbn [aopt run_plain_ac obind].
      eexists. split; [reflexivity|]. cbn [a_w a_mem]. split; [apply Ks; intros k []|]. intros k En Ni. rewrite wget_wput. destruct (Nat.eqb_spec k b) as [->|_]; [|exact En]. destruct Ni. now left.
    - destruct Hr as (Ki & L64 & Kv). unfold solve_memory_op. rewrite run_bind, (value_done _ _ _ _ Hk Ha Ki). cbn [obind]. apply N.ltb_lt in L64. destruct wr.
      + destruct Hs as (t & Et & Hi & _). rewrite run_bind, (value_done _ _ _ _ Hk Ha (Kv eq_refl)). cbn [obind]. rewrite Hm in Et. rewrite Et. cbn [aopt abind run_plain_ac].
        unfold plain_write, field_to_usize. rewrite L64. unfold idx in Hi. destruct (Nat.ltb_spec (N.to_nat (to_uint (a i))) (length t)); [|lia]. cbn [obind].
        eexists. split; [reflexivity|]. cbn [a_w a_mem]. split; [apply Ks; intros k []|]. intros k En _. rewrite wget_wput. destruct (Nat.eqb_spec k b) as [->|_]; [congruence|exact En].
      + destruct Hs as ((t & Et & Hi) & _). rewrite Hm in Et. rewrite Et. cbn [aopt abind run_plain_ac]. unfold plain_get, field_to_usize. rewrite L64. unfold idx in Hi. rewrite Hi. cbn [obind].
        eexists. split; [reflexivity|]. cbn [a_w a_mem]. split; [|auto]. apply knows_wput; [exact Hk| |now left]. intros k _. cbn. split; [intros [->|[]]; reflexivity|auto].
    - rewrite (guard_done kn _ _ _ Hk) by (repeat constructor; exact Hr). unfold solve_range. rewrite run_bind, run_bind, (input_done _ _ _ _ Hk Ha Hr). cbn [obind].
      rewrite (check_done _ _ _ (proj1 Hs)). cbn [obind run_plain_ac]. exists s. split; [reflexivity|]. split; [apply Ks; intros k []|auto].
    - destruct Hr as [Kx Ky], Hs as (B1 & B2 & Eo & _). rewrite (guard_done kn _ _ _ Hk) by (repeat constructor; assumption). unfold solve_logic.
      rewrite run_bind. rewrite run_bind, (input_done _ _ _ _ Hk Ha Kx). cbn [obind]. rewrite run_bind, (input_done _ _ _ _ Hk Ha Ky). cbn [obind].
      rewrite run_bind, (check_done _ _ _ B1). cbn [obind]. rewrite run_bind, (check_done _ _ _ B2). cbn [obind]. rewrite run_bind, run_op. cbn [plain_aop obind].
      rewrite (logic_mask _ _ _ _ B1 B2), <- Eo.
      assert (I : run (insert_value (L := list F) (@Some F) out (a out) (a_w s)) = Done (wput out (a out) (a_w s))).
      { unfold insert_value. destruct (wget out (a_w s)) as [old|] eqn:E; [|reflexivity]. rewrite <- (Ha _ _ E), (proj2 (feqb_spec (a out) (a out)) eq_refl). reflexivity. }
      rewrite I. cbn [obind run_plain_ac]. eexists. split; [reflexivity|]. cbn [a_w a_mem]. split; [|auto].
      apply knows_wput; [exact Hk| |now left]. intros k _. cbn. split; [intros [->|[]]; reflexivity|auto].
    - destruct (brillig_done _ _ _ _ _ _ _ Hk Ha Hr) as (w' & E & K). exists (mkA w' (a_mem s)). rewrite run_bind, E. split; [reflexivity|]. cbn [a_w a_mem]. split; [exact K|auto].
    - rewrite (guard_done kn _ _ _ Hk Hr). exists s. split; [reflexivity|]. split; [apply Ks; intros k []|auto].
    - destruct Hr.
  Qed.
  Lemma steps_done a ops : forall kn s mem, knows kn (a_w s) -> agrees a (a_w s) -> mem_agrees mem (a_mem s) -> sat brillig a mem ops -> ordered a kn ops ->
    NoDup (blocks ops) -> (forall b, In b (blocks ops) -> wget b (a_mem s) = None) ->
    exists s', run (steps pv (@Some F) s ops) = Done s' /\ knows (known_after kn ops) (a_w s').
  Proof.
    induction ops as [|o ops IH]; intros kn s mem Hk Ha Hm Hs Ho Nd Hb; cbn [steps known_after fold_left]; [exists s; split; [reflexivity|exact Hk]|].
    destruct Ho as [Hr Ho]. replace (blocks (o :: ops)) with (blocks [o] ++ blocks ops) in * by (unfold blocks; cbn; now rewrite app_nil_r).
    destruct (step_done _ _ _ _ _ _ Hk Ha Hm Hs Hr) as (s' & E & K & B). { intros b Hi. apply Hb. apply in_or_app. now left. }
    destruct (step_determined _ _ _ _ _ _ _ Ha Hm Hs E) as (mem' & Ha' & Hm' & Hs').
    destruct (IH _ s' mem' K Ha' Hm' Hs' Ho) as (s2 & E2 & K2).
    - clear -Nd. induction (blocks [o]) as [|b l IHl]; [exact Nd|]. apply IHl. now inversion Nd.
    - intros b Hi. apply B; [apply Hb; apply in_or_app; now right|]. intros C. clear -Nd Hi C. induction (blocks [o]) as [|c l IHl]; [destruct C|].
      inversion_clear Nd as [|? ? N1 N2]. destruct C as [->|C]; [apply N1; apply in_or_app; now right|exact (IHl N2 C)].
    - exists s2. split; [rewrite run_bind, E; exact E2|exact K2].
  Qed.
  Lemma gather_done kn (w : wmap F) rets : knows kn w -> Forall (fun i => kn i = true) rets -> run (gather (L := list F) (@Some F) w rets) = Done [].
  Proof.
    intros Hk HH. induction HH as [|i l Hi _ IH]; cbn [gather]; [reflexivity|]. destruct (knows_some _ _ _ Hk Hi) as [v ->]. cbn [aopt abind]. rewrite run_bind, IH. reflexivity.
  Qed.
  Lemma take_done kn (w : wmap F) rets : knows kn w -> Forall (fun i => kn i = true) rets -> forall xs res, exists vs, run (take_opened (L := list F) pv (@Some F) w rets xs res) = Done (w, vs).
  Proof.
    intros Hk HH. induction HH as [|i l Hi _ IH]; intros xs res; cbn [take_opened]; [eexists; reflexivity|]. destruct (knows_some _ _ _ Hk Hi) as [v ->]. cbn [aopt abind shv]. apply IH.
  Qed.
  Theorem solve_progress a w ops rets : agrees a w -> sat brillig a (fun _ => None) ops -> ordered a (known w) ops -> NoDup (blocks ops) ->
    Forall (fun i => known_after (known w) ops i = true) rets ->
    exists r, plain_solve brillig w ops rets = Done r /\ agrees a (fst r) /\ snd r = map a (rev rets) /\
      forall i, known_after (known w) ops i = known (fst r) i.
  Proof.
    intros Ha Hs Ho Nd Hr. destruct (steps_done a ops (known w) (mkA w []) (fun _ => None) (fun _ => eq_refl) Ha (fun _ => eq_refl) Hs Ho Nd (fun _ _ => eq_refl)) as (s & E & K).
    assert (P : exists r, plain_solve brillig w ops rets = Done r /\ fst r = a_w s).
    { unfold plain_solve, solve, open_results. rewrite run_bind, E. cbn [obind]. rewrite run_bind, (gather_done _ _ _ K Hr). cbn [obind run_plain_ac].
      destruct (take_done _ _ (rev rets) K (Forall_rev Hr) (rev []) []) as [vs ->]. eexists. split; reflexivity. }
    destruct P as (r & P & Er). exists r. split; [exact P|]. destruct (solve_determined _ _ _ _ _ _ Ha Hs P) as [D1 D2]. split; [exact D1|]. split; [exact D2|].
    rewrite Er. exact K.
  Qed.
End Progress.
