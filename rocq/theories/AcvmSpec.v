(** * The co-noir ACVM on clear values: what a solved witness satisfies

    [sat] says when an assignment of all witnesses satisfies a program, without mentioning the
    solver.  The solver only returns values that every satisfying assignment has, solves every
    assertion that has an unknown, and succeeds on programs that can be solved in order. *)
From Coq Require Import String List Arith NArith Lia Bool Ring.
From Verif Require Import Proc Alg Rep3Net Rep3 Rep3Spec Uint Binary Conv Lut LutProv VmDriver Acvm.
Import ListNotations.
Set Implicit Arguments.
Local Open Scope grp_scope.
Local Open Scope acvm_scope.

(** ** Witness maps *)
Section Maps.
  Context {V : Type}.
  Implicit Types m : wmap V.
  Lemma wget_wput k k' v m : wget k' (wput k v m) = if (k' =? k)%nat then Some v else wget k' m.
  Proof.
    induction m as [|[j u] m IH]; cbn [wput wget]; [now destruct (k' =? k)%nat|].
    destruct (Nat.eqb_spec k j) as [->|N1]; cbn [wget].
    - destruct (k' =? j)%nat; reflexivity.
    - destruct (k <? j)%nat; cbn [wget]; [destruct (k' =? k)%nat; reflexivity|].
      rewrite IH. destruct (Nat.eqb_spec k' j) as [->|N2]; [|reflexivity].
      destruct (Nat.eqb_spec j k); [congruence|reflexivity].
  Qed.
  (** increasing indices, as in a [BTreeMap] *)
  Fixpoint above (lo : nat) m : Prop :=
    match m with [] => True | (k, _) :: m => (lo <= k)%nat /\ above (Datatypes.S k) m end.
  Lemma above_le m : forall lo lo', (lo' <= lo)%nat -> above lo m -> above lo' m.
  Proof. destruct m as [|[k v] m]; cbn; intros; [auto|]. split; [lia|tauto]. Qed.
  Lemma above_wput k v m : forall lo, (lo <= k)%nat -> above lo m -> above lo (wput k v m).
  Proof.
    induction m as [|[j u] m IH]; cbn [wput above]; intros lo Hk Hm; [auto|]. destruct Hm as [H1 H2].
    destruct (Nat.eqb_spec k j) as [->|N1]; cbn [above]; [auto|].
    destruct (Nat.ltb_spec k j); cbn [above]; [repeat split; auto; lia|]. split; [exact H1|]. apply IH; [lia|exact H2].
  Qed.
  Lemma above_none m : forall lo k, above lo m -> (k < lo)%nat -> wget k m = None.
  Proof.
    induction m as [|[j u] m IH]; cbn; intros lo k Hm Hk; [reflexivity|]. destruct Hm as [H1 H2].
    destruct (Nat.eqb_spec k j); [lia|]. apply (IH (Datatypes.S j)); [exact H2|lia].
  Qed.
  Definition value_or (z : V) (o : option V) : V := match o with Some v => v | None => z end.
  Lemma to_vec_from_nth z m : forall lo k, above lo m -> (lo <= k)%nat -> nth (k - lo) (to_vec_from z lo m) z = value_or z (wget k m).
  Proof.
    induction m as [|[j u] m IH]; intros lo k Hm Hk.
    - cbn. destruct (k - lo)%nat; reflexivity.
    - cbn [to_vec_from wget]. destruct Hm as [H1 H2]. replace (Nat.max lo j + 1)%nat with (Datatypes.S j) by lia.
      destruct (Nat.eqb_spec k j) as [->|N1].
      + rewrite app_nth2; rewrite repeat_length; [|lia]. rewrite Nat.sub_diag. reflexivity.
      + destruct (Nat.lt_ge_cases k j) as [C|C].
        * rewrite app_nth1 by (rewrite repeat_length; lia). rewrite nth_repeat.
          now rewrite (@above_none m (Datatypes.S j) k H2) by lia.
        * rewrite app_nth2 by (rewrite repeat_length; lia). rewrite repeat_length.
          replace (k - lo - (j - lo))%nat with (Datatypes.S (k - Datatypes.S j)) by lia. cbn [nth].
          apply (IH (Datatypes.S j)); [exact H2|lia].
  Qed.
  Lemma to_vec_nth z m k : above 0 m -> nth k (to_vec z m) z = value_or z (wget k m).
  Proof. intros H. unfold to_vec. rewrite <- (@to_vec_from_nth z m 0 k H); [|lia]. now rewrite Nat.sub_0_r. Qed.
End Maps.

(** ** Specification *)
Section Spec.
  Context {F : Type} `{FU : FieldUint F}.
  Variable brillig : nat -> list F -> outcome (list F).
  Implicit Types a : nat -> F.
  Add Ring Fr : (cring_theory (R := F)).

  Definition fsum (l : list F) : F := fold_right (fun x s => x + s) 0 l.
  (** the value of an expression *)
  Definition eval a (e : expr F) : F :=
    fsum (map (fun t => rmul (fst (fst t)) (rmul (a (snd (fst t))) (a (snd t)))) (e_mul e)) +
    fsum (map (fun t => rmul (fst t) (a (snd t))) (e_lin e)) + e_c e.
  Definition ival a (x : finput F) : F := match x with InW i => a i | InC c => c end.
  Definition bits_below (x : F) (bits : nat) : Prop := (to_uint x < 2 ^ N.of_nat bits)%N.
  Definition logic (is_and : bool) (x y : F) : N := if is_and then N.land (to_uint x) (to_uint y) else N.lxor (to_uint x) (to_uint y).
  Definition upd {A} (k : nat) (v : A) (f : nat -> A) : nat -> A := fun j => if (j =? k)%nat then v else f j.
  Definition barg a (b : binput F) : list F := match b with BExprs l => map (eval a) l | BMemory => [] end.
  (** the values that a call of unconstrained code gives to its outputs: zeros if it is switched off *)
  Definition hinted a (id : nat) (ins : list (binput F)) (outs : list nat) (pr : expr F) : Prop :=
    if feqb (eval a pr) 0 then Forall (fun i => a i = 0) outs
    else forall res, brillig id (flat_map (barg a) ins) = Done res -> forall n i, nth_error outs n = Some i -> nth_error res n = Some (a i).
  Definition idx a (i : nat) : nat := N.to_nat (to_uint (a i)).

  (** the assignment satisfies the program, run on memory blocks [mem] *)
  Fixpoint sat a (mem : nat -> option (list F)) (ops : list (aopc F)) : Prop :=
    match ops with
    | [] => True
    | OAssert e :: l => eval a e = 0 /\ sat a mem l
    | OMemInit b init :: l => sat a (upd b (Some (map a init)) mem) l
    | OMemOp b false i v :: l => (exists t, mem b = Some t /\ nth_error t (idx a i) = Some (a v)) /\ sat a mem l
    | OMemOp b true i v :: l =>
        exists t, mem b = Some t /\ (idx a i < length t)%nat /\
          sat a (upd b (Some (firstn (idx a i) t ++ a v :: skipn (Datatypes.S (idx a i)) t)) mem) l
    | ORange x bits :: l => bits_below (ival a x) bits /\ sat a mem l
    | OLogic is_and x y bits out :: l =>
        bits_below (ival a x) bits /\ bits_below (ival a y) bits /\
        a out = reduced (logic is_and (ival a x) (ival a y)) /\ sat a mem l
    | OBrillig id ins outs pr :: l => hinted a id ins outs pr /\ sat a mem l
    | ORecursion _ :: l => sat a mem l
    | OOther :: _ => False
    end.

  (** the assignment has the values of the map *)
  Definition agrees a (w : wmap F) : Prop := forall k v, wget k w = Some v -> a k = v.
  Definition mem_agrees (mem : nat -> option (list F)) (m : wmap (list F)) : Prop := forall b, mem b = wget b m.

  (** *** Which witnesses are known when an opcode is reached *)
  (** the witnesses of an expression; products with coefficient zero do not count *)
  Definition vars (e : expr F) : list nat :=
    flat_map (fun t => if feqb (fst (fst t)) 0 then [] else [snd (fst t); snd t]) (e_mul e) ++ map snd (e_lin e).
  (** the witnesses that an opcode gives a value to *)
  Definition gives (o : aopc F) : list nat :=
    match o with
    | OAssert e => vars e | OMemOp _ false _ v => [v] | OLogic _ _ _ _ out => [out] | OBrillig _ _ outs _ => outs | _ => []
    end.
  Definition learn (kn : nat -> bool) (l : list nat) : nat -> bool := fun i => kn i || existsb (Nat.eqb i) l.
  (** results of reads and of calls are new witnesses *)
  Fixpoint fresh (kn : nat -> bool) (ops : list (aopc F)) : Prop :=
    match ops with
    | [] => True
    | o :: l => match o with
                | OMemOp _ false _ v => kn v = false
                | OBrillig _ _ outs _ => Forall (fun i => kn i = false) outs /\ NoDup outs
                | _ => True
                end /\ fresh (learn kn (gives o)) l
    end.
  (** the opcodes without the assertions whose witnesses are all known when they are reached *)
  Fixpoint solving (kn : nat -> bool) (ops : list (aopc F)) : list (aopc F) :=
    match ops with
    | [] => []
    | o :: l => let rest := solving (learn kn (gives o)) l in
                match o with OAssert e => if forallb kn (vars e) then rest else o :: rest | _ => o :: rest end
    end.
  Definition known (w : wmap F) (i : nat) : bool := match wget i w with Some _ => true | None => false end.
  (** the assignment of a witness map, zero elsewhere *)
  Definition assignment (w : wmap F) (i : nat) : F := value_or 0 (wget i w).

  Unset Implicit Arguments.
  (** *** The run *)
  Notation run := (run_plain_ac brillig).
  Notation pv := (fun x : F => x).
  Lemma run_bind {A B} (q : acp F F (list F) A) (f : A -> acp F F (list F) B) : run (abind q f) = obind (run q) (fun v => run (f v)).
  Proof.
    induction q as [x|e|o k IH|l k IH|x t k IH|x y t k IH|l k IH|n k IH|n l k IH]; cbn [abind run_plain_ac obind]; auto.
    - destruct (plain_aop o); cbn [obind]; auto.
    - destruct (plain_get x t); cbn [obind]; auto.
    - destruct (plain_write x y t); cbn [obind]; auto.
    - destruct (brillig n l); cbn [obind]; auto.
  Qed.
  Lemma run_op o : run (aop1 o) = plain_aop o.
  Proof. unfold aop1. cbn [run_plain_ac]. destruct (plain_aop o); reflexivity. Qed.
  Lemma run_opt {A} e (o : option A) : run (aopt e o) = match o with Some v => Done v | None => Failed e end.
  Proof. destruct o; reflexivity. Qed.
  Lemma obind_done {A B} (o : outcome A) (f : A -> outcome B) b : obind o f = Done b -> exists v, o = Done v /\ f v = Done b.
  Proof. destruct o; cbn; [eauto|discriminate]. Qed.

  Definition lin a (l : list (F * nat)) : F := fsum (map (fun t => rmul (fst t) (a (snd t))) l).
  Lemma fsum_app l l' : fsum (l ++ l') = fsum l + fsum l'.
  Proof. induction l as [|x l IH]; [change (fsum l' = 0 + fsum l'); ring|]. change (x + fsum (l ++ l') = x + fsum l + fsum l'). rewrite IH. ring. Qed.
  Lemma lin_app a l l' : lin a (l ++ l') = lin a l + lin a l'.
  Proof. unfold lin. now rewrite map_app, fsum_app. Qed.
  Lemma lin_1 a q i : lin a [(q, i)] = rmul q (a i).
  Proof. change (rmul q (a i) + 0 = rmul q (a i)). ring. Qed.
  Lemma lin_nil a : lin a [] = 0. Proof. reflexivity. Qed.
  Definition unknown (w : wmap F) (l : list (F * nat)) : Prop := Forall (fun t => wget (snd t) w = None) l.
  Definition mulsum a (l : list (F * nat * nat)) : F := fsum (map (fun t => rmul (fst (fst t)) (rmul (a (snd (fst t))) (a (snd t)))) l).

  Lemma feqbP (x y : F) : reflect (x = y) (feqb x y).
  Proof. destruct (feqb x y) eqn:E; constructor; [now apply feqb_spec|]. intros C. apply feqb_spec in C. congruence. Qed.
  Lemma done_eq {A} (x y : A) : Done x = Done y -> x = y.
  Proof. congruence. Qed.
  Ltac step_run E := rewrite run_bind in E; apply obind_done in E as (?r & ?Er & E).

  Lemma mul_terms_run a w l : agrees a w -> forall acc acc', unknown w (fst acc) -> run (evaluate_mul_terms (L := list F) w l acc) = Done acc' ->
    unknown w (fst acc') /\ lin a (fst acc') + snd acc' = lin a (fst acc) + snd acc + mulsum a l.
  Proof.
    intros Ha. induction l as [|[[c i] j] l IH]; intros acc acc' Hu E; cbn [evaluate_mul_terms] in E.
    - apply done_eq in E. subst. split; [exact Hu|]. change (mulsum a []) with (0 : F). ring.
    - change (mulsum a ((c, i, j) :: l)) with (rmul c (rmul (a i) (a j)) + mulsum a l).
      destruct (feqbP c 0) as [->|Nc].
      + destruct (IH _ _ Hu E) as [H1 H2]. split; [exact H1|]. rewrite H2. ring.
      + destruct (wget i w) as [x|] eqn:Ei, (wget j w) as [y|] eqn:Ej; [| | |discriminate].
        * step_run E. step_run E. rewrite run_op in Er, Er0. apply done_eq in Er, Er0. subst.
          destruct (IH _ _ (Hu : unknown w (fst (fst acc, _))) E) as [H1 H2]. split; [exact H1|]. rewrite H2. cbn [fst snd].
          rewrite (Ha _ _ Ei), (Ha _ _ Ej). ring.
        * step_run E. rewrite run_op in Er. apply done_eq in Er. subst.
          destruct (IH (fst acc ++ [(rmul x c, j)], snd acc) acc') as [H1 H2]; [apply Forall_app; split; [exact Hu|repeat constructor; exact Ej]|exact E|].
          split; [exact H1|]. rewrite H2. cbn [fst snd]. rewrite lin_app, lin_1. rewrite (Ha _ _ Ei). ring.
        * step_run E. rewrite run_op in Er. apply done_eq in Er. subst.
          destruct (IH (fst acc ++ [(rmul y c, i)], snd acc) acc') as [H1 H2]; [apply Forall_app; split; [exact Hu|repeat constructor; exact Ei]|exact E|].
          split; [exact H1|]. rewrite H2. cbn [fst snd]. rewrite lin_app, lin_1. rewrite (Ha _ _ Ej). ring.
  Qed.
  Lemma lin_terms_run a w l : agrees a w -> forall acc acc', unknown w (fst acc) -> run (evaluate_linear_terms (L := list F) pv w l acc) = Done acc' ->
    unknown w (fst acc') /\ lin a (fst acc') + snd acc' = lin a (fst acc) + snd acc + lin a l.
  Proof.
    intros Ha. induction l as [|[q i] l IH]; intros acc acc' Hu E; cbn [evaluate_linear_terms] in E.
    - apply done_eq in E. subst. split; [exact Hu|]. rewrite lin_nil. ring.
    - change (lin a ((q, i) :: l)) with (rmul q (a i) + lin a l).
      destruct (wget i w) as [x|] eqn:Ei.
      + step_run E. rewrite run_op in Er. apply done_eq in Er. subst.
        destruct (IH _ _ (Hu : unknown w (fst (fst acc, _))) E) as [H1 H2]. split; [exact H1|]. rewrite H2. cbn [fst snd].
        rewrite (Ha _ _ Ei). ring.
      + destruct (IH (fst acc ++ [(q, i)], snd acc) acc') as [H1 H2]; [apply Forall_app; split; [exact Hu|repeat constructor; exact Ei]|exact E|].
        split; [exact H1|]. rewrite H2. cbn [fst snd]. rewrite lin_app, lin_1. ring.
  Qed.
  Lemma simplify_run a w e s : agrees a w -> run (simplify_expression (L := list F) pv w e) = Done s ->
    unknown w (fst s) /\ lin a (fst s) + snd s = eval a e.
  Proof.
    intros Ha E. unfold simplify_expression in E. step_run E. step_run E. step_run E. rewrite run_op in Er1. apply done_eq in Er1. apply done_eq in E. subst.
    destruct (@mul_terms_run a w _ Ha ([], 0) r (Forall_nil _) Er) as [H1 H2].
    destruct (@lin_terms_run a w _ Ha r r0 H1 Er0) as [H3 H4]. cbn [fst snd]. split; [exact H3|].
    unfold eval. fold (mulsum a (e_mul e)). fold (lin a (e_lin e)). rewrite H2 in H4. cbn [fst snd] in H4.
    assert (E0 : lin a [] = 0) by reflexivity. rewrite E0 in H4. rewrite <- (gadd_0 (mulsum a (e_mul e))).
    transitivity (lin a (fst r0) + snd r0 + e_c e); [ring|]. rewrite H4. ring.
  Qed.
  Lemma evaluate_run a w e v : agrees a w -> run (evaluate_expression (L := list F) pv w e) = Done v -> v = eval a e.
  Proof.
    intros Ha E. unfold evaluate_expression in E. step_run E. destruct (simplify_run _ _ _ _ Ha Er) as [_ HH].
    destruct (fst r) as [|? ?]; [|discriminate]. apply done_eq in E. subst. rewrite <- HH, lin_nil. ring.
  Qed.

  (** *** The values returned are those of every satisfying assignment *)
  Lemma agrees_wput a w i v : agrees a w -> a i = v -> agrees a (wput i v w).
  Proof. intros Ha Hi k u. rewrite wget_wput. destruct (Nat.eqb_spec k i) as [->|_]; [intros E; injection E as <-; exact Hi|apply Ha]. Qed.
  Lemma mem_upd mem m b t : mem_agrees mem m -> mem_agrees (upd b (Some t) mem) (wput b t m).
  Proof. intros HH k. unfold upd. rewrite wget_wput. destruct (k =? b)%nat; [reflexivity|apply HH]. Qed.
  Lemma solve_eq_run a q i c v : rmul q (a i) + c = 0 -> plain_solve_eq q c = Done v -> a i = v.
  Proof.
    unfold plain_solve_eq. destruct (feqbP q 0) as [->|Nq]; [discriminate|]. intros HH E. apply done_eq in E. subst v.
    assert (E1 : rmul q (a i) = - c) by (rewrite <- (gadd_0 (- c)), <- HH; ring). rewrite <- E1.
    rewrite <- (rmul_1 (a i)) at 1. rewrite <- (finv_l q Nq). ring.
  Qed.
  Lemma assert_run a w e w' : agrees a w -> eval a e = 0 -> run (solve_assert_zero (L := list F) pv w e) = Done w' -> agrees a w'.
  Proof.
    intros Ha He E. unfold solve_assert_zero in E. step_run E. destruct (simplify_run _ _ _ _ Ha Er) as [_ HH]. rewrite He in HH.
    destruct (fst r) as [|[q i] [|? ?]]; [apply done_eq in E; now subst| |discriminate].
    step_run E. rewrite run_op in Er0. apply done_eq in E. subst. apply agrees_wput; [exact Ha|].
    rewrite lin_1 in HH. exact (solve_eq_run _ _ _ _ _ HH Er0).
  Qed.
  Lemma init_run a w init vs : agrees a w ->
    fold_right (fun i o => match wget i w, o with Some v, Some l => Some (v :: l) | _, _ => None end) (Some []) init = Some vs ->
    vs = map a init.
  Proof.
    intros Ha. revert vs. induction init as [|i init IH]; intros vs E; cbn [fold_right] in E; [injection E as <-; reflexivity|].
    destruct (wget i w) as [v|] eqn:Ei; [|discriminate]. destruct (fold_right _ _ _) as [l|]; [|discriminate].
    injection E as <-. cbn. now rewrite (Ha _ _ Ei), (IH _ eq_refl).
  Qed.
  Lemma value_run a w i v : agrees a w -> run (witness_to_value (L := list F) w i) = Done v -> wget i w = Some v /\ v = a i.
  Proof. intros Ha E. unfold witness_to_value in E. rewrite run_opt in E. destruct (wget i w) as [u|] eqn:Ei; [|discriminate]. apply done_eq in E. subst. split; [reflexivity|symmetry; exact (Ha _ _ Ei)]. Qed.
  Lemma input_run a w x v : agrees a w -> run (input_to_value (L := list F) pv w x) = Done v -> v = ival a x.
  Proof. intros Ha E. destruct x as [i|c]; cbn [input_to_value ival] in *; [exact (proj2 (value_run _ _ _ _ Ha E))|apply done_eq in E; now subst]. Qed.
  Lemma get_run (x : F) (l : list F) v : plain_get x l = Done v -> nth_error l (N.to_nat (to_uint x)) = Some v.
  Proof.
    unfold plain_get, field_to_usize. destruct (_ <? _)%N; [|discriminate]. destruct (nth_error _ _); [|discriminate]. intros E. apply done_eq in E. now subst.
  Qed.
  Lemma write_run (x : F) v (l l' : list F) : plain_write x v l = Done l' ->
    (N.to_nat (to_uint x) < length l)%nat /\ l' = firstn (N.to_nat (to_uint x)) l ++ v :: skipn (Datatypes.S (N.to_nat (to_uint x))) l.
  Proof.
    unfold plain_write, field_to_usize. destruct (_ <? _)%N; [|discriminate]. destruct (Nat.ltb_spec (N.to_nat (to_uint x)) (length l)); [|discriminate].
    intros E. apply done_eq in E. now subst.
  Qed.
  Lemma num_bits_below (x : F) bits : (num_bits x <= bits)%nat <-> bits_below x bits.
  Proof.
    unfold num_bits, bits_below, ubit_len. destruct (N.eq_dec (to_uint x) 0) as [->|Nz].
    - cbn. split; [intros _; apply N.neq_0_lt_0, N.pow_nonzero; lia|lia].
    - rewrite N.size_log2 by exact Nz. split; intros HH.
      + apply N.log2_lt_pow2; lia.
      + apply N.log2_lt_pow2 in HH; lia.
  Qed.
  Lemma check_run e (v : F) bits u : run (check_bits (L := list F) (@Some F) e v bits) = Done u -> bits_below v bits.
  Proof. unfold check_bits. destruct (Nat.leb_spec (num_bits v) bits) as [HH|HH]; [intros _; now apply num_bits_below|discriminate]. Qed.
  Lemma logic_mask is_and (x y : F) bits : bits_below x bits -> bits_below y bits -> plain_bits is_and x y bits = reduced (logic is_and x y).
  Proof.
    unfold bits_below, plain_bits, bits_and, logic. intros Hx Hy. f_equal. rewrite N.land_ones.
    apply N.mod_small. set (n := N.of_nat bits) in *.
    assert (B : forall u, (u < 2 ^ n)%N -> forall k, (n <= k)%N -> N.testbit u k = false).
    { intros u Hu k Hk. destruct (N.eq_dec u 0) as [->|Nz]; [apply N.bits_0|]. apply N.bits_above_log2. apply N.log2_lt_pow2 in Hu; lia. }
    destruct (N.eq_dec (if is_and then N.land (to_uint x) (to_uint y) else N.lxor (to_uint x) (to_uint y)) 0) as [->|Nz];
      [apply N.neq_0_lt_0, N.pow_nonzero; lia|].
    apply N.log2_lt_pow2; [lia|]. apply N.nle_gt. intros C. apply N.bit_log2 in Nz. revert Nz.
    destruct is_and; rewrite ?N.land_spec, ?N.lxor_spec, !B; try assumption; cbn; discriminate.
  Qed.
  Lemma eval_all_run a w l vs : agrees a w -> run (eval_all (L := list F) pv w l) = Done vs -> vs = map (eval a) l.
  Proof.
    intros Ha. revert vs. induction l as [|e l IH]; intros vs E; cbn [eval_all] in E; [apply done_eq in E; now subst|].
    step_run E. step_run E. apply done_eq in E. subst. cbn. now rewrite (evaluate_run _ _ _ _ Ha Er), (IH _ Er0).
  Qed.
  Lemma calldata_run a w l vs : agrees a w -> run (calldata (L := list F) pv w l) = Done vs -> vs = flat_map (barg a) l.
  Proof.
    intros Ha. revert vs. induction l as [|[es|] l IH]; intros vs E; cbn [calldata] in E; [apply done_eq in E; now subst| |discriminate].
    step_run E. step_run E. apply done_eq in E. subst. cbn. now rewrite (eval_all_run _ _ _ _ Ha Er), (IH _ Er0).
  Qed.
  Lemma mask_all_run (c : F) l vs : run (mask_all (L := list F) c l) = Done vs -> c <> 0 -> c <> rone -> l = [] /\ vs = [].
  Proof.
    intros E N0 N1. destruct l as [|[x z] l]; cbn [mask_all] in E; [apply done_eq in E; auto|]. step_run E. rewrite run_op in Er.
    cbn [plain_aop] in Er. unfold plain_cmux, is01 in Er. destruct (feqbP c rone); [contradiction|]. destruct (feqbP c 0); [contradiction|discriminate].
  Qed.
  (** what a successful call inserts *)
  Lemma brillig_run a w id ins outs pr w' : agrees a w -> run (brillig_call pv (@Some F) w id ins outs pr) = Done w' ->
    exists res, run (fill_output (L := list F) res outs w) = Done w' /\
      if feqb (eval a pr) 0 then res = map (fun _ => 0) outs
      else brillig id (flat_map (barg a) ins) = Done res.
  Proof.
    intros Ha E. unfold brillig_call in E. step_run E. pose proof (evaluate_run _ _ _ _ Ha Er) as ->. cbv zeta in E.
    destruct (feqb (eval a pr) 0) eqn:E0; [eauto|]. step_run E. pose proof (calldata_run _ _ _ _ Ha Er0) as ->. cbn [run_plain_ac] in E.
    apply obind_done in E as (res & Eb & E). step_run E.
    assert (R : r = res).
    { destruct (feqbP (eval a pr) rone) as [_|N1]; [apply done_eq in Er1; now subst|].
      assert (N0 : eval a pr <> 0) by (intros C; apply feqb_spec in C; congruence).
      unfold mask_brillig_result in Er1. cbn [run_plain_ac] in Er1. destruct (mask_all_run _ _ _ Er1 N0 N1) as [C ->].
      destruct res; [reflexivity|discriminate]. }
    subst. eauto.
  Qed.
  Lemma fill_run a outs : forall w res w', agrees a w -> run (fill_output (L := list F) res outs w) = Done w' ->
    (forall n i, nth_error outs n = Some i -> nth_error res n = Some (a i)) -> agrees a w'.
  Proof.
    induction outs as [|i outs IH]; intros w res w' Ha E Hr; destruct res as [|v res]; cbn [fill_output] in E; try (apply done_eq in E; now subst); [discriminate|].
    apply (IH (wput i v w) res w'); [|exact E|].
    - apply agrees_wput; [exact Ha|]. specialize (Hr 0%nat i eq_refl). cbn in Hr. congruence.
    - intros n j Hn. exact (Hr (Datatypes.S n) j Hn).
  Qed.
  Lemma guard_run {A} w xs (k : acp F F (list F) A) v : run (_ <~ guard (L := list F) w xs; k) = Done v -> run k = Done v.
  Proof. unfold guard. destruct (forallb _ _); [auto|discriminate]. Qed.

  Theorem step_determined a s o l mem s' : agrees a (a_w s) -> mem_agrees mem (a_mem s) -> sat a mem (o :: l) ->
    run (step pv (@Some F) s o) = Done s' -> exists mem', agrees a (a_w s') /\ mem_agrees mem' (a_mem s') /\ sat a mem' l.
  Proof.
    intros Ha Hm Hs E. destruct o as [e|b init|b wr i v|x bits|is_and x y bits out|id ins outs pr|xs|]; cbn [step sat] in *.
    - step_run E. apply done_eq in E. subst. destruct Hs as [H1 H2]. exists mem. cbn [a_w a_mem]. split; [|split; assumption]. exact (assert_run _ _ _ _ Ha H1 Er).
    - unfold solve_memory_init_block in E. destruct (wget b (a_mem s)); [discriminate|]. step_run E. rewrite run_opt in Er.
      destruct (fold_right _ _ _) as [vs|] eqn:Ef; [|discriminate]. apply done_eq in Er. subst. pose proof (init_run _ _ _ _ Ha Ef) as ->.
      cbn [run_plain_ac] in E. apply done_eq in E. subst. eexists. cbn [a_w a_mem]. split; [exact Ha|split; [|exact Hs]]. apply mem_upd. exact Hm.
    - unfold solve_memory_op in E. step_run E. destruct (value_run _ _ _ _ Ha Er) as [_ ->]. destruct wr.
      + step_run E. destruct (value_run _ _ _ _ Ha Er0) as [_ ->]. step_run E. rewrite run_opt in Er1. destruct Hs as (t & Ht & Hi & Hs). rewrite Hm in Ht. rewrite Ht in Er1. apply done_eq in Er1. subst.
        cbn [run_plain_ac] in E. apply obind_done in E as (t' & Ew & E). apply done_eq in E. subst. destruct (write_run _ _ _ _ Ew) as [_ ->].
        eexists. cbn [a_w a_mem]. split; [exact Ha|split; [|exact Hs]]. apply mem_upd. exact Hm.
      + step_run E. rewrite run_opt in Er0. destruct Hs as ((t & Ht & Hn) & Hs). rewrite Hm in Ht. rewrite Ht in Er0. apply done_eq in Er0. subst.
        cbn [run_plain_ac] in E. apply obind_done in E as (u & Eg & E). apply done_eq in E. subst. apply get_run in Eg.
        exists mem. cbn [a_w a_mem]. split; [|split; [exact Hm|exact Hs]]. apply agrees_wput; [exact Ha|]. unfold idx in Hn. congruence.
    - apply guard_run in E. step_run E. apply done_eq in E. subst. exists mem. tauto.
    - apply guard_run in E. step_run E. apply done_eq in E. subst. exists mem. cbn [a_w a_mem]. destruct Hs as (B1 & B2 & Ho & Hs). split; [|split; assumption].
      unfold solve_logic in Er. step_run Er. step_run Er. step_run Er. step_run Er. step_run Er. rewrite run_op in Er4. apply done_eq in Er4. subst.
      pose proof (input_run _ _ _ _ Ha Er0) as ->. pose proof (input_run _ _ _ _ Ha Er1) as ->. rewrite (logic_mask _ _ _ _ B1 B2), <- Ho in Er.
      unfold insert_value in Er. destruct (wget out (a_w s)) as [old|]; [|apply done_eq in Er; subst; apply agrees_wput; auto].
      destruct (feqb old (a out)); [|discriminate]. apply done_eq in Er. subst. apply agrees_wput; auto.
    - step_run E. apply done_eq in E. subst. exists mem. cbn [a_w a_mem]. destruct Hs as (Hh & Hs). split; [|split; assumption].
      destruct (brillig_run _ _ _ _ _ _ _ Ha Er) as (res & Ef & Hr). unfold hinted in Hh. apply (fill_run _ _ _ _ _ Ha Ef). intros n i Hn.
      destruct (feqb (eval a pr) 0).
      + subst. rewrite (map_nth_error _ _ _ Hn). rewrite Forall_forall in Hh. now rewrite (Hh i (nth_error_In _ _ Hn)).
      + exact (Hh _ Hr n i Hn).
    - apply guard_run in E. apply done_eq in E. subst. exists mem. tauto.
    - contradiction.
  Qed.
  Lemma steps_determined a ops : forall s mem s', agrees a (a_w s) -> mem_agrees mem (a_mem s) -> sat a mem ops ->
    run (steps pv (@Some F) s ops) = Done s' -> agrees a (a_w s').
  Proof.
    induction ops as [|o ops IH]; intros s mem s' Ha Hm Hs E; cbn [steps] in E; [apply done_eq in E; now subst|].
    step_run E. destruct (step_determined _ _ _ _ _ _ Ha Hm Hs Er) as (mem' & H1 & H2 & H3). exact (IH _ _ _ H1 H2 H3 E).
  Qed.
  (** the outputs *)
  Lemma gather_run w rets vs : run (gather (L := list F) (@Some F) w rets) = Done vs -> vs = [] /\ Forall (fun i => wget i w <> None) rets.
  Proof.
    revert vs. induction rets as [|i rets IH]; intros vs E; cbn [gather] in E; [apply done_eq in E; now subst|].
    step_run E. step_run E. apply done_eq in E. subst. cbn. rewrite run_opt in Er. destruct (IH _ Er0) as [-> HH]. split; [reflexivity|]. constructor; [|exact HH].
    destruct (wget i w); [discriminate|discriminate].
  Qed.
  Lemma take_run w rets : forall res r, run (take_opened (L := list F) pv (@Some F) w rets [] res) = Done r ->
    fst r = w /\ map Some (snd r) = map Some res ++ map (fun i => wget i w) rets.
  Proof.
    induction rets as [|i rets IH]; intros res r E; cbn [take_opened] in E; [apply done_eq in E; subst; cbn; now rewrite app_nil_r|].
    step_run E. rewrite run_opt in Er. cbn in E. destruct (wget i w) as [v|] eqn:Ei; [|discriminate]. apply done_eq in Er. subst.
    destruct (IH _ _ E) as [H1 H2]. split; [exact H1|]. rewrite H2, map_app, <- app_assoc. cbn. now rewrite Ei.
  Qed.
  Lemma open_run w rets r : run (open_results (L := list F) pv (@Some F) w rets) = Done r ->
    fst r = w /\ map Some (snd r) = map (fun i => wget i w) (rev rets).
  Proof.
    intros E. unfold open_results in E. step_run E. destruct (gather_run _ _ _ Er) as [-> _]. cbn [run_plain_ac] in E.
    exact (take_run _ _ _ _ E).
  Qed.
  Theorem solve_determined a w ops rets r : agrees a w -> sat a (fun _ => None) ops ->
    plain_solve brillig w ops rets = Done r -> agrees a (fst r) /\ snd r = map a (rev rets).
  Proof.
    intros Ha Hs E. unfold plain_solve, solve in E. step_run E. destruct (open_run _ _ _ E) as [E1 E2].
    assert (HH : agrees a (a_w r0)) by exact (steps_determined _ _ (mkA w []) (fun _ => None) _ Ha (fun _ => eq_refl) Hs Er).
    rewrite E1. split; [exact HH|]. clear -HH E2. revert E2. generalize (snd r) (rev rets). intros l. induction l as [|v l IH]; intros [|i ks] E; try discriminate; [reflexivity|].
    cbn in E. injection E as Ei E. cbn. symmetry in Ei. rewrite (HH _ _ Ei). f_equal. apply IH. exact E.
  Qed.
  (** *** The values returned satisfy the program, but for assertions on known witnesses *)
  Lemma agrees_assignment w : agrees (assignment w) w.
  Proof. intros k v E. unfold assignment. now rewrite E. Qed.
  (** the unknowns that are left are those of the expression *)
  Lemma mul_terms_vars w l : forall acc acc', run (evaluate_mul_terms (L := list F) w l acc) = Done acc' ->
    forall i, wget i w = None -> (In i (map snd (fst acc')) <-> In i (map snd (fst acc)) \/
      In i (flat_map (fun t => if feqb (fst (fst t)) 0 then [] else [snd (fst t); snd t]) l)).
  Proof.
    induction l as [|[[c i] j] l IH]; intros acc acc' E k Hk; cbn [evaluate_mul_terms] in E.
    - apply done_eq in E. subst. cbn. tauto.
    - cbn [flat_map fst snd]. destruct (feqb c 0); [apply (IH _ _ E k Hk)|].
      destruct (wget i w) as [x|] eqn:Ei, (wget j w) as [y|] eqn:Ej; [| | |discriminate].
      + step_run E. step_run E. rewrite (IH _ _ E k Hk). cbn [fst]. rewrite in_app_iff. cbn [In].
        split; [tauto|]. intros [?|[[->|[->|[]]]|?]]; [tauto|congruence|congruence|tauto].
      + step_run E. rewrite (IH _ _ E k Hk). cbn [fst]. rewrite map_app, !in_app_iff. cbn [In map snd].
        split; [tauto|]. intros [?|[[->|[->|[]]]|?]]; [tauto|congruence|tauto|tauto].
      + step_run E. rewrite (IH _ _ E k Hk). cbn [fst]. rewrite map_app, !in_app_iff. cbn [In map snd].
        split; [tauto|]. intros [?|[[->|[->|[]]]|?]]; [tauto|tauto|congruence|tauto].
  Qed.
  Lemma lin_terms_vars w l : forall acc acc', run (evaluate_linear_terms (L := list F) pv w l acc) = Done acc' ->
    forall i, wget i w = None -> (In i (map snd (fst acc')) <-> In i (map snd (fst acc)) \/ In i (map snd l)).
  Proof.
    induction l as [|[q i] l IH]; intros acc acc' E k Hk; cbn [evaluate_linear_terms] in E.
    - apply done_eq in E. subst. cbn. tauto.
    - cbn [map snd]. destruct (wget i w) as [x|] eqn:Ei.
      + step_run E. rewrite (IH _ _ E k Hk). cbn [fst In]. split; [tauto|]. intros [?|[->|?]]; [tauto|congruence|tauto].
      + rewrite (IH _ _ E k Hk). cbn [fst]. rewrite map_app, !in_app_iff. cbn [In map snd]. tauto.
  Qed.
  Lemma simplify_vars w e s : run (simplify_expression (L := list F) pv w e) = Done s ->
    forall i, wget i w = None -> (In i (map snd (fst s)) <-> In i (vars e)).
  Proof.
    intros E i Hi. unfold simplify_expression in E. step_run E. step_run E. step_run E. apply done_eq in E. subst. cbn [fst].
    rewrite (lin_terms_vars _ _ _ _ Er0 i Hi), (mul_terms_vars _ _ _ _ Er i Hi). unfold vars. rewrite in_app_iff. cbn. tauto.
  Qed.
  Definition knows (kn : nat -> bool) (w : wmap F) : Prop := forall i, kn i = known w i.
  Lemma knows_none kn w i : knows kn w -> kn i = false -> wget i w = None.
  Proof. intros HH E. rewrite HH in E. unfold known in E. now destruct (wget i w). Qed.
  Lemma known_wput i v w k : known (wput i v w) k = (k =? i)%nat || known w k.
  Proof. unfold known. rewrite wget_wput. now destruct (k =? i)%nat. Qed.
  Lemma knows_wput kn w i v l : knows kn w -> (forall k, kn k = false -> (In k l <-> k = i)) -> In i l ->
    knows (learn kn l) (wput i v w).
  Proof.
    intros HH Hl Hi k. rewrite known_wput, <- (HH k). unfold learn. destruct (kn k) eqn:Ek; [now rewrite orb_true_r|]. rewrite orb_false_r. cbn [orb].
    destruct (Nat.eqb_spec k i) as [->|N].
    - apply existsb_exists. exists i. split; [exact Hi|apply Nat.eqb_refl].
    - destruct (existsb (Nat.eqb k) l) eqn:Ex; [|reflexivity]. apply existsb_exists in Ex as (j & Hj & Ej). apply Nat.eqb_eq in Ej. subst.
      apply (Hl j Ek) in Hj. contradiction.
  Qed.
  Lemma knows_same kn w l : knows kn w -> (forall k, In k l -> kn k = true) -> knows (learn kn l) w.
  Proof.
    intros HH Hl k. rewrite <- (HH k). unfold learn. destruct (kn k) eqn:Ek; [reflexivity|]. cbn [orb].
    destruct (existsb (Nat.eqb k) l) eqn:Ex; [|reflexivity]. apply existsb_exists in Ex as (j & Hj & Ej). apply Nat.eqb_eq in Ej. subst.
    now rewrite (Hl _ Hj) in Ek.
  Qed.
  Lemma agrees_less a w i v : agrees a (wput i v w) -> wget i w = None \/ wget i w = Some v -> agrees a w /\ a i = v.
  Proof.
    intros HH Hi. split.
    - intros k u E. destruct (Nat.eq_dec k i) as [->|N].
      + apply HH. rewrite wget_wput, Nat.eqb_refl. destruct Hi; congruence.
      + apply HH. rewrite wget_wput. destruct (Nat.eqb_spec k i); [contradiction|exact E].
    - apply HH. now rewrite wget_wput, Nat.eqb_refl.
  Qed.
  Lemma solve_eq_sound (q c v : F) : plain_solve_eq q c = Done v -> rmul q v + c = 0.
  Proof.
    unfold plain_solve_eq. destruct (feqbP q 0) as [->|Nq]; [discriminate|]. intros E. apply done_eq in E. subst v.
    transitivity (rmul (rmul (finv q) q) (- c) + c); [ring|]. rewrite (finv_l q Nq). ring.
  Qed.
  Lemma assert_solved kn w e w' : knows kn w -> run (solve_assert_zero (L := list F) pv w e) = Done w' ->
    knows (learn kn (vars e)) w' /\ (forall a, agrees a w' -> agrees a w) /\
    (forallb kn (vars e) = false -> forall a, agrees a w' -> eval a e = 0).
  Proof.
    intros Hk E. unfold solve_assert_zero in E. step_run E. pose proof (simplify_vars _ _ _ Er) as Hv.
    pose proof (fun a Ha => simplify_run a _ _ _ Ha Er) as Hs.
    destruct (fst r) as [|[q i] [|? ?]] eqn:El; [| |discriminate].
    - apply done_eq in E. subst. assert (A : forall k, In k (vars e) -> kn k = true).
      { intros k Hi. destruct (kn k) eqn:Ek; [reflexivity|]. apply (Hv k (knows_none _ _ _ Hk Ek)) in Hi. destruct Hi. }
      split; [now apply knows_same|]. split; [auto|]. intros C. exfalso. apply Bool.not_true_iff_false in C. apply C. apply forallb_forall. exact A.
    - step_run E. rewrite run_op in Er0. apply done_eq in E. subst w'.
      assert (Ni : wget i w = None). { destruct (Hs (assignment w) (agrees_assignment w)) as [U _]. exact (Forall_inv U). }
      assert (Iv : In i (vars e)) by (apply (Hv i Ni); now left).
      split; [|split].
      + apply knows_wput; [exact Hk| |exact Iv]. intros k Ek. rewrite <- (Hv k (knows_none _ _ _ Hk Ek)). cbn. split; [intros [->|[]]; reflexivity|auto].
      + intros a Ha. exact (proj1 (agrees_less _ _ _ _ Ha (or_introl Ni))).
      + intros _ a Ha. destruct (agrees_less _ _ _ _ Ha (or_introl Ni)) as [H1 H2]. destruct (Hs a H1) as [_ <-]. rewrite lin_1, H2. exact (solve_eq_sound _ _ _ Er0).
  Qed.
  Lemma fill_solved outs : forall kn w res w', knows kn w -> Forall (fun i => kn i = false) outs -> NoDup outs ->
    run (fill_output (L := list F) res outs w) = Done w' ->
    knows (learn kn outs) w' /\ forall a, agrees a w' -> agrees a w /\ forall n i, nth_error outs n = Some i -> nth_error res n = Some (a i).
  Proof.
    induction outs as [|i outs IH]; intros kn w res w' Hk Hf Hd E; destruct res as [|v res]; cbn [fill_output] in E; try discriminate;
      try (apply done_eq in E; subst w'; split; [apply knows_same; [exact Hk|intros k []]|intros a Ha; split; [exact Ha|intros [|n] j; discriminate]]).
    inversion_clear Hf as [|? ? Hi Hf']. inversion_clear Hd as [|? ? Di Hd'].
    destruct (IH (learn kn [i]) (wput i v w) res w') as [H1 H2].
    - apply knows_wput; [exact Hk| |now left]. intros k _. cbn. split; [intros [->|[]]; reflexivity|auto].
    - rewrite Forall_forall in *. intros k Hin. unfold learn. cbn. rewrite (Hf' k Hin), orb_false_r. apply Nat.eqb_neq. congruence.
    - exact Hd'.
    - exact E.
    - split.
      + intros k. rewrite <- H1. unfold learn. cbn. now rewrite orb_false_r, orb_assoc.
      + intros a Ha. destruct (H2 a Ha) as [H3 H4]. destruct (agrees_less _ _ _ _ H3 (or_introl (knows_none _ _ _ Hk Hi))) as [H5 H6]. split; [exact H5|].
        intros [|n] j Ej; cbn in *; [injection Ej as <-; now rewrite H6|exact (H4 n j Ej)].
  Qed.
  Theorem step_solved kn mem s o l s' : knows kn (a_w s) -> mem_agrees mem (a_mem s) -> fresh kn (o :: l) ->
    run (step pv (@Some F) s o) = Done s' ->
    knows (learn kn (gives o)) (a_w s') /\ (forall a, agrees a (a_w s') -> agrees a (a_w s)) /\
    forall a, agrees a (a_w s') -> exists mem', mem_agrees mem' (a_mem s') /\
      (sat a mem' (solving (learn kn (gives o)) l) -> sat a mem (solving kn (o :: l))).
  Proof.
    intros Hk Hm Hf E. destruct o as [e|b init|b wr i v|x bits|is_and x y bits out|id ins outs pr|xs|]; cbn [step gives fresh solving] in *.
    - step_run E. apply done_eq in E. subst. cbn [a_w a_mem]. destruct (assert_solved _ _ _ _ Hk Er) as (H1 & H2 & H3). split; [exact H1|]. split; [exact H2|].
      intros a Ha. exists mem. split; [exact Hm|]. destruct (forallb kn (vars e)) eqn:Ev; [auto|]. intros Hs. cbn [sat]. split; [exact (H3 eq_refl a Ha)|exact Hs].
    - unfold solve_memory_init_block in E. destruct (wget b (a_mem s)); [discriminate|]. step_run E. rewrite run_opt in Er.
      destruct (fold_right _ _ _) as [vs|] eqn:Ef; [|discriminate]. apply done_eq in Er. subst.
      cbn [run_plain_ac] in E. apply done_eq in E. subst. cbn [a_w a_mem]. split; [apply knows_same; [exact Hk|intros k []]|]. split; [auto|].
      intros a Ha. pose proof (init_run _ _ _ _ Ha Ef) as ->. eexists. split; [apply mem_upd; exact Hm|]. intros Hs. exact Hs.
    - unfold solve_memory_op in E. step_run E. destruct wr.
      + step_run E. step_run E. rewrite run_opt in Er1. destruct (wget b (a_mem s)) as [t|] eqn:Et; [|discriminate]. apply done_eq in Er1. subst r1.
        cbn [run_plain_ac] in E. apply obind_done in E as (t' & Ew & E). apply done_eq in E. subst. cbn [a_w a_mem]. split; [apply knows_same; [exact Hk|intros k []]|]. split; [auto|].
        intros a Ha. destruct (value_run _ _ _ _ Ha Er) as [_ ->]. destruct (value_run _ _ _ _ Ha Er0) as [_ ->]. destruct (write_run _ _ _ _ Ew) as [Hi ->].
        eexists. split; [apply mem_upd; exact Hm|]. intros Hs. cbn [sat]. exists t. split; [now rewrite Hm|]. split; [exact Hi|exact Hs].
      + step_run E. rewrite run_opt in Er0. destruct (wget b (a_mem s)) as [t|] eqn:Et; [|discriminate]. apply done_eq in Er0. subst r0.
        cbn [run_plain_ac] in E. apply obind_done in E as (u & Eg & E). apply done_eq in E. subst. cbn [a_w a_mem]. apply get_run in Eg.
        destruct Hf as [Hf _]. pose proof (knows_none _ _ _ Hk Hf) as Nv.
        split; [|split].
        * apply knows_wput; [exact Hk| |now left]. intros k _. cbn. split; [intros [->|[]]; reflexivity|auto].
        * intros a Ha. exact (proj1 (agrees_less _ _ _ _ Ha (or_introl Nv))).
        * intros a Ha. destruct (agrees_less _ _ _ _ Ha (or_introl Nv)) as [H1 H2]. exists mem. split; [exact Hm|]. intros Hs. cbn [sat]. split; [|exact Hs].
          exists t. split; [now rewrite Hm|]. destruct (value_run _ _ _ _ H1 Er) as [_ ->]. unfold idx. now rewrite H2.
    - apply guard_run in E. step_run E. apply done_eq in E. subst. split; [apply knows_same; [exact Hk|intros k []]|]. split; [auto|].
      intros a Ha. exists mem. split; [exact Hm|]. intros Hs. cbn [sat]. split; [|exact Hs]. unfold solve_range in Er. step_run Er.
      pose proof (input_run _ _ _ _ Ha Er0) as ->. exact (check_run _ _ _ _ Er).
    - apply guard_run in E. step_run E. apply done_eq in E. subst. cbn [a_w a_mem].
      unfold solve_logic in Er. step_run Er. step_run Er. step_run Er. step_run Er. step_run Er. rewrite run_op in Er4. apply done_eq in Er4. subst.
      assert (R : r = wput out (plain_bits is_and r0 r1 bits) (a_w s) /\ (wget out (a_w s) = None \/ wget out (a_w s) = Some (plain_bits is_and r0 r1 bits))).
      { unfold insert_value in Er. destruct (wget out (a_w s)) as [old|]; [|apply done_eq in Er; auto].
        cbv beta iota in Er. destruct (feqbP old (plain_bits is_and r0 r1 bits)) as [Eo|]; [|discriminate]. apply done_eq in Er. rewrite Eo. auto. }
      destruct R as [-> Ro]. split; [|split].
      + apply knows_wput; [exact Hk| |now left]. intros k _. cbn. split; [intros [->|[]]; reflexivity|auto].
      + intros a Ha. exact (proj1 (agrees_less _ _ _ _ Ha Ro)).
      + intros a Ha. destruct (agrees_less _ _ _ _ Ha Ro) as [H1 H2]. exists mem. split; [exact Hm|]. intros Hs. cbn [sat].
        pose proof (input_run _ _ _ _ H1 Er0) as ->. pose proof (input_run _ _ _ _ H1 Er1) as ->.
        pose proof (check_run _ _ _ _ Er2) as B1. pose proof (check_run _ _ _ _ Er3) as B2.
        split; [exact B1|]. split; [exact B2|]. split; [|exact Hs]. rewrite H2. exact (logic_mask _ _ _ _ B1 B2).
    - step_run E. apply done_eq in E. subst. cbn [a_w a_mem]. destruct Hf as [[Hf1 Hf2] _].
      destruct (brillig_run _ _ _ _ _ _ _ (agrees_assignment _) Er) as (res0 & Ef0 & _).
      destruct (fill_solved _ _ _ _ _ Hk Hf1 Hf2 Ef0) as [H1 H2]. split; [exact H1|]. split; [intros a Ha; exact (proj1 (H2 a Ha))|].
      intros a Ha. exists mem. split; [exact Hm|]. intros Hs. cbn [sat]. split; [|exact Hs].
      destruct (H2 a Ha) as [H3 _]. destruct (brillig_run _ _ _ _ _ _ _ H3 Er) as (res & Ef & Hr).
      destruct (fill_solved _ _ _ _ _ Hk Hf1 Hf2 Ef) as [_ H5]. destruct (H5 a Ha) as [_ H6]. unfold hinted.
      destruct (feqb (eval a pr) 0).
      + subst. apply Forall_forall. intros k Hin. apply In_nth_error in Hin as [n Hn]. specialize (H6 n k Hn). rewrite (map_nth_error _ _ _ Hn) in H6. congruence.
      + intros res' Eb. rewrite Hr in Eb. apply done_eq in Eb. subst. exact H6.
    - apply guard_run in E. apply done_eq in E. subst. split; [apply knows_same; [exact Hk|intros k []]|]. split; [auto|].
      intros a Ha. exists mem. split; [exact Hm|]. auto.
    - discriminate.
  Qed.
  Lemma steps_solved ops : forall kn mem s s', knows kn (a_w s) -> mem_agrees mem (a_mem s) -> fresh kn ops ->
    run (steps pv (@Some F) s ops) = Done s' ->
    forall a, agrees a (a_w s') -> agrees a (a_w s) /\ sat a mem (solving kn ops).
  Proof.
    induction ops as [|o ops IH]; intros kn mem s s' Hk Hm Hf E a Ha; cbn [steps] in E; [apply done_eq in E; subst; split; [exact Ha|exact I]|].
    step_run E. destruct (step_solved _ _ _ _ _ _ Hk Hm Hf Er) as (H1 & H2 & H3). cbn [fresh] in Hf. destruct Hf as [_ Hf].
    pose proof (fun m Hm => IH _ m _ _ H1 Hm Hf E a Ha) as H4.
    assert (Hr : agrees a (a_w r)). { exact (proj1 (H4 (fun b => wget b (a_mem r)) (fun _ => eq_refl))). }
    split; [exact (H2 a Hr)|]. destruct (H3 a Hr) as (mem' & Hm' & Hs). apply Hs. exact (proj2 (H4 mem' Hm')).
  Qed.
  Theorem solve_solved w ops rets r : fresh (known w) ops -> plain_solve brillig w ops rets = Done r ->
    agrees (assignment (fst r)) w /\ sat (assignment (fst r)) (fun _ => None) (solving (known w) ops) /\
    snd r = map (assignment (fst r)) (rev rets).
  Proof.
    intros Hf E. unfold plain_solve, solve in E. step_run E. destruct (open_run _ _ _ E) as [E1 E2].
    destruct (steps_solved _ (known w) (fun _ => None) (mkA w []) _ (fun _ => eq_refl) (fun _ => eq_refl) Hf Er (assignment (fst r))) as [H1 H2].
    { rewrite E1. apply agrees_assignment. }
    split; [exact H1|]. split; [exact H2|]. clear -E1 E2. revert E2. rewrite E1. generalize (snd r) (rev rets). intros l.
    induction l as [|v l IH]; intros [|i ks] E; try discriminate; [reflexivity|].
    cbn in E. injection E as Ei E. cbn. unfold assignment at 1. rewrite <- Ei. cbn. f_equal. apply IH. exact E.
  Qed.
End Spec.
