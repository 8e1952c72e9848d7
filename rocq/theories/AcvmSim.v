(** * The co-noir ACVM: three parties running the solver follow one run on the secrets

    The solver of Acvm.v looks at values only through the driver and [get_public]; on related
    values the programs of the parties are related to the program on the secrets. *)
From Coq Require Import String List Arith NArith Lia Bool Ring.
From Verif Require Import Proc Alg Rep3Net Rep3 Rep3Spec Rep3Proofs Rep3Wp Uint Binary BinaryWp Conv ConvWp Ring2k Lut LutWp LutProv
  Garble Circuits Yao VmDriver VmIdeal VmDriverWp VmRun Acvm AcvmRun.
Import ListNotations.
Local Open Scope grp_scope.
Local Open Scope string_scope.
Local Open Scope list_scope.
Local Open Scope acvm_scope.

Section Sim.
  Context {F : Type} `{FU : FieldUint F}.
  Notation rv := (rv F).
  Notation tv := (tv F).
  Notation pp := (pplut F).
  Notation tl := (tl F).
  (** maps with the same witnesses and related entries *)
  Definition mrel {X Y} (R : (pid -> X) -> Y -> Prop) (w : pid -> wmap X) (wt : wmap Y) : Prop :=
    pvec (fun e et => (forall i, fst (e i) = fst et) /\ R (fun i => snd (e i)) (snd et)) w wt.
  Lemma mrel_get {X Y} (R : (pid -> X) -> Y -> Prop) k wt : (forall a b v, (forall i, a i = b i) -> R a v -> R b v) -> forall w, mrel R w wt ->
    match wget k wt with Some v => exists r, (forall i, wget k (w i) = Some (r i)) /\ R r v | None => forall i, wget k (w i) = None end.
  Proof.
    intros RE. induction wt as [|[k' v] wt IH]; intros w Hw; cbn [wget].
    - intros i. now rewrite (pvec_nil_inv Hw).
    - destruct (pvec_cons_inv Hw) as (h & q & E & [Hk Hv] & Hq). cbn [fst snd] in *.
      destruct (k =? k')%nat eqn:C.
      + exists (fun i => snd (h i)). split; [|exact Hv]. intros i. rewrite (E i). specialize (Hk i). destruct (h i) as [k2 v2]. cbn [fst snd wget] in *. now rewrite Hk, C.
      + specialize (IH q Hq). destruct (wget k wt) as [u|].
        * destruct IH as (r & Hr & HR). exists r. split; [|exact HR]. intros i. rewrite (E i). specialize (Hk i). destruct (h i) as [k2 v2]. cbn [fst snd wget] in *. rewrite Hk, C. apply Hr.
        * intros i. rewrite (E i). specialize (Hk i). destruct (h i) as [k2 v2]. cbn [fst snd wget] in *. rewrite Hk, C. apply IH.
  Qed.
  Lemma mrel_put {X Y} (R : (pid -> X) -> Y -> Prop) k r v wt : R r v -> forall w, mrel R w wt -> mrel R (fun i => wput k (r i) (w i)) (wput k v wt).
  Proof.
    intros Rv. induction wt as [|[k' u] wt IH]; intros w Hw; cbn [wput].
    - eapply pvec_cons with (h := fun i => (k, r i)) (t := fun _ => []).
      + intros i. now rewrite (pvec_nil_inv Hw).
      + split; [reflexivity|exact Rv].
      + apply pvec_nil. reflexivity.
    - destruct (pvec_cons_inv Hw) as (h & q & E & [Hk Hv] & Hq). cbn [fst snd] in *.
      assert (E' : forall i, w i = (k', snd (h i)) :: q i) by (intros i; rewrite E, <- (Hk i); now destruct (h i)).
      destruct (k =? k')%nat eqn:C1; [|destruct (k <? k')%nat eqn:C2].
      + eapply pvec_cons with (h := fun i => (k, r i)) (t := q); [intros i; rewrite E'; cbn [wput]; now rewrite C1|split; [reflexivity|exact Rv]|exact Hq].
      + eapply pvec_cons with (h := fun i => (k, r i)) (t := w); [intros i; rewrite E'; cbn [wput]; now rewrite C1, C2|split; [reflexivity|exact Rv]|exact Hw].
      + eapply pvec_cons with (h := h) (t := fun i => wput k (r i) (q i)); [intros i; rewrite E'; cbn [wput]; rewrite C1, C2; rewrite <- (Hk i); now destruct (h i)|split; [exact Hk|exact Hv]|apply IH; exact Hq].
  Qed.
  Lemma rel_ext' (a b : pid -> rv) v : (forall i, a i = b i) -> rel a v -> rel b v.
  Proof. intros E. destruct v; cbn [rel]; [intros Ha i; rewrite <- E; apply Ha|intros (s & Hs & R); exists s; split; [intros i; rewrite <- E; apply Hs|exact R]]. Qed.
  Lemma lrel_ext (a b : pid -> pp) v : (forall i, a i = b i) -> lrel a v -> lrel b v.
  Proof. intros E. destruct v; cbn [lrel]; [intros Ha i; rewrite <- E; apply Ha|intros (s & Hs & R); exists s; split; [intros i; rewrite <- E; apply Hs|exact R]]. Qed.
  Notation wrel := (mrel (rel (F := F))).
  Notation get_ k := (fun w wt => @mrel_get _ _ (rel (F := F)) k wt rel_ext' w).
  Lemma rpub_rel (r : pid -> rv) v : rel r v -> forall i, rpub (r i) = tpub v.
  Proof. destruct v; cbn [rel tpub]; [intros E i; now rewrite E|intros (s & E & _) i; now rewrite E]. Qed.
  Lemma pub_rel (c : F) : rel (fun _ : pid => RPub c) (Pub c).
  Proof. intros i. reflexivity. Qed.

  Lemma sim_ret {AP AT} (R : (pid -> AP) -> AT -> Prop) a v : R a v -> asim R (fun i => ARet (a i)) (ARet v).
  Proof. apply S_ret. reflexivity. Qed.
  Lemma sim_op {AP AT} (R : (pid -> AP) -> AT -> Prop) o ot k kt : orel o ot -> (forall r v, rel r v -> asim R (fun i => k i (r i)) (kt v)) ->
    asim R (fun i => abind (aop1 (o i)) (k i)) (abind (aop1 ot) kt).
  Proof. intros Ho K. eapply S_op with (o := o) (k := k); [reflexivity|exact Ho|exact K]. Qed.
  Lemma asim_ext {AP AT} (R : (pid -> AP) -> AT -> Prop) q q' z : asim R q z -> (forall i, q' i = q i) -> asim R q' z.
  Proof.
    intros Hz E. destruct Hz.
    - eapply S_ret; [intros i; rewrite E; eauto|eassumption].
    - eapply S_fail; intros i; rewrite E; eauto.
    - eapply S_op; [intros i; rewrite E; eauto|eassumption|eassumption].
    - eapply S_init; [intros i; rewrite E; eauto|eassumption|eassumption].
    - eapply S_read; [intros i; rewrite E; eauto|eassumption|eassumption|eassumption].
    - eapply S_write; [intros i; rewrite E; eauto|eassumption|eassumption|eassumption|eassumption].
    - eapply S_open; [intros i; rewrite E; eauto|eassumption|eassumption].
    - eapply S_zeros; [intros i; rewrite E; eauto|eassumption].
    - eapply S_brillig; [intros i; rewrite E; eauto|eassumption|eassumption].
  Qed.

  (** the linear combination and the constant of an expression *)
  Definition accrel (a : pid -> list (rv * nat) * rv) (t : list (tv * nat) * tv) : Prop :=
    pvec (fun e et => rel (fun i => fst (e i)) (fst et) /\ forall i, snd (e i) = snd et) (fun i => fst (a i)) (fst t) /\ rel (fun i => snd (a i)) (snd t).
  Lemma snoc_rel (l : pid -> list (rv * nat)) lt r v j :
    pvec (fun e et => rel (fun i => fst (e i)) (fst et) /\ forall i, snd (e i) = snd et) l lt -> rel r v ->
    pvec (fun e et => rel (fun i => fst (e i)) (fst et) /\ forall i, snd (e i) = snd et) (fun i => l i ++ [(r i, j)]) (lt ++ [(v, j)]).
  Proof.
    intros Hl Hr. apply pvec_app; [exact Hl|]. eapply pvec_cons with (h := fun i => (r i, j)) (t := fun _ => []); [reflexivity| |apply pvec_nil; reflexivity].
    split; [exact Hr|reflexivity].
  Qed.
  Lemma mul_terms_sim w wt (Hw : wrel w wt) l : forall acc at_, accrel acc at_ ->
    asim accrel (fun i => evaluate_mul_terms (L := pp) (w i) l (acc i)) (evaluate_mul_terms (L := tl) wt l at_).
  Proof.
    induction l as [|[[c k] j] l IH]; intros acc at_ Ha; cbn [evaluate_mul_terms].
    - apply sim_ret. exact Ha.
    - destruct (feqb c 0); [apply IH; exact Ha|].
      pose proof (get_ k w wt Hw) as Gk. pose proof (get_ j w wt Hw) as Gj. destruct (wget k wt) as [x|], (wget j wt) as [y|].
      + destruct Gk as (rx & Ex & Rx), Gj as (ry & Ey & Ry).
        eapply asim_ext with (q := fun i => s <~ aop1 (SolveMul c (rx i) (ry i)); r <~ aop1 (AddTo (snd (acc i)) s); evaluate_mul_terms (w i) l (fst (acc i), r)); [|intros i; now rewrite Ex, Ey].
        eapply sim_op; [eapply R_mul; [reflexivity|exact Rx|exact Ry]|]. intros s u Hs.
        eapply sim_op with (k := fun i r => evaluate_mul_terms (w i) l (fst (acc i), r)); [eapply R_add; [reflexivity|exact (proj2 Ha)|exact Hs]|]. intros r v Hr.
        apply (IH (fun i => (fst (acc i), r i))). split; [exact (proj1 Ha)|exact Hr].
      + destruct Gk as (rx & Ex & Rx).
        eapply asim_ext with (q := fun i => s <~ aop1 (MulPub c (rx i)); evaluate_mul_terms (w i) l (fst (acc i) ++ [(s, j)], snd (acc i))); [|intros i; now rewrite Ex, Gj].
        eapply sim_op; [eapply R_mulpub; [reflexivity|exact Rx]|]. intros s u Hs.
        apply (IH (fun i => (fst (acc i) ++ [(s i, j)], snd (acc i)))). split; [apply (snoc_rel (fun i => fst (acc i))); [exact (proj1 Ha)|exact Hs]|exact (proj2 Ha)].
      + destruct Gj as (ry & Ey & Ry).
        eapply asim_ext with (q := fun i => s <~ aop1 (MulPub c (ry i)); evaluate_mul_terms (w i) l (fst (acc i) ++ [(s, k)], snd (acc i))); [|intros i; now rewrite Gk, Ey].
        eapply sim_op; [eapply R_mulpub; [reflexivity|exact Ry]|]. intros s u Hs.
        apply (IH (fun i => (fst (acc i) ++ [(s i, k)], snd (acc i)))). split; [apply (snoc_rel (fun i => fst (acc i))); [exact (proj1 Ha)|exact Hs]|exact (proj2 Ha)].
      + apply S_fail. intros i. now rewrite Gk, Gj.
  Qed.
  Lemma linear_terms_sim w wt (Hw : wrel w wt) l : forall acc at_, accrel acc at_ ->
    asim accrel (fun i => evaluate_linear_terms (L := pp) (@RPub F) (w i) l (acc i)) (evaluate_linear_terms (L := tl) (@Pub F) wt l at_).
  Proof.
    induction l as [|[q k] l IH]; intros acc at_ Ha; cbn [evaluate_linear_terms].
    - apply sim_ret. exact Ha.
    - pose proof (get_ k w wt Hw) as Gk. destruct (wget k wt) as [x|].
      + destruct Gk as (rx & Ex & Rx).
        eapply asim_ext with (q := fun i => r <~ aop1 (SolveLin q (rx i) (snd (acc i))); evaluate_linear_terms (@RPub F) (w i) l (fst (acc i), r)); [|intros i; now rewrite Ex].
        eapply sim_op; [eapply R_lin; [reflexivity|exact Rx|exact (proj2 Ha)]|]. intros r v Hr.
        apply (IH (fun i => (fst (acc i), r i))). split; [exact (proj1 Ha)|exact Hr].
      + eapply asim_ext; [apply (IH (fun i => (fst (acc i) ++ [(RPub q, k)], snd (acc i))) (fst at_ ++ [(Pub q, k)], snd at_))|intros i; now rewrite Gk].
        split; [apply (snoc_rel (fun i => fst (acc i)) _ (fun _ => RPub q)); [exact (proj1 Ha)|apply pub_rel]|exact (proj2 Ha)].
  Qed.
  Lemma simplify_sim w wt e (Hw : wrel w wt) :
    asim accrel (fun i => simplify_expression (L := pp) (@RPub F) (w i) e) (simplify_expression (L := tl) (@Pub F) wt e).
  Proof.
    unfold simplify_expression. eapply asim_bind; [apply (mul_terms_sim w wt Hw _ (fun _ => ([], RPub 0)))|].
    { split; [apply pvec_nil; reflexivity|apply pub_rel]. }
    intros a v Ha. cbv beta. eapply (asim_bind (q := fun i => evaluate_linear_terms _ _ _ _)); [apply (linear_terms_sim w wt Hw _ a); exact Ha|].
    intros b u Hb. cbv beta. eapply (sim_op _ (fun i => AddPub (e_c e) (snd (b i)))); [eapply R_addpub; [reflexivity|exact (proj2 Hb)]|]. intros c z Hc.
    apply (sim_ret accrel (fun i => (fst (b i), c i))). split; [exact (proj1 Hb)|exact Hc].
  Qed.
  Lemma assert_sim w wt e (Hw : wrel w wt) :
    asim wrel (fun i => solve_assert_zero (L := pp) (@RPub F) (w i) e) (solve_assert_zero (L := tl) (@Pub F) wt e).
  Proof.
    unfold solve_assert_zero. eapply asim_bind; [apply simplify_sim; exact Hw|]. intros a [l c] [Hl Hc]. cbv beta. cbn [fst snd] in *.
    destruct l as [|[q k] [|x l]].
    - eapply asim_ext; [apply (sim_ret wrel w wt Hw)|]. intros i. now rewrite (pvec_nil_inv Hl).
    - destruct (pvec_cons_inv Hl) as (h & z & E & [Hq Hk] & Hz). cbn [fst snd] in *.
      eapply asim_ext with (q := fun i => v <~ aop1 (SolveEq (fst (h i)) (snd (a i))); ARet (wput k v (w i))).
      + eapply sim_op; [eapply R_eq; [reflexivity|exact Hq|exact Hc]|]. intros r v Hr. apply (sim_ret wrel (fun i => wput k (r i) (w i))). apply mrel_put; assumption.
      + intros i. rewrite E, (pvec_nil_inv Hz), <- (Hk i). now destruct (h i).
    - destruct (pvec_cons_inv Hl) as (h & z & E & _ & Hz). destruct (pvec_cons_inv Hz) as (h' & z' & E' & _ & _).
      apply S_fail. intros i. rewrite E, E'. now destruct (h i).
  Qed.
  Lemma evaluate_sim w wt e (Hw : wrel w wt) :
    asim rel (fun i => evaluate_expression (L := pp) (@RPub F) (w i) e) (evaluate_expression (L := tl) (@Pub F) wt e).
  Proof.
    unfold evaluate_expression. eapply asim_bind; [apply simplify_sim; exact Hw|]. intros a [l c] [Hl Hc]. cbv beta. cbn [fst snd] in *.
    destruct l as [|x l].
    - eapply asim_ext; [apply (sim_ret rel _ c Hc)|]. intros i. now rewrite (pvec_nil_inv Hl).
    - destruct (pvec_cons_inv Hl) as (h & z & E & _). apply S_fail. intros i. now rewrite E.
  Qed.

  (** memory *)
  Definition srel (s : pid -> acst rv pp) (st : acst tv tl) : Prop := wrel (fun i => a_w (s i)) (a_w st) /\ mrel lrel (fun i => a_mem (s i)) (a_mem st).
  Lemma value_sim w wt k (Hw : wrel w wt) :
    asim rel (fun i => witness_to_value (F := F) (L := pp) (w i) k) (witness_to_value (F := F) (L := tl) wt k).
  Proof.
    unfold witness_to_value. pose proof (get_ k w wt Hw) as G. destruct (wget k wt) as [x|]; cbn [aopt].
    - destruct G as (r & E & R). eapply asim_ext; [apply (sim_ret rel r x R)|]. intros i. now rewrite E.
    - apply S_fail. intros i. now rewrite G.
  Qed.
  Lemma block_sim e (m : pid -> wmap pp) mt k (Hm : mrel lrel m mt) :
    asim lrel (fun i => aopt (F := F) (V := rv) (L := pp) e (wget k (m i))) (aopt (F := F) (V := tv) (L := tl) e (wget k mt)).
  Proof.
    pose proof (@mrel_get _ _ lrel k mt lrel_ext m Hm) as G. destruct (wget k mt) as [x|]; cbn [aopt].
    - destruct G as (r & E & R). eapply asim_ext; [apply (sim_ret lrel r x R)|]. intros i. now rewrite E.
    - apply S_fail. intros i. now rewrite G.
  Qed.
  Lemma all_sim (w : pid -> wmap rv) wt init (Hw : wrel w wt) :
    match fold_right (fun i o => match wget i wt, o with Some v, Some l => Some (v :: l) | _, _ => None end) (Some []) init with
    | Some vs => exists r, (forall i, fold_right (fun k o => match wget k (w i), o with Some v, Some l => Some (v :: l) | _, _ => None end) (Some []) init = Some (r i)) /\ pvec rel r vs
    | None => forall i, fold_right (fun k o => match wget k (w i), o with Some v, Some l => Some (v :: l) | _, _ => None end) (Some []) init = None
    end.
  Proof.
    induction init as [|k init IH]; cbn [fold_right].
    - exists (fun _ => []). split; [reflexivity|apply pvec_nil; reflexivity].
    - pose proof (get_ k w wt Hw) as G. destruct (wget k wt) as [x|].
      + destruct G as (r & E & R). destruct (fold_right _ (Some []) init) as [vs|].
        * destruct IH as (rs & Es & Rs). exists (fun i => r i :: rs i). split; [intros i; now rewrite E, Es|]. eapply pvec_cons; [reflexivity|exact R|exact Rs].
        * intros i. now rewrite E, IH.
      + intros i. now rewrite G.
  Qed.
  Lemma init_sim s st b init : srel s st -> asim srel (fun i => solve_memory_init_block (F := F) (s i) b init) (solve_memory_init_block (F := F) st b init).
  Proof.
    intros [Hw Hm]. unfold solve_memory_init_block. pose proof (@mrel_get _ _ lrel b _ lrel_ext _ Hm) as G. destruct (wget b (a_mem st)) as [x|].
    - destruct G as (r & E & _). apply S_fail. intros i. now rewrite E.
    - pose proof (all_sim _ _ init Hw) as A. destruct (fold_right _ (Some []) init) as [vs|].
      + destruct A as (r & E & R). cbn [aopt abind].
        eapply S_init with (l := r) (k := fun i t => ARet (mkA (a_w (s i)) (wput b t (a_mem (s i))))); [intros i; now rewrite G, E|exact R|].
        intros t u Ht. apply (sim_ret srel (fun i => mkA (a_w (s i)) (wput b (t i) (a_mem (s i))))). split; [exact Hw|]. cbn [a_mem]. apply mrel_put; assumption.
      + cbn [aopt abind]. apply S_fail. intros i. now rewrite G, A.
  Qed.
  Lemma memop_sim s st b write index value : srel s st ->
    asim srel (fun i => solve_memory_op (F := F) (s i) b write index value) (solve_memory_op (F := F) st b write index value).
  Proof.
    intros [Hw Hm]. unfold solve_memory_op. eapply asim_bind; [apply (value_sim (fun i => a_w (s i))); exact Hw|]. intros x a Hx. cbv beta. destruct write.
    - eapply (asim_bind (q := fun i => witness_to_value (a_w (s i)) value)); [apply (value_sim (fun i => a_w (s i))); exact Hw|]. intros y c Hy. cbv beta.
      eapply (asim_bind (q := fun i => aopt _ (wget b (a_mem (s i))))); [apply (block_sim _ (fun i => a_mem (s i))); exact Hm|]. intros t u Ht. cbv beta.
      eapply S_write with (x := x) (y := y) (u := t) (k := fun i t => ARet (mkA (a_w (s i)) (wput b t (a_mem (s i))))); [reflexivity|exact Hx|exact Hy|exact Ht|].
      intros t' u' Ht'. apply (sim_ret srel (fun i => mkA (a_w (s i)) (wput b (t' i) (a_mem (s i))))). split; [exact Hw|]. cbn [a_mem]. apply mrel_put; assumption.
    - eapply (asim_bind (q := fun i => aopt _ (wget b (a_mem (s i))))); [apply (block_sim _ (fun i => a_mem (s i))); exact Hm|]. intros t u Ht. cbv beta.
      eapply S_read with (x := x) (u := t) (k := fun i v => ARet (mkA (wput value v (a_w (s i))) (a_mem (s i)))); [reflexivity|exact Hx|exact Ht|].
      intros y c Hy. apply (sim_ret srel (fun i => mkA (wput value (y i) (a_w (s i))) (a_mem (s i)))). split; [|exact Hm]. cbn [a_w]. apply mrel_put; assumption.
  Qed.

  (** black boxes *)
  Lemma input_sim w wt x (Hw : wrel w wt) :
    asim rel (fun i => input_to_value (L := pp) (@RPub F) (w i) x) (input_to_value (L := tl) (@Pub F) wt x).
  Proof. destruct x as [k|c]; cbn [input_to_value]; [apply value_sim; exact Hw|apply (sim_ret rel (fun _ => RPub c)), pub_rel]. Qed.
  Lemma insert_sim w wt k r v (Hw : wrel w wt) : rel r v ->
    asim wrel (fun i => insert_value (L := pp) (@rpub F) k (r i) (w i)) (insert_value (L := tl) (@tpub F) k v wt).
  Proof.
    intros Hr. unfold insert_value. pose proof (get_ k w wt Hw) as G. pose proof (rpub_rel _ _ Hr) as Pr.
    assert (Put : asim wrel (fun i => ARet (F := F) (V := rv) (L := pp) (wput k (r i) (w i))) (ARet (L := tl) (wput k v wt))) by (apply (sim_ret wrel (fun i => wput k (r i) (w i))); apply mrel_put; assumption).
    destruct (wget k wt) as [x|].
    - destruct G as (rx & E & Rx). pose proof (rpub_rel _ _ Rx) as Px.
      eapply asim_ext with (q := fun i => match tpub x, tpub v with Some a, Some b => if feqb a b then ARet (wput k (r i) (w i)) else AFail (Eyre "UnsatisfiedConstraint") | _, _ => ARet (wput k (r i) (w i)) end);
        [|intros i; now rewrite E, Px, Pr].
      destruct (tpub x) as [a|], (tpub v) as [b|]; try exact Put. destruct (feqb a b); [exact Put|apply S_fail; reflexivity].
    - eapply asim_ext; [exact Put|]. intros i. now rewrite G.
  Qed.
  Definition urel (a : pid -> unit) (b : unit) : Prop := True.
  Lemma check_sim e r v bits : rel r v -> asim urel (fun i => check_bits (L := pp) (@rpub F) e (r i) bits) (check_bits (L := tl) (@tpub F) e v bits).
  Proof.
    intros Hr. unfold check_bits. pose proof (rpub_rel _ _ Hr) as P.
    eapply asim_ext with (q := fun i => match tpub v with Some x => if (num_bits x <=? bits)%nat then ARet tt else AFail e | None => ARet tt end); [|intros i; now rewrite P].
    destruct (tpub v) as [x|]; [destruct (num_bits x <=? bits)%nat|]; try (apply (sim_ret urel (fun _ => tt)); exact I). apply S_fail. reflexivity.
  Qed.
  Lemma logic_sim is_and w wt x y bits out (Hw : wrel w wt) :
    asim wrel (fun i => solve_logic (L := pp) (@RPub F) (@rpub F) is_and (w i) x y bits out) (solve_logic (L := tl) (@Pub F) (@tpub F) is_and wt x y bits out).
  Proof.
    unfold solve_logic. eapply asim_bind; [apply input_sim; exact Hw|]. intros a u Ha. cbv beta.
    eapply (asim_bind (q := fun i => input_to_value _ _ y)); [apply input_sim; exact Hw|]. intros b v Hb. cbv beta.
    eapply (asim_bind (q := fun i => check_bits _ _ (a i) bits)); [apply check_sim; exact Ha|]. intros _ _ _. cbv beta.
    eapply (asim_bind (q := fun i => check_bits _ _ (b i) bits)); [apply check_sim; exact Hb|]. intros _ _ _. cbv beta.
    eapply (sim_op wrel (fun i => BitA is_and (a i) (b i) bits)); [eapply R_bit; [reflexivity|exact Ha|exact Hb]|]. intros r z Hr.
    apply insert_sim; assumption.
  Qed.

  (** calls *)
  Lemma eval_all_sim w wt l (Hw : wrel w wt) :
    asim (pvec rel) (fun i => eval_all (L := pp) (@RPub F) (w i) l) (eval_all (L := tl) (@Pub F) wt l).
  Proof.
    induction l as [|e l IH]; cbn [eval_all]; [apply (sim_ret (pvec rel) (fun _ => [])), pvec_nil; reflexivity|].
    eapply asim_bind; [apply evaluate_sim; exact Hw|]. intros a v Ha. cbv beta.
    eapply (asim_bind (q := fun i => eval_all _ (w i) l)); [exact IH|]. intros b u Hb. cbv beta.
    apply (sim_ret (pvec rel) (fun i => a i :: b i)). eapply pvec_cons; [reflexivity|exact Ha|exact Hb].
  Qed.
  Lemma calldata_sim w wt l (Hw : wrel w wt) :
    asim (pvec rel) (fun i => calldata (L := pp) (@RPub F) (w i) l) (calldata (L := tl) (@Pub F) wt l).
  Proof.
    induction l as [|[es|] l IH]; cbn [calldata]; [apply (sim_ret (pvec rel) (fun _ => [])), pvec_nil; reflexivity| |apply S_fail; reflexivity].
    eapply asim_bind; [apply eval_all_sim; exact Hw|]. intros a v Ha. cbv beta.
    eapply (asim_bind (q := fun i => calldata _ (w i) l)); [exact IH|]. intros b u Hb. cbv beta.
    apply (sim_ret (pvec rel) (fun i => a i ++ b i)). apply pvec_app; assumption.
  Qed.
  Lemma fill_sim outs : forall res rt w wt, pvec rel res rt -> wrel w wt ->
    asim wrel (fun i => fill_output (F := F) (L := pp) (res i) outs (w i)) (fill_output (F := F) (L := tl) rt outs wt).
  Proof.
    induction outs as [|k outs IH]; intros res rt w wt Hr Hw.
    - replace (fill_output (F := F) (L := tl) rt [] wt) with (ARet (F := F) (V := tv) (L := tl) wt) by (now destruct rt).
      eapply asim_ext; [apply (sim_ret wrel w wt Hw)|]. intros i. now destruct (res i).
    - destruct rt as [|v rt].
      + apply S_fail. intros i. now rewrite (pvec_nil_inv Hr).
      + destruct (pvec_cons_inv Hr) as (h & q & E & Hh & Hq). cbn [fill_output].
        eapply asim_ext; [apply (IH q rt (fun i => wput k (h i) (w i))); [exact Hq|apply mrel_put; assumption]|]. intros i. now rewrite E.
  Qed.
  Lemma mask_all_sim c ct : rel c ct -> forall zt xt z x, pvec rel x xt -> pvec rel z zt ->
    asim (pvec rel) (fun i => mask_all (F := F) (L := pp) (c i) (List.combine (x i) (z i))) (mask_all (F := F) (L := tl) ct (List.combine xt zt)).
  Proof.
    intros Hc. induction zt as [|v zt IH]; intros xt z x Hx Hz.
    - eapply asim_ext with (q := fun _ => ARet []); [destruct xt; apply (sim_ret (pvec rel) (fun _ => [])), pvec_nil; reflexivity|].
      intros i. rewrite (pvec_nil_inv Hz). now destruct (x i).
    - destruct xt as [|a xt].
      + eapply asim_ext with (q := fun _ => ARet []); [apply (sim_ret (pvec rel) (fun _ => [])), pvec_nil; reflexivity|].
        intros i. now rewrite (pvec_nil_inv Hx).
      + destruct (pvec_cons_inv Hx) as (h & q & E & Hh & Hq). destruct (pvec_cons_inv Hz) as (h' & q' & E' & Hh' & Hq').
        cbn [List.combine mask_all].
        eapply asim_ext with (q := fun i => v <~ aop1 (CmuxA (c i) (h i) (h' i)); vs <~ mask_all (c i) (List.combine (q i) (q' i)); ARet (v :: vs)); [|intros i; now rewrite E, E'].
        eapply sim_op; [eapply R_cmux; [reflexivity|exact Hc|exact Hh|exact Hh']|]. intros r u Hr. cbv beta.
        eapply (asim_bind (q := fun i => mask_all (c i) (List.combine (q i) (q' i)))); [apply IH; assumption|]. intros b y Hb. cbv beta.
        apply (sim_ret (pvec rel) (fun i => r i :: b i)). eapply pvec_cons; [reflexivity|exact Hr|exact Hb].
  Qed.
  Lemma brillig_sim w wt id inputs outs predicate (Hw : wrel w wt) :
    asim wrel (fun i => brillig_call (L := pp) (@RPub F) (@rpub F) (w i) id inputs outs predicate) (brillig_call (L := tl) (@Pub F) (@tpub F) wt id inputs outs predicate).
  Proof.
    unfold brillig_call. cbv zeta. eapply asim_bind; [apply evaluate_sim; exact Hw|]. intros c ct Hc. cbv beta. pose proof (rpub_rel _ _ Hc) as P.
    set (is := fun x => match tpub ct with Some y => feqb y x | None => false end).
    change (match tpub ct with Some y => feqb y 0 | None => false end) with (is 0).
    change (match tpub ct with Some y => feqb y rone | None => false end) with (is rone).
    eapply asim_ext with (q := fun i => if is 0 then fill_output (map (fun _ => RPub 0) outs) outs (w i)
      else args <~ calldata (@RPub F) (w i) inputs;
        ABrillig id args (fun res => res <~ (if is rone then ARet res else mask_brillig_result (c i) res); fill_output res outs (w i))).
    2:{ intros i. unfold is. now rewrite P. }
    destruct (is 0).
    - apply (fill_sim outs (fun _ => map (fun _ => RPub 0) outs)); [|exact Hw]. clear. induction outs as [|k outs IH]; cbn [map]; [apply pvec_nil; reflexivity|].
      eapply pvec_cons with (h := fun _ => RPub 0); [reflexivity|apply pub_rel|exact IH].
    - eapply asim_bind; [apply calldata_sim; exact Hw|]. intros args at_ Hargs. cbv beta.
      eapply S_brillig with (l := args) (k := fun i res => res <~ (if is rone then ARet res else mask_brillig_result (c i) res); fill_output res outs (w i)); [reflexivity|exact Hargs|].
      intros r v Hr. cbv beta.
      eapply (asim_bind (q := fun i => if is rone then ARet (r i) else mask_brillig_result (c i) (r i)) (R := pvec rel)).
      + destruct (is rone); [apply sim_ret; exact Hr|]. unfold mask_brillig_result.
        eapply S_zeros with (k := fun i zs => mask_all (c i) (List.combine (r i) zs)); [intros i; rewrite (pvec_len i Hr); reflexivity|].
        intros z zt Hz. apply mask_all_sim; assumption.
      + intros a u Ha. apply fill_sim; assumption.
  Qed.

  (** the solver *)
  Lemma guard_sim w wt xs (Hw : wrel w wt) : asim urel (fun i => guard (F := F) (L := pp) (w i) xs) (guard (F := F) (L := tl) wt xs).
  Proof.
    unfold guard. assert (E : forall i, forallb (assigned (w i)) xs = forallb (assigned (F := F) wt) xs).
    { intros i. induction xs as [|[k|c] xs IH]; cbn [forallb assigned]; [reflexivity| |exact IH]. rewrite IH. f_equal.
      pose proof (get_ k w wt Hw) as G. destruct (wget k wt) as [x|]; [destruct G as (r & E & _); now rewrite E|now rewrite G]. }
    eapply asim_ext with (q := fun i => if forallb (assigned (F := F) wt) xs then ARet tt else AFail (Eyre "missing assignment for witness")); [|intros i; now rewrite E].
    destruct (forallb _ xs); [apply (sim_ret urel (fun _ => tt)); exact I|apply S_fail; reflexivity].
  Qed.
  Lemma step_sim s st o : srel s st -> asim srel (fun i => step (@RPub F) (@rpub F) (s i) o) (step (@Pub F) (@tpub F) st o).
  Proof.
    intros Hs. pose proof Hs as [Hw Hm].
    assert (Keep : forall q qt, asim wrel q qt -> asim srel (fun i => w <~ q i; ARet (mkA w (a_mem (s i)))) (w <~ qt; ARet (mkA w (a_mem st)))).
    { intros q qt Hq. eapply asim_bind; [exact Hq|]. intros a v Ha. apply (sim_ret srel (fun i => mkA (a i) (a_mem (s i)))). split; [exact Ha|exact Hm]. }
    destruct o as [e|b init|b write index value|x bits|is_and x y bits out|id inputs outs predicate|xs|]; cbn [step].
    - apply Keep, (assert_sim (fun i => a_w (s i))); exact Hw.
    - apply init_sim; exact Hs.
    - apply memop_sim; exact Hs.
    - eapply asim_bind; [apply (guard_sim (fun i => a_w (s i))); exact Hw|]. intros _ _ _. cbv beta.
      eapply (asim_bind (R := urel) (q := fun i => solve_range _ _ (a_w (s i)) x bits)); [|intros _ _ _; apply sim_ret; exact Hs].
      unfold solve_range. eapply asim_bind; [apply (input_sim (fun i => a_w (s i))); exact Hw|]. intros a v Ha. apply check_sim; exact Ha.
    - eapply asim_bind; [apply (guard_sim (fun i => a_w (s i))); exact Hw|]. intros _ _ _. cbv beta.
      apply Keep, (logic_sim is_and (fun i => a_w (s i))); exact Hw.
    - apply Keep, (brillig_sim (fun i => a_w (s i))); exact Hw.
    - eapply asim_bind; [apply (guard_sim (fun i => a_w (s i))); exact Hw|]. intros _ _ _. apply sim_ret; exact Hs.
    - apply S_fail. reflexivity.
  Qed.
  Lemma steps_sim l : forall s st, srel s st -> asim srel (fun i => steps (@RPub F) (@rpub F) (s i) l) (steps (@Pub F) (@tpub F) st l).
  Proof.
    induction l as [|o l IH]; intros s st Hs; cbn [steps]; [apply sim_ret; exact Hs|].
    eapply asim_bind; [apply step_sim; exact Hs|]. intros a v Ha. apply IH; exact Ha.
  Qed.
  Lemma shv_rel (r : pid -> rv) v : rel r v -> forall i, shv (@rpub F) (r i) = shv (@tpub F) v.
  Proof. intros Hr i. unfold shv. now rewrite (rpub_rel _ _ Hr). Qed.
  Lemma present_sim e (w : pid -> wmap rv) wt k (Hw : wrel w wt) :
    asim rel (fun i => aopt (F := F) (L := pp) e (wget k (w i))) (aopt (F := F) (L := tl) e (wget k wt)).
  Proof.
    pose proof (get_ k w wt Hw) as G. destruct (wget k wt) as [x|]; cbn [aopt].
    - destruct G as (r & E & R). eapply asim_ext; [apply (sim_ret rel r x R)|]. intros i. now rewrite E.
    - apply S_fail. intros i. now rewrite G.
  Qed.
  Lemma gather_sim w wt rets (Hw : wrel w wt) : asim (pvec rel) (fun i => gather (F := F) (L := pp) (@rpub F) (w i) rets) (gather (F := F) (L := tl) (@tpub F) wt rets).
  Proof.
    induction rets as [|k rets IH]; cbn [gather]; [apply (sim_ret (pvec rel) (fun _ => [])), pvec_nil; reflexivity|].
    eapply asim_bind; [apply present_sim; exact Hw|]. intros a v Ha. cbv beta.
    eapply (asim_bind (q := fun i => gather _ (w i) rets)); [exact IH|]. intros b u Hb. cbv beta.
    apply (sim_ret (pvec rel) (fun i => if shv (@rpub F) (a i) then a i :: b i else b i)).
    eapply pvec_ext with (l := fun i => if shv (@tpub F) v then a i :: b i else b i); [intros i; now rewrite (shv_rel _ _ Ha)|].
    destruct (shv (@tpub F) v); [|exact Hb]. eapply pvec_cons; [reflexivity|exact Ha|exact Hb].
  Qed.
  Definition outrel (a : pid -> wmap rv * list rv) (t : wmap tv * list tv) : Prop := wrel (fun i => fst (a i)) (fst t) /\ pvec rel (fun i => snd (a i)) (snd t).
  Lemma take_sim rets : forall w wt xs res rt, wrel w wt -> pvec rel res rt ->
    asim outrel (fun i => take_opened (L := pp) (@RPub F) (@rpub F) (w i) rets xs (res i)) (take_opened (L := tl) (@Pub F) (@tpub F) wt rets xs rt).
  Proof.
    induction rets as [|k rets IH]; intros w wt xs res rt Hw Hr; cbn [take_opened]; [apply (sim_ret outrel (fun i => (w i, res i))); split; assumption|].
    assert (Snoc : forall a v, rel a v -> pvec rel (fun i => res i ++ [a i]) (rt ++ [v])).
    { intros a v Ha. apply pvec_app; [exact Hr|]. eapply pvec_cons with (t := fun _ => []); [reflexivity|exact Ha|apply pvec_nil; reflexivity]. }
    eapply asim_bind; [apply present_sim; exact Hw|]. intros a v Ha. cbv beta.
    eapply asim_ext with (q := fun i => if shv (@tpub F) v then match xs with [] => AFail (Panic "opened value should be present") | x :: opened => take_opened (@RPub F) (@rpub F) (wput k (RPub x) (w i)) rets opened (res i ++ [RPub x]) end
       else take_opened (@RPub F) (@rpub F) (w i) rets xs (res i ++ [a i])); [|intros i; now rewrite (shv_rel _ _ Ha)].
    destruct (shv (@tpub F) v).
    - destruct xs as [|x xs]; [apply S_fail; reflexivity|].
      apply (IH (fun i => wput k (RPub x) (w i)) _ xs (fun i => res i ++ [RPub x])); [apply (mrel_put rel k (fun _ => RPub x)); [apply pub_rel|exact Hw]|].
      apply (Snoc (fun _ => RPub x)), pub_rel.
    - apply (IH w wt xs (fun i => res i ++ [a i])); [exact Hw|apply Snoc; exact Ha].
  Qed.
  Theorem solve_sim w wt ops rets : wrel w wt -> asim outrel (fun i => solve (L := pp) (@RPub F) (@rpub F) (w i) ops rets) (solve (L := tl) (@Pub F) (@tpub F) wt ops rets).
  Proof.
    intros Hw. unfold solve. eapply asim_bind; [apply (steps_sim ops (fun i => mkA (w i) [])); split; [exact Hw|apply pvec_nil; reflexivity]|].
    intros s st [Hs _]. cbv beta. unfold open_results. eapply asim_bind; [apply (gather_sim (fun i => a_w (s i))); exact Hs|]. intros vs vt Hv. cbv beta.
    eapply S_open with (l := vs) (k := fun i xs => take_opened (@RPub F) (@rpub F) (a_w (s i)) (rev rets) (rev xs) []); [reflexivity|exact Hv|].
    intros xs x Ex. cbv beta. eapply asim_ext; [apply (take_sim (rev rets) (fun i => a_w (s i)) _ (rev x) (fun _ => []) []); [exact Hs|apply pvec_nil; reflexivity]|].
    intros i. now rewrite Ex.
  Qed.
End Sim.
