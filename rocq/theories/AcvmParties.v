(** * The co-noir ACVM: three parties return the witness of the plain driver *)
From Coq Require Import String List Arith NArith Lia Bool.
From Verif Require Import Proc Alg Rep3Net Rep3 Rep3Spec Rep3Proofs Rep3Wp Uint Binary BinaryWp Conv ConvWp Ring2k Lut LutWp LutProv
  Garble Circuits Yao VmDriver VmIdeal VmDriverWp VmRun Acvm AcvmSpec AcvmRun AcvmSim AcvmRef AcvmMay.
Import ListNotations.
Local Open Scope grp_scope.
Local Open Scope string_scope.
Local Open Scope list_scope.
Local Open Scope acvm_scope.

(** ** Results of every run of a program, whatever the driver returns *)
Section All.
  Context {F V L : Type}.
  Fixpoint aall {A} (P : A -> Prop) (q : acp F V L A) : Prop :=
    match q with
    | ARet a => P a
    | AFail _ => True
    | AOp _ k | ARead _ _ k => forall v, aall P (k v)
    | AInit _ k | AWrite _ _ _ k => forall v, aall P (k v)
    | AOpen _ k => forall v, aall P (k v)
    | AZeros _ k | ABrillig _ _ k => forall v, aall P (k v)
    end.
  Lemma aall_bind {A B} (P : A -> Prop) (Q : B -> Prop) (q : acp F V L A) f : aall P q -> (forall a, P a -> aall Q (f a)) -> aall Q (abind q f).
  Proof. induction q as [x|e|o k IH|l k IH|x t k IH|x y t k IH|l k IH|n k IH|n l k IH]; cbn [abind aall]; intros H K; auto. Qed.
  Lemma aall_any {A} (P : A -> Prop) (q : acp F V L A) : (forall a, P a) -> aall P q.
  Proof. intros K. induction q; cbn [aall]; auto. Qed.
  Lemma aall_bind_any {A B} (Q : B -> Prop) (q : acp F V L A) f : (forall a, aall Q (f a)) -> aall Q (abind q f).
  Proof. intros K. apply aall_bind with (P := fun _ => True); [now apply aall_any|auto]. Qed.
End All.
Section Sorted.
  Context {F V L : Type} `{FU : FieldUint F}.
  Variables (pubv : F -> V) (gpub : V -> option F).
  Notation sorted := (above (V := V) 0).
  Lemma sorted_put k v w : sorted w -> sorted (wput k v w).
  Proof. apply above_wput. lia. Qed.
  Lemma fill_sorted res : forall outs w, sorted w -> aall sorted (fill_output (F := F) (L := L) res outs w).
  Proof. induction res as [|v res IH]; intros [|k outs] w Hw; cbn [fill_output aall]; auto. apply IH, sorted_put, Hw. Qed.
  Lemma step_sorted s o : sorted (a_w s) -> aall (fun s => sorted (a_w s)) (step (F := F) (L := L) pubv gpub s o).
  Proof.
    intros Hs. assert (Keep : forall q : acp F V L (wmap V), aall sorted q -> aall (fun s => sorted (a_w s)) (w <~ q; ARet (mkA w (a_mem s)))).
    { intros q Hq. eapply aall_bind; [exact Hq|]. intros a Ha. exact Ha. }
    destruct o as [e|b init|b write index value|x bits|is_and x y bits out|id inputs outs predicate|xs|]; cbn [step].
    - apply Keep. unfold solve_assert_zero. apply aall_bind_any. intros [[|[q i] [|u l]] c]; cbn [fst snd aall]; [exact Hs| |exact I].
      apply aall_bind_any. intros v. apply sorted_put, Hs.
    - unfold solve_memory_init_block. destruct (wget b (a_mem s)); [exact I|]. apply aall_bind_any. intros vs t. exact Hs.
    - unfold solve_memory_op. apply aall_bind_any. intros x. destruct write.
      + apply aall_bind_any. intros v. apply aall_bind_any. intros t t'. exact Hs.
      + apply aall_bind_any. intros t v. apply sorted_put, Hs.
    - apply aall_bind_any. intros _. apply aall_bind_any. intros _. exact Hs.
    - apply aall_bind_any. intros _. apply Keep. unfold solve_logic. do 2 (apply aall_bind_any; intros ?). do 2 (apply aall_bind_any; intros _). apply aall_bind_any. intros v.
      unfold insert_value. destruct (wget out (a_w s)) as [u|]; [destruct (gpub u), (gpub v); try destruct (feqb _ _)|]; cbn [aall]; try exact I; apply sorted_put, Hs.
    - apply Keep. unfold brillig_call. cbv zeta. apply aall_bind_any. intros p. destruct (match gpub p with Some y => feqb y 0 | None => false end); [apply fill_sorted, Hs|].
      apply aall_bind_any. intros args res. apply aall_bind_any. intros r. apply fill_sorted, Hs.
    - apply aall_bind_any. intros _. exact Hs.
    - exact I.
  Qed.
  Lemma steps_sorted ops : forall s, sorted (a_w s) -> aall (fun s => sorted (a_w s)) (steps (F := F) (L := L) pubv gpub s ops).
  Proof.
    induction ops as [|o ops IH]; intros s Hs; cbn [steps]; [exact Hs|]. eapply aall_bind; [apply step_sorted; exact Hs|]. exact IH.
  Qed.
  Lemma take_sorted rets : forall w xs res, sorted w -> aall (fun r => sorted (fst r)) (take_opened (L := L) pubv gpub w rets xs res).
  Proof.
    induction rets as [|k rets IH]; intros w xs res Hw; cbn [take_opened]; [exact Hw|]. apply aall_bind_any. intros v.
    destruct (shv gpub v); [destruct xs; [exact I|]|]; apply IH; [apply sorted_put|]; exact Hw.
  Qed.
  Lemma solve_sorted w ops rets : sorted w -> aall (fun r => sorted (fst r)) (solve (L := L) pubv gpub w ops rets).
  Proof.
    intros Hw. unfold solve. eapply aall_bind; [apply (steps_sorted ops (mkA w [])); exact Hw|]. intros s Hs. unfold open_results. apply aall_bind_any.
    intros vs xs. apply take_sorted. exact Hs.
  Qed.
End Sorted.
Section SortedRuns.
  Context {F : Type} `{FU : FieldUint F}.
  Lemma aall_plain brillig {A} P (q : acp F F (list F) A) r : aall P q -> run_plain_ac brillig q = Done r -> P r.
  Proof.
    induction q as [x|e|o k IH|l k IH|x t k IH|x y t k IH|l k IH|n k IH|n l k IH]; cbn [aall run_plain_ac]; intros HH E.
    - apply done_eq in E. now subst.
    - discriminate.
    - destruct (plain_aop o) as [v|]; [|discriminate]. exact (IH v (HH v) E).
    - exact (IH l (HH l) E).
    - destruct (plain_get x t) as [v|]; [|discriminate]. exact (IH v (HH v) E).
    - destruct (plain_write x y t) as [v|]; [|discriminate]. exact (IH v (HH v) E).
    - exact (IH l (HH l) E).
    - exact (IH _ (HH _) E).
    - destruct (brillig n l) as [v|]; [|discriminate]. exact (IH v (HH v) E).
  Qed.
  Lemma aall_ideal tbrillig {A} P (q : acp F (tv F) (tl F) A) r : aall P q -> run_ideal_ac tbrillig q = Done r -> P r.
  Proof.
    induction q as [x|e|o k IH|l k IH|x t k IH|x y t k IH|l k IH|n k IH|n l k IH]; cbn [aall run_ideal_ac]; intros HH E.
    - apply done_eq in E. now subst.
    - discriminate.
    - destruct (ideal_aop o) as [v|]; [|discriminate]. exact (IH v (HH v) E).
    - exact (IH _ (HH _) E).
    - destruct (ideal_read x t) as [v|]; [|discriminate]. exact (IH v (HH v) E).
    - destruct (ideal_write x y t) as [v|]; [|discriminate]. exact (IH v (HH v) E).
    - exact (IH _ (HH _) E).
    - exact (IH _ (HH _) E).
    - destruct (tbrillig n l) as [v|]; [|discriminate]. exact (IH v (HH v) E).
  Qed.
  Lemma above_ext {V} (m m' : wmap V) : forall lo, above lo m -> above lo m' -> (forall k, wget k m = wget k m') -> m = m'.
  Proof.
    revert m'. induction m as [|[k v] m IH]; intros [|[k' v'] m'] lo Hm Hm' E; [reflexivity| | |].
    - specialize (E k'). cbn in E. rewrite Nat.eqb_refl in E. discriminate.
    - specialize (E k). cbn in E. rewrite Nat.eqb_refl in E. discriminate.
    - destruct Hm as [A1 A2], Hm' as [B1 B2].
      assert (k = k').
      { pose proof (E k) as Ek. pose proof (E k') as Ek'. cbn [wget] in *. rewrite Nat.eqb_refl in *.
        destruct (Nat.eqb_spec k k'); [assumption|]. destruct (Nat.eqb_spec k' k); [congruence|]. exfalso.
        destruct (Nat.lt_ge_cases k k').
        - rewrite (@above_none _ _ _ k B2) in Ek by lia. discriminate.
        - rewrite (@above_none _ _ _ k' A2) in Ek' by lia. discriminate. }
      subst k'. pose proof (E k) as Ek. cbn in Ek. rewrite Nat.eqb_refl in Ek. injection Ek as ->. f_equal.
      apply (IH m' _ A2 B2). intros j. specialize (E j). cbn in E. destruct (Nat.eqb_spec j k) as [C|C]; [|exact E]. rewrite C.
      rewrite (@above_none _ _ _ k A2), (@above_none _ _ _ k B2) by lia. reflexivity.
  Qed.
  Definition wvals (w : wmap (tv F)) : wmap F := map (fun e => (fst e, tval (snd e))) w.
  Lemma wvals_get w k : wget k (wvals w) = option_map tval (wget k w).
  Proof. induction w as [|[j v] w IH]; cbn [wvals map wget fst snd]; [reflexivity|]. destruct (k =? j)%nat; [reflexivity|exact IH]. Qed.
  Lemma wvals_above w : forall lo, above lo w -> above lo (wvals w).
  Proof. induction w as [|[j v] w IH]; cbn [wvals map above fst snd]; intros lo Hw; [exact I|]. destruct Hw as [H1 H2]. split; [exact H1|apply IH, H2]. Qed.

  (** values held by the parties *)
  Definition map_held (w : pid -> wmap (rv F)) (m : wmap F) : Prop := mrel holds w m.
  Lemma held_tags w m : map_held w m -> exists wt, mrel rel w wt /\ wvals wt = m.
  Proof.
    revert w. induction m as [|[k v] m IH]; intros w Hw.
    - exists []. split; [|reflexivity]. apply pvec_nil. intros i. exact (pvec_nil_inv Hw i).
    - destruct (pvec_cons_inv Hw) as (h & q & E & [Hk Hv] & Hq). destruct (IH q Hq) as (wt & R & Ew). cbn [fst snd] in *.
      assert (T : exists a, rel (fun i => snd (h i)) a /\ tval a = v) by exact Hv.
      destruct T as (a & Ra & Ea). exists ((k, a) :: wt). split.
      + eapply pvec_cons; [exact E|split; [exact Hk|exact Ra]|exact R].
      + cbn [wvals map fst snd]. now rewrite Ea; f_equal.
  Qed.
  Lemma tags_held w wt : mrel rel w wt -> map_held w (wvals wt).
  Proof.
    revert w. induction wt as [|[k v] wt IH]; intros w Hw.
    - apply pvec_nil. intros i. exact (pvec_nil_inv Hw i).
    - destruct (pvec_cons_inv Hw) as (h & q & E & [Hk Hv] & Hq). cbn [wvals map fst snd] in *.
      eapply pvec_cons; [exact E| |exact (IH q Hq)]. split; [exact Hk|]. exists v. split; [exact Hv|reflexivity].
  Qed.
  (** lib.rs:430-458: the parties hold the witness vector *)
  Lemma held_vec m : forall w lo, map_held w m -> pvec holds (fun i => to_vec_from (RPub 0) lo (w i)) (to_vec_from 0 lo m).
  Proof.
    induction m as [|[k v] m IH]; intros w lo Hw.
    - apply pvec_nil. intros i. now rewrite (pvec_nil_inv Hw i).
    - destruct (pvec_cons_inv Hw) as (h & q & E & [Hk Hv] & Hq). cbn [fst snd to_vec_from] in *.
      eapply pvec_ext with (l := fun i => repeat (RPub 0) (k - lo) ++ snd (h i) :: to_vec_from (RPub 0) (Nat.max lo k + 1) (q i)).
      { intros i. rewrite E, <- (Hk i). now destruct (h i). }
      apply pvec_app.
      + clear. induction (k - lo)%nat as [|n IHn]; cbn [repeat]; [apply pvec_nil; reflexivity|]. eapply pvec_cons with (h := fun _ => RPub 0); [reflexivity|exists (Pub 0); split; [intros i; reflexivity|reflexivity]|exact IHn].
      + eapply pvec_cons; [reflexivity|exact Hv|apply IH; exact Hq].
  Qed.
  Lemma vec_held w m : map_held w m -> pvec holds (fun i => to_vec (RPub 0) (w i)) (to_vec 0 m).
  Proof. apply held_vec. Qed.
End SortedRuns.

Lemma linear_ext {F} `{FU : FieldUint F} (ops : list (aopc F)) : forall kn kn' : nat -> bool, (forall i, kn i = kn' i) -> linear kn ops -> linear kn' ops.
Proof.
  induction ops as [|o ops IH]; intros kn kn' Ek Hl; [exact I|]. destruct Hl as [H1 H2]. split.
  - destruct o; try exact I. intros c i j Hi Nc. rewrite <- !Ek. exact (H1 c i j Hi Nc).
  - apply (IH (learn kn (gives o))); [|exact H2]. intros i. unfold learn. now rewrite Ek.
Qed.
Section Parties.
  Context {F : Type} `{FU : FieldUint F} {S M : Type} (dbg : bool) (W : nat) (du dw : nat -> S -> N * S) {DF : Draw S F}.
  Context {Seed : Type} {SS : Seeded S Seed} {DS : Draw S Seed}.
  Context {EN : Enc M (list N)} {ENN : Enc M (list (N * N))}
          {EL : Enc M (list (list N))} {ELL : Enc M (list (list N * list N))} {EF : Enc M (list F)}.
  Variables (hash : N -> N -> N) (gtweak : N -> N) (otweak : N -> bool -> N).
  Context {Dg : Type} {ED : Enc M (list Dg)}.
  Variables (digest : list N -> Dg) (dg_eqb : Dg -> Dg -> bool).
  Variables (draw_label draw_delta : S -> N * S).
  Variable rgof : pid -> rst S -> S.
  Variable t : a2b_type.
  Hypothesis dg_eqb_spec : forall x y, dg_eqb x y = true <-> x = y.
  Context (cap : nat) (cap_pos : (1 <= cap)%nat).
  Hypothesis p_odd : N.odd (fu_p (F := F)) = true.
  Hypothesis width : (mbs F + 2 <= W)%nat.
  Hypothesis delta_odd : forall s, color (fst (draw_delta s)) = true.
  Hypothesis hash_sep : forall d z n, color d = true -> hash z (otweak n false) <> hash (N.lxor z d) (otweak n false).
  Hypothesis dw_lt : forall K s, (fst (dw K s) < 2 ^ N.of_nat K)%N.
  Notation prog := (prog pid M).
  Notation dst := (dst (S := S)).
  Variable brillig : nat -> list F -> outcome (list F).
  Variables (tbrillig : nat -> list (tv F) -> outcome (list (tv F))) (bmay : nat -> list (tv F) -> bool).
  Variable brilligp : nat -> pid -> dst -> list (rv F) -> prog (list (rv F) * dst).
  Hypothesis brillig_wpo : forall n l lt d, synced2 d -> pvec rel l lt -> tbrillig n lt <> Failed undef ->
    wpo cap (fun i => brilligp n i (d i) (l i)) (drv_post (pvec rel) (bmay n lt) (tbrillig n lt)).
  Hypothesis brillig_def : forall id l, tbrillig id l <> Failed undef.
  Notation run := (rep3_solve (M := M) (Seed := Seed) dbg W du dw hash gtweak otweak digest dg_eqb draw_label draw_delta rgof t brilligp).

  (** all parties return the witnesses and the outputs of [r] *)
  Definition returned (r : wmap F * list F) (o : pid -> outcome ((wmap (rv F) * list (rv F)) * dst)) : Prop :=
    exists v, (forall i, o i = Done (v i)) /\ map_held (fun i => fst (fst (v i))) (fst r) /\ (forall i, snd (fst (v i)) = map RPub (snd r)) /\
      synced2 (fun i => snd (v i)).
  Definition failed {A} (o : pid -> outcome A) : Prop := exists e, forall i, o i = Failed e.

  Lemma parties_flags strict tables w m ops rets r d : (forall id l, oref strict tables (fun vt v => v = map tval vt) (tbrillig id l) (brillig id (map tval l))) ->
    synced2 d -> map_held w m -> above 0 m -> narrow ops -> (strict = true -> plain_calls ops) -> (tables = true -> sized ops) -> NoDup rets ->
    plain_solve brillig m ops rets = Done r ->
    exists b, wpo cap (fun i => run (w i) ops rets i (d i)) (fun o => returned r o \/ (b = true /\ failed o)) /\
      (strict = true -> tables = true -> (forall id l, bmay id l = false) -> linear (known m) ops -> b = false).
  Proof.
    intros Href Hd Hw Hm Hn Hc Hs ND E. destruct (held_tags w m Hw) as (wt & Rw & Ew).
    assert (Hwr : wref wt m) by (intros k; rewrite <- Ew; apply wvals_get).
    pose proof (solve_sim w wt ops rets Rw) as Sim.
    assert (Hwt : above 0 wt).
    { clear -Hm Ew. rewrite <- Ew in Hm. clear Ew. revert Hm. generalize 0%nat. induction wt as [|[k v] wt IH]; intros lo Hm; [exact I|]. cbn in *. split; [exact (proj1 Hm)|exact (IH _ (proj2 Hm))]. }
    set (qt := solve (L := tl F) (@Pub F) (@tpub F) wt ops rets) in *.
    destruct (solve_ref brillig tbrillig strict tables Href brillig_def wt m ops rets Hwr Hn Hc Hs ND r E) as [(rt & Ert & [O1 O2])|(e & Ee & B)].
    - change (run_ideal_ac tbrillig qt = Done rt) in Ert. exists (run_may_ac tbrillig bmay qt). split.
      + eapply wpo_mono; [|refine (run_ac_wpo dbg du dw hash gtweak otweak digest dg_eqb draw_label draw_delta rgof t dg_eqb_spec cap_pos p_odd width delta_odd hash_sep dw_lt tbrillig bmay brilligp brillig_wpo Sim Hd _); rewrite Ert; discriminate].
        cbv beta. intros o Ho. rewrite Ert in Ho. cbn [drv_post] in Ho. destruct Ho as [(v & Ev & [R1 R2] & Hsync)|(Em & e & Ee)].
        * left. exists v. split; [exact Ev|]. split; [|split; [|exact Hsync]].
          -- assert (Eq : wvals (fst rt) = fst r).
             { apply above_ext with (lo := 0%nat).
               - apply wvals_above. exact (aall_ideal tbrillig (fun r => above 0 (fst r)) qt rt (solve_sorted (@Pub F) (@tpub F) wt ops rets Hwt) Ert).
               - exact (aall_plain brillig (fun r => above 0 (fst r)) _ r (solve_sorted (fun x => x) (@Some F) m ops rets Hm) E).
               - intros k. rewrite wvals_get. symmetry. apply O1. }
             rewrite <- Eq. apply tags_held. exact R1.
          -- intros i. rewrite O2 in R2. clear -R2. revert R2. generalize (snd r). intros l. change (snd (fst (v i))) with ((fun i => snd (fst (v i))) i). generalize (fun i => snd (fst (v i))). intros z. revert z.
             induction l as [|x l IH]; intros z Hz; [exact (pvec_nil_inv Hz i)|]. cbn [map] in *. destruct (pvec_cons_inv Hz) as (h & q & Eh & Hh & Hq).
             rewrite Eh, (IH q Hq). f_equal. exact (Hh i).
        * right. split; [exact Em|]. exists e. exact Ee.
      + intros _ _ Hb Hl. apply (solve_may tbrillig bmay Hb). revert Hl. apply linear_ext. intros i. unfold known. rewrite (Hwr i). now destruct (wget i wt).
    - change (run_ideal_ac tbrillig qt = Failed e) in Ee. exists true. split.
      + assert (U : run_ideal_ac tbrillig qt <> Failed undef).
        { rewrite Ee. intros C. injection C as ->. destruct B as [[_ B]|[_ B]]; [discriminate|contradiction]. }
        eapply wpo_mono; [|exact (run_ac_wpo dbg du dw hash gtweak otweak digest dg_eqb draw_label draw_delta rgof t dg_eqb_spec cap_pos p_odd width delta_odd hash_sep dw_lt tbrillig bmay brilligp brillig_wpo Sim Hd U)].
        cbv beta. intros o Ho. rewrite Ee in Ho. cbn [drv_post] in Ho. right. split; [reflexivity|]. destruct Ho as [e' He]. exists e'. exact He.
      + intros S1 S2 _ _. destruct B as [[B _]|[B _]]; congruence.
  Qed.

  (** all parties return the result of the run on clear values, or all fail *)
  Theorem solve_parties w m ops rets r d : (forall id l, oref false false (fun vt v => v = map tval vt) (tbrillig id l) (brillig id (map tval l))) ->
    synced2 d -> map_held w m -> above 0 m -> narrow ops -> NoDup rets -> plain_solve brillig m ops rets = Done r ->
    wpo cap (fun i => run (w i) ops rets i (d i)) (fun o => returned r o \/ failed o).
  Proof.
    intros H1 H2 H3 H4 H5 H6 H7.
    destruct (@parties_flags false false w m ops rets r d H1 H2 H3 H4 H5 ltac:(discriminate) ltac:(discriminate) H6 H7) as (b & Hb & _).
    eapply wpo_mono; [|exact Hb]. cbv beta. intros o [Ho|[_ Ho]]; [now left|now right].
  Qed.
  (** all parties return the result of the run on clear values *)
  Theorem solve_parties_total w m ops rets r d : (forall id l, oref true true (fun vt v => v = map tval vt) (tbrillig id l) (brillig id (map tval l))) ->
    (forall id l, bmay id l = false) -> synced2 d -> map_held w m -> above 0 m -> narrow ops -> plain_calls ops -> sized ops -> linear (known m) ops ->
    NoDup rets -> plain_solve brillig m ops rets = Done r ->
    wpo cap (fun i => run (w i) ops rets i (d i)) (returned r).
  Proof.
    intros H1 Hm H2 H3 H4 H5 Hc Hs Hl H6 H7.
    destruct (@parties_flags true true w m ops rets r d H1 H2 H3 H4 H5 (fun _ => Hc) (fun _ => Hs) H6 H7) as (b & Hb & Hf).
    rewrite (Hf eq_refl eq_refl Hm Hl) in Hb. eapply wpo_mono; [|exact Hb]. cbv beta. intros o [Ho|[Hc' _]]; [exact Ho|discriminate].
  Qed.
End Parties.
