(** * The coBrillig VM on clear values, release builds: programs that have a result are run to it *)
From Coq Require Import String List Arith NArith Lia Bool.
From Verif Require Import Proc Alg Rep3Net Rep3 Conv VmDriver Brillig BrilligSpec BrilligSound BrilligTag BrilligParties.
Import ListNotations.
Set Implicit Arguments.
Local Open Scope grp_scope.
Local Open Scope string_scope.
Local Open Scope list_scope.
Arguments mget : simpl never. Arguments mset : simpl never. Arguments mslice : simpl never.

Section Progress.
  Context {F : Type} `{FU : FieldUint F}.
  Variables (P M : Type) (trng : nat -> bty -> bval F).
  Notation D := (plain_driver P M false trng).
  Notation V := (bval F).
  Notation bs := (bst (dV D) (dSt D)).
  Notation zs := (sst (F := F)).
  Notation HD := (plain_sound P M false trng).
  Notation srel := (srel D eq).

  Lemma plain_bin_total o (a b z : V) : sbin o a b = Some z -> plain_bin false o a b = Done z.
  Proof.
    intros E. assert (X : exists r, plain_bin false o a b = Done r).
    { destruct a as [x|l s], b as [y|r s']; cbn [plain_bin sbin] in *; try discriminate.
      - destruct o; cbn [plain_field sfield] in *; eauto.
        + destruct (feqb y 0); [discriminate|eauto].
        + rewrite to_uint_zero_feqb. destruct (feqb y 0); [discriminate|eauto].
      - destruct (isz_eqb s s'); [|discriminate]. unfold sint in E. destruct (_ && _)%bool; [|discriminate].
        destruct o; cbn [plain_int]; unfold wrapping_op; rewrite ?andb_false_r; try discriminate; destruct s; try (destruct (r =? 0)%N); eauto; discriminate. }
    destruct X as (r & Er). rewrite Er. f_equal. exact (plain_bin_spec _ _ _ _ Er E).
  Qed.
  Lemma usize_total (x : V) n : susize x = Some n -> plain_usize x = Done n /\ (N.of_nat n < 2 ^ 32)%N.
  Proof.
    destruct x as [x|m []]; cbn [susize plain_usize]; try discriminate. intros E. change (2 ^ N.of_nat (ibits U32))%N with (2 ^ 32)%N in E.
    destruct (N.ltb_spec m (2 ^ 32)) as [L|L]; [|discriminate]. injection E as <-. split; [|rewrite N2Nat.id; exact L].
    destruct (N.ltb_spec m (2 ^ 64)) as [L'|L']; [reflexivity|]. exfalso. assert (2 ^ 32 < 2 ^ 64)%N by reflexivity. lia.
  Qed.
  Lemma char_total (x : V) n : schar x = Some n -> plain_char x = Done n.
  Proof.
    destruct x as [x|m []]; cbn [schar plain_char]; try discriminate. intros E. change (2 ^ N.of_nat (ibits U8))%N with 256%N in E.
    destruct (m <? 256)%N; congruence.
  Qed.
  Lemma radix_total (a r : V) n b l : sradix a r n b = Some l -> plain_radix a r n b = Done l.
  Proof.
    intros E. assert (X : exists w, plain_radix a r n b = Done w).
    { destruct a as [x|], r as [|r []]; cbn [sradix plain_radix] in *; try discriminate. destruct (r =? 0)%N; [discriminate|]. cbn. eauto. }
    destruct X as (w & Ew). rewrite Ew. f_equal. exact (plain_radix_spec _ _ _ _ Ew E).
  Qed.

  Lemma resolve_total (s : bs) (z : zs) a n : srel s z -> sresolve z a = Some n -> resolve D s a = Done n.
  Proof.
    intros R. destruct a; cbn [resolve sresolve]; [congruence|]. rewrite <- (r_mem R 0%nat). cbn [d_usize d_default plain_driver].
    destruct (susize _) as [m|] eqn:E; [|discriminate]. destruct (usize_total _ E) as [-> _]. cbn. congruence.
  Qed.
  Lemma read_total (s : bs) (z : zs) a x : srel s z -> sread z a = Some x -> read D s a = Done x.
  Proof.
    intros R. unfold read, sread. destruct (sresolve z a) as [n|] eqn:E; [|discriminate]. cbn [sb]. rewrite (resolve_total _ R E).
    cbn [omap obind]. intros X. injection X as <-. f_equal. exact (r_mem R n).
  Qed.
  Lemma usizes_total (s : bs) (z : zs) a n : srel s z -> sref z a = Some n -> read_usize D s a = Done n /\ read_ref D s a = Done n.
  Proof.
    intros R. unfold sref. destruct (sread z a) as [x|] eqn:E; [|discriminate]. cbn [sb]. intros X. destruct (usize_total _ X) as [U L].
    unfold read_ref, read_usize. rewrite (read_total _ R E). cbn [obind]. cbn [d_usize plain_driver]. rewrite U. cbn [obind].
    apply N.ltb_lt in L. rewrite L. auto.
  Qed.
  Lemma int_total (s : bs) (z : zs) a x t y : srel s z -> sread z a = Some x -> sint_of x t = Some y -> read_int D s a t = Done x.
  Proof.
    intros R E X. unfold read_int. rewrite (read_total _ R E). cbn [obind d_int plain_driver]. destruct x as [x|n u]; cbn [sint_of plain_int_of] in *; [discriminate|].
    destruct (isz_eqb u t); [reflexivity|discriminate].
  Qed.
  Lemma field_total (s : bs) (z : zs) a x y : srel s z -> sread z a = Some x -> sfield_of x = Some y -> read_field D s a = Done x.
  Proof.
    intros R E X. unfold read_field. rewrite (read_total _ R E). cbn [obind d_field plain_driver]. destruct x; [reflexivity|discriminate].
  Qed.
  Lemma write_total (s : bs) (z : zs) a v x z' : srel s z -> swrite z a x = Some z' -> exists s', write D s a v = Done s' /\ b_ctx s' = b_ctx s.
  Proof.
    intros R. unfold swrite, write. destruct (sresolve z a) as [n|] eqn:E; [|discriminate]. rewrite (resolve_total _ R E). cbn [omap obind]. eauto.
  Qed.
  Lemma writes_total (s : bs) (z : zs) a v x z' : srel s z -> swrites z a x = Some z' -> exists s', write_slice D s a v = Done s' /\ b_ctx s' = b_ctx s.
  Proof.
    intros R. unfold swrites, write_slice. destruct (sresolve z a) as [n|] eqn:E; [|discriminate]. rewrite (resolve_total _ R E). cbn [omap obind]. eauto.
  Qed.
  Lemma array_total (s : bs) (z : zs) h xs : srel s z -> sarray z h = Some xs -> read_heap_array D s h = Done xs.
  Proof.
    intros R. unfold sarray, read_heap_array. destruct (snd h =? 0)%nat; [intros E0; injection E0 as <-; reflexivity|]. destruct (sref z (fst h)) as [n|] eqn:E; [|discriminate].
    destruct (usizes_total _ R E) as [_ ->]. cbn [sb omap obind]. intros X. injection X as <-. f_equal. apply map_ext. intros o. exact (r_mem R _).
  Qed.
  Lemma chars_total (xs : list V) : forall k, schars xs = Some k -> chars D xs = Done k.
  Proof.
    induction xs as [|x xs IH]; intros k; cbn [schars chars]; [intros E0; injection E0 as <-; reflexivity|]. destruct (schar x) as [c|] eqn:E; [|discriminate]. cbn [sb].
    cbn [d_char plain_driver]. rewrite (char_total _ E). destruct (schars xs) as [cs|]; [|discriminate]. cbn [sb obind]. rewrite (IH _ eq_refl). intros E2. injection E2 as <-. reflexivity.
  Qed.

  (** the errors there are: returning memory that was never written, ill-formed or repeated stores *)
  Definition may_err (e : err) : Prop :=
    In e [Panic "range end index out of range"; Eyre "Do not expect return types"; Eyre "We expect two inputs"; Eyre "duplicate entry for shared state id"].
  Definition goes (ps : prog P M bs) : Prop :=
    match pure_run ps with Done s => b_ctx s = None | Failed e => may_err e end.
  Lemma next_goes (s s' : bs) : b_ctx s = None -> b_ctx s' = b_ctx s -> goes (leaf (M := M) (P := P) (Done (next D s'))).
  Proof. intros A B. exact (eq_trans B A). Qed.
  Ltac inv E := repeat match type of E with
    | sb ?o _ = Some _ => let x := fresh "x" in let Ex := fresh "Ex" in destruct o as [x|] eqn:Ex; [cbn [sb] in E|discriminate E]
    end.
  Lemma write_next_goes (s : bs) (z : zs) d v x z' : srel s z -> b_ctx s = None -> swrite z d x = Some z' -> goes (write_next D s d v).
  Proof.
    intros R C E. unfold write_next. destruct (write_total d (fst v) x (drv_rel (snd v) R) E) as (s' & -> & Cs). cbn [omap obind].
    exact (eq_trans Cs C).
  Qed.
  Lemma guarded_plain (s : bs) o a b : b_ctx s = None -> guarded D s o a b = d_bin D (b_drv s) o a b.
  Proof. intros C. unfold guarded. rewrite C. reflexivity. Qed.
  Lemma step_goes (s : bs) (z : zs) o z' : srel s z -> b_ctx s = None -> sstep z o = Some z' -> goes (step D s o).
  Proof.
    intros R C E. destruct o; cbn [step sstep] in *; try discriminate E.
    - inv E. unfold bin_field. rewrite (field_total _ R Ex Ex0), (field_total _ R Ex1 Ex2). cbn [leaf bind].
      rewrite guarded_plain by exact C. cbn [d_bin plain_driver].
      apply sfield_of_eq in Ex0, Ex2. subst. rewrite (plain_bin_total _ _ _ Ex3). cbn [omap obind leaf bind].
      eapply write_next_goes; eassumption.
    - inv E. unfold bin_int. rewrite (int_total _ _ R Ex Ex0), (int_total _ _ R Ex1 Ex2). cbn [leaf bind]. rewrite Ex3.
      rewrite guarded_plain by exact C. cbn [d_bin plain_driver].
      apply sint_of_eq in Ex0, Ex2. subst. rewrite (plain_bin_total _ _ _ Ex4). cbn [omap obind leaf bind].
      eapply write_next_goes; eassumption.
    - inv E. rewrite (int_total _ _ R Ex Ex0). cbn [obind d_not plain_driver]. apply sint_of_eq in Ex0. subst.
      rewrite (plain_not_spec _ Ex1). cbn [obind]. destruct (write_total d x1 x1 R E) as (s' & -> & Cs). cbn [omap obind]. eapply next_goes; eassumption.
    - inv E. rewrite (read_total _ R Ex). cbn [leaf bind d_cast plain_driver]. eapply write_next_goes; eassumption.
    - exact C.
    - inv E. destruct (_ <=? _)%nat eqn:L in E; [|discriminate]. unfold calldata_copy.
      destruct (usizes_total _ R Ex) as [-> _], (usizes_total _ R Ex0) as [-> _]. cbn [obind]. unfold slice.
      rewrite (Forall2_len (r_cd R)), L. cbn [obind]. 
      destruct (writes_total d (firstn x (skipn x0 (b_cd s))) _ R E) as (s' & -> & Cs). cbn [omap obind]. eapply next_goes; eassumption.
    - exact C.
    - inv E. destruct (write_total d (d_public D x t) x0 R E) as (s' & -> & Cs). cbn [omap obind]. eapply next_goes; eassumption.
    - inv E. destruct (usizes_total _ R Ex) as [_ ->]. cbn [obind].
      destruct (write_total (Direct x0) (d_public D x t) x1 R E) as (s' & -> & Cs). cbn [omap obind]. eapply next_goes; eassumption.
    - rewrite (r_stack R). destruct (s_stack z); [discriminate|]. exact C.
    - destruct f; try discriminate.
      + destruct inputs as [|[nm|] [|[dt|] [|? ?]]]; try discriminate. inv E. cbn [foreign]. unfold taceo_store. rewrite C.
        destruct (negb _); [cbn; right; left; reflexivity|]. destruct (negb _); [cbn; right; right; left; reflexivity|].
        rewrite (array_total _ R Ex). cbn [obind]. rewrite (chars_total _ Ex0). cbn [obind]. rewrite (array_total _ R Ex1). cbn [obind].
        destruct (existsb _ _); [cbn; do 3 right; left; reflexivity|]. reflexivity.
      + exact C.
    - inv E. rewrite (read_total _ R Ex). cbn [obind]. destruct (write_total d x x R E) as (s' & -> & Cs). cbn [omap obind]. eapply next_goes; eassumption.
    - inv E. destruct (usizes_total _ R Ex) as [_ ->]. cbn [obind].
      rewrite (read_total (Direct x) R eq_refl). cbn [obind].
      destruct (write_total d (s_mem z x) (s_mem z x) R E) as (s' & -> & Cs). cbn [omap obind]. eapply next_goes; eassumption.
    - inv E. destruct (usizes_total _ R Ex) as [_ ->]. cbn [obind]. rewrite (read_total _ R Ex0). cbn [obind].
      destruct (write_total (Direct x) x0 x0 R E) as (s' & -> & Cs). cbn [omap obind]. eapply next_goes; eassumption.
    - inv E. unfold to_radix. destruct x as [x|]; [|destruct x0 as [|? []]; discriminate]. destruct x0 as [|r []]; try discriminate.
      rewrite (field_total _ R Ex eq_refl). rewrite (@int_total s z radix (BI r U32) U32 (BI r U32) R Ex0 eq_refl). cbn [leaf bind].
      destruct (usizes_total _ R Ex1) as [-> _]. cbn [leaf bind].
      assert (B : read_int D s bits U1 = Done x2).
      { destruct x2 as [?|m []]; [discriminate| |destruct m as [|[]]; discriminate..]. exact (@int_total s z bits _ U1 _ R Ex2 eq_refl). }
      rewrite B. cbn [obind d_bool plain_driver]. rewrite (plain_bool_spec _ Ex3). cbn [leaf bind d_radix plain_driver].
      rewrite (radix_total _ _ _ _ Ex4). cbn [omap obind leaf bind].
      destruct (usizes_total _ R Ex5) as [_ ->]. cbn [obind fst snd].
      destruct (writes_total (Direct x5) x4 x4 (drv_rel (b_drv s) R) E) as (s' & -> & Cs). cbn [omap obind]. eapply next_goes; [exact C|exact Cs].
  Qed.

  Lemma run_goes code fuel : forall (s : bs) (z : zs) q, srel s z -> b_ctx s = None -> srun code fuel z = Some q ->
    match pure_run (run_inner D code fuel s) with Done _ => True | Failed e => may_err e end.
  Proof.
    induction fuel as [|fuel IH]; intros s z q R C; cbn [srun run_inner]; [discriminate|].
    rewrite (r_ip R). destruct (nth_error code (s_ip z)) as [o|]; [|discriminate]. cbn [sb].
    assert (Gen : sb (sstep z o) (srun code fuel) = Some q ->
      match pure_run (s' <- step D s o ;; run_inner D code fuel s') with Done _ => True | Failed e => may_err e end).
    { destruct (sstep z o) as [z'|] eqn:E; [|discriminate]. cbn [sb]. intros Hq. pose proof (step_goes _ R C E) as G. unfold goes in G.
      destruct (step D s o) as [s'|e|? ? ?|? ?] eqn:Es; cbn [bind pure_run] in *; [|exact G|exact G|exact G].
      refine (IH s' z' q (step_rel HD _ R _ E) G Hq). rewrite Es. reflexivity. }
    destruct o; try exact Gen.
    - clear Gen. destruct (sread z c) as [v|] eqn:Ev; [|discriminate]. cbn [sb]. destruct (sbool v) as [b|] eqn:Eb; [|discriminate]. cbn [sb]. intros Hq.
      rewrite (read_total _ R Ev). cbn [leaf bind d_bool plain_driver]. rewrite (plain_bool_spec _ Eb). destruct b.
      + exact (IH _ _ q (ip_rel loc R) C Hq).
      + eapply IH; [|exact C|exact Hq]. unfold next. rewrite (r_ip R). exact (ip_rel _ R).
    - intros _. exact I.
    - intros E. unfold sstop in E. destruct (sref z size) as [n|] eqn:En; [|discriminate]. cbn [sb] in E. unfold stop.
      destruct (usizes_total _ R En) as [-> _]. cbn [obind]. destruct (Nat.eqb_spec n 0) as [->|Nn].
      + reflexivity.
      + destruct (sref z pointer) as [m|] eqn:Em; [|discriminate]. destruct n; [congruence|]. cbn [Nat.ltb Nat.leb].
        destruct (usizes_total _ R Em) as [_ ->]. cbn [obind]. unfold slice. destruct (_ <=? _)%nat; [exact I|left; reflexivity].
  Qed.
  Theorem plain_progress code fuel calldata q : srun code fuel (sinit calldata) = Some q ->
    match plain_run P M false trng code fuel calldata with
    | Done r => match q with SOk vs ps => r = BSuccess vs ps | STrap => r = BTrap end
    | Failed e => may_err e
    end.
  Proof.
    intros Eq. destruct (plain_run P M false trng code fuel calldata) as [r|e] eqn:E.
    - eapply plain_run_ok; eassumption.
    - unfold plain_run, brun in E. set (s0 := mkB _ _ _ _ _ _ _) in E.
      assert (R0 : srel s0 (sinit calldata)).
      { subst s0. constructor; cbn; try reflexivity; try discriminate.
        - intros a. destruct a; reflexivity.
        - constructor.
        - apply Forall2_refl_eq. }
      pose proof (run_goes code fuel R0 eq_refl Eq) as G. destruct (pure_run (run_inner _ _ _ _)) as [w|e'] eqn:W; [discriminate|].
      cbn in E. injection E as <-. exact G.
  Qed.
End Progress.
