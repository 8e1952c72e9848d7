(** * The co-noir ACVM with the coBrillig VM: three parties *)
From Coq Require Import String List Arith NArith Lia Bool Permutation.
From Verif Require Import Proc Alg Rep3Net Rep3 Rep3Spec Rep3Proofs Rep3Wp Uint Binary Conv Lut Garble Circuits Garbled Yao Ring2k Ring2kWp
  VmDriver VmIdeal VmDriverWp Acvm AcvmSpec AcvmRun AcvmSim AcvmRef AcvmMay AcvmParties
  Brillig BrilligSpec BrilligSound BrilligTag BrilligDriver BrilligOps BrilligSim BrilligParties AcvmBrillig AcvmBrilligWp.
Import ListNotations.
Set Implicit Arguments.
Local Open Scope grp_scope.
Local Open Scope list_scope.

Section Call.
  Context {F : Type} `{FU : FieldUint F} {S Seed M : Type} (dbg : bool) (W : nat) (du : nat -> S -> N * S).
  Context {DF : Draw S F} {DS : Draw S Seed} {SD : Seeded S Seed}.
  Context {EN : Enc M (list N)} {ENN : Enc M (list (N * N))}
          {EL : Enc M (list (list N))} {ELL : Enc M (list (list N * list N))} {EF : Enc M (list F)}.
  Context {RT : isz -> Type} {RC : forall s, CRing (RT s)} {RI : forall s, @IntRing (RT s) (RC s)}
          {RD : forall s, Draw S (RT s)} {RE : forall s, Enc M (list (RT s))}.
  Context (HK : forall s, rK (RT s) = ibits s).
  Context (cap : nat) (cap_pos : (1 <= cap)%nat) (width : (mbs F + 2 <= W)%nat).
  Context (Y : yao (F := F) (S := S) (M := M) (RT := RT)) (trng : pid -> nat -> bty -> bval F) (HY : yao_ok Y cap).
  Context (order : pid -> list (list N) -> list nat) (order_perm : forall i ks, Permutation (order i ks) (seq 0 (length ks))).
  Context (code : nat -> list (bopc F)) (fuel : nat) (strict : bool).
  Notation call := (brillig_call (Seed := Seed) dbg W du order Y trng code fuel).
  Notation tcall := (tcall (M := M) dbg code fuel strict).
  Notation tagcd := (map (fun x : tv F => match x with Pub c => (false, BF c) | Sh c => (true, BF c) end)).

  Lemma calldata_held (l : pid -> list (rv F)) lt : pvec rel l lt -> cd_held (fun i => map (to_brillig (RT := RT)) (l i)) (tagcd lt).
  Proof.
    revert l. induction lt as [|x lt IH]; intros l Hl; cbn [map].
    - apply pvec_nil. intros i. rewrite (pvec_nil_inv Hl i). reflexivity.
    - destruct (pvec_cons_inv Hl) as (h & q & Eh & Hh & Hq).
      apply pvec_cons with (h := fun i => to_brillig (h i)) (t := fun i => map (to_brillig (RT := RT)) (q i)); [intros i; rewrite Eh; reflexivity| |exact (IH q Hq)].
      destruct x as [c|c]; cbn in *.
      + intros i. rewrite Hh. reflexivity.
      + destruct Hh as (s & Es & Hs). exists (fun i => SF (s i)). split; [exists s; auto|]. intros i. rewrite Es. reflexivity.
  Qed.
  Lemma tparse_undef (z : list (tb F)) : forall e, tparse z = Failed e -> e = undef.
  Proof.
    induction z as [|t z IH]; intros e1; cbn [tparse]; [discriminate|].
    destruct (tparse1 t) as [x|e2] eqn:E2; cbn [obind].
    - destruct (tparse z) as [l|e3]; cbn; [discriminate|]. intros E. injection E as <-. exact (IH e3 eq_refl).
    - intros E. injection E as <-. destruct t as [y|[y|m s]|]; cbn [tparse1] in E2; try discriminate; [destruct (_ <? _)%N; [discriminate|]|]; congruence.
  Qed.
  Lemma tpss_undef (ps : list (list N * list (tb F))) : forall e, tpss ps = Failed e -> e = undef.
  Proof.
    induction ps as [|[k z] ps IH]; intros e; cbn [tpss]; [discriminate|]. destruct (tparse z) as [x|e1] eqn:E1; cbn [obind].
    - destruct (tpss ps) as [l|e2]; cbn; [discriminate|]. intros E. injection E as <-. exact (IH e2 eq_refl).
    - intros E. injection E as <-. exact (tparse_undef _ E1).
  Qed.
  Theorem call_wpo n l lt d : synced2 d -> pvec rel l lt -> tcall n lt <> Failed undef ->
    wpo cap (fun i => call n i (d i) (l i)) (drv_post (pvec rel) (negb strict) (tcall n lt)).
  Proof.
    intros Hd Hl U. unfold brillig_call. apply wpo_merr. destruct (fork_ok (Seed := Seed) (proj1 Hd)) as [Hf Hr].
    apply wpo_seq. eapply wpo_mono; [|refine (@parties_tagged F _ _ S Seed M dbg strict W du DF DS SD EN ENN EF RT RC RI RD RE HK Y trng cap cap_pos width HY (code n) fuel _ _
      (fun i => (fst (fork (Seed := Seed) (fst (d i))), 0%nat)) (@calldata_held l lt Hl) Hf _)].
    2: { intros C. apply U. unfold AcvmBrillig.tcall. rewrite C. reflexivity. }
    intros o Ho. unfold AcvmBrillig.tcall in *. destruct (tagged_run dbg strict (code n) fuel (tagcd lt)) as [q|e].
    2: { apply wpo_leaf_fail; [exact Ho|]. intros o' Ho'. exists vm_failed. intros i. destruct (Ho' i) as [e' ->]. reflexivity. }
    destruct Ho as [(r & Er & Hq & _)|[Es Hf']].
    2: { apply wpo_leaf_fail; [exact Hf'|]. intros o' Ho'. rewrite Es. cbn [negb].
         assert (G : exists e, forall i, oerr vm_failed (o' i) = Failed e) by (exists vm_failed; intros i; destruct (Ho' i) as [e' ->]; reflexivity).
         match goal with |- drv_post _ _ ?x _ => destruct x end; [right; split; [reflexivity|exact G]|exact G]. }
    eapply wpo_ext; [intros i; rewrite Er; cbn [leaf bind]; reflexivity|]. destruct q as [ws ps|].
    - destruct Hq as (w & pp & Hw & Hp & Ew).
      destruct (negb (quiet_pss ps || _)) eqn:Eq; [congruence|]. destruct (list_eq_dec _ _ _) as [ND|]; cbn [negb] in *; [|congruence].
      destruct (tpss ps) as [lp|e] eqn:Ep; cbn [obind] in *.
      2: { exfalso. apply U. rewrite (@tpss_undef ps e Ep). reflexivity. }
      destruct (tparse ws) as [xs|e] eqn:Ex.
      2: { exfalso. apply U. rewrite (@tparse_undef ws e Ex). reflexivity. }
      assert (ND' : NoDup (map fst ps)) by (rewrite <- ND; apply NoDup_nodup).
      eapply wpo_ext; [intros i; rewrite Ew; reflexivity|]. apply wpo_bind.
      eapply wp_mono; [|apply (@store_wp F _ _ S M dbg W du DF EN ENN EF RT RC RI RD HK cap cap_pos width order order_perm pp ps lp
        (fun i => snd (fork (Seed := Seed) (fst (d i)))) (fun _ => []) (prel_pvec Hp) Ep ND')]; [| |reflexivity|exact Hr].
      + intros s [_ Hs]. apply wpo_bind. eapply wp_mono; [|exact (parse_wp dbg du HK cap_pos width Hw Ex Hs)].
        intros v [V1 V2]. apply wp_wpo, wp_ret. cbn [oerr]. left. exists (fun i => (fst (v i), (snd (v i), snd (d i)))). split; [reflexivity|].
        split; [exact V1|split; [exact V2|exact (proj2 Hd)]].
      + apply negb_false_iff in Eq. apply orb_prop in Eq as [Eq|Eq]; [right; exact Eq|left]. apply Nat.leb_le in Eq. intros i.
        assert (G : forall j, order j (map fst ps) = seq 0 (length (map fst ps))); [|rewrite !G; reflexivity].
        intros j. pose proof (order_perm j (map fst ps)) as P. rewrite map_length in *. destruct ps as [|e1 [|e2 ps]]; cbn in Eq; [| |lia]; cbn [length seq] in *.
        * apply Permutation_nil. apply Permutation_sym. exact P.
        * apply Permutation_length_1_inv. apply Permutation_sym. exact P.
    - cbn in Hq.
      eapply wpo_ext with (qs := fun i => Fail vm_failed); [intros i; specialize (Hq i); destruct (r i) as [q0 s0]; cbn in Hq; subst q0; reflexivity|]. apply wpo_fail. exists vm_failed. intros i. reflexivity.
  Qed.
  (** the machine on tagged values computes the function on clear values *)
  Lemma tparse_vals z : forall vs xs, Forall2 tev z vs -> tparse z = Done xs -> map into_field vs = map tval xs.
  Proof.
    induction z as [|t z IH]; intros vs xs Hz E; inversion Hz as [|? x ? vs' Ht Hz']; subst; cbn [tparse] in E; [injection E as <-; reflexivity|].
    destruct (tparse1 t) as [y|] eqn:E1; [|discriminate]. destruct (tparse z) as [l|] eqn:E2; [|discriminate]. injection E as <-.
    cbn [map]. rewrite (IH vs' l Hz' eq_refl). f_equal. destruct Ht as [->| ->]; cbn [tparse1] in E1.
    - injection E1 as <-. reflexivity.
    - destruct x as [c|m s]; [injection E1 as <-; reflexivity|]. destruct (N.ltb_spec m (fu_p (F := F))) as [L|]; [|discriminate]. injection E1 as <-.
      cbn. rewrite N.mod_small by exact L. reflexivity.
  Qed.
  Theorem tcall_clear fuel' n lt xs v : tcall n lt = Done xs -> clear_call code fuel' n (map tval lt) = Done v -> v = map tval xs.
  Proof.
    unfold AcvmBrillig.tcall, clear_call. intros E Ev. destruct (srun (code n) fuel' (sinit (map BF (map tval lt)))) as [[vs ps|]|] eqn:Eq; try discriminate.
    injection Ev as <-. assert (Ec : map snd (tagcd lt) = map BF (map tval lt)) by (rewrite !map_map; apply map_ext; intros []; reflexivity). rewrite <- Ec in Eq.
    destruct (tagged_run dbg strict (code n) fuel (tagcd lt)) as [q|e] eqn:Et; [|discriminate].
    unfold tagged_run, brun in Et. cbn [b_mem b_drv b_ctx b_pss b_stack binit] in Et. set (s0 := mkB [] _ _ _ _ _ _) in Et.
    destruct (pure_run (run_inner (tagged_driver pid M dbg strict) (code n) fuel s0)) as [w|] eqn:Ew; [|discriminate]. injection Et as Et.
    assert (R0 : srel (tagged_driver pid M dbg strict) tev s0 (sinit (map snd (tagcd lt)))).
    { subst s0. constructor; cbn; try reflexivity; try discriminate.
      - intros a. left. destruct a; reflexivity.
      - constructor.
      - exact (cd_tev (tagcd lt)). }
    pose proof (run_sound (tagged_sound pid M dbg strict) (code n) fuel fuel' R0 Ew Eq) as K. cbn in K. rewrite Et in K.
    destruct K as (ws & ps' & -> & E2 & _). destruct (negb _); [discriminate|]. destruct (negb _); [discriminate|].
    destruct (tpss ps'); [|discriminate]. cbn [obind] in E. exact (@tparse_vals ws vs xs E2 E).
  Qed.
End Call.

(** ** Runs of the solver *)
Section Solve.
  Context {F : Type} `{FU : FieldUint F} {S M : Type} (dbg : bool) (W : nat) (du dw : nat -> S -> N * S) {DF : Draw S F}.
  Context {Seed : Type} {SS : Seeded S Seed} {DS : Draw S Seed}.
  Context {EN : Enc M (list N)} {ENN : Enc M (list (N * N))}
          {EL : Enc M (list (list N))} {ELL : Enc M (list (list N * list N))} {EF : Enc M (list F)}.
  Variables (hash : N -> N -> N) (gtweak : N -> N) (otweak : N -> bool -> N).
  Context {Dg : Type} {ED : Enc M (list Dg)}.
  Variables (digest : list N -> Dg) (dg_eqb : Dg -> Dg -> bool).
  Variables (draw_label draw_delta : S -> N * S).
  Variable rgof : pid -> rst S -> S.
  Variable t : a2b_type.
  Hypothesis dg_eqb_spec : forall x y, dg_eqb x y = true <-> x = y.
  Context (cap : nat) (cap_pos : (1 <= cap)%nat).
  Hypothesis p_odd : N.odd (fu_p (F := F)) = true.
  Hypothesis width : (mbs F + 2 <= W)%nat.
  Hypothesis delta_odd : forall s, color (fst (draw_delta s)) = true.
  Hypothesis hash_sep : forall d z n, color d = true -> hash z (otweak n false) <> hash (N.lxor z d) (otweak n false).
  Hypothesis dw_lt : forall K s, (fst (dw K s) < 2 ^ N.of_nat K)%N.
  Context {RT : isz -> Type} {RC : forall s, CRing (RT s)} {RI : forall s, @IntRing (RT s) (RC s)}
          {RD : forall s, Draw S (RT s)} {RE : forall s, Enc M (list (RT s))}.
  Context (HK : forall s, rK (RT s) = ibits s).
  Context (Y : yao (F := F) (S := S) (M := M) (RT := RT)) (trng : pid -> nat -> bty -> bval F) (HY : yao_ok Y cap).
  Context (order : pid -> list (list N) -> list nat) (order_perm : forall i ks, Permutation (order i ks) (seq 0 (length ks))).
  Context (code : nat -> list (bopc F)) (fuel fuel' : nat) (strict : bool).
  Notation call := (brillig_call (Seed := Seed) dbg W du order Y trng code fuel).
  Notation tcall := (tcall (M := M) dbg code fuel strict).
  Notation run := (rep3_solve (M := M) (Seed := Seed) dbg W du dw hash gtweak otweak digest dg_eqb draw_label draw_delta rgof t call).

  Lemma ideal_more {A} (tb tb' : nat -> list (tv F) -> outcome (list (tv F))) (q : acp F (tv F) (tl F) A) r :
    (forall id l v, tb id l = Done v -> tb' id l = Done v) -> run_ideal_ac tb q = Done r -> run_ideal_ac tb' q = Done r.
  Proof.
    intros Hb. induction q as [x|e|o k IH|l k IH|x u k IH|x y u k IH|l k IH|n k IH|n l k IH]; cbn [run_ideal_ac]; intros E; auto.
    - destruct (ideal_aop o); cbn [obind] in *; [auto|discriminate].
    - destruct (ideal_read x u); cbn [obind] in *; [auto|discriminate].
    - destruct (ideal_write x y u); cbn [obind] in *; [auto|discriminate].
    - destruct (tb n l) as [v|] eqn:Eb; [|discriminate]. rewrite (Hb n l v Eb). cbn [obind] in *. auto.
  Qed.
  Theorem solve_calls w wt ops rets rt r d : synced2 d -> mrel rel w wt -> above 0 wt -> narrow ops -> NoDup rets ->
    run_ideal_ac tcall (solve (@Pub F) (@tpub F) wt ops rets) = Done rt -> plain_solve (clear_call code fuel') (wvals wt) ops rets = Done r ->
    wpo cap (fun i => run (w i) ops rets i (d i)) (fun o => AcvmParties.returned r o \/
      (run_may_ac tcall (fun _ _ => negb strict) (solve (@Pub F) (@tpub F) wt ops rets) = true /\ failed o)).
  Proof.
    intros Hd Rw Hwt Hn ND Ei E. pose (tb' := fun id l => match tcall id l with Done v => Done v | Failed _ => Failed vm_failed end).
    assert (Hwr : wref wt (wvals wt)) by (intros k; apply wvals_get).
    pose proof (solve_sim w wt ops rets Rw) as Sim. set (qt := solve (L := tl F) (@Pub F) (@tpub F) wt ops rets) in *.
    assert (Href : forall id l, oref false false (fun vt v => v = map tval vt) (tb' id l) (clear_call code fuel' id (map tval l))).
    { intros id l v Ev. subst tb'. cbv beta. destruct (tcall id l) as [vt|e] eqn:Et.
      - left. exists vt. split; [reflexivity|]. exact (@tcall_clear F _ _ M dbg code fuel strict fuel' id l vt v Et Ev).
      - right. exists vm_failed. split; [reflexivity|]. right. split; [reflexivity|discriminate]. }
    assert (Hdef : forall id l, tb' id l <> Failed undef) by (intros id l; subst tb'; cbv beta; destruct (tcall id l); discriminate).
    assert (Ei' : run_ideal_ac tb' qt = Done rt) by (apply (@ideal_more _ tcall tb' qt rt); [intros id l v Ev; subst tb'; cbv beta; rewrite Ev; reflexivity|exact Ei]).
    destruct (solve_ref (clear_call code fuel') tb' false false Href Hdef wt (wvals wt) ops rets Hwr Hn ltac:(discriminate) ltac:(discriminate) ND r E) as [(rt' & Ert & [O1 O2])|(e & Ee & B)].
    2: { change (run_ideal_ac tb' qt = Failed e) in Ee. rewrite Ei' in Ee. discriminate. }
    change (run_ideal_ac tb' qt = Done rt') in Ert. rewrite Ei' in Ert. injection Ert as <-.
    eapply wpo_mono; [|refine (run_ac_wpo dbg du dw hash gtweak otweak digest dg_eqb draw_label draw_delta rgof t dg_eqb_spec cap_pos p_odd width delta_odd hash_sep dw_lt tcall (fun _ _ => negb strict) call _ Sim Hd _); [|rewrite Ei; discriminate]].
    - cbv beta. intros o Ho. rewrite Ei in Ho. cbn [drv_post] in Ho. destruct Ho as [(v & Ev & [R1 R2] & Hsync)|(Em & e & Ee)].
      + left. exists v. split; [exact Ev|]. split; [|split; [|exact Hsync]].
        * assert (Eq : wvals (fst rt) = fst r).
          { apply above_ext with (lo := 0%nat).
            - apply wvals_above. exact (aall_ideal tcall (fun r => above 0 (fst r)) qt rt (solve_sorted (@Pub F) (@tpub F) wt ops rets Hwt) Ei).
            - exact (aall_plain (clear_call code fuel') (fun r => above 0 (fst r)) _ r (solve_sorted (fun x => x) (@Some F) (wvals wt) ops rets (wvals_above wt 0 Hwt)) E).
            - intros k. rewrite wvals_get. symmetry. apply O1. }
          rewrite <- Eq. apply tags_held. exact R1.
        * intros i. rewrite O2 in R2. clear -R2. revert R2. generalize (snd r). intros l. change (snd (fst (v i))) with ((fun i => snd (fst (v i))) i). generalize (fun i => snd (fst (v i))). intros z. revert z.
          induction l as [|x l IH]; intros z Hz; [exact (pvec_nil_inv Hz i)|]. cbn [map] in *. destruct (pvec_cons_inv Hz) as (h & q & Eh & Hh & Hq).
          rewrite Eh, (IH q Hq). f_equal. exact (Hh i).
      + right. split; [exact Em|]. exists e. exact Ee.
    - intros n l lt d' Hd' Hl U. exact (call_wpo dbg du HK cap_pos width trng HY order order_perm code fuel strict n Hd' Hl U).
  Qed.
End Solve.
