(** * Completeness of Shplemini (C73)

    Proof; no code of /repo is modelled here. *)
From Coq Require Import String List Arith Lia Bool Ring.
From Verif Require Import Proc Alg NNet Rep3 ShamirPoly Shamir ShamirAlg Univariate Sumcheck SumcheckSpec SumcheckSound Shplemini ShpleminiFold ShpleminiPoly ShpleminiQuot ShpleminiVerify.
From Verif Require Groth16Complete.
Import ListNotations.
Set Implicit Arguments.
Local Open Scope grp_scope.
Local Open Scope list_scope.

Section Complete.
  Context {F : Type} {FF : Fld F} {G : Type} {GG : AbGrp G} {MG : Mod F G}.
  Context {G2 : Type} {GG2 : AbGrp G2} {MG2 : Mod F G2} {GT : Type} {GGT : AbGrp GT} {MGT : Mod F GT}.
  Variable e : G -> G2 -> GT.
  Add Ring FringGC : (@cring_theory F _).
  Infix "*" := rmul : grp_scope.
  Notation "1" := rone : grp_scope.
  Variables (tau : F) (gen : G) (h : G2) (N : nat).
  Notation com p := (smul (peval p tau) gen).

  Lemma commits_ok ps : Forall (fun p => length p <= N) ps -> omapM (commit (srs tau gen N)) ps = Done (map (fun p => com p) ps).
  Proof.
    intros H. apply omapM_ok. intros p Hp. apply commit_ok. rewrite Forall_forall in H. exact (H p Hp).
  Qed.

  Lemma fold_ops_points z bs : forall p, Forall (fun p => z <> p /\ z <> - p) (sq p (length bs)) -> Forall (fun o => z <> op_point o) (fold_ops bs p).
  Proof.
    induction bs as [|b bs IH]; intros p H; [constructor|]. cbn [length sq] in H. apply Forall_cons_iff in H. destruct H as [[Z1 Z2] H].
    constructor; [exact Z1|constructor; [exact Z2|apply IH; exact H]].
  Qed.

  Lemma gemini_ok log_n us fs gs rho r : 2 <= log_n <= length us -> 2 ^ log_n <= N -> r <> 0 ->
    Forall (fun p => length p <= 2 ^ log_n) fs -> Forall (fun p => length p <= 2 ^ log_n) gs -> Forall (fun p => nth 0 p 0 = 0) gs ->
    exists n bs ps pos neg a, length us = S n /\ length bs = n /\ length (firstn n ps) = n /\ firstn n ps = bs /\
      gemini_prove (srs tau gen N) log_n us fs gs rho r = Done (map (fun b => com b) bs, peval neg (- r) :: evals gneg bs (r * r), opening_claims (length us) pos neg ps r) /\
      Forall (fun b => 1 <= length b <= 2 ^ log_n) bs /\ length pos = (2 ^ log_n)%nat /\ length neg = (2 ^ log_n)%nat /\
      (forall x, peval pos x = lin rho 1 (map (fun p => peval p x) fs) + finv r * lin rho (spow rho 1 (length fs)) (map (fun p => peval p x) gs)) /\
      (forall x, peval neg x = lin rho 1 (map (fun p => peval p x) fs) - finv r * lin rho (spow rho 1 (length fs)) (map (fun p => peval p x) gs)) /\
      gchain us (a :: bs) (lin rho 1 (map (mle us) fs ++ map (fun p => mle us (tl p)) gs)) /\ peval a r = peval pos r /\ peval a (- r) = peval neg (- r).
  Proof.
    intros Hl HN Nr Hf Hg H0.
    destruct us as [|u us'] eqn:Eu; [cbn in Hl; lia|]. rewrite <- Eu in *. set (n := length us'). assert (Lu : length us = S n) by (rewrite Eu; reflexivity).
    destruct (@batched_ok _ _ log_n fs gs rho Hf Hg) as (bf & bg & Eb & Lbf & Lbg & HF & HG).
    assert (P1 : (1 <= 2 ^ log_n)%nat) by (apply Nat.neq_0_lt_0, Nat.pow_nonzero; lia).
    unfold gemini_prove. rewrite Eb. destruct bg as [|g0 tg] eqn:Ebg; [cbn in Lbg; lia|]. cbn [shifted obind].
    destruct (@op_add _ _ bf tg) as (a & Ea & La & HA); [cbn in Lbg; lia|]. rewrite Ea. cbn [obind].
    destruct (@compute_folds_ok _ _ log_n us a) as (ps & bs & Ep & Ebs & Lbs & Hc & HB); [exact Hl|lia|]. rewrite Ep. cbn [obind].
    assert (En : (length us - 1)%nat = n) by lia. rewrite En in *. rewrite Ebs, commits_ok; [|eapply Forall_impl; [|exact HB]; cbn; intros; lia]. cbn [obind].
    destruct (@partially_ok _ _ bf (g0 :: tg) r) as (pos & neg & Epn & Lpos & Lneg & Hpos & Hneg); [lia|exact Nr|]. rewrite Epn. cbn [obind].
    assert (E0 : g0 = 0).
    { pose proof (HG _ (linear_nth 0)) as E. cbn [nth] in E. rewrite E. clear -H0. revert H0. generalize (spow rho 1 (length fs)). induction gs as [|g gs IH]; intros s H; [reflexivity|].
      inversion H as [|? ? Hg Hr]; subst. cbn [map lin]. rewrite Hg, IH by exact Hr. ring. }
    exists n, bs, ps, pos, neg, a. split; [exact Lu|]. split; [exact Lbs|]. split; [rewrite Ebs; exact Lbs|]. split; [exact Ebs|]. split.
    { do 2 f_equal. f_equal. rewrite Lu, claim_evals_ok by (rewrite Ebs; exact Lbs). rewrite Ebs. reflexivity. }
    split; [exact HB|]. split; [lia|]. split; [lia|].
    split; [intros x; rewrite Hpos, (HF _ (linear_peval x)), (HG _ (linear_peval x)); reflexivity|].
    split; [intros x; rewrite Hneg, (HF _ (linear_peval x)), (HG _ (linear_peval x)); reflexivity|].
    assert (EA : forall x, peval a x = peval bf x + peval tg x) by (intros x; apply (HA _ (linear_peval x))).
    split.
    - apply fchain_gchain; [|lia].
      replace (lin rho 1 (map (mle us) fs ++ map (fun p => mle us (tl p)) gs)) with (mle us a); [exact Hc|].
      rewrite (HA _ (linear_mle us)), (HF _ (linear_mle us)). change tg with (tl (g0 :: tg)). rewrite (HG _ (linear_mle_tl us)), lin_app, map_length. reflexivity.
    - assert (Er : finv r * r = 1) by (apply finv_l; exact Nr). rewrite !EA, Hpos, Hneg. cbn [peval]. rewrite !smulU, E0. split.
      + transitivity (peval bf r + (finv r * r) * peval tg r); [rewrite Er; ring|ring].
      + transitivity (peval bf (- r) + (finv r * r) * peval tg (- r)); [rewrite Er; ring|ring].
  Qed.

  Hypothesis HP : Groth16Complete.pairing e.
  Lemma check_ok gt w z : gt = (tau - z) * w -> pairing_product e (smul gt gen + smul z (smul w gen)) (- smul w gen) (smul tau h) h = 0.
  Proof.
    intros ->. unfold pairing_product.
    replace (smul ((tau - z) * w) gen + smul z (smul w gen)) with (smul (tau * w) gen) by (rewrite <- smul_mul, <- smul_add_l; f_equal; ring).
    replace (- smul w gen) with (smul (- w) gen) by apply smul_neg_l.
    replace (e (smul (tau * w) gen) h) with (e (smul (tau * w) gen) (smul 1 h)) by (rewrite smul_1; reflexivity).
    rewrite !(Groth16Complete.pair_smul HP), <- smul_add_l.
    replace (tau * w * 1 + - w * tau) with (0 : F) by ring. apply smul_0_l.
  Qed.

  Lemma shplemini_complete log_n us fs gs rho r nu z fcoms gcoms :
    2 <= log_n <= length us -> 2 ^ log_n <= N ->
    Forall (fun p => length p <= 2 ^ log_n) fs -> Forall (fun p => length p <= 2 ^ log_n) gs -> Forall (fun p => nth 0 p 0 = 0) gs ->
    omapM (commit (srs tau gen N)) fs = Done fcoms -> omapM (commit (srs tau gen N)) gs = Done gcoms ->
    r <> 0 -> dens_ok us r -> Forall (fun p => z <> p /\ z <> - p) (sq r (length us)) ->
    exists pr, shplemini_prove (srs tau gen N) log_n us fs gs rho r nu z = Done pr /\
      shplemini_verify e gen (smul tau h) h fcoms gcoms (map (mle us) fs) (map (fun g => mle us (tl g)) gs) us rho r nu z pr = Done 0.
  Proof.
    intros Hl HN Hf Hg H0 Ef Eg Nr HD HZ.
    destruct (@gemini_ok log_n us fs gs rho r Hl HN Nr Hf Hg H0) as (n & bs & ps & pos & neg & a & Lu & Lb & Lps & Ebs & EG & HB & Lpos & Lneg & Hpos & Hneg & Hc & Ea1 & Ea2).
    assert (P1 : (1 <= 2 ^ log_n)%nat) by (apply Nat.neq_0_lt_0, Nat.pow_nonzero; lia).
    rewrite commits_ok in Ef by (eapply Forall_impl; [|exact Hf]; cbn; intros; lia). rewrite commits_ok in Eg by (eapply Forall_impl; [|exact Hg]; cbn; intros; lia).
    injection Ef as <-. injection Eg as <-.
    set (os := (pos, r, peval pos r) :: (neg, - r, peval neg (- r)) :: fold_ops bs (r * r)).
    assert (Eos : openings (opening_claims (length us) pos neg ps r) = os) by (rewrite Lu, openings_ok by exact Lps; rewrite Ebs; reflexivity).
    assert (Hos : Forall (fun o => op_poly o <> [] /\ length (op_poly o) <= 2 ^ log_n /\ op_true o) os).
    { constructor; [|constructor; [|apply fold_ops_true; exact HB]]; unfold op_true, op_poly, op_point, op_value; cbn [fst snd].
      - split; [intros ->; cbn in Lpos; lia|split; [lia|reflexivity]].
      - split; [intros ->; cbn in Lneg; lia|split; [lia|reflexivity]]. }
    assert (HZ' : Forall (fun o => z <> op_point o) os).
    { rewrite Lu in HZ. cbn [sq] in HZ. apply Forall_cons_iff in HZ. destruct HZ as [[Z1 Z2] HZ2]. constructor; [exact Z1|constructor; [exact Z2|]].
      apply fold_ops_points. rewrite Lb. exact HZ2. }
    unfold shplemini_prove. rewrite EG. cbn [obind]. unfold shplonk_prove, compute_batched_quotient, partially_evaluated_quotient. rewrite Eos.
    rewrite Lu, (@claim_size_ok _ _ n log_n) by (try assumption; rewrite Ebs; exact HB). rewrite Nat.log2_up_pow2 by lia.
    destruct (@add_quotients_ok _ _ os nu 1 (repeat 0 (2 ^ log_n))) as (q & ts & Eq & Lq & Hts & HQ); [rewrite repeat_length; exact Hos|].
    rewrite repeat_length in Lq. rewrite Eq. cbn [obind]. rewrite commit_ok by lia. cbn [obind].
    destruct (@sub_claims_ok _ _ os nu z 1 q) as (g & Eg & Lg & HG); [eapply Forall_impl; [|exact Hos]; cbn; intros o (? & ? & ?); split; [assumption|lia]|].
    rewrite Eg. cbn [obind]. unfold opening_quotient.
    destruct (@minus_ok _ _ g 0) as (t & Et & Lt & Nt & Ht); [intros ->; cbn in Lg; lia|]. rewrite Et. cbn [obind].
    destruct (@factor_ok _ _ t z Nt) as (w & Ew & Lw & Hw).
    { rewrite Ht, HG, HQ, (terms_quotients Hts HZ' nu 1). destruct (linear_peval z) as [_ L0]. rewrite L0. ring. }
    rewrite Ew. cbn [obind]. rewrite commit_ok by lia. cbn [obind]. eexists. split; [reflexivity|].
    unfold shplemini_verify. cbn [op_folds op_negs op_q op_w].
    pose proof (@fold_pos_ok _ _ us (a :: bs) _ r Hc HD) as HFP. rewrite !evals_cons, Ea1, Ea2 in HFP. cbn [hd] in HFP. rewrite Ea1, Lu in HFP.
    destruct (@verifier_ok _ _ _ _ _ tau gen fs gs bs q (map (mle us) fs) (map (fun g => mle us (tl g)) gs) n us rho r nu z (peval neg (- r)) (evals gneg bs (r * r)) (peval pos r) (evals (fun x => x) bs (r * r)) (peval pos r) pos neg) as (l & El & HL);
      [apply map_length|apply map_length|exact Lu|exact Lb| |exact Nr|apply Hpos|apply Hneg|exact HFP| |].
    { unfold evals. rewrite map_length, combine_length, length_sq. lia. } { unfold evals. rewrite map_length, combine_length, length_sq. lia. }
    rewrite Lu, El. cbn [obind]. unfold reduce_verify. change (msm (map snd ?l) (map fst ?l)) with (psm l). rewrite psm_app, HL, psm_cons.
    replace (psm []) with (0 : G) by reflexivity. rewrite gadd_0_r. f_equal. apply check_ok.
    rewrite <- fold_vops. fold os. rewrite <- HG, <- Hw, Ht. ring.
  Qed.
End Complete.
