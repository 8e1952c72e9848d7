(** * The decider of UltraHonk is complete and sound (C76)

    Proofs only; no code of /repo is modelled here. *)
From Coq Require Import String List Arith Lia Bool Ring.
From Verif Require Import Proc Alg NNet Rep3 ShamirPoly Shamir ShamirAlg Univariate Sumcheck SumcheckSpec SumcheckProofs SumcheckSound HonkRelations HonkProofs Shplemini ShpleminiFold ShpleminiPoly ShpleminiQuot ShpleminiVerify ShpleminiComplete ShpleminiSound ShpleminiFew HonkRows Decider.
From Verif Require Groth16Complete.
Import ListNotations.
Set Implicit Arguments.
Local Open Scope grp_scope.
Local Open Scope list_scope.

Section Proofs.
  Context {F : Type} {FF : Fld F} {G : Type} {GG : AbGrp G} {MG : Mod F G} {G2 : Type} {GG2 : AbGrp G2} {MG2 : Mod F G2} {GT : Type} {GGT : AbGrp GT} {MGT : Mod F GT}.
  Add Ring FringDP : (@cring_theory F _).
  Infix "*" := rmul : grp_scope.
  Notation "1" := rone : grp_scope.
  Variables (e : G -> G2 -> GT) (tau : F) (gen : G) (h : G2).
  Notation com p := (smul (peval p tau) gen).

  Lemma shifted_map {A B} (f : A -> B) l : to_be_shifted (map f l) = map f (to_be_shifted l).
  Proof. unfold to_be_shifted. rewrite skipn_map, firstn_map. reflexivity. Qed.
  Lemma length_shifted {A} (l : list A) : length l = 36 -> length (to_be_shifted l) = 5.
  Proof. intros H. unfold to_be_shifted. rewrite firstn_length, skipn_length, H. reflexivity. Qed.
  Lemma shifted_incl {A} (l : list A) x : In x (to_be_shifted l) -> In x l.
  Proof.
    unfold to_be_shifted. intros H. rewrite <- (firstn_skipn 28 l). apply in_or_app. right. rewrite <- (firstn_skipn 5 (skipn 28 l)). apply in_or_app. left. exact H.
  Qed.
  Lemma length_entities fs : length fs = 36 -> length (all_entities (F := F) fs) = 41.
  Proof. intros H. unfold all_entities. rewrite app_length, map_length, length_shifted, H by exact H. reflexivity. Qed.
  Lemma mle_shift us (g : list F) : mle us (shift_column g) = mle us (tl g).
  Proof.
    unfold mle. apply sumn_ext. intros i _. f_equal. unfold shift_column. destruct (Nat.lt_ge_cases i (length (tl g))) as [L|L].
    - apply app_nth1, L.
    - rewrite app_nth2 by exact L. rewrite (nth_overflow (tl g)) by exact L. destruct (i - length (tl g))%nat as [|[|k]]; reflexivity.
  Qed.
  Lemma evals_split us fs : map (mle us) (all_entities fs) = map (mle us) fs ++ map (fun g => mle us (tl g)) (to_be_shifted fs).
  Proof. unfold all_entities. rewrite map_app, map_map. f_equal. apply map_ext. intros g. apply mle_shift. Qed.

  Lemma rounds_length SIZE chal padding : forall sent rest target ok g us t ok' g' us',
    verify_rounds (F := F) SIZE chal padding sent rest target ok g us = Done (t, ok', g', us') -> length us' = (length us + length padding)%nat.
  Proof.
    induction padding as [|ind padding IH]; intros sent rest target ok g us t ok' g' us' E; cbn [verify_rounds] in E.
    - injection E as <- <- <- <-. cbn. lia.
    - destruct rest as [|un rest]; [discriminate|]. destruct (length un =? SIZE)%nat; [|discriminate].
      destruct (total_sum target un ind) as [?|]; [|discriminate]. cbn [obind] in E. destruct (evaluate un _) as [?|]; [|discriminate]. cbn [obind] in E.
      destruct (gates_evaluate_padded g _ ind) as [?|]; [|discriminate]. cbn [obind] in E. apply IH in E. rewrite E, app_length. cbn [length]. lia.
  Qed.
  Lemma verify_length subs SIZE chal n betas alphas sent evals ok us :
    sumcheck_verify (F := F) subs SIZE chal (repeat 1 n) betas alphas sent evals = Done (ok, us) -> length us = n.
  Proof.
    unfold sumcheck_verify. destruct (verify_rounds SIZE chal (repeat 1 n) [] sent 0 true (gates_bare betas) []) as [[[[t ok'] g'] us']|] eqn:E; [|discriminate].
    cbn [obind]. destruct (_ =? _)%nat; [|discriminate]. intros E2. injection E2 as _ <-. rewrite (rounds_length _ _ _ _ _ _ _ _ _ E). rewrite repeat_length. reflexivity.
  Qed.

  Variable P : rparams (F := F).
  Hypothesis W8 : wide (F := F) 8.
  Hypothesis HP : Groth16Complete.pairing e.

  Theorem decider_complete N chal log_n v betas alphas fs fcoms rho r nu z :
    length alphas = 27 -> 2 <= log_n -> log_n <= v -> v <= length betas -> 2 ^ log_n <= N ->
    length fs = 36 -> Forall (fun col => length col = 2 ^ log_n) fs -> Forall (fun col => nth 0 col 0 = 0) (to_be_shifted fs) ->
    satisfied (honk_relations_full P) log_n (all_entities fs) -> omapM (commit (srs tau gen N)) fs = Done fcoms ->
    exists sent evals us,
      sumcheck_prove (honk_relations_full P) 7 8 chal log_n v betas alphas (all_entities fs) = Done (sent, evals, us) /\ length us = v /\
      (Forall (fun u => forall i, 1 <= i < 8 -> u <> fnat i) us -> r <> 0 -> dens_ok us r -> Forall (fun p => z <> p /\ z <> - p) (sq r v) ->
       exists pr, decider_prove (honk_relations_full P) 7 8 chal (srs tau gen N) log_n v betas alphas fs rho r nu z = Done (sent, evals, pr) /\
         decider_verify (honk_relations P) 8 chal e gen (smul tau h) h v betas alphas fcoms sent evals rho r nu z pr = Done (Some 0)).
  Proof.
    intros La D Dv Lb LN Lf Hf H0 S Ec.
    assert (P0 : (0 < 2 ^ log_n)%nat) by (apply Nat.neq_0_lt_0, Nat.pow_nonzero; lia).
    assert (Hg : Forall (fun col => length col = (2 ^ log_n)%nat) (to_be_shifted fs)).
    { apply Forall_forall. intros g Ig. rewrite Forall_forall in Hf. apply Hf, shifted_incl, Ig. }
    assert (Hc : Forall (fun col => length col = (2 ^ log_n)%nat) (all_entities fs)).
    { unfold all_entities. apply Forall_app. split; [exact Hf|]. apply Forall_map. eapply Forall_impl; [|exact Hg]. intros g Eg. unfold shift_column.
      rewrite app_length. cbn beta in Eg. destruct g; cbn [tl length] in *; lia. }
    destruct (@sumcheck_complete F FF (honk_relations_full P) (1 :: alphas) 7 8 41 W8 (@wide_le F FF 8 7 ltac:(lia) W8) ltac:(lia) ltac:(lia) (honk_ok P) (f_equal Datatypes.S La)
      alphas eq_refl chal betas log_n (all_entities fs) (Nat.le_trans _ _ _ Dv Lb) v ltac:(lia) Dv Lb (or_introl D) (length_entities fs Lf) Hc (satisfied_total (1 :: alphas) betas 1 S))
      as (sent & evals & us & E1 & Lu & E2 & V).
    exists sent, evals, us. split; [exact E1|]. split; [exact Lu|]. intros HU Nr HD HZ.
    destruct V as [[_ V]|[[i [Hi Ii]] _]].
    2: { exfalso. rewrite Forall_forall in HU. exact (HU _ Ii i Hi eq_refl). }
    assert (Ef : fcoms = map (fun p => com p) fs).
    { rewrite commits_ok in Ec by (eapply Forall_impl; [|exact Hf]; cbn beta; intros; lia). injection Ec as <-. reflexivity. }
    destruct (@shplemini_complete F FF G GG MG G2 GG2 MG2 GT GGT MGT e tau gen h N HP log_n us fs (to_be_shifted fs) rho r nu z fcoms (to_be_shifted fcoms)) as (pr & E3 & E4).
    - lia.
    - exact LN.
    - eapply Forall_impl; [|exact Hf]. cbn beta. intros; lia.
    - eapply Forall_impl; [|exact Hg]. cbn beta. intros; lia.
    - exact H0.
    - exact Ec.
    - rewrite Ef, shifted_map. apply commits_ok. eapply Forall_impl; [|exact Hg]. cbn beta. intros; lia.
    - exact Nr.
    - exact HD.
    - rewrite Lu. exact HZ.
    - exists pr. split.
      + unfold decider_prove. rewrite E1. cbn [obind]. rewrite E3. reflexivity.
      + unfold decider_verify. change (sumcheck_verify (honk_relations P)) with (sumcheck_verify (honk_relations_full P)). rewrite V. cbn [obind].
        rewrite E2, evals_split.
        assert (Lc : length fcoms = length (map (mle us) fs)) by (rewrite Ef, !map_length; reflexivity).
        rewrite Lc, firstn_app, Nat.sub_diag, firstn_all, firstn_O, app_nil_r, skipn_app, Nat.sub_diag, skipn_all, skipn_O. cbn [app].
        rewrite E4. reflexivity.
  Qed.

  Hypothesis HN : forall a, smul a (e gen h) = 0 -> a = 0.
  Theorem decider_sound chal n alpha beta fs bs q w sent evals n0 negs rho r nu z :
    (1 + 1 : F) <> 0 -> length fs = 36 -> length evals = 41 -> length bs = n -> length negs = n ->
    nu <> 0 -> NoDup (points r (S n)) -> ~ In z (points r (S n)) ->
    decider_verify (honk_relations P) 8 chal e gen (smul tau h) h (S n) (challenge_pows (S n) beta) (generate_alphas 27 alpha) (map (fun p => com p) fs) sent evals rho r nu z
      {| op_folds := map (fun b => com b) bs; op_negs := n0 :: negs; op_q := com q; op_w := com w |} = Done (Some 0) ->
    exists u us, length us = n /\
      sumcheck_verify (honk_relations P) 8 chal (repeat 1 (S n)) (challenge_pows (S n) beta) (generate_alphas 27 alpha) sent evals = Done (true, u :: us) /\
      let cols := all_entities fs in
      let gs := to_be_shifted fs in
      let bf := comb rho 1 fs in
      let bg := comb rho (spow rho 1 36) gs in
      let v := lin rho 1 evals in
      (satisfied (honk_relations P) (S n) cols /\ u * nth 0 bg 0 = 0) \/
      lucky_alpha (honk_relations P) (S n) cols alpha \/ lucky_beta (honk_relations P) (S n) cols alpha beta \/
      lucky (honk_relations_full P) (1 :: generate_alphas 27 alpha) 8 (challenge_pows (S n) beta) 1 cols sent (u :: us) \/
      lucky_rho evals (map (mle (u :: us)) cols) rho \/
      lucky_first u (padd bf (tl bg)) (nth 0 bg 0) (hd [v] bs) r \/ lucky_fold us bs v (r * r) \/
      exists p0 poss, fold_pos_evaluations (repeat 1 (S n)) (u :: us) (sq r (S n)) (n0 :: negs) v = Done (p0, p0 :: poss) /\
        (lucky_z q (all_ops bf bg bs r p0 n0 poss negs) nu z \/ lucky_tau q w (all_ops bf bg bs r p0 n0 poss negs) nu z tau).
  Proof.
    intros N2 Lf Le Lb Ln Nnu ND Nz E. unfold decider_verify in E.
    destruct (sumcheck_verify (honk_relations P) 8 chal (repeat 1 (S n)) (challenge_pows (S n) beta) (generate_alphas 27 alpha) sent evals) as [[ok us0]|] eqn:V; [|discriminate].
    cbn [obind] in E. destruct ok; [|discriminate].
    assert (Lp : forall k b, length (challenge_pows (F := F) k b) = k). { induction k as [|k IH]; intros b; cbn [challenge_pows length]; [reflexivity|]. rewrite IH. reflexivity. }
    assert (Lu : length us0 = S n) by exact (verify_length _ _ _ _ _ _ _ _ V).
    destruct us0 as [|u us]; [discriminate|]. cbn [length] in Lu. injection Lu as Lu. exists u, us. split; [exact Lu|]. split; [reflexivity|]. cbn zeta.
    rewrite map_length, Lf, shifted_map in E.
    match type of E with obind ?o _ = _ => destruct o as [gt|] eqn:ES; [|discriminate] end. cbn [obind] in E. injection E as ->.
    destruct (@shplemini_sound F FF G GG MG G2 GG2 MG2 GT GGT MGT e tau gen h HP HN u us fs (to_be_shifted fs) bs q w (firstn 36 evals) (skipn 36 evals) n0 negs rho r nu z)
      as [(Ef & Eg & EU)|[L|[L|[L|L]]]]; try assumption.
    - rewrite firstn_length, Le, Lf. reflexivity.
    - rewrite skipn_length, Le, length_shifted by exact Lf. reflexivity.
    - lia.
    - lia.
    - rewrite Lu. exact ND.
    - rewrite Lu. exact Nz.
    - assert (Ev : evals = map (mle (u :: us)) (all_entities fs)) by (rewrite evals_split, <- Ef, <- Eg; symmetry; apply firstn_skipn).
      destruct (@sumcheck_sound F FF (honk_relations_full P) (1 :: generate_alphas 27 alpha) 7 8 41 W8 ltac:(lia) (honk_ok P) chal (generate_alphas 27 alpha) eq_refl (S n)
        (challenge_pows (S n) beta) sent evals (u :: us) (all_entities fs) (length_entities fs Lf) ltac:(rewrite Lp; lia) V Ev) as [_ [T|T]].
      + destruct (@rows_satisfied F FF (honk_relations P) (S n) (all_entities fs) 27 alpha beta eq_refl T) as [R|[R|R]]; [left; split; [exact R|rewrite Lf in EU; exact EU]|right; left; exact R|right; right; left; exact R].
      + do 3 right. left. exact T.
    - do 4 right. left. rewrite <- evals_split, firstn_skipn in L. exact L.
    - do 5 right. left. rewrite firstn_skipn, Lf in L. exact L.
    - do 6 right. left. rewrite firstn_skipn in L. exact L.
    - do 7 right. destruct L as (p0 & poss & EP & L). exists p0, poss. rewrite firstn_skipn in EP. rewrite Lf in L. rewrite Lu in EP. split; [exact EP|exact L].
  Qed.
End Proofs.
