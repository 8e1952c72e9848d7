(** * Properties C75 and C76: from the sum to the rows, and the decider of UltraHonk *)
From Coq Require Import String List Arith ZArith Lia Bool.
From Verif Require Import Proc Alg Zp NNet Rep3 ShamirPoly Shamir ShamirAlg Univariate Sumcheck SumcheckSpec SumcheckSound HonkRelations HonkProofs Shplemini ShpleminiFold ShpleminiPoly ShpleminiQuot ShpleminiVerify ShpleminiSound HonkRows Decider DeciderProofs Concrete ConcreteP ConcreteH PropsShplemini.
From Verif Require Groth16Complete.
Import ListNotations.
Local Open Scope string_scope.
Local Open Scope list_scope.

(** ** C75: if the sum over all rows and relations is zero with the powers of one [alpha] and one [beta] that the code
    draws, then every row satisfies every relation, or one of them is an exception *)
Theorem C75_rows : forall {F : Type} {FF : Fld F} (subs : list (sub (F := F))) (m : nat) (cols : list (list F)) (n : nat) (alpha beta : F), S n = length subs ->
  total subs (rone :: generate_alphas n alpha) m (challenge_pows m beta) rone cols = gzero ->
  satisfied subs m cols \/ lucky_alpha subs m cols alpha \/ lucky_beta subs m cols alpha beta.
Proof. exact @rows_satisfied. Qed.
Print Assumptions C75_rows.
(** there are few exceptions *)
Theorem C75_few_alpha : forall {F : Type} {FF : Fld F} (subs : list (sub (F := F))) (m : nat) (cols : list (list F)) (alphas : list F),
  NoDup alphas -> Forall (lucky_alpha subs m cols) alphas -> length alphas <= 2 ^ m * length subs.
Proof. exact @few_alpha. Qed.
Print Assumptions C75_few_alpha.
Theorem C75_few_beta : forall {F : Type} {FF : Fld F} (subs : list (sub (F := F))) (m : nat) (cols : list (list F)) (alpha : F) (betas : list F),
  NoDup betas -> Forall (lucky_beta subs m cols alpha) betas -> length betas < 2 ^ m.
Proof. exact @few_beta. Qed.
Print Assumptions C75_few_beta.
(** the sum as a polynomial in beta *)
Theorem C75_total : forall {F : Type} {FF : Fld F} (subs : list (sub (F := F))) (m : nat) (cols : list (list F)) (n : nat) (alpha beta : F), S n = length subs ->
  total subs (rone :: generate_alphas n alpha) m (challenge_pows m beta) rone cols = peval (map (alpha_row subs m cols alpha) (seq 0 (2 ^ m))) beta.
Proof. exact @total_rows. Qed.
Print Assumptions C75_total.
(** the circuit of the example; with another value in a wire, no relation between alpha = 20 and beta = 21 hides it *)
Definition fs97 : list (list F97) := firstn 36 cols97.
Definition bad97 : list (list F97) := firstn 28 cols97 ++ [map n97 [0; 0; 5; 0; 0; 3; 0; 0]] ++ skipn 29 (firstn 36 cols97).
Definition sum97 (fs : list (list F97)) : Z := val (total (honk_relations P97) (rone :: generate_alphas 27 (n97 20)) 3 (challenge_pows 3 (n97 21)) rone (all_entities fs)).
Example ex_C75 : S 27 = length (honk_relations P97) /\ sum97 fs97 = 0%Z /\ sum97 bad97 <> 0%Z /\ satisfied (honk_relations P97) 3 (all_entities fs97).
Proof.
  split; [reflexivity|]. split; [vm_compute; reflexivity|]. split; [vm_compute; discriminate|].
  apply row_ok_satisfied. vm_compute. reflexivity.
Qed.

(** ** C76: the decider. The honest prover is accepted, if permutation and lookup are not skipped (F58), unless a
    challenge of the sumcheck is in 1, ..., 7 or one of the opening makes a denominator zero *)
Theorem C76_complete : forall {F : Type} {FF : Fld F} {G : Type} {GG : AbGrp G} {MG : Mod F G} {H : Type} {GH : AbGrp H} {MH : Mod F H} {GT : Type} {GGT : AbGrp GT} {MGT : Mod F GT}
    (e : G -> H -> GT) (tau : F) (gen : G) (h : H) (P : rparams (F := F)), wide (F := F) 8 -> Groth16Complete.pairing e ->
  forall (N : nat) (chal : list (list F) -> F) (log_n v : nat) (betas alphas : list F) (fs : list (list F)) (fcoms : list G) (rho r nu z : F),
  length alphas = 27 -> 2 <= log_n -> log_n <= v -> v <= length betas -> 2 ^ log_n <= N ->
  length fs = 36 -> Forall (fun col => length col = 2 ^ log_n) fs -> Forall (fun col => nth 0 col gzero = gzero) (to_be_shifted fs) ->
  satisfied (honk_relations_full P) log_n (all_entities fs) -> omapM (commit (srs tau gen N)) fs = Done fcoms ->
  exists sent evals us,
    sumcheck_prove (honk_relations_full P) 7 8 chal log_n v betas alphas (all_entities fs) = Done (sent, evals, us) /\ length us = v /\
    (Forall (fun u => forall i, 1 <= i < 8 -> u <> fnat i) us -> r <> gzero -> dens_ok us r -> Forall (fun p => z <> p /\ z <> gneg p) (sq r v) ->
     exists pr, decider_prove (honk_relations_full P) 7 8 chal (srs tau gen N) log_n v betas alphas fs rho r nu z = Done (sent, evals, pr) /\
       decider_verify (honk_relations P) 8 chal e gen (smul tau h) h v betas alphas fcoms sent evals rho r nu z pr = Done (Some gzero)).
Proof. exact @decider_complete. Qed.
Print Assumptions C76_complete.

(** whatever the prover sends: if it is accepted, the columns it committed to satisfy all relations in all rows, or one of
    the challenges is an exception (C70_few_roots and the bounds of C74 and C75 say how many there are) *)
Theorem C76_sound : forall {F : Type} {FF : Fld F} {G : Type} {GG : AbGrp G} {MG : Mod F G} {H : Type} {GH : AbGrp H} {MH : Mod F H} {GT : Type} {GGT : AbGrp GT} {MGT : Mod F GT}
    (e : G -> H -> GT) (tau : F) (gen : G) (h : H) (P : rparams (F := F)), wide (F := F) 8 -> Groth16Complete.pairing e -> (forall a, smul a (e gen h) = gzero -> a = gzero) ->
  forall (chal : list (list F) -> F) (n : nat) (alpha beta : F) (fs bs : list (list F)) (q w : list F) (sent : list (list F)) (evals : list F) (n0 : F) (negs : list F) (rho r nu z : F),
  gadd rone rone <> (gzero : F) -> length fs = 36 -> length evals = 41 -> length bs = n -> length negs = n ->
  nu <> gzero -> NoDup (points r (S n)) -> ~ In z (points r (S n)) ->
  decider_verify (honk_relations P) 8 chal e gen (smul tau h) h (S n) (challenge_pows (S n) beta) (generate_alphas 27 alpha) (map (fun p => smul (peval p tau) gen) fs) sent evals rho r nu z
    {| op_folds := map (fun b => smul (peval b tau) gen) bs; op_negs := n0 :: negs; op_q := smul (peval q tau) gen; op_w := smul (peval w tau) gen |} = Done (Some gzero) ->
  exists u us, length us = n /\
    sumcheck_verify (honk_relations P) 8 chal (repeat rone (S n)) (challenge_pows (S n) beta) (generate_alphas 27 alpha) sent evals = Done (true, u :: us) /\
    let cols := all_entities fs in
    let gs := to_be_shifted fs in
    let bf := comb rho rone fs in
    let bg := comb rho (spow rho rone 36) gs in
    let v := lin rho rone evals in
    (satisfied (honk_relations P) (S n) cols /\ rmul u (nth 0 bg gzero) = gzero) \/
    lucky_alpha (honk_relations P) (S n) cols alpha \/ lucky_beta (honk_relations P) (S n) cols alpha beta \/
    lucky (honk_relations_full P) (rone :: generate_alphas 27 alpha) 8 (challenge_pows (S n) beta) rone cols sent (u :: us) \/
    lucky_rho evals (map (mle (u :: us)) cols) rho \/
    lucky_first u (padd bf (tl bg)) (nth 0 bg gzero) (hd [v] bs) r \/ lucky_fold us bs v (rmul r r) \/
    exists p0 poss, fold_pos_evaluations (repeat rone (S n)) (u :: us) (sq r (S n)) (n0 :: negs) v = Done (p0, p0 :: poss) /\
      (lucky_z q (all_ops bf bg bs r p0 n0 poss negs) nu z \/ lucky_tau q w (all_ops bf bg bs r p0 n0 poss negs) nu z tau).
Proof. exact @decider_sound. Qed.
Print Assumptions C76_sound.

(** the example: eight rows, challenges as in C69 and C73 *)
Definition crs8 : list F97 := srs (G := F97) tau97 (f97 1) 8.
Definition fcoms97 : list F97 := match omapM (commit crs8) fs97 with Done c => c | _ => [] end.
Example ex_C76 : exists sent evals us,
  sumcheck_prove (honk_relations_full P97) 7 8 ch97 3 3 (challenge_pows 3 (n97 21)) (generate_alphas 27 (n97 20)) (all_entities fs97) = Done (sent, evals, us) /\
  exists pr, decider_prove (honk_relations_full P97) 7 8 ch97 crs8 3 3 (challenge_pows 3 (n97 21)) (generate_alphas 27 (n97 20)) fs97 (n97 40) (n97 6) (n97 50) (n97 60) = Done (sent, evals, pr) /\
    decider_verify (honk_relations P97) 8 ch97 e97 (f97 1) (smul tau97 (f97 1)) (f97 1) 3 (challenge_pows 3 (n97 21)) (generate_alphas 27 (n97 20)) fcoms97 sent evals
      (n97 40) (n97 6) (n97 50) (n97 60) pr = Done (Some gzero).
Proof.
  destruct (@C76_complete F97 _ F97 _ _ F97 _ _ F97 _ _ e97 tau97 (f97 1) (f97 1) P97 wide97 spair97 8 ch97 3 3 (challenge_pows 3 (n97 21)) (generate_alphas 27 (n97 20)) fs97 fcoms97
    (n97 40) (n97 6) (n97 50) (n97 60)) as (sent & evals & us & E & Lu & K).
  - reflexivity.
  - lia.
  - lia.
  - reflexivity.
  - cbn; lia.
  - reflexivity.
  - repeat constructor.
  - repeat constructor; apply eq97; vm_compute; reflexivity.
  - apply row_ok_satisfied. vm_compute. reflexivity.
  - reflexivity.
  - exists sent, evals, us. split; [exact E|].
    assert (U : us = [n97 30; n97 31; n97 32]).
    { assert (X : match sumcheck_prove (honk_relations_full P97) 7 8 ch97 3 3 (challenge_pows 3 (n97 21)) (generate_alphas 27 (n97 20)) (all_entities fs97) with Done (_, _, us) => us | _ => [] end = [n97 30; n97 31; n97 32])
        by (vm_compute; reflexivity).
      rewrite E in X. exact X. }
    subst us. apply K; clear K E.
    + assert (X : forallb (fun u => forallb (fun i => negb (feqb u (fnat i))) (seq 1 7)) [n97 30; n97 31; n97 32] = true) by (vm_compute; reflexivity).
      rewrite forallb_forall in X. apply Forall_forall. intros u Hu i Hi Y. specialize (X u Hu). rewrite forallb_forall in X. specialize (X i ltac:(apply in_seq; lia)).
      rewrite Y in X. apply negb_true_iff in X. rewrite <- not_true_iff_false in X. apply X. apply feqb_spec. reflexivity.
    + apply neq97; vm_compute; discriminate.
    + cbn [dens_ok]. repeat split; apply neq97; vm_compute; discriminate.
    + cbn [sq]. repeat constructor; apply neq97; vm_compute; discriminate.
Qed.
(** the verifier is no constant: the same proof is rejected for another commitment to the first column *)
Definition dverdict97 (coms : list F97) : option Z :=
  match decider_prove (honk_relations_full P97) 7 8 ch97 crs8 3 3 (challenge_pows 3 (n97 21)) (generate_alphas 27 (n97 20)) fs97 (n97 40) (n97 6) (n97 50) (n97 60) with
  | Done (sent, evals, pr) =>
      match decider_verify (honk_relations P97) 8 ch97 e97 (f97 1) (smul tau97 (f97 1)) (f97 1) 3 (challenge_pows 3 (n97 21)) (generate_alphas 27 (n97 20)) coms sent evals
              (n97 40) (n97 6) (n97 50) (n97 60) pr with Done (Some v) => Some (val v) | _ => None end
  | _ => None
  end.
Example ex_C76_verdicts : dverdict97 fcoms97 = Some 0%Z /\ dverdict97 (n97 1 :: tl fcoms97) <> Some 0%Z.
Proof. split; [vm_compute; reflexivity|vm_compute; discriminate]. Qed.
