(** * Properties C68-C70: univariates and the sumcheck of UltraHonk *)
From Coq Require Import String List Arith ZArith Lia Bool.
From Verif Require Import Proc Alg Zp NNet Rep3 Rep3Wp ShamirPoly Shamir ShamirAlg Univariate Sumcheck SumcheckSpec SumcheckProofs SumcheckSound HonkRelations HonkProofs Concrete ConcreteP ConcreteH.
Import ListNotations.
Local Open Scope string_scope.
Local Open Scope list_scope.

(** ** C68: univariates in evaluation form *)
(** extension: from the values of a polynomial at 0, ..., n-1 to those at 0, ..., SIZE-1 *)
Theorem C68_extend : forall {F : Type} {FF : Fld F} (SIZE n : nat) (c : list F),
  wide SIZE -> length c <= n -> n <= SIZE -> extend_from SIZE (values c n) = Done (values c SIZE).
Proof. exact @extend_ok. Qed.
Print Assumptions C68_extend.
Example ex_C68_extend :
  wide (F := F97) 8 /\
  match extend_from 8 (map n97 [1; 2; 5; 10]) with Done l => map val l | _ => [] end = [1; 2; 5; 10; 17; 26; 37; 50]%Z /\
  match extend_from 8 (map n97 [0; 1; 16; 81; 62]) with Done l => map val l | _ => [] end = [0; 1; 16; 81; 62; 43; 35; 73]%Z.
Proof. split; [exact wide97|]. split; vm_compute; reflexivity. Qed.

(** evaluation: at every point but 1, ..., n-1 the value of the polynomial *)
Theorem C68_evaluate : forall {F : Type} {FF : Fld F} (n : nat) (c : list F) (u : F),
  wide n -> length c <= n -> 1 <= n -> (forall i, 1 <= i < n -> u <> fnat i) -> evaluate (values c n) u = Done (peval c u).
Proof. exact @evaluate_ok. Qed.
Print Assumptions C68_evaluate.
Example ex_C68_evaluate : match evaluate (map n97 [1; 2; 5; 10]) (n97 9) with Done v => val v | _ => 0%Z end = 82%Z.
Proof. vm_compute. reflexivity. Qed.

(** at the other points of its domain it panics, although the value there is in the list *)
Theorem C68_evaluate_refuted : exists (evals : list F97) (u : F97), wide (F := F97) (length evals) /\
  (exists c, length c <= length evals /\ values c (length evals) = evals) /\ evaluate evals u = Failed (Panic "division by zero").
Proof.
  exists (map n97 [1; 2; 5; 10]), (n97 2). assert (W : wide (F := F97) 4) by (apply (@wide_le _ _ 8); [lia|exact wide97]).
  split; [exact W|]. split; [exact (interpolation (map n97 [1; 2; 5; 10]) W)|]. vm_compute. reflexivity.
Qed.
Print Assumptions C68_evaluate_refuted.
Theorem C68_evaluate_panics : forall {F : Type} {FF : Fld F} (evals : list F) (i : nat),
  wide (F := F) (length evals) -> 1 <= i < length evals -> evaluate evals (fnat i) = Failed (Panic "division by zero").
Proof. exact @evaluate_panics. Qed.
Print Assumptions C68_evaluate_panics.

(** ** C69: the honest prover convinces the verifier, unless a challenge is in 1, ..., SIZE-1 *)
Theorem C69_complete : forall {F : Type} {FF : Fld F} (subs : list (sub (F := F))) (MAX SIZE N : nat) (chal : list (list F) -> F)
    (betas alphas : list F) (d v : nat) (cols : list (list F)),
  wide (F := F) SIZE -> wide (F := F) MAX -> 2 <= MAX -> 2 <= SIZE -> Forall (sub_ok MAX SIZE N) subs -> S (length alphas) = length subs ->
  1 <= d -> d <= v -> v <= length betas -> (2 <= d \/ v = d) ->
  length cols = N -> Forall (fun col => length col = 2 ^ d) cols -> satisfied subs d cols ->
  exists sent evals us,
    sumcheck_prove subs MAX SIZE chal d v betas alphas cols = Done (sent, evals, us) /\ length us = v /\ evals = map (mle us) cols /\
    ((Forall (fun u => forall i, 1 <= i < SIZE -> u <> fnat i) us /\
      sumcheck_verify subs SIZE chal (repeat rone v) betas alphas sent evals = Done (true, us)) \/
     ((exists i, 1 <= i < SIZE /\ In (fnat i) us) /\
      sumcheck_verify subs SIZE chal (repeat rone v) betas alphas sent evals = Failed (Panic "division by zero"))).
Proof.
  intros F FF subs MAX SIZE N chal betas alphas d v cols WS WM HM HS OK La D1 Dv Lb D2 Lc Hc S.
  exact (@sumcheck_complete F FF subs (rone :: alphas) MAX SIZE N WS WM HM HS OK La alphas eq_refl chal betas d cols (Nat.le_trans _ _ _ Dv Lb) v D1 Dv Lb D2 Lc Hc (satisfied_total (rone :: alphas) betas rone S)).
Qed.
Print Assumptions C69_complete.
(** all the relations of UltraHonk, with the skip conditions that are sound, on a circuit of eight rows *)
Example ex_C69 : Forall (sub_ok 7 8 41) (honk_relations_full P97) /\ satisfied (honk_relations_full P97) 3 cols97 /\
  run97 (honk_relations_full P97) = Some (true, [30; 31; 32]%Z).
Proof. split; [apply honk_ok|]. split; [exact (proj2 cols97_satisfied)|]. vm_compute. reflexivity. Qed.

(** with two rows and further rounds of padding the prover panics *)
Theorem C69_small_refuted : exists (subs : list (sub (F := F97))) betas alphas cols,
  wide (F := F97) 8 /\ Forall (sub_ok 7 8 41) subs /\ S (length alphas) = length subs /\ length betas = 2 /\ length cols = 41 /\
  Forall (fun col => length col = 2 ^ 1) cols /\ satisfied subs 1 cols /\
  sumcheck_prove subs 7 8 ch97 1 2 betas alphas cols = Failed (Panic "index").
Proof.
  exists (honk_relations_full P97), [n97 21; n97 22], al97, (repeat [n97 0; n97 0] 41).
  split; [exact wide97|]. split; [apply honk_ok|]. repeat (split; [reflexivity|]). split; [repeat constructor|].
  split; [apply row_ok_satisfied; vm_compute; reflexivity|]. vm_compute. reflexivity.
Qed.
Print Assumptions C69_small_refuted.

(** ** C70: if the verifier accepts, whatever was sent, and the evaluations are those of some columns, then these
    columns add up to zero, or in some round a univariate differs from the honest one but agrees with it at the
    challenge ([lucky]) *)
Theorem C70_sound : forall {F : Type} {FF : Fld F} (subs : list (sub (F := F))) (MAX SIZE N : nat) (chal : list (list F) -> F) (alphas : list F)
    (n : nat) (betas : list F) (uns : list (list F)) (evals us : list F) (cols : list (list F)),
  wide (F := F) SIZE -> 2 <= SIZE -> Forall (sub_ok MAX SIZE N) subs -> length cols = N -> n <= length betas ->
  sumcheck_verify subs SIZE chal (repeat rone n) betas alphas uns evals = Done (true, us) -> evals = map (mle us) cols ->
  length us = n /\ (total subs (rone :: alphas) n betas rone cols = gzero \/ lucky subs (rone :: alphas) SIZE betas rone cols uns us).
Proof.
  intros F FF subs MAX SIZE N chal alphas n betas uns evals us cols WS HS OK Lc Lb V E.
  exact (@sumcheck_sound F FF subs (rone :: alphas) MAX SIZE N WS HS OK chal alphas eq_refl n betas uns evals us cols Lc Lb V E).
Qed.
Print Assumptions C70_sound.
(** and a wrong univariate agrees with the honest one at fewer than SIZE points *)
Theorem C70_few_roots : forall {F : Type} {FF : Fld F} (SIZE : nat), 2 <= SIZE -> forall (un : list F) (R : F -> F) (p us : list F),
  poly_fun SIZE R -> length p <= SIZE -> values p SIZE = un -> (exists k, k < SIZE /\ nth k un gzero <> R (fnat k)) ->
  NoDup us -> (forall u, In u us -> peval p u = R u) -> length us < SIZE.
Proof. exact @few_roots. Qed.
Print Assumptions C70_few_roots.
(** the honest polynomial of a round is such an [R] *)
Theorem C70_round_degree : forall {F : Type} {FF : Fld F} (subs : list (sub (F := F))) (xs : list F) (MAX SIZE N m : nat) (b : F) (bs : list F) (c : F) (cols : list (list F)),
  Forall (sub_ok MAX SIZE N) subs -> length cols = N -> poly_fun SIZE (round_poly subs xs m b bs c cols).
Proof. intros F FF subs xs MAX SIZE N m b bs c cols. exact (@round_degree F FF subs xs MAX SIZE N m b bs c cols). Qed.
Print Assumptions C70_round_degree.
(** accepted with the honest messages, and not with another evaluation of the first wire *)
Example ex_C70 :
  match sumcheck_prove (honk_relations_full P97) 7 8 ch97 3 3 be97 al97 cols97 with
  | Done (sent, evals, us) =>
      (match sumcheck_verify (honk_relations_full P97) 8 ch97 (repeat rone 3) be97 al97 sent evals with Done (b, _) => b | _ => false end,
       match sumcheck_verify (honk_relations_full P97) 8 ch97 (repeat rone 3) be97 al97 sent (firstn 28 evals ++ [n97 50] ++ skipn 29 evals) with Done (b, _) => b | _ => true end)
  | _ => (false, true)
  end = (true, false).
Proof. vm_compute. reflexivity. Qed.
