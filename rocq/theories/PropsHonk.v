(** * Properties C71 and C72: the relations of UltraHonk *)
From Coq Require Import String List Arith ZArith Lia Bool.
From Verif Require Import Proc Alg Zp NNet Rep3 Rep3Wp ShamirPoly Shamir ShamirAlg Univariate Sumcheck SumcheckSpec SumcheckProofs SumcheckSound HonkRelations HonkProofs HonkSpec HonkMeaning HonkSkip Concrete ConcreteP ConcreteH PropsSumcheck.
Import ListNotations.
Local Open Scope string_scope.
Local Open Scope list_scope.

(** ** C71: the sumcheck over the 28 subrelations *)
(** every subrelation is along a line a polynomial with at most as many coefficients as its accumulator has values,
    and vanishes where its selector does *)
Theorem C71_degrees : forall {F : Type} {FF : Fld F} (P : rparams (F := F)), Forall (sub_ok 7 8 41) (honk_relations_full P).
Proof. exact @honk_ok. Qed.
Print Assumptions C71_degrees.
(** completeness, if permutation and lookup are not skipped *)
Theorem C71_complete : forall {F : Type} {FF : Fld F} (P : rparams (F := F)) (chal : list (list F) -> F) (betas alphas : list F) (d v : nat) (cols : list (list F)),
  wide (F := F) 8 -> length alphas = 27 -> 2 <= d -> d <= v -> v <= length betas ->
  length cols = 41 -> Forall (fun col => length col = 2 ^ d) cols -> satisfied (honk_relations_full P) d cols ->
  exists sent evals us,
    sumcheck_prove (honk_relations_full P) 7 8 chal d v betas alphas cols = Done (sent, evals, us) /\ length us = v /\ evals = map (mle us) cols /\
    ((Forall (fun u => forall i, 1 <= i < 8 -> u <> fnat i) us /\
      sumcheck_verify (honk_relations P) 8 chal (repeat rone v) betas alphas sent evals = Done (true, us)) \/
     ((exists i, 1 <= i < 8 /\ In (fnat i) us) /\
      sumcheck_verify (honk_relations P) 8 chal (repeat rone v) betas alphas sent evals = Failed (Panic "division by zero"))).
Proof.
  intros F FF P chal betas alphas d v cols W La D Dv Lb Lc Hc S.
  exact (@C69_complete F FF (honk_relations_full P) 7 8 41 chal betas alphas d v cols W (@wide_le F FF 8 7 ltac:(lia) W) ltac:(lia) ltac:(lia)
    (honk_ok P) (f_equal Datatypes.S La) ltac:(lia) Dv Lb (or_introl D) Lc Hc S).
Qed.
Print Assumptions C71_complete.
Example ex_C71_complete : length al97 = 27 /\ length cols97 = 41 /\ satisfied (honk_relations_full P97) 3 cols97.
Proof. split; [reflexivity|]. split; [reflexivity|]. exact (proj2 cols97_satisfied). Qed.
(** soundness of the verifier as it is: what is skipped by the prover makes no difference *)
Theorem C71_sound : forall {F : Type} {FF : Fld F} (P : rparams (F := F)) (chal : list (list F) -> F) (alphas : list F)
    (n : nat) (betas : list F) (uns : list (list F)) (evals us : list F) (cols : list (list F)),
  wide (F := F) 8 -> length cols = 41 -> n <= length betas ->
  sumcheck_verify (honk_relations P) 8 chal (repeat rone n) betas alphas uns evals = Done (true, us) -> evals = map (mle us) cols ->
  length us = n /\ (total (honk_relations P) (rone :: alphas) n betas rone cols = gzero \/
                    lucky (honk_relations_full P) (rone :: alphas) 8 betas rone cols uns us).
Proof.
  intros F FF P chal alphas n betas uns evals us cols W Lc Lb V E.
  exact (@C70_sound F FF (honk_relations_full P) 7 8 41 chal alphas n betas uns evals us cols W ltac:(lia) (honk_ok P) Lc Lb V E).
Qed.
Print Assumptions C71_sound.
(** the prover of /repo skips the permutation where z_perm and its shift agree on an edge; on this circuit, whose
    columns satisfy all relations, it is rejected, and accepted if nothing is skipped *)
Theorem C71_permutation_skip_refuted : exists (P : rparams (F := F97)) (chal : list (list F97) -> F97) betas alphas cols sent evals us,
  wide (F := F97) 8 /\ length alphas = 27 /\ length cols = 41 /\ Forall (fun col => length col = 2 ^ 3) cols /\ satisfied (honk_relations P) 3 cols /\
  sumcheck_prove (honk_relations P) 7 8 chal 3 3 betas alphas cols = Done (sent, evals, us) /\
  Forall (fun u => forall i, 1 <= i < 8 -> u <> fnat i) us /\
  sumcheck_verify (honk_relations P) 8 chal (repeat rone 3) betas alphas sent evals = Done (false, us).
Proof.
  destruct (sumcheck_prove (honk_relations P97) 7 8 ch97 3 3 be97 al97 cols97) as [[[sent evals] us]|e] eqn:E; [|exfalso; vm_compute in E; discriminate E].
  exists P97, ch97, be97, al97, cols97, sent, evals, us. split; [exact wide97|]. split; [reflexivity|]. split; [reflexivity|].
  split; [exact (proj2 cols97_lengths)|]. split; [exact (proj1 cols97_satisfied)|]. split; [exact E|].
  assert (U : us = [n97 30; n97 31; n97 32]).
  { assert (K : match sumcheck_prove (honk_relations P97) 7 8 ch97 3 3 be97 al97 cols97 with Done (_, _, us) => us | _ => [] end = [n97 30; n97 31; n97 32]) by (vm_compute; reflexivity).
    rewrite E in K. exact K. }
  split.
  - rewrite U. assert (K : forallb (fun u => forallb (fun i => negb (feqb u (fnat i))) (seq 1 7)) [n97 30; n97 31; n97 32] = true) by (vm_compute; reflexivity).
    rewrite forallb_forall in K. apply Forall_forall. intros u Hu i Hi X. specialize (K u Hu). rewrite forallb_forall in K. specialize (K i ltac:(apply in_seq; lia)).
    rewrite X in K. apply negb_true_iff in K. rewrite <- not_true_iff_false in K. apply K. apply feqb_spec. reflexivity.
  - assert (K : match sumcheck_prove (honk_relations P97) 7 8 ch97 3 3 be97 al97 cols97 with
      | Done (sent, evals, _) => sumcheck_verify (honk_relations P97) 8 ch97 (repeat rone 3) be97 al97 sent evals | _ => Failed (Panic "") end = Done (false, [n97 30; n97 31; n97 32])) by (vm_compute; reflexivity).
    rewrite E in K. rewrite K, U. reflexivity.
Qed.
Print Assumptions C71_permutation_skip_refuted.
Example ex_C71_full : run97 (honk_relations_full P97) = Some (true, [30; 31; 32]%Z).
Proof. vm_compute. reflexivity. Qed.

(** satisfied columns: all relations hold in every row, but the second one of lookups only in the sum *)
Theorem C71_satisfied : forall {F : Type} {FF : Fld F} (P : rparams (F := F)) (m : nat) (cols : list (list F)),
  satisfied (honk_relations P) m cols <->
  (forall f, In f [arith0; arith1; perm0 P; perm1; lookup0 P; lookup2; delta0; delta1; delta2; delta3; elliptic0 P; elliptic1 P;
     memory0 P; memory1; memory2; memory3 P; memory4; memory5 P; nnf0 P; pos_ext0; pos_ext1; pos_ext2; pos_ext3; pos_int0 P; pos_int1 P; pos_int2 P; pos_int3 P] ->
   forall i, i < 2 ^ m -> f (row cols i) = gzero) /\ sumn (2 ^ m) (fun i => lookup1 P (row cols i)) = gzero.
Proof. exact @honk_satisfied. Qed.
Print Assumptions C71_satisfied.
(** skipping lookups is right on an edge between two rows in which entries are tagged only if they are counted and the
    inverse is zero where nothing is looked up (after folding this may fail) *)
Theorem C71_lookup_skip : forall {F : Type} {FF : Fld F} (P : rparams (F := F)) (cols : list (list F)) (l : nat), length cols = 41 ->
  honest_lookup (row cols (2 * l)) -> honest_lookup (row cols (S (2 * l))) ->
  lookup_skip (map (fun p => values [fst p; snd p] 7) (edge cols l)) = true ->
  forall x, lookup0 P (line (edge cols l) x) = gzero /\ lookup1 P (line (edge cols l) x) = gzero /\ lookup2 (line (edge cols l) x) = gzero.
Proof. exact @lookup_skip_ok. Qed.
Print Assumptions C71_lookup_skip.
(** in the example nothing is looked up; an edge with a count is not skipped *)
Example ex_C71_lookup_skip : length cols97 = 41 /\ honest_lookup (row cols97 4) /\ honest_lookup (row cols97 5) /\
  lookup_skip (map (fun p => values [fst p; snd p] 7) (edge cols97 2)) = true /\
  lookup_skip (map (fun p => values [fst p; snd p] 7) (edge (firstn 34 cols97 ++ [col_ (on [5] (n97 1))] ++ skipn 35 cols97) 2)) = false.
Proof.
  split; [reflexivity|]. split; [|split; [|split; vm_compute; reflexivity]]; split; intros; apply eq97; vm_compute; reflexivity.
Qed.

(** ** C72: what the gates mean *)
(** a gate by the values of some of its entities *)
Definition g97 (l : list (Z * Z)) : gate (F := F97) :=
  let v k := match find (fun p => Nat.eqb (Z.to_nat (fst p)) k) l with Some p => f97 (snd p) | None => gzero end in
  Build_gate (v 0) (v 1) (v 2) (v 3) (v 4) (v 5) (v 6) (v 7) (v 8) (v 9) (v 10) (v 11) (v 12) (v 13) (v 14) (v 15) (v 16) (v 17) (v 18) (v 19)
    (v 20) (v 21) (v 22) (v 23) (v 24) (v 25) (v 26) (v 27) (v 28) (v 29) (v 30) (v 31) (v 32) (v 33) (v 34) (v 35) (v 36) (v 37) (v 38) (v 39) (v 40).
(** the values of a list of subrelations on a gate *)
Definition vals97 (fs : list (list F97 -> F97)) (g : gate) : list Z := map (fun f => val (f (encode g))) fs.

Local Open Scope grp_scope.
Infix "*" := rmul : grp_scope.
Notation "1" := rone : grp_scope.

(** arithmetic gates; [q_arith] = 1: an addition and a multiplication; 2: also the next fourth wire; 3: a second
    linear equation instead of the product *)
Theorem C72_arithmetic : forall {F : Type} {FF : Fld F} (g : gate (F := F)), (1 + 1 <> (0 : F)) ->
  (arith g = 0 -> arith0 (encode g) = 0 /\ arith1 (encode g) = 0) /\
  (arith g = 1 -> arith0 (encode g) = m g * w1 g * w2 g + linear g /\ arith1 (encode g) = 0) /\
  (arith g = 1 + 1 -> arith0 (encode g) = m g * w1 g * w2 g + (1 + 1) * (linear g + w4' g) /\ arith1 (encode g) = 0) /\
  (arith g = three -> arith0 (encode g) = three * (linear g + (1 + 1) * w4' g) /\ arith1 (encode g) = (1 + 1) * three * (w1 g + w4 g + m g - w1' g)).
Proof. intros F FF g N. exact (conj (@arith_off F FF g) (conj (@arith_1 F FF g N) (conj (@arith_2 F FF g N) (@arith_3 F FF g)))). Qed.
Print Assumptions C72_arithmetic.
Example ex_C72_arithmetic :
  vals97 [arith0; arith1] (g97 [(7, 1); (0, 1); (4, -1); (28, 5); (29, 7); (30, 35)])%Z = [0; 0]%Z /\
  vals97 [arith0; arith1] (g97 [(7, 1); (0, 1); (4, -1); (28, 5); (29, 7); (30, 36)])%Z = [96; 0]%Z /\
  vals97 [arith0; arith1] (g97 [(7, 3); (2, 1); (3, 1); (5, 2); (0, -4); (28, 5); (29, 9); (31, 3); (36, 4); (39, -10)])%Z = [0; 0]%Z.
Proof. vm_compute. repeat split. Qed.

(** range gates: neighbouring wires differ by 0, 1, 2 or 3 *)
Theorem C72_range : forall {F : Type} {FF : Fld F} (g : gate (F := F)), delta_range g = 1 ->
  (delta0 (encode g) = 0 /\ delta1 (encode g) = 0 /\ delta2 (encode g) = 0 /\ delta3 (encode g) = 0 <->
   small (w2 g - w1 g) /\ small (w3 g - w2 g) /\ small (w4 g - w3 g) /\ small (w1' g - w4 g)).
Proof. exact @range_gate. Qed.
Print Assumptions C72_range.
Example ex_C72_range :
  vals97 [delta0; delta1; delta2; delta3] (g97 [(8, 1); (28, 5); (29, 8); (30, 10); (31, 11); (36, 11)])%Z = [0; 0; 0; 0]%Z /\
  vals97 [delta0; delta1; delta2; delta3] (g97 [(8, 1); (28, 5); (29, 9); (30, 10); (31, 11); (36, 11)])%Z = [24; 0; 0; 0]%Z.
Proof. vm_compute. repeat split. Qed.

(** points of the curve: addition and subtraction of points with different first coordinates, doubling *)
Theorem C72_points : forall {F : Type} {FF : Fld F} (P : rparams (F := F)) (g : gate (F := F)) (l : F), ell g = 1 ->
  (m g = 0 -> q1 g * q1 g = 1 -> w1' g <> w2 g -> l * (w1' g - w2 g) = q1 g * w4' g - w3 g ->
   (elliptic0 P (encode g) = 0 /\ elliptic1 P (encode g) = 0 <-> on_chord l (w2 g) (w3 g) (w1' g) (w2' g) (w3' g))) /\
  (m g = 1 -> w3 g + w3 g <> 0 -> w3 g * w3 g = w2 g * w2 g * w2 g + rp_curve_b P -> l * (w3 g + w3 g) = three * (w2 g * w2 g) ->
   (elliptic0 P (encode g) = 0 /\ elliptic1 P (encode g) = 0 <-> on_chord l (w2 g) (w3 g) (w2 g) (w2' g) (w3' g))).
Proof. intros F FF P g l E. exact (conj (@add_gate F FF P g l E) (@double_gate F FF P g l E)). Qed.
Print Assumptions C72_points.
(** on y^2 = x^3 + 2: (0, 14) + (1, 10) = (15, 46), (0, 14) - (1, 10) = (90, 12), 2 (1, 10) = (23, 74) *)
Example ex_C72_points :
  vals97 [elliptic0 P97; elliptic1 P97] (g97 [(9, 1); (2, 1); (29, 0); (30, 14); (36, 1); (39, 10); (37, 15); (38, 46)])%Z = [0; 0]%Z /\
  vals97 [elliptic0 P97; elliptic1 P97] (g97 [(9, 1); (2, -1); (29, 0); (30, 14); (36, 1); (39, 10); (37, 90); (38, 12)])%Z = [0; 0]%Z /\
  vals97 [elliptic0 P97; elliptic1 P97] (g97 [(9, 1); (0, 1); (29, 1); (30, 10); (37, 23); (38, 74)])%Z = [0; 0]%Z /\
  vals97 [elliptic0 P97; elliptic1 P97] (g97 [(9, 1); (0, 1); (29, 1); (30, 10); (37, 23); (38, 23)])%Z <> [0; 0]%Z.
Proof. vm_compute. repeat split. discriminate. Qed.

(** Poseidon2: the next row is the state after a round *)
Theorem C72_poseidon2 : forall {F : Type} {FF : Fld F} (P : rparams (F := F)) (g : gate (F := F)),
  (pos2_ext g = 1 ->
   let u := (pow5 (w1 g + q1 g), pow5 (w2 g + q2 g), pow5 (w3 g + q3 g), pow5 (w4 g + q4 g)) in
   (pos_ext0 (encode g) = 0 /\ pos_ext1 (encode g) = 0 /\ pos_ext2 (encode g) = 0 /\ pos_ext3 (encode g) = 0 <->
    w1' g = mat 5 7 1 3 u /\ w2' g = mat 4 6 1 1 u /\ w3' g = mat 1 3 5 7 u /\ w4' g = mat 1 1 4 6 u)) /\
  (pos2_int g = 1 ->
   let u := (pow5 (w1 g + q1 g), w2 g, w3 g, w4 g) in
   (pos_int0 P (encode g) = 0 /\ pos_int1 P (encode g) = 0 /\ pos_int2 P (encode g) = 0 /\ pos_int3 P (encode g) = 0 <->
    w1' g = rp_d0 P * pow5 (w1 g + q1 g) + mat 1 1 1 1 u /\ w2' g = rp_d1 P * w2 g + mat 1 1 1 1 u /\
    w3' g = rp_d2 P * w3 g + mat 1 1 1 1 u /\ w4' g = rp_d3 P * w4 g + mat 1 1 1 1 u)).
Proof. intros F FF P g. exact (conj (@pos_ext_gate F FF g) (@pos_int_gate F FF P g)). Qed.
Print Assumptions C72_poseidon2.
Example ex_C72_poseidon2 :
  vals97 [pos_ext0; pos_ext1; pos_ext2; pos_ext3] (g97 [(12, 1); (28, 3); (29, 4); (30, 5); (31, 6); (2, 7); (3, 8); (4, 9); (5, 10);
    (36, 34); (37, 2); (38, 8); (39, 86)])%Z = [0; 0; 0; 0]%Z /\
  vals97 [pos_int0 P97; pos_int1 P97; pos_int2 P97; pos_int3 P97] (g97 [(13, 1); (28, 3); (29, 4); (30, 5); (31, 6); (2, 7);
    (36, 70); (37, 32); (38, 43); (39, 56)])%Z = [0; 0; 0; 0]%Z.
Proof. vm_compute. repeat split. Qed.

(** memory: records of accesses; sorted reads of a ROM; sorted accesses of a RAM, and their time stamps *)
Theorem C72_memory : forall {F : Type} {FF : Fld F} (P : rparams (F := F)) (g : gate (F := F)), memory g = 1 ->
  let record := rp_eta1 P * w1 g + rp_eta2 P * w2 g + rp_eta3 P * w3 g in
  let record' := rp_eta1 P * w1' g + rp_eta2 P * w2' g + rp_eta3 P * w3' g in
  let holds := memory0 P (encode g) = 0 /\ memory1 (encode g) = 0 /\ memory2 (encode g) = 0 /\
               memory3 P (encode g) = 0 /\ memory4 (encode g) = 0 /\ memory5 P (encode g) = 0 in
  (q1 g = 1 -> m g = 1 -> q2 g = 0 -> q3 g = 0 -> q4 g = 0 -> (holds <-> w4 g = record + c g)) /\
  (q1 g = 1 -> q2 g = 1 -> m g = 0 -> q3 g = 0 -> q4 g = 0 ->
   (holds <-> w4 g = record + c g /\ bit (w1' g - w1 g) /\ (w1' g = w1 g -> w4' g = w4 g))) /\
  (q3 g = 1 -> q1 g = 0 -> q2 g = 0 -> m g = 0 -> q4 g = 0 -> c g = 0 ->
   (holds <-> bit (w4 g - record) /\ bit (w1' g - w1 g) /\ bit (w4' g - record') /\ (w1' g = w1 g -> w4' g = record' -> w3' g = w3 g))) /\
  (q1 g = 1 -> q4 g = 1 -> m g = 0 -> q2 g = 0 -> q3 g = 0 -> bit (w1' g - w1 g) ->
   (holds <-> w3 g = if feqb (w1' g) (w1 g) then w2' g - w2 g else 0)).
Proof.
  intros F FF P g Q. exact (conj (@access_gate F FF P g Q) (conj (@rom_gate F FF P g Q) (conj (@ram_gate F FF P g Q) (@timestamp_gate F FF P g Q)))).
Qed.
Print Assumptions C72_memory.
Definition mem97 := [memory0 P97; memory1; memory2; memory3 P97; memory4; memory5 P97].
(** a RAM: the value 9 written to cell 2 at time 8 and read at time 11; then another value read; time stamps *)
Example ex_C72_memory :
  vals97 mem97 (g97 [(10, 1); (4, 1); (28, 2); (29, 8); (30, 9); (31, 84); (36, 2); (37, 11); (38, 9); (39, 95)])%Z = [0; 0; 0; 0; 0; 0]%Z /\
  vals97 mem97 (g97 [(10, 1); (4, 1); (28, 2); (29, 8); (30, 9); (31, 84); (36, 2); (37, 11); (38, 7); (39, 85)])%Z = [0; 0; 0; 95; 0; 0]%Z /\
  vals97 mem97 (g97 [(10, 1); (2, 1); (5, 1); (28, 2); (29, 8); (30, 3); (36, 2); (37, 11)])%Z = [0; 0; 0; 0; 0; 0]%Z /\
  vals97 mem97 (g97 [(10, 1); (2, 1); (3, 1); (28, 2); (29, 8); (30, 9); (31, 83); (36, 3); (37, 8); (38, 9); (39, 86)])%Z = [0; 0; 0; 0; 0; 0]%Z.
Proof. vm_compute. repeat split. Qed.

(** products of numbers in limbs, and limbs from digits *)
Theorem C72_limbs : forall {F : Type} {FF : Fld F} (P : rparams (F := F)) (g : gate (F := F)), nnf g = 1 ->
  let B := rp_limb P in
  let cross := w1 g * w2' g + w1' g * w2 g in
  let digits5 a b d e f := a + rp_sublimb P * (b + rp_sublimb P * (d + rp_sublimb P * (e + rp_sublimb P * f))) in
  (q2 g = 1 -> q3 g = 1 -> q4 g = 0 -> m g = 0 -> (nnf0 P (encode g) = 0 <-> B * cross + w1' g * w2' g = w3 g + w4 g)) /\
  (q2 g = 1 -> q4 g = 1 -> q3 g = 0 -> m g = 0 -> (nnf0 P (encode g) = 0 <-> B * (w1 g * w4 g + w2 g * w3 g) + cross = B * w3' g + w4' g)) /\
  (q2 g = 1 -> m g = 1 -> q3 g = 0 -> q4 g = 0 -> (nnf0 P (encode g) = 0 <-> B * cross + w1' g * w2' g + w4 g = w3' g + w4' g)) /\
  (q3 g = 1 -> q4 g = 1 -> q2 g = 0 -> m g = 0 -> (nnf0 P (encode g) = 0 <-> w4 g = digits5 (w1 g) (w2 g) (w3 g) (w1' g) (w2' g))) /\
  (q3 g = 1 -> m g = 1 -> q2 g = 0 -> q4 g = 0 -> (nnf0 P (encode g) = 0 <-> w4' g = digits5 (w3 g) (w4 g) (w1' g) (w2' g) (w3' g))).
Proof. exact @nnf_gates. Qed.
Print Assumptions C72_limbs.
Example ex_C72_limbs :
  vals97 [nnf0 P97] (g97 [(11, 1); (3, 1); (4, 1); (28, 1); (29, 2); (36, 3); (37, 1); (30, 10); (31, 8); (36, 3)])%Z = [0]%Z /\
  vals97 [nnf0 P97] (g97 [(11, 1); (3, 1); (4, 1); (28, 1); (29, 2); (36, 3); (37, 1); (30, 10); (31, 8)])%Z = [0]%Z /\
  vals97 [nnf0 P97] (g97 [(11, 1); (4, 1); (5, 1); (28, 1); (29, 2); (30, 3); (36, 1); (37, 2); (31, 51)])%Z = [0]%Z.
Proof. vm_compute. repeat split. Qed.

(** the permutation argument: if the subrelations hold in all rows, then the products of all wires with their
    positions and with their successors in the permutation agree, up to the term of the public inputs *)
Theorem C72_permutation : forall {F : Type} {FF : Fld F} (P : rparams (F := F)) (n : nat) (g : nat -> gate (F := F)),
  let wire id w := w + rp_beta P * id + rp_gamma P in
  1 <= n ->
  (forall i, i < n -> first (g i) = (if (i =? 0)%nat then 1 else 0)) -> (forall i, i < n -> last (g i) = (if (S i =? n)%nat then 1 else 0)) ->
  (forall i, S i < n -> z' (g i) = z (g (S i))) -> z (g 0%nat) = 0 ->
  (forall i, i < n -> perm0 P (encode (g i)) = 0 /\ perm1 (encode (g i)) = 0) ->
  prod n (fun i => wire (i1 (g i)) (w1 (g i)) * wire (i2 (g i)) (w2 (g i)) * wire (i3 (g i)) (w3 (g i)) * wire (i4 (g i)) (w4 (g i))) =
  rp_delta P * prod n (fun i => wire (s1 (g i)) (w1 (g i)) * wire (s2 (g i)) (w2 (g i)) * wire (s3 (g i)) (w3 (g i)) * wire (s4 (g i)) (w4 (g i))).
Proof. exact @permutation_gates. Qed.
Print Assumptions C72_permutation.
(** the rows of the circuit above *)
Definition rows97 (i : nat) : gate (F := F97) := g97 (map (fun k => (Z.of_nat k, val (nth i (nth k cols97 []) gzero))) (seq 0 41)).
Example ex_C72_permutation :
  forallb (fun i => Z.eqb (val (perm0 P97 (encode (rows97 i)))) 0 && Z.eqb (val (perm1 (encode (rows97 i)))) 0 &&
                    Z.eqb (val (first (rows97 i))) (if (i =? 0)%nat then 1 else 0) && Z.eqb (val (last (rows97 i))) (if (i =? 7)%nat then 1 else 0)) (seq 0 8) = true /\
  forallb (fun i => Z.eqb (val (z' (rows97 i))) (val (z (rows97 (S i))))) (seq 0 7) = true /\ val (z (rows97 0)) = 0%Z.
Proof. vm_compute. repeat split. Qed.

(** lookups: the sum of the inverses of what is read is the sum of the inverses of the entries of the table, each
    as often as counted *)
Theorem C72_lookup : forall {F : Type} {FF : Fld F} (P : rparams (F := F)) (n : nat) (g : nat -> gate (F := F)),
  let b := rp_beta P in
  let read g := (w1 g + q2 g * w1' g) + b * (w2 g + m g * w2' g) + b * b * (w3 g + c g * w3' g) + b * b * b * q3 g + rp_gamma P in
  let entry g := t1 g + b * t2 g + b * b * t3 g + b * b * b * t4 g + rp_gamma P in
  (forall i, i < n -> read (g i) <> 0 /\ entry (g i) <> 0 /\ bit (lookup (g i))) ->
  (forall i, i < n -> lookup0 P (encode (g i)) = 0 /\ lookup2 (encode (g i)) = 0) -> sumn n (fun i => lookup1 P (encode (g i))) = 0 ->
  sumn n (fun i => lookup (g i) * finv (read (g i))) =
  sumn n (fun i => (if feqb (lookup (g i)) 1 || feqb (tags (g i)) 1 then counts (g i) else 0) * finv (entry (g i))) /\
  forall i, i < n -> bit (tags (g i)).
Proof. exact @lookup_gates. Qed.
Print Assumptions C72_lookup.
(** the first row reads (1, 2, 3) of table 1, which is in the second row *)
Definition look97 (i : nat) : gate (F := F97) :=
  match i with
  | O => g97 [(6, 1); (4, 1); (28, 1); (29, 2); (30, 3); (22, 5); (23, 6); (24, 7); (25, 1); (33, 44)]%Z
  | _ => g97 [(22, 1); (23, 2); (24, 3); (25, 1); (33, 90); (34, 1); (35, 1)]%Z
  end.
Example ex_C72_lookup :
  forallb (fun i => Z.eqb (val (lookup0 P97 (encode (look97 i)))) 0 && Z.eqb (val (lookup2 (encode (look97 i)))) 0) (seq 0 2) = true /\
  val (sumn 2 (fun i => lookup1 P97 (encode (look97 i)))) = 0%Z.
Proof. vm_compute. repeat split. Qed.
