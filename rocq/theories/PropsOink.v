(** * Properties C77, C78 and C79: the columns of the Oink prover, the wiring of the circuit, the whole prover *)
From Coq Require Import String List Arith ZArith Lia Bool Permutation.
From Verif Require Import Proc Alg Zp NNet Rep3 ShamirPoly Shamir ShamirAlg Univariate Sumcheck SumcheckSpec SumcheckSound HonkRelations HonkSpec HonkProofs HonkSkip Shplemini ShpleminiFold ShpleminiPoly ShpleminiQuot ShpleminiVerify ShpleminiSound HonkRows Decider DeciderProofs Oink OinkGrand OinkTrace OinkProofs OinkRelations OinkComplete OinkDecider Concrete ConcreteP ConcreteH PropsShplemini PropsDecider.
From Verif Require Groth16Complete.
Import ListNotations.
Local Open Scope string_scope.
Local Open Scope list_scope.

(** ** C77: the columns that the Oink prover computes satisfy the relations in which they occur *)
(** the fourth wire: the records of reads and writes are added to it, once each *)
Theorem C77_w4 : forall {F : Type} {FF : Fld F} (fs : list (list F)) (reads writes : list nat) (eta1 eta2 eta3 : F),
  NoDup (reads ++ writes) -> (forall i, In i (reads ++ writes) -> i < length (nth 31 fs [])) ->
  exists w4, compute_w4 fs reads writes eta1 eta2 eta3 = Done w4 /\ length w4 = length (nth 31 fs []) /\
    forall i, nth i w4 gzero = gadd (cell fs 31 i)
      (if existsb (Nat.eqb i) reads then gadd (gadd (rmul eta1 (cell fs 28 i)) (rmul eta2 (cell fs 29 i))) (rmul eta3 (cell fs 30 i)) else
       if existsb (Nat.eqb i) writes then gadd (gadd (gadd (rmul eta1 (cell fs 28 i)) (rmul eta2 (cell fs 29 i))) (rmul eta3 (cell fs 30 i))) rone else gzero).
Proof. exact @w4_values. Qed.
Print Assumptions C77_w4.
(** in the gate of a read (q_c = 0) or of a write (q_c = 1) the relations of memory hold *)
Theorem C77_record : forall {F : Type} {FF : Fld F} (P : rparams (F := F)) (fs : list (list F)) (reads writes : list nat) (w4 : list F) (i : nat), length fs = 36 ->
  NoDup (reads ++ writes) -> (forall i, In i (reads ++ writes) -> i < length (nth 31 fs [])) ->
  compute_w4 fs reads writes (rp_eta1 P) (rp_eta2 P) (rp_eta3 P) = Done w4 ->
  cell fs 10 i = rone -> cell fs 2 i = rone -> cell fs 0 i = rone -> cell fs 3 i = gzero -> cell fs 4 i = gzero -> cell fs 5 i = gzero -> cell fs 31 i = gzero ->
  (In i reads /\ cell fs 1 i = gzero) \/ (In i writes /\ cell fs 1 i = rone) ->
  let r := row (all_entities (set_at 31 w4 fs)) i in
  memory0 P r = gzero /\ memory1 r = gzero /\ memory2 r = gzero /\ memory3 P r = gzero /\ memory4 r = gzero /\ memory5 P r = gzero.
Proof. exact @record_gate. Qed.
Print Assumptions C77_record.
(** the inverses of lookups: the first and the third relation hold in all rows, and the value of the second one *)
Theorem C77_lookup_rows : forall {F : Type} {FF : Fld F} (P : rparams (F := F)) (fs : list (list F)) (size : nat), length fs = 36 ->
  (forall i, i < size -> bit (cell fs 6 i) /\ bit (cell fs 35 i)) ->
  (forall i, i < size -> needed fs i = true -> compute_read_term fs (rp_beta P) (rp_gamma P) i <> gzero /\ compute_write_term fs (rp_beta P) (rp_gamma P) i <> gzero) ->
  forall i, i < size ->
  let r := row (all_entities (set_at 33 (compute_logderivative_inverses fs size (rp_beta P) (rp_gamma P)) fs)) i in
  lookup0 P r = gzero /\ lookup2 r = gzero /\
  lookup1 P r = if needed fs i
                then gsub (rmul (cell fs 6 i) (finv (compute_read_term fs (rp_beta P) (rp_gamma P) i))) (rmul (cell fs 34 i) (finv (compute_write_term fs (rp_beta P) (rp_gamma P) i)))
                else gzero.
Proof. exact @lookup_rows. Qed.
Print Assumptions C77_lookup_rows.
(** the second one sums to zero, if everything that is looked up is in the tables and the counts are right *)
Theorem C77_lookup_sum : forall {F : Type} {FF : Fld F} (P : rparams (F := F)) (fs : list (list F)) (size : nat), length fs = 36 -> forall loc : nat -> nat,
  (forall i, i < size -> bit (cell fs 6 i) /\ bit (cell fs 35 i)) ->
  (forall i, i < size -> needed fs i = true -> compute_read_term fs (rp_beta P) (rp_gamma P) i <> gzero /\ compute_write_term fs (rp_beta P) (rp_gamma P) i <> gzero) ->
  let looks := fun i => feqb (cell fs 6 i) rone in
  (forall i, i < size -> cell fs 6 i = rone -> loc i < size /\
     gadd (cell fs 28 i) (rmul (cell fs 3 i) (cell fs 28 (S i))) = cell fs 22 (loc i) /\ gadd (cell fs 29 i) (rmul (cell fs 0 i) (cell fs 29 (S i))) = cell fs 23 (loc i) /\
     gadd (cell fs 30 i) (rmul (cell fs 1 i) (cell fs 30 (S i))) = cell fs 24 (loc i) /\ cell fs 4 i = cell fs 25 (loc i)) ->
  (forall j, j < size -> cell fs 34 j = fnat (hits looks loc size j)) ->
  (forall j, j < size -> 0 < hits looks loc size j -> cell fs 35 j = rone) ->
  sumn size (fun i => lookup1 P (row (all_entities (set_at 33 (compute_logderivative_inverses fs size (rp_beta P) (rp_gamma P)) fs)) i)) = gzero.
Proof. exact @lookup_sum. Qed.
Print Assumptions C77_lookup_sum.
(** the grand product: both relations of the permutation hold in all rows, if the whole product is [rp_delta] *)
Theorem C77_permutation : forall {F : Type} {FF : Fld F} (P : rparams (F := F)) (fs : list (list F)) (size : nat), length fs = 36 -> forall (blocks : list (list (list nat))) (z : list F),
  let n := length (concat blocks) in 1 <= n -> n < size ->
  (forall i, i < size -> cell fs 26 i = if (i =? 0)%nat then rone else gzero) -> (forall i, i < size -> cell fs 27 i = if (i =? n)%nat then rone else gzero) ->
  (forall k, k < 4 -> cell fs (14 + k) 0 = cell fs (18 + k) 0) ->
  (forall i, 1 <= i < n -> gp_denominator fs (rp_beta P) (rp_gamma P) i <> gzero) ->
  prod n (fun i => gp_numerator fs (rp_beta P) (rp_gamma P) (S i)) = rmul (rp_delta P) (prod n (fun i => gp_denominator fs (rp_beta P) (rp_gamma P) (S i))) ->
  compute_grand_product fs size (final_active_row 1 blocks) (active_ranges 1 blocks) (active_idxs (active_ranges 1 blocks)) (rp_beta P) (rp_gamma P) = Done z ->
  forall i, i < size -> perm0 P (row (all_entities (set_at 32 z fs)) i) = gzero /\ perm1 (row (all_entities (set_at 32 z fs)) i) = gzero.
Proof. exact @grand_relations. Qed.
Print Assumptions C77_permutation.

(** ** C78: the wiring. If equal variables hold equal values and the tagged ones are a permutation, the whole product is
    the term of the public inputs *)
Theorem C78_wiring : forall {F : Type} {FF : Fld F} (sep size nv : nat) (real tags tau : nat -> nat) (blocks : list (list (list nat))) (vals : nat -> F) (fs : list (list F)) (beta gamma : F)
    (num_public : nat) (d : F),
  let cells := trace_cells real 1 blocks in
  let rows := concat blocks in
  let n := length rows in
  let in_use := filter (fun v => existsb (fun c => (fst c =? v)%nat) cells) (seq 0 nv) in
  n < size -> num_public <= n -> (forall c, In c cells -> fst c < nv) ->
  (forall v k i, In (v, (k, i)) cells -> cell fs (28 + k) i = vals v) ->
  Permutation (map (fun v => (vals v, tau (tags v))) in_use) (map (fun v => (vals v, tags v)) in_use) ->
  (forall j, j < num_public -> real (nth 0 (nth j rows []) 0) = real (nth 1 (nth j rows []) 0)) ->
  wired sep size nv real tags tau blocks num_public fs ->
  compute_public_input_delta sep beta gamma (map (fun j => cell fs 29 (S j)) (seq 0 num_public)) 1 = Done d ->
  prod n (fun i => gp_numerator fs beta gamma (S i)) = rmul d (prod n (fun i => gp_denominator fs beta gamma (S i))).
Proof. exact @wiring_product. Qed.
Print Assumptions C78_wiring.
(** the term of the public inputs *)
Theorem C78_public_delta : forall {F : Type} {FF : Fld F} (sep : nat) (beta gamma : F) (xs : list F) (offset : nat) (d : F),
  compute_public_input_delta sep beta gamma xs offset = Done d ->
  prod (length xs) (fun j => gadd (gadd (nth j xs gzero) (rmul (gneg (fnat (j + offset + 1))) beta)) gamma) <> gzero /\
  rmul d (prod (length xs) (fun j => gadd (gadd (nth j xs gzero) (rmul (gneg (fnat (j + offset + 1))) beta)) gamma)) =
  prod (length xs) (fun j => gadd (gadd (nth j xs gzero) (rmul (fnat (j + offset + sep)) beta)) gamma).
Proof. exact @public_delta. Qed.
Print Assumptions C78_public_delta.

(** ** C79: the whole prover *)
(** the columns after the Oink prover satisfy all relations *)
Theorem C79_satisfied : forall {F : Type} {FF : Fld F} (P : rparams (F := F)) (sep m : nat) (reads writes : list nat) (nv : nat) (real tags tau : nat -> nat) (blocks : list (list (list nat)))
    (num_public : nat) (vals : nat -> F) (loc : nat -> nat) (fs : list (list F)) (w4 : list F),
  honest P sep m reads writes nv real tags tau blocks num_public vals loc fs w4 ->
  exists z, let fs3 := set_at 32 z (set_at 33 (compute_logderivative_inverses (set_at 31 w4 fs) (2 ^ m) (rp_beta P) (rp_gamma P)) (set_at 31 w4 fs)) in
  oink sep fs (2 ^ m) reads writes (map (fun j => cell fs 29 (S j)) (seq 0 num_public)) 1 (final_active_row 1 blocks) (active_ranges 1 blocks) (active_idxs (active_ranges 1 blocks))
    (rp_eta1 P) (rp_beta P) (rp_gamma P) = Done (fs3, rp_delta P) /\
  length z = 2 ^ m /\ nth 0 z gzero = gzero /\ satisfied (honk_relations_full P) m (all_entities fs3).
Proof. exact @oink_honest. Qed.
Print Assumptions C79_satisfied.
(** and the verifier accepts what the decider makes of them *)
Theorem C79_accepted : forall {F : Type} {FF : Fld F} {G : Type} {GG : AbGrp G} {MG : Mod F G} {H : Type} {GH : AbGrp H} {MH : Mod F H} {GT : Type} {GGT : AbGrp GT} {MGT : Mod F GT}
    (e : G -> H -> GT) (srs_tau : F) (gen : G) (h : H) (P : rparams (F := F)), wide (F := F) 8 -> Groth16Complete.pairing e ->
  forall (N : nat) (chal : list (list F) -> F) (v : nat) (betas alphas : list F) (rho r nu zc : F) (sep m : nat) (reads writes : list nat) (nv : nat) (real tags tau : nat -> nat)
    (blocks : list (list (list nat))) (num_public : nat) (vals : nat -> F) (loc : nat -> nat) (fs : list (list F)) (w4 : list F),
  honest P sep m reads writes nv real tags tau blocks num_public vals loc fs w4 ->
  length alphas = 27 -> 2 <= m -> m <= v -> v <= length betas -> 2 ^ m <= N ->
  Forall (fun col => length col = 2 ^ m) fs -> length w4 = 2 ^ m -> (forall k, k < 4 -> cell (set_at 31 w4 fs) (28 + k) 0 = gzero) ->
  exists fs3,
    oink sep fs (2 ^ m) reads writes (map (fun j => cell fs 29 (S j)) (seq 0 num_public)) 1 (final_active_row 1 blocks) (active_ranges 1 blocks) (active_idxs (active_ranges 1 blocks))
      (rp_eta1 P) (rp_beta P) (rp_gamma P) = Done (fs3, rp_delta P) /\
    forall fcoms, omapM (commit (srs srs_tau gen N)) fs3 = Done fcoms ->
    exists sent evals us,
      sumcheck_prove (honk_relations_full P) 7 8 chal m v betas alphas (all_entities fs3) = Done (sent, evals, us) /\ length us = v /\
      (Forall (fun u => forall i, 1 <= i < 8 -> u <> fnat i) us -> r <> gzero -> dens_ok us r -> Forall (fun p => zc <> p /\ zc <> gneg p) (sq r v) ->
       exists pr, decider_prove (honk_relations_full P) 7 8 chal (srs srs_tau gen N) m v betas alphas fs3 rho r nu zc = Done (sent, evals, pr) /\
         decider_verify (honk_relations P) 8 chal e gen (smul srs_tau h) h v betas alphas fcoms sent evals rho r nu zc pr = Done (Some gzero)).
Proof. exact @honest_accepted. Qed.
Print Assumptions C79_accepted.

(** ** A circuit: row 1: the public input 5; row 2: 2 and 3 give 6 in a table; row 3: 2 + 3 = 5; row 4: the public input is
    5, with the tag of the sum; row 5: a read of the cell (2, 3, 0). Variables: 0 is zero, 1 the public input, 2 to 4 the
    entry of the table, 5 and 6 the tagged ones, 7 the record *)
Definition wires97 : list (list (list nat)) := [[[1; 1; 0; 0]]; [[2; 3; 4; 0]]; [[2; 3; 5; 0]; [1; 0; 6; 0]]; []; []; [[2; 3; 0; 7]]; []; []; []].
Definition tags97 (v : nat) : nat := if (v =? 5)%nat then 1 else if (v =? 6)%nat then 2 else 0.
Definition swap97 (t : nat) : nat := if (t =? 1)%nat then 2 else if (t =? 2)%nat then 1 else 0.
Definition delta97 : F97 := match compute_public_input_delta 8 (n97 11) (n97 13) [n97 5] 1 with Done d => d | _ => gzero end.
Definition Po97 : rparams (F := F97) := {| rp_eta1 := n97 3; rp_eta2 := n97 9; rp_eta3 := n97 27; rp_beta := n97 11; rp_gamma := n97 13; rp_delta := delta97;
  rp_curve_b := n97 2; rp_d0 := n97 5; rp_d1 := n97 6; rp_d2 := n97 7; rp_d3 := n97 8; rp_limb := n97 16; rp_sublimb := n97 4 |}.
Definition record97 : F97 := n97 33.
Definition vals97 (v : nat) : F97 := nth v [n97 0; n97 5; n97 2; n97 3; n97 6; n97 5; n97 5; record97] gzero.
Definition maps97 := permutation_mapping 8 tags97 swap97 (copy_cycles (trace_cells (fun v => v) 1 wires97)) 1 1.
Definition perm97 (m : mapping) (k : nat) : list F97 := lagrange_column 8 8 [1; 2; 3; 4; 5] m k.
Definition wire97 (k : nat) : list F97 := map (fun i => nth i (map (fun row => vals97 (nth k row 0)) ([0; 0; 0; 0] :: concat wires97)) gzero) (seq 0 8).
Definition col97 (l : list Z) : list F97 := map f97 l.
Definition zeros97 : list F97 := repeat (n97 0) 8.
Definition oink97 : list (list F97) :=
  [col97 [0; 0; 0; 0; 0; 1; 0; 0]%Z; zeros97; col97 [0; 0; 0; 1; 1; 1; 0; 0]%Z; col97 [0; 0; 0; 1; 0; 0; 0; 0]%Z; col97 [0; 0; 1; -1; -1; 0; 0; 0]%Z; zeros97;
   col97 [0; 0; 1; 0; 0; 0; 0; 0]%Z; col97 [0; 0; 0; 1; 1; 0; 0; 0]%Z; zeros97; zeros97; col97 [0; 0; 0; 0; 0; 1; 0; 0]%Z; zeros97; zeros97; zeros97] ++
  map (perm97 (fst maps97)) (seq 0 4) ++ map (perm97 (snd maps97)) (seq 0 4) ++
  [col97 [0; 0; 0; 0; 0; 0; 2; 0]%Z; col97 [0; 0; 0; 0; 0; 0; 3; 0]%Z; col97 [0; 0; 0; 0; 0; 0; 6; 0]%Z; col97 [0; 0; 0; 0; 0; 0; 1; 0]%Z;
   col97 [1; 0; 0; 0; 0; 0; 0; 0]%Z; col97 [0; 0; 0; 0; 0; 1; 0; 0]%Z] ++
  [wire97 0; wire97 1; wire97 2; zeros97; zeros97; zeros97; col97 [0; 0; 0; 0; 0; 0; 1; 0]%Z; col97 [0; 0; 0; 0; 0; 0; 1; 0]%Z].
Definition w497 : list F97 := wire97 3.
Lemma all8 (Q : nat -> Prop) : Q 0 -> Q 1 -> Q 2 -> Q 3 -> Q 4 -> Q 5 -> Q 6 -> Q 7 -> forall i, i < 8 -> Q i.
Proof. intros; do 8 (destruct i as [|i]; [assumption|]); lia. Qed.
Lemma bit97 (a : F97) : (val a =? 0)%Z || (val a =? 1)%Z = true -> bit a.
Proof. intros E. apply orb_true_iff in E. destruct E as [E|E]; apply Z.eqb_eq in E; [left|right]; apply eq97; rewrite E; reflexivity. Qed.
Example ex_honest : honest Po97 8 3 [5] [] 8 (fun v => v) tags97 swap97 wires97 1 vals97 (fun _ => 6) oink97 w497.
Proof.
  split.
  - vm_compute. repeat split; lia.
  - set (lhs := compute_w4 _ _ _ _ _ _). assert (X : match lhs with Done l => map val l | _ => [] end = map val w497) by (vm_compute; reflexivity).
    destruct lhs as [l|]; [|vm_compute in X; discriminate X]. f_equal. revert X. generalize w497. induction l as [|a l IH]; intros [|b l'] X; cbn [map] in X; try discriminate X; [reflexivity|].
    injection X as X1 X2. rewrite (eq97 a b X1), (IH l' X2). reflexivity.
  - apply all8; apply eq97; vm_compute; reflexivity.
  - apply all8; apply eq97; vm_compute; reflexivity.
  - intros k Hk. do 4 (destruct k as [|k]; [split; reflexivity|]). lia.
  - split.
    + intros c I. assert (X : forallb (fun c => fst c <? 8)%nat (trace_cells (fun v => v) 1 wires97) = true) by (vm_compute; reflexivity).
      rewrite forallb_forall in X. apply Nat.ltb_lt. exact (X c I).
    + intros v k i I. apply eq97.
      assert (X : forallb (fun c => val (cell (set_at 31 w497 oink97) (28 + fst (snd c)) (snd (snd c))) =? val (vals97 (fst c)))%Z (trace_cells (fun v => v) 1 wires97) = true) by (vm_compute; reflexivity).
      rewrite forallb_forall in X. apply Z.eqb_eq. exact (X _ I).
    + assert (X : filter (fun v => existsb (fun c => (fst c =? v)%nat) (trace_cells (fun v => v) 1 wires97)) (seq 0 8) = seq 0 8) by (vm_compute; reflexivity). cbv zeta. rewrite X.
      transitivity (map (fun v => (vals97 v, tags97 v)) [0; 1; 2; 3; 4; 6; 5; 7]); [|apply Permutation_map; cbn [seq]; do 5 apply Permutation.perm_skip; apply Permutation.perm_swap].
      replace (map (fun v => (vals97 v, swap97 (tags97 v))) (seq 0 8)) with (map (fun v => (vals97 v, tags97 v)) [0; 1; 2; 3; 4; 6; 5; 7]); reflexivity.
    + intros j Hj. replace j with 0 by lia. reflexivity.
  - split.
    + apply all8; split; apply bit97; vm_compute; reflexivity.
    + apply (all8 (fun i => _ \/ _ -> _ /\ _)); intros _; split; apply neq97; vm_compute; discriminate.
    + apply (all8 (fun i => _ = _ -> _ /\ _ /\ _ /\ _ /\ _)); intros E; try (exfalso; revert E; apply neq97; vm_compute; discriminate).
      split; [cbn; lia|]. repeat split; apply eq97; vm_compute; reflexivity.
    + apply all8; apply eq97; vm_compute; reflexivity.
    + apply (all8 (fun i => 0 < _ -> _ = _)); intros E; try (exfalso; vm_compute in E; lia). apply eq97; vm_compute; reflexivity.
  - intros f I. assert (X : forallb (fun f => forallb (fun i => (val (f (row (all_entities (set_at 31 w497 oink97)) i)) =? 0)%Z) (seq 0 8)) (gate_relations Po97) = true) by (vm_compute; reflexivity).
    rewrite forallb_forall in X. specialize (X f I). rewrite forallb_forall in X. intros i Hi. apply eq97. apply Z.eqb_eq. apply X. apply in_seq. cbn in Hi. lia.
  - intros i Hi. change (1 <= i < 5) in Hi. do 5 (destruct i as [|i]; [try lia; apply neq97; vm_compute; discriminate|]). lia.
  - assert (X : match compute_public_input_delta 8 (n97 11) (n97 13) [n97 5] 1 with Done _ => true | _ => false end = true) by (vm_compute; reflexivity).
    change (compute_public_input_delta 8 (n97 11) (n97 13) [n97 5] 1 = Done delta97). unfold delta97.
    destruct (compute_public_input_delta 8 (n97 11) (n97 13) [n97 5] 1); [reflexivity|discriminate X].
Qed.
(** the columns after the Oink prover *)
Definition after97 : list (list F97) := match oink 8 oink97 8 [5] [] [n97 5] 1 5 [(1, 2); (2, 3); (3, 5); (5, 6)] [1; 2; 3; 4; 5] (n97 3) (n97 11) (n97 13) with Done (fs, _) => fs | _ => [] end.
Definition honk_ok97 (fs : list (list F97)) : bool := row_ok (honk_relations_full Po97) (all_entities fs) 8.
Example ex_C77 : honk_ok97 after97 = true /\ map val (nth 31 after97 []) = [0; 0; 0; 0; 0; 33; 0; 0]%Z /\
  map val (nth 32 after97 []) = [0; 1; 94; 1; 92; 70; 0; 0]%Z /\ honk_ok97 (set_at 32 (col97 [0; 1; 94; 1; 92; 71; 0; 0]%Z) after97) = false.
Proof. repeat split; vm_compute; reflexivity. Qed.
(** the product is the term of the public inputs; with another value in one cell of a variable it is not *)
Definition balance97 (fs : list (list F97)) : bool :=
  feqb (prod 5 (fun i => gp_numerator fs (n97 11) (n97 13) (S i))) (rmul delta97 (prod 5 (fun i => gp_denominator fs (n97 11) (n97 13) (S i)))).
Example ex_C78 : balance97 (set_at 31 w497 oink97) = true /\ balance97 (set_at 31 w497 (set_at 30 (col97 [0; 0; 6; 5; 4; 0; 0; 0]%Z) oink97)) = false /\
  map val (nth 14 oink97 []) = [0; 95; 3; 5; 32; 32; 0; 0]%Z /\ val delta97 <> 1%Z.
Proof. repeat split; vm_compute; try reflexivity. discriminate. Qed.
(** the whole prover is accepted *)
Example ex_C79 : exists fs3 fcoms sent evals pr,
  oink 8 oink97 8 [5] [] [n97 5] 1 5 [(1, 2); (2, 3); (3, 5); (5, 6)] [1; 2; 3; 4; 5] (n97 3) (n97 11) (n97 13) = Done (fs3, delta97) /\
  omapM (commit crs8) fs3 = Done fcoms /\
  decider_prove (honk_relations_full Po97) 7 8 ch97 crs8 3 3 (challenge_pows 3 (n97 21)) (generate_alphas 27 (n97 20)) fs3 (n97 40) (n97 6) (n97 50) (n97 60) = Done (sent, evals, pr) /\
  decider_verify (honk_relations Po97) 8 ch97 e97 (f97 1) (smul tau97 (f97 1)) (f97 1) 3 (challenge_pows 3 (n97 21)) (generate_alphas 27 (n97 20)) fcoms sent evals
      (n97 40) (n97 6) (n97 50) (n97 60) pr = Done (Some gzero).
Proof.
  destruct (@C79_accepted F97 _ F97 _ _ F97 _ _ F97 _ _ e97 tau97 (f97 1) (f97 1) Po97 wide97 spair97 8 ch97 3 (challenge_pows 3 (n97 21)) (generate_alphas 27 (n97 20))
    (n97 40) (n97 6) (n97 50) (n97 60) 8 3 [5] [] 8 (fun v => v) tags97 swap97 wires97 1 vals97 (fun _ => 6) oink97 w497 ex_honest) as (fs3 & E & K).
  - reflexivity.
  - lia.
  - lia.
  - reflexivity.
  - cbn; lia.
  - repeat constructor.
  - reflexivity.
  - intros k Hk. do 4 (destruct k as [|k]; [apply eq97; vm_compute; reflexivity|]). lia.
  - change (oink 8 oink97 8 [5] [] [n97 5] 1 5 [(1, 2); (2, 3); (3, 5); (5, 6)] [1; 2; 3; 4; 5] (n97 3) (n97 11) (n97 13) = Done (fs3, delta97)) in E.
    assert (A : fs3 = after97) by (unfold after97; rewrite E; reflexivity).
    assert (C : exists fcoms, omapM (commit crs8) fs3 = Done fcoms).
    { rewrite A. assert (X : match omapM (commit crs8) after97 with Done _ => true | _ => false end = true) by (vm_compute; reflexivity).
      destruct (omapM (commit crs8) after97) as [c|]; [exists c; reflexivity|discriminate X]. }
    destruct C as [fcoms C]. destruct (K fcoms C) as (sent & evals & us & S & Lu & K2).
    assert (U : us = [n97 30; n97 31; n97 32]).
    { assert (X : match sumcheck_prove (honk_relations_full Po97) 7 8 ch97 3 3 (challenge_pows 3 (n97 21)) (generate_alphas 27 (n97 20)) (all_entities after97) with Done (_, _, us) => us | _ => [] end = [n97 30; n97 31; n97 32])
        by (vm_compute; reflexivity).
      rewrite <- A, S in X. exact X. }
    subst us. destruct K2 as (pr & D & V).
    + assert (X : forallb (fun u => forallb (fun i => negb (feqb u (fnat i))) (seq 1 7)) [n97 30; n97 31; n97 32] = true) by (vm_compute; reflexivity).
      rewrite forallb_forall in X. apply Forall_forall. intros u Hu i Hi Y. specialize (X u Hu). rewrite forallb_forall in X. specialize (X i ltac:(apply in_seq; lia)).
      rewrite Y in X. apply negb_true_iff in X. rewrite <- not_true_iff_false in X. apply X. apply feqb_spec. reflexivity.
    + apply neq97; vm_compute; discriminate.
    + cbn [dens_ok]. repeat split; apply neq97; vm_compute; discriminate.
    + cbn [sq]. repeat constructor; apply neq97; vm_compute; discriminate.
    + exists fs3, fcoms, sent, evals, pr. split; [exact E|]. split; [exact C|]. split; [exact D|exact V].
Qed.
