(** * Properties C80, C81, C82 and C83: columns that satisfy the relations of UltraHonk satisfy the copy constraints and the lookups;
      accepted proofs are about satisfied circuits *)
From Coq Require Import String List Arith ZArith Lia Bool Permutation.
From Verif Require Import Proc Alg Zp NNet Rep3 ShamirPoly Shamir ShamirAlg Univariate Sumcheck SumcheckSpec SumcheckSound HonkRelations HonkSpec HonkProofs HonkSkip HonkRows Shplemini ShpleminiFold ShpleminiPoly ShpleminiQuot ShpleminiVerify ShpleminiSound Decider DeciderProofs Oink OinkGrand OinkTrace OinkSound OinkCopy OinkWire OinkLookup OinkZero OinkGap OinkGapRel OinkComplete OinkDecider OinkWhole Concrete ConcreteP ConcreteH PropsOink.
From Verif Require Groth16Complete.
Import ListNotations.
Local Open Scope string_scope.
Local Open Scope list_scope.

(** ** C80: the converse of C78. Whatever the wires hold: if the relations are satisfied, every variable has one value in all
    its cells, the values with their tags are a permutation of the values with the images of their tags, and the first
    rows hold the public inputs that the verifier used; or beta or gamma is one of few exceptions *)
Theorem C80_wires : forall {F : Type} {FF : Fld F} (P : rparams (F := F)) (sep m nv : nat) (real tags tau : nat -> nat) (blocks : list (list (list nat))) (fs : list (list F)) (xs : list F) (T : nat),
  let cells := trace_cells real 1 blocks in
  let rows := concat blocks in
  let n := length rows in
  let in_use := filter (fun v => existsb (fun c => (fst c =? v)%nat) cells) (seq 0 nv) in
  length fs = 36 -> 1 <= n -> n < 2 ^ m -> 2 ^ m <= sep -> length xs <= n ->
  (forall c, In c cells -> fst c < nv) -> (forall v, v < nv -> tags v <= T /\ tau (tags v) <= T) ->
  (forall a b, a < sep * 4 + T + 2 ^ m + 2 -> b < sep * 4 + T + 2 ^ m + 2 -> fnat a = (fnat b : F) -> a = b) ->
  (forall j, j < length xs -> real (nth 0 (nth j rows []) 0%nat) = real (nth 1 (nth j rows []) 0%nat)) ->
  wired sep (2 ^ m) nv real tags tau blocks (length xs) fs ->
  (forall i, i < 2 ^ m -> cell fs 26 i = if (i =? 0)%nat then rone else gzero) -> (forall i, i < 2 ^ m -> cell fs 27 i = if (i =? n)%nat then rone else gzero) ->
  compute_public_input_delta sep (rp_beta P) (rp_gamma P) xs 1 = Done (rp_delta P) ->
  cell fs 32 0 = gzero -> satisfied (honk_relations P) m (all_entities fs) ->
  (exists vals : nat -> F,
    (forall v k i, In (v, (k, i)) cells -> cell fs (28 + k) i = vals v) /\
    Permutation (map (fun v => (vals v, tau (tags v))) in_use) (map (fun v => (vals v, tags v)) in_use) /\
    (forall j, j < length xs -> cell fs 28 (S j) = nth j xs gzero /\ cell fs 29 (S j) = nth j xs gzero)) \/
  lucky_mix (id_pairs fs n xs) (sigma_pairs sep fs n xs) (rp_beta P) \/
  lucky_gamma (map (mix (rp_beta P)) (id_pairs fs n xs)) (map (mix (rp_beta P)) (sigma_pairs sep fs n xs)) (rp_gamma P).
Proof. exact @satisfied_wired. Qed.
Print Assumptions C80_wires.
(** the exceptions among the betas, for wires and wiring fixed before *)
Theorem C80_few_betas : forall {F : Type} {FF : Fld F} (l l' : list (F * F)) (bs : list F),
  NoDup bs -> Forall (lucky_mix l l') bs -> length bs <= length l * length l'.
Proof. exact @few_mix. Qed.
Print Assumptions C80_few_betas.
(** the exceptions among the gammas, for wires, wiring and beta fixed *)
Theorem C80_few_gammas : forall {F : Type} {FF : Fld F} (us vs gs : list F),
  length us = length vs -> NoDup gs -> Forall (lucky_gamma us vs) gs -> length gs <= length us.
Proof. exact @few_gamma. Qed.
Print Assumptions C80_few_gammas.

(** C77 for ranges with rows between them, which the traces of C77_permutation do not have: in the last step of
    compute_grand_product, every inactive row gets the value of the first row of the next range, and no other row changes *)
Theorem C77_gaps : forall {F : Type} {FF : Fld F} (ranges : list (nat * nat)) (z : list F) (D : nat), ordered ranges -> D <= length z ->
  (forall k i, between ranges k i -> i < D -> nth i (fold_left (gp_fill ranges) (seq 0 D) z) gzero = nth (fst (nth (S k) ranges (0, 0))) z gzero) /\
  (forall i, (forall k, ~ between ranges k i) \/ D <= i -> nth i (fold_left (gp_fill ranges) (seq 0 D) z) gzero = nth i z gzero) /\
  length (fold_left (gp_fill ranges) (seq 0 D) z) = length z.
Proof. exact @fill_gaps. Qed.
Print Assumptions C77_gaps.
Example ex_C77_gaps : ordered [(1, 3); (5, 6); (7, 9)] /\ between [(1, 3); (5, 6); (7, 9)] 0 4 /\ between [(1, 3); (5, 6); (7, 9)] 1 6 /\
  fold_left (gp_fill [(1, 3); (5, 6); (7, 9)]) (seq 0 9) (map n97 [0; 1; 5; 0; 0; 7; 0; 8; 9; 0]) = map n97 [0; 1; 5; 7; 7; 7; 8; 8; 9; 0].
Proof.
  split; [split; intros k Hk; cbn in Hk; (do 3 (destruct k as [|k]; [cbn; lia|])); lia|]. repeat split; try (cbn; lia).
Qed.

(** the whole column, whatever the ranges: at an active row, the product of all active rows before; at a row between two
    ranges, the value of the next active row; zero elsewhere *)
Theorem C77_ranges : forall {F : Type} {FF : Fld F} (beta gamma : F) (fs : list (list F)) (size final : nat) (ranges : list (nat * nat)),
  ordered ranges -> ranges <> [] -> fst (nth 0 ranges (0, 0)) = 1 -> (forall i, In i (active_idxs ranges) -> i <= final) -> final < size ->
  let ix := active_idxs ranges in
  exists z, compute_grand_product fs size final ranges ix beta gamma = Done z /\ length z = size /\
    (forall t, t < length ix -> nth (nth t ix 0) z gzero =
       rmul (prod t (fun i => gp_numerator fs beta gamma (nth i ix 0))) (inv0 (prod t (fun i => gp_denominator fs beta gamma (nth i ix 0))))) /\
    (forall k i, between ranges k i -> nth i z gzero = nth (fst (nth (S k) ranges (0, 0))) z gzero) /\
    (forall i, ~ In i ix -> (forall k, ~ between ranges k i) -> nth i z gzero = gzero).
Proof. exact @grand_ranges. Qed.
Print Assumptions C77_ranges.
Example ex_C77_ranges : ordered [(1, 3); (5, 6); (7, 9)] /\ active_idxs [(1, 3); (5, 6); (7, 9)] = [1; 2; 5; 7; 8] /\ (forall i, In i (active_idxs [(1, 3); (5, 6); (7, 9)]) -> i <= 8).
Proof. split; [apply ex_C77_gaps|]. split; [reflexivity|]. intros i I. cbn in I. repeat (destruct I as [<-|I]; [lia|]). destruct I. Qed.

(** C77_permutation for any ranges: if the rows that are not active point to themselves and the product over the active rows
    is the term of the public inputs, the column satisfies both relations in every row *)
Theorem C77_permutation_ranges : forall {F : Type} {FF : Fld F} (P : rparams (F := F)) (fs : list (list F)) (size : nat), length fs = 36 -> forall (ranges : list (nat * nat)) (final : nat) (z : list F),
  let ix := active_idxs ranges in
  let num := gp_numerator fs (rp_beta P) (rp_gamma P) in
  let den := gp_denominator fs (rp_beta P) (rp_gamma P) in
  ordered ranges -> ranges <> [] -> fst (nth 0 ranges (0, 0)) = 1 -> In final ix -> (forall i, In i ix -> i <= final) -> final < size ->
  (forall i, i < size -> cell fs 26 i = if (i =? 0)%nat then rone else gzero) -> (forall i, i < size -> cell fs 27 i = if (i =? final)%nat then rone else gzero) ->
  (forall k i, k < 4 -> i < final -> ~ In i ix -> cell fs (14 + k) i = cell fs (18 + k) i) ->
  (forall i, In i ix -> i <> final -> den i <> gzero) ->
  prod (length ix) (fun t => num (nth t ix 0)) = rmul (rp_delta P) (prod (length ix) (fun t => den (nth t ix 0))) ->
  compute_grand_product fs size final ranges ix (rp_beta P) (rp_gamma P) = Done z ->
  forall i, i < size -> perm0 P (row (all_entities (set_at 32 z fs)) i) = gzero /\ perm1 (row (all_entities (set_at 32 z fs)) i) = gzero.
Proof. exact @grand_relations_ranges. Qed.
Print Assumptions C77_permutation_ranges.
(** rows 1, 3 and 4 are active, row 2 is not; the first wires of rows 1 and 3 are copies of each other *)
Definition gap97 : list (list F97) := repeat (repeat gzero 8) 14 ++ [map n97 [0; 3; 2; 1; 4; 0; 0; 0]] ++ repeat (repeat gzero 8) 3 ++ [map n97 [0; 1; 2; 3; 4; 0; 0; 0]] ++ repeat (repeat gzero 8) 7 ++
  [map n97 [1; 0; 0; 0; 0; 0; 0; 0]; map n97 [0; 0; 0; 0; 1; 0; 0; 0]; map n97 [0; 9; 4; 9; 8; 0; 0; 0]] ++ repeat (repeat gzero 8) 7.
Definition gapP97 : rparams (F := F97) := {| rp_eta1 := gzero; rp_eta2 := gzero; rp_eta3 := gzero; rp_beta := n97 5; rp_gamma := n97 11; rp_delta := rone; rp_curve_b := gzero; rp_limb := gzero; rp_sublimb := gzero; rp_d0 := gzero; rp_d1 := gzero; rp_d2 := gzero; rp_d3 := gzero |}.
Example ex_C77_permutation_ranges : let ix := active_idxs [(1, 2); (3, 5)] in
  length gap97 = 36 /\ ordered [(1, 2); (3, 5)] /\ In 4 ix /\ between [(1, 2); (3, 5)] 0 2 /\
  (forall i, In i ix -> i <> 4 -> gp_denominator gap97 (rp_beta gapP97) (rp_gamma gapP97) i <> gzero) /\
  (forall k i, k < 4 -> i < 4 -> ~ In i ix -> cell gap97 (14 + k) i = cell gap97 (18 + k) i) /\ cell gap97 14 1 <> cell gap97 18 1 /\
  prod (length ix) (fun t => gp_numerator gap97 (rp_beta gapP97) (rp_gamma gapP97) (nth t ix 0)) = rmul (rp_delta gapP97) (prod (length ix) (fun t => gp_denominator gap97 (rp_beta gapP97) (rp_gamma gapP97) (nth t ix 0))).
Proof.
  split; [reflexivity|]. split; [split; intros k Hk; cbn in Hk; (do 2 (destruct k as [|k]; [cbn; lia|])); lia|]. split; [cbn; auto|]. split; [unfold between; cbn; lia|]. split.
  - intros i I _. cbn in I. repeat (destruct I as [<-|I]; [apply neq97; vm_compute; discriminate|]). destruct I.
  - split; [|split; [apply neq97; vm_compute; discriminate|apply eq97; vm_compute; reflexivity]].
    intros k i Hk Hi N. destruct i as [|[|[|[|i]]]]; [|exfalso; apply N; cbn; auto| |exfalso; apply N; cbn; auto|lia]; (do 4 (destruct k as [|k]; [apply eq97; vm_compute; reflexivity|])); lia.
Qed.

(** ** C83: ranges that are not empty are accepted if and only if each begins behind the one before; then the ranges and
    their rows are kept in order *)
Theorem C83_ranges : forall l : list (nat * nat), Forall (fun p => fst p < snd p) l ->
  (ordered l -> add_ranges new_region l = Done (l, active_idxs l, List.last (map snd l) 0)) /\
  (~ ordered l -> add_ranges new_region l = Failed (Panic "Ranges should be non-overlapping and increasing")).
Proof. exact add_ranges_ok. Qed.
Print Assumptions C83_ranges.
Theorem C83_rows : forall l : list (nat * nat), ordered l -> NoDup (active_idxs l) /\ (forall i, In i (active_idxs l) <-> exists p, In p l /\ fst p <= i < snd p).
Proof. exact active_rows. Qed.
Print Assumptions C83_rows.
(** ranges that end before they begin are accepted too and set the mark back, so rows may be active twice (finding F61) *)
Theorem C83_reversed_refuted : exists l ranges idxs last, add_ranges new_region l = Done (ranges, idxs, last) /\ ~ NoDup idxs.
Proof. exact reversed_refuted. Qed.
Print Assumptions C83_reversed_refuted.
Example ex_C83 : Forall (fun p => fst p < snd p) [(1, 3); (5, 6); (7, 9)] /\ add_ranges new_region [(1, 3); (5, 6); (7, 9)] = Done ([(1, 3); (5, 6); (7, 9)], [1; 2; 5; 7; 8], 9) /\
  add_ranges new_region [(1, 3); (2, 6)] = Failed (Panic "Ranges should be non-overlapping and increasing").
Proof. split; [repeat constructor|split; reflexivity]. Qed.

(** ** C81: the converse of C77_lookup_sum. Whatever the wires, counts, tags and inverses hold: if the relations are satisfied,
    everything looked up is in the tables, or beta or gamma is one of few exceptions *)
Theorem C81_lookups : forall {F : Type} {FF : Fld F} (P : rparams (F := F)) (m : nat) (fs : list (list F)),
  length fs = 36 -> (forall i, i < 2 ^ m -> cell fs 6 i = gzero \/ cell fs 6 i = rone) -> satisfied (honk_relations P) m (all_entities fs) ->
  (forall i, i < 2 ^ m -> cell fs 6 i = rone -> exists j, j < 2 ^ m /\ read_tuple fs i = table_tuple fs j) \/
  lucky_tuples (map (read_tuple fs) (lookers fs (2 ^ m))) (map (table_tuple fs) (seq 0 (2 ^ m))) (rp_beta P) \/
  lucky_pole (map (fun t => peval t (rp_beta P)) (all_tuples fs (2 ^ m))) (rp_gamma P) \/
  lucky_sum (map (fun i => peval (read_tuple fs i) (rp_beta P)) (lookers fs (2 ^ m))) (table_terms fs (2 ^ m) (rp_beta P)) (rp_gamma P).
Proof. exact @satisfied_lookups. Qed.
Print Assumptions C81_lookups.
(** [C81_lookups] speaks of all rows of the table columns, also of those behind the tables. These are entries (0, 0, 0) of
    the table with number 0, whatever it holds (finding F60): here the table is the single entry (0, a, b) *)
Theorem C81_tables_only_refuted : forall {F : Type} {FF : Fld F} (P : rparams (F := F)) (a b : F), rp_gamma P <> gzero -> a <> gzero -> exists fs,
  length fs = 36 /\ (forall i, i < 2 -> cell fs 6 i = gzero \/ cell fs 6 i = rone) /\ satisfied (honk_relations P) 1 (all_entities fs) /\
  table_tuple fs 0 = [gzero; a; b; gzero] /\ table_tuple fs 1 = [gzero; gzero; gzero; gzero] /\ cell fs 6 1 = rone /\ read_tuple fs 1 <> table_tuple fs 0.
Proof. exact @zero_refuted. Qed.
Print Assumptions C81_tables_only_refuted.
(** tuples of at most [S n] elements *)
Theorem C81_few_betas : forall {F : Type} {FF : Fld F} (l l' : list (list F)) (bs : list F) (n : nat),
  (forall p, In p l -> length p <= S n) -> NoDup bs -> Forall (lucky_tuples l l') bs -> length bs <= length l * length l' * n.
Proof. exact @few_tuples. Qed.
Print Assumptions C81_few_betas.
Theorem C81_few_poles : forall {F : Type} {FF : Fld F} (l gs : list F), NoDup gs -> Forall (lucky_pole l) gs -> length gs <= length l.
Proof. exact @few_poles. Qed.
Print Assumptions C81_few_poles.
(** the field has to be so large that the lookups can be counted in it *)
Theorem C81_few_gammas : forall {F : Type} {FF : Fld F} (us : list F) (cts : list (F * F)) (gs : list F),
  (forall k, 1 <= k <= length us -> fnat k <> (gzero : F)) -> NoDup gs -> Forall (lucky_sum us cts) gs -> length gs < length us + length cts \/ gs = [].
Proof. exact @few_sums. Qed.
Print Assumptions C81_few_gammas.

(** ** C82: whatever the prover committed to and sent: if the verifier accepts, with a key that belongs to the circuit and
    delta computed from the public inputs, then there is an assignment to the variables of the circuit that satisfies all gates, copies,
    tags and lookups and has the public inputs in the first rows; or one of the challenges is an exception, of which there are few by
    C74, C75, C80 and C81 *)
Theorem C82_sound : forall {F : Type} {FF : Fld F} {G : Type} {GG : AbGrp G} {MG : Mod F G} {H : Type} {GH : AbGrp H} {MH : Mod F H} {GT : Type} {GGT : AbGrp GT} {MGT : Mod F GT}
    (e : G -> H -> GT) (tau : F) (gen : G) (h : H) (P : rparams (F := F)), wide (F := F) 8 -> Groth16Complete.pairing e -> (forall a, smul a (e gen h) = gzero -> a = gzero) ->
  forall (sep nv : nat) (real tags perm : nat -> nat) (blocks : list (list (list nat))) (xs : list F) (T : nat) (chal : list (list F) -> F) (n : nat) (alpha beta : F) (fs bs : list (list F)) (q w : list F)
    (sent : list (list F)) (evals : list F) (n0 : F) (negs : list F) (rho r nu z : F),
  key_ok sep (S n) nv real tags perm blocks xs T fs -> compute_public_input_delta sep (rp_beta P) (rp_gamma P) xs 1 = Done (rp_delta P) ->
  gadd rone rone <> (gzero : F) -> length evals = 41 -> length bs = n -> length negs = n -> nu <> gzero -> NoDup (points r (S n)) -> ~ In z (points r (S n)) ->
  decider_verify (honk_relations P) 8 chal e gen (smul tau h) h (S n) (challenge_pows (S n) beta) (generate_alphas 27 alpha) (map (fun p => smul (peval p tau) gen) fs) sent evals rho r nu z
    {| op_folds := map (fun b => smul (peval b tau) gen) bs; op_negs := n0 :: negs; op_q := smul (peval q tau) gen; op_w := smul (peval w tau) gen |} = Done (Some gzero) ->
  (exists vals, circuit_holds P (S n) nv real tags perm blocks xs fs vals) \/ relation_exception P sep (S n) (length (concat blocks)) xs fs \/
  exists u us, length us = n /\
    sumcheck_verify (honk_relations P) 8 chal (repeat rone (S n)) (challenge_pows (S n) beta) (generate_alphas 27 alpha) sent evals = Done (true, u :: us) /\
    (shift_exception u rho fs \/ decider_exception P n alpha beta fs bs q w sent evals n0 negs rho r nu z tau u us).
Proof. exact @whole_sound. Qed.
Print Assumptions C82_sound.

(** ** The circuit of C79, after the Oink prover *)
Lemma satisfied97 : satisfied (honk_relations Po97) 3 (all_entities after97).
Proof.
  apply honk_satisfied. split.
  - assert (X : forallb (fun f => forallb (fun i => (val (f (row (all_entities after97) i)) =? 0)%Z) (seq 0 8)) (in_rows Po97) = true) by (vm_compute; reflexivity).
    intros f I i Hi. rewrite forallb_forall in X. specialize (X f I). rewrite forallb_forall in X. apply eq97. apply Z.eqb_eq. apply X. apply in_seq. cbn in Hi. lia.
  - apply eq97. vm_compute. reflexivity.
Qed.
Lemma key97 : key_ok 8 3 8 (fun v => v) tags97 swap97 wires97 [n97 5] 2 after97.
Proof.
  split.
  - vm_compute. reflexivity.
  - vm_compute. lia.
  - intros c I. assert (X : forallb (fun c => fst c <? 8)%nat (trace_cells (fun v => v) 1 wires97) = true) by (vm_compute; reflexivity).
    rewrite forallb_forall in X. apply Nat.ltb_lt. exact (X c I).
  - apply (all8 (fun v => tags97 v <= 2 /\ swap97 (tags97 v) <= 2)); vm_compute; lia.
  - intros a b Ha Hb E. assert (X : forallb (fun a => forallb (fun b => negb (val (fnat a : F97) =? val (fnat b : F97))%Z || (a =? b)%nat) (seq 0 44)) (seq 0 44) = true) by (vm_compute; reflexivity).
    rewrite forallb_forall in X. assert (Ia : In a (seq 0 44)) by (apply in_seq; cbn in Ha; lia). specialize (X a Ia). rewrite forallb_forall in X.
    assert (Ib : In b (seq 0 44)) by (apply in_seq; cbn in Hb; lia). specialize (X b Ib). rewrite E, Z.eqb_refl in X. apply Nat.eqb_eq. exact X.
  - intros j Hj. cbn in Hj. replace j with 0 by lia. reflexivity.
  - intros k Hk. do 4 (destruct k as [|k]; [split; vm_compute; reflexivity|]). lia.
  - apply all8; apply eq97; vm_compute; reflexivity.
  - apply all8; apply eq97; vm_compute; reflexivity.
  - apply all8; apply bit97; vm_compute; reflexivity.
Qed.
Lemma public97 : compute_public_input_delta 8 (rp_beta Po97) (rp_gamma Po97) [n97 5] 1 = Done (rp_delta Po97).
Proof.
  assert (X : match compute_public_input_delta 8 (n97 11) (n97 13) [n97 5] 1 with Done _ => true | _ => false end = true) by (vm_compute; reflexivity).
  change (compute_public_input_delta 8 (n97 11) (n97 13) [n97 5] 1 = Done delta97). unfold delta97.
  destruct (compute_public_input_delta 8 (n97 11) (n97 13) [n97 5] 1); [reflexivity|discriminate X].
Qed.
Example ex_C80 :
  (exists vals : nat -> F97, (forall v k i, In (v, (k, i)) (trace_cells (fun v => v) 1 wires97) -> cell after97 (28 + k) i = vals v) /\ cell after97 28 1 = n97 5 /\ cell after97 29 1 = n97 5) \/
  lucky_mix (id_pairs after97 5 [n97 5]) (sigma_pairs 8 after97 5 [n97 5]) (n97 11) \/
  lucky_gamma (map (mix (n97 11)) (id_pairs after97 5 [n97 5])) (map (mix (n97 11)) (sigma_pairs 8 after97 5 [n97 5])) (n97 13).
Proof.
  destruct key97 as [K1 [[K2 K3] [K4 K5]] K6 K7 K8 K9 K10 K11 K12 K13].
  destruct (@C80_wires F97 _ Po97 8 3 8 (fun v => v) tags97 swap97 wires97 after97 [n97 5] 2) as [(vals & A & _ & C)|X]; try assumption;
    [exact public97|apply eq97; vm_compute; reflexivity|exact satisfied97|left; exists vals; split; [exact A|exact (C 0 ltac:(cbn; lia))]|right; exact X].
Qed.
(** row 2 looks up what is in row 6 of the tables *)
Example ex_C81 : length after97 = 36 /\ (forall i, i < 2 ^ 3 -> cell after97 6 i = gzero \/ cell after97 6 i = rone) /\ satisfied (honk_relations Po97) 3 (all_entities after97) /\
  lookers after97 8 = [2] /\ map val (read_tuple after97 2) = [2; 3; 6; 1]%Z /\ map val (table_tuple after97 6) = [2; 3; 6; 1]%Z /\ map val (table_tuple after97 5) = [0; 0; 0; 0]%Z.
Proof.
  split; [vm_compute; reflexivity|]. split; [apply all8; apply bit97; vm_compute; reflexivity|]. split; [exact satisfied97|]. repeat split; vm_compute; reflexivity.
Qed.
Example ex_C81_tables_only : rp_gamma Po97 <> gzero /\ n97 5 <> gzero.
Proof. split; apply neq97; vm_compute; discriminate. Qed.
(** in a field with two elements, two reads of anything cannot be told from none: [C81_few_gammas] needs its first
    hypothesis *)
Example ex_C81_small : forall {F : Type} {FF : Fld F} (u g : F), gadd rone rone = (gzero : F) -> gadd u g <> gzero -> lucky_sum [u; u] [] g.
Proof.
  intros F FF u g E N. split; [exists u; split; [left; reflexivity|intros []]|]. split; [intros a [[<-|[<-|[]]]|[]]; exact N|]. cbn [map fracs].
  transitivity (rmul (gadd rone rone) (finv (gadd u g))); [|rewrite E].
  - rewrite rmul_add_l, gadd_0_r. reflexivity.
  - apply (gcancel_l (rmul gzero (finv (gadd u g)))). rewrite <- rmul_add_l, !gadd_0_r. reflexivity.
Qed.
(** the key belongs to the circuit, and the circuit is satisfied; the proof of ex_C79 is accepted *)
Example ex_C82 : key_ok 8 3 8 (fun v => v) tags97 swap97 wires97 [n97 5] 2 after97 /\ compute_public_input_delta 8 (rp_beta Po97) (rp_gamma Po97) [n97 5] 1 = Done (rp_delta Po97) /\
  circuit_holds Po97 3 8 (fun v => v) tags97 swap97 wires97 [n97 5] after97 vals97.
Proof.
  split; [exact key97|]. split; [exact public97|]. split.
  - assert (X : forallb (fun f => forallb (fun i => (val (f (row (all_entities after97) i)) =? 0)%Z) (seq 0 8)) (gate_relations Po97) = true) by (vm_compute; reflexivity).
    intros f I i Hi. rewrite forallb_forall in X. specialize (X f I). rewrite forallb_forall in X. apply eq97. apply Z.eqb_eq. apply X. apply in_seq. cbn in Hi. lia.
  - intros v k i I. apply eq97.
    assert (X : forallb (fun c => val (cell after97 (28 + fst (snd c)) (snd (snd c))) =? val (vals97 (fst c)))%Z (trace_cells (fun v => v) 1 wires97) = true) by (vm_compute; reflexivity).
    rewrite forallb_forall in X. apply Z.eqb_eq. exact (X _ I).
  - exact (co_tags (ho_copies ex_honest)).
  - intros j Hj. cbn in Hj. replace j with 0 by lia. split; apply eq97; vm_compute; reflexivity.
  - apply (all8 (fun i => cell after97 6 i = rone -> exists j, j < 2 ^ 3 /\ read_tuple after97 i = table_tuple after97 j)); intros E; try (exfalso; revert E; apply neq97; vm_compute; discriminate).
    exists 6. split; [cbn; lia|]. unfold read_tuple, table_tuple. repeat f_equal; apply eq97; vm_compute; reflexivity.
Qed.
