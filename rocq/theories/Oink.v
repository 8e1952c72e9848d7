(** * The columns that the Oink prover of UltraHonk computes, and the wiring of the circuit

    Models co-noir/ultrahonk/src/oink/oink_prover.rs:107-415 ([compute_w4], [compute_logderivative_inverses],
    [compute_public_input_delta], [compute_grand_product]) and co-noir/co-builder/src/keys/plain_proving_key.rs:124-340
    (the copy cycles, the mapping and the columns sigma and id). The columns are listed as in
    co-noir-common/src/polynomials/entities.rs:103-110 (28 precomputed, 8 of the witness).

    Simplifications: no zero knowledge (nothing is masked); commitments and the transcript are left out, challenges are
    arguments; a mapping is a function of wire and row; reads of columns at an index past the end give zero (in /repo
    all columns have as many rows as the circuit, shifted ones end with zero); the separator 2^28 is a parameter; [tau]
    is total (a tag without an image panics in /repo, plain_proving_key.rs:250-253). *)
From Coq Require Import String List Arith Lia Bool Ring.
From Verif Require Import Proc Alg NNet Rep3 ShamirPoly Shamir ShamirAlg Univariate Sumcheck.
Import ListNotations.
Set Implicit Arguments.
Local Open Scope string_scope.
Local Open Scope grp_scope.
Local Open Scope list_scope.

Section Oink.
  Context {F : Type} {FF : Fld F}.
  Infix "*" := rmul : grp_scope.
  Notation "1" := rone : grp_scope.

  (** polynomial.rs, [Index]: row [i] of column [k] *)
  Definition cell (fs : list (list F)) (k i : nat) : F := nth i (nth k fs []) 0.
  (** polynomial.rs, [IndexMut]: an assignment *)
  Fixpoint set_at {A} (i : nat) (x : A) (l : list A) : list A :=
    match l, i with
    | [], _ => []
    | _ :: l, O => x :: l
    | a :: l, S i => a :: set_at i x l
    end.

  (** ** Memory records *)
  (** oink_prover.rs:130-133, 140-143 *)
  Definition record (fs : list (list F)) (eta1 eta2 eta3 : F) (i : nat) : F :=
    cell fs 28 i * eta1 + cell fs 29 i * eta2 + cell fs 30 i * eta3.
  (** oink_prover.rs:129-130, 139-140: [*target += x] *)
  Definition add_at (i : nat) (x : F) (l : list F) : outcome (list F) :=
    match nth_error l i with Some y => Done (set_at i (y + x) l) | None => Failed (Panic "index out of bounds") end.
  (** oink_prover.rs:127-134, 137-145: a loop over records *)
  Fixpoint add_records (f : nat -> F) (idxs : list nat) (w4 : list F) : outcome (list F) :=
    match idxs with [] => Done w4 | i :: idxs => obind (add_at i (f i) w4) (add_records f idxs) end.
  (** oink_prover.rs:107-146 [compute_w4] *)
  Definition compute_w4 (fs : list (list F)) (reads writes : list nat) (eta1 eta2 eta3 : F) : outcome (list F) :=
    obind (add_records (record fs eta1 eta2 eta3) reads (nth 31 fs [])) (fun w4 =>
    add_records (fun i => record fs eta1 eta2 eta3 i + 1) writes w4).

  (** ** Inverses of the lookups *)
  (** oink_prover.rs:148-179 [compute_read_term] *)
  Definition compute_read_term (fs : list (list F)) (beta gamma : F) (i : nat) : F :=
    let beta_sqr := beta * beta in
    let beta_cube := beta_sqr * beta in
    let derived_table_entry_1 := cell fs 28 i + gamma + cell fs 3 i * cell fs 28 (S i) in
    let derived_table_entry_2 := cell fs 29 i + cell fs 0 i * cell fs 29 (S i) in
    let derived_table_entry_3 := cell fs 30 i + cell fs 1 i * cell fs 30 (S i) in
    derived_table_entry_1 + derived_table_entry_2 * beta + derived_table_entry_3 * beta_sqr + cell fs 4 i * beta_cube.
  (** oink_prover.rs:181-195 [compute_write_term] *)
  Definition compute_write_term (fs : list (list F)) (beta gamma : F) (i : nat) : F :=
    let beta_sqr := beta * beta in
    let beta_cube := beta_sqr * beta in
    cell fs 22 i + gamma + cell fs 23 i * beta + cell fs 24 i * beta_sqr + cell fs 25 i * beta_cube.
  (** oink_prover.rs:197-236 [compute_logderivative_inverses]; [batch_invert] leaves zeros *)
  Definition compute_logderivative_inverses (fs : list (list F)) (size : nat) (beta gamma : F) : list F :=
    map (fun i => if feqb (cell fs 6 i) 1 || feqb (cell fs 35 i) 1
                  then inv0 (compute_read_term fs beta gamma i * compute_write_term fs beta gamma i) else 0) (seq 0 size).

  (** ** The term of the public inputs *)
  (** oink_prover.rs:275-280: the loop *)
  Fixpoint delta_loop (beta : F) (xs : list F) (num denom num_acc denom_acc : F) : F * F :=
    match xs with
    | [] => (num, denom)
    | x :: xs => delta_loop beta xs (num * (num_acc + x)) (denom * (denom_acc + x)) (num_acc + beta) (denom_acc - beta)
    end.
  (** oink_prover.rs:238-282 [compute_public_input_delta] *)
  Definition compute_public_input_delta (sep : nat) (beta gamma : F) (public_inputs : list F) (offset : nat) : outcome F :=
    let num_acc := gamma + (fnat sep + fnat offset) * beta in
    let denom_acc := gamma - fnat (1 + offset) * beta in
    let '(num, denom) := delta_loop beta public_inputs 1 1 num_acc denom_acc in
    if feqb denom 0 then Failed (Panic "division by zero") else Done (num * finv denom).

  (** ** The grand product *)
  (** oink_prover.rs:284-307 [compute_grand_product_numerator] *)
  Definition gp_numerator (fs : list (list F)) (beta gamma : F) (i : nat) : F :=
    (cell fs 28 i + cell fs 18 i * beta + gamma) * (cell fs 29 i + cell fs 19 i * beta + gamma) *
    (cell fs 30 i + cell fs 20 i * beta + gamma) * (cell fs 31 i + cell fs 21 i * beta + gamma).
  (** oink_prover.rs:309-332 [grand_product_denominator] *)
  Definition gp_denominator (fs : list (list F)) (beta gamma : F) (i : nat) : F :=
    (cell fs 28 i + cell fs 14 i * beta + gamma) * (cell fs 29 i + cell fs 15 i * beta + gamma) *
    (cell fs 30 i + cell fs 16 i * beta + gamma) * (cell fs 31 i + cell fs 17 i * beta + gamma).
  (** oink_prover.rs:372-375: every entry times the one before *)
  Fixpoint runs (acc : F) (l : list F) : list F := match l with [] => [] | x :: l => let y := x * acc in y :: runs y l end.
  (** oink_prover.rs:372-375 *)
  Definition running (l : list F) : list F := match l with [] => [] | x :: l => x :: runs x l end.
  (** oink_prover.rs:389-396: step 3 for the active rows *)
  Definition gp_assign (idx : nat -> nat) (nums dens : list F) (z : list F) (i : nat) : list F :=
    set_at (idx (S i)) (nth i nums 0 * nth i dens 0) z.
  (** oink_prover.rs:403-413: a row between two active ranges *)
  Definition gp_fill (ranges : list (nat * nat)) (z : list F) (i : nat) : list F :=
    match find (fun p => (snd (fst p) <=? i) && (i <? fst (snd p)))%nat (List.combine ranges (tl ranges)) with
    | Some (_, (next_start, _)) => set_at i (nth next_start z 0) z
    | None => z
    end.
  (** oink_prover.rs:334-415 [compute_grand_product] *)
  Definition compute_grand_product (fs : list (list F)) (size final_active : nat) (ranges : list (nat * nat)) (idxs : list nat) (beta gamma : F) : outcome (list F) :=
    let has_active_ranges := (0 <? length idxs)%nat in
    let domain_size := S final_active in
    let active := if has_active_ranges then length idxs else domain_size in
    let idx i := if has_active_ranges then nth i idxs 0%nat else i in
    let nums := running (map (fun i => gp_numerator fs beta gamma (idx i)) (seq 0 (active - 1))) in
    let dens := map inv0 (running (map (fun i => gp_denominator fs beta gamma (idx i)) (seq 0 (active - 1)))) in
    if (size <=? 1)%nat then Failed (Panic "index out of bounds") else
    let z := set_at 1 1 (repeat 0 size) in
    let z := fold_left (gp_assign idx nums dens) (seq 0 (active - 1)) z in
    Done (if has_active_ranges then fold_left (gp_fill ranges) (seq 0 domain_size) z else z).

  (** oink_prover.rs:497-530 [execute_sorted_list_accumulator_round], 533-558 [execute_log_derivative_inverse_round],
      561-580 [execute_grand_product_computation_round] in the order of 582-606 [prove]: the columns w_4, lookup_inverses
      and z_perm, and public_input_delta *)
  Definition oink (sep : nat) (fs : list (list F)) (size : nat) (reads writes : list nat) (public_inputs : list F) (pub_inputs_offset : nat)
      (final_active : nat) (ranges : list (nat * nat)) (idxs : list nat) (eta beta gamma : F) : outcome (list (list F) * F) :=
    obind (compute_w4 fs reads writes eta (eta * eta) (eta * eta * eta)) (fun w4 =>
    let fs := set_at 31 w4 fs in
    let fs := set_at 33 (compute_logderivative_inverses fs size beta gamma) fs in
    obind (compute_public_input_delta sep beta gamma public_inputs pub_inputs_offset) (fun delta =>
    obind (compute_grand_product fs size final_active ranges idxs beta gamma) (fun z_perm =>
    Done (set_at 32 z_perm fs, delta)))).

  (** ** The wiring *)
  (** types.rs:736-741 [PermutationSubgroupElement] *)
  Record elem := { el_row : nat; el_col : nat; el_pub : bool; el_tag : bool }.
  (** types.rs:729-733: a node: wire and row *)
  Definition node := (nat * nat)%type.
  (** types.rs:755-758: the image of a cell *)
  Definition mapping := node -> elem.
  (** types.rs:760-773 [PermutationMapping::new]: every cell points to itself *)
  Definition new_mapping : mapping := fun p => {| el_row := snd p; el_col := fst p; el_pub := false; el_tag := false |}.
  (** whether two nodes are the same *)
  Definition node_eqb (p q : node) : bool := ((fst p =? fst q) && (snd p =? snd q))%nat.
  (** an assignment to a cell of a mapping *)
  Definition set_map (m : mapping) (p : node) (e : elem) : mapping := fun q => if node_eqb p q then e else m q.

  (** plain_proving_key.rs:148-166: the cells of a row with the variables they hold; [real]: the real variable index *)
  Definition row_cells (real : nat -> nat) (r : nat) (row : list nat) : list (nat * node) :=
    map (fun k => (real (nth k row 0%nat), (k, r))) (seq 0 4).
  (** plain_proving_key.rs:147-167: the cells of a block that starts at row [r] *)
  Fixpoint block_cells (real : nat -> nat) (r : nat) (block : list (list nat)) : list (nat * node) :=
    match block with [] => [] | row :: block => row_cells real r row ++ block_cells real (S r) block end.
  (** plain_proving_key.rs:137-167 with types.rs:247-253 [compute_offsets]: one block follows the other *)
  Fixpoint trace_cells (real : nat -> nat) (offset : nat) (blocks : list (list (list nat))) : list (nat * node) :=
    match blocks with [] => [] | b :: blocks => block_cells real offset b ++ trace_cells real (offset + length b) blocks end.
  (** plain_proving_key.rs:140-142 with keys/types.rs:18-27 [add_range]: the ranges of blocks that are not empty *)
  Fixpoint active_ranges (offset : nat) (blocks : list (list (list nat))) : list (nat * nat) :=
    match blocks with
    | [] => []
    | b :: blocks => (if (0 <? length b)%nat then [(offset, offset + length b)%nat] else []) ++ active_ranges (offset + length b) blocks
    end.
  (** keys/types.rs:25: the rows of the ranges *)
  Definition active_idxs (ranges : list (nat * nat)) : list nat := flat_map (fun p => seq (fst p) (snd p - fst p)) ranges.
  (** plain_proving_key.rs:38-43: the last active row *)
  Definition final_active_row (offset : nat) (blocks : list (list (list nat))) : nat :=
    fst (fold_left (fun '(fin, off) b => ((if (0 <? length b)%nat then off + length b - 1 else fin)%nat, (off + length b)%nat)) blocks (0%nat, offset)).
  (** plain_proving_key.rs:162-165: a node is added to the cycle of its variable *)
  Definition push (cycles : nat -> list node) (c : nat * node) : nat -> list node :=
    fun v => if (v =? fst c)%nat then cycles v ++ [snd c] else cycles v.
  (** plain_proving_key.rs:124-184 [populate_wires_and_selectors_and_compute_copy_cycles]: the cycles *)
  Definition copy_cycles (cells : list (nat * node)) : nat -> list node := fold_left push cells (fun _ => []).

  (** plain_proving_key.rs:256-265: a node points to the next one *)
  Fixpoint link (c : list node) (m : mapping) : mapping :=
    match c with
    | p :: ((q :: _) as c') => link c' (set_map m p {| el_row := snd q; el_col := fst q; el_pub := el_pub (m p); el_tag := el_tag (m p) |})
    | _ => m
    end.
  (** plain_proving_key.rs:227-266: one cycle; the pair is (sigmas, ids) *)
  Definition map_cycle (tags tau : nat -> nat) (cycles : nat -> list node) (m : mapping * mapping) (v : nat) : mapping * mapping :=
    match cycles v with
    | [] => m
    | first :: rest =>
        let '(sigmas, ids) := m in
        let last := List.last rest first in
        let ids := set_map ids first {| el_row := tags v; el_col := el_col (ids first); el_pub := el_pub (ids first); el_tag := true |} in
        let sigmas := set_map sigmas last {| el_row := tau (tags v); el_col := el_col (sigmas last); el_pub := el_pub (sigmas last); el_tag := true |} in
        (link (first :: rest) sigmas, ids)
    end.
  (** plain_proving_key.rs:275-283: a public input *)
  Definition mark_public (offset : nat) (m : mapping) (i : nat) : mapping :=
    let idx := (i + offset)%nat in
    set_map m (0%nat, idx) {| el_row := idx; el_col := 0; el_pub := true; el_tag := el_tag (m (0%nat, idx)) |}.
  (** plain_proving_key.rs:212-286 [compute_permutation_mapping] *)
  Definition permutation_mapping (num_variables : nat) (tags tau : nat -> nat) (cycles : nat -> list node) (num_public offset : nat) : mapping * mapping :=
    let '(sigmas, ids) := fold_left (map_cycle tags tau cycles) (seq 0 num_variables) (new_mapping, new_mapping) in
    (fold_left (mark_public offset) (seq 0 num_public) sigmas, ids).
  (** plain_proving_key.rs:309-337: the value of a cell in sigma or id; NUM_WIRES is 4 *)
  Definition elem_value (sep : nat) (e : elem) : F :=
    if el_pub e then - fnat (el_row e + 1 + sep * el_col e)
    else if el_tag e then fnat (sep * 4 + el_row e)
    else fnat (el_row e + sep * el_col e).
  (** plain_proving_key.rs:288-340 [compute_honk_style_permutation_lagrange_polynomials_from_mapping]: column [k] *)
  Definition lagrange_column (sep size : nat) (idxs : list nat) (m : mapping) (k : nat) : list F :=
    map (fun i => if existsb (Nat.eqb i) idxs then elem_value sep (m (k, i)) else 0) (seq 0 size).
End Oink.
