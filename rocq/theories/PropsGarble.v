(** * Properties C27 and C28: garbled circuits *)
From Coq Require Import String List Arith NArith Lia Bool.
From Verif Require Import Proc Alg Uint Rep3 Conv Garble Circuits CircuitsSim CircuitsOk CircuitsArith CircuitsMod CircuitsFun Garbled.
Import ListNotations.
Local Open Scope N_scope.

(** ** C27: gates and whole circuits, for every hash function [H], all tweaks and labels *)
Theorem C27_and_gate : forall (H : N -> N -> N) (gtweak : N -> N) n a b d (x y : bool),
  N.odd d = true ->
  let '(g0, g1, c) := garble_and_gate H gtweak n a b d in
  evaluate_and_gate H gtweak n (N.lxor a (if x then d else 0)) (N.lxor b (if y then d else 0)) g0 g1
  = N.lxor c (if x && y then d else 0).
Proof. exact (fun H gtweak n a b d x y Hd => @and_gate_ok H gtweak n a b d x y Hd). Qed.
Print Assumptions C27_and_gate.
(** the garbled table is not constant *)
Example C27_and_gate_ex :
  let H x t := (5 * x + 3 * t + 1) mod 256 in
  let '(g0, g1, c) := garble_and_gate H (fun n => n) 7 20 33 129 in
  (g0, g1, c) = (4, 153, 76) /\
  map (fun xy : bool * bool => evaluate_and_gate H (fun n => n) 7 (N.lxor 20 (if fst xy then 129 else 0))
         (N.lxor 33 (if snd xy then 129 else 0)) g0 g1)
      [(false, false); (true, false); (false, true); (true, true)] = [c; c; c; N.lxor c 129].
Proof. vm_compute. auto. Qed.

Theorem C27_xor_gate : forall a b d (x y : bool),
  N.lxor (N.lxor a (if x then d else 0)) (N.lxor b (if y then d else 0)) = N.lxor (N.lxor a b) (if xorb x y then d else 0).
Proof. exact (fun a b d x y => xor_gate_ok d a b x y). Qed.
Print Assumptions C27_xor_gate.
Theorem C27_not_gate : forall a d (x : bool),
  N.lxor a (if x then d else 0) = N.lxor (N.lxor d a) (if negb x then d else 0).
Proof. exact (fun a d x => neg_gate_ok d a x). Qed.
Print Assumptions C27_not_gate.

(** Every circuit that treats wires abstractly: garbler and evaluator agree with the boolean
    circuit, the garblers decode the evaluator's labels and the evaluator decodes the output
    information. *)
Theorem C27_garbled_circuit : forall (H : N -> N -> N) gtweak otweak S (draw_label : S -> N * S)
    (C : circuit) d zs bs rng,
  natural C -> N.odd d = true -> length bs = length zs ->
  (exists e, plain (C bool bs) = Failed e /\ garbled H gtweak otweak draw_label C d zs rng = Failed e) \/
  (exists out outz blocks,
      plain (C bool bs) = Done out /\ garbled H gtweak otweak draw_label C d zs rng = Done (outz, blocks) /\
      length outz = length out /\
      g_decode_checked d (labels d outz out) outz = Done out /\
      (separated H otweak d outz -> evaluated H gtweak otweak C blocks (labels d zs bs) = Done (labels d outz out, out))).
Proof. exact (fun H gtweak otweak S draw C d zs bs rng => @garbled_ok H gtweak otweak S draw C d zs bs rng). Qed.
Print Assumptions C27_garbled_circuit.

(** Every list of gates is such a circuit. *)
Theorem C27_gate_list : forall (H : N -> N -> N) gtweak otweak S (draw_label : S -> N * S)
    gs outs d zs bs rng out,
  N.odd d = true -> length bs = length zs -> gate_fun gs outs bs = Some out ->
  exists outz blocks,
    garbled H gtweak otweak draw_label (gate_circuit gs outs) d zs rng = Done (outz, blocks) /\
    (separated H otweak d outz ->
     evaluated H gtweak otweak (gate_circuit gs outs) blocks (labels d zs bs) = Done (labels d outz out, out)).
Proof. exact (fun H gtweak otweak S draw gs outs d zs bs rng out => @gate_list_ok H gtweak otweak S draw gs outs d zs bs rng out). Qed.
Print Assumptions C27_gate_list.
(** A full adder as gates 3..7 on inputs 0..2: (sum, carry) *)
Definition adder_gates : list gate := [XorGate 0 1; XorGate 3 2; AndGate 0 1; AndGate 3 2; XorGate 5 6].
Definition toy_hash (x t : N) : N := (5 * x + 3 * t + 1) mod 257.
Definition toy_draw (s : N) : N * N := ((s * 77 + 5) mod 256, s + 1).
Example C27_gate_list_ex :
  gate_fun adder_gates [4; 7]%nat [true; true; false] = Some [false; true] /\
  match garbled toy_hash (fun n => n) (fun i b => 2 * i + N.b2n b) toy_draw (gate_circuit adder_gates [4; 7]%nat) 129 [20; 33; 90] 3 with
  | Done (outz, blocks) =>
      length blocks = 8%nat /\ (toy_hash 20 0 =? toy_hash (N.lxor 20 129) 0) = false /\
      evaluated toy_hash (fun n => n) (fun i b => 2 * i + N.b2n b) (gate_circuit adder_gates [4; 7]%nat) blocks
        (labels 129 [20; 33; 90] [true; true; false]) = Done (labels 129 outz [false; true], [false; true])
  | Failed _ => False
  end.
Proof. vm_compute. auto. Qed.

(** The circuits of circuits.rs treat wires abstractly. *)
Theorem C27_circuits_natural : forall U p,
  natural (fun W => halves (fun a b => gbind (bin_addition a b) (fun r => GRet (fst r ++ [snd r])))) /\
  natural (fun W => halves (fun a b => gbind (bin_subtraction a b) (fun r => GRet (fst r ++ [snd r])))) /\
  natural (fun W => halves (fun a b => gbind (unsigned_ge a b) (fun r => GRet [r]))) /\
  natural (fun W => halves bin_div) /\
  natural (fun W => halves (adder_mod_p U p)).
Proof. exact circuits_natural. Qed.
Print Assumptions C27_circuits_natural.

(** ** C28: the circuits compute the integer functions, for every width *)
Theorem C28_addition : forall xs ys, xs <> [] -> length ys = length xs ->
  exists s c, plain (bin_addition xs ys) = Done (s, c) /\ length s = length xs /\
              bval s + 2 ^ N.of_nat (length xs) * N.b2n c = bval xs + bval ys.
Proof. exact addition_ok. Qed.
Print Assumptions C28_addition.
Example C28_addition_ex : plain (bin_addition [true; true; false] [true; false; true]) = Done ([false; false; false], true).
Proof. reflexivity. Qed.

Theorem C28_addition_mod : forall xs ys, xs <> [] -> length ys = length xs ->
  exists s, plain (bin_addition_no_carry xs ys) = Done s /\ length s = length xs /\
            bval s = (bval xs + bval ys) mod 2 ^ N.of_nat (length xs).
Proof. exact bin_addition_no_carry_ok. Qed.
Print Assumptions C28_addition_mod.
Example C28_addition_mod_ex : plain (bin_addition_no_carry [true; true; false] [true; false; true]) = Done [false; false; false].
Proof. reflexivity. Qed.

(** F23: for a public summand the circuit is right only for odd constants *)
Theorem C28_addition_odd_constant : forall xs ys, xs <> [] -> length ys = length xs -> hd false ys = true ->
  exists s, plain (bin_addition_constant_no_carry xs ys) = Done s /\ length s = length xs /\
            bval s = (bval xs + bval ys) mod 2 ^ N.of_nat (length xs).
Proof. exact bin_addition_constant_no_carry_ok. Qed.
Print Assumptions C28_addition_odd_constant.
Example C28_addition_constant_ex : plain (bin_addition_constant_no_carry [true; true; false] [true; true; false]) = Done [false; true; true].
Proof. reflexivity. Qed.
Theorem C28_addition_constant_refuted :
  exists xs ys r, length ys = length xs /\ plain (bin_addition_constant_no_carry xs ys) = Done r /\
                  bval r <> (bval xs + bval ys) mod 2 ^ N.of_nat (length xs).
Proof. exact bin_addition_constant_refuted. Qed.
Print Assumptions C28_addition_constant_refuted.

(** the carry of the subtraction is 1 iff it does not underflow *)
Theorem C28_subtraction : forall xs ys, xs <> [] -> length ys = length xs ->
  exists s c, plain (bin_subtraction xs ys) = Done (s, c) /\ length s = length xs /\
              c = (bval ys <=? bval xs) /\
              bval s = (bval xs + 2 ^ N.of_nat (length xs) - bval ys) mod 2 ^ N.of_nat (length xs).
Proof. exact subtraction_ok. Qed.
Print Assumptions C28_subtraction.
Example C28_subtraction_ex :
  plain (bin_subtraction [true; false; true] [false; true; false]) = Done ([true; true; false], true) /\
  plain (bin_subtraction [false; true; false] [true; false; true]) = Done ([true; false; true], false).
Proof. split; reflexivity. Qed.

Theorem C28_multiplication : forall lhs rhs, rhs <> [] ->
  exists r, plain (bin_mul_with_public lhs rhs) = Done r /\
            length r = (length lhs + length rhs)%nat /\ bval r = bval lhs * bval rhs.
Proof. exact bin_mul_with_public_ok. Qed.
Print Assumptions C28_multiplication.
Example C28_multiplication_ex : plain (bin_mul_with_public [true; true] [true; false; true]) = Done [true; true; true; true; false].
Proof. reflexivity. Qed.

Theorem C28_comparison : forall a b, a <> [] -> length b = length a ->
  plain (unsigned_ge a b) = Done (bval b <=? bval a) /\ plain (unsigned_lt a b) = Done (bval a <? bval b) /\
  plain (unsigned_le b a) = Done (bval b <=? bval a) /\ plain (unsigned_gt b a) = Done (bval a <? bval b).
Proof. exact comparison_ok. Qed.
Print Assumptions C28_comparison.
Example C28_comparison_ex : plain (unsigned_ge [false; true] [true; false]) = Done true /\ plain (unsigned_lt [true; true] [true; true]) = Done false.
Proof. split; reflexivity. Qed.

(** division; a zero divisor gives the quotient with all bits set *)
Theorem C28_division : forall xs ds, xs <> [] -> (length xs <= length ds)%nat ->
  let q := if bval ds =? 0 then 2 ^ N.of_nat (length xs) - 1 else bval xs / bval ds in
  (exists r, plain (bin_div xs ds) = Done r /\ length r = length xs /\ bval r = q) /\
  (exists r, plain (bin_div_by_public xs ds) = Done r /\ length r = length xs /\ bval r = q) /\
  (exists r, plain (bin_div_by_shared xs ds) = Done r /\ length r = length xs /\ bval r = q).
Proof. exact division_ok. Qed.
Print Assumptions C28_division.
Example C28_division_ex : plain (bin_div [true; false; true; true] [true; true; false; false]) = Done [false; false; true; false].
Proof. reflexivity. Qed. (* 13 / 3 = 4 *)
(** a divisor shorter than the dividend panics or is wrong *)
Theorem C28_division_short_refuted : exists xs ds e, plain (bin_div xs ds) = Failed e.
Proof. exact division_short_refuted. Qed.
Print Assumptions C28_division_short_refuted.

(** addition modulo an odd [p] of [n] bits, in a word of more than [n] bits *)
Theorem C28_addition_mod_p : forall U p a b, N.odd p = true -> (S (ubit_len p) <= U)%nat ->
  felt p a -> felt p b ->
  exists r, plain (adder_mod_p U p a b) = Done r /\ felt p r /\ bval r = (bval a + bval b) mod p.
Proof. exact addition_mod_p_ok. Qed.
Print Assumptions C28_addition_mod_p.
Example C28_addition_mod_p_ex : N.odd 13 = true /\ (S (ubit_len 13) <= 8)%nat /\
  felt 13 [true; true; false; true] /\ felt 13 [false; false; true; true] /\
  plain (adder_mod_p 8 13 [true; true; false; true] [false; false; true; true]) = Done [false; true; false; true].
Proof. vm_compute. repeat split; lia. Qed. (* 11 + 12 = 10 mod 13 *)
(** without the hypothesis on the word the subtraction of [p] may fail: [p] = 13, 4-bit words *)
Theorem C28_addition_mod_p_word_refuted : exists U p a b r, N.odd p = true /\ (ubit_len p <= U)%nat /\
  felt p a /\ felt p b /\ plain (adder_mod_p U p a b) = Done r /\ bval r <> (bval a + bval b) mod p.
Proof. exact addition_mod_p_word_refuted. Qed.
Print Assumptions C28_addition_mod_p_word_refuted.

(** casts between fields and rings; [wa], [wb] are the two summands of the input, [wc] the mask *)
Theorem C28_casts : forall U p wa wb wc, N.odd p = true -> (S (ubit_len p) <= U)%nat ->
  (felt p wa -> felt p wb -> wc <> [] -> (length wc <= ubit_len p)%nat ->
   exists r, plain (field_to_ring U p wa wb wc) = Done r /\ length r = length wc /\
             bval r = ((bval wa + bval wb) mod p + bval wc) mod 2 ^ N.of_nat (length wc)) /\
  (wa <> [] -> length wb = length wa -> (length wa < ubit_len p)%nat -> felt p wc ->
   exists r, plain (ring_to_field U p wa wb wc) = Done r /\ felt p r /\
             bval r = ((bval wa + bval wb) mod 2 ^ N.of_nat (length wa) + bval wc) mod p) /\
  (wa <> [] -> length wb = length wa -> (length wa < length wc)%nat ->
   exists r, plain (ring_to_ring_upcast wa wb wc) = Done r /\ length r = length wc /\
             bval r = ((bval wa + bval wb) mod 2 ^ N.of_nat (length wa) + bval wc) mod 2 ^ N.of_nat (length wc)).
Proof. exact casts_ok. Qed.
Print Assumptions C28_casts.
Example C28_casts_ex :
  plain (field_to_ring 8 13 [true; true; false; true] [false; false; true; true] [true; false]) = Done [true; true] /\
  plain (ring_to_field 8 13 [true; true] [false; true] [false; false; true; true]) = Done [false; false; false; false] /\
  plain (ring_to_ring_upcast [true; true] [false; true] [true; true; true]) = Done [false; false; false].
Proof. repeat split; reflexivity. Qed. (* 11+12 = 10 mod 13, 10 + 1 = 3 mod 4; 3+2 = 1 mod 4, 1 + 12 = 0 mod 13; 1 + 7 = 0 mod 8 *)

(** integer division of field elements, of ring elements *)
Theorem C28_field_division : forall U p x1 x2 y1 y2 wc, N.odd p = true -> (S (ubit_len p) <= U)%nat ->
  felt p x1 -> felt p x2 -> felt p y1 -> felt p y2 -> felt p wc -> (bval y1 + bval y2) mod p <> 0 ->
  exists r, plain (field_int_div U p x1 x2 y1 y2 wc (ubit_len p)) = Done r /\ felt p r /\
            bval r = ((bval x1 + bval x2) mod p / ((bval y1 + bval y2) mod p) + bval wc) mod p.
Proof. exact (fun U p x1 x2 y1 y2 wc Ho Hw => @field_int_div_ok U p Ho Hw x1 x2 y1 y2 wc). Qed.
Print Assumptions C28_field_division.
Theorem C28_field_division_public : forall U p x1 x2 ds wc, N.odd p = true -> (S (ubit_len p) <= U)%nat ->
  felt p x1 -> felt p x2 -> felt p wc -> (ubit_len p <= length ds)%nat -> bval ds <> 0 ->
  exists r, plain (field_int_div_by_public U p x1 x2 ds wc (ubit_len p)) = Done r /\ felt p r /\
            bval r = ((bval x1 + bval x2) mod p / bval ds + bval wc) mod p.
Proof. exact (fun U p x1 x2 ds wc Ho Hw => @field_int_div_by_public_ok U p Ho Hw x1 x2 ds wc). Qed.
Print Assumptions C28_field_division_public.
Theorem C28_field_division_shared : forall U p x1 x2 ds wc, N.odd p = true -> (S (ubit_len p) <= U)%nat ->
  felt p x1 -> felt p x2 -> felt p wc -> felt p ds -> (bval x1 + bval x2) mod p <> 0 ->
  exists r, plain (field_int_div_by_shared U p x1 x2 ds wc (ubit_len p)) = Done r /\ felt p r /\
            bval r = (bval ds / ((bval x1 + bval x2) mod p) + bval wc) mod p.
Proof. exact (fun U p x1 x2 ds wc Ho Hw => @field_int_div_by_shared_ok U p Ho Hw x1 x2 ds wc). Qed.
Print Assumptions C28_field_division_shared.
Theorem C28_field_division_power_2 : forall U p wa wb wc k, N.odd p = true -> (S (ubit_len p) <= U)%nat ->
  felt p wa -> felt p wb -> felt p wc ->
  exists r, plain (field_int_div_power_2 U p wa wb wc k) = Done r /\ felt p r /\
            bval r = ((bval wa + bval wb) mod p / 2 ^ N.of_nat k + bval wc) mod p.
Proof. exact (fun U p wa wb wc k Ho Hw => @field_int_div_power_2_ok U p Ho Hw wa wb wc k). Qed.
Print Assumptions C28_field_division_power_2.
(** (11 + 12) mod 13 = 10, 10 / (1 + 2) = 3, 3 + 12 = 2 mod 13; 10 / 4 = 2, 2 + 12 = 1 mod 13 *)
Example C28_field_division_ex :
  let b (x : N) := uint_to_bits x 4 in
  felt 13 (b 11) /\ felt 13 (b 12) /\
  plain (field_int_div 8 13 (b 11) (b 12) (b 1) (b 2) (b 12) 4) = Done (b 2) /\
  plain (field_int_div_by_public 8 13 (b 11) (b 12) (b 3) (b 12) 4) = Done (b 2) /\
  plain (field_int_div_by_shared 8 13 (b 1) (b 2) (b 10) (b 12) 4) = Done (b 2) /\
  plain (field_int_div_power_2 8 13 (b 11) (b 12) (b 12) 2) = Done (b 1).
Proof. vm_compute. repeat split; lia. Qed.
(** a zero divisor gives neither an error nor a number below the modulus *)
Theorem C28_field_division_zero_refuted : exists U p x1 x2 y1 y2 wc r,
  felt p x1 /\ felt p x2 /\ felt p y1 /\ felt p y2 /\ felt p wc /\ (bval y1 + bval y2) mod p = 0 /\
  plain (field_int_div U p x1 x2 y1 y2 wc (ubit_len p)) = Done r /\ ~ felt p r.
Proof. exact field_division_zero_refuted. Qed.
Print Assumptions C28_field_division_zero_refuted.

Theorem C28_ring_division : forall k x1 x2 y1 y2 wc ds, (0 < k)%nat ->
  length x1 = k -> length x2 = k -> length y1 = k -> length y2 = k -> length wc = k -> length ds = k ->
  let M := 2 ^ N.of_nat k in
  let quot x d := if d =? 0 then M - 1 else x / d in
  (exists r, plain (ring_div x1 x2 y1 y2 wc) = Done r /\ length r = k /\
             bval r = (quot ((bval x1 + bval x2) mod M) ((bval y1 + bval y2) mod M) + bval wc) mod M) /\
  (exists r, plain (ring_div_by_public x1 x2 ds wc) = Done r /\ length r = k /\
             bval r = (quot ((bval x1 + bval x2) mod M) (bval ds) + bval wc) mod M) /\
  (exists r, plain (ring_div_by_shared x1 x2 ds wc) = Done r /\ length r = k /\
             bval r = (quot (bval ds) ((bval x1 + bval x2) mod M) + bval wc) mod M) /\
  (forall j, (0 < j < k)%nat ->
   exists r, plain (ring_div_power_2 x1 x2 wc j) = Done r /\ length r = k /\
             bval r = ((bval x1 + bval x2) mod M / 2 ^ N.of_nat j + bval wc) mod M).
Proof. exact ring_division_ok. Qed.
Print Assumptions C28_ring_division.
Example C28_ring_division_ex :
  let b (x : N) := uint_to_bits x 4 in
  plain (ring_div (b 11) (b 12) (b 1) (b 2) (b 15)) = Done (b 1) /\
  plain (ring_div_power_2 (b 11) (b 12) (b 15) 1) = Done (b 2).
Proof. repeat split; reflexivity. Qed. (* 7 / 3 = 2, 2 + 15 = 1 mod 16; 7 / 2 = 3, 3 + 15 = 2 mod 16 *)

(** decompositions into limbs of [dbl] bits, each with its own mask *)
Theorem C28_decompose : forall U V p q wa wb ms dbl total,
  N.odd p = true -> (S (ubit_len p) <= U)%nat -> N.odd q = true -> (S (ubit_len q) <= V)%nat ->
  felt p wa -> felt p wb -> Forall (felt q) ms -> (0 < dbl <= ubit_len q)%nat ->
  let x := (bval wa + bval wb) mod p mod 2 ^ N.of_nat total in
  (forall i, x / 2 ^ N.of_nat (i * dbl) mod 2 ^ N.of_nat dbl < q) ->
  exists rs, plain (decompose_field_element_to U V p q wa wb (concat ms) dbl total) = Done (concat rs) /\
    forall i, (i * dbl < Nat.min total (ubit_len p))%nat -> (i < length ms)%nat ->
      exists l m, nth_error rs i = Some l /\ nth_error ms i = Some m /\ felt q l /\
                  bval l = (x / 2 ^ N.of_nat (i * dbl) mod 2 ^ N.of_nat dbl + bval m) mod q.
Proof. exact decompose_ok. Qed.
Print Assumptions C28_decompose.
Theorem C28_decompose_rings : forall U p wa wb ms num dbl obl,
  N.odd p = true -> (S (ubit_len p) <= U)%nat ->
  felt p wa -> felt p wb -> Forall (fun l => length l = obl) ms -> length ms = num -> (0 < dbl <= obl)%nat ->
  let x := (bval wa + bval wb) mod p mod 2 ^ N.of_nat (dbl * num) in
  exists rs, plain (decompose_field_element_to_rings U p wa wb (concat ms) num dbl obl) = Done (concat rs) /\
    forall i, (i < num)%nat -> (i * dbl < ubit_len p)%nat ->
      exists l m, nth_error rs i = Some l /\ nth_error ms i = Some m /\ length l = obl /\
                  bval l = (x / 2 ^ N.of_nat (i * dbl) mod 2 ^ N.of_nat dbl + bval m) mod 2 ^ N.of_nat obl.
Proof. exact decompose_rings_ok. Qed.
Print Assumptions C28_decompose_rings.
Theorem C28_slice : forall U p wa wb r1 r2 lo mid bitsize,
  N.odd p = true -> (S (ubit_len p) <= U)%nat ->
  felt p wa -> felt p wb -> felt p r1 -> felt p r2 -> (lo <= mid <= bitsize)%nat -> (bitsize <= ubit_len p)%nat ->
  let x := (bval wa + bval wb) mod p mod 2 ^ N.of_nat bitsize in
  exists l h, plain (slice_field_element U p wa wb (r1 ++ r2) lo mid bitsize) = Done (l ++ h) /\ felt p l /\ felt p h /\
    bval l = (x mod 2 ^ N.of_nat mid / 2 ^ N.of_nat lo + bval r1) mod p /\
    bval h = (x / 2 ^ N.of_nat mid + bval r2) mod p.
Proof. exact slice_ok. Qed.
Print Assumptions C28_slice.
Example C28_decompose_ex :
  let b (x : N) := uint_to_bits x 4 in
  plain (decompose_field_element_to 8 8 13 13 (b 11) (b 12) (concat [b 12; b 5]) 2 4) = Done (concat [b 1; b 7]) /\
  plain (decompose_field_element_to_rings 8 13 (b 11) (b 12) (concat [b 15; b 5]) 2 2 4) = Done (concat [b 1; b 7]) /\
  plain (slice_field_element 8 13 (b 11) (b 12) (b 12 ++ b 5) 1 3 4) = Done (b 0 ++ b 6).
Proof. repeat split; reflexivity. Qed. (* 10 = 2 + 2*4; bits 1..2 of 10 = 1, bit 3 = 1 *)
