(** * The relations of UltraHonk

    Models co-noir/ultrahonk/src/decider/relations/*.rs: all 28 subrelations, with their [skip] and the lengths of
    their accumulators, and the order in which relations/mod.rs lists them; the entities are listed as in
    co-noir-common/src/polynomials/entities.rs:103-110 ([AllEntities::iter]): 28 precomputed, 8 of the witness, 5
    shifted ones.

    Simplifications: a subrelation is a function of the values of the entities at one point, since all operations on
    univariates (univariate.rs:14-37, 232-480) are pointwise; [accumulate] of the prover and [verify_accumulate] of the
    verifier are written out twice in /repo with the same operations, both are cited at one definition; the scaling
    factor, by which every term is multiplied exactly once, is applied in Sumcheck.v ([accumulate_sub],
    [batch_evaluations]); constants of the field (the coefficient of the curve, the diagonal of Poseidon2, 2^68, 2^14)
    are parameters. *)
From Coq Require Import String List Arith Lia Bool Ring.
From Verif Require Import Proc Alg NNet Rep3 ShamirPoly Shamir ShamirAlg Univariate Sumcheck.
Import ListNotations.
Set Implicit Arguments.
Local Open Scope grp_scope.
Local Open Scope list_scope.

Section Relations.
  Context {F : Type} {FF : Fld F}.
  Infix "*" := rmul : grp_scope.
  Notation "1" := rone : grp_scope.

  (** decider/types.rs: [RelationParameters]; and constants: [get_curve_b] (elliptic_relation.rs:134, 218),
      [mat_internal_diag_m_1] (poseidon2_internal_relation.rs:154-165), 2^68 and 2^14 (non_native_field_relation.rs:108-109) *)
  Record rparams := { rp_eta1 : F; rp_eta2 : F; rp_eta3 : F; rp_beta : F; rp_gamma : F; rp_delta : F;
    rp_curve_b : F; rp_d0 : F; rp_d1 : F; rp_d2 : F; rp_d3 : F; rp_limb : F; rp_sublimb : F }.
  Variable P : rparams.

  (** an entity of a row *)
  Definition ent (i : nat) (r : list F) : F := nth i r 0.
  (** entities.rs:257-311: the precomputed entities *)
  Notation q_m := (ent 0). Notation q_c := (ent 1). Notation q_l := (ent 2). Notation q_r := (ent 3).
  Notation q_o := (ent 4). Notation q_4 := (ent 5). Notation q_lookup := (ent 6). Notation q_arith := (ent 7).
  Notation q_delta_range := (ent 8). Notation q_elliptic := (ent 9). Notation q_memory := (ent 10). Notation q_nnf := (ent 11).
  Notation q_poseidon2_external := (ent 12). Notation q_poseidon2_internal := (ent 13).
  Notation sigma_1 := (ent 14). Notation sigma_2 := (ent 15). Notation sigma_3 := (ent 16). Notation sigma_4 := (ent 17).
  Notation id_1 := (ent 18). Notation id_2 := (ent 19). Notation id_3 := (ent 20). Notation id_4 := (ent 21).
  Notation table_1 := (ent 22). Notation table_2 := (ent 23). Notation table_3 := (ent 24). Notation table_4 := (ent 25).
  Notation lagrange_first := (ent 26). Notation lagrange_last := (ent 27).
  (** entities.rs:636-652: the witness *)
  Notation w_l := (ent 28). Notation w_r := (ent 29). Notation w_o := (ent 30). Notation w_4 := (ent 31).
  Notation z_perm := (ent 32). Notation lookup_inverses := (ent 33). Notation lookup_read_counts := (ent 34). Notation lookup_read_tags := (ent 35).
  (** entities.rs, [ShiftedWitnessEntities] *)
  Notation w_l_shift := (ent 36). Notation w_r_shift := (ent 37). Notation w_o_shift := (ent 38). Notation w_4_shift := (ent 39). Notation z_perm_shift := (ent 40).

  (** univariate.rs:27-37 *)
  Definition sqr (x : F) : F := x * x.
  (** univariate.rs:15-25 *)
  Definition double (x : F) : F := x + x.

  (** ultra_arithmetic_relation.rs:149-158, 199-209 *)
  Definition arith0 (r : list F) : F :=
    let neg_half := - finv (fnat 2) in
    let tmp := (q_arith r - fnat 3) * (q_m r * w_r r * w_l r) * neg_half in
    let tmp := tmp + (q_l r * w_l r + q_r r * w_r r + q_o r * w_o r + q_4 r * w_4 r + q_c r) in
    let tmp := tmp + (q_arith r - fnat 1) * w_4_shift r in
    tmp * q_arith r.
  (** ultra_arithmetic_relation.rs:166-170, 215-219 *)
  Definition arith1 (r : list F) : F :=
    let tmp := w_l r + w_4 r - w_l_shift r + q_m r in
    tmp * (q_arith r - fnat 2) * (q_arith r - fnat 1) * q_arith r.

  (** permutation_relation.rs:117-132, 194-210: the numerator *)
  Definition perm_numerator (r : list F) : F :=
    let t1 := id_1 r * rp_beta P + (w_l r + rp_gamma P) in
    let t2 := id_2 r * rp_beta P + (w_r r + rp_gamma P) in
    let t3 := id_3 r * rp_beta P + (w_o r + rp_gamma P) in
    let t4 := id_4 r * rp_beta P + (w_4 r + rp_gamma P) in
    t1 * t2 * t3 * t4.
  (** permutation_relation.rs:134-142, 212-220: the denominator *)
  Definition perm_denominator (r : list F) : F :=
    let t5 := sigma_1 r * rp_beta P + (w_l r + rp_gamma P) in
    let t6 := sigma_2 r * rp_beta P + (w_r r + rp_gamma P) in
    let t7 := sigma_3 r * rp_beta P + (w_o r + rp_gamma P) in
    let t8 := sigma_4 r * rp_beta P + (w_4 r + rp_gamma P) in
    t5 * t6 * t7 * t8.
  (** permutation_relation.rs:144-150, 222-228 *)
  Definition perm0 (r : list F) : F :=
    let public_input_term := lagrange_last r * rp_delta P + z_perm_shift r in
    (z_perm r + lagrange_first r) * perm_numerator r - public_input_term * perm_denominator r.
  (** permutation_relation.rs:158, 234 *)
  Definition perm1 (r : list F) : F := lagrange_last r * z_perm_shift r.

  (** logderiv_lookup_relation.rs:77-91 *)
  Definition inverse_exists (r : list F) : F := - (lookup_read_tags r * q_lookup r) + lookup_read_tags r + q_lookup r.
  (** logderiv_lookup_relation.rs:93-161 *)
  Definition read_term (r : list F) : F :=
    let beta := rp_beta P in
    let beta_sqr := beta * beta in
    let beta_cube := beta_sqr * beta in
    let derived_table_entry_1 := w_l r + rp_gamma P + q_r r * w_l_shift r in
    let derived_table_entry_2 := q_m r * w_r_shift r + w_r r in
    let derived_table_entry_3 := q_c r * w_o_shift r + w_o r in
    derived_table_entry_1 + derived_table_entry_2 * beta + derived_table_entry_3 * beta_sqr + q_o r * beta_cube.
  (** logderiv_lookup_relation.rs:164-203 *)
  Definition write_term (r : list F) : F :=
    let beta := rp_beta P in
    let beta_sqr := beta * beta in
    let beta_cube := beta_sqr * beta in
    table_1 r + rp_gamma P + table_2 r * beta + table_3 r * beta_sqr + table_4 r * beta_cube.
  (** logderiv_lookup_relation.rs:287, 332 *)
  Definition lookup0 (r : list F) : F := read_term r * write_term r * lookup_inverses r - inverse_exists r.
  (** logderiv_lookup_relation.rs:281-282, 297, 326-327, 340 *)
  Definition lookup1 (r : list F) : F :=
    let write_inverse := read_term r * lookup_inverses r in
    let read_inverse := write_term r * lookup_inverses r in
    read_inverse * q_lookup r - write_inverse * lookup_read_counts r.
  (** logderiv_lookup_relation.rs:305, 346 *)
  Definition lookup2 (r : list F) : F := lookup_read_tags r * lookup_read_tags r - lookup_read_tags r.

  (** delta_range_constraint_relation.rs:129-137, 196-207: a contribution *)
  Definition delta_term (delta q : F) : F :=
    let minus_one := - (1) in
    let minus_two := - fnat 2 in
    let tmp := sqr (delta + minus_one) + minus_one in
    let tmp := tmp * (sqr (delta + minus_two) + minus_one) in
    tmp * q.
  (** delta_range_constraint_relation.rs:130-175, 197-235 *)
  Definition delta0 (r : list F) : F := delta_term (w_r r - w_l r) (q_delta_range r).
  (** delta_range_constraint_relation.rs:141-151, 209-217 *)
  Definition delta1 (r : list F) : F := delta_term (w_o r - w_r r) (q_delta_range r).
  (** delta_range_constraint_relation.rs:153-163, 219-226 *)
  Definition delta2 (r : list F) : F := delta_term (w_4 r - w_o r) (q_delta_range r).
  (** delta_range_constraint_relation.rs:165-177, 228-236 *)
  Definition delta3 (r : list F) : F := delta_term (w_l_shift r - w_4 r) (q_delta_range r).

  (** elliptic_relation.rs:93-151, 177-233: the two contributions *)
  Definition elliptic (r : list F) : F * F :=
    let x_1 := w_r r in let y_1 := w_o r in
    let x_2 := w_l_shift r in let y_2 := w_4_shift r in let y_3 := w_o_shift r in let x_3 := w_r_shift r in
    let q_sign := q_l r in let q_is_double := q_m r in
    let x_diff := x_2 - x_1 in
    let y2_sqr := sqr y_2 in
    let y1_sqr := sqr y_1 in
    let y1y2 := y_1 * y_2 * q_sign in
    let x_add_identity := (x_3 + x_2 + x_1) * sqr x_diff - y2_sqr - y1_sqr + y1y2 + y1y2 in
    let q_elliptic_q_double := q_elliptic r * q_is_double in
    let q_elliptic_not_double := q_elliptic r - q_elliptic_q_double in
    let y1_plus_y3 := y_1 + y_3 in
    let y_diff := y_2 * q_sign - y_1 in
    let y_add_identity := y1_plus_y3 * x_diff + (x_3 - x_1) * y_diff in
    let x1_mul_3 := x_1 + x_1 + x_1 in
    let x_pow_4_mul_3 := (y1_sqr - rp_curve_b P) * x1_mul_3 in
    let y1_sqr_mul_4 := double (double y1_sqr) in
    let x1_pow_4_mul_9 := double x_pow_4_mul_3 + x_pow_4_mul_3 in
    let x_double_identity := (x_3 + x_1 + x_1) * y1_sqr_mul_4 - x1_pow_4_mul_9 in
    let x1_sqr_mul_3 := x1_mul_3 * x_1 in
    let y_double_identity := x1_sqr_mul_3 * (x_1 - x_3) - (y_1 + y_1) * y1_plus_y3 in
    (x_add_identity * q_elliptic_not_double + x_double_identity * q_elliptic_q_double,
     y_add_identity * q_elliptic_not_double + y_double_identity * q_elliptic_q_double).
  (** elliptic_relation.rs:155-161, 237-238 *)
  Definition elliptic0 (r : list F) : F := fst (elliptic r).
  (** elliptic_relation.rs:158-160, 238-240 *)
  Definition elliptic1 (r : list F) : F := snd (elliptic r).

  (** memory_relation.rs:217-222, 432-437: [partial_record_check] *)
  Definition partial_record (r : list F) : F := w_o r * rp_eta3 P + w_r r * rp_eta2 P + w_l r * rp_eta1 P + q_c r.
  (** memory_relation.rs:244-245, 459-460 *)
  Definition neg_index_delta (r : list F) : F := w_l r - w_l_shift r.
  (** memory_relation.rs:245, 460 *)
  Definition index_delta_is_zero (r : list F) : F := neg_index_delta r + 1.
  (** memory_relation.rs:248, 463 *)
  Definition index_increasing (r : list F) : F := sqr (neg_index_delta r) + neg_index_delta r.
  (** memory_relation.rs:293-296, 505-508 *)
  Definition neg_next_access (r : list F) : F := w_o_shift r * rp_eta3 P + w_r_shift r * rp_eta2 P + w_l_shift r * rp_eta1 P - w_4_shift r.
  (** memory_relation.rs:253-255, 468-470: the selectors *)
  Definition q_one_two_memory (r : list F) : F := q_l r * q_r r * q_memory r.
  (** memory_relation.rs:308, 520 *)
  Definition q_3_memory (r : list F) : F := q_o r * q_memory r.
  (** memory_relation.rs:223, 268, 286-287, 324, 340-353, 438, 480, 498-499, 531, 546-559 *)
  Definition memory0 (r : list F) : F :=
    let memory_record_check := partial_record r - w_4 r in
    let rom_consistency_check_identity := memory_record_check * (q_l r * q_r r) in
    let neg_access_type := partial_record r - w_4 r in
    let access_check := sqr neg_access_type + neg_access_type in
    let ram_consistency_check_identity := access_check * q_3_memory r in
    let ram_timestamp_check_identity := index_delta_is_zero r * (w_r_shift r - w_r r) - w_o r in
    let memory_identity := rom_consistency_check_identity in
    let memory_identity := memory_identity + ram_timestamp_check_identity * (q_4 r * q_l r) in
    let memory_identity := memory_identity + memory_record_check * (q_m r * q_l r) in
    memory_identity * q_memory r + ram_consistency_check_identity.
  (** memory_relation.rs:250-261, 465-474 *)
  Definition memory1 (r : list F) : F := index_delta_is_zero r * (w_4_shift r - w_4 r) * q_one_two_memory r.
  (** memory_relation.rs:263-266, 476-477 *)
  Definition memory2 (r : list F) : F := index_increasing r * q_one_two_memory r.
  (** memory_relation.rs:297-316, 509-525 *)
  Definition memory3 (r : list F) : F := index_delta_is_zero r * (w_o_shift r - w_o r) * (neg_next_access r + 1) * q_3_memory r.
  (** memory_relation.rs:318-321, 527-528 *)
  Definition memory4 (r : list F) : F := index_increasing r * q_3_memory r.
  (** memory_relation.rs:306-307, 323-326, 517-518, 530-531 *)
  Definition memory5 (r : list F) : F := (sqr (neg_next_access r) + neg_next_access r) * q_3_memory r.

  (** non_native_field_relation.rs:122-171, 202-259 *)
  Definition nnf0 (r : list F) : F :=
    let limb_subproduct := w_l r * w_r_shift r + w_l_shift r * w_r r in
    let gate_2 := w_l r * w_4 r + w_r r * w_o r - w_o_shift r in
    let gate_2 := gate_2 * rp_limb P - w_4_shift r + limb_subproduct in
    let gate_2 := gate_2 * q_4 r in
    let limb_subproduct := limb_subproduct * rp_limb P + w_l_shift r * w_r_shift r in
    let gate_1 := (limb_subproduct - (w_o r + w_4 r)) * q_o r in
    let gate_3 := (limb_subproduct + w_4 r - (w_o_shift r + w_4_shift r)) * q_m r in
    let non_native_field_identity := (gate_1 + gate_2 + gate_3) * q_r r in
    let s := rp_sublimb P in
    let limb_accumulator_1 := (((w_r_shift r * s + w_l_shift r) * s + w_o r) * s + w_r r) * s + w_l r - w_4 r in
    let limb_accumulator_1 := limb_accumulator_1 * q_4 r in
    let limb_accumulator_2 := (((w_o_shift r * s + w_r_shift r) * s + w_l_shift r) * s + w_4 r) * s + w_o r - w_4_shift r in
    let limb_accumulator_2 := limb_accumulator_2 * q_m r in
    let limb_accumulator_identity := (limb_accumulator_1 + limb_accumulator_2) * q_o r in
    (non_native_field_identity + limb_accumulator_identity) * q_nnf r.

  (** poseidon2_external_relation.rs:150-162, 236-248: the S-box *)
  Definition sbox (s : F) : F := sqr (sqr s) * s.
  (** poseidon2_external_relation.rs:143-178, 229-264: the state after the round *)
  Definition pos_ext (r : list F) : F * F * F * F :=
    let u1 := sbox (w_l r + q_l r) in let u2 := sbox (w_r r + q_r r) in
    let u3 := sbox (w_o r + q_o r) in let u4 := sbox (w_4 r + q_4 r) in
    let t0 := u1 + u2 in
    let t1 := u3 + u4 in
    let t2 := double u2 + t1 in
    let t3 := double u4 + t0 in
    let v4 := double (double t1) + t3 in
    let v2 := double (double t0) + t2 in
    let v1 := t3 + v2 in
    let v3 := t2 + v4 in
    (v1, v2, v3, v4).
  (** poseidon2_external_relation.rs:180-204, 266-283 *)
  Definition pos_ext0 (r : list F) : F := let '(v1, _, _, _) := pos_ext r in (v1 - w_l_shift r) * q_poseidon2_external r.
  (** poseidon2_external_relation.rs:188-191, 270-273 *)
  Definition pos_ext1 (r : list F) : F := let '(_, v2, _, _) := pos_ext r in (v2 - w_r_shift r) * q_poseidon2_external r.
  (** poseidon2_external_relation.rs:195-198, 275-278 *)
  Definition pos_ext2 (r : list F) : F := let '(_, _, v3, _) := pos_ext r in (v3 - w_o_shift r) * q_poseidon2_external r.
  (** poseidon2_external_relation.rs:202-205, 280-283 *)
  Definition pos_ext3 (r : list F) : F := let '(_, _, _, v4) := pos_ext r in (v4 - w_4_shift r) * q_poseidon2_external r.

  (** poseidon2_internal_relation.rs:137-149, 221-233: the S-box on the first element, and the sum *)
  Definition pos_int_sum (r : list F) : F := sbox (w_l r + q_l r) + w_r r + w_o r + w_4 r.
  (** poseidon2_internal_relation.rs:168-198, 252-279 *)
  Definition pos_int0 (r : list F) : F := (sbox (w_l r + q_l r) * rp_d0 P + pos_int_sum r - w_l_shift r) * q_poseidon2_internal r.
  (** poseidon2_internal_relation.rs:177-182, 261-266 *)
  Definition pos_int1 (r : list F) : F := (w_r r * rp_d1 P + pos_int_sum r - w_r_shift r) * q_poseidon2_internal r.
  (** poseidon2_internal_relation.rs:186-191, 268-273 *)
  Definition pos_int2 (r : list F) : F := (w_o r * rp_d2 P + pos_int_sum r - w_o_shift r) * q_poseidon2_internal r.
  (** poseidon2_internal_relation.rs:195-199, 275-280 *)
  Definition pos_int3 (r : list F) : F := (w_4 r * rp_d3 P + pos_int_sum r - w_4_shift r) * q_poseidon2_internal r.

  (** univariate.rs:451-458 [is_zero] *)
  Definition is_zero (u : list F) : bool := forallb (fun v => feqb v 0) u.
  (** a relation that is skipped where its selector is zero (the [skip] of all but two relations) *)
  Definition selected (q : nat) (edges : list (list F)) : bool := is_zero (nth q edges []).
  (** permutation_relation.rs:70-75 *)
  Definition perm_skip (edges : list (list F)) : bool :=
    is_zero (map (fun k => nth k (nth 32 edges []) 0 - nth k (nth 40 edges []) 0) (seq 0 (length (nth 32 edges [])))).
  (** logderiv_lookup_relation.rs:213-216 *)
  Definition lookup_skip (edges : list (list F)) : bool := is_zero (nth 6 edges []) && is_zero (nth 34 edges []).

  (** a subrelation *)
  Definition mk (len : nat) (indep : bool) (skip : list (list F) -> bool) (f : list F -> F) : sub (F := F) :=
    {| sb_len := len; sb_indep := indep; sb_skip := skip; sb_prover := f; sb_verify := f |}.
  (** relations/mod.rs:107-145, 147-199: the subrelations in the order of their scalars; [psk], [lsk]: when
      permutation and lookup are skipped *)
  Definition relations_with (psk lsk : list (list F) -> bool) : list (sub (F := F)) :=
    (* ultra_arithmetic_relation.rs:8-12, 28-40, 70-73 *)
    [mk 6 true (selected 7) arith0; mk 5 true (selected 7) arith1;
    (* permutation_relation.rs:8-12, 28-40 *)
     mk 6 true psk perm0; mk 3 true psk perm1;
    (* logderiv_lookup_relation.rs:9-14, 30-48 *)
     mk 5 true lsk lookup0; mk 5 false lsk lookup1; mk 3 true lsk lookup2;
    (* delta_range_constraint_relation.rs:8-14, 92-95 *)
     mk 6 true (selected 8) delta0; mk 6 true (selected 8) delta1; mk 6 true (selected 8) delta2; mk 6 true (selected 8) delta3;
    (* elliptic_relation.rs:7-11, 63-69 *)
     mk 6 true (selected 9) elliptic0; mk 6 true (selected 9) elliptic1;
    (* memory_relation.rs:8-16, 114-117 *)
     mk 6 true (selected 10) memory0; mk 6 true (selected 10) memory1; mk 6 true (selected 10) memory2;
     mk 6 true (selected 10) memory3; mk 6 true (selected 10) memory4; mk 6 true (selected 10) memory5;
    (* non_native_field_relation.rs:9-12, 59-62 *)
     mk 6 true (selected 11) nnf0;
    (* poseidon2_external_relation.rs:8-14, 92-95 *)
     mk 7 true (selected 12) pos_ext0; mk 7 true (selected 12) pos_ext1; mk 7 true (selected 12) pos_ext2; mk 7 true (selected 12) pos_ext3;
    (* poseidon2_internal_relation.rs:10-16, 94-97 *)
     mk 7 true (selected 13) pos_int0; mk 7 true (selected 13) pos_int1; mk 7 true (selected 13) pos_int2; mk 7 true (selected 13) pos_int3].
  (** as they are in /repo *)
  Definition honk_relations : list (sub (F := F)) := relations_with perm_skip lookup_skip.
  (** the same, but nothing is skipped on account of the witness *)
  Definition honk_relations_full : list (sub (F := F)) := relations_with (fun _ => false) (fun _ => false).
End Relations.
