{
 "claims": [
  {
   "property": "C01",
   "status": "proved",
   "theorems": [
    "C01_share_combine",
    "C01_share_combine_vec",
    "C01_share_additive",
    "C01_share_maybe",
    "C01_share_seeded",
    "C01_combine_lengths"
   ],
   "note": "For every group carrier and generator; scalar, vector, optional, additive and seeded (compressed) sharings. Ring and curve sharings use the same code over another carrier."
  },
  {
   "property": "C02",
   "status": "proved",
   "theorems": [
    "C02_add",
    "C02_sub",
    "C02_neg",
    "C02_add_public",
    "C02_sub_shared_by_public",
    "C02_sub_public_by_shared",
    "C02_promote",
    "C02_promote_with_scalar",
    "C02_mul_public",
    "C02_add_mul_public"
   ],
   "note": "For every abelian group / commutative ring."
  },
  {
   "property": "C03",
   "status": "proved",
   "theorems": [
    "C03_mul",
    "C03_mul_vec",
    "C03_local_mul_vec",
    "C03_reshare_vec"
   ],
   "note": "Every schedule, every channel capacity >= 1; generic bilinear product (field, ring, scalar*point, bitwise and)."
  },
  {
   "property": "C04",
   "status": "proved",
   "theorems": [
    "C04_mul_open",
    "C04_mul_open_vec",
    "C04_open",
    "C04_open_vec",
    "C04_open_half"
   ],
   "note": "Every schedule; all parties obtain the same value."
  },
  {
   "property": "C05",
   "status": "proved",
   "theorems": [
    "C05_inv",
    "C05_inv_vec",
    "C05_div",
    "C05_div_public_by_shared",
    "C05_div_shared_by_public",
    "C05_sqrt"
   ],
   "note": "Error exactly when x*r=0; includes div variants and sqrt."
  },
  {
   "property": "C06",
   "status": "proved",
   "theorems": [
    "C06_cmux",
    "C06_cmux_vec",
    "C06_pow_public",
    "C06_arithmetic_xor",
    "C06_arithmetic_xor_many",
    "C06_add_mul"
   ],
   "note": ""
  },
  {
   "property": "C07",
   "status": "proved",
   "theorems": [
    "C07_setup",
    "C07_script",
    "C07_masks",
    "C07_mask_vec",
    "C07_random_shares"
   ],
   "note": "Setup under every schedule; every script of generator operations."
  },
  {
   "property": "C08",
   "status": "partial",
   "theorems": [
    "C08_generate_shared_partial",
    "C08_generate_shared_refuted"
   ],
   "note": "Full statement refuted (C08_generate_shared_refuted): after one three-key draw parties 0 and 1 disagree. Proved part: values agree as long as bc1_agree holds, which set-up establishes (C07_setup) and generate_shared preserves."
  },
  {
   "property": "C09",
   "status": "proved",
   "theorems": [
    "C09_a2b",
    "C09_a2b_many",
    "C09_canonical"
   ],
   "note": "Every field with canonical representatives (instance: every prime field Zmod p), every width >= bits+2, every schedule; single and batched."
  },
  {
   "property": "C10",
   "status": "proved",
   "theorems": [
    "C10_b2a",
    "C10_b2a_many",
    "C10_roundtrip"
   ],
   "note": "For inputs below the modulus (the code's precondition); round trip stated separately."
  },
  {
   "property": "C11",
   "status": "proved",
   "theorems": [
    "C11_bit_inject",
    "C11_bit_inject_many",
    "C11_wide_rejected"
   ],
   "note": "Single and batched; components wider than one bit are rejected by every party."
  },
  {
   "property": "C12",
   "status": "proved",
   "theorems": [
    "C12_ge",
    "C12_le",
    "C12_lt",
    "C12_gt",
    "C12_ge_public",
    "C12_le_public",
    "C12_lt_public",
    "C12_gt_public",
    "C12_eq",
    "C12_neq",
    "C12_eq_public",
    "C12_neq_public",
    "C12_is_zero",
    "C12_eq_many",
    "C12_eq_public_many",
    "C12_eq_many_lengths"
   ],
   "note": "For the direct (non-garbled) a2b selector; the lemmas behind are parametric in the conversion."
  },
  {
   "property": "C13",
   "status": "proved",
   "theorems": [
    "C13_xor",
    "C13_xor_public",
    "C13_and_public",
    "C13_or_public",
    "C13_shift_r",
    "C13_shift_l",
    "C13_and",
    "C13_or",
    "C13_cmux",
    "C13_is_zero",
    "C13_and_vec",
    "C13_or_tree",
    "C13_or_tree_empty",
    "C13_add",
    "C13_sub",
    "C13_add_mod",
    "C13_shift_l_public_by_shared",
    "C13_pow_2_public",
    "C13_pow_2_public_panics"
   ],
   "note": "Includes the Kogge-Stone adders, or_tree, is_zero, shifts."
  },
  {
   "property": "C14",
   "status": "proved",
   "theorems": [
    "C14_add",
    "C14_sub",
    "C14_neg",
    "C14_add_public",
    "C14_sub_shared_by_public",
    "C14_sub_public_by_shared",
    "C14_mul_public",
    "C14_promote",
    "C14_mul",
    "C14_open",
    "C14_pow_public",
    "C14_cmux",
    "C14_arithmetic_xor",
    "C14_arithmetic_xor_bits",
    "C14_pow_2_public",
    "C14_pow_2_public_panics",
    "C14_mul_vec",
    "C14_arithmetic_xor_many"
   ],
   "note": "For every ring type with wrapping operations (instance: Zmod 2^k for every k >= 1); results stated as integers modulo 2^K."
  },
  {
   "property": "C15",
   "status": "proved",
   "theorems": [
    "C15_shift_right_public",
    "C15_shift_left_public",
    "C15_shift_huge_panics",
    "C15_a2b",
    "C15_a2b_many",
    "C15_b2a",
    "C15_b2a_many",
    "C15_roundtrip",
    "C15_bit_inject",
    "C15_bit_inject_from_bit",
    "C15_bit_inject_from_bits_many",
    "C15_ge",
    "C15_lt",
    "C15_le",
    "C15_gt",
    "C15_eq",
    "C15_neq",
    "C15_ge_public",
    "C15_lt_public",
    "C15_le_public",
    "C15_gt_public",
    "C15_eq_public",
    "C15_neq_public",
    "C15_is_zero",
    "C15_a2b_debug_panics",
    "C15_a2b_non_power_of_two_refuted"
   ],
   "note": "K a power of two, debug assertions on or off. C15_a2b_non_power_of_two_refuted: for K=192 the release build returns a wrong bit sharing; C15_a2b_debug_panics: the debug build panics. The garbled-circuit selector is not part of this claim."
  },
  {
   "property": "C16",
   "status": "proved",
   "theorems": [
    "C16_downcast",
    "C16_downcast_larger_panics",
    "C16_upcast",
    "C16_upcast_smaller_panics",
    "C16_cast",
    "C16_field_to_ring",
    "C16_field_to_ring_many",
    "C16_ring_to_field",
    "C16_ring_to_field_many",
    "C16_ring_to_field_big",
    "C16_ring_to_field_big_many"
   ],
   "note": "Direct conversions (not the garbled ones). ring_to_field needs the value below the modulus (always true when the ring is smaller); ring_to_field_big covers rings wider than the field as the code does: the low MODULUS_BIT_SIZE bits, when below the modulus."
  },
  {
   "property": "C17",
   "status": "proved",
   "theorems": [
    "C17_share_is_sharing",
    "C17_shares_are_sharings",
    "C17_combine",
    "C17_combine_vec",
    "C17_roundtrip",
    "C17_too_few_shares",
    "C17_length_mismatch",
    "C17_duplicate_indices_refuted"
   ],
   "note": "Any number of parties, any degree, any at least t+1 distinct parties in any order, field or group secrets, single and vector. C17_duplicate_indices_refuted: repeated indices are not rejected and give a wrong value."
  },
  {
   "property": "C18",
   "status": "proved",
   "theorems": [
    "C18_broadcast",
    "C18_add",
    "C18_sub",
    "C18_neg",
    "C18_add_public",
    "C18_sub_public",
    "C18_mul_public",
    "C18_promote",
    "C18_div_shared_by_public",
    "C18_add_vec",
    "C18_sub_vec",
    "C18_local_mul",
    "C18_secret_determined",
    "C18_open",
    "C18_open_half",
    "C18_open_vec",
    "C18_mul_open",
    "C18_mul_open_vec",
    "C18_eval_poly"
   ],
   "note": "n >= 2, 2t+1 <= n, party points distinct in the field; every schedule, capacity >= 1."
  },
  {
   "property": "C19",
   "status": "proved",
   "theorems": [
    "C19_mul",
    "C19_mul_vec",
    "C19_degree_reduce",
    "C19_inv",
    "C19_inv_vec",
    "C19_div",
    "C19_div_public_by_shared"
   ],
   "note": "n >= 2, 2t+1 <= n; channel capacity >= 2, or >= 1 when n <= max(t+1,2t)+1 (cap_ok; needed only because a refill of the pair buffer may occur, see C20_capacity_one_refuted). Includes inversion and division with their error cases."
  },
  {
   "property": "C20",
   "status": "proved",
   "theorems": [
    "C20_vandermonde",
    "C20_preprocessing_new",
    "C20_get_pair",
    "C20_pair_sharings",
    "C20_buffer_triples",
    "C20_fork",
    "C20_fork_panics",
    "C20_history",
    "C20_setup_mul_open",
    "C20_threshold_error",
    "C20_capacity_one_refuted",
    "C20_single_party_refuted"
   ],
   "note": "Seed exchange, double-share generation, buffering, forks; every script of calls. Same capacity hypothesis as C19. Refuted cases: capacity 1 with n-1 > max(t+1,2t) deadlocks; n=1, t=0 panics."
  },
  {
   "property": "C21",
   "status": "proved",
   "theorems": [
    "C21_addshare",
    "C21_addshare_vec",
    "C21_repshare",
    "C21_repshare_vec",
    "C21_addshare_more_parties_refuted"
   ],
   "note": "Replicated field and point shares, single and vector; additive shares when n = 2t+1 (C21_addshare_more_parties_refuted shows that the translation is wrong for more parties)."
  },
  {
   "property": "C22",
   "status": "proved",
   "theorems": [
    "C22_ohv",
    "C22_rand_ohv",
    "C22_ohv_zero_panics",
    "C22_ohv_from_index",
    "C22_join"
   ],
   "note": "Every k >= 1 up to the width of the type, every schedule; k = 0 panics (theorem). mpc_net::join is proved to be equivalent to running the parts in sequence."
  },
  {
   "property": "C23",
   "status": "proved",
   "theorems": [
    "C23_get_public",
    "C23_get_shared",
    "C23_in_bounds",
    "C23_get_public_in_bounds",
    "C23_get_shared_in_bounds",
    "C23_get_public_many",
    "C23_get_public_no_b2a",
    "C23_read_public",
    "C23_write",
    "C23_write_from_ohv",
    "C23_get_public_two_panics",
    "C23_get_tiny_panics",
    "C23_write_tiny_panics",
    "C23_get_uneven_panics",
    "C23_plain_get",
    "C23_plain_get_oob",
    "C23_plain_write",
    "C23_plain_write_oob",
    "C23_write_out_of_bounds_ignored_refuted"
   ],
   "note": "Public tables with at least 3 entries, shared ones with at least 2, at most 2^32 entries. Smaller or uneven tables panic (theorems); the documented 'out-of-bounds index is ignored' is refuted; the exact entry hit is stated for every index."
  },
  {
   "property": "C24",
   "status": "proved",
   "theorems": [
    "C24_shuffle",
    "C24_unshuffle_inverts",
    "C24_radix_sort_fields",
    "C24_radix_sort_fields_sorted",
    "C24_radix_sort_fields_vec_by",
    "C24_too_many",
    "C24_too_wide_panics",
    "C24_order_mismatch_panics",
    "C24_bitsize_zero",
    "C24_bitsize_zero_refuted"
   ],
   "note": "Shuffles over any group with public inputs; radix_sort_fields and radix_sort_fields_vec_by for bitsize from 1 to the width of the integer type and up to 2^K-1 inputs; too many inputs, too wide keys and a wrong order list are rejected. bitsize 0 does not sort by zero bits: C24_bitsize_zero_refuted, C24_bitsize_zero says what it does. The Batcher network on garbled circuits (rep3/gadgets/sort.rs) is not covered by this property."
  },
  {
   "property": "C25",
   "status": "proved",
   "theorems": [
    "C25_plain",
    "C25_params_new",
    "C25_rep3",
    "C25_precompute_rep3",
    "C25_precompute_rep3_additive",
    "C25_rep3_precomp",
    "C25_rep3_packed",
    "C25_rep3_additive",
    "C25_rep3_precompute_and_run",
    "C25_rep3_other_exponent_panics",
    "C25_shamir",
    "C25_precompute_shamir",
    "C25_shamir_precomp",
    "C25_shamir_packed",
    "C25_no_full_rounds_refuted"
   ],
   "note": "Online, precomputed, packed and additive variants on replicated shares; online, precomputed and packed on Shamir shares; exponent 5 as the code asserts. The online replicated variant needs at least one external round (C25_no_full_rounds_refuted). Parameters well-formed as built by Poseidon2Params::new."
  },
  {
   "property": "C26",
   "status": "proved",
   "theorems": [
    "C26_root_sponge",
    "C26_root_compression",
    "C26_other_lengths_panic",
    "C26_witness_sponge",
    "C26_witness_compression",
    "C26_verify_sponge",
    "C26_verify_compression",
    "C26_sound_sponge",
    "C26_sound_compression",
    "C26_inner_node_accepted",
    "C26_padding_accepted",
    "C26_padding_accepted_compression",
    "C26_one_leaf_sponge_panics",
    "C26_one_leaf_compression",
    "C26_empty_path_panics",
    "C26_rep3_sponge",
    "C26_rep3_compression",
    "C26_shamir_sponge",
    "C26_shamir_compression"
   ],
   "note": "Sponge and compression mode, plain, replicated and Shamir. Findings: one leaf panics, arity and depth are taken from the witness (C26_inner_node_accepted, C26_padding_accepted)."
  },
  {
   "property": "C27",
   "status": "proved",
   "theorems": [
    "C27_and_gate",
    "C27_xor_gate",
    "C27_not_gate",
    "C27_garbled_circuit",
    "C27_gate_list",
    "C27_circuits_natural"
   ],
   "note": "Gates for every hash, tweak and labels; whole circuits for every circuit generic in its wires (every gate list, and the circuits of circuits.rs). The evaluator's decoding needs that the hashes of the two labels of an output wire differ (hypothesis `separated`); the garblers' decoding does not."
  },
  {
   "property": "C28",
   "status": "proved",
   "theorems": [
    "C28_addition",
    "C28_addition_mod",
    "C28_addition_odd_constant",
    "C28_addition_constant_refuted",
    "C28_subtraction",
    "C28_multiplication",
    "C28_comparison",
    "C28_division",
    "C28_division_short_refuted",
    "C28_addition_mod_p",
    "C28_addition_mod_p_word_refuted",
    "C28_casts",
    "C28_field_division",
    "C28_field_division_public",
    "C28_field_division_shared",
    "C28_field_division_power_2",
    "C28_field_division_zero_refuted",
    "C28_ring_division",
    "C28_decompose",
    "C28_decompose_rings",
    "C28_slice"
   ],
   "note": "Every width. Excluded and refuted: even public summands (F23), a divisor shorter than the dividend, word not wider than the modulus; a zero divisor gives all ones, stated in the theorem for rings."
  },
  {
   "property": "C29",
   "status": "proved",
   "theorems": [
    "C29_write_frame",
    "C29_writer_loop",
    "C29_truncated",
    "C29_truncation_total",
    "C29_whole",
    "C29_header_too_large",
    "C29_chunking",
    "C29_any_input",
    "C29_buffer_bound",
    "C29_end_to_end",
    "C29_send_too_large",
    "C29_send",
    "C29_recv",
    "C29_interrupted_refuted"
   ],
   "note": "OS reads/writes are an arbitrary oracle; every chunking, every truncation point, every partial write. Refuted: the reader does not retry an interrupted read."
  },
  {
   "property": "C30",
   "status": "proved",
   "theorems": [
    "C30_established",
    "C30_same_connection",
    "C30_distinct_connections",
    "C30_sorted_addresses",
    "C30_ids_from_one_refuted"
   ],
   "note": "Any number of parties and networks, any listener backlog >= 1, any interleaving. Time-outs and failed connect attempts are not steps. Refuted for ids other than 0..n-1."
  },
  {
   "property": "C31",
   "status": "proved",
   "theorems": [
    "C31_header",
    "C31_init_session",
    "C31_init_session_peers",
    "C31_conserved",
    "C31_right_key",
    "C31_call_once",
    "C31_connection_first",
    "C31_request_first",
    "C31_acceptor",
    "C31_acceptor_skips",
    "C31_cleanup_cancels_request_refuted",
    "C31_stale_request_swallows_refuted",
    "C31_silent_connection_refuted"
   ],
   "note": "Any history of requests, arrivals, clean-ups and abandonments. Delivery is stated with the side conditions (no idle clean-up, no abandonment in between); without them it is refuted."
  },
  {
   "property": "C32",
   "status": "proved",
   "theorems": [
    "C32_fifo",
    "C32_unknown_party",
    "C32_stats",
    "C32_diff",
    "C32_timed_out_send_counted_refuted",
    "C32_diff_wrong_order_refuted",
    "C32_refines"
   ],
   "note": "Any history; the abstract network of Proc.v is refined. Counters include timed-out sends (refuted as exact otherwise)."
  },
  {
   "property": "C33",
   "status": "proved",
   "theorems": [
    "C33_commute",
    "C33_one_schedule_decides_all",
    "C33_no_deadlock",
    "C33_capacity"
   ],
   "note": "Any number of parties, any capacity; deadlock example shows the hypothesis matters."
  },
  {
   "property": "C34",
   "status": "proved",
   "theorems": [
    "C34_roundtrip",
    "C34_accepted",
    "C34_bad_format",
    "C34_host_with_colon_refuted"
   ],
   "note": "The accepted set is exact: optional '+' and leading zeros are accepted. Hosts with ':' are refuted."
  },
  {
   "property": "C35",
   "status": "proved",
   "theorems": [
    "C35_rep3_view",
    "C35_rep3_vector_view",
    "C35_shamir_view",
    "C35_shamir_vector_view"
   ],
   "note": "Replicated dealing of elements and vectors, Shamir dealing seen by exactly t parties (unique coefficients) and by at most t parties (bijection, vectors). Generators are ideal tapes; the seed-compressed sharings (share_*_seeded) hide the secret only computationally and are not covered."
  },
  {
   "property": "C36",
   "status": "partial",
   "theorems": [
    "C36_point_message",
    "C36_batch_message",
    "C36_batch_masks_refuted",
    "C36_mul_message",
    "C36_circuit",
    "C36_circuit_open",
    "C36_circuit_correct"
   ],
   "note": "Proved: the message of one multiplication, the whole view of a party in any circuit of additions, public operations, mul and mul_vec, optionally with opened outputs, and the first message of a single point conversion. The clause on batch conversions is false: C36_batch_masks_refuted. Missing: the Shamir protocols."
  },
  {
   "property": "C37",
   "status": "proved",
   "theorems": [
    "C37_public_point",
    "C37_public_scalar",
    "C37_scalar_mul",
    "C37_promote",
    "C37_msm",
    "C37_open_point_and_field",
    "C37_open_point_and_field_many",
    "C37_open_point_many",
    "C37_shamir_public_point",
    "C37_shamir_msm",
    "C37_shamir_open_point_and_field",
    "C37_shamir_open_point_and_field_many",
    "C37_shamir_scalar_mul"
   ],
   "note": "Replicated and Shamir point operations. The conversions between point shares and coordinate shares are C41."
  },
  {
   "property": "C38",
   "status": "proved",
   "theorems": [
    "C38_eval_poly",
    "C38_horner",
    "C38_eval_poly_empty_refuted"
   ],
   "note": "Non-empty coefficient lists; C38_eval_poly_empty_refuted documents the panic at 0 on the empty list."
  },
  {
   "property": "C39",
   "status": "proved",
   "theorems": [
    "C39_reshare_2_to_3"
   ],
   "note": "Every schedule, each choice of recipient."
  },
  {
   "property": "C40",
   "status": "proved",
   "theorems": [
    "C40_mask",
    "C40_limbs",
    "C40_from_limbs_truncating",
    "C40_le_bytes",
    "C40_serialize",
    "C40_deserialize",
    "C40_serde",
    "C40_random_bits",
    "C40_casts",
    "C40_casts_xor",
    "C40_reduce",
    "C40_from_uint_unchecked",
    "C40_from_uint_unchecked_debug",
    "C40_from_uint_unchecked_release_refuted",
    "C40_to_uint_widened"
   ],
   "note": "Limb/byte/serde codecs, masks, casts, reduction; release-mode truncation of the widened from_uint_unchecked is recorded as refuted."
  },
  {
   "property": "C41",
   "status": "proved",
   "theorems": [
    "C41_point_to_coords",
    "C41_point_to_coords_many",
    "C41_is_zero",
    "C41_is_zero_many",
    "C41_coords_to_point",
    "C41_coords_to_point_many",
    "C41_zero_share_panics",
    "C41_trivial_share_panics",
    "C41_equal_halves_refuted",
    "C41_zero_half_refuted",
    "C41_mask_collision_refuted"
   ],
   "note": "With the exact conditions under which the conversions work; the refuted theorems show that each condition is needed."
  },
  {
   "property": "C42",
   "status": "proved",
   "theorems": [
    "C42_a2y",
    "C42_a2y_many",
    "C42_a2y_streaming",
    "C42_y2b",
    "C42_y2b_many",
    "C42_a2y2b",
    "C42_a2y2b_many",
    "C42_a2y2b_streaming",
    "C42_a2b_selector"
   ],
   "note": "All hypotheses explicit; the offset has its lowest bit set, which is how WireMod2::rand_delta draws it."
  },
  {
   "property": "C43",
   "status": "proved",
   "theorems": [
    "C43_b2y",
    "C43_y2a",
    "C43_y2a_streaming",
    "C43_b2y2a",
    "C43_b2y2a_streaming",
    "C43_b2a_selector"
   ],
   "note": "Output decoding assumes that the two labels of each output wire hash differently (otherwise fancy_garbling's evaluator reports an error)."
  },
  {
   "property": "C44",
   "status": "proved",
   "theorems": [
    "C44_int_div_power_2",
    "C44_int_div",
    "C44_int_div_by_public",
    "C44_int_div_by_shared",
    "C44_slice",
    "C44_decompose",
    "C44_decompose_surplus",
    "C44_mod_power_2",
    "C44_mod_power_2_zero",
    "C44_decompose_refuted"
   ],
   "note": "Finding F26: more total bits than the modulus has gives garbage limbs (C44_decompose_refuted, exact behaviour for one value in C44_decompose_surplus)."
  },
  {
   "property": "C45",
   "status": "proved",
   "theorems": [
    "C45_tampered"
   ],
   "note": "Proved for circuits without decoded outputs (conversions); the digest is an arbitrary function."
  },
  {
   "property": "C46",
   "status": "proved",
   "theorems": [
    "C46_binary",
    "C46_unary",
    "C46_cmux",
    "C46_is_zero",
    "C46_to_index",
    "C46_open",
    "C46_to_share",
    "C46_num2bits",
    "C46_addbits",
    "C46_binary_clear",
    "C46_unary_clear",
    "C46_cmux_clear",
    "C46_compare_refuted",
    "C46_abort_refuted",
    "C46_xor_refuted"
   ],
   "note": "Every operation, tag combination and schedule; the exact result on the values behind the shares (C46_binary ...) and agreement with the clear driver (C46_*_clear) outside the refuted cases. Integer division or remainder by a shared zero and bitwise results at or above the modulus are excluded from C46_binary. The Poseidon2 accelerator and logging are not modelled."
  },
  {
   "property": "C47",
   "status": "proved",
   "theorems": [
    "C47_run",
    "C47_run_flat",
    "C47_config"
   ],
   "note": "Relative to the interpreter run on the values behind the shares (ideal_run); what that means for compiled circom programs is C48. Excluded: runs in which the ideal result is undef (integer division by a shared zero, bitwise results at or above the modulus). The Poseidon2 accelerator, precomputed traces and the text of log output are not modelled; the number of executed instructions is bounded by a parameter."
  },
  {
   "property": "C48",
   "status": "proved",
   "theorems": [
    "C48_compiler",
    "C48_masks",
    "C48_parties",
    "C48_nested_if_refuted",
    "C48_condition_refuted",
    "C48_assert_refuted"
   ],
   "note": "Source fragment: without function calls, log and comparison of arrays. C48_masks / C48_parties require the structured run under the strict drivers to be defined: operations on the branch taken return what the clear driver returns (see C46), shared conditions are 0 or 1, no public false if-without-else, component creation or component input under a mask. What happens otherwise is in the _refuted theorems. The compiler front end (parsing, type analysis, bucket generation by circom) is not modelled: source programs are terms of VmSource.stmt."
  },
  {
   "property": "C49",
   "status": "proved",
   "theorems": [
    "C49_rep3_prove"
   ],
   "note": "The transforms of taceo-ark-algebra and the msm are external and modelled by their specification (Dft.v); mpc_net::join and rayon::join legs are run one after the other (C22)."
  },
  {
   "property": "C50",
   "status": "proved",
   "theorems": [
    "C50_rep3_complete",
    "C50_complete",
    "C50_key",
    "C50_roots",
    "C50_nonresidue",
    "C50_chunks",
    "C50_simulated",
    "C50_indistinguishable"
   ],
   "note": "Key generation is external (snarkjs / arkworks): valid_key is its specification; the pairing and the verifier are those of arkworks, given by the pairing equation. CircomReduction needs a domain strictly below the two-adicity of the field (the domain of twice the size must exist). fft_ok is Euler's criterion for the Legendre symbol of ark_ff."
  },
  {
   "property": "C51",
   "status": "proved",
   "theorems": [
    "C51_shamir_prove",
    "C51_bridge_prove",
    "C51_shamir_complete"
   ],
   "note": "cap_ok is the channel capacity condition of C20."
  },
  {
   "property": "C52",
   "status": "proved",
   "theorems": [
    "C52_rep3_prove"
   ],
   "note": "The transforms of ark_poly and the msm are modelled by their specification (Dft.v); the transcript hash is an arbitrary function of the absorbed scalars and points; forked legs are run one after the other (C22). A zero among the drawn masks makes the parties abort although the plain prover may succeed, hence the guard of the converse."
  },
  {
   "property": "C53",
   "status": "proved",
   "theorems": [
    "C53_shamir_prove"
   ],
   "note": "As C52; cap_ok is the channel capacity condition of C20."
  },
  {
   "property": "C54",
   "status": "proved",
   "theorems": [
    "C54_complete",
    "C54_no_lagrange",
    "C54_rep3_complete",
    "C54_shamir_complete",
    "C54_no_public_refuted"
   ],
   "note": "Completeness of the proofs that are returned. The prover aborts if a mask, a denominator of the product or the evaluation point hits zero, so a returned proof is a hypothesis. n_public = 0 is refuted (C54_no_public_refuted, C54_no_lagrange: finding F35). Domains below 8 (which snarkjs does not produce) are excluded by key_ok."
  },
  {
   "property": "C55",
   "status": "proved",
   "theorems": [
    "C55_iszero",
    "C55_iszero_shared",
    "C55_num2bits",
    "C55_num2bits_shared",
    "C55_addbits",
    "C55_addbits_shared",
    "C55_num2bits_refuted",
    "C55_sqrt_refuted"
   ],
   "note": "The statement contains its exceptions: C55_num2bits is an equivalence, C55_num2bits_refuted and C55_sqrt_refuted show the differences from the circom code (findings F36, F37). The Poseidon2 accelerator is not modelled."
  },
  {
   "property": "C56",
   "status": "proved",
   "theorems": [
    "C56_named",
    "C56_flat",
    "C56_same"
   ],
   "note": "For all drivers (handlers) at once."
  },
  {
   "property": "C57",
   "status": "proved",
   "theorems": [
    "C57_shared",
    "C57_last",
    "C57_end"
   ],
   "note": "On the values behind the shares (run_ideal); C47 relates this to the three parties."
  },
  {
   "property": "C58",
   "status": "proved",
   "theorems": [
    "C58_determined",
    "C58_solved",
    "C58_vector",
    "C58_known_refuted",
    "C58_overwritten_refuted"
   ],
   "note": "The Brillig VM is an arbitrary function. C58_known_refuted and C58_overwritten_refuted show why the exceptions of C58_solved are needed (F38, F39); outputs are in reverse order (F41). Hash, curve and cipher opcodes are not modelled."
  },
  {
   "property": "C59",
   "status": "proved",
   "theorems": [
    "C59_ideal",
    "C59_parties",
    "C59_total",
    "C59_vector",
    "C59_range_refuted",
    "C59_table_refuted",
    "C59_skipped_refuted"
   ],
   "note": "The Brillig VM on shares is a parameter with its own contract (brillig_wpo, oref). Differences from the plain driver: C59_range_refuted, C59_table_refuted, C59_skipped_refuted (F40, F43, F44)."
  },
  {
   "property": "C60",
   "status": "proved",
   "theorems": [
    "C60_progress",
    "C60_progress_refuted"
   ],
   "note": "C60_progress_refuted shows that the readiness condition on unknowns is needed (F42)."
  },
  {
   "property": "C61",
   "status": "proved",
   "theorems": [
    "C61_number",
    "C61_split",
    "C61_split_shamir",
    "C61_no_collision_refuted"
   ],
   "note": "Reading of digit strings (num-bigint, ark-ff) is a parameter. C61_no_collision_refuted: keys of entries can collide (F47)."
  },
  {
   "property": "C62",
   "status": "proved",
   "theorems": [
    "C62_merge",
    "C62_contributors",
    "C62_generate",
    "C62_private_stays_shared_refuted",
    "C62_same_outcome_refuted",
    "C62_equal_accepted_refuted"
   ],
   "note": "The condition on names excludes members called like an element of a public array; without it C62_same_outcome_refuted, C62_equal_accepted_refuted (F46). C62_private_stays_shared_refuted: superfluous public entries open private inputs (F45)."
  },
  {
   "property": "C63",
   "status": "proved",
   "theorems": [
    "C63_additive",
    "C63_too_many_public",
    "C63_shamir",
    "C63_uncompress",
    "C63_translate",
    "C63_unbatch",
    "C63_verify"
   ],
   "note": "The two additive compressions use the network (resharing, degree reduction)."
  },
  {
   "property": "C64",
   "status": "proved",
   "theorems": [
    "C64_run",
    "C64_progress",
    "C64_bin",
    "C64_field_ops",
    "C64_int_ops",
    "C64_opcode",
    "C64_debug_refuted"
   ],
   "note": "C64_debug_refuted: debug builds panic on subtraction below zero (F48)."
  },
  {
   "property": "C65",
   "status": "proved",
   "theorems": [
    "C65_bin",
    "C65_not",
    "C65_cast",
    "C65_select",
    "C65_radix"
   ],
   "note": "Division, digits and casts by garbled circuits are parameters with their specification. The excluded cases: division of bits, field division by a shared value (may fail by chance), and to_radix with output_bits (C66_bits_refuted, F53)."
  },
  {
   "property": "C66",
   "status": "proved",
   "theorems": [
    "C66_tagged",
    "C66_result",
    "C66_int_div_refuted",
    "C66_nested_refuted",
    "C66_store_refuted",
    "C66_debug_refuted",
    "C66_trap_refuted",
    "C66_noise_refuted",
    "C66_bits_refuted"
   ],
   "note": "Findings F48-F53 are proved as C66_*_refuted: programs that have a result and on which the parties fail or return something else; the tagged run says where."
  },
  {
   "property": "C67",
   "status": "proved",
   "theorems": [
    "C67_store",
    "C67_taken",
    "C67_call",
    "C67_clear",
    "C67_solve",
    "C67_order_refuted"
   ],
   "note": "The division and digits by garbled circuits stay a parameter with its specification (C66). C67_order_refuted: finding F55."
  },
  {
   "property": "C68",
   "status": "proved",
   "theorems": [
    "C68_extend",
    "C68_evaluate",
    "C68_evaluate_refuted",
    "C68_evaluate_panics"
   ],
   "note": "At 1,...,n-1 evaluate panics (C68_evaluate_refuted, F56)."
  },
  {
   "property": "C69",
   "status": "proved",
   "theorems": [
    "C69_complete",
    "C69_small_refuted"
   ],
   "note": "Without zero knowledge; relations as parameters with bounded degree that are skipped only where they vanish. A challenge in 1..SIZE-1 makes the verifier panic (F56); two rows with padding make the prover panic (C69_small_refuted, F57)."
  },
  {
   "property": "C70",
   "status": "proved",
   "theorems": [
    "C70_sound",
    "C70_few_roots",
    "C70_round_degree"
   ],
   "note": "Deterministic form: the exceptional event is named ('lucky') and bounded per round (C70_few_roots)."
  },
  {
   "property": "C71",
   "status": "proved",
   "theorems": [
    "C71_degrees",
    "C71_complete",
    "C71_sound",
    "C71_permutation_skip_refuted",
    "C71_satisfied",
    "C71_lookup_skip"
   ],
   "note": "Completeness for permutation and lookup not skipped; with the skip of /repo it is refuted (C71_permutation_skip_refuted, F58). Soundness for the verifier as it is."
  },
  {
   "property": "C72",
   "status": "proved",
   "theorems": [
    "C72_arithmetic",
    "C72_range",
    "C72_points",
    "C72_poseidon2",
    "C72_memory",
    "C72_limbs",
    "C72_permutation",
    "C72_lookup"
   ],
   "note": "Equivalences for single gates; implications for the permutation and lookup arguments, without the probabilistic step to copy constraints and table membership."
  },
  {
   "property": "C73",
   "status": "proved",
   "theorems": [
    "C73_complete",
    "C73_recovered",
    "C73_two_rows",
    "C73_two_rows_refuted",
    "C73_first_refuted"
   ],
   "note": "Without zero knowledge; challenges are arguments. Needs at least four rows (C73_two_rows_refuted, F59) and a zero first row of shifted columns (C73_first_refuted), which the code does not check."
  },
  {
   "property": "C74",
   "status": "proved",
   "theorems": [
    "C74_sound",
    "C74_few_rho",
    "C74_few_first",
    "C74_few_fold",
    "C74_few_z",
    "C74_few_tau"
   ],
   "note": "Deterministic form, for commitments to known polynomials (algebraic prover): the exceptional events are named (lucky_*) and bounded (C74_few_*)."
  },
  {
   "property": "C75",
   "status": "proved",
   "theorems": [
    "C75_rows",
    "C75_few_alpha",
    "C75_few_beta",
    "C75_total"
   ],
   "note": "Deterministic form with named exceptions and their number."
  },
  {
   "property": "C76",
   "status": "proved",
   "theorems": [
    "C76_complete",
    "C76_sound"
   ],
   "note": "Without zero knowledge and Oink; commitments to known polynomials. Completeness with permutation and lookup not skipped (F58)."
  },
  {
   "property": "C77",
   "status": "proved",
   "theorems": [
    "C77_w4",
    "C77_record",
    "C77_lookup_rows",
    "C77_lookup_sum",
    "C77_permutation",
    "C77_gaps",
    "C77_ranges",
    "C77_permutation_ranges"
   ],
   "note": "Without zero knowledge; challenges are arguments. In the relations of the permutation and of lookups the terms inverted must not be zero."
  },
  {
   "property": "C78",
   "status": "proved",
   "theorems": [
    "C78_wiring",
    "C78_public_delta"
   ],
   "note": "One direction, C80 is the other. tau is total in the model; the separator is a parameter."
  },
  {
   "property": "C79",
   "status": "proved",
   "theorems": [
    "C79_satisfied",
    "C79_accepted"
   ],
   "note": "The hypotheses on the circuit are stated as `honest`; without zero knowledge, with permutation and lookup not skipped (F58)."
  },
  {
   "property": "C80",
   "status": "proved",
   "theorems": [
    "C80_wires",
    "C80_few_betas",
    "C80_few_gammas"
   ],
   "note": "The column of the grand product is assumed to begin with zero, which the opening of the shifted columns ensures (C82). The separator is a parameter, at least the number of rows."
  },
  {
   "property": "C81",
   "status": "proved",
   "theorems": [
    "C81_lookups",
    "C81_tables_only_refuted",
    "C81_few_betas",
    "C81_few_poles",
    "C81_few_gammas"
   ],
   "note": "Rows outside of the tables count as entries of zeros, as in the code; C81_tables_only_refuted shows that this admits lookups that no table holds (finding F60)."
  },
  {
   "property": "C82",
   "status": "proved",
   "theorems": [
    "C82_sound"
   ],
   "note": "The prover is algebraic: it commits to polynomials it knows. The challenges are arguments, exceptional ones are named and bounded by C74, C75, C80 and C81. Without zero knowledge and without padding rounds."
  },
  {
   "property": "C83",
   "status": "proved",
   "theorems": [
    "C83_ranges",
    "C83_rows",
    "C83_reversed_refuted"
   ],
   "note": "For ranges that are not empty, as the callers add them; C83_reversed_refuted shows what happens otherwise (finding F61)."
  }
 ]
}