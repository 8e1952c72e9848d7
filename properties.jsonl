{"id": "C01", "title": "Replicated sharing round-trips", "statement": "Sharing a field or ring element (or a vector of them) with share_field_element(s)/share_ring_element and recombining the three shares with combine_field_element(s)/combine_ring_element returns exactly the original value, for any randomness; the three shares are replicated consistently (party i second component equals party i-1 first component).", "quantifier": "every secret value, every vector length, every outcome of the randomness source", "why_tests_cant": "The value space (254-bit field, 2^k ring) and the randomness are too large to enumerate; tests sample a few seeds.", "anchors": ["mpc-core/src/protocols/rep3.rs: share_field_element, share_field_elements, combine_field_element, combine_field_elements", "mpc-core/src/protocols/rep3_ring.rs: share_ring_element, combine_ring_element"]}
{"id": "C02", "title": "Local replicated arithmetic commutes with opening", "statement": "add, sub, neg, add_public, sub_shared_by_public, sub_public_by_shared, mul_public and promote_to_trivial_share, executed independently by the three parties without communication, turn consistent sharings of x,y into a consistent sharing of x+y, x-y, -x, x+c, x-c, c-x, c*x, c.", "quantifier": "every consistent sharing of every value and every public constant", "why_tests_cant": "Each identity must hold for all sharings of all values for each of the three party ids.", "anchors": ["mpc-core/src/protocols/rep3/arithmetic.rs: add, sub, neg, add_public, sub_shared_by_public, sub_public_by_shared, mul_public, promote_to_trivial_share", "mpc-core/src/protocols/rep3_ring/arithmetic.rs"]}
{"id": "C03", "title": "Replicated multiplication is correct under every message schedule", "statement": "When the three parties run mul (or mul_vec/local_mul_vec+reshare_vec/square) on consistent sharings of x and y with correctly set up correlated randomness, every interleaving of their sends and receives terminates without deadlock, no party reports an error, and the outputs are a consistent sharing of x*y (component-wise for vectors).", "quantifier": "every pair of consistent sharings, every vector length, every state of the correlated randomness, every message schedule, every channel capacity >= 1", "why_tests_cant": "Schedules, randomness and values are unbounded; a test run exercises one interleaving.", "anchors": ["mpc-core/src/protocols/rep3/arithmetic.rs: mul, mul_vec, local_mul_vec, reshare_vec", "mpc-core/src/protocols/rep3/network.rs: Rep3NetworkExt::reshare, reshare_many"]}
{"id": "C04", "title": "Opening reveals the shared value identically to all parties", "statement": "open, open_vec, open_bit and mul_open/mul_open_vec return the same value at all three parties, and it is the shared value (product), under every message schedule.", "quantifier": "every consistent sharing, every vector length, every schedule", "why_tests_cant": "Same value at all parties must hold for all schedules and all sharings.", "anchors": ["mpc-core/src/protocols/rep3/arithmetic.rs: open, open_vec, open_bit, mul_open, mul_open_vec"]}
{"id": "C05", "title": "Secure inversion is sound and fails exactly on zero products", "statement": "inv/inv_vec/div: if all parties return Ok then the result opens to the multiplicative inverse (quotient); all three parties return the same verdict; they return the error exactly when x*r=0 for the jointly sampled mask r; in particular inverting 0 always errors.", "quantifier": "every consistent sharing, every sampled mask, every schedule", "why_tests_cant": "Error agreement and correctness range over the whole field.", "anchors": ["mpc-core/src/protocols/rep3/arithmetic.rs: inv, inv_vec, div"]}
{"id": "C06", "title": "Oblivious selection and public powers", "statement": "cmux(c,t,f) opens to t when c opens to 1 and to f when c opens to 0; pow_public(x,e) opens to x^e for each public exponent, including e=0; arithmetic_xor of two shared bits opens to their xor.", "quantifier": "every sharing of every value, every exponent, every schedule", "why_tests_cant": "Square-and-multiply has an unbounded loop; selection must hold for all field values.", "anchors": ["mpc-core/src/protocols/rep3/arithmetic.rs: cmux, cmux_vec, pow_public, arithmetic_xor"]}
{"id": "C07", "title": "Correlated randomness stays synchronised", "statement": "After setup, and after any sequence of mask drawing operations executed identically by the three parties (masking field/ec/binary elements, random shares, bit-composition draws, forks), party i second generator is in the same state as party i-1 first generator; consequently the three zero-masks always sum (xor) to zero and the three random shares are consistent.", "quantifier": "every seed triple, every finite history of draws and forks", "why_tests_cant": "History length is unbounded.", "anchors": ["mpc-core/src/protocols/rep3/rngs.rs: Rep3Rand, masking_field_element(s), random_elements, fork", "mpc-core/src/protocols/rep3/arithmetic.rs: rand", "mpc-core/src/protocols/rep3.rs: Rep3State::new, fork"]}
{"id": "C08", "title": "generate_shared returns a common value", "statement": "The value returned by generate_shared is equal on all three parties, at any point in a protocol run.", "quantifier": "every seed triple, every history of earlier protocol calls", "why_tests_cant": "Whether generators are still aligned depends on the whole history of calls; unit tests call it right after setup only.", "anchors": ["mpc-core/src/protocols/rep3/rngs.rs: Rep3RandBitComp, generate_shared", "mpc-core/src/protocols/rep3.rs: Rep3State::generate_shared"]}
{"id": "C09", "title": "Arithmetic-to-binary conversion", "statement": "a2b of a consistent sharing of x yields a consistent xor-sharing of the canonical integer representative of x (in [0,p)), bits beyond the modulus size are zero, under every schedule.", "quantifier": "every prime modulus, every sharing, all randomness, every schedule", "why_tests_cant": "Needs the Kogge-Stone adder and the modular reduction to be right for all pairs of addends.", "anchors": ["mpc-core/src/protocols/rep3/conversion.rs: a2b, a2b_many", "mpc-core/src/protocols/rep3/detail.rs: low_depth_binary_add_mod_p"]}
{"id": "C10", "title": "Binary-to-arithmetic conversion", "statement": "b2a of a consistent xor-sharing of an integer v < p yields a consistent additive sharing of the field element v; b2a(a2b(x)) opens to x.", "quantifier": "every prime modulus, every sharing, all randomness, every schedule", "why_tests_cant": "All carries and modular wrap-arounds.", "anchors": ["mpc-core/src/protocols/rep3/conversion.rs: b2a, b2a_many"]}
{"id": "C11", "title": "Bit injection", "statement": "bit_inject (and the many variant) of a consistent xor-sharing of a single bit b yields a consistent additive sharing of the field element b under every schedule.", "quantifier": "every bit sharing, all randomness, all batch lengths, every schedule", "why_tests_cant": "Three-message chain with per-party roles; correctness for all bit sharings and masks.", "anchors": ["mpc-core/src/protocols/rep3/conversion.rs: bit_inject, bit_inject_many"]}
{"id": "C12", "title": "Comparisons on shared field elements", "statement": "ge, lt, le, gt, ge_public, lt_public, le_public, gt_public, eq, neq, eq_public, neq_public, is_zero open to 1 or 0 exactly according to the order/equality of the canonical integer representatives.", "quantifier": "every prime, every pair of values, all sharings and randomness", "why_tests_cant": "Boundary values and all pairs of 254-bit values cannot be enumerated.", "anchors": ["mpc-core/src/protocols/rep3/arithmetic.rs: ge, lt, le, gt, eq, neq, *_public, is_zero", "mpc-core/src/protocols/rep3/detail.rs: unsigned_ge, unsigned_ge_const_lhs, unsigned_ge_const_rhs", "mpc-core/src/protocols/rep3/binary.rs: is_zero"]}
{"id": "C13", "title": "Binary share operations", "statement": "xor, xor_public, and, and_public, or, or_public, not (bounded by the declared bit length), shift_l/shift_r_public and cmux on xor-shared integers open to the corresponding bit-wise operation on the opened integers, under every schedule.", "quantifier": "every pair of xor-sharings, every bit length, every schedule", "why_tests_cant": "All bit lengths and values.", "anchors": ["mpc-core/src/protocols/rep3/binary.rs: xor, and, and_vec, or, cmux, shift_l_public, not", "mpc-core/src/protocols/rep3/binary/ops.rs"]}
{"id": "C14", "title": "Ring arithmetic mod 2^k", "statement": "The rep3_ring versions of add, sub, neg, public operations, mul, square, pow and arithmetic xor on sharings over Z/2^k (k=1,8,16,32,64,128) open to the wrapping integer operation.", "quantifier": "every k, every value, all sharings and randomness, every schedule", "why_tests_cant": "2^(2k) input pairs.", "anchors": ["mpc-core/src/protocols/rep3_ring/arithmetic.rs"]}
{"id": "C15", "title": "Ring conversions and comparisons", "statement": "Over Z/2^k a2b, b2a, bit injection and ge/lt/le/gt/eq (and their _public variants) agree with the unsigned integer interpretation for each power of two k (every primitive ring type). For a width that is not a power of two (RUint<BITS>) a2b panics when debug assertions are on and is wrong when they are off.", "quantifier": "every power of two k, all values and sharings, debug assertions on or off, every schedule", "why_tests_cant": "Kogge-Stone logic must be right for all k and all values.", "anchors": ["mpc-core/src/protocols/rep3_ring/conversion.rs", "mpc-core/src/protocols/rep3_ring/detail.rs", "mpc-core/src/protocols/rep3_ring/arithmetic.rs: ge, lt, le, gt, eq"]}
{"id": "C16", "title": "Casts between rings and fields", "statement": "Downcasting a ring share opens to value mod 2^k2; upcasting to a larger ring or to a field opens to the same integer; casting a field share to a ring opens to the canonical representative mod 2^k.", "quantifier": "all ring widths, primes, values and sharings", "why_tests_cant": "Carries between shares make share-wise zero extension wrong; only an all-values argument excludes that.", "anchors": ["mpc-core/src/protocols/rep3_ring/casts.rs: downcast, upcast, field_to_ring_a2b, ring_to_field_a2b"]}
{"id": "C17", "title": "Shamir sharing round-trips from any qualified set", "statement": "share_field_element(x, t, n) evaluates a degree-t polynomial; combine_field_element on the shares of ANY t+1 distinct parties (in any order) returns x.", "quantifier": "every secret, every degree t, every n>t, every choice of randomness, every selection of t+1 parties", "why_tests_cant": "The number of subsets is exponential; n and t unbounded.", "anchors": ["mpc-core/src/protocols/shamir.rs: share_field_element, combine_field_element", "mpc-core/src/protocols/shamir.rs: lagrange_from_coeff, reconstruct"]}
{"id": "C18", "title": "Shamir linear operations and opening", "statement": "Local add/sub/neg/public operations on Shamir shares open (open, open_vec) to the corresponding operation on secrets, all parties obtain the same value under every schedule.", "quantifier": "every n, t with 2t+1<=n, every secret, every schedule", "why_tests_cant": "n-party schedules are unbounded.", "anchors": ["mpc-core/src/protocols/shamir/arithmetic.rs", "mpc-core/src/protocols/shamir/network.rs: broadcast_next"]}
{"id": "C19", "title": "Shamir multiplication with degree reduction", "statement": "mul/mul_vec on degree-t sharings of x and y, using a preprocessed double sharing, yields a degree-t sharing of x*y under every schedule.", "quantifier": "every n, t with 2t+1<=n, every secret, every double sharing, every schedule", "why_tests_cant": "Needs interpolation of the degree-2t product at 0 for all polynomials.", "anchors": ["mpc-core/src/protocols/shamir/arithmetic.rs: mul, mul_vec", "mpc-core/src/protocols/shamir/network.rs", "mpc-core/src/protocols/shamir.rs: degree_reduce"]}
{"id": "C20", "title": "Shamir preprocessing produces matching double sharings and never hands out one twice", "statement": "Every (r_t, r_2t) pair obtained from the preprocessing is a degree-t and a degree-2t sharing of the same value; successive get_pair calls and forks consume disjoint pairs in the same order at all parties.", "quantifier": "every n,t, every seed set, every batch size, every history of get_pair/fork/buffer refills", "why_tests_cant": "History and batch sizes unbounded; the ordering of shared-generator draws differs by party id.", "anchors": ["mpc-core/src/protocols/shamir.rs: ShamirPreprocessing, ShamirState::get_pair, fork", "mpc-core/src/protocols/shamir/rngs.rs: ShamirRng"]}
{"id": "C21", "title": "Rep3 to Shamir bridge", "statement": "Translating a replicated sharing (or a replicated point sharing, or an additive sharing) into 3-party Shamir shares with t=1 preserves the secret.", "quantifier": "every sharing of every value", "why_tests_cant": "All values and sharings for each of the three parties.", "anchors": ["mpc-core/src/protocols/bridges/rep3_to_shamir.rs"]}
{"id": "C22", "title": "Secret-shared one-hot vectors", "statement": "ohv(k,x) yields 2^k bit sharings such that exactly the entry at index x mod 2^k opens to 1; rand_ohv returns a random r and the matching one-hot vector.", "quantifier": "every k, every shared index, every schedule", "why_tests_cant": "Recursive doubling with packing; k unbounded.", "anchors": ["mpc-core/src/protocols/rep3_ring/gadgets/ohv.rs"]}
{"id": "C23", "title": "Oblivious table lookup and write", "statement": "Reading a public or shared table at a shared index i < len opens to table[i]; writing updates entry i and no other entry; any other index acts as its residue modulo the padded length (the documentation says it is ignored).", "quantifier": "every table, every length, every shared index, every randomness and schedule", "why_tests_cant": "Tables of every length (including non powers of two) and every index.", "anchors": ["mpc-core/src/protocols/rep3_ring/gadgets/lut_field.rs", "mpc-core/src/protocols/rep3_ring/lut_field.rs", "mpc-core/src/lut.rs"]}
{"id": "C24", "title": "Oblivious shuffle and radix sort", "statement": "shuffle opens to a permutation of its input; unshuffle inverts it; radix_sort_fields opens to the permutation of the private and public inputs that is sorted, stably, by the low bitsize bits; radix_sort_fields_vec_by sorts every column by one key column; too many inputs, too wide keys or a wrong order list are rejected.", "quantifier": "every vector length, all values, every bitsize from 1 to the width of the integer type (bitsize 0 is finding F9), all random permutations", "why_tests_cant": "Permutations of unbounded length.", "anchors": ["mpc-core/src/protocols/rep3_ring/gadgets/sort.rs"]}
{"id": "C25", "title": "Poseidon2 on shares equals plain Poseidon2", "statement": "The shared permutation variants (online, precomputed S-box, packed, additive) open to the plain permutation of the opened state.", "quantifier": "every state, every round-constant set, every supported width, all randomness", "why_tests_cant": "All field states; precomputation consumption order across rounds.", "anchors": ["mpc-core/src/gadgets/poseidon2/poseidon2_permutation.rs", "mpc-core/src/gadgets/poseidon2/rep3.rs"]}
{"id": "C26", "title": "Merkle roots and membership witnesses", "statement": "For every power-of-arity number of leaves (>1), the root equals the recursive tree hash of the leaves, the witness produced for each index verifies against the root, and verification accepts a path only when folding the hash along it yields the root; the shared computation opens to the plain root.", "quantifier": "every number of levels, every leaves, every index", "why_tests_cant": "Tree size unbounded.", "anchors": ["mpc-core/src/gadgets/merkle_tree/plain.rs", "mpc-core/src/gadgets/merkle_tree/rep3.rs"]}
{"id": "C27", "title": "Garbled gates evaluate to the plain gate", "statement": "For every global offset with its lowest bit set, every wire labels and every hash function, evaluating a garbled AND gate (half gates), the free XOR gate and the inverter yields the output label encoding the plain result; composing them, a whole garbled circuit evaluates and decodes to the plain circuit output.", "quantifier": "every delta with lsb 1, all labels, every hash function, every circuit, all inputs", "why_tests_cant": "128-bit labels and arbitrary circuits.", "anchors": ["mpc-core/src/protocols/rep3/yao.rs: GCUtils::garble_and_gate", "mpc-core/src/protocols/rep3/yao/garbler.rs", "mpc-core/src/protocols/rep3/yao/evaluator.rs"]}
{"id": "C28", "title": "Boolean circuits used under garbling compute the arithmetic functions", "statement": "The fancy-garbling circuits for addition, subtraction, multiplication, comparison, modular addition (sub p), division and casts compute the stated integer functions for each bit width.", "quantifier": "every bit width, all operands", "why_tests_cant": "Width and operands unbounded.", "anchors": ["mpc-core/src/protocols/rep3/yao/circuits.rs: GarbledCircuits::*"]}
{"id": "C29", "title": "Frames survive the byte stream", "statement": "Whatever way the byte stream is split into reads and partial writes, the receiver obtains exactly the sequence of frames sent, in order; a frame above the maximum length is rejected at both sides; truncation at any byte yields the complete frames followed by an error and never a corrupted frame.", "quantifier": "every frame sequence, every partition into reads/writes, every truncation point", "why_tests_cant": "Partitions of the stream are exponentially many.", "anchors": ["mpc-net/src/blocking.rs: write_frame, FrameReader::next_frame, reader_loop, writer_loop"]}
{"id": "C30", "title": "TCP connection set-up reaches a full mesh for every arrival order", "statement": "When all parties run the network constructor for N networks, each party ends with exactly one stream per (network, peer), each connected to the matching slot of the peer, regardless of the order in which connections arrive.", "quantifier": "every number of parties and networks, every arrival order", "why_tests_cant": "Arrival orders are factorially many.", "anchors": ["mpc-net/src/tcp.rs: TcpNetwork::networks"]}
{"id": "C31", "title": "Session streams are delivered to the waiting session", "statement": "In the session-based TCP layer, for each (session, party) key a connection that arrives before or after the request is delivered to the request; each connection is delivered at most once; a request never returns a connection of another key.", "quantifier": "every history of arrivals, requests, cancellations and cleanups", "why_tests_cant": "Histories are unbounded and include timeouts and cancellations.", "anchors": ["mpc-net/src/tcp_session.rs: TcpStreams::get, insert, cleanup", "mpc-net/src/tcp_session_blocking.rs"]}
{"id": "C32", "title": "Local network is a reliable FIFO per ordered pair, with exact statistics", "statement": "On the in-process network each party receives from each peer exactly the messages that peer sent, in order and without interference from other pairs; sending to itself or to an unknown party is an error; byte counters equal the sum of sizes of sent (including timed-out) and received messages, and get_diff_to of two snapshots gives the traffic in between.", "quantifier": "every number of parties, every history of sends and receives", "why_tests_cant": "Histories unbounded.", "anchors": ["mpc-net/src/local.rs", "mpc-net/src/lib.rs: ConnectionStats"]}
{"id": "C33", "title": "Schedule independence and deadlock freedom of party programs", "statement": "For deterministic party programs communicating over FIFO point-to-point channels (of any capacity), if one schedule lets every party finish, then every schedule does, with the same results, the same number of steps, and no deadlock.", "quantifier": "every number of parties, every program, every schedule", "why_tests_cant": "Schedules are infinitely many.", "anchors": ["mpc-net/src/lib.rs: Network", "mpc-net/src/local.rs"]}
{"id": "C34", "title": "Network addresses parse and print consistently", "statement": "Parsing the printed form of an address returns the same address for each host without colon and each port; parsing accepts exactly strings with one colon followed by a decimal 16-bit port (leading zeros and one leading plus sign allowed).", "quantifier": "every string, every port", "why_tests_cant": "Unbounded strings.", "anchors": ["mpc-net/src/config.rs: Address FromStr/Display"]}
{"id": "C35", "title": "Sharing hides the secret", "statement": "The shares held by one replicated party (or by any t Shamir parties) are compatible with every secret, each with exactly the same number of randomness choices: the view is independent of the secret.", "quantifier": "every secret, every party / every set of t parties, every view", "why_tests_cant": "A distributional statement over all randomness.", "anchors": ["mpc-core/src/protocols/rep3.rs: share_field_element", "mpc-core/src/protocols/shamir.rs: share_field_element"]}
{"id": "C36", "title": "Protocol messages are masked by fresh randomness", "statement": "The message received during replicated multiplication is masked by a random element unknown to the receiver, so for fixed receiver view every message value occurs for exactly one choice of that element; batch conversions use independent masks for different elements.", "quantifier": "every view, all inputs", "why_tests_cant": "A distributional statement.", "anchors": ["mpc-core/src/protocols/rep3/arithmetic.rs: mul", "mpc-core/src/protocols/rep3/conversion.rs: point_share_to_fieldshares_pre_many"]}
{"id": "C37", "title": "Point sharings", "statement": "Replicated and Shamir point-share operations (add, sub, neg, public add, scalar multiplication public/shared, multi-scalar multiplication, opening) open to the corresponding group operation.", "quantifier": "every abelian group with scalar action, all sharings, every schedule", "why_tests_cant": "All group elements and sharings.", "anchors": ["mpc-core/src/protocols/rep3/pointshare.rs", "mpc-core/src/protocols/shamir/pointshare.rs"]}
{"id": "C38", "title": "Polynomial evaluation on shares", "statement": "eval_poly on shared coefficients at a public point and the polynomial helper functions open to the evaluation of the opened polynomial.", "quantifier": "every degree, every point, all sharings", "why_tests_cant": "Degree unbounded.", "anchors": ["mpc-core/src/protocols/rep3/poly.rs", "mpc-core/src/protocols/shamir/poly.rs"]}
{"id": "C39", "title": "Two-to-three party resharing", "statement": "reshare_from_2_to_3_parties turns an additive sharing between two parties into a consistent replicated sharing of the same secret under every schedule.", "quantifier": "every secret, every split, all recipients, every schedule", "why_tests_cant": "All values and schedules.", "anchors": ["mpc-core/src/protocols/rep3/arithmetic.rs: reshare_from_2_to_3_parties"]}
{"id": "C40", "title": "Unsigned integers helper arithmetic", "statement": "The fixed-width integer helpers used by binary shares (shifts, masks, bit access, conversion from and to field elements) agree with the mathematical operation modulo the width.", "quantifier": "every width, all values, all shift amounts", "why_tests_cant": "All widths and shift amounts including those at and beyond the width.", "anchors": ["mpc-core/src/uint", "mpc-core/src/protocols/rep3_ring/ring/ring_impl.rs", "mpc-core/src/protocols/rep3_ring/ring/int_ring.rs"]}
{"id": "C41", "title": "Point shares and coordinate shares", "statement": "point_share_to_fieldshares(_many) turns a sharing of a curve point into sharings of its coordinates and of the infinity flag, is_zero(_many) into shares of the zero test, fieldshares_to_pointshare(_many) turns coordinate shares back into a sharing of the point; all parties succeed or all abort with the error of a zero mask. Conditions: no component of the sharing is zero, the partial sum known to one party is neither zero nor equal to the third component; on the way back the random mask is not zero and has another x-coordinate than the input. A zero component panics.", "quantifier": "every curve in short Weierstrass form, all sharings that meet the conditions, all randomness, every schedule", "why_tests_cant": "All points, sharings and random masks; the failing cases have negligible probability in tests.", "anchors": ["mpc-core/src/protocols/rep3/conversion.rs: point_share_to_fieldshares, fieldshares_to_pointshare", "mpc-core/src/protocols/rep3/detail.rs: point_addition", "mpc-core/src/protocols/rep3/pointshare.rs: is_zero"]}
{"id": "C42", "title": "Arithmetic to Yao to binary shares", "statement": "a2y(_many, _streaming) turns a sharing of x into Yao shares of the bits of x (both garblers hold the zero labels, the evaluator the labels of the bits), y2b(_many) turns Yao shares of bits into binary shares of the number, a2y2b(_many, _streaming) and a2b_selector return binary shares of x; no party fails, generators stay synchronised.", "quantifier": "every hash function, digest, labels, offset with lowest bit set, every odd modulus, all sharings, every schedule", "why_tests_cant": "All labels, sharings and schedules; a wrong permutation bit shows up for half of the labels only.", "anchors": ["mpc-core/src/protocols/rep3/conversion.rs: a2y, a2y_many, y2b, a2y2b, a2b_selector", "mpc-core/src/protocols/rep3/yao.rs: joint_input_arithmetic_added", "mpc-core/src/protocols/rep3/yao/garbler.rs", "mpc-core/src/protocols/rep3/yao/evaluator.rs", "mpc-core/src/protocols/rep3/yao/streaming_garbler.rs"]}
{"id": "C43", "title": "Binary to Yao to arithmetic shares", "statement": "b2y turns binary shares of u into Yao shares of its bits, y2a(_streaming) turns Yao shares of the bits of a field element into a sharing of it, b2y2a(_streaming) and b2a_selector turn binary shares of u < p into a sharing of u, provided the two labels of every output wire have different hashes.", "quantifier": "every hash function and digest, all sharings and labels, every schedule", "why_tests_cant": "All labels, sharings and schedules.", "anchors": ["mpc-core/src/protocols/rep3/conversion.rs: b2y, y2a, y2a_streaming, b2y2a, b2a_selector", "mpc-core/src/protocols/rep3/yao.rs: input_field_id2, output_all_parties"]}
{"id": "C44", "title": "Integer functions by garbled circuits", "statement": "field_int_div_power_2_many, field_int_div_many, field_int_div_by_public_many, field_int_div_by_shared_many, slice_arithmetic_many, decompose_arithmetic_many and field_mod_power_2 return sharings of the floor quotient, the slices, the limbs and the remainder of the opened inputs.", "quantifier": "every batch length, all values with non-zero divisors, every shift / limb size / slice in range, all randomness, every schedule", "why_tests_cant": "Boundary shifts (0, modulus bits, beyond) and limb sizes that do not divide the total; batch alignment.", "anchors": ["mpc-core/src/protocols/rep3/yao.rs: decompose_then_to_arithmetic blueprint macros, field_int_div*, slice_arithmetic_many, decompose_arithmetic_many, field_mod_power_2", "mpc-core/src/protocols/rep3/yao/circuits.rs"]}
{"id": "C45", "title": "A tampered garbled circuit is rejected", "statement": "If garbler P1 sends the evaluator a circuit whose digest differs from the digest of the circuit garbled by P2, the evaluator stops with the error about inconsistent hashes and does not use the circuit.", "quantifier": "every circuit, every tampered block sequence with another digest, every schedule", "why_tests_cant": "Quantifies over adversarial messages.", "anchors": ["mpc-core/src/protocols/rep3/yao/evaluator.rs: receive_circuit, receive_hash", "mpc-core/src/protocols/rep3/yao/garbler.rs: send_hash"]}
{"id": "C46", "title": "The VM driver of three parties computes what the driver on clear values computes", "statement": "For every operation of the co-circom MPC-VM driver (20 binary operations, negation, square root, boolean not, cmux, zero test, index, opening, conversion to a share, num2bits, addbits) and every combination of public and shared operands, the three parties end with the value that the operation on clear values gives (public or shared), with matching generators, or all abort together; they abort on a value only where a masked inversion meets a zero mask. Exceptions, each refuted: comparisons of a public left operand with an equal shared one, shift by shared amounts above 255, remainders by 1, left shifts beyond the modulus size, bitwise results at or above the modulus, shared exponents and shared shift amounts.", "quantifier": "every field with odd modulus, all values and sharings, all generator states, direct and Yao conversions, every schedule", "why_tests_cant": "All operands including equal ones and boundary shifts, all schedules.", "anchors": ["co-circom/circom-mpc-vm/src/mpc/rep3.rs", "co-circom/circom-mpc-vm/src/mpc/plain.rs"]}
{"id": "C47", "title": "The MPC-VM run by three parties computes the witness of the clear meaning of the bytecode", "statement": "For every circom bytecode program (templates, functions, sub-components, accelerators, conditions on shared values), every public / shared split of the inputs and every number of public inputs, WitnessExtension::run and run_with_flat of three parties end, under every schedule, with the same opened public part and with shares of exactly the witness that the interpreter computes on the values behind the shares, or all three abort together; a party accepts the VM configuration exactly if the previous party sent the same one.", "quantifier": "every program, every instruction bound, all inputs and sharings, all generator states, every schedule", "why_tests_cant": "Arbitrary bytecode, arbitrary sharings of the same values, all interleavings of three machines.", "anchors": ["co-circom/circom-mpc-vm/src/mpc_vm.rs", "co-circom/circom-mpc-vm/src/accelerator.rs", "co-circom/circom-mpc-vm/src/op_codes.rs"]}
{"id": "C48", "title": "Compiled circom programs: shared conditions compute what the clear run computes", "statement": "The bytecode that the compiler emits for a structured program (assignments to variables and signals, sub-components, loops, conditions, assertions) runs as the structured program; with shared conditions, where the machine executes both branches under a mask, three parties end with the public outputs of the clear VM and with shares of its witness. Excluded and refuted: a public false condition without else inside a shared one (everything after stays masked), a shared condition that is neither 0 nor 1, assertions in a branch that is not taken.", "quantifier": "every source program of the fragment, all inputs, public / shared splits and sharings, all sufficient instruction bounds, every schedule", "why_tests_cant": "Arbitrary nesting of conditions, loops and components; all values of the branch not taken.", "anchors": ["co-circom/circom-mpc-compiler/src/lib.rs: handle_*_bucket, emit_store_opcodes", "co-circom/circom-mpc-vm/src/mpc_vm.rs: If, EndTruthyBranch, EndFalsyBranch, StoreVars, StoreSignals, InputSubComp", "co-circom/circom-mpc-vm/src/mpc/plain.rs"]}
{"id": "C49", "title": "The Groth16 prover of three parties returns the proof of the prover on clear values", "statement": "Rep3CoGroth16::prove, run by three parties on replicated shares of a witness, ends under every schedule, and all parties return exactly what Groth16::plain_prove returns on the witness behind the shares (a proof, or the same error) for randomness r, s that depends on the seeds and the matrices only; the numbers of threads of the parties do not matter.", "quantifier": "every proving key, constraint system, public input, witness and sharing, all seeds and thread counts, both reductions, every schedule and channel capacity", "why_tests_cant": "All sharings and seeds; arbitrary circuit sizes and chunkings of the power tables; all interleavings.", "anchors": ["co-circom/co-groth16/src/groth16.rs: prove_inner, calculate_coeff, create_proof_with_assignment, Rep3CoGroth16::prove", "co-circom/co-groth16/src/groth16/reduction.rs", "co-circom/co-groth16/src/mpc/rep3.rs", "co-circom/co-groth16/src/mpc/plain.rs"]}
{"id": "C50", "title": "Groth16 proofs of satisfying assignments verify and show nothing but the public input", "statement": "With a key made by the Groth16 setup for the constraint matrices (snarkjs form for CircomReduction, libsnark form for LibSnarkReduction), the proof that the prover returns for an assignment satisfying the constraints satisfies the pairing equation of the verifier, for all r and s, on clear values and for three parties; the proof is a function of the public input and of two field elements that r and s mask, so two satisfying assignments with the same public input have the same proofs up to a shift of r and s. roots_of_unity delivers generators of the evaluation domains.", "quantifier": "every satisfied constraint system with a domain below the two-adicity, every trapdoor with gamma and delta non-zero, every r and s, all fields and bilinear pairings", "why_tests_cant": "Polynomial identities over arbitrary domains; every circuit, witness and trapdoor.", "anchors": ["co-circom/co-groth16/src/groth16.rs: roots_of_unity, groth16_roots_of_unity, create_proof_with_assignment", "co-circom/co-groth16/src/groth16/reduction.rs: witness_map_from_matrices", "co-circom/co-groth16/src/verifier.rs"]}
{"id": "C51", "title": "The Groth16 prover on Shamir shares, and the bridge from replicated shares", "statement": "ShamirCoGroth16::prove among n parties with threshold t (2t < n), and Rep3CoGroth16::prove_with_shamir_bridge among three parties, end under every schedule, and all parties return what plain_prove returns on the witness behind the shares, for randomness that depends on the seeds and the matrices only; hence the proofs of satisfying assignments verify.", "quantifier": "all n and t with 2t < n, every proving key, constraint system, witness and sharing, all seeds, both reductions, every schedule", "why_tests_cant": "All degrees, sharings and seeds; all interleavings of n parties.", "anchors": ["co-circom/co-groth16/src/groth16.rs: ShamirCoGroth16::prove, prove_with_shamir_bridge", "co-circom/co-groth16/src/mpc/shamir.rs", "mpc-core/src/protocols/bridges/rep3_to_shamir.rs"]}
{"id": "C52", "title": "The Plonk prover of three parties returns the proof of the prover on clear values", "statement": "Rep3CoPlonk::prove, run by three parties on replicated shares of a witness, ends under every schedule with the same outcome for all parties; a proof they return is exactly the proof that Plonk::plain_prove returns on the witness behind the shares, for blinding values and multiplication masks that depend on the seeds and the domain size only; without a zero among the drawn masks the parties abort exactly if the plain prover aborts. The numbers of threads do not matter.", "quantifier": "every proving key, public input, witness and sharing, every transcript hash, all seeds and thread counts, every schedule and channel capacity", "why_tests_cant": "All sharings and seeds, arbitrary circuit sizes and chunkings, all interleavings of the forked sub-protocols.", "anchors": ["co-circom/co-plonk/src/lib.rs: prove_inner, Rep3CoPlonk::prove", "co-circom/co-plonk/src/round1.rs", "co-circom/co-plonk/src/round2.rs", "co-circom/co-plonk/src/round3.rs", "co-circom/co-plonk/src/round4.rs", "co-circom/co-plonk/src/round5.rs", "co-circom/co-plonk/src/mpc/rep3.rs", "co-circom/co-plonk/src/mpc/plain.rs"]}
{"id": "C53", "title": "The Plonk prover on Shamir shares returns the proof of the prover on clear values", "statement": "ShamirCoPlonk::prove among n parties with threshold t (2t < n) ends under every schedule with the same outcome for all parties; a proof they return is exactly the proof of Plonk::plain_prove on the witness behind the shares, for blinding values and masks that depend on the seeds and the domain size only; without a zero among the masks the parties abort exactly if the plain prover aborts.", "quantifier": "all n and t with 2t < n, every proving key, public input, witness and sharing, every transcript hash, all seeds, every schedule", "why_tests_cant": "All degrees, sharings and seeds; all interleavings of n parties.", "anchors": ["co-circom/co-plonk/src/lib.rs: ShamirCoPlonk::prove", "co-circom/co-plonk/src/mpc/shamir.rs"]}
{"id": "C54", "title": "Plonk proofs of satisfied circuits verify", "statement": "For a proving key made for a circuit with at least one public input (the permutation polynomials hold the labels of the cells permuted along equal signals; commitments to powers of a secret point) and an assignment satisfying the gates, every proof that the prover returns - on clear values, by three parties on replicated shares, by n parties on Shamir shares - is accepted by Plonk::verify with the matching verification key and the public inputs, whatever the blinding values, the masks and the transcript hash. Without public inputs this is false: the prover panics (no Lagrange polynomial in the key) or returns proofs that are rejected (one, as snarkjs writes).", "quantifier": "every field with the roots of unity, every circuit with domain size at least 8 and 1 <= n_public, every satisfying assignment and sharing, every bilinear pairing, transcript hash and randomness, every schedule", "why_tests_cant": "Polynomial identities of the quotient, the grand product and the linearisation over arbitrary domains; every circuit, witness, blinding and hash.", "anchors": ["co-circom/co-plonk/src/round1.rs: compute_wire_polynomials", "co-circom/co-plonk/src/round2.rs: compute_z", "co-circom/co-plonk/src/round3.rs: compute_t, mul4vec_post", "co-circom/co-plonk/src/round5.rs: compute_r, compute_wxi, compute_wxiw", "co-circom/co-plonk/src/lib.rs: calculate_lagrange_evaluations, calculate_pi", "co-circom/co-plonk/src/plonk.rs: verify"]}
{"id": "C55", "title": "Built-in implementations of circom templates agree with the templates", "statement": "Where the MPC-VM runs its own implementation of IsZero, Num2Bits, AddBits instead of the circom template (accelerator.rs), on clear values and with three parties, the output and intermediate signals satisfy the assignments and constraints of the template: always for IsZero, for two lists of bits (shorter than the field) for AddBits, and exactly for inputs that fit into n bits for Num2Bits(n). For larger inputs Num2Bits returns bits that violate the constraint instead of ending with an error; sqrt of a value without a root fails where the circom function returns 0.", "quantifier": "every prime field, every input, every number of bits", "why_tests_cant": "Holds for every field element and width; tests use one field and a few values.", "anchors": ["co-circom/circom-mpc-vm/src/accelerator.rs: register_num2bits, register_addbits, register_iszero, register_sqrt", "co-circom/circom-mpc-vm/src/mpc/plain.rs: num2bits, addbits", "test_vectors/WitnessExtension/tests/libs/bitify.circom", "test_vectors/WitnessExtension/tests/libs/comparators.circom"]}
{"id": "C56", "title": "Inputs of the MPC-VM reach their signals", "statement": "WitnessExtension::run puts every element of every named input at the position that the input list gives (name for a single value, name[i] for element i of an array) and leaves all other signals unchanged; run_with_flat puts the values after the constant 1 and the outputs; when the input list enumerates these positions, both entry points give the same run.", "quantifier": "every input list with disjoint positions, every map of inputs with distinct names, every driver", "why_tests_cant": "Every number, size and order of inputs.", "anchors": ["co-circom/circom-mpc-vm/src/mpc_vm.rs: set_input_signals, set_flat_input_signals, run, run_with_flat"]}
{"id": "C57", "title": "A function with returns under shared conditions returns the first one taken", "statement": "In the MPC-VM, a return under a condition that is shared is recorded; the function returns the values of the first return, in execution order, whose condition holds, the values of the final unconditional return if none holds, or zeros if there is none.", "quantifier": "every machine state with pending returns of which at most one is taken (the invariant is preserved), every condition value and every number of returned values", "why_tests_cant": "Every sequence of conditional returns and all values of the shared conditions.", "anchors": ["co-circom/circom-mpc-vm/src/mpc_vm.rs: MpcOpCode::ReturnFun, MpcOpCode::ReturnSharedIfFun, handle_shared_fun_return"]}
{"id": "C58", "title": "The co-noir ACVM computes the witness that the program determines", "statement": "If CoSolver::solve on clear values returns a witness map, every assignment that extends the inputs and satisfies all opcodes has the values of that map, and the outputs are its values at the return witnesses (in reverse order). Conversely, if results of reads and unconstrained calls are new witnesses, the returned values extend the inputs and satisfy every opcode except assertions whose witnesses were all known when they were reached. The witness vector handed to the prover has these values, and zero in the gaps.", "quantifier": "every field, program (assertions, memory, range, AND, XOR, Brillig calls, recursion), input map, set of return witnesses and behaviour of Brillig", "why_tests_cant": "Every program and all inputs.", "anchors": ["co-noir/co-acvm/src/solver.rs: solve, open_results", "co-noir/co-acvm/src/solver/assert_zero_solver.rs: solve_assert_zero", "co-noir/co-acvm/src/solver/memory_solver.rs", "co-noir/co-acvm/src/solver/blackbox_solver.rs", "co-noir/co-acvm/src/solver/brillig_call_solver.rs", "co-noir/co-noir/src/lib.rs: witness_stack_to_vec_rep3"]}
{"id": "C59", "title": "Three parties running the co-noir ACVM obtain the clear witness", "statement": "If the solver on clear values returns a witness map and outputs, then three parties that run it with the Rep3 driver on any mixture of public values and shares of the inputs all return the same map, public or shared, and the same outputs in the clear, or all abort with the same error. They do not abort if calls have constant conditions, blocks have at least three entries and unknowns are not multiplied with witnesses.", "quantifier": "every program with AND/XOR narrower than the field, all inputs and sharings, every schedule, every Brillig VM that computes on shares what it computes in the clear", "why_tests_cant": "All interleavings, shares and programs.", "anchors": ["co-noir/co-acvm/src/mpc/rep3.rs: Rep3AcvmSolver", "co-noir/co-acvm/src/solver.rs: solve"]}
{"id": "C60", "title": "The co-noir ACVM solves programs that can be solved in order", "statement": "If some assignment extends the inputs and satisfies the program, and each opcode is ready when it is reached (an assertion has at most one term with an unknown, with a nonzero coefficient; the inputs of the other opcodes are known), then the solver on clear values succeeds, and exactly the witnesses mentioned are known afterwards.", "quantifier": "every program, input map and assignment", "why_tests_cant": "Every program and all inputs.", "anchors": ["co-noir/co-acvm/src/solver.rs: solve", "co-noir/co-acvm/src/solver/assert_zero_solver.rs: evaluate_mul_terms, evaluate_linear_terms"]}
{"id": "C61", "title": "Inputs of co-circom are shared as what they say", "statement": "split_input and split_input_shamir succeed exactly if every value of the JSON input can be read (numbers with optional sign, decimal or 0x hexadecimal reduced modulo the field, booleans, nested arrays with ? for missing elements). Then every party has the same keys, the entries of public signals are the same everywhere, all others are shares, and the values are those of the input, array elements numbered from left to right.", "quantifier": "every JSON input, list of public names, generator state, number of parties and threshold", "why_tests_cant": "All JSON values and all random draws.", "anchors": ["co-circom/co-circom-types/src/lib.rs: split_input, split_input_shamir, parse_field, parse_array, parse_boolean"]}
{"id": "C62", "title": "Merged inputs of contributors give the witness of the clear run", "statement": "merge_input_shares succeeds exactly if two contributions have only equal entries of public signals in common, and gives their union; at the three parties it has the same outcome. generate_witness_rep3 on the merged inputs returns the public part and shares of the rest of the witness of the clear run on the inputs of all contributors.", "quantifier": "any number of contributors, every input, program and schedule", "why_tests_cant": "All inputs, numbers of contributors and interleavings.", "anchors": ["co-circom/co-circom-types/src/lib.rs: merge_input_shares", "co-circom/co-circom/src/lib.rs: generate_witness_rep3"]}
{"id": "C63", "title": "Witnesses are shared, compressed, expanded and translated without loss", "statement": "share_rep3 in each of the four compressions leaves the public part in the clear and shares the rest: uncompress_shared_witness gives replicated shares of it, the conversion into additive shares gives additive ones, and translate_witness Shamir shares of degree one. share_shamir gives Shamir shares of the chosen degree. unbatch takes the k-th element of every row to instance k.", "quantifier": "every witness, number of public inputs, generator state, seeds, compression and schedule", "why_tests_cant": "All witnesses and random draws, all interleavings.", "anchors": ["co-circom/co-circom-types/src/lib.rs: CompressedRep3SharedWitness, SharedWitness", "co-circom/co-circom/src/lib.rs: uncompress_shared_witness, translate_witness"]}
{"id": "C64", "title": "The coBrillig VM computes what programs of unconstrained functions say", "statement": "On clear values the VM (calldata, memory with direct and relative addresses, arithmetic, comparisons, casts, jumps, calls, to_radix, TACEO_store, traps) ends with the results, stored states or trap that the program computes, and in a release build it does so whenever the program has a result.", "quantifier": "every program, calldata and number of steps", "why_tests_cant": "All programs and inputs.", "anchors": ["co-noir/co-brillig/src/brillig_vm.rs: CoBrilligVM::run", "co-noir/co-brillig/src/mpc/plain.rs: PlainBrilligDriver"]}
{"id": "C65", "title": "The operations of the three-party Brillig driver compute on shares what the plain driver computes", "statement": "Sum, difference, product, quotient, integer division, comparison, complement, cast and selection of field elements and integers of every size, with at least one shared operand, end at all parties with shares of the result; to_radix gives shares of the digits, most significant first, whether the value, the radix or both are shared.", "quantifier": "all values, shares, randomness, channel capacities and schedules; a field division by a shared value may fail", "why_tests_cant": "All values and interleavings.", "anchors": ["co-noir/co-brillig/src/mpc/rep3.rs: Rep3BrilligDriver"]}
{"id": "C66", "title": "Three parties that run a Brillig program return what it computes", "statement": "If the run on values marked as public or shared ends, all three parties end, with public results they agree on and shares of the others; they are the results of the program on the clear calldata, also after a branch on a shared bit. Where the marked run fails all parties fail.", "quantifier": "every program, calldata, sharing, randomness and schedule", "why_tests_cant": "All programs, inputs and interleavings.", "anchors": ["co-noir/co-brillig/src/brillig_vm.rs: CoBrilligVM::run, handle_jump_if, parallel runs", "co-noir/co-brillig/src/mpc/rep3.rs: fork, cmux, random"]}
{"id": "C67", "title": "The ACVM with the coBrillig VM solves programs with Brillig calls", "statement": "A Brillig call of the ACVM gives all three parties the results of the program on the clear inputs, public or shared, or all fail where it fails; a run of the solver with such calls returns the witnesses and outputs of the run on clear values. States stored by a call are stored as shares of the same values under the same names if the parties iterate over them in one order or no state has a shared integer; in different orders they are not. A name already in the store makes all parties fail.", "quantifier": "every program, calldata, sharing, randomness, schedule and iteration order of hash maps", "why_tests_cant": "All programs, inputs, interleavings and hash orders.", "anchors": ["co-noir/co-acvm/src/solver/brillig_call_solver.rs: solve_brillig_call", "co-noir/co-acvm/src/mpc/rep3.rs: init_brillig_driver, parse_brillig_result, to_brillig, from_brillig", "co-noir/co-acvm/src/pss_store.rs: add_from_brillig"]}
{"id": "C68", "title": "Univariates in evaluation form are extended and evaluated like the polynomial through their values", "statement": "extend_from turns the values of a polynomial at 0,...,n-1 into its values at 0,...,SIZE-1 for every n (two, three, four values and the barycentric case); evaluate returns its value at any point other than 1,...,n-1, where it panics.", "quantifier": "every field in which the numbers below SIZE are different, every polynomial, point and size", "why_tests_cant": "All polynomials, points and lengths.", "anchors": ["co-noir/ultrahonk/src/decider/univariate.rs: extend_from, evaluate", "co-noir/co-noir-common/src/barycentric.rs"]}
{"id": "C69", "title": "An honest sumcheck prover convinces the verifier", "statement": "If the columns satisfy the relations, sumcheck_prove ends, its claimed evaluations are the multilinear extensions of the columns at the challenges, and sumcheck_verify accepts, unless a challenge is one of 1,...,SIZE-1, where it panics; also with rounds of padding.", "quantifier": "every field, circuit size, set of subrelations that are polynomials of bounded degree along lines and skipped only where they vanish, transcript function and challenges", "why_tests_cant": "All circuits, witnesses, challenges and sizes.", "anchors": ["co-noir/ultrahonk/src/decider/sumcheck/sumcheck_prover.rs: sumcheck_prove", "co-noir/ultrahonk/src/decider/sumcheck/sumcheck_verifier.rs: sumcheck_verify", "co-noir/ultrahonk/src/decider/types.rs: GateSeparatorPolynomial"]}
{"id": "C70", "title": "A sumcheck that is accepted is about columns whose sum is zero", "statement": "Whatever univariates are sent: if sumcheck_verify accepts and the claimed evaluations are those of some columns, the weighted sum of the relations over all rows is zero, or in some round a univariate other than the honest one agrees with it at the challenge; that is so for fewer than SIZE challenges.", "quantifier": "all messages of the prover, columns, transcript functions and challenges", "why_tests_cant": "All cheating provers.", "anchors": ["co-noir/ultrahonk/src/decider/sumcheck/sumcheck_verifier.rs: sumcheck_verify", "co-noir/ultrahonk/src/decider/sumcheck/sumcheck_round_verifier.rs"]}
{"id": "C71", "title": "The sumcheck is complete and sound over the relations of UltraHonk", "statement": "Each of the 28 subrelations is along a line a polynomial that its accumulator is long enough for, and vanishes where its selector does; hence satisfied columns are accepted (permutation and lookup not skipped), and what is accepted sums to zero up to unlucky challenges. The skip condition of the permutation relation makes honest proofs fail.", "quantifier": "every field, parameters, columns and challenges", "why_tests_cant": "All witnesses and challenges; degrees.", "anchors": ["co-noir/ultrahonk/src/decider/relations: *", "co-noir/ultrahonk/src/decider/relations/permutation_relation.rs: skip"]}
{"id": "C72", "title": "The relations of UltraHonk say what their gates are for", "statement": "Arithmetic, range, curve, Poseidon2, memory and limb gates hold exactly if their equations do (sum and product of wires, differences in 0..3, sum or double of points, state after a round, consistent sorted accesses, products of limbs); the permutation relations imply equality of the grand products, the lookup relations that the inverses of reads and of counted table entries have the same sum.", "quantifier": "every field, row and parameters", "why_tests_cant": "All values of wires and selectors.", "anchors": ["co-noir/ultrahonk/src/decider/relations: accumulate, verify_accumulate"]}
{"id": "C73", "title": "An honest opening proof of UltraHonk is accepted", "statement": "shplemini_prove (folding, batched quotient, opening quotient) succeeds, and shplemini_verify accepts its proof for the values of the multilinear extensions of the columns and of the shifted columns at the point of the sumcheck, also with virtual rounds; the verifier recovers the values of the folds at r, r^2, ... from those at -r, -r^2, .... With columns of two rows the prover panics, and columns to be shifted must begin with zero.", "quantifier": "every field, pairing, reference string, set of columns of at least four rows and challenges for which no denominator is zero", "why_tests_cant": "All polynomials, points and challenges.", "anchors": ["co-noir/ultrahonk/src/decider/shplemini/shplemini_prover.rs: shplemini_prove, gemini_prove, shplonk_prove", "co-noir/ultrahonk/src/decider/shplemini/shplemini_verifier.rs: compute_batch_opening_claim", "co-noir/ultrahonk/src/decider/decider_verifier.rs: reduce_verify_shplemini, pairing_check"]}
{"id": "C74", "title": "An opening proof that is accepted is about the right evaluations", "statement": "Whatever polynomials the prover committed to and whatever values it sent: if shplemini_verify accepts, the claimed evaluations are those of the multilinear extensions of the committed columns (and shifted columns), or one of rho, r, z or the secret of the reference string is a root of a polynomial that is not zero and was fixed before it; there are few such values.", "quantifier": "every field of odd characteristic, non-degenerate pairing, all polynomials, values and challenges", "why_tests_cant": "All cheating provers.", "anchors": ["co-noir/ultrahonk/src/decider/shplemini/shplemini_verifier.rs: compute_batch_opening_claim, batch_gemini_claims_received_from_prover, compute_fold_pos_evaluations", "co-noir/ultrahonk/src/decider/decider_verifier.rs: pairing_check"]}
{"id": "C75", "title": "With the challenges alpha and beta as they are drawn, a zero sum means that every row satisfies every relation", "statement": "The relations are weighted by powers of one alpha and the rows by powers of one beta (squarings). If the weighted sum is zero, the columns satisfy all relations in all rows, or alpha or beta is a root of a polynomial that is not zero and was fixed before it; there are at most 2^m * 28 such alphas and fewer than 2^m such betas.", "quantifier": "every field, columns, number of rows, list of subrelations and challenges", "why_tests_cant": "All columns and challenges.", "anchors": ["co-noir/ultrahonk/src/oink/oink_prover.rs: generate_alphas_round", "co-noir/co-noir-common/src/transcript.rs: compute_round_challenge_pows, get_powers_of_challenge", "co-noir/ultrahonk/src/ultra_prover.rs: generate_gate_challenges"]}
{"id": "C76", "title": "The decider of UltraHonk accepts honest proofs and only proofs about satisfied columns", "statement": "prove (sumcheck, then opening of columns and shifted columns) and verify fit together: columns that satisfy the relations are accepted; and whatever is sent, if verify accepts, the committed columns together with their shifts satisfy all 28 subrelations in all rows, or one of alpha, beta, the round challenges, rho, r, z or the secret of the reference string is one of few exceptions.", "quantifier": "every field, pairing, columns, messages and challenges", "why_tests_cant": "All witnesses and all cheating provers.", "anchors": ["co-noir/ultrahonk/src/decider/decider_prover.rs: prove", "co-noir/ultrahonk/src/decider/decider_verifier.rs: verify", "co-noir/ultrahonk/src/decider/types.rs: from_memory_and_polynomials"]}
{"id": "C77", "title": "The Oink prover computes columns that satisfy their relations", "statement": "compute_w4 adds to the fourth wire the record of every read and write, and in the gates of accesses the relations of memory then hold. The column of compute_logderivative_inverses satisfies the two per-row lookup relations in every row, and the third one sums to zero if everything looked up is in the tables and counted. The column of compute_grand_product satisfies both relations of the permutation in every row (start, recursion, last row, inactive rows) if the whole product is the term of the public inputs.", "quantifier": "every field, columns, blocks of the trace and challenges for which the terms that are inverted are not zero", "why_tests_cant": "All circuits and challenges; tests prove a few circuits.", "anchors": ["co-noir/ultrahonk/src/oink/oink_prover.rs: compute_w4", "co-noir/ultrahonk/src/oink/oink_prover.rs: compute_logderivative_inverses", "co-noir/ultrahonk/src/oink/oink_prover.rs: compute_grand_product"]}
{"id": "C78", "title": "The wiring columns express the copy constraints, the tags and the public inputs", "statement": "With the columns sigma and id that compute_permutation_mapping and compute_honk_style_permutation_lagrange_polynomials_from_mapping make of the copy cycles: if all cells of a variable hold the same value, and the values with their tags are a permutation of the values with the images of their tags, then the product of all numerators is compute_public_input_delta times the product of all denominators.", "quantifier": "every field, circuit (blocks of rows of wires, real variable indices, tags and tau), number of public inputs and challenges", "why_tests_cant": "All circuits and all cycles.", "anchors": ["co-noir/co-builder/src/keys/plain_proving_key.rs: compute_permutation_mapping", "co-noir/co-builder/src/keys/plain_proving_key.rs: compute_honk_style_permutation_lagrange_polynomials_from_mapping", "co-noir/ultrahonk/src/oink/oink_prover.rs: compute_public_input_delta"]}
{"id": "C79", "title": "The whole UltraHonk prover is accepted", "statement": "For a circuit whose gates, copy constraints, lookups and tags are satisfied, the Oink prover succeeds, its columns satisfy all 28 subrelations, and the proof the decider makes of them (without zero knowledge, permutation and lookup not skipped) is accepted by the verifier with the commitments to these columns.", "quantifier": "every field with 8 different small numbers, pairing, honest circuit, transcript and challenges but for named exceptions", "why_tests_cant": "All circuits and challenges.", "anchors": ["co-noir/ultrahonk/src/oink/oink_prover.rs: prove", "co-noir/ultrahonk/src/decider/decider_prover.rs: prove", "co-noir/ultrahonk/src/decider/decider_verifier.rs: verify"]}
{"id": "C80", "title": "Columns that satisfy the relations of UltraHonk satisfy the copy constraints and carry the public inputs", "statement": "Whatever the wires and the grand product column hold: if the columns satisfy the relations in all rows, with wiring columns made of the circuit and delta computed from the public inputs, then every variable has one value in all its cells, the values with their tags are a permutation of the values with the images of their tags, and the public rows hold the public inputs; or beta is one of at most |l|^2 exceptions or gamma one of at most |l|, where l are the cells and public inputs.", "quantifier": "every field in which the numbers of cells and tags differ, circuit, number of rows and public inputs, columns and challenges", "why_tests_cant": "All cheating provers.", "anchors": ["co-noir/co-builder/src/keys/plain_proving_key.rs: compute_permutation_mapping", "co-noir/ultrahonk/src/decider/relations/permutation_relation.rs: accumulate", "co-noir/ultrahonk/src/oink/oink_prover.rs: compute_public_input_delta"]}
{"id": "C81", "title": "Columns that satisfy the relations of UltraHonk look up only what is in the tables", "statement": "Whatever the wires, the counts, the tags and the inverses hold: if the columns satisfy the lookup relations (two in all rows, the third as a sum), then what each row with the lookup selector reads, with steps from the next row and the table number, is a row of the table columns; or beta or gamma is one of few exceptions, whose number is bounded by the number of rows.", "quantifier": "every field (for the bound: one in which the lookups can be counted), number of rows, columns and challenges", "why_tests_cant": "All cheating provers.", "anchors": ["co-noir/ultrahonk/src/decider/relations/logderiv_lookup_relation.rs: accumulate", "co-noir/ultrahonk/src/oink/oink_prover.rs: compute_read_term"]}
{"id": "C82", "title": "An accepted UltraHonk proof is about a satisfied circuit", "statement": "Whatever a prover committed to and sent: if the verifier accepts, with commitments to the columns of the key that belong to the circuit and delta computed from the public inputs, then some assignment to the variables satisfies all gates, copy constraints, tags and lookups and puts the public inputs in the first rows; or a challenge (beta, gamma, alpha, the gate challenge, a round challenge, rho, r, z) or the secret of the reference string is one of few named exceptions.", "quantifier": "every field, non-degenerate pairing, circuit, commitments as polynomials, messages and challenges", "why_tests_cant": "All cheating provers.", "anchors": ["co-noir/ultrahonk/src/decider/decider_verifier.rs: verify", "co-noir/co-builder/src/keys/plain_proving_key.rs: compute_permutation_mapping", "co-noir/ultrahonk/src/oink/oink_prover.rs: compute_public_input_delta"]}
{"id": "C83", "title": "The active ranges of a trace are kept in order and without overlap", "statement": "Starting from a new ActiveRegionData, a sequence of ranges that are not empty can be added if and only if each begins at or behind the end of the one before; otherwise add_range panics. The rows kept are those of the ranges, each once. (Ranges that end before they begin are not detected and may lead to rows that are active twice.)", "quantifier": "every sequence of ranges", "why_tests_cant": "All sequences of ranges.", "anchors": ["co-noir/co-noir-common/src/keys/types.rs: add_range"]}
