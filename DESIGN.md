# Formal model of co-snarks: design

The code under study is TaceoLabs/co-snarks at the pinned commit in `/repo`
(read as text, never built here). The formal model and proofs are in
`rocq/theories`, built with Coq 8.16.1.

## 1. Modelling framework

**Parties and networks (`Proc.v`).** A party program is a deterministic tree
`prog M A` with the nodes *return*, *fail*, *send m to j*, *receive from j*.
A configuration is one program per party and one FIFO queue per ordered pair of
parties (this is what `mpc_net::Network` offers: `send(to, bytes)` and
`recv(from)`, blocking, FIFO per pair). A scheduler picks any party that can
move. Queues have an arbitrary capacity `cap >= 1`; a send on a full queue blocks
(`mpc-net/src/local.rs` uses `bounded(32)`, the TCP layers use queues of 32
frames). The specification predicate `every_schedule` says: all executions are
finite, and in every configuration in which no party can move all parties have
finished, and their results satisfy the given postcondition. A generic
confluence theorem (Kahn-network determinism) reduces it to one execution.

**Serialisation.** Messages are values of an abstract type `M` with encoders and
decoders satisfying only the round-trip law `dec (enc x) = Some x`
(ark-serialize is not modelled). Length checks in the receiving code are
modelled.

**Algebra.** Field protocols are stated for every commutative ring / field
(Section variables with `ring_theory`/`field_theory` hypotheses, generalised in the
theorems), bit-level protocols for Z/p with p any prime and Z/2^k with any k.
Curve points are an arbitrary module over the field.

**Randomness.** ChaCha generators are an arbitrary deterministic state machine
(`draw : S -> X * S`), universally quantified. "Two parties own the same
generator" is equality of generator states. Secrecy statements count the
randomness that explains a view (bijection statements).

**Errors and panics.** `eyre` errors and panics are explicit `Fail` leaves.

## 2. Properties and how each is treated

See `properties.jsonl` for the statements.

| id | model | proof |
|----|-------|-------|
| C01 | `share`/`combine` of rep3.rs as functions of the random draws | algebra, list induction |
| C02 | per-party local operations | algebra per party id |
| C03 | `mul`, `mul_vec`, `reshare(_vec)` as party programs | RNG synchronisation + network rule for reshare, every schedule |
| C04 | `open`, `open_vec`, `mul_open` programs | same |
| C05 | `inv`, `inv_vec`, `div` | same, field laws |
| C06 | `cmux`, `pow_public`, `arithmetic_xor` | same, induction on exponent bits |
| C07 | `Rep3Rand` state machine | invariant by induction over histories |
| C08 | `Rep3RandBitComp` set-up, `generate_shared` | proved directly after set-up; refuted after b2a (history witness) |
| C09-C13 | Kogge-Stone adder, `a2b`, `b2a`, `bit_inject`, comparisons over Z/p | adder correctness by induction on rounds for all widths; programs every schedule |
| C14-C16 | Z/2^k ring versions | as above |
| C17-C20 | Shamir polynomials, Lagrange weights, n-party programs, preprocessing | polynomial root bound, induction |
| C21 | bridge | algebra |
| C22-C24 | one-hot vectors, LUT, sort | induction on k / length |
| C25-C26 | Poseidon2, Merkle | induction on rounds / levels |
| C27 | half gates, free xor, circuit evaluation | label invariant, induction over the circuit |
| C28 | boolean circuits | induction on width |
| C29 | frame codec as a byte-stream automaton | induction over chunkings |
| C30-C32 | connection set-up, session table, local network | invariants over arbitrary histories |
| C33 | generic network semantics | diamond lemma |
| C34 | address parser | string induction |
| C35-C36 | views as functions of randomness | explicit bijections |
| C37-C40 | point shares, polynomials, resharing, fixed-width integers | algebra |
| C42-C45 | Yao shares over the network: input, garbled circuit, output, for ordinary and streaming garblers | lock-step theorem of C27 + circuit functions of C28 + network rule; output decoding under the hypothesis that output labels are separated by the hash |
| C46 | the operations of the co-circom VM driver as party programs on tagged values; `ideal_*` says what they compute on the values behind the shares | composition of the protocol theorems; case analysis of tags; comparison of `ideal_*` with the clear driver |
| C47 | the whole bytecode interpreter (mpc_vm.rs) as a program over driver operations, polymorphic in the value type; party programs by substituting the driver | parametricity (`VmSim.v`): the interpreter on party values simulates the interpreter on values with tags; then C46 per operation |
| C48 | source programs (`VmSource.v`), the code the compiler emits for them, their meaning by structural recursion; the run of three parties and of the clear driver | compiler correctness by simulation (`VmCompile.v`), then refinement: masked run against clear run (`VmMask.v`) |
| C49 | witness maps, `create_proof`, generic over a record of driver operations; plain, three-party and Shamir drivers | one relational proof over linear maps (`Groth16Gen.v`), instantiated twice (`Groth16Inst.v`) |
| C50 | the same; specification of key, satisfied constraints, verifier equation in `Groth16Complete.v` | polynomial identities on roots of unity (`Dft.v`): interpolation, vanishing on the domain, quotient on a coset |
| C51 | as C49, Shamir driver and bridge | as C49; `repshare_vec` of C21 |
| C52 | rounds 1-5 of co-plonk, generic over a record of driver operations; plain and three-party drivers; verifier | relational proof (`PlonkGen.v`) over an intermediate run on values (`PlonkIdeal.v`), instantiated in `PlonkInst.v` |
| C53 | as C52, Shamir driver | as C52 |
| C54 | as C52, with the verifier | division by the vanishing polynomial, grand product over the permutation of the cells, blinding, linearisation, commitments at a secret point; with C52 and C53 for the shared provers |
| C55 | accelerators of Vm.v against the constraints of the circom templates | arithmetic of representatives (weighted sums of bits) |
| C56 | placement of inputs in Vm.v | induction over the input list, for every driver |
| C57 | pending returns of Vm.v | invariant: at most one pending return is taken |
| C58 | solver of co-acvm as a tree of driver calls; plain driver | satisfaction of a program stated on assignments; induction over the opcodes |
| C59 | the same, three-party driver; the Brillig VM is a parameter | a relation between the trees of the parties and the tree on tagged values (`asim`), then refinement of tagged values by clear ones |
| C60 | as C58 | each opcode that is ready succeeds |
| C61 | JSON values, parsing and `split_input(_shamir)` of co-circom-types; reading of digit strings is a parameter | what an entry of an input is, said on the list of scalars of a JSON value; joint maps (one entry = the shares of all parties and the value) |
| C62 | `merge_input_shares`, then `generate_witness_rep3` on the machine of C47 | union of maps; composition with `C47_run` |
| C63 | compressed witnesses, `uncompress_shared_witness`, `translate_witness`, `share_shamir`, `unbatch` | composition of sharing, resharing and the Shamir bridge |
| C64 | co-brillig: `brillig_vm.rs`, `memory.rs`, `field_ops.rs`, `int_ops.rs`, `to_radix` of `blackbox.rs`, `TACEO_store`; driver on clear values | an interpreter of programs written as a partial function on clear values (`srun`); invariants of runs |
| C65 | the operations of the three-party driver; garbled division is a parameter with its specification | protocol composition |
| C66 | the VM with the three-party driver, branches on shared bits included | a run on values marked public / shared / arbitrary (`tagged_run`), related to the parties and to `srun` |
| C67 | co-acvm: `solve_brillig_call` with the coBrillig VM, `to_brillig`/`from_brillig`, `parse_brillig_result`, `PssStore` | the runs of C66 as the oracle of C59, refinement by programs on clear values |
| C68 | ultrahonk: `Univariate::extend_from`, `evaluate`, barycentric.rs | Lagrange interpolation at 0, ..., n-1; polynomials of degree below 4 by hand |
| C69 | ultrahonk: `sumcheck_prove` and `sumcheck_verify` without zero knowledge, gate separators, rounds of padding | multilinear extensions; invariant of a round: the univariate sent is the polynomial of the sum over the remaining rows |
| C70 | the same verifier against any prover | a wrong univariate agrees with the honest one at fewer than SIZE points |
| C71 | ultrahonk: the 28 subrelations, their order, accumulator lengths and `skip` | degrees along lines by a syntax-directed tactic; instances of C69 and C70 |
| C72 | ultrahonk: what the subrelations mean for rows | gates as equations on named entities; telescoping products and sums |
| C73 | ultrahonk: `shplemini_prove` with `shplemini_verify` (folding, quotients, openings, pairing check) | folds of coefficients against multilinear extensions; quotients by evaluation at every point |
| C74 | the same verifier against polynomials and values of any prover | named exceptional events, each a root of a fixed polynomial that is not zero; bounds on their number |
| C75 | ultrahonk: `generate_alphas_round`, `compute_round_challenge_pows` | the sum as a polynomial in beta whose coefficients are polynomials in alpha |
| C76 | ultrahonk: decider `prove` and `verify` | C69, C70, C73-C75 put together on the 41 entities |
| C77 | ultrahonk: `compute_w4`, `compute_logderivative_inverses`, `compute_grand_product` of Oink | values of the columns in closed form, then the relations of C72 row by row; double counting for the sum of lookups |
| C78 | co-builder: copy cycles, `compute_permutation_mapping`, the columns sigma and id; `compute_public_input_delta` | a product over all cells, rearranged by cycles; the loose ends of the cycles match by the permutation of tags |
| C79 | Oink and decider together | C77, C78 and C76 |
| C80 | the permutation relation against wires of any prover | products equal for beta and gamma give equal lists of pairs, but for few challenges; along each cycle the values are then equal |
| C81 | the lookup relations against columns of any prover | sums of fractions as rational functions of gamma: a pole that is in no table has to cancel |
| C82 | the verifier against any prover, down to the circuit | C76, C80 and C81; the opening of shifted columns forces their first cell to zero |
| C83 | active ranges of a trace | induction over the ranges added |
| C41 | point shares and coordinate shares over an abstract curve (chord rule, shape of the curve) | protocol composition; a run of `exec` for concrete cases |

## 3. Not modelled

ark-ff / ark-ec / ark-serialize internals, ChaCha and SHA-3 internals, TLS,
threads and OS sockets below the level of byte streams and FIFO queues, timing.
Of rep3/yao.rs: the functions built on the other-field blueprint and the table functions (`slice_and_get_*`,
AES, hash and curve gadgets), and the point-compression functions.
Of the MPC-VM: the Poseidon2 accelerator and precomputed traces, the text of log output, the batched VM; the
instruction counter is a bound given as a parameter, and `usize` arithmetic on addresses is unbounded.
Of co-groth16: the transforms (`Domain`, `bit_reverse`) and the multi-scalar multiplication of taceo-ark-algebra
and the verifier and key generation of arkworks / snarkjs are given by their specification; reading of keys and
witnesses from files (circom-types) is not modelled.
Of co-circom: the command line, configuration and (de)serialisation of share files; `generate_witness_shamir`
(the Shamir driver of the VM). `serde_json::Map` is a list of members in its order.
Of co-plonk: the transforms and the msm are given by their specification; the Keccak transcript is an arbitrary
function from the absorbed scalars and points to the challenge.
Of co-brillig: the Shamir driver; negative relative addresses; `HashMap` of stored states is a list; division and digits by
garbled circuits (`yao::...`) are parameters with the specification (the integer functions of C44); the loop is bounded by
a parameter. Of black boxes only `ToRadix` exists in the code (the others are `todo!`).
Of co-acvm: the Brillig VM is a parameter of the driver in C58-C60 and the coBrillig VM in C67, where each call forks the
state anew, starts with an empty call stack and its own store, and errors of calls are not distinguished; the hash, curve and cipher opcodes and the
Shamir driver are not modelled.
Of ultrahonk the sumcheck without zero knowledge (prover and verifier) and the relations are modelled; the transcript is an
arbitrary function from the univariates sent to the challenge. The masking of zero knowledge (also in shplemini)
is not modelled. Of Oink the columns it computes are modelled (C77), its challenges are arguments; what a circuit has to
satisfy for them is stated as `honest` (C79), the circuit builder that would ensure it is not modelled. The decider
(C76) joins sumcheck and shplemini; the challenges of the latter, alpha and beta are arguments. C69 and C71 assume that a relation
is skipped only where it vanishes; for permutation and lookup the code does not ensure this (F58).
Of co-builder only the wiring (C78) is modelled; co-ultrahonk (the prover on shares) is not.

## 4. Files

| file | content |
|------|---------|
| `Proc.v` | party programs, configurations, schedules, confluence, `every_schedule` |
| `Alg.v`, `Zp.v` | algebraic structures; Z/n and prime fields |
| `Rep3Net.v` | three-party networks, weakest preconditions `wp`/`wpo`, `all_ok`/`all_end` |
| `Rep3.v`, `Rep3Spec.v`, `Rep3Proofs.v`, `Rep3Wp.v` | replicated shares over a group/ring/field: model, specification, lemmas |
| `Uint.v`, `Limbs.v` | fixed-width unsigned integers, Kogge-Stone prefix theory, limb serialisation |
| `Binary.v`, `BinaryWp.v` | xor shares over arbitrary width |
| `Conv.v`, `ConvWp.v`, `CmpWp.v` | a2b, b2a, bit injection, comparisons over prime fields |
| `Ring2k.v`, `Ring2kWp.v` | the rep3_ring versions over Z/2^K and the casts |
| `NNet.v` | n-party networks and their weakest preconditions |
| `ShamirPoly.v`, `Shamir.v`, `ShamirSpec.v` | polynomials; model of shamir.rs, rngs.rs, arithmetic.rs, pointshare.rs, the Rep3 bridge; specification |
| `ShamirAlg.v`, `ShamirRng.v`, `ShamirDeal.v`, `ShamirWp.v`, `ShamirRed.v`, `ShamirOps.v`, `ShamirSetup.v` | interpolation, dealing of double sharings, opening, degree reduction, operations, set-up and histories |
| `Frame.v` | blocking.rs: frame writer, frame reader, writer/reader loops, per-peer queues; the OS is an oracle of read/write results |
| `Tcp.v` | tcp.rs: the set-up loops of all parties over listeners with a backlog |
| `Session.v` | tcp_session.rs, tcp_session_blocking.rs: header, stream map, clean-up, acceptor, `init_session` |
| `LocalNet.v` | local.rs and the statistics of lib.rs; refinement to `Proc.v` |
| `Address.v` | config.rs: `Address` parsing and printing |
| `Join.v` | fork-join of sub-protocols on separate networks (`mpc_net::join`) equals running them in sequence |
| `Lut.v`, `LutWp.v`, `LutProv.v` | one-hot vectors, lookup tables, the table providers |
| `Garble.v` | labels, half gates, garbler and evaluator as state machines; circuits as programs over gates; lock-step theorem |
| `Circuits.v`, `CircuitsSim.v`, `CircuitsOk.v`, `CircuitsArith.v`, `CircuitsMod.v`, `CircuitsFun.v` | the circuits of yao/circuits.rs, generic in the wire type; they do not look into wires; the integer functions they compute |
| `Garbled.v` | a whole garbled computation; gate lists |
| `Poseidon2.v`, `Poseidon2Spec.v`, `Poseidon2Mat.v`, `Poseidon2Lin.v`, `Poseidon2Wp.v`, `Poseidon2Sh.v` | Poseidon2: model of the plain, replicated and Shamir variants; matrices and rounds of the paper; linear layers; replicated and Shamir proofs |
| `Merkle.v`, `MerkleSpec.v`, `MerkleMem.v`, `MerkleTree.v`, `MerkleWp.v` | Merkle trees: model (in-place vector updates), recursive specification, plain proofs, shared proofs |
| `Sort.v`, `SortRank.v`, `SortWp.v`, `SortRadix.v`, `PropsSort.v` | shuffle, unshuffle, radix sort (rep3_ring/gadgets/sort.rs): model, specification of stable sorting by ranks, shuffles under every schedule, the rounds of the sort, C24 |
| `Secrecy.v`, `SecretShare.v`, `PropsSecrecy.v` | views (`spy`), ideal generators (`tape`), circuits on replicated shares and their views, dealt sharings, C35, C36 |
| `Exec.v` | executable scheduler: a computed run is the outcome under every schedule; protocols that end well or abort together (`wpf`) |
| `Point.v`, `PointWp.v`, `PointBack.v`, `PointSecrecy.v`, `PropsPoint.v` | point shares to coordinate shares and back (rep3/conversion.rs:841-1330, detail.rs:417-535), the zero test of points; their first message; C41, C36 |
| `Yao.v`, `YaoSpec.v`, `YaoWp.v`, `YaoOut.v`, `YaoApi.v`, `YaoStream.v`, `PropsYao.v` | three-party garbled circuits (rep3/yao.rs, yao/garbler.rs, evaluator.rs, streaming_*.rs, conversion.rs:463-838): model; Yao shares; conversions into and out of Yao shares; the integer functions; streaming; C42-C45 |
| `VmDriver.v`, `VmIdeal.v`, `VmDriverWp.v`, `PropsVm.v` | the drivers of the co-circom MPC-VM (mpc/plain.rs, mpc/rep3.rs); what the three-party driver computes on the values behind the shares; proof; C46 |
| `Vm.v`, `VmSim.v`, `VmRun.v`, `PropsVmRun.v` | the interpreter of the MPC-VM: opcodes, component and call stacks, shared conditions, accelerators, witness extension; its parametricity; three-party runs; C47 |
| `VmSource.v`, `VmCompile.v`, `VmMask.v`, `PropsVmSource.v` | source programs and the compiler (circom-mpc-compiler/src/lib.rs), their structured meaning; the machine runs compiled code as the source; masked runs agree with clear runs; C48 |
| `VmSpec.v`, `PropsVmSpec.v` | accelerators against templates, inputs, returns under shared conditions; C55-C57 |
| `Dft.v` | bit reversal, roots of unity, transforms on domains, coset evaluation |
| `Groth16.v`, `Groth16Gen.v`, `Groth16Inst.v`, `Groth16Complete.v`, `PropsGroth16.v` | co-groth16: reductions, prover, three drivers; agreement with the plain prover; completeness and simulation; C49-C51 |
| `Plonk.v`, `PlonkGen.v`, `PlonkIdeal.v`, `PlonkInst.v`, `PropsPlonk.v` | co-plonk: key, rounds, drivers, verifier; the shared provers agree with the plain prover; C52, C53 |
| `PlonkPoly.v`, `PlonkComplete.v`, `PlonkQuot.v`, `PlonkVerify.v`, `PlonkFinal.v`, `PropsPlonkVerify.v` | specification of keys and satisfied circuits; polynomial identities of the rounds; the proofs verify; C54 |
| `Acvm.v`, `AcvmSpec.v`, `AcvmProgress.v` | the ACVM solver of co-noir with its plain and three-party drivers; satisfaction of programs; C58, C60 |
| `Brillig.v`, `BrilligSpec.v`, `BrilligSound.v`, `BrilligProgress.v` | the coBrillig VM for any driver and its driver on clear values; what programs compute; C64 |
| `BrilligDriver.v`, `BrilligOps.v`, `BrilligSelect.v`, `BrilligRadix.v` | the three-party driver and its operations, digits of shared values; C65 |
| `BrilligTag.v`, `BrilligSim.v`, `BrilligParties.v`, `ConcreteB.v`, `PropsBrillig.v` | the VM on tagged values, runs of three parties, concrete instances; C66 |
| `AcvmBrillig.v`, `AcvmBrilligWp.v`, `AcvmBrilligDup.v`, `AcvmBrilligSolve.v`, `PropsAcvmBrillig.v` | calls of the coBrillig VM by the ACVM and the store of private shared state; C67 |
| `Univariate.v`, `Sumcheck.v` | ultrahonk: univariates in evaluation form; the sumcheck |
| `SumcheckSpec.v`, `SumcheckProofs.v`, `SumcheckSound.v`, `PropsSumcheck.v` | multilinear extensions and sums over rows; completeness and soundness; C68-C70 |
| `HonkRelations.v`, `HonkProofs.v` | the relations of UltraHonk; their degrees |
| `HonkSpec.v`, `HonkMeaning.v`, `ConcreteH.v`, `PropsHonk.v` | rows by name, what gates mean, a circuit over the field with 97 elements; C71, C72 |
| `Shplemini.v` | prover and verifier of the opening of multilinear polynomials: Gemini, Shplonk, KZG |
| `ShpleminiFold.v`, `ShpleminiPoly.v`, `ShpleminiQuot.v`, `ShpleminiVerify.v`, `ShpleminiComplete.v` | folds, batching, quotients, what the verifier adds up; completeness |
| `ShpleminiSound.v`, `ShpleminiFew.v`, `PropsShplemini.v` | soundness up to exceptional challenges, and their number; C73, C74 |
| `HonkSkip.v` | which relations hold in every row; when lookups may be skipped (C71) |
| `HonkRows.v`, `Decider.v`, `DeciderProofs.v`, `PropsDecider.v` | challenges for relations and rows, sumcheck and opening put together; C75, C76 |
| `Oink.v` | the columns of Oink, the copy cycles and the columns sigma and id |
| `OinkWiring.v`, `OinkTrace.v`, `OinkGrand.v` | the product over all cells (C78) |
| `OinkProofs.v`, `OinkRelations.v`, `OinkComplete.v`, `OinkDecider.v`, `PropsOink.v` | the relations (C77), the whole prover (C79) |
| `OinkSound.v`, `OinkCopy.v`, `OinkWire.v` | products of linear factors, the copy constraints from equal pairs, from the relations; C80 |
| `OinkLookup.v`, `OinkZero.v`, `OinkGap.v`, `OinkGapRel.v`, `OinkWhole.v`, `PropsOinkSound.v` | sums of fractions and lookups, accepted proofs down to the circuit, active ranges; C77, C81, C82, C83 |
| `Circom.v`, `CircomSpec.v`, `CircomOk.v`, `CircomRun.v`, `CircomWit.v`, `PropsCircom.v` | front end of co-circom: inputs, merging, witnesses; meaning of inputs; C61-C63 |
| `AcvmRun.v`, `AcvmSim.v`, `AcvmRef.v`, `AcvmMay.v`, `AcvmParties.v`, `PropsAcvm.v` | the driver on tagged values, runs of three parties, refinement, absence of aborts; C59 |
| `Concrete*.v` | concrete instances used by the examples |
| `Props*.v` | the property theorems, each closed by a lemma, with `Print Assumptions` |

## 5. Trusted base

The Coq 8.16.1 kernel including its virtual machine (`vm_compute`). `Print Assumptions`
reports "Closed under the global context" for every property theorem: no axiom is used,
not even from the standard library. (A listing of the whole library also shows the parameters of
`Coq.ssr.ssrunder.Under_rel`, a module type of the standard library that no theorem uses.) What remains trusted is the reading of the Rust
code (each definition cites file and lines) and the abstractions of sections 1 and 3.

## 6. Findings

Facts about the code that contradict its documentation or the natural statement of a
property. Each has a theorem unless marked (text).

* **F1** `Rep3State::rngs.generate_shared`: after one three-key draw the bit-composition
  generators of the parties no longer agree (`C08_generate_shared_refuted`).
* **F4** `inv` also reports an error when the random mask is zero (part of C05).
* **F13** `eval_poly` panics on an empty coefficient list (`C38_eval_poly_empty_refuted`).
* **F14** `from_uint_unchecked` truncates in a release build (`C40_from_uint_unchecked_release_refuted`).
* **F15** The ring Kogge-Stone adder uses `ilog2(K)` rounds; for widths that are not a
  power of two (`RUint<192>`) a2b panics in debug builds and is wrong in release builds
  (`C15_a2b_debug_panics`, `C15_a2b_non_power_of_two_refuted`).
* **F3** Shamir preprocessing for one party and threshold 0 passes the threshold check and
  panics (`C20_single_party_refuted`).
* **F16** Shamir preprocessing sends the t-shares and the 2t-shares before receiving any;
  with channels of capacity 1 it deadlocks when n-1 > max(t+1, 2t), e.g. n=4, t=1
  (`C20_capacity_one_refuted`). The positive theorems assume `cap_ok`: capacity at least 2,
  or at least 1 for the other n.
* **F17** `combine_field_element` accepts repeated party indices and returns a wrong value
  (`C17_duplicate_indices_refuted`).
* `translate_primefield_addshare` is correct only for n = 2t+1
  (`C21_addshare_more_parties_refuted`); the code uses it for three parties.
* `or_tree` panics on an empty input (`C13_or_tree_empty`).
* **F10** The clean-up task of the session layer also removes waiting requests, so a request
  is cancelled after the idle time even when no time-out is configured
  (`C31_cleanup_cancels_request_refuted`).
* **F11** A request that gave up leaves its entry behind; the next connection with that key is
  handed to it and lost, and the next request waits (`C31_stale_request_swallows_refuted`).
* **F19** The acceptor reads the header of one connection before accepting the next; a silent
  connection blocks all later ones (no read time-out in tcp_session.rs)
  (`C31_silent_connection_refuted`).
* **F20** `TcpNetwork::networks` uses the position in the sorted list as party id; ids other
  than 0..n-1 are not rejected and the set-up hangs (`C30_ids_from_one_refuted`). A header
  naming a network that does not exist panics the accepting party (text).
* **F18** `send` adds to the byte counter before it succeeds; a timed-out send is counted
  (`C32_timed_out_send_counted_refuted`). `get_diff_to` with snapshots in the wrong order
  underflows (`C32_diff_wrong_order_refuted`).
* **F21** The text of an address whose host contains ':' cannot be parsed back
  (`C34_host_with_colon_refuted`). Ports may be written with '+' and leading zeros.
* The frame reader treats `ErrorKind::Interrupted` as fatal; the writer retries
  (`C29_interrupted_refuted`).
* **F5** A public lookup table with exactly two entries cannot be read: the provider picks the
  one-bit type, the low-depth reader needs two bits (`C23_get_public_two_panics`).
* **F6** Tables with at most one entry panic on read and write (`C23_get_tiny_panics`,
  `C23_write_tiny_panics`); `ohv` with k = 0 panics (`C22_ohv_zero_panics`).
* **F7** Reading public tables of different lengths with one index panics
  (`C23_get_uneven_panics`).
* **F8** Documentation of `write_to_lut`: "a out-of-bounds index will be ignored". The index is
  reduced modulo the padded length, so it may overwrite an entry
  (`C23_write_out_of_bounds_ignored_refuted`); the plain provider panics instead.
* **F23** `bin_addition_constant_no_carry` is wrong for even constants: `half_adder_const` returns
  the wire as carry also when the constant's bit is 0 (`C28_addition_constant_refuted`). The only
  caller adds 15.
* The division circuits panic when the divisor has fewer bits than the dividend
  (`C28_division_short_refuted`); a zero divisor yields all ones, for fields possibly a number
  that is not below the modulus (`C28_field_division_zero_refuted`).
* The subtraction of p needs a word strictly wider than the modulus
  (`C28_addition_mod_p_word_refuted`).
* **F2** `point_share_to_fieldshares_pre_many` masks all elements of a batch with the same two random
  elements: party 2 learns the differences of the coordinates of the partial sums
  (`C36_batch_message`, `C36_batch_masks_refuted`). The single conversion is masked (`C36_point_message`).
* **F27** The conversion of a point share to coordinates treats equal partial sums (a doubling) as the point
  at infinity, and so does `is_zero` (`C41_equal_halves_refuted`); a zero partial sum gives wrong coordinates
  (`C41_zero_half_refuted`). Any zero component panics, in particular every public point promoted to a
  share (`C41_trivial_share_panics`).
* **F28** Coordinates to a point share: if the random mask has the x-coordinate of the input the result is wrong
  without an error (`C41_mask_collision_refuted`).
* **F9** `radix_sort_fields` with `bitsize = 0` still runs the first round: private keys are masked to zero,
  public inputs are sorted by their lowest bit (`C24_bitsize_zero_refuted`; `C24_bitsize_zero` is the exact
  behaviour).
* **F12** A Merkle tree with one leaf panics in the sponge mode, and in the compression mode unless the
  arity equals the state size, where the leaf is returned (`C26_one_leaf_sponge_panics`,
  `C26_one_leaf_compression`). Verification of an empty path panics (`C26_empty_path_panics`).
* **F24** `verify_merkle_path_*` takes arity and depth from the witness: an inner node is accepted as a
  leaf with a shorter path (`C26_inner_node_accepted`), and the zero padding of the state is accepted as
  a leaf with a longer sibling list (`C26_padding_accepted`, `C26_padding_accepted_compression`). With the
  tree's own arity and depth acceptance is sound up to hash collisions (`C26_sound_*`).
* **F25** `Poseidon2Params::new` accepts parameters without external rounds; the plain permutation works on
  them, `rep3_permutation` panics at two parties (`C25_no_full_rounds_refuted`).
* **F26** `decompose_arithmetic(_many)` with `total_bit_size_per_field` above the bit size of the modulus: the
  circuit produces fewer limbs than the wrapper expects; the surplus outputs are shares of minus the random
  masks instead of zero (`C44_decompose_surplus`), and with several inputs all limbs after those of the first
  input are misaligned garbage (`C44_decompose_refuted`). `field_mod_power_2` with 0 bits panics
  (`C44_mod_power_2_zero`).
* **F22** (text) The blueprint for functions into another field slices the unmasked inputs by the bit size of
  the first field and encodes the masks with the bit size of the second; it is only usable if both agree.
* **F29** VM driver, comparisons with a public left and a shared right operand: `lt` calls `ge_public` with swapped
  operands instead of `gt_public` (rep3.rs:268-287), and `le`, `gt`, `ge` likewise. For equal operands 5 < 5 and 5 > 5
  are true, 5 <= 5 and 5 >= 5 false (`C46_compare_refuted`); for different operands the result is right
  (`C46_binary_clear`).
* **F30** VM driver: `x % 1` with shared `x` panics in `field_mod_power_2` with 0 bits, and `x << s` with shared `x`
  and a public `s` at or above the bit size of the modulus panics, where the clear driver returns a value
  (`C46_abort_refuted`). A public value shifted left by a shared amount uses the amount modulo 256
  (`ideal_bop`, excluded by `faithful`).
* **F31** VM driver: bitwise or / xor with a result at or above the modulus. The clear driver reduces; the
  conversion back to arithmetic shares reduces only once after masking, so depending on the mask parties 0 and 1
  panic while party 2 returns (`C46_xor_refuted`).
* **F32** MPC-VM, nested conditions: a public condition that is false, without else branch, jumps behind its
  `EndTruthyBranch` (lib.rs:451-466, mpc_vm.rs `If`) and so leaves its entry on the stack of conditions. Inside a
  branch of a shared condition the end of that branch then takes the wrong entry, and everything after the shared
  `if` stays masked by its condition: `if (a) { if (0) { x = 1 } } x = 5` leaves `x` unchanged if the secret `a`
  is 0 (`C48_nested_if_refuted`, run by three parties against the clear driver). The clear run ends normally, so
  the witness is silently wrong.
* **F33** MPC-VM: the shared condition of an `if` is used as factor without being tested against zero; the clear
  driver takes every non-zero condition as true. `if (a) { x = 1 }` with shared `a` = 2 sets `x` to 2
  (`C48_condition_refuted`).
* **F34** MPC-VM: an assertion in the branch of a shared condition that is not taken is checked and ends the run
  (`C48_assert_refuted`).
* **F35** co-plonk: a circuit without public inputs has no verifiable proof. The quotient subtracts `buffer_a[j]`
  times the Lagrange polynomial for every Lagrange polynomial of the key (round3.rs:378-381) and uses the first one
  for the product argument (round3.rs:451, 454); snarkjs writes at least one. With one, the first wire value is taken
  for a public input and the verifier rejects the proof (`C54_no_public_refuted`); with none, `lagrange[0]` panics
  (`C54_no_lagrange`).
* **F36** MPC-VM: the `Num2Bits` accelerator (on by default) returns the low bits of an input that does not fit, where
  the template ends with a failed constraint (`C55_num2bits_refuted`); the witness is then rejected only by the proof.
* **F37** MPC-VM: the `sqrt` accelerator ends the run for a value without a root, where circomlib's function returns 0
  (`C55_sqrt_refuted`).
* **F38** co-acvm: an assertion whose witnesses are all known is never checked: `solve_assert_zero` returns without
  looking at the constant (assert_zero_solver.rs:124-141), so a run can succeed on inputs that do not satisfy the program
  (`C58_known_refuted`); the noir ACVM reports an unsatisfied constraint.
* **F39** co-acvm: memory reads and Brillig outputs are inserted without a comparison with a value that is already there
  and overwrite it, inputs included (`C58_overwritten_refuted`).
* **F40** co-acvm: range checks and the width check of AND/XOR are skipped for shared values, where the plain driver
  fails (`C59_range_refuted`).
* **F41** co-acvm: `open_results` returns the outputs in the reverse order of the return witnesses (solver.rs:314-344; part of
  `C58_determined`).
* **F42** co-acvm: an expression with two terms in the same unknown, or an unknown with coefficient zero, stops the solver
  although it is satisfiable (`C60_progress_refuted`).
* **F43** co-acvm: a memory block with two public entries cannot be read at a shared index (`C59_table_refuted`; compare
  `C23_get_public_two_panics`).
* **F44** co-acvm: a Brillig call with a shared condition that is zero is run, and its failure ends the run, where the plain
  driver skips it (`C59_skipped_refuted`).
* **F45** co-circom: the number of public inputs is counted in the merged map instead of taken from the circuit, and entries
  the circuit does not have are neither rejected nor left out of the count. One contributor that adds an element to a public
  array (or a too long public array in one file) makes the parties open as many further elements of the witness, which are
  private inputs of other contributors (`C62_private_stays_shared_refuted`, co-circom/src/lib.rs:150-153, mpc_vm.rs:957-977).
* **F46** co-circom: `split_input` decides by the exact name whether a member is public, `merge_input_shares` by the part of
  the name before `[`. A member called `a[0]` of a public `a` is shared and then compared as if it were public: equal values are
  rejected (`C62_equal_accepted_refuted`) and the parties may end differently (`C62_same_outcome_refuted`).
* **F47** co-circom: members `a` and `a[0]` of an input make the same entry; the later one replaces the earlier one without an
  error, also a public value by a shared one (`C61_no_collision_refuted`).
* **F48** co-brillig, debug builds: integer subtraction below zero panics instead of wrapping (`C64_debug_refuted`,
  plain.rs:12-23 subtracts `u128`s before the reduction). The same panic hits the selection between two public
  integers after a branch on a shared bit, `t - f` (`C66_debug_refuted`, rep3.rs:1705-1785).
* **F49** co-brillig: an integer division in a branch on a shared bit always fails: the divisor is selected against
  `public_one`, a field element (`C66_int_div_refuted`, int_ops.rs:36-50, mpc.rs `public_one`).
* **F50** co-brillig: a branch on a shared bit within another one is an error (`C66_nested_refuted`, brillig_vm.rs:281-283), and so
  is one after a `TACEO_store`, although no store is inside the branch (`C66_store_refuted`, brillig_vm.rs:294-328): the universes
  are copies of the VM with its stored states.
* **F51** co-brillig: an assertion on a shared bit that does not hold is not reported: the parties return random values
  (`C66_trap_refuted`, brillig_vm.rs:304-323).
* **F52** co-brillig: if it holds and the result of the other branch is public, each party draws the replacement from its own
  `thread_rng`; the values differ between the parties and what they return afterwards is not a sharing
  (`C66_noise_refuted`, rep3.rs:377-411).
* **F53** co-brillig: `to_radix` of a shared value with `output_bits` and a radix that is a power of two returns U8 where the
  clear driver returns U1 (`C66_bits_refuted`, rep3.rs:1552-1565), so that the same program fails later on the type.
* **F54** (by reading) co-brillig: the call stack is not cleared between runs of one VM and the memory is not reset after
  `Trap`; `to_radix` with a radix that is not a power of two tests an arithmetic share for zero as if it were binary, and
  with a public value and `output_size` 0 it subtracts below zero (rep3.rs:1602-1660).
* **F55** co-acvm: the states that a call leaves with `TACEO_store` come as a `HashMap`, whose iteration order differs from
  process to process, and each is converted with communication if it contains a shared integer (pss_store.rs:33-48; the lint
  `iter_over_hash_type` is switched off there). Two such states in different orders leave shares that do not fit together,
  and no party fails (`C67_order_refuted`).
* **F56** ultrahonk: `Univariate::evaluate` treats only the point 0 of its domain separately and divides by zero at
  1, ..., SIZE-1 (univariate.rs:180-213; `C68_evaluate_refuted`). The sumcheck verifier evaluates at challenges, so a
  challenge that is a small number makes it panic on an honest proof (second case of `C69_complete`). For a random
  challenge this is unlikely.
* **F57** ultrahonk: with a circuit of two rows and `virtual_log_n` above 1 the prover panics: after the first round
  `partially_evaluate_init` leaves one entry in each column, and `compute_virtual_contribution` reads two
  (sumcheck_prover.rs:20-34, sumcheck_round_prover.rs:388-421; `C69_small_refuted`). `partially_evaluate_inplace` pads to two.
* **F58** ultrahonk: the permutation relation is skipped on an edge where z_perm and its shift agree, on the ground that no
  wire of these rows is in a copy constraint (permutation_relation.rs:70-76). If copies stay within a row (its wires are
  shared with no other row), z_perm does not change, but numerator and denominator differ along the edge outside of its
  end points. The honest prover then sends a wrong univariate and is rejected (`C71_permutation_skip_refuted`: eight rows,
  a copy between the first two wires of row 2; without the skip the same proof is accepted). Both rows of the edge must be
  of this kind. Lookups are skipped where selector and read counts vanish (logderiv_lookup_relation.rs:213-216); on folded
  columns that may happen by chance although inverses and tags do not vanish (by reading).
* **F59** ultrahonk: with columns of two rows (`log_n` = 1) the prover of shplemini panics: `compute_fold_polynomials` takes
  the last of the folds, of which there are `log_n - 1` (shplemini_prover.rs:240; `C73_two_rows_refuted`). Circuits of the
  builder are larger, so this is about the interface. The same file assumes that columns to be shifted begin with zero
  (`C73_first_refuted`: the honest proof of a column that does not is rejected); `shifted`
  (polynomial.rs:170-176) does not check it.
* **F60** ultrahonk: the first table a circuit uses gets number 0 (ultra_builder.rs:4321-4339 `get_table`), and the rows of the
  table columns behind the tables are zero (plain_proving_key.rs:342-373). The lookup relation has no selector for rows of
  tables, so these rows count as entries (0, 0, 0) of table 0, and a lookup of zeros in table 0 is accepted whether the
  table holds it or not (`C81_tables_only_refuted`, for all a, b and challenges gamma other than zero: the table is the
  single entry (0, a, b)). It matters for tables without this entry, such as the S-box of AES (plookup.rs:2338-2366: 0 maps
  to 0x63), if it is the first table of the circuit (by reading: no table is registered before the first one used; the dummy
  tables come last, ultra_builder.rs:5239).
* **F61** ultrahonk: `add_range` (keys/types.rs:18-27) checks that a range begins behind the one before, but not that it ends
  behind its start; a reversed range sets the mark back, and rows may then be active twice (`C83_reversed_refuted`). The
  callers only add blocks that are not empty, so this is about the interface.
* Observation: `check_sum` computes `(1 - indicator) * target + indicator * u(0) + u(1)`
  (sumcheck_round_verifier.rs:52-65), where the last term is not multiplied by the indicator; the same for indicator 1,
  and only stricter for indicator 0.
