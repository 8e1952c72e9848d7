(** * The collaborative Plonk prover and the verifier

    Models co-circom/co-plonk/src: lib.rs, types.rs, round1.rs .. round5.rs, plonk.rs and the drivers
    mpc/plain.rs, mpc/rep3.rs, mpc/shamir.rs.  [F] is the scalar field, [G1] and [G2] the groups of
    the pairing (modules over [F]).

    Simplifications: affine and projective points are the same; [rayon] and [mpc_net::join] run their
    parts one after the other (the legs of a join use networks and states of their own, see
    [C22_join]); the running power [w] of a loop is written as [fpow]; the indexed accesses of a loop
    are guarded once, before the loop, with the panic of the first access out of bounds (the loop has
    no other effect); the zkey and the verification key are records of the external crate
    circom-types, with the fields that the prover reads; the transcript is an oracle [H] on the list
    of absorbed scalars and points (types.rs:136-181 hashes their concatenated encodings); the
    context string added to an error by [prove] is dropped. *)
From Coq Require Import String List Arith Bool.
From Verif Require Import Proc Alg Rep3Net Rep3 ShamirPoly Shamir Dft Groth16.
Import ListNotations.
Set Implicit Arguments.
Local Open Scope grp_scope.
Local Open Scope string_scope.
Local Open Scope list_scope.

(** circom-types, plonk: a polynomial of the zkey with its evaluations on the extended domain *)
Record zpoly (F : Type) := mkPoly { coeffs : list F; evaluations : list F }.
(** circom-types, plonk: [VerifyingKey] inside the zkey (read in round2.rs:128-218, round5.rs:143-144) *)
Record vkey (F G1 : Type) := mkVk {
  vk_k1 : F; vk_k2 : F; vk_qm : G1; vk_ql : G1; vk_qr : G1; vk_qo : G1; vk_qc : G1; vk_s1 : G1; vk_s2 : G1; vk_s3 : G1 }.
(** circom-types, plonk: [Addition] (read in round1.rs:204-221) *)
Record addition (F : Type) := mkAdd { signal_id1 : nat; signal_id2 : nat; factor1 : F; factor2 : F }.
(** circom-types, plonk: [Zkey] *)
Record zkey (F G1 : Type) := mkZk {
  n_vars : nat; n_public : nat; domain_size : nat; zk_pow : nat; n_additions : nat;
  additions : list (addition F);
  map_a : list nat; map_b : list nat; map_c : list nat;
  qm_poly : zpoly F; ql_poly : zpoly F; qr_poly : zpoly F; qo_poly : zpoly F; qc_poly : zpoly F;
  s1_poly : zpoly F; s2_poly : zpoly F; s3_poly : zpoly F;
  lagrange : list (zpoly F);
  p_tau : list G1;
  verifying_key : vkey F G1 }.
(** circom-types, plonk: [JsonVerificationKey] *)
Record json_vk (F G1 G2 : Type) := mkJvk { jv_n_public : nat; jv_power : nat; jv_key : vkey F G1; jv_x2 : G2 }.
(** circom-types, plonk: [PlonkProof] *)
Record plonk_proof (F G1 : Type) := mkPlonk {
  pp_a : G1; pp_b : G1; pp_c : G1; pp_z : G1; pp_t1 : G1; pp_t2 : G1; pp_t3 : G1;
  pp_eval_a : F; pp_eval_b : F; pp_eval_c : F; pp_eval_s1 : F; pp_eval_s2 : F; pp_eval_zw : F;
  pp_wxi : G1; pp_wxiw : G1 }.

(** types.rs:33-47 [Domains]: the size of the domain, its generator, the generator of the domain four
    times as large and the fourth root of unity *)
Record domains (F : Type) := mkDom { dm_n : nat; dm_w : F; dm_w4 : F; dm_i : F }.
(** types.rs:25-31 [PolyEval] *)
Record poly_eval (AS : Type) := mkPE { pe_poly : list AS; pe_eval : list AS }.
(** round1.rs:54-61 [Round1Polys] *)
Record wires (AS : Type) := mkWires {
  buffer_a : list AS; buffer_b : list AS; buffer_c : list AS; wire_a : poly_eval AS; wire_b : poly_eval AS; wire_c : poly_eval AS }.

(** An access behind the end of a vector *)
Definition oob : err := Panic "index out of bounds".
Definition need {A} (k : nat) (l : list A) : outcome unit := if (k <=? length l)%nat then Done tt else Failed oob.
(** [iter_mut().zip(..)] with an update: the elements behind the end of the second vector stay *)
Fixpoint zip_into {A B} (f : A -> B -> A) (l : list A) (m : list B) : list A :=
  match l, m with x :: l, y :: m => f x y :: zip_into f l m | _, _ => l end.
(** [v[0] = f(v[0])]; the vectors are never empty *)
Definition on_head {A} (f : A -> A) (l : list A) : list A := match l with x :: l => f x :: l | [] => [] end.
(** [rotate_right(1)] *)
Definition rotate_right {A} (d : A) (l : list A) : list A := match l with [] => [] | _ => last l d :: removelast l end.

Section Common.
  Context {F : Type} {FF : Fld F} {FT : Fft F}.
  (** lib.rs:57-65 *)
  Definition domain_size_error : err := Eyre "Invalid domain size. Must be power of two".
  Definition plonk_degree_error : err := Eyre "Cannot create domain, Polynomial degree too large".
  Definition corrupted_error : err := Eyre "Cannot index into witness".
  (** types.rs:70-111 [Domains::new], with [roots_of_unity] (types.rs:55-68, the same function as in
      groth16.rs).  [domain_size - 1] underflows for size zero, which panics in a debug build and is
      an error in a release build.  [Radix2EvaluationDomain::new] fails when the order exceeds the
      two-adicity.  [fuel] bounds the search for a non-residue *)
  Definition domains_new (fuel size : nat) : outcome (domains F) :=
    let pow := Nat.log2 size in
    if negb (size =? 2 ^ pow)%nat || (size =? 0)%nat then Failed domain_size_error
    else if (two_adicity <? pow)%nat then Failed plonk_degree_error
    else if (two_adicity <? pow + 2)%nat then Failed plonk_degree_error
    else match roots_of_unity fuel with
         | None => Failed (Panic "no quadratic non-residue found")
         | Some (_, roots) =>
           match nth_error roots pow, nth_error roots (pow + 2), nth_error roots 2 with
           | Some w, Some w4, Some i => Done (mkDom size w w4 i)
           | _, _, _ => Failed oob
           end
         end.

  (** lib.rs:179-203 [calculate_lagrange_evaluations]: [xin] by squaring, then the first values of the
      Lagrange polynomials; a division by zero panics *)
  Fixpoint square_times (k : nat) (x : F) : F := match k with O => x | S k => square_times k (rmul x x) end.
  Fixpoint lagrange_loop (k : nat) (zh n xi root w : F) : outcome (list F) :=
    match k with
    | O => Done []
    | S k =>
      let d := rmul n (xi - w) in
      if feqb d 0 then Failed (Panic "division by zero")
      else obd (lagrange_loop k zh n xi root (rmul w root)) (fun l => Done (rmul (rmul w zh) (finv d) :: l))
    end.
  Definition calculate_lagrange_evaluations (power np : nat) (xi root : F) : outcome (list F * F) :=
    let xin := square_times power xi in
    obd (lagrange_loop (Nat.max 1 np) (xin - rone) (fnat (2 ^ power)) xi root rone) (fun l => Done (l, xin)).
  (** lib.rs:205-214 [calculate_pi] *)
  Definition calculate_pi (public_inputs l : list F) : F :=
    fold_left (fun pi vl => pi - rmul (snd vl) (fst vl)) (List.combine public_inputs l) 0.

  (** round3.rs:212-242 [get_z1], [get_z2], [get_z3] *)
  Definition two : F := rone + rone.
  Definition get_z1 (i : F) : list F := let neg_1 := 0 - rone in let neg_2 := neg_1 - rone in [0; neg_1 + i; neg_2; neg_1 - i].
  Definition get_z2 (i : F) : list F :=
    let neg2_root := rmul (0 - two) i in [0; neg2_root; rmul two two; 0 - neg2_root].
  Definition get_z3 (i : F) : list F :=
    let two_root := rmul two i in [0; two + two_root; - rmul (rmul two two) two; two - two_root].

  (** round5.rs:93-115 [add_poly], [add_factor_poly] *)
  Definition add_factor_poly (inout add : list F) (factor : F) : list F :=
    zip_into (fun x y => x + rmul y factor) (inout ++ repeat 0 (length add - length inout)) add.
  Definition add_poly (inout add : list F) : list F :=
    zip_into gadd (inout ++ repeat 0 (length add - length inout)) add.

  Section Transcript.
    Context {G1 : Type} (H : list (F + G1) -> F).
    (** round2.rs:209-230, plonk.rs:39-63: the order in which the transcript absorbs *)
    Definition challenge_beta (vk : vkey F G1) (public_inputs : list F) (a b c : G1) : F :=
      H ([inr (vk_qm vk); inr (vk_ql vk); inr (vk_qr vk); inr (vk_qo vk); inr (vk_qc vk); inr (vk_s1 vk); inr (vk_s2 vk); inr (vk_s3 vk)]
           ++ map inl public_inputs ++ [inr a; inr b; inr c]).
    Definition challenge_gamma (beta : F) : F := H [inl beta].
    (** round3.rs:517-524, plonk.rs:65-70 *)
    Definition challenge_alpha (beta gamma : F) (z : G1) : F := H [inl beta; inl gamma; inr z].
    (** round4.rs:112-117, plonk.rs:72-78 *)
    Definition challenge_xi (alpha : F) (t1 t2 t3 : G1) : F := H [inl alpha; inr t1; inr t2; inr t3].
    (** round5.rs:293-307, plonk.rs:80-94: [v] is the list of the powers *)
    Definition challenge_v (xi ea eb ec es1 es2 ezw : F) : list F :=
      let v0 := H [inl xi; inl ea; inl eb; inl ec; inl es1; inl es2; inl ezw] in
      let v1 := rmul v0 v0 in let v2 := rmul v1 v0 in let v3 := rmul v2 v0 in let v4 := rmul v3 v0 in
      [v0; v1; v2; v3; v4].
    (** plonk.rs:96-100 *)
    Definition challenge_u (wxi wxiw : G1) : F := H [inr wxi; inr wxiw].
  End Transcript.
End Common.

(** mpc.rs:13-185 [CircomPlonkProver]: the operations that the rounds call.  Shares are a module over
    [F]: [add], [sub], [neg_vec_in_place], [mul_with_public], [fft] and [ifft] of the trait are its
    operations for all three drivers. *)
Record pdriver (P M F AS PS G1 St : Type) := mkPD {
  pd_rand : St -> prog P M (AS * St);
  pd_add_public : AS -> F -> AS;
  pd_promote : F -> AS;
  pd_mul_vec : list AS -> list AS -> St -> prog P M (list AS * St);
  pd_open_vec : list AS -> St -> prog P M (list F);
  pd_open_point : PS -> St -> prog P M G1;
  pd_open_points : list PS -> St -> prog P M (list G1);
  pd_msm : list G1 -> list AS -> PS;
  pd_eval_poly : list AS -> F -> outcome AS;
  pd_fork : nat -> St -> outcome (St * St); (* the new state and the remaining one *)
  pd_array_prod_mul : bool -> list AS -> list AS -> list AS -> St -> prog P M (list AS) }.

Section Prover.
  Context {P M F AS PS G1 St : Type} {FF : Fld F} {FT : Fft F} {AA : AbGrp AS} {MA : Mod F AS}.
  Context (D : pdriver P M F AS PS G1 St) (H : list (F + G1) -> F) (fuel : nat).

  (** The transforms of the domains: the vector is resized to the size of the domain, then transformed (Dft.v) *)
  Definition fft_dom (g : F) (n : nat) (v : list AS) : list AS := dft g n (resize n 0 v).
  Definition ifft_dom (g : F) (n : nat) (v : list AS) : list AS := idft g n (resize n 0 v).

  (** lib.rs:138-159 [get_witness]; [n_vars - n_additions] underflows when there are more additions
      than variables *)
  Definition get_witness (zk : zkey F G1) (public_inputs : list F) (witness addition_witness : list AS) (index : nat) : outcome AS :=
    if (index <=? n_public zk)%nat then
      match nth_error public_inputs index with Some x => Done (pd_promote D x) | None => Failed oob end
    else if (n_vars zk <? n_additions zk)%nat then Failed (Panic "attempt to subtract with overflow")
    else if (index <? n_vars zk - n_additions zk)%nat then
      match nth_error witness (index - n_public zk - 1) with Some x => Done x | None => Failed oob end
    else if (index <? n_vars zk)%nat then
      match nth_error addition_witness (index + n_additions zk - n_vars zk) with Some x => Done x | None => Failed oob end
    else Failed corrupted_error.

  (** round1.rs:194-224 [calculate_additions] *)
  Fixpoint calculate_additions (zk : zkey F G1) (pub : list F) (wit : list AS) (adds : list (addition F)) (acc : list AS) : outcome (list AS) :=
    match adds with
    | [] => Done acc
    | ad :: adds =>
      obd (get_witness zk pub wit acc (signal_id1 ad)) (fun w1 =>
      obd (get_witness zk pub wit acc (signal_id2 ad)) (fun w2 =>
      calculate_additions zk pub wit adds (acc ++ [smul (factor1 ad) w1 + smul (factor2 ad) w2])))
    end.
  (** types.rs:113-125 [PlonkWitness::new]: the leading one of the public inputs becomes zero *)
  Definition witness_new (pub : list F) : outcome (list F) := match pub with [] => Failed oob | _ :: p => Done (0 :: p) end.

  (** round1.rs:76-85 [Round1Challenges::random], [k] times *)
  Fixpoint rand_many (k : nat) (st : St) : prog P M (list AS * St) :=
    match k with
    | O => Ret ([], st)
    | S k => x <- pd_rand D st ;; r <- rand_many k (snd x) ;; Ret (fst x :: fst r, snd r)
    end.

  (** lib.rs:162-177 [blind_coefficients] *)
  Definition blind_coefficients (poly coeff_rev : list AS) : list AS :=
    zip_into (fun p c => p - c) poly (rev coeff_rev) ++ rev coeff_rev.

  (** round1.rs:109-134 [compute_single_wire_poly] *)
  Definition compute_single_wire_poly (zk : zkey F G1) (dm : domains F) (pub : list F) (wit add : list AS) (blind : list AS) (m : list nat)
    : outcome (list AS * poly_eval AS) :=
    obd (traverse (get_witness zk pub wit add) m) (fun ws =>
    let buffer := resize (domain_size zk) 0 ws in
    let poly := ifft_dom (dm_w dm) (dm_n dm) buffer in
    let eval := fft_dom (dm_w4 dm) (dm_n dm * 4) poly in
    Done (buffer, mkPE (blind_coefficients poly blind) eval)).

  (** round1.rs:138-190 [compute_wire_polynomials] *)
  Definition compute_wire_polynomials (zk : zkey F G1) (dm : domains F) (b : list AS) (pub : list F) (wit add : list AS) : outcome (wires AS) :=
    obd (compute_single_wire_poly zk dm pub wit add (firstn 2 b) (map_a zk)) (fun wa =>
    obd (compute_single_wire_poly zk dm pub wit add (firstn 2 (skipn 2 b)) (map_b zk)) (fun wb =>
    obd (compute_single_wire_poly zk dm pub wit add (firstn 2 (skipn 4 b)) (map_c zk)) (fun wc =>
    if (domain_size zk + 2 <? length (pe_poly (snd wa)))%nat || (domain_size zk + 2 <? length (pe_poly (snd wb)))%nat
       || (domain_size zk + 2 <? length (pe_poly (snd wc)))%nat
    then Failed plonk_degree_error
    else Done (mkWires (fst wa) (fst wb) (fst wc) (snd wa) (snd wb) (snd wc))))).

  (** [T::msm_public_points_g1(&p_tau[..poly.len()], &poly)] (round1.rs:268-272, round2.rs:237,
      round3.rs:535-539, round5.rs:326-327) *)
  Definition commit (zk : zkey F G1) (poly : list AS) : outcome PS :=
    obd (need (length poly) (p_tau zk)) (fun _ => Done (pd_msm D (firstn (length poly) (p_tau zk)) poly)).

  (** round1.rs:227-246 [init_round] *)
  Definition init_round (zk : zkey F G1) (pub : list F) (wit : list AS) (st : St)
    : prog P M (list F * list AS * list AS * domains F * St) :=
    pub0 <- leaf (witness_new pub) ;;
    add <- leaf (calculate_additions zk pub0 wit (additions zk) []) ;;
    b <- rand_many 11 st ;;
    dm <- leaf (domains_new fuel (domain_size zk)) ;;
    Ret (pub0, add, fst b, dm, snd b).

  (** round1.rs:250-294 [round1] *)
  Definition round1 (zk : zkey F G1) (dm : domains F) (b : list AS) (pub : list F) (wit add : list AS) (st : St)
    : prog P M (wires AS * (G1 * G1 * G1)) :=
    W <- leaf (compute_wire_polynomials zk dm b pub wit add) ;;
    ca <- leaf (commit zk (pe_poly (wire_a W))) ;;
    cb <- leaf (commit zk (pe_poly (wire_b W))) ;;
    cc <- leaf (commit zk (pe_poly (wire_c W))) ;;
    opened <- pd_open_points D [ca; cb; cc] st ;;
    match opened with a :: b :: c :: _ => Ret (W, (a, b, c)) | _ => Fail oob end.

  (** round2.rs:96-193 [compute_z] *)
  Definition compute_z (zk : zkey F G1) (dm : domains F) (b : list AS) (beta gamma : F) (W : wires AS) (st : St)
    : prog P M (poly_eval AS * St) :=
    let n := domain_size zk in
    let k1 := vk_k1 (verifying_key zk) in
    let k2 := vk_k2 (verifying_key zk) in
    let num (k : F) (buf : list AS) :=
        map (fun i => pd_add_public D (pd_add_public D (nth i buf 0) (rmul k (rmul beta (fpow (dm_w dm) i)))) gamma) (seq 0 n) in
    let den (s : zpoly F) (buf : list AS) :=
        map (fun i => pd_add_public D (pd_add_public D (nth i buf 0) (rmul beta (nth (i * 4) (evaluations s) 0))) gamma) (seq 0 n) in
    _ <- leaf (need (4 * n - 3) (evaluations (s1_poly zk))) ;;
    _ <- leaf (need (4 * n - 3) (evaluations (s2_poly zk))) ;;
    _ <- leaf (need (4 * n - 3) (evaluations (s3_poly zk))) ;;
    f0 <- leaf (pd_fork D (n * 6 + 2) st) ;;
    f1 <- leaf (pd_fork D (n * 7 + 2) (snd f0)) ;;
    nm <- pd_array_prod_mul D false (num rone (buffer_a W)) (num k1 (buffer_b W)) (num k2 (buffer_c W)) (fst f0) ;;
    dn <- pd_array_prod_mul D true (den (s1_poly zk) (buffer_a W)) (den (s2_poly zk) (buffer_b W)) (den (s3_poly zk) (buffer_c W)) (fst f1) ;;
    bz <- pd_mul_vec D nm dn (snd f1) ;;
    let poly := ifft_dom (dm_w dm) (dm_n dm) (rotate_right 0 (fst bz)) in
    let eval := fft_dom (dm_w4 dm) (dm_n dm * 4) poly in
    let poly := blind_coefficients poly (firstn 3 (skipn 6 b)) in
    if (n + 3 <? length poly)%nat then Fail plonk_degree_error else Ret (mkPE poly eval, snd bz).

  (** round2.rs:197-250 [round2], with the challenges *)
  Definition round2 (zk : zkey F G1) (dm : domains F) (b : list AS) (pub : list F) (W : wires AS) (abc : G1 * G1 * G1) (st : St)
    : prog P M (F * F * poly_eval AS * G1 * St) :=
    let beta := challenge_beta H (verifying_key zk) pub (fst (fst abc)) (snd (fst abc)) (snd abc) in
    let gamma := challenge_gamma H beta in
    z <- compute_z zk dm b beta gamma W st ;;
    cz <- leaf (commit zk (pe_poly (fst z))) ;;
    oz <- pd_open_point D cz (snd z) ;;
    Ret (beta, gamma, fst z, oz, snd z).

  (** a multiplication on a forked state, which is dropped afterwards (round3.rs:31-40, 283-295) *)
  Definition mul_leg (a b : list AS) (st : St) : prog P M (list AS) := r <- pd_mul_vec D a b st ;; Ret (fst r).
  (** mpc/rep3.rs:96-106, mpc/shamir.rs:98-108 [add_mul_vec] (mpc/plain.rs adds in the other order) *)
  Definition add_mul_vec (a b c : list AS) (st : St) : prog P M (list AS * St) :=
    r <- pd_mul_vec D b c st ;; Ret (map2 gadd (fst r) a, snd r).
  (** a chain of [add_mul_vec] on one forked state (round3.rs:58-80) *)
  Fixpoint add_mul_chain (acc : list AS) (ms : list (list AS * list AS)) (st : St) : prog P M (list AS) :=
    match ms with
    | [] => Ret acc
    | (b, c) :: ms => r <- add_mul_vec acc b c st ;; add_mul_chain (fst r) ms (snd r)
    end.
  Definition sum_leg (a b : list AS) (ms : list (list AS * list AS)) (st : St) : prog P M (list AS) :=
    r <- pd_mul_vec D a b st ;; add_mul_chain (fst r) ms (snd r).

  (** round3.rs:20-86 [mul4vec!] *)
  Definition mul4vec (a b c d ap bp cp dp : list AS) (len : nat) (st : St) : prog P M (list (list AS) * St) :=
    f0 <- leaf (pd_fork D len st) ;;
    f1 <- leaf (pd_fork D len (snd f0)) ;;
    f2 <- leaf (pd_fork D len (snd f1)) ;;
    f3 <- leaf (pd_fork D len (snd f2)) ;;
    f4 <- leaf (pd_fork D len (snd f3)) ;;
    f5 <- leaf (pd_fork D len (snd f4)) ;;
    f6 <- leaf (pd_fork D len (snd f5)) ;;
    f7 <- leaf (pd_fork D len (snd f6)) ;;
    a_b <- mul_leg a b (fst f0) ;;
    a_bp <- mul_leg a bp (fst f1) ;;
    ap_b <- mul_leg ap b (fst f2) ;;
    ap_bp <- mul_leg ap bp (fst f3) ;;
    c_d <- mul_leg c d (fst f4) ;;
    c_dp <- mul_leg c dp (fst f5) ;;
    cp_d <- mul_leg cp d (fst f6) ;;
    cp_dp <- mul_leg cp dp (fst f7) ;;
    g0 <- leaf (pd_fork D len (snd f7)) ;;
    g1 <- leaf (pd_fork D (len * 4) (snd g0)) ;;
    g2 <- leaf (pd_fork D (len * 6) (snd g1)) ;;
    g3 <- leaf (pd_fork D (len * 4) (snd g2)) ;;
    g4 <- leaf (pd_fork D len (snd g3)) ;;
    r <- mul_leg a_b c_d (fst g0) ;;
    a0 <- sum_leg ap_b c_d [(a_bp, c_d); (a_b, cp_d); (a_b, c_dp)] (fst g1) ;;
    a1 <- sum_leg ap_bp c_d [(ap_b, cp_d); (ap_b, c_dp); (a_bp, cp_d); (a_bp, c_dp); (a_b, cp_dp)] (fst g2) ;;
    a2 <- sum_leg a_bp cp_dp [(ap_b, cp_dp); (ap_bp, c_dp); (ap_bp, cp_d)] (fst g3) ;;
    a3 <- mul_leg ap_bp cp_dp (fst g4) ;;
    Ret ([r; a0; a1; a2; a3], snd g4).

  (** round3.rs:88-105 [mul4vec_post!] *)
  Definition mul4vec_post (es : list (list AS)) (i : nat) (im : F) : AS :=
    let e k := nth i (nth k es []) 0 in
    let m := (i mod 4)%nat in
    if (m =? 0)%nat then e 1%nat
    else smul (nth m (get_z1 im) 0) (e 2%nat) + e 1%nat + smul (nth m (get_z2 im) 0) (e 3%nat) + smul (nth m (get_z3 im) 0) (e 4%nat).

  (** round3.rs:468-478: division by [X^n - 1], coefficient by coefficient *)
  Definition div_by_zh (n : nat) (c : list AS) : list AS :=
    fold_left (fun q i => q ++ [if (i <? n)%nat then - nth i c 0 else nth (i - n) q 0 - nth i c 0]) (seq 0 (length c)) [].

  (** round3.rs:482-498: the three parts of the quotient *)
  Definition split_t (n : nat) (t : list AS) (b9 b10 : AS) : list AS * list AS * list AS :=
    (firstn n t ++ [b9],
     on_head (fun x => x - b9) (firstn n (skipn n t)) ++ [b10],
     on_head (fun x => x - b10) (firstn (n + 6) (skipn (n + n) t))).

  (** round3.rs:246-502 [compute_t] *)
  Definition compute_t (zk : zkey F G1) (dm : domains F) (b : list AS) (beta gamma alpha : F) (W : wires AS) (z : poly_eval AS) (st : St)
    : prog P M (list AS * list AS * list AS * St) :=
    let n := domain_size zk in
    let len := (n * 4)%nat in
    let alpha2 := rmul alpha alpha in
    let bb k := nth k b 0 in
    let w i := fpow (dm_w4 dm) i in
    let lin (c1 c0 : AS) := map (fun i => c1 + smul (w i) c0) (seq 0 len) in
    let ap := lin (bb 1%nat) (bb 0%nat) in
    let bp := lin (bb 3%nat) (bb 2%nat) in
    let cp := lin (bb 5%nat) (bb 4%nat) in
    let ea := pe_eval (wire_a W) in
    let eb := pe_eval (wire_b W) in
    let ec := pe_eval (wire_c W) in
    let ez := pe_eval z in
    f0 <- leaf (pd_fork D len st) ;;
    f1 <- leaf (pd_fork D len (snd f0)) ;;
    f2 <- leaf (pd_fork D len (snd f1)) ;;
    f3 <- leaf (pd_fork D len (snd f2)) ;;
    a_b <- mul_leg ea eb (fst f0) ;;
    a_bp <- mul_leg ea bp (fst f1) ;;
    ap_b <- mul_leg eb ap (fst f2) ;;
    ap_bp <- mul_leg ap bp (fst f3) ;;
    _ <- leaf (traverse (fun p => need len (evaluations p))
                 [qm_poly zk; ql_poly zk; qr_poly zk; qo_poly zk; qc_poly zk; s1_poly zk; s2_poly zk; s3_poly zk]) ;;
    _ <- leaf (need (length (lagrange zk)) (buffer_a W)) ;;
    _ <- leaf (traverse (fun p => need len (evaluations p)) (lagrange zk)) ;;
    let at' (p : zpoly F) i := nth i (evaluations p) 0 in
    let quad (x : F) := bb 8%nat + (smul (rmul x x) (bb 6%nat) + smul x (bb 7%nat)) in
    let zp := map (fun i => quad (w i)) (seq 0 len) in
    let zwp := map (fun i => quad (rmul (w i) (dm_w dm))) (seq 0 len) in
    let pi i := fold_left (fun acc xl => acc - smul (at' (snd xl) i) (fst xl)) (List.combine (buffer_a W) (lagrange zk)) 0 in
    let e1 := map (fun i =>
        pd_add_public D (smul (at' (qm_poly zk) i) (nth i a_b 0) + smul (at' (ql_poly zk) i) (nth i ea 0)
                         + smul (at' (qr_poly zk) i) (nth i eb 0) + smul (at' (qo_poly zk) i) (nth i ec 0) + pi i) (at' (qc_poly zk) i)) (seq 0 len) in
    let a0 i := let s := nth i a_bp 0 + nth i ap_b 0 in
                if (i mod 4 =? 0)%nat then s else s + smul (nth (i mod 4) (get_z1 (dm_i dm)) 0) (nth i ap_bp 0) in
    let e1z := map (fun i =>
        smul (at' (qm_poly zk) i) (a0 i) + smul (at' (ql_poly zk) i) (nth i ap 0)
        + smul (at' (qr_poly zk) i) (nth i bp 0) + smul (at' (qo_poly zk) i) (nth i cp 0)) (seq 0 len) in
    let plus (e : list AS) (f : nat -> F) := map (fun i => pd_add_public D (nth i e 0) (f i + gamma)) (seq 0 len) in
    let e2a := plus ea (fun i => rmul beta (w i)) in
    let e2b := plus eb (fun i => rmul (rmul beta (w i)) (vk_k1 (verifying_key zk))) in
    let e2c := plus ec (fun i => rmul (rmul beta (w i)) (vk_k2 (verifying_key zk))) in
    let e2d := map (fun i => nth i ez 0) (seq 0 len) in
    let e3a := plus ea (fun i => rmul (at' (s1_poly zk) i) beta) in
    let e3b := plus eb (fun i => rmul (at' (s2_poly zk) i) beta) in
    let e3c := plus ec (fun i => rmul (at' (s3_poly zk) i) beta) in
    let e3d := map (fun i => nth ((len + 4 + i) mod len) ez 0) (seq 0 len) in
    m2 <- mul4vec e2a e2b e2c e2d ap bp cp zp len (snd f3) ;;
    m3 <- mul4vec e3a e3b e3c e3d ap bp cp zwp len (snd m2) ;;
    _ <- leaf (need 1 (lagrange zk)) ;;
    let L0 i := at' (nth 0 (lagrange zk) (mkPoly [] [])) i in
    let t := map (fun i =>
        nth i e1 0 + smul alpha (nth i (nth 0 (fst m2) []) 0) - smul alpha (nth i (nth 0 (fst m3) []) 0)
        + smul alpha2 (smul (L0 i) (pd_add_public D (nth i ez 0) (- rone)))) (seq 0 len) in
    let tz := map (fun i =>
        nth i e1z 0 + smul alpha (mul4vec_post (fst m2) i (dm_i dm)) - smul alpha (mul4vec_post (fst m3) i (dm_i dm))
        + smul alpha2 (smul (L0 i) (nth i zp 0))) (seq 0 len) in
    let coefficients_t := div_by_zh n (ifft_dom (dm_w4 dm) (dm_n dm * 4) t) in
    let coefficients_tz := ifft_dom (dm_w4 dm) (dm_n dm * 4) tz in
    Ret (split_t n (map2 gadd coefficients_t coefficients_tz) (bb 9%nat) (bb 10%nat), snd m3).

  (** round3.rs:506-556 [round3], with the challenge *)
  Definition round3 (zk : zkey F G1) (dm : domains F) (b : list AS) (beta gamma : F) (W : wires AS) (z : poly_eval AS) (cz : G1) (st : St)
    : prog P M (F * (list AS * list AS * list AS) * (G1 * G1 * G1) * St) :=
    let alpha := challenge_alpha H beta gamma cz in
    t <- compute_t zk dm b beta gamma alpha W z st ;;
    let t1 := fst (fst (fst t)) in let t2 := snd (fst (fst t)) in let t3 := snd (fst t) in
    c1 <- leaf (commit zk t1) ;;
    c2 <- leaf (commit zk t2) ;;
    c3 <- leaf (commit zk t3) ;;
    opened <- pd_open_points D [c1; c2; c3] (snd t) ;;
    match opened with x :: y :: z :: _ => Ret (alpha, fst t, (x, y, z), snd t) | _ => Fail oob end.

  (** round4.rs:100-159 [round4], with the challenge; the result holds [eval_a], [eval_b], [eval_c], [eval_zw] *)
  Definition round4 (zk : zkey F G1) (dm : domains F) (alpha : F) (W : wires AS) (z : poly_eval AS) (ts : G1 * G1 * G1) (st : St)
    : prog P M (F * (F * F * F * F)) :=
    let xi := challenge_xi H alpha (fst (fst ts)) (snd (fst ts)) (snd ts) in
    ea <- leaf (pd_eval_poly D (pe_poly (wire_a W)) xi) ;;
    eb <- leaf (pd_eval_poly D (pe_poly (wire_b W)) xi) ;;
    ec <- leaf (pd_eval_poly D (pe_poly (wire_c W)) xi) ;;
    ez <- leaf (pd_eval_poly D (pe_poly z) (rmul xi (dm_w dm))) ;;
    opened <- pd_open_vec D [ea; eb; ec; ez] st ;;
    match opened with a :: b :: c :: z :: _ => Ret (xi, (a, b, c, z)) | _ => Fail oob end.

  (** round5.rs:78-91 [div_by_zerofier] with [n = 1] *)
  Definition div_by_zerofier (inout : list AS) (beta : F) : outcome (list AS) :=
    if feqb beta 0 then Failed (Panic "Highly unlikely to be zero")
    else
      let inv := finv beta in
      Done (firstn (length inout - 1)
        (fold_left (fun q i => q ++ [if (i <? 1)%nat then smul (- inv) (nth i inout 0) else smul inv (nth (i - 1) q 0 - nth i inout 0)])
           (seq 0 (length inout)) [])).

  (** round5.rs:118-205 [compute_r]; the evaluations come from [round4] *)
  Definition compute_r (zk : zkey F G1) (dm : domains F) (pub : list F) (beta gamma alpha xi ea eb ec es1 es2 ezw : F)
             (z : poly_eval AS) (t1 t2 t3 : list AS) : outcome (list AS) :=
    obd (calculate_lagrange_evaluations (zk_pow zk) (n_public zk) xi (dm_w dm)) (fun lx =>
    let l := fst lx in let xin := snd lx in
    let zh := xin - rone in
    let l0 := nth 0 l 0 in
    let eval_pi := calculate_pi pub l in
    let coef_ab := rmul ea eb in
    let betaxi := rmul beta xi in
    let e2a := ea + betaxi + gamma in
    let e2b := eb + rmul betaxi (vk_k1 (verifying_key zk)) + gamma in
    let e2c := ec + rmul betaxi (vk_k2 (verifying_key zk)) + gamma in
    let e2 := rmul (rmul (rmul e2a e2b) e2c) alpha in
    let e3a := ea + rmul beta es1 + gamma in
    let e3b := eb + rmul beta es2 + gamma in
    let e3 := rmul (rmul (rmul e3a e3b) ezw) alpha in
    let e4 := rmul (rmul alpha alpha) l0 in
    let e24 := e2 + e4 in
    let poly_r := map (fun c => rmul c coef_ab) (coeffs (qm_poly zk)) in
    let poly_r := add_factor_poly poly_r (coeffs (ql_poly zk)) ea in
    let poly_r := add_factor_poly poly_r (coeffs (qr_poly zk)) eb in
    let poly_r := add_factor_poly poly_r (coeffs (qo_poly zk)) ec in
    let poly_r := add_poly poly_r (coeffs (qc_poly zk)) in
    let poly_r := add_factor_poly poly_r (coeffs (s3_poly zk)) (- rmul e3 beta) in
    let len := (domain_size zk + 6)%nat in
    let zeros := repeat 0 len in
    let shared := zip_into (fun _ add => smul e24 add) zeros (pe_poly z) in
    let shared := zip_into (fun x add => pd_add_public D x add) shared poly_r in
    let tmp := zip_into (fun _ add => smul (rmul xin xin) add) zeros t3 in
    let tmp := zip_into (fun x add => x + smul xin add) tmp t2 in
    let tmp := zip_into gadd tmp t1 in
    let tmp := map (smul zh) tmp in
    let shared := zip_into (fun x s => x - s) shared tmp in
    let r0 := eval_pi - rmul e3 (ec + gamma) - e4 in
    Done (on_head (fun x => pd_add_public D x r0) shared)).

  (** round5.rs:208-259 [compute_wxi] *)
  Definition compute_wxi (zk : zkey F G1) (v : list F) (xi ea eb ec es1 es2 : F) (W : wires AS) (poly_r : list AS) : outcome (list AS) :=
    let vv k := nth k v 0 in
    let res := zip_into (fun _ add => add) (repeat 0 (domain_size zk + 6)) poly_r in
    let res := zip_into (fun x add => smul (vv 0%nat) add + x) res (pe_poly (wire_a W)) in
    let res := zip_into (fun x add => smul (vv 1%nat) add + x) res (pe_poly (wire_b W)) in
    let res := zip_into (fun x add => smul (vv 2%nat) add + x) res (pe_poly (wire_c W)) in
    let res := zip_into (fun x add => pd_add_public D x (rmul (vv 3%nat) add)) res (coeffs (s1_poly zk)) in
    let res := zip_into (fun x add => pd_add_public D x (rmul (vv 4%nat) add)) res (coeffs (s2_poly zk)) in
    let res := on_head (fun x => pd_add_public D x (rmul (- vv 0%nat) ea)) res in
    let res := on_head (fun x => pd_add_public D x (rmul (- vv 1%nat) eb)) res in
    let res := on_head (fun x => pd_add_public D x (rmul (- vv 2%nat) ec)) res in
    let res := on_head (fun x => pd_add_public D x (rmul (- vv 3%nat) es1)) res in
    let res := on_head (fun x => pd_add_public D x (rmul (- vv 4%nat) es2)) res in
    div_by_zerofier res xi.

  (** round5.rs:262-278 [compute_wxiw] *)
  Definition compute_wxiw (dm : domains F) (xi ezw : F) (z : poly_eval AS) : outcome (list AS) :=
    div_by_zerofier (on_head (fun x => pd_add_public D x (- ezw)) (pe_poly z)) (rmul xi (dm_w dm)).

  (** lib.rs:82-113 [prove_inner], with [round5] (round5.rs:282-339) at the end.  The public inputs
      lose their leading element after the first round (round1.rs:32-43) *)
  Definition plonk_prove_inner (zk : zkey F G1) (pub : list F) (wit : list AS) (st : St) : prog P M (plonk_proof F G1) :=
    i <- init_round zk pub wit st ;;
    let pub0 := fst (fst (fst (fst i))) in
    let add := snd (fst (fst (fst i))) in
    let b := snd (fst (fst i)) in
    let dm := snd (fst i) in
    o1 <- round1 zk dm b pub0 wit add (snd i) ;;
    let W := fst o1 in let abc := snd o1 in
    let pub1 := tl pub0 in
    o2 <- round2 zk dm b pub1 W abc (snd i) ;;
    let beta := fst (fst (fst (fst o2))) in
    let gamma := snd (fst (fst (fst o2))) in
    let z := snd (fst (fst o2)) in
    let cz := snd (fst o2) in
    o3 <- round3 zk dm b beta gamma W z cz (snd o2) ;;
    let alpha := fst (fst (fst o3)) in
    let tt' := snd (fst (fst o3)) in
    let ts := snd (fst o3) in
    o4 <- round4 zk dm alpha W z ts (snd o3) ;;
    let xi := fst o4 in
    let ea := fst (fst (fst (snd o4))) in
    let eb := snd (fst (fst (snd o4))) in
    let ec := snd (fst (snd o4)) in
    let ezw := snd (snd o4) in
    let es1 := peval (coeffs (s1_poly zk)) xi in
    let es2 := peval (coeffs (s2_poly zk)) xi in
    let v := challenge_v H xi ea eb ec es1 es2 ezw in
    r <- leaf (compute_r zk dm pub1 beta gamma alpha xi ea eb ec es1 es2 ezw z (fst (fst tt')) (snd (fst tt')) (snd tt')) ;;
    wxi <- leaf (compute_wxi zk v xi ea eb ec es1 es2 W r) ;;
    wxiw <- leaf (compute_wxiw dm xi ezw z) ;;
    c1 <- leaf (commit zk wxi) ;;
    c2 <- leaf (commit zk wxiw) ;;
    opened <- pd_open_points D [c1; c2] (snd o3) ;;
    match opened with
    | x :: y :: _ =>
      Ret (mkPlonk (fst (fst abc)) (snd (fst abc)) (snd abc) cz (fst (fst ts)) (snd (fst ts)) (snd ts) ea eb ec es1 es2 ezw x y)
    | _ => Fail oob
    end.
End Prover.

(** ** The product protocol shared by the Rep3 and the Shamir driver *)
Section ArrayProd.
  Context {P M F AS St : Type} {FF : Fld F} {AA : AbGrp AS} {MA : Mod F AS}.
  Context (rnd : St -> prog P M (AS * St)) (mulv : list AS -> list AS -> St -> prog P M (list AS * St)).
  Context (mulo : list AS -> list AS -> St -> prog P M (list F * St)) (invv : list AS -> St -> prog P M (list AS * St)).
  (** [for i in 1..open.len() { open[i] = open[i] * open[i - 1] }] *)
  Fixpoint run_products (acc : F) (l : list F) : list F := match l with [] => [] | x :: l => let y := rmul x acc in y :: run_products y l end.
  Definition prefix_products (l : list F) : list F := match l with [] => [] | x :: l => x :: run_products x l end.
  Fixpoint rnds (k : nat) (st : St) : prog P M (list AS * St) :=
    match k with
    | O => Ret ([], st)
    | S k => x <- rnd st ;; r <- rnds k (snd x) ;; Ret (fst x :: fst r, snd r)
    end.
  (** mpc/rep3.rs:187-223, mpc/shamir.rs:193-229 [array_prod_mul]; the state is not used afterwards *)
  Definition mpc_array_prod_mul (inv : bool) (arr1 arr2 arr3 : list AS) (st : St) : prog P M (list AS) :=
    x <- mulv arr1 arr2 st ;;
    arr <- mulv (fst x) arr3 (snd x) ;;
    let len := length (fst arr) in
    r <- rnds (S len) (snd arr) ;;
    ri <- invv (fst r) (snd r) ;;
    match fst ri with
    | [] => Fail oob
    | ri0 :: ris =>
      u <- mulv (repeat ri0 len) (skipn 1 (fst r)) (snd ri) ;;
      m <- mulv (firstn len (fst r)) (fst arr) (snd u) ;;
      o <- mulo (fst m) ris (snd m) ;;
      let unblind := zip_into (fun u o => smul o u) (fst u) (prefix_products (fst o)) in
      if inv then res <- invv unblind (snd o) ;; Ret (fst res) else Ret unblind
    end.
End ArrayProd.

(** ** The plain driver (mpc/plain.rs) *)
Section PlainDriver.
  Context {F G1 : Type} {FF : Fld F} {AG1 : AbGrp G1} {MG1 : Mod F G1}.
  (** The state stands for the random number generator of the thread: the values that it will return,
      and those of the threads that are forked off *)
  Definition plain_st : Type := list F * list (list F).
  (** [F::rand(&mut thread_rng())] *)
  Definition plain_rand (st : plain_st) : outcome (F * plain_st) :=
    match fst st with x :: l => Done (x, (l, snd st)) | [] => Failed (Panic "no randomness left") end.
  Fixpoint plain_rands (k : nat) (st : plain_st) : outcome (list F * plain_st) :=
    match k with
    | O => Done ([], st)
    | S k => obd (plain_rand st) (fun x => obd (plain_rands k (snd x)) (fun r => Done (fst x :: fst r, snd r)))
    end.
  (** mpc/plain.rs:203-212 *)
  Definition plain_inv_vec (e : err) (a : list F) : outcome (list F) :=
    if existsb (fun x => feqb x 0) a then Failed e else Done (map finv a).
  Definition plain_inv_error : err := Eyre "Cannot invert zero".
  (** mpc/plain.rs:195-247 [array_prod_mul] *)
  Definition plain_array_prod_mul (inv : bool) (arr1 arr2 arr3 : list F) (st : plain_st) : outcome (list F) :=
    let arr := map2 rmul (map2 rmul arr1 arr2) arr3 in
    let len := length arr in
    obd (plain_rands (S len) st) (fun rs =>
    let r := fst rs in
    obd (plain_inv_vec (Panic "called Result::unwrap on an Err value") r) (fun ri =>
    match ri with
    | [] => Failed oob
    | ri0 :: ris =>
      let unblind := map2 rmul (repeat ri0 len) (skipn 1 r) in
      let mul := map2 rmul (firstn len r) arr in
      let open := map2 rmul mul ris in
      let unblind := zip_into rmul unblind (prefix_products open) in
      if inv then plain_inv_vec plain_inv_error unblind else Done unblind
    end)).
  (** mpc/plain.rs: the other operations; [fork] of [()] is [()] *)
  Definition plain_pdriver : pdriver Empty_set Empty_set F F G1 G1 plain_st :=
    mkPD (fun st => leaf (plain_rand st))
      (fun x c => x + c)
      (fun c => c)
      (fun a b st => Ret (map2 rmul a b, st))
      (fun a _ => Ret a)
      (fun p _ => Ret p)
      (fun p _ => Ret p)
      (fun ps xs => msm ps xs)
      (fun cs x => Done (peval cs x))
      (fun _ st => match snd st with
                   | t :: ts => Done ((t, []), (fst st, ts))
                   | [] => Done (([], []), st)
                   end)
      (fun inv a b c st => leaf (plain_array_prod_mul inv a b c st)).
  Context {FT : Fft F} (H : list (F + G1) -> F).
  (** lib.rs:272-277 [plain_prove]; [b] are the eleven blinding factors that the generator returns,
      [r0] and [r1] the random values of the two product arguments *)
  Definition plonk_plain_prove (fuel : nat) (zk : zkey F G1) (pub wit b r0 r1 : list F) : outcome (plonk_proof F G1) :=
    local (plonk_prove_inner plain_pdriver H fuel zk pub wit (b, [r0; r1])).
End PlainDriver.

(** ** The Rep3 driver (mpc/rep3.rs) *)
Section Rep3PDriver.
  Context {F G1 S M : Type} {FF : Fld F} {AG1 : AbGrp G1} {MG1 : Mod F G1}.
  Context {DF : Draw S F} {EF : Enc M (list F)} {E1 : Enc M (list G1)}.
  Context {Seed : Type} {SS : Seeded S Seed} {DS : Draw S Seed} {ES : Enc M (list Seed)} {ESS : Enc M (list (Seed * Seed))}.
  #[local] Existing Instance share_grp.
  #[local] Existing Instance share_mod.
  (** mpc/rep3.rs:27-223; [threads] is the number of worker threads of [eval_poly] (poly.rs) *)
  Definition rep3_pdriver (threads : nat) (i : pid) : pdriver pid M F (share F) (share G1) G1 (rst S) :=
    mkPD (fun st => Ret (rand st))
      (add_public i)
      (promote i)
      (fun a b st => mul_vec i st a b)
      (fun a _ => open_vec i a)
      (fun p _ => open i p)
      (fun p _ => open_vec i p)
      (fun ps xs => msm_public_points ps xs)
      (fun cs x => match eval_poly threads (fun x => feqb x 0) cs x with Some y => Done y | None => Failed oob end)
      (fun _ st => Done (fork (Seed := Seed) st))
      (mpc_array_prod_mul (fun st => Ret (rand st)) (fun a b st => mul_vec i st a b) (fun a b st => mul_open_vec i st a b)
         (fun a st => inv_vec i st a)).
  Context {FT : Fft F} (H : list (F + G1) -> F).
  (** lib.rs:223-234 [Rep3CoPlonk::prove] *)
  Definition plonk_rep3_prove (fuel threads : nat) (zk : zkey F G1) (i : pid) (seed : Seed) (pub : list F) (wit : list (share F))
    : prog pid M (plonk_proof F G1) :=
    st <- new_state i seed ;;
    plonk_prove_inner (rep3_pdriver threads i) H fuel zk pub wit st.
End Rep3PDriver.

(** ** The Shamir driver (mpc/shamir.rs) *)
Section ShamirPDriver.
  Context {F G1 Sg M : Type} {FF : Fld F} {AG1 : AbGrp G1} {MG1 : Mod F G1}.
  Context {DF : Draw Sg F} {EF : Enc M (list F)} {E1 : Enc M G1} {E1s : Enc M (list G1)}.
  Context {Seed : Type} {SDS : Seeded Sg Seed} {DS : Draw Sg Seed}.
  (** mpc/shamir.rs:29-229 *)
  Definition shamir_pdriver : pdriver nat M F F G1 G1 (sst (F := F) (Sg := Sg)) :=
    mkPD (fun st => sm_rand st)
      (fun x c => sm_add_public x c)
      (fun c => sm_promote c)
      (fun a b st => sm_mul_vec a b st)
      (fun a st => sm_open_vec a st)
      (fun p st => sm_open p st)
      (fun p st => sm_open_vec p st)
      (fun ps xs => sm_msm_public_points ps xs)
      (fun cs x => Done (peval cs x))
      (fun amount st => sm_fork (Seed := Seed) amount st)
      (mpc_array_prod_mul (fun st => sm_rand st) (fun a b st => sm_mul_vec a b st)
         (fun a b st => o <- sm_mul_open_vec a b st ;; Ret (o, st)) (fun a st => sm_inv_vec a st)).
  Context {FT : Fft F} (H : list (F + G1) -> F).
  Context {ES : Enc M (list Seed)} (seed0 : Seed).
  (** lib.rs:243-260 [ShamirCoPlonk::prove] *)
  Definition plonk_pairs (zk : zkey F G1) : nat := (domain_size zk * 222 + 15)%nat.
  Definition plonk_shamir_prove (fuel : nat) (zk : zkey F G1) (num_parties threshold id : nat) (seed : Seed) (pub wit : list F)
    : prog nat M (plonk_proof F G1) :=
    st <- preprocessing_new seed0 id seed num_parties threshold (plonk_pairs zk) ;;
    plonk_prove_inner shamir_pdriver H fuel zk pub wit st.
End ShamirPDriver.

(** ** The verifier (plonk.rs) *)
Section Verifier.
  Context {F G1 G2 GT : Type} {FF : Fld F} {FT : Fft F} {AG1 : AbGrp G1} {MG1 : Mod F G1} {AG2 : AbGrp G2} {MG2 : Mod F G2}.
  Context (e : G1 -> G2 -> GT) (gen1 : G1) (gen2 : G2) (H : list (F + G1) -> F).
  (** plonk.rs:126 *)
  Definition malformed : err := Eyre "Invalid number of public inputs".
  (** plonk.rs:22-29 [VerifierChallenges] *)
  Record challenges := mkCh { ch_alpha : F; ch_beta : F; ch_gamma : F; ch_xi : F; ch_v : list F; ch_u : F }.
  (** plonk.rs:34-109 [VerifierChallenges::new] *)
  Definition verifier_challenges (vk : vkey F G1) (p : plonk_proof F G1) (public_inputs : list F) : challenges :=
    let beta := challenge_beta H vk public_inputs (pp_a p) (pp_b p) (pp_c p) in
    let gamma := challenge_gamma H beta in
    let alpha := challenge_alpha H beta gamma (pp_z p) in
    let xi := challenge_xi H alpha (pp_t1 p) (pp_t2 p) (pp_t3 p) in
    let v := challenge_v H xi (pp_eval_a p) (pp_eval_b p) (pp_eval_c p) (pp_eval_s1 p) (pp_eval_s2 p) (pp_eval_zw p) in
    let u := challenge_u H (pp_wxi p) (pp_wxiw p) in
    mkCh alpha beta gamma xi v u.

  (** plonk.rs:153-199 [calculate_r0_d] *)
  Definition calculate_r0_d (vk : vkey F G1) (p : plonk_proof F G1) (c : challenges) (pi l0 xin : F) : F * G1 :=
    let alpha := ch_alpha c in let beta := ch_beta c in let gamma := ch_gamma c in
    let e2 := rmul (rmul alpha alpha) l0 in
    let e3a := pp_eval_a p + rmul (pp_eval_s1 p) beta + gamma in
    let e3b := pp_eval_b p + rmul (pp_eval_s2 p) beta + gamma in
    let e3c := pp_eval_c p + gamma in
    let e3 := rmul (rmul (rmul (rmul e3a e3b) e3c) (pp_eval_zw p)) alpha in
    let r0 := pi - e2 - e3 in
    let d1 := smul (rmul (pp_eval_a p) (pp_eval_b p)) (vk_qm vk) + smul (pp_eval_a p) (vk_ql vk)
              + smul (pp_eval_b p) (vk_qr vk) + smul (pp_eval_c p) (vk_qo vk) + vk_qc vk in
    let betaxi := rmul beta (ch_xi c) in
    let d2a1 := pp_eval_a p + betaxi + gamma in
    let d2a2 := pp_eval_b p + rmul betaxi (vk_k1 vk) + gamma in
    let d2a3 := pp_eval_c p + rmul betaxi (vk_k2 vk) + gamma in
    let d2a := rmul (rmul (rmul d2a1 d2a2) d2a3) alpha in
    let d2 := smul (d2a + e2 + ch_u c) (pp_z p) in
    let d3c := rmul (rmul alpha beta) (pp_eval_zw p) in
    let d3 := smul (rmul (rmul e3a e3b) d3c) (vk_s3 vk) in
    let d4 := smul (xin - rone) (pp_t1 p + smul xin (pp_t2 p) + smul (rmul xin xin) (pp_t3 p)) in
    (r0, d1 + d2 - d3 - d4).
  (** plonk.rs:201-214 [calculate_e] *)
  Definition calculate_e (p : plonk_proof F G1) (c : challenges) (r0 : F) : G1 :=
    let v k := nth k (ch_v c) 0 in
    smul (rmul (v 0%nat) (pp_eval_a p) + rmul (v 1%nat) (pp_eval_b p) + rmul (v 2%nat) (pp_eval_c p)
          + rmul (v 3%nat) (pp_eval_s1 p) + rmul (v 4%nat) (pp_eval_s2 p) + rmul (ch_u c) (pp_eval_zw p) - r0) gen1.
  (** plonk.rs:216-227 [calculate_f] *)
  Definition calculate_f (vk : vkey F G1) (p : plonk_proof F G1) (c : challenges) (d : G1) : G1 :=
    let v k := nth k (ch_v c) 0 in
    d + smul (v 0%nat) (pp_a p) + smul (v 1%nat) (pp_b p) + smul (v 2%nat) (pp_c p) + smul (v 3%nat) (vk_s1 vk) + smul (v 4%nat) (vk_s2 vk).
  (** plonk.rs:229-246 [valid_pairing] *)
  Definition valid_pairing (x2 : G2) (p : plonk_proof F G1) (c : challenges) (E f : G1) (root : F) : Prop :=
    let s := rmul (rmul (ch_u c) (ch_xi c)) root in
    let a1 := pp_wxi p + smul (ch_u c) (pp_wxiw p) in
    let b1 := smul (ch_xi c) (pp_wxi p) + smul s (pp_wxiw p) - E + f in
    e a1 x2 = e b1 gen2.
  (** plonk.rs:119-151 [verify]: the verdict of [valid_pairing], as a proposition *)
  Definition plonk_verify (fuel : nat) (vk : json_vk F G1 G2) (p : plonk_proof F G1) (public_inputs : list F) : outcome Prop :=
    if negb (jv_n_public vk =? length public_inputs)%nat then Failed malformed
    else
      let c := verifier_challenges (jv_key vk) p public_inputs in
      obd (domains_new fuel (2 ^ jv_power vk)) (fun dm =>
      obd (calculate_lagrange_evaluations (jv_power vk) (jv_n_public vk) (ch_xi c) (dm_w dm)) (fun lx =>
      let pi := calculate_pi public_inputs (fst lx) in
      let rd := calculate_r0_d (jv_key vk) p c pi (nth 0 (fst lx) 0) (snd lx) in
      let E := calculate_e p c (fst rd) in
      let f := calculate_f (jv_key vk) p c (snd rd) in
      Done (valid_pairing (jv_x2 vk) p c E f (dm_w dm)))).
End Verifier.
