(** * The opening of multilinear polynomials in UltraHonk, without zero knowledge

    Models co-noir/ultrahonk/src/decider/shplemini/shplemini_prover.rs and shplemini_verifier.rs,
    co-noir/ultrahonk/src/decider/decider_verifier.rs:39-149, co-noir/ultrahonk/src/decider/decider_prover.rs:41-58
    and the operations of co-noir/co-noir-common/src/polynomials/polynomial.rs they use.

    Simplifications: the challenges of the transcript (the point [us] of the sumcheck, [rho], [r], [nu], [z]) are
    arguments of prover and verifier; what the prover sends is its result; the first entities (precomputed and
    witness, [fs]) and those to be shifted ([gs]) are lists of columns; the reference string is a list of points, of
    which [Utils::commit] uses the first ones; with zero knowledge (masking polynomial, Libra) is not modelled. *)
From Coq Require Import String List Arith Lia Bool Ring.
From Verif Require Import Proc Alg NNet Rep3 ShamirPoly Shamir ShamirAlg Univariate Sumcheck.
Import ListNotations.
Set Implicit Arguments.
Local Open Scope grp_scope.
Local Open Scope string_scope.
Local Open Scope list_scope.

Section Polynomials.
  Context {F : Type} {FF : Fld F}.
  Infix "*" := rmul : grp_scope.
  Notation "1" := rone : grp_scope.

  (** polynomial.rs:248-253 [add_scaled_slice], 255-257 [add_scaled]: the longer source is cut *)
  Fixpoint add_scaled (dst src : list F) (s : F) : list F :=
    match dst, src with d :: dst, x :: src => d + s * x :: add_scaled dst src s | _, _ => dst end.
  (** polynomial.rs:432-454 [add_assign], [sub_assign] (with [f] the operation on coefficients) *)
  Fixpoint zip_assign (f : F -> F -> F) (dst src : list F) : list F :=
    match dst, src with d :: dst, x :: src => f d x :: zip_assign f dst src | _, _ => dst end.
  (** polynomial.rs:432-454: the whole of it, with the panic on a longer source *)
  Definition op_assign (f : F -> F -> F) (dst src : list F) : outcome (list F) :=
    if (length dst <? length src)%nat then Failed (Panic "Polynomial too large, this should not have happened") else Done (zip_assign f dst src).
  (** polynomial.rs:170-176 [shifted]: the coefficients from the second on *)
  Definition shifted (p : list F) : outcome (list F) := match p with [] => Failed (Panic "index") | _ :: p => Done p end.
  (** polynomial.rs:183-230 [factor_roots] *)
  Fixpoint factor_loop (cs : list F) (root_inverse temp : F) : list F :=
    match cs with [] => [] | c :: cs => let t := (c - temp) * root_inverse in t :: factor_loop cs root_inverse t end.
  (** polynomial.rs:183-230: the whole of it; for the root 0 the first coefficient is removed *)
  Definition factor_roots (cs : list F) (root : F) : outcome (list F) :=
    if feqb root 0 then match cs with [] => Failed (Panic "removal index") | _ :: cs => Done cs end
    else Done (removelast (factor_loop cs (finv (- root)) 0)).
  (** shplemini_prover.rs:539, 549, 628, 637: [tmp[0] -= v] *)
  Definition minus_first (cs : list F) (v : F) : outcome (list F) :=
    match cs with [] => Failed (Panic "index") | c :: cs => Done (c - v :: cs) end.

  (** ** Gemini *)
  (** shplemini_prover.rs:73-90: the loops over the polynomials, with the last power of [rho] *)
  Fixpoint batch (ps : list (list F)) (rho s : F) (acc : list F) : list F * F :=
    match ps with [] => (acc, s) | p :: ps => batch ps rho (s * rho) (add_scaled acc p s) end.
  (** shplemini_prover.rs:42-93 [compute_batched_polys] *)
  Definition compute_batched_polys (log_n : nat) (fs gs : list (list F)) (rho : F) : list F * list F :=
    let '(bf, s) := batch fs rho 1 (repeat 0 (2 ^ log_n)) in
    (bf, fst (batch gs rho s (repeat 0 (2 ^ log_n)))).
  (** shplemini_prover.rs:216-228: one fold, to [n_l] coefficients *)
  Definition fold_once (n_l : nat) (u : F) (a : list F) : outcome (list F) :=
    omapM (fun j => obind (at_index a (2 * j)) (fun x => obind (at_index a (2 * j + 1)) (fun y => Done (x + u * (y - x))))) (seq 0 n_l).
  (** shplemini_prover.rs:214-233: the folds; [e] is [log_n - l - 1] *)
  Fixpoint fold_loop (us : list F) (e : nat) (a : list F) : outcome (list (list F)) :=
    match us with
    | [] => Done []
    | u :: us => obind (fold_once (2 ^ e) u a) (fun b => obind (fold_loop us (e - 1) b) (fun bs => Done (b :: bs)))
    end.
  (** shplemini_prover.rs:250-262: the constants of the virtual rounds *)
  Fixpoint tails (v tail : F) (us : list F) : list (list F) :=
    match us with [] => [] | u :: us => let t := tail * (1 - u) in [v * t] :: tails v t us end.
  (** shplemini_prover.rs:198-265 [compute_fold_polynomials] *)
  Definition compute_fold_polynomials (log_n : nat) (us a_0 : list F) : outcome (list (list F)) :=
    obind (fold_loop (firstn (log_n - 1) us) (log_n - 1) a_0) (fun ps =>
    match rev ps with
    | [] => Failed (Panic "attempt to subtract with overflow")
    | l :: _ =>
        obind (at_index us (log_n - 1)) (fun u => obind (at_index l 0) (fun x => obind (at_index l 1) (fun y =>
        let final_eval := x + u * (y - x) in
        Done (ps ++ [[final_eval]] ++ tails final_eval 1 (skipn log_n (firstn (length us - 1) us))))))
    end).
  (** shplemini_prover.rs:270-291 [compute_partially_evaluated_batch_polynomials] *)
  Definition partially_evaluated (bf bg : list F) (r : F) : outcome (list F * list F) :=
    if feqb r 0 then Failed (Panic "called `Option::unwrap()` on a `None` value") else
    let g := map (fun x => x * finv r) bg in
    obind (op_assign gadd bf g) (fun pos => obind (op_assign (fun a b => a - b) bf g) (fun neg => Done (pos, neg))).
  (** shplemini_verifier.rs:80-90 [powers_of_evaluation_challenge]: [num_squares - 1] squarings *)
  Fixpoint squares (r : F) (k : nat) : list F := match k with O => [r] | S k => r :: squares (r * r) k end.
  (** shplemini_verifier.rs:80-90: the whole of it *)
  Definition powers_of_evaluation_challenge (r : F) (num : nat) : list F := squares r (num - 1).
  (** types.rs [ShpleminiOpeningClaim]: polynomial, point, evaluation and whether it is a fold *)
  Record claim := { cl_poly : list F; cl_point : F; cl_eval : F; cl_fold : bool }.
  (** shplemini_prover.rs:322-330, 332-340, 352-360: a claim with its true evaluation *)
  Definition mk_claim (p : list F) (x : F) (fold : bool) : claim := {| cl_poly := p; cl_point := x; cl_eval := peval p x; cl_fold := fold |}.
  (** shplemini_prover.rs:311-363 [construct_univariate_opening_claims] *)
  Definition opening_claims (log_n : nat) (pos neg : list F) (folds : list (list F)) (r : F) : list claim :=
    mk_claim pos r false :: mk_claim neg (- r) false ::
    map (fun q => mk_claim (snd q) (- fst q) true) (List.combine (skipn 1 (powers_of_evaluation_challenge r log_n)) folds).
  (** shplemini_prover.rs:372-389 [compute_gemini_fold_pos_evaluations], and the order in which
      shplemini_prover.rs:514-519, 536-556 and 624-643 go through the claims: for a fold first the opposite point *)
  Definition openings (cs : list claim) : list (list F * F * F) :=
    flat_map (fun c => if cl_fold c then [(cl_poly c, - cl_point c, peval (cl_poly c) (- cl_point c)); (cl_poly c, cl_point c, cl_eval c)]
                       else [(cl_poly c, cl_point c, cl_eval c)]) cs.

  (** ** Shplonk *)
  (** shplemini_prover.rs:621-643: the quotients *)
  Fixpoint add_quotients (os : list (list F * F * F)) (nu s : F) (q : list F) : outcome (list F) :=
    match os with
    | [] => Done q
    | (p, x, v) :: os => obind (minus_first p v) (fun t => obind (factor_roots t x) (fun t => add_quotients os nu (s * nu) (add_scaled q t s)))
    end.
  (** shplemini_prover.rs:594-668 [compute_batched_quotient] *)
  Definition compute_batched_quotient (cs : list claim) (nu : F) : outcome (list F) :=
    let size := fold_left (fun m c => Nat.max m (length (cl_poly c))) cs O in
    add_quotients (openings cs) nu 1 (repeat 0 (2 ^ Nat.log2_up size)).
  (** shplemini_prover.rs:514-556: the claims divided by the distance of their points to [z] *)
  Fixpoint sub_claims (os : list (list F * F * F)) (nu z s : F) (g : list F) : outcome (list F) :=
    match os with
    | [] => Done g
    | (p, x, v) :: os => obind (minus_first p v) (fun t => sub_claims os nu z (s * nu) (add_scaled g t (- (s * inv0 (z - x)))))
    end.
  (** shplemini_prover.rs:494-585 [compute_partially_evaluated_batched_quotient]: the polynomial to open at [z] to zero *)
  Definition partially_evaluated_quotient (cs : list claim) (q : list F) (nu z : F) : outcome (list F) :=
    sub_claims (openings cs) nu z 1 q.

  (** ** KZG *)
  (** decider_prover.rs:41-58 [compute_opening_proof]: the polynomial it commits to *)
  Definition opening_quotient (p : list F) (z v : F) : outcome (list F) := obind (minus_first p v) (fun t => factor_roots t z).

  (** ** The verifier *)
  (** shplemini_verifier.rs:92-110 [compute_inverted_gemini_denominators] *)
  Definition inverted_denominators (z : F) (powers : list F) : list F :=
    flat_map (fun p => [inv0 (z - p); inv0 (z + p)]) powers.
  (** shplemini_verifier.rs:502-556 [compute_fold_pos_evaluations], from the last round to the first: the value before the first round and the
      values of all rounds *)
  Fixpoint fold_pos_evaluations (pads us powers negs : list F) (v : F) : outcome (F * list F) :=
    match us with
    | [] => Done (v, [])
    | u :: us =>
        match powers, negs, pads with
        | p :: powers, n :: negs, pad :: pads =>
            obind (fold_pos_evaluations pads us powers negs v) (fun '(prev, l) =>
            let den := p * (1 - u) + u in
            if feqb den 0 then Failed (Panic "Non-zero denominator") else
            let eval_pos := (p * prev * (1 + 1) - n * (p * (1 - u) - u)) * finv den in
            let prev' := pad * eval_pos + (1 - pad) * prev in
            Done (prev', pad * prev' :: l))
        | _, _, _ => Failed (Panic "index")
        end
    end.
  (** shplemini_verifier.rs:744-768 [compute_shplonk_batching_challenge_powers] *)
  Fixpoint nu_powers (nu x : F) (k : nat) : list F := match k with O => [] | S k => x :: nu_powers nu (x * nu) k end.
End Polynomials.

Section Protocol.
  Context {F : Type} {FF : Fld F} {G : Type} {GG : AbGrp G} {MG : Mod F G}.
  Infix "*" := rmul : grp_scope.
  Notation "1" := rone : grp_scope.

  (** co-noir-common/src/utils.rs [commit]: more coefficients than points are an error *)
  Definition commit (crs : list G) (p : list F) : outcome G :=
    if (length crs <? length p)%nat then Failed (Eyre "CRS too small") else Done (msm crs p).
  (** what the prover sends *)
  Record opening_proof := { op_folds : list G; op_negs : list F; op_q : G; op_w : G }.
  (** shplemini_prover.rs:131-196 [gemini_prove]: the commitments to the folds, the evaluations and the claims *)
  Definition gemini_prove (crs : list G) (log_n : nat) (us : list F) (fs gs : list (list F)) (rho r : F) : outcome (list G * list F * list claim) :=
    let '(bf, bg) := compute_batched_polys log_n fs gs rho in
    obind (shifted bg) (fun sg => obind (op_assign gadd bf sg) (fun a_0 =>
    obind (compute_fold_polynomials log_n us a_0) (fun folds =>
    obind (omapM (commit crs) (firstn (length us - 1) folds)) (fun coms =>
    obind (partially_evaluated bf bg r) (fun '(pos, neg) =>
    let cs := opening_claims (length us) pos neg folds r in
    Done (coms, map cl_eval (firstn (length us) (skipn 1 cs)), cs)))))).
  (** shplemini_prover.rs:400-438 [shplonk_prove]: the commitment to the quotient, and what to open *)
  Definition shplonk_prove (crs : list G) (cs : list claim) (nu z : F) : outcome (G * list F) :=
    obind (compute_batched_quotient cs nu) (fun q =>
    obind (commit crs q) (fun cq =>
    obind (partially_evaluated_quotient cs q nu z) (fun g => Done (cq, g)))).
  (** shplemini_prover.rs:440-480 [shplemini_prove], followed by decider_prover.rs:41-58 [compute_opening_proof] *)
  Definition shplemini_prove (crs : list G) (log_n : nat) (us : list F) (fs gs : list (list F)) (rho r nu z : F) : outcome opening_proof :=
    obind (gemini_prove crs log_n us fs gs rho r) (fun '(coms, negs, cs) =>
    obind (shplonk_prove crs cs nu z) (fun '(cq, g) =>
    obind (opening_quotient g z 0) (fun w =>
    obind (commit crs w) (fun cw =>
    Done {| op_folds := coms; op_negs := negs; op_q := cq; op_w := cw |})))).

  (** shplemini_verifier.rs:371-399: one loop of [update_batch_mul_inputs_and_batched_evaluation]: the scalars with
      their commitments, the batched evaluation and the next power of [rho] *)
  Fixpoint update_batch (coms : list G) (evs : list F) (scalar rho s acc : F) : list (F * G) * F * F :=
    match coms, evs with
    | c :: coms, e :: evs =>
        let '(l, acc', s') := update_batch coms evs scalar rho (s * rho) (acc + e * s) in
        ((- scalar * s, c) :: l, acc', s')
    | _, _ => ([], acc, s)
    end.
  (** shplemini_verifier.rs:438-477: the loop of [batch_gemini_claims_received_from_prover], from the round [j] on;
      [invs] and [nus] are the denominators and the powers of [nu] from the index [2 j] on *)
  Fixpoint batch_gemini (pads : list F) (folds : list G) (negs poss invs nus : list F) (acc : F) : outcome (list (F * G) * F) :=
    match negs with
    | [] => Done ([], acc)
    | n :: negs =>
        match pads, folds, poss, invs, nus with
        | pad :: pads, c :: folds, p :: poss, ip :: im :: invs, np :: nm :: nus =>
            let scaling_pos := np * ip in
            let scaling_neg := nm * im in
            obind (batch_gemini pads folds negs poss invs nus (acc + (scaling_neg * n + scaling_pos * p))) (fun '(l, acc') =>
            Done ((- pad * (scaling_neg + scaling_pos), c) :: l, acc'))
        | _, _, _, _, _ => Failed (Panic "index")
        end
    end.
  (** shplemini_verifier.rs:112-340 [compute_batch_opening_claim]: the scalars with their commitments *)
  Definition compute_batch_opening_claim (gen : G) (fcoms gcoms : list G) (fevs gevs pads us : list F) (rho r nu z : F)
      (folds : list G) (negs : list F) (q : G) : outcome (list (F * G)) :=
    let powers := powers_of_evaluation_challenge r (length us) in
    let nus := nu_powers nu 1 (2 * length us) in
    let invs := inverted_denominators z powers in
    match invs with
    | i0 :: i1 :: invs' =>
        if feqb r 0 then Failed (Panic "called `Option::unwrap()` on a `None` value") else
        let unshifted_scalar := i0 + nu * i1 in
        let shifted_scalar := finv r * (i0 - nu * i1) in
        let '(lf, b1, s1) := update_batch fcoms fevs unshifted_scalar rho 1 0 in
        let '(lg, batched_evaluation, _) := update_batch gcoms gevs shifted_scalar rho s1 b1 in
        obind (fold_pos_evaluations pads us powers negs batched_evaluation) (fun '(_, poss) =>
        match poss, negs with
        | p0 :: poss', n0 :: negs' =>
            obind (batch_gemini (skipn 1 pads) folds negs' poss' invs' (skipn 2 nus) 0) (fun '(l, acc) =>
            let constant_term := acc + p0 * i0 + n0 * nu * i1 in
            Done ((1, q) :: lf ++ lg ++ l ++ [(constant_term, gen)]))
        | _, _ => Failed (Panic "index")
        end)
    | _ => Failed (Panic "index")
    end.
  (** decider_verifier.rs:39-54 [reduce_verify_shplemini] *)
  Definition reduce_verify (l : list (F * G)) (z : F) (w : G) : G * G :=
    (msm (map snd (l ++ [(z, w)])) (map fst (l ++ [(z, w)])), - w).

  Context {G2 : Type} {GG2 : AbGrp G2} {MG2 : Mod F G2} {GT : Type} {GGT : AbGrp GT} {MGT : Mod F GT}.
  Variable e : G -> G2 -> GT.
  (** decider_verifier.rs:55-65 [pairing_check], the target group written additively; the result is compared with its
      unit by the caller *)
  Definition pairing_product (p0 p1 : G) (g2_x g2_gen : G2) : GT := e p0 g2_gen + e p1 g2_x.
  (** decider_verifier.rs:76, 128-149: the end of [verify], after the sumcheck and without zero knowledge; the padding
      indicators are all one. The proof is accepted if the result is the unit of the target group *)
  Definition shplemini_verify (gen : G) (g2_x g2_gen : G2) (fcoms gcoms : list G) (fevs gevs us : list F) (rho r nu z : F) (pr : opening_proof) : outcome GT :=
    obind (compute_batch_opening_claim gen fcoms gcoms fevs gevs (repeat 1 (length us)) us rho r nu z (op_folds pr) (op_negs pr) (op_q pr)) (fun l =>
    let '(p0, p1) := reduce_verify l z (op_w pr) in Done (pairing_product p0 p1 g2_x g2_gen)).
End Protocol.
