(** * Three-party garbled circuits over the network: model

    Models mpc-core/src/protocols/rep3/yao.rs:118-1010, 1190-1260 (inputs, outputs, the blueprint
    macros and the functions built from them), the network part of yao/garbler.rs,
    yao/evaluator.rs, yao/streaming_garbler.rs, yao/streaming_evaluator.rs, the garbler functions
    of rngs.rs:60-79, conversion.rs:36-57 (selectors) and 463-838 (a2y, y2a, b2y, y2b and what is
    composed of them).

    Parties 1 and 2 garble, party 0 evaluates.  [S] is the state of a generator; besides the
    correlated generators [rst S] each party has a private one ([Rep3State::rng], rep3.rs:47),
    passed and returned separately.  The SHA3 digest of the circuit is an arbitrary function
    [digest] into a type with decidable equality.  [mpc_net::join] of two sends is modelled as one
    send after the other. *)
From Coq Require Import String List Arith NArith Lia Bool.
From Verif Require Import Proc Alg Rep3Net Rep3 Uint Conv Garble Circuits.
Import ListNotations.
Set Implicit Arguments.
Local Open Scope grp_scope.

(** a circuit on two or three bundles, generic in the type of wires *)
Definition circuit2 := forall X : Type, list X -> list X -> gprog X (list X).
Definition circuit3 := forall X : Type, list X -> list X -> list X -> gprog X (list X).

Section Yao.
  Context {F : Type} `{FU : FieldUint F} {S M : Type} (W : nat) (du : nat -> S -> N * S) {DF : Draw S F}.
  Context {Seed : Type} {SS : Seeded S Seed} {DS : Draw S Seed}.
  Context {EN : Enc M (list N)}.
  (** hashes of labels and tweaks, as in Garble.v *)
  Variables (hash : N -> N -> N) (gtweak : N -> N) (otweak : N -> bool -> N).
  (** [Sha3_256] of a sequence of blocks *)
  Context {Dg : Type} {ED : Enc M (list Dg)}.
  Variables (digest : list N -> Dg) (dg_eqb : Dg -> Dg -> bool).
  (** fancy_garbling [WireMod2::rand], [WireMod2::rand_delta] *)
  Variables (draw_label draw_delta : S -> N * S).
  Notation prog := (prog pid M).
  Notation B := (mbs F).
  Notation gst := (gst (S := S)).

  (** ** Bits, wires *)
  (** yao.rs:255-260 [field_to_bits], 262-267 [field_to_bits_as_u16] *)
  Definition field_to_bits (x : F) : list bool := uint_to_bits (to_uint x) B.
  (** yao.rs:214-235 [bits_to_field]: the loops [res <<= 1; res = res.wrapping_add(bit)] *)
  Definition bits_to_uint (bits : list bool) : N :=
    fold_right (fun b acc => uwadd W (ushl W acc 1) (N.b2n b)) 0%N bits.
  Definition bits_to_field (bits : list bool) : prog F :=
    if existsb (fun b => b) (skipn W bits) then Fail (Eyre "Invalid field element: bit string exceeds backend width")
    else
      let res := bits_to_uint (firstn W bits) in
      if (fu_p <=? res)%N then Fail (Eyre "Invalid field element") else Ret (of_uint res).
  (** yao.rs:122-133 [collapse_bundle_to_lsb_bits_as_uint] *)
  Definition collapse (ws : list N) : N := bits_to_uint (map color ws).

  (** yao.rs:288-297 [encode_wire], 299-312 [encode_bits_as_wires]: (garbler wires, evaluator
      wires), generator *)
  Fixpoint encode_bits (d : N) (bits : list bool) (rg : S) : (list N * list N) * S :=
    match bits with
    | [] => (([], []), rg)
    | b :: bits =>
        let z := draw_label rg in
        let r := encode_bits d bits (snd z) in
        ((fst z :: fst (fst r), N.lxor (fst z) (cmul b d) :: snd (fst r)), snd r)
    end.
  (** the loops [for x in .. { garbler_bundle.extend(..); evaluator_bundle.extend(..) }] *)
  Fixpoint encode_many (d : N) (bits : list (list bool)) (rg : S) : (list N * list N) * S :=
    match bits with
    | [] => (([], []), rg)
    | b :: bits =>
        let z := encode_bits d b rg in
        let r := encode_many d bits (snd z) in
        ((fst (fst z) ++ fst (fst r), snd (fst z) ++ snd (fst r)), snd r)
    end.

  (** yao.rs:146-161 [receive_bundle_from] *)
  Definition receive_bundle_from (n : nat) (from : pid) : prog (list N) :=
    l <- recv_many from ;;
    if (length l =? n)%nat then Ret l else Fail (Eyre "Invalid number of elements received").
  (** yao.rs:179-192 [send_inputs] *)
  Definition send_inputs (x : list N * list N) (garbler : pid) : prog unit :=
    _ <- send_many garbler (fst x) ;; send_many P0 (snd x).

  (** ** Inputs *)
  (** The common part of yao.rs:440-511 [joint_input_arithmetic_added_many] and 514-562
      [joint_input_binary_xored]: parties 1 and 2 each input [bits], [n] wires in total *)
  Definition joint_input (i : pid) (delta : option N) (n : nat) (bits : list (list bool)) (rg : S)
    : prog ((list N * list N) * S) :=
    match i with
    | P0 =>
        x01 <- receive_bundle_from n P1 ;;
        x2 <- receive_bundle_from n P2 ;;
        Ret ((x01, x2), rg)
    | P1 =>
        match delta with
        | None => Fail (Eyre "No delta provided")
        | Some d =>
            let e := encode_many d bits rg in
            _ <- send_inputs (fst e) P2 ;;
            x2 <- receive_bundle_from n P2 ;;
            Ret ((fst (fst e), x2), snd e)
        end
    | P2 =>
        match delta with
        | None => Fail (Eyre "No delta provided")
        | Some d =>
            let e := encode_many d bits rg in
            _ <- send_inputs (fst e) P1 ;;
            x01 <- receive_bundle_from n P1 ;;
            Ret ((x01, fst (fst e)), snd e)
        end
    end.
  (** yao.rs:440-511 [joint_input_arithmetic_added_many]: party 1 inputs the sum of its two
      summands, party 2 its first one *)
  Definition joint_input_arithmetic_added_many (i : pid) (x : list (share F)) (delta : option N) (rg : S)
    : prog ((list N * list N) * S) :=
    joint_input i delta (length x * B)
      (match i with
       | P0 => []
       | P1 => map (fun x => field_to_bits (sa x + sb x)) x
       | P2 => map (fun x => field_to_bits (sa x)) x
       end) rg.
  (** yao.rs:430-437 [joint_input_arithmetic_added] *)
  Definition joint_input_arithmetic_added (i : pid) (x : share F) := joint_input_arithmetic_added_many i [x].
  (** yao.rs:514-562 [joint_input_binary_xored] *)
  Definition joint_input_binary_xored (i : pid) (x : share N) (delta : option N) (rg : S) (bitlen : nat)
    : prog ((list N * list N) * S) :=
    joint_input i delta bitlen
      (match i with
       | P0 => []
       | P1 => [uint_to_bits (N.lxor (sa x) (sb x)) bitlen]
       | P2 => [uint_to_bits (sa x) bitlen]
       end) rg.
  (** yao.rs:360-427 [joint_input_arithmetic]: one bundle per summand; the wires of the summand
      known to both garblers are drawn from the shared generator *)
  Fixpoint shared_labels (n : nat) (i : pid) (st : rst S) : list N * rst S :=
    match n with
    | O => ([], st)
    | Datatypes.S n =>
        let z := generate_shared (H1 := draw_label) i st in
        let r := shared_labels n i (snd z) in (fst z :: fst r, snd r)
    end.
  Definition joint_input_arithmetic (i : pid) (x : share F) (delta : option N) (st : rst S) (rg : S)
    : prog ((list N * list N * list N) * (rst S * S)) :=
    let x1 := shared_labels B i st in
    match i with
    | P0 =>
        x0 <- receive_bundle_from B P1 ;;
        x2 <- receive_bundle_from B P2 ;;
        Ret ((x0, fst x1, x2), (snd x1, rg))
    | P1 =>
        match delta with
        | None => Fail (Eyre "No delta provided")
        | Some d =>
            let x1' := map2 (fun x bit => N.lxor x (cmul bit d)) (fst x1) (field_to_bits (sa x)) in
            let e := encode_bits d (field_to_bits (sb x)) rg in
            _ <- send_inputs (fst e) P2 ;;
            x2 <- receive_bundle_from B P2 ;;
            Ret ((fst (fst e), x1', x2), (snd x1, snd e))
        end
    | P2 =>
        match delta with
        | None => Fail (Eyre "No delta provided")
        | Some d =>
            let x1' := map2 (fun x bit => N.lxor x (cmul bit d)) (fst x1) (field_to_bits (sb x)) in
            let e := encode_bits d (field_to_bits (sa x)) rg in
            _ <- send_inputs (fst e) P1 ;;
            x0 <- receive_bundle_from B P1 ;;
            Ret ((x0, x1', fst (fst e)), (snd x1, snd e))
        end
    end.
  (** yao.rs:565-612 [input_field_id2_many] *)
  Definition input_field_id2_many (i : pid) (x : option (list F)) (delta : option N) (n_inputs : nat) (rg : S)
    : prog (list N * S) :=
    match i with
    | P0 | P1 => l <- receive_bundle_from (n_inputs * B) P2 ;; Ret (l, rg)
    | P2 =>
        match delta, x with
        | None, _ => Fail (Eyre "No delta provided")
        | _, None => Fail (Eyre "No input provided")
        | Some d, Some x =>
            if (length x =? n_inputs)%nat then
              let e := encode_many d (map field_to_bits x) rg in
              _ <- send_inputs (fst e) P1 ;;
              Ret (fst (fst e), snd e)
            else Fail (Eyre "Invalid number of inputs")
        end
    end.
  (** yao.rs:684-694 [input_field_id2] *)
  Definition input_field_id2 (i : pid) (x : option F) (delta : option N) (rg : S) :=
    input_field_id2_many i (option_map (fun x => [x]) x) delta 1 rg.

  (** ** Garbler and evaluator *)
  (** rngs.rs:72-79 [generate_random_garbler_delta] *)
  Definition garbler_delta (i : pid) (st : rst S) : option N * rst S :=
    match i with
    | P0 => (None, st)
    | P1 => let d := draw_delta (rng1 st) in (Some (fst d), set_rand st (snd d) (rng2 st))
    | P2 => let d := draw_delta (rng2 st) in (Some (fst d), set_rand st (rng1 st) (snd d))
    end.
  (** yao.rs:117-119 [garbled_circuits_error]; a panic in the circuit stays a panic *)
  Definition garbled_circuits_error {A} (o : outcome A) : prog A :=
    match o with
    | Done a => Ret a
    | Failed (Panic e) => Fail (Panic e)
    | Failed _ => Fail (Eyre "Garbled Circuit failed")
    end.
  Definition lift {A} (o : outcome A) : prog A := match o with Done a => Ret a | Failed e => Fail e end.
  (** garbler.rs:47-64, streaming_garbler.rs:44-60 [new_with_delta] *)
  Definition new_with_delta (i : pid) (st : rst S) : prog (gst * rst S) :=
    match garbler_randomness (X := Seed) i st with
    | Some r => Ret (new_garbler (from_seed (fst r)), snd r)
    | None => Fail (Panic "Garbler should not be PartyID::ID0")
    end.
  (** garbler.rs:84-98 [send_circuit] *)
  Definition send_circuit (i : pid) (s : gst) : prog unit :=
    match i with
    | P0 => Fail (Panic "Garbler should not be PartyID::ID0")
    | P1 => send_many P0 (g_blocks s)
    | P2 => send_to P0 (digest (g_blocks s))
    end.
  (** evaluator.rs:61-79 [receive_circuit] *)
  Definition receive_circuit : prog est :=
    c <- recv_many P1 ;;
    h <- recv_from P2 ;;
    if dg_eqb h (digest c) then Ret (new_evaluator c)
    else Fail (Eyre "Inconsistent Garbled Circuits: Hashes do not match!").

  (** conversion.rs:472-487, 531-546: garble the circuit [p] and send it, or receive and evaluate it *)
  Definition convert {A} (i : pid) (delta : option N) (p : gprog N A) (st : rst S) : prog (A * rst S) :=
    match i with
    | P0 =>
        t <- receive_circuit ;;
        r <- garbled_circuits_error (evaluate hash gtweak p t) ;;
        Ret (fst r, st)
    | _ =>
        match delta with
        | None => Fail (Eyre "No delta provided")
        | Some d =>
            g <- new_with_delta i st ;;
            let r := garble hash gtweak draw_label d p (fst g) in
            res <- garbled_circuits_error (fst r) ;;
            _ <- send_circuit i (snd r) ;;
            Ret (res, snd g)
        end
    end.

  (** garbler.rs:166-180, evaluator.rs:155-163 [output_to_id0_and_id1] after garbling or evaluating
      the circuit [p] (yao.rs:960-966, 982-990, 1012-1022; conversion.rs:557-562, 579-586, 607-612);
      [None]: the party learns nothing *)
  Definition output_01 (i : pid) (delta : option N) (p : gprog N (list N)) (st : rst S)
    : prog (option (list bool) * rst S) :=
    match i with
    | P0 =>
        t <- receive_circuit ;;
        r <- garbled_circuits_error (evaluate hash gtweak p t) ;;
        v <- lift (e_outputs hash otweak (snd r) (fst r)) ;;
        _ <- send_many P1 (fst r) ;;
        Ret (Some (fst v), st)
    | P1 =>
        match delta with
        | None => Fail (Panic "Delta not provided")
        | Some d =>
            g <- new_with_delta P1 st ;;
            let r := garble hash gtweak draw_label d p (fst g) in
            res <- garbled_circuits_error (fst r) ;;
            _ <- send_circuit P1 (g_outputs hash otweak d (snd r) res) ;;
            blocks <- recv_many P0 ;;
            v <- lift (g_decode_checked d blocks res) ;;
            Ret (Some v, snd g)
        end
    | P2 =>
        match delta with
        | None => Fail (Panic "Delta not provided")
        | Some d =>
            g <- new_with_delta P2 st ;;
            let r := garble hash gtweak draw_label d p (fst g) in
            res <- garbled_circuits_error (fst r) ;;
            _ <- send_circuit P2 (g_outputs hash otweak d (snd r) res) ;;
            Ret (None, snd g)
        end
    end.
  (** garbler.rs:154-163, evaluator.rs:143-152 [output_all_parties] *)
  Definition output_all (i : pid) (delta : option N) (p : gprog N (list N)) (st : rst S)
    : prog (list bool * rst S) :=
    match i with
    | P0 =>
        t <- receive_circuit ;;
        r <- garbled_circuits_error (evaluate hash gtweak p t) ;;
        v <- lift (e_outputs hash otweak (snd r) (fst r)) ;;
        _ <- send_both_many P0 (fst r) ;;
        Ret (fst v, st)
    | _ =>
        match delta with
        | None => Fail (Eyre "No delta provided")
        | Some d =>
            g <- new_with_delta i st ;;
            let r := garble hash gtweak draw_label d p (fst g) in
            res <- garbled_circuits_error (fst r) ;;
            _ <- send_circuit i (g_outputs hash otweak d (snd r) res) ;;
            blocks <- recv_many P0 ;;
            v <- lift (g_decode_checked d blocks res) ;;
            Ret (v, snd g)
        end
    end.

  (** ** Streaming garbler and evaluator *)
  (** streaming_garbler.rs:147-159 [send_block]: party 1 sends each block at once, party 2 hashes
      it; [g_blocks] of the state is what was sent or hashed so far *)
  Fixpoint send_blocks (to : pid) (l : list N) : prog unit :=
    match l with [] => Ret tt | b :: l => _ <- send_to to b ;; send_blocks to l end.
  Definition emit (i : pid) (s s' : gst) : prog unit :=
    let new := skipn (length (g_blocks s)) (g_blocks s') in
    match i with
    | P0 => match new with [] => Ret tt | _ => Fail (Panic "Garbler should not be PartyID::ID0") end
    | P1 => send_blocks P0 new
    | P2 => Ret tt
    end.
  (** streaming_garbler.rs:199-280: a circuit run by a streaming garbler *)
  Fixpoint sgarble {A} (i : pid) (d : N) (p : gprog N A) (s : gst) : prog (A * gst) :=
    match p with
    | GRet a => Ret (a, s)
    | GErr e => garbled_circuits_error (Failed e)
    | GXor x y k => sgarble i d (k (N.lxor x y)) s
    | GAnd x y k => let r := g_and hash gtweak d s x y in _ <- emit i s (snd r) ;; sgarble i d (k (fst r)) (snd r)
    | GNeg x k => sgarble i d (k (N.lxor d x)) s
    | GZero k => let r := g_const_zero draw_label d s in _ <- emit i s (snd r) ;; sgarble i d (k (fst r)) (snd r)
    | GOne k => let r := g_const_one draw_label d s in _ <- emit i s (snd r) ;; sgarble i d (k (fst r)) (snd r)
    end.
  (** streaming_garbler.rs:87-91, 217-227: [output_evaluator] *)
  Fixpoint soutputs (i : pid) (d : N) (s : gst) (xs : list N) : prog gst :=
    match xs with
    | [] => Ret s
    | x :: xs => let s' := g_output hash otweak d s x in _ <- emit i s s' ;; soutputs i d s' xs
    end.
  (** streaming_garbler.rs:138-145 [send_hash] *)
  Definition send_hash (i : pid) (s : gst) : prog unit :=
    match i with P2 => send_to P0 (digest (g_blocks s)) | _ => Ret tt end.

  (** streaming_evaluator.rs:149-155 [receive_block]; [h]: the blocks hashed so far *)
  Definition receive_block : prog N := recv_from P1.
  (** streaming_evaluator.rs:184-280: a circuit run by a streaming evaluator *)
  Fixpoint sevaluate {A} (p : gprog N A) (s : est) (h : list N) : prog (A * (est * list N)) :=
    match p with
    | GRet a => Ret (a, (s, h))
    | GErr e => garbled_circuits_error (Failed e)
    | GXor x y k => sevaluate (k (N.lxor x y)) s h
    | GAnd x y k =>
        g0 <- receive_block ;; g1 <- receive_block ;;
        sevaluate (k (evaluate_and_gate hash gtweak (e_gate s) x y g0 g1))
                  (mkEst (e_gate s + 1) (e_out s) (e_circ s) (e_zero s) (e_one s)) (h ++ [g0; g1])
    | GNeg x k => sevaluate (k x) s h
    | GZero k =>
        match e_zero s with
        | Some z => sevaluate (k z) s h
        | None => z <- receive_block ;;
                  sevaluate (k z) (mkEst (e_gate s) (e_out s) (e_circ s) (Some z) (e_one s)) (h ++ [z])
        end
    | GOne k =>
        match e_one s with
        | Some z => sevaluate (k z) s h
        | None => z <- receive_block ;;
                  sevaluate (k z) (mkEst (e_gate s) (e_out s) (e_circ s) (e_zero s) (Some z)) (h ++ [z])
        end
    end.
  (** streaming_evaluator.rs:60-76, 205-230: [output_evaluator] *)
  Fixpoint seoutputs (s : est) (h : list N) (outs : list bool) (xs : list N) : prog (list bool * (est * list N)) :=
    match xs with
    | [] => Ret (outs, (s, h))
    | x :: xs =>
        c0 <- receive_block ;; c1 <- receive_block ;;
        let s' := mkEst (e_gate s) (e_out s + 1) (e_circ s) (e_zero s) (e_one s) in
        v <- (if N.eqb (hash x (otweak (e_out s) false)) c0 then Ret false
              else if N.eqb (hash x (otweak (e_out s) true)) c1 then Ret true
              else Fail (Eyre "Output failed")) ;;
        seoutputs s' (h ++ [c0; c1]) (outs ++ [v]) xs
    end.
  (** streaming_evaluator.rs:124-134 [receive_hash] *)
  Definition receive_hash (h : list N) : prog unit :=
    data <- recv_from P2 ;;
    if dg_eqb data (digest h) then Ret tt
    else Fail (Eyre "Inconsistent Garbled Circuits: Hashes do not match!").
  (** streaming_garbler.rs:168-172 [read_blocks] *)
  Fixpoint read_blocks (n : nat) (acc : list N) : prog (list N) :=
    match n with
    | O => Ret acc
    | Datatypes.S n => b <- recv_from P0 ;; read_blocks n (acc ++ [b])
    end.

  (** conversion.rs:501-518 *)
  Definition sconvert {A} (i : pid) (delta : option N) (p : gprog N A) (st : rst S) : prog (A * rst S) :=
    match i with
    | P0 =>
        r <- sevaluate p (new_evaluator []) [] ;;
        _ <- receive_hash (snd (snd r)) ;;
        Ret (fst r, st)
    | _ =>
        match delta with
        | None => Fail (Eyre "No delta provided")
        | Some d =>
            g <- new_with_delta i st ;;
            r <- sgarble i d p (fst g) ;;
            _ <- send_hash i (snd r) ;;
            Ret (fst r, snd g)
        end
    end.
  (** streaming_garbler.rs:122-135, streaming_evaluator.rs:110-121 [output_to_id0_and_id1] *)
  Definition soutput_01 (i : pid) (delta : option N) (p : gprog N (list N)) (st : rst S)
    : prog (option (list bool) * rst S) :=
    match i with
    | P0 =>
        r <- sevaluate p (new_evaluator []) [] ;;
        v <- seoutputs (fst (snd r)) (snd (snd r)) [] (fst r) ;;
        _ <- receive_hash (snd (snd v)) ;;
        _ <- send_blocks P1 (fst r) ;;
        Ret (Some (fst v), st)
    | P1 =>
        match delta with
        | None => Fail (Panic "Delta not provided")
        | Some d =>
            g <- new_with_delta P1 st ;;
            r <- sgarble P1 d p (fst g) ;;
            s <- soutputs P1 d (snd r) (fst r) ;;
            _ <- send_hash P1 s ;;
            blocks <- read_blocks (length (fst r)) [] ;;
            v <- lift (g_decode d blocks (fst r)) ;;
            Ret (Some v, snd g)
        end
    | P2 =>
        match delta with
        | None => Fail (Panic "Delta not provided")
        | Some d =>
            g <- new_with_delta P2 st ;;
            r <- sgarble P2 d p (fst g) ;;
            s <- soutputs P2 d (snd r) (fst r) ;;
            _ <- send_hash P2 s ;;
            Ret (None, snd g)
        end
    end.

  (** ** Conversions *)
  (** conversion.rs:464-490 [a2y] *)
  Definition a2y (i : pid) (x : share F) (delta : option N) (st : rst S) (rg : S) : prog (list N * (rst S * S)) :=
    x012 <- joint_input_arithmetic_added i x delta rg ;;
    r <- convert i delta (adder_mod_p W fu_p (fst (fst x012)) (snd (fst x012))) st ;;
    Ret (fst r, (snd r, snd x012)).
  (** conversion.rs:493-520 [a2y_streaming] *)
  Definition a2y_streaming (i : pid) (x : share F) (delta : option N) (st : rst S) (rg : S) : prog (list N * (rst S * S)) :=
    x012 <- joint_input_arithmetic_added i x delta rg ;;
    r <- sconvert i delta (adder_mod_p W fu_p (fst (fst x012)) (snd (fst x012))) st ;;
    Ret (fst r, (snd r, snd x012)).
  (** conversion.rs:523-548 [a2y_many] *)
  Definition a2y_many (i : pid) (x : list (share F)) (delta : option N) (st : rst S) (rg : S)
    : prog (list (list N) * (rst S * S)) :=
    x012 <- joint_input_arithmetic_added_many i x delta rg ;;
    r <- convert i delta (adder_mod_p_many W fu_p (fst (fst x012)) (snd (fst x012))) st ;;
    Ret (fst r, (snd r, snd x012)).

  (** The masks of an output (conversion.rs:553-555, 569-576, 602-604; yao.rs:947-950, 971-974,
      998-1008): ((the two components known without the circuit), what party 2 inputs) *)
  Definition output_keys (i : pid) (st : rst S) : prog ((share F * F) * rst S) :=
    match i with
    | P0 => match three_keys (X := F) (bc2 st) with
            | Some k => Ret ((mkShare 0 (- key_sum (fst k)), 0), set_bc2 st (snd k))
            | None => Fail (Panic "unreachable")
            end
    | P1 => match three_keys (X := F) (bc1 st) with
            | Some k => Ret ((mkShare (- key_sum (fst k)) 0, 0), set_bc1 st (snd k))
            | None => Fail (Panic "unreachable")
            end
    | P2 => match three_keys (X := F) (bc1 st), three_keys (X := F) (bc2 st) with
            | Some k2, Some k3 =>
                Ret ((mkShare (- key_sum (fst k3)) (- key_sum (fst k2)), key_sum (fst k2) + key_sum (fst k3)),
                     set_bc2 (set_bc1 st (snd k2)) (snd k3))
            | _, _ => Fail (Panic "unreachable")
            end
    end.
  Fixpoint output_keys_many (n : nat) (i : pid) (st : rst S) : prog (list (share F * F) * rst S) :=
    match n with
    | O => Ret ([], st)
    | Datatypes.S n => k <- output_keys i st ;; r <- output_keys_many n i (snd k) ;; Ret (fst k :: fst r, snd r)
    end.
  (** [for (res, x1) in izip!(res, x1.chunks(n)) { res.a = bits_to_field(x1)? }] (party 0; party 1
      sets [res.b], party 2 learns nothing) *)
  Definition set_value (i : pid) (r : share F) (v : F) : share F :=
    match i with P0 => mkShare v (sb r) | P1 => mkShare (sa r) v | P2 => r end.
  Fixpoint set_values (i : pid) (res : list (share F)) (bits : list (list bool)) : prog (list (share F)) :=
    match res, bits with
    | r :: res, b :: bits =>
        v <- bits_to_field b ;; l <- set_values i res bits ;; Ret (set_value i r v :: l)
    | res, _ => Ret res
    end.
  Definition decode (i : pid) (res : list (share F)) (bits : option (list bool)) : prog (list (share F)) :=
    match bits with
    | Some bits => set_values i res (chunks B bits)
    | None => match i with P2 => Ret res | _ => Fail (Eyre "No output received") end
    end.

  (** conversion.rs:550-589 (macros), 592-657: [y2a] with the buffering ([out] = [output_01]) or the
      streaming ([soutput_01]) garbler; the whole result is one element *)
  Definition y2a_with (out : pid -> option N -> gprog N (list N) -> rst S -> prog (option (list bool) * rst S))
             (i : pid) (x : list N) (delta : option N) (st : rst S) (rg : S) : prog (share F * (rst S * S)) :=
    match i, delta with
    | P1, None | P2, None => Fail (Eyre "No delta provided")
    | _, _ =>
        k <- output_keys i st ;;
        x23 <- input_field_id2 i (match i with P2 => Some (snd (fst k)) | _ => None end)
                 (match i with P2 => delta | _ => None end) rg ;;
        r <- out i delta (adder_mod_p W fu_p x (fst x23)) (snd k) ;;
        res <- match fst r with
               | Some bits => v <- bits_to_field bits ;; Ret (set_value i (fst (fst k)) v)
               | None => Ret (fst (fst k))
               end ;;
        Ret (res, (snd r, snd x23))
    end.
  (** conversion.rs:592-622 [y2a], 628-657 [y2a_streaming] *)
  Definition y2a := y2a_with output_01.
  Definition y2a_streaming := y2a_with soutput_01.

  (** conversion.rs:663-691 [b2y]: no circuit is sent *)
  Definition b2y (i : pid) (x : share N) (delta : option N) (st : rst S) (rg : S) : prog (list N * (rst S * S)) :=
    x012 <- joint_input_binary_xored i x delta rg B ;;
    match i with
    | P0 =>
        r <- garbled_circuits_error (evaluate hash gtweak (xor_many (fst (fst x012)) (snd (fst x012))) (new_evaluator [])) ;;
        Ret (fst r, (st, snd x012))
    | _ =>
        match delta with
        | None => Fail (Eyre "No delta provided")
        | Some d =>
            g <- new_with_delta i st ;;
            r <- garbled_circuits_error (fst (garble hash gtweak draw_label d (xor_many (fst (fst x012)) (snd (fst x012))) (fst g))) ;;
            Ret (r, (snd g, snd x012))
        end
    end.

  (** conversion.rs:694-723 [y2b] *)
  Definition y2b (i : pid) (x : list N) (st : rst S) : prog (share N * rst S) :=
    let c := collapse x in
    match i with
    | P0 =>
        let r := du (length x) (rng1 st) in
        let m := N.lxor c (fst r) in
        _ <- send_to P2 m ;;
        Ret (mkShare (fst r) m, set_rand st (snd r) (rng2 st))
    | P1 =>
        let r := du (length x) (rng2 st) in
        Ret (mkShare c (fst r), set_rand st (rng1 st) (snd r))
    | P2 =>
        m <- recv_from P0 ;; Ret (mkShare m c, st)
    end.
  (** conversion.rs:726-777 [y2b_many] *)
  Fixpoint uint_draws (ns : list nat) (s : S) : list N * S :=
    match ns with
    | [] => ([], s)
    | n :: ns => let r := du n s in let q := uint_draws ns (snd r) in (fst r :: fst q, snd q)
    end.
  Definition y2b_many (i : pid) (x : list (list N)) (st : rst S) : prog (list (share N) * rst S) :=
    let c := map collapse x in
    let lens := map (@length N) x in
    match i with
    | P0 =>
        let r := uint_draws lens (rng1 st) in
        let m := map2 N.lxor c (fst r) in
        _ <- send_many P2 m ;;
        Ret (map2 mkShare (fst r) m, set_rand st (snd r) (rng2 st))
    | P1 =>
        let r := uint_draws lens (rng2 st) in
        Ret (map2 mkShare c (fst r), set_rand st (rng1 st) (snd r))
    | P2 =>
        m <- recv_many P0 ;; Ret (map2 mkShare m c, st)
    end.

  (** conversion.rs:780-838 [a2y2b], [a2y2b_streaming], [a2y2b_many], [b2y2a], [b2y2a_streaming] *)
  Definition a2y2b (i : pid) (x : share F) (st : rst S) (rg : S) : prog (share N * (rst S * S)) :=
    let d := garbler_delta i st in
    y <- a2y i x (fst d) (snd d) rg ;;
    r <- y2b i (fst y) (fst (snd y)) ;;
    Ret (fst r, (snd r, snd (snd y))).
  Definition a2y2b_streaming (i : pid) (x : share F) (st : rst S) (rg : S) : prog (share N * (rst S * S)) :=
    let d := garbler_delta i st in
    y <- a2y_streaming i x (fst d) (snd d) rg ;;
    r <- y2b i (fst y) (fst (snd y)) ;;
    Ret (fst r, (snd r, snd (snd y))).
  Definition a2y2b_many (i : pid) (x : list (share F)) (st : rst S) (rg : S) : prog (list (share N) * (rst S * S)) :=
    let d := garbler_delta i st in
    y <- a2y_many i x (fst d) (snd d) rg ;;
    r <- y2b_many i (fst y) (fst (snd y)) ;;
    Ret (fst r, (snd r, snd (snd y))).
  Definition b2y2a (i : pid) (x : share N) (st : rst S) (rg : S) : prog (share F * (rst S * S)) :=
    let d := garbler_delta i st in
    y <- b2y i x (fst d) (snd d) rg ;;
    y2a i (fst y) (fst d) (fst (snd y)) (snd (snd y)).
  Definition b2y2a_streaming (i : pid) (x : share N) (st : rst S) (rg : S) : prog (share F * (rst S * S)) :=
    let d := garbler_delta i st in
    y <- b2y i x (fst d) (snd d) rg ;;
    y2a_streaming i (fst y) (fst d) (fst (snd y)) (snd (snd y)).

  (** ** The blueprint (yao.rs:932-1027 [decompose_circuit_compose_blueprint])
      [C] is the circuit with its public arguments, [n_out] the number of outputs *)
  Definition blueprint (C : circuit3) (n_out : nat) (i : pid) (inputs : list (share F)) (st : rst S) (rg : S)
    : prog (list (share F) * (rst S * S)) :=
    let d := garbler_delta i st in
    x012 <- joint_input_arithmetic_added_many i inputs (fst d) rg ;;
    k <- output_keys_many n_out i (snd d) ;;
    x23 <- input_field_id2_many i (match i with P2 => Some (map snd (fst k)) | _ => None end)
             (match i with P2 => fst d | _ => None end) n_out (snd x012) ;;
    r <- output_01 i (fst d) (C N (fst (fst x012)) (snd (fst x012)) (fst x23)) (snd k) ;;
    res <- decode i (map fst (fst k)) (fst r) ;;
    Ret (res, (snd r, snd x23)).

  (** yao.rs:1193-1212 [decompose_arithmetic_many]; [div_ceil] by zero panics *)
  Definition decompose_arithmetic_many (i : pid) (inputs : list (share F)) (st : rst S) (rg : S) (total dbl : nat) :=
    if (dbl =? 0)%nat then Fail (Panic "attempt to divide by zero")
    else blueprint (fun X wa wb wc => decompose_field_element_to_many W W fu_p fu_p wa wb wc dbl total)
                   (div_ceil total dbl * length inputs) i inputs st rg.
  (** yao.rs:698-712 [decompose_arithmetic] *)
  Definition decompose_arithmetic (i : pid) (input : share F) := decompose_arithmetic_many i [input].
  (** yao.rs:1237-1255 [slice_arithmetic_many], 735-744 [slice_arithmetic] *)
  Definition slice_arithmetic_many (i : pid) (inputs : list (share F)) (st : rst S) (rg : S) (lo mid bitsize : nat) :=
    blueprint (fun X wa wb wc => slice_field_element_many W fu_p wa wb wc lo mid bitsize)
              (2 * length inputs) i inputs st rg.
  Definition slice_arithmetic (i : pid) (input : share F) := slice_arithmetic_many i [input].
  (** yao.rs:747-757 [field_mod_power_2] *)
  Definition field_mod_power_2 (i : pid) (input : share F) (st : rst S) (rg : S) (mod_bit : nat)
    : prog (share F * (rst S * S)) :=
    r <- decompose_arithmetic i input st rg mod_bit mod_bit ;;
    match fst r with x :: _ => Ret (x, snd r) | [] => Fail (Panic "index out of bounds") end.
  (** yao.rs:760-783 [field_int_div_power_2_many] *)
  Definition field_int_div_power_2_many (i : pid) (inputs : list (share F)) (st : rst S) (rg : S) (bit : nat)
    : prog (list (share F) * (rst S * S)) :=
    if (bit =? 0)%nat then Ret (inputs, (st, rg))
    else if (B <=? bit)%nat then Ret (repeat (mkShare 0 0) (length inputs), (st, rg))
    else blueprint (fun X wa wb wc => Circuits.field_int_div_power_2_many W fu_p wa wb wc bit)
                   (length inputs) i inputs st rg.
  (** yao.rs:797-817 [field_int_div_many] *)
  Definition field_int_div_many (i : pid) (input1 input2 : list (share F)) (st : rst S) (rg : S) :=
    blueprint (fun X wa wb wc => Circuits.field_int_div_many W fu_p wa wb wc)
              (length input1) i (input1 ++ input2) st rg.
  (** yao.rs:831-853 [field_int_div_by_public_many] *)
  Definition field_int_div_by_public_many (i : pid) (inputs : list (share F)) (divisors : list F) (st : rst S) (rg : S) :=
    blueprint (fun X wa wb wc => Circuits.field_int_div_by_public_many W fu_p wa wb wc (concat (map field_to_bits divisors)))
              (length inputs) i inputs st rg.
  (** yao.rs:867-889 [field_int_div_by_shared_many]: the number of outputs is that of the public
      dividends *)
  Definition field_int_div_by_shared_many (i : pid) (inputs : list F) (divisors : list (share F)) (st : rst S) (rg : S) :=
    blueprint (fun X wa wb wc => Circuits.field_int_div_by_shared_many W fu_p wa wb wc (concat (map field_to_bits inputs)))
              (length inputs) i divisors st rg.
  (** yao.rs:785-794, 819-828, 855-864, 917-926: the versions for one element ([res\[0\]]) *)
  Definition first (p : prog (list (share F) * (rst S * S))) : prog (share F * (rst S * S)) :=
    r <- p ;; match fst r with x :: _ => Ret (x, snd r) | [] => Fail (Panic "index out of bounds") end.
  Definition field_int_div_power_2 i x st rg bit := first (field_int_div_power_2_many i [x] st rg bit).
  Definition field_int_div i x y st rg := first (field_int_div_many i [x] [y] st rg).
  Definition field_int_div_by_public i x d st rg := first (field_int_div_by_public_many i [x] [d] st rg).
  Definition field_int_div_by_shared i x d st rg := first (field_int_div_by_shared_many i [x] [d] st rg).
  (** gadgets/sort.rs:14-34 [batcher_odd_even_merge_sort_yao] *)
  Definition batcher_sort_yao (i : pid) (inputs : list (share F)) (st : rst S) (rg : S) (bitsize : nat) :=
    if (B <? bitsize)%nat then Fail (Eyre "Bit size is larger than field size")
    else blueprint (fun X wa wb wc => batcher_odd_even_merge_sort W fu_p wa wb wc bitsize)
                   (length inputs) i inputs st rg.

  (** ** Selectors (conversion.rs:36-57) *)
  Inductive a2b_type := Direct | Yao.
  Context {ENN : Enc M (list (N * N))} {EL : Enc M (list (list N))} {ELL : Enc M (list (list N * list N))} {EF : Enc M (list F)}.
  (** conversion.rs:36-45 [a2b_selector]: the two conversions, [Yao] being the default *)
  Definition a2b_selector (t : a2b_type) (i : pid) (x : share F) (st : rst S) (rg : S) : prog (share N * (rst S * S)) :=
    match t with
    | Direct => r <- a2b W du i st x ;; Ret (fst r, (snd r, rg))
    | Yao => a2y2b i x st rg
    end.
  (** conversion.rs:48-57 [b2a_selector] *)
  Definition b2a_selector (t : a2b_type) (i : pid) (x : share N) (st : rst S) (rg : S) : prog (share F * (rst S * S)) :=
    match t with
    | Direct => r <- b2a W du i st x ;; Ret (fst r, (snd r, rg))
    | Yao => b2y2a i x st rg
    end.
End Yao.
