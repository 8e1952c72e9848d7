(** * Conversions between arithmetic and binary sharings, comparisons: model

    Models mpc-core/src/protocols/rep3/conversion.rs:36-461 (the Direct conversions and bit
    injection), detail.rs:326-373, arithmetic.rs:426-741 and binary.rs:171-209.

    The comparisons are written for any arithmetic-to-binary conversion [a2b], because
    [a2b_selector] (conversion.rs:36-45) picks one of two.

    Simplification: [from_uint_unchecked] on a value at or above the modulus panics
    (field_uint.rs:28-33); the release-mode truncation of limbs beyond the field's own width in
    the widened back end is not modelled (proved never to happen on valid inputs, since the value
    is always below the modulus). *)
From Coq Require Import String List Arith NArith Lia Bool.
From Verif Require Import Proc Alg Rep3Net Rep3 Uint Binary.
Import ListNotations.
Set Implicit Arguments.
Local Open Scope grp_scope.

(** mpc-core/src/uint/field_uint.rs:15-37: canonical representatives of a prime field *)
Class FieldUint (F : Type) `{Fld F} := {
  fu_p : N;
  to_uint : F -> N;
  of_uint : N -> F;
  to_uint_lt : forall x, (to_uint x < fu_p)%N;
  to_uint_add : forall x y, to_uint (x + y) = ((to_uint x + to_uint y) mod fu_p)%N;
  of_to_uint : forall x, of_uint (to_uint x) = x;
  to_of_uint : forall u, (u < fu_p)%N -> to_uint (of_uint u) = u;
  to_uint_one : to_uint rone = 1%N }.
(** [F::MODULUS_BIT_SIZE] *)
Definition mbs (F : Type) `{FieldUint F} : nat := ubit_len fu_p.
Arguments mbs F {_ _}.

Section Conv.
  Context {F : Type} `{FU : FieldUint F} {S M : Type} (W : nat) (du : nat -> S -> N * S) {DF : Draw S F}.
  Context {EN : Enc M (list N)} {ENN : Enc M (list (N * N))}
          {EL : Enc M (list (list N))} {ELL : Enc M (list (list N * list N))} {EF : Enc M (list F)}.
  Notation prog := (prog pid M).
  Notation B := (mbs F).

  (** field_uint.rs:69-71 [from_uint_unchecked] *)
  Definition from_unchecked (u : N) : prog F :=
    if (u <? fu_p)%N then Ret (of_uint u) else Fail (Panic "value is smaller than the modulus").

  (** ** Arithmetic to binary *)
  (** conversion.rs:65-88: input of the adder held by each party; [r] is the mask *)
  Definition a2b_x01 (i : pid) (x : share F) (r : N) : N :=
    match i with P1 => N.lxor (to_uint (sa x + sb x)) r | _ => r end.
  Definition a2b_x2 (i : pid) (x : share F) : share N :=
    match i with P0 => mkShare 0%N (to_uint (sb x)) | P1 => mkShare 0%N 0%N | P2 => mkShare (to_uint (sa x)) 0%N end.
  (** conversion.rs:60-94 [a2b] *)
  Definition a2b (i : pid) (st : rst S) (x : share F) : prog (share N * rst S) :=
    let r := masking (H0 := du B) st in
    let a := a2b_x01 i x (fst r) in
    b <- reshare i a ;;
    add_mod_p W du fu_p i (snd r) (mkShare a b) (a2b_x2 i x) B.
  (** conversion.rs:104-112, 230-238: one mask per element *)
  Fixpoint masks (n : nat) (st : rst S) : list N * rst S :=
    match n with
    | O => ([], st)
    | Datatypes.S n => let r := masking (H0 := du B) st in
                       let q := masks n (snd r) in (fst r :: fst q, snd q)
    end.
  (** conversion.rs:97-149 [a2b_many] *)
  Definition a2b_many (i : pid) (st : rst S) (x : list (share F)) : prog (list (share N) * rst S) :=
    let r := masks (length x) st in
    let a := map2 (a2b_x01 i) x (fst r) in
    b <- reshare_many i a ;;
    add_mod_p_many W du fu_p i (snd r) (map2 mkShare a b) (map (a2b_x2 i) x) B.

  (** ** Binary to arithmetic *)
  Definition set_bc1 (st : rst S) (b : bcomp S) : rst S := mkRst (rng1 st) (rng2 st) b (bc2 st).
  Definition set_bc2 (st : rst S) (b : bcomp S) : rst S := mkRst (rng1 st) (rng2 st) (bc1 st) b.
  Definition key_sum (k : F * F * F) : F := fst (fst k) + snd (fst k) + snd k.
  (** conversion.rs:169-196: ((res.a, res.b), value xored into the mask) *)
  Definition b2a_keys (i : pid) (st : rst S) : prog ((share F * N) * rst S) :=
    match i with
    | P0 => match three_keys (X := F) (bc2 st) with
            | Some k => Ret ((mkShare 0 (- key_sum (fst k)), 0%N), set_bc2 st (snd k))
            | None => Fail (Panic "unreachable")
            end
    | P1 => match three_keys (X := F) (bc1 st) with
            | Some k => Ret ((mkShare (- key_sum (fst k)) 0, 0%N), set_bc1 st (snd k))
            | None => Fail (Panic "unreachable")
            end
    | P2 => match three_keys (X := F) (bc1 st), three_keys (X := F) (bc2 st) with
            | Some k2, Some k3 =>
                Ret ((mkShare (- key_sum (fst k3)) (- key_sum (fst k2)), to_uint (key_sum (fst k2) + key_sum (fst k3))),
                     set_bc2 (set_bc1 st (snd k2)) (snd k3))
            | _, _ => Fail (Panic "unreachable")
            end
    end.
  (** conversion.rs:207-219: reveal [z] to parties 0 and 1 *)
  Definition b2a_open (i : pid) (res : share F) (z : share N) : prog (share F) :=
    match i with
    | P0 => rcv <- reshare P0 (sb z) ;;
            a <- from_unchecked (N.lxor (N.lxor (sa z) (sb z)) rcv) ;; Ret (mkShare a (sb res))
    | P1 => rcv <- recv_prev P1 ;;
            b <- from_unchecked (N.lxor (N.lxor (sa z) (sb z)) rcv) ;; Ret (mkShare (sa res) b)
    | P2 => _ <- send_next P2 (sb z) ;; Ret res
    end.
  (** conversion.rs:155-221 [b2a] *)
  Definition b2a (i : pid) (st : rst S) (x : share N) : prog (share F * rst S) :=
    let r := masking (H0 := du B) st in
    k <- b2a_keys i (snd r) ;;
    let a := N.lxor (snd (fst k)) (fst r) in
    b <- reshare i a ;;
    z <- add_mod_p W du fu_p i (snd k) x (mkShare a b) B ;;
    res <- b2a_open i (fst (fst k)) (fst z) ;;
    Ret (res, snd z).
  (** conversion.rs:239-269 *)
  Fixpoint b2a_keys_many (n : nat) (i : pid) (st : rst S) : prog (list (share F * N) * rst S) :=
    match n with
    | O => Ret ([], st)
    | Datatypes.S n => k <- b2a_keys i st ;; r <- b2a_keys_many n i (snd k) ;; Ret (fst k :: fst r, snd r)
    end.
  (** [from_uint_unchecked] in a loop *)
  Fixpoint from_unchecked_many (us : list N) : prog (list F) :=
    match us with
    | [] => Ret []
    | u :: us => x <- from_unchecked u ;; xs <- from_unchecked_many us ;; Ret (x :: xs)
    end.
  (** conversion.rs:286-308 *)
  Definition b2a_open_many (i : pid) (res : list (share F)) (z : list (share N)) : prog (list (share F)) :=
    match i with
    | P0 => _ <- send_next_many P0 (map sb z) ;; rcv <- recv_prev_many P0 ;;
            a <- from_unchecked_many (map2 (fun z c => N.lxor (N.lxor (sa z) (sb z)) c) z rcv) ;;
            Ret (map2 (fun r a => mkShare a (sb r)) res a)
    | P1 => rcv <- recv_prev_many P1 ;;
            b <- from_unchecked_many (map2 (fun z c => N.lxor (N.lxor (sa z) (sb z)) c) z rcv) ;;
            Ret (map2 (fun r b => mkShare (sa r) b) res b)
    | P2 => _ <- send_next_many P2 (map sb z) ;; Ret res
    end.
  (** conversion.rs:224-309 [b2a_many] *)
  Definition b2a_many (i : pid) (st : rst S) (x : list (share N)) : prog (list (share F) * rst S) :=
    let r := masks (length x) st in
    k <- b2a_keys_many (length x) i (snd r) ;;
    let a := map2 N.lxor (map snd (fst k)) (fst r) in
    b <- reshare_many i a ;;
    z <- add_mod_p_many W du fu_p i (snd k) x (map2 mkShare a b) B ;;
    res <- b2a_open_many i (map fst (fst k)) (fst z) ;;
    Ret (res, snd z).
End Conv.

(** ** Bit injection: over any commutative ring *)
Section Inject.
  Context {R : Type} `{CRing R} {S M : Type} {DR : Draw S R} {ER : Enc M (list R)}.
  Notation prog := (prog pid M).
  (** a bit as an element of the ring *)
  Definition bitval (b : bool) : R := if b then rone else 0.
  (** conversion.rs:334-337, 401-404: share computed by party 0 *)
  Definition inj0 (x : R) (b : bool) : R :=
    let y := bitval b in let z := rmul y x in x + y - z - z.
  (** conversion.rs:348-349, 419-424: share computed by party 1 *)
  Definition inj1 (x : R) (b : bool) : R := if b then x + rone else x.
  (** conversion.rs:360-363, 441-444: share computed by party 2 *)
  Definition inj2 (x : R) (b : bool) (rcv : R) : R :=
    let z := rmul (bitval b) (rcv + x) in x - z - z.
  (** conversion.rs:323-369 [bit_inject_from_bits] *)
  Definition bit_inject_from_bits (i : pid) (st : rst S) (bits : bool * bool) : prog (share R * rst S) :=
    let m := masking st in
    match i with
    | P0 => let r := inj0 (fst m) (snd bits) in
            _ <- send_next P0 r ;; b <- recv_prev P0 ;; Ret (mkShare r b, snd m)
    | P1 => let r := inj1 (fst m) (xorb (fst bits) (snd bits)) in
            _ <- send_next P1 r ;; b <- recv_prev P1 ;; Ret (mkShare r b, snd m)
    | P2 => b <- recv_prev P2 ;;
            let r := inj2 (fst m) (fst bits) b in
            _ <- send_next P2 r ;; Ret (mkShare r b, snd m)
    end.
  (** conversion.rs:376-377, 389-390 *)
  Definition is_bit (x : share N) : bool := ((ubit_len (sa x) <=? 1) && (ubit_len (sb x) <=? 1))%nat.
  (** conversion.rs:372-381 [bit_inject] *)
  Definition bit_inject (i : pid) (st : rst S) (x : share N) : prog (share R * rst S) :=
    if is_bit x then bit_inject_from_bits i st (ubit (sa x) 0, ubit (sb x) 0)
    else Fail (Panic "assertion failed: x.a.bit_len() <= 1").
  (** the masks of the elements, in order *)
  Fixpoint inj_masks (n : nat) (st : rst S) : list R * rst S :=
    match n with
    | O => ([], st)
    | Datatypes.S n => let r := masking st in let q := inj_masks n (snd r) in (fst r :: fst q, snd q)
    end.
  Definition recv_checked (i : pid) (n : nat) : prog (list R) :=
    l <- recv_prev_many i ;;
    if (length l =? n)%nat then Ret l else Fail (Eyre "Received wrong number of elements").
  (** conversion.rs:384-461 [bit_inject_many] *)
  Definition bit_inject_many (i : pid) (st : rst S) (x : list (share N)) : prog (list (share R) * rst S) :=
    if forallb is_bit x then
      let m := inj_masks (length x) st in
      match i with
      | P0 => let r := map2 (fun m x => inj0 m (ubit (sb x) 0)) (fst m) x in
              _ <- send_next_many P0 r ;; b <- recv_checked P0 (length x) ;; Ret (map2 mkShare r b, snd m)
      | P1 => let r := map2 (fun m x => inj1 m (xorb (ubit (sa x) 0) (ubit (sb x) 0))) (fst m) x in
              _ <- send_next_many P1 r ;; b <- recv_checked P1 (length x) ;; Ret (map2 mkShare r b, snd m)
      | P2 => b <- recv_checked P2 (length x) ;;
              let r := map2 (fun mx c => inj2 (fst mx) (ubit (sa (snd mx)) 0) c) (map2 pair (fst m) x) b in
              _ <- send_next_many P2 r ;; Ret (map2 mkShare r b, snd m)
      end
    else Fail (Panic "assertion failed: x.iter().all(|a| a.a.bit_len() <= 1)").
End Inject.

(** ** Comparisons *)
Section Cmp.
  Context {F : Type} `{FU : FieldUint F} {S M : Type} (W : nat) (du : nat -> S -> N * S) {DF : Draw S F}.
  Context {EN : Enc M (list N)} {ENN : Enc M (list (N * N))}
          {EL : Enc M (list (list N))} {ELL : Enc M (list (list N * list N))} {EF : Enc M (list F)}.
  Notation prog := (prog pid M).
  Notation B := (mbs F).
  (** conversion.rs:36-57: the conversions picked by the selectors *)
  Context (a2b : pid -> rst S -> share F -> prog (share N * rst S)).

  (** detail.rs:327-338 [unsigned_ge] *)
  Definition unsigned_ge (i : pid) (st : rst S) (x y : share F) : prog (share N * rst S) :=
    a <- a2b i st x ;;
    b <- a2b i (snd a) y ;;
    d <- ks_sub W du i (snd b) (fst a) (fst b) B ;;
    Ret (and_mask (shr (fst d) B) 1, snd d).
  (** detail.rs:341-351 [unsigned_ge_const_lhs] *)
  Definition ge_const_lhs (i : pid) (st : rst S) (x : F) (y : share F) : prog (share N * rst S) :=
    b <- a2b i st y ;;
    d <- ks_sub_from_const W du i (snd b) (to_uint x) (fst b) B ;;
    Ret (and_mask (shr (fst d) B) 1, snd d).
  (** detail.rs:354-373 [unsigned_ge_const_rhs] *)
  Definition ge_const_rhs (i : pid) (st : rst S) (x : share F) (y : F) : prog (share N * rst S) :=
    if feqb y 0 then Ret (promote i 1%N, st)
    else
      a <- a2b i st x ;;
      d <- ks_sub_by_const W du i (snd a) (fst a) (to_uint y) B ;;
      Ret (and_mask (shr (fst d) B) 1, snd d).
  (** arithmetic.rs: 518-525 [ge_bit], 539-546 [ge_public_bit], 473-480 [le_public_bit] *)
  Definition ge_bit := unsigned_ge.
  Definition ge_public_bit := ge_const_rhs.
  Definition le_public_bit (i : pid) (st : rst S) (x : share F) (y : F) := ge_const_lhs i st y x.
  (** the boolean complement [sub_public_by_shared(F::one(), ..)] of a result *)
  Definition complement (i : pid) (p : prog (share F * rst S)) : prog (share F * rst S) :=
    r <- p ;; Ret (sub_public_by_shared i rone (fst r), snd r).
  Definition inject (i : pid) (p : prog (share N * rst S)) : prog (share F * rst S) :=
    r <- p ;; bit_inject i (snd r) (fst r).
  (** arithmetic.rs:507-515 [ge], 528-536 [ge_public], 462-470 [le_public] *)
  Definition ge (i : pid) (st : rst S) (x y : share F) := inject i (ge_bit i st x y).
  Definition ge_public (i : pid) (st : rst S) (x : share F) (y : F) := inject i (ge_public_bit i st x y).
  Definition le_public (i : pid) (st : rst S) (x : share F) (y : F) := inject i (le_public_bit i st x y).
  (** arithmetic.rs:451-459 [le], 427-436 [lt], 439-448 [lt_public], 483-492 [gt], 495-504 [gt_public] *)
  Definition le (i : pid) (st : rst S) (x y : share F) := ge i st y x.
  Definition lt (i : pid) (st : rst S) (x y : share F) := complement i (ge i st x y).
  Definition lt_public (i : pid) (st : rst S) (x : share F) (y : F) := complement i (ge_public i st x y).
  Definition gt (i : pid) (st : rst S) (x y : share F) := complement i (le i st x y).
  Definition gt_public (i : pid) (st : rst S) (x : share F) (y : F) := complement i (le_public i st x y).
  (** arithmetic.rs:649-659 [eq_bit], 616-624 [eq_bit_public] *)
  Definition eq_bit (i : pid) (st : rst S) (x y : share F) : prog (share N * rst S) :=
    b <- a2b i st (shsub x y) ;; bis_zero W du B i (snd b) (fst b).
  Definition eq_bit_public (i : pid) (st : rst S) (x : share F) (y : F) := eq_bit i st x (promote i y).
  (** arithmetic.rs:556-564 [eq], 586-594 [eq_public], 685-693 [neq], 696-704 [neq_public] *)
  Definition eq_ (i : pid) (st : rst S) (x y : share F) := inject i (eq_bit i st x y).
  Definition eq_public (i : pid) (st : rst S) (x : share F) (y : F) := inject i (eq_bit_public i st x y).
  Definition neq (i : pid) (st : rst S) (x y : share F) := complement i (eq_ i st x y).
  Definition neq_public (i : pid) (st : rst S) (x : share F) (y : F) := neq i st x (promote i y).
  (** arithmetic.rs:707-716 [is_zero] with 255-258 [open_bit] *)
  Definition is_zero (i : pid) (st : rst S) (x : share F) : prog (bool * rst S) :=
    r <- eq_bit i st zero_share x ;;
    v <- open i (fst r) ;;
    Ret ((v =? 1)%N, snd r).
  (** arithmetic.rs:662-682 [eq_bit_many]: always the Direct conversion *)
  Definition eq_bit_many (i : pid) (st : rst S) (x y : list (share F)) : prog (list (share N) * rst S) :=
    if (length x =? length y)%nat then
      b <- a2b_many W du i st (map2 shsub x y) ;; bis_zero_many W du B i (snd b) (fst b)
    else Fail (Eyre "During execution of eq_bit_many: Invalid number of elements received").
  (** arithmetic.rs:628-646 [eq_bit_public_many] *)
  Definition eq_bit_public_many (i : pid) (st : rst S) (x : list (share F)) (y : list F) : prog (list (share N) * rst S) :=
    if (length x =? length y)%nat then eq_bit_many i st x (map (promote i) y)
    else Fail (Eyre "During execution of eq_bit_public_many: Invalid number of elements received").
  (** arithmetic.rs:568-583 [eq_many] *)
  Definition eq_many (i : pid) (st : rst S) (x y : list (share F)) : prog (list (share F) * rst S) :=
    if (length x =? length y)%nat then
      r <- eq_bit_many i st x y ;; bit_inject_many i (snd r) (fst r)
    else Fail (Eyre "During execution of eq_many: Invalid number of elements received").
  (** arithmetic.rs:598-613 [eq_public_many] *)
  Definition eq_public_many (i : pid) (st : rst S) (x : list (share F)) (y : list F) : prog (list (share F) * rst S) :=
    if (length x =? length y)%nat then
      r <- eq_bit_public_many i st x y ;; bit_inject_many i (snd r) (fst r)
    else Fail (Eyre "During execution of eq_public_many: Invalid number of elements received").

  (** arithmetic.rs:722-741 [pow_2_public] ([None]: panic) *)
  Definition pow_2_public (x : share F) (c : F) : option (share F) :=
    if feqb c 0 then Some x
    else if (to_uint c <? 2 ^ 32)%N then
      if (to_uint c <? N.of_nat B)%N then Some (mul_public x (rpow (rone + rone) (N.to_nat (to_uint c)))) else None
    else None.

  Context (b2a : pid -> rst S -> share N -> prog (share F * rst S)).
  (** binary.rs:180-187: the lowest [n] bits from position [k] on, one by one *)
  Fixpoint shift_bits (n k : nat) (i : pid) (st : rst S) (x : share N) : prog (list (share F) * rst S) :=
    match n with
    | O => Ret ([], st)
    | Datatypes.S n =>
        b <- b2a i st (and_mask (shr x k) 1) ;;
        r <- shift_bits n (Datatypes.S k) i (snd b) x ;;
        Ret (fst b :: fst r, snd r)
    end.
  (** binary.rs:189-200: [2^(2^k) b + 1 - b] *)
  Fixpoint shift_factors (i : pid) (k : nat) (bs : list (share F)) : list (share F) :=
    match bs with
    | [] => []
    | b :: bs => shsub (add_public i (mul_public b (rpow (rone + rone) (2 ^ k)%nat)) rone) b :: shift_factors i (Datatypes.S k) bs
    end.
  Fixpoint product (i : pid) (st : rst S) (v : share F) (vs : list (share F)) : prog (share F * rst S) :=
    match vs with
    | [] => Ret (v, st)
    | w :: vs => r <- mul i st v w ;; product i (snd r) (fst r) vs
    end.
  (** binary.rs:171-209 [shift_l_public_by_shared] *)
  Definition shift_l_public_by_shared (i : pid) (st : rst S) (c : F) (x : share N) : prog (share F * rst S) :=
    bs <- shift_bits 8 0 i st x ;;
    let vs := shift_factors i 0 (fst bs) in
    r <- product i (snd bs) (last vs zero_share) (removelast vs) ;;
    Ret (mul_public (fst r) c, snd r).
End Cmp.
