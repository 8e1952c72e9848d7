(** * Replicated sharing over Z/2^K: model

    Models mpc-core/src/protocols/rep3_ring (arithmetic.rs, binary.rs, detail.rs, conversion.rs,
    casts.rs and ring/{int_ring,ring_impl,bit}.rs).

    - [IntRing] is the trait [IntRing2k]: the wrapping arithmetic of [RingElement<T>].
    - Arithmetic [Rep3RingShare<T>] are [share T]; the functions of arithmetic.rs that are textually
      those of the field version are the generic definitions of Rep3.v at [R := T].
    - Binary [Rep3RingShare<T>] and [Rep3RingShare<Bit>] are [share N] under xor (the value of each
      component is below [2^K], resp. below 2; xor, and, shifts keep that).
    - [dbg]: whether debug assertions are compiled in.

    Simplifications: as in Binary.v the lists zipped by the [_many] loops have the length sent by
    honest peers; [Bit] is recognised by [K = 1] (it is the only implementor with that [K];
    the code compares [TypeId]s); the Yao conversions are not in this file. *)
From Coq Require Import String List Arith NArith Lia Bool.
From Verif Require Import Proc Alg Rep3Net Rep3 Uint Binary Conv.
Import ListNotations.
Set Implicit Arguments.
Local Open Scope grp_scope.

(** ring/int_ring.rs:17-95 [IntRing2k] with ring/ring_impl.rs:75-210 (wrapping arithmetic), for
    [Bit] ring/bit.rs (addition is xor, multiplication is and); [rto]/[rof] are [cast_to_uint] and
    [cast_from_uint] (int_ring.rs:115-124, 148-154, 268-277, 305-311; Limbs.v [as_prim_ok],
    [as_u128_ok], [truncating_ok] on the limb level) *)
Class IntRing (T : Type) `{CRing T} := {
  rK : nat;
  rto : T -> N;
  rof : N -> T;
  rto_lt : forall x, (rto x < 2 ^ N.of_nat rK)%N;
  rto_add : forall x y, rto (x + y) = ((rto x + rto y) mod 2 ^ N.of_nat rK)%N;
  rto_mul : forall x y, rto (rmul x y) = ((rto x * rto y) mod 2 ^ N.of_nat rK)%N;
  rof_rto : forall x, rof (rto x) = x;
  rto_rof : forall u, rto (rof u) = (u mod 2 ^ N.of_nat rK)%N;
  rto_one : rto rone = 1%N }.
Arguments rK T {_ _}.
(** [usize::is_power_of_two] *)
Definition is_pow2 (n : nat) : bool := (2 ^ Nat.log2 n =? n)%nat.

(** ** Binary shares *)
Section RBin.
  Context {S M : Type} (dbg : bool) (K : nat) (dn : S -> N * S).
  Context {EN : Enc M (list N)} {ENN : Enc M (list (N * N))}
          {EL : Enc M (list (list N))} {ELL : Enc M (list (list N * list N))}.
  Notation prog := (prog pid M).
  (** the draw of a mask does not depend on a length (binary.rs:73, detail.rs:150-154, 183-187) *)
  Definition rdu : nat -> S -> N * S := fun _ => dn.
  (** binary/ops.rs:181-201: [!] flips every bit of both components *)
  Definition rnot (x : share N) : share N := xor_mask x (umask K).
  (** for [Rep3RingShare<Bit>] *)
  Definition bnot (x : share N) : share N := xor_mask x 1.
  (** binary.rs:64-78 [and], 38-50 [or], 81-101 [and_vec], 164-178 [cmux], 185-219 [or_tree]: the
      text of the field version with full-width masks *)
  Definition rand_ (i : pid) (st : rst S) (x y : share N) := band K rdu i st x y.
  Definition ror (i : pid) (st : rst S) (x y : share N) := bor K rdu i st x y.
  Definition rand_vec (i : pid) (st : rst S) (x y : list (share N)) := band_vec K rdu i st x y.
  Definition rcmux (i : pid) (st : rst S) (c t f : share N) := bcmux K rdu i st c t f.
  Definition ror_tree (i : pid) (st : rst S) (l : list (share N)) := or_tree K rdu i st l.
  (** binary.rs:116-143 and ring_impl.rs:321-355: shifts of at least [K] give zero; [None]: the
      amount does not fit a [usize] *)
  Definition rshift_r_public (x : share N) (c : N) : option (share N) :=
    if (c =? 0)%N then Some x
    else if (c <? 2 ^ 64)%N then Some (if (c <? N.of_nat K)%N then shr x (N.to_nat c) else mkShare 0%N 0%N) else None.
  Definition rshift_l_public (x : share N) (c : N) : option (share N) :=
    if (c =? 0)%N then Some x
    else if (c <? 2 ^ 64)%N then Some (if (c <? N.of_nat K)%N then shl K x (N.to_nat c) else mkShare 0%N 0%N) else None.
  (** arithmetic/types.rs:79-84 with ring_impl.rs:64-66 *)
  Definition rget_bit (x : share N) (k : nat) : share N := and_mask (shr x k) 1.
  (** [debug_assert!(bitlen.is_power_of_two())] (detail.rs:68, 121; binary.rs:236) *)
  Definition pow2_assert {A} (p : prog A) : prog A :=
    if (dbg && negb (is_pow2 K))%bool then Fail (Panic "assertion failed: bitlen.is_power_of_two()") else p.
  (** binary.rs:237-243 *)
  Fixpoint ris_zero_loop (fuel : nat) (i : pid) (st : rst S) (len : nat) (x : share N) : prog (share N * rst S) :=
    match fuel with
    | O => Ret (x, st)
    | Datatypes.S fuel =>
        if (1 <? len)%nat then
          let half := (len / 2)%nat in
          let m := umask half in
          r <- rand_ i st (and_mask x m) (and_mask (shr x half) m) ;;
          ris_zero_loop fuel i (snd r) half (fst r)
        else Ret (x, st)
    end.
  (** binary.rs:222-249 [is_zero]; the result is a [Rep3RingShare<Bit>] *)
  Definition ris_zero (i : pid) (st : rst S) (x : share N) : prog (share N * rst S) :=
    pow2_assert (r <- ris_zero_loop K i st K (rnot x) ;; Ret (and_mask (fst r) 1, snd r)).

  (** ** Kogge-Stone *)
  (** detail.rs:173-203 [and_twice], 137-171 [and_twice_many_iter]: Binary.v [and_twice],
      [and_twice_many] with full-width masks.
      detail.rs:123-132: [k] rounds left, current round [j] *)
  Fixpoint rks_rounds (i : pid) (k j : nat) (st : rst S) (p g : share N) : prog (share N * rst S) :=
    match k with
    | O => Ret (g, st)
    | Datatypes.S k =>
        let s := (2 ^ j)%nat in
        r <- and_twice rdu i st p (shl K g s) (shl K p s) K ;;
        rks_rounds i k (Datatypes.S j) (snd r) (snd (fst r)) (shadd g (fst (fst r)))
    end.
  (** detail.rs:110-134 [kogge_stone_loop] *)
  Definition rks_loop (i : pid) (st : rst S) (p g : share N) : prog (share N * rst S) :=
    pow2_assert (rks_rounds i (Nat.log2 K) 0 st p g).
  (** detail.rs:42-55 [kogge_stone_inner] *)
  Definition rks_inner (i : pid) (st : rst S) (p g : share N) : prog (share N * rst S) :=
    r <- rks_loop i st p g ;; Ret (shadd (shl K (fst r) 1) p, snd r).
  (** detail.rs:94-108 [kogge_stone_inner_with_carry]: ((sum, carry), state) *)
  Definition rks_inner_carry (i : pid) (st : rst S) (p g : share N) : prog ((share N * share N) * rst S) :=
    r <- rks_loop i st p g ;; Ret ((shadd (shl K (fst r) 1) p, rget_bit (fst r) (K - 1)), snd r).
  (** detail.rs:27-40 [low_depth_binary_add] *)
  Definition rks_add (i : pid) (st : rst S) (x1 x2 : share N) : prog (share N * rst S) :=
    g <- rand_ i st x1 x2 ;; rks_inner i (snd g) (shadd x1 x2) (fst g).
  (** detail.rs:206-230 [low_depth_binary_sub_with_carry] *)
  Definition rks_sub (i : pid) (st : rst S) (x1 x2 : share N) : prog ((share N * share N) * rst S) :=
    let x2 := rnot x2 in
    let p := shadd x1 x2 in
    g <- rand_ i st x1 x2 ;;
    r <- rks_inner_carry i (snd g) p (shadd (fst g) (and_mask p 1)) ;;
    Ret ((add_public i (fst (fst r)) 1%N, snd (fst r)), snd r).
  (** detail.rs:233-255 [low_depth_binary_sub_by_const_with_carry] *)
  Definition rks_sub_by_const (i : pid) (st : rst S) (x1 : share N) (x2 : N) : prog ((share N * share N) * rst S) :=
    let x2_ := ((N.lxor x2 (umask K) + 1) mod 2 ^ N.of_nat K)%N in
    r <- rks_inner_carry i st (add_public i x1 x2_) (and_mask x1 x2_) ;;
    Ret ((fst (fst r), if (x2 =? 0)%N then bnot (snd (fst r)) else snd (fst r)), snd r).
  (** detail.rs:258-282 [low_depth_binary_sub_from_const_with_carry] *)
  Definition rks_sub_from_const (i : pid) (st : rst S) (x1 : N) (x2 : share N) : prog ((share N * share N) * rst S) :=
    let x2 := rnot x2 in
    let p := add_public i x2 x1 in
    let g := shadd (and_mask x2 x1) (and_mask p 1) in
    r <- rks_inner_carry i st p g ;;
    Ret ((add_public i (fst (fst r)) 1%N, snd (fst r)), snd r).
  (** detail.rs:72-85 *)
  Fixpoint rks_rounds_many (i : pid) (k j : nat) (st : rst S) (p g : list (share N)) : prog (list (share N) * rst S) :=
    match k with
    | O => Ret (g, st)
    | Datatypes.S k =>
        let s := (2 ^ j)%nat in
        r <- and_twice_many rdu i st p (map (fun g => shl K g s) g) (map (fun p => shl K p s) p) K ;;
        rks_rounds_many i k (Datatypes.S j) (snd r) (snd (fst r)) (map2 shadd g (fst (fst r)))
    end.
  (** detail.rs:57-92 [kogge_stone_inner_many] *)
  Definition rks_inner_many (i : pid) (st : rst S) (p g : list (share N)) : prog (list (share N) * rst S) :=
    pow2_assert (r <- rks_rounds_many i (Nat.log2 K) 0 st p g ;;
                 Ret (map2 (fun g p => shadd (shl K g 1) p) (fst r) p, snd r)).
  (** detail.rs:11-25 [low_depth_binary_add_many] *)
  Definition rks_add_many (i : pid) (st : rst S) (x1 x2 : list (share N)) : prog (list (share N) * rst S) :=
    g <- rand_vec i st x1 x2 ;; rks_inner_many i (snd g) (map2 shadd x1 x2) (fst g).
End RBin.

(** ** Arithmetic functions that differ from the field version *)
Section RArith.
  Context {T : Type} `{IR : IntRing T} {S M : Type} {DT : Draw S T} {ET : Enc M (list T)}.
  Notation prog := (prog pid M).
  (** arithmetic.rs:338-346: the loop of [pow_public]; [fuel]: the exponent gets shorter *)
  Fixpoint rpow_loop (fuel : nat) (i : pid) (st : rst S) (e : N) (s res : share T) : prog (share T * rst S) :=
    match fuel with
    | O => Ret (res, st)
    | Datatypes.S fuel =>
        if (e =? 0)%N then Ret (res, st)
        else
          r <- (if N.odd e then mul i st res s else Ret (res, st)) ;;
          q <- mul i (snd r) s s ;;
          rpow_loop fuel i (snd q) (N.div2 (if N.odd e then N.pred e else e)) (fst q) (fst r)
    end.
  (** arithmetic.rs:327-348 [pow_public] *)
  Definition rpow_public (i : pid) (st : rst S) (x : share T) (e : T) : prog (share T * rst S) :=
    rpow_loop (Datatypes.S (rK T)) i st (rto e) x (promote i rone).
  (** arithmetic.rs:540-561 [pow_2_public] ([None]: panic) *)
  Definition rpow_2_public (x : share T) (c : T) : option (share T) :=
    if (rto c =? 0)%N then Some x
    else if (rto c <? 2 ^ 64)%N then
      if (N.of_nat (rK T) <=? rto c)%N then None else Some (mul_public x (rof (ushl (rK T) 1 (N.to_nat (rto c)))))
    else None.
  (** arithmetic.rs:573-576, 596-599: the shift by one doubles (ring_impl.rs:321-337) *)
  Definition rxor_local (x y : share T) (m : T) : T :=
    let d := rof (ushl (rK T) (rto (lmul x y + m)) 1) in sa x + sa y - d.
  (** arithmetic.rs:564-580 [arithmetic_xor] *)
  Definition rarith_xor (i : pid) (st : rst S) (x y : share T) : prog (share T * rst S) :=
    let m := masking st in
    let a := rxor_local x y (fst m) in
    b <- reshare i a ;; Ret (mkShare a b, snd m).
  Fixpoint rxor_local_many (st : rst S) (x y : list (share T)) : list T * rst S :=
    match x, y with
    | a :: x, b :: y => let m := masking st in
                        let r := rxor_local_many (snd m) x y in (rxor_local a b (fst m) :: fst r, snd r)
    | _, _ => ([], st)
    end.
  (** arithmetic.rs:583-610 [arithmetic_xor_many]; [dbg]: the length assertion *)
  Definition rarith_xor_many (dbg : bool) (i : pid) (st : rst S) (x y : list (share T)) : prog (list (share T) * rst S) :=
    if (dbg && negb (length x =? length y)%nat)%bool then Fail (Panic "assertion failed: x.len() == y.len()")
    else
      let r := rxor_local_many st x y in
      b <- reshare_many i (fst r) ;; Ret (map2 mkShare (fst r) b, snd r).
End RArith.

(** ** Conversions *)
Section RConv.
  Context {T : Type} `{IR : IntRing T} {S M : Type} (dbg : bool) {DT : Draw S T}.
  Context {EN : Enc M (list N)} {ENN : Enc M (list (N * N))}
          {EL : Enc M (list (list N))} {ELL : Enc M (list (list N * list N))} {ET : Enc M (list T)}.
  Notation prog := (prog pid M).
  Notation K := (rK T).
  (** a binary mask is a drawn ring element read as an integer *)
  Definition rdraw : S -> N * S := fun s => let r := draw s in (rto (fst r), snd r).
  (** conversion.rs:72-85, 112-132 *)
  Definition ra2b_x01 (i : pid) (x : share T) (r : N) : N :=
    match i with P1 => N.lxor (rto (sa x + sb x)) r | _ => r end.
  Definition ra2b_x2 (i : pid) (x : share T) : share N :=
    match i with P0 => mkShare 0%N (rto (sb x)) | P1 => mkShare 0%N 0%N | P2 => mkShare (rto (sa x)) 0%N end.
  (** conversion.rs:58-92 [a2b] *)
  Definition ra2b (i : pid) (st : rst S) (x : share T) : prog (share N * rst S) :=
    let r := masking (H0 := rdraw) st in
    let a := ra2b_x01 i x (fst r) in
    b <- reshare i a ;;
    rks_add dbg K rdraw i (snd r) (mkShare a b) (ra2b_x2 i x).
  (** conversion.rs:105-110, 229-234 *)
  Fixpoint rmasks (n : nat) (st : rst S) : list N * rst S :=
    match n with
    | O => ([], st)
    | Datatypes.S n => let r := masking (H0 := rdraw) st in
                       let q := rmasks n (snd r) in (fst r :: fst q, snd q)
    end.
  (** conversion.rs:95-140 [a2b_many] *)
  Definition ra2b_many (i : pid) (st : rst S) (x : list (share T)) : prog (list (share N) * rst S) :=
    let r := rmasks (length x) st in
    let a := map2 (ra2b_x01 i) x (fst r) in
    b <- reshare_many i a ;;
    rks_add_many dbg K rdraw i (snd r) (map2 mkShare a b) (map (ra2b_x2 i) x).
  Definition rkey_sum (k : T * T * T) : T := fst (fst k) + snd (fst k) + snd k.
  (** conversion.rs:157-193: ((res.a, res.b), value xored into the mask) *)
  Definition rb2a_keys (i : pid) (st : rst S) : prog ((share T * N) * rst S) :=
    match i with
    | P0 => match three_keys (X := T) (bc2 st) with
            | Some k => Ret ((mkShare 0 (- rkey_sum (fst k)), 0%N), set_bc2 st (snd k))
            | None => Fail (Panic "unreachable")
            end
    | P1 => match three_keys (X := T) (bc1 st) with
            | Some k => Ret ((mkShare (- rkey_sum (fst k)) 0, 0%N), set_bc1 st (snd k))
            | None => Fail (Panic "unreachable")
            end
    | P2 => match three_keys (X := T) (bc1 st), three_keys (X := T) (bc2 st) with
            | Some k2, Some k3 =>
                Ret ((mkShare (- rkey_sum (fst k3)) (- rkey_sum (fst k2)), rto (rkey_sum (fst k2) + rkey_sum (fst k3))),
                     set_bc2 (set_bc1 st (snd k2)) (snd k3))
            | _, _ => Fail (Panic "unreachable")
            end
    end.
  (** conversion.rs:201-214: reveal [z] to parties 0 and 1 *)
  Definition rb2a_open (i : pid) (res : share T) (z : share N) : prog (share T) :=
    match i with
    | P0 => rcv <- reshare P0 (sb z) ;; Ret (mkShare (rof (N.lxor (N.lxor (sa z) (sb z)) rcv)) (sb res))
    | P1 => rcv <- recv_prev P1 ;; Ret (mkShare (sa res) (rof (N.lxor (N.lxor (sa z) (sb z)) rcv)))
    | P2 => _ <- send_next P2 (sb z) ;; Ret res
    end.
  (** conversion.rs:143-216 [b2a] *)
  Definition rb2a (i : pid) (st : rst S) (x : share N) : prog (share T * rst S) :=
    let r := masking (H0 := rdraw) st in
    k <- rb2a_keys i (snd r) ;;
    let a := N.lxor (snd (fst k)) (fst r) in
    b <- reshare i a ;;
    z <- rks_add dbg K rdraw i (snd k) x (mkShare a b) ;;
    res <- rb2a_open i (fst (fst k)) (fst z) ;;
    Ret (res, snd z).
  (** conversion.rs:235-275 *)
  Fixpoint rb2a_keys_many (n : nat) (i : pid) (st : rst S) : prog (list (share T * N) * rst S) :=
    match n with
    | O => Ret ([], st)
    | Datatypes.S n => k <- rb2a_keys i st ;; r <- rb2a_keys_many n i (snd k) ;; Ret (fst k :: fst r, snd r)
    end.
  (** conversion.rs:288-308 *)
  Definition rb2a_open_many (i : pid) (res : list (share T)) (z : list (share N)) : prog (list (share T)) :=
    match i with
    | P0 => _ <- send_next_many P0 (map sb z) ;; rcv <- recv_prev_many P0 ;;
            Ret (map2 (fun r a => mkShare a (sb r)) res (map rof (map2 (fun z c => N.lxor (N.lxor (sa z) (sb z)) c) z rcv)))
    | P1 => rcv <- recv_prev_many P1 ;;
            Ret (map2 (fun r b => mkShare (sa r) b) res (map rof (map2 (fun z c => N.lxor (N.lxor (sa z) (sb z)) c) z rcv)))
    | P2 => _ <- send_next_many P2 (map sb z) ;; Ret res
    end.
  (** conversion.rs:219-310 [b2a_many] *)
  Definition rb2a_many (i : pid) (st : rst S) (x : list (share N)) : prog (list (share T) * rst S) :=
    let r := rmasks (length x) st in
    k <- rb2a_keys_many (length x) i (snd r) ;;
    let a := map2 N.lxor (map snd (fst k)) (fst r) in
    b <- reshare_many i a ;;
    z <- rks_add_many dbg K rdraw i (snd k) x (map2 mkShare a b) ;;
    res <- rb2a_open_many i (map fst (fst k)) (fst z) ;;
    Ret (res, snd z).
  (** conversion.rs:313-365 [bit_inject], 368-444 [bit_inject_many], 447-496 [bit_inject_from_bit],
      499-572 [bit_inject_from_bits_many]: the protocol of Conv.v at [R := T]. The code computes
      [x1 + (a ^ b)] where [inj1] adds nothing for a zero bit. *)
  Definition rbit_inject (i : pid) (st : rst S) (x : share N) : prog (share T * rst S) := bit_inject i st x.
  Definition rbit_inject_many (i : pid) (st : rst S) (x : list (share N)) : prog (list (share T) * rst S) := bit_inject_many i st x.
  (** [Rep3RingShare<Bit>] can only hold bits: no assertion *)
  Definition rbit_inject_from_bit (i : pid) (st : rst S) (x : share N) : prog (share T * rst S) :=
    bit_inject_from_bits i st (ubit (sa x) 0, ubit (sb x) 0).
  Definition rbit_inject_from_bits_many (i : pid) (st : rst S) (x : list (share N)) : prog (list (share T) * rst S) :=
    bit_inject_many i st (map (fun x => and_mask x 1) x).
End RConv.
(** conversion.rs:575-658 [bit_inject_from_bits_to_field_many]: the same protocol into a field *)
Definition bit_inject_to_field_many {F : Type} `{CRing F} {S M : Type} {DF : Draw S F} {EF : Enc M (list F)}
    (i : pid) (st : rst S) (x : list (share N)) : prog pid M (list (share F) * rst S) :=
  bit_inject_many i st (map (fun x => and_mask x 1) x).

(** ** Comparisons: the results are [Rep3RingShare<Bit>] *)
Section RCmp.
  Context {T : Type} `{IR : IntRing T} {S M : Type} (dbg : bool) {DT : Draw S T}.
  Context {EN : Enc M (list N)} {ENN : Enc M (list (N * N))}
          {EL : Enc M (list (list N))} {ELL : Enc M (list (list N * list N))} {ET : Enc M (list T)}.
  Notation prog := (prog pid M).
  Notation K := (rK T).
  (** conversion.rs:28-55: the conversion picked by the selector *)
  Context (a2b : pid -> rst S -> share T -> prog (share N * rst S)).
  (** detail.rs:285-298 [unsigned_ge] = arithmetic.rs:438-448 [ge] *)
  Definition rge (i : pid) (st : rst S) (x y : share T) : prog (share N * rst S) :=
    a <- a2b i st x ;; b <- a2b i (snd a) y ;;
    r <- rks_sub dbg K rdraw i (snd b) (fst a) (fst b) ;; Ret (snd (fst r), snd r).
  (** detail.rs:301-313 [unsigned_ge_const_lhs] *)
  Definition rge_const_lhs (i : pid) (st : rst S) (x : T) (y : share T) : prog (share N * rst S) :=
    b <- a2b i st y ;;
    r <- rks_sub_from_const dbg K rdraw i (snd b) (rto x) (fst b) ;; Ret (snd (fst r), snd r).
  (** detail.rs:316-328 [unsigned_ge_const_rhs] = arithmetic.rs:451-461 [ge_public] *)
  Definition rge_public (i : pid) (st : rst S) (x : share T) (y : T) : prog (share N * rst S) :=
    a <- a2b i st x ;;
    r <- rks_sub_by_const dbg K rdraw i (snd a) (fst a) (rto y) ;; Ret (snd (fst r), snd r).
  Definition rcompl (p : prog (share N * rst S)) : prog (share N * rst S) := r <- p ;; Ret (bnot (fst r), snd r).
  (** arithmetic.rs:351-363 [lt]: [1 - ge] over [Bit], where negation is the identity
      (ring/bit.rs: [Neg], [Add]) *)
  Definition rlt (i : pid) (st : rst S) (x y : share T) : prog (share N * rst S) :=
    r <- rge i st x y ;; Ret (sub_public_by_shared i 1%N (fst r), snd r).
  (** arithmetic.rs:366-378 [lt_public], 381-392 [le], 395-405 [le_public], 408-420 [gt],
      423-435 [gt_public] *)
  Definition rlt_public (i : pid) (st : rst S) (x : share T) (y : T) := rcompl (rge_public i st x y).
  Definition rle (i : pid) (st : rst S) (x y : share T) := rge i st y x.
  Definition rle_public (i : pid) (st : rst S) (x : share T) (y : T) := rge_const_lhs i st y x.
  Definition rgt (i : pid) (st : rst S) (x y : share T) := rcompl (rle i st x y).
  Definition rgt_public (i : pid) (st : rst S) (x : share T) (y : T) := rcompl (rle_public i st x y).
  (** arithmetic.rs:478-491 [eq], 464-475 [eq_public], 494-505 [neq], 508-519 [neq_public] *)
  Definition req (i : pid) (st : rst S) (x y : share T) : prog (share N * rst S) :=
    b <- a2b i st (shsub x y) ;; ris_zero dbg K rdraw i (snd b) (fst b).
  Definition req_public (i : pid) (st : rst S) (x : share T) (y : T) := req i st x (promote i y).
  Definition rneq (i : pid) (st : rst S) (x y : share T) := rcompl (req i st x y).
  Definition rneq_public (i : pid) (st : rst S) (x : share T) (y : T) := rneq i st x (promote i y).
  (** arithmetic.rs:522-534 [is_zero] with 208-214 [open_bit] *)
  Definition ris_zero_open (i : pid) (st : rst S) (x : share T) : prog (bool * rst S) :=
    r <- req i st zero_share x ;; v <- open i (fst r) ;; Ret ((v =? 1)%N, snd r).
End RCmp.

(** ** Casts *)
Section Cast.
  Context {T U : Type} `{IT : IntRing T} `{IU : IntRing U} {S M : Type} (dbg : bool) {DT : Draw S T} {DU : Draw S U}.
  Context {EN : Enc M (list N)} {ENN : Enc M (list (N * N))}
          {EL : Enc M (list (list N))} {ELL : Enc M (list (list N * list N))} {ET : Enc M (list T)} {EU : Enc M (list U)}.
  Notation prog := (prog pid M).
  (** casts.rs:66-77 [downcast] ([None]: panic); [as_] keeps the low bits *)
  Definition downcast (x : share T) : option (share U) :=
    if (rK U <=? rK T)%nat then Some (mkShare (rof (rto (sa x))) (rof (rto (sb x)))) else None.
  (** casts.rs:81-106 [upcast_a2b] *)
  Definition upcast_a2b (i : pid) (st : rst S) (x : share T) : prog (share U * rst S) :=
    if (rK T <? rK U)%nat then
      if (rK T =? 1)%nat then rbit_inject_from_bit i st (mkShare (rto (sa x)) (rto (sb x)))
      else b <- ra2b dbg i st x ;; rb2a dbg i (snd b) (fst b)
    else Fail (Panic "assertion failed: T::K < U::K").
  (** casts.rs:109-125 [cast_a2b] *)
  Definition cast_a2b (i : pid) (st : rst S) (x : share T) : prog (share U * rst S) :=
    if (rK U <=? rK T)%nat then
      match downcast x with Some y => Ret (y, st) | None => Fail (Panic "assertion failed: T::K >= U::K") end
    else upcast_a2b i st x.
End Cast.

Section CastField.
  Context {T F : Type} `{IT : IntRing T} `{FU : FieldUint F} {S M : Type} (dbg : bool) (W : nat) (du : nat -> S -> N * S)
          {DT : Draw S T} {DF : Draw S F}.
  Context {EN : Enc M (list N)} {ENN : Enc M (list (N * N))}
          {EL : Enc M (list (list N))} {ELL : Enc M (list (list N * list N))} {ET : Enc M (list T)} {EF : Enc M (list F)}.
  Notation prog := (prog pid M).
  Notation B := (mbs F).
  (** [T::cast_from_uint] on both components, as integers *)
  Definition to_ring (x : share N) : share N := and_mask x (umask (rK T)).
  (** [T::cast_to_uint::<F::Uint>] on both components (truncates to the width [W] of [F::Uint]) *)
  Definition to_wide (x : share N) : share N := and_mask x (umask W).
  (** casts.rs:147-161 [field_to_ring_a2b] *)
  Definition field_to_ring (i : pid) (st : rst S) (x : share F) : prog (share T * rst S) :=
    b <- a2b W du i st x ;; rb2a dbg i (snd b) (to_ring (fst b)).
  (** casts.rs:164-181 [field_to_ring_a2b_many] *)
  Definition field_to_ring_many (i : pid) (st : rst S) (x : list (share F)) : prog (list (share T) * rst S) :=
    b <- a2b_many W du i st x ;; rb2a_many dbg i (snd b) (map to_ring (fst b)).
  (** casts.rs:184-207 [ring_to_field_a2b] *)
  Definition ring_to_field (i : pid) (st : rst S) (x : share T) : prog (share F * rst S) :=
    if (rK T =? 1)%nat then bit_inject i st (mkShare (rto (sa x)) (rto (sb x)))
    else b <- ra2b dbg i st x ;; b2a W du i (snd b) (to_wide (fst b)).
  (** casts.rs:210-248 [ring_to_field_a2b_many] *)
  Definition ring_to_field_many (i : pid) (st : rst S) (x : list (share T)) : prog (list (share F) * rst S) :=
    if (rK T =? 1)%nat then bit_inject_many i st (map (fun x => mkShare (rto (sa x)) (rto (sb x))) x)
    else b <- ra2b_many dbg i st x ;; b2a_many W du i (snd b) (map to_wide (fst b)).
  (** casts.rs:251-268 [ring_to_field_a2b_big_ring] *)
  Definition ring_to_field_big (i : pid) (st : rst S) (x : share T) : prog (share F * rst S) :=
    if (dbg && (rK T <=? B)%nat)%bool then Fail (Panic "assertion failed: T::K > modulus")
    else
      b <- ra2b dbg i st x ;;
      b2a W du i (snd b) (to_wide (and_mask (fst b) (N.land (umask B) (umask (rK T))))).
  (** casts.rs:271-292 [ring_to_field_a2b_big_ring_many] *)
  Definition ring_to_field_big_many (i : pid) (st : rst S) (x : list (share T)) : prog (list (share F) * rst S) :=
    if (dbg && (rK T <=? B)%nat)%bool then Fail (Panic "assertion failed: T::K > modulus")
    else
      b <- ra2b_many dbg i st x ;;
      b2a_many W du i (snd b) (map (fun x => to_wide (and_mask x (N.land (umask B) (umask (rK T))))) (fst b)).
End CastField.
