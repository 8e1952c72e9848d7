(** * Binary (xor) replicated sharing: model

    Models mpc-core/src/protocols/rep3/binary.rs, binary/types.rs, binary/ops.rs and the
    Kogge-Stone adders of rep3/detail.rs.

    A [Rep3UintShare<F>] is a [share N]; the group on [N] is xor ([xor_grp]), so [shadd] is
    [BitXor] (binary/ops.rs:7-39), [lmul] is [BitAnd] (41-55), [add_public] is [xor_public]
    (binary.rs:26-38), [promote] is [promote_to_trivial_share] (218-227), [open] is [open]
    (212-215) and [zero_share] is binary/types.rs:32-38.

    [W] is [F::Uint::BITS] and [du k] is [U::random_bits(rng, k)] (ruint_wrapper.rs:415-422), an
    arbitrary deterministic function of the generator state.

    Simplifications: the two lists zipped by the [_many] loops have the length sent by honest
    peers; [mask(k)] is only called with [k <= BITS] here (Uint.v [umask_ok]). *)
From Coq Require Import String List Arith NArith Lia Bool.
From Verif Require Import Proc Alg Rep3Net Rep3 Uint.
Import ListNotations.
Set Implicit Arguments.
Local Open Scope grp_scope.

(** ** Local operations *)
(** the same map on both components *)
Definition shmap (f : N -> N) (x : share N) : share N := mkShare (f (sa x)) (f (sb x)).
Definition and_mask (x : share N) (m : N) : share N := shmap (fun v => N.land v m) x.  (* binary/types.rs:75-81; binary.rs:120-122 *)
Definition xor_mask (x : share N) (m : N) : share N := shmap (fun v => N.lxor v m) x.  (* binary/types.rs:58-64 *)
Definition shset_bit (x : share N) (k : nat) : share N := shmap (fun v => uset_bit v k true) x. (* binary.rs:317-318 *)
Definition shr (x : share N) (k : nat) : share N := shmap (fun v => ushr v k) x.        (* binary/ops.rs:84-102 *)
Definition shl (W : nat) (x : share N) (k : nat) : share N := shmap (fun v => ushl W v k) x. (* binary/ops.rs:57-82 *)
(** binary.rs:74-82 *)
Definition or_public (i : pid) (x : share N) (c : N) : share N := shadd (add_public i x c) (and_mask x c).
(** binary.rs:41-59 *)
Definition xor_public_vec (i : pid) (xs : list (share N)) (cs : list N) : list (share N) :=
  map2 (fun x c => add_public i x c) xs cs.
(** binary.rs:131-137 [shift_r_public]; the argument is [public.to_uint()]; [None] = panic *)
Definition shift_r_public (x : share N) (c : N) : option (share N) :=
  if (c <? 2 ^ 64)%N then Some (shr x (N.to_nat c)) else None.
(** binary.rs:144-154 [shift_l_public]; [B] is [F::MODULUS_BIT_SIZE] *)
Definition shift_l_public (W B : nat) (x : share N) (c : N) : option (share N) :=
  if (c <? 2 ^ 64)%N then
    if (c <? N.of_nat B)%N then Some (shl W x (N.to_nat c)) else None
  else None.

Section Bin.
  Context {S M : Type} (W : nat) (du : nat -> S -> N * S).
  Context {EN : Enc M (list N)} {ENN : Enc M (list (N * N))}
          {EL : Enc M (list (list N))} {ELL : Enc M (list (list N * list N))}.
  Notation prog := (prog pid M).

  (** binary.rs:85-96 [and] *)
  Definition band (i : pid) (st : rst S) (x y : share N) : prog (share N * rst S) :=
    mul (DC := du W) i st x y.
  (** binary.rs:62-71 [or] *)
  Definition bor (i : pid) (st : rst S) (x y : share N) : prog (share N * rst S) :=
    a <- band i st x y ;; Ret (shadd (shadd x y) (fst a), snd a).
  (** binary.rs:99-117 [and_vec]: the whole vector is one element of the message *)
  Definition band_vec (i : pid) (st : rst S) (xs ys : list (share N)) : prog (list (share N) * rst S) :=
    let z := lmul_vec (DC := du W) st xs ys in
    c <- reshare i (fst z) ;;
    Ret (map2 mkShare (fst z) c, snd z).
  (** binary.rs:230-241 [cmux] *)
  Definition bcmux (i : pid) (st : rst S) (c xt xf : share N) : prog (share N * rst S) :=
    a <- band i st c (shadd xf xt) ;; Ret (shadd (fst a) xf, snd a).
  (** binary.rs:244-259 [cmux_many] *)
  Definition bcmux_many (i : pid) (st : rst S) (c xt xf : list (share N)) : prog (list (share N) * rst S) :=
    if (Nat.eqb (length c) (length xt) && Nat.eqb (length c) (length xf))%bool then
      a <- band_vec i st c (map2 shadd xf xt) ;; Ret (map2 shadd (fst a) xf, snd a)
    else Fail (Panic "assertion failed: c.len() == x_t.len()").
  (** binary.rs:284-286: the inner loop of [or_tree] *)
  Fixpoint or_zip (i : pid) (st : rst S) (xs ys : list (share N)) : prog (list (share N) * rst S) :=
    match xs, ys with
    | x :: xs, y :: ys =>
        a <- bor i st x y ;; r <- or_zip i (snd a) xs ys ;; Ret (fst a :: fst r, snd r)
    | _, _ => Ret ([], st)
    end.
  (** binary.rs:266-297 [or_tree]; [num] of the code is always [length inputs].
      [fuel]: the list gets shorter in every round. *)
  Fixpoint or_tree_loop (fuel : nat) (i : pid) (st : rst S) (inputs : list (share N)) : prog (share N * rst S) :=
    match fuel with
    | O => Fail (Panic "unreachable")
    | Datatypes.S fuel =>
        match inputs with
        | [] => Fail (Panic "index out of bounds")
        | [x] => Ret (x, st)
        | _ =>
            let num := (length inputs / 2)%nat in
            let a := firstn num inputs in
            let tmp := skipn num inputs in
            r <- or_zip i st a (firstn num tmp) ;;
            or_tree_loop fuel i (snd r) (fst r ++ skipn num tmp)
        end
    end.
  Definition or_tree (i : pid) (st : rst S) (inputs : list (share N)) : prog (share N * rst S) :=
    or_tree_loop (Datatypes.S (length inputs)) i st inputs.

  (** binary.rs:313-325: the loop of [is_zero] *)
  Fixpoint is_zero_loop (fuel : nat) (i : pid) (st : rst S) (len : nat) (x : share N) : prog (share N * rst S) :=
    match fuel with
    | O => Ret (x, st)
    | Datatypes.S fuel =>
        if (1 <? len)%nat then
          let odd := Nat.odd len in
          let len1 := if odd then Datatypes.S len else len in
          let x := if odd then shset_bit x (len1 - 1) else x in
          let half := (len1 / 2)%nat in
          let m := umask half in
          let y := shr x half in
          r <- band i st (and_mask x m) (and_mask y m) ;;
          is_zero_loop fuel i (snd r) half (fst r)
        else Ret (x, st)
    end.
  (** binary.rs:300-329 [is_zero]; [B] is [F::MODULUS_BIT_SIZE] *)
  Definition bis_zero (B : nat) (i : pid) (st : rst S) (x : share N) : prog (share N * rst S) :=
    r <- is_zero_loop B i st B (xor_mask x (umask B)) ;;
    Ret (and_mask (fst r) 1, snd r).
  (** binary.rs:350-369 *)
  Fixpoint is_zero_many_loop (fuel : nat) (i : pid) (st : rst S) (len : nat) (x : list (share N))
    : prog (list (share N) * rst S) :=
    match fuel with
    | O => Ret (x, st)
    | Datatypes.S fuel =>
        if (1 <? len)%nat then
          let odd := Nat.odd len in
          let len1 := if odd then Datatypes.S len else len in
          let x := if odd then map (fun x => shset_bit x (len1 - 1)) x else x in
          let half := (len1 / 2)%nat in
          let m := umask half in
          let y := map (fun x => and_mask (shr x half) m) x in
          r <- band_vec i st (map (fun x => and_mask x m) x) y ;;
          is_zero_many_loop fuel i (snd r) half (fst r)
        else Ret (x, st)
    end.
  (** binary.rs:332-375 [is_zero_many] *)
  Definition bis_zero_many (B : nat) (i : pid) (st : rst S) (x : list (share N)) : prog (list (share N) * rst S) :=
    r <- is_zero_many_loop B i st B (map (fun x => and_mask (xor_mask x (umask B)) (umask B)) x) ;;
    Ret (map (fun x => and_mask x 1) (fst r), snd r).

  (** ** Kogge-Stone *)
  (** detail.rs:267-295 [and_twice] *)
  Definition and_twice (i : pid) (st : rst S) (a b1 b2 : share N) (bitlen : nat)
    : prog ((share N * share N) * rst S) :=
    let m1 := masking (H0 := du bitlen) st in
    let m2 := masking (H0 := du bitlen) (snd m1) in
    let a1 := lmul b1 a + fst m1 in
    let a2 := lmul a b2 + fst m2 in
    b <- reshare i (a1, a2) ;;
    Ret ((mkShare a1 (fst b), mkShare a2 (snd b)), snd m2).
  (** detail.rs:113-126: the loop of [kogge_stone_inner]; [k] rounds left, current round [j] *)
  Fixpoint ks_loop (i : pid) (n k j : nat) (st : rst S) (p g : share N)
    : prog ((share N * share N) * rst S) :=
    match k with
    | O => Ret ((p, g), st)
    | Datatypes.S k =>
        let s := (2 ^ j)%nat in
        if (n <? s)%nat then Fail (Panic "attempt to subtract with overflow")
        else
          let m := umask (n - s) in
          r <- and_twice i st (shr p s) (and_mask g m) (and_mask p m) (n - s) ;;
          ks_loop i n k (Datatypes.S j) (snd r) (shl W (snd (fst r)) s) (shadd g (shl W (fst (fst r)) s))
    end.
  (** detail.rs:101-130 [kogge_stone_inner] *)
  Definition ks_inner (i : pid) (st : rst S) (p g : share N) (n : nat) : prog (share N * rst S) :=
    if (n <? W)%nat then
      if (n =? 0)%nat then Fail (Panic "attempt to subtract with overflow")
      else
        r <- ks_loop i n (ceil_log2 n) 0 st p g ;;
        Ret (shadd (shl W (snd (fst r)) 1) p, snd r)
    else Fail (Panic "assertion failed: bitlen < F::Uint::BITS").
  (** detail.rs:88-99 [low_depth_binary_add] *)
  Definition ks_add (i : pid) (st : rst S) (x1 x2 : share N) (n : nat) : prog (share N * rst S) :=
    g <- band i st x1 x2 ;; ks_inner i (snd g) (shadd x1 x2) (fst g) n.
  (** detail.rs:198-220 [low_depth_binary_sub] *)
  Definition ks_sub (i : pid) (st : rst S) (x1 x2 : share N) (n : nat) : prog (share N * rst S) :=
    let x2 := xor_mask x2 (umask n) in
    let p := shadd x1 x2 in
    g <- band i st x1 x2 ;;
    r <- ks_inner i (snd g) p (shadd (fst g) (and_mask p 1)) n ;;
    Ret (xor_mask (fst r) 1, snd r).
  (** detail.rs:376-391 [low_depth_binary_sub_by_const] *)
  Definition ks_sub_by_const (i : pid) (st : rst S) (x1 : share N) (x2 : N) (B : nat) : prog (share N * rst S) :=
    let x2_ := uwsub W (ushl W 1 B) x2 in
    ks_inner i st (xor_mask x1 x2_) (and_mask x1 x2_) B.
  (** detail.rs:394-415 [low_depth_binary_sub_from_const] *)
  Definition ks_sub_from_const (i : pid) (st : rst S) (x1 : N) (x2 : share N) (B : nat) : prog (share N * rst S) :=
    let x2 := xor_mask x2 (umask B) in
    let p := xor_mask x2 x1 in
    let g := shadd (and_mask x2 x1) (and_mask p 1) in
    r <- ks_inner i st p g B ;;
    Ret (xor_mask (fst r) 1, snd r).

  (** detail.rs:181-190: one bit copied to all positions of the mask *)
  Definition spread (m : N) (y : N) : N := if ubit y 0 then m else 0%N.
  (** detail.rs:297-309 [low_depth_binary_sub_p]; [p] is [F::modulus_uint()] *)
  Definition ks_sub_p (p : N) (i : pid) (st : rst S) (x : share N) (n : nat) : prog (share N * rst S) :=
    let p_ := uwsub W (ushl W 1 n) p in
    ks_inner i st (xor_mask x p_) (and_mask x p_) n.
  (** detail.rs:166-195 [low_depth_sub_p_cmux] *)
  Definition sub_p_cmux (p : N) (i : pid) (st : rst S) (x : share N) (n : nat) : prog (share N * rst S) :=
    let m := umask (n - 1) in
    y <- ks_sub_p p i st x n ;;
    let ov := shmap (spread m) (shr (fst y) n) in
    bcmux i (snd y) ov (and_mask (fst y) m) (and_mask x m).
  (** detail.rs:77-86 [low_depth_binary_add_mod_p] *)
  Definition add_mod_p (p : N) (i : pid) (st : rst S) (x1 x2 : share N) (n : nat) : prog (share N * rst S) :=
    x <- ks_add i st x1 x2 n ;; sub_p_cmux p i (snd x) (fst x) (n + 1).

  (** ** The batched versions *)
  (** detail.rs:244-253: local part of [and_twice_many_iter] *)
  Fixpoint and_twice_local (bitlen : nat) (st : rst S) (a b1 b2 : list (share N))
    : (list N * list N) * rst S :=
    match a, b1, b2 with
    | x :: a, y1 :: b1, y2 :: b2 =>
        let m1 := masking (H0 := du bitlen) st in
        let m2 := masking (H0 := du bitlen) (snd m1) in
        let r := and_twice_local bitlen (snd m2) a b1 b2 in
        (((lmul y1 x + fst m1) :: fst (fst r), (lmul x y2 + fst m2) :: snd (fst r)), snd r)
    | _, _, _ => (([], []), st)
    end.
  (** detail.rs:233-265 [and_twice_many_iter] *)
  Definition and_twice_many (i : pid) (st : rst S) (a b1 b2 : list (share N)) (bitlen : nat)
    : prog ((list (share N) * list (share N)) * rst S) :=
    let z := and_twice_local bitlen st a b1 b2 in
    b <- reshare i (fst z) ;;
    Ret ((map2 mkShare (fst (fst z)) (fst b), map2 mkShare (snd (fst z)) (snd b)), snd z).
  (** detail.rs:53-69 *)
  Fixpoint ks_loop_many (i : pid) (n k j : nat) (st : rst S) (p g : list (share N))
    : prog ((list (share N) * list (share N)) * rst S) :=
    match k with
    | O => Ret ((p, g), st)
    | Datatypes.S k =>
        let s := (2 ^ j)%nat in
        if (n <? s)%nat then Fail (Panic "attempt to subtract with overflow")
        else
          let m := umask (n - s) in
          r <- and_twice_many i st (map (fun p => shr p s) p) (map (fun g => and_mask g m) g)
                              (map (fun p => and_mask p m) p) (n - s) ;;
          ks_loop_many i n k (Datatypes.S j) (snd r) (map (fun r2 => shl W r2 s) (snd (fst r)))
                       (map2 (fun g r1 => shadd g (shl W r1 s)) g (fst (fst r)))
    end.
  (** detail.rs:43-75 [kogge_stone_inner_many] *)
  Definition ks_inner_many (i : pid) (st : rst S) (p g : list (share N)) (n : nat)
    : prog (list (share N) * rst S) :=
    if (n <? W)%nat then
      if (n =? 0)%nat then Fail (Panic "attempt to subtract with overflow")
      else
        r <- ks_loop_many i n (ceil_log2 n) 0 st p g ;;
        Ret (map2 (fun g p => shadd (shl W g 1) p) (snd (fst r)) p, snd r)
    else Fail (Panic "assertion failed: bitlen < F::Uint::BITS").
  (** detail.rs:29-41 [low_depth_binary_add_many] *)
  Definition ks_add_many (i : pid) (st : rst S) (x1 x2 : list (share N)) (n : nat)
    : prog (list (share N) * rst S) :=
    g <- band_vec i st x1 x2 ;; ks_inner_many i (snd g) (map2 shadd x1 x2) (fst g) n.
  (** detail.rs:311-324 [low_depth_binary_sub_p_many] *)
  Definition ks_sub_p_many (p : N) (i : pid) (st : rst S) (x : list (share N)) (n : nat)
    : prog (list (share N) * rst S) :=
    let p_ := uwsub W (ushl W 1 n) p in
    ks_inner_many i st (map (fun x => xor_mask x p_) x) (map (fun x => and_mask x p_) x) n.
  (** detail.rs:132-164 [low_depth_sub_p_cmux_many] *)
  Definition sub_p_cmux_many (p : N) (i : pid) (st : rst S) (x : list (share N)) (n : nat)
    : prog (list (share N) * rst S) :=
    let m := umask (n - 1) in
    y <- ks_sub_p_many p i st x n ;;
    let ov := map (fun y => shmap (spread m) (shr y n)) (fst y) in
    bcmux_many i (snd y) ov (map (fun y => and_mask y m) (fst y)) (map (fun x => and_mask x m) x).
  (** detail.rs:18-27 [low_depth_binary_add_mod_p_many] *)
  Definition add_mod_p_many (p : N) (i : pid) (st : rst S) (x1 x2 : list (share N)) (n : nat)
    : prog (list (share N) * rst S) :=
    x <- ks_add_many i st x1 x2 n ;; sub_p_cmux_many p i (snd x) (fst x) (n + 1).
End Bin.
