(** * The boolean circuits of yao/circuits.rs
    Model of mpc-core/src/protocols/rep3/yao/circuits.rs:44-1700 and the [_many] versions up to
    2190, 3255-3300.  Every function is generic in the garbler [G: FancyBinary(+Constant)]; here it
    is a [gprog W _] for every wire type [W].  Bundles ([BinaryBundle]) are lists of wires, least
    significant first.

    Simplifications: [debug_assert]s are not modelled (they are absent in release builds); the
    theorems assume what they assert.  Slicing and indexing panics are [GErr]. *)
From Coq Require Import String List Arith NArith Lia Bool.
From Verif Require Import Proc Alg Uint Rep3 Conv Garble.
Import ListNotations.
Set Implicit Arguments.
Local Open Scope gp_scope.

(** yao.rs:237-253 [uint_to_bits]: the limbs are read bit by bit and cut or padded to [n] bits *)
Definition uint_to_bits (x : N) (n : nat) : list bool := map (ubit x) (seq 0 n).

Section Circuits.
  Context {W : Type}.

  Definition ix {A} : gprog W A := GErr (Panic "index out of bounds").

  (** the operations of the generic garbler [g] *)
  Definition gxor (x y : W) : gprog W W := GXor x y GRet.
  Definition gand (x y : W) : gprog W W := GAnd x y GRet.
  Definition gneg (x : W) : gprog W W := GNeg x GRet.
  Definition gzero : gprog W W := GZero GRet.
  Definition gone : gprog W W := GOne GRet.
  (** fancy_garbling, default methods of [FancyBinary]: [or] by De Morgan, [mux b x y] = [x] if
      [b] = 0, else [y] *)
  Definition gor (x y : W) : gprog W W :=
    nx <- gneg x ;; ny <- gneg y ;; z <- gand nx ny ;; gneg z.
  Definition gmux (b x y : W) : gprog W W :=
    d <- gxor x y ;; a <- gand b d ;; gxor a x.

  (** [iter().map(f).collect::<Result<_,_>>()], and [for] loops pushing one result per element *)
  Fixpoint gmapM {A B} (f : A -> gprog W B) (l : list A) : gprog W (list B) :=
    match l with
    | [] => GRet []
    | a :: l => b <- f a ;; r <- gmapM f l ;; GRet (b :: r)
    end.

  (** circuits.rs:53-70 [constant_bundle_from_usize] *)
  Definition constant_bundle (c : N) (size : nat) : gprog W (list W) :=
    gmapM (fun b : bool => if b then gone else gzero) (uint_to_bits c size).

  (** circuits.rs:71-94 [full_adder_const] *)
  Definition full_adder_const (a : W) (b : bool) (c : W) : gprog W (W * W) :=
    if b then z1 <- gneg a ;; s <- gxor z1 c ;; z3 <- gxor a c ;; z4 <- gand z1 z3 ;;
              c <- gxor z4 a ;; GRet (s, c)
    else s <- gxor a c ;; z4 <- gand a s ;; c <- gxor z4 a ;; GRet (s, c).
  (** circuits.rs:96-104 [half_adder] *)
  Definition half_adder (a b : W) : gprog W (W * W) :=
    s <- gxor a b ;; c <- gand a b ;; GRet (s, c).
  (** circuits.rs:106-114 [half_adder_const] *)
  Definition half_adder_const (a : W) (b : bool) : gprog W (W * W) :=
    s <- (if b then gneg a else GRet a) ;; GRet (s, a).
  (** circuits.rs:117-128 [full_adder_carry] *)
  Definition full_adder_carry (a b c : W) : gprog W W :=
    z1 <- gxor a b ;; z3 <- gxor a c ;; z4 <- gand z1 z3 ;; gxor z4 a.
  (** circuits.rs:130-142 [full_adder] *)
  Definition full_adder (a b c : W) : gprog W (W * W) :=
    z1 <- gxor a b ;; s <- gxor z1 c ;; z3 <- gxor a c ;; z4 <- gand z1 z3 ;; c <- gxor z4 a ;;
    GRet (s, c).
  (** circuits.rs:145-156 [full_adder_cin_set] *)
  Definition full_adder_cin_set (a b : W) : gprog W (W * W) :=
    z1 <- gxor a b ;; s <- gneg z1 ;; z3 <- gneg a ;; z4 <- gand z1 z3 ;; c <- gxor z4 a ;;
    GRet (s, c).
  (** circuits.rs:159-170 [full_adder_const_cin_set] *)
  Definition full_adder_const_cin_set (a : W) (b : bool) : gprog W (W * W) :=
    if b then c <- gone ;; GRet (a, c) else s <- gneg a ;; GRet (s, a).
  (** circuits.rs:173-183 [full_adder_carry_cin_set] *)
  Definition full_adder_carry_cin_set (a b : W) : gprog W W :=
    z1 <- gxor a b ;; z3 <- gneg a ;; z4 <- gand z1 z3 ;; gxor z4 a.

  (** The loops [for (x, y) in xs.zip(ys) { (s, c) = f(x, y, c); result.push(s) }] *)
  Fixpoint ripple {X Y} (f : X -> Y -> W -> gprog W (W * W)) (xs : list X) (ys : list Y) (c : W)
    : gprog W (list W * W) :=
    match xs, ys with
    | x :: xs, y :: ys =>
        r <- f x y c ;; t <- ripple f xs ys (snd r) ;; GRet (fst r :: fst t, snd t)
    | _, _ => GRet ([], c)
    end.
  (** [for y in ys { (s, c) = f(y, c); result.push(s) }] *)
  Fixpoint ripple1 {Y} (f : Y -> W -> gprog W (W * W)) (ys : list Y) (c : W) : gprog W (list W * W) :=
    match ys with
    | y :: ys => r <- f y c ;; t <- ripple1 f ys (snd r) ;; GRet (fst r :: fst t, snd t)
    | [] => GRet ([], c)
    end.

  (** circuits.rs:187-206 [bin_addition] *)
  Definition bin_addition (xs ys : list W) : gprog W (list W * W) :=
    match xs, ys with
    | x :: xs, y :: ys =>
        r <- half_adder x y ;; t <- ripple full_adder xs ys (snd r) ;;
        GRet (fst r :: fst t, snd t)
    | _, _ => ix
    end.

  (** circuits.rs:209-237 [bin_addition_no_carry] *)
  Definition bin_addition_no_carry (xs ys : list W) : gprog W (list W) :=
    match xs, ys with
    | [x], y :: _ => s <- gxor x y ;; GRet [s]
    | x :: xs, y :: ys =>
        r <- half_adder x y ;;
        t <- ripple full_adder (removelast xs) ys (snd r) ;;
        z1 <- gxor (last xs x) (last ys y) ;; s <- gxor z1 (snd t) ;;
        GRet (fst r :: fst t ++ [s])
    | _, _ => ix
    end.

  (** circuits.rs:240-277 [bin_addition_constant_no_carry] *)
  Definition bin_addition_constant_no_carry (xs : list W) (ys : list bool) : gprog W (list W) :=
    match xs, ys with
    | [x], y :: _ => if y then s <- gneg x ;; GRet [s] else GRet [x]
    | x :: xs, y :: ys =>
        r <- half_adder_const x y ;;
        t <- ripple full_adder_const (removelast xs) ys (snd r) ;;
        z1 <- (if last ys y then gneg (last xs x) else GRet (last xs x)) ;;
        s <- gxor z1 (snd t) ;;
        GRet (fst r :: fst t ++ [s])
    | _, _ => ix
    end.

  (** circuits.rs:281-303 [bin_subtraction] *)
  Definition neg_adder (x y c : W) : gprog W (W * W) := y <- gneg y ;; full_adder x y c.
  Definition bin_subtraction (xs ys : list W) : gprog W (list W * W) :=
    match xs, ys with
    | x :: xs, y :: ys =>
        y0 <- gneg y ;; r <- full_adder_cin_set x y0 ;; t <- ripple neg_adder xs ys (snd r) ;;
        GRet (fst r :: fst t, snd t)
    | _, _ => ix
    end.

  (** [&ys\[length..\]] *)
  Definition tail_from {Y} (n : nat) (ys : list Y) : gprog W (list Y) :=
    if (n <=? length ys)%nat then GRet (skipn n ys)
    else GErr (Panic "range start index out of range for slice").

  (** circuits.rs:328-334: full adder with [x] = 0 *)
  Definition neg_adder_x0 (y c : W) : gprog W (W * W) :=
    y <- gneg y ;; s <- gxor y c ;; c <- gand y c ;; GRet (s, c).
  (** circuits.rs:307-336 [bin_subtraction_partial] *)
  Definition bin_subtraction_partial (xs ys : list W) : gprog W (list W * W) :=
    match xs, ys with
    | x :: xs', y :: ys' =>
        y0 <- gneg y ;; r <- full_adder_cin_set x y0 ;; t <- ripple neg_adder xs' ys' (snd r) ;;
        rest <- tail_from (length xs) ys ;; u <- ripple1 neg_adder_x0 rest (snd t) ;;
        GRet (fst r :: fst t ++ fst u, snd u)
    | _, _ => ix
    end.

  (** circuits.rs:360-369: constant subtrahend, [x] = 0 *)
  Definition neg_const_x0 (y : bool) (c : W) : gprog W (W * W) :=
    if y then z <- gzero ;; GRet (c, z) else s <- gneg c ;; GRet (s, c).
  (** circuits.rs:339-371 [bin_subtraction_partial_by_constant] *)
  Definition bin_subtraction_partial_by_constant (xs : list W) (ys : list bool) : gprog W (list W * W) :=
    match xs, ys with
    | x :: xs', y :: ys' =>
        r <- full_adder_const_cin_set x (negb y) ;;
        t <- ripple (fun x y c => full_adder_const x (negb y) c) xs' ys' (snd r) ;;
        rest <- tail_from (length xs) ys ;; u <- ripple1 neg_const_x0 rest (snd t) ;;
        GRet (fst r :: fst t ++ fst u, snd u)
    | _, _ => ix
    end.

  (** circuits.rs:373-404 [bin_subtraction_partial_from_constant] *)
  Definition bin_subtraction_partial_from_constant (xs : list bool) (ys : list W) : gprog W (list W * W) :=
    match xs, ys with
    | x :: xs', y :: ys' =>
        y0 <- gneg y ;; r <- full_adder_const_cin_set y0 x ;;
        t <- ripple (fun x y c => y <- gneg y ;; full_adder_const y x c) xs' ys' (snd r) ;;
        u <- ripple1 neg_adder_x0 (skipn (length xs) ys) (snd t) ;;
        GRet (fst r :: fst t ++ fst u, snd u)
    | _, _ => ix
    end.

  (** circuits.rs:407-424 [bin_subtraction_get_carry_only] *)
  Fixpoint ripple_carry (xs ys : list W) (c : W) : gprog W W :=
    match xs, ys with
    | x :: xs, y :: ys => y <- gneg y ;; c <- full_adder_carry x y c ;; ripple_carry xs ys c
    | _, _ => GRet c
    end.
  Definition bin_subtraction_get_carry_only (xs ys : list W) : gprog W W :=
    match xs, ys with
    | x :: xs, y :: ys => y0 <- gneg y ;; c <- full_adder_carry_cin_set x y0 ;; ripple_carry xs ys c
    | _, _ => ix
    end.

  (** circuits.rs:428-456 [bin_mul_with_public] *)
  Fixpoint mul_loop (zero : W) (lhs : list W) (i : nat) (rhs : list bool) (sum : list W) : gprog W (list W) :=
    match rhs with
    | [] => GRet sum
    | item :: rhs =>
        let mul := repeat zero i ++ (if item then lhs else repeat zero (length lhs)) in
        r <- bin_addition sum mul ;; mul_loop zero lhs (S i) rhs (fst r ++ [snd r])
    end.
  Definition bin_mul_with_public (lhs : list W) (rhs : list bool) : gprog W (list W) :=
    zero <- gzero ;;
    match rhs with
    | [] => ix
    | r0 :: rhs => mul_loop zero lhs 1 rhs ((if r0 then lhs else repeat zero (length lhs)) ++ [zero])
    end.

  (** circuits.rs:547-557 [bin_multiplex] *)
  Definition bin_multiplex (b : W) (x y : list W) : gprog W (list W) :=
    gmapM (fun xy => gmux b (fst xy) (snd xy)) (List.combine x y).
  (** circuits.rs:560-577 [bin_multiplex_const] *)
  Definition mux_const (b : W) (x : bool) (y : W) : gprog W W :=
    if x then nb <- gneg b ;; gor nb y else gand b y.
  Definition bin_multiplex_const (b : W) (x : list bool) (y : list W) : gprog W (list W) :=
    gmapM (fun xy => mux_const b (fst xy) (snd xy)) (List.combine x y).

  (** The division loop of circuits.rs:460-481, 484-505; [n] = [dividend.len()], [sub] the partial
      subtraction of the divisor; the quotient bits in the order in which they are pushed *)
  Fixpoint div_loop (sub : list W -> gprog W (list W * W)) (n : nat) (xs : list W) (acc : list W) : gprog W (list W) :=
    match xs with
    | [] => GRet []
    | x :: xs =>
        let acc := x :: (if (length acc =? n)%nat then removelast acc else acc) in
        r <- sub acc ;; acc <- bin_multiplex (snd r) acc (fst r) ;;
        qs <- div_loop sub n xs acc ;; GRet (snd r :: qs)
    end.
  (** circuits.rs:460-481 [bin_div] *)
  Definition bin_div (dividend divisor : list W) : gprog W (list W) :=
    qs <- div_loop (fun acc => bin_subtraction_partial acc divisor) (length dividend) (rev dividend) [] ;;
    GRet (rev qs).
  (** circuits.rs:484-505 [bin_div_by_public] *)
  Definition bin_div_by_public (dividend : list W) (divisor : list bool) : gprog W (list W) :=
    qs <- div_loop (fun acc => bin_subtraction_partial_by_constant acc divisor) (length dividend) (rev dividend) [] ;;
    GRet (rev qs).
  (** circuits.rs:508-544 [bin_div_by_shared] *)
  Fixpoint div_shared_loop (divisor : list W) (xs : list bool) (acc : list W) : gprog W (list W) :=
    match xs with
    | [] => GRet []
    | x :: xs =>
        let acc := if (length acc =? length divisor)%nat then removelast acc else acc in
        b <- (if x then gone else gzero) ;;
        r <- bin_subtraction (b :: acc) divisor ;;
        match fst r with
        | [] => ix
        | r0 :: res =>
            a0 <- mux_const (snd r) x r0 ;;
            acc <- bin_multiplex (snd r) acc res ;;
            qs <- div_shared_loop divisor xs (a0 :: acc) ;; GRet (snd r :: qs)
        end
    end.
  Definition bin_div_by_shared (dividend : list bool) (divisor : list W) : gprog W (list W) :=
    match rev dividend, divisor with
    | x :: xs, _ :: dtl =>
        let acc := x :: repeat false (length dtl) in
        r <- bin_subtraction_partial_from_constant acc divisor ;;
        acc <- bin_multiplex_const (snd r) acc (fst r) ;;
        qs <- div_shared_loop divisor xs acc ;; GRet (rev (snd r :: qs))
    | _, _ => GErr (Panic "called `Option::unwrap()` on a `None` value")
    end.

  (** ** Arithmetic modulo [p]
      [U] is the width [F::Uint::BITS] of the integer type of the field. *)
  Section ModP.
    Variables (U : nat) (p : N).
    (** [F::MODULUS_BIT_SIZE] *)
    Let pbits := ubit_len p.

    (** circuits.rs:581-616 [sub_p] *)
    Definition sub_p (wires : list W) (carry : W) : gprog W (list W * W) :=
      let bitlen := length wires in
      let p_ := uwsub U (ushl U 1 (S bitlen)) p in
      let p_bits := uint_to_bits p_ (S bitlen) in
      match wires with
      | [] => ix
      | w0 :: ws =>
          s0 <- gneg w0 ;;
          t <- ripple full_adder_const ws (tl p_bits) w0 ;;
          z <- (if last p_bits false then gneg carry else GRet carry) ;;
          ov <- gxor z (snd t) ;;
          GRet (s0 :: fst t, ov)
      end.

    (** circuits.rs:618-635 [sub_p_and_mux_with_output_size] *)
    Definition sub_p_and_mux (wires : list W) (carry : W) (outlen : nat) : gprog W (list W) :=
      r <- sub_p wires carry ;;
      gmapM (fun sa => gmux (snd r) (fst sa) (snd sa)) (firstn outlen (List.combine (fst r) wires)).

    (** circuits.rs:638-653 [adder_mod_p_with_output_size] *)
    Definition adder_mod_p_out (wires_a wires_b : list W) (outlen : nat) : gprog W (list W) :=
      r <- bin_addition wires_a wires_b ;; sub_p_and_mux (fst r) (snd r) outlen.

    (** circuits.rs:656-670 [adder_mod_p] *)
    Definition adder_mod_p (wires_a wires_b : list W) : gprog W (list W) :=
      adder_mod_p_out wires_a wires_b (length wires_a).

    (** circuits.rs:673-689 [adder_mod_p_many]; [chunks(input_bitlen)] *)
    Definition adder_mod_p_many (wires_a wires_b : list W) : gprog W (list (list W)) :=
      gmapM (fun ab => adder_mod_p_out (fst ab) (snd ab) pbits)
            (List.combine (chunks pbits wires_a) (chunks pbits wires_b)).

    (** the extended adder of circuits.rs:755-770, 1367-1383 ...: [xs] may be shorter than [ys] *)
    Definition adder_y0 (y c : W) : gprog W (W * W) := full_adder_const y false c.

    (** circuits.rs:736-773 [compose_field_element] *)
    Definition compose_field_element (field_wires rand_wires : list W) : gprog W (list W) :=
      match field_wires, rand_wires with
      | [], _ => GRet rand_wires
      | x :: xs, y :: ys =>
          r <- half_adder x y ;; t <- ripple full_adder xs ys (snd r) ;;
          u <- ripple1 adder_y0 (skipn (length field_wires) rand_wires) (snd t) ;;
          sub_p_and_mux (fst r :: fst t ++ fst u) (snd u) pbits
      | _ :: _, [] => ix
      end.
  End ModP.

  (** circuits.rs:692-700 [adder_mod_2k] *)
  Definition adder_mod_2k (wires_a wires_b : list W) : gprog W (list W) := bin_addition_no_carry wires_a wires_b.
  (** circuits.rs:703-733 [xor_many], [xor_many_as_wires] *)
  Definition xor_many (wires_a wires_b : list W) : gprog W (list W) :=
    gmapM (fun ab => gxor (fst ab) (snd ab)) (List.combine wires_a wires_b).

  (** [results.extend(f(..)?)] over an [izip!] *)
  Definition gflatM {A} (f : A -> gprog W (list W)) (l : list A) : gprog W (list W) :=
    r <- gmapM f l ;; GRet (concat r).

  (** circuits.rs:800-836, body of the loop of [decompose_field_element_to_rings]: addition
      modulo 2^[ys.len()] where [xs] may be shorter *)
  Definition compose_ring_element (xs ys : list W) : gprog W (list W) :=
    match xs, ys with
    | x :: xs', y :: ys' =>
        r <- half_adder x y ;;
        if (length ys =? 1)%nat then GRet [fst r]
        else
          t <- ripple full_adder xs' (removelast ys') (snd r) ;;
          u <- ripple1 (fun y c => full_adder_const y false c) (skipn (length xs) (removelast ys)) (snd t) ;;
          s <- (if (length xs =? length ys)%nat
                then z1 <- gxor (last xs' x) (last ys' y) ;; gxor z1 (snd u)
                else gxor (last ys' y) (snd u)) ;;
          GRet (fst r :: fst t ++ fst u ++ [s])
    | _, _ => ix
    end.
  (** circuits.rs:776-840 [decompose_field_element_to_rings] *)
  Definition decompose_field_element_to_rings (U : nat) (p : N) (wa wb wc : list W)
             (num_decomps decompose_bitlen output_bitlen : nat) : gprog W (list W) :=
    bits <- adder_mod_p_out U p wa wb (decompose_bitlen * num_decomps) ;;
    gflatM (fun xy => compose_ring_element (fst xy) (snd xy))
           (List.combine (chunks decompose_bitlen bits) (chunks output_bitlen wc)).

  (** circuits.rs:890-920 [decompose_field_element], 966-997
      [decompose_field_element_to_other_field] (with the modulus [q] and width [V] of the other
      field; [decompose_field_element] is the case [V = U], [q = p]) *)
  Definition decompose_field_element_to (U V : nat) (p q : N) (wa wb wc : list W)
             (decompose_bitlen total_output_bitlen : nat) : gprog W (list W) :=
    bits <- adder_mod_p_out U p wa wb total_output_bitlen ;;
    gflatM (fun xy => compose_field_element V q (fst xy) (snd xy))
           (List.combine (chunks decompose_bitlen bits) (chunks (ubit_len q) wc)).

  (** circuits.rs:1050-1079 [slice_field_element]; slicing panics when [lo > mid] or [mid] exceeds
      the length *)
  Definition slice_field_element (U : nat) (p : N) (wa wb wc : list W) (lo mid bitsize : nat) : gprog W (list W) :=
    bits <- adder_mod_p_out U p wa wb bitsize ;;
    if ((lo <=? mid) && (mid <=? length bits))%nat then
      match chunks (length wa) wc with
      | r1 :: r2 :: _ =>
          l <- compose_field_element U p (skipn lo (firstn mid bits)) r1 ;;
          h <- compose_field_element U p (skipn mid bits) r2 ;; GRet (l ++ h)
      | _ => GErr (Panic "called `Option::unwrap()` on a `None` value")
      end
    else GErr (Panic "slice index out of range").

  (** circuits.rs:1119-1152 [unsigned_ge], [unsigned_lt], [unsigned_le], [unsigned_gt] *)
  Definition unsigned_ge (a b : list W) : gprog W W := bin_subtraction_get_carry_only a b.
  Definition unsigned_lt (a b : list W) : gprog W W := ge <- unsigned_ge a b ;; gneg ge.
  Definition unsigned_le (a b : list W) : gprog W W := unsigned_ge b a.
  Definition unsigned_gt (a b : list W) : gprog W W := unsigned_lt b a.

  (** circuits.rs:1254-1270 [field_to_ring] *)
  Definition field_to_ring (U : nat) (p : N) (wa wb wc : list W) : gprog W (list W) :=
    bits <- adder_mod_p_out U p wa wb (length wc) ;; bin_addition_no_carry bits wc.
  (** circuits.rs:1305-1319 [ring_to_field] *)
  Definition ring_to_field (U : nat) (p : N) (wa wb wc : list W) : gprog W (list W) :=
    bits <- bin_addition_no_carry wa wb ;; compose_field_element U p bits wc.

  (** circuits.rs:1371-1394, 1450-1473: addition of [xs] to a strictly longer [ys], modulo 2^[ys.len()] *)
  Definition add_shorter (xs ys : list W) : gprog W (list W) :=
    match xs, ys with
    | x :: xs', y :: ys' =>
        r <- half_adder x y ;; t <- ripple full_adder xs' ys' (snd r) ;;
        u <- ripple1 (fun y c => full_adder_const y false c) (skipn (length xs) (removelast ys)) (snd t) ;;
        s <- gxor (last ys' y) (snd u) ;;
        GRet (fst r :: fst t ++ fst u ++ [s])
    | _, _ => ix
    end.
  (** circuits.rs:1354-1395 [ring_to_ring_upcast] *)
  Definition ring_to_ring_upcast (wa wb wc : list W) : gprog W (list W) :=
    bits <- bin_addition_no_carry wa wb ;; add_shorter bits wc.
  (** circuits.rs:1430-1474 [ring_div_power_2] *)
  Definition ring_div_power_2 (wa wb wc : list W) (divisor_bit : nat) : gprog W (list W) :=
    bits <- bin_addition_no_carry wa wb ;;
    xs <- tail_from divisor_bit bits ;; add_shorter xs wc.

  (** circuits.rs:1477-1508 [field_int_div_power_2] *)
  Definition field_int_div_power_2 (U : nat) (p : N) (wa wb wc : list W) (divisor_bit : nat) : gprog W (list W) :=
    if (length wa =? ubit_len p)%nat then
      r <- bin_addition wa wb ;; t <- sub_p U p (fst r) (snd r) ;;
      bits <- gmapM (fun sa => gmux (snd t) (fst sa) (snd sa)) (skipn divisor_bit (List.combine (fst t) (fst r))) ;;
      compose_field_element U p bits wc
    else GErr (Panic "assertion `left == right` failed").

  (** circuits.rs:1525-1544: addition of the quotient to the mask; the carry is dropped *)
  Definition add_quotient (xs ys : list W) : gprog W (list W) :=
    match xs, ys with
    | x :: xs', y :: ys' =>
        r <- half_adder x y ;; t <- ripple full_adder xs' ys' (snd r) ;;
        u <- ripple1 (fun y c => full_adder_const y false c) (skipn (length xs) (removelast ys)) (snd t) ;;
        GRet (fst r :: fst t ++ fst u)
    | _, _ => ix
    end.
  (** circuits.rs:1511-1545 [ring_div] *)
  Definition ring_div (x1 x2 y1 y2 wc : list W) : gprog W (list W) :=
    dividend <- bin_addition_no_carry x1 x2 ;; divisor <- bin_addition_no_carry y1 y2 ;;
    q <- bin_div dividend divisor ;; add_quotient q wc.
  (** circuits.rs:1548-1580 [ring_div_by_public] *)
  Definition ring_div_by_public (x1 x2 : list W) (divisor : list bool) (wc : list W) : gprog W (list W) :=
    dividend <- bin_addition_no_carry x1 x2 ;; q <- bin_div_by_public dividend divisor ;; add_quotient q wc.
  (** circuits.rs:1583-1615 [ring_div_by_shared] *)
  Definition ring_div_by_shared (x1 x2 : list W) (dividend : list bool) (wc : list W) : gprog W (list W) :=
    divisor <- bin_addition_no_carry x1 x2 ;; q <- bin_div_by_shared dividend divisor ;; add_quotient q wc.

  Section FieldDiv.
    Variables (U : nat) (p : N).
    Definition assert_bits (n : nat) : gprog W unit :=
      if (n =? ubit_len p)%nat then GRet tt else GErr (Panic "assertion `left == right` failed").
    (** circuits.rs:1618-1645 [field_int_div]; [n] = [input_bitlen] *)
    Definition field_int_div (x1 x2 y1 y2 wc : list W) (n : nat) : gprog W (list W) :=
      _ <- assert_bits n ;;
      a1 <- adder_mod_p_out U p x1 x2 (length x1) ;; a2 <- adder_mod_p_out U p y1 y2 (length x1) ;;
      q <- bin_div a1 a2 ;; compose_field_element U p q wc.
    (** circuits.rs:1648-1671 [field_int_div_by_public] *)
    Definition field_int_div_by_public (x1 x2 : list W) (divisor : list bool) (wc : list W) (n : nat) : gprog W (list W) :=
      _ <- assert_bits n ;;
      a1 <- adder_mod_p_out U p x1 x2 (length x1) ;;
      q <- bin_div_by_public a1 divisor ;; compose_field_element U p q wc.
    (** circuits.rs:1674-1697 [field_int_div_by_shared] *)
    Definition field_int_div_by_shared (x1 x2 : list W) (dividend : list bool) (wc : list W) (n : nat) : gprog W (list W) :=
      _ <- assert_bits n ;;
      a1 <- adder_mod_p_out U p x1 x2 (length x1) ;;
      q <- bin_div_by_shared dividend a1 ;; compose_field_element U p q wc.
  End FieldDiv.

  (** ** [_many] versions: the circuit of one element over chunks of the bundles *)

  (** [izip!] over three lists of chunks *)
  Fixpoint zip3 {A B C} (a : list A) (b : list B) (c : list C) : list (A * B * C) :=
    match a, b, c with
    | x :: a, y :: b, z :: c => (x, y, z) :: zip3 a b c
    | _, _, _ => []
    end.
  Definition many3 (na nc : nat) (f : list W -> list W -> list W -> gprog W (list W)) (wa wb wc : list W) : gprog W (list W) :=
    gflatM (fun t => f (fst (fst t)) (snd (fst t)) (snd t)) (zip3 (chunks na wa) (chunks na wb) (chunks nc wc)).
  (** with a public operand per element *)
  Definition many3p (na : nat) (f : list W -> list W -> list bool -> list W -> gprog W (list W))
             (wa wb wc : list W) (pub : list bool) : gprog W (list W) :=
    gflatM (fun t => f (fst (fst (fst t))) (snd (fst (fst t))) (snd t) (snd (fst t)))
           (List.combine (zip3 (chunks na wa) (chunks na wb) (chunks na wc)) (chunks na pub)).
  (** with two operands in one bundle *)
  Definition many5 (n : nat) (f : list W -> list W -> list W -> list W -> list W -> gprog W (list W))
             (wa wb wc : list W) : gprog W (list W) :=
    let h := (length wa / 2)%nat in
    gflatM (fun t => f (fst (fst (fst t))) (snd (fst (fst t))) (fst (snd (fst t))) (snd (snd (fst t))) (snd t))
           (List.combine (List.combine (List.combine (chunks n (firstn h wa)) (chunks n (firstn h wb)))
                             (List.combine (chunks n (skipn h wa)) (chunks n (skipn h wb))))
                    (chunks n wc)).

  (** circuits.rs:843-887 *)
  Definition decompose_field_element_to_rings_many U p wa wb wc nd dbl obl :=
    many3 (ubit_len p) (obl * nd)
          (fun a b c => decompose_field_element_to_rings U p a b c nd dbl obl) wa wb wc.
  (** circuits.rs:923-963, 1000-1047; [num_decomps_per_field = total.div_ceil(dbl)] *)
  Definition div_ceil (a b : nat) : nat := ((a + (b - 1)) / b)%nat.
  Definition decompose_field_element_to_many U V p q wa wb wc dbl total :=
    many3 (ubit_len p) (ubit_len q * div_ceil total dbl)
          (fun a b c => decompose_field_element_to U V p q a b c dbl total) wa wb wc.
  (** circuits.rs:1082-1117 *)
  Definition slice_field_element_many U p wa wb wc lo mid bitsize :=
    many3 (ubit_len p) (ubit_len p * 2) (fun a b c => slice_field_element U p a b c lo mid bitsize) wa wb wc.
  (** circuits.rs:1273-1302 *)
  Definition field_to_ring_many U p wa wb wc obl := many3 (ubit_len p) obl (field_to_ring U p) wa wb wc.
  (** circuits.rs:1322-1351 *)
  Definition ring_to_field_many U p wa wb wc ibl := many3 ibl (ubit_len p) (ring_to_field U p) wa wb wc.
  (** circuits.rs:1398-1427 *)
  Definition ring_to_ring_upcast_many wa wb wc ibl obl := many3 ibl obl ring_to_ring_upcast wa wb wc.
  (** circuits.rs:1700-1734 *)
  Definition ring_div_power_2_many wa wb wc ibl bit := many3 ibl ibl (fun a b c => ring_div_power_2 a b c bit) wa wb wc.
  (** circuits.rs:1737-1774 *)
  Definition field_int_div_power_2_many U p wa wb wc bit :=
    many3 (ubit_len p) (ubit_len p) (fun a b c => field_int_div_power_2 U p a b c bit) wa wb wc.
  (** circuits.rs:1777-1812 *)
  Definition ring_div_many wa wb wc ibl := many5 ibl ring_div wa wb wc.
  (** circuits.rs:2010-2041 *)
  Definition ring_div_by_public_many wa wb wc ibl divisor := many3p ibl ring_div_by_public wa wb wc divisor.
  (** circuits.rs:2044-2075 *)
  Definition ring_div_by_shared_many wa wb wc ibl dividend := many3p ibl ring_div_by_shared wa wb wc dividend.
  (** circuits.rs:2078-2115 *)
  Definition field_int_div_many U p wa wb wc :=
    many5 (ubit_len p) (fun a b c d e => field_int_div U p a b c d e (ubit_len p)) wa wb wc.
  (** circuits.rs:2118-2152 *)
  Definition field_int_div_by_public_many U p wa wb wc divisor :=
    many3p (ubit_len p) (fun a b d c => field_int_div_by_public U p a b d c (ubit_len p)) wa wb wc divisor.
  (** circuits.rs:2155-2189 *)
  Definition field_int_div_by_shared_many U p wa wb wc dividend :=
    many3p (ubit_len p) (fun a b d c => field_int_div_by_shared U p a b d c (ubit_len p)) wa wb wc dividend.

  (** circuits.rs:3274-3298 [bin_modulo_reduction], 3255-3271 [bin_slicing_using_arbitrary_base] are not
      modelled *)

  (** ** Batcher's odd-even merge sort (circuits.rs:1154-1207) *)

  (** circuits.rs:1178-1192: compare and swap *)
  Definition compare_swap (lhs rhs : list W) : gprog W (list W * list W) :=
    cmp <- unsigned_gt lhs rhs ;;
    r <- gmapM (fun lr => x <- gxor (fst lr) (snd lr) ;; a <- gand cmp x ;; l <- gxor a (fst lr) ;;
                          r <- gxor x l ;; GRet (l, r)) (List.combine lhs rhs) ;;
    GRet (map fst r, map snd r).

  (** the indices compared, in order: the loops over [p], [k], [j] and [i] (circuits.rs:1168-1203).
      The [while] loops are given fuel: [p] and [k] are powers of two, so both run at most
      [len] times. *)
  Definition batcher_i (len p k j : nat) : list (nat * nat) :=
    flat_map (fun i => if ((i + j) / (2 * p) =? (i + j + k) / (2 * p))%nat
                       then [(i + j, i + j + k)%nat] else [])
             (seq 0 (Nat.min k (len - j - k))).
  (** [(k % p .. len - k).step_by(2 * k)]; [len - k] underflows (panics or wraps) never: k < len *)
  Definition batcher_j (len p k : nat) : list (nat * nat) :=
    let lo := (k mod p)%nat in let hi := (len - k)%nat in
    flat_map (fun t => batcher_i len p k (lo + t * (2 * k))) (seq 0 (div_ceil (hi - lo) (2 * k))).
  Fixpoint batcher_k (fuel len p k : nat) : list (nat * nat) :=
    match fuel with
    | O => []
    | S fuel => if (1 <=? k)%nat then batcher_j len p k ++ batcher_k fuel len p (k / 2) else []
    end.
  Fixpoint batcher_p (fuel len p : nat) : list (nat * nat) :=
    match fuel with
    | O => []
    | S fuel => if (p <? len)%nat then batcher_k len len p p ++ batcher_p fuel len (2 * p) else []
    end.
  Definition batcher_pairs (len : nat) : list (nat * nat) := batcher_p len len 1.

  Fixpoint upd {X} (l : list X) (i : nat) (x : X) : list X :=
    match l, i with
    | [], _ => []
    | _ :: l, O => x :: l
    | y :: l, S i => y :: upd l i x
    end.
  Fixpoint sort_network (ps : list (nat * nat)) (inputs : list (list W)) : gprog W (list (list W)) :=
    match ps with
    | [] => GRet inputs
    | (i, j) :: ps =>
        match nth_error inputs i, nth_error inputs j with
        | Some lhs, Some rhs =>
            r <- compare_swap lhs rhs ;; sort_network ps (upd (upd inputs i (fst r)) j (snd r))
        | _, _ => ix
        end
    end.
  (** circuits.rs:1154-1207; [inputs\[0\]] panics on an empty slice *)
  Definition batcher_sort_inner (inputs : list (list W)) : gprog W (list (list W)) :=
    match inputs with [] => ix | _ => sort_network (batcher_pairs (length inputs)) inputs end.
  (** circuits.rs:1210-1251 [batcher_odd_even_merge_sort] *)
  Definition batcher_odd_even_merge_sort (U : nat) (p : N) (wa wb wc : list W) (bitlen : nat) : gprog W (list W) :=
    inputs <- gmapM (fun ab => adder_mod_p_out U p (fst ab) (snd ab) bitlen)
                    (List.combine (chunks (ubit_len p) wa) (chunks (ubit_len p) wb)) ;;
    sorted <- batcher_sort_inner inputs ;;
    gflatM (fun xy => compose_field_element U p (fst xy) (snd xy)) (List.combine sorted (chunks (ubit_len p) wc)).
End Circuits.
