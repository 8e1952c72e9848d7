(** * One-hot vectors and lookup tables: model
    Models mpc-core/src/protocols/rep3_ring/gadgets/ohv.rs, gadgets/lut_field.rs,
    rep3_ring/lut_field.rs and the plain provider of mpc-core/src/lut.rs.
    - A [Rep3RingShare<T>] under xor is a [share N]; [K] is [T::K].  A [Rep3RingShare<Bit>] is a
      [share N] of which only bit 0 is looked at ([ubit _ 0] is the conversion to [bool]).
    - [dw K] draws an element of the unsigned type with [K] bits, [du k] is [U::random_bits(_, k)];
      both are arbitrary deterministic functions of the generator state.
    - [mpc_net::join] of two sub-protocols on two networks is modelled by running the first, then
      the second, on one network (Join.v proves that this gives the result of every interleaving).
    Simplifications: the lists zipped with received ones have the length sent by honest peers;
    [ohv] with [k > T::K] panics only with debug assertions ([dbg]) and is otherwise outside the
    model; [ohv] with [k = 0] is a panic (without overflow checks the subtraction wraps and the
    recursion exhausts the stack). *)
From Coq Require Import String List Arith NArith Lia Bool.
From Verif Require Import Proc Alg Rep3Net Rep3 Uint Binary Conv Ring2k.
Import ListNotations.
Set Implicit Arguments.
Local Open Scope grp_scope.

(** [usize::next_power_of_two] and [ilog2] of it (lut_field.rs:27, 71, 139, 211, 239) *)
Definition next_pow2 (n : nat) : nat := (2 ^ Nat.log2_up n)%nat.
Definition lut_bits (n : nat) : nat := Nat.log2 (next_pow2 n).
(** gadgets/lut_field.rs:73-76: made even *)
Definition make_even (k : nat) : nat := if Nat.odd k then Datatypes.S k else k.
(** [(T::one() << k) - T::one()] (ohv.rs:33, 60) *)
Definition low_mask (K k : nat) : N := uwsub K (ushl K 1 k) 1.
(** [x & ((1 << k) - 1)] of a [usize] (lut_field.rs:38) *)
Definition idx_mask (k : nat) : N := umask k.

Section Ohv.
  Context {S M : Type} (dbg : bool) (dw : nat -> S -> N * S).
  Context {EN : Enc M (list N)} {EL : Enc M (list (list N))}.
  Notation prog := (prog pid M).

  (** ohv.rs:79-82: the loop of [pack] for one component *)
  Fixpoint pack_from (K i : nat) (acc : N) (l : list bool) : N :=
    match l with
    | [] => acc
    | b :: l => pack_from K (Datatypes.S i) (N.lor acc (ushl K (N.b2n b) i)) l
    end.
  (** ohv.rs:76-84 [pack] *)
  Definition pack (K : nat) (l : list (share N)) : share N :=
    mkShare (pack_from K 0 0%N (map (fun x => ubit (sa x) 0) l))
            (pack_from K 0 0%N (map (fun x => ubit (sb x) 0) l)).
  (** ohv.rs:86-93 [unpack] *)
  Definition unpack (x : share N) (len : nat) : list (share N) := map (rget_bit x) (seq 0 len).
  (** ohv.rs:95-113 [and_pre_bit] *)
  Definition and_pre_bit (K : nat) (st : rst S) (a b : share N) : N * rst S :=
    let r := random_pair (H := dw K) st in
    let m := N.lxor (fst (fst r)) (snd (fst r)) in
    let m1 := if ubit (sa b) 0 then N.lxor (N.lxor m (sa a)) (sb a) else m in
    (if ubit (sb b) 0 then N.lxor m1 (sa a) else m1, snd r).
  (** ohv.rs:130-133, 136-139, 142-145, 148-151, 154-157 *)
  Definition pack_small (K : nat) (i : pid) (st : rst S) (input : list (share N)) (rhs : share N)
    : prog (list (share N) * rst S) :=
    let z := and_pre_bit K st (pack K input) rhs in
    b <- reshare i (fst z) ;;
    Ret (unpack (mkShare (fst z) b) (length input), snd z).
  (** ohv.rs:170-174 *)
  Fixpoint pre_chunks (st : rst S) (cs : list (list (share N))) (rhs : share N) : list N * rst S :=
    match cs with
    | [] => ([], st)
    | c :: cs => let z := and_pre_bit 64 st (pack 64 c) rhs in
                 let r := pre_chunks (snd z) cs rhs in (fst z :: fst r, snd r)
    end.
  (** ohv.rs:177-182 *)
  Fixpoint unpack_chunks (rem : nat) (xs : list (share N)) : list (share N) :=
    match xs with
    | [] => []
    | x :: xs => let rcv := Nat.min 64 rem in unpack x rcv ++ unpack_chunks (rem - rcv) xs
    end.
  (** ohv.rs:163-186: more than 128 bits *)
  Definition pack_large (i : pid) (st : rst S) (input : list (share N)) (rhs : share N)
    : prog (list (share N) * rst S) :=
    let z := pre_chunks st (chunks 64 input) rhs in
    b <- reshare i (fst z) ;;
    Ret (unpack_chunks (length input) (map2 mkShare (fst z) b), snd z).
  (** ohv.rs:115-187 [pack_and] *)
  Definition pack_and (i : pid) (st : rst S) (input : list (share N)) (rhs : share N)
    : prog (list (share N) * rst S) :=
    let len := length input in
    if (dbg && (len =? 0)%nat)%bool then Fail (Panic "assertion failed: len >= 1")
    else if (len <=? 128)%nat then
      let p := next_pow2 len in
      if (p =? 1)%nat then
        match input with
        | x :: _ => r <- rand_ 1 (dw 1) i st x rhs ;; Ret ([fst r], snd r)
        | [] => Fail (Panic "index out of bounds")
        end
      else if ((p =? 2) || (p =? 4) || (p =? 8))%nat%bool then pack_small 8 i st input rhs
      else if (p =? 16)%nat then pack_small 16 i st input rhs
      else if (p =? 32)%nat then pack_small 32 i st input rhs
      else if (p =? 64)%nat then pack_small 64 i st input rhs
      else if (p =? 128)%nat then pack_small 128 i st input rhs
      else Fail (Panic "unreachable")
    else pack_large i st input rhs.

  (** ohv.rs:46-74 [ohv] *)
  Fixpoint ohv (K k : nat) (i : pid) (st : rst S) (bits : share N) : prog (list (share N) * rst S) :=
    match k with
    | O => Fail (Panic "attempt to subtract with overflow")
    | Datatypes.S nk =>
        if (dbg && (K <? Datatypes.S nk)%nat)%bool then Fail (Panic "assertion failed: k <= T::K")
        else
          let vk := rget_bit bits nk in
          match nk with
          | O => Ret ([bnot vk; vk], st)
          | _ =>
              f <- ohv K nk i st (and_mask bits (low_mask K nk)) ;;
              e <- pack_and i (snd f) (firstn (length (fst f) - 1) (fst f)) vk ;;
              let e' := fst e ++ [fold_left shadd (fst e) vk] in
              Ret (map2 shadd (fst f) e' ++ e', snd e)
          end
    end.
  (** ohv.rs:20-41 [rand_ohv]: ((r, e), state) *)
  Definition rand_ohv (K k : nat) (i : pid) (st : rst S) : prog ((share N * list (share N)) * rst S) :=
    if (dbg && (k =? 0)%nat)%bool then Fail (Panic "assertion failed: k >= 1")
    else if (dbg && (K <? k)%nat)%bool then Fail (Panic "assertion failed: k <= T::K")
    else
      let r := random_pair (H := dw K) st in
      let bits := mkShare (fst (fst r)) (snd (fst r)) in
      let bits := if (k =? K)%nat then bits else and_mask bits (low_mask K k) in
      e <- ohv K k i (snd r) bits ;;
      Ret ((bits, fst e), snd e).
End Ohv.

(** ** Reading and writing (gadgets/lut_field.rs) *)
Section LutGadget.
  Context {F : Type} `{FU : FieldUint F} {S M : Type} (dbg : bool)
          (du dw : nat -> S -> N * S) {DF : Draw S F}.
  Context {EN : Enc M (list N)} {EL : Enc M (list (list N))} {EF : Enc M (list F)}.
  Notation prog := (prog pid M).
  Notation B := (mbs F).

  (** lut_field.rs:35-38, 92-95, 160-163: the opened index as a [usize], masked to [k] bits *)
  Definition to_usize (c : N) (k : nat) : prog N :=
    if (c <? 2 ^ 64)%N then Ret (N.land c (idx_mask k))
    else Fail (Panic "This transformation should work, otherwise we have another issue").

  (** lut_field.rs:41-54 *)
  Fixpoint pub_loop (lut : list F) (c : N) (j : nat) (es : list (share N)) (t : share N) : share N :=
    match es with
    | [] => t
    | e :: es =>
        let index := N.to_nat (N.lxor (N.of_nat j) c) in
        let t' := match nth_error lut index with
                  | None => t                      (* index >= n *)
                  | Some v => mkShare (if ubit (sa e) 0 then N.lxor (sa t) (to_uint v) else sa t)
                                      (if ubit (sb e) 0 then N.lxor (sb t) (to_uint v) else sb t)
                  end in
        pub_loop lut c (Datatypes.S j) es t'
    end.
  (** lut_field.rs:16-56 [read_public_lut] *)
  Definition read_public_lut (K : nat) (lut : list F) (i : pid) (st : rst S) (index : share N)
    : prog (share N * rst S) :=
    let k := lut_bits (length lut) in
    if (K <? k)%nat then Fail (Panic "assertion failed: k <= T::K")
    else
      re <- rand_ohv dbg dw K k i st ;;
      c <- open i (shadd (fst (fst re)) index) ;;
      c <- to_usize c k ;;
      Ret (pub_loop lut c 0 (snd (fst re)) zero_share, snd re).

  (** lut_field.rs:106-127, 174-195: one row of the double loop; [n] is the bound the code checks
      against; [None]: index panic of [lut\[index\]] *)
  Fixpoint ld_row (n : nat) (lut : list F) (c : N) (f0 : share N) (f1s : list (share N)) (j : nat) (t : N)
    : option N :=
    match f1s with
    | [] => Some t
    | f1 :: f1s =>
        let index := N.to_nat (N.lxor (N.of_nat j) c) in
        if (n <=? index)%nat then ld_row n lut c f0 f1s (Datatypes.S j) t
        else
          match nth_error lut index with
          | None => None
          | Some x =>
              let v := to_uint x in
              let ga := if ubit (sa f0) 0 then v else 0%N in
              let gb := if ubit (sb f0) 0 then v else 0%N in
              let t := if ubit (sa f1) 0 then N.lxor (N.lxor t ga) gb else t in
              let t := if ubit (sb f1) 0 then N.lxor t ga else t in
              ld_row n lut c f0 f1s (Datatypes.S j) t
          end
    end.
  (** lut_field.rs:105-129, 173-197 *)
  Fixpoint ld_loop (n : nat) (lut : list F) (c : N) (f0s f1s : list (share N)) (j : nat) (t : N) : option N :=
    match f0s with
    | [] => Some t
    | f0 :: f0s =>
        match ld_row n lut c f0 f1s j t with
        | None => None
        | Some t => ld_loop n lut c f0s f1s (j + length f1s) t
        end
    end.
  (** lut_field.rs:98-103, 168-171: the mask of a result *)
  Definition lut_mask (st : rst S) : N * rst S := masking (H0 := du B) st.
  (** lut_field.rs:166-199 *)
  Fixpoint ld_tables (n : nat) (luts : list (list F)) (c : N) (e e_ : list (share N)) (st : rst S)
    : prog (list N * rst S) :=
    match luts with
    | [] => Ret ([], st)
    | lut :: luts =>
        let m := lut_mask st in
        match ld_loop n lut c e e_ 0 (fst m) with
        | None => Fail (Panic "index out of bounds")
        | Some t => r <- ld_tables n luts c e e_ (snd m) ;; Ret (t :: fst r, snd r)
        end
    end.
  (** lut_field.rs:78-95, 146-163: the two one-hot vectors and the opened index:
      ((c, (e, e_)), states) *)
  Definition ld_setup (K n : nat) (i : pid) (st0 st1 : rst S) (index : share N)
    : prog ((N * (list (share N) * list (share N))) * (rst S * rst S)) :=
    let k := make_even (lut_bits n) in
    if (K <? k)%nat then Fail (Panic "assertion failed: k <= T::K")
    else
      let k2 := (k / 2)%nat in
      a <- rand_ohv dbg dw K k2 i st0 ;;
      b <- rand_ohv dbg dw K k2 i st1 ;;
      let r := shl K (fst (fst a)) k2 in
      let r := mkShare (uwadd K (sa r) (sa (fst (fst b)))) (uwadd K (sb r) (sb (fst (fst b)))) in
      c <- open i (shadd r index) ;;
      c <- to_usize c k ;;
      Ret ((c, (snd (fst a), snd (fst b))), (snd a, snd b)).
  (** lut_field.rs:60-131 [read_public_lut_low_depth] *)
  Definition read_public_lut_low_depth (K : nat) (lut : list F) (i : pid) (st0 st1 : rst S) (index : share N)
    : prog (N * (rst S * rst S)) :=
    s <- ld_setup K (length lut) i st0 st1 index ;;
    let m := lut_mask (fst (snd s)) in
    match ld_loop (length lut) lut (fst (fst s)) (fst (snd (fst s))) (snd (snd (fst s))) 0 (fst m) with
    | None => Fail (Panic "index out of bounds")
    | Some t => Ret (t, (snd m, snd (snd s)))
    end.
  (** lut_field.rs:135-201 [read_multiple_public_lut_low_depth] *)
  Definition read_multiple_public_lut_low_depth (K : nat) (luts : list (list F)) (i : pid) (st0 st1 : rst S) (index : share N)
    : prog (list N * (rst S * rst S)) :=
    match luts with
    | [] => Fail (Panic "called `Option::unwrap()` on a `None` value")
    | _ =>
        let n := list_max (map (@length F) luts) in
        s <- ld_setup K n i st0 st1 index ;;
        r <- ld_tables n luts (fst (fst s)) (fst (snd (fst s))) (snd (snd (fst s))) (fst (snd s)) ;;
        Ret (fst r, (snd r, snd (snd s)))
    end.

  (** lut_field.rs:221-224 *)
  Fixpoint inner (t : F) (lut e : list (share F)) : F :=
    match lut, e with
    | l :: lut, x :: e => inner (t + lmul x l) lut e
    | _, _ => t
    end.
  (** lut_field.rs:205-226 [read_shared_lut] *)
  Definition read_shared_lut (K : nat) (lut : list (share F)) (i : pid) (st : rst S) (index : share N)
    : prog (F * rst S) :=
    let k := lut_bits (length lut) in
    if (K <? k)%nat then Fail (Panic "assertion failed: k <= T::K")
    else
      e <- ohv dbg dw K k i st index ;;
      inj <- bit_inject_to_field_many i (snd e) (fst e) ;;
      let m := masking (snd inj) in
      Ret (inner (fst m) lut (fst inj), snd m).
  (** lut_field.rs:266-268 *)
  Fixpoint write_local (value : share F) (st : rst S) (lut ohv : list (share F)) : list F * rst S :=
    match lut, ohv with
    | l :: lut, e :: ohv =>
        let m := masking st in
        let r := write_local value (snd m) lut ohv in
        ((lmul e (shsub value l) + sa l + fst m) :: fst r, snd r)
    | _, _ => ([], st)
    end.
  (** lut_field.rs:255-276 [write_lut_from_ohv]: the new table *)
  Definition write_lut_from_ohv (value : share F) (lut ohv : list (share F)) (i : pid) (st : rst S)
    : prog (list (share F) * rst S) :=
    if (length ohv <? length lut)%nat then Fail (Panic "assertion failed: n <= ohv.len()")
    else
      let z := write_local value st lut ohv in
      b <- reshare_many i (fst z) ;;
      Ret (map2 mkShare (fst z) b, snd z).
  (** lut_field.rs:230-252 [write_lut] *)
  Definition write_lut (K : nat) (value : share F) (lut : list (share F)) (i : pid) (st : rst S) (index : share N)
    : prog (list (share F) * rst S) :=
    let k := lut_bits (length lut) in
    if (K <? k)%nat then Fail (Panic "assertion failed: k <= T::K")
    else
      e <- ohv dbg dw K k i st index ;;
      inj <- bit_inject_to_field_many i (snd e) (fst e) ;;
      write_lut_from_ohv value lut (fst inj) i (snd inj).
End LutGadget.

(** ** The table provider (rep3_ring/lut_field.rs) *)
(** lut_field.rs:23-29 [PublicPrivateLut] *)
Inductive pplut (F : Type) := Public (l : list F) | Shared (l : list (share F)).
Arguments Public {F} l.
Arguments Shared {F} l.
(** lut_field.rs:38-43 [len] *)
Definition pplen {F} (t : pplut F) : nat := match t with Public l => length l | Shared l => length l end.
(** lut_field.rs:89-99, 286-296, 336-346, 368-378: the integer type picked for [k] bits *)
Definition lut_width (k : nat) : option nat :=
  if (k =? 1)%nat then Some 1%nat
  else if (k <=? 8)%nat then Some 8%nat
  else if (k <=? 16)%nat then Some 16%nat
  else if (k <=? 32)%nat then Some 32%nat
  else None.

Section LutProvider.
  Context {F : Type} `{FU : FieldUint F} {S M : Type} (dbg : bool)
          (du dw : nat -> S -> N * S) {DF : Draw S F}.
  Context {EN : Enc M (list N)} {EL : Enc M (list (list N))} {EF : Enc M (list F)}.
  Notation prog := (prog pid M).
  (** rep3/conversion.rs:36-57: the conversions picked by the selectors *)
  Context (a2b : pid -> rst S -> share F -> prog (share N * rst S))
          (b2a : pid -> rst S -> share N -> prog (share F * rst S)).

  (** [T::cast_from_uint] of both components (lut_field.rs:115-117, 151-153, 195-197, 231-233, 266-268) *)
  Definition lcast (K : nat) (x : share N) : share N := and_mask x (umask K).
  Definition too_large {A} : prog A := Fail (Panic "Table is too large").

  (** lut_field.rs:126-132 *)
  Fixpoint b2a_seq (i : pid) (st : rst S) (xs : list (share N)) : prog (list (share F) * rst S) :=
    match xs with
    | [] => Ret ([], st)
    | x :: xs => r <- b2a i st x ;; q <- b2a_seq i (snd r) xs ;; Ret (fst r :: fst q, snd q)
    end.
  (** lut_field.rs:103-135 [get_from_public_luts_internal] *)
  Definition get_from_public_luts_internal (K : nat) (index : share N) (luts : list (list F))
      (i : pid) (st0 st1 : rst S) : prog (list (share F) * (rst S * rst S)) :=
    a <- read_multiple_public_lut_low_depth dbg du dw K luts i st0 st1 (lcast K index) ;;
    b <- reshare_many i (fst a) ;;
    r <- b2a_seq i (fst (snd a)) (map2 mkShare (fst a) b) ;;
    Ret (fst r, (snd r, snd (snd a))).
  (** lut_field.rs:76-101 [get_from_public_luts]; the [unwrap] of an empty list panics first *)
  Definition get_from_public_luts (index : share F) (luts : list (list F)) (i : pid) (st0 st1 : rst S)
    : prog (list (share F) * (rst S * rst S)) :=
    match luts with
    | [] => Fail (Panic "called `Option::unwrap()` on a `None` value")
    | _ =>
        bits <- a2b i st0 index ;;
        match lut_width (lut_bits (list_max (map (@length F) luts))) with
        | None => too_large
        | Some K => get_from_public_luts_internal K (fst bits) luts i (snd bits) st1
        end
    end.

  (** lut_field.rs:183-220 [get_from_public_lut_no_b2a_conversion] *)
  Definition get_from_public_lut_no_b2a (K : nat) (index : share N) (lut : pplut F) (i : pid) (st0 st1 : rst S)
    : prog (share N * (rst S * rst S)) :=
    match lut with
    | Public l =>
        a <- read_public_lut_low_depth dbg du dw K l i st0 st1 (lcast K index) ;;
        b <- reshare i (fst a) ;;
        Ret (mkShare (fst a) b, snd a)
    | Shared _ => Fail (Panic "LUT is not public")
    end.
  (** lut_field.rs:137-180 [get_from_lut_internal] *)
  Definition get_from_lut_internal (K : nat) (index : share N) (lut : pplut F) (i : pid) (st0 st1 : rst S)
    : prog (share F * (rst S * rst S)) :=
    match lut with
    | Public l =>
        a <- read_public_lut_low_depth dbg du dw K l i st0 st1 (lcast K index) ;;
        b <- reshare i (fst a) ;;
        r <- b2a i (fst (snd a)) (mkShare (fst a) b) ;;
        Ret (fst r, (snd r, snd (snd a)))
    | Shared l =>
        a <- read_shared_lut dbg dw K l i st0 (lcast K index) ;;
        b <- reshare i (fst a) ;;
        Ret (mkShare (fst a) b, (snd a, st1))
    end.
  (** lut_field.rs:322-351 [get_from_lut] *)
  Definition get_from_lut (index : share F) (lut : pplut F) (i : pid) (st0 st1 : rst S)
    : prog (share F * (rst S * rst S)) :=
    bits <- a2b i st0 index ;;
    match lut_width (lut_bits (pplen lut)) with
    | None => too_large
    | Some K => get_from_lut_internal K (fst bits) lut i (snd bits) st1
    end.

  (** lut_field.rs:222-256 [write_to_lut_internal]: the new table; a public one is shared first *)
  Definition write_to_lut_internal (K : nat) (index : share N) (lut : pplut F) (value : share F)
      (i : pid) (st0 st1 : rst S) : prog (pplut F * (rst S * rst S)) :=
    let shared := match lut with Public l => map (promote i) l | Shared l => l end in
    r <- write_lut dbg dw K value shared i st0 (lcast K index) ;;
    Ret (Shared (fst r), (snd r, st1)).
  (** lut_field.rs:353-382 [write_to_lut] *)
  Definition write_to_lut (index value : share F) (lut : pplut F) (i : pid) (st0 st1 : rst S)
    : prog (pplut F * (rst S * rst S)) :=
    bits <- a2b i st0 index ;;
    match lut_width (lut_bits (pplen lut)) with
    | None => too_large
    | Some K => write_to_lut_internal K (fst bits) lut value i (snd bits) st1
    end.
  (** lut_field.rs:258-299 [ohv_from_index_internal], [ohv_from_index] *)
  Definition ohv_from_index (index : share F) (len : nat) (i : pid) (st0 : rst S)
    : prog (list (share F) * rst S) :=
    bits <- a2b i st0 index ;;
    let k := lut_bits len in
    match lut_width k with
    | None => too_large
    | Some K =>
        e <- ohv dbg dw K k i (snd bits) (lcast K (fst bits)) ;;
        bit_inject_to_field_many i (snd e) (fst e)
    end.
  (** lut_field.rs:302-313 [write_to_shared_lut_from_ohv] *)
  Definition write_to_shared_lut_from_ohv (ohv : list (share F)) (value : share F) (lut : list (share F))
      (i : pid) (st : rst S) : prog (list (share F) * rst S) :=
    write_lut_from_ohv value lut ohv i st.
End LutProvider.

(** ** The plain provider (mpc-core/src/lut.rs) *)
Section Plain.
  Context {F X : Type} `{FU : FieldUint F}.
  (** lut.rs:15-22 [field_to_usize] (64-bit [usize]) *)
  Definition field_to_usize (x : F) : option nat :=
    if (to_uint x <? 2 ^ 64)%N then Some (N.to_nat (to_uint x)) else None.
  (** lut.rs:103-115, 158-171 [get_from_lut] (of field elements or curve points) *)
  Definition plain_get (index : F) (lut : list X) : outcome X :=
    match field_to_usize index with
    | None => Failed (Eyre "Index can not be translated to usize")
    | Some j => match nth_error lut j with
                | Some x => Done x
                | None => Failed (Panic "index out of bounds")
                end
    end.
  (** lut.rs:117-132, 173-188 [write_to_lut] *)
  Definition plain_write (index : F) (value : X) (lut : list X) : outcome (list X) :=
    match field_to_usize index with
    | None => Failed (Eyre "Index can not be translated to usize")
    | Some j => if (j <? length lut)%nat then Done (firstn j lut ++ value :: skipn (Datatypes.S j) lut)
                else Failed (Panic "index out of bounds")
    end.
End Plain.
