(** * The driver of the coBrillig VM on replicated shares

    Models co-noir/co-brillig/src/mpc/rep3.rs.  Field elements are shared over [F] and integers of each
    size over the ring of that size ([RT]); single bits are shares over [RT U1].

    Simplifications: only [A2BType::Direct]; the garbled-circuit divisions and decompositions of
    rep3/yao.rs and rep3_ring/yao.rs are parameters (record [yao]; those on field elements are modelled
    in Yao.v and VmDriver.v); [thread_rng] of each party is a sequence of values, and the position in it
    is part of the state; the results of comparisons, binary shares of a bit, are read as shares over
    [RT U1] (for [Bit], addition is exclusive or). *)
From Coq Require Import String List Arith NArith Lia Bool.
From Verif Require Import Proc Alg Rep3Net Rep3 Uint Binary Conv Ring2k VmDriver Brillig.
Import ListNotations.
Set Implicit Arguments.
Local Open Scope grp_scope.
Local Open Scope string_scope.
Local Open Scope list_scope.

Section Driver.
  Context {F : Type} `{FU : FieldUint F} {S Seed M : Type} (dbg : bool) (W : nat) (du : nat -> S -> N * S).
  Context {DF : Draw S F} {DS : Draw S Seed} {SD : Seeded S Seed}.
  Context {EN : Enc M (list N)} {ENN : Enc M (list (N * N))}
          {EL : Enc M (list (list N))} {ELL : Enc M (list (list N * list N))} {EF : Enc M (list F)}.
  (** the rings [Bit], [u8], ..., [u128] *)
  Context {RT : isz -> Type} {RC : forall s, CRing (RT s)} {RI : forall s, @IntRing (RT s) (RC s)}
          {RD : forall s, Draw S (RT s)} {RE : forall s, Enc M (list (RT s))}.
  Notation prog := (prog pid M).

  (** rep3.rs:42-51 [Shared] *)
  Inductive shv : Type := SF (x : share F) | SI (s : isz) (x : share (RT s)).
  (** rep3.rs:33-38 [Rep3BrilligType] *)
  Inductive bv : Type := BPub (x : bval F) | BShr (x : shv).
  (** the [Rep3State] and the position in [thread_rng] *)
  Definition drst : Type := (rst S * nat)%type.

  (** rep3/yao.rs [field_int_div_power_2], [field_int_div_by_public], [field_int_div_by_shared],
      [field_int_div]; rep3_ring/yao.rs [ring_div_power_2], [ring_div_by_public], [ring_div_by_shared],
      [ring_div], [decompose_field_to_rings], [field_to_ring_many], [ring_to_field_many] *)
  Record yao : Type := mkYao {
    y_fpow2 : pid -> rst S -> share F -> nat -> prog (share F * rst S);
    y_fpub : pid -> rst S -> share F -> F -> prog (share F * rst S);
    y_fby : pid -> rst S -> F -> share F -> prog (share F * rst S);
    y_fdiv : pid -> rst S -> share F -> share F -> prog (share F * rst S);
    y_rpow2 : forall s, pid -> rst S -> share (RT s) -> nat -> prog (share (RT s) * rst S);
    y_rpub : forall s, pid -> rst S -> share (RT s) -> RT s -> prog (share (RT s) * rst S);
    y_rby : forall s, pid -> rst S -> RT s -> share (RT s) -> prog (share (RT s) * rst S);
    y_rdiv : forall s, pid -> rst S -> share (RT s) -> share (RT s) -> prog (share (RT s) * rst S);
    y_decompose : pid -> rst S -> share F -> nat -> nat -> prog (list (share (RT U8)) * rst S);
    y_f2r : pid -> rst S -> share F -> prog (share (RT U8) * rst S);
    y_r2f : pid -> rst S -> share (RT U32) -> prog (share F * rst S) }.
  Variable Y : yao.
  (** [thread_rng] of each party *)
  Variable trng : pid -> nat -> bty -> bval F.

  (** a ring share of the size [s] *)
  Definition as_size (s s' : isz) (y : share (RT s')) : option (share (RT s)) :=
    match isz_dec s' s with left e => Some (eq_rect s' (fun z => share (RT z)) y s e) | right _ => None end.
  (** [Rep3RingShare::new(Bit::cast_from_uint(&x.a), Bit::cast_from_uint(&x.b))]: e.g. rep3.rs:1096-1099 *)
  Definition to_bit (x : share N) : share (RT U1) := mkShare (rof (sa x)) (rof (sb x)).
  (** binary/ops.rs:181-201: [!] flips every bit of both components *)
  Definition ring_not (s : isz) (x : share (RT s)) : share (RT s) :=
    mkShare (rof (N.lxor (rto (sa x)) (umask (ibits s)))) (rof (N.lxor (rto (sb x)) (umask (ibits s)))).

  (** a share without communication: e.g. rep3.rs:480-500 *)
  Definition ret (st : rst S) (x : shv) : prog (shv * rst S) := Ret (x, st).
  (** [Shared::Field]: e.g. rep3.rs:705-708 *)
  Definition sfld (p : prog (share F * rst S)) : prog (shv * rst S) := r <- p ;; Ret (SF (fst r), snd r).
  (** [Shared::Ring64] etc.: e.g. rep3.rs:709-725 *)
  Definition sring (s : isz) (p : prog (share (RT s) * rst S)) : prog (shv * rst S) := r <- p ;; Ret (SI (fst r), snd r).
  (** a bit as [Shared::Ring1]: e.g. rep3.rs:1096-1099 *)
  Definition sbit (p : prog (share N * rst S)) : prog (shv * rst S) := r <- p ;; Ret (SI (to_bit (fst r)), snd r).
  (** the negated bit as [Shared::Ring1]: e.g. rep3.rs:1328-1334 *)
  Definition snbit (p : prog (share N * rst S)) : prog (shv * rst S) := r <- p ;; Ret (SI (to_bit (bnot (fst r))), snd r).

  (** the mismatch branches: a panic in [add], [sub], [mul], [div], an error in the others *)
  Definition mixed_err (o : bbin) : err :=
    match o with
    | BAdd | BSub | BMul | BDiv => Panic "type mismatch. Can only operate on matching values"
    | BIntDiv => Eyre "IntDiv only supported on fields"
    | BEq | BLt | BLe => mismatch
    end.
  (** rep3.rs:797, 950 *)
  Definition no_bit_div : err := Panic "We do not implement division for a bit".
  (** the [expect]s at rep3.rs:150, 444-465, 1547 etc. *)
  Definition must_fit : err := Panic "must fit".
  (** [u128::is_power_of_two] *)
  Definition npow2 (n : N) : bool := (2 ^ N.log2 n =? n)%N.

  (** *** two shares: rep3.rs:479-504, 622-647, 704-729, 924-955, 1006-1024, 1154-1184, 1325-1355, 1496-1526 *)
  Definition field_ss (i : pid) (st : rst S) (o : bbin) (x y : share F) : prog (shv * rst S) :=
    match o with
    | BAdd => ret st (SF (shadd x y))
    | BSub => ret st (SF (shsub x y))
    | BMul => sfld (mul i st x y)
    | BDiv => sfld (div i st x y)
    | BIntDiv => sfld (y_fdiv Y i st x y)
    | BEq => sbit (eq_bit W du (a2b W du) i st x y)
    | BLt => snbit (ge_bit W du (a2b W du) i st x y)
    | BLe => sbit (ge_bit W du (a2b W du) i st y x)
    end.
  (** the same lines, ring shares of one size *)
  Definition ring_ss (i : pid) (st : rst S) (o : bbin) (s : isz) (x y : share (RT s)) : prog (shv * rst S) :=
    match o with
    | BAdd => ret st (SI (shadd x y))
    | BSub => ret st (SI (shsub x y))
    | BMul => sring (mul i st x y)
    | BDiv => if isz_eqb s U1 then Fail no_bit_div else sring (y_rdiv Y i st x y)
    | BIntDiv => Fail (mixed_err o)
    | BEq => sbit (req dbg (ra2b dbg) i st x y)
    | BLt => sbit (rlt dbg (ra2b dbg) i st x y)
    | BLe => sbit (rle dbg (ra2b dbg) i st x y)
    end.
  (** the same lines, by the kinds of the shares *)
  Definition bin_ss (i : pid) (st : rst S) (o : bbin) (x y : shv) : prog (shv * rst S) :=
    match x, y with
    | SF x, SF y => field_ss i st o x y
    | @SI s x, SI y => match as_size s y with Some y => ring_ss i st o x y | None => Fail (mixed_err o) end
    | _, _ => Fail (mixed_err o)
    end.

  (** *** a share and a public value: rep3.rs:427-478, 516-568, 660-703, 802-923, 980-1005, 1086-1153, 1261-1324, 1432-1495 *)
  Definition field_sp (i : pid) (st : rst S) (o : bbin) (x : share F) (c : F) : prog (shv * rst S) :=
    match o with
    | BAdd => ret st (SF (add_public i x c))
    | BSub => ret st (SF (sub_shared_by_public i x c))
    | BMul => ret st (SF (mul_public x c))
    | BDiv => match div_shared_by_public x c with Some r => ret st (SF r) | None => Fail (Eyre "Cannot invert zero") end
    | BIntDiv => if npow2 (to_uint c) then sfld (y_fpow2 Y i st x (N.to_nat (N.log2 (to_uint c)))) else sfld (y_fpub Y i st x c)
    | BEq => sbit (eq_bit_public W du (a2b W du) i st x c)
    | BLt => snbit (ge_public_bit W du (a2b W du) i st x c)
    | BLe => sbit (le_public_bit W du (a2b W du) i st x c)
    end.
  (** the conversions [u64::try_from(..).expect("must be u64")] etc. and [bit_from_u128!] (145-151) *)
  Definition fits {A} (s : isz) (c : N) (k : RT s -> prog A) : prog A := if (c <? imod s)%N then k (rof c) else Fail must_fit.
  Arguments fits {A} s c k.
  (** the same lines, a ring share and a public value *)
  Definition ring_sp (i : pid) (st : rst S) (o : bbin) (s : isz) (x : share (RT s)) (c : N) : prog (shv * rst S) :=
    match o with
    | BAdd => fits s c (fun c => ret st (SI (add_public i x c)))
    | BSub => fits s c (fun c => ret st (SI (sub_shared_by_public i x c)))
    | BMul => fits s c (fun c => ret st (SI (mul_public x c)))
    | BDiv => if npow2 c then sring (y_rpow2 Y i st x (N.to_nat (N.log2 c)))
              else if isz_eqb s U1 then Fail (Panic "Bit is 0") else fits s c (fun c => sring (y_rpub Y i st x c))
    | BIntDiv => Fail (mixed_err o)
    | BEq => fits s c (fun c => sbit (req_public dbg (ra2b dbg) i st x c))
    | BLt => fits s c (fun c => sbit (rlt_public dbg (ra2b dbg) i st x c))
    | BLe => fits s c (fun c => sbit (rle_public dbg (ra2b dbg) i st x c))
    end.
  (** the same lines, by the kind of the share *)
  Definition bin_sp (i : pid) (st : rst S) (o : bbin) (x : shv) (c : bval F) : prog (shv * rst S) :=
    match x, c with
    | SF x, BF c => field_sp i st o x c
    | @SI s x, BI c s' => if isz_eqb s s' then ring_sp i st o x c else Fail (mixed_err o)
    | _, _ => Fail (mixed_err o)
    end.

  (** *** a public value and a share: rep3.rs:426-478, 569-621, 659-703, 741-801, 967-979, 1085-1153, 1197-1260, 1368-1431 *)
  Definition field_ps (i : pid) (st : rst S) (o : bbin) (c : F) (x : share F) : prog (shv * rst S) :=
    match o with
    | BAdd => ret st (SF (add_public i x c))
    | BSub => ret st (SF (sub_public_by_shared i c x))
    | BMul => ret st (SF (mul_public x c))
    | BDiv => sfld (div_public_by_shared i st c x)
    | BIntDiv => sfld (y_fby Y i st c x)
    | BEq => sbit (eq_bit_public W du (a2b W du) i st x c)
    | BLt => snbit (le_public_bit W du (a2b W du) i st x c)
    | BLe => sbit (ge_public_bit W du (a2b W du) i st x c)
    end.
  (** the same lines, a public value and a ring share *)
  Definition ring_ps (i : pid) (st : rst S) (o : bbin) (s : isz) (c : N) (x : share (RT s)) : prog (shv * rst S) :=
    match o with
    | BAdd => fits s c (fun c => ret st (SI (add_public i x c)))
    | BSub => fits s c (fun c => ret st (SI (sub_public_by_shared i c x)))
    | BMul => fits s c (fun c => ret st (SI (mul_public x c)))
    | BDiv => if isz_eqb s U1 then Fail no_bit_div else fits s c (fun c => sring (y_rby Y i st c x))
    | BIntDiv => Fail (mixed_err o)
    | BEq => fits s c (fun c => sbit (req_public dbg (ra2b dbg) i st x c))
    | BLt => fits s c (fun c => sbit (rgt_public dbg (ra2b dbg) i st x c))
    | BLe => fits s c (fun c => sbit (rge_public dbg (ra2b dbg) i st x c))
    end.
  (** the same lines, by the kind of the share *)
  Definition bin_ps (i : pid) (st : rst S) (o : bbin) (c : bval F) (x : shv) : prog (shv * rst S) :=
    match x, c with
    | SF x, BF c => field_ps i st o c x
    | @SI s x, BI c s' => if isz_eqb s s' then ring_ps i st o c x else Fail (mixed_err o)
    | _, _ => Fail (mixed_err o)
    end.

  (** the result of an operation on the [Rep3State] *)
  Definition lift (n : nat) (p : prog (shv * rst S)) : prog (bv * drst) := r <- p ;; Ret (BShr (fst r), (snd r, n)).
  (** rep3.rs:417-1527 [add], [sub], [mul], [div], [int_div], [eq], [lt], [le] *)
  Definition r_bin (i : pid) (st : drst) (o : bbin) (a b : bv) : prog (bv * drst) :=
    match a, b with
    | BPub x, BPub y => leaf (omap (fun v => (BPub v, st)) (plain_bin dbg o x y))
    | BPub x, BShr y => lift (snd st) (bin_ps i (fst st) o x y)
    | BShr x, BPub y => lift (snd st) (bin_sp i (fst st) o x y)
    | BShr x, BShr y => lift (snd st) (bin_ss i (fst st) o x y)
    end.
  (** rep3.rs:1027-1073 [not] *)
  Definition r_not (i : pid) (a : bv) : outcome bv :=
    match a with
    | BPub x => omap BPub (plain_not x)
    | BShr (@SI U1 x) => Done (BShr (SI (ring_not x)))
    | BShr (@SI s x) => Done (BShr (SI (add_public i (ring_not x) (rof 2))))
    | BShr (SF _) => Failed (Eyre "NOT is not supported for fields")
    end.
  (** rep3.rs:153-195 [cast_ring] and 221-344 [cast] *)
  Definition r_cast (i : pid) (st : drst) (a : bv) (t : bty) : prog (bv * drst) :=
    match a, t with
    | BPub x, _ => Ret (BPub (plain_cast x t), st)
    | BShr (SF x), TField => Ret (BShr (SF x), st)
    | BShr (@SI s x), TField => lift (snd st) (sfld (ring_to_field (T := RT s) dbg W du i (fst st) x))
    | BShr (SF x), TInt s => lift (snd st) (sring (field_to_ring (T := RT s) dbg W du i (fst st) x))
    | BShr (@SI s x), TInt s' => lift (snd st) (sring (cast_a2b (T := RT s) (U := RT s') dbg i (fst st) x))
    end.
  (** rep3.rs:377-411 [random] *)
  Definition r_random (i : pid) (st : drst) (a : bv) : prog (bv * drst) :=
    match a with
    | BPub x => Ret (BPub (trng i (snd st) (bty_of x)), (fst st, Datatypes.S (snd st)))
    | BShr (SF _) => let r := rand (G := F) (fst st) in Ret (BShr (SF (fst r)), (snd r, snd st))
    | BShr (@SI s _) => let r := rand (G := RT s) (fst st) in Ret (BShr (SI (fst r)), (snd r, snd st))
    end.
  (** rep3.rs:197-219 [fork] *)
  Definition r_fork (st : drst) : (drst * drst) * drst :=
    let f := fork (Seed := Seed) (fst st) in
    let g := fork (Seed := Seed) (snd f) in
    (((fst f, snd st), (fst g, snd st)), (snd g, snd st)).
  (** rep3.rs:34-50: the type of a value *)
  Definition bv_ty (a : bv) : bty :=
    match a with BPub x => bty_of x | BShr (SF _) => TField | BShr (@SI s _) => TInt s end.
  (** rep3.rs:1718-1778: the condition with the type of the values *)
  Definition cast_cond (i : pid) (st : drst) (c : share (RT U1)) (t : bty) : prog (bv * drst) :=
    match t with
    | TField => r_cast i st (BShr (SI c)) TField
    | TInt U1 => Ret (BShr (SI c), st)
    | TInt s => r_cast i st (BShr (SI c)) (TInt s)
    end.
  (** rep3.rs:1705-1785 [cmux] *)
  Definition r_cmux (i : pid) (st : drst) (c t f : bv) : prog (bv * drst) :=
    match c with
    | BPub (BI n U1) => Ret (if (n =? 1)%N then t else f, st)
    | BShr (@SI U1 c) =>
        cc <- cast_cond i st c (bv_ty t) ;;
        d <- r_bin i (snd cc) BSub t f ;;
        m <- r_bin i (snd d) BMul (fst cc) (fst d) ;;
        r_bin i (snd m) BAdd (fst m) f
    | _ => Fail (Eyre "cmux where cond is a non bool value")
    end.
  (** rep3.rs:1787-1805 [expect_int] *)
  Definition r_int_of (a : bv) (s : isz) : outcome bv :=
    match a with
    | BPub x => omap BPub (plain_int_of x s)
    | BShr (@SI s' _) => if isz_eqb s' s then Done a else Failed (Eyre "expected int")
    | BShr (SF _) => Failed (Eyre "expected int")
    end.
  (** rep3.rs:1807-1813 [expect_field] *)
  Definition r_field_of (a : bv) : outcome bv :=
    match a with BPub (BF _) | BShr (SF _) => Done a | _ => Failed (Eyre "expected field") end.
  (** rep3.rs:346-354 [try_into_usize], 356-364 [try_into_char], 366-371 [try_into_bool] *)
  Definition r_usize (a : bv) : outcome nat := match a with BPub x => plain_usize x | _ => Failed (Eyre "cannot convert shared value to usize") end.
  (** rep3.rs:356-364 [try_into_char] *)
  Definition r_char (a : bv) : outcome N := match a with BPub x => plain_char x | _ => Failed (Eyre "cannot convert shared value to char") end.
  (** rep3.rs:366-371 [try_into_bool] *)
  Definition r_bool (a : bv) : option bool := match a with BPub x => plain_bool x | _ => None end.

  (** *** [to_radix]: rep3.rs:1529-1703 *)
  Definition radix_err : err := Eyre "can only ToRadix on field and radix must be Int32".
  (** rep3.rs:1575-1590, 1636-1650, 1678-1690: a limb; [is_zero] of rep3_ring/binary.rs reads the arithmetic share as a binary one *)
  Definition limb (i : pid) (st : rst S) (x : share F) (bits : bool) : prog (bv * rst S) :=
    l <- y_f2r Y i st x ;;
    if bits then b <- ris_zero dbg 8 (rdraw (T := RT U8)) i (snd l) (mkShare (rto (sa (fst l))) (rto (sb (fst l)))) ;;
                 Ret (BShr (SI (to_bit (fst b))), snd b)
    else Ret (BShr (SI (fst l)), snd l).
  (** rep3.rs:1567-1593: radix not a power of two *)
  Fixpoint radix_public (n : nat) (i : pid) (st : rst S) (x : share F) (r : F) (bits : bool) : prog (list bv * rst S) :=
    match n with
    | O => Ret ([], st)
    | Datatypes.S n =>
        d <- y_fpub Y i st x r ;;
        l <- limb i (snd d) (shsub x (mul_public (fst d) r)) bits ;;
        ls <- radix_public n i (snd l) (fst d) r bits ;;
        Ret (fst ls ++ [fst l], snd ls)
    end.
  (** rep3.rs:1625-1652 and 1668-1693 *)
  Fixpoint radix_shared (n : nat) (i : pid) (st : rst S) (x r : share F) (bits : bool) : prog (list bv * rst S) :=
    match n with
    | O => Ret ([], st)
    | Datatypes.S n =>
        d <- y_fdiv Y i st x r ;;
        m <- mul i (snd d) (fst d) r ;;
        l <- limb i (snd m) (shsub x (fst m)) bits ;;
        ls <- radix_shared n i (snd l) (fst d) r bits ;;
        Ret (fst ls ++ [fst l], snd ls)
    end.
  (** rep3.rs:1546-1703: one of the two is shared *)
  Definition r_radix_s (i : pid) (st : rst S) (v r : bv) (n : nat) (bits : bool) : prog (list bv * rst S) :=
    match v, r with
    | BShr (SF x), BPub (BI r U32) =>
        if negb (r <? imod U32)%N then Fail must_fit
        else if (256 <? r)%N then Fail (Panic "radix is at most 256")
        else if npow2 r then
          l <- y_decompose Y i st x n (N.to_nat (N.log2 r)) ;; Ret (rev (map (fun l => BShr (SI l)) (fst l)), snd l)
        else radix_public n i st x (of_uint (r mod fu_p (F := F))%N) bits
    | BPub (BF c), BShr (@SI U32 r) =>
        rf <- y_r2f Y i st r ;;
        d <- y_fby Y i (snd rf) c (fst rf) ;;
        m <- mul i (snd d) (fst d) (fst rf) ;;
        l <- y_f2r Y i (snd m) (sub_public_by_shared i c (fst m)) ;;
        match n with
        | O => Fail (Panic "attempt to subtract with overflow")
        | Datatypes.S n =>
            ls <- radix_shared n i (snd l) (fst d) (fst rf) bits ;;
            Ret (fst ls ++ [BShr (SI (fst l))], snd ls)
        end
    | BShr (SF x), BShr (@SI U32 r) =>
        rf <- y_r2f Y i st r ;; radix_shared n i (snd rf) x (fst rf) bits
    | _, _ => Fail radix_err
    end.
  (** rep3.rs:1529-1703 [to_radix] *)
  Definition r_radix (i : pid) (st : drst) (v r : bv) (n : nat) (bits : bool) : prog (list bv * drst) :=
    match v, r with
    | BPub x, BPub y => leaf (omap (fun l => (map BPub l, st)) (plain_radix x y n bits))
    | _, _ => l <- r_radix_s i (fst st) v r n bits ;; Ret (fst l, (snd l, snd st))
    end.

  (** mpc/rep3.rs *)
  Definition rep3_bdriver (i : pid) : bdriver pid M F :=
    @mkD pid M F bv drst (BPub plain_default) (fun x t => BPub (plain_public x t)) r_usize r_char r_bool r_int_of r_field_of
      r_fork (r_not i) (r_cast i) (r_bin i) (r_radix i) (r_cmux i) (r_random i).
End Driver.
