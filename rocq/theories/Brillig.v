(** * The coBrillig VM: unconstrained functions on clear, public and shared values

    Models co-noir/co-brillig/src/brillig_vm.rs with memory.rs, field_ops.rs, int_ops.rs, blackbox.rs and
    taceo_std_lib.rs for an arbitrary driver ([bdriver]), and the driver on clear values, mpc/plain.rs.
    BrilligDriver.v has the driver of the three parties.

    Simplifications: the run of a function is bounded by [fuel] (the loop of brillig_vm.rs:88 need not
    end; running out of fuel is the error [no_fuel], which the code does not have, and the theorems say
    nothing about it); addresses and labels are [nat]s (the negative offsets of a [Relative] address, an
    error in memory.rs:50, are left out, and so are addresses beyond the memory of the machine); the
    [HashMap] of stored states is a list in the order of insertion; log output is dropped; the texts of
    error messages are shortened.  [unconstrained_functions] holds the code of the function that is run. *)
From Coq Require Import String List Arith NArith Lia Bool.
From Verif Require Import Proc Alg Rep3Net Rep3 Conv VmDriver.
Import ListNotations.
Set Implicit Arguments.
Local Open Scope grp_scope.
Local Open Scope string_scope.
Local Open Scope list_scope.

(** ** Types, values and opcodes *)
(** brillig [IntegerBitSize] *)
Inductive isz : Type := U1 | U8 | U16 | U32 | U64 | U128.
(** brillig [IntegerBitSize]: the derived [PartialEq] (used in mpc/plain.rs:122, 139, 203, 452) *)
Definition isz_dec (a b : isz) : {a = b} + {a <> b}.
Proof. decide equality. Defined.
(** the same as a boolean *)
Definition isz_eqb (a b : isz) : bool := if isz_dec a b then true else false.
(** brillig [IntegerBitSize] as a number *)
Definition ibits (s : isz) : nat :=
  match s with U1 => 1 | U8 => 8 | U16 => 16 | U32 => 32 | U64 => 64 | U128 => 128 end.
(** brillig [BitSize] *)
Inductive bty : Type := TField | TInt (s : isz).
(** mpc/plain.rs:43-49 [PlainBrilligType] *)
Inductive bval (F : Type) : Type := BF (x : F) | BI (n : N) (s : isz).
Arguments BF {F}. Arguments BI {F}.
(** the type of a value: mpc/plain.rs:43-49 *)
Definition bty_of {F} (v : bval F) : bty := match v with BF _ => TField | BI _ s => TInt s end.
(** brillig [MemoryAddress] *)
Inductive addr : Type := Direct (a : nat) | Relative (o : nat).
(** the operations of the driver on two values (mpc.rs:110-216) *)
Inductive bbin : Type := BAdd | BSub | BMul | BDiv | BIntDiv | BEq | BLt | BLe.
(** brillig [BinaryFieldOp] *)
Inductive fop : Type := FAdd | FSub | FMul | FDiv | FIntDiv | FEq | FLt | FLe.
(** brillig [BinaryIntOp] *)
Inductive iop : Type := IAdd | ISub | IMul | IDiv | IEq | ILt | ILe | IAnd | IOr | IXor | IShl | IShr.
(** brillig [ForeignCall], by its name: [FStore dests dest_types inputs input_types] for "TACEO_store"
    with the numbers of destinations, types and input types, and of each input the pointer and size if
    it is a [HeapArray]; [FDebug] for a name that starts with "__debug"; [FOther] *)
Inductive fcall : Type :=
| FStore (dests dtypes : nat) (inputs : list (option (addr * nat))) (itypes : nat) | FDebug | FOther.
(** brillig [Opcode] *)
Inductive bopc (F : Type) : Type :=
| BinF (o : fop) (l r d : addr)
| BinI (o : iop) (s : isz) (l r d : addr)
| NotO (d src : addr) (s : isz)
| CastO (d src : addr) (t : bty)
| JumpIf (c : addr) (loc : nat)
| Jump (loc : nat)
| CalldataCopy (d size off : addr)
| Call (loc : nat)
| ConstO (d : addr) (t : bty) (x : F)
| IndirectConst (dp : addr) (t : bty) (x : F)
| ReturnO
| Foreign (f : fcall)
| Mov (d src : addr)
| CondMov
| Load (d sp : addr)
| Store (dp src : addr)
| ToRadix (input radix out limbs bits : addr)
| OtherBlackBox
| Trap
| Stop (pointer size : addr).
Arguments BinF {F}. Arguments BinI {F}. Arguments NotO {F}. Arguments CastO {F}. Arguments JumpIf {F}. Arguments Jump {F}.
Arguments CalldataCopy {F}. Arguments Call {F}. Arguments ConstO {F}. Arguments IndirectConst {F}. Arguments ReturnO {F}.
Arguments Foreign {F}. Arguments Mov {F}. Arguments CondMov {F}. Arguments Load {F}. Arguments Store {F}. Arguments ToRadix {F}.
Arguments OtherBlackBox {F}. Arguments Trap {F}. Arguments Stop {F}.

(** ** The driver on clear values: mpc/plain.rs *)
Section Plain.
  Context {F : Type} `{FU : FieldUint F}.
  (** whether arithmetic overflow panics: a debug build *)
  Variable dbg : bool.
  Notation bval := (bval F).
  (** 2^128, the values of the [u128]s of mpc/plain.rs:48 *)
  Definition q128 : N := 2 ^ 128.
  (** the values of an integer type: mpc/plain.rs:12-23 *)
  Definition imod (s : isz) : N := 2 ^ N.of_nat (ibits s).

  (** mpc/plain.rs:222-224, 252-254, 282-284, 311-313, 363-365, 386-388 *)
  Definition mismatch : err := Eyre "type mismatch! Can only do bin ops on same types".
  (** the panic of debug builds on overflow, at mpc/plain.rs:209, 239, 269 *)
  Definition overflow : err := Panic "arithmetic overflow".
  (** the panic of division by zero, at mpc/plain.rs:299 *)
  Definition by_zero : err := Panic "attempt to divide by zero".

  (** mpc.rs:29-40 [to_u128] *)
  Definition to_u128 (x : F) : N := to_uint x mod q128.
  (** plain.rs:12-23 [wrapping_op]: [exact] is the result and [fits] says that it is a u128 *)
  Definition wrapping_op (fits : bool) (exact : N) (s : isz) : outcome bval :=
    if (negb fits && dbg)%bool then Failed overflow else Done (BI ((exact mod q128) mod imod s) s).
  (** plain.rs:198-226 [add], 228-256 [sub], 258-286 [mul], 288-315 [div] on integers *)
  Definition plain_int (o : bbin) (l r : N) (s : isz) : outcome bval :=
    match o, s with
    | BAdd, U128 => Done (BI ((l + r) mod q128) U128)
    | BSub, U128 => Done (BI ((l + q128 - r) mod q128) U128)
    | BMul, U128 => Done (BI ((l * r) mod q128) U128)
    | BDiv, U128 => if (r =? 0)%N then Failed by_zero else Done (BI (l / r) U128)
    | BAdd, _ => wrapping_op (l + r <? q128)%N (l + r) s
    | BSub, _ => wrapping_op (r <=? l)%N (l + q128 - r) s
    | BMul, _ => wrapping_op (l * r <? q128)%N (l * r) s
    | BDiv, _ => if (r =? 0)%N then Failed by_zero else Done (BI ((l / r) mod imod s) s)
    | BIntDiv, _ => Failed (Eyre "IntDiv only supported on fields")
    | BEq, _ => Done (BI (N.b2n (l =? r)%N) U1)
    | BLt, _ => Done (BI (N.b2n (l <? r)%N) U1)
    (* mpc.rs:193-216 [le] and [gt]: the complement of the swapped [lt] *)
    | BLe, _ => Done (BI (1 - N.b2n (r <? l)%N) U1)
    end.
  (** plain.rs:198-315 on fields, 317-329 [int_div], 346-367 [eq], 369-390 [lt]; mpc.rs:193-216 [le] *)
  Definition plain_field (o : bbin) (l r : F) : outcome bval :=
    match o with
    | BAdd => Done (BF (l + r))
    | BSub => Done (BF (l - r))
    | BMul => Done (BF (rmul l r))
    | BDiv => if feqb r 0 then Failed by_zero else Done (BF (rmul l (finv r)))
    | BIntDiv => if (to_uint r =? 0)%N then Failed by_zero else Done (BF (of_uint (to_uint l / to_uint r)))
    | BEq => Done (BI (N.b2n (feqb l r)) U1)
    | BLt => Done (BI (N.b2n (to_uint l <? to_uint r)%N) U1)
    | BLe => Done (BI (1 - N.b2n (to_uint r <? to_uint l)%N) U1)
    end.
  (** plain.rs:198-390 *)
  Definition plain_bin (o : bbin) (a b : bval) : outcome bval :=
    match a, b with
    | BF x, BF y => plain_field o x y
    | BI l s, BI r s' => if isz_eqb s s' then plain_int o l r s else Failed mismatch
    | _, _ => Failed mismatch
    end.
  (** plain.rs:81-116 [cast] *)
  Definition plain_cast (v : bval) (t : bty) : bval :=
    match v, t with
    | BF x, TField => BF x
    | BF x, TInt s => BI (N.land (to_u128 x) (N.ones (N.of_nat (ibits s)))) s
    | BI n _, TField => BF (of_uint (n mod fu_p (F := F))%N)
    | BI n s, TInt s' => if (ibits s <=? ibits s')%nat then BI n s' else BI (N.land n (N.ones (N.of_nat (ibits s')))) s'
    end.
  (** plain.rs:331-344 [not] *)
  Definition plain_not (v : bval) : outcome bval :=
    match v with
    | BI n s => Done (BI (N.land (N.lxor n (N.ones 128)) (N.ones (N.of_nat (ibits s)))) s)
    | BF _ => Failed (Eyre "NOT is not supported for fields")
    end.
  (** plain.rs:118-133 [try_into_usize] *)
  Definition plain_usize (v : bval) : outcome nat :=
    match v with
    | BI n U32 => if (n <? 2 ^ 64)%N then Done (N.to_nat n) else Failed (Panic "u32 into usize")
    | _ => Failed (Eyre "Must be 32 bits for addresses")
    end.
  (** plain.rs:135-150 [try_into_char] *)
  Definition plain_char (v : bval) : outcome N :=
    match v with
    | BI n U8 => if (n <? 256)%N then Done n else Failed (Panic "u8 fits into char")
    | _ => Failed (Eyre "Must be 8 bits for characters")
    end.
  (** plain.rs:152-158 [try_into_bool] *)
  Definition plain_bool (v : bval) : option bool := match v with BI n U1 => Some (negb (n =? 0)%N) | _ => None end.
  (** plain.rs:160-167 [public_value] *)
  Definition plain_public (x : F) (t : bty) : bval := match t with TField => BF x | TInt s => BI (to_u128 x) s end.
  (** plain.rs:66-72 [default] *)
  Definition plain_default : bval := BF 0.
  (** plain.rs:446-459 [expect_int] *)
  Definition plain_int_of (v : bval) (s : isz) : outcome bval :=
    match v with BI _ s' => if isz_eqb s' s then Done v else Failed (Eyre "expected int") | BF _ => Failed (Eyre "expected int") end.
  (** plain.rs:461-467 [expect_field] *)
  Definition plain_field_of (v : bval) : outcome bval := match v with BF _ => Done v | _ => Failed (Eyre "expected field") end.
  (** plain.rs:411-423: the limbs, the least significant one last *)
  Fixpoint plain_limbs (n : nat) (x radix : N) (bits : bool) : list bval :=
    match n with
    | O => []
    | Datatypes.S n => plain_limbs n (x / radix) radix bits ++
        [if bits then BI (if (x mod radix =? 0)%N then 0 else 1)%N U1 else BI (x mod radix) U8]
    end.
  (** plain.rs:392-431 [to_radix]; a remainder by zero panics *)
  Definition plain_radix (v r : bval) (n : nat) (bits : bool) : outcome (list bval) :=
    match v, r with
    | BF x, BI r U32 => if ((r =? 0)%N && (0 <? n)%nat)%bool then Failed by_zero else Done (plain_limbs n (to_uint x) r bits)
    | _, _ => Failed (Eyre "can only ToRadix on field and radix must be Int32")
    end.
  (** plain.rs:433-444 [cmux] *)
  Definition plain_cmux (c t f : bval) : outcome bval :=
    match c with BI n U1 => Done (if (n =? 1)%N then t else f) | _ => Failed (Eyre "cmux where cond is a non bool value") end.
End Plain.

(** ** Memory: memory.rs *)
Section Mem.
  Context {V : Type}.
  Variable d : V.
  (** memory.rs:60-68: the value at an address *)
  Definition mget (m : list V) (a : nat) : V := nth a m d.
  (** memory.rs:112-124 [write] after [resolve], with [resize_to_fit] *)
  Fixpoint mset (m : list V) (a : nat) (v : V) : list V :=
    match a, m with
    | O, [] => [v]
    | O, _ :: m => v :: m
    | Datatypes.S a, [] => d :: mset [] a v
    | Datatypes.S a, x :: m => x :: mset m a v
    end.
  (** memory.rs:127-136 [write_slice] where the slice starts *)
  Fixpoint over (vs m : list V) : list V := match vs with [] => m | v :: vs => v :: over vs (tl m) end.
  (** memory.rs:127-136 [write_slice] after [resolve] *)
  Fixpoint mslice (m : list V) (a : nat) (vs : list V) : list V :=
    match a, m with
    | O, _ => over vs m
    | Datatypes.S a, [] => d :: mslice [] a vs
    | Datatypes.S a, x :: m => x :: mslice m a vs
    end.
  (** the slice [from .. from + size] of a vector, which panics out of range *)
  Definition slice (m : list V) (from size : nat) : outcome (list V) :=
    if (from + size <=? length m)%nat then Done (firstn size (skipn from m)) else Failed (Panic "range end index out of range").
End Mem.

(** ** The VM for an arbitrary driver *)
(** mpc.rs:45-273 [BrilligDriver]; the operations that take [&self] are local *)
Record bdriver (P M F : Type) : Type := mkD {
  dV : Type; dSt : Type;
  d_default : dV;
  d_public : F -> bty -> dV;
  d_usize : dV -> outcome nat;
  d_char : dV -> outcome N;
  d_bool : dV -> option bool;
  d_int : dV -> isz -> outcome dV;
  d_field : dV -> outcome dV;
  d_fork : dSt -> (dSt * dSt) * dSt;
  d_not : dV -> outcome dV;
  d_cast : dSt -> dV -> bty -> prog P M (dV * dSt);
  d_bin : dSt -> bbin -> dV -> dV -> prog P M (dV * dSt);
  d_radix : dSt -> dV -> dV -> nat -> bool -> prog P M (list dV * dSt);
  d_cmux : dSt -> dV -> dV -> dV -> prog P M (dV * dSt);
  d_random : dSt -> dV -> prog P M (dV * dSt)
}.
Arguments mkD {P M F dV dSt}.

(** brillig_vm.rs:19-32 [CoBrilligVM] *)
Record bst (V St : Type) : Type := mkB {
  b_mem : list V; b_drv : St; b_ctx : option V; b_pss : list (list N * list V);
  b_cd : list V; b_stack : list nat; b_ip : nat }.
Arguments mkB {V St}.
(** brillig_vm.rs:41-61 [CoBrilligResult] *)
Inductive bres (V : Type) : Type := BSuccess (ws : list V) (pss : list (list N * list V)) | BTrap.
Arguments BSuccess {V}. Arguments BTrap {V}.

(** the model's own error *)
Definition no_fuel : err := Panic "out of fuel".

(** field_ops.rs:41-60 *)
Definition fbin (o : fop) : bbin :=
  match o with FAdd => BAdd | FSub => BSub | FMul => BMul | FDiv => BDiv | FIntDiv => BIntDiv | FEq => BEq | FLt => BLt | FLe => BLe end.
(** int_ops.rs:36-57; [None]: [todo!] *)
Definition ibin (o : iop) : option bbin :=
  match o with
  | IAdd => Some BAdd | ISub => Some BSub | IMul => Some BMul | IDiv => Some BDiv
  | IEq => Some BEq | ILt => Some BLt | ILe => Some BLe
  | IAnd | IOr | IXor | IShl | IShr => None
  end.
(** field_ops.rs:41-60, int_ops.rs:36-57: whether the operation is [Div] *)
Definition is_div (o : bbin) : bool := match o with BDiv => true | _ => false end.
(** int_ops.rs:21-25 *)
Definition rhs_size (o : iop) (s : isz) : isz := match o with IShl | IShr => U8 | _ => s end.
(** [todo!] of brillig_vm.rs:167, int_ops.rs:52-56, blackbox.rs:21 *)
Definition todo_err : err := Panic "not yet implemented".

(** equality of identifiers of stored states: taceo_std_lib.rs:48-54 *)
Definition mem_key (k k' : list N) : bool := if list_eq_dec N.eq_dec k k' then true else false.

Section Vm.
  Context {P M F : Type} `{CR : CRing F} (D : bdriver P M F).
  Notation V := (dV D).
  Notation St := (dSt D).
  Notation bst := (bst V St).
  Notation prog := (prog P M).
  Notation res := (bres V * bst)%type.
  Variable code : list (bopc F).

  (** assignment to [self.memory]: memory.rs:112-136 *)
  Definition set_mem (s : bst) (m : list V) : bst := mkB m (b_drv s) (b_ctx s) (b_pss s) (b_cd s) (b_stack s) (b_ip s).
  (** assignment to [self.driver]: brillig_vm.rs:477-502 *)
  Definition set_drv (s : bst) (d : St) : bst := mkB (b_mem s) d (b_ctx s) (b_pss s) (b_cd s) (b_stack s) (b_ip s).
  (** brillig_vm.rs:210-213 *)
  Definition set_ip (s : bst) (ip : nat) : bst := mkB (b_mem s) (b_drv s) (b_ctx s) (b_pss s) (b_cd s) (b_stack s) ip.
  (** brillig_vm.rs:206-208 *)
  Definition next (s : bst) : bst := set_ip s (b_ip s + 1)%nat.

  (** memory.rs:42-57 [resolve] *)
  Definition resolve (s : bst) (a : addr) : outcome nat :=
    match a with
    | Direct a => Done a
    | Relative o => obind (d_usize D (mget (d_default D) (b_mem s) 0)) (fun sp => Done (sp + o)%nat)
    end.
  (** memory.rs:60-68 [read] *)
  Definition read (s : bst) (a : addr) : outcome V := omap (mget (d_default D) (b_mem s)) (resolve s a).
  (** memory.rs:91-93 [try_read_usize] *)
  Definition read_usize (s : bst) (a : addr) : outcome nat := obind (read s a) (d_usize D).
  (** memory.rs:95-97 [try_read_field] *)
  Definition read_field (s : bst) (a : addr) : outcome V := obind (read s a) (d_field D).
  (** memory.rs:99-105 [try_read_int] *)
  Definition read_int (s : bst) (a : addr) (z : isz) : outcome V := obind (read s a) (fun v => d_int D v z).
  (** memory.rs:107-109 [read_ref]: the address must be a u32 *)
  Definition read_ref (s : bst) (a : addr) : outcome nat :=
    obind (read_usize s a) (fun n => if (N.of_nat n <? 2 ^ 32)%N then Done n else Failed (Eyre "out of range integral type conversion")).
  (** memory.rs:112-117 [write] *)
  Definition write (s : bst) (a : addr) (v : V) : outcome bst :=
    omap (fun a => set_mem s (mset (d_default D) (b_mem s) a v)) (resolve s a).
  (** memory.rs:127-136 [write_slice] *)
  Definition write_slice (s : bst) (a : addr) (vs : list V) : outcome bst :=
    omap (fun a => set_mem s (mslice (d_default D) (b_mem s) a vs)) (resolve s a).
  (** memory.rs:72-89 [read_heap_array] *)
  Definition read_heap_array (s : bst) (h : addr * nat) : outcome (list V) :=
    if (snd h =? 0)%nat then Done []
    else omap (fun p => map (fun o => mget (d_default D) (b_mem s) (p + o)%nat) (seq 0 (snd h))) (read_ref s (fst h)).

  (** field_ops.rs:41-59 and int_ops.rs:36-57: a division in a shared context selects the divisor first *)
  Definition guarded (s : bst) (o : bbin) (l r : V) : prog (V * St) :=
    match b_ctx s with
    | Some c => if is_div o then r' <- d_cmux D (b_drv s) c r (d_public D rone TField) ;; d_bin D (snd r') o l (fst r')
                else d_bin D (b_drv s) o l r
    | None => d_bin D (b_drv s) o l r
    end.
  (** the result of an operation of the driver, written to memory *)
  Definition write_next (s : bst) (d : addr) (v : V * St) : prog bst := leaf (omap next (write (set_drv s (snd v)) d (fst v))).
  (** field_ops.rs:11-64 [handle_binary_field_op] *)
  Definition bin_field (s : bst) (o : fop) (l r d : addr) : prog bst :=
    a <- leaf (read_field s l) ;; b <- leaf (read_field s r) ;;
    v <- guarded s (fbin o) a b ;; write_next s d v.
  (** int_ops.rs:12-62 [handle_binary_int_op] *)
  Definition bin_int (s : bst) (o : iop) (z : isz) (l r d : addr) : prog bst :=
    a <- leaf (read_int s l z) ;; b <- leaf (read_int s r (rhs_size o z)) ;;
    match ibin o with
    | Some o => v <- guarded s o a b ;; write_next s d v
    | None => Fail todo_err
    end.
  (** brillig_vm.rs:233-247 [handle_calldata_copy] *)
  Definition calldata_copy (s : bst) (d size off : addr) : outcome bst :=
    obind (read_usize s size) (fun n => obind (read_usize s off) (fun o =>
    obind (slice (b_cd s) o n) (fun vs => omap next (write_slice s d vs)))).
  (** the characters of an identifier: taceo_std_lib.rs:32-34 *)
  Fixpoint chars (vs : list V) : outcome (list N) :=
    match vs with [] => Done [] | v :: vs => obind (d_char D v) (fun c => omap (cons c) (chars vs)) end.
  (** taceo_std_lib.rs:11-57 [taceo_store] *)
  Definition taceo_store (s : bst) (dests dtypes : nat) (ins : list (option (addr * nat))) (itypes : nat) : outcome bst :=
    match b_ctx s with
    | Some _ => Failed (Eyre "Cannot store private shared state when in shared if")
    | None =>
        if negb ((dtypes =? 0)%nat && (dests =? 0)%nat) then Failed (Eyre "Do not expect return types")
        else if negb ((length ins =? 2)%nat && (itypes =? 2)%nat) then Failed (Eyre "We expect two inputs")
        else match ins with
             | [Some name; data] =>
                 obind (read_heap_array s name) (fun vs => obind (chars vs) (fun k =>
                   match data with
                   | Some data =>
                       obind (read_heap_array s data) (fun ws =>
                         if existsb (fun e => mem_key k (fst e)) (b_pss s) then Failed (Eyre "duplicate entry for shared state id")
                         else Done (mkB (b_mem s) (b_drv s) (b_ctx s) (b_pss s ++ [(k, ws)]) (b_cd s) (b_stack s) (b_ip s)))
                   | None => Failed (Eyre "Second parameter must be array of field elements")
                   end))
             | _ => Failed (Eyre "First parameter must be a string identifier")
             end
    end.
  (** brillig_vm.rs:374-396 [handle_foreign_call] *)
  Definition foreign (s : bst) (f : fcall) : outcome bst :=
    match f with
    | FStore a b c d => omap next (taceo_store s a b c d)
    | FDebug => Done (next s)
    | FOther => Failed (Eyre "unsupported oracle function")
    end.
  (** blackbox.rs:27-54 [handle_to_radix] *)
  Definition to_radix (s : bst) (input radix out limbs bits : addr) : prog bst :=
    v <- leaf (read_field s input) ;; r <- leaf (read_int s radix U32) ;; n <- leaf (read_usize s limbs) ;;
    b <- leaf (obind (read_int s bits U1) (fun b => match d_bool D b with Some b => Done b | None => Failed (Panic "output_bits must be a public") end)) ;;
    l <- d_radix D (b_drv s) v r n b ;;
    leaf (obind (read_ref s out) (fun o => omap next (write_slice (set_drv s (snd l)) (Direct o) (fst l)))).

  (** one opcode that neither branches on a value nor ends the run: brillig_vm.rs:88-182 *)
  Definition step (s : bst) (o : bopc F) : prog bst :=
    match o with
    | BinF o l r d => bin_field s o l r d
    | BinI o z l r d => bin_int s o z l r d
    (* int_ops.rs:64-78 [handle_not] *)
    | NotO d a z => leaf (obind (read_int s a z) (fun v => obind (d_not D v) (fun v => omap next (write s d v))))
    (* brillig_vm.rs:407-418 [handle_cast] *)
    | CastO d a t => v <- leaf (read s a) ;; r <- d_cast D (b_drv s) v t ;; write_next s d r
    (* brillig_vm.rs:369-372 *)
    | Jump loc => Ret (set_ip s loc)
    | CalldataCopy d n o => leaf (calldata_copy s d n o)
    (* brillig_vm.rs:215-220 *)
    | Call loc => Ret (mkB (b_mem s) (b_drv s) (b_ctx s) (b_pss s) (b_cd s) (b_ip s :: b_stack s) loc)
    (* brillig_vm.rs:249-259 *)
    | ConstO d t x => leaf (omap next (write s d (d_public D x t)))
    (* brillig_vm.rs:462-475 *)
    | IndirectConst dp t x => leaf (obind (read_ref s dp) (fun a => omap next (write s (Direct a) (d_public D x t))))
    (* brillig_vm.rs:398-405 *)
    | ReturnO => match b_stack s with
                 | l :: ls => Ret (mkB (b_mem s) (b_drv s) (b_ctx s) (b_pss s) (b_cd s) ls (l + 1)%nat)
                 | [] => Fail (Eyre "return opcode hit, but callstack already empty")
                 end
    | Foreign f => leaf (foreign s f)
    (* brillig_vm.rs:222-231 *)
    | Mov d a => leaf (obind (read s a) (fun v => omap next (write s d v)))
    | CondMov => Fail todo_err
    (* brillig_vm.rs:434-446 *)
    | Load d sp => leaf (obind (read_ref s sp) (fun a => obind (read s (Direct a)) (fun v => omap next (write s d v))))
    (* brillig_vm.rs:448-460 *)
    | Store dp a => leaf (obind (read_ref s dp) (fun d => obind (read s a) (fun v => omap next (write s (Direct d) v))))
    | ToRadix a b c d e => to_radix s a b c d e
    | OtherBlackBox => Fail todo_err
    | JumpIf _ _ | Trap | Stop _ _ => Fail todo_err
    end.

  (** brillig_vm.rs:420-432 [handle_stop] and 504-508 [take_result] *)
  Definition stop (s : bst) (pointer size : addr) : outcome res :=
    obind (read_usize s size) (fun n =>
    obind (if (0 <? n)%nat then read_ref s pointer else Done 0%nat) (fun off =>
    obind (slice (b_mem s) off n) (fun ws =>
    Done (BSuccess ws (b_pss s), mkB [] (b_drv s) (b_ctx s) [] (b_cd s) (b_stack s) (b_ip s))))).

  (** brillig_vm.rs:311-315, 331-335 *)
  Fixpoint noise (st : St) (vs : list V) : prog (list V * St) :=
    match vs with
    | [] => Ret ([], st)
    | v :: vs => r <- d_random D st v ;; rs <- noise (snd r) vs ;; Ret (fst r :: fst rs, snd rs)
    end.
  (** brillig_vm.rs:351-360 *)
  Fixpoint cmuxes (st : St) (c : V) (ts fs : list V) : prog (list V * St) :=
    match ts, fs with
    | t :: ts, f :: fs => r <- d_cmux D st c t f ;; rs <- cmuxes (snd r) c ts fs ;; Ret (fst r :: fst rs, snd rs)
    | _, _ => Ret ([], st)
    end.
  (** the universe of one branch: brillig_vm.rs:477-502 and 286-289 *)
  Definition universe (s : bst) (d : St) (ctx : V) (a : addr) (b : F) (ip : nat) : outcome bst :=
    omap (fun s => set_ip s ip)
      (write (mkB (b_mem s) d (Some ctx) (b_pss s) (b_cd s) (b_stack s) (b_ip s)) a (d_public D b (TInt U1))).
  (** brillig_vm.rs:297, 308, 326 *)
  Definition pss_err : err := Eyre "cannot have TACEO stores in shared if atm".
  (** brillig_vm.rs:294-365: the two results, selected by the condition; [s] is the VM after the fork *)
  Definition merge (s : bst) (c : V) (rt rf : bres V) : prog res :=
    let finish (st : St) (ts fs : list V) : prog res :=
      r <- cmuxes st c ts fs ;; Ret (BSuccess (fst r) (b_pss s), set_drv s (snd r)) in
    match rt, rf with
    | BSuccess ts tp, BSuccess fs fp =>
        if negb (match tp, fp with [], [] => true | _, _ => false end) then Fail pss_err
        else if negb (length ts =? length fs)%nat then Fail (Eyre "truthy and falsy universe have different result lengths")
        else finish (b_drv s) ts fs
    | BSuccess ts tp, BTrap =>
        match tp with [] => n <- noise (b_drv s) ts ;; finish (snd n) ts (fst n) | _ => Fail pss_err end
    | BTrap, BSuccess fs fp =>
        match fp with [] => n <- noise (b_drv s) fs ;; finish (snd n) (fst n) fs | _ => Fail pss_err end
    | BTrap, BTrap => Ret (BTrap, s)
    end.

  (** brillig_vm.rs:85-183 [run_inner] with 261-367 [handle_jump_if] *)
  Fixpoint run_inner (fuel : nat) (s : bst) : prog res :=
    match fuel with
    | O => Fail no_fuel
    | Datatypes.S fuel =>
        match nth_error code (b_ip s) with
        | None => Fail (Panic "index out of bounds")
        | Some Trap => Ret (BTrap, s)
        | Some (Stop p n) => leaf (stop s p n)
        | Some (JumpIf a loc) =>
            c <- leaf (read s a) ;;
            match d_bool D c with
            | Some true => run_inner fuel (set_ip s loc)
            | Some false => run_inner fuel (next s)
            | None =>
                if (loc <=? b_ip s)%nat then Fail (Eyre "can only jump forward with shared if")
                else match b_ctx s with
                | Some _ => Fail (Eyre "we can only support one shared if atm")
                | None =>
                    let fk := d_fork D (b_drv s) in
                    nc <- leaf (d_not D c) ;;
                    st <- leaf (universe s (fst (fst fk)) c a rone loc) ;;
                    sf <- leaf (universe s (snd (fst fk)) nc a 0 (b_ip s + 1)%nat) ;;
                    rt <- run_inner fuel st ;;
                    rf <- run_inner fuel sf ;;
                    merge (mkB [] (snd fk) None (b_pss s) (b_cd s) (b_stack s) (b_ip s)) c (fst rt) (fst rf)
                end
            end
        | Some o => s' <- step s o ;; run_inner fuel s'
        end
    end.

  (** brillig_vm.rs:75-83 [run] *)
  Definition brun (fuel : nat) (calldata : list V) (s : bst) : prog res :=
    run_inner fuel (mkB (b_mem s) (b_drv s) (b_ctx s) (b_pss s) calldata (b_stack s) 0%nat).
  (** brillig_vm.rs:190-204 [init] *)
  Definition binit (d : St) : bst := mkB [] d None [] [] [] 0%nat.
End Vm.

(** ** The VM on clear values *)
Section PlainVm.
  Context {F : Type} `{FU : FieldUint F}.
  Variables (P M : Type) (dbg : bool).
  (** [thread_rng] of plain.rs:169-192, the n-th draw *)
  Variable trng : nat -> bty -> bval F.
  (** mpc/plain.rs *)
  Definition plain_driver : bdriver P M F :=
    @mkD P M F (bval F) nat plain_default plain_public plain_usize plain_char plain_bool plain_int_of plain_field_of
      (fun n => ((n, n), n)) plain_not
      (fun st v t => Ret (plain_cast v t, st))
      (fun st o a b => leaf (omap (fun v => (v, st)) (plain_bin dbg o a b)))
      (fun st v r n b => leaf (omap (fun v => (v, st)) (plain_radix v r n b)))
      (fun st c t f => leaf (omap (fun v => (v, st)) (plain_cmux c t f)))
      (fun st v => Ret (trng st (bty_of v), Datatypes.S st)).
End PlainVm.
