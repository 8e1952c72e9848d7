(** * The co-circom MPC-VM: drivers

    Models co-circom/circom-mpc-vm/src/mpc/plain.rs (the driver on clear values) and
    co-circom/circom-mpc-vm/src/mpc/rep3.rs (the driver of three parties on values that are public
    or secret-shared).

    Simplifications: the private generator a party seeds for a Yao conversion is an arbitrary
    function [rgof] of its state; the two conversions that bit operations on two shared operands
    run at the same time on two networks (rep3.rs:487-490, 509-512, 530-533) are run one after the
    other, each on its own state (Join.v proves that this gives the same results); log strings and
    the Poseidon2 accelerator are not modelled. *)
From Coq Require Import String List Arith NArith Lia Bool.
From Verif Require Import Proc Alg Rep3Net Rep3 Rep3Spec Uint Binary Conv Garble Circuits Yao.
Import ListNotations.
Set Implicit Arguments.
Local Open Scope grp_scope.
Local Open Scope string_scope.

(** mpc.rs: the operations with two operands, and with one *)
Inductive bop : Type :=
| OAdd | OSub | OMul | ODiv | OIntDiv | OPow | OMod | OLt | OLe | OGt | OGe | OEq | ONeq
| OShiftR | OShiftL | OBoolOr | OBoolAnd | OBitOr | OBitAnd | OBitXor.
Inductive uop : Type := ONeg | OSqrt | OBoolNot.

Definition obind {A B} (o : outcome A) (f : A -> outcome B) : outcome B :=
  match o with Done a => f a | Failed e => Failed e end.
Definition omap {A B} (f : A -> B) (o : outcome A) : outcome B := obind o (fun a => Done (f a)).

(** ** plain.rs *)
Section Plain.
  Context {F : Type} `{FU : FieldUint F}.
  Variable fsqrt : F -> option F.   (* ark-ff [Field::sqrt] *)
  Notation p := (fu_p (F := F)).

  (** plain.rs:44-51: (p+1)/2 *)
  Definition half : F := finv (rone + rone).
  (** plain.rs:60-62 *)
  Definition val (z : F) : F := z - half.
  (** plain.rs:65-67 *)
  Definition is_negative (x : F) : bool := (to_uint half <=? to_uint x)%N.
  (** plain.rs:14-23 [to_usize!] *)
  Definition to_usize (x : F) : outcome N :=
    if (to_uint x <? 2 ^ 64)%N then Done (to_uint x) else Failed (Eyre "Cannot convert var into usize").
  (** field_uint.rs [from_uint_reduced] *)
  Definition reduced (u : N) : F := of_uint (u mod p)%N.
  Definition is01 (x : F) : bool := feqb x rone || feqb x 0.
  Definition boolF (b : bool) : F := if b then rone else 0.

  (** plain.rs:76-225 *)
  Definition plain_bop (o : bop) (a b : F) : outcome F :=
    match o with
    | OAdd => Done (a + b)                                         (* 76-80 *)
    | OSub => Done (a - b)                                         (* 82-86 *)
    | OMul => Done (rmul a b)                                      (* 88-90 *)
    | ODiv => if feqb b 0 then Failed (Panic "called `Option::unwrap()` on a `None` value")
              else Done (rmul a (finv b))                          (* 92-94 *)
    | OIntDiv => if feqb b 0 then Failed (Panic "attempt to divide by zero")
                 else Done (reduced (to_uint a / to_uint b))       (* 96-100 *)
    | OPow => Done (rpow a (N.to_nat (to_uint b)))                 (* 102-104 *)
    | OMod => if feqb b 0 then Failed (Panic "attempt to calculate the remainder with a divisor of zero")
              else Done (reduced (to_uint a mod to_uint b))        (* 106-110 *)
    | OLt => Done (boolF (to_uint (val a) <? to_uint (val b))%N)     (* 127-129 with 26-38 *)
    | OLe => Done (boolF (to_uint (val a) <=? to_uint (val b))%N)    (* 131-133 *)
    | OGt => Done (boolF (to_uint (val b) <? to_uint (val a))%N)     (* 135-137 *)
    | OGe => Done (boolF (to_uint (val b) <=? to_uint (val a))%N)    (* 139-141 *)
    | OEq => Done (boolF (feqb a b))                               (* 143-151 *)
    | ONeq => Done (boolF (negb (feqb a b)))                       (* 153-161 *)
    | OShiftR => obind (to_usize b) (fun s => Done (of_uint (ushr (to_uint a) (N.to_nat s))))         (* 163-168 *)
    | OShiftL => obind (to_usize b) (fun s => Done (rmul a (rpow (rone + rone) (N.to_nat s))))        (* 170-174 *)
    | OBoolOr => obind (to_usize a) (fun x => obind (to_usize b) (fun y =>
                   Done (boolF ((y =? 1) || (x =? 1))%N)))           (* 193-203 *)
    | OBoolAnd => obind (to_usize a) (fun x => obind (to_usize b) (fun y =>
                   Done (boolF ((y =? 1) && (x =? 1))%N)))           (* 181-191 *)
    | OBitOr => Done (reduced (N.lor (to_uint a) (to_uint b)))     (* 219-221 *)
    | OBitAnd => Done (reduced (N.land (to_uint a) (to_uint b)))   (* 223-225 *)
    | OBitXor => Done (reduced (N.lxor (to_uint a) (to_uint b)))   (* 215-217 *)
    end.
  (** plain.rs:112-125, 176-179 *)
  Definition plain_uop (o : uop) (a : F) : outcome F :=
    match o with
    | ONeg => Done (- a)
    | OSqrt => match fsqrt a with
               | None => Failed (Eyre "cannot compute sqrt for")
               | Some r => Done (if is_negative r then - r else r)
               end
    | OBoolNot => if is01 a then Done (rone - a) else Failed (Panic "assertion failed: a.is_one() || a.is_zero()")
    end.
  (** plain.rs:205-213 *)
  Definition plain_cmux (c t f : F) : outcome F :=
    if is01 c then Done (if feqb c rone then t else f) else Failed (Panic "assertion failed: cond.is_one() || cond.is_zero()").
  (** plain.rs:259-266; bits at or above the width of the integer are zero, as [N.testbit] gives *)
  Definition bits_of (u : N) (n : nat) : list F := map (fun i => boolF (ubit u i)) (seq 0 n).
  Definition plain_num2bits (a : F) (bits : nat) : list F := bits_of (to_uint a) bits.
  (** plain.rs:276-277: most significant bit first *)
  Definition horner_bits (l : list F) : F := fold_left (fun acc x => acc + acc + x) l 0.
  Definition addbits_err {A} : outcome A := Failed (Panic "assertion failed").
  (** plain.rs:268-287 *)
  Definition plain_addbits (a b : list F) : outcome (list F * F) :=
    if (length a =? length b)%nat then
      if (length a <? mbs F - 1)%nat then
        let sum := to_uint (horner_bits a + horner_bits b) in
        Done (rev (bits_of sum (length a)), boolF (ubit sum (length a)))
      else addbits_err
    else addbits_err.
End Plain.

(** ** rep3.rs *)
(** rep3.rs:33-42 [Rep3VmType] *)
Inductive rv (F : Type) : Type := RPub : F -> rv F | RSh : share F -> rv F.
Arguments RPub {F}. Arguments RSh {F}.

Section Rep3Driver.
  Context {F : Type} `{FU : FieldUint F} {S M : Type} (W : nat) (du : nat -> S -> N * S) {DF : Draw S F}.
  Context {Seed : Type} {SS : Seeded S Seed} {DS : Draw S Seed}.
  Context {EN : Enc M (list N)} {ENN : Enc M (list (N * N))}
          {EL : Enc M (list (list N))} {ELL : Enc M (list (list N * list N))} {EF : Enc M (list F)}.
  Variables (hash : N -> N -> N) (gtweak : N -> N) (otweak : N -> bool -> N).
  Context {Dg : Type} {ED : Enc M (list Dg)}.
  Variables (digest : list N -> Dg) (dg_eqb : Dg -> Dg -> bool).
  Variables (draw_label draw_delta : S -> N * S).
  Variable fsqrt : F -> option F.
  Variable rgof : pid -> rst S -> S.
  Variable t : a2b_type.              (* [A2BType] of the states *)
  Notation prog := (prog pid M).
  Notation p := (fu_p (F := F)).
  Notation rv := (rv F).
  (** rep3.rs:71-78: [state0] and [state1] *)
  Definition dst := (rst S * rst S)%type.

  (** conversion.rs:36-57 *)
  Definition a2bs (i : pid) (st : rst S) (x : share F) : prog (share N * rst S) :=
    r <- a2b_selector (Seed := Seed) W du hash gtweak digest dg_eqb draw_label draw_delta t i x st (rgof i st) ;;
    Ret (fst r, fst (snd r)).
  Definition b2as (i : pid) (st : rst S) (x : share N) : prog (share F * rst S) :=
    r <- b2a_selector (Seed := Seed) W du hash gtweak otweak digest dg_eqb draw_label draw_delta t i x st (rgof i st) ;;
    Ret (fst r, fst (snd r)).
  (** the calls into yao.rs *)
  Definition drop_rg {A} (q : prog (A * (rst S * S))) : prog (A * rst S) := r <- q ;; Ret (fst r, fst (snd r)).
  Definition y_div_pow2 (i : pid) (st : rst S) (a : share F) (bit : nat) : prog (share F * rst S) :=
    drop_rg (field_int_div_power_2 (Seed := Seed) W hash gtweak otweak digest dg_eqb draw_label draw_delta i a st (rgof i st) bit).
  Definition y_div_public (i : pid) (st : rst S) (a : share F) (b : F) : prog (share F * rst S) :=
    drop_rg (field_int_div_by_public (Seed := Seed) W hash gtweak otweak digest dg_eqb draw_label draw_delta i a b st (rgof i st)).
  Definition y_div_shared (i : pid) (st : rst S) (a : F) (b : share F) : prog (share F * rst S) :=
    drop_rg (field_int_div_by_shared (Seed := Seed) W hash gtweak otweak digest dg_eqb draw_label draw_delta i a b st (rgof i st)).
  Definition y_div (i : pid) (st : rst S) (a b : share F) : prog (share F * rst S) :=
    drop_rg (field_int_div (Seed := Seed) W hash gtweak otweak digest dg_eqb draw_label draw_delta i a b st (rgof i st)).
  Definition y_mod_pow2 (i : pid) (st : rst S) (a : share F) (bit : nat) : prog (share F * rst S) :=
    drop_rg (field_mod_power_2 (Seed := Seed) W hash gtweak otweak digest dg_eqb draw_label draw_delta i a st (rgof i st) bit).

  (** rep3.rs:27-29 *)
  Definition is_power_of_two (v : N) : bool := (negb (v =? 0) && (N.land v (v - 1) =? 0))%N.
  (** rep3.rs:100-102 *)
  Definition sval (i : pid) (z : share F) : share F := sub_shared_by_public i z half.

  (** results of the operations below *)
  Definition pub (d : dst) (x : outcome F) : prog (rv * dst) :=
    match x with Done v => Ret (RPub v, d) | Failed e => Fail e end.
  Definition local (d : dst) (x : share F) : prog (rv * dst) := Ret (RSh x, d).
  (** an operation on [net0] with [state0] *)
  Definition on0 (d : dst) (q : rst S -> prog (share F * rst S)) : prog (rv * dst) :=
    r <- q (fst d) ;; Ret (RSh (fst r), (snd r, snd d)).
  Definition todo (s : string) : prog (rv * dst) := Fail (Panic ("not yet implemented: " ++ s)).

  (** rep3.rs:142-153, also called by [bool_and] (432-437) and [cmux] *)
  Definition rep3_mul (i : pid) (d : dst) (a b : rv) : prog (rv * dst) :=
    match a, b with
    | RPub a, RPub b => pub d (plain_bop OMul a b)
    | RPub b, RSh a | RSh a, RPub b => local d (mul_public a b)
    | RSh a, RSh b => on0 d (fun st => mul i st a b)
    end.
  (** rep3.rs:114-125 *)
  Definition rep3_add (i : pid) (d : dst) (a b : rv) : prog (rv * dst) :=
    match a, b with
    | RPub a, RPub b => pub d (plain_bop OAdd a b)
    | RPub b, RSh a | RSh a, RPub b => local d (add_public i a b)
    | RSh a, RSh b => local d (shadd a b)
    end.
  (** rep3.rs:127-140 *)
  Definition rep3_sub (i : pid) (d : dst) (a b : rv) : prog (rv * dst) :=
    match a, b with
    | RPub a, RPub b => pub d (plain_bop OSub a b)
    | RSh a, RPub b => local d (sub_shared_by_public i a b)
    | RPub a, RSh b => local d (sub_public_by_shared i a b)
    | RSh a, RSh b => local d (shsub a b)
    end.
  (** rep3.rs:155-173 *)
  Definition rep3_div (i : pid) (d : dst) (a b : rv) : prog (rv * dst) :=
    match a, b with
    | RPub a, RPub b => pub d (plain_bop ODiv a b)
    | RPub a, RSh b => on0 d (fun st => r <- inv i st b ;; Ret (mul_public (fst r) a, snd r))
    | RSh a, RPub b => if feqb b 0 then Fail (Eyre "Cannot invert zero") else local d (mul_public a (finv b))
    | RSh a, RSh b => on0 d (fun st => r <- inv i st b ;; mul i (snd r) a (fst r))
    end.
  (** rep3.rs:175-197 *)
  Definition rep3_int_div (i : pid) (d : dst) (a b : rv) : prog (rv * dst) :=
    match a, b with
    | RPub a, RPub b => pub d (plain_bop OIntDiv a b)
    | RPub a, RSh b => on0 d (fun st => y_div_shared i st a b)
    | RSh a, RPub b =>
        if is_power_of_two (to_uint b) then on0 d (fun st => y_div_pow2 i st a (ubit_len (to_uint b) - 1))
        else on0 d (fun st => y_div_public i st a b)
    | RSh a, RSh b => on0 d (fun st => y_div i st a b)
    end.
  (** rep3.rs:199-210 *)
  Definition rep3_pow (i : pid) (d : dst) (a b : rv) : prog (rv * dst) :=
    match a, b with
    | RPub a, RPub b => pub d (plain_bop OPow a b)
    | RSh a, RPub b => if feqb b 0 then Ret (RPub rone, d) else on0 d (fun st => pow_public i st a (to_uint b))
    | _, _ => todo "pow with shared exponent not implemented"
    end.
  (** rep3.rs:212-240 *)
  Definition rep3_mod (i : pid) (d : dst) (a b : rv) : prog (rv * dst) :=
    match a, b with
    | RPub a, RPub b => pub d (plain_bop OMod a b)
    | RPub a, RSh b => on0 d (fun st => q <- y_div_shared i st a b ;; m <- mul i (snd q) (fst q) b ;;
                                        Ret (sub_public_by_shared i a (fst m), snd m))
    | RSh a, RPub b =>
        if is_power_of_two (to_uint b) then on0 d (fun st => y_mod_pow2 i st a (ubit_len (to_uint b) - 1))
        else on0 d (fun st => q <- y_div_public i st a b ;; Ret (shsub a (mul_public (fst q) b), snd q))
    | RSh a, RSh b => on0 d (fun st => q <- y_div i st a b ;; m <- mul i (snd q) (fst q) b ;;
                                       Ret (shsub a (fst m), snd m))
    end.
  (** rep3.rs:268-350: the four comparisons have one shape; [f] is the operation on two shares,
      [fsp] with a public right operand, [fps] the one used (with swapped operands) when the left
      operand is public *)
  Definition rep3_cmp (o : bop) (f : pid -> rst S -> share F -> share F -> prog (share F * rst S))
             (fsp fps : pid -> rst S -> share F -> F -> prog (share F * rst S))
             (i : pid) (d : dst) (a b : rv) : prog (rv * dst) :=
    match a, b with
    | RPub a, RPub b => pub d (plain_bop o a b)
    | RPub a, RSh b => on0 d (fun st => fps i st (sval i b) (val a))
    | RSh a, RPub b => on0 d (fun st => fsp i st (sval i a) (val b))
    | RSh a, RSh b => on0 d (fun st => f i st (sval i a) (sval i b))
    end.
  (** rep3.rs:352-376 *)
  Definition rep3_eq (o : bop) (f : pid -> rst S -> share F -> share F -> prog (share F * rst S))
             (fp : pid -> rst S -> share F -> F -> prog (share F * rst S)) (i : pid) (d : dst) (a b : rv) : prog (rv * dst) :=
    match a, b with
    | RPub a, RPub b => pub d (plain_bop o a b)
    | RPub b, RSh a | RSh a, RPub b => on0 d (fun st => fp i st a b)
    | RSh a, RSh b => on0 d (fun st => f i st a b)
    end.
  (** rep3.rs:378-399 *)
  Definition rep3_shift_r (i : pid) (d : dst) (a b : rv) : prog (rv * dst) :=
    match a, b with
    | RPub a, RPub b => pub d (plain_bop OShiftR a b)
    | RPub a, RSh _ => if feqb a 0 then Ret (RPub 0, d) else todo "Shared shift_right (public by shared) not implemented"
    | RSh a, RPub b => on0 d (fun st =>
        x <- a2bs i st a ;;
        match shift_r_public (fst x) (to_uint b) with
        | Some y => b2as i (snd x) y
        | None => Fail (Panic "shift_r_public")
        end)
    | RSh _, RSh _ => todo "Shared shift_right not implemented"
    end.
  (** rep3.rs:401-419 *)
  Definition rep3_shift_l (i : pid) (d : dst) (a b : rv) : prog (rv * dst) :=
    match a, b with
    | RPub a, RPub b => pub d (plain_bop OShiftL a b)
    | RPub a, RSh b => if feqb a 0 then Ret (RPub 0, d)
                       else on0 d (fun st => x <- a2bs i st b ;; shift_l_public_by_shared b2as i (snd x) a (fst x))
    | RSh a, RPub b => match pow_2_public a b with Some r => local d r | None => Fail (Panic "pow_2_public") end
    | RSh _, RSh _ => todo "Shared shift_right not implemented"
    end.
  (** rep3.rs:439-456 *)
  Definition rep3_bool_or (i : pid) (d : dst) (a b : rv) : prog (rv * dst) :=
    match a, b with
    | RPub a, RPub b => pub d (plain_bop OBoolOr a b)
    | RPub b, RSh a | RSh a, RPub b => local d (shsub (add_public i a b) (mul_public a b))
    | RSh a, RSh b => on0 d (fun st => m <- mul i st a b ;; Ret (shsub (shadd a b) (fst m), snd m))
    end.
  (** rep3.rs:432-437 *)
  Definition rep3_bool_and (i : pid) (d : dst) (a b : rv) : prog (rv * dst) :=
    match a, b with
    | RPub a, RPub b => pub d (plain_bop OBoolAnd a b)
    | a, b => rep3_mul i d a b
    end.
  (** rep3.rs:477-538: the three bit operations have one shape *)
  Definition rep3_bit (o : bop) (fp : pid -> share N -> N -> share N)
             (f : pid -> rst S -> share N -> share N -> prog (share N * rst S))
             (i : pid) (d : dst) (a b : rv) : prog (rv * dst) :=
    match a, b with
    | RPub a, RPub b => pub d (plain_bop o a b)
    | RPub b, RSh a | RSh a, RPub b =>
        on0 d (fun st => x <- a2bs i st a ;; b2as i (snd x) (fp i (fst x) (to_uint b)))
    | RSh a, RSh b =>
        x <- a2bs i (fst d) a ;;
        y <- a2bs i (snd d) b ;;
        z <- f i (snd x) (fst x) (fst y) ;;
        r <- b2as i (snd z) (fst z) ;;
        Ret (RSh (fst r), (snd r, snd y))
    end.

  Definition rep3_bop (o : bop) (i : pid) (d : dst) (a b : rv) : prog (rv * dst) :=
    match o with
    | OAdd => rep3_add i d a b
    | OSub => rep3_sub i d a b
    | OMul => rep3_mul i d a b
    | ODiv => rep3_div i d a b
    | OIntDiv => rep3_int_div i d a b
    | OPow => rep3_pow i d a b
    | OMod => rep3_mod i d a b
    | OLt => rep3_cmp OLt (lt W du a2bs) (lt_public W du a2bs) (ge_public W du a2bs) i d a b   (* 268-287 *)
    | OLe => rep3_cmp OLe (le W du a2bs) (le_public W du a2bs) (gt_public W du a2bs) i d a b   (* 289-308 *)
    | OGt => rep3_cmp OGt (gt W du a2bs) (gt_public W du a2bs) (le_public W du a2bs) i d a b   (* 310-329 *)
    | OGe => rep3_cmp OGe (ge W du a2bs) (ge_public W du a2bs) (lt_public W du a2bs) i d a b   (* 331-350 *)
    | OEq => rep3_eq OEq (eq_ W du a2bs) (eq_public W du a2bs) i d a b                          (* 352-363 *)
    | ONeq => rep3_eq ONeq (neq W du a2bs) (neq_public W du a2bs) i d a b                       (* 365-376 *)
    | OShiftR => rep3_shift_r i d a b
    | OShiftL => rep3_shift_l i d a b
    | OBoolOr => rep3_bool_or i d a b
    | OBoolAnd => rep3_bool_and i d a b
    | OBitOr => rep3_bit OBitOr (fun i x c => or_public i x c) (bor W du) i d a b               (* 498-517 *)
    | OBitAnd => rep3_bit OBitAnd (fun i x c => and_mask x c) (band W du) i d a b               (* 519-538 *)
    | OBitXor => rep3_bit OBitXor (fun i x c => add_public i x c) (fun i st x y => Ret (shadd x y, st)) i d a b  (* 477-496 *)
    end.

  (** rep3.rs:242-259 *)
  Definition rep3_sqrt (i : pid) (st : rst S) (a : share F) : prog (share F * rst S) :=
    s <- sqrt fsqrt i st a ;;
    c <- ge_public W du a2bs i (snd s) (sval i (fst s)) (val 0) ;;
    m <- mul i (snd c) (fst s) (fst c) ;;
    Ret (shsub (shadd (fst m) (fst m)) (fst s), snd m).
  (** rep3.rs:261-266 (neg), 421-430 (bool_not) *)
  Definition rep3_uop (o : uop) (i : pid) (d : dst) (a : rv) : prog (rv * dst) :=
    match a with
    | RPub a => pub d (plain_uop fsqrt o a)
    | RSh a => match o with
               | ONeg => local d (shneg a)
               | OSqrt => on0 d (fun st => rep3_sqrt i st a)
               | OBoolNot => local d (add_public i (shneg a) rone)
               end
    end.
  (** rep3.rs:458-475 *)
  Definition rep3_cmux (i : pid) (d : dst) (c x y : rv) : prog (rv * dst) :=
    match c with
    | RPub c => if is01 c then Ret (if feqb c rone then x else y, d)
                else Fail (Panic "assertion failed: cond.is_one() || cond.is_zero()")
    | RSh c => s <- rep3_sub i d x y ;;
               m <- rep3_mul i (snd s) (RSh c) (fst s) ;;
               rep3_add i (snd m) y (fst m)
    end.
  (** rep3.rs:550-555 *)
  Definition rep3_is_shared (a : rv) : bool := match a with RPub _ => false | RSh _ => true end.
  (** rep3.rs:540-548 *)
  Definition rep3_is_zero (i : pid) (d : dst) (a : rv) (allow : bool) : prog (bool * dst) :=
    if negb allow && rep3_is_shared a then Fail (Eyre "allow_secret_inputs is false and input is shared")
    else match a with
         | RPub a => Ret (feqb a 0, d)
         | RSh a => r <- is_zero W du a2bs i (fst d) a ;; Ret (fst r, (snd r, snd d))
         end.
  (** rep3.rs:557-563 *)
  Definition rep3_to_index (i : pid) (d : dst) (a : rv) : prog (N * dst) :=
    match a with
    | RPub a => match to_usize a with Done n => Ret (n, d) | Failed e => Fail e end
    | RSh _ => Fail (Eyre "ToIndex called on shared value!")
    end.
  (** rep3.rs:565-570 *)
  Definition rep3_open (i : pid) (d : dst) (a : rv) : prog (F * dst) :=
    match a with
    | RPub a => Ret (a, d)
    | RSh a => v <- open i a ;; Ret (v, d)
    end.
  (** rep3.rs:572-577 *)
  Definition rep3_to_share (i : pid) (a : rv) : share F :=
    match a with RPub a => promote i a | RSh a => a end.
  (** rep3.rs:598-617 *)
  Definition share_bits (x : share N) (n : nat) : list (share N) := map (fun k => and_mask (shr x k) 1) (seq 0 n).
  Definition rep3_num2bits (i : pid) (d : dst) (a : rv) (bits : nat) : prog (list rv * dst) :=
    match a with
    | RPub a => Ret (map RPub (plain_num2bits a bits), d)
    | RSh a => x <- a2bs i (fst d) a ;;
               r <- bit_inject_many i (snd x) (share_bits (fst x) bits) ;;
               Ret (map RSh (fst r), (snd r, snd d))
    end.
  (** rep3.rs:619-649 *)
  Definition rep3_addbits (i : pid) (d : dst) (a b : list rv) : prog ((list rv * rv) * dst) :=
    if (length a =? length b)%nat then
      if (length a <? mbs F - 1)%nat then
        let hsum l := fold_left (fun acc x => shadd (shadd acc acc) (rep3_to_share i x)) l zero_share in
        x <- a2bs i (fst d) (shadd (hsum a) (hsum b)) ;;
        r <- bit_inject_many i (snd x) (share_bits (fst x) (length a + 1)) ;;
        match rev (fst r) with
        | c :: l => Ret ((map RSh l, RSh c), (snd r, snd d))
        | [] => Fail (Panic "called `Option::unwrap()` on a `None` value")
        end
      else Fail (Panic "assertion failed")
    else Fail (Panic "assertion failed").
End Rep3Driver.
