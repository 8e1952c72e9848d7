(** * What a Brillig program computes on clear values

    An independent account of the opcodes: memory is a function from addresses to values, a value is a
    field element or an integer of a given size, and the result of a program is the list of values it
    returns, or a trap.  [None] says nothing: it stands for what a well-typed program does not do, for
    the opcodes that coBrillig does not have, and for a run that [fuel] does not suffice for. *)
From Coq Require Import String List Arith NArith Lia Bool.
From Verif Require Import Proc Alg Rep3Net Rep3 Conv Brillig.
Import ListNotations.
Set Implicit Arguments.
Local Open Scope grp_scope.
Local Open Scope list_scope.

Section Spec.
  Context {F : Type} `{FU : FieldUint F}.
  Notation bval := (bval F).
  Notation p := (fu_p (F := F)).
  Notation width s := (2 ^ N.of_nat (ibits s))%N.
  Definition bit_of (b : bool) : bval := BI (if b then 1 else 0)%N U1.

  (** integers of one size: arithmetic modulo 2^size *)
  Definition sint (o : bbin) (l r : N) (s : isz) : option bval :=
    if ((l <? width s) && (r <? width s))%N%bool then
      match o with
      | BAdd => Some (BI ((l + r) mod width s) s)
      | BSub => Some (BI (if (r <=? l)%N then l - r else l + width s - r) s)%N
      | BMul => Some (BI ((l * r) mod width s) s)
      | BDiv => if (r =? 0)%N then None else Some (BI (l / r) s)
      | BIntDiv => None
      | BEq => Some (bit_of (l =? r)%N)
      | BLt => Some (bit_of (l <? r)%N)
      | BLe => Some (bit_of (l <=? r)%N)
      end
    else None.
  (** field elements, compared and divided as the integers below p *)
  Definition sfield (o : bbin) (x y : F) : option bval :=
    match o with
    | BAdd => Some (BF (x + y))
    | BSub => Some (BF (x - y))
    | BMul => Some (BF (rmul x y))
    | BDiv => if feqb y 0 then None else Some (BF (rmul x (finv y)))
    | BIntDiv => if feqb y 0 then None else Some (BF (of_uint (to_uint x / to_uint y)))
    | BEq => Some (bit_of (feqb x y))
    | BLt => Some (bit_of (to_uint x <? to_uint y)%N)
    | BLe => Some (bit_of (to_uint x <=? to_uint y)%N)
    end.
  Definition sbin (o : bbin) (a b : bval) : option bval :=
    match a, b with
    | BF x, BF y => sfield o x y
    | BI l s, BI r s' => if isz_eqb s s' then sint o l r s else None
    | _, _ => None
    end.
  Definition snot (a : bval) : option bval :=
    match a with BI n s => if (n <? width s)%N then Some (BI (width s - 1 - n) s) else None | BF _ => None end.
  Definition scast (a : bval) (t : bty) : option bval :=
    match a, t with
    | BF x, TField => Some (BF x)
    | BF x, TInt s => Some (BI (to_uint x mod width s) s)
    | BI n s, TField => if (n <? width s)%N then Some (BF (of_uint (n mod p)%N)) else None
    | BI n s, TInt s' => if (n <? width s)%N then Some (BI (n mod width s') s') else None
    end.
  Definition sconst (x : F) (t : bty) : option bval :=
    match t with TField => Some (BF x) | TInt s => if (to_uint x <? width s)%N then Some (BI (to_uint x) s) else None end.
  (** the [n] digits of [x], the most significant one first *)
  Fixpoint digits (n : nat) (x r : N) : list N :=
    match n with O => [] | Datatypes.S n => digits n (x / r) r ++ [x mod r]%N end.
  Definition sradix (a r : bval) (n : nat) (bits : bool) : option (list bval) :=
    match a, r with
    | BF x, BI r U32 =>
        if (r =? 0)%N then None
        else Some (map (fun d => if bits then bit_of (negb (d =? 0)%N) else BI d U8) (digits n (to_uint x) r))
    | _, _ => None
    end.
  Definition sbool (a : bval) : option bool :=
    match a with BI 0%N U1 => Some false | BI 1%N U1 => Some true | _ => None end.
  Definition susize (a : bval) : option nat := match a with BI n U32 => if (n <? width U32)%N then Some (N.to_nat n) else None | _ => None end.
  Definition schar (a : bval) : option N := match a with BI n U8 => if (n <? width U8)%N then Some n else None | _ => None end.
  Definition sint_of (a : bval) (s : isz) : option bval := match a with BI _ s' => if isz_eqb s' s then Some a else None | _ => None end.
  Definition sfield_of (a : bval) : option bval := match a with BF _ => Some a | _ => None end.

  (** ** Programs *)
  Record sst : Type := mkS { s_mem : nat -> bval; s_pss : list (list N * list bval); s_cd : list bval; s_stack : list nat; s_ip : nat }.
  Inductive sres : Type := SOk (ws : list bval) (pss : list (list N * list bval)) | STrap.
  Definition sb {A B} (o : option A) (f : A -> option B) : option B := match o with Some a => f a | None => None end.

  Definition upd (m : nat -> bval) (a : nat) (v : bval) : nat -> bval := fun b => if (b =? a)%nat then v else m b.
  Fixpoint upds (m : nat -> bval) (a : nat) (vs : list bval) : nat -> bval :=
    match vs with [] => m | v :: vs => upds (upd m a v) (a + 1) vs end.
  Definition sresolve (s : sst) (a : addr) : option nat :=
    match a with Direct a => Some a | Relative o => sb (susize (s_mem s 0%nat)) (fun sp => Some (sp + o)%nat) end.
  Definition sread (s : sst) (a : addr) : option bval := sb (sresolve s a) (fun a => Some (s_mem s a)).
  Definition sref (s : sst) (a : addr) : option nat := sb (sread s a) susize.
  Definition swrite (s : sst) (a : addr) (v : bval) : option sst :=
    sb (sresolve s a) (fun a => Some (mkS (upd (s_mem s) a v) (s_pss s) (s_cd s) (s_stack s) (s_ip s + 1))).
  Definition swrites (s : sst) (a : addr) (vs : list bval) : option sst :=
    sb (sresolve s a) (fun a => Some (mkS (upds (s_mem s) a vs) (s_pss s) (s_cd s) (s_stack s) (s_ip s + 1))).
  Definition sarray (s : sst) (h : addr * nat) : option (list bval) :=
    if (snd h =? 0)%nat then Some [] else sb (sref s (fst h)) (fun p => Some (map (fun o => s_mem s (p + o)%nat) (seq 0 (snd h)))).
  Fixpoint schars (vs : list bval) : option (list N) :=
    match vs with [] => Some [] | v :: vs => sb (schar v) (fun c => sb (schars vs) (fun cs => Some (c :: cs))) end.
  Definition sjump (s : sst) (ip : nat) : sst := mkS (s_mem s) (s_pss s) (s_cd s) (s_stack s) ip.

  Definition sstep (s : sst) (o : bopc F) : option sst :=
    match o with
    | BinF o l r d =>
        sb (sread s l) (fun a => sb (sfield_of a) (fun a => sb (sread s r) (fun b => sb (sfield_of b) (fun b =>
        sb (sbin (fbin o) a b) (swrite s d)))))
    | BinI o z l r d =>
        sb (sread s l) (fun a => sb (sint_of a z) (fun a => sb (sread s r) (fun b => sb (sint_of b (rhs_size o z)) (fun b =>
        sb (ibin o) (fun o => sb (sbin o a b) (swrite s d))))))
    | NotO d a z => sb (sread s a) (fun v => sb (sint_of v z) (fun v => sb (snot v) (swrite s d)))
    | CastO d a t => sb (sread s a) (fun v => sb (scast v t) (swrite s d))
    | Jump loc => Some (sjump s loc)
    | CalldataCopy d n o =>
        sb (sref s n) (fun n => sb (sref s o) (fun o =>
        if (o + n <=? length (s_cd s))%nat then swrites s d (firstn n (skipn o (s_cd s))) else None))
    | Call loc => Some (mkS (s_mem s) (s_pss s) (s_cd s) (s_ip s :: s_stack s) loc)
    | ConstO d t x => sb (sconst x t) (swrite s d)
    | IndirectConst dp t x => sb (sref s dp) (fun a => sb (sconst x t) (swrite s (Direct a)))
    | ReturnO => match s_stack s with l :: ls => Some (mkS (s_mem s) (s_pss s) (s_cd s) ls (l + 1)) | [] => None end
    | Foreign (FStore _ _ [Some name; Some data] _) =>
        sb (sarray s name) (fun k => sb (schars k) (fun k => sb (sarray s data) (fun ws =>
        Some (mkS (s_mem s) (s_pss s ++ [(k, ws)]) (s_cd s) (s_stack s) (s_ip s + 1)))))
    | Foreign FDebug => Some (sjump s (s_ip s + 1))
    | Foreign _ => None
    | Mov d a => sb (sread s a) (swrite s d)
    | Load d sp => sb (sref s sp) (fun a => swrite s d (s_mem s a))
    | Store dp a => sb (sref s dp) (fun d => sb (sread s a) (swrite s (Direct d)))
    | ToRadix v r out n bits =>
        sb (sread s v) (fun v => sb (sread s r) (fun r => sb (sref s n) (fun n => sb (sread s bits) (fun b => sb (sbool b) (fun b =>
        sb (sradix v r n b) (fun l => sb (sref s out) (fun o => swrites s (Direct o) l)))))))
    | CondMov | OtherBlackBox | JumpIf _ _ | Trap | Stop _ _ => None
    end.

  Definition sstop (s : sst) (pointer size : addr) : option sres :=
    sb (sref s size) (fun n =>
    if (n =? 0)%nat then Some (SOk [] (s_pss s))
    else sb (sref s pointer) (fun o => Some (SOk (map (fun i => s_mem s (o + i)%nat) (seq 0 n)) (s_pss s)))).

  Variable code : list (bopc F).
  Fixpoint srun (fuel : nat) (s : sst) : option sres :=
    match fuel with
    | O => None
    | Datatypes.S fuel =>
        sb (nth_error code (s_ip s)) (fun o =>
        match o with
        | Trap => Some STrap
        | Stop p n => sstop s p n
        | JumpIf c loc => sb (sread s c) (fun c => sb (sbool c) (fun b => srun fuel (sjump s (if b then loc else s_ip s + 1)%nat)))
        | o => sb (sstep s o) (srun fuel)
        end)
    end.
  (** a run from empty memory *)
  Definition sinit (calldata : list bval) : sst := mkS (fun _ => BF 0) [] calldata [] 0%nat.
End Spec.
