(** * The co-circom MPC-VM: the interpreter

    Models co-circom/circom-mpc-vm/src/mpc_vm.rs, stack.rs, types.rs, op_codes.rs and accelerator.rs,
    for an arbitrary driver: a run is a tree of calls to the driver ([vmp]).

    Simplifications: [usize] is unbounded; a loop is cut off by a number of steps ([fuel]); log output
    is dropped, only the calls to the driver that logging makes are kept; the Poseidon2 accelerator and
    precomputed traces are not modelled; a component refers to its template instead of copying its
    fields. *)
From Coq Require Import String List Arith NArith Bool DecimalString.
From Verif Require Import Proc Alg VmDriver.
Import ListNotations.
Set Implicit Arguments.
Local Open Scope string_scope.
Local Open Scope list_scope.

(** ** Calls to the driver *)
Section Vmp.
  Context {F V : Type}.
  (** mpc.rs: the methods of [VmCircomWitnessExtension] with an effect; [is_shared], [public_zero],
      [public_one] and [to_share] have none *)
  Inductive vmp (A : Type) : Type :=
  | VRet : A -> vmp A
  | VFail : err -> vmp A
  | VBop : bop -> V -> V -> (V -> vmp A) -> vmp A
  | VUop : uop -> V -> (V -> vmp A) -> vmp A
  | VCmux : V -> V -> V -> (V -> vmp A) -> vmp A
  | VIsZero : V -> bool -> (bool -> vmp A) -> vmp A
  | VToIndex : V -> (N -> vmp A) -> vmp A
  | VNum2Bits : V -> nat -> (list V -> vmp A) -> vmp A
  | VAddBits : list V -> list V -> (list V * V -> vmp A) -> vmp A
  | VOpen : V -> (F -> vmp A) -> vmp A.
  Fixpoint vbind {A B} (q : vmp A) (f : A -> vmp B) : vmp B :=
    match q with
    | VRet a => f a
    | VFail _ e => VFail B e
    | VBop o x y k => VBop o x y (fun v => vbind (k v) f)
    | VUop o x k => VUop o x (fun v => vbind (k v) f)
    | VCmux c x y k => VCmux c x y (fun v => vbind (k v) f)
    | VIsZero x a k => VIsZero x a (fun v => vbind (k v) f)
    | VToIndex x k => VToIndex x (fun v => vbind (k v) f)
    | VNum2Bits x n k => VNum2Bits x n (fun v => vbind (k v) f)
    | VAddBits x y k => VAddBits x y (fun v => vbind (k v) f)
    | VOpen x k => VOpen x (fun v => vbind (k v) f)
    end.
End Vmp.
Arguments vmp : clear implicits.
Arguments VRet {F V A}. Arguments VFail {F V A}. Arguments VBop {F V A}. Arguments VUop {F V A}. Arguments VCmux {F V A}.
Arguments VIsZero {F V A}. Arguments VToIndex {F V A}. Arguments VNum2Bits {F V A}. Arguments VAddBits {F V A}. Arguments VOpen {F V A}.
Declare Scope vm_scope.
Notation "x <~ p ; q" := (vbind p (fun x => q)) (at level 61, p at next level, right associativity) : vm_scope.
Local Open Scope vm_scope.

(** ** Programs *)
(** op_codes.rs:12-149; the binary operations on the field stack are one constructor *)
Inductive opcode : Type :=
| PushConstant (i : nat) | PushIndex (i : nat)
| LoadSignals (n : nat) | StoreSignals (n : nat) | LoadVars (n : nat) | StoreVars (n : nat)
| OutputSubComp (mapped : bool) (code amount : nat) | InputSubComp (mapped : bool) (code amount : nat)
| CreateCmp (symbol : string) (amount : nat) | Call (symbol : string) (rets : nat)
| Return | ReturnFun | ReturnSharedIfFun
| AssertOp (line : nat) | If (jump : nat) | EndTruthyBranch (jump : nat) | EndFalsyBranch
| Bin (o : bop) | Neg | EqN (size : nat)
| MulIndex | AddIndex | ToIndex | JumpBack (n : nat) | JumpIfFalse (n : nat)
| Log | LogString (i : nat) | LogFlush (line : nat).
(** types.rs:22-31 [TemplateDecl] *)
Record templ : Type := mkTempl { t_name : string; t_in : nat; t_out : nat; t_vars : nat; t_maps : list nat; t_body : list opcode }.
(** types.rs:72-76 [FunDecl] *)
Record fundecl : Type := mkFun { fd_params : nat; fd_vars : nat; fd_body : list opcode }.
(** accelerator.rs:43-60 *)
Record acfg : Type := mkAcfg { ac_sqrt : bool; ac_num2bits : bool; ac_addbits : bool; ac_iszero : bool }.
(** types.rs:108-125 [CoCircomCompilerParsed] with the configuration of the accelerators
    (accelerator.rs:143-160) and [VMConfig::allow_leaky_logs] *)
Record parsed (F : Type) : Type := mkParsed {
  ps_main : string; ps_amount : nat; ps_consts : list F; ps_strings : nat;
  ps_funs : list (string * fundecl); ps_templs : list (string * templ);
  ps_s2w : list nat; ps_inputs : nat; ps_outputs : nat; ps_input_list : list (string * nat * nat);
  ps_acc : acfg; ps_leaky : bool }.

Fixpoint assoc {A} (k : string) (l : list (string * A)) : option A :=
  match l with
  | [] => None
  | (k', a) :: l => if String.eqb k k' then Some a else assoc k l
  end.
(** [BTreeMap::remove] *)
Fixpoint remove_key {A} (k : string) (l : list (string * A)) : option (A * list (string * A)) :=
  match l with
  | [] => None
  | (k', a) :: l => if String.eqb k k' then Some (a, l)
                    else match remove_key k l with Some (b, l) => Some (b, (k', a) :: l) | None => None end
  end.
Definition slice {A} (start n : nat) (l : list A) : option (list A) :=
  if (start + n <=? length l)%nat then Some (firstn n (skipn start l)) else None.
(** [clone_from_slice] into a range *)
Definition splice {A} (start : nat) (xs l : list A) : option (list A) :=
  if (start + length xs <=? length l)%nat then Some (firstn start l ++ xs ++ skipn (start + length xs) l) else None.
Definition oob : err := Panic "index out of bounds".

(** ** Machine state *)
Section State.
  Context {V : Type}.
  (** mpc_vm.rs:129-133 *)
  Inductive ifctx : Type := IfPublic | IfShared (last acc cur : V).
  (** mpc_vm.rs:228-235 *)
  Record fctx : Type := mkF { f_ip : nat; f_ret : nat; f_vars : list V; f_body : list opcode; f_shared : list (V * list V) }.
  (** mpc_vm.rs:100-118; frames and stacks have their top first (stack.rs:1-60) *)
  Inductive comp : Type :=
    mkC { c_t : templ; c_prov : nat; c_ret : nat; c_off : nat; c_fs : list (list V); c_is : list (list nat);
          c_if : list ifctx; c_fn : list fctx; c_subs : list comp }.
  (** mpc_vm.rs:320-323: the local variables of [run], the component and the signals *)
  Record mst : Type := mkM { m_ip : nat; m_body : list opcode; m_vars : list V; m_shared : list (V * list V); m_c : comp; m_sig : list V }.
  (** mpc_vm.rs:266-285 *)
  Definition init_comp (t : templ) (off : nat) : comp := mkC t 0 0 off [[]] [[]] [] [] [].

  Definition set_c (m : mst) (c : comp) : mst := mkM (m_ip m) (m_body m) (m_vars m) (m_shared m) c (m_sig m).
  Definition set_sig (m : mst) (s : list V) : mst := mkM (m_ip m) (m_body m) (m_vars m) (m_shared m) (m_c m) s.
  Definition set_vars (m : mst) (v : list V) : mst := mkM (m_ip m) (m_body m) v (m_shared m) (m_c m) (m_sig m).
  Definition set_shared (m : mst) (r : list (V * list V)) : mst := mkM (m_ip m) (m_body m) (m_vars m) r (m_c m) (m_sig m).
  Definition set_ip (m : mst) (ip : nat) : mst := mkM ip (m_body m) (m_vars m) (m_shared m) (m_c m) (m_sig m).
  Definition c_set_fs (c : comp) s := mkC (c_t c) (c_prov c) (c_ret c) (c_off c) s (c_is c) (c_if c) (c_fn c) (c_subs c).
  Definition c_set_is (c : comp) s := mkC (c_t c) (c_prov c) (c_ret c) (c_off c) (c_fs c) s (c_if c) (c_fn c) (c_subs c).
  Definition c_set_if (c : comp) s := mkC (c_t c) (c_prov c) (c_ret c) (c_off c) (c_fs c) (c_is c) s (c_fn c) (c_subs c).
  Definition c_set_fn (c : comp) s := mkC (c_t c) (c_prov c) (c_ret c) (c_off c) (c_fs c) (c_is c) (c_if c) s (c_subs c).
  Definition c_set_subs (c : comp) s := mkC (c_t c) (c_prov c) (c_ret c) (c_off c) (c_fs c) (c_is c) (c_if c) (c_fn c) s.
  Definition c_set_ret (c : comp) n := mkC (c_t c) (c_prov c) n (c_off c) (c_fs c) (c_is c) (c_if c) (c_fn c) (c_subs c).
  Definition c_set_prov (c : comp) n := mkC (c_t c) n (c_ret c) (c_off c) (c_fs c) (c_is c) (c_if c) (c_fn c) (c_subs c).
End State.
Arguments ifctx : clear implicits. Arguments fctx : clear implicits. Arguments comp : clear implicits. Arguments mst : clear implicits.

Section Interp.
  Context {F V : Type} `{CR : CRing F} (pubv : F -> V) (is_sh : V -> bool).
  Notation vmp := (vmp F V).
  Definition vzero : V := pubv gzero.
  Definition vone : V := pubv rone.
  Definition opt {A} (e : err) (o : option A) : vmp A := match o with Some a => VRet a | None => VFail e end.

  (** stack.rs *)
  Definition empty_frame : err := Panic "stack frame is empty?".
  Definition no_frame : err := Panic "stack is empty".
  Definition pop_field (c : comp V) : vmp (V * comp V) :=
    match c_fs c with
    | (v :: f) :: s => VRet (v, c_set_fs c (f :: s))
    | [] :: _ => VFail empty_frame
    | [] => VFail no_frame
    end.
  Definition push_field (v : V) (c : comp V) : vmp (comp V) :=
    match c_fs c with
    | f :: s => VRet (c_set_fs c ((v :: f) :: s))
    | [] => VFail no_frame
    end.
  Definition pop_index (c : comp V) : vmp (nat * comp V) :=
    match c_is c with
    | (v :: f) :: s => VRet (v, c_set_is c (f :: s))
    | [] :: _ => VFail empty_frame
    | [] => VFail no_frame
    end.
  Definition push_index (v : nat) (c : comp V) : vmp (comp V) :=
    match c_is c with
    | f :: s => VRet (c_set_is c ((v :: f) :: s))
    | [] => VFail no_frame
    end.
  (** push the values in order *)
  Fixpoint push_fields (vs : list V) (c : comp V) : vmp (comp V) :=
    match vs with
    | [] => VRet c
    | v :: vs => c' <~ push_field v c ; push_fields vs c'
    end.
  (** the first element of the result was on top *)
  Fixpoint pop_fields (n : nat) (c : comp V) : vmp (list V * comp V) :=
    match n with
    | 0 => VRet ([], c)
    | S n => r <~ pop_field c ; q <~ pop_fields n (snd r) ; VRet (fst r :: fst q, snd q)
    end.

  (** mpc_vm.rs:140-206 *)
  Definition is_shared_ctx (x : ifctx V) : bool := match x with IfPublic => false | IfShared _ _ _ => true end.
  Definition if_shared (l : list (ifctx V)) : bool := existsb is_shared_ctx l.
  Fixpoint shared_cond (l : list (ifctx V)) : option V :=
    match l with
    | [] => None
    | IfPublic :: l => shared_cond l
    | IfShared _ a _ :: _ => Some a
    end.
  Definition push_shared (c : comp V) (cond : V) : vmp (comp V) :=
    let last := match shared_cond (c_if c) with Some a => a | None => vone end in
    VBop OBoolAnd last cond (fun acc => VRet (c_set_if c (IfShared last acc cond :: c_if c))).
  Fixpoint toggle (l : list (ifctx V)) : vmp (list (ifctx V)) :=
    match l with
    | [] => VFail (Panic "last must be shared")
    | IfPublic :: l => l' <~ toggle l ; VRet (IfPublic :: l')
    | IfShared last acc cur :: l =>
        VUop OBoolNot cur (fun n => VBop OBoolAnd last n (fun a => VRet (IfShared last a cur :: l)))
    end.
  Definition pop_if (c : comp V) : vmp (comp V) :=
    match c_if c with _ :: l => VRet (c_set_if c l) | [] => VFail (Panic "must be here") end.

  (** mpc_vm.rs:376-392, 402-416: store the top [n] values at [base ..], the last one first *)
  Fixpoint store_into (cond : option V) (base n : nat) (arr : list V) (c : comp V) : vmp (list V * comp V) :=
    match n with
    | 0 => VRet (arr, c)
    | S k => old <~ opt oob (nth_error arr (base + k)) ;
             r <~ pop_field c ;
             x <~ (match cond with Some b => VCmux b (fst r) old VRet | None => VRet (fst r) end) ;
             arr' <~ opt oob (splice (base + k) [x] arr) ;
             store_into cond base k arr' (snd r)
    end.
  Definition store_cond (c : comp V) : option V := shared_cond (c_if c).

  (** mpc_vm.rs:674-678 *)
  Fixpoint all_eq (l : list (V * V)) (acc : V) : vmp V :=
    match l with
    | [] => VRet acc
    | (a, b) :: l => VBop OEq a b (fun e => VBop OBoolAnd e acc (fun acc => all_eq l acc))
    end.
  (** mpc_vm.rs:758-763 and its copies: [cond] and none of the earlier returns *)
  Fixpoint not_returned (l : list (V * list V)) (cond : V) : vmp V :=
    match l with
    | [] => VRet cond
    | (c, _) :: l => VUop OBoolNot c (fun n => VBop OBoolAnd cond n (fun cond => not_returned l cond))
    end.
  (** mpc_vm.rs:884-908 *)
  Fixpoint mul_all (cond : V) (l : list V) : vmp (list V) :=
    match l with
    | [] => VRet []
    | v :: l => VBop OMul cond v (fun x => r <~ mul_all cond l ; VRet (x :: r))
    end.
  Fixpoint add_all (acc l : list V) : vmp (list V) :=
    match acc, l with
    | a :: acc, x :: l => VBop OAdd a x (fun y => r <~ add_all acc l ; VRet (y :: r))
    | acc, _ => VRet acc
    end.
  Fixpoint sum_returns (l : list (V * list V)) (acc : list V) : vmp (list V) :=
    match l with
    | [] => VRet acc
    | (c, vs) :: l => xs <~ mul_all c vs ; acc <~ add_all acc xs ; sum_returns l acc
    end.
  Definition shared_fun_return (m : mst V) : vmp (mst V) :=
    acc <~ sum_returns (m_shared m) (repeat vzero (c_ret (m_c m))) ;
    c <~ push_fields acc (m_c m) ;
    VRet (set_c m c).
  (** mpc_vm.rs:836-848, 851-858 *)
  Definition pop_function (m : mst V) : vmp (mst V) :=
    match c_fn (m_c m) with
    | [] => VFail empty_frame
    | f :: l => VRet (mkM (f_ip f) (f_body f) (f_vars f) (f_shared f) (c_set_ret (c_set_fn (m_c m) l) (f_ret f)) (m_sig m))
    end.
  Definition pad (n : nat) (l : list V) : list V := l ++ repeat vzero (n - length l).

  (** accelerator.rs:181-197 *)
  Definition fn_accelerator (cfg : acfg) (symbol : string) : bool := ac_sqrt cfg && String.eqb symbol "sqrt_0".
  (** accelerator.rs:185-187, 199-245, 275-287 *)
  Definition cmp_accelerator (cfg : acfg) (name : string) (args : list V) (outs : nat) : option (vmp (list V * list V)) :=
    if ac_num2bits cfg && String.eqb name "Num2Bits" then
      Some (match args with
            | [a] => VNum2Bits a outs (fun o => VRet (o, []))
            | _ => VFail (Eyre "Calling Num2Bits accelerator with more than one argument!")
            end)
    else if ac_addbits cfg && String.eqb name "AddBits" then
      Some (if Nat.even (length args) then
              VAddBits (firstn (length args / 2) args) (skipn (length args / 2) args) (fun r => VRet (fst r, [snd r]))
            else VFail (Eyre "Calling AddBits accelerator with odd number of arguments!"))
    else if ac_iszero cfg && String.eqb name "IsZero" then
      Some (match args with
            | [a] => VBop OEq a vzero (fun z => VBop OAdd a z (fun s => VBop ODiv vone s (fun i => VBop OSub i z (fun h => VRet ([z], [h])))))
            | _ => VFail (Eyre "Calling IsZero accelerator with more than one argument!")
            end)
    else None.

  Inductive sres : Type := Goto (m : mst V) | Halt (m : mst V).
  Definition next (m : mst V) : vmp sres := VRet (Goto (set_ip m (S (m_ip m)))).
  Definition jump (m : mst V) (ip : nat) : vmp sres := VRet (Goto (set_ip m ip)).
  Definition next_c (m : mst V) (c : comp V) : vmp sres := next (set_c m c).

  Variable ps : parsed F.
  Section Step.
    (** running a sub-component: mpc_vm.rs:482, 550 *)
    Variable run_comp : comp V -> list V -> vmp (comp V * list V).

    (** mpc_vm.rs:480-486 *)
    Fixpoint start_comps (l : list (comp V)) (subs : list (comp V)) (sg : list V) : vmp (list (comp V) * list V) :=
      match l with
      | [] => VRet (subs, sg)
      | c :: l => r <~ (if (t_in (c_t c) =? 0)%nat then run_comp c sg else VRet (c, sg)) ;
                  start_comps l (subs ++ [fst r]) (snd r)
      end.
    Definition component_at (c : comp V) (i : nat) (mapped : bool) (code index : nat) : vmp (comp V * nat) :=
      s <~ opt oob (nth_error (c_subs c) i) ;
      if mapped then d <~ opt oob (nth_error (t_maps (c_t s)) code) ; VRet (s, index + d) else VRet (s, index).

    Definition step_binop (o : bop) (m : mst V) : vmp sres :=
      b <~ pop_field (m_c m) ; a <~ pop_field (snd b) ;
      VBop o (fst a) (fst b) (fun x => c <~ push_field x (snd a) ; next_c m c).
    (** mpc_vm.rs:615-623 *)
    Definition step_div (m : mst V) : vmp sres :=
      b <~ pop_field (m_c m) ; a <~ pop_field (snd b) ;
      y <~ (match store_cond (m_c m) with Some cond => VCmux cond (fst b) vone VRet | None => VRet (fst b) end) ;
      VBop ODiv (fst a) y (fun x => c <~ push_field x (snd a) ; next_c m c).
    (** mpc_vm.rs:417-462 *)
    Definition step_call (symbol : string) (rets : nat) (m : mst V) : vmp sres :=
      let c := m_c m in
      fd <~ opt (Eyre (symbol ++ " not found in function declaration. This must be a bug..")) (assoc symbol (ps_funs ps)) ;
      frame <~ opt no_frame (hd_error (c_fs c)) ;
      if (length frame <? fd_params fd)%nat then VFail (Panic "attempt to subtract with overflow")
      else
        let args := rev (firstn (fd_params fd) frame) in
        if fn_accelerator (ps_acc ps) symbol then
          match args with
          | [a] => VUop OSqrt a (fun x => c <~ push_field x c ; next_c m c)
          | _ => VFail (Eyre "Calling SQRT accelerator with more than one argument!")
          end
        else
          vars <~ opt oob (splice 0 args (repeat vzero (fd_vars fd))) ;
          VRet (Goto (mkM 0 (fd_body fd) vars []
            (c_set_ret (c_set_fn (c_set_is (c_set_fs c ([] :: c_fs c)) ([] :: c_is c))
                          (mkF (m_ip m) (c_ret c) (m_vars m) (m_body m) (m_shared m) :: c_fn c)) rets)
            (m_sig m))).
    (** mpc_vm.rs:463-487 *)
    Definition step_create (symbol : string) (amount : nat) (m : mst V) : vmp sres :=
      j <~ pop_index (m_c m) ; o <~ pop_index (snd j) ;
      t <~ opt (Eyre (symbol ++ " not found in template declarations. This must be a bug")) (assoc symbol (ps_templs ps)) ;
      let c := snd o in
      r <~ start_comps (map (fun i => init_comp t (c_off c + fst o + i * fst j)) (seq 0 amount)) (c_subs c) (m_sig m) ;
      next (set_sig (set_c m (c_set_subs c (fst r))) (snd r)).
    (** mpc_vm.rs:488-499 *)
    Definition step_output (mapped : bool) (code amount : nat) (m : mst V) : vmp sres :=
      i <~ pop_index (m_c m) ; x <~ pop_index (snd i) ;
      s <~ component_at (snd x) (fst i) mapped code (fst x) ;
      vs <~ opt oob (slice (c_off (fst s) + snd s) amount (m_sig m)) ;
      c <~ push_fields vs (snd x) ; next_c m c.
    (** mpc_vm.rs:500-553 *)
    Definition step_input (mapped : bool) (code amount : nat) (m : mst V) : vmp sres :=
      if if_shared (c_if (m_c m)) then VFail (Panic "Cannot be shared when providing inputs for sub component")
      else
        i <~ pop_index (m_c m) ; x <~ pop_index (snd i) ;
        vs <~ pop_fields amount (snd x) ;
        let c := snd vs in
        s <~ component_at c (fst i) mapped code (fst x) ;
        sg <~ opt oob (splice (c_off (fst s) + snd s) (rev (fst vs)) (m_sig m)) ;
        let s' := c_set_prov (fst s) (c_prov (fst s) + amount) in
        r <~ (if (c_prov s' =? t_in (c_t s'))%nat then run_comp s' sg else VRet (s', sg)) ;
        subs <~ opt oob (splice (fst i) [fst r] (c_subs c)) ;
        next (set_sig (set_c m (c_set_subs c subs)) (snd r)).
    (** mpc_vm.rs:563-577 *)
    Definition step_if (j : nat) (m : mst V) : vmp sres :=
      r <~ pop_field (m_c m) ;
      if is_sh (fst r) then c <~ push_shared (snd r) (fst r) ; next_c m c
      else
        let m' := set_c m (c_set_if (snd r) (IfPublic :: c_if (snd r))) in
        VIsZero (fst r) false (fun z => if z then jump m' (m_ip m + j) else next m').
    (** mpc_vm.rs:578-596 *)
    Definition step_end_truthy (j : nat) (m : mst V) : vmp sres :=
      match c_if (m_c m) with
      | [] => VFail (Panic "must be here")
      | IfPublic :: l => jump (set_c m (c_set_if (m_c m) l)) (m_ip m + Nat.max 1 j)
      | IfShared _ _ _ :: l =>
          if (j =? 0)%nat then next_c m (c_set_if (m_c m) l)
          else l' <~ toggle (c_if (m_c m)) ; next_c m (c_set_if (m_c m) l')
      end.
    (** mpc_vm.rs:753-848 *)
    Definition step_return_fun (m : mst V) : vmp sres :=
      let shared := shared_cond (c_if (m_c m)) in
      if (c_ret (m_c m) =? 1)%nat then
        match shared, m_shared m with
        | Some cond, rets =>
            this <~ not_returned rets cond ;
            r <~ pop_field (m_c m) ;
            next (set_shared (set_c m (snd r)) (rets ++ [(this, [fst r])]))
        | None, _ :: _ =>
            this <~ not_returned (m_shared m) vone ;
            r <~ pop_field (m_c m) ;
            m' <~ shared_fun_return (set_shared (set_c m (snd r)) (m_shared m ++ [(this, [fst r])])) ;
            m'' <~ pop_function m' ; next m''
        | None, [] =>
            match c_fs (m_c m) with
            | f :: s => c <~ push_fields (rev f) (c_set_fs (m_c m) s) ;
                        m' <~ pop_function (set_c m c) ; next m'
            | [] => VFail no_frame
            end
        end
      else
        s <~ pop_index (m_c m) ;
        let vars := pad (fst s + c_ret (m_c m)) (m_vars m) in
        let m := set_vars (set_c m (snd s)) vars in
        let vals := firstn (c_ret (m_c m)) (skipn (fst s) vars) in
        match shared, m_shared m with
        | Some cond, rets =>
            this <~ not_returned rets cond ;
            next (set_shared m (rets ++ [(this, vals)]))
        | None, _ :: _ =>
            this <~ not_returned (m_shared m) vone ;
            m' <~ shared_fun_return (set_shared m (m_shared m ++ [(this, vals)])) ;
            m'' <~ pop_function m' ; next m''
        | None, [] =>
            match c_is (m_c m), c_fs (m_c m) with
            | _ :: is, _ :: fs => c <~ push_fields vals (c_set_fs (c_set_is (m_c m) is) fs) ;
                                  m' <~ pop_function (set_c m c) ; next m'
            | _, _ => VFail no_frame
            end
        end.

    (** mpc_vm.rs:357-880 *)
    Definition step (m : mst V) : vmp sres :=
      match nth_error (m_body m) (m_ip m) with
      | None => VFail oob
      | Some op =>
        match op with
        | PushConstant i => k <~ opt oob (nth_error (ps_consts ps) i) ; c <~ push_field (pubv k) (m_c m) ; next_c m c   (* 361-364 *)
        | PushIndex i => c <~ push_index i (m_c m) ; next_c m c                                                        (* 365 *)
        | LoadSignals n => r <~ pop_index (m_c m) ;                                                                    (* 366-375 *)
                           vs <~ opt oob (slice (c_off (m_c m) + fst r) n (m_sig m)) ;
                           c <~ push_fields vs (snd r) ; next_c m c
        | StoreSignals n => r <~ pop_index (m_c m) ;                                                                   (* 376-392 *)
                            q <~ store_into (store_cond (m_c m)) (c_off (m_c m) + fst r) n (m_sig m) (snd r) ;
                            next (set_sig (set_c m (snd q)) (fst q))
        | LoadVars n => r <~ pop_index (m_c m) ;                                                                       (* 393-401 *)
                        vs <~ opt oob (slice (fst r) n (m_vars m)) ;
                        c <~ push_fields vs (snd r) ; next_c m c
        | StoreVars n => r <~ pop_index (m_c m) ;                                                                      (* 402-416 *)
                         q <~ store_into (store_cond (m_c m)) (fst r) n (m_vars m) (snd r) ;
                         next (set_vars (set_c m (snd q)) (fst q))
        | Call s n => step_call s n m
        | CreateCmp s n => step_create s n m
        | OutputSubComp b k n => step_output b k n m
        | InputSubComp b k n => step_input b k n m
        | AssertOp line => r <~ pop_field (m_c m) ;                                                                    (* 554-562 *)
                           VIsZero (fst r) true (fun z => if z then VFail (Eyre "Assertion failed during execution") else next_c m (snd r))
        | If j => step_if j m
        | EndTruthyBranch j => step_end_truthy j m
        | EndFalsyBranch => c <~ pop_if (m_c m) ; next_c m c                                                           (* 597-599 *)
        | Bin ODiv => step_div m
        | Bin o => step_binop o m                                                                                      (* 600-614, 624-634, 639-663, 681-720 *)
        | Neg => r <~ pop_field (m_c m) ; VUop ONeg (fst r) (fun x => c <~ push_field x (snd r) ; next_c m c)          (* 635-638 *)
        | EqN n => b <~ pop_fields n (m_c m) ; a <~ pop_fields n (snd b) ;                                             (* 664-680 *)
                   x <~ all_eq (combine (fst a) (fst b)) vone ;
                   c <~ push_field x (snd a) ; next_c m c
        | AddIndex => b <~ pop_index (m_c m) ; a <~ pop_index (snd b) ; c <~ push_index (fst a + fst b) (snd a) ; next_c m c   (* 721-725 *)
        | MulIndex => b <~ pop_index (m_c m) ; a <~ pop_index (snd b) ; c <~ push_index (fst a * fst b) (snd a) ; next_c m c   (* 726-730 *)
        | ToIndex => r <~ pop_field (m_c m) ;                                                                          (* 731-734 *)
                     VToIndex (fst r) (fun n => c <~ push_index (N.to_nat n) (snd r) ; next_c m c)
        | JumpBack n => if (m_ip m <? n)%nat then VFail (Panic "attempt to subtract with overflow") else jump m (m_ip m - n)   (* 735-738 *)
        | JumpIfFalse n => r <~ pop_field (m_c m) ;                                                                    (* 740-747 *)
                           VIsZero (fst r) false (fun z => if z then jump (set_c m (snd r)) (m_ip m + n) else next_c m (snd r))
        | Return => VRet (Halt m)                                                                                      (* 748-752 *)
        | ReturnFun => step_return_fun m
        | ReturnSharedIfFun => m' <~ shared_fun_return m ; m'' <~ pop_function m' ; next m''                           (* 849-858 *)
        | Log => r <~ pop_field (m_c m) ;                                                                              (* 859-863 *)
                 if ps_leaky ps && is_sh (fst r) then VOpen (fst r) (fun _ => next_c m (snd r)) else next_c m (snd r)
        | LogString i => if (i <? ps_strings ps)%nat then next m else VFail (Eyre "trying to access string")           (* 864-873 *)
        | LogFlush _ => next m                                                                                         (* 874-877 *)
        end
      end.
  End Step.

  Definition out_of_fuel : err := Panic "out of fuel".
  (** mpc_vm.rs:313-355: accelerator or interpreter *)
  Definition run_comp (loop : mst V -> vmp (mst V)) (c : comp V) (sg : list V) : vmp (comp V * list V) :=
    let t := c_t c in
    let first_in := c_off c + t_out t in
    match cmp_accelerator (ps_acc ps) (t_name t) [] 0 with
    | Some _ =>
        args <~ opt oob (slice first_in (t_in t) sg) ;
        match cmp_accelerator (ps_acc ps) (t_name t) args (t_out t) with
        | None => VFail oob
        | Some q =>
            r <~ q ;
            if (length (fst r) =? t_out t)%nat then
              sg <~ opt oob (splice (c_off c) (fst r) sg) ;
              sg <~ opt oob (splice (first_in + t_in t) (snd r) sg) ;
              VRet (c, sg)
            else VFail (Panic "destination and source slices have different lengths")
        end
    | None =>
        m <~ loop (mkM 0 (t_body t) (repeat vzero (t_vars t)) [] c sg) ;
        VRet (m_c m, m_sig m)
    end.
  (** mpc_vm.rs:357-881, at most [fuel] instructions deep *)
  Fixpoint loop (fuel : nat) (m : mst V) : vmp (mst V) :=
    match fuel with
    | 0 => VFail out_of_fuel
    | S n => r <~ step (run_comp (loop n)) m ;
             match r with Goto m => loop n m | Halt m => VRet m end
    end.

  (** ** Whole runs *)
  (** mpc_vm.rs:1151-1152, 1217-1218 *)
  Definition init_signals : vmp (list V) := opt oob (splice 0 [vone] (repeat vzero (ps_amount ps))).
  Definition dec_string (n : nat) : string := NilEmpty.string_of_uint (Nat.to_uint n).
  (** mpc_vm.rs:957-977 *)
  Fixpoint set_array (name : string) (off i n : nat) (ins : list (string * V)) (sg : list V) : vmp (list (string * V) * list V) :=
    match n with
    | 0 => VRet (ins, sg)
    | S n => r <~ opt (Eyre "Cannot find signal in provided input") (remove_key (name ++ "[" ++ dec_string i ++ "]")%string ins) ;
             sg <~ opt oob (splice (off + i) [fst r] sg) ;
             set_array name off (S i) n (snd r) sg
    end.
  Fixpoint set_inputs (l : list (string * nat * nat)) (ins : list (string * V)) (sg : list V) : vmp (list V) :=
    match l with
    | [] => VRet sg
    | (name, off, size) :: l =>
        if (size =? 1)%nat then
          r <~ opt (Eyre "Cannot find signal in provided input") (remove_key name ins) ;
          sg <~ opt oob (splice off [fst r] sg) ;
          set_inputs l (snd r) sg
        else r <~ set_array name off 0 size ins sg ; set_inputs l (fst r) (snd r)
    end.
  (** mpc_vm.rs:979-987 *)
  Definition set_flat_inputs (ins sg : list V) : vmp (list V) :=
    if (ps_inputs ps =? length ins)%nat then opt oob (splice (1 + ps_outputs ps) ins sg)
    else VFail (Panic "You have to provide the input signals").
  (** mpc_vm.rs:989-998 *)
  Definition call_main (fuel : nat) (sg : list V) : vmp (list V) :=
    t <~ opt (Eyre "cannot find main template") (assoc (ps_main ps) (ps_templs ps)) ;
    r <~ run_comp (loop fuel) (init_comp t 1) sg ;
    VRet (snd r).
  (** mpc_vm.rs:912-935; the shares are computed from the returned values without communication *)
  Fixpoint open_all (idx : list nat) (sg : list V) : vmp (list F) :=
    match idx with
    | [] => VRet []
    | i :: idx => v <~ opt oob (nth_error sg i) ; VOpen v (fun x => r <~ open_all idx sg ; VRet (x :: r))
    end.
  Fixpoint at_all (idx : list nat) (sg : list V) : vmp (list V) :=
    match idx with
    | [] => VRet []
    | i :: idx => v <~ opt oob (nth_error sg i) ; r <~ at_all idx sg ; VRet (v :: r)
    end.
  Definition post_processing (public_inputs : nat) (sg : list V) : vmp (list F * list V) :=
    let total := ps_outputs ps + public_inputs + 1 in
    if (length (ps_s2w ps) <? total)%nat then VFail (Panic "attempt to subtract with overflow")
    else
      pubs <~ open_all (firstn total (ps_s2w ps)) sg ;
      wit <~ at_all (skipn total (ps_s2w ps)) sg ;
      VRet (pubs, wit).
  (** mpc_vm.rs:1030-1039 [run] after the comparison of the configurations *)
  Definition vm_run (fuel public_inputs : nat) (ins : list (string * V)) : vmp (list F * list V) :=
    sg <~ init_signals ; sg <~ set_inputs (ps_input_list ps) ins sg ; sg <~ call_main fuel sg ; post_processing public_inputs sg.
  (** mpc_vm.rs:1061-1069 [run_with_flat] *)
  Definition vm_run_flat (fuel public_inputs : nat) (ins : list V) : vmp (list F * list V) :=
    sg <~ init_signals ; sg <~ set_flat_inputs ins sg ; sg <~ call_main fuel sg ; post_processing public_inputs sg.
End Interp.
