(** * Circom programs, their compilation to the MPC-VM, and what they mean

    Source: the intermediate representation of the circom compiler (buckets) as consumed by
    co-circom/circom-mpc-compiler/src/lib.rs.  Not covered here: calls of functions and [return],
    log statements, comparisons of arrays. *)
From Coq Require Import String List Arith NArith Bool.
From Verif Require Import Proc Alg VmDriver Vm.
Import ListNotations.
Set Implicit Arguments.
Local Open Scope string_scope.
Local Open Scope list_scope.

(** ** Source *)
(** addresses and values: [ValueBucket], [LoadBucket], [ComputeBucket] *)
Inductive iexp : Type :=
| IConst (n : nat) | IAddr (e : expr) | IAdd (a b : iexp) | IMul (a b : iexp)
with expr : Type :=
| EConst (i : nat) | EVar (a : iexp) | ESig (a : iexp)
| EBin (o : bop) (a b : expr) | ENeg (a : expr) | EEq (a b : expr)
| EOut (mapped : bool) (code : nat) (ix cmp : iexp).
(** the right side of a store: one value or an array *)
Inductive rhs : Type :=
| RExp (e : expr) | RVars (n : nat) (a : iexp) | RSigs (n : nat) (a : iexp) | ROuts (mapped : bool) (code n : nat) (ix cmp : iexp).
(** [StoreBucket], [BranchBucket], [LoopBucket], [AssertBucket], [CreateCmpBucket] *)
Inductive stmt : Type :=
| SSkip | SSeq (a b : stmt)
| SStoreVar (n : nat) (r : rhs) (a : iexp) | SStoreSig (n : nat) (r : rhs) (a : iexp)
| SInput (mapped : bool) (code n : nat) (r : rhs) (ix cmp : iexp)
| SCreate (symbol : string) (amount off jump : nat)
| SIf (c : expr) (a : stmt) | SIfElse (c : expr) (a b : stmt)
| SWhile (c : expr) (a : stmt) | SAssert (line : nat) (e : expr).
Record stempl : Type := mkST { st_name : string; st_in : nat; st_out : nat; st_vars : nat; st_maps : list nat; st_body : stmt }.

(** ** Compilation *)
(** lib.rs:333-377 [handle_compute_bucket], 386-429 [handle_load_bucket], 611-617 [handle_value_bucket] *)
Fixpoint ci (a : iexp) : list opcode :=
  match a with
  | IConst n => [PushIndex n]
  | IAddr e => ce e ++ [ToIndex]
  | IAdd a b => ci a ++ ci b ++ [AddIndex]
  | IMul a b => ci a ++ ci b ++ [MulIndex]
  end
with ce (e : expr) : list opcode :=
  match e with
  | EConst i => [PushConstant i]
  | EVar a => ci a ++ [LoadVars 1]
  | ESig a => ci a ++ [LoadSignals 1]
  | EBin o a b => ce a ++ ce b ++ [Bin o]
  | ENeg a => ce a ++ [Neg]
  | EEq a b => ce a ++ ce b ++ [EqN 1]
  | EOut mapped code ix cmp => ci ix ++ ci cmp ++ [OutputSubComp mapped code 1]
  end.
Definition cr (r : rhs) : list opcode :=
  match r with
  | RExp e => ce e
  | RVars n a => ci a ++ [LoadVars n]
  | RSigs n a => ci a ++ [LoadSignals n]
  | ROuts mapped code n ix cmp => ci ix ++ ci cmp ++ [OutputSubComp mapped code n]
  end.
(** lib.rs:245-310 [emit_store_opcodes], [handle_store_bucket], 431-438 [handle_create_cmp_bucket],
    440-449 [handle_loop_bucket], 451-466 [handle_branch_bucket], 468-474 [handle_assert_bucket] *)
Fixpoint cs (s : stmt) : list opcode :=
  match s with
  | SSkip => []
  | SSeq a b => cs a ++ cs b
  | SStoreVar n r a => cr r ++ ci a ++ [StoreVars n]
  | SStoreSig n r a => cr r ++ ci a ++ [StoreSignals n]
  | SInput mapped code n r ix cmp => cr r ++ ci ix ++ ci cmp ++ [InputSubComp mapped code n]
  | SCreate symbol amount off jump => [PushIndex off; PushIndex jump; CreateCmp symbol amount]
  | SIf c a => ce c ++ [If (length (cs a) + 2)] ++ cs a ++ [EndTruthyBranch 0]
  | SIfElse c a b => ce c ++ [If (length (cs a) + 2)] ++ cs a ++ [EndTruthyBranch (length (cs b) + 2)] ++ cs b ++ [EndFalsyBranch]
  | SWhile c a => ce c ++ [JumpIfFalse (length (cs a) + 2)] ++ cs a ++ [JumpBack (length (cs a) + length (ce c) + 1)]
  | SAssert line e => ce e ++ [AssertOp line]
  end.
(** lib.rs:722-757 *)
Definition ct (t : stempl) : templ := mkTempl (st_name t) (st_in t) (st_out t) (st_vars t) (st_maps t) (cs (st_body t) ++ [Return]).

(** ** Meaning *)
(** a driver without communication *)
Record handler (F V : Type) : Type := mkH {
  h_bop : bop -> V -> V -> outcome V; h_uop : uop -> V -> outcome V; h_cmux : V -> V -> V -> outcome V;
  h_is_zero : V -> bool -> outcome bool; h_to_index : V -> outcome N;
  h_num2bits : V -> nat -> outcome (list V); h_addbits : list V -> list V -> outcome (list V * V); h_open : V -> outcome F }.
Section Run.
  Context {F V : Type} (h : handler F V).
  Fixpoint run {A} (q : vmp F V A) : outcome A :=
    match q with
    | VRet a => Done a
    | VFail e => Failed e
    | VBop o x y k => obind (h_bop h o x y) (fun v => run (k v))
    | VUop o x k => obind (h_uop h o x) (fun v => run (k v))
    | VCmux c x y k => obind (h_cmux h c x y) (fun v => run (k v))
    | VIsZero x allow k => obind (h_is_zero h x allow) (fun v => run (k v))
    | VToIndex x k => obind (h_to_index h x) (fun v => run (k v))
    | VNum2Bits x n k => obind (h_num2bits h x n) (fun v => run (k v))
    | VAddBits x y k => obind (h_addbits h x y) (fun v => run (k v))
    | VOpen x k => obind (h_open h x) (fun v => run (k v))
    end.
End Run.

(** nothing is claimed about runs that end with this error *)
Definition outside : err := Panic "outside of the described behaviour".
Definition fuel_err : err := Panic "out of fuel".

Section Sem.
  Context {F V : Type} `{CR : CRing F} (pubv : F -> V) (is_sh : V -> bool).
  (** the operations under a condition: [None] if no enclosing condition is shared *)
  Variable hm : option V -> handler F V.
  Variables (consts : list F) (templs : list (string * stempl)) (cfg : acfg).
  Notation vzero := (vzero pubv).
  Notation vone := (vone pubv).
  (** a sub-component: template, number of inputs provided, position of its signals, whether it ran *)
  Record scomp : Type := mkSC { sc_t : stempl; sc_prov : nat; sc_off : nat; sc_ran : bool }.
  Record state : Type := mkS { s_vars : list V; s_sig : list V; s_subs : list scomp }.
  Definition oget {A} (o : option A) : outcome A := match o with Some a => Done a | None => Failed oob end.
  Definition signal_of (s : scomp) (mapped : bool) (code i : nat) : outcome nat :=
    if mapped then obind (oget (nth_error (st_maps (sc_t s)) code)) (fun d => Done (sc_off s + (i + d))) else Done (sc_off s + i).

  Section Expr.
    Variables (mask : option V) (off : nat) (st : state).
    Notation h := (hm mask).
    (** in a branch that is not taken the divisor is replaced by one *)
    Definition divisor (y : V) : outcome V := match mask with Some m => h_cmux h m y vone | None => Done y end.
    Fixpoint xi (a : iexp) : outcome nat :=
      match a with
      | IConst n => Done n
      | IAddr e => obind (xe e) (fun v => obind (h_to_index h v) (fun n => Done (N.to_nat n)))
      | IAdd a b => obind (xi a) (fun x => obind (xi b) (fun y => Done (x + y)))
      | IMul a b => obind (xi a) (fun x => obind (xi b) (fun y => Done (x * y)))
      end
    with xe (e : expr) : outcome V :=
      match e with
      | EConst i => obind (oget (nth_error consts i)) (fun k => Done (pubv k))
      | EVar a => obind (xi a) (fun i => oget (nth_error (s_vars st) i))
      | ESig a => obind (xi a) (fun i => oget (nth_error (s_sig st) (off + i)))
      | EBin o a b => obind (xe a) (fun x => obind (xe b) (fun y =>
          match o with ODiv => obind (divisor y) (fun y => h_bop h ODiv x y) | _ => h_bop h o x y end))
      | ENeg a => obind (xe a) (fun x => h_uop h ONeg x)
      | EEq a b => obind (xe a) (fun x => obind (xe b) (fun y => obind (h_bop h OEq x y) (fun z => h_bop h OBoolAnd z vone)))
      | EOut mapped code ix cmp => obind (xi ix) (fun i => obind (xi cmp) (fun c =>
          obind (oget (nth_error (s_subs st) c)) (fun s => obind (signal_of s mapped code i) (fun j => oget (nth_error (s_sig st) j)))))
      end.
    Definition xr (r : rhs) : outcome (list V) :=
      match r with
      | RExp e => obind (xe e) (fun v => Done [v])
      | RVars n a => obind (xi a) (fun i => oget (slice i n (s_vars st)))
      | RSigs n a => obind (xi a) (fun i => oget (slice (off + i) n (s_sig st)))
      | ROuts mapped code n ix cmp => obind (xi ix) (fun i => obind (xi cmp) (fun c =>
          obind (oget (nth_error (s_subs st) c)) (fun s => obind (signal_of s mapped code i) (fun j => oget (slice j n (s_sig st))))))
      end.
    (** under a shared condition a store keeps the old value if the condition is false; [rvs]: last
        value first *)
    Fixpoint sto (base : nat) (rvs arr : list V) : outcome (list V) :=
      match rvs with
      | [] => Done arr
      | v :: rvs => obind (oget (nth_error arr (base + length rvs))) (fun old =>
                    obind (match mask with Some m => h_cmux h m v old | None => Done v end) (fun x =>
                    obind (oget (splice (base + length rvs) [x] arr)) (fun arr => sto base rvs arr)))
      end.
    Definition sized (n : nat) (vs : list V) : outcome (list V) := if (length vs =? n)%nat then Done vs else Failed outside.
  End Expr.

  (** a component: by its accelerator if there is one, else by its body *)
  Definition xcomp (body : stempl -> nat -> list V -> outcome (list V)) (t : stempl) (off : nat) (sg : list V) : outcome (list V) :=
    match cmp_accelerator pubv cfg (st_name t) [] 0 with
    | Some _ =>
        obind (oget (slice (off + st_out t) (st_in t) sg)) (fun args =>
        match cmp_accelerator pubv cfg (st_name t) args (st_out t) with
        | None => Failed outside
        | Some q => obind (run (hm None) q) (fun r =>
            if (length (fst r) =? st_out t)%nat then
              obind (oget (splice off (fst r) sg)) (fun sg => oget (splice (off + st_out t + st_in t) (snd r) sg))
            else Failed outside)
        end)
    | None => body t off sg
    end.
  Fixpoint xcreate (run_c : stempl -> nat -> list V -> outcome (list V)) (l : list scomp) (sg : list V) : outcome (list scomp * list V) :=
    match l with
    | [] => Done ([], sg)
    | s :: l =>
        if (st_in (sc_t s) =? 0)%nat then
          obind (run_c (sc_t s) (sc_off s) sg) (fun sg => obind (xcreate run_c l sg) (fun r =>
            Done (mkSC (sc_t s) (sc_prov s) (sc_off s) true :: fst r, snd r)))
        else obind (xcreate run_c l sg) (fun r => Done (s :: fst r, snd r))
    end.
  Definition set_st_sig (st : state) sg := mkS (s_vars st) sg (s_subs st).

  Fixpoint xs (fuel : nat) (s : stmt) (mask : option V) (off : nat) (st : state) {struct fuel} : outcome state :=
    match fuel with
    | 0 => Failed fuel_err
    | S n =>
      let run_c := xcomp (fun t off sg => obind (xs n (st_body t) None off (mkS (repeat vzero (st_vars t)) sg [])) (fun st => Done (s_sig st))) in
      let h := hm mask in
      let cond c k := obind (xe mask off st c) (fun v => obind (h_is_zero h v false) k) in
      match s with
      | SSkip => Done st
      | SSeq a b => obind (xs n a mask off st) (fun st => xs n b mask off st)
      | SStoreVar k r a => obind (obind (xr mask off st r) (sized k)) (fun vs => obind (xi mask off st a) (fun i =>
          obind (sto mask i (rev vs) (s_vars st)) (fun vars => Done (mkS vars (s_sig st) (s_subs st)))))
      | SStoreSig k r a => obind (obind (xr mask off st r) (sized k)) (fun vs => obind (xi mask off st a) (fun i =>
          obind (sto mask (off + i) (rev vs) (s_sig st)) (fun sg => Done (mkS (s_vars st) sg (s_subs st)))))
      | SInput mapped code k r ix cmp =>
          match mask with
          | Some _ => Failed (Panic "Cannot be shared when providing inputs for sub component")
          | None =>
            obind (obind (xr mask off st r) (sized k)) (fun vs => obind (xi mask off st ix) (fun i => obind (xi mask off st cmp) (fun c =>
            obind (oget (nth_error (s_subs st) c)) (fun s => if sc_ran s then Failed outside else
            obind (signal_of s mapped code i) (fun j => obind (oget (splice j vs (s_sig st))) (fun sg =>
            let prov := sc_prov s + k in
            if (prov =? st_in (sc_t s))%nat then
              obind (run_c (sc_t s) (sc_off s) sg) (fun sg =>
              obind (oget (splice c [mkSC (sc_t s) prov (sc_off s) true] (s_subs st))) (fun subs => Done (mkS (s_vars st) sg subs)))
            else obind (oget (splice c [mkSC (sc_t s) prov (sc_off s) false] (s_subs st))) (fun subs => Done (mkS (s_vars st) sg subs))))))))
          end
      | SCreate symbol amount o j =>
          match mask with
          | Some _ => Failed outside
          | None => obind (oget (assoc symbol templs)) (fun t =>
              obind (xcreate run_c (map (fun i => mkSC t 0 (off + o + i * j) false) (seq 0 amount)) (s_sig st)) (fun r =>
              Done (mkS (s_vars st) (snd r) (s_subs st ++ fst r))))
          end
      | SIf c a => obind (xe mask off st c) (fun v =>
          if is_sh v then
            (* both cases are computed: under the condition [v] the statement has its effect *)
            obind (h_bop h OBoolAnd (match mask with Some m => m | None => vone end) v) (fun m => xs n a (Some m) off st)
          else obind (h_is_zero h v false) (fun z =>
            if z then match mask with Some _ => Failed outside | None => Done st end else xs n a mask off st))
      | SIfElse c a b => obind (xe mask off st c) (fun v =>
          if is_sh v then
            let last := match mask with Some m => m | None => vone end in
            obind (h_bop h OBoolAnd last v) (fun m => obind (xs n a (Some m) off st) (fun st =>
            obind (h_uop h OBoolNot v) (fun nv => obind (h_bop h OBoolAnd last nv) (fun m => xs n b (Some m) off st))))
          else obind (h_is_zero h v false) (fun z => if z then xs n b mask off st else xs n a mask off st))
      | SWhile c a => cond c (fun z => if z then Done st else obind (xs n a mask off st) (fun st => xs n (SWhile c a) mask off st))
      | SAssert line e => obind (xe mask off st e) (fun v => obind (h_is_zero h v true) (fun z =>
          if z then Failed (Eyre "Assertion failed during execution") else Done st))
      end
    end.
  (** the signals after running the template with position [off] *)
  Definition xmain (fuel : nat) (t : stempl) (off : nat) (sg : list V) : outcome (list V) :=
    xcomp (fun t off sg => obind (xs fuel (st_body t) None off (mkS (repeat vzero (st_vars t)) sg [])) (fun st => Done (s_sig st))) t off sg.
End Sem.

(** ** Whole programs *)
(** types.rs:108-125 with the source of the templates *)
Record source (F : Type) : Type := mkSrc {
  so_main : string; so_amount : nat; so_consts : list F; so_strings : nat; so_templs : list (string * stempl);
  so_s2w : list nat; so_inputs : nat; so_outputs : nat; so_input_list : list (string * nat * nat); so_acc : acfg; so_leaky : bool }.
Definition compiled {F} (p : source F) : parsed F :=
  mkParsed (so_main p) (so_amount p) (so_consts p) (so_strings p) [] (map (fun x => (fst x, ct (snd x))) (so_templs p))
    (so_s2w p) (so_inputs p) (so_outputs p) (so_input_list p) (so_acc p) (so_leaky p).
Section Whole.
  Context {F V : Type} `{CR : CRing F} (pubv : F -> V) (is_sh : V -> bool) (hm : option V -> handler F V) (p : source F).
  (** set the inputs, run the main template, take the witness: first the public part, opened *)
  Definition xrun (fuel public_inputs : nat) (ins : list (string * V)) : outcome (list F * list V) :=
    obind (run (hm None) (vbind (init_signals pubv (compiled p)) (set_inputs (so_input_list p) ins))) (fun sg =>
    obind (oget (assoc (so_main p) (so_templs p))) (fun t =>
    obind (xmain pubv is_sh hm (so_consts p) (so_templs p) (so_acc p) fuel t 1 sg) (fun sg =>
    run (hm None) (post_processing (compiled p) public_inputs sg)))).
End Whole.
