(** * Properties of the MPC-VM: accelerators (C55), inputs (C56), returns under shared conditions (C57) *)
From Coq Require Import String List Arith NArith ZArith Lia Bool.
From Verif Require Import Proc Alg Zp Rep3Net Rep3 Rep3Spec Uint Binary Conv Garble Circuits Yao VmDriver VmIdeal VmDriverWp
  Vm VmSim VmRun VmSource VmCompile VmMask VmSpec Concrete ConcreteU ConcreteY ConcreteV PropsVmRun.
Import ListNotations.
Local Open Scope grp_scope.
Local Open Scope string_scope.
Local Open Scope list_scope.

(** ** C55. The accelerators compute what the circom templates compute

    [run_plain]: the driver on clear values; [run_ideal]: the driver of three parties, by C47. *)
Section C55.
  Context {F : Type} `{FU : FieldUint F} (fsqrt : F -> option F).
  Theorem C55_iszero cfg (a : F) q outs : ac_iszero cfg = true -> cmp_accelerator (fun x : F => x) cfg "IsZero" [a] outs = Some q ->
    exists out inv, run_plain fsqrt q = Done ([out], [inv]) /\ iszero_ok a out inv.
  Proof. exact (@iszero_plain F _ _ fsqrt cfg a q outs). Qed.
  Theorem C55_iszero_shared cfg (a : tv F) q outs : ac_iszero cfg = true -> cmp_accelerator (Pub (F := F)) cfg "IsZero" [a] outs = Some q ->
    exists out inv, run_ideal fsqrt q = Done ([out], [inv]) /\ iszero_ok (tval a) (tval out) (tval inv).
  Proof. exact (@iszero_ideal F _ _ fsqrt cfg a q outs). Qed.
  (** the bits are returned without an error for values that do not fit as well *)
  Theorem C55_num2bits cfg (a : F) q n : ac_num2bits cfg = true -> cmp_accelerator (fun x : F => x) cfg "Num2Bits" [a] n = Some q ->
    exists out, run_plain fsqrt q = Done (out, []) /\ length out = n /\ (num2bits_ok n a out <-> (to_uint a < 2 ^ N.of_nat n)%N).
  Proof. exact (@num2bits_plain F _ _ fsqrt cfg a q n). Qed.
  Theorem C55_num2bits_shared cfg (a : tv F) q n : ac_num2bits cfg = true -> cmp_accelerator (Pub (F := F)) cfg "Num2Bits" [a] n = Some q ->
    exists out, run_ideal fsqrt q = Done (out, []) /\ length out = n /\ (num2bits_ok n (tval a) (map tval out) <-> (to_uint (tval a) < 2 ^ N.of_nat n)%N).
  Proof. exact (@num2bits_ideal F _ _ fsqrt cfg a q n). Qed.
  Theorem C55_addbits cfg (a b : list F) q outs : ac_addbits cfg = true -> cmp_accelerator (fun x : F => x) cfg "AddBits" (a ++ b) outs = Some q ->
    Forall bit a -> Forall bit b -> length a = length b -> (length a < mbs F - 1)%nat ->
    exists out carry, run_plain fsqrt q = Done (out, [carry]) /\ addbits_ok (length a) a b out carry.
  Proof. exact (@addbits_plain F _ _ fsqrt cfg a b q outs). Qed.
  Theorem C55_addbits_shared cfg (a b : list (tv F)) q outs : ac_addbits cfg = true -> cmp_accelerator (Pub (F := F)) cfg "AddBits" (a ++ b) outs = Some q ->
    Forall bit (map tval a) -> Forall bit (map tval b) -> length a = length b -> (length a < mbs F - 1)%nat ->
    exists out carry, run_ideal fsqrt q = Done (out, [carry]) /\ addbits_ok (length a) (map tval a) (map tval b) (map tval out) (tval carry).
  Proof. exact (@addbits_ideal F _ _ fsqrt cfg a b q outs). Qed.
End C55.
(** [Num2Bits(2)] of 9: the template has the constraint [lc1 === in] and ends with an error, the
    accelerator returns the two low bits *)
Theorem C55_num2bits_refuted : exists (a : F13) n q out, cmp_accelerator (fun x : F13 => x) (mkAcfg true true true true) "Num2Bits" [a] n = Some q /\
  run_plain fsqrt13 q = Done (out, []) /\ ~ num2bits_ok n a out.
Proof.
  destruct (C55_num2bits fsqrt13 (mkAcfg true true true true) (f13 9) _ 2 eq_refl eq_refl) as (out & O1 & _ & O2).
  exists (f13 9), 2%nat. eexists. exists out. split; [reflexivity|]. split; [exact O1|]. intros K. apply O2 in K. vm_compute in K. discriminate.
Qed.
(** [sqrt] of a value without a root: the function of pointbits.circom:34-36 returns 0, both drivers fail *)
Theorem C55_sqrt_refuted : exists n : F13, (forall w, rmul w w <> n) /\ (forall v, plain_uop fsqrt13 OSqrt n <> Done v) /\ (forall v, ideal_uop fsqrt13 OSqrt (Sh n) <> Done v).
Proof.
  exists (f13 2). assert (E : fsqrt13 (f13 2) = None) by (vm_compute; reflexivity). split; [exact (fsqrt13_none _ E)|].
  unfold plain_uop, ideal_uop. rewrite E. split; discriminate.
Qed.
Print Assumptions C55_iszero.
Print Assumptions C55_iszero_shared.
Print Assumptions C55_num2bits.
Print Assumptions C55_num2bits_shared.
Print Assumptions C55_addbits.
Print Assumptions C55_addbits_shared.
Print Assumptions C55_num2bits_refuted.
Print Assumptions C55_sqrt_refuted.
Definition zs (o : outcome (list F13 * list F13)) : option (list Z * list Z) :=
  match o with Done r => Some (map Zp.val (fst r), map Zp.val (snd r)) | Failed _ => None end.
(** runs of the accelerators on clear values *)
Definition accel13 (name : string) (args : list Z) (outs : nat) : option (list Z * list Z) :=
  match cmp_accelerator (fun x : F13 => x) (mkAcfg true true true true) name (map f13 args) outs with Some q => zs (run_plain fsqrt13 q) | None => None end.
Example ex_C55 : accel13 "IsZero" [0%Z] 1 = Some ([1], [0])%Z /\ accel13 "IsZero" [2%Z] 1 = Some ([0], [7])%Z /\
  accel13 "Num2Bits" [6%Z] 3 = Some ([0; 1; 1], [])%Z /\ accel13 "AddBits" [1; 1; 0; 1]%Z 2 = Some ([0; 0], [1])%Z.
Proof. repeat split; vm_compute; reflexivity. Qed.
Example ex_C55_addbits : exists out carry, zs (run_plain fsqrt13 (VAddBits (map f13 [1; 1]%Z) (map f13 [0; 1]%Z) (fun r => VRet (fst r, [snd r])))) = Some (map Zp.val out, [Zp.val carry]) /\
  addbits_ok 2 (map f13 [1; 1]%Z) (map f13 [0; 1]%Z) out carry.
Proof.
  destruct (C55_addbits fsqrt13 (mkAcfg true true true true) (map f13 [1; 1]%Z) (map f13 [0; 1]%Z) _ 2 eq_refl eq_refl) as (out & carry & O1 & O2).
  - repeat constructor; unfold bit; vm_compute; apply Zmod_eq; reflexivity.
  - repeat constructor; unfold bit; vm_compute; apply Zmod_eq; reflexivity.
  - reflexivity.
  - vm_compute. lia.
  - exists out, carry. split; [|exact O2]. exact (f_equal zs O1).
Qed.

(** ** C56. Inputs *)
Section C56.
  Context {F V : Type} `{CR : CRing F} (h : handler F V).
  (** by name: every element of every input signal is at its place, all other signals are as before *)
  Theorem C56_named l ins (sg sg' : list V) : run (F := F) h (set_inputs l ins sg) = Done sg' -> NoDup (map fst ins) -> NoDup (flat_map positions l) ->
    length sg' = length sg /\
    (forall name off size i, In (name, off, size) l -> (i < size)%nat -> exists v, assoc (input_name name size i) ins = Some v /\ nth_error sg' (off + i)%nat = Some v) /\
    (forall j, ~ In j (flat_map positions l) -> nth_error sg' j = nth_error sg j).
  Proof. exact (@set_inputs_spec F V h l ins sg sg'). Qed.
  (** in order: after the constant and the outputs *)
  Theorem C56_flat (ps : parsed F) ins (sg sg' : list V) : run (F := F) h (set_flat_inputs ps ins sg) = Done sg' ->
    length ins = ps_inputs ps /\ length sg' = length sg /\
    (forall i, (i < ps_inputs ps)%nat -> nth_error sg' (1 + ps_outputs ps + i)%nat = nth_error ins i) /\
    (forall j, ~ (1 + ps_outputs ps <= j < 1 + ps_outputs ps + ps_inputs ps)%nat -> nth_error sg' j = nth_error sg j).
  Proof. exact (@set_flat_spec F V h ps ins sg sg'). Qed.
  (** the two entry points agree *)
  Theorem C56_same (pubv : F -> V) is_sh (ps : parsed F) fuel k (ins : list (string * V)) flat sg :
    flat_map positions (ps_input_list ps) = seq (1 + ps_outputs ps)%nat (ps_inputs ps) -> (1 + ps_outputs ps + ps_inputs ps <= ps_amount ps)%nat ->
    NoDup (map fst ins) -> map Some flat = flat_of (ps_input_list ps) ins -> run (F := F) h (init_signals pubv ps) = Done sg ->
    (exists sg', run (F := F) h (set_inputs (ps_input_list ps) ins sg) = Done sg') ->
    run (F := F) h (vm_run pubv is_sh ps fuel k ins) = run (F := F) h (vm_run_flat pubv is_sh ps fuel k flat).
  Proof. exact (@flat_named F V _ h pubv is_sh ps fuel k ins flat sg). Qed.
End C56.
Print Assumptions C56_named.
Print Assumptions C56_flat.
Print Assumptions C56_same.
(** the program of C47 with its two inputs *)
Definition named13 (a b : Z) : list (string * F13) := [("b", f13 b); ("a", f13 a)].
Example ex_C56 fuel : run (F := F13) (plain_h fsqrt13) (vm_run (fun x => x) (fun _ => false) prog13 fuel 0 (named13 3 5)) =
  run (F := F13) (plain_h fsqrt13) (vm_run_flat (fun x => x) (fun _ => false) prog13 fuel 0 [f13 3; f13 5]).
Proof.
  eapply C56_same; [reflexivity|cbn; lia| |reflexivity|reflexivity|eexists; reflexivity].
  cbn. repeat constructor; cbn; intuition discriminate.
Qed.
(** an input with two elements *)
Example ex_C56_array : exists sg, run (F := F13) (plain_h fsqrt13) (set_inputs [("x", 2, 2); ("y", 1, 1)]%nat [("y", f13 7); ("x[1]", f13 9); ("x[0]", f13 8)] (map f13 [1; 0; 0; 0; 5]%Z)) = Done sg /\
  map Zp.val sg = [1; 7; 8; 9; 5]%Z.
Proof. eexists. split; [vm_compute; reflexivity|vm_compute; reflexivity]. Qed.

(** ** C57. The [return] statements of a function under shared conditions

    [returned rets]: what the function has returned so far, in the order of its statements. *)
Section C57.
  Context {F : Type} `{FU : FieldUint F} (fsqrt : F -> option F).
  Local Open Scope vm_scope.
  Theorem C57_shared m cond r : shared_cond (c_if (m_c m)) = Some cond -> bit (tval cond) -> returns_ok (c_ret (m_c m)) (m_shared m) ->
    run_ideal fsqrt (step_return_fun Pub m) = Done r ->
    exists m' vs c, r = Goto m' /\ return_values m = Some (vs, c) /\ m_ip m' = S (m_ip m) /\ m_c m' = c /\ returns_ok (c_ret (m_c m)) (m_shared m') /\
      returned (m_shared m') = match returned (m_shared m) with Some v => Some v | None => if feqb (tval cond) rone then Some (map tval vs) else None end.
  Proof. exact (@return_shared F _ _ fsqrt m cond r). Qed.
  Theorem C57_last m r : shared_cond (c_if (m_c m)) = None -> m_shared m <> [] -> c_fs (m_c m) <> [] -> returns_ok (c_ret (m_c m)) (m_shared m) ->
    run_ideal fsqrt (step_return_fun Pub m) = Done r ->
    exists m' ws c f s vs, r = Goto m' /\ return_values m = Some (ws, c) /\ c_fs c = f :: s /\ c_fs (m_c m') = (rev vs ++ f) :: s /\
      map tval vs = match returned (m_shared m) with Some v => v | None => map tval ws end.
  Proof. exact (@return_last F _ _ fsqrt m r). Qed.
  Theorem C57_end m f s r : returns_ok (c_ret (m_c m)) (m_shared m) -> c_fs (m_c m) = f :: s ->
    run_ideal fsqrt (m' <~ shared_fun_return Pub m ; m'' <~ pop_function m' ; next m'') = Done r ->
    exists m' vs, r = Goto m' /\ c_fs (m_c m') = (rev vs ++ f) :: s /\
      map tval vs = match returned (m_shared m) with Some v => v | None => repeat 0 (c_ret (m_c m)) end.
  Proof. exact (@return_end F _ _ fsqrt m f s r). Qed.
End C57.
Print Assumptions C57_shared.
Print Assumptions C57_last.
Print Assumptions C57_end.
(** a function [if (x < y) return x; if (x < 10) return y; return 7] applied to shared values *)
Definition ret_body : list opcode :=
  [PushIndex 0; LoadVars 1; PushIndex 1; LoadVars 1; Bin OLt; If 4; PushIndex 0; LoadVars 1; ReturnFun; EndTruthyBranch 0;
   PushIndex 0; LoadVars 1; PushConstant 0; Bin OLt; If 4; PushIndex 1; LoadVars 1; ReturnFun; EndTruthyBranch 0;
   PushConstant 1; ReturnFun; ReturnSharedIfFun].
Definition ret_main : templ := mkTempl "Main" 2 1 0 []
  [PushIndex 1; LoadSignals 1; PushIndex 2; LoadSignals 1; Call "f_0" 1; PushIndex 0; StoreSignals 1; Return].
Definition ret13 : parsed F13 :=
  mkParsed "Main_0" 4 [f13 3; f13 7] 0 [("f_0", mkFun 2 2 ret_body)] [("Main_0", ret_main)]
    [0; 1; 2; 3]%nat 2 1 [("a", 2, 1); ("b", 3, 1)]%nat (mkAcfg true true true true) false.
Example ex_C57 : map (fun q => vals (run_ideal fsqrt13 (ideal_run ret13 100 0 (in13t (fst q) (snd q))))) [(1, 5); (5, 1); (2, 1); (6, 6)]%Z =
  [Some ([1; 1], [1; 5]); Some ([1; 7], [5; 1]); Some ([1; 1], [2; 1]); Some ([1; 7], [6; 6])]%Z.
Proof. vm_compute. reflexivity. Qed.
