(** * Properties of compiled circom programs run by the MPC-VM (C48) *)
From Coq Require Import String List Arith NArith ZArith Lia Bool.
From Verif Require Import Proc Alg Zp Rep3Net Rep3 Rep3Spec Rep3Proofs Rep3Wp Uint Binary Conv Exec Garble Circuits Garbled Yao
  VmDriver VmIdeal VmDriverWp Vm VmSim VmRun PropsVm PropsVmRun VmSource VmCompile VmMask Concrete ConcreteU ConcreteY ConcreteV.
Import ListNotations.
Local Open Scope grp_scope.
Local Open Scope string_scope.
Local Open Scope list_scope.

(** [xrun] is the meaning of a source program: structured statements, no jumps, no stacks.  With the
    drivers [strict] it is a run in which every operation on the branch taken returns what the clear
    driver returns, and which stays clear of the refuted cases at the end of this file. *)

(** the compiler and the machine: for any driver, a run of the source is a run of the bytecode *)
Theorem C48_compiler {F V} `{CR : CRing F} (pubv : F -> V) (is_sh : V -> bool) (h : handler F V) (p : source F) n k ins r :
  xrun pubv is_sh (fun _ => h) p n k ins = Done r ->
  exists n0, forall fuel, (n0 <= fuel)%nat -> run h (vm_run pubv is_sh (compiled p) fuel k ins) = Done r.
Proof. exact (whole_compile pubv is_sh h p n k ins (r := r)). Qed.
Print Assumptions C48_compiler.

Section C48.
  Context {F : Type} `{FU : FieldUint F} (fsqrt : F -> option F).
  (** shared conditions: both branches are executed under a mask, and the result is the one of the
      clear run, which executes one *)
  Theorem C48_masks (p : source F) n k ins pubs wit :
    xrun Pub (@tshared F) (strict fsqrt) p n k ins = Done (pubs, wit) ->
    exists n0, forall fuel, (n0 <= fuel)%nat ->
      run_ideal fsqrt (ideal_run (compiled p) fuel k ins) = Done (pubs, wit) /\
      run_plain fsqrt (vm_run (fun x => x) (fun _ => false) (compiled p) fuel k (map clear_in ins)) = Done (pubs, map tval wit).
  Proof. exact (whole_runs fsqrt p n k ins (pubs := pubs) (wit := wit)). Qed.

  Context {S M : Type} (W : nat) (du : nat -> S -> N * S) {DF : Draw S F}.
  Context {Seed : Type} {SS : Seeded S Seed} {DS : Draw S Seed}.
  Context {EN : Enc M (list N)} {ENN : Enc M (list (N * N))}
          {EL : Enc M (list (list N))} {ELL : Enc M (list (list N * list N))} {EF : Enc M (list F)}.
  Context (hash : N -> N -> N) (gtweak : N -> N) (otweak : N -> bool -> N).
  Context {Dg : Type} {ED : Enc M (list Dg)} (digest : list N -> Dg) (dg_eqb : Dg -> Dg -> bool).
  Context (draw_label draw_delta : S -> N * S) (rgof : pid -> rst S -> S) (t : a2b_type).
  Context (dg_eqb_spec : forall x y, dg_eqb x y = true <-> x = y).
  Context (cap : nat) (cap_pos : (1 <= cap)%nat) (p_odd : N.odd (fu_p (F := F)) = true) (width : (mbs F + 2 <= W)%nat).
  Context (delta_odd : forall s, color (fst (draw_delta s)) = true).
  Context (hash_sep : forall d z n, color d = true -> hash z (otweak n false) <> hash (N.lxor z d) (otweak n false)).
  Context (fsqrt_root : forall z w, fsqrt z = Some w -> rmul w w = z).
  Context (fsqrt_none : forall z, fsqrt z = None -> forall w, rmul w w <> z).
  Context (d : pid -> dst (S := S)) (Hd : synced2 d).

  Lemma parties_run (p : source F) n k ins (ins' : list (string * tv F)) pubs wit : pvec rel_in ins ins' ->
    xrun Pub (@tshared F) (strict fsqrt) p n k ins' = Done (pubs, wit) ->
    exists n0, forall fuel, (n0 <= fuel)%nat ->
      run_plain fsqrt (vm_run (fun x => x) (fun _ => false) (compiled p) fuel k (map clear_in ins')) = Done (pubs, map tval wit) /\
      all_end cap (fun i => rep3_run (M := M) (Seed := Seed) W du hash gtweak otweak digest dg_eqb draw_label draw_delta fsqrt rgof t (compiled p) fuel k i (d i) (ins i))
        (fun o => (exists r, (forall i, o i = Done (r i)) /\ (forall i, fst (fst (r i)) = pubs) /\ shares_vec (fun i => snd (fst (r i))) (map tval wit)) \/
                  (run_may fsqrt (ideal_run (compiled p) fuel k ins') = true /\ exists e, forall i, o i = Failed e)).
  Proof.
    intros Hi X. destruct (C48_masks _ _ _ _ _ _ X) as (n0 & K). exists n0. intros fuel L. destruct (K _ L) as [E1 E2]. split; [exact E2|].
    apply wpo_all_end. eapply wpo_mono; [|eapply (rep3_run_wpo du hash gtweak otweak digest dg_eqb draw_label draw_delta fsqrt rgof t dg_eqb_spec cap_pos p_odd width delta_odd hash_sep fsqrt_root fsqrt_none (compiled p) fuel k Hd Hi); rewrite E1; discriminate].
    intros o. rewrite E1. cbn [drv_post]. intros [(r & R1 & (R2 & R3) & _)|R]; [left; exists r; split; [exact R1|split; [exact R2|exact R3]]|right; exact R].
  Qed.
  (** the three parties end with the public part of the clear run and shares of its witness *)
  Theorem C48_parties (p : source F) n k ins (ins' : list (string * tv F)) pubs wit : pvec rel_in ins ins' ->
    xrun Pub (@tshared F) (strict fsqrt) p n k ins' = Done (pubs, wit) ->
    exists n0, forall fuel, (n0 <= fuel)%nat ->
      run_plain fsqrt (vm_run (fun x => x) (fun _ => false) (compiled p) fuel k (map clear_in ins')) = Done (pubs, map tval wit) /\
      all_end cap (fun i => rep3_run (M := M) (Seed := Seed) W du hash gtweak otweak digest dg_eqb draw_label draw_delta fsqrt rgof t (compiled p) fuel k i (d i) (ins i))
        (fun o => (exists r, (forall i, o i = Done (r i)) /\ (forall i, fst (fst (r i)) = pubs) /\ shares_vec (fun i => snd (fst (r i))) (map tval wit)) \/
                  (run_may fsqrt (ideal_run (compiled p) fuel k ins') = true /\ exists e, forall i, o i = Failed e)).
  Proof. exact (fun Hi X => parties_run p n k ins ins' pubs wit Hi X). Qed.
End C48.
Print Assumptions C48_masks.
Print Assumptions C48_parties.

(** ** Example: [out <== a < b ? (a * b)^2 : a / b] with a loop and a nested condition *)
Definition sq_s : stempl := mkST "Sq" 1 1 0 [] (SStoreSig 1 (RExp (EBin OMul (ESig (IConst 1)) (ESig (IConst 1)))) (IConst 0)).
Definition sa_ := ESig (IConst 1).
Definition sb_ := ESig (IConst 2).
Definition var k := EVar (IConst k).
Definition set_var k e := SStoreVar 1 (RExp e) (IConst k).
Definition main_s : stempl := mkST "Main" 2 1 4 []
  (SSeq (SCreate "Sq_1" 1 3 2)
  (SSeq (SInput false 0 1 (RExp (EBin OMul sa_ sb_)) (IConst 1) (IConst 0))
  (SSeq (SIfElse (EBin OLt sa_ sb_)
           (SSeq (set_var 0 (EOut false 0 (IConst 0) (IConst 0))) (SIf (EEq sa_ (EConst 1)) (set_var 0 (EConst 0))))
           (set_var 0 (EBin ODiv sa_ sb_)))
  (SSeq (SWhile (EBin OLt (var 1) (EConst 2)) (SSeq (set_var 1 (EBin OAdd (var 1) (EConst 1))) (SStoreVar 1 (RVars 1 (IConst 0)) (IAdd (IConst 1) (IAddr (var 1))))))
        (SStoreSig 1 (RVars 1 (IConst 3)) (IConst 0)))))).
Definition src13 : source F13 :=
  mkSrc "Main_0" 6 [f13 0; f13 1; f13 2] 0 [("Sq_1", sq_s); ("Main_0", main_s)] [0; 1; 2; 3; 4; 5]%nat 2 1 [("a", 2, 1); ("b", 3, 1)]%nat (mkAcfg true true true true) false.
Example ex_C48_compiled : ct sq_s = sq_t. Proof. reflexivity. Qed.
(** 3 < 5: 15^2 = 4; a < b and a = 1: 0; otherwise 5 / 3 = 6 *)
Definition strict13 a b := xrun Pub (@tshared F13) (strict fsqrt13) src13 40 0 (in13t a b).
Example ex_C48_strict : map vals [strict13 3 5; strict13 1 5; strict13 5 3] =
  [Some ([1; 4], [3; 5; 4; 2]); Some ([1; 0], [1; 5; 12; 5]); Some ([1; 6], [5; 3; 4; 2])]%Z.
Proof. vm_compute. reflexivity. Qed.
Lemma strict_done a b v : vals (strict13 a b) = Some v -> exists pubs wit, strict13 a b = Done (pubs, wit).
Proof. destruct (strict13 a b) as [[pubs wit]|e]; [intros _; exists pubs, wit; reflexivity|discriminate]. Qed.
Lemma strict35 : exists pubs wit, strict13 3 5 = Done (pubs, wit).
Proof. apply (strict_done 3 5 ([1; 4], [3; 5; 4; 2])%Z). vm_compute. reflexivity. Qed.
Example ex_C48_compiler : exists r n0, forall fuel, (n0 <= fuel)%nat ->
  run (plain_h fsqrt13) (vm_run (fun x => x) (fun _ => false) (compiled src13) fuel 0 (map clear_in (in13t 3 5))) = Done r.
Proof.
  destruct (xrun (fun x : F13 => x) (fun _ => false) (fun _ => plain_h fsqrt13) src13 40 0 (map clear_in (in13t 3 5))) as [r|e] eqn:E.
  - exists r. exact (C48_compiler _ _ _ _ _ _ _ _ E).
  - exfalso. vm_compute in E. discriminate E.
Qed.
Example ex_C48_masks : exists pubs wit n0, strict13 3 5 = Done (pubs, wit) /\ forall fuel, (n0 <= fuel)%nat ->
  run_ideal fsqrt13 (ideal_run (compiled src13) fuel 0 (in13t 3 5)) = Done (pubs, wit) /\
  run_plain fsqrt13 (vm_run (fun x => x) (fun _ => false) (compiled src13) fuel 0 (map clear_in (in13t 3 5))) = Done (pubs, map tval wit).
Proof.
  destruct strict35 as (pubs & wit & E). destruct (C48_masks fsqrt13 _ _ _ _ _ _ E) as (n0 & K).
  exists pubs, wit, n0. split; [exact E|exact K].
Qed.
Example ex_C48_parties t : exists pubs wit n0, strict13 3 5 = Done (pubs, wit) /\ forall fuel, (n0 <= fuel)%nat ->
  run_plain fsqrt13 (vm_run (fun x => x) (fun _ => false) (compiled src13) fuel 0 (map clear_in (in13t 3 5))) = Done (pubs, map tval wit) /\
  all_end 1 (fun i => run13 t (compiled src13) fuel 0 (in13 3 5) i)
    (fun o => (exists r, (forall i, o i = Done (r i)) /\ (forall i, fst (fst (r i)) = pubs) /\ shares_vec (fun i => snd (fst (r i))) (map tval wit)) \/
              (run_may fsqrt13 (ideal_run (compiled src13) fuel 0 (in13t 3 5)) = true /\ exists e, forall i, o i = Failed e)).
Proof.
  destruct strict35 as (pubs & wit & E).
  destruct (@C48_parties F13 _ _ fsqrt13 Z msg 64 du13 _ Z _ _ _ _ _ hash_v gtweak_t otweak_t _ _ digest_t eqb_t label_t delta_t rgof13 t
    (fun x y => eqb_t_spec x y) 1 (le_n 1) p13_odd w13y delta_t_odd hash_v_sep fsqrt13_root fsqrt13_none d13 d13_synced _ _ _ _ _ _ _ (in13_rel 3 5) E) as (n0 & K).
  exists pubs, wit, n0. split; [exact E|exact K].
Qed.

(** ** Where the clear run and the run under a mask part *)
Definition one_t body : source F13 :=
  mkSrc "Main_0" 4 [f13 0; f13 1; f13 5] 0 [("Main_0", mkST "Main" 2 1 1 [] body)] [0; 1; 2; 3]%nat 2 1 [("a", 2, 1); ("b", 3, 1)]%nat (mkAcfg true true true true) false.
Definition plain13 (p : source F13) a b :=
  match run_plain fsqrt13 (vm_run (fun x => x) (fun _ => false) (compiled p) 100 0 (map clear_in (in13t a b))) with
  | Done r => Some (map Zp.val (fst r), map Zp.val (snd r))
  | Failed _ => None
  end.
(** [if (a) { if (0) { x = 1 } }  x = 5;  out <== x]: the public condition that is false jumps over the
    instruction that would take its entry off the stack of conditions, so the end of the outer branch
    takes that entry and leaves the shared one: everything after stays masked by [a].  With [a] = 0 the
    clear run gives 5, the three parties 0. *)
Definition nested : source F13 := one_t
  (SSeq (SIf sa_ (SIf (EConst 0) (set_var 0 (EConst 1)))) (SSeq (set_var 0 (EConst 2)) (SStoreSig 1 (RVars 1 (IConst 0)) (IConst 0)))).
Theorem C48_nested_if_refuted : exists p a b, plain13 p a b = Some ([1; 5], [a; b])%Z /\
  all_end 1 (fun i => run13 Direct (compiled p) 100 0 (in13 a b) i) (fun o => opens_w (Some o) = Some ([1; 0], [a; b])%Z).
Proof.
  exists nested, 0%Z, 3%Z. split; [vm_compute; reflexivity|].
  apply (exec_end 1 8000 _ opens_w); [reflexivity|vm_compute; reflexivity].
Qed.
(** [if (a) { x = 1 }  out <== x] with [a] = 2: a clear condition is true when it is not zero, a shared one
    is used as a factor *)
Definition factor : source F13 := one_t (SSeq (SIf sa_ (set_var 0 (EConst 1))) (SStoreSig 1 (RVars 1 (IConst 0)) (IConst 0))).
Theorem C48_condition_refuted : exists p a b, plain13 p a b = Some ([1; 1], [a; b])%Z /\
  all_end 1 (fun i => run13 Direct (compiled p) 100 0 (in13 a b) i) (fun o => opens_w (Some o) = Some ([1; 2], [a; b])%Z).
Proof.
  exists factor, 2%Z, 3%Z. split; [vm_compute; reflexivity|].
  apply (exec_end 1 8000 _ opens_w); [reflexivity|vm_compute; reflexivity].
Qed.
(** [if (a) { assert(b) }] with [a] = 0 and [b] = 0: the assertion of the branch that is not taken is
    checked and ends the run *)
Definition asserts : source F13 := one_t (SSeq (SIf sa_ (SAssert 7 sb_)) (SStoreSig 1 (RExp sa_) (IConst 0))).
Definition failed3 {A} (o : option (pid -> outcome A))  : option err :=
  match o with Some o => match o P0, o P1, o P2 with Failed e, Failed _, Failed _ => Some e | _, _, _ => None end | None => None end.
Theorem C48_assert_refuted : exists p a b, plain13 p a b = Some ([1; 0], [a; b])%Z /\
  exists e, all_end 1 (fun i => run13 Direct (compiled p) 100 0 (in13 a b) i) (fun o => failed3 (Some o) = Some e).
Proof.
  exists asserts, 0%Z, 0%Z. split; [vm_compute; reflexivity|].
  eexists. apply (exec_end 1 8000 _ failed3); [reflexivity|vm_compute; reflexivity].
Qed.
Print Assumptions C48_nested_if_refuted.
Print Assumptions C48_condition_refuted.
Print Assumptions C48_assert_refuted.
