(** * Properties of whole runs of the co-circom MPC-VM (C47) *)
From Coq Require Import String List Arith NArith ZArith Lia Bool.
From Verif Require Import Proc Alg Zp Rep3Net Rep3 Rep3Spec Rep3Proofs Rep3Wp Uint Binary Conv Exec Garble Circuits Garbled Yao
  VmDriver VmIdeal VmDriverWp Vm VmSim VmRun PropsVm Concrete ConcreteU ConcreteY ConcreteV.
Import ListNotations.
Local Open Scope grp_scope.
Local Open Scope string_scope.
Local Open Scope list_scope.

(** [run_ideal fsqrt (ideal_run ps fuel k ins)] is the run of the same interpreter, one machine, on
    the values behind the shares (each still marked public or shared), with the operations of
    VmIdeal.v.  [run_may] says whether this run divides by a shared value or takes the root of
    one; only then the parties may abort where the ideal run does not. *)
Section C47.
  Context {F : Type} `{FU : FieldUint F} {S M : Type} (W : nat) (du : nat -> S -> N * S) {DF : Draw S F}.
  Context {Seed : Type} {SS : Seeded S Seed} {DS : Draw S Seed}.
  Context {EN : Enc M (list N)} {ENN : Enc M (list (N * N))}
          {EL : Enc M (list (list N))} {ELL : Enc M (list (list N * list N))} {EF : Enc M (list F)}.
  Context (hash : N -> N -> N) (gtweak : N -> N) (otweak : N -> bool -> N).
  Context {Dg : Type} {ED : Enc M (list Dg)} (digest : list N -> Dg) (dg_eqb : Dg -> Dg -> bool).
  Context (draw_label draw_delta : S -> N * S) (fsqrt : F -> option F) (rgof : pid -> rst S -> S) (t : a2b_type).
  Context (dg_eqb_spec : forall x y, dg_eqb x y = true <-> x = y).
  Context (cap : nat) (cap_pos : (1 <= cap)%nat) (p_odd : N.odd (fu_p (F := F)) = true) (width : (mbs F + 2 <= W)%nat).
  Context (delta_odd : forall s, color (fst (draw_delta s)) = true).
  Context (hash_sep : forall d z n, color d = true -> hash z (otweak n false) <> hash (N.lxor z d) (otweak n false)).
  Context (fsqrt_root : forall z w, fsqrt z = Some w -> rmul w w = z).
  Context (fsqrt_none : forall z, fsqrt z = None -> forall w, rmul w w <> z).
  Context (d : pid -> dst (S := S)) (Hd : synced2 d).

  (** [WitnessExtension::run]: any program, any inputs, any number of instructions, every schedule *)
  Theorem C47_run ps fuel k ins (ins' : list (string * tv F)) : pvec rel_in ins ins' ->
    run_ideal fsqrt (ideal_run ps fuel k ins') <> Failed undef ->
    all_end cap (fun i => rep3_run (M := M) (Seed := Seed) W du hash gtweak otweak digest dg_eqb draw_label draw_delta fsqrt rgof t ps fuel k i (d i) (ins i))
      (drv_post witness_of (run_may fsqrt (ideal_run ps fuel k ins')) (run_ideal fsqrt (ideal_run ps fuel k ins'))).
  Proof. exact (fun Hi U => wpo_all_end (rep3_run_wpo du hash gtweak otweak digest dg_eqb draw_label draw_delta fsqrt rgof t dg_eqb_spec cap_pos p_odd width delta_odd hash_sep fsqrt_root fsqrt_none ps fuel k Hd Hi U)). Qed.
  (** [WitnessExtension::run_with_flat] *)
  Theorem C47_run_flat ps fuel k ins (ins' : list (tv F)) : pvec rel ins ins' ->
    run_ideal fsqrt (ideal_run_flat ps fuel k ins') <> Failed undef ->
    all_end cap (fun i => rep3_run_flat (M := M) (Seed := Seed) W du hash gtweak otweak digest dg_eqb draw_label draw_delta fsqrt rgof t ps fuel k i (d i) (ins i))
      (drv_post witness_of (run_may fsqrt (ideal_run_flat ps fuel k ins')) (run_ideal fsqrt (ideal_run_flat ps fuel k ins'))).
  Proof. exact (fun Hi U => wpo_all_end (rep3_run_flat_wpo du hash gtweak otweak digest dg_eqb draw_label draw_delta fsqrt rgof t dg_eqb_spec cap_pos p_odd width delta_odd hash_sep fsqrt_root fsqrt_none ps fuel k Hd Hi U)). Qed.
  (** a party accepts the configuration exactly if the previous party has the same, so all accept
      only if all three are equal *)
  Theorem C47_config {C} {EC : Enc M (list C)} (eqb : C -> C -> bool) (c : pid -> C) : (forall x y, eqb x y = true <-> x = y) ->
    all_end cap (fun i => compare_vm_config eqb i (c i))
      (fun o => forall i, (c i = c (prev i) -> o i = Done tt) /\ (c i <> c (prev i) -> exists s, o i = Failed (Eyre s))).
  Proof. exact (fun Es => wpo_all_end (compare_config_wpo cap_pos eqb c Es)). Qed.
End C47.
Print Assumptions C47_run.
Print Assumptions C47_run_flat.
Print Assumptions C47_config.

(** ** A program with a component, a function and a shared condition:
    [out <== a < b ? (a * b)^2 : a + 1] *)
Definition sq_t : templ := mkTempl "Sq" 1 1 0 []
  [PushIndex 1; LoadSignals 1; PushIndex 1; LoadSignals 1; Bin OMul; PushIndex 0; StoreSignals 1; Return].
Definition main_t : templ := mkTempl "Main" 2 1 1 []
  [PushIndex 3; PushIndex 2; CreateCmp "Sq_1" 1;
   PushIndex 1; LoadSignals 1; PushIndex 2; LoadSignals 1; Bin OMul; PushIndex 1; PushIndex 0; InputSubComp false 0 1;
   PushIndex 1; LoadSignals 1; PushIndex 2; LoadSignals 1; Bin OLt; If 7;
   PushIndex 0; PushIndex 0; OutputSubComp false 0 1; PushIndex 0; StoreVars 1;
   EndTruthyBranch 7;
   PushIndex 1; LoadSignals 1; Call "f_0" 1; PushIndex 0; StoreVars 1;
   EndFalsyBranch;
   PushIndex 0; LoadVars 1; PushIndex 0; StoreSignals 1; Return].
Definition f_decl : fundecl := mkFun 1 1 [PushIndex 0; LoadVars 1; PushConstant 1; Bin OAdd; ReturnFun; ReturnSharedIfFun].
Definition prog13 : parsed F13 :=
  mkParsed "Main_0" 6 [f13 0; f13 1] 0 [("f_0", f_decl)] [("Sq_1", sq_t); ("Main_0", main_t)]
    [0; 1; 2; 3; 4; 5]%nat 2 1 [("a", 2, 1); ("b", 3, 1)]%nat (mkAcfg true true true true) false.
Definition in13 (a b : Z) (i : pid) : list (string * rv F13) := [("b", sv b 2 9 i); ("a", sv a 4 7 i)].
Definition in13t (a b : Z) : list (string * tv F13) := [("b", Sh (f13 b)); ("a", Sh (f13 a))].
Lemma in13_rel a b : pvec rel_in (in13 a b) (in13t a b).
Proof.
  split; [reflexivity|]. intros [|[|[|n]]] x E; cbn in E; try discriminate; injection E as <-.
  - exists (fun i => ("b", sv b 2 9 i)). split; [reflexivity|]. split; [reflexivity|apply sv_rel].
  - exists (fun i => ("a", sv a 4 7 i)). split; [reflexivity|]. split; [reflexivity|apply sv_rel].
Qed.
Notation run13 t ps n k ins i := (rep3_run (M := msg) (Seed := Z) 64 du13 hash_v gtweak_t otweak_t digest_t eqb_t label_t delta_t fsqrt13 rgof13 t ps n k i (d13 i) (ins i)).
Definition run13_ok t ps n k ins (ins' : list (string * tv F13)) := fun Hi U => @C47_run F13 _ _ Z msg 64 du13 _ Z _ _ _ _ _ hash_v gtweak_t otweak_t _ _ digest_t eqb_t label_t delta_t fsqrt13 rgof13 t
  (fun x y => eqb_t_spec x y) 1 (le_n 1) p13_odd w13y delta_t_odd hash_v_sep fsqrt13_root fsqrt13_none d13 d13_synced ps n k ins ins' Hi U.
(** the public part, and the sums of the shares of the rest *)
Definition opens_w {B} (o : option (pid -> outcome ((list F13 * list (share F13)) * B))) : option (list Z * list Z) :=
  match o with
  | Some o => match o P0, o P1, o P2 with
              | Done (a, _), Done (b, _), Done (c, _) =>
                  Some (map Zp.val (fst a), map (fun x => Zp.val (sa (fst (fst x)) + sa (snd (fst x)) + sa (snd x))) (List.combine (List.combine (snd a) (snd b)) (snd c)))
              | _, _, _ => None
              end
  | None => None
  end.
Definition vals (o : outcome (list F13 * list (tv F13))) : option (list Z * list Z) :=
  match o with Done r => Some (map Zp.val (fst r), map (fun x => Zp.val (tval x)) (snd r)) | Failed _ => None end.
(** 3 < 5: (15)^2 = 4 in the field of 13 elements; 5 < 3 fails: 6 *)
Example ex_C47_ideal : vals (run_ideal fsqrt13 (ideal_run prog13 100 0 (in13t 3 5))) = Some ([1; 4], [3; 5; 4; 2])%Z /\
  vals (run_ideal fsqrt13 (ideal_run prog13 100 0 (in13t 5 3))) = Some ([1; 6], [5; 3; 4; 2])%Z.
Proof. split; vm_compute; reflexivity. Qed.
Lemma vals_def o v : vals o = Some v -> o <> Failed undef. Proof. intros E ->. discriminate E. Qed.
Example ex_C47 t : all_end 1 (fun i => run13 t prog13 100 0 (in13 3 5) i)
  (drv_post witness_of (run_may fsqrt13 (ideal_run prog13 100 0 (in13t 3 5))) (run_ideal fsqrt13 (ideal_run prog13 100 0 (in13t 3 5)))).
Proof. exact (run13_ok t prog13 100 0 _ _ (in13_rel 3 5) (vals_def _ _ (proj1 ex_C47_ideal))). Qed.
Example ex_C47_may : run_may fsqrt13 (ideal_run prog13 100 0 (in13t 3 5)) = false.
Proof. vm_compute. reflexivity. Qed.
Example ex_C47_run : all_end 1 (fun i => run13 Direct prog13 100 0 (in13 5 3) i) (fun o => opens_w (Some o) = Some ([1; 6], [5; 3; 4; 2])%Z).
Proof. apply (exec_end 1 8000 _ opens_w); [reflexivity|vm_compute; reflexivity]. Qed.
