(** * Properties of the co-noir ACVM with the coBrillig VM, and of the store of private shared state (C67) *)
From Coq Require Import String List Arith NArith ZArith Lia Bool Permutation.
From Verif Require Import Proc Alg Zp Rep3Net Rep3 Rep3Spec Rep3Proofs Rep3Wp Uint Binary Conv Lut Garble Circuits Garbled Yao Ring2k Exec
  VmDriver VmIdeal VmDriverWp Acvm AcvmSpec AcvmRun AcvmSim AcvmRef AcvmMay AcvmParties
  Brillig BrilligSpec BrilligSound BrilligTag BrilligDriver BrilligOps BrilligSim BrilligParties
  AcvmBrillig AcvmBrilligWp AcvmBrilligDup AcvmBrilligSolve PropsVm Concrete ConcreteU ConcreteY ConcreteV ConcreteR ConcreteB.
Import ListNotations.
Local Open Scope grp_scope.
Local Open Scope list_scope.

(** [clear_call code fuel n l]: the field elements that the program [code n] computes on [l] (BrilligSpec.v).
    [tcall n l]: the same on values marked public or shared; [undef] where nothing is said.
    [order i ks]: the order in which party [i] iterates over a hash map with the keys [ks]. *)
Section C67.
  Context {F : Type} `{FU : FieldUint F} {S Seed M : Type} (dbg : bool) (W : nat) (du dw : nat -> S -> N * S).
  Context {DF : Draw S F} {SS : Seeded S Seed} {DS : Draw S Seed}.
  Context {EN : Enc M (list N)} {ENN : Enc M (list (N * N))}
          {EL : Enc M (list (list N))} {ELL : Enc M (list (list N * list N))} {EF : Enc M (list F)}.
  Context {RT : isz -> Type} {RC : forall s, CRing (RT s)} {RI : forall s, @IntRing (RT s) (RC s)}
          {RD : forall s, Draw S (RT s)} {RE : forall s, Enc M (list (RT s))}.
  Context (HK : forall s, rK (RT s) = ibits s).
  Context (cap : nat) (cap_pos : (1 <= cap)%nat) (width : (mbs F + 2 <= W)%nat).
  Context (Y : yao (F := F) (S := S) (M := M) (RT := RT)) (trng : pid -> nat -> bty -> bval F) (HY : yao_ok Y cap).
  Context (order : pid -> list (list N) -> list nat) (order_perm : forall i ks, Permutation (order i ks) (seq 0 (length ks))).
  Context (code : nat -> list (bopc F)) (fuel : nat) (strict : bool).
  Notation call := (brillig_call (Seed := Seed) dbg W du order Y trng code fuel).
  Notation tcall := (tcall (M := M) dbg code fuel strict).

  (** ** The store *)
  (** the parties store shares of the states of a call, under their names, if they iterate in one order or if no
      state has a shared integer *)
  Theorem C67_store (pp : pid -> list (list N * list (bv (F := F) (RT := RT)))) ps l st s0 :
    pvec erel pp ps -> tpss ps = Done l -> NoDup (map fst ps) ->
    (forall i, order i (map fst ps) = order P0 (map fst ps)) \/ quiet_pss ps = true ->
    (forall i k, In k (map fst ps) -> assoc k (s0 i) = None) -> synced st ->
    all_ok cap (fun i => add_from_brillig dbg W du order i (st i) (s0 i) (pp i))
      (fun r => (exists nw, (forall i, fst (r i) = s0 i ++ nw i) /\ stored nw l) /\ synced (fun i => snd (r i))).
  Proof. exact (fun H1 H2 H3 H4 H5 H6 => wp_all_ok (store_wp dbg du HK cap_pos width order order_perm s0 H1 H2 H3 H4 H5 H6)). Qed.

  (** if one of the names is in the store, all parties fail: a stored state is never replaced *)
  Theorem C67_taken (pp : pid -> list (list N * list (bv (F := F) (RT := RT)))) ps l st s0 k :
    pvec erel pp ps -> tpss ps = Done l -> (forall i, order i (map fst ps) = order P0 (map fst ps)) ->
    (forall i k, assoc k (s0 i) = None <-> assoc k (s0 P0) = None) -> In k (map fst ps) -> assoc k (s0 P0) <> None -> synced st ->
    all_end cap (fun i => add_from_brillig dbg W du order i (st i) (s0 i) (pp i)) all_fail.
  Proof. exact (fun H1 H2 H3 H4 H5 H6 H7 => wpo_all_end (store_taken dbg du HK cap_pos width order order_perm s0 k H1 H2 H3 H4 H5 H6 H7)). Qed.

  (** ** Calls *)
  (** all parties hold the results of the call, public or shared, or fail where it fails *)
  Theorem C67_call n l lt d : synced2 d -> pvec rel l lt -> tcall n lt <> Failed undef ->
    all_end cap (fun i => call n i (d i) (l i)) (drv_post (pvec rel) (negb strict) (tcall n lt)).
  Proof. exact (fun Hd Hl U => wpo_all_end (call_wpo dbg du HK cap_pos width trng HY order order_perm code fuel strict n Hd Hl U)). Qed.
  (** these are the results of the program on clear values *)
  Theorem C67_clear fuel' n lt xs v : tcall n lt = Done xs -> clear_call code fuel' n (map tval lt) = Done v -> v = map tval xs.
  Proof. exact (@tcall_clear F _ _ M dbg code fuel strict fuel' n lt xs v). Qed.

  (** ** Runs *)
  Context (hash : N -> N -> N) (gtweak : N -> N) (otweak : N -> bool -> N).
  Context {Dg : Type} {ED : Enc M (list Dg)} (digest : list N -> Dg) (dg_eqb : Dg -> Dg -> bool).
  Context (draw_label draw_delta : S -> N * S) (rgof : pid -> rst S -> S) (t : a2b_type).
  Context (dg_eqb_spec : forall x y, dg_eqb x y = true <-> x = y) (p_odd : N.odd (fu_p (F := F)) = true).
  Context (delta_odd : forall s, color (fst (draw_delta s)) = true).
  Context (hash_sep : forall d z n, color d = true -> hash z (otweak n false) <> hash (N.lxor z d) (otweak n false)).
  Context (dw_lt : forall K s, (fst (dw K s) < 2 ^ N.of_nat K)%N).
  Notation run := (rep3_solve (M := M) (Seed := Seed) dbg W du dw hash gtweak otweak digest dg_eqb draw_label draw_delta rgof t call).
  (** all parties return the witnesses and outputs of the run on clear values, in which calls compute what their
      programs say; they can all fail only where [run_may_ac] says so *)
  Theorem C67_solve fuel' w wt ops rets rt r d : synced2 d -> mrel rel w wt -> above 0 wt -> narrow ops -> NoDup rets ->
    run_ideal_ac tcall (solve (@Pub F) (@tpub F) wt ops rets) = Done rt -> plain_solve (clear_call code fuel') (wvals wt) ops rets = Done r ->
    all_end cap (fun i => run (w i) ops rets i (d i)) (fun o => AcvmParties.returned r o \/
      (run_may_ac tcall (fun _ _ => negb strict) (solve (@Pub F) (@tpub F) wt ops rets) = true /\ failed o)).
  Proof.
    exact (fun H1 H2 H3 H4 H5 H6 H7 => wpo_all_end (solve_calls dbg du dw hash gtweak otweak digest dg_eqb draw_label draw_delta rgof t dg_eqb_spec
      cap_pos p_odd width delta_odd hash_sep dw_lt HK trng HY order order_perm code fuel fuel' strict H1 H2 H3 H4 H5 H6 H7)).
  Qed.
End C67.
Print Assumptions C67_store.
Print Assumptions C67_taken.
Print Assumptions C67_call.
Print Assumptions C67_clear.
Print Assumptions C67_solve.

(** ** Examples *)
Definition c32 (d : nat) (v : Z) : bopc F13 := ConstO (Direct d) (TInt U32) (f13 v).
(** [n] values of calldata from address 5 on *)
Definition copy (n : Z) : list (bopc F13) := [c32 1 n; c32 2 0; CalldataCopy (Direct 5) (Direct 1) (Direct 2)].
(** the larger of two values, as integers of 8 bits *)
Definition p_max8 : list (bopc F13) := copy 2 ++ [c32 3 8; c32 4 1; CastO (Direct 5) (Direct 5) (TInt U8); CastO (Direct 6) (Direct 6) (TInt U8);
  BinI ILt U8 (Direct 5) (Direct 6) (Direct 7); JumpIf (Direct 7) 11; Mov (Direct 8) (Direct 5); Stop (Direct 3) (Direct 4); Mov (Direct 8) (Direct 6); Stop (Direct 3) (Direct 4)].
(** stores a value, as an integer of 8 bits, under a name of one character, and returns it *)
Definition p_keep : list (bopc F13) := copy 1 ++ [c32 3 5; c32 4 1; CastO (Direct 5) (Direct 5) (TInt U8); ConstO (Direct 6) (TInt U8) (f13 7); c32 7 6; c32 8 5;
  Foreign (FStore 0 0 [Some (Direct 7, 1); Some (Direct 8, 1)] 2); Stop (Direct 3) (Direct 4)].
Definition code_b (n : nat) : list (bopc F13) := match n with O => p_max8 | _ => p_keep end.
(** the orders of the parties: the first one forwards, the others backwards *)
Definition order_b (i : pid) (ks : list (list N)) : list nat := match i with P0 => seq 0 (length ks) | _ => rev (seq 0 (length ks)) end.
Lemma order_b_perm i ks : Permutation (order_b i ks) (seq 0 (length ks)).
Proof. destruct i; [reflexivity|symmetry; apply Permutation_rev..]. Qed.
Lemma w13b : (mbs F13 + 2 <= 64)%nat.
Proof. apply Nat.leb_le. vm_compute. reflexivity. Qed.
Notation call_b := (brillig_call (Seed := Z) true 64 du13 order_b yao_b trng_b code_b 40).
Notation tcall_b := (tcall (F := F13) (M := bmsg) true code_b 40 true).
Definition tvals (l : outcome (list (tv F13))) : option (list (bool * Z)) :=
  match l with Done l => Some (map (fun x => match x with Pub c => (false, Zp.val c) | Sh c => (true, Zp.val c) end) l) | Failed _ => None end.
Example ex_C67_clear : tvals (tcall_b 0%nat [Sh (f13 2); Pub (f13 5)]) = Some [(true, 5%Z)] /\ tvals (tcall_b 1%nat [Sh (f13 2)]) = Some [(true, 2%Z)] /\
  match clear_call code_b 40 0%nat [f13 2; f13 5] with Done l => map Zp.val l | _ => [] end = [5%Z].
Proof. split; [vm_compute; reflexivity|]. split; vm_compute; reflexivity. Qed.
Example ex_C67_call cap : (1 <= cap)%nat ->
  all_end cap (fun i => call_b 0%nat i (d13 i) [sv 2 4 7 i; pv 5 i]) (drv_post (pvec rel) false (tcall_b 0%nat [Sh (f13 2); Pub (f13 5)])) /\
  tcall_b 0%nat [Sh (f13 2); Pub (f13 5)] <> Failed undef.
Proof.
  intros C. assert (U : tcall_b 0%nat [Sh (f13 2); Pub (f13 5)] <> Failed undef).
  { intros E. assert (K : tvals (tcall_b 0%nat [Sh (f13 2); Pub (f13 5)]) = None) by (rewrite E; reflexivity). vm_compute in K. discriminate. }
  split; [|exact U].
  refine (C67_call true 64 du13 rK_b cap C w13b yao_b trng_b (yao_b_ok cap C) order_b order_b_perm code_b 40 true 0%nat (fun i => [sv 2 4 7 i; pv 5 i]) _ d13 d13_synced _ U).
  apply pvec_cons with (h := sv 2 4 7) (t := fun i => [pv 5 i]); [reflexivity|apply sv_rel|].
  apply pvec_cons with (h := pv 5) (t := fun i => []); [reflexivity|apply pv_rel|apply pvec_nil; reflexivity].
Qed.
(** [w2] is the larger of [w0] (2, shared) and [w1] (5); [w3] is [w2], which is stored; [w4 = w3 + w0] *)
Definition lin1 (i : nat) : expr F13 := mkE [] [(f13 1, i)] (f13 0).
Definition one13 : expr F13 := mkE [] [] (f13 1).
Definition prog_b : list (aopc F13) :=
  [OBrillig 0 [BExprs [lin1 0; lin1 1]] [2]%nat one13; OBrillig 1 [BExprs [lin1 2]] [3]%nat one13;
   OAssert (mkE [] [(f13 1, 3%nat); (f13 1, 0%nat); (f13 12, 4%nat)] (f13 0))].
Definition wb13 (i : pid) : wmap (rv F13) := [(0, sv 2 4 7 i); (1, pv 5 i)]%nat.
Definition wbt13 : wmap (tv F13) := [(0, Sh (f13 2)); (1, Pub (f13 5))]%nat.
Lemma wb13_tags : mrel rel wb13 wbt13.
Proof.
  apply pvec_cons with (h := fun i => (0%nat, sv 2 4 7 i)) (t := fun i => [(1%nat, pv 5 i)]); [reflexivity| |].
  - split; [reflexivity|]. apply sv_rel.
  - apply pvec_cons with (h := fun i => (1%nat, pv 5 i)) (t := fun i => []); [reflexivity| |apply pvec_nil; reflexivity].
    split; [reflexivity|]. apply pv_rel.
Qed.
Definition dw13_lt K s : (fst (du13 K s) < 2 ^ N.of_nat K)%N.
Proof. unfold du13. cbn [fst]. rewrite land_mask. apply N.mod_lt, N.pow_nonzero. discriminate. Qed.
Notation solve_b t := (rep3_solve (F := F13) (M := bmsg) (Seed := Z) true 64 du13 du13 hash_v gtweak_t otweak_t digest_t eqb_t label_t delta_t rgof13 t call_b).
Notation ideal_b := (run_ideal_ac tcall_b (solve (@Pub F13) (@tpub F13) wbt13 prog_b [4]%nat)).
Notation clear_b := (plain_solve (clear_call code_b 40) (wvals wbt13) prog_b [4]%nat).
Definition valsr (o : outcome (wmap F13 * list F13)) : option (list (nat * Z) * list Z) :=
  match o with Done r => Some (map (fun e => (fst e, Zp.val (snd e))) (fst r), map Zp.val (snd r)) | Failed _ => None end.
Example ex_C67_solve t cap : (1 <= cap)%nat -> exists r, clear_b = Done r /\ valsr (Done r) = Some ([(0%nat, 2); (1%nat, 5); (2%nat, 5); (3%nat, 5); (4%nat, 7)]%Z, [7%Z])
    /\ all_end cap (fun i => solve_b t (wb13 i) prog_b [4]%nat i (d13 i)) (AcvmParties.returned r).
Proof.
  intros C. destruct clear_b as [r|] eqn:Er; [|apply (f_equal valsr) in Er; vm_compute in Er; discriminate].
  exists r. split; [reflexivity|]. split; [rewrite <- Er; vm_compute; reflexivity|].
  destruct ideal_b as [rt|] eqn:Ei; [|apply (f_equal (fun o => match o with Done _ => true | _ => false end)) in Ei; vm_compute in Ei; discriminate].
  pose proof (C67_solve true 64 du13 du13 rK_b cap C w13b yao_b trng_b (yao_b_ok cap C) order_b order_b_perm code_b 40 true
    hash_v gtweak_t otweak_t digest_t eqb_t label_t delta_t rgof13 t (fun x y => eqb_t_spec x y) p13_odd delta_t_odd hash_v_sep dw13_lt
    40 wb13 wbt13 prog_b [4]%nat rt r d13 d13_synced wb13_tags) as K.
  destruct K as (o & m & Ho & K); [cbn; repeat split; lia| | |exact Ei|exact Er|].
  - intros is_and x y bits out Hi. cbn [In prog_b] in Hi. repeat (destruct Hi as [Hi|Hi]; [discriminate|]). destruct Hi.
  - constructor; [intros []|constructor].
  - exists o, m. split; [|exact K]. destruct Ho as [Ho|[Hm _]]; [exact Ho|]. vm_compute in Hm. discriminate.
Qed.
(** one state with a public and a shared value, and another one: no integers *)
Example ex_C67_store cap : (1 <= cap)%nat -> exists l,
  tpss [([1%N], [TShr (BF (f13 3)); TPub (BI 300 U16)]); ([2%N], [TShr (BF (f13 9))])] = Done l /\
  all_ok cap (fun i => add_from_brillig (M := bmsg) (RT := fun s => RTb s) true 64 du13 order_b i (st13 i) [] [([1%N], [bsf 3 2 8 i; BPub (BI 300 U16)]); ([2%N], [bsf 9 1 1 i])])
    (fun r => (exists nw, (forall i, fst (r i) = [] ++ nw i) /\ stored nw l) /\ synced (fun i => snd (r i))).
Proof.
  intros C. eexists. split; [reflexivity|].
  refine (C67_store true 64 du13 rK_b cap C w13b order_b order_b_perm (fun i => [([1%N], [bsf 3 2 8 i; BPub (BI 300 U16)]); ([2%N], [bsf 9 1 1 i])]) [([1%N], [TShr (BF (f13 3)); TPub (BI 300 U16)]); ([2%N], [TShr (BF (f13 9))])] _ st13 (fun _ => []) _ eq_refl _ (or_intror eq_refl) (fun _ _ _ => eq_refl) st13_synced).
  - apply pvec_cons with (h := fun i => ([1%N], [bsf 3 2 8 i; BPub (BI 300 U16)])) (t := fun i => [([2%N], [bsf 9 1 1 i])]); [reflexivity| |].
    + split; [reflexivity|]. cbn [snd]. apply (lrel_cons (bsf 3 2 8) (t := fun i => [BPub (BI 300 U16)])); [exact (bsf_rel 3 2 8)|].
      apply (lrel_cons (t := fun i => []) (fun _ => BPub (BI 300 U16)) ); [intros i; reflexivity|apply lrel_nil].
    + apply pvec_cons with (h := fun i => ([2%N], [bsf 9 1 1 i])) (t := fun i => []); [reflexivity| |apply pvec_nil; reflexivity].
      split; [reflexivity|]. cbn [snd]. apply (lrel_cons (bsf 9 1 1) (t := fun i => [])); [exact (bsf_rel 9 1 1)|apply lrel_nil].
  - repeat constructor; cbn; intuition discriminate.
Qed.

(** the name [2] is already in the stores *)
Example ex_C67_taken cap : (1 <= cap)%nat ->
  all_end cap (fun i => add_from_brillig (M := bmsg) (RT := fun s => RTb s) true 64 du13 (fun _ => order_b P0) i (st13 i) [([2%N], [RPub (f13 1)])]
    [([1%N], [bsi U8 3 77 200 i]); ([2%N], [bsi U8 9 5 6 i])]) all_fail.
Proof.
  intros C.
  apply (C67_taken true 64 du13 rK_b cap C w13b (fun _ => order_b P0) (fun _ => order_b_perm P0) (fun i => [([1%N], [bsi U8 3 77 200 i]); ([2%N], [bsi U8 9 5 6 i])])
    [([1%N], [TShr (BI 3 U8)]); ([2%N], [TShr (BI 9 U8)])] [([1%N], [Sh (f13 3)]); ([2%N], [Sh (f13 9)])] st13 (fun _ => [([2%N], [RPub (f13 1)])]) [2%N]);
    [|reflexivity|reflexivity|intros i k; tauto|right; left; reflexivity|discriminate|exact st13_synced].
  apply pvec_cons with (h := fun i => ([1%N], [bsi U8 3 77 200 i])) (t := fun i => [([2%N], [bsi U8 9 5 6 i])]); [reflexivity| |].
  - split; [reflexivity|]. cbn [snd]. apply (lrel_cons (bsi U8 3 77 200) (t := fun i => [])); [apply (bsi_rel U8 3 77 200); split; reflexivity || discriminate|apply lrel_nil].
  - apply pvec_cons with (h := fun i => ([2%N], [bsi U8 9 5 6 i])) (t := fun i => []); [reflexivity| |apply pvec_nil; reflexivity].
    split; [reflexivity|]. cbn [snd]. apply (lrel_cons (bsi U8 9 5 6) (t := fun i => [])); [apply (bsi_rel U8 9 5 6); split; reflexivity || discriminate|apply lrel_nil].
Qed.

(** ** The order of hash maps *)
(** what the stores of the parties hold under the name [k]: nothing if their shares do not fit together *)
Definition kept (k : list N) (o : option (pid -> outcome (list (list N * list (rv F13)) * rst Z))) : option (option Z) :=
  match o with
  | Some o => match o P0, o P1, o P2 with
      | Done (a, _), Done (b, _), Done (c, _) =>
          match assoc k a, assoc k b, assoc k c with
          | Some [RSh a], Some [RSh b], Some [RSh c] =>
              if (feqb (Rep3.sb a) (sa c) && feqb (Rep3.sb b) (sa a) && feqb (Rep3.sb c) (sa b))%bool
              then Some (Some (Zp.val (sa a + sa b + sa c))) else Some None
          | _, _, _ => None
          end
      | _, _, _ => None
      end
  | None => None
  end.
Notation two i := [([1%N], [bsi U8 3 77 200 i]); ([2%N], [bsi U8 9 5 6 i])].
Notation two_t := [([1%N], [TShr (BI 3 U8)]); ([2%N], [TShr (BI 9 U8)])].
(** two states with a shared integer each: the parties hold shares of them, iterate in different orders, as they
    may, and none of them fails; the shares they store under either name do not fit together *)
Theorem C67_order_refuted : exists order : pid -> list (list N) -> list nat,
  (forall i ks, Permutation (order i ks) (seq 0 (length ks))) /\
  pvec (erel (F := F13) (RT := fun s => RTb s)) (fun i => two i) two_t /\ (exists l, tpss two_t = Done (l : list (list N * list (tv F13)))) /\
  forall k, k = [1%N] \/ k = [2%N] ->
  all_end 1 (fun i => add_from_brillig (M := bmsg) (RT := fun s => RTb s) false 64 du13 order i (st13 i) [] (two i)) (fun o => kept k (Some o) = Some None).
Proof.
  exists order_b. split; [exact order_b_perm|]. split; [|split].
  - apply pvec_cons with (h := fun i => ([1%N], [bsi U8 3 77 200 i])) (t := fun i => [([2%N], [bsi U8 9 5 6 i])]); [reflexivity| |].
    + split; [reflexivity|]. cbn [snd]. apply (lrel_cons (bsi U8 3 77 200) (t := fun i => [])); [apply (bsi_rel U8 3 77 200); split; reflexivity || discriminate|apply lrel_nil].
    + apply pvec_cons with (h := fun i => ([2%N], [bsi U8 9 5 6 i])) (t := fun i => []); [reflexivity| |apply pvec_nil; reflexivity].
      split; [reflexivity|]. cbn [snd]. apply (lrel_cons (bsi U8 9 5 6) (t := fun i => [])); [apply (bsi_rel U8 9 5 6); split; reflexivity || discriminate|apply lrel_nil].
  - eexists. reflexivity.
  - intros k [-> | ->].
    + apply (exec_end 1 4000 _ (kept [1%N])); [reflexivity|vm_compute; reflexivity].
    + apply (exec_end 1 4000 _ (kept [2%N])); [reflexivity|vm_compute; reflexivity].
Qed.
Print Assumptions C67_order_refuted.
(** in one order they hold what was stored *)
Example ex_C67_order : kept [2%N] (exec 1 4000 (fun i => add_from_brillig (M := bmsg) (RT := fun s => RTb s) false 64 du13 (fun _ => order_b P0) i (st13 i) [] (two i))) = Some (Some 9%Z).
Proof. vm_compute. reflexivity. Qed.
