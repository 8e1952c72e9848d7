(** * Properties of the co-noir ACVM (C58, C59, C60) *)
From Coq Require Import String List Arith NArith ZArith Lia Bool.
From Verif Require Import Proc Alg Zp Rep3Net Rep3 Rep3Spec Rep3Proofs Rep3Wp Uint Binary Conv Lut Garble Circuits Garbled Yao
  VmDriver VmIdeal VmDriverWp Acvm AcvmSpec AcvmRun AcvmSim AcvmRef AcvmMay AcvmParties AcvmProgress Concrete ConcreteU ConcreteY ConcreteV.
Import ListNotations.
Local Open Scope grp_scope.

(** [sat brillig a mem ops] (AcvmSpec.v): the assignment [a] of all witnesses satisfies the opcodes, on
    memory blocks [mem]; unconstrained calls return what [brillig] says.  [agrees a w]: [a] extends the
    witness map [w].  [plain_solve]: the run of the solver on clear values. *)

(** ** C58: a run on clear values *)
Section C58.
  Context {F : Type} `{FU : FieldUint F} (brillig : nat -> list F -> outcome (list F)).
  (** the values returned are those of every assignment that extends the inputs and satisfies the
      program; the outputs come in the reverse order of the return witnesses *)
  Theorem C58_determined a w ops rets r : agrees a w -> sat brillig a (fun _ => None) ops ->
    plain_solve brillig w ops rets = Done r -> agrees a (fst r) /\ snd r = map a (rev rets).
  Proof. exact (solve_determined brillig a w ops rets r). Qed.
  (** the values returned extend the inputs and satisfy the opcodes, except for the assertions all of whose
      witnesses are known when they are reached ([solving] leaves these out) *)
  Theorem C58_solved w ops rets r : fresh (known w) ops -> plain_solve brillig w ops rets = Done r ->
    agrees (assignment (fst r)) w /\ sat brillig (assignment (fst r)) (fun _ => None) (solving (known w) ops) /\
    snd r = map (assignment (fst r)) (rev rets).
  Proof. exact (solve_solved brillig w ops rets r). Qed.
  (** a witness vector has the values of the map, zero in the gaps *)
  Theorem C58_vector {V} (z : V) m k : above 0 m -> nth k (to_vec z m) z = value_or z (wget k m).
  Proof. exact (to_vec_nth z m k). Qed.
End C58.
Print Assumptions C58_determined.
Print Assumptions C58_solved.
Print Assumptions C58_vector.

(** ** C60: programs that can be solved in order are solved *)
(** [ordered brillig a kn ops]: each opcode is ready when it is reached, with the witnesses [kn] known before
    the first one: an assertion has at most one term with an unknown, with a nonzero coefficient;
    all inputs of other opcodes are known *)
Theorem C60_progress {F : Type} `{FU : FieldUint F} (brillig : nat -> list F -> outcome (list F)) a w ops rets :
  agrees a w -> sat brillig a (fun _ => None) ops -> ordered brillig a (known w) ops -> NoDup (blocks ops) ->
  Forall (fun i => known_after (known w) ops i = true) rets ->
  exists r, plain_solve brillig w ops rets = Done r /\ agrees a (fst r) /\ snd r = map a (rev rets) /\
    forall i, known_after (known w) ops i = known (fst r) i.
Proof. exact (solve_progress brillig a w ops rets). Qed.
Print Assumptions C60_progress.

(** ** C59: three parties *)
(** [brilligp] is the Brillig VM on the driver of the parties, [tbrillig] what it computes on values tagged
    public or shared, [bmay] whether it may abort. [map_held w m]: the parties hold the witness map [m], each
    value public or shared. [returned r o]: all parties return, hold the map of [r], and have its outputs in the clear. *)
Section C59.
  Context {F : Type} `{FU : FieldUint F} {S M : Type} (dbg : bool) (W : nat) (du dw : nat -> S -> N * S) {DF : Draw S F}.
  Context {Seed : Type} {SS : Seeded S Seed} {DS : Draw S Seed}.
  Context {EN : Enc M (list N)} {ENN : Enc M (list (N * N))}
          {EL : Enc M (list (list N))} {ELL : Enc M (list (list N * list N))} {EF : Enc M (list F)}.
  Context (hash : N -> N -> N) (gtweak : N -> N) (otweak : N -> bool -> N).
  Context {Dg : Type} {ED : Enc M (list Dg)} (digest : list N -> Dg) (dg_eqb : Dg -> Dg -> bool).
  Context (draw_label draw_delta : S -> N * S) (rgof : pid -> rst S -> S) (t : a2b_type).
  Context (dg_eqb_spec : forall x y, dg_eqb x y = true <-> x = y).
  Context (cap : nat) (cap_pos : (1 <= cap)%nat) (p_odd : N.odd (fu_p (F := F)) = true) (width : (mbs F + 2 <= W)%nat).
  Context (delta_odd : forall s, color (fst (draw_delta s)) = true).
  Context (hash_sep : forall d z n, color d = true -> hash z (otweak n false) <> hash (N.lxor z d) (otweak n false)).
  Context (dw_lt : forall K s, (fst (dw K s) < 2 ^ N.of_nat K)%N).
  Context (brillig : nat -> list F -> outcome (list F)).
  Context (tbrillig : nat -> list (tv F) -> outcome (list (tv F))) (bmay : nat -> list (tv F) -> bool).
  Context (brilligp : nat -> pid -> dst (S := S) -> list (rv F) -> prog pid M (list (rv F) * dst (S := S))).
  Context (brillig_wpo : forall n l lt d, synced2 d -> pvec rel l lt -> tbrillig n lt <> Failed undef ->
    wpo cap (fun i => brilligp n i (d i) (l i)) (drv_post (pvec rel) (bmay n lt) (tbrillig n lt))).
  Context (brillig_def : forall id l, tbrillig id l <> Failed undef).
  Context (d : pid -> dst (S := S)) (Hd : synced2 d).
  Notation run := (rep3_solve (M := M) (Seed := Seed) dbg W du dw hash gtweak otweak digest dg_eqb draw_label draw_delta rgof t brilligp).

  (** the parties compute the run on tagged values, errors included *)
  Theorem C59_ideal w wt ops rets : mrel rel w wt -> run_ideal_ac tbrillig (solve (@Pub F) (@tpub F) wt ops rets) <> Failed undef ->
    all_end cap (fun i => run (w i) ops rets i (d i))
      (drv_post outrel (run_may_ac tbrillig bmay (solve (@Pub F) (@tpub F) wt ops rets)) (run_ideal_ac tbrillig (solve (@Pub F) (@tpub F) wt ops rets))).
  Proof. exact (fun Hw U => wpo_all_end (run_ac_wpo dbg du dw hash gtweak otweak digest dg_eqb draw_label draw_delta rgof t dg_eqb_spec cap_pos p_odd width delta_odd hash_sep dw_lt tbrillig bmay brilligp brillig_wpo (solve_sim w wt ops rets Hw) Hd U)). Qed.
  (** if the run on clear values returns [r], all parties return [r] or all abort with the same error *)
  Theorem C59_parties w m ops rets r : (forall id l, oref false false (fun vt v => v = map tval vt) (tbrillig id l) (brillig id (map tval l))) ->
    map_held w m -> above 0 m -> narrow ops -> NoDup rets -> plain_solve brillig m ops rets = Done r ->
    all_end cap (fun i => run (w i) ops rets i (d i)) (fun o => returned r o \/ failed o).
  Proof. exact (fun H1 H2 H3 H4 H5 H6 => wpo_all_end (solve_parties dbg W du dw hash gtweak otweak digest dg_eqb draw_label draw_delta rgof t dg_eqb_spec cap cap_pos p_odd width delta_odd hash_sep dw_lt brillig tbrillig bmay brilligp brillig_wpo brillig_def w m ops rets r d H1 Hd H2 H3 H4 H5 H6)). Qed.
  (** they return [r] if calls have constant conditions, memory blocks have at least three entries, and no
      unknown is multiplied with a witness *)
  Theorem C59_total w m ops rets r : (forall id l, oref true true (fun vt v => v = map tval vt) (tbrillig id l) (brillig id (map tval l))) ->
    (forall id l, bmay id l = false) -> map_held w m -> above 0 m -> narrow ops -> plain_calls ops -> sized ops -> linear (known m) ops ->
    NoDup rets -> plain_solve brillig m ops rets = Done r ->
    all_end cap (fun i => run (w i) ops rets i (d i)) (returned r).
  Proof. exact (fun H1 Hm H2 H3 H4 Hc Hs Hl H5 H6 => wpo_all_end (solve_parties_total dbg W du dw hash gtweak otweak digest dg_eqb draw_label draw_delta rgof t dg_eqb_spec cap cap_pos p_odd width delta_odd hash_sep dw_lt brillig tbrillig bmay brilligp brillig_wpo brillig_def w m ops rets r d H1 Hm Hd H2 H3 H4 Hc Hs Hl H5 H6)). Qed.
  (** the witness vector for the prover *)
  Theorem C59_vector w (m : wmap F) : map_held w m -> pvec holds (fun i => to_vec (RPub 0) (w i)) (to_vec 0 m).
  Proof. exact (vec_held w m). Qed.
End C59.
Print Assumptions C59_ideal.
Print Assumptions C59_parties.
Print Assumptions C59_total.
Print Assumptions C59_vector.

(** ** Examples *)
(** witnesses 0 (2, shared) and 1 (5): [w2 = w0 * w1]; a block with these three; [w3] is the entry at [w0];
    [w4] is a hint for a copy of [w3]; [w5 = w4 + w2]; [w1] has three bits; [w6 = w0 & w1] *)
Definition lin1 (i : nat) : expr F13 := mkE [] [(f13 1, i)] (f13 0).
Definition one13 : expr F13 := mkE [] [] (f13 1).
Definition prog13 : list (aopc F13) :=
  [OAssert (mkE [(f13 1, 0%nat, 1%nat)] [(f13 12, 2%nat)] (f13 0));
   OMemInit 0 [0; 1; 2]%nat;
   OMemOp 0 false 0 3;
   OBrillig 0 [BExprs [lin1 3]] [4]%nat one13;
   OAssert (mkE [] [(f13 1, 4%nat); (f13 1, 2%nat); (f13 12, 5%nat)] (f13 0));
   ORange (InW 1) 3;
   OLogic true (InW 0) (InW 1) 3 6].
Definition copy {X} (_ : nat) (l : list X) : outcome (list X) := Done l.
Definition w13 : wmap F13 := [(0, f13 2); (1, f13 5)]%nat.
Definition out13 : wmap F13 * list F13 :=
  ([(0, f13 2); (1, f13 5); (2, f13 10); (3, f13 10); (4, f13 10); (5, f13 7); (6, f13 0)]%nat, [f13 0; f13 7]).
Definition a13 (i : nat) : F13 := nth i [f13 2; f13 5; f13 10; f13 10; f13 10; f13 7; f13 0] (f13 0).
(** results are compared by their representatives *)
Definition vals (r : wmap F13 * list F13) : list (nat * Z) * list Z := (map (fun e => (fst e, Zp.val (snd e))) (fst r), map Zp.val (snd r)).
Lemma map_inj {A B} (f : A -> B) (Hf : forall x y, f x = f y -> x = y) : forall l l', map f l = map f l' -> l = l'.
Proof. induction l as [|x l IH]; intros [|y l'] E; try discriminate; [reflexivity|]. cbn in E. injection E as E1 E2. f_equal; auto. Qed.
Lemma vals_inj r r' : vals r = vals r' -> r = r'.
Proof.
  destruct r as [w l], r' as [w' l']. unfold vals. cbn [fst snd]. intros E. injection E as E1 E2. f_equal.
  - apply (map_inj _) in E1; [exact E1|]. intros [k x] [k' y] C. cbn in C. injection C as -> C. f_equal. now apply Zmod_eq.
  - apply (map_inj _ (@Zmod_eq _)) in E2. exact E2.
Qed.
Lemma done_vals o r : match o with Done r' => Some (vals r') | Failed _ => None end = Some (vals r) -> o = Done r.
Proof. destruct o as [r'|]; [|discriminate]. intros E. injection E as E1 E2. f_equal. apply vals_inj. unfold vals. now rewrite E1, E2. Qed.
Example ex_C58_run : plain_solve copy w13 prog13 [5; 6]%nat = Done out13.
Proof. apply done_vals. vm_compute. reflexivity. Qed.
Ltac v13 := first [apply Zmod_eq; vm_compute; reflexivity|vm_compute; reflexivity].
Lemma a13_sat : sat copy a13 (fun _ => None) prog13.
Proof.
  cbn [sat prog13]. split; [v13|]. split; [eexists; split; [reflexivity|reflexivity]|].
  split. { unfold hinted. change (feqb (eval a13 one13) 0) with false. intros res E [|[|n]] i Ei; [|discriminate|discriminate]. injection Ei as <-. injection E as <-. cbn [nth_error flat_map barg map app]. f_equal. }
  split; [v13|]. split; [v13|]. split; [v13|]. split; [v13|]. split; [v13|exact I].
Qed.
Lemma a13_agrees : agrees a13 w13.
Proof. intros [|[|k]] v E; cbn in E; [| |discriminate]; injection E as <-; reflexivity. Qed.
Example ex_C58_determined : agrees a13 (fst out13) /\ snd out13 = map a13 [6; 5]%nat.
Proof. exact (C58_determined copy a13 w13 prog13 [5; 6]%nat out13 a13_agrees a13_sat ex_C58_run). Qed.
Example ex_C58_solved : sat copy (assignment (fst out13)) (fun _ => None) (solving (known w13) prog13) /\ solving (known w13) prog13 = prog13.
Proof.
  split; [|vm_compute; reflexivity]. refine (proj1 (proj2 (C58_solved copy w13 prog13 [5; 6]%nat out13 _ ex_C58_run))).
  cbn [fresh prog13]. split; [exact I|]. split; [exact I|]. split; [reflexivity|]. split; [split; [repeat constructor|constructor; [intros []|constructor]]|].
  repeat (split; [exact I|]). exact I.
Qed.
Example ex_C58_vector : to_vec 0%nat [(1, 7); (4, 9)]%nat = [0; 7; 0; 0; 9]%nat.
Proof. reflexivity. Qed.
Example ex_C60 : ordered copy a13 (known w13) prog13 /\ NoDup (blocks prog13) /\ Forall (fun i => known_after (known w13) prog13 i = true) [5; 6]%nat.
Proof.
  split; [|split; [repeat constructor; intros []|repeat constructor]].
  cbn [ordered prog13 ready]. split. { split; [|vm_compute; discriminate]. intros c i j [E|[]] _. injection E as <- <- <-. left. reflexivity. }
  split; [repeat constructor|]. split; [split; [reflexivity|split; [vm_compute; reflexivity|discriminate]]|].
  split. { split; [intros i []|]. right. split; [v13|]. split.
    - repeat constructor. intros i [<-|[]]. vm_compute. reflexivity.
    - eexists. split; [reflexivity|]. cbn. lia. }
  split. { split; [intros c i j []|]. vm_compute. discriminate. }
  split; [reflexivity|]. split; [split; reflexivity|exact I].
Qed.
(** the parties: 2 is shared, 5 is public *)
Definition wp13 (i : pid) : wmap (rv F13) := [(0, sv 2 4 7 i); (1, pv 5 i)]%nat.
Definition copyp (_ : nat) (_ : pid) (d : dst (S := Z)) (l : list (rv F13)) : prog pid msg (list (rv F13) * dst (S := Z)) := Ret (l, d).
Lemma copyp_wpo n l (lt : list (tv F13)) d : synced2 d -> pvec rel l lt -> copy n lt <> Failed undef ->
  wpo 1 (fun i => copyp n i (d i) (l i)) (drv_post (pvec rel) false (copy n lt)).
Proof. intros Hd Hl _. apply wp_wpo, wp_ret. left. exists (fun i => (l i, d i)). split; [reflexivity|]. split; [exact Hl|exact Hd]. Qed.
Lemma dw_lt13 K s : (fst (du13 K s) < 2 ^ N.of_nat K)%N.
Proof. unfold du13. cbn [fst]. rewrite land_mask. apply N.mod_lt, N.pow_nonzero. discriminate. Qed.
Notation solve13 t := (rep3_solve (F := F13) (M := msg) (Seed := Z) true 64 du13 du13 hash_v gtweak_t otweak_t digest_t eqb_t label_t delta_t rgof13 t copyp).
Lemma wp13_held : map_held wp13 w13.
Proof.
  apply pvec_cons with (h := fun i => (0%nat, sv 2 4 7 i)) (t := fun i => [(1%nat, pv 5 i)]); [reflexivity| |].
  - split; [reflexivity|]. exists (Sh (f13 2)). split; [apply sv_rel|reflexivity].
  - apply pvec_cons with (h := fun i => (1%nat, pv 5 i)) (t := fun i => []); [reflexivity| |apply pvec_nil; reflexivity].
    split; [reflexivity|]. exists (Pub (f13 5)). split; [apply pv_rel|reflexivity].
Qed.
Lemma copy_ref (id : nat) (l : list (tv F13)) s t0 : oref s t0 (fun vt v => v = map tval vt) (copy id l) (copy id (map tval l)).
Proof. intros v E. left. exists l. split; [reflexivity|]. injection E as <-. reflexivity. Qed.
Lemma narrow13 : narrow prog13.
Proof. intros is_and x y bits out Hi. cbn [In prog13] in Hi. repeat (destruct Hi as [Hi|Hi]; [try discriminate|]); [|destruct Hi]. injection Hi as <- <- <- <- <-. apply Nat.ltb_lt. vm_compute. reflexivity. Qed.
Lemma calls13 : plain_calls prog13.
Proof.
  intros id ins outs pr Hi. cbn [In prog13] in Hi. repeat (destruct Hi as [Hi|Hi]; [try discriminate|]); [|destruct Hi]. injection Hi as <- <- <- <-. vm_compute. auto.
Qed.
Lemma sized13 : sized prog13.
Proof. intros b init Hi. cbn [In prog13] in Hi. repeat (destruct Hi as [Hi|Hi]; [try discriminate|]); [|destruct Hi]. injection Hi as <- <-. split; [cbn; lia|vm_compute; discriminate]. Qed.
Lemma linear13 : linear (known w13) prog13.
Proof.
  cbn [linear prog13]. split; [intros c i j [E|[]] _; injection E as <- <- <-; split; reflexivity|]. do 3 (split; [exact I|]). split; [intros c i j []|]. repeat (split; [exact I|]). exact I.
Qed.
Example ex_C59_total t : all_end 1 (fun i => solve13 t (wp13 i) prog13 [5; 6]%nat i (d13 i)) (returned out13).
Proof.
  refine (C59_total true 64 du13 du13 hash_v gtweak_t otweak_t digest_t eqb_t label_t delta_t rgof13 t (fun x y => eqb_t_spec x y) 1 (le_n 1) p13_odd w13y delta_t_odd hash_v_sep dw_lt13
    copy copy (fun _ _ => false) copyp copyp_wpo _ d13 d13_synced wp13 w13 prog13 [5; 6]%nat out13 _ _ wp13_held _ narrow13 calls13 sized13 linear13 _ ex_C58_run).
  - discriminate.
  - intros id l. apply copy_ref.
  - reflexivity.
  - repeat split; lia.
  - repeat constructor; cbn; intuition discriminate.
Qed.
(** the parties on an arbitrary program with at most the two inputs *)
Lemma ideal13 t w wt ops rets : mrel rel w wt -> run_ideal_ac copy (solve (@Pub F13) (@tpub F13) wt ops rets) <> Failed undef ->
  all_end 1 (fun i => solve13 t (w i) ops rets i (d13 i))
    (drv_post outrel (run_may_ac copy (fun _ _ => false) (solve (@Pub F13) (@tpub F13) wt ops rets)) (run_ideal_ac copy (solve (@Pub F13) (@tpub F13) wt ops rets))).
Proof.
  exact (C59_ideal true 64 du13 du13 hash_v gtweak_t otweak_t digest_t eqb_t label_t delta_t rgof13 t (fun x y => eqb_t_spec x y) 1 (le_n 1) p13_odd w13y delta_t_odd hash_v_sep dw_lt13
    copy (fun _ _ => false) copyp copyp_wpo d13 d13_synced w wt ops rets).
Qed.
Lemma wp13_tags : mrel rel wp13 [(0%nat, Sh (f13 2)); (1%nat, Pub (f13 5))].
Proof.
  apply pvec_cons with (h := fun i => (0%nat, sv 2 4 7 i)) (t := fun i => [(1%nat, pv 5 i)]); [reflexivity| |].
  - split; [reflexivity|]. apply sv_rel.
  - apply pvec_cons with (h := fun i => (1%nat, pv 5 i)) (t := fun i => []); [reflexivity| |apply pvec_nil; reflexivity].
    split; [reflexivity|]. apply pv_rel.
Qed.

(** ** What the solver does not do *)
(** an assertion whose witnesses are all known is not checked: [w0 = w1] passes with 2 and 5 *)
Theorem C58_known_refuted : exists w (e : expr F13) r, plain_solve copy w [OAssert e] [] = Done r /\
  forall a, agrees a (fst r) -> ~ sat copy a (fun _ => None) [OAssert e].
Proof.
  exists w13, (mkE [] [(f13 1, 0%nat); (f13 12, 1%nat)] (f13 0)), (w13, []). split; [apply done_vals; vm_compute; reflexivity|].
  intros a Ha [E _]. unfold eval in E. cbn [e_mul e_lin e_c map fst snd] in E. rewrite (Ha 0%nat (f13 2) eq_refl), (Ha 1%nat (f13 5) eq_refl) in E.
  apply (f_equal Zp.val) in E. vm_compute in E. discriminate.
Qed.
Print Assumptions C58_known_refuted.
(** reads and unconstrained calls overwrite witnesses that are known, here the input [w1] *)
Theorem C58_overwritten_refuted : exists w (l1 l2 : list (aopc F13)) r1 r2, plain_solve copy w l1 [] = Done r1 /\ plain_solve copy w l2 [] = Done r2 /\
  forall a, agrees a w -> ~ agrees a (fst r1) /\ ~ agrees a (fst r2).
Proof.
  exists w13, [OMemInit 0 [1; 0; 0]%nat; OMemOp 0 false 0 1], [OBrillig 0 [BExprs [lin1 0]] [1]%nat one13],
    ([(0, f13 2); (1, f13 2)]%nat, []), ([(0, f13 2); (1, f13 2)]%nat, []).
  split; [apply done_vals; vm_compute; reflexivity|]. split; [apply done_vals; vm_compute; reflexivity|].
  intros a Ha. split; intros C; specialize (Ha 1%nat (f13 5) eq_refl); specialize (C 1%nat (f13 2) eq_refl); rewrite Ha in C;
    apply (f_equal Zp.val) in C; vm_compute in C; discriminate.
Qed.
Print Assumptions C58_overwritten_refuted.
(** an unknown in two terms ([2 w2 + w2 = 3]) and an unknown with coefficient zero ([0 w2 = 0]) stop the solver, although one,
    or any, value satisfies the assertion *)
Theorem C60_progress_refuted : exists (e1 e2 : expr F13),
  (forall a, sat copy a (fun _ => None) [OAssert e1] <-> a 2%nat = f13 1) /\
  plain_solve copy w13 [OAssert e1] [] = Failed (Eyre "too many unknowns") /\
  (forall a, sat copy a (fun _ => None) [OAssert e2]) /\
  plain_solve copy w13 [OAssert e2] [] = Failed (Panic "called `Option::unwrap()` on a `None` value").
Proof.
  exists (mkE [] [(f13 2, 2%nat); (f13 1, 2%nat)] (f13 10)), (mkE [] [(f13 0, 2%nat)] (f13 0)).
  split; [|split; [vm_compute; reflexivity|split; [|vm_compute; reflexivity]]].
  - intros a. cbn [sat]. unfold eval. cbn [e_mul e_lin e_c map fst snd].
    assert (D : forall x : F13, feqb (fsum [] + fsum [rmul (f13 2) x; rmul (f13 1) x] + f13 10) 0 = feqb x (f13 1)).
    { intros x. pose proof (all13 x) as Hi. cbn [map In] in Hi. repeat (destruct Hi as [<-|Hi]; [vm_compute; reflexivity|]). destruct Hi. }
    specialize (D (a 2%nat)). split.
    + intros [E _]. apply feqb_spec. etransitivity; [symmetry; exact D|]. apply feqb_spec. exact E.
    + intros E. split; [|exact I]. apply feqb_spec. etransitivity; [exact D|]. apply feqb_spec. exact E.
  - intros a. cbn [sat]. split; [|exact I]. unfold eval. cbn [e_mul e_lin e_c map fst snd]. apply feqb_spec. generalize (a 2%nat). intros x.
    pose proof (all13 x) as Hi. cbn [map In] in Hi. repeat (destruct Hi as [<-|Hi]; [vm_compute; reflexivity|]). destruct Hi.
Qed.
Print Assumptions C60_progress_refuted.
(** shared values are not checked: 2 has two bits, and passes as one bit at the parties *)
Definition held13 (o : pid -> outcome ((wmap (rv F13) * list (rv F13)) * dst (S := Z))) (r : wmap (tv F13) * list (tv F13)) : Prop :=
  exists v, (forall i, o i = Done (v i)) /\ outrel (fun i => fst (v i)) r.
Theorem C59_range_refuted t : exists ops : list (aopc F13), plain_solve copy w13 ops [] = Failed (Eyre "UnsatisfiedConstraint") /\
  all_end 1 (fun i => solve13 t (wp13 i) ops [] i (d13 i)) (fun o => held13 o ([(0%nat, Sh (f13 2)); (1%nat, Pub (f13 5))], [])).
Proof.
  exists [ORange (InW 0) 1]. split; [vm_compute; reflexivity|].
  destruct (ideal13 t wp13 _ [ORange (InW 0) 1] [] wp13_tags ltac:(discriminate)) as (o & n & K1 & K2). exists o, n. split; [|exact K2].
  destruct K1 as [(v & E & R & _)|[C _]]; [exists v; split; [exact E|exact R]|discriminate C].
Qed.
Print Assumptions C59_range_refuted.
(** a block with two public entries cannot be read at a shared index *)
Theorem C59_table_refuted t : exists (w : pid -> wmap (rv F13)) m (ops : list (aopc F13)) r, map_held w m /\ plain_solve copy m ops [] = Done r /\
  all_end 1 (fun i => solve13 t (w i) ops [] i (d13 i)) failed.
Proof.
  pose (w := fun i => [(0%nat, sv 1 4 7 i); (1%nat, pv 5 i)]).
  assert (Hw : mrel rel w [(0%nat, Sh (f13 1)); (1%nat, Pub (f13 5))]).
  { apply pvec_cons with (h := fun i => (0%nat, sv 1 4 7 i)) (t := fun i => [(1%nat, pv 5 i)]); [reflexivity| |].
    - split; [reflexivity|]. apply sv_rel.
    - apply pvec_cons with (h := fun i => (1%nat, pv 5 i)) (t := fun i => []); [reflexivity| |apply pvec_nil; reflexivity]. split; [reflexivity|]. apply pv_rel. }
  exists w, [(0%nat, f13 1); (1%nat, f13 5)], [OMemInit 0 [1; 1]%nat; OMemOp 0 false 0 2], ([(0, f13 1); (1, f13 5); (2, f13 5)]%nat, []).
  split; [exact (tags_held _ _ Hw)|]. split; [apply done_vals; vm_compute; reflexivity|].
  destruct (ideal13 t w _ [OMemInit 0 [1; 1]%nat; OMemOp 0 false 0 2] [] Hw ltac:(discriminate)) as (o & n & K1 & K2). exists o, n. split; [|exact K2].
  exact K1.
Qed.
Print Assumptions C59_table_refuted.
(** a call with a shared condition that is zero runs anyway: the first party to fail in it stops all; on clear values it is skipped *)
Theorem C59_skipped_refuted : exists wt (ops : list (aopc F13)) fails r,
  (forall id l, fails id l = Failed (Panic "unreachable") :> outcome (list F13)) /\
  plain_solve fails (wvals wt) ops [] = Done r /\
  run_ideal_ac (fun _ _ => Failed (Panic "unreachable")) (solve (@Pub F13) (@tpub F13) wt ops []) = Failed (Panic "unreachable").
Proof.
  exists [(0%nat, Sh (f13 0))], [OBrillig 0 [] [] (lin1 0)], (fun _ _ => Failed (Panic "unreachable")), ([(0%nat, f13 0)], []).
  split; [reflexivity|]. split; [apply done_vals; vm_compute; reflexivity|vm_compute; reflexivity].
Qed.
Print Assumptions C59_skipped_refuted.
