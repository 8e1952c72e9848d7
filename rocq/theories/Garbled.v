(** * A whole garbled computation, without the network
    The garbler garbles a circuit and its outputs, the evaluator evaluates it on the labels of the
    inputs and decodes. *)
From Coq Require Import String List Arith NArith Lia Bool.
From Verif Require Import Proc Alg Uint Rep3 Conv Garble Circuits CircuitsSim.
Import ListNotations.
Set Implicit Arguments.
Local Open Scope gp_scope.

(** A circuit generic in the type of wires; [natural]: it does not look into them.  In Rust this
    is enforced by the type parameter [G: FancyBinary]. *)
Definition circuit := forall W : Type, list W -> gprog W (list W).
Definition natural (C : circuit) : Prop :=
  forall (W1 W2 : Type) (f : W1 -> W2) xs, gsimf f (map f) (C W1 xs) (C W2 (map f xs)).

(** zip labels: the labels of the values [bs] on wires with zero labels [zs] *)
Definition labels (d : N) (zs : list N) (bs : list bool) : list N := map2 (label d) zs bs.

Section Run.
  Variables (H : N -> N -> N) (gtweak : N -> N) (otweak : N -> bool -> N).
  Context {S : Type} (draw_label : S -> N * S).

  (** What a garbler does: the circuit, then the output information (garbler.rs:128-131); the
      blocks are what is sent by garbler.rs:84-98 [send_circuit] *)
  Definition garbled (C : circuit) (d : N) (zs : list N) (rng : S) : outcome (list N * list N) :=
    let r := garble H gtweak draw_label d (C N zs) (new_garbler rng) in
    match fst r with
    | Done outs => Done (outs, g_blocks (g_outputs H otweak d (snd r) outs))
    | Failed e => Failed e
    end.
  (** What the evaluator does with these blocks (evaluator.rs:95-110) *)
  Definition evaluated (C : circuit) (blocks ls : list N) : outcome (list N * list bool) :=
    match evaluate H gtweak (C N ls) (new_evaluator blocks) with
    | Done (outs, t) => match e_outputs H otweak t outs with Done (v, _) => Done (outs, v) | Failed e => Failed e end
    | Failed e => Failed e
    end.

  (** hashing tells the two labels of each output wire apart *)
  Definition separated (d : N) (zs : list N) : Prop :=
    forall k z, nth_error zs k = Some z ->
      H z (otweak (N.of_nat k) false) <> H (N.lxor z d) (otweak (N.of_nat k) false).

  Lemma map_fst_zip {A B} (a : list A) (b : list B) : length a = length b -> map fst (List.combine a b) = a.
  Proof. revert b. induction a as [|x a IH]; intros [|y b] L; cbn in *; try discriminate; [reflexivity|]. rewrite IH by lia. reflexivity. Qed.
  Lemma map_snd_zip {A B} (a : list A) (b : list B) : length a = length b -> map snd (List.combine a b) = b.
  Proof. revert b. induction a as [|x a IH]; intros [|y b] L; cbn in *; try discriminate; [reflexivity|]. rewrite IH by lia. reflexivity. Qed.
  Lemma map_ewire_zip d (bs : list bool) (zs : list N) : map (ewire d) (List.combine bs zs) = labels d zs bs.
  Proof. revert zs. induction bs as [|b bs IH]; intros [|z zs]; cbn; try reflexivity. unfold labels in IH. rewrite IH. reflexivity. Qed.
  Lemma labels_split d (ws : list wire) : labels d (map snd ws) (map fst ws) = map (ewire d) ws.
  Proof. induction ws as [|w ws IH]; cbn; [reflexivity|]. unfold labels in IH. rewrite IH. reflexivity. Qed.

  Theorem garbled_ok (C : circuit) d zs bs rng : natural C -> color d = true -> length bs = length zs ->
    (exists e, plain (C bool bs) = Failed e /\ garbled C d zs rng = Failed e) \/
    (exists out outz blocks,
        plain (C bool bs) = Done out /\ garbled C d zs rng = Done (outz, blocks) /\ length outz = length out /\
        g_decode_checked d (labels d outz out) outz = Done out /\
        (separated d outz -> evaluated C blocks (labels d zs bs) = Done (labels d outz out, out))).
  Proof.
    intros HC Hd L. set (ws := List.combine bs zs).
    assert (Eb : map fst ws = bs) by (apply map_fst_zip; exact L).
    assert (Eg : map snd ws = zs) by (apply map_snd_zip; exact L).
    assert (Ee : map (ewire d) ws = labels d zs bs) by apply map_ewire_zip.
    pose proof (HC _ _ fst ws) as Sb. rewrite Eb in Sb.
    pose proof (HC _ _ snd ws) as Sg. rewrite Eg in Sg.
    pose proof (HC _ _ (ewire d) ws) as Se. rewrite Ee in Se.
    unfold garbled. set (s := new_garbler rng).
    set (r := garble H gtweak draw_label d (C N zs) s).
    assert (I0 : forall c, in_step d s (new_evaluator c)) by (intros c; repeat split).
    pose proof (fun c rest => lockstep H gtweak draw_label Hd rest Sb Sg Se (I0 c)) as HL.
    fold r in HL.
    destruct (HL [] []) as (new & Enew & _).
    assert (Hst : forall c rest, c = new ++ rest ->
       (exists e, plain (C bool bs) = Failed e /\ fst r = Failed e) \/
       (exists a b g x t', plain (C bool bs) = Done b /\ fst r = Done g /\
          evaluate H gtweak (C N (labels d zs bs)) (new_evaluator c) = Done (x, t') /\ e_circ t' = rest /\
          in_step d (snd r) t' /\ b = map fst a /\ g = map snd a /\ x = map (ewire d) a)).
    { intros c rest Ec. destruct (HL c rest) as (new' & En' & Hk).
      rewrite Enew in En'. apply app_inv_head in En'. subst new'. apply Hk. exact Ec. }
    destruct (Hst _ [] eq_refl) as [(e & P1 & P2)|(a & b & g & x & t' & P1 & P2 & _ & _ & _ & Ha & Hg & _)].
    - left. exists e. rewrite P2. auto.
    - right. subst b g. exists (map fst a), (map snd a).
      assert (Hdec : g_decode_checked d (labels d (map snd a) (map fst a)) (map snd a) = Done (map fst a)).
      { rewrite labels_split. apply g_decode_ok. exact Hd. }
      rewrite P2. exists (g_blocks (g_outputs H otweak d (snd r) (map snd a))).
      split; [exact P1|]. split; [reflexivity|]. split; [rewrite !map_length; reflexivity|]. split; [exact Hdec|].
      intros Hsep.
      assert (Eo : g_out (snd r) = 0%N).
      { destruct (Hst _ [] eq_refl) as [(e & Q & _)|(a' & b' & g' & x' & t & _ & _ & Ev & _ & (_ & Io & _) & _)]; [congruence|].
        rewrite <- Io. clear -Ev. unfold new_evaluator in Ev.
        assert (Hk : forall A (p : gprog N A) u y u', evaluate H gtweak p u = Done (y, u') -> e_out u' = e_out u).
        { clear. intros A p. induction p as [a|e|y z k IH|y z k IH|y k IH|k IH|k IH]; intros u w u' E; cbn [evaluate] in E.
          - injection E as <- <-. reflexivity.
          - discriminate.
          - eapply IH. exact E.
          - unfold e_and, e_block in E. destruct (e_circ u) as [|g0 [|g1 c]]; cbn in E; try discriminate.
            apply IH in E. exact E.
          - eapply IH. exact E.
          - unfold e_const_zero, e_block in E. destruct (e_zero u); cbn in E; [eapply IH; exact E|].
            destruct (e_circ u); cbn in E; try discriminate. apply IH in E. exact E.
          - unfold e_const_one, e_block in E. destruct (e_one u); cbn in E; [eapply IH; exact E|].
            destruct (e_circ u); cbn in E; try discriminate. apply IH in E. exact E. }
        apply Hk in Ev. exact Ev. }
      assert (Hdecod : decodable H otweak d (g_out (snd r)) a).
      { intros k w Ew. rewrite Eo. apply Hsep. apply (map_nth_error snd k a Ew). }
      destruct (Hst _ [] eq_refl) as [(e & Q & _)|(a0 & b0 & g0 & x0 & t0 & _ & Q2 & _ & _ & I1 & _ & _ & _)]; [congruence|].
      destruct (outputs_ok [] I1 Hdecod) as (outs & Eouts & _).
      rewrite Eouts, Enew. cbn [s new_garbler g_blocks app].
      destruct (Hst (new ++ outs) outs eq_refl) as [(e & Q & _)|(a1 & b1 & g1 & x1 & t1 & Q3 & Q4 & Ev & Ec & I2 & -> & -> & ->)]; [congruence|].
      assert (Ea : a1 = a).
      { rewrite P1 in Q3. rewrite P2 in Q4. injection Q3 as Q3. injection Q4 as Q4. clear -Q3 Q4. revert a Q3 Q4.
        induction a1 as [|[b z] a1 IH]; intros [|[b' z'] a] E1 E2; cbn in *; try discriminate; [reflexivity|].
        injection E1 as -> E1. injection E2 as -> E2. f_equal. apply IH; assumption. }
      subst a1. unfold evaluated. rewrite Ev.
      destruct (outputs_ok [] I2 Hdecod) as (outs' & Eouts' & Hd').
      rewrite Eouts in Eouts'. apply app_inv_head in Eouts'. subst outs'.
      destruct Hd' as (t'' & Et & _); [rewrite app_nil_r; exact Ec|]. rewrite Et, labels_split. reflexivity.
  Qed.
End Run.

(** ** Straight-line circuits: every list of gates is natural *)
Inductive gate := AndGate (i j : nat) | XorGate (i j : nat) | NotGate (i : nat) | ZeroGate | OneGate.
Section Gates.
  Context {W : Type}.
  Definition wire_at (ws : list W) (i : nat) : gprog W W := match nth_error ws i with Some w => GRet w | None => ix end.
  Definition run_gate (ws : list W) (g : gate) : gprog W W :=
    match g with
    | AndGate i j => a <- wire_at ws i ;; b <- wire_at ws j ;; gand a b
    | XorGate i j => a <- wire_at ws i ;; b <- wire_at ws j ;; gxor a b
    | NotGate i => a <- wire_at ws i ;; gneg a
    | ZeroGate => gzero
    | OneGate => gone
    end.
  Fixpoint run_gates (ws : list W) (gs : list gate) : gprog W (list W) :=
    match gs with [] => GRet ws | g :: gs => w <- run_gate ws g ;; run_gates (ws ++ [w]) gs end.
End Gates.
(** the wires of the inputs and of all gates; the outputs are the wires numbered [outs] *)
Definition gate_circuit (gs : list gate) (outs : list nat) : circuit :=
  fun W xs => ws <- run_gates xs gs ;; gmapM (wire_at ws) outs.

Lemma gate_circuit_natural gs outs : natural (gate_circuit gs outs).
Proof.
  intros W1 W2 f xs. unfold gate_circuit.
  assert (Hw : forall ws i, gsimf f f (wire_at ws i) (wire_at (map f ws) i)).
  { intros ws i. unfold wire_at. rewrite nth_error_map. destruct (nth_error ws i); cbn; [apply sim_ret_; reflexivity|apply sim_ix]. }
  eapply (@sim_bind _ _ f _ _ _ _ (map f)).
  - revert xs. induction gs as [|g gs IH]; intros xs; cbn [run_gates]; [apply sim_ret_; reflexivity|].
    eapply (@sim_bind _ _ f _ _ _ _ f).
    + destruct g; cbn [run_gate].
      * eapply (@sim_bind _ _ f _ _ _ _ f); [apply Hw|intros a]. eapply (@sim_bind _ _ f _ _ _ _ f); [apply Hw|intros b]. apply gand_sim.
      * eapply (@sim_bind _ _ f _ _ _ _ f); [apply Hw|intros a]. eapply (@sim_bind _ _ f _ _ _ _ f); [apply Hw|intros b]. apply gxor_sim.
      * eapply (@sim_bind _ _ f _ _ _ _ f); [apply Hw|intros a]. apply gneg_sim.
      * apply gzero_sim.
      * apply gone_sim.
    + intros w. replace (map f xs ++ [f w]) with (map f (xs ++ [w])) by (rewrite map_app; reflexivity). apply IH.
  - intros ws. apply gmapM_sim_id. intros i. apply Hw.
Qed.

(** the boolean meaning of a list of gates, by indices *)
Definition gate_val (vs : list bool) (g : gate) : option bool :=
  match g with
  | AndGate i j => match nth_error vs i, nth_error vs j with Some a, Some b => Some (a && b) | _, _ => None end
  | XorGate i j => match nth_error vs i, nth_error vs j with Some a, Some b => Some (xorb a b) | _, _ => None end
  | NotGate i => option_map negb (nth_error vs i)
  | ZeroGate => Some false
  | OneGate => Some true
  end.
Fixpoint gate_vals (vs : list bool) (gs : list gate) : option (list bool) :=
  match gs with
  | [] => Some vs
  | g :: gs => match gate_val vs g with Some v => gate_vals (vs ++ [v]) gs | None => None end
  end.
Fixpoint pick {X} (vs : list X) (is : list nat) : option (list X) :=
  match is with
  | [] => Some []
  | i :: is => match nth_error vs i, pick vs is with Some v, Some l => Some (v :: l) | _, _ => None end
  end.
Definition gate_fun (gs : list gate) (outs : list nat) (vs : list bool) : option (list bool) :=
  match gate_vals vs gs with Some ws => pick ws outs | None => None end.

Lemma gate_circuit_plain gs outs vs r : gate_fun gs outs vs = Some r -> plain (gate_circuit gs outs vs) = Done r.
Proof.
  unfold gate_fun, gate_circuit.
  assert (PB : forall A B (p : gprog bool A) (k : A -> gprog bool B),
            plain (gbind p k) = match plain p with Done a => plain (k a) | Failed e => Failed e end)
    by (intros A B p k; induction p; cbn [gbind plain]; auto).
  assert (HG : forall gs vs ws, gate_vals vs gs = Some ws -> plain (run_gates vs gs) = Done ws).
  { clear gs vs r. induction gs as [|g gs IH]; intros vs ws; cbn [gate_vals run_gates]; [intros E; injection E as ->; reflexivity|].
    destruct (gate_val vs g) as [v|] eqn:Eg; [|discriminate]. intros E. rewrite PB.
    assert (Ev : plain (run_gate vs g) = Done v).
    { destruct g; cbn [gate_val run_gate] in *; unfold wire_at;
        try (destruct (nth_error vs i); [|discriminate]); try (destruct (nth_error vs j); [|discriminate]);
        cbn in *; injection Eg as <-; reflexivity. }
    rewrite Ev. apply IH. exact E. }
  destruct (gate_vals vs gs) as [ws|] eqn:E; [|discriminate]. intros Ep.
  rewrite PB, (HG _ _ _ E). clear -Ep PB. revert r Ep. induction outs as [|i outs IH]; intros r Ep; cbn [pick gmapM] in *.
  - injection Ep as <-. reflexivity.
  - unfold wire_at at 1. destruct (nth_error ws i) as [v|]; [|discriminate]. destruct (pick ws outs) as [l|]; [|discriminate].
    injection Ep as <-. cbn [gbind]. rewrite PB, (IH _ eq_refl). reflexivity.
Qed.

Theorem gate_list_ok (H : N -> N -> N) gtweak otweak S (draw_label : S -> N * S) gs outs d zs bs rng out :
  color d = true -> length bs = length zs -> gate_fun gs outs bs = Some out ->
  exists outz blocks,
    garbled H gtweak otweak draw_label (gate_circuit gs outs) d zs rng = Done (outz, blocks) /\
    (separated H otweak d outz ->
     evaluated H gtweak otweak (gate_circuit gs outs) blocks (labels d zs bs) = Done (labels d outz out, out)).
Proof.
  intros Hd L E. apply gate_circuit_plain in E.
  destruct (@garbled_ok H gtweak otweak S draw_label (gate_circuit gs outs) d zs bs rng (gate_circuit_natural gs outs) Hd L)
    as [(e & P & _)|(out' & outz & blocks & P & Q & _ & _ & R)]; [congruence|].
  rewrite E in P. injection P as <-. eauto.
Qed.

(** ** The circuits of circuits.rs are natural *)
Definition halves {W} (f : list W -> list W -> gprog W (list W)) (l : list W) : gprog W (list W) :=
  f (firstn (length l / 2) l) (skipn (length l / 2) l).
Lemma halves_natural (F : forall W, list W -> list W -> gprog W (list W)) :
  (forall W1 W2 (f : W1 -> W2) a b, gsimf f (map f) (F W1 a b) (F W2 (map f a) (map f b))) ->
  natural (fun W => halves (F W)).
Proof. intros HF W1 W2 f xs. unfold halves. rewrite map_length, firstn_map, skipn_map. apply HF. Qed.
Lemma circuits_natural U p :
  natural (fun W => halves (fun a b => gbind (bin_addition a b) (fun r => GRet (fst r ++ [snd r])))) /\
  natural (fun W => halves (fun a b => gbind (bin_subtraction a b) (fun r => GRet (fst r ++ [snd r])))) /\
  natural (fun W => halves (fun a b => gbind (unsigned_ge a b) (fun r => GRet [r]))) /\
  natural (fun W => halves bin_div) /\
  natural (fun W => halves (adder_mod_p U p)).
Proof.
  repeat split; apply (@halves_natural (fun W => _)); intros W1 W2 f a b.
  - eapply sim_bind; [apply bin_addition_sim|]. intros [s c]. apply sim_ret_. cbn. rewrite map_app. reflexivity.
  - eapply sim_bind; [apply bin_subtraction_sim|]. intros [s c]. apply sim_ret_. cbn. rewrite map_app. reflexivity.
  - eapply sim_bind; [apply unsigned_ge_sim|]. intros c. apply sim_ret_. reflexivity.
  - apply bin_div_sim.
  - apply adder_mod_p_sim.
Qed.
