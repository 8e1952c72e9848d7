(** * Garbled circuits: labels, gates, garbler and evaluator
    Models mpc-core/src/protocols/rep3/yao.rs:38-116 (half gates), yao/garbler.rs and
    yao/evaluator.rs (the buffering garbler and evaluator) as pure state machines; the messages
    are exchanged in Yao.v.

    The circuits of yao/circuits.rs are generic in [G: FancyBinary + FancyBinaryConstant]: the
    same code is run by the garblers and by the evaluator.  A circuit is therefore a program
    [gprog W A] whose only effects are the five gate operations on wires of an abstract type [W].

    External code (fancy-garbling, scuttlebutt): a [WireMod2] is a 128-bit block, here a number;
    [plus] is xor, [cmul c] multiplies by the bit [c], [color] is the lowest bit, [from_block],
    [as_block] and [hash_to_mod] are the identity, [hash(tweak)] and [hash_wires] are an arbitrary
    function [H] of label and tweak, the tweaks are arbitrary functions of the gate and output
    numbers. [or] and [mux] are the default methods of [FancyBinary]. *)
From Coq Require Import String List Arith NArith Lia Bool Btauto.
From Verif Require Import Proc.
Import ListNotations.
Set Implicit Arguments.

(** ** Circuits as programs over gates *)
Section GProg.
  Context {W : Type}.

  (** fancy_garbling [FancyBinary]: [xor], [and], [negate]; circuits.rs:15-22
      [FancyBinaryConstant]: [const_zero], [const_one].  [GErr]: [Err] or a panic. *)
  Inductive gprog (A : Type) : Type :=
  | GRet : A -> gprog A
  | GErr : err -> gprog A
  | GXor : W -> W -> (W -> gprog A) -> gprog A
  | GAnd : W -> W -> (W -> gprog A) -> gprog A
  | GNeg : W -> (W -> gprog A) -> gprog A
  | GZero : (W -> gprog A) -> gprog A
  | GOne : (W -> gprog A) -> gprog A.

  Fixpoint gbind {A B} (p : gprog A) (f : A -> gprog B) : gprog B :=
    match p with
    | GRet a => f a
    | GErr _ e => GErr B e
    | GXor x y k => GXor x y (fun w => gbind (k w) f)
    | GAnd x y k => GAnd x y (fun w => gbind (k w) f)
    | GNeg x k => GNeg x (fun w => gbind (k w) f)
    | GZero k => GZero (fun w => gbind (k w) f)
    | GOne k => GOne (fun w => gbind (k w) f)
    end.
End GProg.
Arguments gprog : clear implicits.
Arguments GRet {W A}. Arguments GErr {W A}. Arguments GXor {W A}. Arguments GAnd {W A}.
Arguments GNeg {W A}. Arguments GZero {W A}. Arguments GOne {W A}.

Declare Scope gp_scope.
Delimit Scope gp_scope with gp.
Notation "x <- p ;; q" := (gbind p (fun x => q))
  (at level 61, p at next level, right associativity) : gp_scope.
Notation "' pat <- p ;; q" := (gbind p (fun x => match x with pat => q end))
  (at level 61, pat pattern, p at next level, right associativity) : gp_scope.

(** ** Plain (boolean) meaning of a circuit: the specification of the gates *)
Fixpoint plain {A} (p : gprog bool A) : outcome A :=
  match p with
  | GRet a => Done a
  | GErr e => Failed e
  | GXor x y k => plain (k (xorb x y))
  | GAnd x y k => plain (k (x && y))
  | GNeg x k => plain (k (negb x))
  | GZero k => plain (k false)
  | GOne k => plain (k true)
  end.

(** ** Labels and half gates *)
Section Gates.
  (** [WireMod2::hash] / [hash_wires] *)
  Variable H : N -> N -> N.
  (** [tweak2(gate_num, 0)], [output_tweak(i, k)] *)
  Variable gtweak : N -> N.
  Variable otweak : N -> bool -> N.

  (** [WireMod2::color] *)
  Definition color (x : N) : bool := N.odd x.
  (** [WireMod2::cmul] *)
  Definition cmul (b : bool) (x : N) : N := if b then x else 0%N.
  (** [subtle::ConditionallySelectable::conditional_select]: the second value if the choice is 1 *)
  Definition select {X} (a b : X) (c : bool) : X := if c then b else a.

  (** yao.rs:42-66 [evaluate_and_gate] *)
  Definition evaluate_and_gate (n : N) (a b gate0 gate1 : N) : N :=
    let g := gtweak n in
    let hash_a := H a g in
    let hash_b := H b g in
    let l := select hash_a (N.lxor hash_a gate0) (color a) in
    let r := select hash_b (N.lxor hash_b gate1) (color b) in
    N.lxor l (N.lxor r (cmul (color b) a)).

  (** yao.rs:74-116 [garble_and_gate] *)
  Definition garble_and_gate (n : N) (a b d : N) : N * N * N :=
    let r := color b in
    let g := gtweak n in
    let alpha := color a in
    let x1 := N.lxor a (cmul alpha d) in
    let beta := color b in
    let y1 := N.lxor b (cmul beta d) in
    let ad := N.lxor a d in
    let bd := N.lxor b d in
    let b' := select bd b (color b) in
    let new_a := select ad a (color a) in
    let idx := select r false (color a) in
    let hash_a := H new_a g in
    let hash_b := H b' g in
    let hash_x := H x1 g in
    let hash_y := H y1 g in
    let x := N.lxor hash_x (cmul (alpha && r) d) in
    let y := hash_y in
    let gate0 := N.lxor hash_a (select x (N.lxor x d) idx) in
    let gate1 := N.lxor hash_b (N.lxor y a) in
    (gate0, gate1, N.lxor x y).

  (** Label of the value [b] on a wire with zero label [x]: yao.rs:288-297 [encode_wire],
      garbler.rs:207-214 *)
  Definition label (d x : N) (b : bool) : N := N.lxor x (cmul b d).

  (** ** Garbler (garbler.rs) *)
  Section Garbler.
    (** the garbler's own generator and its block draw [WireMod2::rand] *)
    Context {S : Type} (draw_label : S -> N * S).

    (** garbler.rs:23-37; [blocks]: the circuit, in the order of [add_block_to_circuit]
        (garbler.rs:67-81: party 1 stores the blocks, party 2 hashes them) *)
    Record gst := mkGst {
      g_gate : N; g_out : N; g_rng : S; g_blocks : list N;
      g_zero : option N; g_one : option N }.

    (** garbler.rs:47-64 [new_with_delta] *)
    Definition new_garbler (rng : S) : gst := mkGst 0 0 rng [] None None.

    Definition add_block (s : gst) (b : N) : gst :=
      mkGst (g_gate s) (g_out s) (g_rng s) (g_blocks s ++ [b]) (g_zero s) (g_one s).

    (** garbler.rs:227-232 [constant]: draw the zero label, send the label of the constant *)
    Definition g_constant (d : N) (s : gst) (x : bool) : N * gst :=
      let z := draw_label (g_rng s) in
      let s := mkGst (g_gate s) (g_out s) (snd z) (g_blocks s) (g_zero s) (g_one s) in
      (fst z, add_block s (N.lxor (fst z) (cmul x d))).

    (** garbler.rs:268-278 [const_zero] *)
    Definition g_const_zero (d : N) (s : gst) : N * gst :=
      match g_zero s with
      | Some z => (z, s)
      | None => let r := g_constant d s false in
                (fst r, mkGst (g_gate (snd r)) (g_out (snd r)) (g_rng (snd r)) (g_blocks (snd r))
                              (Some (fst r)) (g_one (snd r)))
      end.

    (** garbler.rs:280-290 [const_one] *)
    Definition g_const_one (d : N) (s : gst) : N * gst :=
      match g_one s with
      | Some z => (z, s)
      | None => let r := g_constant d s true in
                (fst r, mkGst (g_gate (snd r)) (g_out (snd r)) (g_rng (snd r)) (g_blocks (snd r))
                              (g_zero (snd r)) (Some (fst r)))
      end.

    (** garbler.rs:246-251 [and], 114-118 [current_gate] *)
    Definition g_and (d : N) (s : gst) (a b : N) : N * gst :=
      let t := garble_and_gate (g_gate s) a b d in
      (snd t, mkGst (g_gate s + 1) (g_out s) (g_rng s)
                    (g_blocks s ++ [fst (fst t); snd (fst t)]) (g_zero s) (g_one s)).

    (** A circuit run by a garbler: garbler.rs:242-264 ([xor], [negate]) *)
    Fixpoint garble {A} (d : N) (p : gprog N A) (s : gst) : outcome A * gst :=
      match p with
      | GRet a => (Done a, s)
      | GErr e => (Failed e, s)
      | GXor x y k => garble d (k (N.lxor x y)) s
      | GAnd x y k => let r := g_and d s x y in garble d (k (fst r)) (snd r)
      | GNeg x k => garble d (k (N.lxor d x)) s
      | GZero k => let r := g_const_zero d s in garble d (k (fst r)) (snd r)
      | GOne k => let r := g_const_one d s in garble d (k (fst r)) (snd r)
      end.

    (** garbler.rs:234-243 [output]: the hashes of both labels *)
    Definition g_output (d : N) (s : gst) (x : N) : gst :=
      mkGst (g_gate s) (g_out s + 1) (g_rng s)
            (g_blocks s ++ [H x (otweak (g_out s) false); H (N.lxor x d) (otweak (g_out s) true)])
            (g_zero s) (g_one s).

    (** garbler.rs:128-131 [output_evaluator]; fancy_garbling [Fancy::outputs] *)
    Definition g_outputs (d : N) (s : gst) (xs : list N) : gst := fold_left (g_output d) xs s.

    (** garbler.rs:134-152 [output_garbler], on the blocks received from the evaluator *)
    Fixpoint g_decode (d : N) (blocks xs : list N) : outcome (list bool) :=
      match blocks, xs with
      | b :: blocks, x :: xs =>
          match (if N.eqb b x then Done false
                 else if N.eqb b (N.lxor x d) then Done true
                 else Failed (Eyre "Invalid block received")) with
          | Done v => match g_decode d blocks xs with Done l => Done (v :: l) | Failed e => Failed e end
          | Failed e => Failed e
          end
      | _, _ => Done []
      end.
    Definition g_decode_checked (d : N) (blocks xs : list N) : outcome (list bool) :=
      if (length blocks =? length xs)%nat then g_decode d blocks xs
      else Failed (Eyre "Invalid number of blocks received").
  End Garbler.

  (** ** Evaluator (evaluator.rs) *)

  (** evaluator.rs:17-27; [e_circ]: the part of the circuit not read yet *)
  Record est := mkEst {
    e_gate : N; e_out : N; e_circ : list N; e_zero : option N; e_one : option N }.

  (** evaluator.rs:30-45 [new], 61-79 [receive_circuit] *)
  Definition new_evaluator (circuit : list N) : est := mkEst 0 0 circuit None None.

  (** evaluator.rs:48-58 [get_block_from_circuit] *)
  Definition e_block (s : est) : outcome (N * est) :=
    match e_circ s with
    | [] => Failed (Eyre "Too few gates in circuits.")
    | b :: c => Done (b, mkEst (e_gate s) (e_out s) c (e_zero s) (e_one s))
    end.

  (** evaluator.rs:266-276 [const_zero], 278-288 [const_one], 212-215 [constant] *)
  Definition e_const_zero (s : est) : outcome (N * est) :=
    match e_zero s with
    | Some z => Done (z, s)
    | None => match e_block s with
              | Done (z, s) => Done (z, mkEst (e_gate s) (e_out s) (e_circ s) (Some z) (e_one s))
              | Failed e => Failed e
              end
    end.
  Definition e_const_one (s : est) : outcome (N * est) :=
    match e_one s with
    | Some z => Done (z, s)
    | None => match e_block s with
              | Done (z, s) => Done (z, mkEst (e_gate s) (e_out s) (e_circ s) (e_zero s) (Some z))
              | Failed e => Failed e
              end
    end.

  (** evaluator.rs:254-262 [and] *)
  Definition e_and (s : est) (a b : N) : outcome (N * est) :=
    match e_block s with
    | Failed e => Failed e
    | Done (g0, s) =>
        match e_block s with
        | Failed e => Failed e
        | Done (g1, s) =>
            Done (evaluate_and_gate (e_gate s) a b g0 g1,
                  mkEst (e_gate s + 1) (e_out s) (e_circ s) (e_zero s) (e_one s))
        end
    end.

  (** A circuit run by the evaluator: evaluator.rs:244-262 ([negate] is the identity) *)
  Fixpoint evaluate {A} (p : gprog N A) (s : est) : outcome (A * est) :=
    match p with
    | GRet a => Done (a, s)
    | GErr e => Failed e
    | GXor x y k => evaluate (k (N.lxor x y)) s
    | GAnd x y k => match e_and s x y with Done r => evaluate (k (fst r)) (snd r) | Failed e => Failed e end
    | GNeg x k => evaluate (k x) s
    | GZero k => match e_const_zero s with Done r => evaluate (k (fst r)) (snd r) | Failed e => Failed e end
    | GOne k => match e_const_one s with Done r => evaluate (k (fst r)) (snd r) | Failed e => Failed e end
    end.

  (** evaluator.rs:217-241 [output] *)
  Definition e_output (s : est) (x : N) : outcome (bool * est) :=
    match e_circ s with
    | c0 :: c1 :: c =>
        let s' := mkEst (e_gate s) (e_out s + 1) c (e_zero s) (e_one s) in
        if N.eqb (H x (otweak (e_out s) false)) c0 then Done (false, s')
        else if N.eqb (H x (otweak (e_out s) true)) c1 then Done (true, s')
        else Failed (Eyre "Output failed")
    | _ => Failed (Eyre "Output failed")
    end.

  (** evaluator.rs:95-110 [output_evaluator] *)
  Fixpoint e_outputs (s : est) (xs : list N) : outcome (list bool * est) :=
    match xs with
    | [] => Done ([], s)
    | x :: xs => match e_output s x with
                 | Failed e => Failed e
                 | Done (v, s) => match e_outputs s xs with
                                  | Done (l, s) => Done (v :: l, s)
                                  | Failed e => Failed e
                                  end
                 end
    end.

  (** ** One gate *)
  Lemma odd_lxor x y : N.odd (N.lxor x y) = xorb (N.odd x) (N.odd y).
  Proof. rewrite <- !N.bit0_odd. apply N.lxor_spec. Qed.

  Local Ltac xor_tac := apply N.bits_inj; intros ?i; rewrite ?N.lxor_spec, ?N.bits_0; btauto.

  (** Evaluating a garbled AND gate on the labels of [x] and [y] yields the label of [x && y]. *)
  Lemma and_gate_ok n a b d (x y : bool) : color d = true ->
    let t := garble_and_gate n a b d in
    evaluate_and_gate n (label d a x) (label d b y) (fst (fst t)) (snd (fst t)) = label d (snd t) (x && y).
  Proof.
    unfold color, evaluate_and_gate, garble_and_gate, label, select, cmul. intros Hd. cbn [fst snd].
    assert (Ea : color (N.lxor a (if x then d else 0%N)) = xorb (N.odd a) x)
      by (unfold color; destruct x; rewrite odd_lxor, ?Hd; reflexivity).
    assert (Eb : color (N.lxor b (if y then d else 0%N)) = xorb (N.odd b) y)
      by (unfold color; destruct y; rewrite odd_lxor, ?Hd; reflexivity).
    unfold color in *. rewrite Ea, Eb. generalize (gtweak n). intros g.
    destruct x, y, (N.odd a), (N.odd b); cbn [xorb negb andb];
      rewrite ?N.lxor_0_r; xor_tac.
  Qed.

  Lemma xor_gate_ok d a b (x y : bool) : N.lxor (label d a x) (label d b y) = label d (N.lxor a b) (xorb x y).
  Proof. unfold label, cmul. destruct x, y; cbn; rewrite ?N.lxor_0_r; xor_tac. Qed.

  Lemma neg_gate_ok d a (x : bool) : label d a x = label d (N.lxor d a) (negb x).
  Proof. unfold label, cmul. destruct x; cbn; rewrite ?N.lxor_0_r; xor_tac. Qed.

  Lemma lxor_fix {a d} : N.lxor a d = a -> d = 0%N.
  Proof.
    intros E. rewrite <- (N.lxor_0_l d), <- (N.lxor_nilpotent a), N.lxor_assoc, E. reflexivity.
  Qed.

  Lemma label_inj d a (x y : bool) : d <> 0%N -> label d a x = label d a y -> x = y.
  Proof.
    intros Hd. unfold label, cmul. destruct x, y; try reflexivity; rewrite N.lxor_0_r; intros E; exfalso; apply Hd.
    - exact (lxor_fix E).
    - exact (lxor_fix (eq_sym E)).
  Qed.

  (** ** The same generic circuit at two wire types
      [f] translates wires; the generic circuit code cannot look into a wire. *)
  Inductive gsim {W1 W2 A1 A2 : Type} (f : W1 -> W2) (RA : A1 -> A2 -> Prop)
    : gprog W1 A1 -> gprog W2 A2 -> Prop :=
  | sim_ret : forall a b, RA a b -> gsim f RA (GRet a) (GRet b)
  | sim_err : forall e, gsim f RA (GErr e) (GErr e)
  | sim_xor : forall x y k k', (forall w, gsim f RA (k w) (k' (f w))) ->
                gsim f RA (GXor x y k) (GXor (f x) (f y) k')
  | sim_and : forall x y k k', (forall w, gsim f RA (k w) (k' (f w))) ->
                gsim f RA (GAnd x y k) (GAnd (f x) (f y) k')
  | sim_neg : forall x k k', (forall w, gsim f RA (k w) (k' (f w))) ->
                gsim f RA (GNeg x k) (GNeg (f x) k')
  | sim_zero : forall k k', (forall w, gsim f RA (k w) (k' (f w))) -> gsim f RA (GZero k) (GZero k')
  | sim_one : forall k k', (forall w, gsim f RA (k w) (k' (f w))) -> gsim f RA (GOne k) (GOne k').

  Lemma gsim_bind {W1 W2 A1 A2 B1 B2} (f : W1 -> W2) (RA : A1 -> A2 -> Prop) (RB : B1 -> B2 -> Prop) p q k k' :
    gsim f RA p q -> (forall a b, RA a b -> gsim f RB (k a) (k' b)) -> gsim f RB (gbind p k) (gbind q k').
  Proof. intros Hs Hk. induction Hs; cbn [gbind]; try (constructor; auto); auto. Qed.

  Lemma gsim_mono {W1 W2 A1 A2} (f : W1 -> W2) (RA RB : A1 -> A2 -> Prop) p q :
    (forall a b, RA a b -> RB a b) -> gsim f RA p q -> gsim f RB p q.
  Proof. intros Hm Hs. induction Hs; constructor; auto. Qed.

  (** ** Lock-step: garbler, evaluator and plain circuit *)
  Section LockStep.
    Context {S : Type} (draw_label : S -> N * S) (d : N).
    Hypothesis Hd : color d = true.

    (** a wire: its value and its zero label *)
    Definition wire := (bool * N)%type.
    Definition ewire (w : wire) : N := label d (snd w) (fst w).

    (** the evaluator's constants are the labels of 0 and 1 *)
    Definition consts_ok (s : gst (S := S)) (t : est) : Prop :=
      e_zero t = g_zero s /\ e_one t = option_map (fun z => label d z true) (g_one s).

    Definition in_step (s : gst (S := S)) (t : est) : Prop :=
      e_gate t = g_gate s /\ e_out t = g_out s /\ consts_ok s t.

    (** whatever the garbler appends, the evaluator consumes *)
    Lemma lockstep {A Ab Ag Ae} (Rb : A -> Ab -> Prop) (Rg : A -> Ag -> Prop) (Re : A -> Ae -> Prop)
          (p : gprog wire A) : forall pb pg pe s t rest,
      gsim fst Rb p pb -> gsim snd Rg p pg -> gsim ewire Re p pe ->
      in_step s t ->
      exists new, g_blocks (snd (garble draw_label d pg s)) = g_blocks s ++ new /\
      (e_circ t = new ++ rest ->
       (exists e, plain pb = Failed e /\ fst (garble draw_label d pg s) = Failed e) \/
       (exists a b g x t', plain pb = Done b /\ fst (garble draw_label d pg s) = Done g /\
          evaluate pe t = Done (x, t') /\ e_circ t' = rest /\
          in_step (snd (garble draw_label d pg s)) t' /\
          Rb a b /\ Rg a g /\ Re a x)).
    Proof.
      induction p as [a|e|x y k IH|x y k IH|x k IH|k IH|k IH]; intros pb pg pe s t rest Sb Sg Se Hin;
        inversion Sb; subst; inversion Sg; subst; inversion Se; subst;
        try match goal with
            | B : forall w, gsim fst _ _ _, G : forall w, gsim snd _ _ _, E : forall w, gsim ewire _ _ _ |- _ =>
                rename B into SB, G into SG, E into SE
            end.
      - exists []. cbn. rewrite app_nil_r. split; [reflexivity|]. intros Hc. right.
        do 5 eexists. repeat (split; [first [reflexivity|eassumption]|]). eassumption.
      - exists []. cbn. rewrite app_nil_r. split; [reflexivity|]. intros _. left. eauto.
      - cbn [garble plain evaluate].
        assert (E : N.lxor (ewire x) (ewire y) = ewire (xorb (fst x) (fst y), N.lxor (snd x) (snd y)))
          by (unfold ewire; cbn; apply xor_gate_ok).
        rewrite E. specialize (SB (xorb (fst x) (fst y), N.lxor (snd x) (snd y))).
        specialize (SG (xorb (fst x) (fst y), N.lxor (snd x) (snd y))).
        specialize (SE (xorb (fst x) (fst y), N.lxor (snd x) (snd y))).
        exact (IH _ _ _ _ s t rest SB SG SE Hin).
      - cbn [garble plain evaluate].
        set (g := g_and d s (snd x) (snd y)).
        set (w := (fst x && fst y, fst g) : wire).
        specialize (SB w). specialize (SG w). specialize (SE w).
        destruct Hin as (I1 & I2 & I3 & I4).
        set (t1 := fun r => mkEst (e_gate t + 1) (e_out t) r (e_zero t) (e_one t)).
        assert (Hin' : forall r, in_step (snd g) (t1 r)).
        { intros r. unfold in_step, consts_ok, g, g_and, t1. cbn. rewrite I1. auto. }
        destruct (IH w _ _ _ (snd g) (t1 []) rest SB SG SE (Hin' _)) as (new0 & N1 & _).
        exists (fst (fst (garble_and_gate (g_gate s) (snd x) (snd y) d))
                :: snd (fst (garble_and_gate (g_gate s) (snd x) (snd y) d)) :: new0).
        change (snd w) with (fst g) in *. change (fst w) with (fst x && fst y) in *.
        split. { rewrite N1. cbn. rewrite <- app_assoc. reflexivity. }
        intros Hc. unfold e_and, e_block. rewrite Hc. cbn [app e_circ].
        destruct (IH w _ _ _ (snd g) (t1 (new0 ++ rest)) rest SB SG SE (Hin' _)) as (new1 & N1' & Hk).
        assert (new1 = new0) by (rewrite N1 in N1'; apply app_inv_head in N1'; congruence). subst new1.
        specialize (Hk eq_refl). cbn [fst snd e_gate e_out e_zero e_one].
        replace (evaluate_and_gate (e_gate t) (ewire x) (ewire y)
                   (fst (fst (garble_and_gate (g_gate s) (snd x) (snd y) d)))
                   (snd (fst (garble_and_gate (g_gate s) (snd x) (snd y) d)))) with (ewire w);
          [exact Hk|].
        rewrite I1. unfold ewire, w, g, g_and. cbn [fst snd]. symmetry. apply and_gate_ok. exact Hd.
      - cbn [garble plain evaluate].
        assert (E : ewire x = ewire (negb (fst x), N.lxor d (snd x))) by (unfold ewire; cbn; apply neg_gate_ok).
        specialize (SB (negb (fst x), N.lxor d (snd x))).
        specialize (SG (negb (fst x), N.lxor d (snd x))).
        specialize (SE (negb (fst x), N.lxor d (snd x))). rewrite <- E in SE.
        exact (IH _ _ _ _ s t rest SB SG SE Hin).
      - cbn [garble plain evaluate].
        destruct Hin as (I1 & I2 & I3 & I4).
        unfold g_const_zero, e_const_zero. rewrite I3. destruct (g_zero s) as [z|] eqn:Ez.
        + specialize (SB (false, z)). specialize (SG (false, z)). specialize (SE (false, z)).
          assert (E : ewire (false, z) = z) by (unfold ewire, label; cbn; apply N.lxor_0_r).
          rewrite E in SE. cbn [fst snd] in *.
          apply (IH _ _ _ _ s t rest SB SG SE).
          unfold in_step, consts_ok. rewrite Ez. auto.
        + set (z := draw_label (g_rng s)).
          specialize (SB (false, fst z)). specialize (SG (false, fst z)). specialize (SE (false, fst z)).
          assert (E : ewire (false, fst z) = fst z) by (unfold ewire, label; cbn; apply N.lxor_0_r).
          rewrite E in SE. cbn [fst snd g_constant add_block g_gate g_out g_rng g_blocks g_zero g_one] in *.
          fold z.
          set (s1 := mkGst _ _ _ _ _ _).
          set (t1 := fun r => mkEst (e_gate t) (e_out t) r (Some (fst z)) (e_one t)).
          assert (Hin' : forall r, in_step s1 (t1 r)).
          { intros r. unfold in_step, consts_ok, s1, t1. cbn. auto. }
          destruct (IH _ _ _ _ s1 (t1 []) rest SB SG SE (Hin' _)) as (new0 & N1 & _).
          exists (N.lxor (fst z) (cmul false d) :: new0).
          split. { rewrite N1. cbn. rewrite <- app_assoc. reflexivity. }
          intros Hc. unfold e_block. rewrite Hc. cbn [app e_circ].
          destruct (IH _ _ _ _ s1 (t1 (new0 ++ rest)) rest SB SG SE (Hin' _)) as (new1 & N1' & Hk).
          assert (new1 = new0) by (rewrite N1 in N1'; apply app_inv_head in N1'; congruence). subst new1.
          specialize (Hk eq_refl). cbn [fst snd e_gate e_out e_zero e_one cmul].
          rewrite N.lxor_0_r. exact Hk.
      - cbn [garble plain evaluate].
        destruct Hin as (I1 & I2 & I3 & I4).
        unfold g_const_one, e_const_one. rewrite I4. destruct (g_one s) as [z|] eqn:Ez; cbn [option_map].
        + specialize (SB (true, z)). specialize (SG (true, z)). specialize (SE (true, z)).
          cbn [fst snd] in *.
          apply (IH _ _ _ _ s t rest SB SG SE).
          unfold in_step, consts_ok. rewrite Ez. auto.
        + set (z := draw_label (g_rng s)).
          specialize (SB (true, fst z)). specialize (SG (true, fst z)). specialize (SE (true, fst z)).
          cbn [fst snd g_constant add_block g_gate g_out g_rng g_blocks g_zero g_one] in *.
          fold z.
          set (s1 := mkGst _ _ _ _ _ _).
          set (t1 := fun r => mkEst (e_gate t) (e_out t) r (e_zero t) (Some (ewire (true, fst z)))).
          assert (Hin' : forall r, in_step s1 (t1 r)).
          { intros r. unfold in_step, consts_ok, s1, t1. cbn. auto. }
          destruct (IH _ _ _ _ s1 (t1 []) rest SB SG SE (Hin' _)) as (new0 & N1 & _).
          exists (N.lxor (fst z) (cmul true d) :: new0).
          split. { rewrite N1. cbn. rewrite <- app_assoc. reflexivity. }
          intros Hc. unfold e_block. rewrite Hc. cbn [app e_circ].
          destruct (IH _ _ _ _ s1 (t1 (new0 ++ rest)) rest SB SG SE (Hin' _)) as (new1 & N1' & Hk).
          assert (new1 = new0) by (rewrite N1 in N1'; apply app_inv_head in N1'; congruence). subst new1.
          specialize (Hk eq_refl). cbn [fst snd e_gate e_out e_zero e_one].
          exact Hk.
    Qed.

    (** ** Outputs *)
    (** The two labels of an output wire are told apart by their hashes. *)
    Definition decodable (n : N) (ws : list wire) : Prop :=
      forall k w, nth_error ws k = Some w ->
        H (snd w) (otweak (n + N.of_nat k) false) <> H (N.lxor (snd w) d) (otweak (n + N.of_nat k) false).

    Lemma outputs_ok (ws : list wire) : forall s t rest, in_step s t -> decodable (g_out s) ws ->
      exists new, g_blocks (g_outputs d s (map snd ws)) = g_blocks s ++ new /\
      (e_circ t = new ++ rest -> exists t', e_outputs t (map ewire ws) = Done (map fst ws, t') /\ e_circ t' = rest).
    Proof.
      induction ws as [|w ws IH]; intros s t rest Hin Hdec; cbn [map g_outputs fold_left e_outputs].
      - exists []. rewrite app_nil_r. split; [reflexivity|]. intros Hc. exists t. auto.
      - destruct Hin as (I1 & I2 & I3 & I4).
        fold (g_outputs d (g_output d s (snd w)) (map snd ws)).
        set (t1 := fun r => mkEst (e_gate t) (e_out t + 1) r (e_zero t) (e_one t)).
        assert (Hin' : forall r, in_step (g_output d s (snd w)) (t1 r)).
        { intros r. unfold in_step, consts_ok, t1. cbn. rewrite I2. auto. }
        assert (Hdec' : decodable (g_out (g_output d s (snd w))) ws).
        { intros k w' Hk. specialize (Hdec (Datatypes.S k) w' Hk). cbn.
          replace (g_out s + 1 + N.of_nat k)%N with (g_out s + N.of_nat (Datatypes.S k))%N by lia. exact Hdec. }
        destruct (IH _ (t1 []) rest (Hin' _) Hdec') as (new0 & N1 & _).
        exists (H (snd w) (otweak (g_out s) false) :: H (N.lxor (snd w) d) (otweak (g_out s) true) :: new0).
        split. { rewrite N1. cbn. rewrite <- app_assoc. reflexivity. }
        intros Hc. unfold e_output. rewrite Hc. cbn [app]. rewrite I2.
        destruct (IH _ (t1 (new0 ++ rest)) rest (Hin' _) Hdec') as (new1 & N1' & Hk).
        assert (new1 = new0) by (rewrite N1 in N1'; apply app_inv_head in N1'; congruence). subst new1.
        destruct (Hk eq_refl) as (t' & K1 & K2). unfold t1 in K1. rewrite I2 in K1.
        pose proof (Hdec 0 w eq_refl) as H0. rewrite N.add_0_r in H0.
        unfold ewire at 1 2, label. destruct (fst w); cbn [cmul].
        + destruct (N.eqb_spec (H (N.lxor (snd w) d) (otweak (g_out s) false)) (H (snd w) (otweak (g_out s) false))) as [E|E];
            [congruence|].
          rewrite N.eqb_refl. rewrite K1. eauto.
        + rewrite N.lxor_0_r, N.eqb_refl, K1. eauto.
    Qed.

    Lemma d_nonzero : d <> 0%N.
    Proof. intros E. unfold color in Hd. rewrite E in Hd. discriminate. Qed.

    (** garblers decode the labels returned by the evaluator *)
    Lemma g_decode_ok (ws : list wire) : g_decode_checked d (map ewire ws) (map snd ws) = Done (map fst ws).
    Proof.
      unfold g_decode_checked. rewrite !map_length, Nat.eqb_refl.
      induction ws as [|w ws IH]; [reflexivity|]. cbn [map g_decode]. rewrite IH.
      unfold ewire, label. destruct (fst w) eqn:E; cbn [cmul].
      - destruct (N.eqb_spec (N.lxor (snd w) d) (snd w)) as [Q|Q].
        + exfalso. apply d_nonzero. exact (lxor_fix Q).
        + rewrite N.eqb_refl. reflexivity.
      - rewrite N.lxor_0_r, N.eqb_refl. reflexivity.
    Qed.
  End LockStep.
End Gates.
