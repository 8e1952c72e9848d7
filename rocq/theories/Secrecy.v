(** * Secrecy: views, ideal generators, arithmetic circuits on replicated shares

    The model's generators are arbitrary deterministic functions ([Draw]). For statements about
    distributions a generator is replaced here by a tape: the list of the values it will return.
    A uniformly distributed tape is an ideal generator, and "the view has the same distribution
    for two inputs" is stated without probabilities: for every tape of the first run exactly one
    tape of the second run (of the same length) gives the same view. *)
From Coq Require Import String List Arith Lia Bool.
From Verif Require Import Proc Alg Rep3Net Rep3 Rep3Spec Rep3Proofs Rep3Wp.
Import ListNotations.
Set Implicit Arguments.
Local Open Scope grp_scope.

(** Ideal generator for mpc-core/src/lib.rs [RngType]: the list of values still to be drawn (a draw from the
    empty list is 0; all statements are about tapes that are long enough). *)
Definition tape (X : Type) := list X.
Global Instance tape_draw {X} {AX : AbGrp X} : Draw (tape X) X := fun l => (hd 0 l, tl l).

(** The view of a party: its result together with every message it receives
    (mpc-net/src/lib.rs [Network::recv] is the only way data reaches a party). *)
Fixpoint spy {P M A} (p : prog P M A) : prog P M (A * list M) :=
  match p with
  | Ret a => Ret (a, [])
  | Fail e => Fail e
  | Send j m k => Send j m (spy k)
  | Recv j k => Recv j (fun m => r <- spy (k m) ;; Ret (fst r, m :: snd r))
  end.

(** ** Arithmetic circuits: the operations offered by rep3/arithmetic.rs 31-206 and
    rep3/binary.rs as gates; wires are numbered in order of creation. *)
Section Circuit.
  Context {R : Type} {AG : AbGrp R} {BL : Bilin R R R}.
  Inductive gate :=
  | GAdd (n m : nat)            (* arithmetic.rs:31 *)
  | GSub (n m : nat)            (* arithmetic.rs:68 *)
  | GNeg (n : nat)              (* arithmetic.rs:211 *)
  | GAddPub (n : nat) (c : R)   (* arithmetic.rs:41 *)
  | GMulPub (n : nat) (c : R)   (* arithmetic.rs:118 *)
  | GConst (c : R)              (* arithmetic.rs:321 *)
  | GMul (n m : nat)            (* arithmetic.rs:103 *)
  | GMuls (l : list (nat * nat)). (* arithmetic.rs:165 *)

  (** Plain meaning of a circuit. *)
  Definition gval (g : gate) (xs : list R) : list R :=
    let x n := nth n xs 0 in
    match g with
    | GAdd n m => [x n + x m]
    | GSub n m => [x n - x m]
    | GNeg n => [- x n]
    | GAddPub n c => [x n + c]
    | GMulPub n c => [bmul (x n) c]
    | GConst c => [c]
    | GMul n m => [bmul (x n) (x m)]
    | GMuls l => map (fun p => bmul (x (fst p)) (x (snd p))) l
    end.
  Fixpoint cval (C : list gate) (xs : list R) : list R :=
    match C with [] => xs | g :: C => cval C (xs ++ gval g xs) end.
  (** Number of multiplications. *)
  Definition gmuls (g : gate) : nat := match g with GMul _ _ => 1 | GMuls l => length l | _ => 0 end.
  Fixpoint muls (C : list gate) : nat := match C with [] => 0%nat | g :: C => (gmuls g + muls C)%nat end.

  Context {S M : Type} {DR : Draw S R} {ER : Enc M (list R)}.
  (** The gates on shares: local functions and the protocols [mul], [mul_vec] of Rep3.v. *)
  Definition gate_prog (i : pid) (g : gate) (st : rst S) (ws : list (share R)) : prog pid M (list (share R) * rst S) :=
    let w n := nth n ws zero_share in
    match g with
    | GAdd n m => Ret ([shadd (w n) (w m)], st)
    | GSub n m => Ret ([shsub (w n) (w m)], st)
    | GNeg n => Ret ([shneg (w n)], st)
    | GAddPub n c => Ret ([add_public i (w n) c], st)
    | GMulPub n c => Ret ([mkShare (bmul (sa (w n)) c) (bmul (sb (w n)) c)], st)
    | GConst c => Ret ([promote i c], st)
    | GMul n m => r <- mul i st (w n) (w m) ;; Ret ([fst r], snd r)
    | GMuls l => mul_vec i st (map (fun p => w (fst p)) l) (map (fun p => w (snd p)) l)
    end.
  (** A protocol built from these operations (any caller of rep3/arithmetic.rs that uses them);
      all wires are returned. *)
  Fixpoint circ (i : pid) (C : list gate) (st : rst S) (ws : list (share R)) : prog pid M (list (share R) * rst S) :=
    match C with
    | [] => Ret (ws, st)
    | g :: C => r <- gate_prog i g st ws ;; circ i C (snd r) (ws ++ fst r)
    end.
  (** The same followed by the opening (arithmetic.rs:261-271 [open_vec]) of some wires. *)
  Definition circ_open (i : pid) (C : list gate) (outs : list nat) (st : rst S) (ws : list (share R))
    : prog pid M (list R * (list (share R) * rst S)) :=
    r <- circ i C st ws ;;
    o <- open_vec i (map (fun n => nth n (fst r) zero_share) outs) ;;
    Ret (o, r).
End Circuit.
Arguments gate : clear implicits.

(** ** Correctness: the wires are sharings of the plain values *)
Section Correct.
  Context {R : Type} {AG : AbGrp R} {BL : Bilin R R R}.
  Context {S M : Type} {DR : Draw S R} {ER : Enc M (list R)} (cap : nat).
  Hypothesis cap_pos : 1 <= cap.

  Lemma shares_zero : shares (fun _ => zero_share) (0 : R).
  Proof. split; [intros i; reflexivity|]. unfold additive. cbn. grp. Qed.
  Lemma shares_nth ws (xs : list R) n : shares_vec ws xs ->
    shares (fun i => nth n (ws i) zero_share) (nth n xs 0).
  Proof.
    intros Hw. destruct (nth_error xs n) as [x|] eqn:E.
    - destruct Hw as [Hl Hw]. destruct (Hw n x E) as (a & Ha & Hx).
      rewrite (nth_error_nth _ _ 0 E). eapply shares_ext; [|exact Hx].
      intros i. cbn beta. symmetry. exact (nth_error_nth _ _ _ (Ha i)).
    - apply nth_error_None in E. rewrite nth_overflow by exact E. eapply shares_ext; [|exact shares_zero].
      intros i. cbn beta. rewrite nth_overflow; [reflexivity|]. rewrite (proj1 Hw). exact E.
  Qed.
  Lemma shares_single ws (x : R) : shares ws x -> shares_vec (fun i => [ws i]) [x].
  Proof. intros Hw. refine (pvec_cons (t := fun _ => []) (xs := []) ws x (fun i => [ws i]) (fun i => eq_refl) Hw _). apply pvec_nil. reflexivity. Qed.
  Lemma pubmul_ok ws (x c : R) : shares ws x -> shares (fun i => mkShare (bmul (sa (ws i)) c) (bmul (sb (ws i)) c)) (bmul x c).
  Proof.
    intros [Hr Ha]. split.
    - intros i. cbn. rewrite (Hr i). reflexivity.
    - unfold additive in *. cbn. rewrite <- Ha, !bmul_add_l. reflexivity.
  Qed.
  Lemma shares_pick ws (xs : list R) (l : list nat) : shares_vec ws xs ->
    shares_vec (fun i => map (fun n => nth n (ws i) zero_share) l) (map (fun n => nth n xs 0) l).
  Proof.
    intros Hw. induction l as [|n l IH]; [apply pvec_nil; reflexivity|].
    cbn [map]. exact (pvec_cons _ _ _ (fun i => eq_refl) (shares_nth n Hw) IH).
  Qed.

  Lemma gate_wp g (st : pid -> rst S) ws xs : synced st -> shares_vec ws xs ->
    wp cap (fun i => gate_prog (M := M) i g (st i) (ws i))
      (fun r => shares_vec (fun i => fst (r i)) (gval g xs) /\ synced (fun i => snd (r i))).
  Proof.
    intros Hst Hw. destruct g as [n m|n m|n|n c|n c|c|n m|l]; cbn [gate_prog gval].
    - apply wp_ret. cbn [fst snd]. split; [|exact Hst]. apply (@shares_single (fun i => shadd _ _)). apply shadd_ok; apply shares_nth; exact Hw.
    - apply wp_ret. cbn [fst snd]. split; [|exact Hst]. apply (@shares_single (fun i => shsub _ _)). apply shsub_ok; apply shares_nth; exact Hw.
    - apply wp_ret. cbn [fst snd]. split; [|exact Hst]. apply (@shares_single (fun i => shneg _)). apply shneg_ok; apply shares_nth; exact Hw.
    - apply wp_ret. cbn [fst snd]. split; [|exact Hst]. apply (@shares_single (fun i => add_public i _ _)). apply add_public_ok; apply shares_nth; exact Hw.
    - apply wp_ret. cbn [fst snd]. split; [|exact Hst].
      apply (@shares_single (fun i => mkShare (bmul (sa (nth n (ws i) zero_share)) c) (bmul (sb (nth n (ws i) zero_share)) c))).
      apply (pubmul_ok c (shares_nth n Hw)).
    - apply wp_ret. cbn [fst snd]. split; [|exact Hst]. apply (@shares_single (fun i => promote i c)). apply promote_ok.
    - apply wp_bind. eapply wp_mono; [|exact (mul_wp cap_pos Hst (shares_nth n Hw) (shares_nth m Hw))].
      intros r [Hr Hs]. apply wp_ret. cbn [fst snd]. split; [|exact Hs]. apply (@shares_single (fun i => fst (r i))). exact Hr.
    - pose proof (shares_pick (map fst l) Hw) as H1. pose proof (shares_pick (map snd l) Hw) as H2.
      eapply wp_mono; [|eapply wp_ext; [|exact (mul_vec_wp cap_pos Hst H1 H2)]].
      + intros r [Hr Hs]. split; [|exact Hs]. clear - Hr.
        replace (map (fun p => bmul (nth (fst p) xs 0) (nth (snd p) xs 0)) l)
          with (map2 bmul (map (fun n => nth n xs 0) (map fst l)) (map (fun n => nth n xs 0) (map snd l))); [exact Hr|].
        clear. induction l as [|p l IH]; [reflexivity|]. cbn. rewrite IH. reflexivity.
      + intros i. cbn beta. rewrite !map_map. reflexivity.
  Qed.
  Lemma circ_wp C : forall (st : pid -> rst S) ws xs, synced st -> shares_vec ws xs ->
    wp cap (fun i => circ (M := M) i C (st i) (ws i))
      (fun r => shares_vec (fun i => fst (r i)) (cval C xs) /\ synced (fun i => snd (r i))).
  Proof.
    induction C as [|g C IH]; intros st ws xs Hst Hw; cbn [circ cval].
    - apply wp_ret. split; assumption.
    - apply wp_bind. eapply wp_mono; [|exact (gate_wp g Hst Hw)]. intros r [Hr Hs]. cbn beta.
      apply IH; [exact Hs|]. apply (pvec_app Hw Hr).
  Qed.
  Lemma circ_ok C (st : pid -> rst S) ws xs : synced st -> shares_vec ws xs ->
    all_ok cap (fun i => circ (M := M) i C (st i) (ws i)) (fun r => shares_vec (fun i => fst (r i)) (cval C xs)).
  Proof. intros Hs Hw. apply wp_all_ok. eapply wp_mono; [|exact (circ_wp C Hs Hw)]. intros r Hr. exact (proj1 Hr). Qed.
End Correct.

(** ** The joint run as a function: what every party holds and receives *)
Section Joint.
  Context {R : Type} {AG : AbGrp R} {BL : Bilin R R R}.
  Context {M : Type} {ER : Enc M (list R)} (cap : nat).
  Hypothesis cap_pos : 1 <= cap.

  Notation St := (rst (tape R)).
  Lemma wp_spy_exchange {A} (ms : pid -> M) (k : pid -> M -> prog pid M A) Q :
    wp cap (fun i => spy (k i (ms (prev i)))) (fun r => Q (fun i => (fst (r i), ms (prev i) :: snd (r i)))) ->
    wp cap (fun i => spy (Send (next i) (ms i) (Recv (prev i) (k i)))) Q.
  Proof.
    intros HQ.
    apply wp_ext with (qs := fun i => bind (Send (next i) (ms i) (Recv (prev i) (fun m : M => Ret m)))
      (fun m => r <- spy (k i m) ;; Ret (fst r, m :: snd r))).
    { intros i. reflexivity. }
    apply wp_bind. exists (fun i => ms (prev i)). split.
    { apply runs_comp3. cbn [next prev]. repeat step3 cap_pos. apply comp3_ret_eq; reflexivity. }
    apply wp_bind. eapply wp_mono; [|exact HQ]. intros r Hr. cbn beta. apply wp_ret. exact Hr.
  Qed.

  (** Messages and new wires of one gate, for all parties. *)
  Definition gl (g : gate R) : list (nat * nat) := match g with GMul n m => [(n, m)] | GMuls l => l | _ => [] end.
  Definition gz (g : gate R) (st : pid -> St) (w : pid -> list (share R)) (j : pid) : list R :=
    fst (lmul_vec (st j) (map (fun p => nth (fst p) (w j) zero_share) (gl g)) (map (fun p => nth (snd p) (w j) zero_share) (gl g))).
  Definition gst (g : gate R) (st : pid -> St) (w : pid -> list (share R)) (j : pid) : St :=
    snd (lmul_vec (st j) (map (fun p => nth (fst p) (w j) zero_share) (gl g)) (map (fun p => nth (snd p) (w j) zero_share) (gl g))).
  Definition gout (g : gate R) (st : pid -> St) (w : pid -> list (share R)) (j : pid) : list (share R) :=
    let x n := nth n (w j) zero_share in
    match g with
    | GAdd n m => [shadd (x n) (x m)]
    | GSub n m => [shsub (x n) (x m)]
    | GNeg n => [shneg (x n)]
    | GAddPub n c => [add_public j (x n) c]
    | GMulPub n c => [mkShare (bmul (sa (x n)) c) (bmul (sb (x n)) c)]
    | GConst c => [promote j c]
    | _ => map2 mkShare (gz g st w j) (gz g st w (prev j))
    end.
  Definition gmsg (g : gate R) (st : pid -> St) (w : pid -> list (share R)) (j : pid) : list M :=
    match g with GMul _ _ | GMuls _ => [enc (gz g st w (prev j))] | _ => [] end.
  Fixpoint jrun (C : list (gate R)) (st : pid -> St) (w : pid -> list (share R)) (j : pid)
    : (list (share R) * St) * list M :=
    match C with
    | [] => ((w j, st j), [])
    | g :: C => let r := jrun C (gst g st w) (fun j => w j ++ gout g st w j) j in
                (fst r, gmsg g st w j ++ snd r)
    end.

  Lemma lmul_vec_length (st : St) : forall xs ys : list (share R), length xs = length ys ->
    length (fst (lmul_vec st xs ys)) = length xs.
  Proof.
    intros xs; revert st. induction xs as [|x xs IH]; intros st [|y ys] E; cbn in *; try lia.
    rewrite IH by lia. reflexivity.
  Qed.
  Lemma gz_length g st w j : length (gz g st w j) = gmuls g.
  Proof.
    unfold gz. rewrite lmul_vec_length; rewrite !map_length; [destruct g|]; reflexivity.
  Qed.
  Lemma jrun_ext C : forall st st' w w' j, (forall k, st k = st' k) -> (forall k, w k = w' k) -> jrun C st w j = jrun C st' w' j.
  Proof.
    induction C as [|g C IH]; intros st st' w w' j Es Ew; cbn [jrun].
    - rewrite Es, Ew. reflexivity.
    - assert (Ez : forall k, gz g st w k = gz g st' w' k) by (intros k; unfold gz; rewrite Es, Ew; reflexivity).
      assert (Eo : forall k, gout g st w k = gout g st' w' k) by (intros k; unfold gout; rewrite !Ez, Ew; reflexivity).
      rewrite (IH (gst g st w) (gst g st' w') _ (fun j => w' j ++ gout g st' w' j) j).
      + unfold gmsg. rewrite Ez. reflexivity.
      + intros k. unfold gst. rewrite Es, Ew. reflexivity.
      + intros k. rewrite Ew, Eo. reflexivity.
  Qed.

  Lemma runs_out_ext {A} (ps : pid -> prog pid M A) o o' : (forall i, o i = o' i) ->
    runs all3 cap ps o -> runs all3 cap ps o'.
  Proof.
    intros E (n & c & Hs & Hf & Hc). exists n, c. split; [exact Hs|]. split; [|exact Hc].
    intros i Hi. rewrite <- E. apply Hf. exact Hi.
  Qed.
  Arguments runs_out_ext {A ps o o'} _ _.
  Lemma runs_spy_exchange {A} (ms : pid -> M) (k : pid -> M -> prog pid M A) (v : pid -> A * list M) :
    runs all3 cap (fun i => spy (k i (ms (prev i)))) (fun i => Done (v i)) ->
    runs all3 cap (fun i => spy (Send (next i) (ms i) (Recv (prev i) (k i))))
      (fun i => Done (fst (v i), ms (prev i) :: snd (v i))).
  Proof.
    intros Hv.
    destruct (wp_spy_exchange ms k (fun r => forall i, r i = (fst (v i), ms (prev i) :: snd (v i)))) as (a & Hr & Ea).
    { exists v. split; [exact Hv|]. reflexivity. }
    refine (runs_out_ext _ Hr). intros i. rewrite Ea. reflexivity.
  Qed.

  (** The programs do what [jrun] says, and [k] runs on the resulting wires and states. *)
  Lemma circ_joint {A} (k : pid -> list (share R) * St -> prog pid M A) C : forall st w (v : pid -> A * list M),
    runs all3 cap (fun j => spy (k j (fst (jrun C st w j)))) (fun j => Done (v j)) ->
    runs all3 cap (fun j => spy (bind (circ j C (st j) (w j)) (k j)))
      (fun j => Done (fst (v j), snd (jrun C st w j) ++ snd (v j))).
  Proof.
    induction C as [|g C IH]; intros st w v Hv.
    - refine (runs_out_ext _ Hv). intros i. cbn. destruct (v i); reflexivity.
    - cbn [jrun fst] in Hv. specialize (IH _ _ _ Hv).
      destruct g as [n m|n m|n|n c|n c|c|n m|l].
      1-6: cbn [jrun gmsg snd app]; eapply runs_ext; [|exact IH]; intros i; reflexivity.
      + refine (runs_out_ext _ (runs_spy_exchange (fun j => enc (gz (GMul n m) st w j))
          (fun i msg => bind (bind (bind (bind (bind (match dec msg with Some l => Ret l | None => Fail (Eyre "deserialize") end)
               (fun res => match res with [y] => Ret y | _ => Fail (Eyre "Expected 1 element, got more") end))
               (fun c => Ret (mkShare (lmul (nth n (w i) zero_share) (nth m (w i) zero_share) + fst (masking (st i))) c, snd (masking (st i)))))
               (fun r => Ret ([fst r], snd r))) (fun r => circ i C (snd r) (w i ++ fst r))) (k i)) _ _)).
        2: { eapply runs_ext; [|exact IH]. intros i. cbv beta. rewrite dec_enc. reflexivity. }
        intros i. reflexivity.
      + refine (runs_out_ext _ (runs_spy_exchange (fun j => enc (gz (GMuls l) st w j))
          (fun i msg => bind (bind (bind (bind (match dec msg with Some l => Ret l | None => Fail (Eyre "deserialize") end)
               (fun c => if Nat.eqb (length c) (length (gz (GMuls l) st w i)) then Ret (map2 mkShare (gz (GMuls l) st w i) c)
                         else Fail (Eyre "During execution of mul_vec in MPC: Invalid number of elements received")))
               (fun r => Ret (r, gst (GMuls l) st w i))) (fun r => circ i C (snd r) (w i ++ fst r))) (k i)) _ _)).
        2: { eapply runs_ext; [|exact IH]. intros i. cbv beta. rewrite dec_enc. cbn [bind]. rewrite !gz_length, Nat.eqb_refl. reflexivity. }
        intros i. reflexivity.
  Qed.

  (** ** Tapes: party [i] knows its two tapes; [u] is the third one. *)
  Definition joint (i : pid) (u : tape R) (st : pid -> St) (j : pid) : St :=
    if pid_eq j i then st j
    else if pid_eq j (next i) then mkRst u (rng1 (st i)) (bc1 (st j)) (bc2 (st j))
    else mkRst (rng2 (st i)) u (bc1 (st j)) (bc2 (st j)).

  (** ** Facts about local products on tapes *)
  Definition agree (n : nat) (l l' : list R) : Prop := forall k, k < n -> nth k l 0 = nth k l' 0.
  Lemma agree_S n l l' : agree (Datatypes.S n) l l' -> hd 0 l = hd 0 l' /\ agree n (tl l) (tl l').
  Proof.
    intros Ha. split.
    - specialize (Ha O ltac:(lia)). destruct l, l'; exact Ha.
    - intros k Hk. specialize (Ha (Datatypes.S k) ltac:(lia)).
      destruct l, l'; cbn in Ha |- *; destruct k; exact Ha.
  Qed.
  Lemma agree_app (h t t' : list R) : agree (length h) (h ++ t) (h ++ t').
  Proof. intros k Hk. rewrite !app_nth1 by exact Hk. reflexivity. Qed.
  Lemma lmul_vec_st (st : St) : forall xs ys : list (share R), length xs = length ys ->
    snd (lmul_vec st xs ys) = mkRst (skipn (length xs) (rng1 st)) (skipn (length xs) (rng2 st)) (bc1 st) (bc2 st).
  Proof.
    intros xs; revert st. induction xs as [|x xs IH]; intros st [|y ys] E; cbn [length] in E; try lia.
    - destruct st; reflexivity.
    - cbn [lmul_vec length]. cbn [snd]. rewrite IH by lia. cbn [masking random_pair snd set_rand rng1 rng2 bc1 bc2 draw tape_draw].
      f_equal; [destruct (rng1 st)|destruct (rng2 st)]; try reflexivity; cbn; apply skipn_nil.
  Qed.
  Lemma lmul_vec_agree xs : forall (ys : list (share R)) (st st' : St), length xs = length ys ->
    agree (length xs) (rng1 st) (rng1 st') -> agree (length xs) (rng2 st) (rng2 st') ->
    fst (lmul_vec st xs ys) = fst (lmul_vec st' xs ys).
  Proof.
    induction xs as [|x xs IH]; intros [|y ys] st st' E A1 A2; cbn [length] in E; try lia; [reflexivity|].
    apply agree_S in A1. apply agree_S in A2. destruct A1 as [E1 A1], A2 as [E2 A2].
    cbn [lmul_vec fst]. rewrite (IH ys (snd (masking st)) (snd (masking st'))); [|lia|exact A1|exact A2].
    f_equal. unfold masking, random_pair. cbn [fst snd draw tape_draw]. rewrite E1, E2. reflexivity.
  Qed.
  (** One tape compensates a change of the operands. *)
  Lemma lmul_vec_shift xs : forall (ys xs' ys' : list (share R)) (st : St) h t,
    length ys = length xs -> length xs' = length xs -> length ys' = length xs -> length h = length xs -> rng2 st = h ++ t ->
    exists h', length h' = length xs /\
      forall st' t', rng1 st' = rng1 st -> rng2 st' = h' ++ t' -> fst (lmul_vec st' xs' ys') = fst (lmul_vec st xs ys).
  Proof.
    induction xs as [|x xs IH]; intros [|y ys] [|x' xs'] [|y' ys'] st [|u h] t E1 E2 E3 E4 Et; cbn [length] in *; try lia.
    - exists []. split; reflexivity.
    - destruct (IH ys xs' ys' (snd (masking st)) h t) as (h' & Hl & Hh); try lia.
      { cbn [masking random_pair snd set_rand rng2 draw tape_draw]. rewrite Et. reflexivity. }
      exists ((lmul x' y' - lmul x y + u) :: h'). split; [cbn; lia|].
      intros st' t' Er1 Er2. cbn [lmul_vec fst].
      rewrite (Hh (snd (masking st')) t').
      + f_equal. unfold masking, random_pair. cbn [fst snd draw tape_draw]. rewrite Er1, Er2, Et. cbn [app hd]. grp.
      + cbn [masking random_pair snd set_rand rng1 draw tape_draw]. rewrite Er1. reflexivity.
      + cbn [masking random_pair snd set_rand rng2 draw tape_draw]. rewrite Er2. reflexivity.
  Qed.
  Lemma lmul_vec_inj xs : forall (ys : list (share R)) (st st' : St) h h' t t',
    length ys = length xs -> length h = length xs -> length h' = length xs -> rng1 st' = rng1 st ->
    rng2 st = h ++ t -> rng2 st' = h' ++ t' ->
    fst (lmul_vec st' xs ys) = fst (lmul_vec st xs ys) -> h' = h.
  Proof.
    induction xs as [|x xs IH]; intros [|y ys] st st' [|u h] [|u' h'] t t' E1 E2 E3 Er Et Et' Ez; cbn [length] in *; try lia; [reflexivity|].
    cbn [lmul_vec fst] in Ez. injection Ez as Ez1 Ez2. f_equal.
    - unfold masking, random_pair in Ez1. cbn [fst snd draw tape_draw] in Ez1. rewrite Er, Et, Et' in Ez1. cbn [app hd] in Ez1.
      apply gcancel_l in Ez1. apply gcancel_l in Ez1. rewrite <- (gneg_neg u'), Ez1, gneg_neg. reflexivity.
    - refine (IH ys (snd (masking st)) (snd (masking st')) h h' t t' _ _ _ _ _ _ Ez2); try lia;
        cbn [masking random_pair snd set_rand rng1 rng2 draw tape_draw]; rewrite ?Er, ?Et, ?Et'; reflexivity.
  Qed.

  (** ** One gate *)
  Variable i : pid.
  Lemma gl_length g : length (gl g) = gmuls g.
  Proof. destruct g; reflexivity. Qed.
  Lemma joint_i u st : joint i u st i = st i.
  Proof. unfold joint. destruct (pid_eq i i); [reflexivity|congruence]. Qed.
  Lemma joint_rng1 u u' st j n : agree n u u' -> agree n (rng1 (joint i u st j)) (rng1 (joint i u' st j)).
  Proof. intros A. unfold joint. destruct (pid_eq j i); [intros k _; reflexivity|]. destruct (pid_eq j (next i)); [exact A|intros k _; reflexivity]. Qed.
  Lemma joint_rng2 u u' st j n : agree n u u' -> agree n (rng2 (joint i u st j)) (rng2 (joint i u' st j)).
  Proof. intros A. unfold joint. destruct (pid_eq j i); [intros k _; reflexivity|]. destruct (pid_eq j (next i)); [intros k _; reflexivity|exact A]. Qed.
  Lemma joint_prev u st : joint i u st (prev i) = mkRst (rng2 (st i)) u (bc1 (st (prev i))) (bc2 (st (prev i))).
  Proof. unfold joint. destruct i; reflexivity. Qed.
  Lemma gz_head g h t t' st w j : length h = gmuls g -> gz g (joint i (h ++ t) st) w j = gz g (joint i (h ++ t') st) w j.
  Proof.
    intros El. unfold gz. apply lmul_vec_agree; rewrite !map_length; [reflexivity| |]; rewrite gl_length, <- El.
    - apply joint_rng1, agree_app.
    - apply joint_rng2, agree_app.
  Qed.
  Lemma gst_joint g h t st w j : length h = gmuls g ->
    gst g (joint i (h ++ t) st) w j = joint i t (gst g (joint i (h ++ t) st) w) j.
  Proof.
    intros El. unfold gst at 1. unfold joint at 2.
    assert (X : forall j, gst g (joint i (h ++ t) st) w j =
       mkRst (skipn (gmuls g) (rng1 (joint i (h ++ t) st j))) (skipn (gmuls g) (rng2 (joint i (h ++ t) st j)))
             (bc1 (joint i (h ++ t) st j)) (bc2 (joint i (h ++ t) st j))).
    { intros k. unfold gst. rewrite lmul_vec_st; rewrite !map_length; [|reflexivity]. rewrite gl_length. reflexivity. }
    change (snd (lmul_vec (joint i (h ++ t) st j) (map (fun p => nth (fst p) (w j) zero_share) (gl g))
     (map (fun p => nth (snd p) (w j) zero_share) (gl g)))) with (gst g (joint i (h ++ t) st) w j).
    destruct (pid_eq j i) as [->|N1]; [reflexivity|].
    assert (Es : skipn (gmuls g) (h ++ t) = t) by (rewrite <- El, skipn_app, skipn_all, Nat.sub_diag; reflexivity).
    destruct (pid_eq j (next i)) as [->|N2].
    - rewrite !X, joint_i. unfold joint. destruct (pid_eq (next i) i); [destruct i; discriminate|].
      destruct (pid_eq (next i) (next i)); [|congruence]. cbn [rng1 rng2 bc1 bc2]. rewrite Es. reflexivity.
    - rewrite !X, joint_i. unfold joint. destruct (pid_eq j i); [congruence|].
      destruct (pid_eq j (next i)); [congruence|]. cbn [rng1 rng2 bc1 bc2]. rewrite Es. reflexivity.
  Qed.

  Lemma jrun_exists C : forall st st' w w' u, st i = st' i -> w i = w' i -> length u = muls C ->
    exists u', length u' = muls C /\ jrun C (joint i u st) w i = jrun C (joint i u' st') w' i.
  Proof.
    induction C as [|g C IH]; intros st st' w w' u Est Ew El; cbn [muls] in El.
    - exists []. split; [reflexivity|]. cbn [jrun]. rewrite !joint_i, Est, Ew. reflexivity.
    - set (h := firstn (gmuls g) u). set (t := skipn (gmuls g) u).
      assert (Eu : u = h ++ t) by (symmetry; apply firstn_skipn).
      assert (Eh : length h = gmuls g) by (apply firstn_length_le; lia).
      assert (Et : length t = muls C) by (unfold t; rewrite skipn_length; lia).
      rewrite Eu. clearbody h t. clear u El Eu.
      destruct (@lmul_vec_shift (map (fun p => nth (fst p) (w (prev i)) zero_share) (gl g)) (map (fun p => nth (snd p) (w (prev i)) zero_share) (gl g))
         (map (fun p => nth (fst p) (w' (prev i)) zero_share) (gl g)) (map (fun p => nth (snd p) (w' (prev i)) zero_share) (gl g))
         (joint i (h ++ t) st (prev i)) h t) as (h' & Eh' & Hh); rewrite ?map_length, ?gl_length in *; try lia.
      { rewrite joint_prev. reflexivity. }
      assert (Ep : forall t', gz g (joint i (h' ++ t') st') w' (prev i) = gz g (joint i (h ++ t) st) w (prev i)).
      { intros t'. unfold gz. apply (Hh _ t'); rewrite !joint_prev; cbn [rng1 rng2]; rewrite ?Est; reflexivity. }
      assert (Ei : forall t', gz g (joint i (h' ++ t') st') w' i = gz g (joint i (h ++ t) st) w i).
      { intros t'. unfold gz. rewrite !joint_i, Est, Ew. reflexivity. }
      assert (Eo : forall t', gout g (joint i (h' ++ t') st') w' i = gout g (joint i (h ++ t) st) w i).
      { intros t'. unfold gout. rewrite Ep, Ei, Ew. reflexivity. }
      assert (Esi : forall t', gst g (joint i (h' ++ t') st') w' i = gst g (joint i (h ++ t) st) w i).
      { intros t'. unfold gst. rewrite !joint_i, Est, Ew. reflexivity. }
      destruct (IH (gst g (joint i (h ++ t) st) w) (gst g (joint i (h' ++ []) st') w')
                   (fun j => w j ++ gout g (joint i (h ++ t) st) w j) (fun j => w' j ++ gout g (joint i (h' ++ []) st') w' j) t)
        as (t' & Et' & E); [symmetry; apply Esi|rewrite Ew, Eo; reflexivity|exact Et|].
      exists (h' ++ t'). split; [cbn [muls]; rewrite app_length; lia|].
      cbn [jrun].
      rewrite (@jrun_ext C (gst g (joint i (h ++ t) st) w) (joint i t (gst g (joint i (h ++ t) st) w)) _ (fun j => w j ++ gout g (joint i (h ++ t) st) w j) i);
        [|intros k; apply gst_joint; exact Eh|reflexivity].
      rewrite E.
      rewrite (@jrun_ext C (joint i t' (gst g (joint i (h' ++ []) st') w')) (gst g (joint i (h' ++ t') st') w')
         (fun j => w' j ++ gout g (joint i (h' ++ []) st') w' j) (fun j => w' j ++ gout g (joint i (h' ++ t') st') w' j) i).
      + unfold gmsg. rewrite Ep. reflexivity.
      + intros k. rewrite (@gst_joint g h' t') by exact Eh'.
        assert (Q : forall k, rng1 (gst g (joint i (h' ++ []) st') w' i) = rng1 (gst g (joint i (h' ++ t') st') w' i) /\
                    rng2 (gst g (joint i (h' ++ []) st') w' i) = rng2 (gst g (joint i (h' ++ t') st') w' i) /\
                    bc1 (gst g (joint i (h' ++ []) st') w' k) = bc1 (gst g (joint i (h' ++ t') st') w' k) /\
                    bc2 (gst g (joint i (h' ++ []) st') w' k) = bc2 (gst g (joint i (h' ++ t') st') w' k)).
        { intros k0. rewrite !Esi. repeat split; unfold gst; rewrite !lmul_vec_st by (rewrite !map_length; reflexivity); cbn [bc1 bc2];
          unfold joint; destruct (pid_eq k0 i); try reflexivity; destruct (pid_eq k0 (next i)); reflexivity. }
        destruct (Q k) as (Q1 & Q2 & Q3 & Q4).
        unfold joint at 1 3. destruct (pid_eq k i) as [->|]; [rewrite !Esi; reflexivity|].
        rewrite Q1, Q2, Q3, Q4. reflexivity.
      + intros k. f_equal. unfold gout. rewrite !(@gz_head g h' [] t') by exact Eh'. reflexivity.
  Qed.

  Lemma jrun_inj C : forall st w u u', length u = muls C -> length u' = muls C ->
    jrun C (joint i u' st) w i = jrun C (joint i u st) w i -> u' = u.
  Proof.
    induction C as [|g C IH]; intros st w u u' El El' E; cbn [muls] in El, El'.
    - destruct u, u'; try discriminate. reflexivity.
    - set (h := firstn (gmuls g) u) in *. set (t := skipn (gmuls g) u) in *.
      set (h' := firstn (gmuls g) u') in *. set (t' := skipn (gmuls g) u') in *.
      assert (Eu : u = h ++ t) by (symmetry; apply firstn_skipn).
      assert (Eu' : u' = h' ++ t') by (symmetry; apply firstn_skipn).
      assert (Eh : length h = gmuls g) by (apply firstn_length_le; lia).
      assert (Eh' : length h' = gmuls g) by (apply firstn_length_le; lia).
      assert (Et : length t = muls C) by (unfold t; rewrite skipn_length; lia).
      assert (Et' : length t' = muls C) by (unfold t'; rewrite skipn_length; lia).
      rewrite Eu, Eu' in *. clearbody h t h' t'. clear u u' El El' Eu Eu'.
      cbn [jrun] in E. apply (f_equal fst) in E as E1. apply (f_equal snd) in E as E2. cbn [fst snd] in E1, E2. clear E.
      assert (Em : gmsg g (joint i (h' ++ t') st) w i = gmsg g (joint i (h ++ t) st) w i /\
                   snd (jrun C (gst g (joint i (h' ++ t') st) w) (fun j => w j ++ gout g (joint i (h' ++ t') st) w j) i) =
                   snd (jrun C (gst g (joint i (h ++ t) st) w) (fun j => w j ++ gout g (joint i (h ++ t) st) w j) i)).
      { destruct g; cbn [gmsg app] in E2 |- *; try (split; [reflexivity|exact E2]);
        (injection E2 as E2a E2b; split; [rewrite E2a; reflexivity|exact E2b]). }
      destruct Em as [Em Er].
      assert (Ehh : h' = h).
      { assert (Ez : gz g (joint i (h' ++ t') st) w (prev i) = gz g (joint i (h ++ t) st) w (prev i)).
        { destruct g; try reflexivity; cbn [gmsg] in Em; injection Em as Em; apply (f_equal (dec (X := list R))) in Em; rewrite !dec_enc in Em; congruence. }
        unfold gz in Ez.
        refine (@lmul_vec_inj _ _ (joint i (h ++ t) st (prev i)) (joint i (h' ++ t') st (prev i)) h h' t t' _ _ _ _ _ _ Ez);
          rewrite ?map_length, ?gl_length; try assumption; try reflexivity; rewrite !joint_prev; reflexivity. }
      subst h'. f_equal.
      refine (IH (gst g (joint i (h ++ t) st) w) (fun j => w j ++ gout g (joint i (h ++ t) st) w j) t t' Et Et' _).
      transitivity (jrun C (gst g (joint i (h ++ t) st) w) (fun j => w j ++ gout g (joint i (h ++ t) st) w j) i).
      2: { apply jrun_ext; [intros k; apply gst_joint; exact Eh|reflexivity]. }
      transitivity (jrun C (gst g (joint i (h ++ t') st) w) (fun j => w j ++ gout g (joint i (h ++ t') st) w j) i).
      2: { apply injective_projections; [exact E1|exact Er]. }
      apply jrun_ext.
      + intros k. rewrite (@gst_joint g h t') by exact Eh.
        assert (Q : forall k, rng1 (gst g (joint i (h ++ t) st) w i) = rng1 (gst g (joint i (h ++ t') st) w i) /\
                    rng2 (gst g (joint i (h ++ t) st) w i) = rng2 (gst g (joint i (h ++ t') st) w i) /\
                    bc1 (gst g (joint i (h ++ t) st) w k) = bc1 (gst g (joint i (h ++ t') st) w k) /\
                    bc2 (gst g (joint i (h ++ t) st) w k) = bc2 (gst g (joint i (h ++ t') st) w k)).
        { intros k0. unfold gst. rewrite !joint_i. repeat split; rewrite !lmul_vec_st by (rewrite !map_length; reflexivity); cbn [bc1 bc2];
          unfold joint; destruct (pid_eq k0 i); try reflexivity; destruct (pid_eq k0 (next i)); reflexivity. }
        destruct (Q k) as (Q1 & Q2 & Q3 & Q4).
        unfold joint at 1 3. destruct (pid_eq k i) as [->|]; [unfold gst; rewrite !joint_i; reflexivity|].
        rewrite Q1, Q2, Q3, Q4. reflexivity.
      + intros k. f_equal. unfold gout. rewrite !(@gz_head g h t t') by exact Eh. reflexivity.
  Qed.

  (** ** Correctness of the joint run *)
  Lemma gout_ok g (st : pid -> St) w xs : synced st -> shares_vec w xs ->
    shares_vec (gout g st w) (gval g xs) /\ synced (gst g st w).
  Proof.
    intros Hst Hw.
    pose proof (shares_pick (map fst (gl g)) Hw) as Y1. pose proof (shares_pick (map snd (gl g)) Hw) as Y2.
    destruct (lmul_vec_ok Hst Y1 Y2) as [Hz Hs].
    assert (Hz' : additive_vec (gz g st w) (map2 bmul (map (fun n => nth n xs 0) (map fst (gl g))) (map (fun n => nth n xs 0) (map snd (gl g))))).
    { eapply pvec_ext; [|exact Hz]. intros j. unfold gz. rewrite !map_map. reflexivity. }
    split.
    2: { eapply synced_ext; [|exact Hs]. intros j. unfold gst. rewrite !map_map. reflexivity. }
    assert (Hm : shares_vec (fun j => map2 mkShare (gz g st w j) (gz g st w (prev j)))
       (map2 bmul (map (fun n => nth n xs 0) (map fst (gl g))) (map (fun n => nth n xs 0) (map snd (gl g))))).
    { apply additive_vec_reshared. exact Hz'. }
    destruct g as [n m|n m|n|n c|n c|c|n m|l]; cbn [gval gout].
    - apply (@shares_single _ _ (fun i => shadd _ _)). apply shadd_ok; apply shares_nth; exact Hw.
    - apply (@shares_single _ _ (fun i => shsub _ _)). apply shsub_ok; apply shares_nth; exact Hw.
    - apply (@shares_single _ _ (fun i => shneg _)). apply shneg_ok; apply shares_nth; exact Hw.
    - apply (@shares_single _ _ (fun i => add_public i _ _)). apply add_public_ok; apply shares_nth; exact Hw.
    - apply (@shares_single _ _ (fun i => mkShare (bmul (sa (nth n (w i) zero_share)) c) (bmul (sb (nth n (w i) zero_share)) c))).
      apply (pubmul_ok c (shares_nth n Hw)).
    - apply (@shares_single _ _ (fun i => promote i c)). apply promote_ok.
    - exact Hm.
    - replace (map (fun p => bmul (nth (fst p) xs 0) (nth (snd p) xs 0)) l)
        with (map2 bmul (map (fun n => nth n xs 0) (map fst l)) (map (fun n => nth n xs 0) (map snd l))); [exact Hm|].
      clear. induction l as [|p l IH]; [reflexivity|]. cbn. rewrite IH. reflexivity.
  Qed.
  Lemma jrun_ok C : forall st w xs, synced st -> shares_vec w xs -> shares_vec (fun j => fst (fst (jrun C st w j))) (cval C xs).
  Proof.
    induction C as [|g C IH]; intros st w xs Hst Hw; cbn [jrun cval fst]; [exact Hw|].
    destruct (gout_ok g Hst Hw) as [Ho Hs]. apply IH; [exact Hs|]. exact (pvec_app Hw Ho).
  Qed.
  Lemma synced_joint u st : synced st -> synced (joint i u st).
  Proof.
    intros [S1 S2 S3]. constructor.
    - unfold joint. intros j. destruct i, j; reflexivity.
    - assert (E : forall j, bc1 (joint i u st j) = bc1 (st j)).
      { intros j. unfold joint. destruct (pid_eq j i); [reflexivity|]. destruct (pid_eq j (next i)); reflexivity. }
      rewrite !E. exact S2.
    - assert (E : forall j, bc2 (joint i u st j) = bc2 (st j)).
      { intros j. unfold joint. destruct (pid_eq j i); [reflexivity|]. destruct (pid_eq j (next i)); reflexivity. }
      rewrite !E. exact S3.
  Qed.
  Lemma missing_share (s s' : pid -> share R) x : shares s x -> shares s' x -> s i = s' i -> sb (s (prev i)) = sb (s' (prev i)).
  Proof.
    intros [Hr Ha] [Hr' Ha'] E. rewrite (Hr (prev i)), (Hr' (prev i)).
    pose proof (Hr i) as B. pose proof (Hr' i) as B'. rewrite E in B. rewrite B' in B.
    assert (A : sa (s i) = sa (s' i)) by (rewrite E; reflexivity).
    unfold additive in *. rewrite <- Ha' in Ha.
    destruct i; cbn [prev] in *.
    - rewrite A, <- B in Ha. rewrite <- !gadd_assoc in Ha. apply gcancel_l in Ha. rewrite !(gadd_comm _ (sa (s' P2))) in Ha. exact (gcancel_l _ _ _ Ha).
    - rewrite A, <- B in Ha. exact (gcancel_l _ _ _ Ha).
    - rewrite A, <- B in Ha. rewrite !(gadd_comm _ (sa (s' P2))), !(gadd_comm _ (sa (s' P1))) in Ha. apply gcancel_l in Ha. exact (gcancel_l _ _ _ Ha).
  Qed.

  (** ** What party [i] sees *)
  (** Under every schedule, party [i]'s result and received messages are [v]. *)
  Definition sees {A} (ps : pid -> prog pid M A) (v : A * list M) : Prop :=
    all_ok cap (fun j => spy (ps j)) (fun r => r i = v).
  Lemma runs_sees {A} (ps : pid -> prog pid M A) r : runs all3 cap (fun j => spy (ps j)) (fun j => Done (r j)) -> sees ps (r i).
  Proof. intros Hr. unfold sees. apply wp_all_ok. exists r. split; [exact Hr|reflexivity]. Qed.
  Lemma runs_sees_eq {A} (ps : pid -> prog pid M A) r v : runs all3 cap (fun j => spy (ps j)) (fun j => Done (r j)) -> sees ps v -> r i = v.
  Proof.
    intros (n & c & Hst & Hf) (o & m & (a & Ho & Ha) & _ & Hfin).
    destruct (Hfin n c Hst (finished_stuck Hf)) as [F _]. destruct Hf as [F' _].
    specialize (F i I). rewrite (F' i I), Ho in F. cbn in F. congruence.
  Qed.

  Lemma circ_runs C st w : runs all3 cap (fun j => spy (circ j C (st j) (w j))) (fun j => Done (jrun C st w j)).
  Proof.
    (* the continuation that returns at once *)
    assert (X : forall C st w (v : pid -> (list (share R) * St) * list M), (forall j, v j = jrun C st w j) ->
       runs all3 cap (fun j => spy (circ j C (st j) (w j))) (fun j => Done (v j))).
    2: { apply X. reflexivity. }
    clear C st w. induction C as [|g C IH]; intros st w v Hv.
    - eapply runs_ext; [|exact (runs_ret all3 cap (fun j => Done (v j)))]. intros j. cbn. rewrite Hv. reflexivity.
    - pose proof (IH (gst g st w) (fun j => w j ++ gout g st w j) _ (fun j => eq_refl)) as Hr.
      destruct g as [n m|n m|n|n c|n c|c|n m|l].
      1-6: refine (runs_out_ext _ (runs_ext _ _ Hr)); [intros j; rewrite Hv; cbn [jrun gmsg app]; apply f_equal; apply surjective_pairing|intros j; reflexivity].
      + refine (runs_out_ext _ (runs_spy_exchange (fun j => enc (gz (GMul n m) st w j))
          (fun i msg => bind (bind (bind (bind (match dec msg with Some l => Ret l | None => Fail (Eyre "deserialize") end)
               (fun res => match res with [y] => Ret y | _ => Fail (Eyre "Expected 1 element, got more") end))
               (fun c => Ret (mkShare (lmul (nth n (w i) zero_share) (nth m (w i) zero_share) + fst (masking (st i))) c, snd (masking (st i)))))
               (fun r => Ret ([fst r], snd r))) (fun r => circ i C (snd r) (w i ++ fst r))) _ _)).
        2: { eapply runs_ext; [|exact Hr]. intros j. cbv beta. rewrite dec_enc. reflexivity. }
        intros j. rewrite Hv. reflexivity.
      + refine (runs_out_ext _ (runs_spy_exchange (fun j => enc (gz (GMuls l) st w j))
          (fun i msg => bind (bind (bind (match dec msg with Some l => Ret l | None => Fail (Eyre "deserialize") end)
               (fun c => if Nat.eqb (length c) (length (gz (GMuls l) st w i)) then Ret (map2 mkShare (gz (GMuls l) st w i) c)
                         else Fail (Eyre "During execution of mul_vec in MPC: Invalid number of elements received")))
               (fun r => Ret (r, gst (GMuls l) st w i))) (fun r => circ i C (snd r) (w i ++ fst r))) _ _)).
        2: { eapply runs_ext; [|exact Hr]. intros j. cbv beta. rewrite dec_enc. cbn [bind]. rewrite !gz_length, Nat.eqb_refl. reflexivity. }
        intros j. rewrite Hv. reflexivity.
  Qed.
  Definition picked (outs : list nat) (r : list (share R) * St) : list (share R) := map (fun n => nth n (fst r) zero_share) outs.
  Lemma circ_open_runs C outs st w : runs all3 cap (fun j => spy (circ_open j C outs (st j) (w j)))
    (fun j => Done ((map2 gadd (map2 gadd (map sa (picked outs (fst (jrun C st w j)))) (map sb (picked outs (fst (jrun C st w j)))))
                                      (map sb (picked outs (fst (jrun C st w (prev j))))), fst (jrun C st w j)),
                    snd (jrun C st w j) ++ [enc (map sb (picked outs (fst (jrun C st w (prev j)))))])).
  Proof.
    unfold circ_open.
    refine (@circ_joint _ (fun j r => bind (open_vec j (map (fun n => nth n (fst r) zero_share) outs)) (fun o => Ret (o, r))) C st w
      (fun j => ((map2 gadd (map2 gadd (map sa (picked outs (fst (jrun C st w j)))) (map sb (picked outs (fst (jrun C st w j)))))
                                      (map sb (picked outs (fst (jrun C st w (prev j))))), fst (jrun C st w j)),
                    [enc (map sb (picked outs (fst (jrun C st w (prev j)))))])) _).
    refine (runs_out_ext _ (runs_spy_exchange (fun j => enc (map sb (picked outs (fst (jrun C st w j)))))
      (fun j msg => bind (bind (match dec msg with Some l => Ret l | None => Fail (Eyre "deserialize") end)
         (fun c => Ret (map2 gadd (map2 gadd (map sa (picked outs (fst (jrun C st w j)))) (map sb (picked outs (fst (jrun C st w j))))) c)))
         (fun o => Ret (o, fst (jrun C st w j)))) 
      (fun j => ((map2 gadd (map2 gadd (map sa (picked outs (fst (jrun C st w j)))) (map sb (picked outs (fst (jrun C st w j)))))
                                      (map sb (picked outs (fst (jrun C st w (prev j))))), fst (jrun C st w j)), [])) _)).
    - intros j. reflexivity.
    - eapply runs_ext; [|exact (runs_ret all3 cap (fun j => Done _))]. intros j. cbv beta. rewrite dec_enc. reflexivity.
  Qed.

  Theorem circ_view C st (w w' : pid -> list (share R)) u : w i = w' i -> length u = muls C ->
    exists! u', length u' = muls C /\
      exists v, sees (fun j => circ j C (joint i u st j) (w j)) v /\ sees (fun j => circ j C (joint i u' st j) (w' j)) v.
  Proof.
    intros Ew El. destruct (@jrun_exists C st st w w' u eq_refl Ew El) as (u' & El' & E).
    exists u'. split.
    - split; [exact El'|]. exists (jrun C (joint i u st) w i). split; [|rewrite E]; apply (runs_sees _ _ (circ_runs C _ _)).
    - intros u2 (El2 & v & V1 & V2). apply (runs_sees_eq _ (circ_runs C _ _)) in V1. apply (runs_sees_eq _ (circ_runs C _ _)) in V2.
      symmetry. apply (@jrun_inj C st w' u' u2 El' El2). congruence.
  Qed.
  Theorem circ_open_view C outs st (w w' : pid -> list (share R)) xs xs' u : synced st -> w i = w' i -> length u = muls C ->
    shares_vec w xs -> shares_vec w' xs' ->
    map (fun n => nth n (cval C xs) 0) outs = map (fun n => nth n (cval C xs') 0) outs ->
    exists! u', length u' = muls C /\
      exists v, sees (fun j => circ_open j C outs (joint i u st j) (w j)) v /\ sees (fun j => circ_open j C outs (joint i u' st j) (w' j)) v.
  Proof.
    intros Hst Ew El Hw Hw' Eo. destruct (@jrun_exists C st st w w' u eq_refl Ew El) as (u' & El' & E).
    exists u'. split.
    - split; [exact El'|].
      pose proof (@jrun_ok C _ w xs (synced_joint u Hst) Hw) as K. pose proof (@jrun_ok C _ w' xs' (synced_joint u' Hst) Hw') as K'.
      assert (Em : map sb (picked outs (fst (jrun C (joint i u st) w (prev i)))) = map sb (picked outs (fst (jrun C (joint i u' st) w' (prev i))))).
      { unfold picked. rewrite !map_map. clear - Eo K K' E.
        induction outs as [|n outs IH]; [reflexivity|]. cbn [map] in Eo |- *. injection Eo as E0 Eo. f_equal; [|exact (IH Eo)].
        pose proof (shares_nth n K) as Q. pose proof (shares_nth n K') as Q'. rewrite E0 in Q.
        apply (missing_share Q Q'). cbn beta. rewrite E. reflexivity. }
      exists ((map2 gadd (map2 gadd (map sa (picked outs (fst (jrun C (joint i u st) w i)))) (map sb (picked outs (fst (jrun C (joint i u st) w i)))))
                                      (map sb (picked outs (fst (jrun C (joint i u st) w (prev i))))), fst (jrun C (joint i u st) w i)),
                    snd (jrun C (joint i u st) w i) ++ [enc (map sb (picked outs (fst (jrun C (joint i u st) w (prev i)))))]).
      split; [|rewrite Em, E]; apply (runs_sees _ _ (circ_open_runs C outs _ _)).
    - intros u2 (El2 & v & V1 & V2). apply (runs_sees_eq _ (circ_open_runs C outs _ _)) in V1. apply (runs_sees_eq _ (circ_open_runs C outs _ _)) in V2.
      symmetry. apply (@jrun_inj C st w' u' u2 El' El2).
      rewrite <- V1 in V2. clear V1.
      apply (f_equal fst) in V2 as Va. cbn [fst] in Va. apply (f_equal snd) in V2 as Vb. cbn [snd] in Vb.
      apply app_inj_tail in Vb. destruct Vb as [Vb _].
      rewrite <- E. apply injective_projections; [congruence|exact Vb].
  Qed.

  (** A single multiplication: every value of the received message occurs for exactly one value
      of the draw that party [i] does not know. *)
  Theorem mul_message st (x y : pid -> share R) (c : R) :
    exists! r, exists out, sees (fun j => mul j (joint i [r] st j) (x j) (y j)) (out, [enc [c]]).
  Proof.
    set (z := fun r j => lmul (x j) (y j) + fst (masking (joint i [r] st j))).
    assert (Hr : forall r, runs all3 cap (fun j => spy (mul j (joint i [r] st j) (x j) (y j)))
       (fun j => Done ((mkShare (z r j) (z r (prev j)), snd (masking (joint i [r] st j))), [enc [z r (prev j)]]))).
    { intros r. refine (runs_out_ext _ (runs_spy_exchange (fun j => enc [z r j])
        (fun j msg => bind (bind (match dec msg with Some l => Ret l | None => Fail (Eyre "deserialize") end)
           (fun res => match res with [y] => Ret y | _ => Fail (Eyre "Expected 1 element, got more") end))
           (fun c => Ret (mkShare (z r j) c, snd (masking (joint i [r] st j)))))
        (fun j => ((mkShare (z r j) (z r (prev j)), snd (masking (joint i [r] st j))), [])) _)); [reflexivity|].
      eapply runs_ext; [|exact (runs_ret all3 cap (fun j => Done _))]. intros j. cbv beta. rewrite dec_enc. reflexivity. }
    assert (Ez : forall r, z r (prev i) = lmul (x (prev i)) (y (prev i)) + (hd 0 (rng2 (st i)) - r)).
    { intros r. unfold z. rewrite joint_prev. reflexivity. }
    exists (lmul (x (prev i)) (y (prev i)) + hd 0 (rng2 (st i)) - c). split.
    - eexists. replace [enc [c]] with [enc [z (lmul (x (prev i)) (y (prev i)) + hd 0 (rng2 (st i)) - c) (prev i)]].
      + apply (runs_sees _ _ (Hr _)).
      + rewrite Ez. do 3 f_equal. grp.
    - intros r (out & V). apply (runs_sees_eq _ (Hr r)) in V. cbn beta in V. injection V as _ V.
      apply (f_equal (dec (X := list R))) in V. rewrite !dec_enc in V. injection V as V. rewrite Ez in V. rewrite <- V. grp.
  Qed.
End Joint.
