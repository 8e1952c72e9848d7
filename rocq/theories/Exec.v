(** * An executable scheduler for three parties, and protocols that may abort

    Used for concrete runs (Examples) of the protocols: [exec] runs the party with the smallest number
    that can move; whatever it returns is the outcome under every schedule. *)
From Coq Require Import String List Arith Lia Bool.
From Verif Require Import Proc Rep3Net.
Import ListNotations.
Set Implicit Arguments.

Section Exec.
  Context {M : Type} (cap : nat) {A : Type}.
  Notation prog := (prog pid M).
  (** Programs and queues (mpc-net/src/local.rs: one bounded queue for each ordered pair of parties). *)
  Record conf := mkConf { x0 : prog A; x1 : prog A; x2 : prog A;
    y01 : list M; y02 : list M; y10 : list M; y12 : list M; y20 : list M; y21 : list M }.
  Definition comp_of (c : conf) o :=
    comp3 cap (x0 c) (x1 c) (x2 c) (y01 c) (y02 c) (y10 c) (y12 c) (y20 c) (y21 c) o.
  Definition room (q : list M) : bool := (length q <? cap)%nat.
  (** One step of each party, if it can move. *)
  Definition try0 (c : conf) : option conf :=
    let (a, b, d, c01, c02, c10, c12, c20, c21) := c in
    match a with
    | Send P1 m k => if room c01 then Some (mkConf k b d (c01 ++ [m]) c02 c10 c12 c20 c21) else None
    | Send P2 m k => if room c02 then Some (mkConf k b d c01 (c02 ++ [m]) c10 c12 c20 c21) else None
    | Recv P1 k => match c10 with m :: q => Some (mkConf (k m) b d c01 c02 q c12 c20 c21) | [] => None end
    | Recv P2 k => match c20 with m :: q => Some (mkConf (k m) b d c01 c02 c10 c12 q c21) | [] => None end
    | _ => None
    end.
  Definition try1 (c : conf) : option conf :=
    let (a, b, d, c01, c02, c10, c12, c20, c21) := c in
    match b with
    | Send P0 m k => if room c10 then Some (mkConf a k d c01 c02 (c10 ++ [m]) c12 c20 c21) else None
    | Send P2 m k => if room c12 then Some (mkConf a k d c01 c02 c10 (c12 ++ [m]) c20 c21) else None
    | Recv P0 k => match c01 with m :: q => Some (mkConf a (k m) d q c02 c10 c12 c20 c21) | [] => None end
    | Recv P2 k => match c21 with m :: q => Some (mkConf a (k m) d c01 c02 c10 c12 c20 q) | [] => None end
    | _ => None
    end.
  Definition try2 (c : conf) : option conf :=
    let (a, b, d, c01, c02, c10, c12, c20, c21) := c in
    match d with
    | Send P0 m k => if room c20 then Some (mkConf a b k c01 c02 c10 c12 (c20 ++ [m]) c21) else None
    | Send P1 m k => if room c21 then Some (mkConf a b k c01 c02 c10 c12 c20 (c21 ++ [m])) else None
    | Recv P0 k => match c02 with m :: q => Some (mkConf a b (k m) c01 q c10 c12 c20 c21) | [] => None end
    | Recv P1 k => match c12 with m :: q => Some (mkConf a b (k m) c01 c02 c10 q c20 c21) | [] => None end
    | _ => None
    end.
  Definition out (p : prog A) : option (outcome A) :=
    match p with Ret a => Some (Done a) | Fail e => Some (Failed e) | _ => None end.
  Definition ended (c : conf) : option (pid -> outcome A) :=
    match out (x0 c), out (x1 c), out (x2 c), (y01 c ++ y02 c ++ y10 c ++ y12 c ++ y20 c ++ y21 c) with
    | Some a, Some b, Some d, [] => Some (of3 a b d)
    | _, _, _, _ => None
    end.
  Fixpoint go (fuel : nat) (c : conf) : option (pid -> outcome A) :=
    match fuel with
    | O => None
    | Datatypes.S n =>
        match try0 c with
        | Some c' => go n c'
        | None => match try1 c with
                  | Some c' => go n c'
                  | None => match try2 c with Some c' => go n c' | None => ended c end
                  end
        end
    end.
  Definition exec (fuel : nat) (ps : pid -> prog A) : option (pid -> outcome A) :=
    go fuel (mkConf (ps P0) (ps P1) (ps P2) [] [] [] [] [] []).

  Lemma room_lt q : room q = true -> length q < cap.
  Proof. apply Nat.ltb_lt. Qed.
  Lemma try0_ok c c' o : try0 c = Some c' -> comp_of c' o -> comp_of c o.
  Proof.
    destruct c as [a b d c01 c02 c10 c12 c20 c21]. unfold try0, comp_of. destruct a as [|e|[] m k|[] k]; try discriminate.
    - destruct (room c01) eqn:R; [|discriminate]. intros E Hc. injection E as <-. cbn in Hc |- *. apply send01; [exact (@room_lt _ R)|exact Hc].
    - destruct (room c02) eqn:R; [|discriminate]. intros E Hc. injection E as <-. cbn in Hc |- *. apply send02; [exact (@room_lt _ R)|exact Hc].
    - destruct c10; [discriminate|]. intros E Hc. injection E as <-. cbn in Hc |- *. apply recv10. exact Hc.
    - destruct c20; [discriminate|]. intros E Hc. injection E as <-. cbn in Hc |- *. apply recv20. exact Hc.
  Qed.
  Lemma try1_ok c c' o : try1 c = Some c' -> comp_of c' o -> comp_of c o.
  Proof.
    destruct c as [a b d c01 c02 c10 c12 c20 c21]. unfold try1, comp_of. destruct b as [|e|[] m k|[] k]; try discriminate.
    - destruct (room c10) eqn:R; [|discriminate]. intros E Hc. injection E as <-. cbn in Hc |- *. apply send10; [exact (@room_lt _ R)|exact Hc].
    - destruct (room c12) eqn:R; [|discriminate]. intros E Hc. injection E as <-. cbn in Hc |- *. apply send12; [exact (@room_lt _ R)|exact Hc].
    - destruct c01; [discriminate|]. intros E Hc. injection E as <-. cbn in Hc |- *. apply recv01. exact Hc.
    - destruct c21; [discriminate|]. intros E Hc. injection E as <-. cbn in Hc |- *. apply recv21. exact Hc.
  Qed.
  Lemma try2_ok c c' o : try2 c = Some c' -> comp_of c' o -> comp_of c o.
  Proof.
    destruct c as [a b d c01 c02 c10 c12 c20 c21]. unfold try2, comp_of. destruct d as [|e|[] m k|[] k]; try discriminate.
    - destruct (room c20) eqn:R; [|discriminate]. intros E Hc. injection E as <-. cbn in Hc |- *. apply send20; [exact (@room_lt _ R)|exact Hc].
    - destruct (room c21) eqn:R; [|discriminate]. intros E Hc. injection E as <-. cbn in Hc |- *. apply send21; [exact (@room_lt _ R)|exact Hc].
    - destruct c02; [discriminate|]. intros E Hc. injection E as <-. cbn in Hc |- *. apply recv02. exact Hc.
    - destruct c12; [discriminate|]. intros E Hc. injection E as <-. cbn in Hc |- *. apply recv12. exact Hc.
  Qed.
  Lemma out_leaf p a : out p = Some a -> p = leaf a.
  Proof. destruct p; cbn; intros E; try discriminate; injection E as <-; reflexivity. Qed.
  Lemma ended_ok c o : ended c = Some o -> comp_of c o.
  Proof.
    destruct c as [a b d c01 c02 c10 c12 c20 c21]. unfold ended, comp_of. cbn [x0 x1 x2 y01 y02 y10 y12 y20 y21].
    destruct (out a) eqn:Ea; [|discriminate]. destruct (out b) eqn:Eb; [|discriminate]. destruct (out d) eqn:Ed; [|discriminate].
    destruct c01; [|discriminate]. destruct c02; [|discriminate]. destruct c10; [|discriminate].
    destruct c12; [|discriminate]. destruct c20; [|discriminate]. destruct c21; [|discriminate].
    intros E. injection E as <-. rewrite (out_leaf _ Ea), (out_leaf _ Eb), (out_leaf _ Ed). apply (comp3_leaf cap (of3 o0 o1 o2)).
  Qed.
  Lemma go_ok n : forall c o, go n c = Some o -> comp_of c o.
  Proof.
    induction n as [|n IH]; intros c o; cbn [go]; [discriminate|].
    destruct (try0 c) as [c'|] eqn:E0; [intros Hg; exact (try0_ok _ E0 (IH _ _ Hg))|].
    destruct (try1 c) as [c'|] eqn:E1; [intros Hg; exact (try1_ok _ E1 (IH _ _ Hg))|].
    destruct (try2 c) as [c'|] eqn:E2; [intros Hg; exact (try2_ok _ E2 (IH _ _ Hg))|].
    apply ended_ok.
  Qed.
  Lemma exec_runs n ps o : exec n ps = Some o -> runs all3 cap ps o.
  Proof. intros He. apply runs_comp3. exact (go_ok _ _ He). Qed.
  (** A result of [exec] is the outcome under every schedule. *)
  Lemma exec_every n ps o : exec n ps = Some o -> all_end cap ps (fun o' => o' = o).
  Proof. intros He. apply wpo_all_end. exists o. split; [exact (exec_runs _ _ He)|reflexivity]. Qed.
End Exec.

(** ** Protocols that end well or abort together with the same error *)
Section Wpf.
  Context {M : Type} (cap : nat).
  Notation prog := (prog pid M).
  Definition ok_or {A} (e : err) (Q : (pid -> A) -> Prop) (o : pid -> outcome A) : Prop :=
    (forall i, o i = Failed e) \/ exists v, (forall i, o i = Done (v i)) /\ Q v.
  Definition wpf {A} (e : err) (ps : pid -> prog A) (Q : (pid -> A) -> Prop) : Prop :=
    wpo cap ps (ok_or e Q).
  Lemma wpf_wp {A} e (ps : pid -> prog A) Q : wp cap ps Q -> wpf e ps Q.
  Proof. intros Hw. apply wp_wpo. eapply wp_mono; [|exact Hw]. intros a Ha. right. exists a. auto. Qed.
  Lemma wpf_mono {A} e (ps : pid -> prog A) (Q Q' : (pid -> A) -> Prop) : (forall a, Q a -> Q' a) -> wpf e ps Q -> wpf e ps Q'.
  Proof.
    intros HQ. apply wpo_mono. intros o [Ho|(v & Hv & Hq)]; [left; exact Ho|right; exists v; auto].
  Qed.
  Lemma wpf_ext {A} e (ps qs : pid -> prog A) Q : (forall i, ps i = qs i) -> wpf e qs Q -> wpf e ps Q.
  Proof. apply wpo_ext. Qed.
  Lemma wpf_bind {A B} e (ps : pid -> prog A) (ks : pid -> A -> prog B) Q :
    wp cap ps (fun a => wpf e (fun i => ks i (a i)) Q) -> wpf e (fun i => bind (ps i) (ks i)) Q.
  Proof. apply wpo_bind. Qed.
  Lemma wpf_seq {A B} e (ps : pid -> prog A) (ks : pid -> A -> prog B) Q :
    wpf e ps (fun a => wpf e (fun i => ks i (a i)) Q) -> wpf e (fun i => bind (ps i) (ks i)) Q.
  Proof.
    intros Hw. apply wpo_seq. eapply wpo_mono; [|exact Hw]. intros o [Ho|(v & Hv & Hq)].
    - eapply wpo_ext with (qs := fun _ => Fail e); [intros i; rewrite Ho; reflexivity|]. apply wpo_fail. left. reflexivity.
    - eapply wpo_ext; [|exact Hq]. intros i. rewrite Hv. reflexivity.
  Qed.
End Wpf.
