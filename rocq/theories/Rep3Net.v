(** * Three-party network helpers (mpc-core/src/protocols/rep3/network.rs, id.rs) *)
From Coq Require Import String List Arith Lia.
From Verif Require Import Proc.
Import ListNotations.

(** mpc-core/src/protocols/rep3/id.rs:9-16 *)
Inductive pid := P0 | P1 | P2.
(** id.rs:32-38 *)
Definition next (i : pid) : pid := match i with P0 => P1 | P1 => P2 | P2 => P0 end.
(** id.rs:41-47 *)
Definition prev (i : pid) : pid := match i with P0 => P2 | P1 => P0 | P2 => P1 end.
Definition pid_eq (i j : pid) : {i = j} + {i <> j}.
Proof. decide equality. Defined.
Definition all3 : pid -> Prop := fun _ => True.

Lemma next_prev i : next (prev i) = i.  Proof. destruct i; reflexivity. Qed.
Lemma prev_next i : prev (next i) = i.  Proof. destruct i; reflexivity. Qed.

Section Model.
  Context {M : Type}.
  Notation prog := (prog pid M).

  (** network.rs:103-109 [send_many]: one message carrying the serialised vector. *)
  Definition send_many {X} `{Enc M (list X)} (to : pid) (data : list X) : prog unit :=
    Send to (enc data) (Ret tt).
  (** network.rs:97-99 [send_to] *)
  Definition send_to {X} `{Enc M (list X)} (to : pid) (x : X) : prog unit := send_many to [x].
  (** network.rs:152-156 [recv_many]: deserialisation failure is an error. *)
  Definition recv_many {X} `{Enc M (list X)} (from : pid) : prog (list X) :=
    Recv from (fun m => match dec m with
                        | Some l => Ret l
                        | None => Fail (Eyre "deserialize") end).
  (** network.rs:141-148 [recv_from]: exactly one element expected. *)
  Definition recv_from {X} `{Enc M (list X)} (from : pid) : prog X :=
    res <- recv_many from ;;
    match res with
    | [x] => Ret x
    | _ => Fail (Eyre "Expected 1 element, got more")
    end.
  (** network.rs:205-213 [send_and_recv_many] *)
  Definition send_and_recv_many {X} `{Enc M (list X)} (to : pid) (data : list X) (from : pid)
    : prog (list X) :=
    _ <- send_many to data ;; recv_many from.
  (** network.rs:188-201 [send_and_recv] *)
  Definition send_and_recv {X} `{Enc M (list X)} (to : pid) (x : X) (from : pid) : prog X :=
    res <- send_and_recv_many to [x] from ;;
    match res with
    | [y] => Ret y
    | _ => Fail (Eyre "Expected 1 element, got more")
    end.
  (** network.rs:30-36 [reshare_many] *)
  Definition reshare_many {X} `{Enc M (list X)} (i : pid) (data : list X) : prog (list X) :=
    send_and_recv_many (next i) data (prev i).
  (** network.rs:15-26 [reshare] *)
  Definition reshare {X} `{Enc M (list X)} (i : pid) (x : X) : prog X :=
    res <- reshare_many i [x] ;;
    match res with
    | [y] => Ret y
    | _ => Fail (Eyre "Expected 1 element, got more")
    end.
  (** network.rs:83-93 [send_both_many]: previous party first, then next. *)
  Definition send_both_many {X} `{Enc M (list X)} (i : pid) (data : list X) : prog unit :=
    Send (prev i) (enc data) (Send (next i) (enc data) (Ret tt)).
  (** network.rs:57-79 [broadcast_many]: both sends, then receive prev, then next. *)
  Definition broadcast_many {X} `{Enc M (list X)} (i : pid) (data : list X)
    : prog (list X * list X) :=
    _ <- send_both_many i data ;;
    p <- recv_many (prev i) ;;
    n <- recv_many (next i) ;;
    Ret (p, n).
  (** network.rs:40-53 [broadcast] *)
  Definition broadcast {X} `{Enc M (list X)} (i : pid) (x : X) : prog (X * X) :=
    pn <- broadcast_many i [x] ;;
    match pn with
    | ([p], [n]) => Ret (p, n)
    | _ => Fail (Eyre "Expected 1 element, got more")
    end.
  (** network.rs:113-137 *)
  Definition send_next {X} `{Enc M (list X)} (i : pid) (x : X) := send_to (next i) x.
  Definition send_next_many {X} `{Enc M (list X)} (i : pid) (x : list X) := send_many (next i) x.
  Definition send_prev {X} `{Enc M (list X)} (i : pid) (x : X) := send_to (prev i) x.
  Definition send_prev_many {X} `{Enc M (list X)} (i : pid) (x : list X) := send_many (prev i) x.
  (** network.rs:160-184 *)
  Definition recv_next {X} `{Enc M (list X)} (i : pid) : prog X := recv_from (next i).
  Definition recv_next_many {X} `{Enc M (list X)} (i : pid) : prog (list X) := recv_many (next i).
  Definition recv_prev {X} `{Enc M (list X)} (i : pid) : prog X := recv_from (prev i).
  Definition recv_prev_many {X} `{Enc M (list X)} (i : pid) : prog (list X) := recv_many (prev i).
End Model.

(** ** Specification predicate for three-party protocols *)
Section Spec.
  Context {M : Type} (cap : nat).
  (** Under every schedule all three parties finish without error and their
      results satisfy [Q]. *)
  Definition all_ok {A} (ps : pid -> prog pid M A) (Q : (pid -> A) -> Prop) : Prop :=
    every_schedule all3 cap ps (fun o => exists a, (forall i, o i = Done (a i)) /\ Q a).
  (** Same, but with arbitrary outcomes (errors allowed as described by [Q]). *)
  Definition all_end {A} (ps : pid -> prog pid M A) (Q : (pid -> outcome A) -> Prop) : Prop :=
    every_schedule all3 cap ps Q.
End Spec.

(** ** Proof rules *)
Section Rules.
  Context {M : Type} (cap : nat).
  Hypothesis cap_pos : 1 <= cap.
  Notation prog := (prog pid M).
  Notation runs := (@runs pid M all3 cap _).

  Definition wp {A} (ps : pid -> prog A) (Q : (pid -> A) -> Prop) : Prop :=
    exists a, runs ps (fun i => Done (a i)) /\ Q a.
  Definition wpo {A} (ps : pid -> prog A) (Q : (pid -> outcome A) -> Prop) : Prop :=
    exists o, runs ps o /\ Q o.

  Lemma wp_all_ok {A} (ps : pid -> prog A) Q : wp ps Q -> all_ok cap ps Q.
  Proof.
    intros (a & Hr & HQ). eapply runs_every_schedule; [exact pid_eq|exact Hr|]. exists a. auto.
  Qed.
  Lemma wpo_all_end {A} (ps : pid -> prog A) Q : wpo ps Q -> all_end cap ps Q.
  Proof. intros (o & Hr & HQ). eapply runs_every_schedule; [exact pid_eq|exact Hr|]. exact HQ. Qed.

  Lemma wp_wpo {A} (ps : pid -> prog A) Q :
    wp ps (fun a => Q (fun i => Done (a i))) -> wpo ps Q.
  Proof. intros (a & H1 & H2). eexists; eauto. Qed.

  Lemma wp_ret {A} (a : pid -> A) (Q : (pid -> A) -> Prop) : Q a -> wp (fun i => Ret (a i)) Q.
  Proof. intros HQ. exists a. split; [|exact HQ]. exact (runs_ret all3 cap (fun i => Done (a i))). Qed.
  Lemma wpo_fail {A} (e : err) (Q : (pid -> outcome A) -> Prop) :
    Q (fun _ => Failed e) -> wpo (fun i => Fail e) Q.
  Proof.
    intros HQ. exists (fun _ => Failed e). split; [|exact HQ].
    exact (runs_ret all3 cap (fun i => @Failed A e)).
  Qed.
  Lemma wp_mono {A} (ps : pid -> prog A) (Q Q' : (pid -> A) -> Prop) :
    (forall a, Q a -> Q' a) -> wp ps Q -> wp ps Q'.
  Proof. intros H (a & H1 & H2). exists a. auto. Qed.
  Lemma wpo_mono {A} (ps : pid -> prog A) (Q Q' : (pid -> outcome A) -> Prop) :
    (forall a, Q a -> Q' a) -> wpo ps Q -> wpo ps Q'.
  Proof. intros H (a & H1 & H2). exists a. auto. Qed.
  Lemma wp_ext {A} (ps qs : pid -> prog A) Q : (forall i, ps i = qs i) -> wp qs Q -> wp ps Q.
  Proof.
    intros H (a & Hr & HQ). exists a. split; [|exact HQ]. eapply runs_ext; [|exact Hr]. auto.
  Qed.
  Lemma wpo_ext {A} (ps qs : pid -> prog A) Q : (forall i, ps i = qs i) -> wpo qs Q -> wpo ps Q.
  Proof.
    intros H (a & Hr & HQ). exists a. split; [|exact HQ]. eapply runs_ext; [|exact Hr]. auto.
  Qed.
  Lemma wp_bind {A B} (ps : pid -> prog A) (ks : pid -> A -> prog B) (Q : (pid -> B) -> Prop) :
    wp ps (fun a => wp (fun i => ks i (a i)) Q) -> wp (fun i => bind (ps i) (ks i)) Q.
  Proof.
    intros (a & Hr & b & Hb & HQ). exists b. split; [|exact HQ].
    eapply runs_bind; [exact pid_eq|exact Hr|exact Hb].
  Qed.
  Lemma wpo_bind {A B} (ps : pid -> prog A) (ks : pid -> A -> prog B) (Q : (pid -> outcome B) -> Prop) :
    wp ps (fun a => wpo (fun i => ks i (a i)) Q) -> wpo (fun i => bind (ps i) (ks i)) Q.
  Proof.
    intros (a & Hr & b & Hb & HQ). exists b. split; [|exact HQ].
    eapply runs_bind; [exact pid_eq|exact Hr|exact Hb].
  Qed.

  Lemma wpo_seq {A B} (ps : pid -> prog A) (ks : pid -> A -> prog B) (Q : (pid -> outcome B) -> Prop) :
    wpo ps (fun o => wpo (fun i => bind (leaf (o i)) (ks i)) Q) -> wpo (fun i => bind (ps i) (ks i)) Q.
  Proof.
    intros (a & Hr & b & Hb & HQ). exists b. split; [|exact HQ].
    eapply runs_seq; [exact pid_eq|exact Hr|exact Hb].
  Qed.

  (** Explicit three-party configurations. *)
  Definition of3 {B} (x y z : B) (i : pid) : B := match i with P0 => x | P1 => y | P2 => z end.
  Definition q3 (c01 c02 c10 c12 c20 c21 : list M) (i j : pid) : list M :=
    match i, j with
    | P0, P1 => c01 | P0, P2 => c02
    | P1, P0 => c10 | P1, P2 => c12
    | P2, P0 => c20 | P2, P1 => c21
    | _, _ => []
    end.
  Definition comp3 {A} (p0 p1 p2 : prog A) c01 c02 c10 c12 c20 c21 o : Prop :=
    comp all3 cap (mkConfig (of3 p0 p1 p2) (q3 c01 c02 c10 c12 c20 c21)) o.

  Lemma runs_comp3 {A} (ps : pid -> prog A) o :
    comp3 (ps P0) (ps P1) (ps P2) [] [] [] [] [] [] o -> runs ps o.
  Proof.
    apply comp_ceq. split; cbn.
    - intros []; reflexivity.
    - intros [] []; reflexivity.
  Qed.

  Lemma comp3_leaf {A} (o : pid -> outcome A) :
    comp3 (leaf (o P0)) (leaf (o P1)) (leaf (o P2)) [] [] [] [] [] [] o.
  Proof.
    eapply comp_ceq; [|apply (runs_ret all3 cap o)]. split; cbn.
    - intros []; reflexivity.
    - intros [] []; reflexivity.
  Qed.
  Lemma comp3_ret {A} (a : pid -> A) :
    comp3 (Ret (a P0)) (Ret (a P1)) (Ret (a P2)) [] [] [] [] [] [] (fun i => Done (a i)).
  Proof. exact (comp3_leaf (fun i => Done (a i))). Qed.

  Lemma comp3_ret_eq {A} (a : pid -> A) x0 x1 x2 : a P0 = x0 -> a P1 = x1 -> a P2 = x2 ->
    comp3 (Ret x0) (Ret x1) (Ret x2) [] [] [] [] [] [] (fun i => Done (a i)).
  Proof. intros <- <- <-. apply comp3_ret. Qed.

  Local Ltac stp pp H :=
    eapply (@comp_step _ _ _ _ _ pp); [|exact H];
    unfold step, all3; cbn [pr ch of3 q3];
    split; [exact I|]; split; [intros []; cbn; congruence|].
  Local Ltac stp_send pp H :=
    stp pp H; repeat split; auto; intros [] []; cbn; congruence.
  Local Ltac stp_recv pp H :=
    stp pp H; eexists; repeat split; auto; intros [] []; cbn; congruence.

  Lemma send01 {A} m (k p1 p2 : prog A) c01 c02 c10 c12 c20 c21 o :
    length c01 < cap -> comp3 k p1 p2 (c01 ++ [m]) c02 c10 c12 c20 c21 o ->
    comp3 (Send P1 m k) p1 p2 c01 c02 c10 c12 c20 c21 o.
  Proof. intros Hl H. stp_send P0 H. Qed.
  Lemma send02 {A} m (k p1 p2 : prog A) c01 c02 c10 c12 c20 c21 o :
    length c02 < cap -> comp3 k p1 p2 c01 (c02 ++ [m]) c10 c12 c20 c21 o ->
    comp3 (Send P2 m k) p1 p2 c01 c02 c10 c12 c20 c21 o.
  Proof. intros Hl H. stp_send P0 H. Qed.
  Lemma send10 {A} m (k p0 p2 : prog A) c01 c02 c10 c12 c20 c21 o :
    length c10 < cap -> comp3 p0 k p2 c01 c02 (c10 ++ [m]) c12 c20 c21 o ->
    comp3 p0 (Send P0 m k) p2 c01 c02 c10 c12 c20 c21 o.
  Proof. intros Hl H. stp_send P1 H. Qed.
  Lemma send12 {A} m (k p0 p2 : prog A) c01 c02 c10 c12 c20 c21 o :
    length c12 < cap -> comp3 p0 k p2 c01 c02 c10 (c12 ++ [m]) c20 c21 o ->
    comp3 p0 (Send P2 m k) p2 c01 c02 c10 c12 c20 c21 o.
  Proof. intros Hl H. stp_send P1 H. Qed.
  Lemma send20 {A} m (k p0 p1 : prog A) c01 c02 c10 c12 c20 c21 o :
    length c20 < cap -> comp3 p0 p1 k c01 c02 c10 c12 (c20 ++ [m]) c21 o ->
    comp3 p0 p1 (Send P0 m k) c01 c02 c10 c12 c20 c21 o.
  Proof. intros Hl H. stp_send P2 H. Qed.
  Lemma send21 {A} m (k p0 p1 : prog A) c01 c02 c10 c12 c20 c21 o :
    length c21 < cap -> comp3 p0 p1 k c01 c02 c10 c12 c20 (c21 ++ [m]) o ->
    comp3 p0 p1 (Send P1 m k) c01 c02 c10 c12 c20 c21 o.
  Proof. intros Hl H. stp_send P2 H. Qed.
  Lemma recv01 {A} m k (p0 p2 : prog A) c01 c02 c10 c12 c20 c21 o :
    comp3 p0 (k m) p2 c01 c02 c10 c12 c20 c21 o ->
    comp3 p0 (Recv P0 k) p2 (m :: c01) c02 c10 c12 c20 c21 o.
  Proof. intros H. stp_recv P1 H. Qed.
  Lemma recv02 {A} m k (p0 p1 : prog A) c01 c02 c10 c12 c20 c21 o :
    comp3 p0 p1 (k m) c01 c02 c10 c12 c20 c21 o ->
    comp3 p0 p1 (Recv P0 k) c01 (m :: c02) c10 c12 c20 c21 o.
  Proof. intros H. stp_recv P2 H. Qed.
  Lemma recv10 {A} m k (p1 p2 : prog A) c01 c02 c10 c12 c20 c21 o :
    comp3 (k m) p1 p2 c01 c02 c10 c12 c20 c21 o ->
    comp3 (Recv P1 k) p1 p2 c01 c02 (m :: c10) c12 c20 c21 o.
  Proof. intros H. stp_recv P0 H. Qed.
  Lemma recv12 {A} m k (p0 p1 : prog A) c01 c02 c10 c12 c20 c21 o :
    comp3 p0 p1 (k m) c01 c02 c10 c12 c20 c21 o ->
    comp3 p0 p1 (Recv P1 k) c01 c02 c10 (m :: c12) c20 c21 o.
  Proof. intros H. stp_recv P2 H. Qed.
  Lemma recv20 {A} m k (p1 p2 : prog A) c01 c02 c10 c12 c20 c21 o :
    comp3 (k m) p1 p2 c01 c02 c10 c12 c20 c21 o ->
    comp3 (Recv P2 k) p1 p2 c01 c02 c10 c12 (m :: c20) c21 o.
  Proof. intros H. stp_recv P0 H. Qed.
  Lemma recv21 {A} m k (p0 p2 : prog A) c01 c02 c10 c12 c20 c21 o :
    comp3 p0 (k m) p2 c01 c02 c10 c12 c20 c21 o ->
    comp3 p0 (Recv P2 k) p2 c01 c02 c10 c12 c20 (m :: c21) o.
  Proof. intros H. stp_recv P1 H. Qed.
End Rules.
Arguments wp_all_ok {M cap A} [ps Q] _.
Arguments wpo_all_end {M cap A} [ps Q] _.

(** Runs three explicit programs, party by party. *)
Ltac step3 cap_pos :=
  first
  [ apply send01; [cbn; try exact cap_pos; lia|]
  | apply send02; [cbn; try exact cap_pos; lia|]
  | apply send10; [cbn; try exact cap_pos; lia|]
  | apply send12; [cbn; try exact cap_pos; lia|]
  | apply send20; [cbn; try exact cap_pos; lia|]
  | apply send21; [cbn; try exact cap_pos; lia|]
  | apply recv01; cbn beta; rewrite ?dec_enc; cbn [bind app]
  | apply recv02; cbn beta; rewrite ?dec_enc; cbn [bind app]
  | apply recv10; cbn beta; rewrite ?dec_enc; cbn [bind app]
  | apply recv12; cbn beta; rewrite ?dec_enc; cbn [bind app]
  | apply recv20; cbn beta; rewrite ?dec_enc; cbn [bind app]
  | apply recv21; cbn beta; rewrite ?dec_enc; cbn [bind app] ].

Section NetRules.
  Context {M : Type} (cap : nat).
  Hypothesis cap_pos : 1 <= cap.
  Notation prog := (prog pid M).
  Context {X : Type} `{EX : Enc M (list X)}.

  Lemma wp_reshare_many (x : pid -> list X) (Q : (pid -> list X) -> Prop) :
    Q (fun i => x (prev i)) -> wp cap (fun i => reshare_many i (x i)) Q.
  Proof.
    intros HQ. exists (fun i => x (prev i)). split; [|exact HQ].
    apply runs_comp3.
    unfold reshare_many, send_and_recv_many, send_many, recv_many; cbn [bind next prev].
    repeat step3 cap_pos.
    exact (comp3_ret cap (fun i => x (prev i))).
  Qed.

  Lemma wp_reshare (x : pid -> X) (Q : (pid -> X) -> Prop) :
    Q (fun i => x (prev i)) -> wp cap (fun i => reshare i (x i)) Q.
  Proof.
    intros HQ. unfold reshare.
    apply wp_bind. apply wp_reshare_many with (x := fun i => [x i]).
    cbn. apply wp_ret. exact HQ.
  Qed.

  Lemma wp_broadcast_many (x : pid -> list X) (Q : (pid -> list X * list X) -> Prop) :
    Q (fun i => (x (prev i), x (next i))) -> wp cap (fun i => broadcast_many i (x i)) Q.
  Proof.
    intros HQ. exists (fun i => (x (prev i), x (next i))). split; [|exact HQ].
    apply runs_comp3.
    unfold broadcast_many, send_both_many, recv_many; cbn [bind next prev].
    repeat step3 cap_pos.
    exact (comp3_ret cap (fun i => (x (prev i), x (next i)))).
  Qed.

  Lemma wp_broadcast (x : pid -> X) (Q : (pid -> X * X) -> Prop) :
    Q (fun i => (x (prev i), x (next i))) -> wp cap (fun i => broadcast i (x i)) Q.
  Proof.
    intros HQ. unfold broadcast.
    apply wp_bind. apply wp_broadcast_many with (x := fun i => [x i]).
    cbn. apply wp_ret. exact HQ.
  Qed.
End NetRules.
