(** * Fork-join of protocols on separate networks
    Models [mpc_net::join], [join3] .. [join8] (mpc-net/src/lib.rs:137-268): every party runs
    several sub-protocols at the same time, each on its own network (own queues) and with its
    own generator state, and continues when all have returned.  The theorems say that the
    result is the one of running the sub-protocols one after the other, which is how the
    models of the calling functions are written. *)
From Coq Require Import List Arith Lia.
From Verif Require Import Proc.
Import ListNotations.
Set Implicit Arguments.

(** ** Transition systems and their products *)
Section Sys.
  Inductive nsteps {C} (stp : C -> C -> Prop) : nat -> C -> C -> Prop :=
  | ns_0 : forall c, nsteps stp 0 c c
  | ns_S : forall n c c' c'', stp c c' -> nsteps stp n c' c'' -> nsteps stp (S n) c c''.
  (** every schedule is finite and every maximal one ends in [fin] *)
  Definition sys_ok {C} (stp : C -> C -> Prop) (c0 : C) (fin : C -> Prop) : Prop :=
    exists n, (forall k c, nsteps stp k c0 c -> k <= n) /\
              (forall k c, nsteps stp k c0 c -> (forall c', ~ stp c c') -> fin c).
  (** mpc-net/src/lib.rs:139-148: one of the two sub-protocols makes a step *)
  Inductive jstep {C D} (s1 : C -> C -> Prop) (s2 : D -> D -> Prop) : C * D -> C * D -> Prop :=
  | j_1 : forall c c' d, s1 c c' -> jstep s1 s2 (c, d) (c', d)
  | j_2 : forall c d d', s2 d d' -> jstep s1 s2 (c, d) (c, d').

  Lemma jsteps_split {C D} (s1 : C -> C -> Prop) (s2 : D -> D -> Prop) n : forall x y, nsteps (jstep s1 s2) n x y ->
    exists n1 n2, n = n1 + n2 /\ nsteps s1 n1 (fst x) (fst y) /\ nsteps s2 n2 (snd x) (snd y).
  Proof.
    induction n as [|n IH]; intros x y Hs; inversion Hs; subst.
    - exists 0, 0. repeat split; constructor.
    - match goal with Hr : nsteps _ n _ _ |- _ => apply IH in Hr; destruct Hr as (n1 & n2 & E & A & B) end.
      match goal with Hj : jstep _ _ _ _ |- _ => inversion Hj; subst end; cbn in *.
      + exists (S n1), n2. repeat split; [econstructor; eassumption|assumption].
      + exists n1, (S n2). split; [lia|]. split; [assumption|econstructor; eassumption].
  Qed.
  Theorem sys_ok_join {C D} (s1 : C -> C -> Prop) (s2 : D -> D -> Prop) c0 d0 f1 f2 :
    sys_ok s1 c0 f1 -> sys_ok s2 d0 f2 -> sys_ok (jstep s1 s2) (c0, d0) (fun cd => f1 (fst cd) /\ f2 (snd cd)).
  Proof.
    intros (n1 & A1 & B1) (n2 & A2 & B2). exists (n1 + n2). split.
    - intros k c Hs. apply jsteps_split in Hs. destruct Hs as (k1 & k2 & -> & K1 & K2). apply A1 in K1. apply A2 in K2. lia.
    - intros k [c d] Hs Hst. apply jsteps_split in Hs. destruct Hs as (k1 & k2 & -> & K1 & K2). cbn [fst snd] in *. split.
      + apply (B1 _ _ K1). intros c' Hc. apply (Hst (c', d)). constructor. exact Hc.
      + apply (B2 _ _ K2). intros d' Hd. apply (Hst (c, d')). constructor. exact Hd.
  Qed.
End Sys.

(** ** Protocols *)
Section Join.
  Context {P M : Type} (peq : forall i j : P, {i = j} + {i <> j}) (mem : P -> Prop) (cap : nat).
  Definition nstep {A} (c c' : @config P M A) : Prop := exists i, step mem cap i c c'.
  Lemma nsteps_steps {A} n : forall c c' : @config P M A, nsteps nstep n c c' -> steps mem cap n c c'.
  Proof.
    induction n as [|n IH]; intros c c' Hs; inversion Hs; subst.
    - constructor; reflexivity.
    - match goal with Hn : nstep _ _ |- _ => destruct Hn as [i Hi] end. econstructor; [exact Hi|]. apply IH. assumption.
  Qed.
  Lemma every_schedule_sys {A} (ps : P -> prog P M A) Q : every_schedule mem cap ps Q ->
    exists o, Q o /\ sys_ok nstep (init ps) (fun c => finished mem c o).
  Proof.
    intros (o & n & HQ & H1 & H2). exists o. split; [exact HQ|]. exists n. split.
    - intros k c Hs. apply (H1 k c). apply nsteps_steps. exact Hs.
    - intros k c Hs Hst. apply (H2 k c); [apply nsteps_steps; exact Hs|]. intros i c' Hi. apply (Hst c'). exists i. exact Hi.
  Qed.
  (** two sub-protocols at the same time on two networks:
      every interleaving finishes, with the outcomes the two have on their own *)
  Theorem join_every_schedule {A B} (ps : P -> prog P M A) (qs : P -> prog P M B) Q R :
    every_schedule mem cap ps Q -> every_schedule mem cap qs R ->
    exists o1 o2, Q o1 /\ R o2 /\
      sys_ok (jstep nstep nstep) (init ps, init qs) (fun cd => finished mem (fst cd) o1 /\ finished mem (snd cd) o2).
  Proof.
    intros Hp Hq. destruct (every_schedule_sys Hp) as (o1 & Q1 & S1). destruct (every_schedule_sys Hq) as (o2 & Q2 & S2).
    exists o1, o2. split; [exact Q1|]. split; [exact Q2|]. exact (sys_ok_join S1 S2).
  Qed.
  (** running them one after the other on one network gives the same outcomes *)
  Theorem join_sequential {A B} (ps : P -> prog P M A) (qs : P -> prog P M B) (a : P -> A) (b : P -> B) :
    runs mem cap ps (fun i => Done (a i)) -> runs mem cap qs (fun i => Done (b i)) ->
    every_schedule mem cap (fun i => x <- ps i ;; y <- qs i ;; Ret (x, y)) (fun o => forall i, o i = Done (a i, b i)) /\
    sys_ok (jstep nstep nstep) (init ps, init qs)
      (fun cd => finished mem (fst cd) (fun i => Done (a i)) /\ finished mem (snd cd) (fun i => Done (b i))).
  Proof.
    intros Hp Hq. split.
    - eapply runs_every_schedule; [exact peq| |].
      + eapply runs_bind; [exact peq|exact Hp|]. cbn. eapply runs_bind; [exact peq|exact Hq|]. cbn.
        exact (runs_ret mem cap (fun i => Done (a i, b i))).
      + intros i. reflexivity.
    - apply (@sys_ok_join _ _ nstep nstep (init ps) (init qs) (fun c => finished mem c (fun i => Done (a i))) (fun c => finished mem c (fun i => Done (b i)))).
      + pose proof (@runs_every_schedule _ _ peq mem cap _ ps _ (fun o => o = fun i => Done (a i)) Hp eq_refl) as E.
        destruct (every_schedule_sys E) as (o & -> & S1). exact S1.
      + pose proof (@runs_every_schedule _ _ peq mem cap _ qs _ (fun o => o = fun i => Done (b i)) Hq eq_refl) as E.
        destruct (every_schedule_sys E) as (o & -> & S1). exact S1.
  Qed.
End Join.
