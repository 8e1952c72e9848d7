(** * Schedule independence (C33) *)
From Coq Require Import String List Arith Lia Bool.
From Verif Require Import Proc.
Import ListNotations.
Set Implicit Arguments.

Section C33.
  (** any set of parties, any message type, any programs, any queue capacity *)
  Context {P M : Type} (peq : forall i j : P, {i = j} + {i <> j}) (mem : P -> Prop) (cap : nat) {A : Type}.
  Implicit Types (ps : P -> prog P M A) (c d : @config P M A).

  Theorem C33_commute i j c c1 c2 : i <> j -> step mem cap i c c1 -> step mem cap j c c2 ->
    exists d, step mem cap j c1 d /\ step mem cap i c2 d.
  Proof. exact (@step_diamond P M peq mem cap A i j c c1 c2). Qed.
  Theorem C33_one_schedule_decides_all ps o : (exists n d, steps mem cap n (init ps) d /\ finished mem d o) ->
    every_schedule mem cap ps (fun o' => forall i, o' i = o i).
  Proof. exact (fun R => @runs_every_schedule P M peq mem cap A ps o (fun o' => forall i, o' i = o i) R (fun i => eq_refl)). Qed.
  Lemma finish_from_anywhere ps o n d k c : steps mem cap n (init ps) d -> finished mem d o -> steps mem cap k (init ps) c ->
    k <= n /\ steps mem cap (n - k) c d.
  Proof.
    intros Hn Hd Hk. destruct (steps_any peq Hn (finished_stuck (cap := cap) Hd) Hk) as (r & -> & Hr).
    split; [lia|]. replace (k + r - k) with r by lia. exact Hr.
  Qed.
  (** no matter how the run started, it can be completed, in exactly the remaining number of
      steps, to the same final configuration *)
  Theorem C33_no_deadlock ps o n d k c : steps mem cap n (init ps) d -> finished mem d o -> steps mem cap k (init ps) c ->
    k <= n /\ steps mem cap (n - k) c d.
  Proof. exact (@finish_from_anywhere ps o n d k c). Qed.
  Lemma step_cap cap' i c c' : cap <= cap' -> step mem cap i c c' -> step mem cap' i c c'.
  Proof.
    intros L (Hm & Ho & K). split; [exact Hm|]. split; [exact Ho|].
    destruct (pr c i); auto. destruct K as (K1 & K2). split; [lia|exact K2].
  Qed.
  Lemma steps_cap cap' n : cap <= cap' -> forall c c', steps mem cap n c c' -> steps mem cap' n c c'.
  Proof.
    intros L. induction n as [|n IH]; intros c c' Hs; inversion Hs; subst.
    - constructor; assumption.
    - econstructor; [eapply step_cap; eauto|]. apply IH. assumption.
  Qed.
  Lemma runs_cap cap' ps o : cap <= cap' -> (exists n d, steps mem cap n (init ps) d /\ finished mem d o) ->
    every_schedule mem cap' ps (fun o' => forall i, o' i = o i).
  Proof.
    intros L (n & d & Hs & Hf). apply (@runs_every_schedule P M peq mem cap' A ps o); [|reflexivity].
    exists n, d. split; [eapply steps_cap; eauto|exact Hf].
  Qed.
  (** more buffering never hurts *)
  Theorem C33_capacity cap' ps o : cap <= cap' -> (exists n d, steps mem cap n (init ps) d /\ finished mem d o) ->
    every_schedule mem cap' ps (fun o' => forall i, o' i = o i).
  Proof. exact (@runs_cap cap' ps o). Qed.
End C33.

(** ** Non-vacuity: two parties exchanging one message each *)
Definition swap_first (me : bool) (m : nat) : prog bool nat nat := Send (negb me) m (Recv (negb me) (fun x => Ret x)).
Definition all2 (b : bool) : Prop := True.
Definition two {X} (x y : X) (b : bool) : X := if b then x else y.
Definition cf (pt pf : prog bool nat nat) (tf ft : list nat) : config nat :=
  mkConfig (two pt pf) (fun a b => match a, b with true, false => tf | false, true => ft | _, _ => [] end).
Example swap_runs : exists n d, steps all2 1 n (init (two (swap_first true 7) (swap_first false 5))) d /\
  finished all2 d (two (Done 5) (Done 7)).
Proof.
  exists 4, (cf (Ret 5) (Ret 7) [] []). split; [|split; [intros []; reflexivity|intros [] []; reflexivity]].
  eapply steps_S with (i := true) (c' := cf (Recv false (fun x => Ret x)) (swap_first false 5) [7] []).
  { split; [exact I|]. split; [intros [] Hn; [congruence|reflexivity]|]. cbn. repeat split; auto. intros [] [] Hn; try reflexivity. congruence. }
  eapply steps_S with (i := false) (c' := cf (Recv false (fun x => Ret x)) (Recv true (fun x => Ret x)) [7] [5]).
  { split; [exact I|]. split; [intros [] Hn; [reflexivity|congruence]|]. cbn. repeat split; auto. intros [] [] Hn; try reflexivity. congruence. }
  eapply steps_S with (i := true) (c' := cf (Ret 5) (Recv true (fun x => Ret x)) [7] []).
  { split; [exact I|]. split; [intros [] Hn; [congruence|reflexivity]|]. cbn. exists 5. repeat split; auto. intros [] [] Hn; try reflexivity. congruence. }
  eapply steps_S with (i := false) (c' := cf (Ret 5) (Ret 7) [] []).
  { split; [exact I|]. split; [intros [] Hn; [reflexivity|congruence]|]. cbn. exists 7. repeat split; auto. intros [] [] Hn; try reflexivity. congruence. }
  constructor; reflexivity.
Qed.
Example swap_every_schedule : every_schedule all2 1 (two (swap_first true 7) (swap_first false 5))
  (fun o => forall i, o i = two (Done 5) (Done 7) i).
Proof. exact (C33_one_schedule_decides_all Bool.bool_dec swap_runs). Qed.
(** The converse order deadlocks: nobody can move. *)
Definition recv_first (me : bool) (m : nat) : prog bool nat nat := Recv (negb me) (fun x => Send (negb me) m (Ret x)).
Example recv_first_deadlocks cap : stuck all2 cap (init (fun b => recv_first b 3)).
Proof. intros [] c' (_ & _ & m & E & _); discriminate E. Qed.

Print Assumptions C33_commute.
Print Assumptions C33_one_schedule_decides_all.
Print Assumptions C33_no_deadlock.
Print Assumptions C33_capacity.
