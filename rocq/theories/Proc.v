(** * Party programs, FIFO networks and schedulers

    Models the communication interface offered by the trait [Network]
    (mpc-net/src/lib.rs, trait [Network]: [id], [send(to, data)], [recv(from)])
    and the semantics given to it by [LocalNetwork] (mpc-net/src/local.rs: one
    bounded FIFO queue per ordered pair of parties, blocking send on a full queue,
    blocking receive on an empty queue).

    Simplifications: payload bytes are values of an abstract type [M]; a network
    that dies is not modelled here (time-outs and closed connections are treated
    in the frame and session models). *)
From Coq Require Import String List Arith Lia.
Import ListNotations.
Set Implicit Arguments.

(** Errors: [Panic] stands for a Rust panic, [Eyre] for an [eyre::Result] error. *)
Inductive err : Type :=
| Panic : string -> err
| Eyre : string -> err.

Section Prog.
  Context {P M : Type}.

  (** A deterministic party program: mpc-net/src/lib.rs trait [Network] has exactly
      these two effects ([send], [recv]). *)
  Inductive prog (A : Type) : Type :=
  | Ret : A -> prog A
  | Fail : err -> prog A
  | Send : P -> M -> prog A -> prog A
  | Recv : P -> (M -> prog A) -> prog A.

  (** Sequencing; [Fail] is the Rust [?] early return (or unwinding panic). *)
  Fixpoint bind {A B} (p : prog A) (f : A -> prog B) : prog B :=
    match p with
    | Ret a => f a
    | Fail _ e => Fail B e
    | Send j m k => Send j m (bind k f)
    | Recv j k => Recv j (fun m => bind (k m) f)
    end.

  Inductive outcome (A : Type) : Type :=
  | Done : A -> outcome A
  | Failed : err -> outcome A.

  Definition leaf {A} (o : outcome A) : prog A :=
    match o with Done a => Ret a | Failed _ e => Fail A e end.
End Prog.
Arguments Ret {P M A}. Arguments Fail {P M A}. Arguments Send {P M A}.
Arguments Recv {P M A}. Arguments Done {A}. Arguments Failed {A}.
Arguments prog : clear implicits. Arguments outcome : clear implicits.

Notation "x <- p ;; q" := (bind p (fun x => q)) (at level 61, p at next level, right associativity).
Notation "' pat <- p ;; q" := (bind p (fun x => match x with pat => q end))
  (at level 61, pat pattern, p at next level, right associativity).

(** Serialisation (ark-serialize): only the round-trip law is assumed. *)
Class Enc (M X : Type) := {
  enc : X -> M;
  dec : M -> option X;
  dec_enc : forall x, dec (enc x) = Some x }.

Section Net.
  Context {P M : Type} (peq : forall i j : P, {i = j} + {i <> j}).
  (** [mem i]: party [i] takes part.  [cap]: queue capacity. *)
  Context (mem : P -> Prop) (cap : nat).

  Record config (A : Type) := mkConfig {
    pr : P -> prog P M A;
    ch : P -> P -> list M }.

  Definition init {A} (ps : P -> prog P M A) : config A := mkConfig ps (fun _ _ => []).

  (** One step of party [i]. *)
  Definition step {A} (i : P) (c c' : config A) : Prop :=
    mem i /\ (forall j, j <> i -> pr c' j = pr c j) /\
    match pr c i with
    | Ret _ | Fail _ => False
    | Send j m k =>
        length (ch c i j) < cap /\ pr c' i = k /\
        ch c' i j = ch c i j ++ [m] /\
        (forall a b, (a, b) <> (i, j) -> ch c' a b = ch c a b)
    | Recv j k =>
        exists m, ch c j i = m :: ch c' j i /\ pr c' i = k m /\
        (forall a b, (a, b) <> (j, i) -> ch c' a b = ch c a b)
    end.

  (** [steps n c c']: some schedule of length [n] leads from [c] to [c']. *)
  Inductive steps {A} : nat -> config A -> config A -> Prop :=
  | steps_0 : forall c c', (forall i, pr c i = pr c' i) -> (forall i j, ch c i j = ch c' i j) ->
                           steps 0 c c'
  | steps_S : forall n i c c' c'', step i c c' -> steps n c' c'' -> steps (S n) c c''.

  (** No party can move. *)
  Definition stuck {A} (c : config A) : Prop := forall i c', ~ step i c c'.

  (** All parties have finished, with outcomes [o], and no message is left over. *)
  Definition finished {A} (c : config A) (o : P -> outcome A) : Prop :=
    (forall i, mem i -> pr c i = leaf (o i)) /\ (forall i j, ch c i j = []).

  (** SPECIFICATION.  Under every schedule the parties all finish, no schedule is
      infinite or deadlocks, no message is left over, and all schedules lead to
      the same outcomes, which satisfy [Q]. *)
  Definition every_schedule {A} (ps : P -> prog P M A) (Q : (P -> outcome A) -> Prop) : Prop :=
    exists (o : P -> outcome A) (n : nat),
      Q o /\
      (forall k c, steps k (init ps) c -> k <= n) /\
      (forall k c, steps k (init ps) c -> stuck c -> finished c o).

  (** One successful schedule (the handle used in proofs). *)
  Definition comp {A} (c : config A) (o : P -> outcome A) : Prop :=
    exists n c', steps n c c' /\ finished c' o.
  Definition runs {A} (ps : P -> prog P M A) (o : P -> outcome A) : Prop := comp (init ps) o.

  (** ** Confluence *)
  Definition ceq {A} (c c' : config A) : Prop :=
    (forall i, pr c i = pr c' i) /\ (forall i j, ch c i j = ch c' i j).

  Lemma ceq_refl A (c : config A) : ceq c c.
  Proof. split; reflexivity. Qed.
  Lemma ceq_sym A (c c' : config A) : ceq c c' -> ceq c' c.
  Proof. intros [H1 H2]; split; intros; symmetry; auto. Qed.
  Lemma ceq_trans A (a b c : config A) : ceq a b -> ceq b c -> ceq a c.
  Proof. intros [H1 H2] [H3 H4]; split; intros; [rewrite H1|rewrite H2]; auto. Qed.

  Lemma step_ceq A i (c c' d d' : config A) : ceq c d -> ceq c' d' -> step i c c' -> step i d d'.
  Proof.
    intros [Hp Hc] [Hp' Hc'] [Hm [Ho Hs]]. split; [exact Hm|]. split.
    - intros j Hj. rewrite <- Hp, <- Hp'. auto.
    - rewrite <- Hp. destruct (pr c i) as [a|e|j m k|j k]; try exact Hs.
      + destruct Hs as (H1 & H2 & H3 & H4). rewrite <- Hc, <- Hp', <- Hc'.
        repeat split; auto. intros a b Hab. rewrite <- Hc, <- Hc'. auto.
      + destruct Hs as (m & H1 & H2 & H3). exists m. rewrite <- Hc, <- Hp', <- Hc'.
        repeat split; auto. intros a b Hab. rewrite <- Hc, <- Hc'. auto.
  Qed.

  Lemma steps_ceq A n (c c' d d' : config A) : ceq c d -> ceq c' d' -> steps n c c' -> steps n d d'.
  Proof.
    intros Hc Hc' H. revert d d' Hc Hc'. induction H as [c c' H1 H2|n i c c' c'' Hs Hss IH]; intros d d' Hc Hc'.
    - pose proof (ceq_trans (ceq_sym Hc) (ceq_trans (conj H1 H2) Hc')) as [E1 E2].
      constructor; auto.
    - econstructor; [eapply step_ceq; [exact Hc|apply ceq_refl|exact Hs]|].
      apply IH; [apply ceq_refl|exact Hc'].
  Qed.

  Definition pair_dec (x y : P * P) : {x = y} + {x <> y}.
  Proof. decide equality. Defined.

  Lemma step_det A i (c c1 c2 : config A) : step i c c1 -> step i c c2 -> ceq c1 c2.
  Proof.
    intros (Hm & Ho1 & H1) (_ & Ho2 & H2).
    assert (Hpo : forall j, j <> i -> pr c1 j = pr c2 j)
      by (intros j Hj; rewrite Ho1, Ho2 by exact Hj; reflexivity).
    destruct (pr c i) as [a|e|j m k|j k] eqn:E; try contradiction.
    - destruct H1 as (A1 & A2 & A3 & A4), H2 as (B1 & B2 & B3 & B4). split.
      + intro x. destruct (peq x i) as [->|Hx]; [congruence|auto].
      + intros a b. destruct (pair_dec (a, b) (i, j)) as [Ep|Hne].
        * inversion Ep; subst a b. congruence.
        * rewrite A4, B4 by exact Hne. reflexivity.
    - destruct H1 as (m1 & A1 & A2 & A3), H2 as (m2 & B1 & B2 & B3).
      rewrite A1 in B1. injection B1 as Em Ec. subst m2. split.
      + intro x. destruct (peq x i) as [->|Hx]; [congruence|auto].
      + intros a b. destruct (pair_dec (a, b) (j, i)) as [Ep|Hne].
        * inversion Ep; subst a b. congruence.
        * rewrite A3, B3 by exact Hne. reflexivity.
  Qed.

  (** Executable version of a step. *)
  Definition upd {B} (f : P -> B) (i : P) (v : B) : P -> B := fun j => if peq j i then v else f j.
  Definition upd2 {B} (f : P -> P -> B) (i j : P) (v : B) : P -> P -> B :=
    fun a b => if pair_dec (a, b) (i, j) then v else f a b.
  Lemma upd_same {B} (f : P -> B) i v : upd f i v i = v.
  Proof. unfold upd. destruct (peq i i); congruence. Qed.
  Lemma upd_other {B} (f : P -> B) i j v : j <> i -> upd f i v j = f j.
  Proof. unfold upd. destruct (peq j i); congruence. Qed.
  Lemma upd2_same {B} (f : P -> P -> B) i j v : upd2 f i j v i j = v.
  Proof. unfold upd2. destruct (pair_dec (i, j) (i, j)); congruence. Qed.
  Lemma upd2_other {B} (f : P -> P -> B) i j a b v : (a, b) <> (i, j) -> upd2 f i j v a b = f a b.
  Proof. unfold upd2. destruct (pair_dec (a, b) (i, j)); congruence. Qed.

  Lemma step_send A i j m k (c : config A) :
    mem i -> pr c i = Send j m k -> length (ch c i j) < cap ->
    step i c (mkConfig (upd (pr c) i k) (upd2 (ch c) i j (ch c i j ++ [m]))).
  Proof.
    intros Hm Hp Hl. split; [exact Hm|]. split; cbn.
    - intros x Hx. apply upd_other; exact Hx.
    - rewrite Hp. rewrite upd_same, upd2_same. repeat split; auto.
      intros a b Hab. apply upd2_other; exact Hab.
  Qed.

  Lemma step_recv A i j k m rest (c : config A) :
    mem i -> pr c i = Recv j k -> ch c j i = m :: rest ->
    step i c (mkConfig (upd (pr c) i (k m)) (upd2 (ch c) j i rest)).
  Proof.
    intros Hm Hp Hl. split; [exact Hm|]. split; cbn.
    - intros x Hx. apply upd_other; exact Hx.
    - rewrite Hp. exists m. rewrite upd_same, upd2_same. repeat split; auto.
      intros a b Hab. apply upd2_other; exact Hab.
  Qed.

  (** Steps of different parties commute. *)
  Lemma step_diamond A i j (c c1 c2 : config A) :
    i <> j -> step i c c1 -> step j c c2 -> exists d, step j c1 d /\ step i c2 d.
  Proof.
    intros Hij (Hm1 & Ho1 & H1) (Hm2 & Ho2 & H2).
    assert (Pj : pr c1 j = pr c j) by (apply Ho1; congruence).
    assert (Pi : pr c2 i = pr c i) by (apply Ho2; congruence).
    assert (Po : forall x, x <> i -> x <> j -> pr c1 x = pr c2 x)
      by (intros x Hx Hy; rewrite Ho1, Ho2 by assumption; reflexivity).
    destruct (pr c i) as [a|e|ti mi ki|fi ki] eqn:Ei; try contradiction;
    destruct (pr c j) as [a'|e'|tj mj kj|fj kj] eqn:Ej; try contradiction.
    - (* send / send: different queues *)
      destruct H1 as (A1 & A2 & A3 & A4), H2 as (B1 & B2 & B3 & B4).
      assert (N1 : (i, ti) <> (j, tj)) by congruence.
      assert (N2 : (j, tj) <> (i, ti)) by congruence.
      exists (mkConfig (upd (pr c1) j kj) (upd2 (ch c1) j tj (ch c1 j tj ++ [mj]))). split.
      + apply step_send; auto. rewrite A4 by exact N2. exact B1.
      + split; [exact Hm1|]. split; cbn.
        * intros x Hx. destruct (peq x j) as [->|Hxj]; [rewrite upd_same; congruence|].
          rewrite upd_other by exact Hxj. auto.
        * rewrite Pi. rewrite upd_other by exact Hij. repeat split.
          -- rewrite B4 by exact N1. exact A1.
          -- exact A2.
          -- rewrite upd2_other by exact N1. rewrite B4 by exact N1. exact A3.
          -- intros a b Hab. destruct (pair_dec (a, b) (j, tj)) as [Ep|Hne].
             ++ inversion Ep; subst a b. rewrite upd2_same, A4 by exact N2. symmetry; exact B3.
             ++ rewrite upd2_other by exact Hne. rewrite A4, B4 by assumption. reflexivity.
    - (* send / recv *)
      destruct H1 as (A1 & A2 & A3 & A4), H2 as (m & B1 & B2 & B3).
      destruct (pair_dec (i, ti) (fj, j)) as [Ep|N].
      + inversion Ep; subst fj ti. clear Ep.
        assert (Ec1 : ch c1 i j = m :: (ch c2 i j ++ [mi])) by (rewrite A3, B1; reflexivity).
        exists (mkConfig (upd (pr c1) j (kj m)) (upd2 (ch c1) i j (ch c2 i j ++ [mi]))). split.
        * apply step_recv; auto.
        * split; [exact Hm1|]. split; cbn.
          -- intros x Hx. destruct (peq x j) as [->|Hxj]; [rewrite upd_same; congruence|].
             rewrite upd_other by exact Hxj. auto.
          -- rewrite Pi. rewrite upd_other by exact Hij. rewrite upd2_same. repeat split; auto.
             ++ rewrite B1 in A1. cbn in A1. lia.
             ++ intros a b Hab. rewrite upd2_other by exact Hab. rewrite A4, B3 by exact Hab. reflexivity.
      + assert (N' : (fj, j) <> (i, ti)) by congruence.
        exists (mkConfig (upd (pr c1) j (kj m)) (upd2 (ch c1) fj j (ch c2 fj j))). split.
        * apply step_recv; auto. rewrite A4 by exact N'. exact B1.
        * split; [exact Hm1|]. split; cbn.
          -- intros x Hx. destruct (peq x j) as [->|Hxj]; [rewrite upd_same; congruence|].
             rewrite upd_other by exact Hxj. auto.
          -- rewrite Pi. rewrite upd_other by exact Hij. repeat split; auto.
             ++ rewrite B3 by exact N. exact A1.
             ++ rewrite upd2_other by exact N. rewrite B3 by exact N. exact A3.
             ++ intros a b Hab. destruct (pair_dec (a, b) (fj, j)) as [Ep|Hne].
                ** inversion Ep; subst a b. rewrite upd2_same. reflexivity.
                ** rewrite upd2_other by exact Hne. rewrite A4, B3 by assumption. reflexivity.
    - (* recv / send *)
      destruct H1 as (m & A1 & A2 & A3), H2 as (B1 & B2 & B3 & B4).
      destruct (pair_dec (fi, i) (j, tj)) as [Ep|N].
      + inversion Ep; subst fi tj. clear Ep.
        exists (mkConfig (upd (pr c1) j kj) (upd2 (ch c1) j i (ch c1 j i ++ [mj]))). split.
        * apply step_send; auto. rewrite A1 in B1. cbn in B1. lia.
        * split; [exact Hm1|]. split; cbn.
          -- intros x Hx. destruct (peq x j) as [->|Hxj]; [rewrite upd_same; congruence|].
             rewrite upd_other by exact Hxj. auto.
          -- rewrite Pi. exists m. rewrite upd_other by exact Hij. rewrite upd2_same. repeat split; auto.
             ++ rewrite B3, A1. reflexivity.
             ++ intros a b Hab. rewrite upd2_other by exact Hab. rewrite A3, B4 by exact Hab. reflexivity.
      + assert (N' : (j, tj) <> (fi, i)) by congruence.
        exists (mkConfig (upd (pr c1) j kj) (upd2 (ch c1) j tj (ch c1 j tj ++ [mj]))). split.
        * apply step_send; auto. rewrite A3 by exact N'. exact B1.
        * split; [exact Hm1|]. split; cbn.
          -- intros x Hx. destruct (peq x j) as [->|Hxj]; [rewrite upd_same; congruence|].
             rewrite upd_other by exact Hxj. auto.
          -- rewrite Pi. exists m. rewrite upd_other by exact Hij. repeat split; auto.
             ++ rewrite upd2_other by exact N. rewrite B4 by exact N. exact A1.
             ++ intros a b Hab. destruct (pair_dec (a, b) (j, tj)) as [Ep|Hne].
                ** inversion Ep; subst a b. rewrite upd2_same. rewrite A3 by exact N'. symmetry; exact B3.
                ** rewrite upd2_other by exact Hne. rewrite A3, B4 by assumption. reflexivity.
    - (* recv / recv: different queues *)
      destruct H1 as (m & A1 & A2 & A3), H2 as (m' & B1 & B2 & B3).
      assert (N : (fi, i) <> (fj, j)) by congruence.
      assert (N' : (fj, j) <> (fi, i)) by congruence.
      exists (mkConfig (upd (pr c1) j (kj m')) (upd2 (ch c1) fj j (ch c2 fj j))). split.
      + apply step_recv; auto. rewrite A3 by exact N'. exact B1.
      + split; [exact Hm1|]. split; cbn.
        * intros x Hx. destruct (peq x j) as [->|Hxj]; [rewrite upd_same; congruence|].
          rewrite upd_other by exact Hxj. auto.
        * rewrite Pi. exists m. rewrite upd_other by exact Hij. repeat split; auto.
          -- rewrite upd2_other by exact N. rewrite B3 by exact N. exact A1.
          -- intros a b Hab. destruct (pair_dec (a, b) (fj, j)) as [Ep|Hne].
             ++ inversion Ep; subst a b. rewrite upd2_same. reflexivity.
             ++ rewrite upd2_other by exact Hne. rewrite A3, B3 by assumption. reflexivity.
  Qed.

  (** If a schedule of length [n] reaches a stuck configuration, every first step
      can be continued to it in [n-1] more steps. *)
  Lemma steps_first A n : forall (c d : config A) i c1,
    steps n c d -> stuck d -> step i c c1 -> exists n', n = S n' /\ steps n' c1 d.
  Proof.
    induction n as [|n IH]; intros c d i c1 Hn Hd Hs.
    - inversion Hn; subst. exfalso. apply (Hd i c1).
      eapply step_ceq; [split; eassumption|apply ceq_refl|exact Hs].
    - inversion Hn as [|n0 j c0 c2 d0 Hj Hrest]; subst. exists n. split; [reflexivity|].
      destruct (peq i j) as [->|Hij].
      + eapply steps_ceq; [exact (step_det Hj Hs)|apply ceq_refl|exact Hrest].
      + destruct (step_diamond Hij Hs Hj) as (e & He1 & He2).
        destruct (IH c2 d i e Hrest Hd He2) as (n' & -> & Hn').
        econstructor; eassumption.
  Qed.

  Lemma steps_any A k : forall n (c d e : config A),
    steps n c d -> stuck d -> steps k c e -> exists r, n = k + r /\ steps r e d.
  Proof.
    induction k as [|k IH]; intros n c d e Hn Hd Hk.
    - inversion Hk; subst. exists n. split; [reflexivity|].
      eapply steps_ceq; [split; eassumption|apply ceq_refl|exact Hn].
    - inversion Hk as [|k0 i c0 c1 e0 Hi Hrest]; subst.
      destruct (steps_first Hn Hd Hi) as (n' & -> & Hn').
      destruct (IH _ _ _ _ Hn' Hd Hrest) as (r & -> & Hr).
      exists r. split; [reflexivity|exact Hr].
  Qed.

  Lemma finished_stuck A (c : config A) o : finished c o -> stuck c.
  Proof.
    intros [Hf _] i c' (Hm & _ & Hs). rewrite (Hf i Hm) in Hs.
    destruct (o i); exact Hs.
  Qed.

  Lemma finished_ceq A (c d : config A) o : ceq c d -> finished c o -> finished d o.
  Proof.
    intros [H1 H2] [Hp Hc]. split; intros.
    - rewrite <- H1. auto.
    - rewrite <- H2. auto.
  Qed.

  (** One successful schedule settles all schedules. *)
  Theorem runs_every_schedule A (ps : P -> prog P M A) o (Q : (P -> outcome A) -> Prop) :
    runs ps o -> Q o -> every_schedule ps Q.
  Proof.
    intros (n & d & Hn & Hd) HQ. exists o, n. split; [exact HQ|].
    pose proof (finished_stuck Hd) as Hst. split.
    - intros k c Hk. destruct (steps_any Hn Hst Hk) as (r & -> & _). lia.
    - intros k c Hk Hc. destruct (steps_any Hn Hst Hk) as (r & _ & Hr).
      destruct r as [|r].
      + inversion Hr; subst. eapply finished_ceq; [|exact Hd].
        split; intros; symmetry; auto.
      + inversion Hr; subst. exfalso. eapply Hc; eassumption.
  Qed.

  (** ** Execution rules *)
  Lemma comp_ceq A (c d : config A) o : ceq c d -> comp c o -> comp d o.
  Proof.
    intros H (n & c' & Hs & Hf). exists n, c'. split; [|exact Hf].
    eapply steps_ceq; [exact H|apply ceq_refl|exact Hs].
  Qed.

  Lemma comp_ext_o A (c : config A) o o' : (forall i, mem i -> o i = o' i) -> comp c o -> comp c o'.
  Proof.
    intros H (n & c' & Hs & Hf & Hc). exists n, c'. split; [exact Hs|]. split; [|exact Hc].
    intros i Hi. rewrite <- H by exact Hi. auto.
  Qed.

  Lemma comp_step A i (c c' : config A) o : step i c c' -> comp c' o -> comp c o.
  Proof. intros Hs (n & d & Hn & Hd). exists (S n), d. split; [econstructor; eassumption|exact Hd]. Qed.

  Lemma runs_ext A (ps qs : P -> prog P M A) o :
    (forall i, ps i = qs i) -> runs ps o -> runs qs o.
  Proof. intros H. apply comp_ceq. split; [exact H|reflexivity]. Qed.

  Lemma runs_ret A (o : P -> outcome A) : runs (fun i => leaf (o i)) o.
  Proof.
    exists 0, (init (fun i => leaf (o i))). split; [constructor; reflexivity|].
    split; reflexivity.
  Qed.

  Definition mapc {A B} (f : P -> A -> prog P M B) (c : config A) : config B :=
    mkConfig (fun i => bind (pr c i) (f i)) (ch c).

  Lemma step_mapc A B (f : P -> A -> prog P M B) i (c c' : config A) :
    step i c c' -> step i (mapc f c) (mapc f c').
  Proof.
    intros (Hm & Ho & Hs). split; [exact Hm|]. split; cbn.
    - intros j Hj. rewrite Ho by exact Hj. reflexivity.
    - destruct (pr c i) as [a|e|j m k|j k]; try contradiction; cbn.
      + destruct Hs as (H1 & H2 & H3 & H4). rewrite H2. auto.
      + destruct Hs as (m & H1 & H2 & H3). exists m. rewrite H2. auto.
  Qed.

  Lemma steps_mapc A B (f : P -> A -> prog P M B) n (c c' : config A) :
    steps n c c' -> steps n (mapc f c) (mapc f c').
  Proof.
    induction 1 as [c c' H1 H2|n i c c' c'' Hs Hss IH].
    - constructor; cbn; intros; [rewrite H1|rewrite H2]; reflexivity.
    - econstructor; [apply step_mapc; eassumption|exact IH].
  Qed.

  Lemma steps_app A n : forall k (a b c : config A), steps n a b -> steps k b c -> steps (n + k) a c.
  Proof.
    induction n as [|n IH]; intros k a b c H1 H2; inversion H1; subst; cbn.
    - eapply steps_ceq; [|apply ceq_refl|exact H2]. split; intros; symmetry; auto.
    - econstructor; [eassumption|]. eapply IH; eassumption.
  Qed.

  Lemma step_no_nonmember A i (c c' : config A) j : step i c c' -> ~ mem j -> pr c' j = pr c j.
  Proof. intros (Hm & Ho & _) Hj. apply Ho. intros ->. contradiction. Qed.

  (** Members' programs agree: enough for [comp]. *)
  Lemma steps_mem_ext A n : forall (c d e : config A),
    steps n c e -> (forall i, mem i -> pr c i = pr d i) -> (forall i j, ch c i j = ch d i j) ->
    exists f, steps n d f /\ (forall i, mem i -> pr e i = pr f i) /\ (forall i j, ch e i j = ch f i j).
  Proof.
    induction n as [|n IH]; intros c d e Hs Hp Hc.
    - inversion Hs as [c0 c1 E1 E2|]; subst. exists d. split; [constructor; reflexivity|]. split.
      + intros i Hi. rewrite <- E1. auto.
      + intros i j. rewrite <- E2. auto.
    - inversion Hs as [|n0 i c0 c1 e0 Hi Hrest]; subst.
      set (d1 := mkConfig (fun j => if peq j i then pr c1 i else pr d j) (ch c1)).
      assert (Hd : step i d d1).
      { destruct Hi as (Hm & Ho & Hst). split; [exact Hm|]. split; cbn.
        - intros j Hj. destruct (peq j i); congruence.
        - rewrite <- Hp by exact Hm. destruct (peq i i) as [_|]; [|congruence].
          destruct (pr c i) as [a|er|j m k|j k]; try contradiction.
          + destruct Hst as (H1 & H2 & H3 & H4). rewrite <- Hc. repeat split; auto.
            intros a b Hab. rewrite <- Hc. auto.
          + destruct Hst as (m & H1 & H2 & H3). exists m. rewrite <- Hc. repeat split; auto.
            intros a b Hab. rewrite <- Hc. auto. }
      destruct (IH c1 d1 e Hrest) as (f & Hf1 & Hf2 & Hf3).
      + intros j Hj. cbn. destruct (peq j i) as [->|Hne]; [reflexivity|].
        destruct Hi as (_ & Ho & _). rewrite Ho by exact Hne. auto.
      + reflexivity.
      + exists f. split; [econstructor; eassumption|]. auto.
  Qed.

  Lemma comp_mem_ext A (c d : config A) o :
    (forall i, mem i -> pr c i = pr d i) -> (forall i j, ch c i j = ch d i j) -> comp c o -> comp d o.
  Proof.
    intros Hp Hc (n & e & Hs & Hf1 & Hf2).
    destruct (steps_mem_ext d Hs Hp Hc) as (f & H1 & H2 & H3).
    exists n, f. split; [exact H1|]. split.
    - intros i Hi. rewrite <- H2 by exact Hi. auto.
    - intros i j. rewrite <- H3. auto.
  Qed.

  Lemma runs_mem_ext A (ps qs : P -> prog P M A) o :
    (forall i, mem i -> ps i = qs i) -> runs ps o -> runs qs o.
  Proof. intros H. apply comp_mem_ext; [exact H|reflexivity]. Qed.

  (** Sequential composition of complete runs. *)
  Theorem runs_bind A B (ps : P -> prog P M A) (a : P -> A)
          (ks : P -> A -> prog P M B) (o : P -> outcome B) :
    runs ps (fun i => Done (a i)) ->
    runs (fun i => ks i (a i)) o ->
    runs (fun i => bind (ps i) (ks i)) o.
  Proof.
    intros (n & c & Hn & Hp & Hc) Hk.
    assert (Hk' : comp (mapc ks c) o).
    { eapply comp_mem_ext; [| |exact Hk]; cbn.
      - intros i Hi. rewrite Hp by exact Hi. reflexivity.
      - intros i j. rewrite Hc. reflexivity. }
    destruct Hk' as (k & d & Hkd & Hd). exists (n + k), d. split; [|exact Hd].
    eapply steps_app; [|exact Hkd]. exact (steps_mapc ks Hn).
  Qed.
  (** Same when the first part may end in errors. *)
  Theorem runs_seq A B (ps : P -> prog P M A) (o : P -> outcome A)
          (ks : P -> A -> prog P M B) (o' : P -> outcome B) :
    runs ps o ->
    runs (fun i => bind (leaf (o i)) (ks i)) o' ->
    runs (fun i => bind (ps i) (ks i)) o'.
  Proof.
    intros (n & c & Hn & Hp & Hc) Hk.
    assert (Hk' : comp (mapc ks c) o').
    { eapply comp_mem_ext; [| |exact Hk]; cbn.
      - intros i Hi. rewrite Hp by exact Hi. reflexivity.
      - intros i j. rewrite Hc. reflexivity. }
    destruct Hk' as (k & d & Hkd & Hd). exists (n + k), d. split; [|exact Hd].
    eapply steps_app; [|exact Hkd]. exact (steps_mapc ks Hn).
  Qed.
End Net.
