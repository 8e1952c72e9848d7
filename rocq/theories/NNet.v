(** * n-party networks: specification predicate and proof rules

    Parties are the numbers below [n] ([usize] ids of mpc-net); programs of numbers from [n]
    on are irrelevant. *)
From Coq Require Import String List Arith Lia Bool.
From Verif Require Import Proc.
Import ListNotations.
Set Implicit Arguments.

Section NNet.
  Context {M : Type} (n cap : nat).
  Notation prog := (prog nat M).
  Notation queues := (nat -> nat -> list M).
  Definition memn (i : nat) : Prop := i < n.

  (** ** Specification *)
  (** Under every schedule all [n] parties finish without error and their results satisfy [Q]. *)
  Definition all_okn {A} (ps : nat -> prog A) (Q : (nat -> A) -> Prop) : Prop :=
    every_schedule memn cap ps (fun o => exists a, (forall i, i < n -> o i = Done (a i)) /\ Q a).
  (** Same, arbitrary outcomes. *)
  Definition all_endn {A} (ps : nat -> prog A) (Q : (nat -> outcome A) -> Prop) : Prop :=
    every_schedule memn cap ps Q.

  (** ** Proof rules: runs between queue contents *)
  Definition qeq (q q' : queues) : Prop := forall i j, q i j = q' i j.
  Definition reach {A} (q : queues) (ps : nat -> prog A) (q' : queues) (a : nat -> A) : Prop :=
    exists k c, steps memn cap k (mkConfig ps q) c /\ (forall i, i < n -> pr c i = Ret (a i)) /\ qeq (ch c) q'.
  Definition wpq {A} (q : queues) (ps : nat -> prog A) (q' : queues) (Q : (nat -> A) -> Prop) : Prop :=
    exists a, reach q ps q' a /\ Q a.
  Definition q0 : queues := fun _ _ => [].
  Definition wpn {A} (ps : nat -> prog A) (Q : (nat -> A) -> Prop) : Prop := wpq q0 ps q0 Q.
  Definition wpon {A} (ps : nat -> prog A) (Q : (nat -> outcome A) -> Prop) : Prop :=
    exists o, runs memn cap ps o /\ Q o.

  Lemma reach_runs {A} (ps : nat -> prog A) a : reach q0 ps q0 a -> runs memn cap ps (fun i => Done (a i)).
  Proof. intros (k & c & H1 & H2 & H3). exists k, c. split; [exact H1|]. split; [exact H2|exact H3]. Qed.
  Lemma runs_reach {A} (ps : nat -> prog A) a : runs memn cap ps (fun i => Done (a i)) -> reach q0 ps q0 a.
  Proof. intros (k & c & H1 & H2 & H3). exists k, c. split; [exact H1|]. split; [exact H2|exact H3]. Qed.
  Lemma wpn_all_ok {A} (ps : nat -> prog A) Q : wpn ps Q -> all_okn ps Q.
  Proof.
    intros (a & Hr & HQ). eapply runs_every_schedule; [exact Nat.eq_dec|exact (reach_runs Hr)|].
    exists a. split; [reflexivity|exact HQ].
  Qed.
  Lemma wpon_all_end {A} (ps : nat -> prog A) Q : wpon ps Q -> all_endn ps Q.
  Proof. intros (o & Hr & HQ). eapply runs_every_schedule; [exact Nat.eq_dec|exact Hr|exact HQ]. Qed.
  Lemma wpn_wpon {A} (ps : nat -> prog A) Q : wpn ps (fun a => Q (fun i => Done (a i))) -> wpon ps Q.
  Proof. intros (a & H1 & H2). exists (fun i => Done (a i)). split; [exact (reach_runs H1)|exact H2]. Qed.

  Lemma reach_mem_ext {A} q (ps qs : nat -> prog A) q' a :
    (forall i, i < n -> ps i = qs i) -> reach q ps q' a -> reach q qs q' a.
  Proof.
    intros E (k & c & H1 & H2 & H3).
    destruct (steps_mem_ext Nat.eq_dec (mkConfig qs q) H1 E (fun _ _ => eq_refl)) as (f & F1 & F2 & F3).
    exists k, f. split; [exact F1|]. split.
    - intros i Hi. rewrite <- F2 by exact Hi. auto.
    - intros i j. rewrite <- F3. apply H3.
  Qed.
  Lemma reach_q {A} q1 q2 q1' q2' (ps : nat -> prog A) a : qeq q1 q2 -> qeq q1' q2' -> reach q1 ps q1' a -> reach q2 ps q2' a.
  Proof.
    intros E E' (k & c & H1 & H2 & H3). exists k, c. split; [|split; [exact H2|]].
    - eapply steps_ceq; [|apply ceq_refl|exact H1]. split; [reflexivity|exact E].
    - intros i j. rewrite H3. apply E'.
  Qed.
  Lemma wpq_ext {A} q (ps qs : nat -> prog A) q' Q : (forall i, i < n -> ps i = qs i) -> wpq q qs q' Q -> wpq q ps q' Q.
  Proof.
    intros E (a & H1 & H2). exists a. split; [|exact H2]. eapply reach_mem_ext; [|exact H1].
    intros i Hi. symmetry. apply E. exact Hi.
  Qed.
  Lemma wpn_ext {A} (ps qs : nat -> prog A) Q : (forall i, i < n -> ps i = qs i) -> wpn qs Q -> wpn ps Q.
  Proof. apply wpq_ext. Qed.
  Lemma wpq_mono {A} q (ps : nat -> prog A) q' (Q Q' : (nat -> A) -> Prop) : (forall a, Q a -> Q' a) -> wpq q ps q' Q -> wpq q ps q' Q'.
  Proof. intros E (a & H1 & H2). exists a. auto. Qed.
  Lemma wpn_mono {A} (ps : nat -> prog A) (Q Q' : (nat -> A) -> Prop) : (forall a, Q a -> Q' a) -> wpn ps Q -> wpn ps Q'.
  Proof. apply wpq_mono. Qed.
  Lemma wpon_mono {A} (ps : nat -> prog A) (Q Q' : (nat -> outcome A) -> Prop) : (forall a, Q a -> Q' a) -> wpon ps Q -> wpon ps Q'.
  Proof. intros E (a & H1 & H2). exists a. auto. Qed.
  Lemma wpq_q {A} q1 q2 q1' q2' (ps : nat -> prog A) Q : qeq q1 q2 -> qeq q1' q2' -> wpq q1 ps q1' Q -> wpq q2 ps q2' Q.
  Proof. intros E E' (a & H1 & H2). exists a. split; [exact (reach_q E E' H1)|exact H2]. Qed.
  Lemma wpq_ret {A} q (a : nat -> A) (Q : (nat -> A) -> Prop) : Q a -> wpq q (fun i => Ret (a i)) q Q.
  Proof.
    intros HQ. exists a. split; [|exact HQ]. exists 0, (mkConfig (fun i => Ret (a i)) q).
    split; [constructor; reflexivity|]. split; [reflexivity|intros ? ?; reflexivity].
  Qed.
  Lemma wpn_ret {A} (a : nat -> A) (Q : (nat -> A) -> Prop) : Q a -> wpn (fun i => Ret (a i)) Q.
  Proof. apply wpq_ret. Qed.
  (** values of the members only *)
  Lemma wpn_ret_ext {A} (ps : nat -> prog A) (a : nat -> A) (Q : (nat -> A) -> Prop) :
    (forall i, i < n -> ps i = Ret (a i)) -> Q a -> wpn ps Q.
  Proof. intros E HQ. eapply wpn_ext; [exact E|]. apply wpn_ret. exact HQ. Qed.
  Lemma wpq_bind {A B} q (ps : nat -> prog A) q1 (ks : nat -> A -> prog B) q' (Q : (nat -> B) -> Prop) :
    wpq q ps q1 (fun a => wpq q1 (fun i => ks i (a i)) q' Q) -> wpq q (fun i => bind (ps i) (ks i)) q' Q.
  Proof.
    intros (a & (k & c & H1 & H2 & H3) & b & (k' & c' & K1 & K2 & K3) & HQ). exists b. split; [|exact HQ].
    destruct (steps_mem_ext Nat.eq_dec (mapc ks c) K1) as (f & F1 & F2 & F3).
    - intros i Hi. cbn. rewrite H2 by exact Hi. reflexivity.
    - intros i j. cbn. symmetry. apply H3.
    - exists (k + k'), f. split; [|split].
      + eapply steps_app; [|exact F1]. exact (steps_mapc ks H1).
      + intros i Hi. rewrite <- F2 by exact Hi. auto.
      + intros i j. rewrite <- F3. apply K3.
  Qed.
  Lemma wpn_bind {A B} (ps : nat -> prog A) (ks : nat -> A -> prog B) (Q : (nat -> B) -> Prop) :
    wpn ps (fun a => wpn (fun i => ks i (a i)) Q) -> wpn (fun i => bind (ps i) (ks i)) Q.
  Proof. apply wpq_bind. Qed.
  Lemma wpon_bind {A B} (ps : nat -> prog A) (ks : nat -> A -> prog B) (Q : (nat -> outcome B) -> Prop) :
    wpn ps (fun a => wpon (fun i => ks i (a i)) Q) -> wpon (fun i => bind (ps i) (ks i)) Q.
  Proof.
    intros (a & Hr & b & Hb & HQ). exists b. split; [|exact HQ].
    eapply runs_bind; [exact Nat.eq_dec|exact (reach_runs Hr)|exact Hb].
  Qed.
  Lemma wpon_seq {A B} (ps : nat -> prog A) (ks : nat -> A -> prog B) (Q : (nat -> outcome B) -> Prop) :
    wpon ps (fun o => wpon (fun i => bind (leaf (o i)) (ks i)) Q) -> wpon (fun i => bind (ps i) (ks i)) Q.
  Proof.
    intros (a & Hr & b & Hb & HQ). exists b. split; [|exact HQ].
    eapply runs_seq; [exact Nat.eq_dec|exact Hr|exact Hb].
  Qed.
  Lemma wpon_ext {A} (ps qs : nat -> prog A) Q : (forall i, i < n -> ps i = qs i) -> wpon qs Q -> wpon ps Q.
  Proof.
    intros E (o & H1 & H2). exists o. split; [|exact H2]. eapply runs_mem_ext; [exact Nat.eq_dec| |exact H1].
    intros i Hi. symmetry. apply E. exact Hi.
  Qed.
  Lemma wpon_fail {A} (ps : nat -> prog A) (e : err) (Q : (nat -> outcome A) -> Prop) :
    (forall i, i < n -> ps i = Fail e) -> Q (fun _ => Failed e) -> wpon ps Q.
  Proof.
    intros E HQ. exists (fun _ => Failed e). split; [|exact HQ].
    eapply runs_mem_ext; [exact Nat.eq_dec| |exact (runs_ret memn cap (fun i => @Failed A e))].
    intros i Hi. symmetry. apply E. exact Hi.
  Qed.
  (** results of members determine the postcondition *)
  Lemma wpn_strengthen {A} (ps : nat -> prog A) (Q : (nat -> A) -> Prop) : wpn ps Q -> wpn ps Q.
  Proof. auto. Qed.

  (** ** One party alone *)
  Inductive local {A} (i : nat) : prog A -> queues -> prog A -> queues -> Prop :=
  | l_refl p q q' : qeq q q' -> local i p q p q'
  | l_send j m k q q1 p' q' :
      length (q i j) < cap -> q1 i j = q i j ++ [m] -> (forall a b, (a, b) <> (i, j) -> q1 a b = q a b) ->
      local i k q1 p' q' -> local i (Send j m k) q p' q'
  | l_recv j m k q q1 p' q' :
      q j i = m :: q1 j i -> (forall a b, (a, b) <> (j, i) -> q1 a b = q a b) ->
      local i (k m) q1 p' q' -> local i (Recv j k) q p' q'.

  Lemma local_bind {A B} i (p : prog A) q p' q' (f : A -> prog B) : local i p q p' q' -> local i (bind p f) q (bind p' f) q'.
  Proof.
    induction 1 as [p q q' E|j m k q q1 p' q' H1 H2 H3 H4 IH|j m k q q1 p' q' H1 H2 H3 IH]; cbn [bind].
    - apply l_refl. exact E.
    - eapply l_send; eassumption.
    - eapply l_recv; eassumption.
  Qed.
  Lemma local_qeq {A} i (p : prog A) q p' q' : local i p q p' q' -> forall q1, qeq q q1 -> local i p q1 p' q'.
  Proof.
    induction 1 as [p q q' E|j m k q q1 p' q' H1 H2 H3 H4 IH|j m k q q1 p' q' H1 H2 H3 IH]; intros r Hr.
    - apply l_refl. intros a b. rewrite <- Hr. apply E.
    - eapply l_send with (q1 := q1); [rewrite <- Hr; exact H1|rewrite H2, Hr; reflexivity| |exact H4].
      intros a b Hab. rewrite H3, Hr by exact Hab. reflexivity.
    - eapply l_recv with (q1 := q1); [rewrite <- Hr; exact H1| |exact H3].
      intros a b Hab. rewrite H2, Hr by exact Hab. reflexivity.
  Qed.
  Lemma local_trans {A} i (p : prog A) q p1 q1 p2 q2 : local i p q p1 q1 -> local i p1 q1 p2 q2 -> local i p q p2 q2.
  Proof.
    intros H1. revert p2 q2. induction H1 as [p q q' E|j m k q q1 p' q' H1 H2 H3 H4 IH|j m k q q1 p' q' H1 H2 H3 IH]; intros p2 q2 K.
    - eapply local_qeq; [exact K|]. intros a b. symmetry. apply E.
    - eapply l_send; [exact H1|exact H2|exact H3|]. apply IH. exact K.
    - eapply l_recv; [exact H1|exact H2|]. apply IH. exact K.
  Qed.
  Lemma local_steps {A} i (p : prog A) q p' q' : i < n -> local i p q p' q' -> forall ps : nat -> prog A, ps i = p ->
    exists k c, steps memn cap k (mkConfig ps q) c /\ pr c i = p' /\ (forall j, j <> i -> pr c j = ps j) /\ qeq (ch c) q'.
  Proof.
    intros Hi. induction 1 as [p q q' E|j m k q q1 p' q' H1 H2 H3 H4 IH|j m k q q1 p' q' H1 H2 H3 IH]; intros ps Ep.
    - exists 0, (mkConfig ps q). split; [constructor; reflexivity|]. split; [exact Ep|]. split; [reflexivity|exact E].
    - destruct (IH (upd Nat.eq_dec ps i k)) as (s & c & C1 & C2 & C3 & C4); [apply upd_same|].
      exists (S s), c. split; [|split; [exact C2|split; [|exact C4]]].
      + eapply steps_S with (i := i); [|exact C1]. split; [exact Hi|]. split; cbn [pr ch].
        * intros x Hx. apply upd_other. exact Hx.
        * rewrite Ep, upd_same. split; [exact H1|]. split; [reflexivity|]. split; [exact H2|exact H3].
      + intros x Hx. rewrite C3 by exact Hx. apply upd_other. exact Hx.
    - destruct (IH (upd Nat.eq_dec ps i (k m))) as (s & c & C1 & C2 & C3 & C4); [apply upd_same|].
      exists (S s), c. split; [|split; [exact C2|split; [|exact C4]]].
      + eapply steps_S with (i := i); [|exact C1]. split; [exact Hi|]. split; cbn [pr ch].
        * intros x Hx. apply upd_other. exact Hx.
        * rewrite Ep, upd_same. exists m. split; [exact H1|]. split; [reflexivity|exact H2].
      + intros x Hx. rewrite C3 by exact Hx. apply upd_other. exact Hx.
  Qed.

  (** the parties one after the other *)
  Lemma reach_seq {A} (qs : nat -> queues) (ps : nat -> prog A) a :
    (forall k, k < n -> local k (ps k) (qs k) (Ret (a k)) (qs (S k))) -> reach (qs 0) ps (qs n) a.
  Proof.
    intros HL.
    assert (K : forall k, k <= n -> exists s c, steps memn cap s (mkConfig ps (qs 0)) c /\
                 (forall i, i < k -> pr c i = Ret (a i)) /\ (forall i, k <= i -> pr c i = ps i) /\ qeq (ch c) (qs k)).
    { induction k as [|k IH]; intros Hk.
      - exists 0, (mkConfig ps (qs 0)). split; [constructor; reflexivity|]. split; [intros i Hi; lia|]. split; [reflexivity|intros ? ?; reflexivity].
      - destruct (IH ltac:(lia)) as (s & c & C1 & C2 & C3 & C4).
        assert (Hkn : k < n) by lia. destruct (local_steps Hkn (HL k Hkn) (pr c) (C3 k (le_n k))) as (s' & c' & D1 & D2 & D3 & D4).
        exists (s + s'), c'. split; [|split; [|split; [|exact D4]]].
        + eapply steps_app; [exact C1|]. eapply steps_ceq; [|apply ceq_refl|exact D1].
          split; [reflexivity|]. intros i j. cbn. symmetry. apply C4.
        + intros i Hi. destruct (Nat.eq_dec i k) as [->|Hne]; [exact D2|]. rewrite D3 by exact Hne. apply C2. lia.
        + intros i Hi. rewrite D3 by lia. apply C3. lia. }
    destruct (K n (le_n n)) as (s & c & C1 & C2 & C3 & C4). exists s, c. auto.
  Qed.

  (** ** Sends and receives of all parties *)
  (** messages for [b] in an outbox (or from [b] in an inbox), in order *)
  Definition msgs (b : nat) (l : list (nat * M)) : list M := map snd (filter (fun x => (fst x =? b)%nat) l).
  Lemma msgs_app b l k : msgs b (l ++ k) = msgs b l ++ msgs b k.
  Proof. unfold msgs. rewrite filter_app, map_app. reflexivity. Qed.
  Lemma msgs_cons b j m l : msgs b ((j, m) :: l) = if (j =? b)%nat then m :: msgs b l else msgs b l.
  Proof. unfold msgs. cbn [filter fst]. destruct (j =? b)%nat; reflexivity. Qed.
  Fixpoint send_list {A} (l : list (nat * M)) (k : prog A) : prog A :=
    match l with [] => k | (j, m) :: l => Send j m (send_list l k) end.
  Lemma local_sends {A} i l : forall (q q' : queues) (k : prog A),
    (forall b, length (q i b) + length (msgs b l) <= cap) ->
    (forall b, q' i b = q i b ++ msgs b l) -> (forall a b, a <> i -> q' a b = q a b) ->
    local i (send_list l k) q k q'.
  Proof.
    induction l as [|[j m] l IH]; intros q q' k Hc Hi Ho; cbn [send_list].
    - apply l_refl. intros a b. destruct (Nat.eq_dec a i) as [->|Hne]; [|symmetry; auto].
      rewrite Hi. cbn. rewrite app_nil_r. reflexivity.
    - set (q1 := upd2 Nat.eq_dec q i j (q i j ++ [m])).
      assert (E1 : forall b, q1 i b = if (j =? b)%nat then q i b ++ [m] else q i b).
      { intros b. destruct (Nat.eqb_spec j b) as [->|Hne]; [apply upd2_same|]. apply upd2_other. congruence. }
      apply l_send with (q1 := q1).
      + specialize (Hc j). rewrite msgs_cons, Nat.eqb_refl in Hc. cbn [length] in Hc. lia.
      + apply upd2_same.
      + intros a b Hab. apply upd2_other. exact Hab.
      + apply IH.
        * intros b. specialize (Hc b). rewrite msgs_cons in Hc. rewrite E1. destruct (j =? b)%nat; [|exact Hc].
          rewrite app_length. cbn [length] in Hc |- *. lia.
        * intros b. rewrite E1, Hi, msgs_cons. destruct (j =? b)%nat; [rewrite <- app_assoc; reflexivity|reflexivity].
        * intros a b Hne. rewrite Ho by exact Hne. symmetry. apply upd2_other. congruence.
  Qed.
  (** a program that receives from the given parties in order *)
  Inductive recvs {A} : list (nat * M) -> prog A -> prog A -> Prop :=
  | rc_nil p : recvs [] p p
  | rc_cons j m l k p' : recvs l (k m) p' -> recvs ((j, m) :: l) (Recv j k) p'.
  Lemma recvs_bind {A B} l (p p' : prog A) (f : A -> prog B) : recvs l p p' -> recvs l (bind p f) (bind p' f).
  Proof. induction 1; cbn [bind]; constructor. exact IHrecvs. Qed.
  Lemma recvs_app {A} l k (p p1 p2 : prog A) : recvs l p p1 -> recvs k p1 p2 -> recvs (l ++ k) p p2.
  Proof. induction 1 as [p|j m l kk p' H IH]; intros K; cbn [app]; [exact K|]. constructor. apply IH. exact K. Qed.
  Lemma local_recvs {A} i l (p p' : prog A) : recvs l p p' -> forall (q q' : queues),
    (forall b, q b i = msgs b l ++ q' b i) -> (forall a b, b <> i -> q' a b = q a b) -> local i p q p' q'.
  Proof.
    induction 1 as [p|j m l k p' H IH]; intros q q' Hi Ho.
    - apply l_refl. intros a b. destruct (Nat.eq_dec b i) as [->|Hne]; [rewrite Hi; reflexivity|symmetry; auto].
    - set (q1 := upd2 Nat.eq_dec q j i (msgs j l ++ q' j i)).
      assert (E1 : forall b, q1 b i = msgs b l ++ q' b i).
      { intros b. destruct (Nat.eq_dec b j) as [->|Hne]; [apply upd2_same|]. unfold q1. rewrite upd2_other by congruence.
        rewrite Hi, msgs_cons. destruct (Nat.eqb_spec j b); [congruence|reflexivity]. }
      apply l_recv with (m := m) (q1 := q1).
      + rewrite Hi, msgs_cons, Nat.eqb_refl, E1. reflexivity.
      + intros a b Hab. apply upd2_other. exact Hab.
      + apply IH; [exact E1|]. intros a b Hne. rewrite Ho by exact Hne. symmetry. apply upd2_other. congruence.
  Qed.
  (** all parties send *)
  Lemma wpq_sends {A} (q q' : queues) (out : nat -> list (nat * M)) (a : nat -> A) (Q : (nat -> A) -> Prop) :
    (forall i b, i < n -> length (q i b) + length (msgs b (out i)) <= cap) ->
    (forall i b, i < n -> q' i b = q i b ++ msgs b (out i)) -> (forall i b, n <= i -> q' i b = q i b) -> Q a ->
    wpq q (fun i => send_list (out i) (Ret (a i))) q' Q.
  Proof.
    intros Hc Hi Ho HQ. exists a. split; [|exact HQ].
    pose (qs := fun k i b => if (i <? k)%nat then q' i b else q i b).
    eapply reach_q; [| |apply (@reach_seq A qs)].
    - intros i b. reflexivity.
    - intros i b. unfold qs. destruct (Nat.ltb_spec i n); [reflexivity|]. symmetry. auto.
    - intros k Hk. apply local_sends.
      + intros b. unfold qs. rewrite (proj2 (Nat.ltb_ge k k)) by lia. apply Hc. exact Hk.
      + intros b. unfold qs. rewrite (proj2 (Nat.ltb_ge k k)) by lia. rewrite (proj2 (Nat.ltb_lt k (S k))) by lia. apply Hi. exact Hk.
      + intros i b Hne. unfold qs. destruct (Nat.ltb_spec i k), (Nat.ltb_spec i (S k)); try lia; reflexivity.
  Qed.
  (** all parties receive *)
  Lemma wpq_recvs {A} (q q' : queues) (inb : nat -> list (nat * M)) (ps : nat -> prog A) (a : nat -> A) (Q : (nat -> A) -> Prop) :
    (forall i, i < n -> recvs (inb i) (ps i) (Ret (a i))) ->
    (forall i b, i < n -> q b i = msgs b (inb i) ++ q' b i) -> (forall i b, n <= i -> q' b i = q b i) -> Q a ->
    wpq q ps q' Q.
  Proof.
    intros Hr Hi Ho HQ. exists a. split; [|exact HQ].
    pose (qs := fun k b i => if (i <? k)%nat then q' b i else q b i).
    eapply reach_q; [| |apply (@reach_seq A qs)].
    - intros i b. reflexivity.
    - intros b i. unfold qs. destruct (Nat.ltb_spec i n); [reflexivity|]. symmetry. auto.
    - intros k Hk. eapply local_recvs; [apply Hr; exact Hk| |].
      + intros b. unfold qs. rewrite (proj2 (Nat.ltb_ge k k)) by lia. rewrite (proj2 (Nat.ltb_lt k (S k))) by lia. apply Hi. exact Hk.
      + intros b i Hne. unfold qs. destruct (Nat.ltb_spec i k), (Nat.ltb_spec i (S k)); try lia; reflexivity.
  Qed.
  (** outboxes and inboxes given by a list of distinct peers *)
  Lemma msgs_map b ds (f : nat -> M) : NoDup ds -> msgs b (map (fun d => (d, f d)) ds) = if in_dec Nat.eq_dec b ds then [f b] else [].
  Proof.
    induction ds as [|d ds IH]; intros ND; cbn [map]; [reflexivity|]. inversion ND as [|x l N1 N2]; subst.
    rewrite msgs_cons, IH by exact N2. destruct (Nat.eqb_spec d b) as [->|Hne].
    - destruct (in_dec Nat.eq_dec b ds) as [I|I]; [contradiction|]. destruct (in_dec Nat.eq_dec b (b :: ds)) as [J|J]; [reflexivity|]. exfalso. apply J. left. reflexivity.
    - destruct (in_dec Nat.eq_dec b ds) as [I|I], (in_dec Nat.eq_dec b (d :: ds)) as [J|J]; try reflexivity.
      + exfalso. apply J. right. exact I.
      + exfalso. destruct J as [J|J]; congruence.
  Qed.
  (** every party [a] sends one message to each of [dsts a], [b] receives from [srcs b] *)
  Definition box (dsts : nat -> list nat) (m : nat -> nat -> M) : queues :=
    fun a b => if (a <? n)%nat then (if in_dec Nat.eq_dec b (dsts a) then [m a b] else []) else [].
  Lemma wpq_send_box {A} (q : queues) dsts m (v : nat -> A) (Q : (nat -> A) -> Prop) :
    (forall a, a < n -> NoDup (dsts a)) ->
    (forall a b, a < n -> In b (dsts a) -> length (q a b) < cap) ->
    (forall a b, a < n -> length (q a b) <= cap) -> Q v ->
    wpq q (fun i => send_list (map (fun d => (d, m i d)) (dsts i)) (Ret (v i))) (fun a b => q a b ++ box dsts m a b) Q.
  Proof.
    intros ND Hc Hc' HQ. apply wpq_sends; [| | |exact HQ].
    - intros i b Hi. rewrite msgs_map by auto. destruct (in_dec Nat.eq_dec b (dsts i)) as [I|I].
      + specialize (Hc i b Hi I). cbn [length]. lia.
      + specialize (Hc' i b Hi). cbn [length]. lia.
    - intros i b Hi. rewrite msgs_map by auto. unfold box. rewrite (proj2 (Nat.ltb_lt i n) Hi). reflexivity.
    - intros i b Hi. unfold box. rewrite (proj2 (Nat.ltb_ge i n) Hi). apply app_nil_r.
  Qed.
  Lemma wpq_recv_box {A} (q' : queues) dsts srcs m (ps : nat -> prog A) (r : nat -> A) (Q : (nat -> A) -> Prop) :
    (forall b, b < n -> NoDup (srcs b)) ->
    (forall a b, a < n -> In b (dsts a) -> b < n) -> (forall a b, b < n -> In a (srcs b) -> a < n) ->
    (forall a b, a < n -> b < n -> In b (dsts a) <-> In a (srcs b)) ->
    (forall i, i < n -> recvs (map (fun s => (s, m s i)) (srcs i)) (ps i) (Ret (r i))) -> Q r ->
    wpq (fun a b => box dsts m a b ++ q' a b) ps q' Q.
  Proof.
    intros ND Hd Hs Hds Hr HQ. apply wpq_recvs with (inb := fun i => map (fun s => (s, m s i)) (srcs i)) (a := r); [exact Hr| | |exact HQ].
    - intros i b Hi. rewrite msgs_map with (f := fun s => m s i) by auto. f_equal. unfold box.
      destruct (Nat.ltb_spec b n) as [Hb|Hb].
      + destruct (in_dec Nat.eq_dec i (dsts b)) as [I|I], (in_dec Nat.eq_dec b (srcs i)) as [J|J]; try reflexivity.
        * exfalso. apply J. apply Hds; assumption.
        * exfalso. apply I. apply Hds; assumption.
      + destruct (in_dec Nat.eq_dec b (srcs i)) as [J|J]; [|reflexivity]. specialize (Hs b i Hi J). lia.
    - intros i b Hi. unfold box. destruct (Nat.ltb_spec b n) as [Hb|Hb]; [|reflexivity].
      destruct (in_dec Nat.eq_dec i (dsts b)) as [I|I]; [|reflexivity]. specialize (Hd b i Hb I). lia.
  Qed.
End NNet.
Arguments wpn_all_ok {M n cap A} [ps Q] _.
Arguments wpon_all_end {M n cap A} [ps Q] _.

(** ** Cyclic indices *)
Lemma mod_add_lt n a k : a < n -> k <= n -> (a + k) mod n = if (a + k <? n)%nat then a + k else a + k - n.
Proof.
  intros Ha Hk. destruct (Nat.ltb_spec (a + k) n).
  - apply Nat.mod_small. exact H.
  - assert (E : a + k = (a + k - n) + 1 * n) by lia. rewrite E at 1. rewrite Nat.mod_add by lia. apply Nat.mod_small. lia.
Qed.
Lemma mod_sub_lt n b k : b < n -> k <= n -> (b + n - k) mod n = if (b <? k)%nat then b + n - k else b - k.
Proof.
  intros Hb Hk. destruct (Nat.ltb_spec b k).
  - apply Nat.mod_small. lia.
  - assert (E : b + n - k = (b - k) + 1 * n) by lia. rewrite E. rewrite Nat.mod_add by lia. apply Nat.mod_small. lia.
Qed.
Lemma NoDup_map_seq (f : nat -> nat) a k : (forall x y, a <= x < a + k -> a <= y < a + k -> f x = f y -> x = y) -> NoDup (map f (seq a k)).
Proof.
  revert a. induction k as [|k IH]; intros a H; cbn; [constructor|]. constructor.
  - intros I. apply in_map_iff in I. destruct I as (x & E & Hx). apply in_seq in Hx. assert (x = a) by (apply H; lia). lia.
  - apply IH. intros x y Hx Hy. apply H; lia.
Qed.
