(** * The in-process network and its statistics

    Models mpc-net/src/local.rs ([LocalNetwork]) and [ConnectionStats] of mpc-net/src/lib.rs.
    A channel is a number into a table of queues (crossbeam's [bounded(32)]); both ends hold the
    number. A message is a list of [B]s (bytes). *)
From Coq Require Import String Bool Arith NArith Lia.
From Coq Require Import List.
From Verif Require Import Proc.
Import ListNotations.
Set Implicit Arguments.

(** [IntMap]: an association list *)
Section IntMap.
  Context {V : Type}.
  Definition imap := list (nat * V).
  Definition im_get (k : nat) (m : imap) : option V := option_map snd (find (fun e => (fst e =? k)%nat) m).
  Definition im_insert (k : nat) (v : V) (m : imap) : imap := (k, v) :: filter (fun e => negb (fst e =? k)%nat) m.
  Lemma im_get_insert k v m k' : im_get k' (im_insert k v m) = if (k =? k')%nat then Some v else im_get k' m.
  Proof.
    unfold im_get, im_insert. cbn [find fst]. destruct (k =? k') eqn:E; [reflexivity|].
    apply Nat.eqb_neq in E. induction m as [|(a, b) m IH]; [reflexivity|]. cbn [filter find fst].
    destruct (a =? k) eqn:E1; cbn [negb].
    - apply Nat.eqb_eq in E1. subst a. destruct (k =? k') eqn:E2; [apply Nat.eqb_eq in E2; congruence|exact IH].
    - cbn [find fst]. destruct (a =? k'); [reflexivity|exact IH].
  Qed.
End IntMap.
Arguments imap : clear implicits.
(** overwriting one element of a vector *)
Definition upd_at {X} (f : nat -> X) (i : nat) (x : X) : nat -> X := fun j => if (j =? i)%nat then x else f j.
Lemma upd_at_same {X} (f : nat -> X) i x : upd_at f i x i = x.
Proof. unfold upd_at. rewrite Nat.eqb_refl. reflexivity. Qed.
Lemma upd_at_other {X} (f : nat -> X) i x j : j <> i -> upd_at f i x j = f j.
Proof. intros H. unfold upd_at. destruct (j =? i) eqn:E; [apply Nat.eqb_eq in E; congruence|reflexivity]. Qed.

Section Local.
  Context {B : Type}.
  Definition queue_cap : nat := 32.
  (** local.rs:13-18 [LocalNetwork], for all parties at once: per party the two maps from a peer to
      (channel, byte counter); and the queues *)
  Record world := mkWorld {
    w_send : nat -> imap (nat * N);
    w_recv : nat -> imap (nat * N);
    w_next : nat;
    w_chan : nat -> list (list B) }.
  (** local.rs:40-44: one pass of the inner loop *)
  Definition connect_pair (w : world) (ij : nat * nat) : world :=
    let (i, j) := ij in
    if (i =? j)%nat then w
    else mkWorld (upd_at (w_send w) i (im_insert j (w_next w, 0%N) (w_send w i)))
                 (upd_at (w_recv w) j (im_insert i (w_next w, 0%N) (w_recv w j)))
                 (S (w_next w)) (w_chan w).
  (** local.rs:27-58 [new_with_timeout]: the nested loops *)
  Definition local_new (num_parties : nat) : world :=
    fold_left connect_pair (list_prod (seq 0 num_parties) (seq 0 num_parties))
      (mkWorld (fun _ => []) (fun _ => []) 0 (fun _ => [])).

  (** local.rs:71-82 [send]: [SFull] is the state in which the call waits; without a time-out it
      goes on as soon as there is room, with one it fails ("send to party .. timed out") *)
  Inductive sendres := SErr (e : err) | SOk (w : world) | SFull (w : world).
  Definition l_send (w : world) (id to : nat) (data : list B) : sendres :=
    match im_get to (w_send w id) with
    | None => SErr (Eyre "party id out-of-bounds")
    | Some (c, sent) =>
        let w1 := mkWorld (upd_at (w_send w) id (im_insert to (c, (sent + N.of_nat (length data))%N) (w_send w id)))
                          (w_recv w) (w_next w) (w_chan w) in
        if (length (w_chan w c) <? queue_cap)%nat
        then SOk (mkWorld (w_send w1) (w_recv w1) (w_next w1) (upd_at (w_chan w) c (w_chan w c ++ [data])))
        else SFull w1
    end.
  (** local.rs:84-95 [recv]: [RvEmpty]: waits (or times out) *)
  Inductive recvres := RvErr (e : err) | RvOk (data : list B) (w : world) | RvEmpty.
  Definition l_recv (w : world) (id from : nat) : recvres :=
    match im_get from (w_recv w id) with
    | None => RvErr (Eyre "party id out-of-bounds")
    | Some (c, n) =>
        match w_chan w c with
        | [] => RvEmpty
        | data :: q => RvOk data (mkWorld (w_send w)
                          (upd_at (w_recv w) id (im_insert from (c, (n + N.of_nat (length data))%N) (w_recv w id)))
                          (w_next w) (upd_at (w_chan w) c q))
        end
    end.
  (** lib.rs:88-91 [ConnectionStats]: a [BTreeMap] as a list ordered by key *)
  Definition stats := list (nat * (N * N)).
  Fixpoint bt_insert (k : nat) (v : N * N) (m : stats) : stats :=
    match m with
    | [] => [(k, v)]
    | (k', v') :: m' => if (k <? k')%nat then (k, v) :: m
                        else if (k =? k')%nat then (k, v) :: m' else (k', v') :: bt_insert k v m'
    end.
  Definition bt_get (k : nat) (m : stats) : option (N * N) := option_map snd (find (fun e => (fst e =? k)%nat) m).
  (** local.rs:97-113 [get_connection_stats] (the same text as blocking.rs:138-151); [None] is the
      panic of [expect] *)
  Fixpoint stats_loop (sends : imap (nat * N)) (recvs : imap (nat * N)) (acc : stats) : option stats :=
    match sends with
    | [] => Some acc
    | (id, (_, sent)) :: sends =>
        match im_get id recvs with
        | None => None
        | Some (_, rcvd) => stats_loop sends recvs (bt_insert id (sent, rcvd) acc)
        end
    end.
  Definition get_connection_stats (w : world) (id : nat) : option stats := stats_loop (w_send w id) (w_recv w id) [].
  (** lib.rs:111-121 [get_diff_to]: [None] is the panic of a subtraction with underflow (the
      release build wraps around); the resulting [HashMap] as an association list *)
  Fixpoint get_diff_to (self other : stats) : option (imap (N * N)) :=
    match self with
    | [] => Some []
    | (id, (sent, rcvd)) :: self =>
        match get_diff_to self other with
        | None => None
        | Some diff =>
            match bt_get id other with
            | Some (os, orc) => if (os <=? sent)%N && (orc <=? rcvd)%N then Some (im_insert id (sent - os, rcvd - orc)%N diff) else None
            | None => Some (im_insert id (sent, rcvd) diff)
            end
        end
    end.

  (** ** Runs: calls that complete, in the order in which they complete *)
  Inductive lev :=
  | LSent (i to : nat) (data : list B)
  | LSendTimeout (i to : nat) (data : list B)
  | LRecvd (j from : nat) (data : list B)
  | LRecvTimeout (j from : nat).
  Inductive lrun : world -> list lev -> world -> Prop :=
  | lrun_nil : forall w, lrun w [] w
  | lrun_sent : forall w i to data w1 es w2, l_send w i to data = SOk w1 -> lrun w1 es w2 -> lrun w (LSent i to data :: es) w2
  | lrun_stimeout : forall w i to data w1 es w2, l_send w i to data = SFull w1 -> lrun w1 es w2 -> lrun w (LSendTimeout i to data :: es) w2
  | lrun_recvd : forall w j from data w1 es w2, l_recv w j from = RvOk data w1 -> lrun w1 es w2 -> lrun w (LRecvd j from data :: es) w2
  | lrun_rtimeout : forall w j from es w2, l_recv w j from = RvEmpty -> lrun w es w2 -> lrun w (LRecvTimeout j from :: es) w2.

  (** * Specification *)
  (** messages party [i] sent to [j], messages [j] received from [i], and byte totals, in a run *)
  Definition sent_msgs (i j : nat) (es : list lev) : list (list B) :=
    flat_map (fun e => match e with LSent a b d => if (a =? i) && (b =? j) then [d] else [] | _ => [] end) es.
  Definition recvd_msgs (j i : nat) (es : list lev) : list (list B) :=
    flat_map (fun e => match e with LRecvd b a d => if (a =? i) && (b =? j) then [d] else [] | _ => [] end) es.
  Definition timed_out_msgs (i j : nat) (es : list lev) : list (list B) :=
    flat_map (fun e => match e with LSendTimeout a b d => if (a =? i) && (b =? j) then [d] else [] | _ => [] end) es.
  Definition bytes (ms : list (list B)) : N := fold_right (fun m n => N.of_nat (length m) + n)%N 0%N ms.

  (** * Proofs *)
  Definition pair_ok (chan : nat -> nat -> nat) (w : world) (i j : nat) (s r : N) : Prop :=
    im_get j (w_send w i) = Some (chan i j, s) /\ im_get i (w_recv w j) = Some (chan i j, r).
  Definition injective_on (n : nat) (chan : nat -> nat -> nat) : Prop :=
    forall i j i' j', i < n -> j < n -> i <> j -> i' < n -> j' < n -> i' <> j' -> chan i j = chan i' j' -> i = i' /\ j = j'.

  (** channels built by the first pairs [l] *)
  Definition built (l : list (nat * nat)) (w : world) : Prop :=
    exists chan : nat -> nat -> nat,
      (forall i j, In (i, j) l -> i <> j -> pair_ok chan w i j 0 0 /\ chan i j < w_next w) /\
      (forall i j, (~ In (i, j) l \/ i = j) -> im_get j (w_send w i) = None /\ im_get i (w_recv w j) = None) /\
      (forall i j i' j', In (i, j) l -> In (i', j') l -> i <> j -> i' <> j' -> chan i j = chan i' j' -> i = i' /\ j = j') /\
      (forall c, w_chan w c = []).
  Lemma built_step l w i j : built l w -> ~ In (i, j) l -> built (l ++ [(i, j)]) (connect_pair w (i, j)).
  Proof.
    intros (chan & H1 & H2 & H3 & H4) Hn. unfold connect_pair.
    destruct (i =? j) eqn:E.
    - apply Nat.eqb_eq in E. subst j. exists chan. split; [|split; [|split; [|exact H4]]].
      + intros a b Hin Hab. apply in_app_or in Hin. destruct Hin as [Hin|[Hin|[]]]; [auto|]. congruence.
      + intros a b [Hin|Hab]; [|auto]. apply H2. left. intros X. apply Hin. apply in_or_app. auto.
      + intros a b a' b' Hin Hin' Hab Hab'. apply in_app_or in Hin, Hin'.
        destruct Hin as [Hin|[Hin|[]]]; [|congruence]. destruct Hin' as [Hin'|[Hin'|[]]]; [|congruence]. auto.
    - apply Nat.eqb_neq in E. set (c0 := w_next w).
      exists (fun a b => if (a =? i) && (b =? j) then c0 else chan a b).
      assert (D : forall a b, (a =? i) && (b =? j) = false -> (a, b) <> (i, j)).
      { intros a b Hd Hc. injection Hc as -> ->. rewrite !Nat.eqb_refl in Hd. discriminate. }
      assert (D2 : forall a b, (a =? i) && (b =? j) = true -> a = i /\ b = j).
      { intros a b Hd. apply andb_prop in Hd. rewrite !Nat.eqb_eq in Hd. exact Hd. }
      assert (G1 : forall a b, im_get b (upd_at (w_send w) i (im_insert j (c0, 0%N) (w_send w i)) a) =
                               if (a =? i) && (b =? j) then Some (c0, 0%N) else im_get b (w_send w a)).
      { intros a b. unfold upd_at. destruct (a =? i) eqn:Ea; [|reflexivity]. apply Nat.eqb_eq in Ea. subst a.
        rewrite im_get_insert, (Nat.eqb_sym j b). destruct (b =? j); reflexivity. }
      assert (G2 : forall a b, im_get a (upd_at (w_recv w) j (im_insert i (c0, 0%N) (w_recv w j)) b) =
                               if (a =? i) && (b =? j) then Some (c0, 0%N) else im_get a (w_recv w b)).
      { intros a b. unfold upd_at. destruct (b =? j) eqn:Eb.
        - apply Nat.eqb_eq in Eb. subst b. rewrite im_get_insert, (Nat.eqb_sym i a). destruct (a =? i); reflexivity.
        - rewrite andb_false_r. reflexivity. }
      unfold pair_ok. cbn [w_send w_recv w_next w_chan]. split; [|split; [|split; [|exact H4]]].
      + intros a b Hin Hab. rewrite G1, G2. destruct ((a =? i) && (b =? j)) eqn:Ec; [split; [split; reflexivity|unfold c0; lia]|].
        apply in_app_or in Hin. destruct Hin as [Hin|[Hin|[]]]; [|elim (D _ _ Ec); congruence].
        destruct (H1 _ _ Hin Hab) as ((A1 & A2) & A3). split; [split; assumption|lia].
      + intros a b Hab. rewrite G1, G2. destruct ((a =? i) && (b =? j)) eqn:Ec.
        * apply D2 in Ec. destruct Ec as (-> & ->). exfalso. destruct Hab as [Hab|Hab]; [|congruence].
          apply Hab. apply in_or_app. right. left. reflexivity.
        * apply H2. destruct Hab as [Hab|Hab]; [left|right; exact Hab]. intros X. apply Hab. apply in_or_app. auto.
      + intros a b a' b' Hin Hin' Hab Hab'.
        assert (I : forall x y, In (x, y) (l ++ [(i, j)]) -> (x =? i) && (y =? j) = false -> In (x, y) l).
        { intros x y Hi Hd. apply in_app_or in Hi. destruct Hi as [Hi|[Hi|[]]]; [exact Hi|]. elim (D _ _ Hd). congruence. }
        destruct ((a =? i) && (b =? j)) eqn:E1; destruct ((a' =? i) && (b' =? j)) eqn:E2; intros Hc.
        * apply D2 in E1, E2. intuition congruence.
        * destruct (H1 a' b' (I _ _ Hin' E2) Hab') as (_ & L). unfold c0 in Hc. lia.
        * destruct (H1 a b (I _ _ Hin E1) Hab) as (_ & L). unfold c0 in Hc. lia.
        * eauto.
  Qed.
  Lemma built_fold l2 : forall l1 w, built l1 w -> NoDup (l1 ++ l2) -> built (l1 ++ l2) (fold_left connect_pair l2 w).
  Proof.
    induction l2 as [|(i, j) l2 IH]; intros l1 w Hb Hnd; cbn [fold_left].
    - rewrite app_nil_r. exact Hb.
    - replace (l1 ++ (i, j) :: l2) with ((l1 ++ [(i, j)]) ++ l2) by (rewrite <- app_assoc; reflexivity).
      apply IH; [|rewrite <- app_assoc; exact Hnd]. apply built_step; [exact Hb|].
      apply NoDup_remove_2 in Hnd. intros X. apply Hnd. apply in_or_app. auto.
  Qed.
  Lemma NoDup_list_prod {X Y} (l : list X) (m : list Y) : NoDup l -> NoDup m -> NoDup (list_prod l m).
  Proof.
    intros Hl Hm. induction Hl as [|x l Hx Hl IH]; cbn [list_prod]; [constructor|].
    assert (Hm' : NoDup (map (fun y => (x, y)) m)).
    { clear -Hm. induction Hm as [|y m Hy Hm IH]; cbn [map]; constructor; [|exact IH].
      rewrite in_map_iff. intros (y' & E & Hin). congruence. }
    assert (Disj : forall z, In z (map (fun y => (x, y)) m) -> ~ In z (list_prod l m)).
    { intros (a, b) Hz Hz'. apply in_map_iff in Hz. destruct Hz as (y & Ez & _). injection Ez as <- _.
      apply in_prod_iff in Hz'. tauto. }
    clear -IH Hm' Disj. induction (map (fun y => (x, y)) m) as [|z zs IHz]; [exact IH|].
    inversion Hm' as [|? ? N1 N2]; subst. cbn [app]. constructor.
    - intros Hin. apply in_app_or in Hin. destruct Hin as [Hin|Hin]; [contradiction|]. eapply Disj; [left; reflexivity|exact Hin].
    - apply IHz; [exact N2|]. intros z' Hz'. apply Disj. right. exact Hz'.
  Qed.
  Lemma local_new_ok n : exists chan, injective_on n chan /\
    (forall i j, i < n -> j < n -> i <> j -> pair_ok chan (local_new n) i j 0 0) /\
    (forall i j, (n <= i \/ n <= j \/ i = j) -> im_get j (w_send (local_new n) i) = None /\ im_get i (w_recv (local_new n) j) = None) /\
    (forall c, w_chan (local_new n) c = []).
  Proof.
    assert (Hb : built (list_prod (seq 0 n) (seq 0 n)) (local_new n)).
    { unfold local_new. apply (@built_fold _ []).
      - exists (fun _ _ => 0). cbn. repeat split; intros; try tauto; reflexivity.
      - apply NoDup_list_prod; apply seq_NoDup. }
    destruct Hb as (chan & H1 & H2 & H3 & H4).
    assert (I : forall i j, In (i, j) (list_prod (seq 0 n) (seq 0 n)) <-> i < n /\ j < n).
    { intros i j. rewrite in_prod_iff, !in_seq. lia. }
    exists chan. split; [|split; [|split; [|exact H4]]].
    - intros i j i' j' Hi Hj Hij Hi' Hj' Hij' Hc. apply H3; try assumption; apply I; auto.
    - intros i j Hi Hj Hij. apply H1; [apply I; auto|exact Hij].
    - intros i j Hij. apply H2. rewrite I. destruct Hij as [Hij|[Hij|Hij]]; [left; lia|left; lia|right; exact Hij].
  Qed.

  (** *** Invariant of runs *)
  Definition linv (n : nat) (chan : nat -> nat -> nat) (es : list lev) (w : world) : Prop :=
    injective_on n chan /\
    (forall i j, i < n -> j < n -> i <> j ->
       pair_ok chan w i j (bytes (sent_msgs i j es ) + bytes (timed_out_msgs i j es)) (bytes (recvd_msgs j i es)) /\
       sent_msgs i j es = recvd_msgs j i es ++ w_chan w (chan i j) /\ length (w_chan w (chan i j)) <= queue_cap) /\
    (forall i j, (n <= i \/ n <= j \/ i = j) -> im_get j (w_send w i) = None /\ im_get i (w_recv w j) = None).
  Lemma bytes_app a b : bytes (a ++ b) = (bytes a + bytes b)%N.
  Proof. unfold bytes. induction a as [|m a IH]; cbn [app fold_right]; [reflexivity|]. rewrite IH. lia. Qed.
  Lemma in_range n (es : list lev) chan w i j : linv n chan es w -> im_get j (w_send w i) <> None -> i < n /\ j < n /\ i <> j.
  Proof.
    intros (_ & _ & H) Hne. destruct (le_lt_dec n i); [|destruct (le_lt_dec n j); [|destruct (Nat.eq_dec i j); [|auto]]].
    all: elim Hne; apply H; tauto.
  Qed.
  Lemma in_range_r n (es : list lev) chan w i j : linv n chan es w -> im_get i (w_recv w j) <> None -> i < n /\ j < n /\ i <> j.
  Proof.
    intros (_ & _ & H) Hne. destruct (le_lt_dec n i); [|destruct (le_lt_dec n j); [|destruct (Nat.eq_dec i j); [|auto]]].
    all: elim Hne; apply H; tauto.
  Qed.
  Ltac projs := unfold sent_msgs, timed_out_msgs, recvd_msgs; rewrite !flat_map_app; cbn [flat_map]; rewrite ?app_nil_r.
  Lemma eqb_pair i j a b : (i =? a) && (j =? b) = true -> i = a /\ j = b.
  Proof. intros H. apply andb_prop in H. rewrite !Nat.eqb_eq in H. exact H. Qed.
  Lemma eqb_pair_false i j a b : (i =? a) && (j =? b) = false -> ~ (i = a /\ j = b).
  Proof. intros H (-> & ->). rewrite !Nat.eqb_refl in H. discriminate. Qed.
  Lemma get_upd_send (w : imap (nat * N)) (f : nat -> imap (nat * N)) i to v a b :
    im_get b (upd_at f i (im_insert to v (f i)) a) = if (a =? i) && (b =? to) then Some v else im_get b (f a).
  Proof.
    unfold upd_at. destruct (a =? i) eqn:Ea; [|reflexivity]. apply Nat.eqb_eq in Ea. subst a.
    rewrite im_get_insert, (Nat.eqb_sym to b). destruct (b =? to); reflexivity.
  Qed.
  Lemma linv_sent n chan es w i to data w1 : linv n chan es w -> l_send w i to data = SOk w1 ->
    linv n chan (es ++ [LSent i to data]) w1.
  Proof.
    intros Hinv Hs. unfold l_send in Hs. destruct (im_get to (w_send w i)) as [(c, sent)|] eqn:Eg; [|discriminate].
    destruct (@in_range n es chan w i to Hinv ltac:(congruence)) as (Hi & Ht & Hit).
    destruct Hinv as (Hinj & Hp & Ho). destruct (Hp i to Hi Ht Hit) as ((E1 & E2) & E3 & E4).
    rewrite E1 in Eg. injection Eg as <- <-.
    destruct (length (w_chan w (chan i to)) <? queue_cap) eqn:El; [|discriminate]. apply Nat.ltb_lt in El.
    injection Hs as <-. split; [exact Hinj|]. split.
    - intros a b Ha Hb Hab. destruct (Hp a b Ha Hb Hab) as ((A1 & A2) & A3 & A4). unfold pair_ok.
      cbn [w_send w_recv w_chan]. rewrite (get_upd_send []). projs.
      destruct ((a =? i) && (b =? to)) eqn:Eab.
      + apply eqb_pair in Eab. destruct Eab as (-> & ->). rewrite !Nat.eqb_refl. cbn [andb]. rewrite upd_at_same, bytes_app. repeat split.
        * do 2 f_equal. cbn [bytes fold_right]. lia.
        * exact A2.
        * unfold sent_msgs in A3. rewrite A3, app_assoc. reflexivity.
        * rewrite app_length. cbn. lia.
      + rewrite (Nat.eqb_sym i a), (Nat.eqb_sym to b), Eab. rewrite app_nil_r.
        rewrite upd_at_other; [split; [split; assumption|split; assumption]|].
        intros Hc. apply eqb_pair_false in Eab. apply Eab. apply (Hinj a b i to); assumption.
    - intros a b Hab. cbn [w_send w_recv]. rewrite (get_upd_send []).
      destruct ((a =? i) && (b =? to)) eqn:Eab; [apply eqb_pair in Eab; lia|auto].
  Qed.
  Lemma linv_stimeout n chan es w i to data w1 : linv n chan es w -> l_send w i to data = SFull w1 ->
    linv n chan (es ++ [LSendTimeout i to data]) w1.
  Proof.
    intros Hinv Hs. unfold l_send in Hs. destruct (im_get to (w_send w i)) as [(c, sent)|] eqn:Eg; [|discriminate].
    destruct (@in_range n es chan w i to Hinv ltac:(congruence)) as (Hi & Ht & Hit).
    destruct Hinv as (Hinj & Hp & Ho). destruct (Hp i to Hi Ht Hit) as ((E1 & E2) & E3 & E4).
    rewrite E1 in Eg. injection Eg as <- <-.
    destruct (length (w_chan w (chan i to)) <? queue_cap) eqn:El; [discriminate|].
    injection Hs as <-. split; [exact Hinj|]. split.
    - intros a b Ha Hb Hab. destruct (Hp a b Ha Hb Hab) as ((A1 & A2) & A3 & A4). unfold pair_ok.
      cbn [w_send w_recv w_chan]. rewrite (get_upd_send []). projs.
      destruct ((a =? i) && (b =? to)) eqn:Eab.
      + apply eqb_pair in Eab. destruct Eab as (-> & ->). rewrite !Nat.eqb_refl. cbn [andb]. rewrite bytes_app. repeat split.
        * do 2 f_equal. cbn [bytes fold_right]. lia.
        * exact A2.
        * exact A3.
        * exact A4.
      + rewrite (Nat.eqb_sym i a), (Nat.eqb_sym to b), Eab. rewrite app_nil_r. split; [split; assumption|split; assumption].
    - intros a b Hab. cbn [w_send w_recv]. rewrite (get_upd_send []).
      destruct ((a =? i) && (b =? to)) eqn:Eab; [apply eqb_pair in Eab; lia|auto].
  Qed.
  Lemma linv_recvd n chan es w j from data w1 : linv n chan es w -> l_recv w j from = RvOk data w1 ->
    linv n chan (es ++ [LRecvd j from data]) w1.
  Proof.
    intros Hinv Hs. unfold l_recv in Hs. destruct (im_get from (w_recv w j)) as [(c, m)|] eqn:Eg; [|discriminate].
    destruct (@in_range_r n es chan w from j Hinv ltac:(congruence)) as (Hi & Ht & Hit).
    destruct Hinv as (Hinj & Hp & Ho). destruct (Hp from j Hi Ht Hit) as ((E1 & E2) & E3 & E4).
    rewrite E2 in Eg. injection Eg as <- <-.
    destruct (w_chan w (chan from j)) as [|d q] eqn:El; [discriminate|]. injection Hs as <- <-. split; [exact Hinj|]. split.
    - intros a b Ha Hb Hab. destruct (Hp a b Ha Hb Hab) as ((A1 & A2) & A3 & A4). unfold pair_ok.
      cbn [w_send w_recv w_chan]. rewrite (get_upd_send []). projs.
      destruct ((b =? j) && (a =? from)) eqn:Eab.
      + apply eqb_pair in Eab. destruct Eab as (-> & ->). rewrite !Nat.eqb_refl. cbn [andb]. rewrite upd_at_same, bytes_app. repeat split.
        * exact A1.
        * do 2 f_equal. cbn [bytes fold_right]. lia.
        * rewrite El in A3. unfold sent_msgs, recvd_msgs in A3. rewrite A3, <- app_assoc. reflexivity.
        * rewrite El in A4. cbn in A4. lia.
      + rewrite (Nat.eqb_sym j b), (Nat.eqb_sym from a), (andb_comm (a =? from)), Eab. rewrite app_nil_r.
        rewrite upd_at_other; [split; [split; assumption|split; assumption]|].
        intros Hc. apply eqb_pair_false in Eab. apply Eab.
        destruct (Hinj a b from j Ha Hb Hab Hi Ht Hit Hc). auto.
    - intros a b Hab. cbn [w_send w_recv]. rewrite (get_upd_send []).
      destruct ((b =? j) && (a =? from)) eqn:Eab; [apply eqb_pair in Eab; lia|auto].
  Qed.
  Lemma linv_rtimeout n chan es w j from : linv n chan es w -> linv n chan (es ++ [LRecvTimeout j from]) w.
  Proof.
    intros (Hinj & Hp & Ho). split; [exact Hinj|]. split; [|exact Ho]. intros a b Ha Hb Hab.
    specialize (Hp a b Ha Hb Hab). projs. exact Hp.
  Qed.
  Lemma linv_run n chan w es2 w2 : lrun w es2 w2 -> forall es1, linv n chan es1 w -> linv n chan (es1 ++ es2) w2.
  Proof.
    induction 1 as [w|w i to data w1 es w2 Hs Hr IH|w i to data w1 es w2 Hs Hr IH|w i from data w1 es w2 Hs Hr IH|w j from es w2 Hs Hr IH]; intros es1 Hinv.
    - rewrite app_nil_r. exact Hinv.
    - replace (es1 ++ LSent i to data :: es) with ((es1 ++ [LSent i to data]) ++ es) by (rewrite <- app_assoc; reflexivity).
      apply IH. eapply linv_sent; eassumption.
    - replace (es1 ++ LSendTimeout i to data :: es) with ((es1 ++ [LSendTimeout i to data]) ++ es) by (rewrite <- app_assoc; reflexivity).
      apply IH. eapply linv_stimeout; eassumption.
    - replace (es1 ++ LRecvd i from data :: es) with ((es1 ++ [LRecvd i from data]) ++ es) by (rewrite <- app_assoc; reflexivity).
      apply IH. eapply linv_recvd; eassumption.
    - replace (es1 ++ LRecvTimeout j from :: es) with ((es1 ++ [LRecvTimeout j from]) ++ es) by (rewrite <- app_assoc; reflexivity).
      apply IH. eapply linv_rtimeout; eassumption.
  Qed.
  Lemma linv_new n : exists chan, linv n chan [] (local_new n).
  Proof.
    destruct (local_new_ok n) as (chan & H1 & H2 & H3 & H4). exists chan. split; [exact H1|]. split; [|exact H3].
    intros i j Hi Hj Hij. cbn. rewrite H4. split; [apply H2; assumption|]. split; [reflexivity|cbn; lia].
  Qed.
  Lemma linv_reachable n es w : lrun (local_new n) es w -> exists chan, linv n chan es w.
  Proof. intros H. destruct (linv_new n) as (chan & Hi). exists chan. exact (linv_run H Hi). Qed.

  (** *** Statistics *)
  Fixpoint sorted_from (lo : nat) (m : stats) : Prop :=
    match m with [] => True | (k, _) :: m => lo <= k /\ sorted_from (S k) m end.
  Lemma bt_insert_sorted k v m : forall lo, lo <= k -> sorted_from lo m -> sorted_from lo (bt_insert k v m).
  Proof.
    induction m as [|(k', v') m IH]; intros lo Hlo Hs; cbn [bt_insert].
    - cbn. auto.
    - destruct Hs as (S1 & S2). destruct (k <? k') eqn:E1.
      + apply Nat.ltb_lt in E1. cbn. repeat split; try assumption.
      + apply Nat.ltb_ge in E1. destruct (k =? k') eqn:E2.
        * apply Nat.eqb_eq in E2. subst. cbn. auto.
        * apply Nat.eqb_neq in E2. cbn. split; [exact S1|]. apply IH; [lia|exact S2].
  Qed.
  Lemma sorted_weaken m : forall lo lo', lo' <= lo -> sorted_from lo m -> sorted_from lo' m.
  Proof. destruct m as [|(k, v) m]; cbn; intros; [exact I|]. split; [lia|tauto]. Qed.
  Lemma bt_get_below m : forall lo k, sorted_from lo m -> k < lo -> bt_get k m = None.
  Proof.
    induction m as [|(k', v') m IH]; intros lo k Hs Hk; [reflexivity|]. destruct Hs as (S1 & S2).
    unfold bt_get. cbn [find fst]. destruct (k' =? k) eqn:E; [apply Nat.eqb_eq in E; lia|]. apply (IH (S k')); [exact S2|lia].
  Qed.
  Lemma bt_get_insert k v m : forall lo k', sorted_from lo m -> bt_get k' (bt_insert k v m) = if k =? k' then Some v else bt_get k' m.
  Proof.
    induction m as [|(a, b) m IH]; intros lo k' Hs; cbn [bt_insert].
    - unfold bt_get. cbn [find fst]. destruct (k =? k'); reflexivity.
    - destruct Hs as (S1 & S2). destruct (k <? a) eqn:E1.
      + unfold bt_get. cbn [find fst]. destruct (k =? k'); reflexivity.
      + destruct (k =? a) eqn:E2.
        * apply Nat.eqb_eq in E2. subst a. unfold bt_get. cbn [find fst]. destruct (k =? k') eqn:E; reflexivity.
        * unfold bt_get in *. cbn [find fst]. destruct (a =? k') eqn:E3.
          -- apply Nat.eqb_eq in E3. subst a. rewrite E2. reflexivity.
          -- rewrite (IH (S a)) by exact S2. reflexivity.
  Qed.
  (** keys of a map are distinct in what [im_insert] builds; the loop only needs lookups *)
  Lemma stats_loop_ok recvs : forall sends acc, sorted_from 0 acc -> NoDup (map fst sends) ->
    (forall k, im_get k sends <> None -> im_get k recvs <> None) ->
    exists st, stats_loop sends recvs acc = Some st /\ sorted_from 0 st /\
      forall k, bt_get k st = match im_get k sends, im_get k recvs with
                              | Some (_, s), Some (_, r) => Some (s, r)
                              | _, _ => bt_get k acc
                              end.
  Proof.
    induction sends as [|(id, (c, s)) sends IH]; intros acc Ha Hnd Hk; cbn [stats_loop].
    - exists acc. repeat split. exact Ha. 
    - inversion Hnd as [|? ? N1 N2]; subst.
      assert (G : forall k, im_get k ((id, (c, s)) :: sends) = if id =? k then Some (c, s) else im_get k sends).
      { intros k. unfold im_get. cbn [find fst]. destruct (id =? k); reflexivity. }
      destruct (im_get id recvs) as [(c', r)|] eqn:E.
      2: { elim (Hk id); [|exact E]. rewrite G, Nat.eqb_refl. discriminate. }
      destruct (IH (bt_insert id (s, r) acc)) as (st & E1 & E2 & E3).
      + apply bt_insert_sorted; [lia|exact Ha].
      + exact N2.
      + intros k Hg. apply Hk. rewrite G. destruct (id =? k); [discriminate|exact Hg].
      + exists st. split; [exact E1|]. split; [exact E2|]. intros k. rewrite E3, G, (@bt_get_insert id (s, r) acc 0 k Ha).
        destruct (id =? k) eqn:Ek.
        * apply Nat.eqb_eq in Ek. subst k.
          assert (Gn : im_get id sends = None).
          { unfold im_get. destruct (find (fun e => fst e =? id) sends) as [e|] eqn:Ef; [|reflexivity].
            apply find_some in Ef. destruct Ef as (Hin & He). apply Nat.eqb_eq in He. elim N1. rewrite <- He. apply in_map. exact Hin. }
          rewrite Gn, E. reflexivity.
        * reflexivity.
  Qed.
  Definition keys_ok (w : world) : Prop := forall i, NoDup (map fst (w_send w i)).
  Lemma im_insert_nodup {V} k (v : V) m : NoDup (map fst m) -> NoDup (map fst (im_insert k v m)).
  Proof.
    intros H. unfold im_insert. cbn [map fst]. constructor.
    - rewrite in_map_iff. intros ((a, b) & E & Hin). apply filter_In in Hin. cbn in *. subst. rewrite Nat.eqb_refl in Hin. easy.
    - induction m as [|(a, b) m IH]; [constructor|]. inversion H as [|? ? N1 N2]; subst. cbn [filter fst]. destruct (a =? k); cbn [negb map fst]; [auto|].
      constructor; [|auto]. intros Hin. apply N1. apply in_map_iff in Hin. destruct Hin as (e & E & Hin). apply filter_In in Hin.
      cbn. rewrite <- E. apply in_map. tauto.
  Qed.
  Lemma keys_new n : keys_ok (local_new n).
  Proof.
    unfold local_new. set (l := list_prod _ _).
    assert (H0 : keys_ok (mkWorld (fun _ => []) (fun _ => []) 0 (fun _ => []))) by (intros i; constructor).
    assert (H : forall w, keys_ok w -> keys_ok (fold_left connect_pair l w)).
    { induction l as [|(i, j) l IH]; intros w Hw; [exact Hw|]. cbn [fold_left]. apply IH. unfold connect_pair.
      destruct (i =? j); [exact Hw|]. intros a. cbn [w_send]. unfold upd_at. destruct (a =? i); [apply im_insert_nodup|]; apply Hw. }
    apply H. exact H0.
  Qed.
  Lemma keys_run w es w2 : lrun w es w2 -> keys_ok w -> keys_ok w2.
  Proof.
    induction 1 as [w|w i to data w1 es w2 Hs Hr IH|w i to data w1 es w2 Hs Hr IH|w i from data w1 es w2 Hs Hr IH|w j from es w2 Hs Hr IH]; intros Hk; auto; apply IH.
    - unfold l_send in Hs. destruct (im_get to (w_send w i)) as [(c, s)|]; [|discriminate].
      destruct (_ <? _); [|discriminate]. injection Hs as <-. intros a. cbn [w_send]. unfold upd_at. destruct (a =? i); [apply im_insert_nodup|]; apply Hk.
    - unfold l_send in Hs. destruct (im_get to (w_send w i)) as [(c, s)|]; [|discriminate].
      destruct (_ <? _); [discriminate|]. injection Hs as <-. intros a. cbn [w_send]. unfold upd_at. destruct (a =? i); [apply im_insert_nodup|]; apply Hk.
    - unfold l_recv in Hs. destruct (im_get from (w_recv w i)) as [(c, s)|]; [|discriminate].
      destruct (w_chan w c); [discriminate|]. injection Hs as _ <-. exact Hk.
  Qed.
  Lemma stats_ok n es w id : lrun (local_new n) es w -> id < n ->
    exists st, get_connection_stats w id = Some st /\ sorted_from 0 st /\
      forall j, bt_get j st = if (j <? n) && negb (j =? id)
                              then Some (bytes (sent_msgs id j es) + bytes (timed_out_msgs id j es), bytes (recvd_msgs id j es))%N
                              else None.
  Proof.
    intros Hr Hid. destruct (linv_reachable n Hr) as (chan & _ & Hp & Ho).
    assert (Hk : keys_ok w) by (eapply keys_run; [exact Hr|apply keys_new]).
    destruct (@stats_loop_ok (w_recv w id) (w_send w id) []) as (st & E1 & E2 & E3).
    - exact I.
    - apply Hk.
    - intros k Hg. destruct (lt_dec k n) as [L|L]; [destruct (Nat.eq_dec k id) as [->|Ne]|].
      + destruct (Ho id id) as (X & _); [auto|]. congruence.
      + destruct (Hp k id L Hid Ne) as ((_ & X) & _). rewrite X. discriminate.
      + destruct (Ho id k) as (X & _); [lia|]. congruence.
    - exists st. split; [exact E1|]. split; [exact E2|]. intros j. rewrite E3.
      destruct (j <? n) eqn:Ej; [apply Nat.ltb_lt in Ej|apply Nat.ltb_ge in Ej].
      + destruct (j =? id) eqn:Eji; cbn [negb andb].
        * apply Nat.eqb_eq in Eji. subst j. destruct (Ho id id) as (X & _); [auto|]. rewrite X. reflexivity.
        * apply Nat.eqb_neq in Eji.
          destruct (Hp id j Hid Ej) as ((X & _) & _); [congruence|].
          destruct (Hp j id Ej Hid) as ((_ & Y) & _); [congruence|]. rewrite X, Y. reflexivity.
      + cbn [andb]. destruct (Ho id j) as (X & _); [lia|]. rewrite X. reflexivity.
  Qed.
  (** differences of two snapshots *)
  Lemma diff_ok self : forall other lo, sorted_from lo self ->
    (forall k s r os orc, bt_get k self = Some (s, r) -> bt_get k other = Some (os, orc) -> (os <= s /\ orc <= r)%N) ->
    exists d, get_diff_to self other = Some d /\
      forall k, im_get k d = match bt_get k self with
                             | Some (s, r) => match bt_get k other with Some (os, orc) => Some (s - os, r - orc)%N | None => Some (s, r) end
                             | None => None
                             end.
  Proof.
    induction self as [|(id, (s, r)) self IH]; intros other lo Hs Hle; cbn [get_diff_to].
    - exists []. auto.
    - destruct Hs as (S1 & S2).
      assert (G : forall k, bt_get k ((id, (s, r)) :: self) = if id =? k then Some (s, r) else bt_get k self).
      { intros k. unfold bt_get. cbn [find fst]. destruct (id =? k); reflexivity. }
      destruct (IH other (S id)) as (d & E1 & E2).
      + exact S2.
      + intros k s' r' os orc H1 H2. apply (Hle k); [|exact H2]. rewrite G. destruct (id =? k) eqn:Ek; [|exact H1].
        apply Nat.eqb_eq in Ek. subst k. rewrite (@bt_get_below self (S id) id S2) in H1 by lia. discriminate.
      + rewrite E1. destruct (bt_get id other) as [(os, orc)|] eqn:Eo.
        * destruct (Hle id s r os orc) as (L1 & L2); [rewrite G, Nat.eqb_refl; reflexivity|exact Eo|].
          apply N.leb_le in L1, L2. rewrite L1, L2. cbn [andb]. eexists. split; [reflexivity|]. intros k. rewrite im_get_insert, G.
          destruct (id =? k) eqn:Ek; [apply Nat.eqb_eq in Ek; subst k; rewrite Eo; reflexivity|apply E2].
        * eexists. split; [reflexivity|]. intros k. rewrite im_get_insert, G.
          destruct (id =? k) eqn:Ek; [apply Nat.eqb_eq in Ek; subst k; rewrite Eo; reflexivity|apply E2].
  Qed.
  Lemma sent_app i j a b : sent_msgs i j (a ++ b) = sent_msgs i j a ++ sent_msgs i j b.
  Proof. apply flat_map_app. Qed.
  Lemma recvd_app i j a b : recvd_msgs i j (a ++ b) = recvd_msgs i j a ++ recvd_msgs i j b.
  Proof. apply flat_map_app. Qed.
  Lemma timed_out_app i j a b : timed_out_msgs i j (a ++ b) = timed_out_msgs i j a ++ timed_out_msgs i j b.
  Proof. apply flat_map_app. Qed.
  Lemma lrun_app w1 a w2 b w3 : lrun w1 a w2 -> lrun w2 b w3 -> lrun w1 (a ++ b) w3.
  Proof. induction 1; intros Hb; [exact Hb|..]; econstructor; eauto. Qed.
  Lemma diff_run n es1 w1 es2 w2 id : lrun (local_new n) es1 w1 -> lrun w1 es2 w2 -> id < n ->
    exists st1 st2 d, get_connection_stats w1 id = Some st1 /\ get_connection_stats w2 id = Some st2 /\
      get_diff_to st2 st1 = Some d /\
      forall j, im_get j d = if (j <? n) && negb (j =? id)
                             then Some (bytes (sent_msgs id j es2) + bytes (timed_out_msgs id j es2), bytes (recvd_msgs id j es2))%N
                             else None.
  Proof.
    intros H1 H2 Hid. destruct (stats_ok H1 Hid) as (st1 & A1 & A2 & A3).
    destruct (stats_ok (lrun_app H1 H2) Hid) as (st2 & B1 & B2 & B3).
    destruct (@diff_ok st2 st1 0 B2) as (d & D1 & D2).
    - intros k s r os orc. rewrite B3, A3. destruct (_ && _); [|discriminate]. intros E1 E2. injection E1 as <- <-. injection E2 as <- <-.
      rewrite sent_app, recvd_app, timed_out_app, !bytes_app. lia.
    - exists st1, st2, d. repeat split; try assumption. intros j. rewrite D2, B3, A3. destruct (_ && _); [|reflexivity].
      rewrite sent_app, recvd_app, timed_out_app, !bytes_app. do 2 f_equal; lia.
  Qed.

  (** *** The network of Proc.v *)
  (** party programs running on the local network: a party makes its next call when it can complete *)
  Inductive gstep {A} (n : nat) : (nat -> prog nat (list B) A) * world -> nat -> (nat -> prog nat (list B) A) * world -> Prop :=
  | gstep_send : forall ps w i to data k w1, i < n -> ps i = Send to data k -> l_send w i to data = SOk w1 ->
      gstep n (ps, w) i (upd_at ps i k, w1)
  | gstep_recv : forall ps w i from k data w1, i < n -> ps i = Recv from k -> l_recv w i from = RvOk data w1 ->
      gstep n (ps, w) i (upd_at ps i (k data), w1).
  Inductive gsteps {A} (n : nat) : nat -> (nat -> prog nat (list B) A) * world -> (nat -> prog nat (list B) A) * world -> Prop :=
  | gsteps_0 : forall s, gsteps n 0 s s
  | gsteps_S : forall m i s1 s2 s3, gstep n s1 i s2 -> gsteps n m s2 s3 -> gsteps n (S m) s1 s3.
  (** the queues of a world as channels of Proc.v *)
  Definition chans (w : world) (i j : nat) : list (list B) :=
    match im_get j (w_send w i) with Some (c, _) => w_chan w c | None => [] end.
  Lemma chans_eq n chan es w i j : linv n chan es w -> i < n -> j < n -> i <> j -> chans w i j = w_chan w (chan i j).
  Proof. intros (_ & Hp & _) Hi Hj Hij. destruct (Hp i j Hi Hj Hij) as ((E & _) & _). unfold chans. rewrite E. reflexivity. Qed.
  Lemma chans_out n chan es w i j : linv n chan es w -> (n <= i \/ n <= j \/ i = j) -> chans w i j = [].
  Proof. intros (_ & _ & Ho) Hij. destruct (Ho i j Hij) as (E & _). unfold chans. rewrite E. reflexivity. Qed.
  Lemma out_dec n i j : (n <= i \/ n <= j \/ i = j) \/ (i < n /\ j < n /\ i <> j).
  Proof. lia. Qed.
  Lemma gstep_refines A n chan es (ps : nat -> prog nat (list B) A) w i ps' w' : linv n chan es w ->
    gstep n (ps, w) i (ps', w') ->
    (exists es', linv n chan es' w') /\
    Proc.step (fun p => p < n) queue_cap i (Proc.mkConfig ps (chans w)) (Proc.mkConfig ps' (chans w')).
  Proof.
    intros Hinv Hg. inversion Hg as [? ? ? to data k w1 Hi Hp Hs|? ? ? from k data w1 Hi Hp Hs]; subst; clear Hg.
    - pose proof (@linv_sent _ _ _ _ _ _ _ _ Hinv Hs) as Hinv'. split; [eauto|]. split; [exact Hi|]. cbn [pr]. split; [intros j Hj; apply upd_at_other; exact Hj|].
      rewrite Hp. rewrite upd_at_same. unfold l_send in Hs. destruct (im_get to (w_send w i)) as [(c, sent)|] eqn:Eg; [|discriminate].
      destruct (@in_range n es chan w i to Hinv ltac:(congruence)) as (_ & Ht & Hit).
      assert (Ec : c = chan i to).
      { destruct Hinv as (_ & Hpp & _). destruct (Hpp i to Hi Ht Hit) as ((E & _) & _). congruence. } subst c.
      destruct (length (w_chan w (chan i to)) <? queue_cap) eqn:El; [|discriminate]. apply Nat.ltb_lt in El. injection Hs as <-.
      cbn [ch]. rewrite !(@chans_eq _ _ _ _ i to Hinv), (@chans_eq _ _ _ _ i to Hinv') by assumption. cbn [w_chan]. rewrite upd_at_same.
      repeat split; [exact El|]. intros a b Hab. destruct (out_dec n a b) as [Ho|(Ha & Hb & Hne)].
      + rewrite (@chans_out _ _ _ _ _ _ Hinv Ho), (@chans_out _ _ _ _ _ _ Hinv' Ho). reflexivity.
      + rewrite (@chans_eq _ _ _ _ a b Hinv), (@chans_eq _ _ _ _ a b Hinv') by assumption. cbn [w_chan]. apply upd_at_other.
        intros Hc. apply Hab. destruct Hinv as (Hinj & _). destruct (Hinj a b i to Ha Hb Hne Hi Ht Hit Hc). congruence.
    - pose proof (@linv_recvd _ _ _ _ _ _ _ _ Hinv Hs) as Hinv'. split; [eauto|]. split; [exact Hi|]. cbn [pr]. split; [intros j Hj; apply upd_at_other; exact Hj|].
      rewrite Hp. rewrite upd_at_same. unfold l_recv in Hs. destruct (im_get from (w_recv w i)) as [(c, m)|] eqn:Eg; [|discriminate].
      destruct (@in_range_r n es chan w from i Hinv ltac:(congruence)) as (Hf & _ & Hif).
      assert (Ec : c = chan from i).
      { destruct Hinv as (_ & Hpp & _). destruct (Hpp from i Hf Hi Hif) as ((_ & E) & _). congruence. } subst c.
      destruct (w_chan w (chan from i)) as [|d q] eqn:El; [discriminate|]. injection Hs as <- <-.
      exists d. cbn [ch]. rewrite !(@chans_eq _ _ _ _ from i Hinv), (@chans_eq _ _ _ _ from i Hinv') by assumption. cbn [w_chan]. rewrite upd_at_same.
      repeat split; [exact El|]. intros a b Hab. destruct (out_dec n a b) as [Ho|(Ha & Hb & Hne)].
      + rewrite (@chans_out _ _ _ _ _ _ Hinv Ho), (@chans_out _ _ _ _ _ _ Hinv' Ho). reflexivity.
      + rewrite (@chans_eq _ _ _ _ a b Hinv), (@chans_eq _ _ _ _ a b Hinv') by assumption. cbn [w_chan]. apply upd_at_other.
        intros Hc. apply Hab. destruct Hinv as (Hinj & _). destruct (Hinj a b from i Ha Hb Hne Hf Hi Hif Hc). congruence.
  Qed.
  Lemma gsteps_refines A n m (s s' : (nat -> prog nat (list B) A) * world) : gsteps n m s s' -> forall chan es, linv n chan es (snd s) ->
    (exists es', linv n chan es' (snd s')) /\
    Proc.steps (fun p => p < n) queue_cap m (Proc.mkConfig (fst s) (chans (snd s))) (Proc.mkConfig (fst s') (chans (snd s'))).
  Proof.
    induction 1 as [s|m i s1 s2 s3 Hs Hss IH]; intros chan es Hinv.
    - split; [eauto|]. constructor; reflexivity.
    - destruct s1 as (p1, w1), s2 as (p2, w2). destruct (gstep_refines Hinv Hs) as ((es' & Hinv') & St).
      destruct (IH chan es' Hinv') as (X & Y). split; [exact X|]. econstructor; [exact St|exact Y].
  Qed.
  (** conversely, whenever Proc.v allows a step of a program that only talks to the other parties,
      the local network allows it *)
  Lemma gstep_complete A n chan es (ps : nat -> prog nat (list B) A) w i c' : linv n chan es w ->
    (forall j m k, ps i = Send j m k -> j < n /\ j <> i) -> (forall j k, ps i = Recv j k -> j < n /\ j <> i) ->
    Proc.step (fun p => p < n) queue_cap i (Proc.mkConfig ps (chans w)) c' ->
    exists s', gstep n (ps, w) i s' .
  Proof.
    intros Hinv Hs Hr (Hi & _ & St). cbn [pr ch] in St. destruct (ps i) as [a|e|j m k|j k] eqn:E; try contradiction.
    - destruct (Hs j m k eq_refl) as (Hj & Hji). destruct St as (Hl & _).
      rewrite (@chans_eq _ _ _ _ i j Hinv) in Hl by congruence.
      pose proof Hinv as (_ & Hp & _). destruct (Hp i j Hi Hj) as ((E1 & _) & _); [congruence|].
      eexists. eapply gstep_send; [exact Hi|exact E|]. unfold l_send. rewrite E1. apply Nat.ltb_lt in Hl. rewrite Hl. reflexivity.
    - destruct (Hr j k eq_refl) as (Hj & Hji). destruct St as (m & Hl & _).
      rewrite (@chans_eq _ _ _ _ j i Hinv) in Hl by congruence.
      pose proof Hinv as (_ & Hp & _). destruct (Hp j i Hj Hi) as ((_ & E1) & _); [congruence|].
      eexists. eapply gstep_recv; [exact Hi|exact E|]. unfold l_recv. rewrite E1, Hl. reflexivity.
  Qed.
  Lemma chans_new n i j : chans (local_new n) i j = [].
  Proof.
    destruct (linv_new n) as (chan & Hinv). destruct (out_dec n i j) as [Ho|(Hi & Hj & Hij)].
    - exact (@chans_out _ _ _ _ _ _ Hinv Ho).
    - rewrite (@chans_eq _ _ _ _ i j Hinv) by assumption. destruct (local_new_ok n) as (_ & _ & _ & _ & H). apply H.
  Qed.
  (** [talks n i p]: the calls of [p] name parties other than [i] *)
  Fixpoint talks {A} (n i : nat) (p : prog nat (list B) A) : Prop :=
    match p with
    | Ret _ | Fail _ => True
    | Send j _ k => j < n /\ j <> i /\ talks n i k
    | Recv j k => j < n /\ j <> i /\ forall m, talks n i (k m)
    end.
  Lemma gstep_talks A n (s s' : (nat -> prog nat (list B) A) * world) i : gstep n s i s' ->
    (forall p, p < n -> talks n p (fst s p)) -> forall p, p < n -> talks n p (fst s' p).
  Proof.
    intros Hg Ht p Hp. specialize (Ht p Hp). inversion Hg as [ps w ? to data k w1 Hi He Hs|ps w ? from k data w1 Hi He Hs]; subst; cbn [fst] in *.
    - unfold upd_at. destruct (p =? i) eqn:E; [|exact Ht]. apply Nat.eqb_eq in E. subst p. rewrite He in Ht. cbn in Ht. tauto.
    - unfold upd_at. destruct (p =? i) eqn:E; [|exact Ht]. apply Nat.eqb_eq in E. subst p. rewrite He in Ht. cbn in Ht. apply Ht.
  Qed.
  Lemma gsteps_talks A n m (s s' : (nat -> prog nat (list B) A) * world) : gsteps n m s s' ->
    (forall p, p < n -> talks n p (fst s p)) -> forall p, p < n -> talks n p (fst s' p).
  Proof. induction 1 as [s|m i s1 s2 s3 Hs Hss IH]; intros Ht; [exact Ht|]. apply IH. exact (gstep_talks Hs Ht). Qed.
  (** what every schedule of Proc.v does (with queues of 32) is what every run on the local network does *)
  Lemma local_every_schedule A n (ps : nat -> prog nat (list B) A) Q :
    (forall p, p < n -> talks n p (ps p)) ->
    Proc.every_schedule (fun p => p < n) queue_cap ps Q ->
    exists o bound, Q o /\
      (forall m s, gsteps n m (ps, local_new n) s -> m <= bound) /\
      (forall m s, gsteps n m (ps, local_new n) s -> (forall i s', ~ gstep n s i s') ->
         (forall i, i < n -> fst s i = leaf (o i)) /\ forall i j, chans (snd s) i j = []).
  Proof.
    intros Ht (o & bound & HQ & Hb & Hf). exists o, bound. split; [exact HQ|].
    destruct (linv_new n) as (chan & Hinv).
    assert (Hst : forall m s, gsteps n m (ps, local_new n) s -> (exists es, linv n chan es (snd s)) /\
       Proc.steps (fun p => p < n) queue_cap m (Proc.init ps) (Proc.mkConfig (fst s) (chans (snd s)))).
    { intros m s Hs. destruct (gsteps_refines Hs Hinv) as (X & Y). split; [exact X|].
      eapply steps_ceq; [|apply ceq_refl|exact Y]. split; [reflexivity|]. intros i j. cbn [ch init fst snd]. apply chans_new. }
    split.
    - intros m s Hs. destruct (Hst m s Hs) as (_ & St). exact (Hb _ _ St).
    - intros m s Hs Hstuck. destruct (Hst m s Hs) as ((es & Hi) & St). destruct (Hf _ _ St) as (F1 & F2).
      + intros i c' Hc. destruct s as (ps', w). cbn [fst snd] in *. pose proof Hc as (Hmem & _).
        pose proof (gsteps_talks Hs Ht Hmem) as Tk. cbn [fst] in Tk.
        destruct (@gstep_complete A n chan es ps' w i c' Hi) as (s' & Hg); [| |exact Hc|exact (Hstuck _ _ Hg)].
        * intros j m' k E. rewrite E in Tk. cbn in Tk. tauto.
        * intros j k E. rewrite E in Tk. cbn in Tk. tauto.
      + split; [exact F1|exact F2].
  Qed.
  (** ** The dummy network *)
  (** lib.rs:66-85 [impl Network for ()]: accepts every message, receives the empty message *)
  Definition unit_id : nat := 0.
  Definition unit_send (to : nat) (data : list B) : outcome unit := Done tt.
  Definition unit_recv (from : nat) : outcome (list B) := Done [].
  Definition unit_stats : stats := [].
End Local.
Arguments world : clear implicits. Arguments lev : clear implicits.
