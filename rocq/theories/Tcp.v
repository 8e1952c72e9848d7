(** * Establishing the connections of a TCP network

    Models [TcpNetwork::networks] of mpc-net/src/tcp.rs:43-132: all parties run the same loop; a
    party with a smaller id connects, one with a larger id accepts whichever connection is first in
    its listener's queue and learns from a header which network and party it belongs to.

    Simplifications: a connection is named by who made it, in which pass, and to whom (the kernel
    gives it an arbitrary new descriptor); failed [connect] attempts, which are repeated, are not
    steps; time-outs ([connect_timeout]) are those of a run that does not get that far. *)
From Coq Require Import String Bool Arith Lia.
From Coq Require Import Sorting.Permutation.
From Coq Require Import List.
From Verif Require Import Proc.
Import ListNotations.
Set Implicit Arguments.

(** what a party does for one entry of the address list, tcp.rs:81-127 *)
Inductive tact := TConnect (i other : nat) | TAccept.
Definition party_act (id i other : nat) : list tact :=
  match Nat.compare id other with
  | Lt => [TConnect i other]
  | Gt => [TAccept]
  | Eq => []
  end.
(** tcp.rs:79-129: the loops over the [nets] networks and the [n] addresses *)
Definition script (n nets id : nat) : list tact := flat_map (fun i => flat_map (party_act id i) (seq 0 n)) (seq 0 nets).

(** a connection: pass, connecting party, accepting party *)
Definition conn : Type := nat * nat * nat.
Inductive phase := PIdle | PConnected (c : conn) (i other : nat) | PAccepted (c : conn).
Record tstate := mkT {
  t_bound : nat -> bool;                       (* the listener is open, tcp.rs:69-71 *)
  t_todo : nat -> list tact;
  t_phase : nat -> phase;
  t_queue : nat -> list conn;                  (* connections waiting to be accepted *)
  t_header : conn -> option (nat * nat);       (* the 16 bytes written on the connection *)
  t_slots : nat -> list ((nat * nat) * conn);  (* (network, peer) -> connection, [add_peer] *)
  t_conns : list conn;                         (* all connections made so far (ghost) *)
  t_acc : nat -> list conn }.                  (* all connections accepted so far (ghost) *)
Definition set {X} (f : nat -> X) (p : nat) (x : X) : nat -> X := fun q => if (q =? p)%nat then x else f q.
Definition conn_eqb (a b : conn) : bool :=
  (fst (fst a) =? fst (fst b)) && (snd (fst a) =? snd (fst b)) && (snd a =? snd b).

Section Tcp.
  Context (n nets backlog : nat).
  Definition t_init : tstate :=
    mkT (fun _ => false) (script n nets) (fun _ => PIdle) (fun _ => []) (fun _ => None) (fun _ => []) [] (fun _ => []).
  Inductive tstep (w : tstate) : tstate -> Prop :=
  | ts_bind p : p < n -> t_bound w p = false ->
      tstep w (mkT (set (t_bound w) p true) (t_todo w) (t_phase w) (t_queue w) (t_header w) (t_slots w) (t_conns w) (t_acc w))
  | ts_connect p i q r : p < n -> t_bound w p = true -> t_phase w p = PIdle -> t_todo w p = TConnect i q :: r ->
      t_bound w q = true -> length (t_queue w q) < backlog ->
      tstep w (mkT (t_bound w) (set (t_todo w) p r) (set (t_phase w) p (PConnected (i, p, q) i q))
                   (set (t_queue w) q (t_queue w q ++ [(i, p, q)])) (t_header w) (t_slots w) (t_conns w ++ [(i, p, q)]) (t_acc w))
  (* tcp.rs:106-109: write [i] and [id], keep the stream under [other] *)
  | ts_write p c i q : p < n -> t_phase w p = PConnected c i q ->
      tstep w (mkT (t_bound w) (t_todo w) (set (t_phase w) p PIdle) (t_queue w)
                   (fun c' => if conn_eqb c' c then Some (i, p) else t_header w c')
                   (set (t_slots w) p (((i, q), c) :: t_slots w p)) (t_conns w) (t_acc w))
  (* tcp.rs:112 *)
  | ts_accept p r c cs : p < n -> t_bound w p = true -> t_phase w p = PIdle -> t_todo w p = TAccept :: r -> t_queue w p = c :: cs ->
      tstep w (mkT (t_bound w) (set (t_todo w) p r) (set (t_phase w) p (PAccepted c))
                   (set (t_queue w) p cs) (t_header w) (t_slots w) (t_conns w) (set (t_acc w) p (t_acc w p ++ [c])))
  (* tcp.rs:119-122: read [i] and [other_id]; [nets[i]] panics unless [i < nets] *)
  | ts_read p c i o : p < n -> t_phase w p = PAccepted c -> t_header w c = Some (i, o) -> i < nets ->
      tstep w (mkT (t_bound w) (t_todo w) (set (t_phase w) p PIdle) (t_queue w) (t_header w)
                   (set (t_slots w) p (((i, o), c) :: t_slots w p)) (t_conns w) (t_acc w)).
  Inductive tsteps : nat -> tstate -> tstate -> Prop :=
  | tsteps_0 w : tsteps 0 w w
  | tsteps_S k w1 w2 w3 : tstep w1 w2 -> tsteps k w2 w3 -> tsteps (S k) w1 w3.
  Definition t_done (w : tstate) : Prop := forall p, p < n -> t_bound w p = true /\ t_todo w p = [] /\ t_phase w p = PIdle.
  (** a party that has read a header naming a network that does not exist: [nets[i]] panics *)
  Definition t_panics (w : tstate) : Prop :=
    exists p c i o, p < n /\ t_phase w p = PAccepted c /\ t_header w c = Some (i, o) /\ nets <= i.

  (** * Proofs *)
  Lemma set_same {X} (f : nat -> X) p x : set f p x p = x.
  Proof. unfold set. rewrite Nat.eqb_refl. reflexivity. Qed.
  Lemma set_other {X} (f : nat -> X) p x q : q <> p -> set f p x q = f q.
  Proof. intros H. unfold set. destruct (q =? p) eqn:E; [apply Nat.eqb_eq in E; contradiction|reflexivity]. Qed.
  Lemma conn_eqb_eq a b : conn_eqb a b = true <-> a = b.
  Proof.
    destruct a as ((a1, a2), a3), b as ((b1, b2), b3). unfold conn_eqb. cbn. rewrite !andb_true_iff, !Nat.eqb_eq.
    split; [intros ((-> & ->) & ->); reflexivity|]. intros E. injection E as -> -> ->. auto.
  Qed.
  Lemma conn_eqb_neq a b : a <> b -> conn_eqb a b = false.
  Proof. intros H. destruct (conn_eqb a b) eqn:E; [apply conn_eqb_eq in E; contradiction|reflexivity]. Qed.
  Definition is_accept (a : tact) : bool := match a with TAccept => true | _ => false end.
  Definition accepts (l : list tact) : nat := length (filter is_accept l).

  Lemma script_connect id i q : In (TConnect i q) (script n nets id) <-> i < nets /\ q < n /\ id < q.
  Proof.
    unfold script. rewrite in_flat_map. split.
    - intros (i' & Hi & Hin). apply in_seq in Hi. apply in_flat_map in Hin. destruct Hin as (o & Ho & Hin). apply in_seq in Ho.
      unfold party_act in Hin. destruct (Nat.compare_spec id o); cbn in Hin; try tauto.
      + destruct Hin as [E|[]]. injection E as <- <-. lia.
      + destruct Hin as [E|[]]. discriminate.
    - intros (Hi & Hq & Hlt). exists i. split; [apply in_seq; lia|]. apply in_flat_map. exists q. split; [apply in_seq; lia|].
      unfold party_act. apply Nat.compare_lt_iff in Hlt. rewrite Hlt. left. reflexivity.
  Qed.
  Definition connects (l : list tact) : list (nat * nat) := flat_map (fun a => match a with TConnect i q => [(i, q)] | TAccept => [] end) l.
  Lemma connects_app a b : connects (a ++ b) = connects a ++ connects b.
  Proof. apply flat_map_app. Qed.
  Lemma connects_in l i q : In (i, q) (connects l) <-> In (TConnect i q) l.
  Proof.
    unfold connects. rewrite in_flat_map. split.
    - intros ([i' q'|] & Hin & H); cbn in H; [|contradiction]. destruct H as [E|[]]. injection E as -> ->. exact Hin.
    - intros H. exists (TConnect i q). split; [exact H|]. left. reflexivity.
  Qed.
  Lemma connects_inner id i : connects (flat_map (party_act id i) (seq 0 n)) = map (fun q => (i, q)) (filter (fun q => id <? q) (seq 0 n)).
  Proof.
    induction (seq 0 n) as [|q l IH]; [reflexivity|]. cbn [flat_map filter]. rewrite connects_app, IH. unfold party_act.
    destruct (Nat.compare_spec id q) as [E|E|E].
    - subst. rewrite Nat.ltb_irrefl. reflexivity.
    - rewrite (proj2 (Nat.ltb_lt id q) E). reflexivity.
    - rewrite (proj2 (Nat.ltb_ge id q)) by lia. reflexivity.
  Qed.
  Lemma nodup_app {X} (a b : list X) : NoDup a -> NoDup b -> (forall x, In x a -> ~ In x b) -> NoDup (a ++ b).
  Proof.
    intros Ha Hb Hd. induction Ha as [|x a Hx Ha IH]; [exact Hb|]. cbn [app]. constructor.
    - intros Hin. apply in_app_or in Hin. destruct Hin as [Hin|Hin]; [contradiction|]. apply (Hd x); [left; reflexivity|exact Hin].
    - apply IH. intros y Hy. apply Hd. right. exact Hy.
  Qed.
  Lemma nodup_map {X Y} (f : X -> Y) l : (forall a b, f a = f b -> a = b) -> NoDup l -> NoDup (map f l).
  Proof.
    intros Hf Hl. induction Hl as [|x l Hx Hl IH]; [constructor|]. cbn [map]. constructor; [|exact IH].
    rewrite in_map_iff. intros (y & E & Hy). apply Hf in E. subst. contradiction.
  Qed.
  Lemma connects_nodup id : NoDup (connects (script n nets id)).
  Proof.
    unfold script. assert (H : forall k s, NoDup (connects (flat_map (fun i => flat_map (party_act id i) (seq 0 n)) (seq s k)))).
    { induction k as [|k IH]; intros s; cbn [seq flat_map]; [constructor|]. rewrite connects_app, connects_inner. apply nodup_app.
      - apply nodup_map; [intros a b E; congruence|]. apply NoDup_filter. apply seq_NoDup.
      - apply IH.
      - intros (i, q) H1 H2. apply in_map_iff in H1. destruct H1 as (q' & E & _). injection E as <- <-.
        apply connects_in in H2. apply in_flat_map in H2. destruct H2 as (i' & Hi & Hin). apply in_seq in Hi.
        apply in_flat_map in Hin. destruct Hin as (o & _ & Hin). unfold party_act in Hin.
        destruct (Nat.compare_spec id o); cbn in Hin; try tauto.
        + destruct Hin as [E|[]]. injection E as -> ->. lia.
        + destruct Hin as [E|[]]. discriminate. }
    apply H.
  Qed.
  Lemma accepts_app a b : accepts (a ++ b) = accepts a + accepts b.
  Proof. unfold accepts. rewrite filter_app, app_length. reflexivity. Qed.
  Lemma accepts_inner id i : id <= n -> accepts (flat_map (party_act id i) (seq 0 n)) = id.
  Proof.
    intros Hid. assert (H : forall k s, accepts (flat_map (party_act id i) (seq s k)) = Nat.min k (id - s)).
    { induction k as [|k IH]; intros s; cbn [seq flat_map]; [reflexivity|]. rewrite accepts_app, IH. unfold party_act.
      destruct (Nat.compare_spec id s) as [E|E|E]; cbn [accepts filter is_accept length]; lia. }
    rewrite H. lia.
  Qed.
  Lemma accepts_script id : id <= n -> accepts (script n nets id) = nets * id.
  Proof.
    intros Hid. unfold script. assert (H : forall k s, accepts (flat_map (fun i => flat_map (party_act id i) (seq 0 n)) (seq s k)) = k * id).
    { induction k as [|k IH]; intros s; cbn [seq flat_map]; [reflexivity|]. rewrite accepts_app, IH, accepts_inner by exact Hid. lia. }
    apply H.
  Qed.

  Definition from_of (c : conn) : nat := snd (fst c).
  Definition to_of (c : conn) : nat := snd c.
  Definition net_of (c : conn) : nat := fst (fst c).
  Definition tinv (w : tstate) : Prop :=
    (exists done : nat -> list tact,
      (forall p, p < n -> script n nets p = done p ++ t_todo w p) /\
      (forall i p q, In (i, p, q) (t_conns w) <-> p < n /\ In (TConnect i q) (done p)) /\
      (forall p, p < n -> accepts (done p) = length (t_acc w p)) /\
      (forall p, p < n -> t_bound w p = false -> done p = [])) /\
    NoDup (t_conns w) /\
    (forall q, q < n -> filter (fun c => to_of c =? q) (t_conns w) = t_acc w q ++ t_queue w q) /\
    (forall c h, t_header w c = Some h -> h = (net_of c, from_of c) /\ In c (t_conns w)) /\
    (forall c, In c (t_conns w) -> t_header w c = None -> exists i q, t_phase w (from_of c) = PConnected c i q) /\
    (forall p c i q, p < n -> t_phase w p = PConnected c i q -> c = (i, p, q) /\ In c (t_conns w) /\ t_header w c = None) /\
    (forall p c, p < n -> t_phase w p = PAccepted c -> In c (t_acc w p)) /\
    (forall p i o c, p < n -> (In ((i, o), c) (t_slots w p) <->
        (c = (i, p, o) /\ In c (t_conns w) /\ (forall i' q', t_phase w p <> PConnected c i' q')) \/
        (c = (i, o, p) /\ In c (t_acc w p) /\ t_phase w p <> PAccepted c))) /\
    (forall p, p < n -> NoDup (t_slots w p)).
  Lemma tinv_init : tinv t_init.
  Proof.
    split; [|repeat split; cbn; intros; try tauto; try discriminate; try constructor].
    exists (fun _ => []). cbn. repeat split; tauto.
  Qed.
  Lemma acc_conns w q c : tinv w -> q < n -> In c (t_acc w q) -> In c (t_conns w) /\ to_of c = q.
  Proof.
    intros (_ & _ & I3 & _) Hq Hin. assert (H : In c (filter (fun c => to_of c =? q) (t_conns w))) by (rewrite I3 by exact Hq; apply in_or_app; auto).
    apply filter_In in H. rewrite Nat.eqb_eq in H. exact H.
  Qed.
  Lemma queue_conns w q c : tinv w -> q < n -> In c (t_queue w q) -> In c (t_conns w) /\ to_of c = q.
  Proof.
    intros (_ & _ & I3 & _) Hq Hin. assert (H : In c (filter (fun c => to_of c =? q) (t_conns w))) by (rewrite I3 by exact Hq; apply in_or_app; auto).
    apply filter_In in H. rewrite Nat.eqb_eq in H. exact H.
  Qed.
  Lemma conns_range w i p q : tinv w -> In (i, p, q) (t_conns w) -> i < nets /\ p < n /\ q < n /\ p < q.
  Proof.
    intros ((done & D1 & D2 & _) & _) Hin. apply D2 in Hin. destruct Hin as (Hp & Hin).
    assert (H : In (TConnect i q) (script n nets p)) by (rewrite D1 by exact Hp; apply in_or_app; auto).
    apply script_connect in H. lia.
  Qed.
  Lemma tinv_step w w' : tinv w -> tstep w w' -> tinv w'.
  Proof.
    intros Hinv Hs. pose proof (@acc_conns w) as Acc. pose proof (@queue_conns w) as Que. pose proof (@conns_range w) as Rng.
    pose proof Hinv as ((done & D1 & D2 & D3 & D4) & I2 & I3 & I4 & I5 & I6 & I7 & I8 & I9).
    destruct Hs as [p Hp Hb|p i q r Hp Hbp Hph Htd Hbq Hlen|p c i q Hp Hph|p r c cs Hp Hbp Hph Htd Hqu|p c i o Hp Hph Hhd Hi].
    - split; [|exact (conj I2 (conj I3 (conj I4 (conj I5 (conj I6 (conj I7 (conj I8 I9)))))))].
      exists done. split; [exact D1|]. split; [exact D2|]. split; [exact D3|]. cbn [t_bound]. intros p' Hp' Hb'. apply D4; [exact Hp'|].
      unfold set in Hb'. destruct (p' =? p); [discriminate|exact Hb'].
    - (* connect *)
      set (c := (i, p, q)).
      assert (Hdone : script n nets p = (done p ++ [TConnect i q]) ++ r) by (rewrite <- app_assoc; cbn [app]; rewrite <- Htd; apply D1; exact Hp).
      assert (Hfresh : ~ In c (t_conns w)).
      { unfold c. rewrite D2. intros (_ & Hin). pose proof (connects_nodup p) as Nd. rewrite Hdone, !connects_app in Nd.
        rewrite <- app_assoc in Nd. cbn [connects flat_map app] in Nd. apply NoDup_remove_2 in Nd. apply Nd. apply in_or_app. left.
        apply connects_in. exact Hin. }
      assert (Hrange : i < nets /\ q < n /\ p < q).
      { apply script_connect. rewrite Hdone. apply in_or_app. left. apply in_or_app. right. left. reflexivity. }
      destruct Hrange as (Hi & Hq & Hpq).
      split; [|split; [|split; [|split; [|split; [|split; [|split; [|split]]]]]]]; cbn [t_bound t_todo t_phase t_queue t_header t_slots t_conns t_acc].
      + exists (set done p (done p ++ [TConnect i q])). split; [|split; [|split]].
        * intros p' Hp'. unfold set. destruct (p' =? p) eqn:E; [apply Nat.eqb_eq in E; subst p'; exact Hdone|apply D1; exact Hp'].
        * intros i' p' q'. rewrite in_app_iff, D2. cbn [In]. split.
          -- intros [(Hp' & Hin)|[E|[]]].
             ++ split; [exact Hp'|]. unfold set. destruct (p' =? p) eqn:E; [apply Nat.eqb_eq in E; subst p'; apply in_or_app; auto|exact Hin].
             ++ unfold c in E. injection E as <- <- <-. split; [exact Hp|]. rewrite set_same. apply in_or_app. right. left. reflexivity.
          -- intros (Hp' & Hin). unfold set in Hin. destruct (p' =? p) eqn:E; [|left; auto]. apply Nat.eqb_eq in E. subst p'.
             apply in_app_or in Hin. destruct Hin as [Hin|[Hin|[]]]; [left; auto|]. injection Hin as <- <-. right. left. reflexivity.
        * intros p' Hp'. unfold set. destruct (p' =? p) eqn:E; [|apply D3; exact Hp']. apply Nat.eqb_eq in E. subst p'.
          rewrite accepts_app, D3 by exact Hp. cbn. lia.
        * intros p' Hp' Hb'. unfold set. destruct (p' =? p) eqn:E; [apply Nat.eqb_eq in E; congruence|apply D4; assumption].
      + apply nodup_app; [exact I2|constructor; [tauto|constructor]|]. intros x Hx [E|[]]. subst x. contradiction.
      + intros q' Hq'. rewrite filter_app, I3 by exact Hq'. cbn [filter]. unfold to_of at 1, c. cbn [snd]. unfold set.
        destruct (q' =? q) eqn:E.
        * apply Nat.eqb_eq in E. subst q'. rewrite Nat.eqb_refl, app_assoc. reflexivity.
        * rewrite Nat.eqb_sym, E, app_nil_r. reflexivity.
      + intros c' h Eh. destruct (I4 c' h Eh). split; [assumption|apply in_or_app; auto].
      + intros c' Hin Hh. apply in_app_or in Hin. destruct Hin as [Hin|[<-|[]]].
        * destruct (I5 c' Hin Hh) as (i' & q' & E). exists i', q'. rewrite set_other; [exact E|]. intros X. rewrite X in E. congruence.
        * exists i, q. unfold c, from_of. cbn [fst snd]. apply set_same.
      + intros p' c' i' q' Hp' E. unfold set in E. destruct (p' =? p) eqn:Ep.
        * apply Nat.eqb_eq in Ep. subst p'. injection E as <- <- <-. split; [reflexivity|]. split; [apply in_or_app; right; left; reflexivity|].
          destruct (t_header w c) as [h|] eqn:Eh; [|reflexivity]. exfalso.
          apply Hfresh. apply (I4 c h Eh).
        * destruct (I6 p' c' i' q' Hp' E) as (A & B & C). repeat split; try assumption. apply in_or_app. auto.
      + intros p' c' Hp' E. unfold set in E. destruct (p' =? p) eqn:Ep; [discriminate|]. apply I7; assumption.
      + intros p' i' o c' Hp'. rewrite I8 by exact Hp'. unfold set. destruct (p' =? p) eqn:Ep.
        * apply Nat.eqb_eq in Ep. subst p'. split.
          -- intros [(E & Hin & Hn)|(E & Hin & Hn)].
             ++ left. split; [exact E|]. split; [apply in_or_app; auto|]. intros i'' q'' X. apply Hfresh.
                assert (Y : c = c') by (injection X; auto). rewrite Y. exact Hin.
             ++ right. split; [exact E|]. split; [exact Hin|discriminate].
          -- intros [(E & Hin & Hn)|(E & Hin & Hn)].
             ++ left. split; [exact E|]. split; [|intros i'' q''; rewrite Hph; discriminate].
                apply in_app_or in Hin. destruct Hin as [Hin|[X|[]]]; [exact Hin|]. elim (Hn i q). rewrite X. reflexivity.
             ++ right. split; [exact E|]. split; [exact Hin|]. rewrite Hph. discriminate.
        * apply Nat.eqb_neq in Ep. split.
          -- intros [(E & Hin & Hn)|H]; [left|right; exact H]. split; [exact E|]. split; [apply in_or_app; auto|exact Hn].
          -- intros [(E & Hin & Hn)|H]; [left|right; exact H]. split; [exact E|]. split; [|exact Hn].
             apply in_app_or in Hin. destruct Hin as [Hin|[X|[]]]; [exact Hin|]. unfold c in X. congruence.
      + exact I9.
    - (* write the header *)
      destruct (I6 p c i q Hp Hph) as (Ec & Hin & Hno).
      assert (Hfrom : from_of c = p) by (subst c; reflexivity).
      split; [|split; [|split; [|split; [|split; [|split; [|split; [|split]]]]]]]; cbn [t_bound t_todo t_phase t_queue t_header t_slots t_conns t_acc].
      + exists done. exact (conj D1 (conj D2 (conj D3 D4))).
      + exact I2.
      + exact I3.
      + intros c' h Eh. destruct (conn_eqb c' c) eqn:E; [|apply I4; exact Eh]. apply conn_eqb_eq in E. subst c'. injection Eh as <-.
        split; [subst c; reflexivity|exact Hin].
      + intros c' Hin' Hh. destruct (conn_eqb c' c) eqn:E; [discriminate|]. destruct (I5 c' Hin' Hh) as (i' & q' & E').
        exists i', q'. rewrite set_other; [exact E'|]. intros X. rewrite X, Hph in E'. injection E' as E' _ _. rewrite E' in E.
        assert (conn_eqb c' c' = true) by (apply conn_eqb_eq; reflexivity). congruence.
      + intros p' c' i' q' Hp' E. unfold set in E. destruct (p' =? p) eqn:Ep; [discriminate|]. apply Nat.eqb_neq in Ep.
        destruct (I6 p' c' i' q' Hp' E) as (A & B & C). repeat split; try assumption. rewrite conn_eqb_neq; [exact C|]. intros ->. subst c. congruence.
      + intros p' c' Hp' E. unfold set in E. destruct (p' =? p); [discriminate|]. apply I7; assumption.
      + intros p' i' o c' Hp'. unfold set. destruct (p' =? p) eqn:Ep.
        * apply Nat.eqb_eq in Ep. subst p'. cbn [In]. rewrite I8 by exact Hp. split.
          -- intros [E|[(E & Hi' & Hn)|(E & Hi' & Hn)]].
             ++ injection E as <- <- <-. left. repeat split; try assumption. discriminate.
             ++ left. repeat split; try assumption. discriminate.
             ++ right. repeat split; try assumption. discriminate.
          -- intros [(E & Hi' & Hn)|(E & Hi' & Hn)].
             ++ destruct (conn_eqb c' c) eqn:Ecc.
                ** apply conn_eqb_eq in Ecc. left. rewrite Ecc, Ec in E. injection E as <- <-. rewrite Ecc. reflexivity.
                ** right. left. repeat split; try assumption. intros i'' q''. rewrite Hph. intros X. injection X as X _ _.
                   rewrite (proj2 (conn_eqb_eq c' c)) in Ecc by congruence. discriminate.
             ++ right. right. repeat split; try assumption. rewrite Hph. discriminate.
        * rewrite I8 by exact Hp'. reflexivity.
      + intros p' Hp'. unfold set. destruct (p' =? p) eqn:Ep; [|apply I9; exact Hp']. apply Nat.eqb_eq in Ep. subst p'.
        constructor; [|apply I9; exact Hp]. rewrite I8 by exact Hp. intros [(E & _ & Hn)|(E & Hi' & _)].
        * exact (Hn i q Hph).
        * rewrite Ec in E. injection E as E1 E2. destruct (@Rng _ _ _ Hinv ltac:(rewrite <- Ec; exact Hin)). lia.
    - (* accept *)
      assert (Hdone : script n nets p = (done p ++ [TAccept]) ++ r) by (rewrite <- app_assoc; cbn [app]; rewrite <- Htd; apply D1; exact Hp).
      assert (Hc : In c (t_conns w) /\ to_of c = p) by (apply Que; [exact Hinv|exact Hp|rewrite Hqu; left; reflexivity]).
      assert (Hnacc : ~ In c (t_acc w p)).
      { intros X. assert (Nd : NoDup (t_acc w p ++ t_queue w p)) by (rewrite <- I3 by exact Hp; apply NoDup_filter; exact I2).
        rewrite Hqu in Nd. apply NoDup_remove_2 in Nd. apply Nd. apply in_or_app. auto. }
      split; [|split; [|split; [|split; [|split; [|split; [|split; [|split]]]]]]]; cbn [t_bound t_todo t_phase t_queue t_header t_slots t_conns t_acc].
      + exists (set done p (done p ++ [TAccept])). split; [|split; [|split]].
        * intros p' Hp'. unfold set. destruct (p' =? p) eqn:E; [apply Nat.eqb_eq in E; subst p'; exact Hdone|apply D1; exact Hp'].
        * intros i' p' q'. rewrite D2. unfold set. destruct (p' =? p) eqn:E; [|reflexivity]. apply Nat.eqb_eq in E. subst p'.
          rewrite in_app_iff. cbn [In]. split; [tauto|]. intros (A & [B|[B|[]]]); [auto|discriminate].
        * intros p' Hp'. unfold set. destruct (p' =? p) eqn:E; [|apply D3; exact Hp']. apply Nat.eqb_eq in E. subst p'.
          rewrite accepts_app, D3, app_length by exact Hp. cbn. lia.
        * intros p' Hp' Hb'. unfold set. destruct (p' =? p) eqn:E; [apply Nat.eqb_eq in E; congruence|apply D4; assumption].
      + exact I2.
      + intros q' Hq'. rewrite I3 by exact Hq'. unfold set. destruct (q' =? p) eqn:E; [|reflexivity]. apply Nat.eqb_eq in E. subst q'.
        rewrite Hqu, <- app_assoc. reflexivity.
      + exact I4.
      + intros c' Hin Hh. destruct (I5 c' Hin Hh) as (i' & q' & E'). exists i', q'. rewrite set_other; [exact E'|]. intros X. rewrite X in E'. congruence.
      + intros p' c' i' q' Hp' E. unfold set in E. destruct (p' =? p) eqn:Ep; [discriminate|]. apply (I6 p' c' i' q' Hp' E).
      + intros p' c' Hp' E. unfold set in *. destruct (p' =? p) eqn:Ep.
        * injection E as <-. apply in_or_app. right. left. reflexivity.
        * apply I7; assumption.
      + intros p' i' o c' Hp'. unfold set. destruct (p' =? p) eqn:Ep.
        * apply Nat.eqb_eq in Ep. subst p'. rewrite I8 by exact Hp. split.
          -- intros [(E & Hi' & Hn)|(E & Hi' & Hn)].
             ++ left. repeat split; try assumption. discriminate.
             ++ right. split; [exact E|]. split; [apply in_or_app; auto|]. intros X. apply Hnacc.
                assert (Y : c = c') by (injection X; auto). rewrite Y. exact Hi'.
          -- intros [(E & Hi' & Hn)|(E & Hi' & Hn)].
             ++ left. repeat split; try assumption. rewrite Hph. discriminate.
             ++ right. split; [exact E|]. split; [|rewrite Hph; discriminate]. apply in_app_or in Hi'.
                destruct Hi' as [Hi'|[X|[]]]; [exact Hi'|]. elim Hn. rewrite X. reflexivity.
        * rewrite I8 by exact Hp'. reflexivity.
      + exact I9.
    - (* read the header *)
      pose proof (I7 p c Hp Hph) as Hacc. destruct (I4 c (i, o) Hhd) as (Eh & Hin).
      destruct (Acc _ _ Hinv Hp Hacc) as (_ & Hto).
      assert (Ec : c = (i, o, p)).
      { destruct c as ((c1, c2), c3). unfold net_of, from_of, to_of in *. cbn in *. congruence. }
      destruct (@Rng i o p Hinv ltac:(rewrite <- Ec; exact Hin)) as (_ & _ & _ & Hop).
      split; [|split; [|split; [|split; [|split; [|split; [|split; [|split]]]]]]]; cbn [t_bound t_todo t_phase t_queue t_header t_slots t_conns t_acc].
      + exists done. exact (conj D1 (conj D2 (conj D3 D4))).
      + exact I2.
      + exact I3.
      + exact I4.
      + intros c' Hin' Hh. destruct (I5 c' Hin' Hh) as (i' & q' & E'). exists i', q'. rewrite set_other; [exact E'|]. intros X. rewrite X in E'. congruence.
      + intros p' c' i' q' Hp' E. unfold set in E. destruct (p' =? p) eqn:Ep; [discriminate|]. apply (I6 p' c' i' q' Hp' E).
      + intros p' c' Hp' E. unfold set in E. destruct (p' =? p); [discriminate|]. apply I7; assumption.
      + intros p' i' o' c' Hp'. unfold set. destruct (p' =? p) eqn:Ep.
        * apply Nat.eqb_eq in Ep. subst p'. cbn [In]. rewrite I8 by exact Hp. split.
          -- intros [E|[(E & Hi' & Hn)|(E & Hi' & Hn)]].
             ++ injection E as <- <- <-. right. repeat split; try assumption. discriminate.
             ++ left. repeat split; try assumption. discriminate.
             ++ right. repeat split; try assumption. discriminate.
          -- intros [(E & Hi' & Hn)|(E & Hi' & Hn)].
             ++ right. left. repeat split; try assumption. intros i'' q''. rewrite Hph. discriminate.
             ++ destruct (conn_eqb c' c) eqn:Ecc.
                ** apply conn_eqb_eq in Ecc. left. rewrite Ecc, Ec in E. injection E as <- <-. rewrite Ecc. reflexivity.
                ** right. right. repeat split; try assumption. rewrite Hph. intros X. injection X as X.
                   rewrite (proj2 (conn_eqb_eq c' c)) in Ecc by congruence. discriminate.
        * rewrite I8 by exact Hp'. reflexivity.
      + intros p' Hp'. unfold set. destruct (p' =? p) eqn:Ep; [|apply I9; exact Hp']. apply Nat.eqb_eq in Ep. subst p'.
        constructor; [|apply I9; exact Hp]. rewrite I8 by exact Hp. intros [(E & _ & Hn)|(E & _ & Hn)].
        * rewrite Ec in E. injection E as E1 E2. lia.
        * contradiction.
  Qed.
  Lemma tinv_steps k w w' : tsteps k w w' -> tinv w -> tinv w'.
  Proof. induction 1; intros H1; [exact H1|]. eauto using tinv_step. Qed.

  (** *** Progress *)
  Lemma least (P : nat -> Prop) : (forall p, P p \/ ~ P p) -> forall m, (exists p, p < m /\ P p) -> exists p, p < m /\ P p /\ forall q, q < p -> ~ P q.
  Proof.
    intros Hd. induction m as [|m IH]; intros (p & Hp & HP); [lia|].
    destruct (Hd m) as [Hm|Hm].
    - assert (H : (exists q, q < m /\ P q) \/ (forall q, q < m -> ~ P q)).
      { clear -Hd. induction m as [|m IH]; [right; lia|]. destruct IH as [(q & Hq & HP)|IH]; [left; exists q; split; [lia|exact HP]|].
        destruct (Hd m); [left; exists m; split; [lia|assumption]|]. right. intros q Hq. destruct (Nat.eq_dec q m); [subst; assumption|apply IH; lia]. }
      destruct H as [H|H]; [destruct (IH H) as (q & Q1 & Q2 & Q3); exists q; split; [lia|split; assumption]|].
      exists m. split; [lia|split; assumption].
    - destruct IH as (q & Q1 & Q2 & Q3); [exists p; split; [|exact HP]; destruct (Nat.eq_dec p m); [subst; contradiction|lia]|].
      exists q. split; [lia|split; assumption].
  Qed.
  Lemma greatest (P : nat -> Prop) : (forall p, P p \/ ~ P p) -> forall m, (exists p, p < m /\ P p) -> exists p, p < m /\ P p /\ forall q, p < q -> q < m -> ~ P q.
  Proof.
    intros Hd. induction m as [|m IH]; intros (p & Hp & HP); [lia|]. destruct (Hd m) as [Hm|Hm].
    - exists m. split; [lia|]. split; [exact Hm|]. lia.
    - destruct IH as (q & Q1 & Q2 & Q3); [exists p; split; [|exact HP]; destruct (Nat.eq_dec p m); [subst; contradiction|lia]|].
      exists q. split; [lia|]. split; [exact Q2|]. intros r Hr Hr'. destruct (Nat.eq_dec r m); [subst; exact Hm|apply Q3; lia].
  Qed.
  (** the connections made to [q] by a party that has run through its list *)
  Lemma made_all w p i q : tinv w -> p < n -> t_todo w p = [] -> i < nets -> q < n -> p < q -> In (i, p, q) (t_conns w).
  Proof.
    intros ((done & D1 & D2 & _) & _) Hp Ht Hi Hq Hpq. apply D2. split; [exact Hp|].
    assert (E : script n nets p = done p) by (rewrite D1 by exact Hp; rewrite Ht, app_nil_r; reflexivity).
    rewrite <- E. apply script_connect. auto.
  Qed.
  Definition all_to (q : nat) : list conn := flat_map (fun i => map (fun p => (i, p, q)) (seq 0 q)) (seq 0 nets).
  Lemma all_to_in q i p q' : In (i, p, q') (all_to q) <-> i < nets /\ p < q /\ q' = q.
  Proof.
    unfold all_to. rewrite in_flat_map. split.
    - intros (i' & Hi & Hin). apply in_seq in Hi. apply in_map_iff in Hin. destruct Hin as (p' & E & Hp). apply in_seq in Hp. injection E as <- <- <-. lia.
    - intros (Hi & Hp & ->). exists i. split; [apply in_seq; lia|]. apply in_map_iff. exists p. split; [reflexivity|apply in_seq; lia].
  Qed.
  Lemma all_to_len q : length (all_to q) = nets * q.
  Proof.
    unfold all_to. assert (H : forall k s, length (flat_map (fun i => map (fun p => (i, p, q)) (seq 0 q)) (seq s k)) = k * q).
    { induction k as [|k IH]; intros s; [reflexivity|]. cbn [seq flat_map]. rewrite app_length, map_length, seq_length, IH. lia. }
    apply H.
  Qed.
  Lemma all_to_nodup q : NoDup (all_to q).
  Proof.
    unfold all_to. assert (H : forall k s, NoDup (flat_map (fun i => map (fun p => (i, p, q)) (seq 0 q)) (seq s k))).
    { induction k as [|k IH]; intros s; [constructor|]. cbn [seq flat_map]. apply nodup_app; [apply nodup_map; [congruence|apply seq_NoDup]|apply IH|].
      intros c H1 H2. apply in_map_iff in H1. destruct H1 as (p & <- & _). apply in_flat_map in H2. destruct H2 as (i' & Hi & H2).
      apply in_seq in Hi. apply in_map_iff in H2. destruct H2 as (p' & E & _). injection E as <- _. lia. }
    apply H.
  Qed.
  (** connections made to [q] are among these *)
  Lemma conns_to_bound w q : tinv w -> q < n -> length (filter (fun c => to_of c =? q) (t_conns w)) <= nets * q.
  Proof.
    intros Hinv Hq. rewrite <- all_to_len. apply NoDup_incl_length; [apply NoDup_filter; apply Hinv|].
    intros ((i, p), q') Hin. apply filter_In in Hin. destruct Hin as (Hin & E). apply Nat.eqb_eq in E. unfold to_of in E. cbn in E. subst q'.
    apply all_to_in. destruct (@conns_range _ _ _ _ Hinv Hin). lia.
  Qed.
  Lemma conns_to_all w q : tinv w -> q < n -> (forall p, p < q -> t_todo w p = []) -> length (filter (fun c => to_of c =? q) (t_conns w)) = nets * q.
  Proof.
    intros Hinv Hq Ht. apply Nat.le_antisymm; [apply conns_to_bound; assumption|]. rewrite <- all_to_len.
    apply NoDup_incl_length; [apply all_to_nodup|]. intros ((i, p), q') Hin. apply all_to_in in Hin. destruct Hin as (Hi & Hp & ->).
    apply filter_In. split; [|apply Nat.eqb_refl]. apply made_all; try assumption; try lia. apply Ht. exact Hp.
  Qed.
  Lemma accepted_count w q : tinv w -> q < n -> length (t_acc w q) + accepts (t_todo w q) = nets * q.
  Proof.
    intros ((done & D1 & D2 & D3 & _) & _) Hq. rewrite <- (accepts_script (id := q)) by lia. rewrite D1 by exact Hq.
    rewrite accepts_app, D3 by exact Hq. reflexivity.
  Qed.
  Lemma queue_count w q : tinv w -> q < n -> length (t_acc w q) + length (t_queue w q) = length (filter (fun c => to_of c =? q) (t_conns w)).
  Proof. intros (_ & _ & I3 & _) Hq. rewrite I3 by exact Hq. rewrite app_length. reflexivity. Qed.
  Definition can_step (w : tstate) : Prop := exists w', tstep w w'.
  Lemma progress w : tinv w -> 0 < backlog -> ~ (exists w', tstep w w') -> t_done w.
  Proof.
    intros Hinv Hbl Hst.
    pose proof Hinv as (_ & I2 & I3 & I4 & I5 & I6 & I7 & _).
    assert (Hb : forall p, p < n -> t_bound w p = true).
    { intros p Hp. destruct (t_bound w p) eqn:E; [reflexivity|]. elim Hst. eexists. eapply ts_bind; eassumption. }
    assert (Hnc : forall p c i q, p < n -> t_phase w p <> PConnected c i q).
    { intros p c i q Hp E. elim Hst. eexists. eapply ts_write; eassumption. }
    assert (Hna : forall p c, p < n -> t_phase w p <> PAccepted c).
    { intros p c Hp E. pose proof (I7 p c Hp E) as Hacc. destruct (@acc_conns _ _ _ Hinv Hp Hacc) as (Hin & _).
      destruct c as ((ci, cp), cq). destruct (@conns_range _ _ _ _ Hinv Hin) as (Hi & Hcp & _).
      destruct (t_header w (ci, cp, cq)) as [h|] eqn:Eh.
      - destruct (I4 _ _ Eh) as (-> & _). elim Hst. eexists. eapply ts_read; [exact Hp|exact E|exact Eh|exact Hi].
      - destruct (I5 _ Hin Eh) as (i' & q' & E'). unfold from_of in E'. cbn in E'. exact (Hnc cp _ _ _ Hcp E'). }
    assert (Hidle : forall p, p < n -> t_phase w p = PIdle).
    { intros p Hp. destruct (t_phase w p) as [|c i q|c] eqn:E; [reflexivity|elim (Hnc p c i q Hp E)|elim (Hna p c Hp E)]. }
    (* no party waits to connect: take the greatest one that does *)
    assert (Hcon : forall p i q r, p < n -> t_todo w p = TConnect i q :: r -> False).
    { set (P p := exists i q r, t_todo w p = TConnect i q :: r).
      assert (Hd : forall p, P p \/ ~ P p).
      { intros p. unfold P. destruct (t_todo w p) as [|[i q|] r].
        - right. intros (i & q & r & E). discriminate.
        - left. eauto.
        - right. intros (i & q & r' & E). discriminate. }
      intros p0 i0 q0 r0 Hp0 E0. destruct (greatest P Hd) with (m := n) as (p & Hp & (i & q & r & E) & Hmax).
      { exists p0. split; [exact Hp0|]. exists i0, q0, r0. exact E0. }
      assert (Hq : q < n /\ p < q).
      { pose proof Hinv as ((done & D1 & _) & _). assert (H : In (TConnect i q) (script n nets p)) by (rewrite D1 by exact Hp; rewrite E; apply in_or_app; right; left; reflexivity).
        apply script_connect in H. lia. }
      destruct Hq as (Hq & Hpq). destruct (lt_dec (length (t_queue w q)) backlog) as [L|L].
      - elim Hst. eexists. eapply ts_connect; [exact Hp|apply Hb; exact Hp|apply Hidle; exact Hp|exact E|apply Hb; exact Hq|exact L].
      - destruct (t_queue w q) as [|c cs] eqn:Eq; [cbn in L; lia|]. destruct (t_todo w q) as [|[i' q'|] r'] eqn:Et.
        + pose proof (@accepted_count _ _ Hinv Hq) as A. rewrite Et in A. cbn in A. pose proof (@queue_count _ _ Hinv Hq) as B.
          pose proof (@conns_to_bound _ _ Hinv Hq) as C. rewrite Eq in B. cbn [length] in B. lia.
        + apply (Hmax q Hpq Hq). exists i', q', r'. exact Et.
        + elim Hst. eexists. eapply ts_accept; [exact Hq|apply Hb; exact Hq|apply Hidle; exact Hq|exact Et|exact Eq]. }
    (* no party waits to accept: take the least one that does *)
    assert (Hfin : forall p, p < n -> t_todo w p = []).
    { set (P p := t_todo w p <> []).
      assert (Hd : forall p, P p \/ ~ P p) by (intros p; unfold P; destruct (t_todo w p); [right; congruence|left; discriminate]).
      intros p0 Hp0. destruct (Hd p0) as [HP|HP]; [|unfold P in HP; destruct (t_todo w p0); [reflexivity|elim HP; discriminate]]. exfalso.
      destruct (least P Hd) with (m := n) as (p & Hp & Pp & Hmin); [exists p0; auto|].
      unfold P in Pp. destruct (t_todo w p) as [|[i q|] r] eqn:E; [congruence|exact (Hcon p i q r Hp E)|].
      destruct (t_queue w p) as [|c cs] eqn:Eq.
      - pose proof (@accepted_count _ _ Hinv Hp) as A. rewrite E in A. unfold accepts in A. cbn in A.
        pose proof (@queue_count _ _ Hinv Hp) as B. rewrite Eq in B. cbn in B.
        assert (C : length (filter (fun c => to_of c =? p) (t_conns w)) = nets * p).
        { apply conns_to_all; [exact Hinv|exact Hp|]. intros q Hq. specialize (Hmin q Hq). unfold P in Hmin. destruct (t_todo w q); [reflexivity|elim Hmin; discriminate]. }
        lia.
      - elim Hst. eexists. eapply ts_accept; [exact Hp|apply Hb; exact Hp|apply Hidle; exact Hp|exact E|exact Eq]. }
    intros p Hp. auto.
  Qed.

  (** *** Termination *)
  Definition pmeas (w : tstate) (p : nat) : nat :=
    (if t_bound w p then 0 else 1) + 2 * length (t_todo w p) + match t_phase w p with PIdle => 0 | _ => 1 end.
  Definition meas (w : tstate) : nat := list_sum (map (pmeas w) (seq 0 n)).
  Lemma sum_dec (f g : nat -> nat) p : p < n -> (forall q, q <> p -> f q = g q) -> g p = S (f p) ->
    list_sum (map g (seq 0 n)) = S (list_sum (map f (seq 0 n))).
  Proof.
    intros Hp He Hd. assert (H : forall k s, (s <= p < s + k -> list_sum (map g (seq s k)) = S (list_sum (map f (seq s k)))) /\
                                             (~ (s <= p < s + k) -> list_sum (map g (seq s k)) = list_sum (map f (seq s k)))).
    { induction k as [|k IH]; intros s; cbn [seq map list_sum fold_right]; [lia|]. destruct (IH (S s)) as (A & B).
      fold (list_sum (map g (seq (S s) k))). fold (list_sum (map f (seq (S s) k))).
      destruct (Nat.eq_dec s p) as [->|Hn].
      - split; [|lia]. intros _. rewrite B by lia. rewrite Hd. lia.
      - rewrite (He s) by exact Hn. split; intros HH; [rewrite A by lia|rewrite B by lia]; lia. }
    apply (H n 0). lia.
  Qed.
  Lemma meas_step w w' : tstep w w' -> meas w = S (meas w').
  Proof.
    intros Hs. unfold meas. destruct Hs as [p Hp Hb|p i q r Hp Hbp Hph Htd Hbq Hlen|p c i q Hp Hph|p r c cs Hp Hbp Hph Htd Hqu|p c i o Hp Hph Hhd Hi];
      (apply (@sum_dec _ _ p Hp); [intros q' Hq'; unfold pmeas; cbn [t_bound t_todo t_phase]; rewrite ?set_other by exact Hq'; reflexivity|]);
      unfold pmeas; cbn [t_bound t_todo t_phase]; rewrite ?set_same.
    - rewrite Hb. lia.
    - rewrite Hbp, Hph, Htd. cbn [length]. lia.
    - rewrite Hph. lia.
    - rewrite Hbp, Hph, Htd. cbn [length]. lia.
    - rewrite Hph. lia.
  Qed.
  Lemma meas_steps k w w' : tsteps k w w' -> meas w = k + meas w'.
  Proof. induction 1 as [w|k w1 w2 w3 Hs Hss IH]; [reflexivity|]. rewrite (meas_step Hs), IH. reflexivity. Qed.

  (** *** The result *)
  (** the end of a connection that party [p] uses for peer [o] in network [i] *)
  Definition the_conn (i p o : nat) : conn := if p <? o then (i, p, o) else (i, o, p).
  Lemma done_slots w : tinv w -> t_done w -> forall p, p < n ->
    NoDup (map fst (t_slots w p)) /\
    forall i o c, In ((i, o), c) (t_slots w p) <-> i < nets /\ o < n /\ o <> p /\ c = the_conn i p o.
  Proof.
    intros Hinv Hd p Hp. pose proof Hinv as (_ & _ & I3 & I4 & I5 & I6 & I7 & I8 & I9). destruct (Hd p Hp) as (_ & Ht & Hph).
    assert (Hslot : forall i o c, In ((i, o), c) (t_slots w p) <-> i < nets /\ o < n /\ o <> p /\ c = the_conn i p o).
    { intros i o c. rewrite I8 by exact Hp. rewrite Hph. unfold the_conn. split.
      - intros [(-> & Hin & _)|(-> & Hin & _)].
        + destruct (@conns_range _ _ _ _ Hinv Hin) as (A & B & C & D). repeat split; try lia. apply Nat.ltb_lt in D. rewrite D. reflexivity.
        + destruct (@acc_conns _ _ _ Hinv Hp Hin) as (Hin' & _). destruct (@conns_range _ _ _ _ Hinv Hin') as (A & B & C & D).
          repeat split; try lia. rewrite (proj2 (Nat.ltb_ge p o)) by lia. reflexivity.
      - intros (Hi & Ho & Hop & ->). destruct (p <? o) eqn:E.
        + apply Nat.ltb_lt in E. left. split; [reflexivity|]. split; [|discriminate]. apply made_all; auto.
        + apply Nat.ltb_ge in E. right. split; [reflexivity|]. split; [|discriminate].
          assert (Hq : t_queue w p = []).
          { pose proof (@accepted_count _ _ Hinv Hp) as A. rewrite Ht in A. cbn in A. pose proof (@queue_count _ _ Hinv Hp) as B.
            pose proof (@conns_to_bound _ _ Hinv Hp) as C. destruct (t_queue w p); [reflexivity|cbn in B; lia]. }
          assert (H : In (i, o, p) (filter (fun c => to_of c =? p) (t_conns w))).
          { apply filter_In. split; [|apply Nat.eqb_refl]. apply made_all; try assumption; try lia. apply Hd. exact Ho. }
          rewrite I3, Hq, app_nil_r in H by exact Hp. exact H. }
    split; [|exact Hslot]. specialize (I9 p Hp).
    assert (Hfun : forall k c c', In (k, c) (t_slots w p) -> In (k, c') (t_slots w p) -> c = c').
    { intros (i, o) c c' H1 H2. apply Hslot in H1, H2. destruct H1 as (_ & _ & _ & ->), H2 as (_ & _ & _ & ->). reflexivity. }
    clear -I9 Hfun. induction (t_slots w p) as [|(k, c) l IH]; [constructor|]. inversion I9 as [|? ? N1 N2]; subst. cbn [map fst].
    constructor; [|apply IH; [exact N2|intros k' c1 c2 H1 H2; apply (Hfun k'); right; assumption]].
    rewrite in_map_iff. intros ((k', c') & E & Hin). cbn in E. subst k'. apply N1.
    rewrite (Hfun k c c'); [exact Hin|left; reflexivity|right; exact Hin].
  Qed.
  Lemma no_panic w : tinv w -> ~ t_panics w.
  Proof.
    intros Hinv (p & c & i & o & Hp & Hph & Hh & Hi). pose proof Hinv as (_ & _ & _ & I4 & _ & _ & I7 & _).
    destruct (I4 _ _ Hh) as (E & Hin). destruct c as ((ci, cp), cq). unfold net_of, from_of in E. cbn in E. injection E as -> ->.
    destruct (@conns_range _ _ _ _ Hinv Hin). lia.
  Qed.
  Lemma established k w : 0 < backlog -> tsteps k t_init w ->
    k <= meas t_init /\ ~ t_panics w /\
    ((exists w', tstep w w') \/
     (t_done w /\ forall p, p < n -> NoDup (map fst (t_slots w p)) /\
       forall i o c, In ((i, o), c) (t_slots w p) <-> i < nets /\ o < n /\ o <> p /\ c = the_conn i p o)).
  Proof.
    intros Hb Hs. pose proof (tinv_steps Hs tinv_init) as Hinv. split; [rewrite (meas_steps Hs); lia|]. split; [apply no_panic; exact Hinv|].
    assert (Hdec : (exists w', tstep w w') \/ ~ (exists w', tstep w w')).
    { (* decide by searching the parties *)
      assert (Hp : forall p, p < n -> (exists w', tstep w w') \/ (t_bound w p = true /\ match t_phase w p with
         | PIdle => match t_todo w p with [] => True | TAccept :: _ => t_queue w p = [] | TConnect i q :: _ => t_bound w q = false \/ backlog <= length (t_queue w q) end
         | PConnected _ _ _ => False
         | PAccepted c => match t_header w c with Some (i, o) => nets <= i | None => True end end)).
      { intros p Hp. destruct (t_bound w p) eqn:Eb; [|left; eexists; eapply ts_bind; eassumption].
        destruct (t_phase w p) as [|c i q|c] eqn:E.
        - destruct (t_todo w p) as [|[i q|] r] eqn:Et; [right; auto| |].
          + destruct (t_bound w q) eqn:Ebq; [|right; auto]. destruct (lt_dec (length (t_queue w q)) backlog) as [L|L]; [|right; split; [reflexivity|right; lia]].
            left. eexists. eapply ts_connect; eassumption.
          + destruct (t_queue w p) as [|c cs] eqn:Eq; [right; auto|]. left. eexists. eapply ts_accept; eassumption.
        - left. eexists. eapply ts_write; eassumption.
        - destruct (t_header w c) as [(i, o)|] eqn:Eh; [|right; auto]. destruct (lt_dec i nets) as [L|L]; [|right; split; [reflexivity|lia]].
          left. eexists. eapply ts_read; eassumption. }
      assert (Hall : forall m, m <= n -> (exists w', tstep w w') \/ (forall p, p < m -> t_bound w p = true /\ match t_phase w p with
         | PIdle => match t_todo w p with [] => True | TAccept :: _ => t_queue w p = [] | TConnect i q :: _ => t_bound w q = false \/ backlog <= length (t_queue w q) end
         | PConnected _ _ _ => False
         | PAccepted c => match t_header w c with Some (i, o) => nets <= i | None => True end end)).
      { induction m as [|m IH]; intros Hm; [right; lia|]. destruct IH as [H|H]; [lia|left; exact H|].
        destruct (Hp m) as [H'|H']; [lia|left; exact H'|]. right. intros p Hlt. destruct (Nat.eq_dec p m) as [->|Hne]; [exact H'|apply H; lia]. }
      destruct (Hall n (le_n n)) as [H|H]; [left; exact H|]. right. intros (w' & Hst).
      destruct Hst as [p Hp' Hb'|p i q r Hp' Hbp Hph Htd Hbq Hlen|p c i q Hp' Hph|p r c cs Hp' Hbp Hph Htd Hqu|p c i o Hp' Hph Hhd Hi]; destruct (H p Hp') as (H1 & H2).
      - congruence.
      - rewrite Hph, Htd in H2. destruct H2 as [H2|H2]; [congruence|lia].
      - rewrite Hph in H2. exact H2.
      - rewrite Hph, Htd, Hqu in H2. discriminate.
      - rewrite Hph, Hhd in H2. lia. }
    destruct Hdec as [H|H]; [left; exact H|right]. pose proof (@progress _ Hinv Hb H) as Hdone. split; [exact Hdone|]. apply done_slots; assumption.
  Qed.
End Tcp.

(** ** The order of the parties *)
Section Sorted.
  Context {V : Type}.
  (** [sorted_by_key] (tcp.rs:47-50): a stable sort by id *)
  Fixpoint ins (x : nat * V) (l : list (nat * V)) : list (nat * V) :=
    match l with
    | [] => [x]
    | y :: l' => if fst x <=? fst y then x :: l else y :: ins x l'
    end.
  Definition sort_ids (l : list (nat * V)) : list (nat * V) := fold_right ins [] l.
  Lemma ins_perm x l : Permutation (ins x l) (x :: l).
  Proof.
    induction l as [|y l IH]; [reflexivity|]. cbn [ins]. destruct (_ <=? _); [reflexivity|]. rewrite IH. apply perm_swap.
  Qed.
  Lemma sort_perm l : Permutation (sort_ids l) l.
  Proof. induction l as [|x l IH]; [reflexivity|]. cbn [sort_ids fold_right]. rewrite ins_perm. constructor. exact IH. Qed.
  Fixpoint asc (lo : nat) (l : list (nat * V)) : Prop := match l with [] => True | x :: l => lo <= fst x /\ asc (fst x) l end.
  Lemma asc_weaken l : forall lo lo', lo' <= lo -> asc lo l -> asc lo' l.
  Proof. destruct l; cbn; intros; [exact I|]. split; [lia|tauto]. Qed.
  Lemma ins_asc x l : forall lo, lo <= fst x -> asc lo l -> asc lo (ins x l).
  Proof.
    induction l as [|y l IH]; intros lo Hx Ha; cbn [ins]; [cbn; auto|]. destruct Ha as (A1 & A2). destruct (fst x <=? fst y) eqn:E.
    - apply Nat.leb_le in E. cbn. auto.
    - apply Nat.leb_gt in E. cbn [asc]. split; [exact A1|]. apply IH; [lia|exact A2].
  Qed.
  Lemma sort_asc l : asc 0 (sort_ids l).
  Proof. induction l as [|x l IH]; [exact I|]. cbn [sort_ids fold_right]. apply ins_asc; [lia|exact IH]. Qed.
  Lemma asc_seq l : forall lo, asc lo l -> Permutation (map fst l) (seq lo (length l)) -> map fst l = seq lo (length l).
  Proof.
    induction l as [|x l IH]; intros lo Ha Hp; [reflexivity|]. destruct Ha as (A1 & A2). cbn [map length seq] in *.
    assert (Hx : fst x = lo).
    { assert (Hin : In lo (fst x :: map fst l)) by (apply (Permutation_in lo (Permutation_sym Hp)); left; reflexivity).
      destruct Hin as [E|Hin]; [exact E|]. apply in_map_iff in Hin. destruct Hin as (y & E & Hin).
      assert (fst x <= fst y); [|lia]. clear -A2 Hin. revert A2 Hin. generalize (fst x) as a. induction l as [|z l IH]; intros a A2 Hin; [contradiction|].
      destruct A2 as (B1 & B2). destruct Hin as [->|Hin]; [exact B1|]. specialize (IH (fst z) B2 Hin). lia. }
    rewrite Hx in *. apply Permutation_cons_inv in Hp. f_equal. apply IH; [|exact Hp].
    destruct l as [|y l]; [exact I|]. destruct A2 as (B1 & B2). cbn. split; [|exact B2].
    assert (Hin : In (fst y) (seq (S lo) (length (y :: l)))) by (apply (Permutation_in _ Hp); left; reflexivity). apply in_seq in Hin. lia.
  Qed.
  (** when the ids are 0, 1, .., n-1 in any order, the address at position [k] is that of party [k] *)
  Lemma sort_position l : Permutation (map fst l) (seq 0 (length l)) -> map fst (sort_ids l) = seq 0 (length l).
  Proof.
    intros H. pose proof (sort_perm l) as P. rewrite <- (Permutation_length P). apply asc_seq; [apply sort_asc|].
    rewrite (Permutation_length P). rewrite <- H. apply Permutation_map. exact P.
  Qed.
End Sorted.
