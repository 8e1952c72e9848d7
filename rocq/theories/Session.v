(** * Matching incoming connections to sessions

    Models [TcpStreams] and [init_session] of mpc-net/src/tcp_session.rs and the same code in
    mpc-net/src/tcp_session_blocking.rs. Every operation runs under the lock of the map, so a run
    is a list of operations, each with the time at which it happens. A call of [get] that has to
    wait is numbered; its future ends by delivery, by cancellation (the sender is dropped), or by
    being abandoned (a time-out, tcp_session_blocking.rs:102-107, or a dropped future). *)
From Coq Require Import String Bool Arith NArith Lia.
From Coq Require Import Init.Byte Strings.Byte.
From Coq Require Import List.
From Verif Require Import Proc Frame.
Import ListNotations.
Set Implicit Arguments.

(** ** The header a connecting party sends *)
(** tcp_session.rs:240-241: [write_u128], [write_u64], both big-endian *)
Definition be128 (n : N) : list byte := be64 (n / 2 ^ 64) ++ be64 (n mod 2 ^ 64).
Definition header (session_id : N) (party_id : nat) : list byte := be128 session_id ++ be64 (N.of_nat party_id).
(** tcp_session.rs:103-108: [read_u128], [read_u64]: the key and the rest of the stream *)
Definition read_header (bs : list byte) : option ((N * nat) * list byte) :=
  if (length bs <? 24)%nat then None
  else Some ((of_be (firstn 16 bs), N.to_nat (of_be (firstn 8 (skipn 16 bs)))), skipn 24 bs).

(** ** The map *)
Definition key : Type := N * nat.
Definition key_eqb (a b : key) : bool := N.eqb (fst a) (fst b) && Nat.eqb (snd a) (snd b).
(** tcp_session.rs:58-61 [MaybeTcpStream]; streams and waiting calls are numbered *)
Inductive entry := EStream (s : nat) | EWaiter (g : nat).
Record sst := mkSst {
  s_map : list (key * (entry * N));
  s_gone : list nat;
  s_next : nat }.
Definition s_empty : sst := mkSst [] [] 0.
Definition lookup (k : key) (m : list (key * (entry * N))) : option (entry * N) := option_map snd (find (fun e => key_eqb (fst e) k) m).
Definition remove (k : key) (m : list (key * (entry * N))) := filter (fun e => negb (key_eqb (fst e) k)) m.
(** what happens to connections and waiting calls *)
Inductive sev :=
| VCall (g : nat) (k : key)              (* get is called *)
| VInsert (s : nat) (k : key)            (* a connection with this header has arrived *)
| VDeliver (g s : nat) (k : key)         (* call [g] returns connection [s] *)
| VReplaced (s : nat) (k : key)          (* the connection is closed: a newer one has the same key *)
| VExpired (s : nat) (k : key)           (* the connection is closed: idle *)
| VLost (s g : nat) (k : key)            (* the connection is closed: the waiting call is gone *)
| VDuplicate (g : nat) (k : key)         (* the waiting call is cancelled by a newer call *)
| VCancelled (g : nat) (k : key)         (* the waiting call is cancelled by the clean-up *)
| VStale (g : nat) (k : key).            (* an entry of a call that is gone is thrown away *)
Definition gone (st : sst) (g : nat) : bool := existsb (Nat.eqb g) (s_gone st).
(** tcp_session.rs:76-97 = tcp_session_blocking.rs:79-109 [get] *)
Definition s_get (st : sst) (now : N) (k : key) : sst * list sev :=
  let g := s_next st in
  let m := remove k (s_map st) in
  match lookup k (s_map st) with
  | Some (EStream s, _) => (mkSst m (s_gone st) (S g), [VCall g k; VDeliver g s k])
  | None => (mkSst ((k, (EWaiter g, now)) :: m) (s_gone st) (S g), [VCall g k])
  | Some (EWaiter g', _) => (mkSst ((k, (EWaiter g, now)) :: m) (s_gone st) (S g),
                             [VCall g k; if gone st g' then VStale g' k else VDuplicate g' k])
  end.
(** tcp_session.rs:110-135 = tcp_session_blocking.rs:130-155 [insert], after the header has been read *)
Definition s_insert (st : sst) (now : N) (s : nat) (k : key) : sst * list sev :=
  let m := remove k (s_map st) in
  match lookup k (s_map st) with
  | Some (EStream s', _) => (mkSst ((k, (EStream s, now)) :: m) (s_gone st) (s_next st), [VInsert s k; VReplaced s' k])
  | Some (EWaiter g, _) => (mkSst m (s_gone st) (s_next st), [VInsert s k; if gone st g then VLost s g k else VDeliver g s k])
  | None => (mkSst ((k, (EStream s, now)) :: m) (s_gone st) (s_next st), [VInsert s k])
  end.
(** tcp_session.rs:195-208 = tcp_session_blocking.rs:212-225: one round of the clean-up task *)
Definition fresh (now tti : N) (e : key * (entry * N)) : bool := (now - snd (snd e) <? tti)%N.
Definition evict (st : sst) (e : key * (entry * N)) : sev :=
  match fst (snd e) with EStream s => VExpired s (fst e) | EWaiter g => if gone st g then VStale g (fst e) else VCancelled g (fst e) end.
Definition s_cleanup (st : sst) (now tti : N) : sst * list sev :=
  (mkSst (filter (fresh now tti) (s_map st)) (s_gone st) (s_next st),
   map (evict st) (filter (fun e => negb (fresh now tti e)) (s_map st))).
(** the caller of [get] gives up waiting; its entry stays in the map *)
Definition s_abandon (st : sst) (g : nat) : sst := mkSst (s_map st) (g :: s_gone st) (s_next st).

Inductive sop := OGet (k : key) | OInsert (s : nat) (k : key) | OCleanup | OAbandon (g : nat).
Section Run.
  Context (tti : N).
  Definition s_op (st : sst) (o : N * sop) : sst * list sev :=
    match snd o with
    | OGet k => s_get st (fst o) k
    | OInsert s k => s_insert st (fst o) s k
    | OCleanup => s_cleanup st (fst o) tti
    | OAbandon g => (s_abandon st g, [])
    end.
  Fixpoint s_run (st : sst) (os : list (N * sop)) : sst * list sev :=
    match os with
    | [] => (st, [])
    | o :: os => let r := s_op st o in let r' := s_run (fst r) os in (fst r', snd r ++ snd r')
    end.
  (** ** Specification: bookkeeping of the log *)
  Definition nb {X} (p : X -> bool) (l : list X) : nat := length (filter p l).
  Definition is_insert (s : nat) (k : key) (e : sev) : bool :=
    match e with VInsert s' k' => Nat.eqb s s' && key_eqb k k' | _ => false end.
  Definition is_delivery (s : nat) (k : key) (e : sev) : bool :=
    match e with VDeliver _ s' k' => Nat.eqb s s' && key_eqb k k' | _ => false end.
  Definition is_drop (s : nat) (k : key) (e : sev) : bool :=
    match e with VReplaced s' k' | VExpired s' k' | VLost s' _ k' => Nat.eqb s s' && key_eqb k k' | _ => false end.
  Definition waiting_stream (s : nat) (k : key) (e : key * (entry * N)) : bool :=
    match e with (k', (EStream s', _)) => Nat.eqb s s' && key_eqb k k' | _ => false end.
  Definition is_call (g : nat) (k : key) (e : sev) : bool :=
    match e with VCall g' k' => Nat.eqb g g' && key_eqb k k' | _ => false end.
  Definition is_end (g : nat) (k : key) (e : sev) : bool :=
    match e with VDeliver g' _ k' | VDuplicate g' k' | VCancelled g' k' | VStale g' k' | VLost _ g' k' => Nat.eqb g g' && key_eqb k k' | _ => false end.
  Definition waiting_call (g : nat) (k : key) (e : key * (entry * N)) : bool :=
    match e with (k', (EWaiter g', _)) => Nat.eqb g g' && key_eqb k k' | _ => false end.

  (** * Proofs *)
  Lemma key_eqb_eq a b : key_eqb a b = true <-> a = b.
  Proof.
    unfold key_eqb. destruct a, b. cbn. rewrite andb_true_iff, N.eqb_eq, Nat.eqb_eq. split; [intros (-> & ->); reflexivity|].
    intros E. injection E as -> ->. auto.
  Qed.
  Lemma key_eqb_refl a : key_eqb a a = true.
  Proof. apply key_eqb_eq. reflexivity. Qed.
  Lemma key_eqb_neq a b : a <> b -> key_eqb a b = false.
  Proof. intros H. destruct (key_eqb a b) eqn:E; [apply key_eqb_eq in E; contradiction|reflexivity]. Qed.
  Lemma key_eqb_sym a b : key_eqb a b = key_eqb b a.
  Proof. unfold key_eqb. rewrite N.eqb_sym, Nat.eqb_sym. reflexivity. Qed.

  (** *** the header *)
  Lemma of_be_acc bs : forall a, fold_left (fun a b => a * 256 + Byte.to_N b)%N bs a = (a * 256 ^ N.of_nat (length bs) + of_be bs)%N.
  Proof.
    unfold of_be. induction bs as [|b bs IH]; intros a; cbn [fold_left length].
    - cbn. lia.
    - rewrite IH, (IH (0 * 256 + to_N b)%N), Nat2N.inj_succ, N.pow_succ_r'. lia.
  Qed.
  Lemma of_be_app a b : of_be (a ++ b) = (of_be a * 256 ^ N.of_nat (length b) + of_be b)%N.
  Proof. unfold of_be at 1. rewrite fold_left_app. fold (of_be a). apply of_be_acc. Qed.
  Lemma of_be_be128 n : (n < 2 ^ 128)%N -> of_be (be128 n) = n.
  Proof.
    intros H. unfold be128. rewrite of_be_app, be64_len, !of_be_be64.
    - change (256 ^ N.of_nat 8)%N with (2 ^ 64)%N. pose proof (N.div_mod n (2 ^ 64)). lia.
    - apply N.mod_lt. discriminate.
    - apply N.div_lt_upper_bound; [discriminate|]. exact H.
  Qed.
  Lemma be128_len n : length (be128 n) = 16.
  Proof. unfold be128. rewrite app_length, !be64_len. reflexivity. Qed.
  Lemma read_header_ok sid pid rest : (sid < 2 ^ 128)%N -> (N.of_nat pid < 2 ^ 64)%N ->
    read_header (header sid pid ++ rest) = Some ((sid, pid), rest).
  Proof.
    intros Hs Hp. unfold read_header, header. rewrite <- app_assoc, !app_length, be128_len, be64_len.
    assert (L : (16 + (8 + length rest) <? 24)%nat = false) by (apply Nat.ltb_ge; lia). rewrite L.
    assert (F1 : firstn 16 (be128 sid ++ be64 (N.of_nat pid) ++ rest) = be128 sid).
    { rewrite firstn_app, be128_len, Nat.sub_diag, firstn_O, app_nil_r. rewrite <- (be128_len sid) at 1. apply firstn_all. }
    assert (F2 : skipn 16 (be128 sid ++ be64 (N.of_nat pid) ++ rest) = be64 (N.of_nat pid) ++ rest).
    { rewrite skipn_app, be128_len, Nat.sub_diag. rewrite <- (be128_len sid) at 1. rewrite skipn_all. reflexivity. }
    assert (F3 : firstn 8 (be64 (N.of_nat pid) ++ rest) = be64 (N.of_nat pid)).
    { rewrite firstn_app, be64_len, Nat.sub_diag, firstn_O, app_nil_r. rewrite <- (be64_len (N.of_nat pid)) at 1. apply firstn_all. }
    assert (F4 : skipn 24 (be128 sid ++ be64 (N.of_nat pid) ++ rest) = rest).
    { change 24%nat with (16 + 8)%nat. rewrite app_assoc, skipn_app. rewrite app_length, be128_len, be64_len.
      replace (16 + 8 - (16 + 8))%nat with 0%nat by lia. cbn [skipn].
      replace (16 + 8)%nat with (length (be128 sid ++ be64 (N.of_nat pid))) by (rewrite app_length, be128_len, be64_len; reflexivity).
      rewrite skipn_all. reflexivity. }
    rewrite F1, F2, F3, F4, of_be_be128, of_be_be64, Nat2N.id by assumption. reflexivity.
  Qed.

  (** *** counting *)
  Lemma nb_app {X} (p : X -> bool) a b : nb p (a ++ b) = nb p a + nb p b.
  Proof. unfold nb. rewrite filter_app, app_length. reflexivity. Qed.
  Lemma nb_cons {X} (p : X -> bool) a l : nb p (a :: l) = (if p a then 1 else 0) + nb p l.
  Proof. unfold nb. cbn [filter]. destruct (p a); reflexivity. Qed.
  Lemma nb_nil {X} (p : X -> bool) : nb p [] = 0.
  Proof. reflexivity. Qed.
  Definition uniq (m : list (key * (entry * N))) : Prop := NoDup (map fst m).
  Lemma lookup_none k m : lookup k m = None -> remove k m = m.
  Proof.
    unfold lookup, remove. induction m as [|(k', v) m IH]; [reflexivity|]. cbn [find filter fst].
    destruct (key_eqb k' k); [discriminate|]. intros H. cbn [negb]. rewrite IH by exact H. reflexivity.
  Qed.
  Lemma lookup_split k m v : uniq m -> lookup k m = Some v -> exists a b, m = a ++ (k, v) :: b /\ remove k m = a ++ b.
  Proof.
    unfold lookup, uniq. induction m as [|(k', v') m IH]; [discriminate|]. cbn [find map fst]. intros Hu.
    inversion Hu as [|? ? N1 N2]; subst. destruct (key_eqb k' k) eqn:E.
    - intros H. cbn in H. injection H as ->. apply key_eqb_eq in E. subst k'. exists [], m. split; [reflexivity|].
      unfold remove. cbn [filter fst]. rewrite key_eqb_refl. cbn [negb app]. apply lookup_none. unfold lookup.
      destruct (find (fun e => key_eqb (fst e) k) m) as [e|] eqn:Ef; [|reflexivity]. apply find_some in Ef. destruct Ef as (Hin & He).
      apply key_eqb_eq in He. elim N1. rewrite <- He. apply in_map. exact Hin.
    - intros H. destruct (IH N2 H) as (a & b & E1 & E2). exists ((k', v') :: a), b. split; [rewrite E1; reflexivity|].
      unfold remove in *. cbn [filter fst]. rewrite E. cbn [negb]. rewrite E2. reflexivity.
  Qed.
  Lemma lookup_remove k k' m : lookup k' (remove k m) = if key_eqb k k' then None else lookup k' m.
  Proof.
    unfold lookup, remove. induction m as [|(a, v) m IH]; cbn [filter find fst].
    - destruct (key_eqb k k'); reflexivity.
    - destruct (key_eqb a k) eqn:E; cbn [negb].
      + rewrite IH. apply key_eqb_eq in E. subst a. destruct (key_eqb k k') eqn:E2; reflexivity.
      + cbn [find fst]. destruct (key_eqb a k') eqn:E2; [|exact IH]. apply key_eqb_eq in E2. subst a.
        rewrite key_eqb_sym, E. reflexivity.
  Qed.
  Lemma lookup_cons k v m k' : lookup k' ((k, v) :: m) = if key_eqb k k' then Some v else lookup k' m.
  Proof. unfold lookup. cbn [find fst]. destruct (key_eqb k k'); reflexivity. Qed.
  Lemma uniq_remove k m : uniq m -> uniq (remove k m).
  Proof.
    unfold uniq, remove. induction m as [|(a, v) m IH]; intros Hu; [exact Hu|]. inversion Hu as [|? ? N1 N2]; subst. cbn [filter fst].
    destruct (key_eqb a k); cbn [negb]; [auto|]. cbn [map fst]. constructor; [|auto]. intros Hin. apply N1.
    apply in_map_iff in Hin. destruct Hin as (e & E & Hin). apply filter_In in Hin. cbn [fst]. rewrite <- E. apply in_map. tauto.
  Qed.
  Lemma remove_notin k m : ~ In k (map fst (remove k m)).
  Proof.
    unfold remove. intros Hin. apply in_map_iff in Hin. destruct Hin as (e & E & Hin). apply filter_In in Hin.
    rewrite <- E, key_eqb_refl in Hin. easy.
  Qed.
  Lemma uniq_insert k v m : uniq m -> uniq ((k, v) :: remove k m).
  Proof. intros H. constructor; [apply remove_notin|apply uniq_remove; exact H]. Qed.
  Lemma uniq_op st o : uniq (s_map st) -> uniq (s_map (fst (s_op st o))).
  Proof.
    intros H. destruct o as (now, [k|s k| |g]); unfold s_op; cbn [fst snd].
    - unfold s_get. destruct (lookup k (s_map st)) as [([s|g], t)|]; cbn [fst s_map]; [apply uniq_remove|apply uniq_insert|apply uniq_insert]; exact H.
    - unfold s_insert. destruct (lookup k (s_map st)) as [([s'|g], t)|]; cbn [fst s_map]; [apply uniq_insert|apply uniq_remove|apply uniq_insert]; exact H.
    - unfold s_cleanup. cbn [fst s_map]. unfold uniq in *. induction (s_map st) as [|e m IH]; [constructor|].
      inversion H as [|? ? N1 N2]; subst. cbn [filter]. destruct (fresh now tti e); [|auto]. cbn [map]. constructor; [|auto].
      intros Hin. apply N1. apply in_map_iff in Hin. destruct Hin as (e' & E & Hin). apply filter_In in Hin. rewrite <- E. apply in_map. tauto.
    - exact H.
  Qed.

  Ltac bk := repeat match goal with
    | |- context [key_eqb ?a ?a] => rewrite (key_eqb_refl a)
    | |- context [Nat.eqb ?a ?a] => rewrite (Nat.eqb_refl a)
    end.
  (** connections are conserved *)
  Lemma streams_op st o s k : uniq (s_map st) ->
    let r := s_op st o in
    nb (waiting_stream s k) (s_map st) + nb (is_insert s k) (snd r) =
    nb (is_delivery s k) (snd r) + nb (is_drop s k) (snd r) + nb (waiting_stream s k) (s_map (fst r)).
  Proof.
    intros Hu. destruct o as (now, [k0|s0 k0| |g0]); unfold s_op; cbn [fst snd].
    - unfold s_get. destruct (lookup k0 (s_map st)) as [([s1|g1], t)|] eqn:E; cbn [fst snd s_map].
      + destruct (@lookup_split _ _ _ Hu E) as (a & b & E1 & E2). rewrite E2, E1, !nb_app, !nb_cons, !nb_nil. cbn [is_insert is_delivery is_drop waiting_stream].
        destruct (Nat.eqb s s1 && key_eqb k k0); lia.
      + destruct (@lookup_split _ _ _ Hu E) as (a & b & E1 & E2). rewrite E2, E1, !nb_app, !nb_cons, !nb_nil, !nb_app. cbn [is_insert is_delivery is_drop waiting_stream].
        destruct (gone st g1); cbn [is_insert is_delivery is_drop]; lia.
      + rewrite (@lookup_none _ _ E), !nb_cons, !nb_nil. cbn [is_insert is_delivery is_drop waiting_stream]. lia.
    - unfold s_insert. destruct (lookup k0 (s_map st)) as [([s1|g1], t)|] eqn:E; cbn [fst snd s_map].
      + destruct (@lookup_split _ _ _ Hu E) as (a & b & E1 & E2). rewrite E2, E1, !nb_app, !nb_cons, !nb_nil, !nb_app. cbn [is_insert is_delivery is_drop waiting_stream].
        destruct (Nat.eqb s s1 && key_eqb k k0), (Nat.eqb s s0 && key_eqb k k0); lia.
      + destruct (@lookup_split _ _ _ Hu E) as (a & b & E1 & E2). rewrite E2, E1, !nb_app, !nb_cons, !nb_nil. cbn [is_insert is_delivery is_drop waiting_stream].
        destruct (gone st g1); cbn [is_insert is_delivery is_drop]; destruct (Nat.eqb s s0 && key_eqb k k0); lia.
      + rewrite (@lookup_none _ _ E), !nb_cons, !nb_nil. cbn [is_insert is_delivery is_drop waiting_stream].
        destruct (Nat.eqb s s0 && key_eqb k k0); lia.
    - unfold s_cleanup. cbn [fst snd s_map]. clear Hu. induction (s_map st) as [|(k', (e, t)) m IH]; [reflexivity|].
      cbn [filter]. destruct (fresh now tti (k', (e, t))); cbn [negb]; cbn [map]; rewrite !nb_cons.
      + lia.
      + change (evict st (k', (e, t))) with (match e with EStream s2 => VExpired s2 k' | EWaiter g2 => if gone st g2 then VStale g2 k' else VCancelled g2 k' end). destruct e as [s1|g1]; [|destruct (gone st g1)]; cbn [is_insert is_delivery is_drop waiting_stream];
          try destruct (Nat.eqb s s1 && key_eqb k k'); lia.
    - unfold s_abandon. cbn [fst snd s_map]. rewrite !nb_nil. lia.
  Qed.
  Lemma streams_run os s k : forall st, uniq (s_map st) ->
    let r := s_run st os in
    nb (waiting_stream s k) (s_map st) + nb (is_insert s k) (snd r) =
    nb (is_delivery s k) (snd r) + nb (is_drop s k) (snd r) + nb (waiting_stream s k) (s_map (fst r)).
  Proof.
    induction os as [|o os IH]; intros st Hu; cbn [s_run fst snd]; [rewrite ?nb_nil; lia|].
    pose proof (@streams_op st o s k Hu) as H1. pose proof (IH (fst (s_op st o)) (@uniq_op st o Hu)) as H2.
    cbn zeta in *. rewrite !nb_app. lia.
  Qed.
  (** waiting calls are conserved *)
  Lemma calls_op st o g k : uniq (s_map st) ->
    let r := s_op st o in
    nb (waiting_call g k) (s_map st) + nb (is_call g k) (snd r) =
    nb (is_end g k) (snd r) + nb (waiting_call g k) (s_map (fst r)).
  Proof.
    intros Hu. destruct o as (now, [k0|s0 k0| |g0]); unfold s_op; cbn [fst snd].
    - unfold s_get. destruct (lookup k0 (s_map st)) as [([s1|g1], t)|] eqn:E; cbn [fst snd s_map].
      + destruct (@lookup_split _ _ _ Hu E) as (a & b & E1 & E2). rewrite E2, E1, !nb_app, !nb_cons, !nb_nil. cbn [is_call is_end waiting_call].
        destruct (Nat.eqb g (s_next st) && key_eqb k k0); lia.
      + destruct (@lookup_split _ _ _ Hu E) as (a & b & E1 & E2). rewrite E2, E1, !nb_app, !nb_cons, !nb_nil, !nb_app. cbn [is_call is_end waiting_call].
        destruct (gone st g1); cbn [is_call is_end]; destruct (Nat.eqb g (s_next st) && key_eqb k k0), (Nat.eqb g g1 && key_eqb k k0); lia.
      + rewrite (@lookup_none _ _ E), !nb_cons, !nb_nil. cbn [is_call is_end waiting_call]. destruct (Nat.eqb g (s_next st) && key_eqb k k0); lia.
    - unfold s_insert. destruct (lookup k0 (s_map st)) as [([s1|g1], t)|] eqn:E; cbn [fst snd s_map].
      + destruct (@lookup_split _ _ _ Hu E) as (a & b & E1 & E2). rewrite E2, E1, !nb_app, !nb_cons, !nb_nil, !nb_app. cbn [is_call is_end waiting_call]. lia.
      + destruct (@lookup_split _ _ _ Hu E) as (a & b & E1 & E2). rewrite E2, E1, !nb_app, !nb_cons, !nb_nil. cbn [is_call is_end waiting_call].
        destruct (gone st g1); cbn [is_call is_end]; destruct (Nat.eqb g g1 && key_eqb k k0); lia.
      + rewrite (@lookup_none _ _ E), !nb_cons, !nb_nil. cbn [is_call is_end waiting_call]. lia.
    - unfold s_cleanup. cbn [fst snd s_map]. clear Hu. induction (s_map st) as [|(k', (e, t)) m IH]; [reflexivity|].
      cbn [filter]. destruct (fresh now tti (k', (e, t))); cbn [negb]; cbn [map]; rewrite !nb_cons.
      + lia.
      + change (evict st (k', (e, t))) with (match e with EStream s2 => VExpired s2 k' | EWaiter g2 => if gone st g2 then VStale g2 k' else VCancelled g2 k' end). destruct e as [s1|g1]; [|destruct (gone st g1)]; cbn [is_call is_end waiting_call];
          try destruct (Nat.eqb g g1 && key_eqb k k'); lia.
    - unfold s_abandon. cbn [fst snd s_map]. rewrite !nb_nil. lia.
  Qed.
  Lemma calls_run os g k : forall st, uniq (s_map st) ->
    let r := s_run st os in
    nb (waiting_call g k) (s_map st) + nb (is_call g k) (snd r) =
    nb (is_end g k) (snd r) + nb (waiting_call g k) (s_map (fst r)).
  Proof.
    induction os as [|o os IH]; intros st Hu; cbn [s_run fst snd]; [rewrite ?nb_nil; lia|].
    pose proof (@calls_op st o g k Hu) as H1. pose proof (IH (fst (s_op st o)) (@uniq_op st o Hu)) as H2.
    cbn zeta in *. rewrite !nb_app. lia.
  Qed.
  (** every call of [get] has its own number *)
  Lemma calls_fresh os g : forall st,
    nb (fun e => match e with VCall g' _ => Nat.eqb g g' | _ => false end) (snd (s_run st os)) <= 1 /\
    (g < s_next st -> nb (fun e => match e with VCall g' _ => Nat.eqb g g' | _ => false end) (snd (s_run st os)) = 0).
  Proof.
    set (p := fun e => match e with VCall g' _ => Nat.eqb g g' | _ => false end).
    assert (Hop : forall st o, (nb p (snd (s_op st o)) = 0 /\ s_next (fst (s_op st o)) = s_next st) \/
                               (nb p (snd (s_op st o)) = (if Nat.eqb g (s_next st) then 1 else 0) /\ s_next (fst (s_op st o)) = S (s_next st))).
    { intros st (now, [k|s k| |g']); unfold s_op; cbn [fst snd].
      - right. unfold s_get. destruct (lookup k (s_map st)) as [([s|g1], t)|]; cbn [fst snd s_next]; rewrite !nb_cons, nb_nil; cbn [p]; split; try reflexivity; try lia.
        destruct (gone st g1); cbn [p]; lia.
      - left. unfold s_insert. destruct (lookup k (s_map st)) as [([s'|g1], t)|]; cbn [fst snd s_next]; split; try reflexivity.
        rewrite !nb_cons, nb_nil. destruct (gone st g1); reflexivity.
      - left. split; [|reflexivity]. unfold s_cleanup. cbn [snd]. induction (s_map st) as [|(k', (e, t)) m IH]; [reflexivity|].
        cbn [filter]. destruct (fresh (now) tti (k', (e, t))); cbn [negb map]; [exact IH|]. rewrite nb_cons, IH. change (evict st (k', (e, t))) with (match e with EStream s2 => VExpired s2 k' | EWaiter g2 => if gone st g2 then VStale g2 k' else VCancelled g2 k' end).
        destruct e as [s1|g1]; [|destruct (gone st g1)]; reflexivity.
      - left. split; reflexivity. }
    induction os as [|o os IH]; intros st; cbn [s_run fst snd]; [rewrite ?nb_nil; lia|].
    destruct (IH (fst (s_op st o))) as (I1 & I2). rewrite nb_app. destruct (Hop st o) as [(H1 & H2)|(H1 & H2)]; rewrite H1; rewrite H2 in I2.
    - split; [lia|]. intros Hg. rewrite I2 by exact Hg. reflexivity.
    - destruct (Nat.eqb g (s_next st)) eqn:E.
      + apply Nat.eqb_eq in E. split; [rewrite I2; lia|lia].
      + apply Nat.eqb_neq in E. split; [lia|]. intros Hg. rewrite I2; lia.
  Qed.

  (** *** rendezvous *)
  (** [quiet k t0 g o]: the operation does not concern key [k] (nor abandon call [g]), and is not a
      clean-up that finds an entry of time [t0] idle *)
  Definition quiet (k : key) (t0 : N) (o : N * sop) : Prop :=
    match snd o with
    | OGet k' => k' <> k
    | OInsert _ k' => k' <> k
    | OCleanup => (fst o - t0 < tti)%N
    | OAbandon _ => True
    end.
  Definition untouched (k : key) (o : N * sop) : Prop :=
    match snd o with OGet k' => k' <> k | OInsert _ k' => k' <> k | _ => True end.
  Definition keeps (g : nat) (o : N * sop) : Prop := match snd o with OAbandon g' => g' <> g | _ => True end.
  Lemma lookup_filter_fresh k v now m : lookup k m = Some v -> (now - snd v < tti)%N -> uniq m ->
    lookup k (filter (fresh now tti) m) = Some v.
  Proof.
    intros H Hf Hu. destruct (@lookup_split _ _ _ Hu H) as (a & b & E1 & E2). subst m. rewrite filter_app. cbn [filter].
    unfold fresh at 2. cbn [snd]. apply N.ltb_lt in Hf. rewrite Hf.
    assert (Ha : ~ In k (map fst a)).
    { unfold uniq in Hu. rewrite map_app in Hu. cbn [map fst] in Hu. apply NoDup_remove_2 in Hu. intros X. apply Hu. apply in_or_app. auto. }
    clear -Ha. induction a as [|(k', v') a IH]; cbn [filter app].
    - rewrite lookup_cons, key_eqb_refl. reflexivity.
    - assert (Hn : key_eqb k' k = false) by (apply key_eqb_neq; intros ->; apply Ha; left; reflexivity).
      destruct (fresh now tti (k', v')); [|apply IH; intros X; apply Ha; right; exact X].
      cbn [app]. rewrite lookup_cons, Hn. apply IH. intros X. apply Ha. right. exact X.
  Qed.
  Lemma lookup_filter_none k now m : lookup k m = None -> lookup k (filter (fresh now tti) m) = None.
  Proof.
    induction m as [|(k', v) m IH]; [reflexivity|]. rewrite lookup_cons. cbn [filter]. destruct (key_eqb k' k) eqn:E; [discriminate|].
    intros H. destruct (fresh now tti (k', v)); [rewrite lookup_cons, E|]; auto.
  Qed.
  Lemma lookup_quiet k v st o : uniq (s_map st) -> lookup k (s_map st) = Some v -> quiet k (snd v) o ->
    lookup k (s_map (fst (s_op st o))) = Some v.
  Proof.
    intros Hu Hl Hq. destruct o as (now, [k'|s k'| |g]); unfold s_op, quiet in *; cbn [fst snd] in *.
    - apply key_eqb_neq in Hq. unfold s_get. destruct (lookup k' (s_map st)) as [([s1|g1], t)|]; cbn [fst s_map]; rewrite ?lookup_cons, lookup_remove, Hq; exact Hl.
    - apply key_eqb_neq in Hq. unfold s_insert. destruct (lookup k' (s_map st)) as [([s1|g1], t)|]; cbn [fst s_map]; rewrite ?lookup_cons, lookup_remove, Hq; exact Hl.
    - unfold s_cleanup. cbn [fst s_map]. apply lookup_filter_fresh; assumption.
    - exact Hl.
  Qed.
  Lemma lookup_untouched k st o : lookup k (s_map st) = None -> untouched k o -> lookup k (s_map (fst (s_op st o))) = None.
  Proof.
    intros Hl Hq. destruct o as (now, [k'|s k'| |g]); unfold s_op, untouched in *; cbn [fst snd] in *.
    - apply key_eqb_neq in Hq. unfold s_get. destruct (lookup k' (s_map st)) as [([s1|g1], t)|]; cbn [fst s_map]; rewrite ?lookup_cons, lookup_remove, Hq; exact Hl.
    - apply key_eqb_neq in Hq. unfold s_insert. destruct (lookup k' (s_map st)) as [([s1|g1], t)|]; cbn [fst s_map]; rewrite ?lookup_cons, lookup_remove, Hq; exact Hl.
    - unfold s_cleanup. cbn [fst s_map]. apply lookup_filter_none. exact Hl.
    - exact Hl.
  Qed.
  Lemma uniq_run os : forall st, uniq (s_map st) -> uniq (s_map (fst (s_run st os))).
  Proof. induction os as [|o os IH]; intros st Hu; [exact Hu|]. cbn [s_run fst]. apply IH, uniq_op, Hu. Qed.
  Lemma run_quiet os k v : forall st, uniq (s_map st) -> lookup k (s_map st) = Some v -> Forall (quiet k (snd v)) os ->
    lookup k (s_map (fst (s_run st os))) = Some v.
  Proof.
    induction os as [|o os IH]; intros st Hu Hl Hq; [exact Hl|]. inversion Hq; subst. cbn [s_run fst]. apply IH; [apply uniq_op; exact Hu| |assumption].
    apply lookup_quiet; assumption.
  Qed.
  Lemma run_untouched os k : forall st, lookup k (s_map st) = None -> Forall (untouched k) os -> lookup k (s_map (fst (s_run st os))) = None.
  Proof.
    induction os as [|o os IH]; intros st Hl Hq; [exact Hl|]. inversion Hq; subst. cbn [s_run fst]. apply IH; [|assumption].
    apply lookup_untouched; assumption.
  Qed.
  Lemma gone_keeps os g : forall st, gone st g = false -> Forall (keeps g) os -> gone (fst (s_run st os)) g = false.
  Proof.
    induction os as [|o os IH]; intros st Hg Hk; [exact Hg|]. inversion Hk as [|? ? K1 K2]; subst. cbn [s_run fst]. apply IH; [|exact K2].
    destruct o as (now, [k'|s k'| |g']); unfold s_op; cbn [fst snd] in *.
    - unfold s_get. destruct (lookup k' (s_map st)) as [([s1|g1], t)|]; exact Hg.
    - unfold s_insert. destruct (lookup k' (s_map st)) as [([s1|g1], t)|]; exact Hg.
    - exact Hg.
    - unfold gone, s_abandon. cbn [s_gone existsb]. unfold keeps in K1. cbn in K1. rewrite (proj2 (Nat.eqb_neq g g')) by congruence. exact Hg.
  Qed.
  Lemma s_run_app a : forall b st, s_run st (a ++ b) =
    (fst (s_run (fst (s_run st a)) b), snd (s_run st a) ++ snd (s_run (fst (s_run st a)) b)).
  Proof.
    induction a as [|o a IH]; intros b st; cbn [app s_run fst snd].
    - destruct (s_run st b). reflexivity.
    - rewrite IH. cbn [fst snd]. rewrite <- app_assoc. reflexivity.
  Qed.
  (** the connection arrives first *)
  Lemma rendezvous_insert_first pre t0 s k mid t1 post :
    Forall (untouched k) pre -> Forall (quiet k t0) mid ->
    exists g, In (VDeliver g s k) (snd (s_run s_empty (pre ++ (t0, OInsert s k) :: mid ++ (t1, OGet k) :: post))).
  Proof.
    intros Hp Hm. rewrite s_run_app. cbn [snd]. set (st1 := fst (s_run s_empty pre)).
    assert (L1 : lookup k (s_map st1) = None) by (apply run_untouched; [reflexivity|exact Hp]).
    assert (U1 : uniq (s_map st1)) by (apply uniq_run; constructor).
    cbn [s_run fst snd]. rewrite s_run_app. cbn [snd].
    set (st2 := fst (s_op st1 (t0, OInsert s k))).
    assert (L2 : lookup k (s_map st2) = Some (EStream s, t0)).
    { unfold st2, s_op. cbn [fst snd]. unfold s_insert. rewrite L1. cbn [fst s_map]. rewrite lookup_cons, key_eqb_refl. reflexivity. }
    assert (U2 : uniq (s_map st2)) by (apply uniq_op; exact U1).
    set (st3 := fst (s_run st2 mid)).
    assert (L3 : lookup k (s_map st3) = Some (EStream s, t0)) by (apply run_quiet; assumption).
    exists (s_next st3). apply in_or_app. right. apply in_or_app. right. apply in_or_app. right.
    cbn [s_run snd]. apply in_or_app. left. unfold s_op. cbn [fst snd]. unfold s_get. rewrite L3. cbn. auto.
  Qed.
  (** the call comes first *)
  Lemma rendezvous_get_first pre t0 s k mid t1 post :
    Forall (untouched k) pre -> Forall (quiet k t0) mid ->
    let g := s_next (fst (s_run s_empty pre)) in
    ~ In g (s_gone (fst (s_run s_empty pre))) -> Forall (keeps g) mid ->
    In (VDeliver g s k) (snd (s_run s_empty (pre ++ (t0, OGet k) :: mid ++ (t1, OInsert s k) :: post))).
  Proof.
    intros Hp Hm g Hg Hk. rewrite s_run_app. cbn [snd]. set (st1 := fst (s_run s_empty pre)) in *.
    assert (L1 : lookup k (s_map st1) = None) by (apply run_untouched; [reflexivity|exact Hp]).
    assert (U1 : uniq (s_map st1)) by (apply uniq_run; constructor).
    cbn [s_run fst snd]. rewrite s_run_app. cbn [snd].
    set (st2 := fst (s_op st1 (t0, OGet k))).
    assert (L2 : lookup k (s_map st2) = Some (EWaiter g, t0) /\ gone st2 g = false).
    { unfold st2, s_op. cbn [fst snd]. unfold s_get. rewrite L1. cbn [fst s_map]. rewrite lookup_cons, key_eqb_refl. split; [reflexivity|].
      unfold gone. cbn [s_gone]. destruct (existsb (Nat.eqb g) (s_gone st1)) eqn:E; [|reflexivity].
      apply existsb_exists in E. destruct E as (x & Hin & Ex). apply Nat.eqb_eq in Ex. subst x. contradiction. }
    destruct L2 as (L2 & G2).
    assert (U2 : uniq (s_map st2)) by (apply uniq_op; exact U1).
    set (st3 := fst (s_run st2 mid)).
    assert (L3 : lookup k (s_map st3) = Some (EWaiter g, t0)) by (apply run_quiet; assumption).
    assert (G3 : gone st3 g = false) by (apply gone_keeps; assumption).
    apply in_or_app. right. apply in_or_app. right. apply in_or_app. right.
    cbn [s_run snd]. apply in_or_app. left. unfold s_op. cbn [fst snd]. unfold s_insert. rewrite L3, G3. cbn. auto.
  Qed.
End Run.

(** ** The acceptor *)
(** tcp_session.rs:173-186 = tcp_session_blocking.rs:193-206: connections are handled one after the
    other; [insert] first reads the 24 bytes of the header. [None]: the peer stays silent and
    [read_u128] never returns (no read time-out is set in tcp_session.rs; the blocking variant uses
    [init_session_timeout], which may be unset). The result: the keys of the connections that are
    matched against the map *)
Fixpoint acceptor (conns : list (nat * option (list byte))) : list (nat * key) :=
  match conns with
  | [] => []
  | (_, None) :: _ => []
  | (s, Some bs) :: conns =>
      match read_header bs with
      | Some (k, _) => (s, k) :: acceptor conns
      | None => acceptor conns
      end
  end.
Lemma acceptor_all conns : Forall (fun c => exists sid pid rest, (sid < 2 ^ 128)%N /\ (N.of_nat pid < 2 ^ 64)%N /\ snd c = Some (header sid pid ++ rest)) conns ->
  map fst (acceptor conns) = map fst conns.
Proof.
  induction 1 as [|(s, b) conns (sid & pid & rest & H1 & H2 & E) _ IH]; [reflexivity|]. cbn [snd] in E. subst b.
  cbn [acceptor]. rewrite read_header_ok by assumption. cbn [map fst]. rewrite IH. reflexivity.
Qed.

(** a connection that is closed before its header is complete does not stop the others *)
Lemma acceptor_skips conns : Forall (fun c => exists bs, snd c = Some bs) conns ->
  map fst (acceptor conns) = map fst (filter (fun c => match snd c with Some bs => (24 <=? length bs)%nat | None => false end) conns).
Proof.
  induction 1 as [|(s, b) conns (bs & E) _ IH]; [reflexivity|]. cbn [snd] in E. subst b. cbn [acceptor filter snd]. unfold read_header.
  destruct (Nat.ltb_spec (length bs) 24) as [L|L]; destruct (Nat.leb_spec 24 (length bs)) as [L'|L']; try lia; cbn [map fst]; [exact IH|]. now rewrite IH.
Qed.
(** ** Initialising a session *)
(** tcp_session.rs:231-253 [init_session]: for every other party either the header sent on a new
    connection or the key passed to [get], in order *)
Inductive iact := IConnect (to : nat) (hdr : list byte) | IGet (k : key).
Definition init_session (n id : nat) (session_id : N) : list (nat * iact) :=
  flat_map (fun other =>
    match Nat.compare other id with
    | Lt => [(other, IConnect other (header session_id id))]
    | Gt => [(other, IGet (session_id, other))]
    | Eq => []
    end) (seq 0 n).
Lemma init_session_in n id sid other a : In (other, a) (init_session n id sid) <->
  other < n /\ ((other < id /\ a = IConnect other (header sid id)) \/ (id < other /\ a = IGet (sid, other))).
Proof.
  unfold init_session. rewrite in_flat_map. split.
  - intros (x & Hx & Hin). apply in_seq in Hx. destruct (Nat.compare_spec x id) as [E|E|E]; cbn in Hin.
    + contradiction.
    + destruct Hin as [Hin|[]]. injection Hin as <- <-. split; [lia|]. left. auto.
    + destruct Hin as [Hin|[]]. injection Hin as <- <-. split; [lia|]. right. auto.
  - intros (Hn & [(Hl & ->)|(Hl & ->)]); exists other; (split; [apply in_seq; lia|]).
    + apply Nat.compare_lt_iff in Hl. rewrite Hl. left. reflexivity.
    + apply Nat.compare_gt_iff in Hl. rewrite Hl. left. reflexivity.
Qed.
Lemma init_session_keys n id sid : map fst (init_session n id sid) = filter (fun o => negb (Nat.eqb o id)) (seq 0 n).
Proof.
  unfold init_session. induction (seq 0 n) as [|o l IH]; [reflexivity|]. cbn [flat_map filter]. rewrite map_app, IH.
  destruct (Nat.compare_spec o id) as [E|E|E].
  - subst. rewrite Nat.eqb_refl. reflexivity.
  - rewrite (proj2 (Nat.eqb_neq o id)) by lia. reflexivity.
  - rewrite (proj2 (Nat.eqb_neq o id)) by lia. reflexivity.
Qed.
