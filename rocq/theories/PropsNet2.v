(** * The network layer: frames, TCP set-up, sessions, the in-process network, addresses *)
From Coq Require Import String Bool Arith NArith Lia.
From Coq Require Import Init.Byte Strings.Byte.
From Coq Require Import Sorting.Permutation.
From Coq Require Import List.
From Verif Require Import Proc Frame LocalNet Session Tcp Address.
Import ListNotations.
Local Open Scope nat_scope.

(** ** C29: frames *)
(** what [write_frame] is meant to put on the stream is a header of eight bytes with the big-endian
    length, then the payload; whatever the stream accepts is a prefix of it, all of it on success *)
Lemma frame_write oracle p : (N.of_nat (length p) < 2 ^ 64)%N -> oracle_ok oracle (8 + length p) ->
  let r := write_frame oracle p in
  exists w, wire_of p w /\ prefix (fst (fst r)) w /\ snd (fst r) <> WPanic /\ (snd (fst r) = WDone -> fst (fst r) = w).
Proof.
  intros Hl Ho. cbv zeta. exists (be64 (N.of_nat (length p)) ++ p). split; [apply be64_wire; exact Hl|]. exact (@write_frame_ok _ _ Ho).
Qed.
Theorem C29_write_frame oracle p : (N.of_nat (length p) < 2 ^ 64)%N -> oracle_ok oracle (8 + length p) ->
  let r := write_frame oracle p in
  exists w, wire_of p w /\ prefix (fst (fst r)) w /\ snd (fst r) <> WPanic /\ (snd (fst r) = WDone -> fst (fst r) = w).
Proof. exact (@frame_write oracle p). Qed.
(** the writer thread: whole frames in order, and a positive flush acknowledgement comes after all
    bytes of all frames queued before the flush *)
Theorem C29_writer_loop msgs oracle flushes : writer_ok msgs oracle flushes ->
  let r := writer_loop msgs oracle flushes in
  prefix (written (fst r)) (frames (payloads msgs)) /\ snd r <> WPanic /\
  (snd r = WDone -> written (fst r) = frames (payloads msgs)) /\
  (forall t1 t2 ack, fst r = t1 ++ EAck ack true :: t2 ->
     exists m1 m2, msgs = m1 ++ MFlush ack :: m2 /\ written t1 = frames (payloads m1)).
Proof. exact (@writer_loop_ok msgs oracle flushes). Qed.
(** the reader on the first [k] bytes, in any chunks, and however the stream ends *)
Theorem C29_truncated max fs k m cs e : Forall (fits max) fs -> complete fs k m -> k <= wire_len fs -> nonempty cs ->
  concat cs = firstn k (frames fs) ->
  reader max (data_reads cs ++ end_reads e) = (map RFrame (firstn m fs) ++ end_items e, still_open e).
Proof. exact (@reader_truncated max fs k m cs e). Qed.
Theorem C29_truncation_total fs k : exists m, complete fs k m.
Proof. exact (@complete_exists fs k). Qed.
Theorem C29_whole max fs cs e : Forall (fits max) fs -> nonempty cs -> concat cs = frames fs ->
  reader max (data_reads cs ++ end_reads e) = (map RFrame fs ++ end_items e, still_open e).
Proof. exact (@reader_whole max fs cs e). Qed.
Theorem C29_header_too_large max fs h rest cs tail : Forall (fits max) fs -> nonempty cs -> length h = 8 -> (max < of_be h)%N ->
  concat cs = frames fs ++ h ++ rest ->
  reader max (data_reads cs ++ tail) = (map RFrame fs ++ [RError too_long_err], false).
Proof. exact (@reader_too_long max fs h rest cs tail). Qed.
Theorem C29_chunking max cs1 cs2 e : nonempty cs1 -> nonempty cs2 -> concat cs1 = concat cs2 ->
  reader max (data_reads cs1 ++ end_reads e) = reader max (data_reads cs2 ++ end_reads e).
Proof. exact (@reader_chunking max cs1 cs2 e). Qed.
(** arbitrary input: only frames within the limit, then at most one error *)
Lemma any_input max reads : exists fs e, fst (reader max reads) = map RFrame fs ++ e /\
  Forall (fun f => (N.of_nat (length f) <= max)%N) fs /\ ((e = [] /\ snd (reader max reads) = true) \/ exists x, e = [RError x] /\ snd (reader max reads) = false).
Proof. exact (@reader_limit max reads (S (total_read reads)) []). Qed.
Theorem C29_any_input max reads : exists fs e, fst (reader max reads) = map RFrame fs ++ e /\
  Forall (fun f => (N.of_nat (length f) <= max)%N) fs /\ ((e = [] /\ snd (reader max reads) = true) \/ exists x, e = [RError x] /\ snd (reader max reads) = false).
Proof. exact (@any_input max reads). Qed.
(** the reader's buffer never exceeds one frame of maximal length and one read *)
Lemma buffer_bound max reads : Forall (fun r => match r with ROk bs => length bs <= read_chunk | _ => True end) reads ->
  (N.of_nat (buf_max max reads []) < 8 + max + N.of_nat read_chunk)%N.
Proof. intros H. apply (@buf_max_ok max reads H []). cbn [length]. lia. Qed.
Theorem C29_buffer_bound max reads : Forall (fun r => match r with ROk bs => length bs <= read_chunk | _ => True end) reads ->
  (N.of_nat (buf_max max reads []) < 8 + max + N.of_nat read_chunk)%N.
Proof. exact (@buffer_bound max reads). Qed.
Theorem C29_end_to_end max msgs oracle flushes cs e : writer_ok msgs oracle flushes -> Forall (fits max) (payloads msgs) ->
  nonempty cs -> concat cs = written (fst (writer_loop msgs oracle flushes)) ->
  exists m, reader max (data_reads cs ++ end_reads e) = (map RFrame (firstn m (payloads msgs)) ++ end_items e, still_open e) /\
            m <= length (payloads msgs) /\
            (snd (writer_loop msgs oracle flushes) = WDone -> m = length (payloads msgs)).
Proof. exact (@end_to_end max msgs oracle flushes cs e). Qed.
(** the sender's side of the limit, and unknown parties *)
Lemma send_limit c to data : (bc_max c < N.of_nat (length data))%N -> chan_send c to data = Failed (Eyre "frame len > max").
Proof. intros H. unfold chan_send. rewrite (proj2 (N.ltb_lt _ _) H). reflexivity. Qed.
Theorem C29_send_too_large c to data : (bc_max c < N.of_nat (length data))%N -> chan_send c to data = Failed (Eyre "frame len > max").
Proof. exact (@send_limit c to data). Qed.
Lemma send_ok c to data q n : (N.of_nat (length data) <= bc_max c)%N -> bc_send c to = Some (q, n) ->
  exists c', chan_send c to data = Done c' /\ bc_send c' to = Some (q ++ [MFrame data], (n + N.of_nat (length data))%N) /\
    (forall o, o <> to -> bc_send c' o = bc_send c o) /\ bc_recv c' = bc_recv c /\ bc_max c' = bc_max c.
Proof.
  intros H E. unfold chan_send. rewrite (proj2 (N.ltb_ge _ _) H), E. eexists. split; [reflexivity|]. cbn. unfold upd.
  rewrite Nat.eqb_refl. split; [reflexivity|]. split; [|split; reflexivity]. intros o Ho. rewrite (proj2 (Nat.eqb_neq _ _) Ho). reflexivity.
Qed.
Theorem C29_send c to data q n : (N.of_nat (length data) <= bc_max c)%N -> bc_send c to = Some (q, n) ->
  exists c', chan_send c to data = Done c' /\ bc_send c' to = Some (q ++ [MFrame data], (n + N.of_nat (length data))%N) /\
    (forall o, o <> to -> bc_send c' o = bc_send c o) /\ bc_recv c' = bc_recv c /\ bc_max c' = bc_max c.
Proof. exact (@send_ok c to data q n). Qed.
Lemma recv_ok c from f q n : bc_recv c from = Some (RFrame f :: q, n) ->
  exists c', chan_recv c from = Some (Done f, c') /\ bc_recv c' from = Some (q, (n + N.of_nat (length f))%N) /\
    (forall o, o <> from -> bc_recv c' o = bc_recv c o) /\ bc_send c' = bc_send c.
Proof.
  intros E. unfold chan_recv. rewrite E. eexists. split; [reflexivity|]. cbn. unfold upd. rewrite Nat.eqb_refl.
  split; [reflexivity|]. split; [|reflexivity]. intros o Ho. rewrite (proj2 (Nat.eqb_neq _ _) Ho). reflexivity.
Qed.
Theorem C29_recv c from f q n : bc_recv c from = Some (RFrame f :: q, n) ->
  exists c', chan_recv c from = Some (Done f, c') /\ bc_recv c' from = Some (q, (n + N.of_nat (length f))%N) /\
    (forall o, o <> from -> bc_recv c' o = bc_recv c o) /\ bc_send c' = bc_send c.
Proof. exact (@recv_ok c from f q n). Qed.
(** the writer goes on after [ErrorKind::Interrupted], the reader does not (blocking.rs:203 against
    278-289): one interrupted system call ends the connection for the receiver *)
Lemma interrupted max e bs : bs <> [] ->
  snd (fst (write_loop [WInterrupted; WOk (length bs)] [bs])) = WDone /\ reader max [RErr e; ROk bs] = ([RError (Eyre e)], false).
Proof.
  intros H. split; [|reflexivity]. destruct bs as [|b bs]; [congruence|]. cbn [write_loop length]. cbn [advance_slices length].
  rewrite Nat.leb_refl, Nat.sub_diag. reflexivity.
Qed.
Theorem C29_interrupted_refuted max e bs : bs <> [] ->
  snd (fst (write_loop [WInterrupted; WOk (length bs)] [bs])) = WDone /\ reader max [RErr e; ROk bs] = ([RError (Eyre e)], false).
Proof. exact (@interrupted max e bs). Qed.

(** examples: three frames, the middle one empty, written in pieces, read in pieces, cut in the third *)
Definition bs (l : list N) : list byte := map byte_of l.
Definition ex_msgs : list wmsg := [MFrame (bs [1; 2; 3]%N); MFrame []; MFlush 7; MFrame (bs [9; 255]%N)].
Definition ex_oracle : list wres := [WOk 3; WInterrupted; WOk 6; WOk 2; WOk 8; WOk 9; WErr].
Example ex_C29_writer : writer_ok ex_msgs ex_oracle [true] /\ writer_loop ex_msgs ex_oracle [true] =
  ([EBytes (bs [0; 0; 0; 0; 0; 0; 0; 3; 1; 2; 3]%N); EBytes (bs [0; 0; 0; 0; 0; 0; 0; 0]%N); EAck 7 true; EBytes (bs [0; 0; 0; 0; 0; 0; 0; 2; 9]%N)], WFailed).
Proof. split; [|vm_compute; reflexivity]. vm_compute. intuition. Qed.
Example ex_C29_reader : exists cs, nonempty cs /\ concat cs = written (fst (writer_loop ex_msgs ex_oracle [true])) /\ length cs = 4 /\
  complete (payloads ex_msgs) 28 2 /\ Forall (fits 3) (payloads ex_msgs) /\
  reader 3 (data_reads cs ++ end_reads EndClosed) = ([RFrame (bs [1; 2; 3]%N); RFrame []; RError closed_err], false).
Proof.
  exists [bs [0; 0; 0; 0]%N; bs [0; 0; 0; 3; 1; 2; 3; 0; 0; 0; 0]%N; bs [0]%N; bs [0; 0; 0; 0; 0; 0; 0; 0; 0; 0; 2; 9]%N].
  split; [repeat constructor; discriminate|]. split; [vm_compute; reflexivity|]. split; [reflexivity|].
  split; [|split; [|vm_compute; reflexivity]].
  - split; [cbn; lia|]. split; [cbn; lia|]. right. cbn. lia.
  - repeat first [apply Forall_nil | apply Forall_cons]; split; vm_compute; congruence.
Qed.
Example ex_C29_too_large : reader 3 (data_reads [bs [0; 0; 0; 0; 0; 0; 0; 4; 1; 2; 3; 4]%N]) = ([RError too_long_err], false).
Proof. vm_compute. reflexivity. Qed.

(** ** C30: the mesh of TCP connections *)
(** every run ends, none panics, and when no party can go on each has exactly one connection per
    (network, peer), the very connection the peer has for it in that network ([the_conn] is symmetric) *)
Theorem C30_established n nets backlog k w : 0 < backlog -> tsteps n nets backlog k (t_init n nets) w ->
  k <= meas n (t_init n nets) /\ ~ t_panics n nets w /\
  ((exists w', tstep n nets backlog w w') \/
   (t_done n w /\ forall p, p < n -> NoDup (map fst (t_slots w p)) /\
     forall i o c, In ((i, o), c) (t_slots w p) <-> i < nets /\ o < n /\ o <> p /\ c = the_conn i p o)).
Proof. exact (@established n nets backlog k w). Qed.
Lemma conn_sym i p o : p <> o -> the_conn i p o = the_conn i o p.
Proof. intros H. unfold the_conn. destruct (Nat.ltb_spec p o); destruct (Nat.ltb_spec o p); try lia; reflexivity. Qed.
Lemma conn_inj i p o i' p' o' : p <> o -> p' <> o' -> the_conn i p o = the_conn i' p' o' -> i = i' /\ ((p = p' /\ o = o') \/ (p = o' /\ o = p')).
Proof.
  unfold the_conn. destruct (Nat.ltb_spec p o); destruct (Nat.ltb_spec p' o'); intros ? ? E; injection E; intros; subst; auto; lia.
Qed.
Theorem C30_same_connection i p o : p <> o -> the_conn i p o = the_conn i o p.
Proof. exact (@conn_sym i p o). Qed.
Theorem C30_distinct_connections i p o i' p' o' : p <> o -> p' <> o' -> the_conn i p o = the_conn i' p' o' ->
  i = i' /\ ((p = p' /\ o = o') \/ (p = o' /\ o = p')).
Proof. exact (@conn_inj i p o i' p' o'). Qed.
(** the address at position [k] belongs to party [k] if the configured ids are 0, 1, .., n-1 in any order *)
Theorem C30_sorted_addresses {V} (l : list (nat * V)) : Permutation (map fst l) (seq 0 (length l)) -> map fst (sort_ids l) = seq 0 (length l).
Proof. exact (@sort_position V l). Qed.
(** without that nothing works: with two parties called 1 and 2 both only wait for a connection *)
Lemma ids_from_one nets id : 1 <= id -> forall a, In a (script 2 nets id) -> a = TAccept.
Proof.
  intros H a Ha. unfold script in Ha. apply in_flat_map in Ha. destruct Ha as (i & _ & Ha). cbn [seq flat_map app] in Ha.
  unfold party_act in Ha. destruct id as [|[|id]]; [lia| |]; cbn in Ha; intuition.
Qed.
Theorem C30_ids_from_one_refuted nets id : 1 <= id -> forall a, In a (script 2 nets id) -> a = TAccept.
Proof. exact (@ids_from_one nets id). Qed.
Example ex_C30 : script 3 2 1 = [TAccept; TConnect 0 2; TAccept; TConnect 1 2] /\ script 3 2 2 = [TAccept; TAccept; TAccept; TAccept] /\
  sort_ids [(2, "c"); (0, "a"); (1, "b")]%string = [(0, "a"); (1, "b"); (2, "c")]%string.
Proof. vm_compute. auto. Qed.
(** the beginning of a run: two listeners open, party 0 connects to party 1 *)
Example ex_C30_run : exists w, tsteps 3 1 128 3 (t_init 3 1) w /\ t_bound w 0 = true /\ t_queue w 1 = [(0, 0, 1)].
Proof.
  eexists. split.
  - eapply tsteps_S; [apply (@ts_bind 3 1 128 _ 0); [lia|reflexivity]|].
    eapply tsteps_S; [apply (@ts_bind 3 1 128 _ 1); [lia|reflexivity]|].
    eapply tsteps_S; [eapply (@ts_connect 3 1 128 _ 0 0 1); [lia|reflexivity|reflexivity|reflexivity|reflexivity|cbn; lia]|].
    apply tsteps_0.
  - split; reflexivity.
Qed.

(** ** C31: sessions *)
Theorem C31_header sid pid rest : (sid < 2 ^ 128)%N -> (N.of_nat pid < 2 ^ 64)%N ->
  read_header (header sid pid ++ rest) = Some ((sid, pid), rest).
Proof. exact (@read_header_ok sid pid rest). Qed.
(** the larger of two parties connects and the smaller asks for exactly the key in the header sent *)
Lemma session_match n p q sid : p < q -> q < n -> (sid < 2 ^ 128)%N -> (N.of_nat q < 2 ^ 64)%N ->
  (forall a, In (p, a) (init_session n q sid) <-> a = IConnect p (header sid q)) /\
  (forall a, In (q, a) (init_session n p sid) <-> a = IGet (sid, q)) /\
  exists rest, read_header (header sid q) = Some ((sid, q), rest).
Proof.
  intros H1 H2 H3 H4. split; [|split].
  - intros a. rewrite init_session_in. split; [intros (_ & [[_ E]|[C _]]); [exact E|lia]|intros ->; split; [lia|left; auto]].
  - intros a. rewrite init_session_in. split; [intros (_ & [[C _]|[_ E]]); [lia|exact E]|intros ->; split; [lia|right; auto]].
  - exists []. rewrite <- (app_nil_r (header sid q)). apply read_header_ok; assumption.
Qed.
Theorem C31_init_session n p q sid : p < q -> q < n -> (sid < 2 ^ 128)%N -> (N.of_nat q < 2 ^ 64)%N ->
  (forall a, In (p, a) (init_session n q sid) <-> a = IConnect p (header sid q)) /\
  (forall a, In (q, a) (init_session n p sid) <-> a = IGet (sid, q)) /\
  exists rest, read_header (header sid q) = Some ((sid, q), rest).
Proof. exact (@session_match n p q sid). Qed.
Theorem C31_init_session_peers n id sid : map fst (init_session n id sid) = filter (fun o => negb (Nat.eqb o id)) (seq 0 n).
Proof. exact (@init_session_keys n id sid). Qed.
(** whatever the history: every connection that arrived is delivered, closed, or still kept; a
    connection that arrived once is delivered at most once *)
Lemma session_conserved tti os s k : let r := s_run tti s_empty os in
  nb (is_insert s k) (snd r) = nb (is_delivery s k) (snd r) + nb (is_drop s k) (snd r) + nb (waiting_stream s k) (s_map (fst r)).
Proof. exact (@streams_run tti os s k s_empty (NoDup_nil _)). Qed.
Theorem C31_conserved tti os s k : let r := s_run tti s_empty os in
  nb (is_insert s k) (snd r) = nb (is_delivery s k) (snd r) + nb (is_drop s k) (snd r) + nb (waiting_stream s k) (s_map (fst r)).
Proof. exact (@session_conserved tti os s k). Qed.
Lemma nb_pos {X} (p : X -> bool) l x : In x l -> p x = true -> 1 <= nb p l.
Proof. intros H E. unfold nb. assert (I : In x (filter p l)) by (apply filter_In; auto). destruct (filter p l); [contradiction|cbn; lia]. Qed.
Lemma nb_in {X} (p : X -> bool) l : 1 <= nb p l -> exists x, In x l /\ p x = true.
Proof.
  unfold nb. intros H. destruct (filter p l) as [|x f] eqn:E; [cbn in H; lia|]. exists x. apply filter_In. rewrite E. left. reflexivity.
Qed.
(** a call only gets a connection that arrived with the key it asked for *)
Lemma session_right_key tti os g s k : In (VDeliver g s k) (snd (s_run tti s_empty os)) ->
  In (VInsert s k) (snd (s_run tti s_empty os)) /\ In (VCall g k) (snd (s_run tti s_empty os)).
Proof.
  intros H. split.
  - pose proof (streams_run tti os s k s_empty (NoDup_nil _)) as C. cbv zeta in C.
    assert (D : 1 <= nb (is_delivery s k) (snd (s_run tti s_empty os))).
    { apply (nb_pos _ _ _ H). cbn. rewrite Nat.eqb_refl. apply key_eqb_refl. }
    assert (I : 1 <= nb (is_insert s k) (snd (s_run tti s_empty os))) by (cbn [s_map s_empty] in C; rewrite nb_nil in C; lia).
    apply nb_in in I. destruct I as (e & He & E). destruct e; try discriminate E. cbn in E. apply andb_prop in E. destruct E as [E1 E2].
    apply Nat.eqb_eq in E1. apply key_eqb_eq in E2. subst. exact He.
  - pose proof (calls_run tti os g k s_empty (NoDup_nil _)) as C. cbv zeta in C.
    assert (D : 1 <= nb (is_end g k) (snd (s_run tti s_empty os))).
    { apply (nb_pos _ _ _ H). cbn. rewrite Nat.eqb_refl. apply key_eqb_refl. }
    assert (I : 1 <= nb (is_call g k) (snd (s_run tti s_empty os))) by (cbn [s_map s_empty] in C; rewrite nb_nil in C; lia).
    apply nb_in in I. destruct I as (e & He & E). destruct e; try discriminate E. cbn in E. apply andb_prop in E. destruct E as [E1 E2].
    apply Nat.eqb_eq in E1. apply key_eqb_eq in E2. subst. exact He.
Qed.
Theorem C31_right_key tti os g s k : In (VDeliver g s k) (snd (s_run tti s_empty os)) ->
  In (VInsert s k) (snd (s_run tti s_empty os)) /\ In (VCall g k) (snd (s_run tti s_empty os)).
Proof. exact (@session_right_key tti os g s k). Qed.
(** a call ends (with a connection or an error) at most once, or is still waiting *)
Lemma session_call_once tti os g k : let r := s_run tti s_empty os in
  nb (is_end g k) (snd r) + nb (waiting_call g k) (s_map (fst r)) <= 1.
Proof.
  pose proof (calls_run tti os g k s_empty (NoDup_nil _)) as C. cbv zeta in *. cbn [s_map s_empty] in C. rewrite nb_nil in C.
  pose proof (proj1 (calls_fresh tti os g s_empty)) as F.
  assert (L : nb (is_call g k) (snd (s_run tti s_empty os)) <= nb (fun e => match e with VCall g' _ => Nat.eqb g g' | _ => false end) (snd (s_run tti s_empty os))).
  { generalize (snd (s_run tti s_empty os)). induction l as [|e l IH]; [cbn; lia|]. rewrite !nb_cons.
    destruct e; cbn [is_call]; try lia. destruct (g =? g0); cbn [andb]; [destruct (key_eqb k k0)|]; lia. }
  lia.
Qed.
Theorem C31_call_once tti os g k : let r := s_run tti s_empty os in
  nb (is_end g k) (snd r) + nb (waiting_call g k) (s_map (fst r)) <= 1.
Proof. exact (@session_call_once tti os g k). Qed.
(** the two orders of a rendezvous; [quiet]: no other operation on the key, no clean-up that finds the
    entry idle; [keeps]: the caller does not give up *)
Theorem C31_connection_first tti pre t0 s k mid t1 post : Forall (untouched k) pre -> Forall (quiet tti k t0) mid ->
  exists g, In (VDeliver g s k) (snd (s_run tti s_empty (pre ++ (t0, OInsert s k) :: mid ++ (t1, OGet k) :: post))).
Proof. exact (@rendezvous_insert_first tti pre t0 s k mid t1 post). Qed.
Theorem C31_request_first tti pre t0 s k mid t1 post : Forall (untouched k) pre -> Forall (quiet tti k t0) mid ->
  let g := s_next (fst (s_run tti s_empty pre)) in
  ~ In g (s_gone (fst (s_run tti s_empty pre))) -> Forall (keeps g) mid ->
  In (VDeliver g s k) (snd (s_run tti s_empty (pre ++ (t0, OGet k) :: mid ++ (t1, OInsert s k) :: post))).
Proof. exact (@rendezvous_get_first tti pre t0 s k mid t1 post). Qed.
(** the acceptor matches every connection that sends a complete header *)
Theorem C31_acceptor conns : Forall (fun c => exists sid pid rest, (sid < 2 ^ 128)%N /\ (N.of_nat pid < 2 ^ 64)%N /\ snd c = Some (header sid pid ++ rest)) conns ->
  map fst (acceptor conns) = map fst conns.
Proof. exact (@acceptor_all conns). Qed.
(** a connection that is closed before its header is complete is dropped, the others are matched *)
Theorem C31_acceptor_skips conns : Forall (fun c => exists bs, snd c = Some bs) conns ->
  map fst (acceptor conns) = map fst (filter (fun c => match snd c with Some bs => (24 <=? length bs)%nat | None => false end) conns).
Proof. exact (@acceptor_skips conns). Qed.
Example ex_C31_acceptor_skips : map fst (acceptor [(5, Some [Byte.x00]); (6, Some (header 3 1))]) = [6].
Proof. reflexivity. Qed.
(** without the side conditions: the clean-up cancels a request that has no time-out of its own *)
Lemma cleanup_cancels : exists tti k s os, Forall (fun o => forall g, snd o <> OAbandon g) os /\
  nb (fun o => match snd o with OInsert _ _ => true | _ => false end) os = 1 /\
  nb (fun o => match snd o with OGet _ => true | _ => false end) os = 1 /\
  (forall g, ~ In (VDeliver g s k) (snd (s_run tti s_empty os))) /\ In (VCancelled 0 k) (snd (s_run tti s_empty os)).
Proof.
  exists 60%N, (5%N, 1), 3, [(0%N, OGet (5%N, 1)); (60%N, OCleanup); (61%N, OInsert 3 (5%N, 1))].
  split; [repeat constructor; discriminate|]. split; [reflexivity|]. split; [reflexivity|].
  split; [|cbn; auto]. intros g [H|[H|[H|[]]]]; discriminate H.
Qed.
Theorem C31_cleanup_cancels_request_refuted : exists tti k s os, Forall (fun o => forall g, snd o <> OAbandon g) os /\
  nb (fun o => match snd o with OInsert _ _ => true | _ => false end) os = 1 /\
  nb (fun o => match snd o with OGet _ => true | _ => false end) os = 1 /\
  (forall g, ~ In (VDeliver g s k) (snd (s_run tti s_empty os))) /\ In (VCancelled 0 k) (snd (s_run tti s_empty os)).
Proof. exact cleanup_cancels. Qed.
(** a request that gave up swallows the connection: the next request waits although the connection
    arrived before it and within the idle time *)
Lemma stale_swallows : exists tti k s os st log, s_run tti s_empty os = (st, log) /\
  os = [(0%N, OGet k); (1%N, OAbandon 0); (2%N, OInsert s k); (3%N, OGet k)] /\
  In (VLost s 0 k) log /\ (forall g, ~ In (VDeliver g s k) log) /\ nb (waiting_call 1 k) (s_map st) = 1.
Proof.
  exists 60%N, (5%N, 1), 3, [(0%N, OGet (5%N, 1)); (1%N, OAbandon 0); (2%N, OInsert 3 (5%N, 1)); (3%N, OGet (5%N, 1))].
  eexists. eexists. split; [vm_compute; reflexivity|]. split; [reflexivity|]. cbn. split; [auto|]. split; [|reflexivity].
  intros g [H|[H|[H|[H|[]]]]]; discriminate H.
Qed.
Theorem C31_stale_request_swallows_refuted : exists tti k s os st log, s_run tti s_empty os = (st, log) /\
  os = [(0%N, OGet k); (1%N, OAbandon 0); (2%N, OInsert s k); (3%N, OGet k)] /\
  In (VLost s 0 k) log /\ (forall g, ~ In (VDeliver g s k) log) /\ nb (waiting_call 1 k) (s_map st) = 1.
Proof. exact stale_swallows. Qed.
(** one silent connection and no later connection is ever matched *)
Lemma silent_blocks s conns : acceptor ((s, None) :: conns) = [].
Proof. reflexivity. Qed.
Theorem C31_silent_connection_refuted s conns : acceptor ((s, None) :: conns) = [].
Proof. exact (@silent_blocks s conns). Qed.
Example ex_C31 : snd (s_run 60 s_empty [(0, OGet (5, 1%nat)); (1, OInsert 8 (6, 1%nat)); (2, OCleanup); (3, OInsert 9 (5, 1%nat)); (70, OCleanup)])%N =
  [VCall 0 (5%N, 1); VInsert 8 (6%N, 1); VInsert 9 (5%N, 1); VDeliver 0 9 (5%N, 1); VExpired 8 (6%N, 1)].
Proof. vm_compute. reflexivity. Qed.
Example ex_C31_side : Forall (untouched (5%N, 1)) [(1%N, OInsert 8 (6%N, 1))] /\ Forall (quiet 60 (5%N, 1) 0) [(2%N, OCleanup); (3%N, OGet (5%N, 2))] /\
  Forall (keeps 0) [(2%N, OCleanup)].
Proof. repeat constructor; cbn; try discriminate; intros E; discriminate E. Qed.
Example ex_C31_init : map fst (init_session 4 2 77) = [0; 1; 3] /\ In (3, IGet (77%N, 3)) (init_session 4 2 77).
Proof. split; [reflexivity|]. cbn. auto. Qed.

(** ** C32: the in-process network *)
Lemma local_fifo B n (es : list (lev B)) w i j : lrun (local_new n) es w -> i < n -> j < n -> i <> j ->
  exists q, sent_msgs i j es = recvd_msgs j i es ++ q /\ length q <= 32 /\
    (* what a call finds next *)
    (forall data, (exists w', l_send w i j data = SOk w') <-> length q < 32) /\
    (l_recv w j i = RvEmpty <-> q = []) /\
    (forall data, (exists w', l_recv w j i = RvOk data w') <-> exists q', q = data :: q').
Proof.
  intros R Hi Hj Hne. destruct (@linv_reachable B n es w R) as (chan & L). destruct L as (_ & L & _). destruct (L i j Hi Hj Hne) as ((G1 & G2) & E & Hl).
  exists (w_chan w (chan i j)). split; [exact E|]. split; [exact Hl|]. split; [|split].
  - intros data. unfold l_send. rewrite G1. change queue_cap with 32. destruct (Nat.ltb_spec (length (w_chan w (chan i j))) 32) as [H|H].
    + split; [intros _; exact H|]. intros _. eexists. reflexivity.
    + split; [intros (w' & X); discriminate X|lia].
  - unfold l_recv. rewrite G2. destruct (w_chan w (chan i j)); split; congruence.
  - intros data. unfold l_recv. rewrite G2. destruct (w_chan w (chan i j)) as [|d q]; split.
    + intros (w' & X). discriminate X.
    + intros (q' & X). discriminate X.
    + intros (w' & X). injection X. intros _ ->. exists q. reflexivity.
    + intros (q' & X). injection X. intros -> ->. eexists. reflexivity.
Qed.
Theorem C32_fifo B n (es : list (lev B)) w i j : lrun (local_new n) es w -> i < n -> j < n -> i <> j ->
  exists q, sent_msgs i j es = recvd_msgs j i es ++ q /\ length q <= 32 /\
    (forall data, (exists w', l_send w i j data = SOk w') <-> length q < 32) /\
    (l_recv w j i = RvEmpty <-> q = []) /\
    (forall data, (exists w', l_recv w j i = RvOk data w') <-> exists q', q = data :: q').
Proof. exact (@local_fifo B n es w i j). Qed.
Lemma local_unknown B n (es : list (lev B)) w i j data : lrun (local_new n) es w -> (n <= i \/ n <= j \/ i = j) ->
  l_send w i j data = SErr (Eyre "party id out-of-bounds") /\ l_recv w i j = RvErr (Eyre "party id out-of-bounds").
Proof.
  intros R H. destruct (@linv_reachable B n es w R) as (chan & _ & _ & L). unfold l_send, l_recv.
  rewrite (proj1 (L i j H)). assert (H' : n <= j \/ n <= i \/ j = i) by (destruct H as [|[|]]; auto).
  rewrite (proj2 (L j i H')). auto.
Qed.
Theorem C32_unknown_party B n (es : list (lev B)) w i j data : lrun (local_new n) es w -> (n <= i \/ n <= j \/ i = j) ->
  l_send w i j data = SErr (Eyre "party id out-of-bounds") /\ l_recv w i j = RvErr (Eyre "party id out-of-bounds").
Proof. exact (@local_unknown B n es w i j data). Qed.
(** the statistics, never a panic; sends that timed out are in the count *)
Theorem C32_stats B n (es : list (lev B)) w id : lrun (local_new n) es w -> id < n ->
  exists st, get_connection_stats w id = Some st /\ sorted_from 0 st /\
    forall j, bt_get j st = if (j <? n) && negb (j =? id)
                            then Some (bytes (sent_msgs id j es) + bytes (timed_out_msgs id j es), bytes (recvd_msgs id j es))%N
                            else None.
Proof. exact (@stats_ok B n es w id). Qed.
Theorem C32_diff B n (es1 : list (lev B)) w1 es2 w2 id : lrun (local_new n) es1 w1 -> lrun w1 es2 w2 -> id < n ->
  exists st1 st2 d, get_connection_stats w1 id = Some st1 /\ get_connection_stats w2 id = Some st2 /\
    get_diff_to st2 st1 = Some d /\
    forall j, im_get j d = if (j <? n) && negb (j =? id)
                           then Some (bytes (sent_msgs id j es2) + bytes (timed_out_msgs id j es2), bytes (recvd_msgs id j es2))%N
                           else None.
Proof. exact (@diff_run B n es1 w1 es2 w2 id). Qed.
(** a send that timed out delivers nothing but is counted *)
Fixpoint fill (k : nat) : list (lev nat) := match k with O => [] | S k => LSent 0 1 [7] :: fill k end.
Lemma timeout_counted : exists es w st, lrun (local_new (B := nat) 2) es w /\ get_connection_stats w 0 = Some st /\
  bytes (sent_msgs (B := nat) 0 1 es) = 32%N /\ bt_get 1 st = Some (33, 0)%N.
Proof.
  exists (fill 32 ++ [LSendTimeout 0 1 [8]]). eexists. eexists. split.
  - cbn [fill app]. do 32 (eapply lrun_sent; [vm_compute; reflexivity|]). eapply lrun_stimeout; [vm_compute; reflexivity|]. apply lrun_nil.
  - split; [vm_compute; reflexivity|]. split; vm_compute; reflexivity.
Qed.
Theorem C32_timed_out_send_counted_refuted : exists es w st, lrun (local_new (B := nat) 2) es w /\ get_connection_stats w 0 = Some st /\
  bytes (sent_msgs (B := nat) 0 1 es) = 32%N /\ bt_get 1 st = Some (33, 0)%N.
Proof. exact timeout_counted. Qed.
(** snapshots in the wrong order: a subtraction underflows *)
Lemma diff_wrong_order : exists st1 st2 : stats, (forall k s r, bt_get k st1 = Some (s, r) -> exists s' r', bt_get k st2 = Some (s', r') /\ (s <= s' /\ r <= r')%N) /\
  get_diff_to st1 st2 = None.
Proof.
  exists [(1, (5, 0)%N)], [(1, (6, 0)%N)]. split; [|reflexivity]. intros k s r. unfold bt_get. cbn [find fst].
  destruct (1 =? k); cbn; [|discriminate]. intros E. injection E. intros <- <-. exists 6%N, 0%N. split; [reflexivity|lia].
Qed.
Theorem C32_diff_wrong_order_refuted : exists st1 st2 : stats,
  (forall k s r, bt_get k st1 = Some (s, r) -> exists s' r', bt_get k st2 = Some (s', r') /\ (s <= s' /\ r <= r')%N) /\ get_diff_to st1 st2 = None.
Proof. exact diff_wrong_order. Qed.
(** every property proved for all schedules of the abstract network of Proc.v (queues of 32) holds for
    programs run over the local network: same results, bounded number of calls, empty queues at the end *)
Theorem C32_refines B A n (ps : nat -> prog nat (list B) A) Q :
  (forall p, p < n -> talks n p (ps p)) ->
  Proc.every_schedule (fun p => p < n) 32 ps Q ->
  exists o bound, Q o /\
    (forall m s, gsteps n m (ps, local_new n) s -> m <= bound) /\
    (forall m s, gsteps n m (ps, local_new n) s -> (forall i s', ~ gstep n s i s') ->
       (forall i, i < n -> fst s i = leaf (o i)) /\ forall i j, chans (snd s) i j = []).
Proof. exact (@local_every_schedule B A n ps Q). Qed.
Example ex_C32 : exists w st, lrun (local_new (B := nat) 3) [LSent 0 1 [1; 2]; LSent 0 2 [3]; LSent 2 1 []; LRecvd 1 0 [1; 2]; LRecvTimeout 1 0; LRecvd 1 2 []] w /\
  get_connection_stats w 0 = Some st /\ st = [(1, (2, 0)%N); (2, (1, 0)%N)].
Proof.
  eexists. eexists. split.
  - do 3 (eapply lrun_sent; [vm_compute; reflexivity|]). eapply lrun_recvd; [vm_compute; reflexivity|].
    eapply lrun_rtimeout; [vm_compute; reflexivity|]. eapply lrun_recvd; [vm_compute; reflexivity|]. apply lrun_nil.
  - split; vm_compute; reflexivity.
Qed.
Example ex_C32_talks : forall p, p < 2 -> talks (A := unit) 2 p (if p =? 0 then Send 1 [5] (Recv 1 (fun _ => Ret tt)) else Recv 0 (fun m => Send 0 m (Ret tt))).
Proof. intros [|[|p]] H; cbn; repeat split; lia. Qed.

(** ** C34: addresses *)
Theorem C34_roundtrip h p : ~ In colon h -> (p < 65536)%N -> from_str (display (h, p)) = inl (h, p).
Proof. exact (@roundtrip h p). Qed.
(** exactly the accepted strings: a host without ':', ':', an optional '+', at least one decimal digit,
    value below 2^16 (leading zeros allowed) *)
Theorem C34_accepted s h p : from_str s = inl (h, p) <->
  exists sign ds, s = h ++ colon :: sign ++ ds /\ ~ In colon h /\ (sign = [] \/ sign = [plus]) /\ ds <> [] /\
    Forall is_digit ds /\ value ds = p /\ (p < 65536)%N.
Proof. exact (@from_str_spec s h p). Qed.
Theorem C34_bad_format s : from_str s = inr InvalidFormat <-> colons s <> 1.
Proof. exact (@bad_format s). Qed.
Theorem C34_host_with_colon_refuted h p : In colon h -> (p < 65536)%N -> from_str (display (h, p)) = inr InvalidFormat.
Proof. exact (@no_roundtrip h p). Qed.
Definition str (s : string) : list byte := list_byte_of_string s.
Example ex_C34 : from_str (str "localhost:10000") = inl (str "localhost", 10000%N) /\ from_str (str ":+007") = inl ([], 7%N) /\
  from_str (str "a:65536") = inr (InvalidPort IPosOverflow) /\ from_str (str "a:b:1") = inr InvalidFormat /\
  display (str "h", 65535%N) = str "h:65535" /\ from_str (display (str "::1", 80%N)) = inr InvalidFormat.
Proof. vm_compute. repeat split. Qed.

Print Assumptions C29_write_frame.
Print Assumptions C29_writer_loop.
Print Assumptions C29_truncated.
Print Assumptions C29_truncation_total.
Print Assumptions C29_whole.
Print Assumptions C29_header_too_large.
Print Assumptions C29_chunking.
Print Assumptions C29_any_input.
Print Assumptions C29_buffer_bound.
Print Assumptions C29_end_to_end.
Print Assumptions C29_send_too_large.
Print Assumptions C29_send.
Print Assumptions C29_recv.
Print Assumptions C29_interrupted_refuted.
Print Assumptions C30_established.
Print Assumptions C30_same_connection.
Print Assumptions C30_distinct_connections.
Print Assumptions C30_sorted_addresses.
Print Assumptions C30_ids_from_one_refuted.
Print Assumptions C31_header.
Print Assumptions C31_init_session.
Print Assumptions C31_init_session_peers.
Print Assumptions C31_conserved.
Print Assumptions C31_right_key.
Print Assumptions C31_call_once.
Print Assumptions C31_connection_first.
Print Assumptions C31_request_first.
Print Assumptions C31_acceptor.
Print Assumptions C31_acceptor_skips.
Print Assumptions C31_cleanup_cancels_request_refuted.
Print Assumptions C31_stale_request_swallows_refuted.
Print Assumptions C31_silent_connection_refuted.
Print Assumptions C32_fifo.
Print Assumptions C32_unknown_party.
Print Assumptions C32_stats.
Print Assumptions C32_diff.
Print Assumptions C32_timed_out_send_counted_refuted.
Print Assumptions C32_diff_wrong_order_refuted.
Print Assumptions C32_refines.
Print Assumptions C34_roundtrip.
Print Assumptions C34_accepted.
Print Assumptions C34_bad_format.
Print Assumptions C34_host_with_colon_refuted.
