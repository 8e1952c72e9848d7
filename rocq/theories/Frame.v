(** * Length-prefixed frames over byte streams

    Models mpc-net/src/blocking.rs: the frame writer ([write_frame], [write_all_vectored],
    [writer_loop]), the frame reader ([FrameReader], [reader_loop]) and the per-peer queues of
    [BlockingChannels]. The operating system is an oracle: a list of results of the successive
    [write_vectored] (resp. [flush], [read]) calls. When the list is exhausted the call blocks.

    Simplifications: [usize] is 64 bits wide; the two background threads are described by what
    they take from and put into their queues (the blocking of a full queue is in Proc.v). *)
From Coq Require Import String Arith NArith Lia.
From Coq Require Import Init.Byte Strings.Byte.
From Coq Require Import List.
From Verif Require Import Proc.
Import ListNotations.
Set Implicit Arguments.
Local Open Scope nat_scope.

(** [u64::to_be_bytes] and [u64::from_be_bytes] (blocking.rs:182, 253) *)
Definition byte_of (x : N) : byte := match Byte.of_N (x mod 256) with Some b => b | None => x00 end.
Definition be64 (n : N) : list byte :=
  map (fun k => byte_of (n / 256 ^ N.of_nat k)) [7; 6; 5; 4; 3; 2; 1; 0].
Definition of_be (bs : list byte) : N := fold_left (fun a b => a * 256 + Byte.to_N b)%N bs 0%N.

(** ** Writing *)
(** result of one [write_vectored] call *)
Inductive wres := WOk (n : nat) | WInterrupted | WErr.
(** [std::io::IoSlice::advance_slices] ([None]: panic when advancing past the end) *)
Fixpoint advance_slices (bufs : list (list byte)) (n : nat) : option (list (list byte)) :=
  match bufs with
  | [] => if n =? 0 then Some [] else None
  | b :: rest => if length b <=? n then advance_slices rest (n - length b)
                 else Some (skipn n b :: rest)
  end.
Inductive wstatus := WDone | WFailed | WBlocked | WPanic.
(** blocking.rs:198-208: the loop of [write_all_vectored]: bytes accepted by the stream, status,
    remaining oracle *)
Fixpoint write_loop (oracle : list wres) (bufs : list (list byte)) : list byte * wstatus * list wres :=
  match bufs with
  | [] => ([], WDone, oracle)
  | _ =>
      match oracle with
      | [] => ([], WBlocked, [])
      | WOk 0 :: o => ([], WFailed, o)
      | WOk n :: o =>
          match advance_slices bufs n with
          | None => ([], WPanic, o)
          | Some bufs' => let r := write_loop o bufs' in (firstn n (concat bufs) ++ fst (fst r), snd (fst r), snd r)
          end
      | WInterrupted :: o => write_loop o bufs
      | WErr :: o => ([], WFailed, o)
      end
  end.
(** blocking.rs:191-209 [write_all_vectored] *)
Definition write_all_vectored (oracle : list wres) (bufs : list (list byte)) : list byte * wstatus * list wres :=
  match advance_slices bufs 0 with
  | None => ([], WPanic, oracle)
  | Some bufs => write_loop oracle bufs
  end.
(** blocking.rs:181-185 [write_frame] *)
Definition write_frame (oracle : list wres) (payload : list byte) : list byte * wstatus * list wres :=
  write_all_vectored oracle [be64 (N.of_nat (length payload)); payload].

(** blocking.rs:33-39 [WriteMsg]; a flush carries the identity of its acknowledgement channel *)
Inductive wmsg := MFrame (payload : list byte) | MFlush (ack : nat).
(** what the writer thread does, in order: bytes accepted by the stream, acknowledgements *)
Inductive wevent := EBytes (bs : list byte) | EAck (ack : nat) (ok : bool).
(** blocking.rs:156-175 [writer_loop]; [flushes]: results of [stream.flush()] *)
Fixpoint writer_loop (msgs : list wmsg) (oracle : list wres) (flushes : list bool) : list wevent * wstatus :=
  match msgs with
  | [] => ([], WDone)
  | MFrame payload :: msgs =>
      let r := write_frame oracle payload in
      match snd (fst r) with
      | WDone => let q := writer_loop msgs (snd r) flushes in (EBytes (fst (fst r)) :: fst q, snd q)
      | s => ([EBytes (fst (fst r))], s)
      end
  | MFlush ack :: msgs =>
      match flushes with
      | [] => ([], WBlocked)
      | true :: fl => let q := writer_loop msgs oracle fl in (EAck ack true :: fst q, snd q)
      | false :: _ => ([EAck ack false], WFailed)
      end
  end.
(** the bytes that reached the stream *)
Fixpoint written (es : list wevent) : list byte :=
  match es with [] => [] | EBytes bs :: es => bs ++ written es | EAck _ _ :: es => written es end.

(** ** Reading *)
(** result of one [read] call: some bytes ([ROk []] is the end of the stream), or an error *)
Inductive rres := ROk (bs : list byte) | RErr (e : string).
(** blocking.rs:252-265: what the buffer contains. [8 + len] can only overflow ([PPanic]; the
    release build wraps around) when the configured limit is within 8 of [usize::MAX]. *)
Inductive parsed :=
| PTooLong (len : N)
| PPanic
| PFrame (payload rest : list byte)
| PNeed.
Definition parse (max : N) (buf : list byte) : parsed :=
  if 8 <=? length buf then
    let len := of_be (firstn 8 buf) in
    if (max <? len)%N then PTooLong len
    else if (2 ^ 64 <=? 8 + len)%N then PPanic
    else if (8 + len <=? N.of_nat (length buf))%N
         then PFrame (firstn (N.to_nat len) (skipn 8 buf)) (skipn (N.to_nat len) (skipn 8 buf))
         else PNeed
  else PNeed.
Inductive ritem := RFrame (payload : list byte) | RError (e : err).
Definition too_long_err : err := Eyre "frame len > max".
Definition closed_err : err := Eyre "connection closed by peer".
(** blocking.rs:212 [READ_CHUNK]: one [read] returns at most so many bytes *)
Definition read_chunk : nat := 65536.
(** blocking.rs:250-289 [next_frame] with [fill]: item ([None]: blocked in [read]), buffer,
    remaining reads *)
Fixpoint next_frame (max : N) (reads : list rres) (buf : list byte) : option ritem * list byte * list rres :=
  match parse max buf with
  | PTooLong _ => (Some (RError too_long_err), buf, reads)
  | PPanic => (Some (RError (Panic "attempt to add with overflow")), buf, reads)
  | PFrame f rest => (Some (RFrame f), rest, reads)
  | PNeed =>
      match reads with
      | [] => (None, buf, [])
      | ROk [] :: reads => (Some (RError closed_err), buf, reads)
      | ROk bs :: reads => next_frame max reads (buf ++ bs)
      | RErr e :: reads => (Some (RError (Eyre e)), buf, reads)
      end
  end.
(** blocking.rs:218-237 [reader_loop] as long as the receiving end of the queue exists: the items
    put into the queue, and whether the thread is still waiting for data *)
Fixpoint reader_loop (fuel : nat) (max : N) (reads : list rres) (buf : list byte) : list ritem * bool :=
  match fuel with
  | O => ([], true)
  | S fuel =>
      let r := next_frame max reads buf in
      match fst (fst r) with
      | Some (RFrame f) => let q := reader_loop fuel max (snd r) (snd (fst r)) in (RFrame f :: fst q, snd q)
      | Some (RError e) => ([RError e], false)
      | None => ([], true)
      end
  end.
Fixpoint total_read (reads : list rres) : nat :=
  match reads with [] => 0 | ROk bs :: reads => length bs + total_read reads | RErr _ :: reads => total_read reads end.
(** every frame takes at least eight bytes of input: this fuel is never exhausted *)
Definition reader (max : N) (reads : list rres) : list ritem * bool := reader_loop (S (total_read reads)) max reads [].

(** ** Queues *)
(** blocking.rs:43-49 [BlockingChannels] (the queues as lists, the counters as numbers) *)
Record bchan := mkBchan {
  bc_send : nat -> option (list wmsg * N);
  bc_recv : nat -> option (list ritem * N);
  bc_max : N }.
Definition upd {X} (f : nat -> option X) (k : nat) (x : X) : nat -> option X := fun j => if j =? k then Some x else f j.
(** blocking.rs:90-101 [send] while the writer thread runs *)
Definition chan_send (c : bchan) (to : nat) (data : list byte) : outcome bchan :=
  if (bc_max c <? N.of_nat (length data))%N then Failed (Eyre "frame len > max")
  else match bc_send c to with
       | None => Failed (Eyre "party id out-of-bounds")
       | Some (q, sent) => Done (mkBchan (upd (bc_send c) to (q ++ [MFrame data], (sent + N.of_nat (length data))%N)) (bc_recv c) (bc_max c))
       end.
(** blocking.rs:104-113 [recv] ([None]: blocked on an empty queue) *)
Definition chan_recv (c : bchan) (from : nat) : option (outcome (list byte) * bchan) :=
  match bc_recv c from with
  | None => Some (Failed (Eyre "party id out-of-bounds"), c)
  | Some ([], _) => None
  | Some (RFrame f :: q, n) => Some (Done f, mkBchan (bc_send c) (upd (bc_recv c) from (q, (n + N.of_nat (length f))%N)) (bc_max c))
  | Some (RError e :: q, n) => Some (Failed e, mkBchan (bc_send c) (upd (bc_recv c) from (q, n)) (bc_max c))
  end.

(** * Specification *)
(** one frame on the wire, independently of the code: eight bytes with big-endian value [length f],
    then [f] *)
Definition wire_of (f w : list byte) : Prop :=
  exists h, length h = 8 /\ of_be h = N.of_nat (length f) /\ w = h ++ f.
(** number of bytes taken by frames *)
Fixpoint wire_len (fs : list (list byte)) : nat := match fs with [] => 0 | f :: fs => 8 + length f + wire_len fs end.
(** [m] is the number of frames that fit entirely into the first [k] bytes *)
Definition complete (fs : list (list byte)) (k m : nat) : Prop :=
  m <= length fs /\ wire_len (firstn m fs) <= k /\ (m = length fs \/ k < wire_len (firstn (S m) fs)).
(** the payloads of a list of messages *)
Fixpoint payloads (ms : list wmsg) : list (list byte) :=
  match ms with [] => [] | MFrame p :: ms => p :: payloads ms | MFlush _ :: ms => payloads ms end.
Definition frames (fs : list (list byte)) : list byte := concat (map (fun f => be64 (N.of_nat (length f)) ++ f) fs).
(** reads that only return data *)
Definition data_reads (cs : list (list byte)) : list rres := map ROk cs.
Definition prefix {A} (p l : list A) : Prop := exists s, l = p ++ s.

(** * Proofs *)
Lemma be64_len n : length (be64 n) = 8.
Proof. reflexivity. Qed.
Lemma to_N_byte_of x : Byte.to_N (byte_of x) = (x mod 256)%N.
Proof.
  unfold byte_of. assert (H : (x mod 256 < 256)%N) by (apply N.mod_lt; discriminate).
  destruct (Byte.of_N (x mod 256)) as [b|] eqn:E.
  - apply Byte.to_of_N in E. exact E.
  - apply Byte.of_N_None_iff in E. exfalso. lia.
Qed.
Lemma of_be_be64 n : (n < 2 ^ 64)%N -> of_be (be64 n) = n.
Proof.
  intros H. unfold of_be, be64, map, fold_left. rewrite !to_N_byte_of.
  set (q k := (n / 256 ^ N.of_nat k)%N).
  assert (E : forall k, (q (S k) * 256 + q k mod 256 = q k)%N).
  { intros k. unfold q. rewrite Nat2N.inj_succ, N.pow_succ_r', (N.mul_comm 256), <- N.div_div by (try apply N.pow_nonzero; discriminate).
    pose proof (N.div_mod' (n / 256 ^ N.of_nat k) 256). lia. }
  fold (q 7%nat) (q 6%nat) (q 5%nat) (q 4%nat) (q 3%nat) (q 2%nat) (q 1%nat) (q 0%nat).
  assert (E7 : (q 7%nat mod 256 = q 7%nat)%N).
  { apply N.mod_small. unfold q. apply N.div_lt_upper_bound; [apply N.pow_nonzero; discriminate|].
    eapply N.lt_le_trans; [exact H|]. vm_compute. discriminate. }
  rewrite N.mul_0_l, N.add_0_l, E7, !E. unfold q. cbn. apply N.div_1_r.
Qed.
Lemma be64_wire f : (N.of_nat (length f) < 2 ^ 64)%N -> wire_of f (be64 (N.of_nat (length f)) ++ f).
Proof. intros H. exists (be64 (N.of_nat (length f))). rewrite of_be_be64 by exact H. auto using be64_len. Qed.

(** ** Writing *)
Lemma advance_ok bufs n : n <= length (concat bufs) ->
  exists bufs', advance_slices bufs n = Some bufs' /\ concat bufs' = skipn n (concat bufs).
Proof.
  revert n; induction bufs as [|b bufs IH]; intros n H; cbn [advance_slices concat] in *.
  - cbn in H. assert (n = 0) by lia. subst. exists []. auto.
  - rewrite app_length in H. destruct (length b <=? n) eqn:E.
    + apply Nat.leb_le in E. destruct (IH (n - length b)) as (b' & E1 & E2); [lia|].
      exists b'. split; [exact E1|]. rewrite E2, skipn_app. rewrite (skipn_all2 b) by exact E. reflexivity.
    + apply Nat.leb_gt in E. eexists; split; [reflexivity|]. cbn [concat]. rewrite skipn_app.
      replace (n - length b) with 0 by lia. reflexivity.
Qed.
(** after an advance the first slice is never empty *)
Lemma advance_head bufs n bufs' : advance_slices bufs n = Some bufs' ->
  bufs' = [] \/ exists b rest, bufs' = b :: rest /\ b <> [].
Proof.
  revert n; induction bufs as [|b bufs IH]; intros n H; cbn [advance_slices] in H.
  - destruct (n =? 0); [injection H as <-; auto|discriminate].
  - destruct (length b <=? n) eqn:E; [eauto|]. injection H as <-. right. do 2 eexists. split; [reflexivity|].
    apply Nat.leb_gt in E. intros E2. apply (f_equal (@length _)) in E2. rewrite skipn_length in E2. cbn in E2. lia.
Qed.
(** the contract of [write_vectored]: never more bytes than offered, in the course of the loop *)
Fixpoint oracle_ok (oracle : list wres) (left : nat) : Prop :=
  match oracle with
  | [] => True
  | WOk n :: o => left = 0 \/ (n <= left /\ oracle_ok o (left - n))
  | _ :: o => oracle_ok o left
  end.
Lemma write_loop_ok oracle : forall bufs,
  (bufs = [] \/ exists b rest, bufs = b :: rest /\ b <> []) -> oracle_ok oracle (length (concat bufs)) ->
  let r := write_loop oracle bufs in
  prefix (fst (fst r)) (concat bufs) /\ snd (fst r) <> WPanic /\
  (snd (fst r) = WDone -> fst (fst r) = concat bufs).
Proof.
  induction oracle as [|w o IH]; intros bufs Hh Ho.
  - destruct bufs; cbn; repeat split; try discriminate; try (exists []; reflexivity). eexists; reflexivity.
  - destruct bufs as [|b rest].
    { cbn. repeat split; try discriminate. exists []. reflexivity. }
    destruct Hh as [H|(b0 & r0 & H & Hb)]; [discriminate|]. injection H as <- <-.
    cbn [write_loop]. destruct w as [n| |]; cbn [oracle_ok] in Ho.
    + destruct n as [|n].
      { cbn. repeat split; try discriminate. eexists; reflexivity. }
      destruct Ho as [Ho|(Hn & Ho)].
      { exfalso. cbn [concat] in Ho. rewrite app_length in Ho. destruct b; [congruence|cbn in Ho; lia]. }
      destruct (@advance_ok (b :: rest) (S n) Hn) as (b' & E1 & E2). rewrite E1.
      assert (Ho' : oracle_ok o (length (concat b'))) by (rewrite E2, skipn_length; exact Ho).
      specialize (IH b' (advance_head _ _ E1) Ho'). cbn [fst snd]. destruct IH as (I1 & I2 & I3).
      split; [|split; [exact I2|]].
      * destruct I1 as (s & I1). exists s. rewrite <- app_assoc, <- I1, E2. symmetry. apply firstn_skipn.
      * intros D. rewrite I3 by exact D. rewrite E2. apply firstn_skipn.
    + apply IH; [right; eauto|exact Ho].
    + cbn. repeat split; try discriminate. eexists; reflexivity.
Qed.
Lemma write_all_ok oracle bufs : oracle_ok oracle (length (concat bufs)) ->
  let r := write_all_vectored oracle bufs in
  prefix (fst (fst r)) (concat bufs) /\ snd (fst r) <> WPanic /\
  (snd (fst r) = WDone -> fst (fst r) = concat bufs).
Proof.
  intros Ho. unfold write_all_vectored. destruct (@advance_ok bufs 0) as (b' & E1 & E2); [lia|]. rewrite E1.
  cbn [skipn] in E2. rewrite <- E2 in Ho |- *. apply write_loop_ok; [eapply advance_head; exact E1|exact Ho].
Qed.
Lemma prefix_app {A} (p l r : list A) : prefix p l -> prefix p (l ++ r).
Proof. intros (s & ->). exists (s ++ r). rewrite app_assoc. reflexivity. Qed.
Lemma prefix_app_l {A} (h p l : list A) : prefix p l -> prefix (h ++ p) (h ++ l).
Proof. intros (s & ->). exists s. rewrite app_assoc. reflexivity. Qed.

(** [writer_ok msgs oracle flushes]: the stream keeps its contract during the whole loop *)
Fixpoint writer_ok (msgs : list wmsg) (oracle : list wres) (flushes : list bool) : Prop :=
  match msgs with
  | [] => True
  | MFrame p :: msgs => oracle_ok oracle (8 + length p) /\ writer_ok msgs (snd (write_frame oracle p)) flushes
  | MFlush _ :: msgs => writer_ok msgs oracle (tl flushes)
  end.
Lemma write_frame_ok oracle p : oracle_ok oracle (8 + length p) ->
  let r := write_frame oracle p in
  prefix (fst (fst r)) (be64 (N.of_nat (length p)) ++ p) /\ snd (fst r) <> WPanic /\
  (snd (fst r) = WDone -> fst (fst r) = be64 (N.of_nat (length p)) ++ p).
Proof.
  intros Ho. unfold write_frame.
  pose proof (@write_all_ok oracle [be64 (N.of_nat (length p)); p]) as H.
  cbn [concat] in H. rewrite app_nil_r in H. apply H. rewrite app_length, be64_len. exact Ho.
Qed.
Lemma writer_loop_ok msgs : forall oracle flushes, writer_ok msgs oracle flushes ->
  let r := writer_loop msgs oracle flushes in
  prefix (written (fst r)) (frames (payloads msgs)) /\ snd r <> WPanic /\
  (snd r = WDone -> written (fst r) = frames (payloads msgs)) /\
  (forall t1 t2 ack, fst r = t1 ++ EAck ack true :: t2 ->
     exists m1 m2, msgs = m1 ++ MFlush ack :: m2 /\ written t1 = frames (payloads m1)).
Proof.
  induction msgs as [|m msgs IH]; intros oracle flushes Hw.
  - cbn. repeat split; try discriminate; [exists []; reflexivity|]. intros [|? ?] ? ?; discriminate.
  - destruct m as [p|ack]; cbn [writer_loop writer_ok payloads] in *.
    + destruct Hw as (Ho & Hw). destruct (@write_frame_ok oracle p Ho) as (A & B & C).
      assert (X : forall st, st <> WDone -> st <> WPanic ->
        let r := ([EBytes (fst (fst (write_frame oracle p)))], st) in
        prefix (written (fst r)) (frames (p :: payloads msgs)) /\ snd r <> WPanic /\
        (snd r = WDone -> written (fst r) = frames (p :: payloads msgs)) /\
        (forall t1 t2 ack, fst r = t1 ++ EAck ack true :: t2 ->
           exists m1 m2, MFrame p :: msgs = m1 ++ MFlush ack :: m2 /\ written t1 = frames (payloads m1))).
      { intros st S1 S2. cbn [fst snd written]. rewrite app_nil_r. split; [apply prefix_app; exact A|].
        split; [exact S2|]. split; [intros; congruence|]. intros [|? [|? ?]] ? ? D; discriminate. }
      destruct (snd (fst (write_frame oracle p))) eqn:E; [clear X|apply X; discriminate|apply X; discriminate|congruence].
      specialize (IH (snd (write_frame oracle p)) flushes Hw).
      destruct (writer_loop msgs _ flushes) as (t & s). cbn [fst snd] in IH |- *. destruct IH as (I1 & I2 & I3 & I4).
      rewrite C by reflexivity. unfold frames in *. cbn [map concat written payloads].
      split; [|split; [|split]].
      * apply prefix_app_l. exact I1.
      * exact I2.
      * intros D. rewrite I3 by exact D. reflexivity.
      * intros [|e t1] t2 ack D; [discriminate|]. injection D as <- D. destruct (I4 t1 t2 ack D) as (m1 & m2 & -> & W).
        exists (MFrame p :: m1), m2. split; [reflexivity|]. cbn [written payloads map concat]. rewrite W. reflexivity.
    + destruct flushes as [|[|] fl].
      * cbn. repeat split; try discriminate; [eexists; reflexivity|intros [|? ?] ? ?; discriminate].
      * specialize (IH oracle fl Hw). destruct (writer_loop msgs oracle fl) as (t & s). cbn [fst snd] in IH |- *.
        destruct IH as (I1 & I2 & I3 & I4). cbn [written payloads]. split; [exact I1|split; [exact I2|split; [exact I3|]]].
        intros [|e t1] t2 a D.
        -- injection D as -> ->. exists [], msgs. auto.
        -- injection D as <- D. destruct (I4 t1 t2 a D) as (m1 & m2 & -> & W).
           exists (MFlush ack :: m1), m2. split; [reflexivity|]. exact W.
      * cbn. repeat split; try discriminate; [eexists; reflexivity|intros [|? [|? ?]] ? ?; discriminate].
Qed.

(** ** Reading *)
Lemma parse_more max buf x : parse max buf <> PNeed ->
  parse max (buf ++ x) = match parse max buf with PFrame f rest => PFrame f (rest ++ x) | p => p end.
Proof.
  unfold parse. rewrite app_length. destruct (8 <=? length buf) eqn:E; [|congruence]. apply Nat.leb_le in E.
  assert (E' : (8 <=? length buf + length x) = true) by (apply Nat.leb_le; lia). rewrite E'.
  rewrite firstn_app. replace (8 - length buf) with 0 by lia. rewrite firstn_O, app_nil_r.
  destruct (max <? of_be (firstn 8 buf))%N; [reflexivity|].
  destruct (2 ^ 64 <=? 8 + of_be (firstn 8 buf))%N; [reflexivity|].
  destruct (8 + of_be (firstn 8 buf) <=? N.of_nat (length buf))%N eqn:E2; [|congruence]. apply N.leb_le in E2.
  assert (E3 : (8 + of_be (firstn 8 buf) <=? N.of_nat (length buf + length x))%N = true) by (apply N.leb_le; lia). rewrite E3.
  intros _. rewrite skipn_app. replace (8 - length buf) with 0 by lia. cbn [skipn].
  assert (L : N.to_nat (of_be (firstn 8 buf)) <= length (skipn 8 buf)) by (rewrite skipn_length; lia).
  f_equal.
  - rewrite firstn_app. replace (_ - length (skipn 8 buf)) with 0 by lia. rewrite firstn_O, app_nil_r. reflexivity.
  - rewrite skipn_app. replace (_ - length (skipn 8 buf)) with 0 by lia. reflexivity.
Qed.
Lemma parse_short max buf f rest : parse max buf = PFrame f rest -> length rest + 8 <= length buf.
Proof.
  unfold parse. destruct (8 <=? length buf) eqn:E; [|discriminate]. apply Nat.leb_le in E.
  destruct (max <? _)%N; [discriminate|]. destruct (2 ^ 64 <=? _)%N; [discriminate|]. destruct (_ <=? N.of_nat _)%N; [|discriminate].
  intros H. assert (R : rest = skipn (N.to_nat (of_be (firstn 8 buf))) (skipn 8 buf)) by congruence. rewrite R, !skipn_length. lia.
Qed.
Lemma parse_frame max f rest : (N.of_nat (length f) <= max)%N -> (8 + N.of_nat (length f) < 2 ^ 64)%N ->
  parse max ((be64 (N.of_nat (length f)) ++ f) ++ rest) = PFrame f rest.
Proof.
  intros H1 H2. unfold parse. rewrite <- app_assoc, app_length, be64_len.
  assert (E : (8 <=? 8 + length (f ++ rest)) = true) by (apply Nat.leb_le; lia). rewrite E.
  replace (firstn 8 (be64 (N.of_nat (length f)) ++ f ++ rest)) with (be64 (N.of_nat (length f))).
  2: { rewrite firstn_app, be64_len, Nat.sub_diag, firstn_O, app_nil_r. symmetry. apply firstn_all2. rewrite be64_len. lia. }
  rewrite of_be_be64 by lia.
  assert (E1 : (max <? N.of_nat (length f))%N = false) by (apply N.ltb_ge; exact H1). rewrite E1.
  assert (E2 : (2 ^ 64 <=? 8 + N.of_nat (length f))%N = false) by (apply N.leb_gt; exact H2). rewrite E2.
  assert (E3 : (8 + N.of_nat (length f) <=? N.of_nat (8 + length (f ++ rest)))%N = true)
    by (apply N.leb_le; rewrite app_length; lia). rewrite E3.
  rewrite Nat2N.id. rewrite skipn_app, be64_len, Nat.sub_diag, (skipn_all2 (be64 _)) by (rewrite be64_len; lia).
  cbn [app skipn]. f_equal.
  - rewrite firstn_app, Nat.sub_diag, firstn_O, app_nil_r. apply firstn_all.
  - rewrite skipn_app, Nat.sub_diag, skipn_all. reflexivity.
Qed.
Lemma parse_nil max : parse max [] = PNeed.
Proof. reflexivity. Qed.
(** a proper prefix of a frame is not a frame yet, and a valid header is not rejected *)
Lemma parse_partial max f k : (N.of_nat (length f) <= max)%N -> (8 + N.of_nat (length f) < 2 ^ 64)%N -> k < 8 + length f ->
  parse max (firstn k (be64 (N.of_nat (length f)) ++ f)) = PNeed.
Proof.
  intros H1 H2 Hk. set (w := be64 (N.of_nat (length f)) ++ f).
  assert (Lw : length w = 8 + length f) by (unfold w; rewrite app_length, be64_len; reflexivity).
  destruct (parse max (firstn k w)) eqn:E; [| | |reflexivity]; exfalso.
  all: pose proof (@parse_more max (firstn k w) (skipn k w)) as M; rewrite E in M;
    specialize (M ltac:(discriminate)); rewrite firstn_skipn in M;
    pose proof (@parse_frame max f [] H1 H2) as P; rewrite app_nil_r in P; fold w in P; rewrite P in M; try discriminate.
  assert (R : rest ++ skipn k w = []) by congruence. apply app_eq_nil in R. destruct R as (_ & R).
  apply (f_equal (@length _)) in R. rewrite skipn_length, Lw in R. cbn [length] in R. lia.
Qed.

(** *** Chunking does not matter *)
(** the decoder on a whole byte string *)
Fixpoint decode (fuel : nat) (max : N) (buf : list byte) : list ritem * option (list byte) :=
  match fuel with
  | O => ([], Some buf)
  | S fuel =>
      match parse max buf with
      | PTooLong _ => ([RError too_long_err], None)
      | PPanic => ([RError (Panic "attempt to add with overflow")], None)
      | PFrame f rest => let q := decode fuel max rest in (RFrame f :: fst q, snd q)
      | PNeed => ([], Some buf)
      end
  end.
Definition nonempty (cs : list (list byte)) : Prop := Forall (fun c => c <> []) cs.
Lemma next_frame_chunks max cs tail : nonempty cs -> forall buf,
  match parse max (buf ++ concat cs) with
  | PNeed => next_frame max (data_reads cs ++ tail) buf = next_frame max tail (buf ++ concat cs)
  | PFrame f rest => exists buf' cs', next_frame max (data_reads cs ++ tail) buf = (Some (RFrame f), buf', data_reads cs' ++ tail) /\
                                      nonempty cs' /\ buf' ++ concat cs' = rest
  | PTooLong _ => fst (fst (next_frame max (data_reads cs ++ tail) buf)) = Some (RError too_long_err)
  | PPanic => fst (fst (next_frame max (data_reads cs ++ tail) buf)) = Some (RError (Panic "attempt to add with overflow"))
  end.
Proof.
  induction 1 as [|c cs Hc Hcs IH]; intros buf.
  - cbn [concat data_reads map app]. rewrite app_nil_r.
    destruct (parse max buf) eqn:E; try reflexivity; destruct tail; cbn [next_frame]; rewrite E; try reflexivity;
      (exists rest, []; cbn; rewrite app_nil_r; repeat split; constructor).
  - cbn [concat data_reads map app]. specialize (IH (buf ++ c)). rewrite <- app_assoc in IH.
    destruct (parse max buf) eqn:E.
    all: try (rewrite parse_more by (rewrite E; discriminate); rewrite E; cbn [next_frame]; rewrite E; reflexivity).
    + rewrite parse_more by (rewrite E; discriminate). rewrite E. cbn [next_frame]. rewrite E.
      exists rest, (c :: cs). repeat split. constructor; assumption.
    + cbn [next_frame]. rewrite E. destruct c as [|b c]; [congruence|]. exact IH.
Qed.
Lemma reader_chunks max tail : forall fuel cs buf, nonempty cs -> length (buf ++ concat cs) < fuel ->
  reader_loop fuel max (data_reads cs ++ tail) buf =
  let d := decode fuel max (buf ++ concat cs) in
  match snd d with
  | None => (fst d, false)
  | Some rest => let q := reader_loop (fuel - length (fst d)) max tail rest in (fst d ++ fst q, snd q)
  end.
Proof.
  induction fuel as [|fuel IH]; intros cs buf Hcs Hf; [lia|].
  pose proof (@next_frame_chunks max cs tail Hcs buf) as NF.
  cbn [decode]. destruct (parse max (buf ++ concat cs)) eqn:E.
  - cbn [reader_loop fst snd]. rewrite NF. reflexivity.
  - cbn [reader_loop fst snd]. rewrite NF. reflexivity.
  - destruct NF as (buf' & cs' & NF & Hcs' & Er). cbn [reader_loop]. rewrite NF. cbn [fst snd].
    apply parse_short in E. rewrite IH; [|exact Hcs'|rewrite Er; lia]. rewrite Er.
    destruct (decode fuel max rest) as (d & [r|]); cbn [fst snd].
    + cbn [length]. replace (S fuel - S (length d)) with (fuel - length d) by lia. reflexivity.
    + reflexivity.
  - cbn [fst snd length app]. rewrite Nat.sub_0_r. destruct (reader_loop (S fuel) max tail (buf ++ concat cs)) eqn:R.
    cbn [fst snd]. rewrite <- R. cbn [reader_loop]. rewrite NF. reflexivity.
Qed.
Lemma total_data cs tail : total_read (data_reads cs ++ tail) = length (concat cs) + total_read tail.
Proof. induction cs as [|c cs IH]; cbn; [reflexivity|]. unfold data_reads in IH. rewrite IH, app_length. lia. Qed.
(** more fuel changes nothing *)
Lemma decode_len fuel max : forall buf, length (fst (decode fuel max buf)) <= S (length buf / 8).
Proof.
  induction fuel as [|fuel IH]; intros buf; cbn [decode fst length]; [lia|].
  destruct (parse max buf) eqn:E; cbn [fst length]; try lia.
  apply parse_short in E. specialize (IH rest).
  assert (length rest / 8 + 1 <= length buf / 8); [|lia].
  replace (length rest / 8 + 1) with ((length rest + 1 * 8) / 8) by (rewrite Nat.div_add; lia).
  apply Nat.div_le_mono; lia.
Qed.
Lemma decode_fuel max : forall fuel buf, length buf < fuel -> forall fuel', fuel <= fuel' -> decode fuel' max buf = decode fuel max buf.
Proof.
  induction fuel as [|fuel IH]; intros buf H fuel' Hle; [lia|]. destruct fuel' as [|fuel']; [lia|].
  cbn [decode]. destruct (parse max buf) eqn:E; try reflexivity.
  apply parse_short in E. rewrite (IH rest) with (fuel' := fuel') by lia. reflexivity.
Qed.
Lemma frames_len fs : length (frames fs) = wire_len fs.
Proof.
  unfold frames. induction fs as [|f fs IH]; [reflexivity|]. cbn [map concat wire_len]. rewrite !app_length, be64_len, IH. lia.
Qed.
Definition fits (max : N) (f : list byte) : Prop := (N.of_nat (length f) <= max)%N /\ (8 + N.of_nat (length f) < 2 ^ 64)%N.
Lemma decode_frames max fs rest : Forall (fits max) fs -> forall fuel, length fs <= fuel ->
  decode fuel max (frames fs ++ rest) =
  let q := decode (fuel - length fs) max rest in (map RFrame fs ++ fst q, snd q).
Proof.
  induction 1 as [|f fs (H1 & H2) Hfs IH]; intros fuel Hf.
  - cbn. rewrite Nat.sub_0_r. destruct (decode fuel max rest); reflexivity.
  - destruct fuel as [|fuel]; [cbn in Hf; lia|]. cbn [length] in *. cbn [decode].
    unfold frames in *. cbn [map concat]. rewrite <- app_assoc. rewrite parse_frame by assumption.
    rewrite IH by lia. reflexivity.
Qed.
Lemma wire_len_ge fs : 8 * length fs <= wire_len fs.
Proof. induction fs; cbn [wire_len length]; lia. Qed.

(** the first [k] bytes of some frames: complete frames and a residue that is no frame *)
Lemma prefix_frames max fs : Forall (fits max) fs -> forall k m, complete fs k m -> k <= wire_len fs ->
  exists rest, firstn k (frames fs) = frames (firstn m fs) ++ rest /\ parse max rest = PNeed.
Proof.
  induction 1 as [|f fs (H1 & H2) Hfs IH]; intros k m (C1 & C2 & C3) Hk.
  - cbn in C1. assert (m = 0) by lia. subst. exists []. rewrite firstn_nil. auto.
  - unfold frames. cbn [map concat]. rewrite firstn_app.
    set (w := be64 (N.of_nat (length f)) ++ f). assert (Lw : length w = 8 + length f) by (unfold w; rewrite app_length, be64_len; reflexivity).
    destruct m as [|m].
    + exists (firstn k w). cbn [firstn map concat app]. destruct C3 as [C3|C3]; [cbn in C3; discriminate|].
      cbn [firstn wire_len] in C3. replace (k - length w) with 0 by lia. rewrite firstn_O, app_nil_r. split; [reflexivity|].
      apply parse_partial; [assumption|assumption|lia].
    + cbn [firstn wire_len length] in C1, C2, C3, Hk. rewrite (firstn_all2 w) by lia.
      destruct (IH (k - length w) m) as (rest & E & P).
      * split; [lia|]. split; [lia|]. destruct C3 as [C3|C3]; [left; lia|right]. cbn [firstn wire_len] in C3 |- *. lia.
      * lia.
      * exists rest. split; [|exact P]. unfold frames in E. rewrite E. cbn [firstn map concat].
        fold w. rewrite <- app_assoc. reflexivity.
Qed.
Lemma complete_exists fs k : exists m, complete fs k m.
Proof.
  revert k; induction fs as [|f fs IH]; intros k.
  - exists 0. cbv. auto with arith.
  - destruct (le_lt_dec (8 + length f) k) as [H|H].
    + destruct (IH (k - (8 + length f))) as (m & C1 & C2 & C3). exists (S m). unfold complete. cbn [length firstn wire_len].
      split; [lia|]. split; [lia|]. destruct C3 as [C3|C3]; [left; lia|right]. cbn [firstn wire_len] in C3. lia.
    + exists 0. unfold complete. cbn [length firstn wire_len]. split; [lia|]. split; [lia|]. right. lia.
Qed.
Lemma complete_all fs : complete fs (wire_len fs) (length fs).
Proof. split; [lia|]. rewrite firstn_all. auto. Qed.
(** the end of the stream as the reader sees it *)
Inductive ending := EndOpen | EndClosed | EndError (e : string).
Definition end_reads (e : ending) : list rres := match e with EndOpen => [] | EndClosed => [ROk []] | EndError e => [RErr e] end.
Definition end_items (e : ending) : list ritem :=
  match e with EndOpen => [] | EndClosed => [RError closed_err] | EndError e => [RError (Eyre e)] end.
Definition still_open (e : ending) : bool := match e with EndOpen => true | _ => false end.
Lemma end_total e : total_read (end_reads e) = 0.
Proof. destruct e; reflexivity. Qed.
Lemma reader_end max rest e fuel : parse max rest = PNeed -> 0 < fuel ->
  reader_loop fuel max (end_reads e) rest = (end_items e, still_open e).
Proof. intros P Hf. destruct fuel; [lia|]. destruct e; cbn [end_reads reader_loop next_frame]; rewrite P; reflexivity. Qed.
Lemma reader_truncated max fs k m cs e : Forall (fits max) fs -> complete fs k m -> k <= wire_len fs -> nonempty cs ->
  concat cs = firstn k (frames fs) ->
  reader max (data_reads cs ++ end_reads e) = (map RFrame (firstn m fs) ++ end_items e, still_open e).
Proof.
  intros Hfs Hm Hk Hcs Hc. destruct (@prefix_frames max fs Hfs k m Hm Hk) as (rest & E & P).
  unfold reader. rewrite total_data, end_total, Nat.add_0_r.
  assert (Lb : length (concat cs) = k) by (rewrite Hc, firstn_length, frames_len; lia).
  rewrite reader_chunks with (buf := []); [|exact Hcs|cbn [app]; lia].
  cbn [app]. rewrite Hc, E.
  assert (Lf : wire_len (firstn m fs) <= k) by apply Hm.
  pose proof (wire_len_ge (firstn m fs)) as G.
  assert (Hfs' : Forall (fits max) (firstn m fs)).
  { apply Forall_forall. intros x Hx. rewrite Forall_forall in Hfs. apply Hfs.
    rewrite <- (firstn_skipn m fs). apply in_or_app. left. exact Hx. }
  rewrite <- E, <- Hc, Lb. rewrite Hc, E.
  rewrite decode_frames by (try assumption; lia).
  replace (S k - length (firstn m fs)) with (S (k - length (firstn m fs))) by lia.
  cbn [decode]. rewrite P. cbn [fst snd]. rewrite app_nil_r, map_length.
  rewrite reader_end by (try assumption; lia). reflexivity.
Qed.
Lemma reader_whole max fs cs e : Forall (fits max) fs -> nonempty cs -> concat cs = frames fs ->
  reader max (data_reads cs ++ end_reads e) = (map RFrame fs ++ end_items e, still_open e).
Proof.
  intros Hfs Hcs Hc. rewrite (@reader_truncated max fs (wire_len fs) (length fs) cs e); auto using complete_all.
  - rewrite firstn_all. reflexivity.
  - rewrite Hc, firstn_all2 by (rewrite frames_len; lia). reflexivity.
Qed.
(** a header above the limit: the frames before it, then the error, nothing after it *)
Lemma reader_too_long max fs h rest cs tail : Forall (fits max) fs -> nonempty cs -> length h = 8 -> (max < of_be h)%N ->
  concat cs = frames fs ++ h ++ rest ->
  reader max (data_reads cs ++ tail) = (map RFrame fs ++ [RError too_long_err], false).
Proof.
  intros Hfs Hcs Hh Hm Hc. unfold reader. rewrite total_data.
  rewrite reader_chunks with (buf := []); [|exact Hcs|cbn [app]; lia]. cbn [app]. rewrite Hc.
  assert (L : length (frames fs ++ h ++ rest) = wire_len fs + 8 + length rest) by (rewrite !app_length, frames_len, Hh; lia).
  pose proof (wire_len_ge fs) as G.
  rewrite decode_frames by (try assumption; rewrite L; lia).
  rewrite L. replace (_ - length fs) with (S (wire_len fs + 8 + length rest + total_read tail - length fs)) by lia.
  cbn [decode]. unfold parse. rewrite app_length, Hh.
  assert (E : (8 <=? 8 + length rest) = true) by (apply Nat.leb_le; lia). rewrite E.
  rewrite firstn_app, Hh, Nat.sub_diag, firstn_O, app_nil_r, firstn_all2 by lia.
  apply N.ltb_lt in Hm. rewrite Hm. reflexivity.
Qed.
(** the result is a function of the bytes and of how the stream ends, not of the chunks *)
Lemma reader_chunking max cs1 cs2 e : nonempty cs1 -> nonempty cs2 -> concat cs1 = concat cs2 ->
  reader max (data_reads cs1 ++ end_reads e) = reader max (data_reads cs2 ++ end_reads e).
Proof.
  intros H1 H2 E. unfold reader. rewrite !total_data, <- E.
  rewrite !reader_chunks with (buf := []); try assumption; cbn [app]; rewrite <- ?E; try lia. reflexivity.
Qed.
(** whatever the bytes are: every delivered frame respects the limit and at most one error is
    delivered, as the last item *)
Lemma next_frame_limit max reads : forall buf f b r, next_frame max reads buf = (Some (RFrame f), b, r) -> (N.of_nat (length f) <= max)%N.
Proof.
  assert (P : forall buf f rest, parse max buf = PFrame f rest -> (N.of_nat (length f) <= max)%N).
  { intros buf f rest. unfold parse. destruct (8 <=? length buf); [|discriminate].
    destruct (max <? of_be (firstn 8 buf))%N eqn:E; [discriminate|]. apply N.ltb_ge in E.
    destruct (2 ^ 64 <=? _)%N; [discriminate|]. destruct (_ <=? N.of_nat _)%N; [|discriminate].
    intros H. assert (R : f = firstn (N.to_nat (of_be (firstn 8 buf))) (skipn 8 buf)) by congruence. rewrite R, firstn_length. lia. }
  induction reads as [|x reads IH]; intros buf f b r H; cbn [next_frame] in H; destruct (parse max buf) eqn:E; try discriminate.
  - injection H as <- _ _. eauto.
  - injection H as <- _ _. eauto.
  - destruct x as [[|? ?]|?]; try discriminate. eauto.
Qed.
Lemma reader_limit max reads : forall fuel buf, let r := reader_loop fuel max reads buf in
  exists fs e, fst r = map RFrame fs ++ e /\ Forall (fun f => (N.of_nat (length f) <= max)%N) fs /\
               ((e = [] /\ snd r = true) \/ exists x, e = [RError x] /\ snd r = false).
Proof.
  intros fuel; revert reads; induction fuel as [|fuel IH]; intros reads buf; cbn [reader_loop].
  - exists [], []. cbn. auto.
  - destruct (next_frame max reads buf) as ((it & b) & r) eqn:E. cbn [fst snd].
    destruct it as [[f|x]|].
    + destruct (IH r b) as (fs & e & E1 & E2 & E3). destruct (reader_loop fuel max r b) as (q & s). cbn [fst snd] in *.
      exists (f :: fs), e. rewrite E1. split; [reflexivity|]. split; [|exact E3]. constructor; [|exact E2].
      eapply next_frame_limit. exact E.
    + exists [], [RError x]. cbn. split; [reflexivity|]. split; [constructor|]. right. eauto.
    + exists [], []. cbn. auto.
Qed.
(** the limit also keeps the buffer small: when [next_frame] asks for more data, the buffer holds
    less than one frame of maximal length *)
Fixpoint buf_max (max : N) (reads : list rres) (buf : list byte) : nat :=
  Nat.max (length buf)
  match parse max buf with
  | PNeed => match reads with ROk (b :: bs) :: reads => buf_max max reads (buf ++ (b :: bs)) | _ => 0 end
  | _ => 0
  end.
Lemma parse_need_len max buf : parse max buf = PNeed -> (N.of_nat (length buf) < 8 + max)%N.
Proof.
  unfold parse. destruct (8 <=? length buf) eqn:E.
  - destruct (max <? of_be (firstn 8 buf))%N eqn:E1; [discriminate|]. apply N.ltb_ge in E1.
    destruct (2 ^ 64 <=? _)%N; [discriminate|]. destruct (_ <=? N.of_nat _)%N eqn:E2; [discriminate|]. apply N.leb_gt in E2. lia.
  - apply Nat.leb_gt in E. lia.
Qed.
Lemma buf_max_ok max reads : Forall (fun r => match r with ROk bs => length bs <= read_chunk | _ => True end) reads ->
  forall buf, (N.of_nat (length buf) < 8 + max + N.of_nat read_chunk)%N ->
  (N.of_nat (buf_max max reads buf) < 8 + max + N.of_nat read_chunk)%N.
Proof.
  induction 1 as [|r reads Hr Hrs IH]; intros buf Hb; cbn [buf_max].
  - destruct (parse max buf); lia.
  - destruct (parse max buf) eqn:E; try lia. destruct r as [[|b bs]|]; try lia.
    apply parse_need_len in E. specialize (IH (buf ++ b :: bs)).
    assert (N.of_nat (buf_max max reads (buf ++ b :: bs)) < 8 + max + N.of_nat read_chunk)%N by (apply IH; rewrite app_length; lia). lia.
Qed.

(** ** End to end *)
(** the writer of one party, any splitting of what it wrote, the reader of the other party *)
Lemma end_to_end max msgs oracle flushes cs e : writer_ok msgs oracle flushes -> Forall (fits max) (payloads msgs) ->
  nonempty cs -> concat cs = written (fst (writer_loop msgs oracle flushes)) ->
  exists m, reader max (data_reads cs ++ end_reads e) = (map RFrame (firstn m (payloads msgs)) ++ end_items e, still_open e) /\
            m <= length (payloads msgs) /\
            (snd (writer_loop msgs oracle flushes) = WDone -> m = length (payloads msgs)).
Proof.
  intros Hw Hf Hcs Hc. destruct (@writer_loop_ok msgs oracle flushes Hw) as ((s & P) & _ & D & _).
  set (w := written _) in *. set (fs := payloads msgs) in *.
  destruct (complete_exists fs (length w)) as (m & Hm). exists m.
  assert (Lw : length w <= wire_len fs) by (rewrite <- frames_len, P, app_length; lia).
  split; [|split].
  - apply reader_truncated with (k := length w); try assumption. rewrite Hc. unfold frames in *. rewrite P, firstn_app, Nat.sub_diag, firstn_O, app_nil_r, firstn_all. reflexivity.
  - apply Hm.
  - intros HD. specialize (D HD). destruct Hm as (C1 & C2 & [C3|C3]); [exact C3|].
    rewrite D, frames_len in C3. destruct (le_lt_dec (length fs) m) as [L|L]; [lia|]. exfalso.
    assert (forall l n, wire_len (firstn n l) <= wire_len l).
    { intros l; induction l as [|x l IHl]; intros n; [rewrite firstn_nil; lia|]. destruct n; cbn [firstn wire_len]; [lia|]. specialize (IHl n). lia. }
    specialize (H fs (S m)). lia.
Qed.
