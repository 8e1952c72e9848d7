(** * Double sharings dealt by all parties: proofs *)
From Coq Require Import FinFun String List Arith Lia Bool Ring.
From Verif Require Import Proc Alg NNet Rep3 Rep3Proofs ShamirPoly Shamir ShamirAlg ShamirSpec ShamirRng.
Import ListNotations.
Set Implicit Arguments.
Local Open Scope grp_scope.

(** ** Receiving *)
Section Recv.
  Context {M : Type}.
  Lemma recvs_n_recv {X} {E : Enc M X} j (x : X) : recvs [(j, enc x)] (n_recv (M := M) (X := X) j) (Ret x).
  Proof. unfold n_recv. constructor. rewrite dec_enc. constructor. Qed.
  Lemma recvs_each {X} {E : Enc M X} (x : nat -> X) js :
    recvs (map (fun j => (j, enc (x j))) js) (n_recv_each (M := M) (X := X) js) (Ret (map x js)).
  Proof.
    induction js as [|j js IH]; cbn [map n_recv_each]; [constructor|].
    change ((j, enc (x j)) :: map (fun j => (j, enc (x j))) js) with ([(j, enc (x j))] ++ map (fun j => (j, enc (x j))) js).
    eapply recvs_app; [apply recvs_bind, recvs_n_recv|]. cbn [bind].
    change (@Ret nat M _ (x j :: map x js)) with (bind (@Ret nat M _ (map x js)) (fun xs => Ret (x j :: xs))).
    apply recvs_bind. exact IH.
  Qed.
  Lemma recvs_n_recv_from {X} {E : Enc M (list X)} j (x : X) : recvs [(j, enc [x])] (n_recv_from (M := M) (X := X) j) (Ret x).
  Proof.
    unfold n_recv_from, n_recv_many.
    change (@Ret nat M _ x) with (bind (@Ret nat M _ [x]) (fun res => match res with [x] => Ret x | _ => Fail (Eyre "Expected 1 element, got more") end)).
    apply recvs_bind, recvs_n_recv.
  Qed.
  Lemma recvs_from_each {X} {E : Enc M (list X)} (x : nat -> X) js :
    recvs (map (fun j => (j, enc [x j])) js) (n_recv_from_each (M := M) (X := X) js) (Ret (map x js)).
  Proof.
    induction js as [|j js IH]; cbn [map n_recv_from_each]; [constructor|].
    change ((j, enc [x j]) :: map (fun j => (j, enc [x j])) js) with ([(j, enc [x j])] ++ map (fun j => (j, enc [x j])) js).
    eapply recvs_app; [apply recvs_bind, recvs_n_recv_from|]. cbn [bind].
    change (@Ret nat M _ (x j :: map x js)) with (bind (@Ret nat M _ (map x js)) (fun xs => Ret (x j :: xs))).
    apply recvs_bind. exact IH.
  Qed.
End Recv.

Section Deal.
  Context {M : Type} {F : Type} {FF : Fld F} {Sg : Type} {DF : Draw Sg F} {EF : Enc M (list F)}.
  Notation srng := (srng (F := F) (Sg := Sg)).
  Add Ring FringD : (@cring_theory F _).
  Infix "*" := rmul : grp_scope.
  Notation "1" := rone : grp_scope.
  Variables (n t cap : nat).
  Hypothesis n2 : 2 <= n.
  Hypothesis nt : (2 * t + 1 <= n)%nat.
  (** capacity: the two dealing rounds are sent before anything is received *)
  Definition cap_ok : Prop := 2 <= cap \/ (1 <= cap /\ n <= S (Nat.max (t + 1) (2 * t))).
  Hypothesis hcap : cap_ok.
  Hypothesis inj : forall a b, a <= n -> b <= n -> fnat a = (fnat b : F) -> a = b.
  Lemma cap1 : 1 <= cap.
  Proof. unfold cap_ok in hcap. lia. Qed.
  Lemma points_le l : NoDup l -> (forall a, In a l -> a <= n) -> points (F := F) l.
  Proof.
    unfold points. induction l as [|a l IH]; intros ND H; cbn [map]; [constructor|]. inversion ND as [|x y N1 N2]; subst. constructor.
    - intros I. apply in_map_iff in I. destruct I as (b & E & Hb). apply N1.
      replace a with b; [exact Hb|]. apply inj; [apply H; right; exact Hb|apply H; left; reflexivity|exact E].
    - apply IH; [exact N2|]. intros b Hb. apply H. right. exact Hb.
  Qed.
  Lemma dims d : d = (t + 1)%nat \/ d = (2 * t)%nat -> S d <= n.
  Proof. intros [->| ->]; lia. Qed.

  Lemma nth_rows amount (cols : list (list F)) k : k < amount -> nth k (rows_of amount cols) [] = map (fun c => nth k c 0) cols.
  Proof. intros H. unfold rows_of. rewrite nth_map_seq by exact H. reflexivity. Qed.

  (** the interpolation points of party [i] *)
  Definition pts (i d : nat) : list nat := map (fun k => (i + k) mod n + 1)%nat (seq 1 d).
  Lemma pts_after i d : pts i d = map Datatypes.S (after_ids n i 1 d).
  Proof. unfold pts, after_ids. rewrite map_map. apply map_ext. intros k. lia. Qed.
  Lemma pts_ok i d : i < n -> S d <= n -> points (F := F) (pts i d).
  Proof.
    intros Hi Hd. rewrite pts_after. apply points_le.
    - apply FinFun.Injective_map_NoDup; [intros a b; lia|]. apply after_nodup; lia.
    - intros a Ha. apply in_map_iff in Ha. destruct Ha as (b & <- & Hb). apply after_lt in Hb; lia.
  Qed.
  Lemma pts0_ok i d : i < n -> S d <= n -> points (F := F) (O :: pts i d).
  Proof.
    intros Hi Hd. rewrite pts_after. apply points_le.
    - constructor; [intros I; apply in_map_iff in I; destruct I as (b & E & _); lia|].
      apply FinFun.Injective_map_NoDup; [intros a b; lia|]. apply after_nodup; lia.
    - intros a [<-|Ha]; [lia|]. apply in_map_iff in Ha. destruct Ha as (b & <- & Hb). apply after_lt in Hb; lia.
  Qed.
  Lemma length_pts i d : length (pts i d) = d.
  Proof. unfold pts. rewrite map_length, seq_length. reflexivity. Qed.

  Section Round.
    Variables (amount : nat) (r : nat -> srng).
    Notation drw := (draws (X := F) amount).
    Hypothesis Hid : forall i, i < n -> sr_id (r i) = i.
    Hypothesis Ht : forall i, i < n -> sr_t (r i) = t.
    Hypothesis Hn : forall i, i < n -> sr_n (r i) = n.
    Hypothesis Hl : forall i, i < n -> length (sr_shared (r i)) = (n - 1)%nat.
    Hypothesis Hag : forall i j, i < n -> j < n -> i <> j -> get_rng (r i) j = get_rng (r j) i.
    Hypothesis Hp1 : forall i, i < n -> precompute_interpolation_polys (pts i (t + 1)) = Some (sr_pre_t (r i)).
    Hypothesis Hp2 : forall i, i < n -> precompute_interpolation_polys (O :: pts i (2 * t)) = Some (sr_pre_2t (r i)).
    Let ph1 i := phase amount (t + 1) (r i).
    Let r1 i := snd (ph1 i).
    Let ph2 i := phase amount (2 * t) (r1 i).
    (** the polynomials dealt by party [i] *)
    Definition polys1 i := map (fun s => interpolate_poly_from_precomputed s (sr_pre_t (r i))) (rows_of amount (snd (fst (ph1 i)))).
    Definition polys2 i := map (fun s => interpolate_poly_from_precomputed s (sr_pre_2t (r i)))
      (rows_of amount (map (fun p => nth 0 p 0) (polys1 i) :: snd (fst (ph2 i)))).
    Let d1 : S (t + 1) <= n. Proof. apply dims; auto. Qed.
    Let d2 : S (2 * t) <= n. Proof. apply dims; auto. Qed.
    Lemma ph1_ok i (Hi : i < n) :
      same_cfg (r i) (r1 i) /\
      snd (fst (ph1 i)) = map (fun p => deal n amount (t + 1) i p (get_rng (r i) p)) (after_ids n i 1 (t + 1)) /\
      length (fst (fst (ph1 i))) = n /\
      (forall p, p < n -> nth p (fst (fst (ph1 i))) [] = if nx n (t + 1) p i then deal n amount (t + 1) p i (get_rng (r i) p) else []) /\
      (forall p, p < n -> p <> i -> get_rng (r1 i) p = gafter n amount (t + 1) i p (get_rng (r i) p)).
    Proof. exact (@phase_ok F Sg DF n amount (t + 1) i (r i) Hi d1 (Hid Hi) (Hn Hi) (Hl Hi)). Qed.
    Lemma r1_agree i j : i < n -> j < n -> i <> j -> get_rng (r1 i) j = get_rng (r1 j) i.
    Proof.
      intros Hi Hj Hne. destruct (ph1_ok Hi) as (_ & _ & _ & _ & A), (ph1_ok Hj) as (_ & _ & _ & _ & B).
      rewrite A, B by auto. rewrite Hag by auto. apply gafter_comm.
    Qed.
    Lemma ph2_ok i (Hi : i < n) :
      same_cfg (r i) (snd (ph2 i)) /\
      snd (fst (ph2 i)) = map (fun p => deal n amount (2 * t) i p (get_rng (r1 i) p)) (after_ids n i 1 (2 * t)) /\
      length (fst (fst (ph2 i))) = n /\
      (forall p, p < n -> nth p (fst (fst (ph2 i))) [] = if nx n (2 * t) p i then deal n amount (2 * t) p i (get_rng (r1 i) p) else []) /\
      (forall p, p < n -> p <> i -> get_rng (snd (ph2 i)) p = gafter n amount (2 * t) i p (get_rng (r1 i) p)).
    Proof.
      destruct (ph1_ok Hi) as (A & _). pose proof A as (A1 & A2 & A3 & A4 & A5 & A6 & A7 & A8 & A9).
      destruct (@phase_ok F Sg DF n amount (2 * t) i (r1 i)) as (B1 & B2 & B3 & B4 & B5); auto; try congruence.
      - rewrite A1. auto.
      - rewrite A3. auto.
      - rewrite A9. auto.
      - split; [exact (same_trans A B1)|]. repeat (split; [assumption|]). exact B5.
    Qed.
    Lemma r2_agree i j : i < n -> j < n -> i <> j -> get_rng (snd (ph2 i)) j = get_rng (snd (ph2 j)) i.
    Proof.
      intros Hi Hj Hne. destruct (ph2_ok Hi) as (_ & _ & _ & _ & A), (ph2_ok Hj) as (_ & _ & _ & _ & B).
      rewrite A, B by auto. rewrite r1_agree by auto. apply gafter_comm.
    Qed.
    Lemma rds_local_eq i (Hi : i < n) : rds_local amount (r i) =
      ((set_nth i (map (fun p => evaluate_poly p (fnat (i + 1))) (polys1 i)) (fst (fst (ph1 i))),
        set_nth i (map (fun p => evaluate_poly p (fnat (i + 1))) (polys2 i)) (fst (fst (ph2 i)))),
       (polys1 i, polys2 i), snd (ph2 i)).
    Proof.
      destruct (ph1_ok Hi) as (A & _). destruct A as (_ & _ & A3 & _).
      unfold polys1, polys2, ph2, ph1, rds_local, phase. cbn [fst snd].
      unfold r1, ph1, phase in A3. cbn [fst snd] in A3. unfold r1, ph1, phase. cbn [fst snd]. rewrite Ht, Hid by exact Hi.
      rewrite A3. reflexivity.
    Qed.
    Lemma length_rows1 i : length (polys1 i) = amount.
    Proof. unfold polys1, rows_of. rewrite !map_length, seq_length. reflexivity. Qed.
    Lemma length_rows2 i : length (polys2 i) = amount.
    Proof. unfold polys2, rows_of. rewrite !map_length, seq_length. reflexivity. Qed.
    Definition P1 j k := nth k (polys1 j) [].
    Definition P2 j k := nth k (polys2 j) [].
    Lemma P1_eq j k : k < amount -> P1 j k = interpolate_poly_from_precomputed (map (fun c => nth k c 0) (snd (fst (ph1 j)))) (sr_pre_t (r j)).
    Proof.
      intros Hk. unfold P1, polys1. rewrite (nth_map_in _ _ []) by (unfold rows_of; rewrite map_length, seq_length; exact Hk).
      rewrite nth_rows by exact Hk. reflexivity.
    Qed.
    Lemma P2_eq j k : k < amount -> P2 j k = interpolate_poly_from_precomputed
      (nth 0 (P1 j k) 0 :: map (fun c => nth k c 0) (snd (fst (ph2 j)))) (sr_pre_2t (r j)).
    Proof.
      intros Hk. unfold P2, polys2. rewrite (nth_map_in _ _ []) by (unfold rows_of; rewrite map_length, seq_length; exact Hk).
      rewrite nth_rows by exact Hk. cbn [map]. f_equal. f_equal.
      rewrite (nth_map_in _ _ []) by (rewrite length_rows1; exact Hk). reflexivity.
    Qed.
    Lemma after_nth i d p : In p (after_ids n i 1 d) -> exists k, k < d /\ nth k (after_ids n i 1 d) O = p.
    Proof.
      intros I. apply (In_nth _ _ O) in I. destruct I as (k & Hk & E). exists k. split; [|exact E].
      unfold after_ids in Hk. rewrite map_length, seq_length in Hk. exact Hk.
    Qed.
    Lemma length_after i d : length (after_ids n i 1 d) = d.
    Proof. unfold after_ids. rewrite map_length, seq_length. reflexivity. Qed.
    Lemma P1_ok j k : j < n -> k < amount -> length (P1 j k) <= S t /\
      forall p, In p (after_ids n j 1 (t + 1)) -> peval (P1 j k) (fnat (S p)) = nth k (deal n amount (t + 1) j p (get_rng (r j) p)) 0.
    Proof.
      intros Hj Hk. rewrite P1_eq by exact Hk. destruct (ph1_ok Hj) as (_ & -> & _).
      destruct (@interpolate_ok F FF (pts j (t + 1)) (sr_pre_t (r j))
        (map (fun c => nth k c 0) (map (fun p => deal n amount (t + 1) j p (get_rng (r j) p)) (after_ids n j 1 (t + 1))))) as (L & V).
      - apply pts_ok; assumption.
      - apply Hp1. exact Hj.
      - rewrite !map_length, length_after, length_pts. reflexivity.
      - rewrite length_pts in L. split; [lia|]. intros p Hp. destruct (@after_nth _ _ _ Hp) as (m & Hm & E).
        specialize (V m). rewrite length_pts in V. specialize (V Hm). rewrite pts_after in V.
        rewrite (nth_map_in Datatypes.S _ O) in V by (rewrite length_after; exact Hm). rewrite E in V. rewrite V.
        rewrite (nth_map_in _ _ []) by (rewrite map_length, length_after; exact Hm).
        rewrite (nth_map_in _ _ O) by (rewrite length_after; exact Hm). rewrite E. reflexivity.
    Qed.
    Lemma P2_ok j k : j < n -> k < amount -> length (P2 j k) <= S (2 * t) /\ peval (P2 j k) 0 = peval (P1 j k) 0 /\
      forall p, In p (after_ids n j 1 (2 * t)) -> peval (P2 j k) (fnat (S p)) = nth k (deal n amount (2 * t) j p (get_rng (r1 j) p)) 0.
    Proof.
      intros Hj Hk. rewrite P2_eq by exact Hk. destruct (ph2_ok Hj) as (_ & -> & _).
      destruct (@interpolate_ok F FF (O :: pts j (2 * t)) (sr_pre_2t (r j))
        (nth 0 (P1 j k) 0 :: map (fun c => nth k c 0) (map (fun p => deal n amount (2 * t) j p (get_rng (r1 j) p)) (after_ids n j 1 (2 * t))))) as (L & V).
      - apply pts0_ok; assumption.
      - apply Hp2. exact Hj.
      - cbn [length]. rewrite !map_length, length_after, length_pts. reflexivity.
      - cbn [length] in L, V. rewrite length_pts in L, V. split; [lia|]. split.
        + rewrite (peval_0 (P1 j k)). apply (V O). lia.
        + intros p Hp. destruct (@after_nth _ _ _ Hp) as (m & Hm & E). specialize (V (Datatypes.S m)). cbn [nth] in V.
          rewrite pts_after in V. rewrite (nth_map_in Datatypes.S _ O) in V by (rewrite length_after; exact Hm). rewrite E in V.
          rewrite V by lia. rewrite (nth_map_in _ _ []) by (rewrite map_length, length_after; exact Hm).
          rewrite (nth_map_in _ _ O) by (rewrite length_after; exact Hm). rewrite E. reflexivity.
    Qed.
    (** the column of evaluations for party [i] of the polynomials of [j] *)
    Definition col (polys : nat -> list (list F)) (j i : nat) : list F := map (fun p => evaluate_poly p (fnat (i + 1))) (polys j).
    Lemma nth_col polys j i k : length (polys j) = amount -> k < amount -> nth k (col polys j i) 0 = peval (nth k (polys j) []) (fnat (S i)).
    Proof.
      intros E Hk. unfold col. rewrite (nth_map_in _ _ []) by (rewrite E; exact Hk). rewrite evaluate_poly_ok.
      replace (i + 1)%nat with (S i) by lia. reflexivity.
    Qed.
    (** what a party holds after the network part of a round *)
    Lemma round_cols d (polys : nat -> list (list F)) (out : list (list F)) i (g : nat -> Sg) :
      i < n -> S d <= n -> length out = n -> (forall j, length (polys j) = amount) ->
      (forall p, p < n -> nth p out [] = if nx n d p i then deal n amount d p i (g p) else []) ->
      (forall j k, j < n -> k < amount -> nx n d j i = true -> peval (nth k (polys j) []) (fnat (S i)) = nth k (deal n amount d j i (g j)) 0) ->
      rows_of amount (set_nths (before_ids n i (S d) (n - S d)) (map (fun j => col polys j i) (before_ids n i (S d) (n - S d)))
                                (set_nth i (col polys i i) out))
      = map (fun k => map (fun j => peval (nth k (polys j) []) (fnat (S i))) (seq 0 n)) (seq 0 amount).
    Proof.
      intros Hi Hd Eo Ep Ho Hv. unfold rows_of. apply map_ext_in. intros k Hk. apply in_seq in Hk.
      apply (list_ext 0).
      - rewrite !map_length, length_set_nths, length_set_nth, seq_length. exact Eo.
      - intros j Hj. rewrite map_length, length_set_nths, length_set_nth, Eo in Hj.
        rewrite (nth_map_in _ _ []) by (rewrite length_set_nths, length_set_nth, Eo; exact Hj).
        rewrite nth_map_seq by exact Hj. cbn [Nat.add].
        rewrite nth_set_nths.
        + rewrite nth_set_nth by lia. destruct (in_dec Nat.eq_dec j (before_ids n i (S d) (n - S d))) as [I|I].
          * apply nth_col; [apply Ep|lia].
          * destruct (Nat.eqb_spec j i) as [->|Hne]; [apply nth_col; [apply Ep|lia]|].
            rewrite Ho by exact Hj. destruct (after_split (n := n) (i := j) (p := i) (d := d)) as [(A & _)|[(A & B & _)|(A & B & C)]]; try assumption.
            -- congruence.
            -- apply nx_in in B. rewrite B. rewrite Hv by (assumption || lia). reflexivity.
            -- exfalso. apply I. apply before_after; try lia. exact C.
        + apply before_nodup; lia.
        + intros p Hp. rewrite length_set_nth, Eo. eapply before_lt; [|exact Hp]. lia.
    Qed.
    Definition dst d (i : nat) : list nat := after_ids n i (S d) (n - S d).
    Definition srcs d (i : nat) : list nat := before_ids n i (S d) (n - S d).
    Lemma sends_eq i seeded polys (ri : srng) : i < n -> sr_id ri = i -> sr_n ri = n -> S seeded <= n ->
      send_share_of_randomness (M := M) ri seeded (polys i) =
      send_list (map (fun d => (d, enc (col polys i d))) (dst seeded i)) (Ret tt).
    Proof.
      intros Hi E1 E2 Hs. unfold send_share_of_randomness. rewrite E1, E2. rewrite (proj2 (Nat.ltb_ge _ _)) by lia.
      f_equal. unfold dst, after_ids. rewrite !map_map.
      replace (seq (S seeded) (n - S seeded)) with (seq (seeded + 1) (n - S seeded)) by (f_equal; lia).
      rewrite map_seq_shift. replace (n - seeded - 1)%nat with (n - S seeded)%nat by lia.
      apply map_ext. intros k. replace (i + (k + seeded))%nat with (i + k + seeded)%nat by lia. reflexivity.
    Qed.
    Lemma recv_eq i seeded (ri : srng) out : i < n -> sr_id ri = i -> sr_n ri = n -> S seeded <= n ->
      receive_share_of_randomness (M := M) ri seeded out =
      (cols <- n_recv_each (srcs seeded i) ;; Ret (set_nths (srcs seeded i) cols out)).
    Proof.
      intros Hi E1 E2 Hs. unfold receive_share_of_randomness. rewrite E1, E2. rewrite (proj2 (Nat.ltb_ge _ _)) by lia.
      assert (E : map (fun i0 => (i + n - seeded - i0) mod n)%nat (seq 1 (n - seeded - 1)) = srcs seeded i).
      { unfold srcs, before_ids.
        replace (seq (S seeded) (n - S seeded)) with (seq (seeded + 1) (n - S seeded)) by (f_equal; lia).
        rewrite map_seq_shift. replace (n - seeded - 1)%nat with (n - S seeded)%nat by lia.
        apply map_ext. intros k. f_equal. lia. }
      rewrite E. reflexivity.
    Qed.
    Lemma dst_lt d a b : In b (dst d a) -> b < n.
    Proof. apply after_lt. lia. Qed.
    Lemma dst_nodup d a : a < n -> S d <= n -> NoDup (dst d a).
    Proof. intros. apply after_nodup; lia. Qed.
    Lemma dst_srcs d a b : a < n -> b < n -> S d <= n -> In b (dst d a) <-> In a (srcs d b).
    Proof. intros. unfold dst, srcs. symmetry. apply before_after; lia. Qed.
    Lemma dst_nil d a : n <= S d -> dst d a = [].
    Proof. intros H. unfold dst, after_ids. replace (n - S d)%nat with O by lia. reflexivity. Qed.
    Lemma recv_wp d (polys : nat -> list (list F)) (out : nat -> list (list F)) (ri : nat -> srng) q' (Q : (nat -> list (list F)) -> Prop) :
      S d <= n -> (forall i, i < n -> sr_id (ri i) = i /\ sr_n (ri i) = n) ->
      Q (fun i => set_nths (srcs d i) (map (fun j => col polys j i) (srcs d i)) (out i)) ->
      wpq n cap (fun a b => box n (dst d) (fun a b => enc (col polys a b)) a b ++ q' a b)
        (fun i => receive_share_of_randomness (M := M) (ri i) d (out i)) q' Q.
    Proof.
      intros Hd Hr HQ. apply wpq_recv_box with (srcs := srcs d) (r := fun i => set_nths (srcs d i) (map (fun j => col polys j i) (srcs d i)) (out i)).
      - intros b Hb. apply before_nodup; lia.
      - intros a b _. apply dst_lt.
      - intros a b _. apply before_lt. lia.
      - intros a b Ha Hb. apply dst_srcs; assumption.
      - intros i Hi. destruct (Hr i Hi) as (E1 & E2). rewrite (@recv_eq i d (ri i) (out i)) by assumption.
        change (@Ret nat M _ (set_nths (srcs d i) (map (fun j => col polys j i) (srcs d i)) (out i)))
          with (bind (@Ret nat M _ (map (fun j => col polys j i) (srcs d i))) (fun cols => Ret (set_nths (srcs d i) cols (out i)))).
        apply recvs_bind. apply (recvs_each (fun j => col polys j i)).
      - exact HQ.
    Qed.
    Lemma rds_wp : wpn n cap (fun i => random_double_share (M := M) amount (r i)) (fun o =>
      (forall i, i < n -> fst (fst (o i)) = map (fun k => map (fun j => peval (P1 j k) (fnat (S i))) (seq 0 n)) (seq 0 amount)) /\
      (forall i, i < n -> snd (fst (o i)) = map (fun k => map (fun j => peval (P2 j k) (fnat (S i))) (seq 0 n)) (seq 0 amount)) /\
      (forall i, i < n -> same_cfg (r i) (snd (o i))) /\
      (forall i j, i < n -> j < n -> i <> j -> get_rng (snd (o i)) j = get_rng (snd (o j)) i)).
    Proof.
      assert (HR : forall i, i < n -> sr_id (snd (ph2 i)) = i /\ sr_n (snd (ph2 i)) = n).
      { intros i Hi. destruct (ph2_ok Hi) as (A & _). destruct A as (A1 & _ & A3 & _). rewrite A1, A3. auto. }
      set (o1 := fun i => set_nth i (col polys1 i i) (fst (fst (ph1 i)))).
      set (o2 := fun i => set_nth i (col polys2 i i) (fst (fst (ph2 i)))).
      apply wpn_ext with (qs := fun i =>
        _ <- send_list (map (fun d => (d, enc (col polys1 i d))) (dst (t + 1) i)) (Ret tt) ;;
        _ <- send_list (map (fun d => (d, enc (col polys2 i d))) (dst (2 * t) i)) (Ret tt) ;;
        rcv_t <- receive_share_of_randomness (M := M) (snd (ph2 i)) (t + 1) (o1 i) ;;
        rcv_2t <- receive_share_of_randomness (M := M) (snd (ph2 i)) (2 * t) (o2 i) ;;
        Ret (rows_of amount rcv_t, rows_of amount rcv_2t, snd (ph2 i))).
      { intros i Hi. unfold random_double_share. rewrite rds_local_eq by exact Hi. cbn [fst snd]. rewrite Ht by exact Hi.
        destruct (HR i Hi) as (E1 & E2).
        rewrite (@sends_eq i (t + 1) polys1 (snd (ph2 i))) by assumption.
        rewrite (@sends_eq i (2 * t) polys2 (snd (ph2 i))) by assumption. reflexivity. }
      set (b1 := box n (dst (t + 1)) (fun a b => enc (col polys1 a b))).
      set (b2 := box n (dst (2 * t)) (fun a b => enc (col polys2 a b))).
      assert (L1 : forall a b, length (b1 a b) <= 1).
      { intros a b. unfold b1, box. destruct (a <? n)%nat; [|cbn; lia]. destruct (in_dec Nat.eq_dec b (dst (t + 1) a)); cbn; lia. }
      unfold wpn. eapply wpq_bind. eapply wpq_q with (q1 := q0) (q1' := b1); [intros ? ?; reflexivity|intros ? ?; reflexivity|].
      eapply wpq_q with (q1 := q0) (q1' := fun a b => q0 a b ++ b1 a b); [intros ? ?; reflexivity|intros ? ?; reflexivity|].
      apply wpq_send_box with (m := fun a b => enc (col polys1 a b)) (v := fun _ => tt).
      { intros a Ha. apply dst_nodup; assumption. }
      { intros a b _ _. unfold q0. cbn. pose proof cap1. lia. }
      { intros a b _. unfold q0. cbn. lia. }
      eapply wpq_bind. apply wpq_send_box with (m := fun a b => enc (col polys2 a b)) (v := fun _ => tt).
      { intros a Ha. apply dst_nodup; assumption. }
      { intros a b Ha Hb. destruct hcap as [Hc|[Hc Hc']]; [specialize (L1 a b); lia|].
        destruct (le_lt_dec n (S (t + 1))) as [C|C].
        - unfold b1, box. rewrite dst_nil by exact C. destruct (a <? n)%nat; cbn; lia.
        - rewrite dst_nil in Hb by lia. contradiction. }
      { intros a b _. specialize (L1 a b). pose proof cap1. lia. }
      eapply wpq_bind. apply recv_wp with (polys := polys1) (q' := b2); [exact d1|exact HR|].
      eapply wpq_bind.
      eapply wpq_q with (q1 := fun a b => b2 a b ++ q0 a b) (q1' := q0); [intros a b; apply app_nil_r|intros ? ?; reflexivity|].
      apply recv_wp with (polys := polys2) (q' := q0); [exact d2|exact HR|].
      apply wpq_ret. cbn [fst snd]. split; [|split; [|split]].
      - intros i Hi. destruct (ph1_ok Hi) as (_ & _ & E3 & E4 & _).
        apply round_cols with (d := (t + 1)%nat) (polys := polys1) (g := fun p => get_rng (r i) p); auto.
        + intros j. apply length_rows1.
        + intros j k Hj Hk Hx. apply nx_in in Hx. destruct (P1_ok Hj Hk) as (_ & V). rewrite Hag.
          * apply V. exact Hx.
          * exact Hi.
          * exact Hj.
          * intros <-. apply nx_in in Hx. rewrite nx_self in Hx by assumption. discriminate.
      - intros i Hi. destruct (ph2_ok Hi) as (_ & _ & E3 & E4 & _).
        apply round_cols with (d := (2 * t)%nat) (polys := polys2) (g := fun p => get_rng (r1 i) p); auto.
        + intros j. apply length_rows2.
        + intros j k Hj Hk Hx. apply nx_in in Hx. destruct (P2_ok Hj Hk) as (_ & _ & V). rewrite r1_agree.
          * apply V. exact Hx.
          * exact Hi.
          * exact Hj.
          * intros <-. apply nx_in in Hx. rewrite nx_self in Hx by assumption. discriminate.
      - intros i Hi. apply (ph2_ok Hi).
      - intros i j. apply r2_agree.
    Qed.
  End Round.

  (** ** Randomness extraction *)
  Lemma matmul_ok mat (f : nat -> F) : (forall row, In row mat -> length row = n) ->
    matmul mat (map f (seq 0 n)) = map (fun row => sumn n (fun j => nth j row 0 * f j)) mat.
  Proof.
    intros H. unfold matmul. apply map_ext_in. intros row Hr. specialize (H row Hr). revert H.
    assert (G : forall (row : list F) f a acc, length row = a -> fold_left (fun res vc => res + fst vc * snd vc) (List.combine (map f (seq 0 a)) row) acc
              = acc + sumn a (fun j => nth j row 0 * f j)).
    { clear. induction row as [|x row IH]; intros f a acc E; subst a; [cbn; ring|].
      cbn [length seq map List.combine fold_left fst snd]. rewrite <- seq_shift, map_map.
      rewrite (IH (fun j => f (Datatypes.S j)) (length row)) by reflexivity. rewrite sumn_first. cbn [nth]. ring. }
    intros E. rewrite (G row f n 0 E). ring.
  Qed.
  Lemma vander_rows row : In row (create_vandermonde_matrix (F := F) n t) -> length row = n.
  Proof.
    unfold create_vandermonde_matrix. intros [<-|I]; [apply repeat_length|]. apply in_map_iff in I. destruct I as (k & <- & _).
    rewrite map_length, seq_length. reflexivity.
  Qed.
  Lemma vander_entry row col : row <= t -> col < n ->
    nth col (nth row (create_vandermonde_matrix (F := F) n t) []) 0 = fpow (fnat (S col)) row.
  Proof.
    intros Hr Hc. unfold create_vandermonde_matrix. destruct row as [|row].
    - cbn [nth]. assert (R : forall k m, m < k -> nth m (repeat (1 : F) k) 0 = 1) by (induction k; intros [|m] Hm; cbn; try lia; auto; apply IHk; lia). exact (R _ _ Hc).
    - cbn [nth]. rewrite (nth_map_in _ _ O) by (rewrite seq_length; lia). rewrite (nth_map_in _ _ O) by (rewrite seq_length; lia).
      rewrite !seq_nth by lia. reflexivity.
  Qed.
  Lemma length_vander : length (create_vandermonde_matrix (F := F) n t) = S t.
  Proof. unfold create_vandermonde_matrix. cbn [length]. rewrite map_length, seq_length. reflexivity. Qed.
  Definition comb (row : list F) (P : nat -> nat -> list F) (k : nat) : list F := psum n (fun j => map (smul (nth j row 0)) (P j k)).
  Lemma peval_comb row P k x : peval (comb row P k) x = sumn n (fun j => nth j row 0 * peval (P j k) x).
  Proof. unfold comb. rewrite peval_psum. apply sumn_ext. intros j _. exact (peval_map_smul (nth j row 0) (P j k) x). Qed.
  Lemma length_comb row P k m : (forall j, j < n -> length (P j k) <= m) -> length (comb row P k) <= m.
  Proof. intros H. apply length_psum. intros j Hj. rewrite map_length. auto. Qed.

  Lemma rng_buffer_triples_wp amount L (r : nat -> srng) : rng_wf n t L r ->
    wpn n cap (fun i => rng_buffer_triples (M := M) amount (r i)) (fun r' =>
      exists L', length L' = (amount * S t)%nat /\ rng_wf n t (L ++ L') r').
  Proof.
    intros [W1 W2 W3 W4 W5 W6 W7 W8 W9 W10 W11]. unfold rng_buffer_triples. apply wpn_bind.
    eapply wpn_mono; [|apply rds_wp; eassumption]. intros o (O1 & O2 & O3 & O4). apply wpn_ret.
    set (mat := create_vandermonde_matrix (F := F) n t).
    set (L' := concat (map (fun k => map (fun row => (comb row (P1 amount r) k, comb row (P2 amount r) k)) mat) (seq 0 amount))).
    exists L'. split.
    - unfold L'. assert (G : forall a m, length (concat (map (fun k => map (fun row => (comb row (P1 amount r) k, comb row (P2 amount r) k)) mat) (seq a m))) = (m * S t)%nat).
      { intros a m. revert a. induction m as [|m IH]; intros a; [reflexivity|]. cbn [seq map concat]. rewrite app_length, map_length, IH.
        unfold mat. rewrite length_vander. lia. }
      apply G.
    - assert (MM : forall i (P : nat -> nat -> list F), concat (map (matmul mat) (map (fun k => map (fun j => peval (P j k) (fnat (S i))) (seq 0 n)) (seq 0 amount)))
        = concat (map (fun k => map (fun row => peval_at i (comb row P k)) mat) (seq 0 amount))).
      { intros i P. rewrite map_map. f_equal. apply map_ext. intros k.
        rewrite (@matmul_ok mat (fun j => peval (P j k) (fnat (S i)))) by apply vander_rows. apply map_ext. intros row.
        unfold peval_at. rewrite peval_comb. reflexivity. }
      split; cbn [sr_with_pairs sr_id sr_t sr_n sr_pre_t sr_pre_2t sr_shared sr_matrix sr_rt sr_r2t].
      + intros i Hi. destruct (O3 i Hi) as (-> & _). auto.
      + intros i Hi. destruct (O3 i Hi) as (_ & -> & _). auto.
      + intros i Hi. destruct (O3 i Hi) as (_ & _ & -> & _). auto.
      + intros i Hi. destruct (O3 i Hi) as (_ & _ & _ & -> & _). auto.
      + intros i Hi. destruct (O3 i Hi) as (_ & _ & _ & _ & -> & _). auto.
      + intros i Hi. destruct (O3 i Hi) as (_ & _ & _ & _ & _ & _ & _ & _ & ->). auto.
      + intros i Hi. destruct (O3 i Hi) as (_ & _ & _ & _ & _ & -> & _). auto.
      + intros i j Hi Hj Hne. specialize (O4 i j Hi Hj Hne). exact O4.
      + apply Forall_app. split; [exact W9|]. apply Forall_forall. intros pq Hpq. unfold L' in Hpq. apply in_concat in Hpq.
        destruct Hpq as (l & Hl & Hpq). apply in_map_iff in Hl. destruct Hl as (k & <- & Hk). apply in_seq in Hk.
        apply in_map_iff in Hpq. destruct Hpq as (row & <- & _). unfold dpair. cbn [fst snd]. repeat split.
        * apply length_comb. intros j Hj. eapply (@P1_ok amount r); eauto; lia.
        * apply length_comb. intros j Hj. eapply (@P2_ok amount r); eauto; lia.
        * rewrite !peval_comb. apply sumn_ext. intros j Hj. f_equal. symmetry. eapply (@P2_ok amount r); eauto; lia.
      + intros i Hi. destruct (O3 i Hi) as (_ & _ & _ & _ & _ & Em & Er & _). rewrite Em, Er, W7, W10, O1 by exact Hi.
        rewrite map_app. f_equal. fold mat. rewrite MM. unfold L'. rewrite concat_map, map_map. f_equal. apply map_ext. intros k.
        rewrite map_map. reflexivity.
      + intros i Hi. destruct (O3 i Hi) as (_ & _ & _ & _ & _ & Em & _ & Er & _). rewrite Em, Er, W7, W11, O2 by exact Hi.
        rewrite map_app. f_equal. fold mat. rewrite MM. unfold L'. rewrite concat_map, map_map. f_equal. apply map_ext. intros k.
        rewrite map_map. reflexivity.
  Qed.
End Deal.
