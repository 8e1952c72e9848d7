(** * Shamir protocol: pairs, degree reduction, multiplication, inversion, bridge *)
From Coq Require Import FinFun String List Arith Lia Bool Ring.
From Verif Require Import Proc Alg NNet Rep3 Rep3Proofs ShamirPoly Shamir ShamirAlg ShamirSpec ShamirRng ShamirDeal ShamirWp.
Import ListNotations.
Set Implicit Arguments.
Local Open Scope grp_scope.

Section RedWp.
  Context {M : Type} {F : Type} {FF : Fld F} {Sg : Type} {DF : Draw Sg F} {EF : Enc M (list F)}.
  Notation srng := (srng (F := F) (Sg := Sg)).
  Notation sst := (sst (F := F) (Sg := Sg)).
  Add Ring FringE : (@cring_theory F _).
  Infix "*" := rmul : grp_scope.
  Notation "1" := rone : grp_scope.
  Variables (n t cap : nat).
  Hypothesis n2 : 2 <= n.
  Hypothesis nt : (2 * t + 1 <= n)%nat.
  Hypothesis hcap : cap_ok n t cap.
  Hypothesis inj : forall a b, a <= n -> b <= n -> fnat a = (fnat b : F) -> a = b.
  Let c1 : 1 <= cap. Proof. unfold cap_ok in hcap. lia. Qed.

  (** ** Double sharings *)
  Definition evals (i : nat) (pq : list F * list F) : F * F := (peval_at i (fst pq), peval_at i (snd pq)).
  Lemma rev_last {A} (l : list A) x : rev (l ++ [x]) = x :: rev l.
  Proof. rewrite rev_app_distr. reflexivity. Qed.
  Lemma sm_wf_with gen L (st : nat -> sst) gen' L' (r : nat -> srng) :
    sm_wf n t gen L st -> 0 < gen' -> rng_wf n t L' r -> sm_wf n t gen' L' (fun i => ss_with (st i) (r i) gen').
  Proof.
    intros [W1 W2 W3 W4 W5 W6 W7 W8 W9 W10] Hg Hr. split; cbn [ss_with ss_id ss_n ss_t ss_open_t ss_open_2t ss_mul_2t ss_zeros ss_gen ss_rng]; auto.
  Qed.
  Lemma rng_wf_pairs L (r : nat -> srng) L' : rng_wf n t L r -> Forall (dpair t) L' ->
    rng_wf n t L' (fun i => sr_with_pairs (r i) (map (fun pq => peval_at i (fst pq)) L') (map (fun pq => peval_at i (snd pq)) L')).
  Proof.
    intros [W1 W2 W3 W4 W5 W6 W7 W8 W9 W10 W11] HL. split; cbn [sr_with_pairs sr_id sr_t sr_n sr_pre_t sr_pre_2t sr_shared sr_matrix sr_rt sr_r2t]; auto.
  Qed.
  Lemma sm_wf_ext gen L (st st' : nat -> sst) : (forall i, i < n -> st i = st' i) -> sm_wf n t gen L st' -> sm_wf n t gen L st.
  Proof.
    intros E [W1 W2 W3 W4 W5 W6 W7 W8 W9 [R1 R2 R3 R4 R5 R6 R7 R8 R9 R10 R11]].
    split; try (intros i Hi; rewrite E by exact Hi; auto; fail); [exact W9|].
    split; try (intros i Hi; rewrite E by exact Hi; auto; fail); [|exact R9].
    intros i j Hi Hj Hne. rewrite !E by assumption. auto.
  Qed.
  (** one pair: the last of the list, after refilling an empty list *)
  Inductive took : nat -> list (list F * list F) -> list F * list F -> nat -> list (list F * list F) -> Prop :=
  | took_last gen L pq : took gen (L ++ [pq]) pq gen L
  | took_fresh gen L pq : length (L ++ [pq]) = (gen * S t)%nat -> took gen [] pq (2 * gen) L.
  Lemma pop_wp gen L pq (st : nat -> sst) : sm_wf n t gen (L ++ [pq]) st ->
    wpn n cap (fun i => or_panic (M := M) "called `Option::unwrap()` on a `None` value" (pop_pair (st i) (ss_gen (st i)))) (fun o =>
      (forall i, i < n -> fst (o i) = evals i pq) /\ sm_wf n t gen L (fun i => snd (o i))).
  Proof.
    intros W. pose proof (sw_rng W) as R.
    set (r' := fun i => sr_with_pairs (ss_rng (st i)) (map (fun pq => peval_at i (fst pq)) L) (map (fun pq => peval_at i (snd pq)) L)).
    apply wpn_ret_ext with (a := fun i => (evals i pq, ss_with (st i) (r' i) gen)).
    - intros i Hi. unfold pop_pair. rewrite (rw_rt R), (rw_r2t R) by exact Hi. rewrite !map_app. cbn [map]. rewrite !rev_last.
      cbn [or_panic]. rewrite !rev_involutive, (sw_gen W) by exact Hi. reflexivity.
    - cbn [fst snd]. split; [reflexivity|]. eapply sm_wf_with; [exact W|exact (sw_gen_pos W)|].
      apply (rng_wf_pairs R). pose proof (rw_good R) as G. apply Forall_app in G. apply G.
  Qed.
  Lemma list_last {A} (l : list A) : l = [] \/ exists k x, l = k ++ [x].
  Proof. destruct l as [|a l] using rev_ind; [left; reflexivity|]. right. exists l, a. reflexivity. Qed.
  Lemma get_pair_wp gen L (st : nat -> sst) : sm_wf n t gen L st ->
    wpn n cap (fun i => get_pair (M := M) (st i)) (fun o => exists pq gen' L', took gen L pq gen' L' /\ dpair t pq /\
      (forall i, i < n -> fst (o i) = evals i pq) /\ sm_wf n t gen' L' (fun i => snd (o i))).
  Proof.
    intros W. pose proof (sw_rng W) as R. unfold get_pair. apply wpn_bind.
    destruct (list_last L) as [->|(L0 & pq & ->)].
    - apply wpn_ext with (qs := fun i => r <- rng_buffer_triples gen (ss_rng (st i)) ;; Ret (ss_with (st i) r (2 * gen))).
      { intros i Hi. rewrite (rw_rt R) by exact Hi. cbn [map]. rewrite (sw_gen W) by exact Hi. reflexivity. }
      apply wpn_bind. eapply wpn_mono; [|apply (rng_buffer_triples_wp n2 nt hcap inj gen R)].
      intros r' (L' & El & R'). cbn [app] in R'. apply wpn_ret. pose proof (sw_gen_pos W) as Hg.
      destruct (list_last L') as [->|(L0 & pq & ->)]; [cbn [length] in El; nia|].
      assert (W' : sm_wf n t (2 * gen) (L0 ++ [pq]) (fun i => ss_with (st i) (r' i) (2 * gen))) by (eapply sm_wf_with; [exact W|lia|exact R']).
      eapply wpn_mono; [|exact (pop_wp _ _ W')]. intros o (O1 & O2). exists pq, (2 * gen)%nat, L0. split; [apply took_fresh; exact El|].
      split; [|split; assumption]. pose proof (rw_good R') as G. apply Forall_app in G. destruct G as [_ G]. inversion G; assumption.
    - apply wpn_ret_ext with (a := st).
      { intros i Hi. rewrite (rw_rt R) by exact Hi. rewrite map_app. cbn [map]. destruct (map _ L0); reflexivity. }
      eapply wpn_mono; [|exact (pop_wp _ _ W)]. intros o (O1 & O2). exists pq, gen, L0. split; [apply took_last|].
      split; [|split; assumption]. pose proof (rw_good R) as G. apply Forall_app in G. destruct G as [_ G]. inversion G; assumption.
  Qed.
  Inductive took_many : nat -> list (list F * list F) -> list (list F * list F) -> nat -> list (list F * list F) -> Prop :=
  | tm_nil gen L : took_many gen L [] gen L
  | tm_cons gen L pq gen1 L1 pqs gen2 L2 : took gen L pq gen1 L1 -> took_many gen1 L1 pqs gen2 L2 -> took_many gen L (pq :: pqs) gen2 L2.
  Lemma get_pairs_wp k : forall gen L (st : nat -> sst), sm_wf n t gen L st ->
    wpn n cap (fun i => get_pairs (M := M) k (st i)) (fun o => exists pqs gen' L', took_many gen L pqs gen' L' /\ length pqs = k /\
      Forall (dpair t) pqs /\ (forall i, i < n -> fst (o i) = map (evals i) pqs) /\ sm_wf n t gen' L' (fun i => snd (o i))).
  Proof.
    induction k as [|k IH]; intros gen L st W; cbn [get_pairs].
    - apply wpn_ret. exists [], gen, L. split; [constructor|]. split; [reflexivity|]. split; [constructor|]. split; [reflexivity|exact W].
    - apply wpn_bind. eapply wpn_mono; [|apply (get_pair_wp W)]. intros o (pq & gen1 & L1 & T & D & E & W1).
      apply wpn_bind. eapply wpn_mono; [|apply (IH _ _ _ W1)]. intros o2 (pqs & gen2 & L2 & T2 & El & D2 & E2 & W2).
      apply wpn_ret. cbn [fst snd]. exists (pq :: pqs), gen2, L2. split; [eapply tm_cons; eassumption|].
      split; [cbn; congruence|]. split; [constructor; assumption|]. split; [|exact W2].
      intros i Hi. cbn [map]. rewrite E, E2 by exact Hi. reflexivity.
  Qed.
  (** without refill: the last pairs, in reverse order *)
  Lemma took_many_buffered gen L pqs gen' L' : took_many gen L pqs gen' L' -> length pqs <= length L -> L = L' ++ rev pqs /\ gen' = gen.
  Proof.
    induction 1 as [gen L|gen L pq gen1 L1 pqs gen2 L2 T TM IH]; intros Hl.
    - cbn [rev]. rewrite app_nil_r. auto.
    - inversion T as [g l p E1 E2 E3 E4 E5|g l p E0 E1 E2 E3 E4 E5]; subst.
      + rewrite app_length in Hl. cbn [length] in Hl. destruct IH as [-> ->]; [lia|]. cbn [rev]. rewrite app_assoc. auto.
      + cbn [length] in Hl. lia.
  Qed.
  Lemma sm_buffer_triples_wp num gen L (st : nat -> sst) : sm_wf n t gen L st ->
    wpn n cap (fun i => sm_buffer_triples (M := M) num (st i)) (fun st' => exists L', num <= length (L ++ L') /\
      (num <= length L -> L' = []) /\ sm_wf n t gen (L ++ L') st').
  Proof.
    intros W. pose proof (sw_rng W) as R. unfold sm_buffer_triples.
    assert (Hm : forall i, i < n -> size_per_batch (ss_rng (st i)) = S t) by (intros i Hi; unfold size_per_batch; rewrite (rw_matrix R) by exact Hi; apply length_vander).
    destruct (Nat.leb_spec num (length L)) as [Hl|Hl].
    - apply wpn_ret_ext with (a := st).
      + intros i Hi. rewrite (rw_rt R) by exact Hi. rewrite map_length. rewrite (proj2 (Nat.leb_le _ _) Hl). reflexivity.
      + exists []. rewrite app_nil_r. auto.
    - apply wpn_ext with (qs := fun i => r <- rng_buffer_triples (div_ceil (num - length L) (S t)) (ss_rng (st i)) ;; Ret (ss_with (st i) r gen)).
      { intros i Hi. rewrite (rw_rt R), Hm by exact Hi. rewrite map_length. rewrite (proj2 (Nat.leb_gt _ _) Hl), (sw_gen W) by exact Hi. reflexivity. }
      apply wpn_bind. eapply wpn_mono; [|apply (rng_buffer_triples_wp n2 nt hcap inj _ R)].
      intros r' (L' & El & R'). apply wpn_ret. exists L'. split; [|split].
      + rewrite app_length, El. unfold div_ceil.
        pose proof (Nat.div_mod (num - length L + S t - 1) (S t) ltac:(lia)) as DM.
        pose proof (Nat.mod_upper_bound (num - length L + S t - 1) (S t) ltac:(lia)) as UB.
        set (q := ((num - length L + S t - 1) / S t)%nat) in *. nia.
      + intros. lia.
      + eapply sm_wf_with; [exact W|exact (sw_gen_pos W)|exact R'].
  Qed.
  Lemma sm_rand_wp gen L (st : nat -> sst) : sm_wf n t gen L st ->
    wpn n cap (fun i => sm_rand (M := M) (st i)) (fun o => exists pq gen' L', took gen L pq gen' L' /\
      sharing n t (fun i => fst (o i)) (peval (fst pq) 0) /\ sm_wf n t gen' L' (fun i => snd (o i))).
  Proof.
    intros W. unfold sm_rand. apply wpn_bind. eapply wpn_mono; [|apply (get_pair_wp W)].
    intros o (pq & gen1 & L1 & T & D & E & W1). apply wpn_ret. cbn [fst snd]. exists pq, gen1, L1. split; [exact T|]. split; [|exact W1].
    eapply sharing_ext; [|apply (sharing_poly n (d := t) (fst pq)); apply D]. intros i Hi. cbn. rewrite E by exact Hi. reflexivity.
  Qed.
  Section Fork.
    Context {Seed : Type} {SDS : Seeded Sg Seed} {DS : Draw Sg Seed}.
    Lemma get_rng_map (f : Sg -> Sg) (r : srng) j : sr_id r < n -> length (sr_shared r) = (n - 1)%nat -> j < n -> j <> sr_id r ->
      get_rng (sr_with r (f (sr_rng r)) (map f (sr_shared r))) j = f (get_rng r j).
    Proof.
      intros Hi Hl Hj Hne. unfold get_rng, sr_with. cbn [sr_id sr_rng sr_shared].
      destruct (Nat.ltb_spec j (sr_id r)); [|destruct (Nat.ltb_spec (sr_id r) j); [|lia]]; apply map_nth.
    Qed.
    Lemma rng_wf_map (f : Sg -> Sg) L (r : nat -> srng) L' : rng_wf n t L r -> Forall (dpair t) L' ->
      rng_wf n t L' (fun i => sr_with_pairs (sr_with (r i) (f (sr_rng (r i))) (map f (sr_shared (r i))))
        (map (fun pq => peval_at i (fst pq)) L') (map (fun pq => peval_at i (snd pq)) L')).
    Proof.
      intros [W1 W2 W3 W4 W5 W6 W7 W8 W9 W10 W11] HL.
      split; cbn [sr_with_pairs sr_with sr_id sr_t sr_n sr_pre_t sr_pre_2t sr_shared sr_matrix sr_rt sr_r2t]; auto.
      - intros i Hi. rewrite map_length. auto.
      - intros i j Hi Hj Hne.
        change (get_rng (sr_with (r i) (f (sr_rng (r i))) (map f (sr_shared (r i)))) j = get_rng (sr_with (r j) (f (sr_rng (r j))) (map f (sr_shared (r j)))) i).
        rewrite !get_rng_map; rewrite ?W1, ?W6; auto. f_equal. auto.
    Qed.
    Lemma sm_fork_ok amount gen L (st : nat -> sst) : sm_wf n t gen L st -> amount <= length L ->
      exists c p, (forall i, i < n -> sm_fork (Seed := Seed) amount (st i) = Done (c i, p i)) /\
        sm_wf n t gen (firstn amount L) c /\ sm_wf n t gen (skipn amount L) p.
    Proof.
      intros W Ha. pose proof (sw_rng W) as R.
      set (mk := fun (f : Sg -> Sg) L' i => sr_with_pairs (sr_with (ss_rng (st i)) (f (sr_rng (ss_rng (st i)))) (map f (sr_shared (ss_rng (st i)))))
        (map (fun pq => peval_at i (fst pq)) L') (map (fun pq => peval_at i (snd pq)) L')).
      exists (fun i => ss_with (st i) (mk (reseed (Seed := Seed)) (firstn amount L) i) gen), (fun i => ss_with (st i) (mk (advance (Seed := Seed)) (skipn amount L) i) gen).
      split; [|split].
      - intros i Hi. unfold sm_fork, fork_with_pairs, mk. rewrite (rw_rt R), (rw_r2t R) by exact Hi. rewrite !map_length.
        rewrite (proj2 (Nat.ltb_ge _ _) Ha). rewrite !firstn_map, !skipn_map, (sw_gen W) by exact Hi. reflexivity.
      - eapply sm_wf_with; [exact W|exact (sw_gen_pos W)|]. apply rng_wf_map with (L := L); [exact R|].
        pose proof (rw_good R) as G. rewrite <- (firstn_skipn amount L) in G. apply Forall_app in G. apply G.
      - eapply sm_wf_with; [exact W|exact (sw_gen_pos W)|]. apply rng_wf_map with (L := L); [exact R|].
        pose proof (rw_good R) as G. rewrite <- (firstn_skipn amount L) in G. apply Forall_app in G. apply G.
    Qed.
    Lemma sm_fork_fail amount gen L (st : nat -> sst) : sm_wf n t gen L st -> length L < amount ->
      forall i, i < n -> sm_fork (Seed := Seed) amount (st i) = Failed (Panic "not enough corr rand pairs").
    Proof.
      intros W Ha i Hi. pose proof (sw_rng W) as R. unfold sm_fork, fork_with_pairs. rewrite (rw_rt R) by exact Hi. rewrite map_length.
      rewrite (proj2 (Nat.ltb_lt _ _) Ha). reflexivity.
    Qed.
  End Fork.

  (** ** The king's round *)
  Section Reduce.
    Context {G : Type} {AG : AbGrp G} {MD : Mod F G} {EG : Enc M (list G)}.
    Lemma recvs_recv_len len j (x : list G) : length x = len -> recvs [(j, enc x)] (recv_len (M := M) len j) (Ret x).
    Proof.
      intros E. unfold recv_len, n_recv_many.
      assert (H : recvs [(j, enc x)] (bind (n_recv (M := M) j) (fun r : list G => if (length r =? len)%nat then Ret r else Fail (Eyre "Invalid number of elements received")))
        (bind (Ret x) (fun r : list G => if (length r =? len)%nat then Ret r else Fail (Eyre "Invalid number of elements received"))))
        by (apply recvs_bind, recvs_n_recv).
      cbn [bind] in H. rewrite E, Nat.eqb_refl in H. exact H.
    Qed.
    Definition kacc (lag : list F) (inp : nat -> list G) (other : nat) (acc : list G) : list G :=
      fold_left (fun acc m => map2 (fun a x => a + smul (nth m lag 0) x) acc (inp (other + m)%nat)) (seq 0 (length lag)) acc.
    Lemma recvs_king_acc len (inp : nat -> list G) own lag : forall other acc, 0 < other -> (forall j, other <= j < other + length lag -> length (inp j) = len) ->
      recvs (map (fun j => (j, enc (inp j))) (seq other (length lag))) (king_acc (M := M) len other lag own acc) (Ret (kacc lag inp other acc)).
    Proof.
      induction lag as [|l lag IH]; intros other acc Ho Hl; [constructor|]. cbn [length seq map king_acc].
      change ((other, enc (inp other)) :: map (fun j => (j, enc (inp j))) (seq (S other) (length lag)))
        with ([(other, enc (inp other))] ++ map (fun j => (j, enc (inp j))) (seq (S other) (length lag))).
      unfold KING_ID. destruct (Nat.eqb_spec other 0) as [->|_]; [lia|].
      eapply recvs_app; [apply recvs_bind, recvs_recv_len; apply Hl; cbn; lia|]. cbn [bind].
      assert (E : kacc (l :: lag) inp other acc = kacc lag inp (S other) (map2 (fun a m => a + smul l m) acc (inp other))).
      { unfold kacc. cbn [length seq fold_left nth]. rewrite Nat.add_0_r, <- seq_shift.
        assert (GG : forall ms acc, fold_left (fun (acc : list G) m => map2 (fun a x => a + smul (match m with O => l | S m0 => nth m0 lag 0 end) x) acc (inp (other + m)%nat)) (map S ms) acc
                  = fold_left (fun (acc : list G) m => map2 (fun a x => a + smul (nth m lag 0) x) acc (inp (S other + m)%nat)) ms acc).
        { induction ms as [|m ms IHm]; intros acc0; cbn [map fold_left]; [reflexivity|].
          replace (other + S m)%nat with (S other + m)%nat by lia. apply IHm. }
        apply GG. }
      rewrite E. apply IH; [lia|]. intros j Hj. apply Hl. cbn [length]. lia.
    Qed.
    Lemma kacc_ok lag (inp : nat -> list G) other len : (forall m, m < length lag -> length (inp (other + m)%nat) = len) ->
      forall acc, length acc = len -> length (kacc lag inp other acc) = len /\
        forall k, k < len -> nth k (kacc lag inp other acc) 0 = nth k acc 0 + sumn (length lag) (fun m => smul (nth m lag 0) (nth k (inp (other + m)%nat) 0)).
    Proof.
      unfold kacc. intros Hl acc El. set (m := length lag) in *. clearbody m.
      induction m as [|m IH] in Hl |- *.
      - cbn. split; [exact El|]. intros k _. symmetry. apply gadd_0_r.
      - rewrite seq_S, fold_left_app. cbn [fold_left Nat.add]. destruct IH as [I1 I2]; [intros j Hj; apply Hl; lia|]. split.
        + rewrite length_map2_min; [exact I1|]. rewrite I1, Hl by lia. reflexivity.
        + intros k Hk. rewrite (nth_map2_in _ 0 0) by (rewrite I1, ?Hl; lia). rewrite I2 by exact Hk. cbn [sumn]. rewrite gadd_assoc. reflexivity.
    Qed.
    Variables (gen : nat) (L : list (list F * list F)) (st : nat -> sst).
    Hypothesis W : sm_wf n t gen L st.
    Lemma reduce_core_wp (inp : nat -> list G) xs : sharings n (2 * t) inp xs ->
      wpn n cap (fun i => reduce_core (M := M) (st i) (inp i)) (fun o => sharings n t o xs).
    Proof.
      intros [H1 H2]. set (len := length xs) in *. set (nz := (n - t)%nat).
      destruct (@zero_points_ok F FF (seq (n - t + 1) t)) as (z & Z1 & Z2 & Z3 & Z4).
      { intros j Hj E. apply in_seq in Hj. change (0 : F) with (fnat (F := F) 0) in E. apply inj in E; lia. }
      rewrite seq_length in Z2.
      assert (Ez : forall i, i < n -> ss_zeros (st i) = z).
      { intros i Hi. pose proof (sw_zeros W Hi) as E. rewrite Z1 in E. inversion E. reflexivity. }
      set (vals := fun i => map (fun a => peval (pouter z a) (fnat (S i))) xs).
      assert (Ekv : forall i, i < n -> forall k, king_vals (st i) xs k = vals k).
      { intros i Hi k. unfold king_vals, vals. rewrite Ez by exact Hi. apply map_ext. intros a. rewrite evaluate_poly_ok, peval_with_zeros, peval_pouter.
        replace (k + 1)%nat with (S k) by lia. reflexivity. }
      (* the king obtains the secrets *)
      assert (KL : exists lag, ss_mul_2t (st 0%nat) = lag /\ length lag = S (2 * t) /\
        kacc (tl lag) inp 1 (map2 (fun a m => a + smul (nth 0 lag 0) m) (repeat 0 len) (inp 0%nat)) = xs).
      { assert (P : points (F := F) (seq 1 (2 * t + 1))).
        { apply (points_le inj); [apply seq_NoDup|]. intros a Ha. apply in_seq in Ha. lia. }
        pose proof (lagrange_ok P) as LK. pose proof (sw_mul W (i := O) ltac:(lia)) as E. rewrite LK in E. inversion E as [E'].
        set (lag := map (fun i => peval (lag_poly (F := F) (seq 1 (2 * t + 1)) i) 0) (seq 1 (2 * t + 1))) in *.
        assert (Ll : length lag = S (2 * t)) by (unfold lag; rewrite map_length, seq_length; lia).
        exists lag. split; [reflexivity|]. split; [exact Ll|].
        { assert (L0 : length (map2 (fun a m => a + smul (nth 0 lag 0) m) (repeat 0 len) (inp 0%nat)) = len).
          { rewrite length_map2_min; rewrite repeat_length; [reflexivity|]. rewrite H1 by lia. reflexivity. }
          destruct (@kacc_ok (tl lag) inp 1 len) with (acc := map2 (fun a m => a + smul (nth 0 lag 0) m) (repeat 0 len) (inp 0%nat)) as [K1 K2].
          + intros m Hm. apply H1. destruct lag as [|l lag']; cbn [tl length] in *; lia.
          + exact L0.
          + apply (list_ext 0); [exact K1|]. rewrite K1. intros k Hk. rewrite K2 by exact Hk.
            rewrite (nth_map2_in _ 0 0) by (rewrite repeat_length; first [exact Hk|rewrite H1 by lia; reflexivity]). rewrite nth_repeat, gadd_0.
            destruct (H2 k Hk) as (c & C1 & C2 & C3).
            destruct (@reconstruct_poly F FF G AG MD (seq 1 (2 * t + 1)) lag c P) as (R1 & R2); [rewrite seq_length; lia|exact LK|].
            rewrite <- C2, <- R2. rewrite reconstruct_ok by (rewrite map_length; symmetry; exact R1). rewrite map_length, seq_length.
            replace (2 * t + 1)%nat with (S (2 * t)) by lia. rewrite sumn_first.
            assert (Et : length (tl lag) = (2 * t)%nat) by (destruct lag; cbn [tl length] in *; lia). rewrite Et.
            f_equal; [f_equal; rewrite C3 by lia; reflexivity|]. apply sumn_ext. intros m Hm.
            replace (nth m (tl lag) 0) with (nth (S m) lag 0) by (destruct lag; [destruct m|]; reflexivity). f_equal.
            rewrite C3 by lia. cbn [seq map nth]. rewrite nth_map_seq by lia. reflexivity. } }
      destruct KL as (lag & KL1 & KL2 & KL3).
      set (d1 := fun i => if (i =? 0)%nat then [] else if (i <=? 2 * t)%nat then [0%nat] else []).
      set (s1 := fun i => if (i =? 0)%nat then seq 1 (2 * t) else []).
      set (d2 := fun i => if (i =? 0)%nat then seq 1 (nz - 1) else []).
      set (s2 := fun i => if (i =? 0)%nat then [] else if (i <? nz)%nat then [0%nat] else []).
      set (b1 := box n d1 (fun a _ => enc (inp a))). set (b2 := box n d2 (fun _ b => enc (vals b))).
      apply wpn_ext with (qs := fun i =>
        _ <- send_list (map (fun d => (d, enc (inp i))) (d1 i)) (Ret tt) ;;
        acc <- (if (i =? 0)%nat then king_acc len 0 (ss_mul_2t (st i)) (inp i) (repeat 0 len) else Ret []) ;;
        my <- (if (i =? 0)%nat then king_deal (st i) nz acc else Ret []) ;;
        (if (i =? 0)%nat then Ret my else if (i <? nz)%nat then recv_len len KING_ID else Ret (repeat 0 len))).
      { intros i Hi. unfold reduce_core, KING_ID. rewrite (sw_id W), (sw_n W), (sw_t W), H1 by exact Hi. fold len nz. unfold d1.
        destruct (Nat.eqb_spec i 0) as [->|Hne]; [reflexivity|]. replace (t * 2)%nat with (2 * t)%nat by lia.
        destruct (i <=? 2 * t)%nat; reflexivity. }
      unfold wpn. eapply wpq_bind.
      eapply wpq_q with (q1 := q0) (q1' := fun a b => q0 a b ++ b1 a b); [intros ? ?; reflexivity|intros ? ?; reflexivity|].
      apply wpq_send_box with (m := fun a b => enc (inp a)) (v := fun _ => tt).
      { intros a _. unfold d1. destruct (a =? 0)%nat; [constructor|]. destruct (a <=? 2 * t)%nat; [|constructor]. constructor; [intros []|constructor]. }
      { intros a b _ _. cbn. lia. }
      { intros a b _. cbn. lia. }
      eapply wpq_bind. eapply wpq_q with (q1 := fun a b => b1 a b ++ q0 a b) (q1' := q0);
        [intros a b; apply app_nil_r|intros ? ?; reflexivity|].
      apply wpq_recv_box with (srcs := s1) (r := fun i => if (i =? 0)%nat then xs else []).
      { intros b _. unfold s1. destruct (b =? 0)%nat; [apply seq_NoDup|constructor]. }
      { intros a b _ Hb. unfold d1 in Hb. destruct (a =? 0)%nat; [destruct Hb|]. destruct (a <=? 2 * t)%nat; [|destruct Hb]. destruct Hb as [<-|[]]. lia. }
      { intros a b _ Hb. unfold s1 in Hb. destruct (b =? 0)%nat; [|destruct Hb]. apply in_seq in Hb. lia. }
      { intros a b Ha Hb. unfold d1, s1. destruct (Nat.eqb_spec a 0) as [->|Ha0]; destruct (Nat.eqb_spec b 0) as [->|Hb0].
        - rewrite in_seq. split; [intros []|intros; lia].
        - split; intros [].
        - rewrite in_seq. destruct (Nat.leb_spec a (2 * t)); split; intros Hx.
          + lia.
          + left. reflexivity.
          + destruct Hx.
          + lia.
        - destruct (a <=? 2 * t)%nat; (split; [|intros []]); [intros [E|[]]; lia|intros []]. }
      { intros i Hi. unfold s1. destruct (Nat.eqb_spec i 0) as [->|Hne]; [|constructor]. rewrite KL1.
        destruct lag as [|l lag']; [cbn in KL2; lia|]. cbn [king_acc KING_ID Nat.eqb bind]. cbn [length] in KL2.
        cbn [tl nth] in KL3. rewrite <- KL3. assert (El : length lag' = (2 * t)%nat) by lia. rewrite <- El.
        apply recvs_king_acc; [lia|]. intros j Hj. apply H1. lia. }
      cbv beta. eapply wpq_bind.
      eapply wpq_ext with (qs := fun i => send_list (map (fun d => (d, enc (vals d))) (d2 i)) (Ret (if (i =? 0)%nat then vals 0%nat else []))).
      { intros i Hi. unfold d2. destruct (Nat.eqb_spec i 0) as [->|Hne]; [|reflexivity]. unfold king_deal. rewrite (sw_id W) by exact Hi.
        rewrite (proj2 (Nat.ltb_lt 0 nz)) by (unfold nz; lia). rewrite Ekv by exact Hi. f_equal.
        assert (Ef : filter (fun id => negb (id =? 0)%nat) (seq 0 nz) = seq 1 (nz - 1)).
        { unfold nz. destruct (n - t)%nat as [|m] eqn:Em; [lia|]. cbn [seq filter Nat.eqb negb]. replace (S m - 1)%nat with m by lia.
          assert (GG : forall a m, 0 < a -> filter (fun id => negb (id =? 0)%nat) (seq a m) = seq a m).
          { clear. intros a m. revert a. induction m as [|m IH]; intros a Ha; [reflexivity|]. cbn [seq filter].
            destruct (Nat.eqb_spec a 0); [lia|]. cbn [negb]. rewrite IH by lia. reflexivity. }
          apply GG. lia. }
        rewrite Ef. apply map_ext. intros a. rewrite Ekv by exact Hi. reflexivity. }
      eapply wpq_q with (q1 := q0) (q1' := fun a b => q0 a b ++ b2 a b); [intros ? ?; reflexivity|intros ? ?; reflexivity|].
      apply wpq_send_box with (m := fun a b => enc (vals b)) (v := fun i => if (i =? 0)%nat then vals 0%nat else []).
      { intros a _. unfold d2. destruct (a =? 0)%nat; [apply seq_NoDup|constructor]. }
      { intros a b _ _. cbn. lia. }
      { intros a b _. cbn. lia. }
      cbv beta. eapply wpq_q with (q1 := fun a b => b2 a b ++ q0 a b) (q1' := q0);
        [intros a b; apply app_nil_r|intros ? ?; reflexivity|].
      apply wpq_recv_box with (srcs := s2) (r := vals).
      { intros b _. unfold s2. destruct (b =? 0)%nat; [constructor|]. destruct (b <? nz)%nat; [|constructor]. constructor; [intros []|constructor]. }
      { intros a b _ Hb. unfold d2, nz in Hb. destruct (a =? 0)%nat; [|destruct Hb]. apply in_seq in Hb. lia. }
      { intros a b _ Hb. unfold s2 in Hb. destruct (b =? 0)%nat; [destruct Hb|]. destruct (b <? nz)%nat; [|destruct Hb]. destruct Hb as [<-|[]]. lia. }
      { intros a b Ha Hb. unfold d2, s2. destruct (Nat.eqb_spec a 0) as [->|Ha0]; destruct (Nat.eqb_spec b 0) as [->|Hb0].
        - rewrite in_seq. split; [intros; lia|intros []].
        - rewrite in_seq. destruct (Nat.ltb_spec b nz); split; intros Hx.
          + left. reflexivity.
          + lia.
          + lia.
          + destruct Hx.
        - split; intros [].
        - split; [intros []|]. destruct (b <? nz)%nat; [|intros []]. intros [E|[]]. lia. }
      { intros i Hi. unfold s2. destruct (Nat.eqb_spec i 0) as [->|Hne]; [constructor|]. destruct (Nat.ltb_spec i nz) as [Hz|Hz].
        - cbn [map]. apply recvs_recv_len. unfold vals. rewrite map_length. reflexivity.
        - cbn [map]. replace (vals i) with (repeat (0 : G) len); [constructor|]. symmetry. apply (list_ext 0).
          + unfold vals. rewrite map_length, repeat_length. reflexivity.
          + intros k Hk. unfold vals in *. rewrite map_length in Hk. rewrite (nth_map_in _ _ 0) by exact Hk. rewrite nth_repeat, peval_pouter, Z4.
            * apply smul_0_l.
            * apply in_seq. unfold nz in Hz. lia. }
      split; [intros i Hi; unfold vals; rewrite map_length; reflexivity|]. intros k Hk.
      exists (pouter z (nth k xs 0)). split; [unfold pouter; rewrite map_length; lia|]. split.
      - rewrite peval_pouter, Z3. apply smul_1.
      - intros i Hi. unfold vals. rewrite (nth_map_in _ _ 0) by exact Hk. reflexivity.
    Qed.
  End Reduce.
End RedWp.
