(** * Oblivious shuffling and radix sort: correctness under every schedule *)
From Coq Require Import Permutation String List Arith NArith Lia Bool Ring.
From Verif Require Import Proc Alg Rep3Net Rep3 Rep3Spec Rep3Proofs Rep3Wp Uint Binary BinaryWp Conv ConvWp CmpWp Ring2k Ring2kWp LutWp Shamir ShamirAlg Poseidon2 Merkle MerkleMem SortRank Sort.
From Verif Require Import Rep3Net Rep3 Rep3Spec Rep3Proofs.
Import ListNotations.
Set Implicit Arguments.
Local Open Scope grp_scope.
Arguments perm_len [n p] _. Arguments perm_nodup [n p] _. Arguments perm_compose [n p q] _ _. Arguments perm_inverse [n p] _.
Arguments tab_nth {X n} f {k} d _. Arguments perm_of_inj {n} f _ _.

(** ** Lists *)
Lemma map2_at {A B C} (f : A -> B -> C) l m k da db dc : (k < length l)%nat -> (k < length m)%nat ->
  nth k (map2 f l m) dc = f (nth k l da) (nth k m db).
Proof. intros. apply map2_nth; assumption. Qed.
Lemma pick_ok {G} (d : G) v p : (forall k, In k p -> (k < length v)%nat) -> pick v p = Some (map (fun k => nth k v d) p).
Proof. intros Hk. unfold pick. apply map_opt_some. intros k Hin. apply nth_error_nth'. auto. Qed.
Lemma nth_const {A B} (z : B) (l : list A) k : nth k (map (fun _ => z) l) z = z.
Proof. revert k. induction l; intros [|k]; cbn; auto. Qed.
Lemma scatter_gen {G} (d : G) p : forall out xs, NoDup p -> (forall k, In k p -> (k < length out)%nat) -> length xs = length p ->
  exists r, scatter out p xs = Some r /\ length r = length out /\
    (forall k, (k < length p)%nat -> nth (nth k p O) r d = nth k xs d) /\ (forall j, ~ In j p -> nth j r d = nth j out d).
Proof.
  induction p as [|a p IH]; intros out xs Hn Hk El.
  - exists out. repeat split; auto. cbn. intros k L. lia.
  - destruct xs as [|x xs]; [discriminate|]. inversion Hn; subst. unfold scatter. cbn [List.combine fold_opt fst snd].
    destruct (@set_at_ok _ d out a x (Hk a (or_introl eq_refl))) as (o' & E & L' & Hset). rewrite E. cbn [obind].
    destruct (IH o' xs) as (r & Er & Lr & R1 & R2); [assumption|intros k Hin; rewrite L'; apply Hk; right; exact Hin|cbn in El; lia|].
    exists r. split; [exact Er|]. split; [lia|]. split.
    + intros [|k] L; cbn [nth].
      * rewrite R2 by assumption. rewrite Hset, Nat.eqb_refl. reflexivity.
      * apply R1. cbn in L. lia.
    + intros j Hj. rewrite R2 by (intros Hin; apply Hj; right; exact Hin). rewrite Hset.
      destruct (Nat.eqb_spec j a) as [->|]; [|reflexivity]. exfalso. apply Hj. left. reflexivity.
Qed.
Lemma scatter_ok {G} (d : G) n p out xs : Permutation p (seq 0 n) -> length out = n -> length xs = n ->
  exists r, scatter out p xs = Some r /\ length r = n /\ forall k, (k < n)%nat -> nth (nth k p O) r d = nth k xs d.
Proof.
  intros Hp Lo Lx. destruct (@scatter_gen _ d p out xs) as (r & E & L & R & _).
  - apply (perm_nodup Hp).
  - intros k Hin. apply (Permutation_in _ Hp) in Hin. apply in_seq in Hin. lia.
  - rewrite (perm_len Hp). exact Lx.
  - exists r. split; [exact E|]. split; [lia|]. intros k Lk. apply R. rewrite (perm_len Hp). exact Lk.
Qed.
Lemma perm_in n p : Permutation p (seq 0 n) -> forall k, In k p -> (k < n)%nat.
Proof. intros Hp k Hin. apply (Permutation_in _ Hp), in_seq in Hin. lia. Qed.

Section VecFacts.
  Context {G : Type} `{AbGrp G}.
  Lemma shares_vec_at (s : pid -> list (share G)) xs k : shares_vec s xs -> (k < length xs)%nat ->
    shares (fun i => nth k (s i) zero_share) (nth k xs 0).
  Proof. intros Hs L. destruct (pvec_nth zero_share 0 Hs L) as (a & Ea & Ha). eapply shares_ext; [|exact Ha]. intros i. symmetry. apply Ea. Qed.
  Lemma pvec_of_nth {A B} (d : A) (dx : B) (R : (pid -> A) -> B -> Prop) (l : pid -> list A) xs : (forall i, length (l i) = length xs) ->
    (forall k, (k < length xs)%nat -> R (fun i => nth k (l i) d) (nth k xs dx)) -> pvec R l xs.
  Proof.
    intros L Hk. split; [exact L|]. intros k x E. assert (Lk : (k < length xs)%nat) by (apply nth_error_Some; congruence).
    exists (fun i => nth k (l i) d). split.
    - intros i. apply nth_error_nth'. rewrite L. exact Lk.
    - replace x with (nth k xs dx); [apply Hk; exact Lk|]. apply nth_error_nth. exact E.
  Qed.
  Lemma shares_vec_intro3 (s : pid -> list (share G)) a0 a1 a2 xs :
    s P0 = map2 mkShare a0 a2 -> s P1 = map2 mkShare a1 a0 -> s P2 = map2 mkShare a2 a1 ->
    length a0 = length xs -> length a1 = length xs -> length a2 = length xs ->
    (forall k, (k < length xs)%nat -> nth k a0 0 + nth k a1 0 + nth k a2 0 = nth k xs 0) -> shares_vec s xs.
  Proof.
    intros E0 E1 E2 L0 L1 L2 Hk. apply pvec_of_nth with (d := zero_share) (dx := 0).
    - intros []; rewrite ?E0, ?E1, ?E2, map2_length; lia.
    - intros k Lk. eapply shares_intro; [rewrite E0|rewrite E1|rewrite E2|apply Hk; exact Lk];
        apply map2_nth; lia.
  Qed.
End VecFacts.

Section ShuffleWp.
  Context {G : Type} {AG : AbGrp G} {S M : Type} {DG : Draw S G} {EG : Enc M (list G)} (cap : nat) (cap_pos : (1 <= cap)%nat).
  Implicit Types (st : pid -> rst S) (p : pid -> list nat).
  Notation drw := (draws (S := S) (X := G)).
  Lemma pickw_ok f (v : list G) q al n : Permutation q (seq 0 n) -> length v = n -> length al = n ->
    exists r, pickw f v q al = Some r /\ length r = n /\ forall k, (k < n)%nat -> nth k r 0 = f (nth (nth k q O) v 0) (nth k al 0).
  Proof.
    intros Hq Lv La. unfold pickw. rewrite (@pick_ok _ 0 v q) by (rewrite Lv; apply perm_in; exact Hq). cbn [option_map].
    eexists. split; [reflexivity|]. split.
    - rewrite map2_length, map_length, (perm_len Hq). lia.
    - intros k L. rewrite (@map2_at _ _ _ f _ _ _ 0 0 0) by (rewrite ?map_length, ?(perm_len Hq); lia).
      rewrite (nth_indep _ 0 (nth O v 0)) by (rewrite map_length, (perm_len Hq); exact L).
      rewrite (map_nth (fun k => nth k v 0)). reflexivity.
  Qed.
  Lemma pick_perm (v : list G) q n : Permutation q (seq 0 n) -> length v = n ->
    exists r, pick v q = Some r /\ length r = n /\ forall k, (k < n)%nat -> nth k r 0 = nth (nth k q O) v 0.
  Proof.
    intros Hq Lv. rewrite (@pick_ok _ 0 v q) by (rewrite Lv; apply perm_in; exact Hq).
    eexists. split; [reflexivity|]. split.
    - rewrite map_length, (perm_len Hq). reflexivity.
    - intros k L. rewrite (nth_indep _ 0 (nth O v 0)) by (rewrite map_length, (perm_len Hq); exact L).
      rewrite (map_nth (fun k => nth k v 0)). reflexivity.
  Qed.
  (** the permutation made by the three components: position [k] of the result is the element at [joint p k] *)
  Definition joint p (k : nat) : nat := nth (nth (nth k (p P1) O) (p P2) O) (p P0) O.
  Lemma joint_perm p n : (forall i, Permutation (p i) (seq 0 n)) -> Permutation (map (joint p) (seq 0 n)) (seq 0 n).
  Proof.
    intros Hp. apply perm_of_inj.
    - intros k L. unfold joint. repeat (eapply perm_lt; [apply Hp|]). exact L.
    - intros j k Lj Lk E. unfold joint in E.
      apply (perm_inj (Hp P1)); [exact Lj|exact Lk|]. apply (perm_inj (Hp P2)); [apply (perm_lt (Hp P1) Lj)|apply (perm_lt (Hp P1) Lk)|].
      apply (perm_inj (Hp P0)); [apply (perm_lt (Hp P2)), (perm_lt (Hp P1) Lj)|apply (perm_lt (Hp P2)), (perm_lt (Hp P1) Lk)|]. exact E.
  Qed.
  Lemma joint_lt p n k : (forall i, Permutation (p i) (seq 0 n)) -> (k < n)%nat -> (joint p k < n)%nat.
  Proof. intros Hp L. unfold joint. repeat (eapply perm_lt; [apply Hp|]). exact L. Qed.

  (** the unmasked inputs of the two parties that start *)
  Lemma beta_ok s (xs : list G) : shares_vec s xs ->
    forall k, (k < length xs)%nat ->
      nth k (map (fun x => sa x + sb x) (s P0)) 0 + nth k (map sa (s P1)) 0 = nth k xs 0 /\
      nth k (map (fun x => sa x + sb x) (s P2)) 0 + nth k (map sb (s P1)) 0 = nth k xs 0.
  Proof.
    intros Hs k L. pose proof (shares_vec_at Hs L) as [V A]. unfold additive in A. cbn in A.
    pose proof (V P0) as V0. pose proof (V P1) as V1. pose proof (V P2) as V2. cbn in V0, V1, V2.
    assert (Li : forall i, (k < length (s i))%nat) by (intros i; rewrite (pvec_len i Hs); exact L).
    assert (E : forall i (f : share G -> G), nth k (map f (s i)) 0 = f (nth k (s i) zero_share)).
    { intros i f. rewrite (nth_indep _ 0 (f zero_share)) by (rewrite map_length; apply Li). apply map_nth. }
    rewrite !E, V0, V1, V2. rewrite <- A. split; grp.
  Qed.

  Lemma shuffle_wp n st p s pub (xs : list G) : (forall i, Permutation (p i) (seq 0 n)) -> synced st -> shares_vec s xs ->
    n = (length xs + length pub)%nat ->
    wp cap (fun i => shuffle i (st i) (p i) (p (prev i)) (s i) pub)
      (fun r => shares_vec (fun i => fst (r i)) (map (fun k => nth (joint p k) (xs ++ pub) 0) (seq 0 n)) /\ synced (fun i => snd (r i))).
  Proof.
    intros Hp Hst Hs En.
    pose proof (fun i => pvec_len i Hs) as Ls. pose proof (fun i => perm_len (Hp i)) as Lp.
    set (A1 := drw n (rng1 (st P0))). set (A3 := drw n (rng1 (st P2))).
    assert (LA1 : length (fst A1) = n) by apply draws_length. assert (LA3 : length (fst A3) = n) by apply draws_length.
    set (b1 := map (fun x => sa x + sb x) (s P0) ++ pub). set (b2 := map sa (s P1) ++ map (fun _ => 0) pub).
    assert (Lb1 : length b1 = n) by (unfold b1; rewrite app_length, map_length, Ls; lia).
    assert (Lb2 : length b2 = n) by (unfold b2; rewrite app_length, !map_length, Ls; lia).
    assert (Hb : forall k, (k < n)%nat -> nth k b1 0 + nth k b2 0 = nth k (xs ++ pub) 0).
    { intros k Lk. unfold b1, b2. destruct (Nat.lt_ge_cases k (length xs)) as [L|L].
      - rewrite !app_nth1 by (rewrite ?map_length, ?Ls; exact L). exact (proj1 (beta_ok Hs L)).
      - rewrite !app_nth2 by (rewrite ?map_length, ?Ls; exact L). rewrite !map_length, !Ls.
        rewrite nth_const. grp. }
    destruct (@pickw_ok gsub b1 (p P0) (fst A1) n (Hp P0) Lb1 LA1) as (u1 & Eu1 & Lu1 & Hu1).
    destruct (@pickw_ok gsub u1 (p P2) (fst A3) n (Hp P2) Lu1 LA3) as (u3 & Eu3 & Lu3 & Hu3).
    destruct (@pickw_ok gadd b2 (p P0) (fst A1) n (Hp P0) Lb2 LA1) as (v1 & Ev1 & Lv1 & Hv1).
    destruct (@pick_perm u3 (p P1) n (Hp P1) Lu3) as (w1 & Ew1 & Lw1 & Hw1).
    destruct (@pickw_ok gadd v1 (p P2) (fst A3) n (Hp P2) Lv1 LA3) as (v3 & Ev3 & Lv3 & Hv3).
    destruct (@pick_perm v3 (p P1) n (Hp P1) Lv3) as (w2 & Ew2 & Lw2 & Hw2).
    set (R1 := drw n (snd A1)). set (R3 := drw n (snd A3)).
    assert (LR1 : length (fst R1) = n) by apply draws_length. assert (LR3 : length (fst R3) = n) by apply draws_length.
    set (c1 := map2 gsub w1 (fst R1)). set (c2 := map2 gsub w2 (fst R3)).
    assert (Lc1 : length c1 = n) by (unfold c1; rewrite map2_length; lia).
    assert (Lc2 : length c2 = n) by (unfold c2; rewrite map2_length; lia).
    exists (fun i => match i with
      | P0 => (map2 mkShare (fst R1) (fst R3), set_rand (st P0) (snd R1) (snd R3))
      | P1 => (map2 mkShare (map2 gadd c2 c1) (fst R1), set_rand (st P1) (rng1 (st P1)) (snd R1))
      | P2 => (map2 mkShare (fst R3) (map2 gadd c1 c2), set_rand (st P2) (snd R3) (rng2 (st P2))) end).
    pose proof (sync_rand Hst P0) as S0. pose proof (sync_rand Hst P1) as S1. pose proof (sync_rand Hst P2) as S2. cbn in S0, S1, S2.
    split; [|split].
    - apply runs_comp3. unfold shuffle. cbn [prev].
      rewrite !Lp, !Ls, <- En, S0, S1. fold A1 A3. fold b1 b2. rewrite Eu1, Ev1. cbn [orp bind]. rewrite Eu3. cbn [orp bind].
      fold R1 R3. unfold send_next_many, reshare_many, recv_prev_many, send_and_recv_many, send_many, recv_many. cbn [next prev bind].
      step3 cap_pos. step3 cap_pos. step3 cap_pos. rewrite Ew1. cbn [orp bind]. rewrite Lw1. fold R1 c1.
      step3 cap_pos. step3 cap_pos. rewrite Ev3. cbn [orp bind]. rewrite Ew2. cbn [orp bind]. rewrite Lw2. fold R3 c2.
      repeat step3 cap_pos. apply comp3_ret_eq; reflexivity.
    - apply shares_vec_intro3 with (a0 := fst R1) (a1 := map2 gadd c2 c1) (a2 := fst R3); rewrite ?tab_len; try assumption; cbn [fst]; try reflexivity.
      + f_equal. apply (list_ext 0); rewrite !map2_length; [lia|]. intros k Lk.
        rewrite !(@map2_at _ _ _ gadd _ _ _ 0 0 0) by lia. grp.
      + rewrite map2_length. lia.
      + intros k Lk. rewrite tab_nth by exact Lk. rewrite (@map2_at _ _ _ gadd _ _ _ 0 0 0) by lia. unfold c1, c2.
        rewrite !(@map2_at _ _ _ gsub _ _ _ 0 0 0) by lia.
        pose proof (perm_lt (Hp P1) Lk) as L1. pose proof (perm_lt (Hp P2) L1) as L2. pose proof (perm_lt (Hp P0) L2) as L3.
        rewrite Hw1, Hw2 by exact Lk. rewrite Hu3, Hv3 by exact L1. rewrite Hu1, Hv1 by exact L2. unfold joint. rewrite <- (Hb _ L3). grp.
    - cbn [snd]. destruct Hst as [T1 T2 T3]. constructor; cbn; [|exact T2|exact T3]. intros []; cbn; [reflexivity|reflexivity|exact S2].
  Qed.

  Lemma shuffle_reveal_wp n st p s (xs : list G) : (forall i, Permutation (p i) (seq 0 n)) -> synced st -> shares_vec s xs -> n = length xs ->
    wp cap (fun i => shuffle_reveal i (st i) (p i) (p (prev i)) (s i))
      (fun r => (forall i, fst (r i) = map (fun k => nth (joint p k) xs 0) (seq 0 n)) /\ synced (fun i => snd (r i))).
  Proof.
    intros Hp Hst Hs En.
    pose proof (fun i => pvec_len i Hs) as Ls. pose proof (fun i => perm_len (Hp i)) as Lp. rewrite <- En in Ls.
    set (A1 := drw n (rng1 (st P0))).
    assert (LA1 : length (fst A1) = n) by apply draws_length.
    set (b1 := map (fun x => sa x + sb x) (s P0)). set (b2 := map sa (s P1)).
    assert (Lb1 : length b1 = n) by (unfold b1; rewrite map_length, Ls; lia).
    assert (Lb2 : length b2 = n) by (unfold b2; rewrite map_length, Ls; lia).
    destruct (@pickw_ok gsub b1 (p P0) (fst A1) n (Hp P0) Lb1 LA1) as (u1 & Eu1 & Lu1 & Hu1).
    destruct (@pickw_ok gadd b2 (p P0) (fst A1) n (Hp P0) Lb2 LA1) as (v1 & Ev1 & Lv1 & Hv1).
    assert (Eidx : pick (p P2) (p P1) = Some (map (fun k => nth k (p P2) O) (p P1))).
    { apply pick_ok. rewrite Lp. apply perm_in. apply Hp. }
    set (idx := map (fun k => nth k (p P2) O) (p P1)) in *.
    assert (Hidx : Permutation idx (seq 0 n)) by (apply perm_compose; apply Hp).
    destruct (@pick_perm v1 idx n Hidx Lv1) as (g & Eg & Lg & Hg).
    destruct (@pick_perm u1 idx n Hidx Lu1) as (d & Ed & Ld & Hd).
    set (res := map2 gadd g d).
    assert (Er : res = map (fun k => nth (joint p k) xs 0) (seq 0 n)).
    { apply (list_ext 0); [unfold res; rewrite map2_length, tab_len; lia|]. unfold res. rewrite map2_length. intros k Lk'.
      assert (Lk : (k < n)%nat) by lia. rewrite (@map2_at _ _ _ gadd _ _ _ 0 0 0) by lia. rewrite tab_nth by exact Lk.
      rewrite Hg, Hd by exact Lk. pose proof (perm_lt Hidx Lk) as L2. rewrite Hv1, Hu1 by exact L2.
      assert (E : nth k idx O = nth (nth k (p P1) O) (p P2) O).
      { unfold idx. rewrite (nth_indep _ O (nth O (p P2) O)) by (rewrite map_length, Lp; exact Lk). rewrite (map_nth (fun k => nth k (p P2) O)). reflexivity. }
      unfold joint. rewrite <- E. pose proof (perm_lt (Hp P0) L2) as L3. rewrite En in L3. rewrite <- (proj1 (beta_ok Hs L3)). unfold b1, b2. grp. }
    exists (fun i => match i with
      | P0 => (res, set_rand (st P0) (snd A1) (rng2 (st P0)))
      | P1 => (res, set_rand (st P1) (rng1 (st P1)) (snd A1))
      | P2 => (res, st P2) end).
    pose proof (sync_rand Hst P0) as S0. pose proof (sync_rand Hst P1) as S1. pose proof (sync_rand Hst P2) as S2. cbn in S0, S1, S2.
    split; [|split].
    - apply runs_comp3. unfold shuffle_reveal. cbn [prev]. rewrite !Ls, S1. fold A1 b1 b2. rewrite Eu1, Ev1. cbn [orp bind].
      unfold send_both_many, send_and_recv_many, send_many, recv_many. cbn [next prev bind].
      step3 cap_pos. step3 cap_pos. step3 cap_pos. step3 cap_pos. rewrite Eidx. cbn [orp bind]. rewrite Eg, Ed. cbn [orp bind].
      fold res. repeat step3 cap_pos. apply comp3_ret_eq; reflexivity.
    - intros []; cbn [fst]; exact Er.
    - cbn [snd]. destruct Hst as [T1 T2 T3]. constructor; cbn; [|exact T2|exact T3]. intros []; cbn; [exact S0|reflexivity|exact S2].
  Qed.

  Lemma unshuffle_wp n st p s (ys : list G) ws : (forall i, Permutation (p i) (seq 0 n)) -> synced st -> shares_vec s ys -> n = length ys ->
    length ws = n -> (forall k, (k < n)%nat -> nth (joint p k) ws 0 = nth k ys 0) ->
    wp cap (fun i => unshuffle i (st i) (p i) (p (prev i)) (s i))
      (fun r => shares_vec (fun i => fst (r i)) ws /\ synced (fun i => snd (r i))).
  Proof.
    intros Hp Hst Hs En Lws Hws.
    pose proof (fun i => pvec_len i Hs) as Ls. pose proof (fun i => perm_len (Hp i)) as Lp. rewrite <- En in Ls.
    set (A2 := drw n (rng1 (st P1))). set (A3 := drw n (rng1 (st P2))).
    assert (LA2 : length (fst A2) = n) by apply draws_length. assert (LA3 : length (fst A3) = n) by apply draws_length.
    set (b1 := map (fun x => sa x + sb x) (s P2)). set (b2 := map sb (s P1)).
    assert (Lb1 : length b1 = n) by (unfold b1; rewrite map_length, Ls; lia).
    assert (Lb2 : length b2 = n) by (unfold b2; rewrite map_length, Ls; lia).
    set (z := repeat (0 : G) n). assert (Lz : length z = n) by apply repeat_length.
    set (x1 := map2 gadd (fst A2) b2). assert (Lx1 : length x1 = n) by (unfold x1; rewrite map2_length; lia).
    destruct (@scatter_ok G 0 n (p P1) z x1 (Hp P1) Lz Lx1) as (u1 & Eu1 & Lu1 & Hu1).
    set (x2 := map2 gsub b1 (fst A2)). assert (Lx2 : length x2 = n) by (unfold x2; rewrite map2_length; lia).
    destruct (@scatter_ok G 0 n (p P1) z x2 (Hp P1) Lz Lx2) as (u2 & Eu2 & Lu2 & Hu2).
    set (x3 := map2 gsub u2 (fst A3)). assert (Lx3 : length x3 = n) by (unfold x3; rewrite map2_length; lia).
    destruct (@scatter_ok G 0 n (p P2) (fst A2) x3 (Hp P2) LA2 Lx3) as (u3 & Eu3 & Lu3 & Hu3).
    set (x4 := map2 gadd u1 (fst A3)). assert (Lx4 : length x4 = n) by (unfold x4; rewrite map2_length; lia).
    destruct (@scatter_ok G 0 n (p P2) z x4 (Hp P2) Lz Lx4) as (u4 & Eu4 & Lu4 & Hu4).
    destruct (@scatter_ok G 0 n (p P0) (fst A3) u4 (Hp P0) LA3 Lu4) as (w0 & Ew0 & Lw0 & Hw0).
    destruct (@scatter_ok G 0 n (p P0) b2 u3 (Hp P0) Lb2 Lu3) as (w1 & Ew1 & Lw1 & Hw1).
    set (R2 := drw n (snd A2)). set (R3 := drw n (snd A3)).
    assert (LR2 : length (fst R2) = n) by apply draws_length. assert (LR3 : length (fst R3) = n) by apply draws_length.
    set (c0 := map2 gsub w0 (fst R3)). set (c1 := map2 gsub w1 (fst R2)).
    assert (Lc0 : length c0 = n) by (unfold c0; rewrite map2_length; lia).
    assert (Lc1 : length c1 = n) by (unfold c1; rewrite map2_length; lia).
    exists (fun i => match i with
      | P0 => (map2 mkShare (map2 gadd c1 c0) (fst R3), set_rand (st P0) (rng1 (st P0)) (snd R3))
      | P1 => (map2 mkShare (fst R2) (map2 gadd c0 c1), set_rand (st P1) (snd R2) (rng2 (st P1)))
      | P2 => (map2 mkShare (fst R3) (fst R2), set_rand (st P2) (snd R3) (snd R2)) end).
    pose proof (sync_rand Hst P0) as S0. pose proof (sync_rand Hst P1) as S1. pose proof (sync_rand Hst P2) as S2. cbn in S0, S1, S2.
    split; [|split].
    - apply runs_comp3. unfold unshuffle. cbn [prev].
      rewrite !Lp, !Ls, S0, S2. fold z A2 A3. fold b1 b2. fold x1 x2. rewrite Eu1, Eu2. cbn [orp bind]. fold x3. rewrite Eu3. cbn [orp bind].
      fold R2 R3. unfold send_and_recv_many, send_many, recv_many. cbn [bind].
      step3 cap_pos. step3 cap_pos. step3 cap_pos. fold x4. rewrite Eu4. cbn [orp bind]. rewrite Ew0. cbn [orp bind]. rewrite Lw0. fold R3 c0.
      step3 cap_pos. step3 cap_pos. rewrite Ew1. cbn [orp bind]. rewrite Lw1. fold R2 c1.
      repeat step3 cap_pos. apply comp3_ret_eq; reflexivity.
    - apply shares_vec_intro3 with (a0 := map2 gadd c1 c0) (a1 := fst R2) (a2 := fst R3); rewrite ?Lws; try assumption; cbn [fst]; try reflexivity.
      + f_equal. apply (list_ext 0); rewrite !map2_length; [lia|]. intros k Lk. rewrite !(@map2_at _ _ _ gadd _ _ _ 0 0 0) by lia. grp.
      + rewrite map2_length. lia.
      + intros j Lj.
        assert (Hj : exists k, (k < n)%nat /\ joint p k = j).
        { pose proof (perm_index (joint_perm _ _ Hp) Lj) as [I1 I2]. rewrite tab_nth in I2 by exact I1. eexists. split; [exact I1|exact I2]. }
        destruct Hj as (k & Lk & <-). rewrite (Hws k Lk).
        rewrite (@map2_at _ _ _ gadd _ _ _ 0 0 0) by lia. unfold c0, c1. rewrite !(@map2_at _ _ _ gsub _ _ _ 0 0 0) by lia.
        pose proof (perm_lt (Hp P1) Lk) as L1. pose proof (perm_lt (Hp P2) L1) as L2.
        unfold joint in *. rewrite Hw0, Hw1 by exact L2. rewrite Hu3, Hu4 by exact L1. unfold x3, x4.
        rewrite (@map2_at _ _ _ gadd _ _ _ 0 0 0), (@map2_at _ _ _ gsub _ _ _ 0 0 0) by lia. rewrite Hu1, Hu2 by exact Lk. unfold x1, x2.
        rewrite (@map2_at _ _ _ gadd _ _ _ 0 0 0), (@map2_at _ _ _ gsub _ _ _ 0 0 0) by lia.
        rewrite En in Lk. rewrite <- (proj2 (beta_ok Hs Lk)). unfold b1, b2. grp.
    - cbn [snd]. destruct Hst as [T1 T2 T3]. constructor; cbn; [|exact T2|exact T3]. intros []; cbn; [reflexivity|exact S1|reflexivity].
  Qed.
End ShuffleWp.
