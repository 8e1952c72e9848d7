(** * Shamir protocol: opening, pairs, degree reduction, arithmetic *)
From Coq Require Import FinFun String List Arith Lia Bool Ring.
From Verif Require Import Proc Alg NNet Rep3 Rep3Proofs ShamirPoly Shamir ShamirAlg ShamirSpec ShamirRng ShamirDeal.
Import ListNotations.
Set Implicit Arguments.
Local Open Scope grp_scope.

Lemma length_map2_min {A B C} (f : A -> B -> C) : forall l m, length l = length m -> length (map2 f l m) = length l.
Proof. induction l as [|a l IH]; intros [|b m] E; cbn in *; try lia. rewrite IH; lia. Qed.
Lemma nth_map2_in {A B C} (f : A -> B -> C) da db dc : forall l m k, length l = length m -> k < length l ->
  nth k (map2 f l m) dc = f (nth k l da) (nth k m db).
Proof.
  induction l as [|a l IH]; intros [|b m] [|k] E Hk; cbn in *; try lia; [reflexivity|]. apply IH; lia.
Qed.

(** ** Algebra of sharings *)
Section SharingAlg.
  Context {F : Type} {FF : Fld F}.
  Add Ring FringS : (@cring_theory F _).
  Infix "*" := rmul : grp_scope.
  Notation "1" := rone : grp_scope.
  Section G.
    Context {G : Type} {AG : AbGrp G} {MD : Mod F G}.
    Variable n : nat.
    Implicit Types (s : nat -> G) (x : G).
    Lemma sharing_ext d s s' x : (forall i, i < n -> s i = s' i) -> sharing n d s' x -> sharing n d s x.
    Proof. intros E (c & H1 & H2 & H3). exists c. split; [exact H1|]. split; [exact H2|]. intros i Hi. rewrite E; auto. Qed.
    Lemma sharing_val d s x y : x = y -> sharing n d s x -> sharing n d s y.
    Proof. intros ->. auto. Qed.
    Lemma sharing_mono d d' s x : d <= d' -> sharing n d s x -> sharing n d' s x.
    Proof. intros H (c & H1 & H2 & H3). exists c. split; [lia|]. split; [exact H2|exact H3]. Qed.
    Lemma sharing_poly d c : length c <= S d -> sharing n d (fun i => peval c (fnat (S i))) (peval (G := G) c 0).
    Proof. intros H. exists c. split; [exact H|]. split; reflexivity. Qed.
    Lemma sharing_const d x : sharing n d (fun _ => x) x.
    Proof. exists [x]. split; [cbn; lia|]. split; [cbn; rewrite smul_0_l; apply gadd_0_r|]. intros i _. cbn. rewrite smul_0_r. symmetry. apply gadd_0_r. Qed.
    Lemma sharing_add d s s' x y : sharing n d s x -> sharing n d s' y -> sharing n d (fun i => s i + s' i) (x + y).
    Proof.
      intros (c & H1 & H2 & H3) (c' & K1 & K2 & K3). exists (padd c c'). split; [rewrite length_padd; lia|].
      split; [rewrite peval_padd; congruence|]. intros i Hi. rewrite peval_padd, H3, K3 by exact Hi. reflexivity.
    Qed.
    Lemma sharing_neg d s x : sharing n d s x -> sharing n d (fun i => - s i) (- x).
    Proof.
      intros (c & H1 & H2 & H3). exists (map gneg c). split; [rewrite map_length; lia|].
      split; [rewrite peval_map_neg; congruence|]. intros i Hi. rewrite peval_map_neg, H3 by exact Hi. reflexivity.
    Qed.
    Lemma sharing_sub d s s' x y : sharing n d s x -> sharing n d s' y -> sharing n d (fun i => s i - s' i) (x - y).
    Proof. intros H K. exact (sharing_add H (sharing_neg K)). Qed.
    Lemma sharing_smul d s x k : sharing n d s x -> sharing n d (fun i => smul k (s i)) (smul k x).
    Proof.
      intros (c & H1 & H2 & H3). exists (map (smul k) c). split; [rewrite map_length; lia|].
      split; [rewrite peval_map_smul; congruence|]. intros i Hi. rewrite peval_map_smul, H3 by exact Hi. reflexivity.
    Qed.
    Lemma sharing_mul a b (u : nat -> F) s v x : sharing n a u v -> sharing n b s x -> sharing n (a + b) (fun i => smul (u i) (s i)) (smul v x).
    Proof.
      intros (c & H1 & H2 & H3) (c' & K1 & K2 & K3). exists (pmul c c'). split; [apply length_pmul; assumption|].
      split; [rewrite peval_pmul; congruence|]. intros i Hi. rewrite peval_pmul, H3, K3 by exact Hi. reflexivity.
    Qed.
    Lemma sharing_outer d (u : nat -> F) v x : sharing n d u v -> sharing n d (fun i => smul (u i) x) (smul v x).
    Proof.
      intros (c & H1 & H2 & H3). exists (pouter c x). split; [unfold pouter; rewrite map_length; exact H1|].
      split; [rewrite peval_pouter; congruence|]. intros i Hi. rewrite peval_pouter, H3 by exact Hi. reflexivity.
    Qed.
    (** the shared value is determined by the shares when there are more parties than the degree *)
    Lemma sharing_unique d s x y : (forall a b, a <= n -> b <= n -> fnat a = (fnat b : F) -> a = b) -> d < n ->
      sharing n d s x -> sharing n d s y -> x = y.
    Proof.
      intros inj Hd (c & H1 & H2 & H3) (c' & K1 & K2 & K3). rewrite <- H2, <- K2.
      apply (@peval_unique F G FF AG MD (map fnat (seq 1 n))).
      - apply (points_le inj); [apply seq_NoDup|]. intros a Ha. apply in_seq in Ha. lia.
      - rewrite map_length, seq_length. lia.
      - rewrite map_length, seq_length. lia.
      - intros a Ha. apply in_map_iff in Ha. destruct Ha as (k & <- & Hk). apply in_seq in Hk. destruct k as [|k]; [lia|].
        rewrite <- H3, <- K3 by lia. reflexivity.
    Qed.
    (** any values are shares of degree [2t] when [n = 2t+1] *)
    Lemma sharing_any d s : (forall a b, a <= n -> b <= n -> fnat a = (fnat b : F) -> a = b) -> n = S d ->
      exists x, sharing n d s x.
    Proof.
      intros inj En. set (cs := seq 1 n). assert (P : points (F := F) cs).
      { apply (points_le inj); [apply seq_NoDup|]. intros a Ha. apply in_seq in Ha. lia. }
      set (c := psum n (fun k => pouter (lag_poly cs (nth k cs O)) (s k))).
      pose proof (lag_basis P) as B.
      assert (Ln : length (map (fnat (F := F)) cs) = n) by (unfold cs; rewrite map_length, seq_length; reflexivity).
      exists (peval c 0), c. split; [|split; [reflexivity|]].
      - apply length_psum. intros k Hk. unfold pouter. rewrite map_length. destruct (B k) as [Q _]; [lia|]. lia.
      - intros i Hi. unfold c. rewrite peval_psum.
        pose proof (@interp_points F G FF AG MD (map fnat cs) _ s i B) as IP. rewrite Ln in IP. specialize (IP Hi).
        rewrite <- IP at 1. apply sumn_ext. intros k Hk. rewrite peval_pouter. f_equal. f_equal.
        rewrite (nth_map_in _ _ O) by (unfold cs; rewrite seq_length; exact Hi). unfold cs. rewrite seq_nth by exact Hi. reflexivity.
    Qed.

    (** vectors *)
    Implicit Types (v : nat -> list G) (xs : list G).
    Lemma sharings_ext d v v' xs : (forall i, i < n -> v i = v' i) -> sharings n d v' xs -> sharings n d v xs.
    Proof.
      intros E [H1 H2]. split; [intros i Hi; rewrite E; auto|]. intros k Hk. eapply sharing_ext; [|exact (H2 k Hk)].
      intros i Hi. cbn. rewrite E; auto.
    Qed.
    Lemma sharings_nil d v : (forall i, i < n -> v i = []) -> sharings n d v [].
    Proof. intros H. split; [intros i Hi; rewrite H; auto|]. intros k Hk. cbn in Hk. lia. Qed.
    Lemma sharings_1 d s x : sharing n d s x <-> sharings n d (fun i => [s i]) [x].
    Proof.
      split.
      - intros H. split; [reflexivity|]. intros [|k] Hk; [exact H|cbn in Hk; lia].
      - intros [_ H]. exact (H O (Nat.lt_0_succ 0)).
    Qed.
    Lemma sharings_map2 {H} {AH : AbGrp H} {MH : Mod F H} {K} {AK : AbGrp K} {MK : Mod F K} d d1 d2 (f : H -> K -> G) (u : nat -> list H) (w : nat -> list K) ys zs :
      (forall (s : nat -> H) (s' : nat -> K) (x : H) (y : K), sharing n d1 s x -> sharing n d2 s' y -> sharing n d (fun i => f (s i) (s' i)) (f x y)) ->
      length ys = length zs -> sharings n d1 u ys -> sharings n d2 w zs -> sharings n d (fun i => map2 f (u i) (w i)) (map2 f ys zs).
    Proof.
      intros Hf E [H1 H2] [K1 K2]. split.
      - intros i Hi. rewrite !length_map2_min; [apply H1; exact Hi|exact E|rewrite H1, K1; assumption].
      - intros k Hk. rewrite length_map2_min in Hk by exact E.
        rewrite (nth_map2_in f 0 0) by assumption.
        eapply sharing_ext; [|apply (Hf _ _ _ _ (H2 k Hk) (K2 k ltac:(rewrite <- E; exact Hk)))].
        intros i Hi. cbn. apply nth_map2_in; [rewrite H1, K1; assumption|rewrite H1; assumption].
    Qed.
    Lemma sharings_map {H} {AH : AbGrp H} {MH : Mod F H} d d1 (f : H -> G) (u : nat -> list H) ys :
      (forall (s : nat -> H) (x : H), sharing n d1 s x -> sharing n d (fun i => f (s i)) (f x)) -> sharings n d1 u ys ->
      sharings n d (fun i => map f (u i)) (map f ys).
    Proof.
      intros Hf [H1 H2]. split; [intros i Hi; rewrite !map_length; auto|]. intros k Hk. rewrite map_length in Hk.
      rewrite (nth_map_in f _ 0) by exact Hk. eapply sharing_ext; [|apply (Hf _ _ (H2 k Hk))].
      intros i Hi. cbn. apply nth_map_in. rewrite H1; assumption.
    Qed.
    (** list of polynomials *)
    Lemma sharings_polys d cs : Forall (fun c => length c <= S d) cs ->
      sharings n d (fun i => map (fun c => peval c (fnat (S i))) cs) (map (fun c => peval (G := G) c 0) cs).
    Proof.
      intros H. split; [intros i Hi; rewrite !map_length; reflexivity|]. intros k Hk. rewrite map_length in Hk.
      rewrite (nth_map_in _ _ []) by exact Hk. eapply sharing_ext; [|apply sharing_poly].
      - intros i Hi. cbn. apply (nth_map_in (fun c => peval c (fnat (S i)))). exact Hk.
      - rewrite Forall_forall in H. apply H, nth_In. exact Hk.
    Qed.
    Lemma sharings_zip f d v v' xs ys :
      (forall s s' x y, sharing n d s x -> sharing n d s' y -> sharing n d (fun i => f (s i) (s' i)) (f x y)) ->
      sharings n d v xs -> sharings n d v' ys -> sharings n d (fun i => sm_zip_assign f (v i) (v' i)) (sm_zip_assign f xs ys).
    Proof.
      intros Hf. assert (L : forall l m : list G, length (sm_zip_assign f l m) = length l).
      { induction l as [|a l IH]; intros [|b m]; cbn; auto. }
      assert (N : forall (l m : list G) k, nth k (sm_zip_assign f l m) 0 =
                 if (k <? length l)%nat && (k <? length m)%nat then f (nth k l 0) (nth k m 0) else nth k l 0).
      { induction l as [|a l IH]; intros [|b m] [|k]; cbn; try reflexivity.
        - rewrite andb_false_r. reflexivity.
        - rewrite IH. reflexivity. }
      intros [H1 H2] [K1 K2]. split; [intros i Hi; rewrite !L; auto|]. intros k Hk. rewrite L in Hk. rewrite N.
      rewrite (proj2 (Nat.ltb_lt _ _) Hk). cbn [andb]. destruct (Nat.ltb_spec k (length ys)) as [Hy|Hy].
      - eapply sharing_ext; [|apply (Hf _ _ _ _ (H2 k Hk) (K2 k Hy))]. intros i Hi. cbn. rewrite N, H1, K1 by exact Hi.
        rewrite (proj2 (Nat.ltb_lt _ _) Hk), (proj2 (Nat.ltb_lt _ _) Hy). reflexivity.
      - eapply sharing_ext; [|exact (H2 k Hk)]. intros i Hi. cbn. rewrite N, H1, K1 by exact Hi.
        rewrite (proj2 (Nat.ltb_ge k _) Hy), andb_false_r. reflexivity.
    Qed.
    Lemma sharing_msm d (u : nat -> list F) us (ps : list G) : sharings n d u us ->
      sharing n d (fun i => sm_msm_public_points ps (u i)) (sm_msm_public_points ps us).
    Proof.
      unfold sm_msm_public_points. enough (H : forall (ps : list G) us u a x, sharing n d a x -> sharings n d u us ->
        sharing n d (fun i => fold_left (fun acc q => acc + smul (snd q) (fst q)) (List.combine ps (u i)) (a i))
          (fold_left (fun acc q => acc + smul (snd q) (fst q)) (List.combine ps us) x)).
      { intros S. apply (H ps us u (fun _ => 0) 0); [apply sharing_const|exact S]. }
      clear. induction ps as [|p ps IH]; intros us u a x Ha [H1 H2]; [exact Ha|].
      destruct us as [|y us].
      - eapply sharing_ext; [|exact Ha]. intros i Hi. specialize (H1 i Hi). destruct (u i); [reflexivity|discriminate].
      - cbn [List.combine fold_left fst snd]. 
        eapply sharing_ext; [|apply (IH us (fun i => tl (u i)) (fun i => a i + smul (nth O (u i) 0) p))].
        + intros i Hi. cbv beta. specialize (H1 i Hi). destruct (u i) as [|z l]; [discriminate|]. reflexivity.
        + apply sharing_add; [exact Ha|]. apply sharing_outer. apply (H2 O). cbn. lia.
        + split.
          * intros i Hi. specialize (H1 i Hi). destruct (u i); cbn in *; lia.
          * intros k Hk. destruct (H2 (Datatypes.S k)) as (c & C1 & C2 & C3); [cbn; lia|]. exists c. split; [exact C1|]. split; [exact C2|].
            intros i Hi. rewrite <- C3 by exact Hi. cbn. destruct (u i); [destruct k; reflexivity|reflexivity].
    Qed.
  End G.
End SharingAlg.

(** ** Broadcast and opening *)
Section OpenWp.
  Context {M : Type} {F : Type} {FF : Fld F} {Sg : Type} {DF : Draw Sg F} {EF : Enc M (list F)}.
  Notation sst := (sst (F := F) (Sg := Sg)).
  Add Ring FringO : (@cring_theory F _).
  Infix "*" := rmul : grp_scope.
  Notation "1" := rone : grp_scope.
  Variables (n t cap : nat).
  Hypothesis n2 : 2 <= n.
  Hypothesis nt : (2 * t + 1 <= n)%nat.
  Hypothesis c1 : 1 <= cap.
  Hypothesis inj : forall a b, a <= n -> b <= n -> fnat a = (fnat b : F) -> a = b.

  Lemma broadcast_next_wp {X} {E : Enc M X} num (x : nat -> X) : 1 <= num <= n ->
    wpn n cap (fun i => broadcast_next (M := M) i n num (x i)) (fun o =>
      forall i, i < n -> o i = map (fun k => x ((i + n - k) mod n)%nat) (seq 0 num)).
  Proof.
    intros Hn. unfold broadcast_next.
    set (ds := fun i => after_ids n i 1 (num - 1)). set (ss := fun i => before_ids n i 1 (num - 1)).
    set (bx := box n ds (fun a _ => enc (x a))).
    apply wpn_ext with (qs := fun i => _ <- send_list (map (fun d => (d, enc (x i))) (ds i)) (Ret tt) ;;
      rcv <- n_recv_each (ss i) ;; Ret (x i :: rcv)).
    { intros i Hi. unfold ds, ss, after_ids, before_ids. rewrite map_map. reflexivity. }
    unfold wpn. eapply wpq_bind.
    eapply wpq_q with (q1 := q0) (q1' := fun a b => q0 a b ++ bx a b); [intros ? ?; reflexivity|intros ? ?; reflexivity|].
    apply wpq_send_box with (m := fun a b => enc (x a)) (v := fun _ => tt).
    { intros a Ha. apply after_nodup; lia. }
    { intros a b _ _. cbn. lia. }
    { intros a b _. cbn. lia. }
    eapply wpq_bind. eapply wpq_q with (q1 := fun a b => bx a b ++ q0 a b) (q1' := q0);
      [intros a b; apply app_nil_r|intros ? ?; reflexivity|].
    apply wpq_recv_box with (srcs := ss) (r := fun i => map x (ss i)).
    { intros b Hb. apply before_nodup; lia. }
    { intros a b _. apply after_lt. lia. }
    { intros a b _. apply before_lt. lia. }
    { intros a b Ha Hb. symmetry. apply before_after; lia. }
    { intros i Hi. apply (recvs_each x). }
    apply wpq_ret. intros i Hi. unfold ss, before_ids. destruct num as [|num]; [lia|]. cbn [seq map].
    replace ((i + n - 0) mod n)%nat with i.
    - rewrite map_map. replace (Datatypes.S num - 1)%nat with num by lia. reflexivity.
    - replace (i + n - 0)%nat with (i + 1 * n)%nat by lia. rewrite Nat.mod_add by lia. symmetry. apply Nat.mod_small. exact Hi.
  Qed.
  Lemma recvs_others {X} {E : Enc M X} (x : nat -> X) i l :
    recvs (map (fun j => (j, enc (x j))) (filter (fun j => negb (j =? i)%nat) l)) (recv_others (M := M) i (x i) l) (Ret (map x l)).
  Proof.
    induction l as [|j l IH]; [constructor|]. cbn [filter recv_others map]. destruct (Nat.eqb_spec j i) as [->|Hne]; cbn [negb].
    - exact (recvs_bind (fun xs => Ret (x i :: xs)) IH).
    - cbn [map]. unfold n_recv. cbn [bind]. constructor. rewrite dec_enc. cbn [bind]. exact (recvs_bind (fun xs => Ret (x j :: xs)) IH).
  Qed.
  Lemma broadcast_wp {X} {E : Enc M X} (x : nat -> X) :
    wpn n cap (fun i => broadcast (M := M) i n (x i)) (fun o => forall i, i < n -> o i = map x (seq 0 n)).
  Proof.
    unfold broadcast. set (ds := fun i => filter (fun j => negb (j =? i)%nat) (seq 0 n)).
    assert (Hds : forall a b, In b (ds a) <-> b < n /\ b <> a).
    { intros a b. unfold ds. rewrite filter_In, in_seq, negb_true_iff, Nat.eqb_neq. lia. }
    set (bx := box n ds (fun a _ => enc (x a))).
    unfold wpn. eapply wpq_bind.
    eapply wpq_q with (q1 := q0) (q1' := fun a b => q0 a b ++ bx a b); [intros ? ?; reflexivity|intros ? ?; reflexivity|].
    apply wpq_send_box with (m := fun a b => enc (x a)) (v := fun _ => tt) (dsts := ds).
    { intros a Ha. apply NoDup_filter. apply seq_NoDup. }
    { intros a b _ _. cbn. lia. }
    { intros a b _. cbn. lia. }
    eapply wpq_q with (q1 := fun a b => bx a b ++ q0 a b) (q1' := q0);
      [intros a b; apply app_nil_r|intros ? ?; reflexivity|].
    apply wpq_recv_box with (srcs := ds) (r := fun i => map x (seq 0 n)).
    { intros b Hb. apply NoDup_filter. apply seq_NoDup. }
    { intros a b _ H. apply Hds in H. tauto. }
    { intros a b _ H. apply Hds in H. tauto. }
    { intros a b Ha Hb. rewrite !Hds. intuition congruence. }
    { intros i Hi. apply (recvs_others x). }
    reflexivity.
  Qed.
  Lemma open_points_ok i num : i < n -> num <= n -> points (F := F) (open_points i n num).
  Proof.
    intros Hi Hn. apply (points_le inj).
    - apply NoDup_map_seq. intros x y Hx Hy E. rewrite !mod_sub_lt in E by lia.
      destruct (Nat.ltb_spec i x), (Nat.ltb_spec i y); lia.
    - intros a Ha. apply in_map_iff in Ha. destruct Ha as (k & <- & _). pose proof (Nat.mod_upper_bound (i + n - k) n). lia.
  Qed.
  Lemma reconstruct_open {G} {AG : AbGrp G} {MD : Mod F G} i num d (s : nat -> G) x lag :
    i < n -> num <= n -> S d <= num -> sharing n d s x -> lagrange_from_coeff (open_points i n num) = Some lag ->
    reconstruct (map (fun k => s ((i + n - k) mod n)%nat) (seq 0 num)) lag = x.
  Proof.
    intros Hi Hn Hd (c & H1 & H2 & H3) HL.
    destruct (@reconstruct_poly F FF G AG MD (open_points i n num) lag c) as (_ & R).
    - apply open_points_ok; assumption.
    - unfold open_points. rewrite map_length, seq_length. lia.
    - exact HL.
    - rewrite <- H2, <- R. f_equal. unfold open_points. rewrite map_map. apply map_ext. intros k.
      rewrite H3 by (apply Nat.mod_upper_bound; lia). f_equal. f_equal. lia.
  Qed.

  Variables (gen : nat) (L : list (list F * list F)) (st : nat -> sst).
  Hypothesis W : sm_wf n t gen L st.
  Section Group.
    Context {G : Type} {AG : AbGrp G} {MD : Mod F G} {EG : Enc M G} {EGs : Enc M (list G)}.
    Lemma sm_open_wp (s : nat -> G) x : sharing n t s x ->
      wpn n cap (fun i => sm_open (M := M) (s i) (st i)) (fun o => forall i, i < n -> o i = x).
    Proof.
      intros H. unfold sm_open. apply wpn_ext with (qs := fun i =>
        rcv <- broadcast_next i n (t + 1) (s i) ;; Ret (reconstruct rcv (ss_open_t (st i)))).
      { intros i Hi. rewrite (sw_id W), (sw_n W), (sw_t W) by exact Hi. reflexivity. }
      apply wpn_bind. eapply wpn_mono; [|apply broadcast_next_wp; lia]. intros o Ho. apply wpn_ret. intros i Hi. rewrite Ho by exact Hi.
      eapply reconstruct_open; [exact Hi| | |exact H|apply (sw_open_t W); exact Hi]; lia.
    Qed.
    Lemma sm_open_half_wp (s : nat -> G) x : sharing n (2 * t) s x ->
      wpn n cap (fun i => sm_open_half (M := M) (s i) (st i)) (fun o => forall i, i < n -> o i = x).
    Proof.
      intros H. unfold sm_open_half. apply wpn_ext with (qs := fun i =>
        rcv <- broadcast_next i n (2 * t + 1) (s i) ;; Ret (reconstruct rcv (ss_open_2t (st i)))).
      { intros i Hi. rewrite (sw_id W), (sw_n W), (sw_t W) by exact Hi. replace (t * 2 + 1)%nat with (2 * t + 1)%nat by lia. reflexivity. }
      apply wpn_bind. eapply wpn_mono; [|apply broadcast_next_wp; lia]. intros o Ho. apply wpn_ret. intros i Hi. rewrite Ho by exact Hi.
      eapply reconstruct_open; [exact Hi| | |exact H|apply (sw_open_2t W); exact Hi]; lia.
    Qed.
    Lemma transposed_ok i num d (v : nat -> list G) xs lag :
      i < n -> num <= n -> S d <= num -> sharings n d v xs -> lagrange_from_coeff (open_points i n num) = Some lag ->
      transposed (length xs) lag (map (fun k => v ((i + n - k) mod n)%nat) (seq 0 num)) = Some xs.
    Proof.
      intros Hi Hn Hd [H1 H2] HL. unfold transposed.
      assert (Ex : existsb (fun r => (length xs <? length r)%nat) (map (fun k => v ((i + n - k) mod n)%nat) (seq 0 num)) = false).
      { destruct (existsb _ _) eqn:Ex; [|reflexivity]. apply existsb_exists in Ex. destruct Ex as (r & Hr & Hlt).
        apply in_map_iff in Hr. destruct Hr as (k & <- & _). rewrite H1 in Hlt by (apply Nat.mod_upper_bound; lia).
        rewrite Nat.ltb_irrefl in Hlt. discriminate. }
      rewrite Ex. f_equal. apply (list_ext 0).
      - rewrite map_length, seq_length. reflexivity.
      - intros k Hk. rewrite map_length, seq_length in Hk. rewrite nth_map_seq by exact Hk. cbn [Nat.add]. rewrite map_map.
        exact (@reconstruct_open G AG MD i num d (fun j => nth k (v j) 0) (nth k xs 0) lag Hi Hn Hd (H2 k Hk) HL).
    Qed.
    Lemma sm_open_vec_wp (v : nat -> list G) xs : sharings n t v xs ->
      wpn n cap (fun i => sm_open_vec (M := M) (v i) (st i)) (fun o => forall i, i < n -> o i = xs).
    Proof.
      intros H. unfold sm_open_vec. apply wpn_ext with (qs := fun i =>
        rcv <- broadcast_next i n (t + 1) (v i) ;; or_panic "index out of bounds" (transposed (length xs) (ss_open_t (st i)) rcv)).
      { intros i Hi. rewrite (sw_id W), (sw_n W), (sw_t W) by exact Hi. rewrite (proj1 H i Hi). reflexivity. }
      apply wpn_bind. eapply wpn_mono; [|apply broadcast_next_wp; lia]. intros o Ho. apply wpn_ret_ext with (a := fun _ => xs); [|reflexivity].
      intros i Hi. rewrite Ho by exact Hi. rewrite (transposed_ok (d := t) Hi) by (assumption || lia || apply (sw_open_t W); exact Hi). reflexivity.
    Qed.
    Lemma sm_mul_open_wp (u : nat -> F) (s : nat -> G) y x : sharing n t u y -> sharing n t s x ->
      wpn n cap (fun i => sm_mul_open (M := M) (u i) (s i) (st i)) (fun o => forall i, i < n -> o i = smul y x).
    Proof.
      intros Hu H. unfold sm_mul_open. apply wpn_ext with (qs := fun i =>
        rcv <- broadcast_next i n (2 * t + 1) (smul (u i) (s i)) ;; Ret (reconstruct rcv (ss_open_2t (st i)))).
      { intros i Hi. rewrite (sw_id W), (sw_n W), (sw_t W) by exact Hi. reflexivity. }
      apply wpn_bind. eapply wpn_mono; [|apply (broadcast_next_wp (num := 2 * t + 1) (fun i => smul (u i) (s i))); lia].
      intros o Ho. apply wpn_ret. intros i Hi. rewrite Ho by exact Hi.
      refine (@reconstruct_open G AG MD i (2 * t + 1) (t + t) (fun i => smul (u i) (s i)) (smul y x) _ Hi nt _ (sharing_mul Hu H) (sw_open_2t W Hi)). lia.
    Qed.
    Lemma sm_mul_open_vec_wp (u : nat -> list F) (v : nat -> list G) ys xs : length ys = length xs -> sharings n t u ys -> sharings n t v xs ->
      wpn n cap (fun i => sm_mul_open_vec (M := M) (u i) (v i) (st i)) (fun o => forall i, i < n -> o i = map2 smul ys xs).
    Proof.
      intros El Hu H. unfold sm_mul_open_vec. apply wpn_ext with (qs := fun i =>
        rcv <- broadcast_next i n (2 * t + 1) (map2 smul (u i) (v i)) ;; or_panic "index out of bounds" (transposed (length (map2 smul ys xs)) (ss_open_2t (st i)) rcv)).
      { intros i Hi. rewrite (sw_id W), (sw_n W), (sw_t W) by exact Hi. rewrite length_map2_min by exact El. rewrite (proj1 Hu i Hi). reflexivity. }
      assert (HS : sharings n (t + t) (fun i => map2 smul (u i) (v i)) (map2 smul ys xs)).
      { refine (@sharings_map2 F FF G AG MD n F _ _ G _ _ (t + t) t t smul u v ys xs _ El Hu H). intros; apply sharing_mul; assumption. }
      apply wpn_bind. eapply wpn_mono; [|apply (broadcast_next_wp (num := 2 * t + 1) (fun i => map2 smul (u i) (v i))); lia].
      intros o Ho. apply wpn_ret_ext with (a := fun _ => map2 smul ys xs); [|reflexivity].
      intros i Hi. rewrite Ho by exact Hi.
      rewrite (@transposed_ok i (2 * t + 1) (t + t) (fun i => map2 smul (u i) (v i)) (map2 smul ys xs)) by (assumption || lia || apply (sw_open_2t W); exact Hi). reflexivity.
    Qed.
    Context {EGF : Enc M (G * F)} {EGFs : Enc M (list G * list F)}.
    Lemma sm_open_point_and_field_wp (s : nat -> G) (u : nat -> F) x y : sharing n t s x -> sharing n t u y ->
      wpn n cap (fun i => sm_open_point_and_field (M := M) (s i) (u i) (st i)) (fun o => forall i, i < n -> o i = (x, y)).
    Proof.
      intros H Hu. unfold sm_open_point_and_field. apply wpn_ext with (qs := fun i =>
        rcv <- broadcast_next i n (t + 1) (s i, u i) ;; Ret (reconstruct (map fst rcv) (ss_open_t (st i)), reconstruct (map snd rcv) (ss_open_t (st i)))).
      { intros i Hi. rewrite (sw_id W), (sw_n W), (sw_t W) by exact Hi. reflexivity. }
      apply wpn_bind. eapply wpn_mono; [|apply (broadcast_next_wp (num := t + 1) (fun i => (s i, u i))); lia].
      intros o Ho. apply wpn_ret. intros i Hi. rewrite Ho by exact Hi. rewrite !map_map. cbn [fst snd].
      rewrite (@reconstruct_open G AG MD i (t + 1) t s x) by (assumption || lia || apply (sw_open_t W); exact Hi).
      rewrite (@reconstruct_open F _ _ i (t + 1) t u y) by (assumption || lia || apply (sw_open_t W); exact Hi). reflexivity.
    Qed.
  End Group.
  Lemma sm_open_point_and_field_many_wp {G} {AG : AbGrp G} {MD : Mod F G} {EGFs : Enc M (list G * list F)}
    (v : nat -> list G) (u : nat -> list F) xs ys : sharings n t v xs -> sharings n t u ys ->
    wpn n cap (fun i => sm_open_point_and_field_many (M := M) (v i) (u i) (st i)) (fun o => forall i, i < n -> o i = (xs, ys)).
  Proof.
    intros H Hu. unfold sm_open_point_and_field_many. apply wpn_ext with (qs := fun i =>
      rcv <- broadcast_next i n (t + 1) (v i, u i) ;;
      match transposed (length xs) (ss_open_t (st i)) (map fst rcv), transposed (length ys) (ss_open_t (st i)) (map snd rcv) with
      | Some ps, Some fs => Ret (ps, fs)
      | _, _ => Fail (Panic "index out of bounds")
      end).
    { intros i Hi. rewrite (sw_id W), (sw_n W), (sw_t W) by exact Hi. rewrite (proj1 H i Hi), (proj1 Hu i Hi). reflexivity. }
    apply wpn_bind. eapply wpn_mono; [|apply (broadcast_next_wp (num := t + 1) (fun i => (v i, u i))); lia].
    intros o Ho. apply wpn_ret_ext with (a := fun _ => (xs, ys)); [|reflexivity]. intros i Hi. rewrite Ho by exact Hi. rewrite !map_map. cbn [fst snd].
    rewrite (@transposed_ok G AG MD i (t + 1) t v xs) by (assumption || lia || apply (sw_open_t W); exact Hi).
    rewrite (@transposed_ok F _ _ i (t + 1) t u ys) by (assumption || lia || apply (sw_open_t W); exact Hi). reflexivity.
  Qed.
End OpenWp.
