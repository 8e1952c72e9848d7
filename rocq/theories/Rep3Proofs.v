(** * Proofs about the replicated-sharing protocols of Rep3.v *)
From Coq Require Import String List Arith NArith Lia Bool Ring.
From Verif Require Import Proc Alg Rep3Net Rep3 Rep3Spec.
Import ListNotations.
Set Implicit Arguments.
Local Open Scope grp_scope.

(** ** Vectors *)
Section PVec.
  Context {A B : Type} (R : (pid -> A) -> B -> Prop).
  Lemma pvec_nil (l : pid -> list A) : (forall i, l i = []) -> pvec R l [].
  Proof.
    intros E. split; [intros i; rewrite E; reflexivity|]. intros [|n] x Hx; discriminate Hx.
  Qed.
  Lemma pvec_cons h x t xs (l : pid -> list A) :
    (forall i, l i = h i :: t i) -> R h x -> pvec R t xs -> pvec R l (x :: xs).
  Proof.
    intros E Hh [Hl Ht]. split; [intros i; rewrite E; cbn; rewrite Hl; reflexivity|].
    intros [|n] y Hy; cbn in Hy.
    - injection Hy as <-. exists h. split; [intros i; rewrite E; reflexivity|exact Hh].
    - destruct (Ht n y Hy) as (a & Ha & HR). exists a. split; [|exact HR].
      intros i. rewrite E. exact (Ha i).
  Qed.
  Lemma pvec_nil_inv (l : pid -> list A) : pvec R l [] -> forall i, l i = [].
  Proof. intros [Hl _] i. specialize (Hl i). destruct (l i); [reflexivity|discriminate Hl]. Qed.
  Lemma pvec_cons_inv (l : pid -> list A) x xs : pvec R l (x :: xs) ->
    exists h t, (forall i, l i = h i :: t i) /\ R h x /\ pvec R t xs.
  Proof.
    intros [Hl Hn]. destruct (Hn 0%nat x eq_refl) as (h & Hh & HR).
    exists h, (fun i => tl (l i)).
    assert (E : forall i, l i = h i :: tl (l i)).
    { intros i. specialize (Hh i). destruct (l i); cbn in Hh; [discriminate|]. injection Hh as ->. reflexivity. }
    split; [exact E|]. split; [exact HR|]. split.
    - intros i. specialize (Hl i). rewrite E in Hl. cbn in Hl. injection Hl as ->. reflexivity.
    - intros n y Hy. destruct (Hn (Datatypes.S n) y Hy) as (a & Ha & HRa). exists a. split; [|exact HRa].
      intros i. specialize (Ha i). rewrite E in Ha. exact Ha.
  Qed.
  Lemma pvec_ext (l l' : pid -> list A) xs : (forall i, l i = l' i) -> pvec R l xs -> pvec R l' xs.
  Proof.
    intros E [Hl Hn]. split; [intros i; rewrite <- E; apply Hl|].
    intros n x Hx. destruct (Hn n x Hx) as (a & Ha & HR). exists a. split; [|exact HR].
    intros i. rewrite <- E. apply Ha.
  Qed.
  Lemma pvec_len (l : pid -> list A) xs i : pvec R l xs -> length (l i) = length xs.
  Proof. intros [Hl _]. apply Hl. Qed.
  Lemma pvec_nth (l : pid -> list A) xs n d dx : pvec R l xs -> (n < length xs)%nat ->
    exists a, (forall i, nth n (l i) d = a i) /\ R a (nth n xs dx).
  Proof.
    intros [Hl Hn] Hlt. destruct (Hn n (nth n xs dx)) as (a & Ha & HR).
    { apply nth_error_nth'. exact Hlt. }
    exists a. split; [|exact HR]. intros i. apply nth_error_nth. apply Ha.
  Qed.
End PVec.

Lemma pvec_mono {A B} (R R' : (pid -> A) -> B -> Prop) l xs :
  (forall a x, R a x -> R' a x) -> pvec R l xs -> pvec R' l xs.
Proof.
  intros HR [Hl Hn]. split; [exact Hl|]. intros n x Hx.
  destruct (Hn n x Hx) as (a & Ha & H). exists a. auto.
Qed.
Lemma pvec_map {A B A' B'} (R : (pid -> A) -> B -> Prop) (R' : (pid -> A') -> B' -> Prop)
      (f : pid -> A -> A') (g : B -> B') l xs :
  (forall a x, R a x -> R' (fun i => f i (a i)) (g x)) -> pvec R l xs ->
  pvec R' (fun i => map (f i) (l i)) (map g xs).
Proof.
  intros HR [Hl Hn]. split; [intros i; rewrite !map_length; apply Hl|].
  intros n y Hy. rewrite nth_error_map in Hy. destruct (nth_error xs n) as [x|] eqn:E; [|discriminate Hy].
  injection Hy as <-. destruct (Hn n x E) as (a & Ha & H). exists (fun i => f i (a i)). split; [|auto].
  intros i. rewrite nth_error_map, Ha. reflexivity.
Qed.
Lemma nth_error_map2 {A B C} (f : A -> B -> C) l : forall k n a b,
  nth_error l n = Some a -> nth_error k n = Some b -> nth_error (map2 f l k) n = Some (f a b).
Proof.
  induction l as [|x l IH]; intros [|y k] [|n] a b Ha Hb; cbn in *; try discriminate; try congruence.
  eapply IH; eauto.
Qed.
Lemma nth_error_map2_inv {A B C} (f : A -> B -> C) l : forall k n c,
  nth_error (map2 f l k) n = Some c ->
  exists a b, nth_error l n = Some a /\ nth_error k n = Some b /\ c = f a b.
Proof.
  induction l as [|x l IH]; intros [|y k] [|n] c Hc; cbn in *; try discriminate.
  - injection Hc as <-. eauto.
  - eauto.
Qed.
Lemma pvec_map2 {A B A' B' A2 B2} (R : (pid -> A) -> B -> Prop) (R' : (pid -> A') -> B' -> Prop)
      (R2 : (pid -> A2) -> B2 -> Prop) (f : pid -> A -> A' -> A2) (g : B -> B' -> B2) l l' xs xs' :
  (forall a a' x x', R a x -> R' a' x' -> R2 (fun i => f i (a i) (a' i)) (g x x')) ->
  pvec R l xs -> pvec R' l' xs' ->
  pvec R2 (fun i => map2 (f i) (l i) (l' i)) (map2 g xs xs').
Proof.
  intros HR [Hl Hn] [Hl' Hn']. split.
  - intros i. rewrite !map2_length, Hl, Hl'. reflexivity.
  - intros n y Hy. apply nth_error_map2_inv in Hy. destruct Hy as (x & x' & Hx & Hx' & ->).
    destruct (Hn _ _ Hx) as (a & Ha & H1). destruct (Hn' _ _ Hx') as (a' & Ha' & H2).
    exists (fun i => f i (a i) (a' i)). split; [|auto].
    intros i. apply nth_error_map2; auto.
Qed.
Lemma nth_error_app_len {A} (l k : list A) n : nth_error (l ++ k) (length l + n) = nth_error k n.
Proof. rewrite nth_error_app2 by lia. f_equal. lia. Qed.
Lemma pvec_app {A B} (R : (pid -> A) -> B -> Prop) l l' xs xs' :
  pvec R l xs -> pvec R l' xs' -> pvec R (fun i => l i ++ l' i) (xs ++ xs').
Proof.
  intros [Hl Hn] [Hl' Hn']. split; [intros i; rewrite !app_length, Hl, Hl'; reflexivity|].
  intros n y Hy. destruct (Nat.lt_ge_cases n (length xs)) as [L|L].
  - rewrite nth_error_app1 in Hy by exact L. destruct (Hn _ _ Hy) as (a & Ha & H). exists a. split; [|exact H].
    intros i. rewrite nth_error_app1 by (rewrite Hl; exact L). apply Ha.
  - rewrite nth_error_app2 in Hy by exact L. destruct (Hn' _ _ Hy) as (a & Ha & H). exists a. split; [|exact H].
    intros i. rewrite nth_error_app2 by (rewrite Hl; exact L). rewrite Hl. apply Ha.
Qed.

(** ** Sharings *)
Section SharingFacts.
  Context {G : Type} `{AbGrp G}.
  Implicit Types (s t : pid -> share G) (x y c : G).

  Lemma shares_ext s t x : (forall i, s i = t i) -> shares s x -> shares t x.
  Proof.
    intros E [V A]. split.
    - intros i. rewrite <- !E. apply V.
    - unfold additive in *. rewrite <- !E. exact A.
  Qed.
  Lemma shares_unique s x y : shares s x -> shares s y -> x = y.
  Proof. intros [_ <-] [_ <-]. reflexivity. Qed.
  (** Case analysis: a valid sharing is given by its three summands. *)
  Lemma shares_elim s x : shares s x ->
    exists x0 x1 x2, x = x0 + x1 + x2 /\
      s P0 = mkShare x0 x2 /\ s P1 = mkShare x1 x0 /\ s P2 = mkShare x2 x1.
  Proof.
    intros [V A]. exists (sa (s P0)), (sa (s P1)), (sa (s P2)). split; [symmetry; exact A|].
    pose proof (V P0) as V0. pose proof (V P1) as V1. pose proof (V P2) as V2. cbn in *.
    destruct (s P0), (s P1), (s P2). cbn in *. subst. auto.
  Qed.
  Lemma shares_intro s x0 x1 x2 x : s P0 = mkShare x0 x2 -> s P1 = mkShare x1 x0 -> s P2 = mkShare x2 x1 ->
    x0 + x1 + x2 = x -> shares s x.
  Proof.
    intros E0 E1 E2 E. split.
    - intros []; cbn; rewrite ?E0, ?E1, ?E2; reflexivity.
    - unfold additive. rewrite E0, E1, E2. exact E.
  Qed.
  Lemma shadd_ok s t x y : shares s x -> shares t y -> shares (fun i => shadd (s i) (t i)) (x + y).
  Proof.
    intros (x0 & x1 & x2 & -> & E0 & E1 & E2)%shares_elim (y0 & y1 & y2 & -> & F0 & F1 & F2)%shares_elim.
    eapply shares_intro; rewrite ?E0, ?E1, ?E2, ?F0, ?F1, ?F2; try reflexivity. cbn. grp.
  Qed.
  Lemma shneg_ok s x : shares s x -> shares (fun i => shneg (s i)) (- x).
  Proof.
    intros (x0 & x1 & x2 & -> & E0 & E1 & E2)%shares_elim.
    eapply shares_intro; rewrite ?E0, ?E1, ?E2; try reflexivity. cbn. grp.
  Qed.
  Lemma shsub_ok s t x y : shares s x -> shares t y -> shares (fun i => shsub (s i) (t i)) (x - y).
  Proof.
    intros (x0 & x1 & x2 & -> & E0 & E1 & E2)%shares_elim (y0 & y1 & y2 & -> & F0 & F1 & F2)%shares_elim.
    eapply shares_intro; rewrite ?E0, ?E1, ?E2, ?F0, ?F1, ?F2; try reflexivity. cbn. grp.
  Qed.
  Lemma zero_share_ok : shares (fun _ => zero_share) (0 : G).
  Proof. eapply shares_intro; try reflexivity. cbn. grp. Qed.
  Lemma promote_ok c : shares (fun i => promote i c) c.
  Proof. eapply shares_intro; try reflexivity. cbn. grp. Qed.
  Lemma promote_with_scalar_ok c k : shares (fun i => promote_with_scalar i c k) c.
  Proof. eapply shares_intro; try reflexivity. cbn. grp. Qed.
  Lemma add_public_ok s x c : shares s x -> shares (fun i => add_public i (s i) c) (x + c).
  Proof.
    intros (x0 & x1 & x2 & -> & E0 & E1 & E2)%shares_elim.
    eapply shares_intro; rewrite ?E0, ?E1, ?E2; try reflexivity. cbn. grp.
  Qed.
  Lemma sub_assign_public_ok s x c : shares s x -> shares (fun i => sub_assign_public i (s i) c) (x - c).
  Proof.
    intros (x0 & x1 & x2 & -> & E0 & E1 & E2)%shares_elim.
    eapply shares_intro; rewrite ?E0, ?E1, ?E2; try reflexivity. cbn. grp.
  Qed.
  Lemma sub_shared_by_public_ok s x c : shares s x -> shares (fun i => sub_shared_by_public i (s i) c) (x - c).
  Proof. intros Hs. unfold sub_shared_by_public. apply add_public_ok. exact Hs. Qed.
  Lemma sub_public_by_shared_ok s x c : shares s x -> shares (fun i => sub_public_by_shared i c (s i)) (c - x).
  Proof.
    intros Hs. unfold sub_public_by_shared. replace (c - x) with (- x + c) by grp.
    apply add_public_ok with (s := fun i => shneg (s i)). apply shneg_ok. exact Hs.
  Qed.
  Lemma additive_reshared (z : pid -> G) x : additive z x -> shares (fun i => mkShare (z i) (z (prev i))) x.
  Proof. intros A. split; [intros []; reflexivity|exact A]. Qed.

  Lemma share_elem_ok v a b : shares (share_elem v a b) v.
  Proof. eapply shares_intro; try reflexivity. cbn. grp. Qed.
  Lemma share_additive_ok v a b : additive (share_additive v a b) v.
  Proof. unfold additive. cbn. grp. Qed.
  Lemma combine_ok s x : shares s x -> combine (s P0) (s P1) (s P2) = x.
  Proof. intros [_ A]. exact A. Qed.
  Lemma combine_vec_ok (l : pid -> list (share G)) xs : shares_vec l xs ->
    combine_vec (l P0) (l P1) (l P2) = Some xs.
  Proof.
    intros Hv. unfold combine_vec.
    assert (E : (Nat.eqb (length (l P0)) (length (l P1)) && Nat.eqb (length (l P1)) (length (l P2)))%bool = true).
    { rewrite !(pvec_len _ Hv), Nat.eqb_refl. reflexivity. }
    rewrite E. clear E. f_equal. revert l Hv. induction xs as [|x xs IH]; intros l Hv.
    - rewrite !(pvec_nil_inv Hv). reflexivity.
    - destruct (pvec_cons_inv Hv) as (h & t & E & [_ A] & Ht). rewrite !E. cbn.
      rewrite (IH t Ht). f_equal. exact A.
  Qed.
  (** Lengths that differ are rejected. *)
  Lemma combine_vec_len (l1 l2 l3 : list (share G)) r : combine_vec l1 l2 l3 = Some r ->
    length l1 = length l2 /\ length l2 = length l3.
  Proof.
    unfold combine_vec. destruct (Nat.eqb_spec (length l1) (length l2)), (Nat.eqb_spec (length l2) (length l3));
      cbn; try discriminate; auto.
  Qed.

  Context {S : Type} {DG : Draw S G}.
  Lemma share_field_elements_ok vs : forall s : S, shares_vec (fst (share_field_elements vs s)) vs.
  Proof.
    induction vs as [|v vs IH]; intros s; cbn.
    - apply pvec_nil. reflexivity.
    - eapply pvec_cons; [reflexivity|apply share_elem_ok|apply IH].
  Qed.
  (** [share_maybe]: positions of public [None]s stay [None]; the others are sharings. *)
  Definition maybe_shares (s : pid -> option (share G)) (v : option G) : Prop :=
    match v with
    | None => forall i, s i = None
    | Some x => exists t, (forall i, s i = Some (t i)) /\ shares t x
    end.
  Lemma share_maybe_ok vs : forall s : S, pvec maybe_shares (fst (share_maybe vs s)) vs.
  Proof.
    induction vs as [|[v|] vs IH]; intros s; cbn.
    - apply pvec_nil. reflexivity.
    - eapply pvec_cons; [reflexivity| |apply IH]. cbn. eexists. split; [reflexivity|]. apply share_elem_ok.
    - eapply pvec_cons with (h := fun _ => None); [reflexivity| |apply IH]. cbn. reflexivity.
  Qed.

  Context {Seed : Type} `{Seeded S Seed} `{Draw S Seed}.
  Lemma draws_length {X} `{Draw S X} n : forall s : S, length (fst (draws n s)) = n.
  Proof. induction n; intros s; cbn; auto. Qed.
  Lemma seeded_rest_length (vs : list G) : forall b c : S, length (seeded_rest vs b c) = length vs.
  Proof. induction vs; intros; cbn; auto. Qed.
  Lemma expand_length (x : seeded G Seed) : length (expand x) = seeded_length x.
  Proof. destruct x; cbn; [reflexivity|apply draws_length]. Qed.
  Lemma share_seeded_ok vs (s : S) : exists l,
    (forall i, expand_rep (share_seeded vs s i) = Some (l i)) /\ shares_vec l vs.
  Proof.
    pose (b := from_seed (S := S) (fst (draw (X := Seed) s))).
    pose (c := from_seed (S := S) (fst (draw (X := Seed) (snd (draw (X := Seed) s))))).
    pose (A := seeded_rest vs b c).
    pose (B := fst (draws (X := G) (length vs) b)).
    pose (C := fst (draws (X := G) (length vs) c)).
    assert (HA : length A = length vs) by apply seeded_rest_length.
    assert (HB : length B = length vs) by apply draws_length.
    assert (HC : length C = length vs) by apply draws_length.
    exists (fun i => match i with P0 => map2 mkShare A C | P1 => map2 mkShare B A | P2 => map2 mkShare C B end).
    split.
    - intros []; unfold expand_rep, share_seeded; cbn -[Nat.eqb]; fold b c; fold A B C;
        rewrite HA || rewrite HB; rewrite ?HA, ?HB, ?HC, Nat.eqb_refl; reflexivity.
    - unfold A, B, C. clearbody b c. clear. revert b c. induction vs as [|v vs IH]; intros b c.
      + apply pvec_nil. intros []; reflexivity.
      + cbn. eapply pvec_cons with (h := fun i => match i with
            | P0 => mkShare (v - fst (draw b) - fst (draw c)) (fst (draw c))
            | P1 => mkShare (fst (draw b)) (v - fst (draw b) - fst (draw c))
            | P2 => mkShare (fst (draw c)) (fst (draw b)) end); [| |apply (IH (snd (draw b)) (snd (draw c)))].
        * intros []; reflexivity.
        * eapply shares_intro; try reflexivity. cbn. grp.
  Qed.
End SharingFacts.

(** ** Generators *)
Section RngFacts.
  Context {S : Type}.
  Lemma synced_rand (st : pid -> rst S) (f : S -> S) : synced st ->
    synced (fun i => set_rand (st i) (f (rng1 (st i))) (f (rng2 (st i)))).
  Proof.
    intros [H1 H2 H3]. constructor; cbn; auto. intros i. f_equal. apply H1.
  Qed.
  Lemma synced_ext (st st' : pid -> rst S) : (forall i, st i = st' i) -> synced st -> synced st'.
  Proof.
    intros E [H1 H2 H3]. constructor.
    - intros i. rewrite <- !E. apply H1.
    - rewrite <- !E. exact H2.
    - rewrite <- !E. exact H3.
  Qed.
  Lemma random_pair_ok {X} `{Draw S X} (st : pid -> rst S) : synced st ->
    synced (fun i => snd (random_pair (st i))).
  Proof. intros Hs. exact (synced_rand (fun s => snd (draw s)) Hs). Qed.
  Lemma masking_ok {G} `{AbGrp G} `{Draw S G} (st : pid -> rst S) : synced st ->
    additive (fun i => fst (masking (st i))) 0 /\ synced (fun i => snd (masking (st i))).
  Proof.
    intros Hs. split.
    - unfold additive, masking. cbn. rewrite !(sync_rand Hs). cbn. grp.
    - exact (random_pair_ok Hs).
  Qed.
  Lemma map2_gsub_additive {G} `{AbGrp G} (a b c : list G) :
    length a = length b -> length b = length c ->
    additive_vec (fun i => match i with P0 => map2 gsub a c | P1 => map2 gsub b a | P2 => map2 gsub c b end)
      (repeat 0 (length a)).
  Proof.
    revert b c. induction a as [|x a IH]; intros [|y b] [|z c] E1 E2; try discriminate.
    - apply pvec_nil. intros []; reflexivity.
    - cbn. eapply pvec_cons with (h := fun i => match i with P0 => x - z | P1 => y - x | P2 => z - y end);
        [| |apply (IH b c); cbn in *; congruence].
      + intros []; reflexivity.
      + unfold additive. grp.
  Qed.
  Lemma masking_vec_bytes_ok {G} `{AbGrp G} (drawv : nat -> S -> list G * S)
        (Hlen : forall n s, length (fst (drawv n s)) = n) n (st : pid -> rst S) : synced st ->
    additive_vec (fun i => fst (masking_vec_bytes drawv n (st i))) (repeat 0 n) /\
    synced (fun i => snd (masking_vec_bytes drawv n (st i))).
  Proof.
    intros Hs. split.
    - unfold masking_vec_bytes. cbn.
      pose proof (@map2_gsub_additive G _ (fst (drawv n (rng1 (st P0))))
         (fst (drawv n (rng1 (st P1)))) (fst (drawv n (rng1 (st P2))))) as Q.
      rewrite !Hlen in Q. eapply pvec_ext; [|exact (Q eq_refl eq_refl)].
      intros []; rewrite (sync_rand Hs); reflexivity.
    - exact (synced_rand (fun s => snd (drawv n s)) Hs).
  Qed.
  Lemma masking_vec_ok {G} `{AbGrp G} `{Draw S G} n (st : pid -> rst S) : synced st ->
    additive_vec (fun i => fst (masking_vec n (st i))) (repeat 0 n) /\
    synced (fun i => snd (masking_vec n (st i))).
  Proof. apply (@masking_vec_bytes_ok G _ draws). intros. apply draws_length. Qed.
  Lemma rand_ok {G} `{AbGrp G} `{Draw S G} (st : pid -> rst S) : synced st ->
    shares (fun i => fst (rand (G := G) (st i)))
      (fst (draw (rng1 (st P0))) + fst (draw (rng1 (st P1))) + fst (draw (rng1 (st P2)))) /\
    synced (fun i => snd (rand (G := G) (st i))).
  Proof.
    intros Hs. split.
    - split; [|reflexivity]. intros i. unfold rand. cbn. rewrite (sync_rand Hs). reflexivity.
    - exact (random_pair_ok Hs).
  Qed.
  Lemma rands_ok {G} `{AbGrp G} `{Draw S G} n : forall (st : pid -> rst S), synced st ->
    shares_vec (fun i => fst (rands (G := G) n (st i)))
      (map2 gadd (map2 gadd (fst (draws n (rng1 (st P0)))) (fst (draws n (rng1 (st P1))))) (fst (draws n (rng1 (st P2))))) /\
    synced (fun i => snd (rands (G := G) n (st i))).
  Proof.
    induction n as [|n IH]; intros st Hs; cbn.
    - split; [apply pvec_nil; reflexivity|exact Hs].
    - destruct (rand_ok (G := G) Hs) as [H1 H2]. destruct (IH _ H2) as [H3 H4]. split; [|exact H4].
      eapply pvec_cons; [reflexivity|exact H1|]. exact H3.
  Qed.
  Lemma rands_length {G} `{Draw S G} n : forall st : rst S, length (fst (rands (G := G) n st)) = n.
  Proof. induction n; intros; cbn; auto. Qed.

  (** Three-key draws agree between the two parties that hold them. *)
  Lemma three_keys_bc2 {X} `{Draw S X} (st : pid -> rst S) : synced st ->
    exists x0 x1 x2 b0 b2, three_keys (bc2 (st P0)) = Some ((x0, x1, x2), b0) /\
                     three_keys (bc2 (st P2)) = Some ((x2, x0, x1), b2) /\
      (forall st', (forall i, rng1 (st' i) = rng1 (st i)) -> (forall i, rng2 (st' i) = rng2 (st i)) ->
         (forall i, bc1 (st' i) = bc1 (st i)) -> bc2 (st' P0) = b0 -> bc2 (st' P2) = b2 -> synced st').
  Proof.
    intros [H1 H2 (y0 & y1 & y2 & E0 & E2)].
    rewrite E0, E2. unfold three_keys. cbn.
    do 5 eexists. split; [reflexivity|]. split; [reflexivity|].
    intros st' Q1 Q2 Q3 Q4 Q5. constructor.
    - intros i. rewrite Q1, Q2. apply H1.
    - rewrite !Q3. exact H2.
    - do 3 eexists. rewrite Q4, Q5. split; reflexivity.
  Qed.
  Lemma three_keys_bc1 {X} `{Draw S X} (st : pid -> rst S) : synced st ->
    exists x0 x1 x2 b1 b2, three_keys (bc1 (st P1)) = Some ((x1, x2, x0), b1) /\
                     three_keys (bc1 (st P2)) = Some ((x2, x0, x1), b2) /\
      (forall st', (forall i, rng1 (st' i) = rng1 (st i)) -> (forall i, rng2 (st' i) = rng2 (st i)) ->
         (forall i, bc2 (st' i) = bc2 (st i)) -> bc1 (st' P1) = b1 -> bc1 (st' P2) = b2 -> synced st').
  Proof.
    intros [H1 (y0 & y1 & y2 & E0 & E2) H2].
    rewrite E0, E2. unfold three_keys. cbn.
    do 5 eexists. split; [reflexivity|]. split; [reflexivity|].
    intros st' Q1 Q2 Q3 Q4 Q5. constructor.
    - intros i. rewrite Q1, Q2. apply H1.
    - do 3 eexists. rewrite Q4, Q5. split; reflexivity.
    - rewrite !Q3. exact H2.
  Qed.

  Context {Seed : Type} `{Seeded S Seed} `{Draw S Seed}.
  Lemma fork_ok (st : pid -> rst S) : synced st ->
    synced (fun i => fst (fork (st i))) /\ synced (fun i => snd (fork (st i))).
  Proof.
    intros [H1 (y0 & y1 & y2 & E1 & E2) (z0 & z1 & z2 & F0 & F2)]. split; constructor; cbn.
    - intros i. rewrite H1. reflexivity.
    - rewrite E1, E2. cbn. do 3 eexists. split; reflexivity.
    - rewrite F0, F2. cbn. do 3 eexists. split; reflexivity.
    - intros i. rewrite H1. reflexivity.
    - rewrite E1, E2. cbn. do 3 eexists. split; reflexivity.
    - rewrite F0, F2. cbn. do 3 eexists. split; reflexivity.
  Qed.

  (** Scripts of generator operations, the same list run by every party. *)
  Inductive rng_op (X : Type) := OpRandom | OpMaskVec (n : nat) | OpFork | OpForkTake | OpBC1 | OpBC2 | OpGenShared.
  Definition run_op {X} {DX : Draw S X} (o : rng_op X) (i : pid) (s : rst S) : rst S :=
    match o with
    | OpRandom _ => snd (random_pair (X := X) s)
    | OpMaskVec _ n => set_rand s (snd (draws (X := X) n (rng1 s))) (snd (draws (X := X) n (rng2 s)))
    | OpFork _ => snd (fork s)
    | OpForkTake _ => fst (fork s)
    | OpBC1 _ => match i with
                 | P0 => s
                 | _ => match three_keys (X := X) (bc1 s) with
                        | Some (_, b) => mkRst (rng1 s) (rng2 s) b (bc2 s) | None => s end
                 end
    | OpBC2 _ => match i with
                 | P1 => s
                 | _ => match three_keys (X := X) (bc2 s) with
                        | Some (_, b) => mkRst (rng1 s) (rng2 s) (bc1 s) b | None => s end
                 end
    | OpGenShared _ => snd (generate_shared (X := X) i s)
    end.
  Definition run_ops {X} {DX : Draw S X} (l : list (rng_op X)) (i : pid) (s : rst S) : rst S :=
    fold_left (fun s o => run_op o i s) l s.
  Lemma run_op_synced {X} {DX : Draw S X} (o : rng_op X) (st : pid -> rst S) : synced st ->
    synced (fun i => run_op o i (st i)).
  Proof.
    intros Hs. destruct o; cbn [run_op].
    - apply (random_pair_ok Hs).
    - exact (synced_rand (fun s => snd (draws (X := X) n s)) Hs).
    - apply (fork_ok Hs).
    - apply (fork_ok Hs).
    - destruct (three_keys_bc1 (X := X) Hs) as (x0 & x1 & x2 & b1 & b2 & E1 & E2 & K).
      apply K; cbn; rewrite ?E1, ?E2; try reflexivity; intros []; cbn; rewrite ?E1, ?E2; reflexivity.
    - destruct (three_keys_bc2 (X := X) Hs) as (x0 & x1 & x2 & b1 & b2 & E1 & E2 & K).
      apply K; cbn; rewrite ?E1, ?E2; try reflexivity; intros []; cbn; rewrite ?E1, ?E2; reflexivity.
    - destruct Hs as [H1 (y0 & y1 & y2 & E1 & E2) H3]. constructor; cbn.
      + intros i. destruct i; cbn; apply H1.
      + rewrite E1, E2. cbn. do 3 eexists. split; reflexivity.
      + exact H3.
  Qed.
  Lemma run_ops_synced {X} {DX : Draw S X} (l : list (rng_op X)) : forall (st : pid -> rst S), synced st ->
    synced (fun i => run_ops l i (st i)).
  Proof.
    induction l as [|o l IH]; intros st Hs; cbn; [exact Hs|].
    exact (IH _ (run_op_synced o Hs)).
  Qed.

  Context {M : Type} {ES : Enc M (list Seed)} {ESS : Enc M (list (Seed * Seed))} (cap : nat) (cap_pos : (1 <= cap)%nat).
  (** After [Rep3State::new] the generators agree, whatever seeds the parties drew.  Moreover
      the value later returned by [generate_shared] agrees at all parties. *)
  Definition bc1_agree (st : pid -> rst S) : Prop :=
    k2 (bc1 (st P0)) = k2 (bc1 (st P1)) /\ k2 (bc1 (st P0)) = k1 (bc1 (st P2)).
  Lemma new_state_wp (seed : pid -> Seed) :
    wp cap (fun i => new_state (S := S) i (seed i)) (fun st => synced st /\ bc1_agree st).
  Proof.
    unfold new_state. apply wp_bind. unfold setup_prf. apply wp_bind. apply wp_reshare; [exact cap_pos|].
    apply wp_ret. cbn.
    pose (rr := fun i => from_seed (S := S) (seed i)). fold (rr P0) (rr P1) (rr P2).
    pose (A := fun i => fst (draw (X := Seed) (rr i))).
    pose (s1 := fun i => snd (draw (X := Seed) (rr i))).
    pose (B := fun i => fst (draw (X := Seed) (s1 i))).
    pose (s2 := fun i => snd (draw (X := Seed) (s1 i))).
    eexists (of3 _ _ _). split.
    - apply runs_comp3. unfold setup_bitcomp, send_and_recv, send_and_recv_many, send_next, recv_prev, send_to, send_many, recv_from, recv_many.
      cbn [bind next prev of3]. repeat step3 cap_pos.
      exact (comp3_ret cap (of3 _ _ _)).
    - cbn. split; [constructor|split]; cbn.
      + intros []; reflexivity.
      + do 3 eexists. split; reflexivity.
      + do 3 eexists. split; reflexivity.
      + reflexivity.
      + reflexivity.
  Qed.
  Lemma generate_shared_ok {X} `{Draw S X} (st : pid -> rst S) : bc1_agree st ->
    (forall i, fst (generate_shared (X := X) i (st i)) = fst (draw (k2 (bc1 (st P0))))) /\
    bc1_agree (fun i => snd (generate_shared (X := X) i (st i))).
  Proof.
    intros [E1 E2]. split.
    - intros []; cbn; [reflexivity|rewrite <- E1; reflexivity|rewrite <- E2; reflexivity].
    - split; cbn; [rewrite <- E1; reflexivity|rewrite <- E2; reflexivity].
  Qed.
End RngFacts.
Arguments OpRandom {X}. Arguments OpMaskVec {X}. Arguments OpFork {X}. Arguments OpForkTake {X}.
Arguments OpBC1 {X}. Arguments OpBC2 {X}. Arguments OpGenShared {X}.
