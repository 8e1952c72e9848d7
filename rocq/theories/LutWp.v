(** * One-hot vectors and lookup tables: correctness under every schedule *)
From Coq Require Import String List Arith NArith Lia Bool Ring.
From Verif Require Import Proc Alg Rep3Net Rep3 Rep3Spec Rep3Proofs Rep3Wp Uint Binary BinaryWp Conv ConvWp CmpWp Ring2k Lut.
Import ListNotations.
Set Implicit Arguments.
Local Open Scope grp_scope.

(** ** Specification: one-hot vectors *)
Definition onehot (k : nat) (v : nat) : list N := map (fun j => N.b2n (j =? v)%nat) (seq 0 (2 ^ k)).

(** ** Numbers *)
Lemma next_pow2_ge n : (n <= next_pow2 n)%nat.
Proof.
  unfold next_pow2. destruct (Nat.le_gt_cases n 1) as [H|H].
  - destruct n as [|[|n]]; cbn; lia.
  - apply Nat.log2_log2_up_spec in H || pose proof (Nat.log2_up_spec n H). lia.
Qed.
Lemma lut_bits_eq n : lut_bits n = Nat.log2_up n.
Proof. unfold lut_bits, next_pow2. apply Nat.log2_pow2. lia. Qed.
Lemma lut_bits_ge n : (n <= 2 ^ lut_bits n)%nat.
Proof. rewrite lut_bits_eq. apply next_pow2_ge. Qed.
Lemma lut_bits_pos n : (2 <= n)%nat -> (1 <= lut_bits n)%nat.
Proof. intros H. rewrite lut_bits_eq. apply Nat.log2_up_pos. lia. Qed.
Lemma make_even_ge k : (k <= make_even k <= Datatypes.S k)%nat.
Proof. unfold make_even. destruct (Nat.odd k); lia. Qed.
Lemma make_even_half k : (make_even k / 2 + make_even k / 2 = make_even k)%nat.
Proof.
  assert (E : Nat.Even (make_even k)).
  { unfold make_even. destruct (Nat.odd k) eqn:O.
    - apply Nat.odd_spec in O. destruct O as [m O]. exists (Datatypes.S m). lia.
    - rewrite <- Nat.negb_even in O. apply negb_false_iff in O. apply Nat.even_spec in O. exact O. }
  destruct E as [m E]. rewrite E. replace (2 * m)%nat with (m * 2)%nat by lia. rewrite Nat.div_mul; lia.
Qed.
Lemma low_mask_eq K k : (k < K)%nat -> low_mask K k = umask k.
Proof.
  intros H. unfold low_mask. rewrite (@uwsub_pow K 1 (le_n 1) k 1%N); [|exact H|].
  - unfold umask. rewrite N.ones_equiv. lia.
  - assert (2 ^ N.of_nat k <> 0)%N by (apply N.pow_nonzero; lia). lia.
Qed.
(** for [k <= K] the mask acts as reduction on values below [2^K]; for [k = K] it is all ones *)

Lemma pow2_nat_N k : N.of_nat (2 ^ k) = (2 ^ N.of_nat k)%N.
Proof.
  induction k as [|k IH]; [reflexivity|]. cbn [Nat.pow]. rewrite Nat2N.inj_succ, N.pow_succ_r'.
  rewrite <- IH. lia.
Qed.

Lemma seq_shift_add a n : map (fun j => (a + j)%nat) (seq 0 n) = seq a n.
Proof.
  induction a as [|a IH]; cbn [plus]; [apply map_id|]. rewrite <- seq_shift, <- IH, map_map. reflexivity.
Qed.

Section OhvWp.
  Context {S M : Type} (dbg : bool) (dw : nat -> S -> N * S).
  Context {EN : Enc M (list N)} {EL : Enc M (list (list N))} (cap : nat) (cap_pos : (1 <= cap)%nat).
  Implicit Types (st : pid -> rst S).

  (** *** packing *)
  Lemma pack_from_bit K l : forall i acc j,
    ubit (pack_from K i acc l) j = (ubit acc j || ((j <? K)%nat && (i <=? j)%nat && nth (j - i) l false))%bool.
  Proof.
    induction l as [|b l IH]; intros i acc j; cbn [pack_from].
    - destruct (j - i)%nat; cbn [nth]; rewrite !andb_false_r, orb_false_r; reflexivity.
    - rewrite IH. unfold ubit at 1. rewrite N.lor_spec. fold (ubit acc j). fold (ubit (ushl K (N.b2n b) i) j).
      rewrite ubit_shl.
      destruct (ubit acc j); cbn [orb]; [reflexivity|].
      destruct (Nat.ltb_spec j K) as [HK|HK]; cbn [andb]; [|reflexivity].
      destruct (Nat.leb_spec i j) as [Hi|Hi]; cbn [andb].
      + destruct (Nat.leb_spec (Datatypes.S i) j) as [Hi'|Hi']; cbn [andb].
        * replace (j - i)%nat with (Datatypes.S (j - Datatypes.S i)) by lia. cbn [nth].
          replace (ubit (N.b2n b) (Datatypes.S (j - Datatypes.S i))) with false; [reflexivity|].
          symmetry. apply ubit_high with (n := 1%nat); [destruct b; reflexivity|lia].
        * replace (j - i)%nat with 0%nat by lia. cbn [nth]. rewrite orb_false_r. destruct b; reflexivity.
      + destruct (Nat.leb_spec (Datatypes.S i) j) as [Hi'|Hi']; [lia|]. reflexivity.
  Qed.
  (** the integer packed from a list of bits *)
  Definition packv (K : nat) (xs : list N) : N := pack_from K 0 0 (map (fun x => ubit x 0) xs).
  Lemma packv_bit K xs j : ubit (packv K xs) j = ((j <? K)%nat && ubit (nth j xs 0%N) 0)%bool.
  Proof.
    unfold packv. rewrite pack_from_bit. cbn [ubit]. replace (ubit 0 j) with false by reflexivity. cbn [orb Nat.leb andb].
    rewrite andb_true_r, Nat.sub_0_r. f_equal. change false with ((fun x => ubit x 0) 0%N) at 1. apply map_nth.
  Qed.
  Lemma pack_eq K l : pack K l = mkShare (packv K (map sa l)) (packv K (map sb l)).
  Proof. unfold pack, packv. rewrite !map_map. reflexivity. Qed.
  Lemma shares_vec_comp : forall xs (l : pid -> list (share N)), shares_vec l xs ->
    (forall i, map sb (l i) = map sa (l (prev i))) /\
    (forall j, nth j xs 0 = nth j (map sa (l P0)) 0 + nth j (map sa (l P1)) 0 + nth j (map sa (l P2)) 0).
  Proof.
    induction xs as [|x xs IH]; intros l H.
    - pose proof (pvec_nil_inv H) as E. split; [intros i; rewrite !E; reflexivity|].
      intros j. rewrite !E. destruct j; reflexivity.
    - destruct (pvec_cons_inv H) as (h & t & E & Hh & Ht). destruct (IH _ Ht) as [I1 I2].
      destruct Hh as [R A]. split.
      + intros i. rewrite !E. cbn [map]. rewrite I1, R. reflexivity.
      + intros [|j]; rewrite !E; cbn [map nth]; [symmetry; exact A|apply I2].
  Qed.
  Lemma pack_ok K xs (l : pid -> list (share N)) : shares_vec l xs ->
    shares (fun i => pack K (l i)) (packv K xs).
  Proof.
    intros H. destruct (shares_vec_comp H) as [C1 C2]. split.
    - intros i. rewrite !pack_eq. cbn [sa sb]. rewrite C1. reflexivity.
    - unfold additive. rewrite !pack_eq. cbn [sa]. apply ubit_ext. intros j.
      change (@gadd N _) with N.lxor in *. rewrite !ubit_lxor, !packv_bit.
      rewrite C2, !ubit_lxor. destruct (j <? K)%nat; cbn [andb]; reflexivity.
  Qed.
  Lemma rget_bit_ok x (s : pid -> share N) k : shares s x -> shares (fun i => rget_bit (s i) k) (N.b2n (ubit x k)).
  Proof.
    intros H. unfold rget_bit, shr, and_mask.
    pose proof (shmap_ok (lin3_land 1) (shmap_ok (lin3_shr k) H)) as H1. cbv beta in H1.
    rewrite land1, ubit_shr in H1. exact H1.
  Qed.
  Lemma pvec_tab {A B X} (R : (pid -> A) -> B -> Prop) (f : pid -> X -> A) (g : X -> B) (l : list X) :
    (forall j, In j l -> R (fun i => f i j) (g j)) -> pvec R (fun i => map (f i) l) (map g l).
  Proof.
    induction l as [|x l IH]; intros H; [apply pvec_nil; reflexivity|].
    apply pvec_cons with (h := fun i => f i x) (t := fun i => map (f i) l); [reflexivity|apply H; left; reflexivity|].
    apply IH. intros j Hj. apply H. right. exact Hj.
  Qed.
  Lemma unpack_ok (s : pid -> share N) v len : shares s v ->
    shares_vec (fun i => unpack (s i) len) (map (fun j => N.b2n (ubit v j)) (seq 0 len)).
  Proof. intros H. apply pvec_tab. intros j _. apply rget_bit_ok. exact H. Qed.
  Lemma and_pre_bit_ok K st (a b : pid -> share N) x v : synced st -> shares a x -> shares b v ->
    additive (fun i => fst (and_pre_bit dw K (st i) (a i) (b i))) (spread x v) /\
    synced (fun i => snd (and_pre_bit dw K (st i) (a i) (b i))).
  Proof.
    intros Hs Ha Hb. destruct (masking_ok (G := N) (H0 := dw K) Hs) as [Hm Hs']. split; [|exact Hs'].
    destruct (shares_elim Ha) as (x0 & x1 & x2 & -> & A0 & A1 & A2).
    destruct (shares_elim Hb) as (v0 & v1 & v2 & -> & B0 & B1 & B2).
    unfold additive in *. unfold masking in Hm. unfold and_pre_bit. cbn [fst snd].
    rewrite A0, A1, A2, B0, B1, B2. cbn [sa sb]. unfold spread.
    change (@gadd N _) with N.lxor in *. change (@gzero N _) with 0%N in *.
    change (@gsub N _) with N.lxor in *.
    set (m0 := N.lxor (fst (fst (random_pair (H := dw K) (st P0)))) (snd (fst (random_pair (H := dw K) (st P0))))) in *.
    set (m1 := N.lxor (fst (fst (random_pair (H := dw K) (st P1)))) (snd (fst (random_pair (H := dw K) (st P1))))) in *.
    set (m2 := N.lxor (fst (fst (random_pair (H := dw K) (st P2)))) (snd (fst (random_pair (H := dw K) (st P2))))) in *.
    apply ubit_ext. intros j. assert (Hj : ubit (N.lxor (N.lxor m0 m1) m2) j = false).
    { assert (E : N.lxor (N.lxor m0 m1) m2 = 0%N) by exact Hm. rewrite E. reflexivity. }
    rewrite !ubit_lxor in *. 
    destruct (ubit v0 0), (ubit v1 0), (ubit v2 0); cbn [xorb]; rewrite ?ubit_lxor;
      destruct (ubit x0 j), (ubit x1 j), (ubit x2 j), (ubit m0 j), (ubit m1 j), (ubit m2 j); cbn in *; congruence.
  Qed.
  (** the conjunction of a list of bits with one bit *)
  Definition andv (v : N) (xs : list N) : list N := map (fun x => N.b2n (ubit x 0 && ubit v 0)) xs.
  Lemma map_seq_nth {A B} (g : nat -> B) (h : A -> B) d : forall (xs : list A) a,
    (forall j, (j < length xs)%nat -> g (a + j)%nat = h (nth j xs d)) -> map g (seq a (length xs)) = map h xs.
  Proof.
    induction xs as [|x xs IH]; intros a H; [reflexivity|]. cbn [length seq map]. f_equal.
    - specialize (H 0%nat). rewrite Nat.add_0_r in H. apply H. cbn. lia.
    - apply IH. intros j Hj. specialize (H (Datatypes.S j)). cbn [nth length] in H. rewrite <- H by lia. f_equal; lia.
  Qed.
  Lemma unpack_val K xs v len : (length xs <= K)%nat -> len = length xs ->
    map (fun j => N.b2n (ubit (spread (packv K xs) v) j)) (seq 0 len) = andv v xs.
  Proof.
    intros H ->. unfold andv. apply map_seq_nth with (d := 0%N). intros j Hj. cbn [plus]. unfold spread.
    destruct (ubit v 0).
    - rewrite packv_bit, andb_true_r. replace (j <? K)%nat with true by (symmetry; apply Nat.ltb_lt; lia). reflexivity.
    - rewrite andb_false_r. reflexivity.
  Qed.
  Lemma pack_small_wp K st input rhs xs v : (length xs <= K)%nat -> synced st -> shares_vec input xs -> shares rhs v ->
    wp cap (fun i => pack_small dw K i (st i) (input i) (rhs i))
      (fun r => shares_vec (fun i => fst (r i)) (andv v xs) /\ synced (fun i => snd (r i))).
  Proof.
    intros HK Hs Hi Hr. destruct (and_pre_bit_ok K Hs (pack_ok K Hi) Hr) as [Z1 Z2].
    unfold pack_small. cbv zeta. apply wp_bind. apply (wp_reshare cap cap_pos). apply wp_ret. cbn [fst snd]. split; [|exact Z2].
    pose proof (unpack_ok (length xs) (additive_reshared Z1)) as U. rewrite (@unpack_val K xs v (length xs) HK eq_refl) in U.
    eapply pvec_ext; [|exact U]. intros i. cbv beta. rewrite (pvec_len i Hi). reflexivity.
  Qed.
  Lemma pre_chunks_ok rhs v : shares rhs v -> forall fuel xs st input, synced st -> shares_vec input xs ->
    additive_vec (fun i => fst (pre_chunks dw (st i) (chunks_ fuel 64 (input i)) (rhs i)))
      (map (fun c => spread (packv 64 c) v) (chunks_ fuel 64 xs)) /\
    synced (fun i => snd (pre_chunks dw (st i) (chunks_ fuel 64 (input i)) (rhs i))).
  Proof.
    intros Hr. induction fuel as [|fuel IH]; intros xs st input Hs Hi; [split; [apply pvec_nil; reflexivity|exact Hs]|].
    destruct xs as [|x xs].
    - pose proof (pvec_nil_inv Hi) as E. split; [apply pvec_nil; intros i; rewrite E; reflexivity|].
      eapply synced_ext; [|exact Hs]. intros i. rewrite E. reflexivity.
    - set (xx := x :: xs) in *. assert (Hne : forall i, exists y ys, input i = y :: ys).
      { intros i. pose proof (pvec_len i Hi) as L. destruct (input i) as [|y ys]; [discriminate|eauto]. }
      assert (E : forall i, chunks_ (Datatypes.S fuel) 64 (input i) = firstn 64 (input i) :: chunks_ fuel 64 (skipn 64 (input i))).
      { intros i. destruct (Hne i) as (y & ys & ->). reflexivity. }
      destruct (and_pre_bit_ok 64 Hs (pack_ok 64 (pvec_firstn_ 64 Hi)) Hr) as [Z1 Z2].
      destruct (IH _ _ _ Z2 (pvec_skipn_ 64 Hi)) as [I1 I2].
      split.
      + change (chunks_ (Datatypes.S fuel) 64 xx) with (firstn 64 xx :: chunks_ fuel 64 (skipn 64 xx)). cbn [map].
        eapply pvec_cons; [|exact Z1|exact I1]. intros i. rewrite E. reflexivity.
      + eapply synced_ext; [|exact I2]. intros i. rewrite E. reflexivity.
  Qed.
  Lemma unpack_chunks_ok v : forall fuel xs zs rem, rem = length xs -> (length xs <= fuel)%nat ->
    shares_vec zs (map (fun c => spread (packv 64 c) v) (chunks_ fuel 64 xs)) ->
    shares_vec (fun i => unpack_chunks rem (zs i)) (andv v xs).
  Proof.
    induction fuel as [|fuel IH]; intros xs zs rem -> Hf H.
    - destruct xs; [|cbn in Hf; lia]. pose proof (pvec_nil_inv H) as E. apply pvec_nil. intros i. rewrite E. reflexivity.
    - destruct xs as [|x xs].
      + pose proof (pvec_nil_inv H) as E. apply pvec_nil. intros i. rewrite E. reflexivity.
      + set (xx := x :: xs) in *.
        change (chunks_ (Datatypes.S fuel) 64 xx) with (firstn 64 xx :: chunks_ fuel 64 (skipn 64 xx)) in H. cbn [map] in H.
        destruct (pvec_cons_inv H) as (h & t & E & Hh & Ht).
        assert (L : Nat.min 64 (length xx) = length (firstn 64 xx)) by (rewrite firstn_length; reflexivity).
        pose proof (unpack_ok (length (firstn 64 xx)) Hh) as U.
        rewrite (@unpack_val 64 (firstn 64 xx) v _ (firstn_le_length 64 xx) eq_refl) in U.
        specialize (IH (skipn 64 xx) t (length (skipn 64 xx)) eq_refl).
        assert (HL : (length (skipn 64 xx) <= fuel)%nat). { rewrite skipn_length. subst xx. cbn [length] in *. lia. }
        pose proof (pvec_app U (IH HL Ht)) as A. unfold andv in A. rewrite <- map_app, firstn_skipn in A.
        eapply pvec_ext; [|exact A]. intros i. rewrite E. cbn [unpack_chunks]. rewrite L. f_equal. f_equal.
        rewrite skipn_length, firstn_length. lia.
  Qed.
  Lemma pack_large_wp st input rhs xs v : synced st -> shares_vec input xs -> shares rhs v ->
    wp cap (fun i => pack_large dw i (st i) (input i) (rhs i))
      (fun r => shares_vec (fun i => fst (r i)) (andv v xs) /\ synced (fun i => snd (r i))).
  Proof.
    intros Hs Hi Hr. destruct (@pre_chunks_ok rhs v Hr (length xs) xs st input Hs Hi) as [Z1 Z2].
    eapply wp_ext with (qs := fun i => let z := pre_chunks dw (st i) (chunks_ (length xs) 64 (input i)) (rhs i) in
      b <- reshare i (fst z) ;; Ret (unpack_chunks (length xs) (map2 mkShare (fst z) b), snd z)).
    { intros i. unfold pack_large, chunks. rewrite (pvec_len i Hi). reflexivity. }
    cbv zeta. apply wp_bind. apply (wp_reshare cap cap_pos). apply wp_ret. cbn [fst snd]. split; [|exact Z2].
    eapply unpack_chunks_ok; [reflexivity|apply le_n|]. apply (additive_vec_reshared Z1).
  Qed.
  Lemma b2n_land x v : (x < 2)%N -> (v < 2)%N -> N.b2n (ubit x 0 && ubit v 0) = N.land x v.
  Proof.
    intros H1 H2. assert (E1 : (x = 0 \/ x = 1)%N) by lia. assert (E2 : (v = 0 \/ v = 1)%N) by lia.
    destruct E1 as [-> | ->], E2 as [-> | ->]; reflexivity.
  Qed.
  Lemma pack_and_wp st input rhs xs v : xs <> [] -> Forall (fun x => x < 2)%N xs -> (v < 2)%N ->
    synced st -> shares_vec input xs -> shares rhs v ->
    wp cap (fun i => pack_and dbg dw i (st i) (input i) (rhs i))
      (fun r => shares_vec (fun i => fst (r i)) (andv v xs) /\ synced (fun i => snd (r i))).
  Proof.
    intros Hne Hx Hv Hs Hi Hr.
    assert (H0 : (length xs =? 0)%nat = false) by (destruct xs; [congruence|reflexivity]).
    eapply wp_ext with (qs := fun i => if (length xs <=? 128)%nat then
      let p := next_pow2 (length xs) in
      if (p =? 1)%nat then
        match input i with
        | x :: _ => r <- rand_ 1 (dw 1) i (st i) x (rhs i) ;; Ret ([fst r], snd r)
        | [] => Fail (Panic "index out of bounds")
        end
      else if ((p =? 2) || (p =? 4) || (p =? 8))%nat%bool then pack_small dw 8 i (st i) (input i) (rhs i)
      else if (p =? 16)%nat then pack_small dw 16 i (st i) (input i) (rhs i)
      else if (p =? 32)%nat then pack_small dw 32 i (st i) (input i) (rhs i)
      else if (p =? 64)%nat then pack_small dw 64 i (st i) (input i) (rhs i)
      else if (p =? 128)%nat then pack_small dw 128 i (st i) (input i) (rhs i)
      else Fail (Panic "unreachable")
    else pack_large dw i (st i) (input i) (rhs i)).
    { intros i. unfold pack_and. rewrite (pvec_len i Hi), H0, andb_false_r. reflexivity. }
    destruct (Nat.leb_spec (length xs) 128) as [Hl|Hl]; [|apply pack_large_wp; assumption].
    cbv zeta. pose proof (next_pow2_ge (length xs)) as Hg. unfold next_pow2 in *.
    assert (Hu : (Nat.log2_up (length xs) <= 7)%nat) by (change 7%nat with (Nat.log2_up 128); apply Nat.log2_up_le_mono; exact Hl).
    destruct (Nat.log2_up (length xs)) as [|[|[|[|[|[|[|[|u]]]]]]]] eqn:Eu; [| | | | | | | |lia];
      cbn [Nat.pow Nat.mul Nat.add Nat.eqb orb] in *; try (apply pack_small_wp; [lia|assumption..]).
    destruct xs as [|x [|y xs]]; [congruence| |cbn in Hg; lia].
    destruct (pvec_cons_inv Hi) as (h & t & E & Hh & Ht).
    eapply wp_ext with (qs := fun i => r <- rand_ 1 (dw 1) i (st i) (h i) (rhs i) ;; Ret ([fst r], snd r)).
    { intros i. rewrite E. reflexivity. }
    apply wp_bind. eapply wp_mono; [|apply (band_wp 1 (rdu (dw 1)) cap_pos Hs Hh Hr)].
    intros r [R1 R2]. apply wp_ret. cbn [fst snd]. split; [|exact R2].
    inversion Hx as [|? ? Hx1 Hx2]; subst. unfold andv. cbn [map]. rewrite b2n_land by assumption.
    eapply pvec_cons; [intros i; reflexivity|exact R1|apply pvec_nil; reflexivity].
  Qed.

  (** *** one-hot vectors *)
  Lemma fold_shadd_ok : forall ys e (w : pid -> share N) y, shares_vec e ys -> shares w y ->
    shares (fun i => fold_left shadd (e i) (w i)) (fold_left N.lxor ys y).
  Proof.
    induction ys as [|z ys IH]; intros e w y He Hw.
    - pose proof (pvec_nil_inv He) as E. eapply shares_ext; [|exact Hw]. intros i. rewrite E. reflexivity.
    - destruct (pvec_cons_inv He) as (h & t & E & Hh & Ht). cbn [fold_left].
      eapply shares_ext; [|apply (IH _ _ _ Ht (shadd_ok Hw Hh))]. intros i. rewrite E. reflexivity.
  Qed.
  Lemma fold_lxor_onehot v : forall n a y,
    fold_left N.lxor (map (fun j => N.b2n (j =? v)%nat) (seq a n)) y = N.lxor y (N.b2n ((a <=? v)%nat && (v <? a + n)%nat)).
  Proof.
    induction n as [|n IH]; intros a y; cbn [seq map fold_left].
    - replace ((a <=? v)%nat && (v <? a + 0)%nat)%bool with false; [cbn; rewrite N.lxor_0_r; reflexivity|].
      destruct (Nat.leb_spec a v), (Nat.ltb_spec v (a + 0)); cbn; try reflexivity; lia.
    - rewrite IH, N.lxor_assoc. f_equal.
      destruct (Nat.eqb_spec a v), (Nat.leb_spec (Datatypes.S a) v), (Nat.leb_spec a v),
        (Nat.ltb_spec v (Datatypes.S a + n)), (Nat.ltb_spec v (a + Datatypes.S n)); cbn; try reflexivity; lia.
  Qed.
  Lemma fold_lxor_zeros (l : list nat) y : fold_left N.lxor (map (fun _ => 0%N) l) y = y.
  Proof. revert y. induction l as [|x l IH]; intros y; cbn; [reflexivity|]. rewrite N.lxor_0_r. apply IH. Qed.
  Definition ohe (nk : nat) (lo : nat) (vk : bool) : list N :=
    map (fun j => N.b2n ((j =? lo)%nat && vk)) (seq 0 (2 ^ nk)).
  Lemma ohe_ok nk lo vk : (lo < 2 ^ nk)%nat ->
    let g := andv (N.b2n vk) (firstn (2 ^ nk - 1) (onehot nk lo)) in
    g ++ [fold_left N.lxor g (N.b2n vk)] = ohe nk lo vk.
  Proof.
    intros Hlo. cbv zeta. unfold onehot, ohe. destruct (2 ^ nk)%nat as [|L] eqn:EqL; [lia|].
    replace (Datatypes.S L - 1)%nat with L by lia.
    replace (firstn L (map (fun j => N.b2n (j =? lo)%nat) (seq 0 (Datatypes.S L)))) with (map (fun j => N.b2n (j =? lo)%nat) (seq 0 L)).
    2:{ rewrite seq_S, map_app, firstn_app, map_length, seq_length, Nat.sub_diag. cbn [firstn]. rewrite app_nil_r.
        symmetry. apply firstn_all2. rewrite map_length, seq_length. apply le_n. }
    rewrite seq_S, map_app. cbn [map plus]. unfold andv. rewrite map_map.
    assert (E : map (fun x => N.b2n (ubit (N.b2n (x =? lo)%nat) 0 && ubit (N.b2n vk) 0)) (seq 0 L)
                = map (fun j => N.b2n ((j =? lo)%nat && vk)) (seq 0 L)).
    { apply map_ext. intros j. destruct (j =? lo)%nat, vk; reflexivity. }
    rewrite E. f_equal. f_equal. destruct vk.
    - erewrite map_ext; [rewrite fold_lxor_onehot|]; [|intros j; rewrite andb_true_r; reflexivity].
      cbn [Nat.leb plus andb]. rewrite andb_true_r.
      destruct (Nat.ltb_spec lo L), (Nat.eqb_spec L lo); cbn; try reflexivity; lia.
    - erewrite map_ext; [rewrite fold_lxor_zeros|]; [|intros j; rewrite andb_false_r; reflexivity].
      rewrite andb_false_r. reflexivity.
  Qed.
  Lemma onehot_step nk lo vk : (lo < 2 ^ nk)%nat ->
    map2 N.lxor (onehot nk lo) (ohe nk lo vk) ++ ohe nk lo vk
      = onehot (Datatypes.S nk) (lo + if vk then 2 ^ nk else 0)%nat.
  Proof.
    intros Hlo. unfold onehot, ohe. rewrite combine_map2_map.
    replace (2 ^ Datatypes.S nk)%nat with (2 ^ nk + 2 ^ nk)%nat by (cbn; lia). rewrite seq_app, map_app. f_equal.
    - apply map_ext_in. intros j Hj. apply in_seq in Hj.
      destruct vk.
      + destruct (Nat.eqb_spec j lo), (Nat.eqb_spec j (lo + 2 ^ nk)); cbn; try reflexivity; lia.
      + rewrite Nat.add_0_r. destruct (Nat.eqb_spec j lo); reflexivity.
    - cbn [plus]. rewrite <- (seq_shift_add (2 ^ nk) (2 ^ nk)), map_map. apply map_ext_in. intros j Hj. apply in_seq in Hj.
      destruct vk; cbn [andb].
      + rewrite andb_true_r. destruct (Nat.eqb_spec j lo), (Nat.eqb_spec (2 ^ nk + j) (lo + 2 ^ nk)); cbn; try reflexivity; lia.
      + rewrite andb_false_r. destruct (Nat.eqb_spec (2 ^ nk + j) (lo + 0)); cbn; try reflexivity; lia.
  Qed.
  Lemma onehot_length k v : length (onehot k v) = (2 ^ k)%nat.
  Proof. unfold onehot. rewrite map_length, seq_length. reflexivity. Qed.
  Lemma onehot_bits k v : Forall (fun x => x < 2)%N (onehot k v).
  Proof. apply Forall_forall. intros x Hx. apply in_map_iff in Hx. destruct Hx as (j & <- & _). destruct (j =? v)%nat; reflexivity. Qed.
  Lemma low_split x nk : (x mod 2 ^ N.of_nat (Datatypes.S nk) = x mod 2 ^ N.of_nat nk + N.b2n (ubit x nk) * 2 ^ N.of_nat nk)%N.
  Proof.
    rewrite <- !land_mask. rewrite <- N.shiftl_mul_pow2, N.add_nocarry_lxor.
    2:{ apply ubit_ext. intros j. rewrite ubit_land, ubit_land, ubit_mask. unfold ubit at 2. destruct (Nat.ltb_spec j nk).
        - rewrite N.shiftl_spec_low by lia. rewrite andb_false_r. reflexivity.
        - rewrite andb_false_r. reflexivity. }
    apply ubit_ext. intros j. rewrite ubit_lxor, !ubit_land, !ubit_mask. unfold ubit at 3.
    destruct (Nat.ltb_spec j nk).
    - rewrite N.shiftl_spec_low by lia. replace (j <? Datatypes.S nk)%nat with true by (symmetry; apply Nat.ltb_lt; lia).
      rewrite xorb_false_r. reflexivity.
    - rewrite N.shiftl_spec_high' by lia. rewrite andb_false_r, xorb_false_l.
      destruct (Nat.ltb_spec j (Datatypes.S nk)).
      + replace j with nk by lia. rewrite N.sub_diag, andb_true_r. destruct (ubit x nk); reflexivity.
      + rewrite andb_false_r. replace (N.of_nat j - N.of_nat nk)%N with (N.of_nat (j - nk)) by lia.
        symmetry. apply (@ubit_high _ 1); [destruct (ubit x nk); reflexivity|lia].
  Qed.
  Lemma mod_pow_nat x k : (N.to_nat (x mod 2 ^ N.of_nat k) < 2 ^ k)%nat.
  Proof. clear cap_pos.
    assert (H : (x mod 2 ^ N.of_nat k < 2 ^ N.of_nat k)%N) by (apply N.mod_lt, N.pow_nonzero; lia).
    rewrite <- pow2_nat_N in *. generalize dependent (2 ^ k)%nat. intros q H. lia.
  Qed.
  Lemma bnot_ok s (b : bool) : shares s (N.b2n b) -> shares (fun i => bnot (s i)) (N.b2n (negb b)).
  Proof.
    intros H. pose proof (shmap_ok (lin3_lxor 1) H) as H1. replace (N.b2n (negb b)) with (N.lxor (N.b2n b) 1) by (destruct b; reflexivity). exact H1.
  Qed.
  Lemma ohv_wp K k : forall st bits x, (1 <= k <= K)%nat -> synced st -> shares bits x ->
    wp cap (fun i => ohv dbg dw K k i (st i) (bits i))
      (fun r => shares_vec (fun i => fst (r i)) (onehot k (N.to_nat (x mod 2 ^ N.of_nat k))) /\ synced (fun i => snd (r i))).
  Proof.
    induction k as [|nk IH]; intros st bits x Hk Hs Hb; [lia|]. cbn [ohv].
    replace (K <? Datatypes.S nk)%nat with false by (symmetry; apply Nat.ltb_ge; lia). rewrite andb_false_r.
    pose proof (rget_bit_ok nk Hb) as Hv. cbv zeta. destruct nk as [|nk'].
    - apply wp_ret. cbn [fst snd]. split; [|exact Hs]. rewrite low_split. change (2 ^ N.of_nat 0)%N with 1%N. rewrite N.mod_1_r, N.mul_1_r, N.add_0_l.
      replace (onehot 1 (N.to_nat (N.b2n (ubit x 0)))) with [N.b2n (negb (ubit x 0)); N.b2n (ubit x 0)] by (destruct (ubit x 0); reflexivity).
      eapply pvec_cons; [intros i; reflexivity|apply bnot_ok; exact Hv|]. eapply pvec_cons; [intros i; reflexivity|exact Hv|]. apply pvec_nil; reflexivity.
    - remember (Datatypes.S nk') as nk eqn:Enk. assert (E0 : (1 <= nk)%nat) by lia. clear nk' Enk. rewrite (@low_mask_eq K nk) by lia.
      apply wp_bind.
      eapply wp_mono; [|apply (IH st _ (N.land x (umask nk))); [lia|exact Hs|exact (shmap_ok (lin3_land _) Hb)]].
      intros f [F1 F2]. rewrite land_mask, N.mod_mod in F1 by (apply N.pow_nonzero; lia).
      set (lo := N.to_nat (x mod 2 ^ N.of_nat nk)) in *.
      assert (Hlo : (lo < 2 ^ nk)%nat) by apply mod_pow_nat.
      pose proof (pvec_firstn_ (2 ^ nk - 1) F1) as F1'.
      assert (Hp : (2 <= 2 ^ nk)%nat). { destruct nk as [|q]; [lia|]. cbn [Nat.pow]. pose proof (Nat.pow_nonzero 2 q). lia. }
      apply wp_bind.
      eapply wp_ext with (qs := fun i => pack_and dbg dw i (snd (f i)) (firstn (2 ^ nk - 1) (fst (f i))) (rget_bit (bits i) nk)).
      { intros i. rewrite (pvec_len i F1), onehot_length. reflexivity. }
      eapply wp_mono; [|apply (pack_and_wp (xs := firstn (2 ^ nk - 1) (onehot nk lo)) (v := N.b2n (ubit x nk)))]; try assumption.
      + intros e [E1 E2]. apply wp_ret. cbn [fst snd]. split; [|exact E2].
        assert (E0' : shares_vec (fun i => [fold_left shadd (fst (e i)) (rget_bit (bits i) nk)])
          [fold_left N.lxor (andv (N.b2n (ubit x nk)) (firstn (2 ^ nk - 1) (onehot nk lo))) (N.b2n (ubit x nk))]).
        { eapply pvec_cons; [intros i; reflexivity|exact (fold_shadd_ok E1 Hv)|apply pvec_nil; reflexivity]. }
        pose proof (pvec_app E1 E0') as E3.
        rewrite (@ohe_ok nk lo (ubit x nk) Hlo) in E3.
        assert (E5 : shares_vec (fun i => map2 shadd (fst (f i)) (fst (e i) ++ [fold_left shadd (fst (e i)) (rget_bit (bits i) nk)]))
          (map2 N.lxor (onehot nk lo) (ohe nk lo (ubit x nk)))).
        { eapply (@pvec_map2 _ _ _ _ _ _ shares shares shares (fun _ => shadd) N.lxor); [|exact F1|exact E3].
          intros a a' y y' H1 H2. exact (shadd_ok H1 H2). }
        pose proof (pvec_app E5 E3) as E4.
        rewrite (@onehot_step nk lo (ubit x nk) Hlo) in E4.
        replace (N.to_nat (x mod 2 ^ N.of_nat (Datatypes.S nk))) with (lo + (if ubit x nk then 2 ^ nk else 0))%nat; [exact E4|].
        rewrite low_split. unfold lo. destruct (ubit x nk); cbn [N.b2n]; [rewrite N.mul_1_l, <- pow2_nat_N|rewrite N.mul_0_l, N.add_0_r]; lia.
      + intros E. apply (f_equal (@length N)) in E. rewrite firstn_length, onehot_length in E. cbn in E. lia.
      + apply Forall_forall. intros y Hy. pose proof (onehot_bits nk lo) as OB. rewrite Forall_forall in OB. apply OB.
        rewrite <- (firstn_skipn (2 ^ nk - 1)). apply in_or_app. left. exact Hy.
      + destruct (ubit x nk); reflexivity.
  Qed.
End OhvWp.

(** ** Reading a public table *)
(** entry of a table as an integer, zero beyond its end *)
Definition entry {F} `{FieldUint F} (lut : list F) (j : nat) : N :=
  match nth_error lut j with Some v => to_uint v | None => 0%N end.

(** *** selection by a list of bits, [L] positions apart *)
Fixpoint vsel (g : nat -> N) (L j : nat) (xs : list N) (t : N) : N :=
  match xs with
  | [] => t
  | x :: xs => vsel g L (j + L) xs (if ubit x 0 then N.lxor t (g j) else t)
  end.
Lemma vsel_onehot g L v : forall n a j t,
  vsel g L j (map (fun i => N.b2n (i =? v)%nat) (seq a n)) t =
  if ((a <=? v)%nat && (v <? a + n)%nat)%bool then N.lxor t (g (j + (v - a) * L)%nat) else t.
Proof.
  induction n as [|n IH]; intros a j t; cbn [seq map vsel].
  - destruct (Nat.leb_spec a v), (Nat.ltb_spec v (a + 0)); cbn; try reflexivity; lia.
  - rewrite IH. destruct (Nat.eqb_spec a v) as [E|E]; cbn [N.b2n].
    + change (ubit 1 0) with true. cbv iota.
      replace ((Datatypes.S a <=? v)%nat && (v <? Datatypes.S a + n)%nat)%bool with false.
      2:{ symmetry. apply andb_false_iff. left. apply Nat.leb_gt. lia. }
      replace ((a <=? v)%nat && (v <? a + Datatypes.S n)%nat)%bool with true.
      2:{ symmetry. apply andb_true_iff. split; [apply Nat.leb_le|apply Nat.ltb_lt]; lia. }
      f_equal. f_equal. replace (v - a)%nat with 0%nat by lia. lia.
    + change (ubit 0 0) with false. cbv iota.
      destruct (Nat.leb_spec (Datatypes.S a) v), (Nat.ltb_spec v (Datatypes.S a + n)), (Nat.leb_spec a v), (Nat.ltb_spec v (a + Datatypes.S n));
        cbn [andb]; try reflexivity; try lia.
      f_equal. f_equal. replace (v - a)%nat with (Datatypes.S (v - Datatypes.S a)) by lia. cbn [Nat.mul]. lia.
Qed.
Lemma vsel_onehot_k g L k v j t : (v < 2 ^ k)%nat -> vsel g L j (onehot k v) t = N.lxor t (g (j + v * L)%nat).
Proof.
  intros H. unfold onehot. rewrite vsel_onehot, Nat.sub_0_r. cbn [plus Nat.leb andb].
  replace (v <? 2 ^ k)%nat with true by (symmetry; apply Nat.ltb_lt; exact H). reflexivity.
Qed.
Lemma lxor_lt a b n : (a < 2 ^ n -> b < 2 ^ n -> N.lxor a b < 2 ^ n)%N.
Proof. intros H1 H2. apply bits_lt. intros j Hj. rewrite N.lxor_spec. rewrite bits_lt in H1, H2. rewrite H1, H2 by exact Hj. reflexivity. Qed.
(** the opened difference points to the wanted entry *)
Lemma index_ok r x k : (r < 2 ^ N.of_nat k)%N ->
  N.lxor r (N.land (N.lxor r x) (umask k)) = (x mod 2 ^ N.of_nat k)%N.
Proof.
  intros Hr. rewrite <- land_mask. apply ubit_ext. intros j. rewrite ubit_lxor, !ubit_land, ubit_lxor, ubit_mask.
  destruct (Nat.ltb_spec j k) as [H|H]; [destruct (ubit r j), (ubit x j); reflexivity|].
  rewrite (ubit_high Hr H). rewrite !andb_false_r. reflexivity.
Qed.
Lemma lxor_nat_mod r c k : (N.lxor (r mod 2 ^ N.of_nat k) (N.land (N.lxor r c) (umask k)) = c mod 2 ^ N.of_nat k)%N.
Proof.
  rewrite <- (land_mask r), <- (land_mask c). apply ubit_ext. intros j. rewrite ubit_lxor, !ubit_land, ubit_lxor, ubit_mask.
  destruct (j <? k)%nat, (ubit r j), (ubit c j); reflexivity.
Qed.

Section LutWp.
  Context {F : Type} `{FU : FieldUint F} {S M : Type} (dbg : bool)
          (du dw : nat -> S -> N * S) {DF : Draw S F}.
  Context {EN : Enc M (list N)} {EL : Enc M (list (list N))} {EF : Enc M (list F)} (cap : nat) (cap_pos : (1 <= cap)%nat).
  (** an element of a [K]-bit type is below [2^K] *)
  Context (dw_lt : forall K s, (fst (dw K s) < 2 ^ N.of_nat K)%N).
  Implicit Types (st : pid -> rst S).
  Add Ring Fring : (@cring_theory F _).

  Lemma rand_ohv_wp K k st : (1 <= k <= K)%nat -> synced st ->
    wp cap (fun i => rand_ohv dbg dw K k i (st i))
      (fun r => (exists x, shares (fun i => fst (fst (r i))) x /\
                   shares_vec (fun i => snd (fst (r i))) (onehot k (N.to_nat (x mod 2 ^ N.of_nat k))) /\
                   narrow k (fun i => fst (fst (r i)))) /\ synced (fun i => snd (r i))).
  Proof.
    intros Hk Hs.
    destruct (rand_ok (G := N) (H0 := dw K) Hs) as [R1 R2].
    match type of R1 with shares _ ?x => set (x0 := x) in R1 end.
    set (bits := fun i => if (k =? K)%nat then fst (rand (G := N) (DG := dw K) (st i)) else and_mask (fst (rand (G := N) (DG := dw K) (st i))) (low_mask K k)).
    assert (Hb : exists x, shares bits x /\ narrow k bits).
    { unfold bits. destruct (Nat.eqb_spec k K) as [E|E].
      - exists x0. split; [exact R1|]. intros i. rewrite E. split; apply (dw_lt K).
      - exists (N.land x0 (umask k)). rewrite (@low_mask_eq K k) by lia. split; [exact (shmap_ok (lin3_land _) R1)|].
        intros i. unfold and_mask, shmap. cbn [sa sb]. rewrite !land_mask. split; apply N.mod_lt, N.pow_nonzero; lia. }
    destruct Hb as (x & B1 & B2).
    eapply wp_ext with (qs := fun i => e <- ohv dbg dw K k i (snd (rand (G := N) (DG := dw K) (st i))) (bits i) ;; Ret ((bits i, fst e), snd e)).
    { intros i. unfold rand_ohv. replace (k =? 0)%nat with false by (symmetry; apply Nat.eqb_neq; lia).
      replace (K <? k)%nat with false by (symmetry; apply Nat.ltb_ge; lia). rewrite !andb_false_r. reflexivity. }
    apply wp_bind. eapply wp_mono; [|apply (ohv_wp dbg dw cap_pos Hk R2 B1)]. intros e [E1 E2]. apply wp_ret. cbn [fst snd].
    split; [|exact E2]. exists x. exact (conj B1 (conj E1 B2)).
  Qed.

  (** *** the single-vector version *)
  Lemma pub_step_ok (e t : pid -> share N) x y w : shares e x -> shares t y ->
    shares (fun i => mkShare (if ubit (sa (e i)) 0 then N.lxor (sa (t i)) w else sa (t i))
                             (if ubit (sb (e i)) 0 then N.lxor (sb (t i)) w else sb (t i)))
           (if ubit x 0 then N.lxor y w else y).
  Proof.
    intros He Ht. pose proof (shadd_ok Ht (shmap_ok (lin3_spread w) He)) as HS.
    replace (if ubit x 0 then N.lxor y w else y) with (y + spread w x).
    2:{ unfold spread. destruct (ubit x 0); [reflexivity|apply N.lxor_0_r]. }
    eapply shares_ext; [|exact HS]. intros i. unfold shadd, shmap, spread. cbn [sa sb].
    destruct (ubit (sa (e i)) 0), (ubit (sb (e i)) 0); f_equal; apply N.lxor_0_r.
  Qed.
  Lemma pub_loop_ok lut c : forall xs es t y j, shares_vec es xs -> shares t y ->
    shares (fun i => pub_loop lut c j (es i) (t i)) (vsel (fun j => entry lut (N.to_nat (N.lxor (N.of_nat j) c))) 1 j xs y).
  Proof.
    induction xs as [|x xs IH]; intros es t y j He Ht.
    - pose proof (pvec_nil_inv He) as E. eapply shares_ext; [|exact Ht]. intros i. rewrite E. reflexivity.
    - destruct (pvec_cons_inv He) as (h & q & E & Hh & Hq). cbn [vsel]. rewrite Nat.add_1_r.
      eapply shares_ext; [intros i; rewrite E; cbn [pub_loop]; reflexivity|].
      destruct (nth_error lut (N.to_nat (N.lxor (N.of_nat j) c))) as [v|] eqn:En.
      + replace (entry lut (N.to_nat (N.lxor (N.of_nat j) c))) with (to_uint v) by (unfold entry; rewrite En; reflexivity).
        apply (IH q _ _ _ Hq). apply (pub_step_ok _ Hh Ht).
      + replace (entry lut (N.to_nat (N.lxor (N.of_nat j) c))) with 0%N by (unfold entry; rewrite En; reflexivity).
        rewrite N.lxor_0_r. replace (if ubit x 0 then y else y) with y by (destruct (ubit x 0); reflexivity). apply (IH q _ _ _ Hq Ht).
  Qed.
  Lemma to_usize_ok c k : (c < 2 ^ 64)%N -> to_usize (M := M) c k = Ret (N.land c (umask k)).
  Proof. intros Hc. unfold to_usize. rewrite (proj2 (N.ltb_lt _ _) Hc). reflexivity. Qed.
  Lemma narrow_lt k s x : narrow k s -> shares s x -> (x < 2 ^ N.of_nat k)%N.
  Proof.
    intros Hn Hs. destruct Hs as [_ A]. unfold additive in A. rewrite <- A.
    apply lxor_lt; [apply lxor_lt|]; apply (proj1 (Hn _)).
  Qed.
  Lemma pow64 k x : (k <= 64)%nat -> (x < 2 ^ N.of_nat k)%N -> (x < 2 ^ 64)%N.
  Proof. intros H1 H2. eapply N.lt_le_trans; [exact H2|]. apply N.pow_le_mono_r; lia. Qed.
  Lemma read_public_lut_wp K lut st index x : (2 <= length lut)%nat -> (lut_bits (length lut) <= K <= 64)%nat -> (x < 2 ^ 64)%N ->
    synced st -> shares index x ->
    wp cap (fun i => read_public_lut dbg dw K lut i (st i) (index i))
      (fun r => shares (fun i => fst (r i)) (entry lut (N.to_nat (x mod 2 ^ N.of_nat (lut_bits (length lut))))) /\ synced (fun i => snd (r i))).
  Proof.
    intros Hn Hk Hx Hs Hi. set (k := lut_bits (length lut)) in *.
    assert (H1 : (1 <= k)%nat) by (apply lut_bits_pos; exact Hn).
    unfold read_public_lut. cbv zeta. fold k. replace (K <? k)%nat with false by (symmetry; apply Nat.ltb_ge; lia).
    apply wp_bind. eapply wp_mono; [|apply (@rand_ohv_wp K k st); [lia|exact Hs]].
    intros re [(r & R1 & R2 & R3) R4]. apply wp_bind.
    eapply wp_mono; [|apply (open_wp cap_pos (shadd_ok R1 Hi))]. intros c Hc.
    change (r + x) with (N.lxor r x) in Hc. pose proof (narrow_lt R3 R1) as Hr.
    eapply wp_ext with (qs := fun i => Ret (pub_loop lut (N.land (N.lxor r x) (umask k)) 0 (snd (fst (re i))) zero_share, snd (re i))).
    { intros i. rewrite (Hc i), to_usize_ok; [reflexivity|]. apply lxor_lt; [|exact Hx]. apply (@pow64 k); [lia|exact Hr]. }
    apply wp_ret. cbn [fst snd]. split; [|exact R4].
    pose proof (pub_loop_ok lut (N.land (N.lxor r x) (umask k)) 0 R2 zero_share_ok) as P.
    rewrite vsel_onehot_k in P by apply mod_pow_nat.
    rewrite N.lxor_0_l, Nat.mul_1_r, Nat.add_0_l, N2Nat.id, lxor_nat_mod in P. exact P.
  Qed.

  (** *** the low-depth version *)
  Definition ld_step (v : N) (f0 f1 : share N) (t : N) : N :=
    let ga := if ubit (sa f0) 0 then v else 0%N in
    let gb := if ubit (sb f0) 0 then v else 0%N in
    let t := if ubit (sa f1) 0 then N.lxor (N.lxor t ga) gb else t in
    if ubit (sb f1) 0 then N.lxor t ga else t.
  Lemma ld_step_ok v f0 f1 t x0 x1 y : shares f0 x0 -> shares f1 x1 -> additive t y ->
    additive (fun i => ld_step v (f0 i) (f1 i) (t i)) (if ubit x1 0 then N.lxor y (if ubit x0 0 then v else 0%N) else y).
  Proof.
    intros H0 H1 Ht. destruct (shares_elim H0) as (a0 & a1 & a2 & -> & A0 & A1 & A2).
    destruct (shares_elim H1) as (b0 & b1 & b2 & -> & B0 & B1 & B2). unfold additive in *. subst y.
    unfold ld_step. rewrite A0, A1, A2, B0, B1, B2. cbn [sa sb]. change (@gadd N _) with N.lxor. rewrite !ubit_lxor.
    apply ubit_ext. intros j.
    destruct (ubit a0 0), (ubit a1 0), (ubit a2 0), (ubit b0 0), (ubit b1 0), (ubit b2 0); cbn [xorb]; rewrite ?ubit_lxor;
      change (ubit 0 j) with false; destruct (ubit (t P0) j), (ubit (t P1) j), (ubit (t P2) j), (ubit v j); reflexivity.
  Qed.
  Lemma ld_row_ok lut c f0 x0 : shares f0 x0 -> forall xs f1s t y j, shares_vec f1s xs -> additive t y ->
    exists t', (forall i, ld_row (length lut) lut c (f0 i) (f1s i) j (t i) = Some (t' i)) /\
      additive t' (vsel (fun j => if ubit x0 0 then entry lut (N.to_nat (N.lxor (N.of_nat j) c)) else 0%N) 1 j xs y).
  Proof.
    intros H0. induction xs as [|x xs IH]; intros f1s t y j H1 Ht.
    - pose proof (pvec_nil_inv H1) as E. exists t. split; [|exact Ht]. intros i. rewrite E. reflexivity.
    - destruct (pvec_cons_inv H1) as (h & q & E & Hh & Hq). cbn [vsel]. rewrite Nat.add_1_r.
      set (index := N.to_nat (N.lxor (N.of_nat j) c)).
      destruct (nth_error lut index) as [v|] eqn:En; [assert (Ee : entry lut index = to_uint v)|assert (Ee : entry lut index = 0%N)];
        try (unfold entry; rewrite En; reflexivity); rewrite Ee.
      + pose proof (proj1 (nth_error_Some lut index)) as Hlt. rewrite En in Hlt. specialize (Hlt ltac:(discriminate)).
        destruct (IH q _ _ (Datatypes.S j) Hq (ld_step_ok (to_uint v) H0 Hh Ht)) as (t' & T1 & T2).
        exists t'. split; [|exact T2]. intros i. rewrite E. cbn [ld_row]. fold index.
        replace (length lut <=? index)%nat with false by (symmetry; apply Nat.leb_gt; exact Hlt). rewrite En. apply T1.
      + apply nth_error_None in En.
        destruct (IH q _ _ (Datatypes.S j) Hq Ht) as (t' & T1 & T2). exists t'. split.
        * intros i. rewrite E. cbn [ld_row]. fold index.
          replace (length lut <=? index)%nat with true by (symmetry; apply Nat.leb_le; exact En). apply T1.
        * replace (if ubit x 0 then N.lxor y (if ubit x0 0 then 0%N else 0%N) else y) with y; [exact T2|].
          destruct (ubit x 0), (ubit x0 0); rewrite ?N.lxor_0_r; reflexivity.
  Qed.
  Lemma ld_loop_ok lut c k lo f1s : (lo < 2 ^ k)%nat -> shares_vec f1s (onehot k lo) -> forall xs f0s t y j, shares_vec f0s xs -> additive t y ->
    exists t', (forall i, ld_loop (length lut) lut c (f0s i) (f1s i) j (t i) = Some (t' i)) /\
      additive t' (vsel (fun j => entry lut (N.to_nat (N.lxor (N.of_nat (j + lo)) c))) (2 ^ k) j xs y).
  Proof.
    intros Hlo H1. induction xs as [|x xs IH]; intros f0s t y j H0 Ht.
    - pose proof (pvec_nil_inv H0) as E. exists t. split; [|exact Ht]. intros i. rewrite E. reflexivity.
    - destruct (pvec_cons_inv H0) as (h & q & E & Hh & Hq). cbn [vsel].
      destruct (ld_row_ok lut c Hh j H1 Ht) as (t1 & T1 & T2). rewrite vsel_onehot_k in T2 by exact Hlo. rewrite Nat.mul_1_r in T2.
      destruct (IH q t1 _ (j + 2 ^ k)%nat Hq T2) as (t' & T3 & T4). exists t'. split.
      + intros i. rewrite E. cbn [ld_loop]. rewrite T1, (pvec_len i H1), onehot_length. apply T3.
      + replace (if ubit x 0 then N.lxor y (entry lut (N.to_nat (N.lxor (N.of_nat (j + lo)) c))) else y)
          with (N.lxor y (if ubit x 0 then entry lut (N.to_nat (N.lxor (N.of_nat (j + lo)) c)) else 0%N)); [exact T4|].
        destruct (ubit x 0); rewrite ?N.lxor_0_r; reflexivity.
  Qed.
  (** combination of the two random halves *)
  Lemma comb_eq K k2 a b : (k2 + k2 <= K)%nat -> (a < 2 ^ N.of_nat k2)%N -> (b < 2 ^ N.of_nat k2)%N ->
    uwadd K (ushl K a k2) b = N.lxor (ushl K a k2) b /\ (N.lxor (ushl K a k2) b = a * 2 ^ N.of_nat k2 + b)%N.
  Proof.
    intros HK Ha Hb.
    assert (E : ushl K a k2 = (a * 2 ^ N.of_nat k2)%N).
    { unfold ushl. rewrite N.shiftl_mul_pow2. apply N.mod_small. eapply N.lt_le_trans; [apply N.mul_lt_mono_pos_r; [apply N.neq_0_lt_0, N.pow_nonzero; lia|exact Ha]|].
      rewrite <- N.pow_add_r. apply N.pow_le_mono_r; lia. }
    assert (E2 : N.lxor (ushl K a k2) b = (a * 2 ^ N.of_nat k2 + b)%N).
    { rewrite E, <- N.shiftl_mul_pow2. symmetry. apply N.add_nocarry_lxor. apply ubit_ext. intros j. rewrite ubit_land. unfold ubit at 1.
      destruct (Nat.ltb_spec j k2).
      - rewrite N.shiftl_spec_low by lia. reflexivity.
      - rewrite (ubit_high Hb) by assumption. rewrite andb_false_r. reflexivity. }
    split; [|exact E2]. unfold uwadd. rewrite E2, E. apply N.mod_small.
    apply N.lt_le_trans with (2 ^ N.of_nat (k2 + k2))%N; [|apply N.pow_le_mono_r; lia].
    rewrite Nat2N.inj_add, N.pow_add_r. set (q := (2 ^ N.of_nat k2)%N) in *. nia.
  Qed.
  Lemma ld_setup_wp K n st0 st1 index x : (2 <= n)%nat -> (make_even (lut_bits n) <= K <= 64)%nat -> (x < 2 ^ 64)%N ->
    synced st0 -> synced st1 -> shares index x ->
    wp cap (fun i => ld_setup dbg dw K n i (st0 i) (st1 i) (index i))
      (fun r => (exists hi lo c, (hi < 2 ^ (make_even (lut_bits n) / 2))%nat /\ (lo < 2 ^ (make_even (lut_bits n) / 2))%nat /\
                   (forall i, fst (fst (r i)) = c) /\
                   N.lxor (N.of_nat (hi * 2 ^ (make_even (lut_bits n) / 2) + lo)) c = (x mod 2 ^ N.of_nat (make_even (lut_bits n)))%N /\
                   shares_vec (fun i => fst (snd (fst (r i)))) (onehot (make_even (lut_bits n) / 2) hi) /\
                   shares_vec (fun i => snd (snd (fst (r i)))) (onehot (make_even (lut_bits n) / 2) lo)) /\
                synced (fun i => fst (snd (r i))) /\ synced (fun i => snd (snd (r i)))).
  Proof.
    intros Hn HK Hx Hs0 Hs1 Hi. set (k := make_even (lut_bits n)) in *.
    pose proof (make_even_half (lut_bits n)) as Hh. fold k in Hh. set (k2 := (k / 2)%nat) in *.
    assert (Hk1 : (1 <= k2)%nat).
    { pose proof (lut_bits_pos Hn) as P1. pose proof (make_even_ge (lut_bits n)) as P2. fold k in P2. lia. }
    unfold ld_setup. cbv zeta. fold k k2. replace (K <? k)%nat with false by (symmetry; apply Nat.ltb_ge; lia).
    apply wp_bind. eapply wp_mono; [|apply (@rand_ohv_wp K k2 st0); [lia|exact Hs0]].
    intros a [(xa & A1 & A2 & A3) A4]. apply wp_bind.
    eapply wp_mono; [|apply (@rand_ohv_wp K k2 st1); [lia|exact Hs1]].
    intros b [(xb & B1 & B2 & B3) B4]. apply wp_bind.
    pose proof (narrow_lt A3 A1) as La. pose proof (narrow_lt B3 B1) as Lb.
    set (rr := fun i => mkShare (uwadd K (sa (shl K (fst (fst (a i))) k2)) (sa (fst (fst (b i)))))
                                (uwadd K (sb (shl K (fst (fst (a i))) k2)) (sb (fst (fst (b i)))))).
    assert (Hrr : shares rr (xa * 2 ^ N.of_nat k2 + xb)%N).
    { rewrite <- (proj2 (@comb_eq K k2 xa xb ltac:(lia) La Lb)).
      eapply shares_ext; [|exact (shadd_ok (shmap_ok (lin3_shl K k2) A1) B1)]. intros i. unfold rr, shadd, shl, shmap. cbn [sa sb].
      rewrite (proj1 (@comb_eq K k2 _ _ ltac:(lia) (proj1 (A3 i)) (proj1 (B3 i)))), (proj1 (@comb_eq K k2 _ _ ltac:(lia) (proj2 (A3 i)) (proj2 (B3 i)))). reflexivity. }
    set (r := (xa * 2 ^ N.of_nat k2 + xb)%N) in *.
    assert (Hr : (r < 2 ^ N.of_nat k)%N).
    { unfold r. replace (N.of_nat k) with (N.of_nat k2 + N.of_nat k2)%N by lia. rewrite N.pow_add_r. set (q := (2 ^ N.of_nat k2)%N) in *. nia. }
    eapply wp_mono; [|apply (open_wp cap_pos (shadd_ok Hrr Hi))]. intros c Hc. change (r + x) with (N.lxor r x) in Hc.
    eapply wp_ext with (qs := fun i => Ret ((N.land (N.lxor r x) (umask k), (snd (fst (a i)), snd (fst (b i)))), (snd (a i), snd (b i)))).
    { intros i. rewrite (Hc i), to_usize_ok; [reflexivity|]. apply lxor_lt; [|exact Hx]. apply (@pow64 k); [lia|exact Hr]. }
    apply wp_ret. cbn [fst snd]. split; [|split; assumption].
    rewrite (N.mod_small xa) in A2 by exact La. rewrite (N.mod_small xb) in B2 by exact Lb.
    exists (N.to_nat xa), (N.to_nat xb), (N.land (N.lxor r x) (umask k)).
    assert (P2 : N.of_nat (2 ^ k2) = (2 ^ N.of_nat k2)%N) by apply pow2_nat_N.
    split; [|split; [|split; [reflexivity|split; [|split; assumption]]]].
    - clear - La P2. rewrite <- P2 in La. generalize dependent (2 ^ k2)%nat. intros q ? ?. lia.
    - clear - Lb P2. rewrite <- P2 in Lb. generalize dependent (2 ^ k2)%nat. intros q ? ?. lia.
    - replace (N.of_nat (N.to_nat xa * 2 ^ k2 + N.to_nat xb)) with r; [apply index_ok; exact Hr|].
      unfold r. rewrite Nat2N.inj_add, Nat2N.inj_mul, !N2Nat.id, P2. reflexivity.
  Qed.
  Lemma read_ld_wp K lut st0 st1 index x : (2 <= length lut)%nat -> (make_even (lut_bits (length lut)) <= K <= 64)%nat -> (x < 2 ^ 64)%N ->
    synced st0 -> synced st1 -> shares index x ->
    wp cap (fun i => read_public_lut_low_depth dbg du dw K lut i (st0 i) (st1 i) (index i))
      (fun r => additive (fun i => fst (r i)) (entry lut (N.to_nat (x mod 2 ^ N.of_nat (make_even (lut_bits (length lut)))))) /\
                synced (fun i => fst (snd (r i))) /\ synced (fun i => snd (snd (r i)))).
  Proof.
    intros Hn HK Hx Hs0 Hs1 Hi. unfold read_public_lut_low_depth. apply wp_bind.
    eapply wp_mono; [|apply (@ld_setup_wp K (length lut) st0 st1 index x); assumption].
    intros r [(hi & lo & c & H1 & H2 & H3 & H4 & H5 & H6) [S0 S1]].
    destruct (masking_ok (G := N) (H0 := du (mbs F)) S0) as [M1 M2].
    destruct (@ld_loop_ok lut c _ lo _ H2 H6 _ _ _ _ 0 H5 M1) as (t & T1 & T2). rewrite vsel_onehot_k in T2 by exact H1.
    rewrite N.lxor_0_l, Nat.add_0_l, H4 in T2.
    eapply wp_ext with (qs := fun i => Ret (t i, (snd (lut_mask (F := F) du (fst (snd (r i)))), snd (snd (r i))))).
    { intros i. rewrite (H3 i). unfold lut_mask. rewrite T1. reflexivity. }
    apply wp_ret. cbn [fst snd]. exact (conj T2 (conj M2 S1)).
  Qed.

  (** *** several tables of one length *)
  Lemma ld_tables_wp n c k hi lo e e_ : (hi < 2 ^ k)%nat -> (lo < 2 ^ k)%nat ->
    shares_vec e (onehot k hi) -> shares_vec e_ (onehot k lo) -> forall luts st, Forall (fun l => length l = n) luts -> synced st ->
    wp (M := M) cap (fun i => ld_tables (F := F) du n luts c (e i) (e_ i) (st i))
      (fun r => additive_vec (fun i => fst (r i)) (map (fun l => entry l (N.to_nat (N.lxor (N.of_nat (hi * 2 ^ k + lo)) c))) luts) /\
                synced (fun i => snd (r i))).
  Proof.
    intros H1 H2 H5 H6. induction luts as [|lut luts IH]; intros st HL Hs.
    - apply wp_ret. split; [apply pvec_nil; reflexivity|exact Hs].
    - inversion HL as [|? ? E1 E2]; subst. cbn [ld_tables map].
      destruct (masking_ok (G := N) (H0 := du (mbs F)) Hs) as [M1 M2].
      destruct (@ld_loop_ok lut c _ lo _ H2 H6 _ _ _ _ 0 H5 M1) as (t & T1 & T2). rewrite vsel_onehot_k in T2 by exact H1.
      rewrite N.lxor_0_l, Nat.add_0_l in T2.
      eapply wp_ext with (qs := fun i => r <- ld_tables (F := F) du (length lut) luts c (e i) (e_ i) (snd (lut_mask (F := F) du (st i))) ;; Ret (t i :: fst r, snd r)).
      { intros i. unfold lut_mask. rewrite T1. reflexivity. }
      apply wp_bind. eapply wp_mono; [|apply (IH (fun i => snd (lut_mask (F := F) du (st i))) E2 M2)]. intros r [R1 R2]. apply wp_ret. cbn [fst snd].
      split; [|exact R2]. eapply pvec_cons; [reflexivity|exact T2|exact R1].
  Qed.
  Lemma list_max_const n (luts : list (list F)) : luts <> [] -> Forall (fun l => length l = n) luts -> list_max (map (@length F) luts) = n.
  Proof.
    intros Hne HL. apply Nat.le_antisymm.
    - apply list_max_le, Forall_map. eapply Forall_impl; [|exact HL]. cbn. intros a ->. apply le_n.
    - destruct luts as [|l luts]; [congruence|]. inversion HL; subst. cbn. apply Nat.le_max_l.
  Qed.
  Lemma read_multiple_wp K n luts st0 st1 index x : luts <> [] -> Forall (fun l => length l = n) luts ->
    (2 <= n)%nat -> (make_even (lut_bits n) <= K <= 64)%nat -> (x < 2 ^ 64)%N ->
    synced st0 -> synced st1 -> shares index x ->
    wp cap (fun i => read_multiple_public_lut_low_depth dbg du dw K luts i (st0 i) (st1 i) (index i))
      (fun r => additive_vec (fun i => fst (r i)) (map (fun l => entry l (N.to_nat (x mod 2 ^ N.of_nat (make_even (lut_bits n))))) luts) /\
                synced (fun i => fst (snd (r i))) /\ synced (fun i => snd (snd (r i)))).
  Proof.
    intros Hne HL Hn HK Hx Hs0 Hs1 Hi. unfold read_multiple_public_lut_low_depth. rewrite (list_max_const Hne HL).
    destruct luts as [|l0 luts0] eqn:El; [congruence|]. rewrite <- El in *. clear Hne. apply wp_bind.
    eapply wp_mono; [|apply (@ld_setup_wp K n st0 st1 index x); assumption].
    intros r [(hi & lo & c & H1 & H2 & H3 & H4 & H5 & H6) [S0 S1]]. apply wp_bind.
    eapply wp_ext; [intros i; rewrite (H3 i); reflexivity|].
    eapply wp_mono; [|apply (@ld_tables_wp n c _ hi lo _ _ H1 H2 H5 H6 luts _ HL S0)].
    intros q [Q1 Q2]. apply wp_ret. cbn [fst snd]. rewrite H4 in Q1. exact (conj Q1 (conj Q2 S1)).
  Qed.
  (** tables of different lengths: the shorter one is indexed past its end *)
  Lemma ld_row_oob n lut c f0 : forall f1s j t jj, (j <= jj < j + length f1s)%nat ->
    (length lut <= N.to_nat (N.lxor (N.of_nat jj) c) < n)%nat -> ld_row (F := F) n lut c f0 f1s j t = None.
  Proof.
    induction f1s as [|f1 f1s IH]; intros j t jj Hj Hl; cbn [length] in Hj; [lia|]. cbn [ld_row].
    destruct (Nat.eq_dec j jj) as [->|Ne].
    - replace (n <=? N.to_nat (N.lxor (N.of_nat jj) c))%nat with false by (symmetry; apply Nat.leb_gt; lia).
      rewrite (proj2 (nth_error_None lut _)) by lia. reflexivity.
    - destruct (n <=? _)%nat; [apply (@IH _ _ jj); [lia|exact Hl]|].
      destruct (nth_error lut _); [|reflexivity]. apply (@IH _ _ jj); [lia|exact Hl].
  Qed.
  Lemma ld_loop_oob n lut c f1s jj : (length lut <= N.to_nat (N.lxor (N.of_nat jj) c) < n)%nat ->
    forall f0s j t, (j <= jj < j + length f0s * length f1s)%nat -> ld_loop (F := F) n lut c f0s f1s j t = None.
  Proof.
    intros Hl. induction f0s as [|f0 f0s IH]; intros j t Hj; cbn [length Nat.mul] in Hj; [lia|]. cbn [ld_loop].
    destruct (Nat.lt_ge_cases jj (j + length f1s)) as [Hlt|Hge].
    - rewrite (@ld_row_oob n lut c f0 f1s j t jj); [reflexivity|lia|exact Hl].
    - destruct (ld_row n lut c f0 f1s j t); [|reflexivity]. apply IH. lia.
  Qed.
  Lemma ld_tables_oob n c e e_ jj luts lut : In lut luts ->
    (length lut <= N.to_nat (N.lxor (N.of_nat jj) c) < n)%nat -> (jj < length e * length e_)%nat -> forall st : rst S,
    ld_tables (F := F) (M := M) du n luts c e e_ st = Fail (Panic "index out of bounds").
  Proof.
    intros Hin Hl Hj. induction luts as [|l luts IH]; intros st; [destruct Hin|]. cbn [ld_tables].
    destruct (ld_loop n l c e e_ 0 _) eqn:E; [|reflexivity]. destruct Hin as [->|Hin].
    - rewrite (@ld_loop_oob n lut c e_ jj Hl e 0 _) in E by lia. discriminate.
    - rewrite (IH Hin). reflexivity.
  Qed.
  Lemma read_multiple_short_wpo K luts lut st0 st1 index x : In lut luts ->
    let n := list_max (map (@length F) luts) in
    (length lut < n)%nat -> (2 <= n)%nat -> (make_even (lut_bits n) <= K <= 64)%nat -> (x < 2 ^ 64)%N ->
    synced st0 -> synced st1 -> shares index x ->
    wpo cap (fun i => read_multiple_public_lut_low_depth dbg du dw K luts i (st0 i) (st1 i) (index i))
      (fun o => forall i, o i = Failed (Panic "index out of bounds")).
  Proof.
    intros Hin n Hl Hn HK Hx Hs0 Hs1 Hi. unfold read_multiple_public_lut_low_depth. fold n.
    destruct luts as [|l0 luts0] eqn:El; [destruct Hin|]. rewrite <- El in *. apply wpo_bind.
    eapply wp_mono; [|apply (@ld_setup_wp K n st0 st1 index x); assumption].
    intros r [(hi & lo & c & H1 & H2 & H3 & H4 & H5 & H6) [S0 S1]].
    set (k := make_even (lut_bits n)) in *. set (k2 := (k / 2)%nat) in *.
    assert (Ek : (k2 + k2 = k)%nat) by apply make_even_half.
    assert (Hnk : (n <= 2 ^ k)%nat).
    { eapply Nat.le_trans; [apply lut_bits_ge|]. apply Nat.pow_le_mono_r; [lia|]. apply (proj1 (make_even_ge _)). }
    assert (Hv : (N.of_nat (hi * 2 ^ k2 + lo) < 2 ^ N.of_nat k)%N).
    { rewrite <- pow2_nat_N, <- Ek, Nat.pow_add_r. generalize dependent (2 ^ k2)%nat. intros; nia. }
    assert (Hc : (c < 2 ^ N.of_nat k)%N).
    { replace c with (N.lxor (N.of_nat (hi * 2 ^ k2 + lo)) (N.lxor (N.of_nat (hi * 2 ^ k2 + lo)) c)).
      2:{ rewrite <- N.lxor_assoc, N.lxor_nilpotent. apply N.lxor_0_l. }
      apply lxor_lt; [exact Hv|]. rewrite H4. apply N.mod_lt, N.pow_nonzero. lia. }
    assert (Hll : (N.of_nat (length lut) < 2 ^ N.of_nat k)%N).
    { rewrite <- pow2_nat_N. lia. }
    pose proof (@lxor_lt _ _ _ Hll Hc) as Hj.
    eapply wpo_ext with (qs := fun i => Fail (Panic "index out of bounds")); [|apply wpo_fail; reflexivity].
    intros i. rewrite (H3 i). rewrite (@ld_tables_oob n c _ _ (N.to_nat (N.lxor (N.of_nat (length lut)) c)) luts lut Hin); [reflexivity| |].
    - rewrite N2Nat.id, N.lxor_assoc, N.lxor_nilpotent, N.lxor_0_r, Nat2N.id. lia.
    - rewrite (pvec_len i H5), (pvec_len i H6), !onehot_length, <- Nat.pow_add_r, Ek.
      rewrite <- pow2_nat_N in Hj. generalize dependent (2 ^ k)%nat. intros. lia.
  Qed.

  (** *** a shared table *)
  Fixpoint vdot (t : F) (ls es : list F) : F :=
    match ls, es with
    | l :: ls, e :: es => vdot (t + rmul e l) ls es
    | _, _ => t
    end.
  Lemma vdot_onehot v : forall n ls a t,
    vdot t ls (map (fun j => bitval (j =? v)%nat) (seq a n)) = t + (if ((a <=? v)%nat && (v <? a + n)%nat)%bool then nth (v - a) ls 0 else 0).
  Proof. clear cap_pos.
    induction n as [|n IH]; intros ls a t.
    - replace ((a <=? v)%nat && (v <? a + 0)%nat)%bool with false; [destruct ls; cbn; ring|].
      symmetry. apply andb_false_iff. destruct (Nat.leb_spec a v); [right; apply Nat.ltb_ge; lia|auto].
    - destruct ls as [|l ls]; cbn [seq map vdot].
      + destruct (_ && _)%bool; [destruct (v - a)%nat|]; cbn; ring.
      + rewrite IH. destruct (Nat.eqb_spec a v) as [->|Ne].
        * replace (Datatypes.S v <=? v)%nat with false by (symmetry; apply Nat.leb_gt; lia).
          replace (v <=? v)%nat with true by (symmetry; apply Nat.leb_le; lia).
          replace (v <? v + Datatypes.S n)%nat with true by (symmetry; apply Nat.ltb_lt; lia).
          rewrite Nat.sub_diag. cbn. ring.
        * destruct (Nat.leb_spec a v) as [L|L].
          -- replace (Datatypes.S a <=? v)%nat with true by (symmetry; apply Nat.leb_le; lia).
             replace (v <? Datatypes.S a + n)%nat with (v <? a + Datatypes.S n)%nat by (f_equal; lia).
             replace (v - a)%nat with (Datatypes.S (v - Datatypes.S a)) by lia. cbn. ring.
          -- replace (Datatypes.S a <=? v)%nat with false by (symmetry; apply Nat.leb_gt; lia). cbn. ring.
  Qed.
  Definition injv (k v : nat) : list F := map (fun x => bitval (ubit x 0)) (onehot k v).
  Lemma injv_eq k v : injv k v = map (fun j => bitval (j =? v)%nat) (seq 0 (2 ^ k)).
  Proof. clear cap_pos. unfold injv, onehot. rewrite map_map. apply map_ext. intros j. destruct (j =? v)%nat; reflexivity. Qed.
  Lemma vdot_inj k v ls : (v < 2 ^ k)%nat -> vdot 0 ls (injv k v) = nth v ls 0.
  Proof.
    intros Hv. rewrite injv_eq, vdot_onehot. cbn [Nat.leb andb Nat.add]. rewrite (proj2 (Nat.ltb_lt _ _) Hv), Nat.sub_0_r. ring.
  Qed.
  Lemma inner_ok : forall xs ys t y l e, additive t y -> shares_vec l xs -> shares_vec e ys ->
    additive (fun i => inner (t i) (l i) (e i)) (vdot y xs ys).
  Proof.
    induction xs as [|x xs IH]; intros ys t y l e Ht Hl He.
    - pose proof (pvec_nil_inv Hl) as E. unfold additive in *. rewrite !E. exact Ht.
    - destruct (pvec_cons_inv Hl) as (h & q & E & Hh & Hq). destruct ys as [|z ys].
      + pose proof (pvec_nil_inv He) as E2. unfold additive in *. rewrite !E, !E2. exact Ht.
      + destruct (pvec_cons_inv He) as (h' & q' & E' & Hh' & Hq'). cbn [vdot].
        pose proof (IH ys (fun i => t i + lmul (h' i) (h i)) (y + rmul z x) q q') as P.
        unfold additive. rewrite !E, !E'. cbn [inner]. apply P; [|exact Hq|exact Hq'].
        pose proof (lmul_additive Hh' Hh) as A. unfold additive in *. cbn in A. rewrite <- Ht, <- A. ring.
  Qed.
  Lemma bit_inject_wide_wp st e vs : synced st -> shares_vec e vs ->
    wp cap (fun i => bit_inject_to_field_many (F := F) i (st i) (e i))
      (fun r => shares_vec (fun i => fst (r i)) (map (fun v => bitval (ubit v 0)) vs) /\ synced (fun i => snd (r i))).
  Proof.
    intros Hs He. unfold bit_inject_to_field_many.
    pose proof (@pvec_map _ _ _ _ shares shares (fun _ x => and_mask x 1) (fun v => N.land v 1) _ _ (fun a x H => shmap_ok (lin3_land 1) H) He) as P.
    eapply wp_mono; [|apply (bit_inject_many_wp cap_pos Hs P)].
    - intros r [R1 R2]. split; [|exact R2]. rewrite map_map in R1.
      erewrite map_ext in R1; [exact R1|]. intros v. cbv beta. rewrite ubit_land. cbn. rewrite andb_true_r. reflexivity.
    - intros i. apply Forall_map, Forall_forall. intros x _. unfold and_mask, shmap. cbn [sa sb].
      change 1%N with (umask 1). rewrite !land_mask. split; apply N.mod_lt; discriminate.
  Qed.
  Lemma read_shared_lut_wp K lut ls st index x : (2 <= length ls)%nat -> (lut_bits (length ls) <= K)%nat ->
    synced st -> shares_vec lut ls -> shares index x ->
    wp cap (fun i => read_shared_lut dbg dw K (lut i) i (st i) (index i))
      (fun r => additive (fun i => fst (r i)) (nth (N.to_nat (x mod 2 ^ N.of_nat (lut_bits (length ls)))) ls 0) /\ synced (fun i => snd (r i))).
  Proof.
    intros Hn HK Hs Hl Hi. set (k := lut_bits (length ls)) in *.
    assert (H1 : (1 <= k)%nat) by (apply lut_bits_pos; exact Hn).
    eapply wp_ext with (qs := fun i => e <- ohv dbg dw K k i (st i) (index i) ;; inj <- bit_inject_to_field_many i (snd e) (fst e) ;;
      (let m := masking (snd inj) in Ret (inner (fst m) (lut i) (fst inj), snd m))).
    { intros i. unfold read_shared_lut. rewrite (pvec_len i Hl). fold k. replace (K <? k)%nat with false by (symmetry; apply Nat.ltb_ge; lia). reflexivity. }
    apply wp_bind. eapply wp_mono; [|apply (@ohv_wp _ _ dbg dw _ _ _ cap_pos K k st index x); [lia|exact Hs|exact Hi]].
    intros e [E1 E2]. apply wp_bind. eapply wp_mono; [|apply (bit_inject_wide_wp E2 E1)].
    intros inj [I1 I2]. cbv zeta. destruct (masking_ok (G := F) I2) as [M1 M2].
    apply wp_ret. cbn [fst snd]. split; [|exact M2].
    rewrite <- (@vdot_inj k _ ls (mod_pow_nat _ _)). apply inner_ok; assumption.
  Qed.

  (** *** writing *)
  (** position [v] replaced by [x], nothing else changed, nothing when [v] is past the end *)
  Definition lupd (v : nat) (x : F) (ls : list F) : list F :=
    map2 (fun j l => if (j =? v)%nat then x else l) (seq 0 (length ls)) ls.
  Lemma lupd_nth v x ls j : nth_error (lupd v x ls) j =
    match nth_error ls j with Some l => Some (if (j =? v)%nat then x else l) | None => None end.
  Proof. clear cap_pos.
    unfold lupd. replace (j =? v)%nat with (0 + j =? v)%nat by reflexivity. generalize 0%nat as a.
    revert j. induction ls as [|l ls IH]; intros j a; [destruct j; reflexivity|]. destruct j as [|j]; cbn.
    - rewrite Nat.add_0_r. reflexivity.
    - rewrite IH. replace (a + Datatypes.S j)%nat with (Datatypes.S a + j)%nat by lia. reflexivity.
  Qed.
  Definition vwrite (x : F) (ls es : list F) : list F := map2 (fun l e => rmul e (x - l) + l) ls es.
  Lemma vwrite_onehot v x : forall ls a n, (length ls <= n)%nat ->
    vwrite x ls (map (fun j => bitval (j =? v)%nat) (seq a n)) = map2 (fun j l => if (j =? v)%nat then x else l) (seq a (length ls)) ls.
  Proof. clear cap_pos.
    induction ls as [|l ls IH]; intros a n Hn; [reflexivity|]. destruct n as [|n]; cbn in Hn; [lia|]. unfold vwrite in *. cbn.
    rewrite (IH (Datatypes.S a) n) by lia. f_equal. destruct (a =? v)%nat; cbn; ring.
  Qed.
  Lemma write_local_ok value w : shares value w -> forall xs ys l e st, synced st -> shares_vec l xs -> shares_vec e ys ->
    additive_vec (fun i => fst (write_local (value i) (st i) (l i) (e i))) (vwrite w xs ys) /\
    synced (fun i => snd (write_local (value i) (st i) (l i) (e i))).
  Proof.
    intros Hw. induction xs as [|x xs IH]; intros ys l e st Hs Hl He.
    - pose proof (pvec_nil_inv Hl) as E. split.
      + apply pvec_nil. intros i. rewrite E. reflexivity.
      + eapply synced_ext; [|exact Hs]. intros i. rewrite E. reflexivity.
    - destruct (pvec_cons_inv Hl) as (h & q & E & Hh & Hq). destruct ys as [|z ys].
      + pose proof (pvec_nil_inv He) as E2. split.
        * apply pvec_nil. intros i. rewrite E, E2. reflexivity.
        * eapply synced_ext; [|exact Hs]. intros i. rewrite E, E2. reflexivity.
      + destruct (pvec_cons_inv He) as (h' & q' & E' & Hh' & Hq').
        destruct (masking_ok (G := F) Hs) as [M1 M2].
        destruct (IH ys q q' _ M2 Hq Hq') as [Q1 Q2]. split.
        * eapply pvec_cons with (t := fun i => fst (write_local (value i) (snd (masking (st i))) (q i) (q' i)));
            [intros i; rewrite E, E'; cbn [write_local fst]; reflexivity| |exact Q1].
          pose proof (lmul_additive Hh' (shsub_ok Hw Hh)) as A. pose proof (proj2 Hh) as B.
          unfold additive in *. cbn in A. rewrite <- A, <- B.
          transitivity (lmul (h' P0) (shsub (value P0) (h P0)) + lmul (h' P1) (shsub (value P1) (h P1)) + lmul (h' P2) (shsub (value P2) (h P2))
             + (sa (h P0) + sa (h P1) + sa (h P2)) + (fst (masking (st P0)) + fst (masking (st P1)) + fst (masking (st P2)))); [ring|].
          rewrite M1. ring.
        * eapply synced_ext; [|exact Q2]. intros i. rewrite E, E'. reflexivity.
  Qed.
  Lemma write_lut_from_ohv_wp value w lut ls ohv_ k v st : (length ls <= 2 ^ k)%nat ->
    synced st -> shares value w -> shares_vec lut ls -> shares_vec ohv_ (injv k v) ->
    wp cap (fun i => write_lut_from_ohv (value i) (lut i) (ohv_ i) i (st i))
      (fun r => shares_vec (fun i => fst (r i)) (lupd v w ls) /\ synced (fun i => snd (r i))).
  Proof.
    intros Hn Hs Hw Hl He. destruct (write_local_ok Hw Hs Hl He) as [A1 A2].
    eapply wp_ext.
    { intros i. unfold write_lut_from_ohv. rewrite (pvec_len i Hl), (pvec_len i He). unfold injv at 1. rewrite map_length, onehot_length.
      replace (2 ^ k <? length ls)%nat with false by (symmetry; apply Nat.ltb_ge; exact Hn). reflexivity. }
    cbv zeta. apply wp_bind. apply (wp_reshare_many cap cap_pos). apply wp_ret. cbn [fst snd]. split; [|exact A2].
    rewrite injv_eq, vwrite_onehot in A1 by exact Hn. exact (additive_vec_reshared A1).
  Qed.
  Lemma write_lut_wp K value w lut ls st index x : (2 <= length ls)%nat -> (lut_bits (length ls) <= K)%nat ->
    synced st -> shares value w -> shares_vec lut ls -> shares index x ->
    wp cap (fun i => write_lut dbg dw K (value i) (lut i) i (st i) (index i))
      (fun r => shares_vec (fun i => fst (r i)) (lupd (N.to_nat (x mod 2 ^ N.of_nat (lut_bits (length ls)))) w ls) /\ synced (fun i => snd (r i))).
  Proof.
    intros Hn HK Hs Hw Hl Hi. set (k := lut_bits (length ls)) in *.
    assert (H1 : (1 <= k)%nat) by (apply lut_bits_pos; exact Hn).
    eapply wp_ext.
    { intros i. unfold write_lut. rewrite (pvec_len i Hl). fold k. replace (K <? k)%nat with false by (symmetry; apply Nat.ltb_ge; lia). reflexivity. }
    apply wp_bind. eapply wp_mono; [|apply (@ohv_wp _ _ dbg dw _ _ _ cap_pos K k st index x); [lia|exact Hs|exact Hi]].
    intros e [E1 E2]. apply wp_bind. eapply wp_mono; [|apply (bit_inject_wide_wp E2 E1)].
    intros inj [I1 I2]. eapply wp_mono; [|eapply (@write_lut_from_ohv_wp value w lut ls _ k _ _ (lut_bits_ge _) I2 Hw Hl I1)].
    intros r Hr. exact Hr.
  Qed.
End LutWp.
