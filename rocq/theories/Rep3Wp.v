(** * Interactive replicated protocols: correctness under every schedule *)
From Coq Require Import String List Arith PArith NArith Lia Bool Ring.
From Verif Require Import Proc Alg Rep3Net Rep3 Rep3Spec Rep3Proofs.
Import ListNotations.
Set Implicit Arguments.
Local Open Scope grp_scope.

Section MulWp.
  Context {A B C : Type} `{BL : Bilin A B C}.
  Context {S M : Type} {DC : Draw S C} {EC : Enc M (list C)} (cap : nat) (cap_pos : (1 <= cap)%nat).

  Lemma lmul_additive (a : pid -> share A) (b : pid -> share B) x y :
    shares a x -> shares b y -> additive (fun i => lmul (a i) (b i)) (bmul x y).
  Proof.
    intros (x0 & x1 & x2 & -> & E0 & E1 & E2)%shares_elim (y0 & y1 & y2 & -> & F0 & F1 & F2)%shares_elim.
    unfold additive, lmul. rewrite E0, E1, E2, F0, F1, F2. cbn.
    rewrite !bmul_add_l, !bmul_add_r. grp.
  Qed.
  Lemma additive_masked {G} `{AbGrp G} (z m : pid -> G) x :
    additive z x -> additive m 0 -> additive (fun i => z i + m i) x.
  Proof. unfold additive. intros <- Hm. transitivity (z P0 + z P1 + z P2 + (m P0 + m P1 + m P2)); [grp|rewrite Hm; grp]. Qed.

  Lemma wp_reshare_additive {G} `{AbGrp G} `{Enc M (list G)} {T} (z : pid -> G) x (st : pid -> T)
        (Q : (pid -> share G * T) -> Prop) :
    additive z x ->
    (forall r, shares (fun i => fst (r i)) x -> (forall i, snd (r i) = st i) -> Q r) ->
    wp cap (fun i => c <- reshare i (z i) ;; Ret (mkShare (z i) c, st i)) Q.
  Proof.
    intros A0 HQ. apply wp_bind. apply wp_reshare; [exact cap_pos|]. apply wp_ret. apply HQ; [|reflexivity].
    apply additive_reshared. exact A0.
  Qed.

  Lemma mul_wp (st : pid -> rst S) a b x y : synced st -> shares a x -> shares b y ->
    wp cap (fun i => mul i (st i) (a i) (b i))
      (fun r => shares (fun i => fst (r i)) (bmul x y) /\ synced (fun i => snd (r i))).
  Proof.
    intros Hst Ha Hb. destruct (masking_ok Hst) as [Hm Hst'].
    unfold mul. apply wp_reshare_additive with (x := bmul x y) (st := fun i => snd (masking (st i))).
    - apply additive_masked; [apply lmul_additive; assumption|exact Hm].
    - intros r Hr Es. split; [exact Hr|]. eapply synced_ext; [|exact Hst']. auto.
  Qed.

  Lemma lmul_vec_ok xs : forall ys (st : pid -> rst S) a b,
    synced st -> shares_vec a xs -> shares_vec b ys ->
    additive_vec (fun i => fst (lmul_vec (st i) (a i) (b i))) (map2 bmul xs ys) /\
    synced (fun i => snd (lmul_vec (st i) (a i) (b i))).
  Proof.
    induction xs as [|x xs IH]; intros ys st a b Hst Ha Hb.
    - split.
      + apply pvec_nil. intros i. rewrite (pvec_nil_inv Ha). reflexivity.
      + eapply synced_ext; [|exact Hst]. intros i. rewrite (pvec_nil_inv Ha). reflexivity.
    - destruct (pvec_cons_inv Ha) as (ha & ta & Ea & Hha & Hta).
      destruct ys as [|y ys].
      + split.
        * apply pvec_nil. intros i. rewrite Ea, (pvec_nil_inv Hb). reflexivity.
        * eapply synced_ext; [|exact Hst]. intros i. rewrite Ea, (pvec_nil_inv Hb). reflexivity.
      + destruct (pvec_cons_inv Hb) as (hb & tb & Eb & Hhb & Htb).
        destruct (masking_ok Hst) as [Hm Hst'].
        destruct (IH ys _ ta tb Hst' Hta Htb) as [K1 K2]. split.
        * eapply pvec_cons; [| |exact K1].
          -- intros i. rewrite Ea, Eb. reflexivity.
          -- apply additive_masked; [apply lmul_additive; eassumption|exact Hm].
        * eapply synced_ext; [|exact K2]. intros i. rewrite Ea, Eb. reflexivity.
  Qed.

  Lemma additive_vec_reshared {G} `{AbGrp G} (z : pid -> list G) xs :
    additive_vec z xs -> shares_vec (fun i => map2 mkShare (z i) (z (prev i))) xs.
  Proof.
    revert z. induction xs as [|x xs IH]; intros z Hz.
    - apply pvec_nil. intros i. rewrite (pvec_nil_inv Hz). reflexivity.
    - destruct (pvec_cons_inv Hz) as (h & t & E & Hh & Ht).
      eapply pvec_cons; [|apply additive_reshared; exact Hh|apply (IH t Ht)].
      intros i. rewrite !E. reflexivity.
  Qed.
  Lemma reshare_vec_wp (z : pid -> list C) xs : additive_vec z xs ->
    wp cap (fun i => reshare_vec i (z i)) (fun r => shares_vec r xs).
  Proof.
    intros Hz. unfold reshare_vec. apply wp_bind. apply wp_reshare_many; [exact cap_pos|].
    eapply wp_ext with (qs := fun i => Ret (map2 mkShare (z i) (z (prev i)))).
    - intros i. rewrite !(pvec_len _ Hz), Nat.eqb_refl. reflexivity.
    - apply wp_ret. apply additive_vec_reshared. exact Hz.
  Qed.

  Lemma mul_vec_wp (st : pid -> rst S) a b xs ys :
    synced st -> shares_vec a xs -> shares_vec b ys ->
    wp cap (fun i => mul_vec i (st i) (a i) (b i))
      (fun r => shares_vec (fun i => fst (r i)) (map2 bmul xs ys) /\ synced (fun i => snd (r i))).
  Proof.
    intros Hst Ha Hb. destruct (lmul_vec_ok Hst Ha Hb) as [Hz Hst'].
    unfold mul_vec. apply wp_bind. eapply wp_mono; [|apply reshare_vec_wp; exact Hz].
    intros r Hr. apply wp_ret. split; [exact Hr|]. exact Hst'.
  Qed.

  (** [local_mul_vec] yields an additive sharing of the products. *)
  Lemma local_mul_vec_ok (drawv : nat -> S -> list C * S)
        (Hlen : forall n s, length (fst (drawv n s)) = n) (st : pid -> rst S) a b xs ys :
    synced st -> shares_vec a xs -> shares_vec b ys -> length xs = length ys ->
    exists z, (forall i, local_mul_vec drawv (st i) (a i) (b i) = Some (z i)) /\
      additive_vec (fun i => fst (z i)) (map2 bmul xs ys) /\ synced (fun i => snd (z i)).
  Proof.
    intros Hst Ha Hb El.
    destruct (masking_vec_bytes_ok drawv Hlen (length xs) Hst) as [Hm Hst'].
    exists (fun i => let m := masking_vec_bytes drawv (length xs) (st i) in
                     (map2 gadd (map2 lmul (a i) (b i)) (fst m), snd m)).
    split; [|split].
    - intros i. unfold local_mul_vec. rewrite (pvec_len i Ha), (pvec_len i Hb), El, Nat.eqb_refl. reflexivity.
    - cbn [fst]. replace (map2 bmul xs ys) with (map2 gadd (map2 bmul xs ys) (repeat 0 (length xs))).
      + apply (@pvec_map2 _ _ _ _ _ _ (@additive C _) (@additive C _) (@additive C _) (fun _ => gadd) gadd).
        * unfold additive. intros z m x x' <- <-. grp.
        * apply (@pvec_map2 _ _ _ _ _ _ (@shares A _) (@shares B _) (@additive C _) (fun _ => lmul) bmul); auto.
          intros. apply lmul_additive; assumption.
        * exact Hm.
      + clear -El. revert ys El. induction xs as [|x xs IH]; intros [|y ys] El; try discriminate; [reflexivity|].
        cbn. rewrite IH by (cbn in El; congruence). f_equal. grp.
    - exact Hst'.
  Qed.

  Lemma mul_open_wp (st : pid -> rst S) a b x y : synced st -> shares a x -> shares b y ->
    wp cap (fun i => mul_open i (st i) (a i) (b i))
      (fun r => (forall i, fst (r i) = bmul x y) /\ synced (fun i => snd (r i))).
  Proof.
    intros Hst Ha Hb. destruct (masking_ok Hst) as [Hm Hst'].
    pose proof (additive_masked (lmul_additive Ha Hb) Hm) as Hz.
    unfold mul_open. apply wp_bind. apply wp_broadcast; [exact cap_pos|]. apply wp_ret. cbn. split; [|exact Hst'].
    rewrite <- Hz. intros []; cbn; unfold masking; cbn; grp.
  Qed.
  Lemma additive_vec_open {G} `{AbGrp G} (z : pid -> list G) xs : additive_vec z xs ->
    forall i, map2 gadd (z i) (map2 gadd (z (prev i)) (z (next i))) = xs.
  Proof.
    revert z. induction xs as [|x xs IH]; intros z Hz i.
    - rewrite (pvec_nil_inv Hz i). reflexivity.
    - destruct (pvec_cons_inv Hz) as (h & t & E & Hh & Ht). rewrite !E. cbn. rewrite (IH t Ht i).
      f_equal. unfold additive in Hh. rewrite <- Hh. destruct i; cbn; grp.
  Qed.
  Lemma mul_open_vec_wp (st : pid -> rst S) a b xs ys :
    synced st -> shares_vec a xs -> shares_vec b ys ->
    wp cap (fun i => mul_open_vec i (st i) (a i) (b i))
      (fun r => (forall i, fst (r i) = map2 bmul xs ys) /\ synced (fun i => snd (r i))).
  Proof.
    intros Hst Ha Hb. destruct (lmul_vec_ok Hst Ha Hb) as [Hz Hst'].
    unfold mul_open_vec. apply wp_bind. apply wp_broadcast_many; [exact cap_pos|]. apply wp_ret.
    split; [|exact Hst']. intros i. cbn [fst snd].
    apply (additive_vec_open Hz i).
  Qed.
End MulWp.

Section OpenWp.
  Context {G : Type} `{AbGrp G} {M : Type} {EG : Enc M (list G)} (cap : nat) (cap_pos : (1 <= cap)%nat).
  Lemma shares_open (a : pid -> share G) x i : shares a x -> sa (a i) + sb (a i) + sb (a (prev i)) = x.
  Proof.
    intros (x0 & x1 & x2 & -> & E0 & E1 & E2)%shares_elim.
    destruct i; cbn; rewrite ?E0, ?E1, ?E2; cbn; grp.
  Qed.
  Lemma open_wp (a : pid -> share G) x : shares a x ->
    wp cap (fun i => open i (a i)) (fun r => forall i, r i = x).
  Proof.
    intros Ha. unfold open. apply wp_bind. apply wp_reshare; [exact cap_pos|]. apply wp_ret.
    intros i. apply shares_open. exact Ha.
  Qed.
  Lemma shares_open_vec (a : pid -> list (share G)) xs i : shares_vec a xs ->
    map2 gadd (map2 gadd (map sa (a i)) (map sb (a i))) (map sb (a (prev i))) = xs.
  Proof.
    revert a. induction xs as [|x xs IH]; intros a Ha.
    - rewrite !(pvec_nil_inv Ha). reflexivity.
    - destruct (pvec_cons_inv Ha) as (h & t & E & Hh & Ht). rewrite !E. cbn. f_equal; [|apply IH; exact Ht].
      apply shares_open. exact Hh.
  Qed.
  Lemma open_vec_wp (a : pid -> list (share G)) xs : shares_vec a xs ->
    wp cap (fun i => open_vec i (a i)) (fun r => forall i, r i = xs).
  Proof.
    intros Ha. unfold open_vec. apply wp_bind. apply wp_reshare_many; [exact cap_pos|]. apply wp_ret.
    intros i. cbn. apply shares_open_vec. exact Ha.
  Qed.
  Lemma open_half_wp (z : pid -> G) x : additive z x ->
    wp cap (fun i => open_half i (z i)) (fun r => forall i, r i = x).
  Proof.
    intros Hz. unfold open_half. apply wp_bind. apply wp_broadcast; [exact cap_pos|]. apply wp_ret.
    unfold additive in Hz. rewrite <- Hz. intros []; cbn; grp.
  Qed.
End OpenWp.

Section RingWp.
  Context {R : Type} `{CRing R} {S M : Type} {DR : Draw S R} {ER : Enc M (list R)} (cap : nat) (cap_pos : (1 <= cap)%nat).
  Add Ring Rring : (@cring_theory R _).
  Implicit Types (x y z : R) (st : pid -> rst S).

  Lemma mul_public_ok a x k : shares a x -> shares (fun i => mul_public (a i) k) (rmul x k).
  Proof.
    intros (x0 & x1 & x2 & -> & E0 & E1 & E2)%shares_elim.
    eapply shares_intro; rewrite ?E0, ?E1, ?E2; try reflexivity. cbn. ring.
  Qed.
  Lemma add_mul_public_ok a b x y k : shares a x -> shares b y ->
    shares (fun i => add_mul_public (a i) (b i) k) (x + rmul y k).
  Proof. intros Ha Hb. apply (shadd_ok Ha (mul_public_ok k Hb)). Qed.
  Lemma rmul_wp st a b x y : synced st -> shares a x -> shares b y ->
    wp cap (fun i => mul i (st i) (a i) (b i))
      (fun r => shares (fun i => fst (r i)) (rmul x y) /\ synced (fun i => snd (r i))).
  Proof. intros Hst Ha Hb. exact (mul_wp cap_pos Hst Ha Hb). Qed.
  Lemma add_mul_wp st a b c x y z : synced st -> shares a x -> shares b y -> shares c z ->
    wp cap (fun i => add_mul i (st i) (a i) (b i) (c i))
      (fun r => shares (fun i => fst (r i)) (x + rmul y z) /\ synced (fun i => snd (r i))).
  Proof.
    intros Hst Ha Hb Hc. unfold add_mul. apply wp_bind. eapply wp_mono; [|apply (rmul_wp Hst Hc Hb)].
    intros r [Hr Hs]. apply wp_ret. cbn. split; [|exact Hs].
    replace (rmul y z) with (rmul z y) by ring. apply (shadd_ok Ha Hr).
  Qed.
  Lemma cmux_wp st a b c x y z : synced st -> shares c z -> shares a x -> shares b y ->
    wp cap (fun i => cmux i (st i) (c i) (a i) (b i))
      (fun r => shares (fun i => fst (r i)) (y + rmul z (x - y)) /\ synced (fun i => snd (r i))).
  Proof.
    intros Hst Hc Ha Hb. unfold cmux. apply wp_bind.
    eapply wp_mono; [|apply (rmul_wp Hst Hc (shsub_ok Ha Hb))].
    intros r [Hr Hs]. apply wp_ret. cbn. split; [|exact Hs]. apply (shadd_ok Hb Hr).
  Qed.
  Lemma cmux_local_ok c z : shares c z -> forall xs ys st a b,
    synced st -> shares_vec a xs -> shares_vec b ys ->
    additive_vec (fun i => fst (cmux_local (c i) (st i) (a i) (b i)))
                 (map2 (fun x y => y + rmul z (x - y)) xs ys) /\
    synced (fun i => snd (cmux_local (c i) (st i) (a i) (b i))).
  Proof.
    intros Hc. induction xs as [|x xs IH]; intros ys st a b Hst Ha Hb.
    - split.
      + apply pvec_nil. intros i. rewrite (pvec_nil_inv Ha). reflexivity.
      + eapply synced_ext; [|exact Hst]. intros i. rewrite (pvec_nil_inv Ha). reflexivity.
    - destruct (pvec_cons_inv Ha) as (ha & ta & Ea & Hha & Hta).
      destruct ys as [|y ys].
      + split.
        * apply pvec_nil. intros i. rewrite Ea, (pvec_nil_inv Hb). reflexivity.
        * eapply synced_ext; [|exact Hst]. intros i. rewrite Ea, (pvec_nil_inv Hb). reflexivity.
      + destruct (pvec_cons_inv Hb) as (hb & tb & Eb & Hhb & Htb).
        destruct (masking_ok Hst) as [Hm Hst'].
        destruct (IH ys _ ta tb Hst' Hta Htb) as [K1 K2]. split.
        * eapply pvec_cons; [| |exact K1].
          -- intros i. rewrite Ea, Eb. reflexivity.
          -- apply additive_masked; [|exact Hm].
             pose proof (lmul_additive (shsub_ok Hha Hhb) Hc) as Hl. destruct Hhb as [_ Hy].
             unfold additive in *. rewrite <- Hy. replace (rmul z _) with (rmul (x - y) z) by (rewrite <- Hy; ring).
             rewrite Hy. cbn in Hl. rewrite <- Hl. rewrite <- Hy. grp.
        * eapply synced_ext; [|exact K2]. intros i. rewrite Ea, Eb. reflexivity.
  Qed.
  Lemma cmux_vec_wp st c z a b xs ys : synced st -> shares c z -> shares_vec a xs -> shares_vec b ys ->
    wp cap (fun i => cmux_vec i (st i) (c i) (a i) (b i))
      (fun r => shares_vec (fun i => fst (r i)) (map2 (fun x y => y + rmul z (x - y)) xs ys) /\ synced (fun i => snd (r i))).
  Proof.
    intros Hst Hc Ha Hb. destruct (cmux_local_ok Hc Hst Ha Hb) as [Hz Hst'].
    unfold cmux_vec. apply wp_bind. eapply wp_mono; [|apply (reshare_vec_wp cap_pos); exact Hz].
    intros r Hr. apply wp_ret. split; [exact Hr|]. exact Hst'.
  Qed.

  Lemma xor_local_ok a b x y (m : pid -> R) : shares a x -> shares b y -> additive m 0 ->
    additive (fun i => xor_local (a i) (b i) (m i)) (x + y - (rmul x y + rmul x y)).
  Proof.
    intros Ha Hb Hm. pose proof (additive_masked (lmul_additive Ha Hb) Hm) as Hz.
    destruct Ha as [_ Hx], Hb as [_ Hy]. unfold additive, xor_local in *.
    change (bmul x y) with (rmul x y) in Hz. rewrite <- Hz, <- Hx, <- Hy. grp.
  Qed.
  Lemma arithmetic_xor_wp st a b x y : synced st -> shares a x -> shares b y ->
    wp cap (fun i => arithmetic_xor i (st i) (a i) (b i))
      (fun r => shares (fun i => fst (r i)) (x + y - (rmul x y + rmul x y)) /\ synced (fun i => snd (r i))).
  Proof.
    intros Hst Ha Hb. destruct (masking_ok Hst) as [Hm Hst'].
    unfold arithmetic_xor. eapply wp_reshare_additive with (x := x + y - (rmul x y + rmul x y)) (st := fun i => snd (masking (st i))); [exact cap_pos| |].
    - apply (xor_local_ok Ha Hb Hm).
    - intros r Hr Es. split; [exact Hr|]. eapply synced_ext; [|exact Hst']. auto.
  Qed.
  Lemma xor_local_vec_ok : forall xs ys st a b,
    synced st -> shares_vec a xs -> shares_vec b ys ->
    additive_vec (fun i => fst (xor_local_vec (st i) (a i) (b i)))
                 (map2 (fun x y => x + y - (rmul x y + rmul x y)) xs ys) /\
    synced (fun i => snd (xor_local_vec (st i) (a i) (b i))).
  Proof.
    induction xs as [|x xs IH]; intros ys st a b Hst Ha Hb.
    - split.
      + apply pvec_nil. intros i. rewrite (pvec_nil_inv Ha). reflexivity.
      + eapply synced_ext; [|exact Hst]. intros i. rewrite (pvec_nil_inv Ha). reflexivity.
    - destruct (pvec_cons_inv Ha) as (ha & ta & Ea & Hha & Hta).
      destruct ys as [|y ys].
      + split.
        * apply pvec_nil. intros i. rewrite Ea, (pvec_nil_inv Hb). reflexivity.
        * eapply synced_ext; [|exact Hst]. intros i. rewrite Ea, (pvec_nil_inv Hb). reflexivity.
      + destruct (pvec_cons_inv Hb) as (hb & tb & Eb & Hhb & Htb).
        destruct (masking_ok Hst) as [Hm Hst'].
        destruct (IH ys _ ta tb Hst' Hta Htb) as [K1 K2]. split.
        * eapply pvec_cons; [| |exact K1].
          -- intros i. rewrite Ea, Eb. reflexivity.
          -- apply (xor_local_ok Hha Hhb Hm).
        * eapply synced_ext; [|exact K2]. intros i. rewrite Ea, Eb. reflexivity.
  Qed.
  Lemma arithmetic_xor_many_wp st a b xs ys : synced st -> shares_vec a xs -> shares_vec b ys ->
    wp cap (fun i => arithmetic_xor_many i (st i) (a i) (b i))
      (fun r => shares_vec (fun i => fst (r i)) (map2 (fun x y => x + y - (rmul x y + rmul x y)) xs ys) /\ synced (fun i => snd (r i))).
  Proof.
    intros Hst Ha Hb. destruct (xor_local_vec_ok Hst Ha Hb) as [Hz Hst'].
    unfold arithmetic_xor_many. apply wp_bind. apply wp_reshare_many; [exact cap_pos|].
    apply wp_ret. split; [|exact Hst']. apply (additive_vec_reshared Hz).
  Qed.

  (** Boolean readings. *)
  Definition rbit (b : bool) : R := if b then rone else 0.
  Lemma cmux_bit_wp st a b c (z : bool) x y : synced st -> shares c (rbit z) -> shares a x -> shares b y ->
    wp cap (fun i => cmux i (st i) (c i) (a i) (b i))
      (fun r => shares (fun i => fst (r i)) (if z then x else y) /\ synced (fun i => snd (r i))).
  Proof.
    intros Hst Hc Ha Hb. replace (if z then x else y) with (y + rmul (rbit z) (x - y)); [apply (cmux_wp Hst Hc Ha Hb)|].
    destruct z; unfold rbit; ring.
  Qed.
  Lemma cmux_vec_bit_wp st a b c (z : bool) xs ys : synced st -> shares c (rbit z) -> shares_vec a xs -> shares_vec b ys ->
    length xs = length ys ->
    wp cap (fun i => cmux_vec i (st i) (c i) (a i) (b i))
      (fun r => shares_vec (fun i => fst (r i)) (if z then xs else ys) /\ synced (fun i => snd (r i))).
  Proof.
    intros Hst Hc Ha Hb El. replace (if z then xs else ys) with (map2 (fun x y => y + rmul (rbit z) (x - y)) xs ys);
      [apply (cmux_vec_wp Hst Hc Ha Hb)|].
    clear -El. revert ys El. induction xs as [|x xs IH]; intros [|y ys] El; try discriminate; [destruct z; reflexivity|].
    cbn in *. rewrite IH by congruence. destruct z; unfold rbit; f_equal; ring.
  Qed.
  Lemma xor_bit (x y : bool) : rbit x + rbit y - (rmul (rbit x) (rbit y) + rmul (rbit x) (rbit y)) = rbit (xorb x y).
  Proof. destruct x, y; cbn; ring. Qed.
  Lemma arithmetic_xor_bit_wp st a b (x y : bool) : synced st -> shares a (rbit x) -> shares b (rbit y) ->
    wp cap (fun i => arithmetic_xor i (st i) (a i) (b i))
      (fun r => shares (fun i => fst (r i)) (rbit (xorb x y)) /\ synced (fun i => snd (r i))).
  Proof. intros Hst Ha Hb. rewrite <- xor_bit. apply (arithmetic_xor_wp Hst Ha Hb). Qed.
  Lemma arithmetic_xor_many_bit_wp st a b (xs ys : list bool) : synced st -> shares_vec a (map rbit xs) -> shares_vec b (map rbit ys) ->
    wp cap (fun i => arithmetic_xor_many i (st i) (a i) (b i))
      (fun r => shares_vec (fun i => fst (r i)) (map2 (fun x y : bool => rbit (xorb x y)) xs ys) /\ synced (fun i => snd (r i))).
  Proof.
    intros Hst Ha Hb.
    replace (map2 (fun x y : bool => rbit (xorb x y)) xs ys) with
      (map2 (fun x y => x + y - (rmul x y + rmul x y)) (map rbit xs) (map rbit ys)); [apply (arithmetic_xor_many_wp Hst Ha Hb)|].
    clear. revert ys. induction xs as [|x xs IH]; intros [|y ys]; cbn; try reflexivity. rewrite IH, xor_bit. reflexivity.
  Qed.

  (** Exponentiation, with an independent specification of powers. *)
  Fixpoint ppow (x : R) (e : positive) : R :=
    match e with
    | xH => x
    | xO e => ppow (rmul x x) e
    | xI e => rmul x (ppow (rmul x x) e)
    end.
  Lemma rpow_add x n m : rpow x (n + m) = rmul (rpow x n) (rpow x m).
  Proof. induction n as [|n IH]; cbn; [ring|rewrite IH; ring]. Qed.
  Lemma rpow_sq x n : rpow (rmul x x) n = rpow x (n + n).
  Proof. induction n as [|n IH]; cbn; [reflexivity|]. rewrite IH, Nat.add_succ_r. cbn. ring. Qed.
  Lemma ppow_rpow e : forall x, ppow x e = rpow x (Pos.to_nat e).
  Proof.
    induction e as [e IH|e IH|]; intros x; cbn.
    - rewrite IH, rpow_sq, Pos2Nat.inj_xI. cbn. rewrite Nat.add_0_r. reflexivity.
    - rewrite IH, rpow_sq, Pos2Nat.inj_xO. cbn. rewrite Nat.add_0_r. reflexivity.
    - change (Pos.to_nat 1) with 1%nat. cbn. ring.
  Qed.
  Lemma pow_loop_wp e : forall st res base x y, synced st -> shares res x -> shares base y ->
    wp cap (fun i => pow_loop i e (st i) (res i) (base i))
      (fun r => shares (fun i => fst (r i)) (rmul x (ppow y e)) /\ synced (fun i => snd (r i))).
  Proof.
    induction e as [e IH|e IH|]; intros st res base x y Hst Hr Hb; cbn [pow_loop ppow].
    - apply wp_bind. eapply wp_mono; [|apply (rmul_wp Hst Hr Hb)]. intros r [K1 K2].
      apply wp_bind. eapply wp_mono; [|apply (rmul_wp K2 Hb Hb)]. intros b [K3 K4].
      replace (rmul x (rmul y (ppow (rmul y y) e))) with (rmul (rmul x y) (ppow (rmul y y) e)) by ring.
      apply (IH _ _ _ _ _ K4 K1 K3).
    - apply wp_bind. eapply wp_mono; [|apply (rmul_wp Hst Hb Hb)]. intros b [K3 K4].
      apply (IH _ _ _ _ _ K4 Hr K3).
    - apply wp_bind. eapply wp_mono; [|apply (rmul_wp Hst Hr Hb)]. intros r [K1 K2].
      apply wp_bind. eapply wp_mono; [|apply (rmul_wp K2 Hb Hb)]. intros b [K3 K4].
      apply wp_ret. cbn. auto.
  Qed.
  Lemma pow_public_wp st a x e : synced st -> shares a x ->
    wp cap (fun i => pow_public i (st i) (a i) e)
      (fun r => shares (fun i => fst (r i)) (rpow x (N.to_nat e)) /\ synced (fun i => snd (r i))).
  Proof.
    intros Hst Ha. destruct e as [|e]; cbn.
    - apply wp_ret. cbn. split; [apply promote_ok|exact Hst].
    - eapply wp_mono; [|apply (pow_loop_wp e Hst (promote_ok rone) Ha)].
      intros r [K1 K2]. split; [|exact K2]. rewrite <- ppow_rpow.
      replace (ppow x e) with (rmul rone (ppow x e)) by ring. exact K1.
  Qed.

  (** Polynomial evaluation. *)
  Fixpoint poly_eval (cs : list R) (x : R) (n : nat) : R :=
    match cs with [] => 0 | c :: cs => rmul c (rpow x n) + poly_eval cs x (Datatypes.S n) end.
  Lemma poly_eval_shift cs x : forall n m, poly_eval cs x (n + m) = rmul (poly_eval cs x n) (rpow x m).
  Proof.
    induction cs as [|c cs IH]; intros n m; cbn; [ring|].
    change (Datatypes.S (n + m)) with (Datatypes.S n + m)%nat. rewrite IH, rpow_add. ring.
  Qed.
  Lemma poly_eval_app cs ds x : forall n,
    poly_eval (cs ++ ds) x n = poly_eval cs x n + poly_eval ds x (n + length cs).
  Proof.
    induction cs as [|c cs IH]; intros n; cbn; [rewrite Nat.add_0_r; ring|].
    rewrite IH, Nat.add_succ_r. cbn. ring.
  Qed.
  Lemma horner_ok xs x : forall a, shares_vec a xs -> shares (fun i => horner (a i) x) (poly_eval xs x 0).
  Proof.
    induction xs as [|y xs IH]; intros a Ha.
    - eapply shares_ext; [|exact zero_share_ok]. intros i. rewrite (pvec_nil_inv Ha). reflexivity.
    - destruct (pvec_cons_inv Ha) as (h & t & E & Hh & Ht).
      eapply shares_ext with (s := fun i => shadd (mul_public (horner (t i) x) x) (h i)).
      { intros i. rewrite E. reflexivity. }
      replace (poly_eval (y :: xs) x 0) with (rmul (poly_eval xs x 0) x + y).
      + apply (shadd_ok (mul_public_ok x (IH _ Ht)) Hh).
      + pose proof (poly_eval_shift xs x 0 1) as Q. cbn in *. rewrite Q. ring.
  Qed.
  Lemma pvec_firstn {A B} (Rl : (pid -> A) -> B -> Prop) k : forall l xs,
    pvec Rl l xs -> pvec Rl (fun i => firstn k (l i)) (firstn k xs).
  Proof.
    induction k as [|k IH]; intros l xs Hl; [apply pvec_nil; reflexivity|].
    destruct xs as [|x xs].
    - apply pvec_nil. intros i. rewrite (pvec_nil_inv Hl). reflexivity.
    - destruct (pvec_cons_inv Hl) as (h & t & E & Hh & Ht). cbn.
      eapply pvec_cons; [|exact Hh|apply (IH t xs Ht)]. intros i. rewrite E. reflexivity.
  Qed.
  Lemma pvec_skipn {A B} (Rl : (pid -> A) -> B -> Prop) k : forall l xs,
    pvec Rl l xs -> pvec Rl (fun i => skipn k (l i)) (skipn k xs).
  Proof.
    induction k as [|k IH]; intros l xs Hl; [exact Hl|].
    destruct xs as [|x xs].
    - apply pvec_nil. intros i. rewrite (pvec_nil_inv Hl). reflexivity.
    - destruct (pvec_cons_inv Hl) as (h & t & E & Hh & Ht). cbn.
      eapply pvec_ext; [|apply (IH t xs Ht)]. intros i. rewrite E. reflexivity.
  Qed.
  Lemma eval_chunks_ok k x : (1 <= k)%nat -> forall fuel xs a idx, shares_vec a xs -> (length xs <= fuel)%nat ->
    shares (fun i => eval_chunks k x idx (chunks_ fuel k (a i))) (rmul (poly_eval xs x 0) (rpow x (idx * k))).
  Proof.
    clear cap_pos. intros Hk. induction fuel as [|fuel IH]; intros xs a idx Ha Hf.
    - destruct xs; [|cbn in Hf; lia]. cbn. replace (rmul 0 _) with (0 : R) by ring. apply zero_share_ok.
    - assert (Dx : xs = [] \/ (1 <= length xs)%nat) by (destruct xs; cbn; [left; reflexivity|right; lia]).
      destruct Dx as [->|Exs].
      + eapply shares_ext with (s := fun _ => zero_share).
        { intros i. rewrite (pvec_nil_inv Ha). reflexivity. }
        cbn. replace (rmul 0 _) with (0 : R) by ring. apply zero_share_ok.
      + assert (Hs : (length (skipn k xs) <= fuel)%nat) by (rewrite skipn_length; lia).
        pose proof (IH _ _ (Datatypes.S idx) (pvec_skipn k Ha) Hs) as K1.
        pose proof (mul_public_ok (rpow x (idx * k)) (horner_ok x (pvec_firstn k Ha))) as K2.
        pose proof (shadd_ok K2 K1) as K3.
        eapply shares_ext; [|]. 2: { replace (rmul (poly_eval xs x 0) (rpow x (idx * k))) with
          (rmul (poly_eval (firstn k xs) x 0) (rpow x (idx * k)) +
           rmul (poly_eval (skipn k xs) x 0) (rpow x (Datatypes.S idx * k))); [exact K3|].
          rewrite <- (firstn_skipn k xs) at 3. rewrite poly_eval_app. cbn [Nat.add].
          destruct (Nat.le_gt_cases (length xs) k) as [L|L].
          - rewrite (skipn_all2 xs L). cbn. ring.
          - rewrite firstn_length, Nat.min_l by lia. pose proof (poly_eval_shift (skipn k xs) x 0 k) as Q. cbn [Nat.add] in Q.
            rewrite Q. cbn [Nat.mul Nat.add]. rewrite rpow_add. ring. }
        intros i. cbn. pose proof (pvec_len i Ha) as El. destruct (a i); [cbn in El; lia|reflexivity].
  Qed.
  Lemma eval_poly_ok threads is0 a xs x :
    (1 <= threads)%nat -> (forall z, is0 z = true <-> z = 0) -> shares_vec a xs -> xs <> [] ->
    exists r, (forall i, eval_poly threads is0 (a i) x = Some (r i)) /\ shares r (poly_eval xs x 0).
  Proof.
    clear cap_pos. intros Ht H0 Ha Hne. unfold eval_poly. destruct (is0 x) eqn:E0.
    - apply H0 in E0. subst x. destruct xs as [|y xs]; [contradiction|].
      destruct (pvec_cons_inv Ha) as (h & t & E & Hh & Htl). exists h. split.
      + intros i. rewrite E. reflexivity.
      + replace (poly_eval (y :: xs) 0 0) with y; [exact Hh|].
        pose proof (poly_eval_shift xs 0 0 1) as Q. cbn in *. rewrite Q. ring.
    - exists (fun i => eval_chunks (Nat.max (length xs / threads) 16) x 0 (chunks (Nat.max (length xs / threads) 16) (a i))).
      split.
      + intros i. rewrite (pvec_len i Ha). reflexivity.
      + replace (poly_eval xs x 0) with (rmul (poly_eval xs x 0) (rpow x (0 * Nat.max (length xs / threads) 16))) by (cbn; ring).
        eapply shares_ext; [|apply (@eval_chunks_ok (Nat.max (length xs / threads) 16) x ltac:(lia) (length xs) xs a 0 Ha ltac:(lia))].
        intros i. unfold chunks. rewrite (pvec_len i Ha). reflexivity.
  Qed.
  Lemma eval_poly_empty threads is0 x : eval_poly (R := R) threads is0 [] x = if is0 x then None else Some zero_share.
  Proof. unfold eval_poly. destruct (is0 x); reflexivity. Qed.
End RingWp.

Section FieldWp.
  Context {F : Type} `{Fld F} {S M : Type} {DR : Draw S F} {ER : Enc M (list F)} (cap : nat) (cap_pos : (1 <= cap)%nat).
  Add Ring Fring : (@cring_theory F _).
  Implicit Types (x y z : F) (st : pid -> rst S).

  Lemma finv_ok x : x <> 0 -> rmul x (finv x) = rone.
  Proof. intros Hx. rewrite <- (finv_l x Hx). ring. Qed.
  Lemma fld_integral x y : rmul x y = 0 -> x = 0 \/ y = 0.
  Proof.
    intros E. destruct (feqb x 0) eqn:Ex.
    - left. apply feqb_spec. exact Ex.
    - right. assert (Hx : x <> 0) by (intros C; apply feqb_spec in C; congruence).
      replace y with (rmul (rmul x (finv x)) y) by (rewrite (finv_ok Hx); ring).
      replace (rmul (rmul x (finv x)) y) with (rmul (finv x) (rmul x y)) by ring. rewrite E. ring.
  Qed.
  Lemma finv_prod x y : rmul x y <> 0 -> rmul x (rmul y (finv (rmul x y))) = rone.
  Proof. intros Hxy. rewrite <- (finv_ok Hxy). ring. Qed.
  Lemma mul_eq_finv x y : rmul x y = rone -> x <> 0 -> y = finv x.
  Proof.
    intros E Hx. replace y with (rmul (rmul x (finv x)) y) by (rewrite (finv_ok Hx); ring).
    replace (rmul (rmul x (finv x)) y) with (rmul (finv x) (rmul x y)) by ring. rewrite E. ring.
  Qed.

  (** The random value used by [inv]: the sum of one fresh draw of each party's first generator. *)
  Definition fresh st : F :=
    fst (draw (rng1 (st P0))) + fst (draw (rng1 (st P1))) + fst (draw (rng1 (st P2))).

  Definition inv_post x r (o : pid -> outcome (share F * rst S)) : Prop :=
    (rmul x r = 0 /\ forall i, o i = Failed inv_err) \/
    (rmul x r <> 0 /\ exists v, (forall i, o i = Done (v i)) /\
        shares (fun i => fst (v i)) (finv x) /\ synced (fun i => snd (v i))).
  Lemma inv_ok st a x : synced st -> shares a x ->
    wpo cap (fun i => inv i (st i) (a i)) (inv_post x (fresh st)).
  Proof.
    intros Hst Ha. destruct (rand_ok (G := F) Hst) as [Hr Hst'].
    unfold inv. apply wpo_bind. eapply wp_mono; [|apply (mul_open_wp cap_pos Hst' Ha Hr)].
    intros y [Hy Hs]. fold (fresh st) in Hy. change (bmul x (fresh st)) with (rmul x (fresh st)) in Hy.
    destruct (feqb (rmul x (fresh st)) 0) eqn:E.
    - eapply wpo_ext with (qs := fun _ => Fail inv_err); [intros i; rewrite Hy, E; reflexivity|].
      apply wpo_fail. left. split; [apply feqb_spec; exact E|reflexivity].
    - assert (Hne : rmul x (fresh st) <> 0) by (intros C; apply feqb_spec in C; congruence).
      eapply wpo_ext with (qs := fun i => Ret (mul_public (fst (rand (st i))) (finv (rmul x (fresh st))), snd (y i)));
        [intros i; rewrite Hy, E; reflexivity|].
      apply wp_wpo. apply wp_ret. right. split; [exact Hne|]. eexists. split; [reflexivity|].
      cbn [fst snd]. split; [|exact Hs].
      replace (finv x) with (rmul (fresh st) (finv (rmul x (fresh st)))).
      + apply (mul_public_ok _ Hr).
      + apply mul_eq_finv; [apply finv_prod; exact Hne|]. intros ->. apply Hne. ring.
  Qed.

  Definition fresh_vec n st : list F :=
    map2 gadd (map2 gadd (fst (draws n (rng1 (st P0)))) (fst (draws n (rng1 (st P1))))) (fst (draws n (rng1 (st P2)))).
  Definition inv_vec_post xs rs (o : pid -> outcome (list (share F) * rst S)) : Prop :=
    (In (0 : F) (map2 rmul xs rs) /\ forall i, o i = Failed inv_err) \/
    (~ In (0 : F) (map2 rmul xs rs) /\ exists v, (forall i, o i = Done (v i)) /\
        shares_vec (fun i => fst (v i)) (map finv xs) /\ synced (fun i => snd (v i))).
  Lemma existsb_zero (l : list F) : existsb (fun y => feqb y 0) l = true <-> In (0 : F) l.
  Proof.
    rewrite existsb_exists. split.
    - intros (x & Hx & E). apply feqb_spec in E. subst. exact Hx.
    - intros Hl. exists (0 : F). split; [exact Hl|]. apply feqb_spec. reflexivity.
  Qed.
  Lemma inv_vec_ok st a xs : synced st -> shares_vec a xs ->
    wpo cap (fun i => inv_vec i (st i) (a i)) (inv_vec_post xs (fresh_vec (length xs) st)).
  Proof.
    intros Hst Ha. destruct (rands_ok (G := F) (length xs) Hst) as [Hr Hst'].
    fold (fresh_vec (length xs) st) in Hr.
    unfold inv_vec.
    apply wpo_ext with (qs := fun i =>
      y <- mul_open_vec i (snd (rands (length xs) (st i))) (a i) (fst (rands (length xs) (st i))) ;;
      (if existsb (fun y => feqb y 0) (fst y) then Fail inv_err
       else Ret (map2 (fun r y => mul_public r (finv y)) (fst (rands (length xs) (st i))) (fst y), snd y))).
    { intros i. rewrite (pvec_len i Ha). reflexivity. }
    apply wpo_bind. eapply wp_mono; [|apply (mul_open_vec_wp cap_pos Hst' Ha Hr)].
    intros y [Hy Hs]. set (rs := fresh_vec (length xs) st) in *.
    change (@bmul F F F _ _ _ _) with (@rmul F _) in Hy.
    assert (Elen : length rs = length xs).
    { rewrite <- (pvec_len P0 Hr). apply rands_length. }
    destruct (existsb (fun y => feqb y 0) (map2 rmul xs rs)) eqn:E.
    - eapply wpo_ext with (qs := fun _ => Fail inv_err); [intros i; rewrite Hy, E; reflexivity|].
      apply wpo_fail. left. split; [apply existsb_zero; exact E|reflexivity].
    - assert (Hne : ~ In (0 : F) (map2 rmul xs rs)) by (intros C; apply existsb_zero in C; congruence).
      eapply wpo_ext with (qs := fun i => Ret (map2 (fun r y => mul_public r (finv y)) (fst (rands (length xs) (st i))) (map2 rmul xs rs), snd (y i)));
        [intros i; rewrite Hy, E; reflexivity|].
      apply wp_wpo. apply wp_ret. right. split; [exact Hne|]. eexists. split; [reflexivity|].
      cbn [fst snd]. split; [|exact Hs].
      assert (Ev : map finv xs = map2 (fun r y => rmul r (finv y)) rs (map2 rmul xs rs)).
      { clear -Hne Elen. revert Hne Elen. generalize rs. induction xs as [|x xs IH]; intros [|r ks] Hne El; try discriminate; [reflexivity|].
        cbn in *. f_equal.
        - symmetry. apply mul_eq_finv.
          + apply finv_prod. intros C. apply Hne. left. exact C.
          + intros ->. apply Hne. left. ring.
        - apply IH; [tauto|congruence]. }
      rewrite Ev.
      eapply (@pvec_map2 _ _ _ _ _ _ (@shares F _) (fun (a : pid -> F) y => forall i, a i = y) (@shares F _)
               (fun _ r y => mul_public r (finv y)) (fun r y => rmul r (finv y)) _ (fun _ => map2 rmul xs rs)).
      + intros r yy x0 y0 Hsh Hyy. eapply shares_ext; [|apply (mul_public_ok (finv y0) Hsh)].
        intros i. cbn. rewrite Hyy. reflexivity.
      + exact Hr.
      + split; [reflexivity|]. intros n x0 Hx0. exists (fun _ => x0). split; auto.
  Qed.

  Definition div_post x y r (o : pid -> outcome (share F * rst S)) : Prop :=
    (rmul y r = 0 /\ forall i, o i = Failed inv_err) \/
    (rmul y r <> 0 /\ exists v, (forall i, o i = Done (v i)) /\
        shares (fun i => fst (v i)) (rmul x (finv y)) /\ synced (fun i => snd (v i))).
  Lemma div_ok st a b x y : synced st -> shares a x -> shares b y ->
    wpo cap (fun i => div i (st i) (a i) (b i)) (div_post x y (fresh st)).
  Proof.
    intros Hst Ha Hb. unfold div. apply wpo_seq. eapply wpo_mono; [|apply (inv_ok Hst Hb)].
    intros o [[E Ho]|(E & v & Ho & Hv & Hs)].
    - eapply wpo_ext with (qs := fun _ => Fail inv_err); [intros i; rewrite Ho; reflexivity|].
      apply wpo_fail. left. auto.
    - eapply wpo_ext with (qs := fun i => mul i (snd (v i)) (a i) (fst (v i))); [intros i; rewrite Ho; reflexivity|].
      apply wp_wpo. eapply wp_mono; [|apply (rmul_wp cap_pos Hs Ha Hv)].
      intros r [K1 K2]. right. split; [exact E|]. exists r. auto.
  Qed.
  Lemma div_shared_by_public_ok a x k : shares a x -> k <> 0 ->
    exists r, (forall i, div_shared_by_public (a i) k = Some (r i)) /\ shares r (rmul x (finv k)).
  Proof.
    intros Ha Hk. exists (fun i => mul_public (a i) (finv k)). split; [|apply (mul_public_ok _ Ha)].
    intros i. unfold div_shared_by_public. destruct (feqb k 0) eqn:E; [|reflexivity].
    apply feqb_spec in E. contradiction.
  Qed.
  Lemma div_public_by_shared_ok st k a x : synced st -> shares a x ->
    wpo cap (fun i => div_public_by_shared i (st i) k (a i)) (div_post k x (fresh st)).
  Proof.
    intros Hst Ha. unfold div_public_by_shared. apply wpo_seq. eapply wpo_mono; [|apply (inv_ok Hst Ha)].
    intros o [[E Ho]|(E & v & Ho & Hv & Hs)].
    - eapply wpo_ext with (qs := fun _ => Fail inv_err); [intros i; rewrite Ho; reflexivity|].
      apply wpo_fail. left. auto.
    - eapply wpo_ext with (qs := fun i => Ret (mul_public (fst (v i)) k, snd (v i))); [intros i; rewrite Ho; reflexivity|].
      apply wp_wpo. apply wp_ret. right. split; [exact E|]. eexists. split; [reflexivity|]. cbn. split; [|exact Hs].
      replace (rmul k (finv x)) with (rmul (finv x) k) by ring. apply (mul_public_ok _ Hv).
  Qed.

  (** Square root: on success the result squares to the input; it fails exactly when
      [x * r^2] has no root according to [fsqrt] or the product of the two fresh values is zero. *)
  Definition sqrt_post x (o : pid -> outcome (share F * rst S)) : Prop :=
    (exists e, forall i, o i = Failed e) \/
    (exists v y, (forall i, o i = Done (v i)) /\ rmul y y = x /\
        shares (fun i => fst (v i)) y /\ synced (fun i => snd (v i))).
  Definition snd_rand st : pid -> rst S := fun i => snd (rand (G := F) (st i)).
  Lemma sqrt_ok fsqrt st a x : (forall z w, fsqrt z = Some w -> rmul w w = z) ->
    synced st -> shares a x ->
    wpo cap (fun i => sqrt fsqrt i (st i) (a i))
      (fun o => sqrt_post x o /\
         (forall w, fsqrt (rmul (rmul (fresh st) (fresh st)) x) = Some w ->
            rmul (fresh st) (fresh (snd_rand st)) <> 0 -> exists v, forall i, o i = Done (v i))).
  Proof.
    intros Hsq Hst Ha. destruct (rand_ok (G := F) Hst) as [Hr Hst1].
    destruct (rand_ok (G := F) Hst1) as [Hq Hst2].
    fold (fresh st) in Hr.
    match type of Hq with shares _ ?v => change v with (fresh (snd_rand st)) in Hq end.
    set (r := fresh st) in *. set (q := fresh (snd_rand st)) in *.
    unfold sqrt. apply wpo_bind. eapply wp_mono; [|apply (rmul_wp cap_pos Hst2 Hr Hr)].
    intros rr [Hrr Hs3].
    assert (Hv1 : shares_vec (fun i => [fst (rr i); fst (rand (G := F) (st i))]) [rmul r r; r]).
    { eapply pvec_cons; [reflexivity|exact Hrr|]. eapply pvec_cons; [reflexivity|exact Hr|]. apply pvec_nil. reflexivity. }
    assert (Hv2 : shares_vec (fun i => [a i; fst (rand (G := F) (snd (rand (G := F) (st i))))]) [x; q]).
    { eapply pvec_cons; [reflexivity|exact Ha|]. eapply pvec_cons; [reflexivity|exact Hq|]. apply pvec_nil. reflexivity. }
    apply wpo_bind. eapply wp_mono; [|apply (mul_vec_wp cap_pos Hs3 Hv1 Hv2)].
    intros m [Hm Hs4]. cbn [map2] in Hm. apply wpo_bind. apply wp_reshare_many; [exact cap_pos|].
    destruct (pvec_cons_inv Hm) as (m0 & t & E1 & Hm0 & Ht).
    destruct (pvec_cons_inv Ht) as (m1 & t' & E2 & Hm1 & Ht').
    assert (Em : forall i, fst (m i) = [m0 i; m1 i]).
    { intros i. rewrite E1, E2, (pvec_nil_inv Ht'). reflexivity. }
    cbn [bmul ring_bilin] in Hm0, Hm1.
    eapply wpo_ext with (qs := fun i =>
      match fsqrt (rmul (rmul r r) x) with
      | None => Fail (Eyre "During execution of square root in MPC: cannot compute square root")
      | Some y => if feqb (rmul r q) 0
            then Fail (Eyre "During execution of square root in MPC: cannot compute inverse of zero")
            else Ret (mul_public (mul_public (fst (rand (G := F) (snd (rand (G := F) (st i))))) (finv (rmul r q))) y, snd (m i))
      end).
    { intros i. rewrite !Em. cbn [map]. rewrite (shares_open i Hm0), (shares_open i Hm1). reflexivity. }
    destruct (fsqrt (rmul (rmul r r) x)) as [y|] eqn:Ey.
    - destruct (feqb (rmul r q) 0) eqn:E0.
      + apply wpo_fail. split; [left; eauto|]. intros w _ Hne. apply feqb_spec in E0. contradiction.
      + assert (Hne : rmul r q <> 0) by (intros C; apply feqb_spec in C; congruence).
        apply wp_wpo. apply wp_ret. split; [|intros; eexists; intros; reflexivity]. right.
        eexists. exists (rmul (rmul q (finv (rmul r q))) y). split; [reflexivity|]. cbn [fst snd]. split; [|split; [|exact Hs4]].
        * apply Hsq in Ey.
          transitivity (rmul (rmul (rmul q (finv (rmul r q))) (rmul q (finv (rmul r q)))) (rmul y y)); [ring|].
          rewrite Ey.
          transitivity (rmul (rmul (rmul r (rmul q (finv (rmul r q)))) (rmul r (rmul q (finv (rmul r q))))) x); [ring|].
          rewrite finv_prod by exact Hne. ring.
        * apply (mul_public_ok y (mul_public_ok (finv (rmul r q)) Hq)).
    - apply wpo_fail. split; [left; eauto|]. discriminate.
  Qed.

  (** Re-sharing from two to three parties. *)
  Lemma rands_eq n : forall s : rst S, rands (G := F) n s =
    (map2 mkShare (fst (draws n (rng1 s))) (fst (draws n (rng2 s))),
     set_rand s (snd (draws (X := F) n (rng1 s))) (snd (draws (X := F) n (rng2 s)))).
  Proof.
    induction n as [|n IH]; intros s; cbn; [destruct s; reflexivity|]. rewrite IH. reflexivity.
  Qed.
  Lemma r23_next_eq xs : forall s : rst S, r23_next s xs =
    let D := fst (draws (length xs) (rng2 s)) in
    ((map2 (fun (x : share F) b => sa x + sb x - b) xs D, map2 (fun (x : share F) b => mkShare (sa x + sb x - b) b) xs D),
     set_rand s (rng1 s) (snd (draws (X := F) (length xs) (rng2 s)))).
  Proof.
    induction xs as [|x xs IH]; intros s; cbn; [destruct s; reflexivity|]. rewrite IH. reflexivity.
  Qed.
  Lemma r23_prev_eq xs : forall s : rst S, r23_prev s xs =
    let D := fst (draws (length xs) (rng1 s)) in
    ((map2 (fun (x : share F) b => sa x - b) xs D, map2 (fun (x : share F) b => mkShare b (sa x - b)) xs D),
     set_rand s (snd (draws (X := F) (length xs) (rng1 s))) (rng2 s)).
  Proof.
    induction xs as [|x xs IH]; intros s; cbn; [destruct s; reflexivity|]. rewrite IH. reflexivity.
  Qed.
  Definition r23_res (rec : pid) (a : pid -> list (share F)) (D1 D2 : list F) (i : pid) : list (share F) :=
    let m1 := map2 (fun (x : share F) b => sa x + sb x - b) (a (next rec)) D1 in
    let m2 := map2 (fun (x : share F) b => sa x - b) (a (prev rec)) D2 in
    if pid_eq i rec then map2 mkShare D1 D2
    else if pid_eq i (next rec)
         then map2 (fun s r => mkShare (sa s + r) (sb s)) (map2 (fun (x : share F) b => mkShare (sa x + sb x - b) b) (a (next rec)) D1) m2
         else map2 (fun s r => mkShare (sa s) (sb s + r)) (map2 (fun (x : share F) b => mkShare b (sa x - b)) (a (prev rec)) D2) m1.
  Lemma r23_res_ok rec xs : forall a D1 D2, shares_vec a xs -> length D1 = length xs -> length D2 = length xs ->
    shares_vec (r23_res rec a D1 D2) xs.
  Proof.
    induction xs as [|x xs IH]; intros a D1 D2 Ha E1 E2.
    - apply pvec_nil. destruct D1, D2; try discriminate. intros i. unfold r23_res.
      rewrite !(pvec_nil_inv Ha). destruct (pid_eq i rec), (pid_eq i (next rec)); reflexivity.
    - destruct (pvec_cons_inv Ha) as (h & t & E & Hh & Ht).
      destruct D1 as [|d1 D1], D2 as [|d2 D2]; try discriminate.
      eapply pvec_cons with (h := fun i =>
        if pid_eq i rec then mkShare d1 d2
        else if pid_eq i (next rec) then mkShare (sa (h (next rec)) + sb (h (next rec)) - d1 + (sa (h (prev rec)) - d2)) d1
        else mkShare d2 (sa (h (prev rec)) - d2 + (sa (h (next rec)) + sb (h (next rec)) - d1)));
        [| |apply (IH t D1 D2); cbn in *; auto].
      + intros i. unfold r23_res. rewrite !E. cbn. destruct (pid_eq i rec), (pid_eq i (next rec)); reflexivity.
      + destruct (shares_elim Hh) as (x0 & x1 & x2 & -> & Q0 & Q1 & Q2).
        destruct rec; cbn; rewrite ?Q0, ?Q1, ?Q2; cbn; (split; [intros [] | unfold additive]); cbn; grp.
  Qed.
  Lemma r23_wp rec st a xs len inp : synced st -> shares_vec a xs -> len = length xs ->
    inp (next rec) = Some (a (next rec)) -> inp (prev rec) = Some (a (prev rec)) ->
    wp cap (fun i => reshare_2_to_3 rec i (st i) (inp i) len)
      (fun r => shares_vec (fun i => fst (r i)) xs /\ synced (fun i => snd (r i))).
  Proof.
    intros Hst Ha -> E1 E2.
    pose (D1 := fst (draws (X := F) (length xs) (rng1 (st rec)))).
    pose (D2 := fst (draws (X := F) (length xs) (rng2 (st rec)))).
    pose (g := fun s => snd (draws (X := F) (length xs) s)).
    exists (fun i => (r23_res rec a D1 D2 i,
       if pid_eq i rec then set_rand (st i) (g (rng1 (st i))) (g (rng2 (st i)))
       else if pid_eq i (next rec) then set_rand (st i) (rng1 (st i)) (g (rng2 (st i)))
       else set_rand (st i) (g (rng1 (st i))) (rng2 (st i)))).
    split.
    - assert (L : forall i, length (a i) = length xs) by (intros i; apply (pvec_len i Ha)).
      destruct Hst as [Hs _ _].
      pose proof (Hs P0) as S0. pose proof (Hs P1) as S1. pose proof (Hs P2) as S2. cbn in S0, S1, S2.
      apply runs_comp3. unfold reshare_2_to_3, r23_res.
      destruct rec; cbn [pid_eq next prev pid_rec pid_rect] in *;
        cbn [next prev] in *; rewrite E1, E2, !L, Nat.eqb_refl; cbn [negb];
        unfold send_and_recv_many, send_many, recv_many; cbn [bind]; rewrite !r23_next_eq, !r23_prev_eq, !L; cbn [fst snd];
        repeat step3 cap_pos; apply comp3_ret_eq; unfold D1, D2, g; rewrite ?rands_eq;
        cbn; rewrite ?S0, ?S1, ?S2; reflexivity.
    - cbn. split.
      + apply r23_res_ok; [exact Ha|apply draws_length|apply draws_length].
      + destruct Hst as [Hs B1 B2]. constructor; cbn.
        * intros i. destruct rec, i; cbn; rewrite Hs; reflexivity.
        * destruct rec; cbn; exact B1.
        * destruct rec; cbn; exact B2.
  Qed.
End FieldWp.

Section PointWp.
  Context {F G : Type} `{MO : Mod F G}.
  Context {M : Type} (cap : nat) (cap_pos : (1 <= cap)%nat).
  Lemma scalar_mul_public_point_ok (p : G) a x : shares a x ->
    shares (fun i => scalar_mul_public_point p (a i)) (smul x p).
  Proof.
    intros (x0 & x1 & x2 & -> & E0 & E1 & E2)%shares_elim.
    eapply shares_intro; rewrite ?E0, ?E1, ?E2; try reflexivity. cbn. rewrite !smul_add_l. reflexivity.
  Qed.
  Lemma scalar_mul_public_scalar_ok (k : F) a (p : G) : shares a p ->
    shares (fun i => scalar_mul_public_scalar (a i) k) (smul k p).
  Proof.
    intros (x0 & x1 & x2 & -> & E0 & E1 & E2)%shares_elim.
    eapply shares_intro; rewrite ?E0, ?E1, ?E2; try reflexivity. cbn. rewrite !smul_add_r. reflexivity.
  Qed.
  Lemma promote_point_ok g is0 (p : G) : (forall z, is0 z = true -> z = 0) ->
    shares (fun i => promote_point g is0 i p) p.
  Proof.
    intros Hz. unfold promote_point. destruct (is0 p) eqn:E.
    - apply Hz in E. subst. eapply shares_intro; try reflexivity. cbn. grp.
    - eapply shares_intro; try reflexivity. cbn. grp.
  Qed.
  Lemma msm_add ps : forall xs ys, length xs = length ys ->
    msm ps (map2 gadd xs ys) = msm ps xs + msm ps ys.
  Proof.
    induction ps as [|p ps IH]; intros [|x xs] [|y ys] E; try discriminate; cbn; try grp.
    rewrite IH by (cbn in E; congruence). rewrite smul_add_l. grp.
  Qed.
  Lemma msm_ok ps xs : forall a, shares_vec a xs ->
    shares (fun i => msm_public_points ps (a i)) (msm ps xs).
  Proof.
    revert ps. induction xs as [|x xs IH]; intros ps a Ha.
    - eapply shares_ext with (s := fun _ => zero_share); [|destruct ps; apply zero_share_ok].
      intros i. unfold msm_public_points. rewrite (pvec_nil_inv Ha). destruct ps; reflexivity.
    - destruct (pvec_cons_inv Ha) as (h & t & E & Hh & Ht). destruct ps as [|p ps].
      + eapply shares_ext with (s := fun _ => zero_share); [|apply zero_share_ok]. reflexivity.
      + eapply shares_ext; [|apply (shadd_ok (scalar_mul_public_point_ok p Hh) (IH ps t Ht))].
        intros i. unfold msm_public_points. rewrite E. reflexivity.
  Qed.

  Lemma msm_fold ps : forall xs, msm ps xs = fold_right gadd 0 (map2 (fun p x => smul x p) ps xs).
  Proof. induction ps as [|p ps IH]; intros [|x xs]; cbn; try reflexivity. rewrite IH. reflexivity. Qed.
  Lemma msm_fold_ok ps a xs : shares_vec a xs ->
    shares (fun i => msm_public_points ps (a i)) (fold_right gadd 0 (map2 (fun p x => smul x p) ps xs)).
  Proof. intros Ha. rewrite <- msm_fold. apply msm_ok. exact Ha. Qed.
  Context {EGF : Enc M (list (G * F))} {ELL : Enc M (list (list G * list F))} {EL : Enc M (list (list G))}.
  Lemma open_point_and_field_wp a (p : G) b (x : F) : shares a p -> shares b x ->
    wp cap (fun i => open_point_and_field i (a i) (b i)) (fun r => forall i, r i = (p, x)).
  Proof.
    intros Ha Hb. unfold open_point_and_field. apply wp_bind. apply wp_reshare; [exact cap_pos|]. apply wp_ret.
    intros i. cbn. f_equal; apply shares_open; assumption.
  Qed.
  Lemma shares_open_many {X} `{AbGrp X} (a : pid -> list (share X)) xs i : shares_vec a xs ->
    map2 (fun x c => sa x + sb x + c) (a i) (map sb (a (prev i))) = xs.
  Proof.
    revert a. induction xs as [|x xs IH]; intros a Ha.
    - rewrite !(pvec_nil_inv Ha). reflexivity.
    - destruct (pvec_cons_inv Ha) as (h & t & E & Hh & Ht). rewrite !E. cbn. f_equal; [|apply IH; exact Ht].
      apply shares_open. exact Hh.
  Qed.
  Lemma open_point_and_field_many_wp a (ps : list G) b (xs : list F) : shares_vec a ps -> shares_vec b xs ->
    wp cap (fun i => open_point_and_field_many i (a i) (b i)) (fun r => forall i, r i = (ps, xs)).
  Proof.
    intros Ha Hb. unfold open_point_and_field_many. apply wp_bind. apply wp_reshare; [exact cap_pos|]. apply wp_ret.
    intros i. cbn. f_equal; apply shares_open_many; assumption.
  Qed.
  Lemma open_point_many_wp a (ps : list G) : shares_vec a ps ->
    wp cap (fun i => open_point_many i (a i)) (fun r => forall i, r i = ps).
  Proof.
    intros Ha. unfold open_point_many. apply wp_bind. apply wp_reshare; [exact cap_pos|]. apply wp_ret.
    intros i. cbn. apply shares_open_many; assumption.
  Qed.
End PointWp.
