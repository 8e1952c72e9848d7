(** * Binary sharing: correctness of the protocols of Binary.v under every schedule *)
From Coq Require Import String List Arith NArith Lia Bool.
From Verif Require Import Proc Alg Rep3Net Rep3 Rep3Spec Rep3Proofs Rep3Wp Uint Binary.
Import ListNotations.
Set Implicit Arguments.
Local Open Scope grp_scope.

(** ** Maps that commute with a three-fold xor *)
Definition lin3 (f : N -> N) : Prop :=
  forall a b c, f (N.lxor (N.lxor a b) c) = N.lxor (N.lxor (f a) (f b)) (f c).
Lemma lin3_land m : lin3 (fun v => N.land v m).
Proof. intros a b c. apply N.bits_inj. intro j. rewrite ?N.land_spec, ?N.lxor_spec, ?N.land_spec. destruct (N.testbit a j), (N.testbit b j), (N.testbit c j), (N.testbit m j); reflexivity. Qed.
Lemma lin3_lxor m : lin3 (fun v => N.lxor v m).
Proof. intros a b c. apply N.bits_inj. intro j. rewrite ?N.lxor_spec. destruct (N.testbit a j), (N.testbit b j), (N.testbit c j), (N.testbit m j); reflexivity. Qed.
Lemma lin3_set k : lin3 (fun v => uset_bit v k true).
Proof. intros a b c. apply N.bits_inj. intro j. rewrite ?N.lxor_spec, ?uset_bit_bit, ?N.lxor_spec. destruct (N.eqb j (N.of_nat k)); reflexivity. Qed.
Lemma lin3_shr k : lin3 (fun v => ushr v k).
Proof. intros a b c. apply N.bits_inj. intro j. rewrite ?N.lxor_spec, ?ushr_bit, ?N.lxor_spec. reflexivity. Qed.
Lemma lin3_shl W k : lin3 (fun v => ushl W v k).
Proof.
  intros a b c. apply N.bits_inj. intro j. rewrite ?N.lxor_spec, ?ushl_bit, ?N.lxor_spec.
  destruct (N.ltb j (N.of_nat W)), (N.leb (N.of_nat k) j); reflexivity.
Qed.
Lemma lin3_spread m : lin3 (spread m).
Proof.
  intros a b c. unfold spread. rewrite !ubit_lxor. destruct (ubit a 0), (ubit b 0), (ubit c 0); cbn [xorb];
    rewrite ?N.lxor_0_l, ?N.lxor_0_r, ?N.lxor_nilpotent, ?N.lxor_0_l; reflexivity.
Qed.
Lemma shmap_ok f (s : pid -> share N) x : lin3 f -> shares s x -> shares (fun i => shmap f (s i)) (f x).
Proof.
  intros L (x0 & x1 & x2 & -> & E0 & E1 & E2)%shares_elim.
  eapply shares_intro; rewrite ?E0, ?E1, ?E2; try reflexivity. symmetry. apply L.
Qed.
Lemma shmap_vec_ok {X} f (s : pid -> list (share N)) (g : X -> N) (l : list X) : lin3 f -> shares_vec s (map g l) ->
  shares_vec (fun i => map (shmap f) (s i)) (map (fun x => f (g x)) l).
Proof.
  intros L Hs. rewrite <- (map_map g f). apply (@pvec_map _ _ _ _ (@shares N _) (@shares N _) (fun _ => shmap f) f); [|exact Hs].
  intros. apply shmap_ok; assumption.
Qed.
Arguments shmap_vec_ok {X f s g l}.
(** Components below [2^k]. *)
Definition narrow (k : nat) (s : pid -> share N) : Prop :=
  forall i, (sa (s i) < 2 ^ N.of_nat k /\ sb (s i) < 2 ^ N.of_nat k)%N.
Lemma land1_lt v : (N.land v 1 < 2)%N.
Proof. replace 1%N with (N.ones 1) by reflexivity. rewrite N.land_ones. apply N.mod_lt. discriminate. Qed.
Lemma land1 v : N.land v 1 = N.b2n (ubit v 0).
Proof. replace 1%N with (N.ones 1) at 1 by reflexivity. rewrite N.land_ones. unfold ubit. cbn. symmetry. apply N.bit0_mod. Qed.
Lemma narrow_mask1 s : narrow 1 (fun i => and_mask (s i) 1).
Proof. intros i. split; apply land1_lt. Qed.

Lemma combine_map2_map {X A B C} (h : A -> B -> C) (f : X -> A) (g : X -> B) l :
  map2 h (map f l) (map g l) = map (fun x => h (f x) (g x)) l.
Proof. induction l as [|x l IH]; cbn; congruence. Qed.

Section Wp.
  Context {S M : Type} (W : nat) (du : nat -> S -> N * S).
  Context {EN : Enc M (list N)} {ENN : Enc M (list (N * N))}
          {EL : Enc M (list (list N))} {ELL : Enc M (list (list N * list N))}
          (cap : nat) (cap_pos : (1 <= cap)%nat).
  Implicit Types (st : pid -> rst S).

  Lemma band_wp st a b x y : synced st -> shares a x -> shares b y ->
    wp cap (fun i => band W du i (st i) (a i) (b i))
      (fun r => shares (fun i => fst (r i)) (N.land x y) /\ synced (fun i => snd (r i))).
  Proof. intros Hs Ha Hb. exact (mul_wp (DC := du W) cap_pos Hs Ha Hb). Qed.
  Lemma lor_xor x y : N.lxor (N.lxor x y) (N.land x y) = N.lor x y.
  Proof. apply N.bits_inj. intro j. rewrite !N.lxor_spec, N.land_spec, N.lor_spec. destruct (N.testbit x j), (N.testbit y j); reflexivity. Qed.
  Lemma bor_wp st a b x y : synced st -> shares a x -> shares b y ->
    wp cap (fun i => bor W du i (st i) (a i) (b i))
      (fun r => shares (fun i => fst (r i)) (N.lor x y) /\ synced (fun i => snd (r i))).
  Proof.
    intros Hs Ha Hb. unfold bor. apply wp_bind. eapply wp_mono; [|apply (band_wp Hs Ha Hb)].
    intros r [K1 K2]. apply wp_ret. cbn [fst snd]. split; [|exact K2].
    rewrite <- lor_xor. apply (shadd_ok (shadd_ok Ha Hb) K1).
  Qed.
  Lemma or_public_ok a x c : shares a x -> shares (fun i => or_public i (a i) c) (N.lor x c).
  Proof.
    intros Ha. unfold or_public. rewrite <- lor_xor.
    apply (shadd_ok (add_public_ok c Ha) (shmap_ok (@lin3_land c) Ha)).
  Qed.
  Lemma bcmux_wp st c xt xf m t f : synced st -> shares c m -> shares xt t -> shares xf f ->
    wp cap (fun i => bcmux W du i (st i) (c i) (xt i) (xf i))
      (fun r => shares (fun i => fst (r i)) (N.lxor (N.land m (N.lxor f t)) f) /\ synced (fun i => snd (r i))).
  Proof.
    intros Hs Hc Ht Hf. unfold bcmux. apply wp_bind. eapply wp_mono; [|apply (band_wp Hs Hc (shadd_ok Hf Ht))].
    intros r [K1 K2]. apply wp_ret. cbn [fst snd]. split; [|exact K2]. apply (shadd_ok K1 Hf).
  Qed.
  (** [wp_reshare] for a value of which only part is used *)
  Lemma band_vec_wp st a b xs ys : synced st -> shares_vec a xs -> shares_vec b ys ->
    wp cap (fun i => band_vec W du i (st i) (a i) (b i))
      (fun r => shares_vec (fun i => fst (r i)) (map2 N.land xs ys) /\ synced (fun i => snd (r i))).
  Proof.
    intros Hs Ha Hb. destruct (lmul_vec_ok (DC := du W) Hs Ha Hb) as [Hz Hst'].
    unfold band_vec. apply wp_bind. apply wp_reshare; [exact cap_pos|].
    apply wp_ret. split; [|exact Hst']. apply (additive_vec_reshared Hz).
  Qed.
  Lemma bcmux_many_wp {X} st c xt xf (m t f : X -> N) l :
    synced st -> shares_vec c (map m l) -> shares_vec xt (map t l) -> shares_vec xf (map f l) ->
    wp cap (fun i => bcmux_many W du i (st i) (c i) (xt i) (xf i))
      (fun r => shares_vec (fun i => fst (r i)) (map (fun x => N.lxor (N.land (m x) (N.lxor (f x) (t x))) (f x)) l)
                /\ synced (fun i => snd (r i))).
  Proof.
    intros Hs Hc Ht Hf. unfold bcmux_many.
    eapply wp_ext with (qs := fun i => a <- band_vec W du i (st i) (c i) (map2 shadd (xf i) (xt i)) ;; Ret (map2 shadd (fst a) (xf i), snd a)).
    { intros i. rewrite (pvec_len i Hc), (pvec_len i Ht), (pvec_len i Hf), !map_length, Nat.eqb_refl. reflexivity. }
    apply wp_bind. eapply wp_mono; [|apply band_vec_wp; [exact Hs|exact Hc|]].
    2:{ exact (@pvec_map2 _ _ _ _ _ _ (@shares N _) (@shares N _) (@shares N _) (fun _ => shadd) N.lxor _ _ _ _ (fun a a' x x' Ka Kb => shadd_ok Ka Kb) Hf Ht). }
    intros r [K1 K2]. apply wp_ret. cbn [fst snd]. split; [|exact K2].
    rewrite !combine_map2_map in K1. 
    pose proof (@pvec_map2 _ _ _ _ _ _ (@shares N _) (@shares N _) (@shares N _) (fun _ => shadd) N.lxor _ _ _ _ (fun a a' x x' Ka Kb => shadd_ok Ka Kb) K1 Hf) as K3.
    rewrite combine_map2_map in K3. exact K3.
  Qed.

  (** ** or tree *)
  Lemma or_zip_wp : forall xs ys st a b, synced st -> shares_vec a xs -> shares_vec b ys ->
    wp cap (fun i => or_zip W du i (st i) (a i) (b i))
      (fun r => shares_vec (fun i => fst (r i)) (map2 N.lor xs ys) /\ synced (fun i => snd (r i))).
  Proof.
    induction xs as [|x xs IH]; intros ys st a b Hs Ha Hb.
    - eapply wp_ext with (qs := fun i => Ret ([], st i)); [intros i; rewrite (pvec_nil_inv Ha); reflexivity|].
      apply wp_ret. split; [|exact Hs]. apply pvec_nil. reflexivity.
    - destruct (pvec_cons_inv Ha) as (ha & ta & Ea & Hha & Hta). destruct ys as [|y ys].
      + eapply wp_ext with (qs := fun i => Ret ([], st i)); [intros i; rewrite Ea, (pvec_nil_inv Hb); reflexivity|].
        apply wp_ret. split; [|exact Hs]. apply pvec_nil. reflexivity.
      + destruct (pvec_cons_inv Hb) as (hb & tb & Eb & Hhb & Htb).
        eapply wp_ext; [intros i; rewrite Ea, Eb; reflexivity|]. cbn [or_zip]. apply wp_bind.
        eapply wp_mono; [|apply (bor_wp Hs Hha Hhb)]. intros r [K1 K2]. apply wp_bind.
        eapply wp_mono; [|apply (IH ys _ ta tb K2 Hta Htb)]. intros q [K3 K4]. apply wp_ret. cbn [fst snd].
        split; [|exact K4]. eapply pvec_cons; [reflexivity|exact K1|exact K3].
  Qed.
  Fixpoint big_or (xs : list N) : N := match xs with [] => 0%N | x :: xs => N.lor x (big_or xs) end.
  Lemma big_or_app xs ys : big_or (xs ++ ys) = N.lor (big_or xs) (big_or ys).
  Proof. induction xs as [|x xs IH]; cbn; [reflexivity|]. rewrite IH. apply N.lor_assoc. Qed.
  Lemma big_or_map2 : forall xs ys, length xs = length ys -> big_or (map2 N.lor xs ys) = N.lor (big_or xs) (big_or ys).
  Proof.
    induction xs as [|x xs IH]; intros [|y ys] E; try discriminate; [reflexivity|]. cbn in *.
    rewrite IH by congruence. apply N.bits_inj. intro j. rewrite !N.lor_spec. destruct (N.testbit x j), (N.testbit y j), (N.testbit (big_or xs) j), (N.testbit (big_or ys) j); reflexivity.
  Qed.
  Lemma pvec_firstn_ {A B} (R : (pid -> A) -> B -> Prop) n : forall l xs, pvec R l xs -> pvec R (fun i => firstn n (l i)) (firstn n xs).
  Proof.
    induction n as [|n IH]; intros l xs Hl; [apply pvec_nil; reflexivity|]. destruct xs as [|x xs].
    - apply pvec_nil. intros i. rewrite (pvec_nil_inv Hl). reflexivity.
    - destruct (pvec_cons_inv Hl) as (h & t & E & Hh & Ht). eapply pvec_cons; [|exact Hh|exact (IH _ _ Ht)].
      intros i. rewrite E. reflexivity.
  Qed.
  Lemma pvec_skipn_ {A B} (R : (pid -> A) -> B -> Prop) n : forall l xs, pvec R l xs -> pvec R (fun i => skipn n (l i)) (skipn n xs).
  Proof.
    induction n as [|n IH]; intros l xs Hl; [exact Hl|]. destruct xs as [|x xs].
    - apply pvec_nil. intros i. rewrite (pvec_nil_inv Hl). reflexivity.
    - destruct (pvec_cons_inv Hl) as (h & t & E & Hh & Ht). eapply pvec_ext; [|exact (IH _ _ Ht)].
      intros i. rewrite E. reflexivity.
  Qed.
  Lemma or_tree_loop_wp fuel : forall xs st a, (length xs < fuel)%nat -> xs <> [] -> synced st -> shares_vec a xs ->
    wp cap (fun i => or_tree_loop W du fuel i (st i) (a i))
      (fun r => shares (fun i => fst (r i)) (big_or xs) /\ synced (fun i => snd (r i))).
  Proof.
    induction fuel as [|fuel IH]; intros xs st a L Hn Hs Ha; [lia|]. destruct xs as [|x1 xs1]; [congruence|].
    destruct (pvec_cons_inv Ha) as (h1 & t1 & E1 & Hh1 & Ht1). destruct xs1 as [|x2 xs2].
    - eapply wp_ext with (qs := fun i => Ret (h1 i, st i)); [intros i; rewrite E1, (pvec_nil_inv Ht1); reflexivity|].
      apply wp_ret. cbn [fst snd]. split; [|exact Hs]. cbn. rewrite N.lor_0_r. exact Hh1.
    - destruct (pvec_cons_inv Ht1) as (h2 & t2 & E2 & Hh2 & Ht2).
      set (xs := x1 :: x2 :: xs2) in *. set (num := (length xs / 2)%nat).
      eapply wp_ext with (qs := fun i =>
        r <- or_zip W du i (st i) (firstn num (a i)) (firstn num (skipn num (a i))) ;;
        or_tree_loop W du fuel i (snd r) (fst r ++ skipn num (skipn num (a i)))).
      { intros i. cbn [or_tree_loop]. unfold num. rewrite <- (pvec_len i Ha), E1, E2. reflexivity. }
      assert (Hnum : (num <= length xs - num)%nat /\ (1 <= num < length xs)%nat).
      { unfold num. pose proof (Nat.div_mod (length xs) 2 ltac:(lia)). pose proof (Nat.mod_upper_bound (length xs) 2 ltac:(lia)).
        assert (2 <= length xs)%nat by (cbn; lia). lia. }
      apply wp_bind. eapply wp_mono; [|apply or_zip_wp; [exact Hs|apply pvec_firstn_; exact Ha|apply pvec_firstn_, pvec_skipn_; exact Ha]].
      intros r [K1 K2]. 
      assert (Ef : length (firstn num xs) = length (firstn num (skipn num xs))).
      { rewrite !firstn_length, skipn_length. lia. }
      eapply wp_mono; [|apply IH with (xs := map2 N.lor (firstn num xs) (firstn num (skipn num xs)) ++ skipn num (skipn num xs))].
      + intros q [K3 K4]. split; [|exact K4].
        replace (big_or xs) with (big_or (map2 N.lor (firstn num xs) (firstn num (skipn num xs)) ++ skipn num (skipn num xs))); [exact K3|].
        rewrite big_or_app, big_or_map2 by exact Ef. rewrite <- N.lor_assoc, <- big_or_app, firstn_skipn, <- big_or_app, firstn_skipn. reflexivity.
      + rewrite app_length, map2_length, <- Ef, Nat.min_id, !skipn_length, firstn_length. lia.
      + intros C. apply (f_equal (@length _)) in C. rewrite app_length, map2_length, <- Ef, Nat.min_id, !skipn_length, firstn_length in C. cbn [length] in C. lia.
      + exact K2.
      + apply pvec_app; [exact K1|]. apply pvec_skipn_, pvec_skipn_. exact Ha.
  Qed.
  Lemma or_tree_wp xs st a : xs <> [] -> synced st -> shares_vec a xs ->
    wp cap (fun i => or_tree W du i (st i) (a i))
      (fun r => shares (fun i => fst (r i)) (big_or xs) /\ synced (fun i => snd (r i))).
  Proof.
    intros Hn Hs Ha. unfold or_tree. eapply wp_ext; [intros i; rewrite (pvec_len i Ha); reflexivity|].
    apply or_tree_loop_wp; auto.
  Qed.
  Lemma or_tree_empty_wpo st : wpo cap (fun i => or_tree W du i (st i) [])
    (fun o => forall i, o i = Failed (Panic "index out of bounds")).
  Proof. cbn. apply wpo_fail. reflexivity. Qed.

  (** ** is_zero *)
  (** all of the lowest [n] bits are set *)
  Fixpoint all_set (n : nat) (x : N) : bool := match n with O => true | Datatypes.S n => ubit x n && all_set n x end.
  Lemma all_set_iff n x : all_set n x = true <-> forall j, (j < n)%nat -> ubit x j = true.
  Proof.
    induction n as [|n IH]; cbn; [split; [lia|reflexivity]|]. rewrite andb_true_iff, IH. split.
    - intros [E A] j Hj. destruct (Nat.eq_dec j n) as [->|]; [exact E|]. apply A. lia.
    - intros A. split; [apply A; lia|]. intros j Hj. apply A. lia.
  Qed.
  Lemma all_set_ext n m x y : ((forall j, (j < n)%nat -> ubit x j = true) <-> (forall j, (j < m)%nat -> ubit y j = true)) ->
    all_set n x = all_set m y.
  Proof.
    rewrite <- !all_set_iff. destruct (all_set n x), (all_set m y); intros [P Q]; try reflexivity;
      [symmetry; apply P|apply Q]; reflexivity.
  Qed.
  (** one level of the tree, on values *)
  Definition iz_step (len : nat) (x : N) : nat * N :=
    let odd := Nat.odd len in
    let len1 := if odd then Datatypes.S len else len in
    let x := if odd then uset_bit x (len1 - 1) true else x in
    let half := (len1 / 2)%nat in
    (half, N.land (N.land x (umask half)) (N.land (ushr x half) (umask half))).
  Lemma iz_step_ok len x : (1 < len)%nat -> (1 <= fst (iz_step len x) < len)%nat /\
    all_set (fst (iz_step len x)) (snd (iz_step len x)) = all_set len x.
  Proof.
    intros L. unfold iz_step. set (odd := Nat.odd len). set (len1 := if odd then Datatypes.S len else len).
    cbn [fst snd]. set (x' := if odd then _ else x). set (half := (len1 / 2)%nat).
    assert (E1 : len1 = (2 * half)%nat).
    { unfold half, len1, odd. destruct (Nat.odd len) eqn:E.
      - apply Nat.odd_spec in E. destruct E as [k ->]. replace (Datatypes.S (2 * k + 1)) with ((k + 1) * 2)%nat by lia.
        rewrite Nat.div_mul by lia. lia.
      - apply negb_true_iff in E. rewrite Nat.negb_odd in E. apply Nat.even_spec in E. destruct E as [k ->].
        rewrite (Nat.mul_comm 2), Nat.div_mul by lia. lia. }
    assert (E2 : len1 = len \/ (len1 = Datatypes.S len /\ odd = true)) by (unfold len1; destruct odd; auto).
    split; [destruct E2 as [E2|[E2 _]]; lia|].
    apply all_set_ext.
    assert (Hx' : forall j, (j < len)%nat -> ubit x' j = ubit x j).
    { intros j Hj. unfold x'. destruct odd eqn:Eo; [|reflexivity]. unfold ubit. rewrite uset_bit_bit.
      destruct (N.eqb_spec (N.of_nat j) (N.of_nat (len1 - 1))) as [C|C]; [|reflexivity].
      unfold len1 in C. rewrite ?Eo in C. lia. }
    assert (Hpad : forall j, (len <= j < len1)%nat -> ubit x' j = true).
    { intros j Hj. destruct E2 as [E2|[E2 E3]]; [lia|]. unfold x'. rewrite E3. unfold ubit. rewrite uset_bit_bit.
      destruct (N.eqb_spec (N.of_nat j) (N.of_nat (len1 - 1))) as [C|C]; [reflexivity|]. lia. }
    split.
    - intros A j Hj. rewrite <- Hx' by exact Hj. destruct (Nat.lt_ge_cases j half) as [K|K].
      + specialize (A j K). rewrite !ubit_land, !ubit_mask in A. apply andb_true_iff in A. destruct A as [A _].
        apply andb_true_iff in A. apply A.
      + specialize (A (j - half)%nat ltac:(lia)). rewrite !ubit_land, !ubit_mask, ubit_shr in A.
        apply andb_true_iff in A. destruct A as [_ A]. apply andb_true_iff in A. destruct A as [A _].
        replace (j - half + half)%nat with j in A by lia. exact A.
    - intros A j Hj. rewrite !ubit_land, !ubit_mask, ubit_shr.
      assert (B : forall k, (k < len1)%nat -> ubit x' k = true).
      { intros k Hk. destruct (Nat.lt_ge_cases k len); [rewrite Hx' by assumption; apply A; assumption|apply Hpad; lia]. }
      rewrite !B by lia. destruct (Nat.ltb_spec j half); [reflexivity|lia].
  Qed.
  Lemma is_zero_loop_wp fuel : forall len st a x, (len <= fuel)%nat -> (1 <= len)%nat -> synced st -> shares a x ->
    wp cap (fun i => is_zero_loop W du fuel i (st i) len (a i))
      (fun r => (exists v, shares (fun i => fst (r i)) v /\ ubit v 0 = all_set len x) /\ synced (fun i => snd (r i))).
  Proof.
    induction fuel as [|fuel IH]; intros len st a x L1 L2 Hs Ha; [lia|]. cbn [is_zero_loop].
    destruct (Nat.ltb_spec 1 len) as [K|K].
    - destruct (@iz_step_ok len x K) as [K1 K2]. unfold iz_step in K1, K2. cbn [fst snd] in K1, K2. cbv zeta.
      set (len1 := if Nat.odd len then Datatypes.S len else len) in *.
      set (half := (len1 / 2)%nat) in *.
      set (x' := if Nat.odd len then uset_bit x (len1 - 1) true else x) in *.
      apply wp_bind.
      assert (Ha' : shares (fun i => if Nat.odd len then shset_bit (a i) (len1 - 1) else a i) x').
      { unfold x'. destruct (Nat.odd len); [apply (shmap_ok (@lin3_set _) Ha)|exact Ha]. }
      eapply wp_mono; [|eapply band_wp; [exact Hs|exact (shmap_ok (@lin3_land (umask half)) Ha')|exact (shmap_ok (@lin3_land (umask half)) (shmap_ok (@lin3_shr half) Ha'))]].
      intros r [R1 R2]. eapply wp_mono; [|apply IH; [lia|lia|exact R2|exact R1]].
      intros q [(v & Q1 & Q2) Q3]. split; [|exact Q3]. exists v. split; [exact Q1|]. rewrite Q2. exact K2.
    - apply wp_ret. cbn [fst snd]. split; [|exact Hs]. exists x. split; [exact Ha|].
      replace len with 1%nat by lia. cbn. rewrite andb_true_r. reflexivity.
  Qed.
  Lemma all_set_neg B x : all_set B (N.lxor x (umask B)) = ((x mod 2 ^ N.of_nat B) =? 0)%N.
  Proof.
    destruct (N.eqb_spec (x mod 2 ^ N.of_nat B)%N 0%N) as [E|E].
    - apply all_set_iff. intros j Hj. rewrite ubit_lxor, ubit_mask. destruct (Nat.ltb_spec j B); [|lia].
      unfold ubit. rewrite <- (@N.mod_pow2_bits_low x (N.of_nat B)) by lia. rewrite E, N.bits_0. reflexivity.
    - apply not_true_is_false. rewrite all_set_iff. intros A. apply E. apply N.bits_inj_0. intro j.
      destruct (N.lt_ge_cases j (N.of_nat B)) as [L|L].
      + rewrite N.mod_pow2_bits_low by exact L. specialize (A (N.to_nat j) ltac:(lia)).
        rewrite ubit_lxor, ubit_mask in A. destruct (Nat.ltb_spec (N.to_nat j) B); [|lia].
        unfold ubit in A. rewrite N2Nat.id in A. destruct (N.testbit x j); [discriminate A|reflexivity].
      + apply N.mod_pow2_bits_high. exact L.
  Qed.
  Lemma bis_zero_wp B st a x : (1 <= B)%nat -> synced st -> shares a x ->
    wp cap (fun i => bis_zero W du B i (st i) (a i))
      (fun r => shares (fun i => fst (r i)) (N.b2n (x mod 2 ^ N.of_nat B =? 0)%N) /\ narrow 1 (fun i => fst (r i)) /\ synced (fun i => snd (r i))).
  Proof.
    intros HB Hs Ha. unfold bis_zero. apply wp_bind.
    eapply wp_mono; [|apply is_zero_loop_wp; [reflexivity|exact HB|exact Hs|exact (shmap_ok (@lin3_lxor (umask B)) Ha)]].
    intros r [(v & R1 & R2) R3]. apply wp_ret. cbn [fst snd]. split; [|split; [apply narrow_mask1|exact R3]].
    rewrite <- all_set_neg, <- R2, <- land1. apply (shmap_ok (@lin3_land 1) R1).
  Qed.
  Lemma is_zero_many_loop_wp {X} fuel : forall len st a (f : X -> N) l, (len <= fuel)%nat -> (1 <= len)%nat -> synced st -> shares_vec a (map f l) ->
    wp cap (fun i => is_zero_many_loop W du fuel i (st i) len (a i))
      (fun r => (exists g, shares_vec (fun i => fst (r i)) (map g l) /\ forall x, ubit (g x) 0 = all_set len (f x)) /\ synced (fun i => snd (r i))).
  Proof.
    induction fuel as [|fuel IH]; intros len st a f l L1 L2 Hs Ha; [lia|]. cbn [is_zero_many_loop].
    destruct (Nat.ltb_spec 1 len) as [K|K].
    - pose proof (fun x => @iz_step_ok len x K) as K1. unfold iz_step in K1. cbn [fst snd] in K1. cbv zeta.
      set (len1 := if Nat.odd len then Datatypes.S len else len) in *.
      set (half := (len1 / 2)%nat) in *.
      apply wp_bind.
      assert (Ha' : shares_vec (fun i => if Nat.odd len then map (fun x => shset_bit x (len1 - 1)) (a i) else a i)
                      (map (fun x => if Nat.odd len then uset_bit (f x) (len1 - 1) true else f x) l)).
      { destruct (Nat.odd len); [apply (shmap_vec_ok (@lin3_set (len1 - 1)) Ha)|exact Ha]. }
      eapply wp_mono; [|eapply band_vec_wp; [exact Hs|exact (shmap_vec_ok (@lin3_land (umask half)) Ha')|]].
      2:{ eapply pvec_ext; [|exact (shmap_vec_ok (@lin3_land (umask half)) (shmap_vec_ok (@lin3_shr half) Ha'))].
          intros i. cbv beta. rewrite map_map. reflexivity. }
      intros r [R1 R2]. rewrite combine_map2_map in R1.
      assert (Hh : (1 <= half < len)%nat) by (destruct l as [|x l]; [apply (K1 0%N)|apply (K1 (f x))]).
      eapply wp_mono; [|apply IH; [lia|lia|exact R2|exact R1]].
      intros q [(g & Q1 & Q2) Q3]. split; [|exact Q3]. exists g. split; [exact Q1|]. intros x. rewrite Q2. apply K1.
    - apply wp_ret. cbn [fst snd]. split; [|exact Hs]. exists f. split; [exact Ha|]. intros x.
      replace len with 1%nat by lia. cbn. rewrite andb_true_r. reflexivity.
  Qed.
  Lemma bis_zero_many_wp {X} B st a (f : X -> N) l : (1 <= B)%nat -> synced st -> shares_vec a (map f l) ->
    wp cap (fun i => bis_zero_many W du B i (st i) (a i))
      (fun r => shares_vec (fun i => fst (r i)) (map (fun x => N.b2n (f x mod 2 ^ N.of_nat B =? 0)%N) l) /\
                (forall i, Forall (fun s => sa s < 2 /\ sb s < 2)%N (fst (r i))) /\ synced (fun i => snd (r i))).
  Proof.
    intros HB Hs Ha. unfold bis_zero_many. apply wp_bind.
    eapply wp_mono; [|eapply is_zero_many_loop_wp; [reflexivity|exact HB|exact Hs|]].
    2:{ eapply pvec_ext; [|exact (shmap_vec_ok (@lin3_land (umask B)) (shmap_vec_ok (@lin3_lxor (umask B)) Ha))].
        intros i. cbv beta. rewrite map_map. reflexivity. }
    intros r [(g & R1 & R2) R3]. apply wp_ret. cbn [fst snd]. split; [|split; [|exact R3]].
    - replace (map _ l) with (map (fun x => N.land (g x) 1) l); [apply (shmap_vec_ok (@lin3_land 1) R1)|].
      apply map_ext. intros x. rewrite land1, R2, <- all_set_neg. f_equal. apply all_set_ext. split; intros A j Hj.
      + specialize (A j Hj). rewrite ubit_land in A. apply andb_true_iff in A. apply A.
      + rewrite ubit_land, A, ubit_mask by exact Hj. destruct (Nat.ltb_spec j B); [reflexivity|lia].
    - intros i. apply Forall_forall. intros s Hin. apply in_map_iff in Hin. destruct Hin as (s' & <- & _). split; apply land1_lt.
  Qed.

  (** ** Kogge-Stone *)
  Lemma and_twice_wp st a b1 b2 x y1 y2 n : synced st -> shares a x -> shares b1 y1 -> shares b2 y2 ->
    wp cap (fun i => and_twice du i (st i) (a i) (b1 i) (b2 i) n)
      (fun r => shares (fun i => fst (fst (r i))) (N.land y1 x) /\ shares (fun i => snd (fst (r i))) (N.land x y2) /\
                synced (fun i => snd (r i))).
  Proof.
    intros Hs Ha Hb1 Hb2. unfold and_twice.
    destruct (masking_ok (H0 := du n) Hs) as [M1 Hs1]. destruct (masking_ok (H0 := du n) Hs1) as [M2 Hs2].
    apply wp_bind. apply wp_reshare; [exact cap_pos|]. apply wp_ret. cbn [fst snd].
    split; [|split; [|exact Hs2]].
    - apply additive_reshared with (z := fun i => lmul (b1 i) (a i) + fst (masking (H0 := du n) (st i))).
      apply additive_masked; [exact (lmul_additive Hb1 Ha)|exact M1].
    - apply additive_reshared with (z := fun i => lmul (a i) (b2 i) + fst (masking (H0 := du n) (snd (masking (H0 := du n) (st i))))).
      apply additive_masked; [exact (lmul_additive Ha Hb2)|exact M2].
  Qed.
  Lemma ks_loop_wp n k : forall j st p g x y, (forall i, j <= i < j + k -> 2 ^ i <= n)%nat ->
    synced st -> shares p x -> shares g y ->
    wp cap (fun i => ks_loop W du i n k j (st i) (p i) (g i))
      (fun r => shares (fun i => fst (fst (r i))) (fst (ks_loop_val W n k j x y)) /\
                shares (fun i => snd (fst (r i))) (snd (ks_loop_val W n k j x y)) /\ synced (fun i => snd (r i))).
  Proof.
    induction k as [|k IH]; intros j st p g x y Hj Hs Hp Hg; cbn [ks_loop ks_loop_val].
    - apply wp_ret. cbn [fst snd]. auto.
    - destruct (Nat.ltb_spec n (2 ^ j)) as [C|C]; [specialize (Hj j ltac:(lia)); lia|]. cbv zeta.
      set (s := (2 ^ j)%nat) in *. set (m := umask (n - s)).
      apply wp_bind. eapply wp_mono; [|eapply and_twice_wp; [exact Hs|exact (shmap_ok (@lin3_shr s) Hp)|
        exact (shmap_ok (@lin3_land m) Hg)|exact (shmap_ok (@lin3_land m) Hp)]].
      intros r (R1 & R2 & R3). eapply wp_mono; [|apply IH; [intros i Hi; apply Hj; lia|exact R3|exact (shmap_ok (@lin3_shl W s) R2)|
        exact (shadd_ok Hg (shmap_ok (@lin3_shl W s) R1))]].
      intros q Q. exact Q.
  Qed.
  Lemma ks_inner_wp st p g x y n : (1 <= n < W)%nat -> synced st -> shares p x -> shares g y ->
    wp cap (fun i => ks_inner W du i (st i) (p i) (g i) n)
      (fun r => shares (fun i => fst (r i)) (ks_val W n x y) /\ synced (fun i => snd (r i))).
  Proof.
    intros [L1 L2] Hs Hp Hg. unfold ks_inner. destruct (Nat.ltb_spec n W); [|lia]. destruct (Nat.eqb_spec n 0); [lia|].
    apply wp_bind. eapply wp_mono; [|apply ks_loop_wp; [|exact Hs|exact Hp|exact Hg]].
    2:{ intros i Hi. destruct (ceil_log2_spec L1) as [_ C]. specialize (C i ltac:(lia)). lia. }
    intros r (R1 & R2 & R3). apply wp_ret. cbn [fst snd]. split; [|exact R3].
    apply (shadd_ok (shmap_ok (@lin3_shl W 1) R2) Hp).
  Qed.

  (** Values computed by the adders. *)
  Lemma ks_val_plain n x y : (1 <= n < W)%nat -> (x < 2 ^ N.of_nat n)%N -> (y < 2 ^ N.of_nat n)%N ->
    ks_val W n (N.lxor x y) (N.land x y) = (x + y)%N.
  Proof.
    intros Hn Hx Hy. pose proof (ks_val_add (W := W) (n := n) (x := x) (y := y) false Hn Hx Hy) as E.
    cbn [N.b2n] in E. rewrite !N.lxor_0_r, N.add_0_r in E. exact E.
  Qed.
  Lemma ks_val_carry n x y : (1 <= n < W)%nat -> (x < 2 ^ N.of_nat n)%N -> (y < 2 ^ N.of_nat n)%N ->
    N.lxor (ks_val W n (N.lxor x y) (N.lxor (N.land x y) (N.land (N.lxor x y) 1))) 1 = (x + y + 1)%N.
  Proof. intros Hn Hx Hy. exact (ks_val_add (W := W) (n := n) (x := x) (y := y) true Hn Hx Hy). Qed.
  Lemma compl_val n x : (x < 2 ^ N.of_nat n)%N -> N.lxor x (umask n) = (2 ^ N.of_nat n - 1 - x)%N.
  Proof.
    intros L. change (N.lxor x (umask n)) with (N.lnot x (N.of_nat n)).
    destruct (N.eq_dec x 0%N) as [->|Hx].
    - rewrite N.lnot_0_l, N.ones_equiv, N.sub_0_r. lia.
    - rewrite N.lnot_sub_low by (apply N.log2_lt_pow2; lia). rewrite N.ones_equiv. lia.
  Qed.
  Lemma uwsub_pow n y : (n < W)%nat -> (1 <= y <= 2 ^ N.of_nat n)%N -> uwsub W (ushl W 1 n) y = (2 ^ N.of_nat n - y)%N.
  Proof.
    intros HW Hy. unfold uwsub, ushl. rewrite N.shiftl_1_l.
    assert (2 ^ N.of_nat n < 2 ^ N.of_nat W)%N by (apply N.pow_lt_mono_r; lia).
    rewrite (N.mod_small (2 ^ N.of_nat n)%N) by assumption.
    replace (2 ^ N.of_nat n + 2 ^ N.of_nat W - y)%N with ((2 ^ N.of_nat n - y) + 1 * 2 ^ N.of_nat W)%N by lia.
    rewrite N.mod_add by lia. apply N.mod_small. lia.
  Qed.

  Lemma ks_add_wp st a b x y n : (1 <= n < W)%nat -> (x < 2 ^ N.of_nat n)%N -> (y < 2 ^ N.of_nat n)%N ->
    synced st -> shares a x -> shares b y ->
    wp cap (fun i => ks_add W du i (st i) (a i) (b i) n)
      (fun r => shares (fun i => fst (r i)) (x + y)%N /\ synced (fun i => snd (r i))).
  Proof.
    intros Hn Hx Hy Hs Ha Hb. unfold ks_add. apply wp_bind. eapply wp_mono; [|apply (band_wp Hs Ha Hb)].
    intros r [R1 R2]. eapply wp_mono; [|apply (ks_inner_wp Hn R2 (shadd_ok Ha Hb) R1)].
    intros q [Q1 Q2]. split; [|exact Q2]. rewrite <- (ks_val_plain Hn Hx Hy). exact Q1.
  Qed.
  Lemma ks_sub_wp st a b x y n : (1 <= n < W)%nat -> (x < 2 ^ N.of_nat n)%N -> (y < 2 ^ N.of_nat n)%N ->
    synced st -> shares a x -> shares b y ->
    wp cap (fun i => ks_sub W du i (st i) (a i) (b i) n)
      (fun r => shares (fun i => fst (r i)) (2 ^ N.of_nat n + x - y)%N /\ synced (fun i => snd (r i))).
  Proof.
    intros Hn Hx Hy Hs Ha Hb. unfold ks_sub. cbv zeta.
    pose proof (shmap_ok (@lin3_lxor (umask n)) Hb) as Hb'. pose proof (shadd_ok Ha Hb') as Hp.
    apply wp_bind. eapply wp_mono; [|apply (band_wp Hs Ha Hb')]. intros r [R1 R2]. apply wp_bind.
    eapply wp_mono; [|apply (ks_inner_wp Hn R2 Hp (shadd_ok R1 (shmap_ok (@lin3_land 1) Hp)))].
    intros q [Q1 Q2]. apply wp_ret. cbn [fst snd]. split; [|exact Q2].
    pose proof (@compl_val n y Hy) as Ec.
    replace (2 ^ N.of_nat n + x - y)%N with (x + N.lxor y (umask n) + 1)%N by (rewrite Ec; lia).
    rewrite <- ks_val_carry with (n := n); [apply (shmap_ok (@lin3_lxor 1) Q1)|exact Hn|exact Hx|].
    rewrite Ec. lia.
  Qed.
  Lemma ks_sub_by_const_wp st a x y n : (1 <= n < W)%nat -> (x < 2 ^ N.of_nat n)%N -> (1 <= y <= 2 ^ N.of_nat n)%N ->
    synced st -> shares a x ->
    wp cap (fun i => ks_sub_by_const W du i (st i) (a i) y n)
      (fun r => shares (fun i => fst (r i)) (2 ^ N.of_nat n + x - y)%N /\ synced (fun i => snd (r i))).
  Proof.
    intros Hn Hx Hy Hs Ha. unfold ks_sub_by_const. rewrite (@uwsub_pow n y) by (try exact Hy; lia).
    set (c := (2 ^ N.of_nat n - y)%N) in *.
    eapply wp_mono; [|apply (ks_inner_wp Hn Hs (shmap_ok (@lin3_lxor c) Ha) (shmap_ok (@lin3_land c) Ha))].
    intros q [Q1 Q2]. split; [|exact Q2].
    replace (2 ^ N.of_nat n + x - y)%N with (x + c)%N by (unfold c; lia).
    rewrite <- (ks_val_plain (n := n)); [exact Q1|exact Hn|exact Hx|unfold c; lia].
  Qed.
  Lemma ks_sub_from_const_wp st b x y n : (1 <= n < W)%nat -> (x < 2 ^ N.of_nat n)%N -> (y < 2 ^ N.of_nat n)%N ->
    synced st -> shares b y ->
    wp cap (fun i => ks_sub_from_const W du i (st i) x (b i) n)
      (fun r => shares (fun i => fst (r i)) (2 ^ N.of_nat n + x - y)%N /\ synced (fun i => snd (r i))).
  Proof.
    intros Hn Hx Hy Hs Hb. unfold ks_sub_from_const. cbv zeta.
    pose proof (shmap_ok (@lin3_lxor (umask n)) Hb) as Hb'. cbv beta in Hb'.
    pose proof (shmap_ok (@lin3_lxor x) Hb') as Hp. pose proof (shmap_ok (@lin3_land x) Hb') as Hg.
    apply wp_bind. eapply wp_mono; [|apply (ks_inner_wp Hn Hs Hp (shadd_ok Hg (shmap_ok (@lin3_land 1) Hp)))].
    intros q [Q1 Q2]. apply wp_ret. cbn [fst snd]. split; [|exact Q2].
    pose proof (@compl_val n y Hy) as Ec.
    replace (2 ^ N.of_nat n + x - y)%N with (N.lxor y (umask n) + x + 1)%N by (rewrite Ec; lia).
    rewrite <- ks_val_carry with (n := n); [apply (shmap_ok (@lin3_lxor 1) Q1)|exact Hn| |exact Hx].
    rewrite Ec. lia.
  Qed.

  (** Reduction modulo [p] after an addition. *)
  Definition subp_val (n : nat) (p x : N) : N :=
    let y := (x + (2 ^ N.of_nat n - p))%N in
    let m := umask (n - 1) in
    N.lxor (N.land (spread m (ushr y n)) (N.lxor (N.land x m) (N.land y m))) (N.land x m).
  Lemma subp_val_ok n p x : (1 <= n)%nat -> (1 <= p < 2 ^ N.of_nat (n - 1))%N -> (x < 2 * p)%N -> subp_val n p x = (x mod p)%N.
  Proof.
    intros Hn Hp Hx. unfold subp_val. cbv zeta.
    assert (En : (2 ^ N.of_nat n = 2 * 2 ^ N.of_nat (n - 1))%N).
    { replace (N.of_nat n) with (N.succ (N.of_nat (n - 1))) by lia. apply N.pow_succ_r'. }
    set (q := (2 ^ N.of_nat (n - 1))%N) in *. set (y := (x + (2 ^ N.of_nat n - p))%N).
    assert (Hbit : ubit (ushr y n) 0 = (p <=? x)%N).
    { unfold ubit, ushr. cbn [N.of_nat]. rewrite N.shiftr_spec', N.add_0_l.
      destruct (N.leb_spec p x) as [L|L].
      - apply N.testbit_true. replace y with ((x - p) + 1 * 2 ^ N.of_nat n)%N by (unfold y; lia).
        rewrite N.div_add by lia. rewrite N.div_small by lia. reflexivity.
      - apply N.testbit_false. rewrite N.div_small by (unfold y; lia). reflexivity. }
    unfold spread. rewrite Hbit, !land_mask. fold q. destruct (N.leb_spec p x) as [L|L].
    - rewrite N.land_comm, land_mask. fold q.
      replace (y mod q)%N with (x - p)%N.
      2:{ replace y with ((x - p) + 2 * q)%N by (unfold y; lia). rewrite N.mod_add by lia. symmetry. apply N.mod_small. lia. }
      replace (x mod p)%N with (x - p)%N.
      2:{ replace x with ((x - p) + 1 * p)%N at 2 by lia. rewrite N.mod_add by lia. symmetry. apply N.mod_small. lia. }
      rewrite N.mod_small.
      + rewrite (N.lxor_comm (x mod q)), N.lxor_assoc, N.lxor_nilpotent, N.lxor_0_r. reflexivity.
      + apply bits_lt. intros j Hj. rewrite N.lxor_spec.
        assert (Hq : forall z, (z < q)%N -> N.testbit z j = false) by (intros z Hz; apply (proj1 (bits_lt z (N.of_nat (n - 1))) Hz); exact Hj).
        rewrite !Hq; [reflexivity|lia|apply N.mod_lt; lia].
    - rewrite N.land_0_l, N.lxor_0_l. rewrite !N.mod_small by lia. reflexivity.
  Qed.
  Lemma ks_sub_p_wp p st a x n : (1 <= n < W)%nat -> (1 <= p <= 2 ^ N.of_nat n)%N -> (x < 2 ^ N.of_nat n)%N ->
    synced st -> shares a x ->
    wp cap (fun i => ks_sub_p W du p i (st i) (a i) n)
      (fun r => shares (fun i => fst (r i)) (x + (2 ^ N.of_nat n - p))%N /\ synced (fun i => snd (r i))).
  Proof.
    intros Hn Hp Hx Hs Ha. unfold ks_sub_p. rewrite (@uwsub_pow n p) by (try exact Hp; lia).
    set (c := (2 ^ N.of_nat n - p)%N) in *.
    eapply wp_mono; [|apply (ks_inner_wp Hn Hs (shmap_ok (@lin3_lxor c) Ha) (shmap_ok (@lin3_land c) Ha))].
    intros q [Q1 Q2]. split; [|exact Q2].
    rewrite <- (ks_val_plain (n := n)); [exact Q1|exact Hn|exact Hx|unfold c; lia].
  Qed.
  Lemma sub_p_cmux_wp p st a x n : (1 <= n < W)%nat -> (1 <= p < 2 ^ N.of_nat (n - 1))%N -> (x < 2 * p)%N ->
    synced st -> shares a x ->
    wp cap (fun i => sub_p_cmux W du p i (st i) (a i) n)
      (fun r => shares (fun i => fst (r i)) (x mod p)%N /\ synced (fun i => snd (r i))).
  Proof.
    intros Hn Hp Hx Hs Ha.
    assert (En : (2 ^ N.of_nat n = 2 * 2 ^ N.of_nat (n - 1))%N).
    { replace (N.of_nat n) with (N.succ (N.of_nat (n - 1))) by lia. apply N.pow_succ_r'. }
    unfold sub_p_cmux. cbv zeta. apply wp_bind.
    eapply wp_mono; [|apply (@ks_sub_p_wp p st a x n Hn); [lia|lia|exact Hs|exact Ha]].
    intros r [R1 R2].
    eapply wp_mono; [|eapply bcmux_wp; [exact R2|exact (shmap_ok (@lin3_spread (umask (n - 1))) (shmap_ok (@lin3_shr n) R1))|
      exact (shmap_ok (@lin3_land (umask (n - 1))) R1)|exact (shmap_ok (@lin3_land (umask (n - 1))) Ha)]].
    intros q [Q1 Q2]. split; [|exact Q2]. rewrite <- (@subp_val_ok n p x) by (try assumption; lia). exact Q1.
  Qed.
  Lemma add_mod_p_wp p st a b x y n : (1 <= n)%nat -> (n + 1 < W)%nat -> (1 <= p < 2 ^ N.of_nat n)%N -> (x < p)%N -> (y < p)%N ->
    synced st -> shares a x -> shares b y ->
    wp cap (fun i => add_mod_p W du p i (st i) (a i) (b i) n)
      (fun r => shares (fun i => fst (r i)) ((x + y) mod p)%N /\ synced (fun i => snd (r i))).
  Proof.
    intros Hn HW Hp Hx Hy Hs Ha Hb. unfold add_mod_p. apply wp_bind.
    eapply wp_mono; [|apply ks_add_wp; [split; [exact Hn|lia]| | |exact Hs|exact Ha|exact Hb]; lia].
    intros r [R1 R2]. apply sub_p_cmux_wp; [lia| |lia|exact R2|exact R1].
    replace (n + 1 - 1)%nat with n by lia. exact Hp.
  Qed.

  (** ** Batched versions *)
  Lemma and_twice_local_ok {X} n : forall (l : list X) (fa f1 f2 : X -> N) st a b1 b2, synced st ->
    shares_vec a (map fa l) -> shares_vec b1 (map f1 l) -> shares_vec b2 (map f2 l) ->
    let z := fun i => and_twice_local du n (st i) (a i) (b1 i) (b2 i) in
    additive_vec (fun i => fst (fst (z i))) (map (fun x => N.land (f1 x) (fa x)) l) /\
    additive_vec (fun i => snd (fst (z i))) (map (fun x => N.land (fa x) (f2 x)) l) /\
    synced (fun i => snd (z i)).
  Proof.
    induction l as [|x l IH]; intros fa f1 f2 st a b1 b2 Hs Ha Hb1 Hb2; cbn [map] in *.
    - cbv zeta. split; [|split].
      + apply pvec_nil. intros i. rewrite (pvec_nil_inv Ha). reflexivity.
      + apply pvec_nil. intros i. rewrite (pvec_nil_inv Ha). reflexivity.
      + eapply synced_ext; [|exact Hs]. intros i. rewrite (pvec_nil_inv Ha). reflexivity.
    - destruct (pvec_cons_inv Ha) as (ha & ta & Ea & Hha & Hta).
      destruct (pvec_cons_inv Hb1) as (h1 & t1 & E1 & Hh1 & Ht1).
      destruct (pvec_cons_inv Hb2) as (h2 & t2 & E2 & Hh2 & Ht2).
      destruct (masking_ok (H0 := du n) Hs) as [M1 Hs1]. destruct (masking_ok (H0 := du n) Hs1) as [M2 Hs2].
      destruct (IH fa f1 f2 _ ta t1 t2 Hs2 Hta Ht1 Ht2) as (K1 & K2 & K3).
      cbv zeta. split; [|split].
      + eapply pvec_cons; [intros i; rewrite Ea, E1, E2; reflexivity| |exact K1].
        apply additive_masked; [exact (lmul_additive Hh1 Hha)|exact M1].
      + eapply pvec_cons; [intros i; rewrite Ea, E1, E2; reflexivity| |exact K2].
        apply additive_masked; [exact (lmul_additive Hha Hh2)|exact M2].
      + eapply synced_ext; [|exact K3]. intros i. rewrite Ea, E1, E2. reflexivity.
  Qed.
  Lemma and_twice_many_wp {X} (l : list X) (fa f1 f2 : X -> N) st a b1 b2 n : synced st ->
    shares_vec a (map fa l) -> shares_vec b1 (map f1 l) -> shares_vec b2 (map f2 l) ->
    wp cap (fun i => and_twice_many du i (st i) (a i) (b1 i) (b2 i) n)
      (fun r => shares_vec (fun i => fst (fst (r i))) (map (fun x => N.land (f1 x) (fa x)) l) /\
                shares_vec (fun i => snd (fst (r i))) (map (fun x => N.land (fa x) (f2 x)) l) /\
                synced (fun i => snd (r i))).
  Proof.
    intros Hs Ha Hb1 Hb2. destruct (and_twice_local_ok n _ _ _ _ Hs Ha Hb1 Hb2) as (K1 & K2 & K3).
    unfold and_twice_many. apply wp_bind. apply wp_reshare; [exact cap_pos|]. apply wp_ret. cbn [fst snd].
    split; [|split; [|exact K3]].
    - apply (additive_vec_reshared K1).
    - apply (additive_vec_reshared K2).
  Qed.
  Lemma shadd_vec_ok {X} (f g : X -> N) l a b : shares_vec a (map f l) -> shares_vec b (map g l) ->
    shares_vec (fun i => map2 shadd (a i) (b i)) (map (fun x => N.lxor (f x) (g x)) l).
  Proof.
    intros Ha Hb. rewrite <- combine_map2_map.
    exact (@pvec_map2 _ _ _ _ _ _ (@shares N _) (@shares N _) (@shares N _) (fun _ => shadd) N.lxor _ _ _ _ (fun a a' x x' Ka Kb => shadd_ok Ka Kb) Ha Hb).
  Qed.
  Arguments shadd_vec_ok {X f g l a b}.
  Lemma map2_map_r {A B C D} (h : A -> B -> C) (f : D -> B) l k : map2 h l (map f k) = map2 (fun x y => h x (f y)) l k.
  Proof. revert k. induction l as [|x l IH]; intros [|y k]; cbn; try reflexivity. rewrite IH. reflexivity. Qed.
  Lemma map2_map_l {A B C D} (h : A -> B -> C) (f : D -> A) l k : map2 h (map f l) k = map2 (fun x y => h (f x) y) l k.
  Proof. revert k. induction l as [|x l IH]; intros [|y k]; cbn; try reflexivity. rewrite IH. reflexivity. Qed.

  Lemma ks_loop_many_wp {X} (l : list X) n k : forall j st p g (f h : X -> N), (forall i, j <= i < j + k -> 2 ^ i <= n)%nat ->
    synced st -> shares_vec p (map f l) -> shares_vec g (map h l) ->
    wp cap (fun i => ks_loop_many W du i n k j (st i) (p i) (g i))
      (fun r => shares_vec (fun i => fst (fst (r i))) (map (fun x => fst (ks_loop_val W n k j (f x) (h x))) l) /\
                shares_vec (fun i => snd (fst (r i))) (map (fun x => snd (ks_loop_val W n k j (f x) (h x))) l) /\ synced (fun i => snd (r i))).
  Proof.
    induction k as [|k IH]; intros j st p g f h Hj Hs Hp Hg; cbn [ks_loop_many ks_loop_val].
    - apply wp_ret. cbn [fst snd]. auto.
    - destruct (Nat.ltb_spec n (2 ^ j)) as [C|C]; [specialize (Hj j ltac:(lia)); lia|]. cbv zeta.
      set (s := (2 ^ j)%nat) in *. set (m := umask (n - s)).
      apply wp_bind. eapply wp_mono; [|eapply and_twice_many_wp; [exact Hs|exact (shmap_vec_ok (@lin3_shr s) Hp)|
        exact (shmap_vec_ok (@lin3_land m) Hg)|exact (shmap_vec_ok (@lin3_land m) Hp)]].
      intros r (R1 & R2 & R3). eapply wp_mono; [|eapply IH; [intros i Hi; apply Hj; lia|exact R3|exact (shmap_vec_ok (@lin3_shl W s) R2)|]].
      2:{ eapply pvec_ext; [|exact (shadd_vec_ok Hg (shmap_vec_ok (@lin3_shl W s) R1))].
          intros i. apply map2_map_r. }
      intros q Q. exact Q.
  Qed.
  Lemma ks_inner_many_wp {X} (l : list X) st p g (f h : X -> N) n : (1 <= n < W)%nat -> synced st ->
    shares_vec p (map f l) -> shares_vec g (map h l) ->
    wp cap (fun i => ks_inner_many W du i (st i) (p i) (g i) n)
      (fun r => shares_vec (fun i => fst (r i)) (map (fun x => ks_val W n (f x) (h x)) l) /\ synced (fun i => snd (r i))).
  Proof.
    intros [L1 L2] Hs Hp Hg. unfold ks_inner_many. destruct (Nat.ltb_spec n W); [|lia]. destruct (Nat.eqb_spec n 0); [lia|].
    apply wp_bind. eapply wp_mono; [|eapply ks_loop_many_wp; [|exact Hs|exact Hp|exact Hg]].
    2:{ intros i Hi. destruct (ceil_log2_spec L1) as [_ C]. specialize (C i ltac:(lia)). lia. }
    intros r (R1 & R2 & R3). apply wp_ret. cbn [fst snd]. split; [|exact R3].
    eapply pvec_ext; [|exact (shadd_vec_ok (shmap_vec_ok (@lin3_shl W 1) R2) Hp)].
    intros i. apply map2_map_l.
  Qed.
  Lemma add_mod_p_many_wp {X} (l : list X) p st a b (f g : X -> N) n : (1 <= n)%nat -> (n + 1 < W)%nat -> (1 <= p < 2 ^ N.of_nat n)%N ->
    (forall x, In x l -> f x < p /\ g x < p)%N ->
    synced st -> shares_vec a (map f l) -> shares_vec b (map g l) ->
    wp cap (fun i => add_mod_p_many W du p i (st i) (a i) (b i) n)
      (fun r => shares_vec (fun i => fst (r i)) (map (fun x => (f x + g x) mod p)%N l) /\ synced (fun i => snd (r i))).
  Proof.
    intros Hn HW Hp Hfg Hs Ha Hb. unfold add_mod_p_many, ks_add_many. apply wp_bind. apply wp_bind.
    eapply wp_mono; [|apply (band_vec_wp Hs Ha Hb)]. intros r0 [R01 R02]. rewrite combine_map2_map in R01.
    eapply wp_mono; [|eapply (@ks_inner_many_wp _ _ _ _ _ _ _ n); [lia|exact R02|exact (shadd_vec_ok Ha Hb)|exact R01]].
    intros r [R1 R2]. cbv beta in R1.
    assert (Ep : forall x, In x l -> ks_val W n (N.lxor (f x) (g x)) (N.land (f x) (g x)) = (f x + g x)%N).
    { intros x Hin. specialize (Hfg x Hin). apply ks_val_plain; lia. }
    rewrite (map_ext_in _ _ _ Ep) in R1.
    assert (En : (2 ^ N.of_nat (n + 1) = 2 * 2 ^ N.of_nat n)%N).
    { replace (N.of_nat (n + 1)) with (N.succ (N.of_nat n)) by lia. apply N.pow_succ_r'. }
    unfold sub_p_cmux_many, ks_sub_p_many. cbv zeta. apply wp_bind.
    rewrite (@uwsub_pow (n + 1) p) by lia. set (c := (2 ^ N.of_nat (n + 1) - p)%N) in *.
    eapply wp_mono; [|eapply (@ks_inner_many_wp _ _ _ _ _ _ _ (n + 1)); [lia|exact R2|exact (shmap_vec_ok (@lin3_lxor c) R1)|exact (shmap_vec_ok (@lin3_land c) R1)]].
    intros q [Q1 Q2]. cbv beta in Q1.
    assert (Eq : forall x, In x l -> ks_val W (n + 1) (N.lxor (f x + g x) c) (N.land (f x + g x) c) = (f x + g x + c)%N).
    { intros x Hin. specialize (Hfg x Hin). apply ks_val_plain; unfold c; lia. }
    rewrite (map_ext_in _ _ _ Eq) in Q1.
    set (m := umask (n + 1 - 1)).
    eapply wp_mono; [|eapply bcmux_many_wp; [exact Q2| |exact (shmap_vec_ok (@lin3_land m) Q1)|exact (shmap_vec_ok (@lin3_land m) R1)]].
    2:{ eapply pvec_ext; [|exact (shmap_vec_ok (@lin3_spread m) (shmap_vec_ok (@lin3_shr (n + 1)) Q1))].
        intros i. cbv beta. rewrite map_map. reflexivity. }
    intros z [Z1 Z2]. split; [|exact Z2]. cbv beta in Z1.
    erewrite map_ext_in; [exact Z1|]. intros x Hin. cbv beta. specialize (Hfg x Hin).
    symmetry. apply (@subp_val_ok (n + 1) p (f x + g x)); [lia| |lia]. replace (n + 1 - 1)%nat with n by lia. exact Hp.
  Qed.
End Wp.
