(** * Fixed-width unsigned integers and the parallel-prefix adder on values

    Models mpc-core/src/uint (trait [UintBackend], struct [RUint]): a [RUint<BITS, LIMBS>] is a
    natural number below [2^BITS]; [W] is BITS.  Limb storage is only modelled where the code
    itself walks over limbs (field_uint.rs [reduce_from_limbs]). *)
From Coq Require Import String List Arith NArith ZArith Lia Bool Znumtheory.
From Verif Require Import Proc Alg Zp.
Import ListNotations.
Set Implicit Arguments.
Local Open Scope N_scope.

Section Width.
  Variable W : nat.
  (** ruint_wrapper.rs:170-180 [<<] (ruint discards the bits shifted out) *)
  Definition ushl (x : N) (s : nat) : N := N.shiftl x (N.of_nat s) mod 2 ^ N.of_nat W.
  (** ruint_wrapper.rs:181-191 [>>] *)
  Definition ushr (x : N) (s : nat) : N := N.shiftr x (N.of_nat s).
  (** ruint_wrapper.rs:384-391 [mask]; [None] = failed assertion *)
  Definition umask_checked (k : nat) : option N :=
    if (k <=? W)%nat then
      if (k =? 0)%nat then Some 0 else Some (ushr (N.ones (N.of_nat W)) (W - k))
    else None.
  (** ruint_wrapper.rs:213-217 [wrapping_sub]; 208-212 [wrapping_add] *)
  Definition uwsub (x y : N) : N := (x + 2 ^ N.of_nat W - y) mod 2 ^ N.of_nat W.
  Definition uwadd (x y : N) : N := (x + y) mod 2 ^ N.of_nat W.
  (** ruint_wrapper.rs:223-227 [wrapping_neg] *)
  Definition uwneg (x : N) : N := (2 ^ N.of_nat W - x) mod 2 ^ N.of_nat W.
  (** ruint_wrapper.rs:126-131 [Not] *)
  Definition unot (x : N) : N := N.lxor x (N.ones (N.of_nat W)).
End Width.
(** value of [mask(k)] for [k <= BITS] (see [umask_ok]) *)
Definition umask (k : nat) : N := N.ones (N.of_nat k).
(** ruint_wrapper.rs:378-380 [bit] *)
Definition ubit (x : N) (k : nat) : bool := N.testbit x (N.of_nat k).
(** ruint_wrapper.rs:381-383 [set_bit] *)
Definition uset_bit (x : N) (k : nat) (b : bool) : N :=
  if b then N.setbit x (N.of_nat k) else N.clearbit x (N.of_nat k).
(** ruint_wrapper.rs:375-377 [bit_len] *)
Definition ubit_len (x : N) : nat := N.to_nat (N.size x).

(** detail.rs:222-230 [ceil_log2]; the caller never passes 0 (where [x - 1] would underflow).
    The [while] loop runs at most [x] times: [fuel]. *)
Fixpoint clog_loop (fuel : nat) (x y : nat) : nat :=
  match fuel with
  | O => y
  | S fuel => if (0 <? x)%nat then clog_loop fuel (Nat.div2 x) (S y) else y
  end.
Definition ceil_log2 (x : nat) : nat := clog_loop x (x - 1) 0.

(** ** Basic facts *)
Lemma umask_bit k j : N.testbit (umask k) j = (j <? N.of_nat k).
Proof.
  unfold umask. destruct (N.ltb_spec j (N.of_nat k)) as [L|L].
  - apply N.ones_spec_low. exact L.
  - apply N.ones_spec_high. exact L.
Qed.
Lemma umask_ok W k : (k <= W)%nat -> umask_checked W k = Some (umask k).
Proof.
  intros L. unfold umask_checked. destruct (Nat.leb_spec k W); [|lia].
  destruct (Nat.eqb_spec k 0) as [->|]; [reflexivity|]. f_equal. unfold ushr.
  apply N.bits_inj. intro j. rewrite N.shiftr_spec', umask_bit.
  destruct (N.ltb_spec j (N.of_nat k)).
  - apply N.ones_spec_low. lia.
  - apply N.ones_spec_high. lia.
Qed.
Lemma ushl_bit W x s j : N.testbit (ushl W x s) j =
  ((j <? N.of_nat W) && (N.of_nat s <=? j) && N.testbit x (j - N.of_nat s))%bool.
Proof.
  unfold ushl. destruct (N.ltb_spec j (N.of_nat W)) as [L|L].
  - rewrite N.mod_pow2_bits_low by exact L. destruct (N.leb_spec (N.of_nat s) j) as [K|K].
    + rewrite N.shiftl_spec_high' by exact K. reflexivity.
    + rewrite N.shiftl_spec_low by exact K. reflexivity.
  - rewrite N.mod_pow2_bits_high by exact L. reflexivity.
Qed.
Lemma ushr_bit x s j : N.testbit (ushr x s) j = N.testbit x (j + N.of_nat s).
Proof. unfold ushr. apply N.shiftr_spec'. Qed.
Lemma uset_bit_bit x k b j : N.testbit (uset_bit x k b) j = if j =? N.of_nat k then b else N.testbit x j.
Proof.
  unfold uset_bit. destruct b.
  - rewrite N.setbit_eqb, N.eqb_sym. destruct (N.eqb_spec j (N.of_nat k)); reflexivity.
  - rewrite N.clearbit_eqb, N.eqb_sym. destruct (N.eqb_spec j (N.of_nat k)); cbn; [apply andb_false_r|apply andb_true_r].
Qed.
Lemma bits_lt x n : x < 2 ^ n <-> forall j, n <= j -> N.testbit x j = false.
Proof.
  split.
  - intros L j Hj. destruct (N.eq_dec x 0) as [->|Hx]; [apply N.bits_0|].
    apply N.bits_above_log2. apply N.log2_lt_pow2 in L; lia.
  - intros Hb. destruct (N.eq_dec x 0) as [->|Hx]; [apply N.neq_0_lt_0; apply N.pow_nonzero; lia|].
    apply N.log2_lt_pow2; [lia|]. destruct (N.lt_ge_cases (N.log2 x) n) as [L|L]; [exact L|].
    specialize (Hb _ L). rewrite N.bit_log2 in Hb by exact Hx. discriminate.
Qed.
Lemma land_mask x k : N.land x (umask k) = x mod 2 ^ N.of_nat k.
Proof. apply N.land_ones. Qed.
Lemma ubit_len_le x k : (ubit_len x <= k)%nat <-> x < 2 ^ N.of_nat k.
Proof.
  unfold ubit_len. split.
  - intros L. eapply N.lt_le_trans; [apply N.size_gt|]. apply N.pow_le_mono_r; lia.
  - intros L. destruct (N.eq_dec x 0) as [->|Hx]; [cbn; lia|].
    rewrite N.size_log2 by exact Hx. apply N.log2_lt_pow2 in L; lia.
Qed.

(** ceil_log2 is the least exponent reaching [x]. *)
Lemma clog_loop_spec fuel : forall x y, (x <= fuel)%nat ->
  exists e, clog_loop fuel x y = (y + e)%nat /\ (x < 2 ^ e)%nat /\ (forall i, i < e -> 2 ^ i <= x)%nat.
Proof.
  induction fuel as [|fuel IH]; intros x y L.
  - exists 0%nat. cbn. split; [lia|]. split; [lia|]. intros i Hi. lia.
  - cbn [clog_loop]. destruct (Nat.ltb_spec 0 x) as [K|K].
    + pose proof (Nat.div2_odd x) as E. destruct (IH (Nat.div2 x) (S y)) as (e & E1 & E2 & E3).
      { destruct (Nat.odd x); cbn in E; lia. }
      exists (S e). split; [rewrite E1; lia|]. split.
      * cbn. destruct (Nat.odd x); cbn in E; lia.
      * intros [|i] Hi; [cbn; lia|]. specialize (E3 i ltac:(lia)). cbn. destruct (Nat.odd x); cbn in E; lia.
    + exists 0%nat. split; [lia|]. split; [cbn; lia|]. intros i Hi. lia.
Qed.
Lemma ceil_log2_spec x : (1 <= x)%nat ->
  (x <= 2 ^ ceil_log2 x)%nat /\ (forall i, i < ceil_log2 x -> 2 ^ i < x)%nat.
Proof.
  intros L. unfold ceil_log2. destruct (@clog_loop_spec x (x - 1) 0 ltac:(lia)) as (e & -> & E2 & E3).
  cbn [Nat.add]. split; [lia|]. intros i Hi. specialize (E3 i Hi). lia.
Qed.

(** ** The prefix computation on values (detail.rs:113-126)

    What one round of [kogge_stone_inner] does to the shared integers. *)
Section Prefix.
  Variable W : nat.
  Definition ks_step_val (n s : nat) (p g : N) : N * N :=
    let p_ := N.land p (umask (n - s)) in
    let g_ := N.land g (umask (n - s)) in
    let p_shift := ushr p s in
    (ushl W (N.land p_shift p_) s, N.lxor g (ushl W (N.land g_ p_shift) s)).
  Fixpoint ks_loop_val (n k j : nat) (p g : N) : N * N :=
    match k with
    | O => (p, g)
    | S k => let r := ks_step_val n (2 ^ j) p g in ks_loop_val n k (S j) (fst r) (snd r)
    end.
  Definition ks_val (n : nat) (p g : N) : N :=
    N.lxor (ushl W (snd (ks_loop_val n (ceil_log2 n) 0 p g)) 1) p.

  (** Generate/propagate over the window of the [k] positions ending at [j]; positions below 0
      do not exist (they neither generate nor propagate). *)
  Variables (p g : N).
  Fixpoint gen (k : nat) (j : nat) : bool :=
    match k with
    | O => false
    | S k => xorb (ubit g j) (ubit p j && match j with O => false | S j => gen k j end)
    end.
  Fixpoint prop (k : nat) (j : nat) : bool :=
    match k with
    | O => true
    | S k => ubit p j && match j with O => (match k with O => true | _ => false end) | S j => prop k j end
    end.
  Lemma gen_split a : forall b j, gen (a + b) j =
    xorb (gen a j) (prop a j && if (a <=? j)%nat then gen b (j - a) else false).
  Proof.
    induction a as [|a IH]; intros b j.
    - cbn. rewrite Nat.sub_0_r. destruct (gen b j); reflexivity.
    - cbn [Nat.add gen prop]. destruct j as [|j].
      + rewrite andb_false_r. cbn. rewrite xorb_false_r, !andb_false_r. rewrite xorb_false_r. reflexivity.
      + rewrite IH. cbn [Nat.leb Nat.sub]. set (z := if (a <=? j)%nat then gen b (j - a) else false).
        destruct (ubit g (S j)), (ubit p (S j)), (gen a j), (prop a j), z; reflexivity.
  Qed.
  Lemma prop_split a : forall b j, (1 <= b)%nat -> prop (a + b) j =
    prop a j && (if (a <=? j)%nat then prop b (j - a) else false).
  Proof.
    induction a as [|a IH]; intros b j Hb.
    - cbn. rewrite Nat.sub_0_r. reflexivity.
    - cbn [Nat.add prop]. destruct j as [|j].
      + destruct (a + b)%nat eqn:E; [lia|]. cbn. rewrite !andb_false_r. reflexivity.
      + rewrite IH by exact Hb. cbn [Nat.leb Nat.sub]. rewrite andb_assoc. reflexivity.
  Qed.
  Lemma gen_full k : forall j, (j < k)%nat -> gen k j = gen (S j) j.
  Proof.
    induction k as [|k IH]; intros j L; [lia|]. cbn. destruct j as [|j]; [reflexivity|].
    rewrite IH by lia. reflexivity.
  Qed.
  Lemma prop_low k : forall j, (j + 1 < k)%nat -> prop k j = false.
  Proof.
    induction k as [|k IH]; intros j L; [lia|]. cbn. destruct j as [|j].
    - destruct k; [lia|]. apply andb_false_r.
    - rewrite IH by lia. apply andb_false_r.
  Qed.

  (** Invariant of the loop. *)
  Definition ks_inv (n s : nat) (p' g' : N) : Prop :=
    (forall j, (j < n)%nat -> ubit g' j = gen s j) /\
    (forall j, (n <= j)%nat -> ubit g' j = ubit g j) /\
    (forall j, (j < n)%nat -> ubit p' j = prop s j).

  Lemma ubit_land x y j : ubit (N.land x y) j = (ubit x j && ubit y j)%bool.
  Proof. apply N.land_spec. Qed.
  Lemma ubit_lxor x y j : ubit (N.lxor x y) j = xorb (ubit x j) (ubit y j).
  Proof. apply N.lxor_spec. Qed.
  Lemma ubit_mask k j : ubit (umask k) j = (j <? k)%nat.
  Proof. unfold ubit. rewrite umask_bit. destruct (N.ltb_spec (N.of_nat j) (N.of_nat k)), (Nat.ltb_spec j k); try lia; reflexivity. Qed.
  Lemma ubit_shl x s j : ubit (ushl W x s) j = ((j <? W)%nat && (s <=? j)%nat && ubit x (j - s))%bool.
  Proof.
    unfold ubit. rewrite ushl_bit. rewrite Nat2N.inj_sub.
    destruct (N.ltb_spec (N.of_nat j) (N.of_nat W)), (Nat.ltb_spec j W); try (exfalso; lia); try reflexivity.
    destruct (N.leb_spec (N.of_nat s) (N.of_nat j)), (Nat.leb_spec s j); try (exfalso; lia); reflexivity.
  Qed.
  Lemma ubit_shr x s j : ubit (ushr x s) j = ubit x (j + s).
  Proof. unfold ubit. rewrite ushr_bit. f_equal. lia. Qed.

  Lemma ks_step_inv n s p' g' : (n < W)%nat -> (1 <= s < n)%nat -> ks_inv n s p' g' ->
    ks_inv n (s + s) (fst (ks_step_val n s p' g')) (snd (ks_step_val n s p' g')).
  Proof.
    intros HW Hs (Ig & Ih & Ip). unfold ks_step_val. cbn [fst snd]. split; [|split].
    - intros j Hj. rewrite ubit_lxor, ubit_shl, !ubit_land, ubit_mask, ubit_shr, gen_split.
      destruct (Nat.ltb_spec j W); [|lia]. cbn [andb]. rewrite Ig by exact Hj.
      destruct (Nat.leb_spec s j) as [K|K].
      + destruct (Nat.ltb_spec (j - s) (n - s)); [|lia]. rewrite andb_true_r.
        replace (j - s + s)%nat with j by lia. rewrite Ip by exact Hj. rewrite Ig by lia. cbn [andb].
        rewrite (andb_comm (prop s j)). reflexivity.
      + cbn. rewrite andb_false_r. reflexivity.
    - intros j Hj. rewrite ubit_lxor, ubit_shl, !ubit_land, ubit_mask, ubit_shr.
      rewrite Ih by exact Hj. destruct (Nat.ltb_spec (j - s) (n - s)); [lia|].
      rewrite andb_false_r. cbn. rewrite andb_false_r. apply xorb_false_r.
    - intros j Hj. rewrite ubit_shl, !ubit_land, ubit_mask, ubit_shr, prop_split by lia.
      destruct (Nat.ltb_spec j W); [|lia]. cbn [andb].
      destruct (Nat.leb_spec s j) as [K|K].
      + destruct (Nat.ltb_spec (j - s) (n - s)); [|lia]. rewrite andb_true_r.
        replace (j - s + s)%nat with j by lia. rewrite !Ip by lia. reflexivity.
      + cbn. rewrite andb_false_r. reflexivity.
  Qed.
  Lemma ks_loop_inv n k : forall j p' g', (n < W)%nat -> (forall i, j <= i < j + k -> 2 ^ i < n)%nat ->
    ks_inv n (2 ^ j) p' g' ->
    ks_inv n (2 ^ (j + k)) (fst (ks_loop_val n k j p' g')) (snd (ks_loop_val n k j p' g')).
  Proof.
    induction k as [|k IH]; intros j p' g' HW Hi I; cbn [ks_loop_val].
    - rewrite Nat.add_0_r. exact I.
    - rewrite Nat.add_succ_r, <- Nat.add_succ_l. apply IH; [exact HW|intros i Hi'; apply Hi; lia|].
      replace (2 ^ S j)%nat with (2 ^ j + 2 ^ j)%nat by (cbn; lia). apply ks_step_inv; [exact HW| |exact I].
      split; [|apply Hi; lia]. clear. induction j; cbn; lia.
  Qed.
  Lemma ks_loop_carries n : (1 <= n < W)%nat ->
    (forall j, (j < n)%nat -> ubit (snd (ks_loop_val n (ceil_log2 n) 0 p g)) j = gen (S j) j) /\
    (forall j, (n <= j)%nat -> ubit (snd (ks_loop_val n (ceil_log2 n) 0 p g)) j = ubit g j).
  Proof.
    intros [Hn HW]. destruct (ceil_log2_spec Hn) as [C1 C2].
    destruct (@ks_loop_inv n (ceil_log2 n) 0 p g HW) as (Ig & Ih & _).
    - intros i Hi. apply C2. lia.
    - split; [|split]; cbn.
      + intros j _. destruct j; [rewrite andb_false_r|cbn; rewrite andb_false_r]; rewrite xorb_false_r; reflexivity.
      + reflexivity.
      + intros j _. destruct j; rewrite andb_true_r; reflexivity.
    - split; [|exact Ih]. intros j Hj. rewrite Ig by exact Hj. apply gen_full. cbn [Nat.add]. lia.
  Qed.
End Prefix.

(** ** Correctness of the adder *)
Lemma gen_carry x y c0 c :
  (forall j, ubit c (S j) = xorb (ubit x j && ubit y j) (xorb (ubit x j) (ubit y j) && ubit c j)) ->
  ubit c 0 = c0 ->
  forall j, gen (N.lxor x y) (N.lxor (N.land x y) (if c0 then N.land (N.lxor x y) 1 else 0)) (S j) j = ubit c (S j).
Proof.
  intros Hc H0 j. set (p := N.lxor x y). set (g := N.lxor (N.land x y) (if c0 then N.land p 1 else 0)).
  assert (Eg : forall k, ubit g k = xorb (ubit x k && ubit y k) (if c0 then ubit p k && (k =? 0)%nat else false)).
  { intros k. unfold g. rewrite ubit_lxor, ubit_land. f_equal. destruct c0; [|destruct k; reflexivity].
    rewrite ubit_land. f_equal. replace 1 with (umask 1) by reflexivity. rewrite ubit_mask.
    destruct k; reflexivity. }
  induction j as [|j IH].
  - cbn [gen]. rewrite andb_false_r, xorb_false_r, Eg, Hc. cbn [Nat.eqb]. rewrite H0.
    unfold p. rewrite ubit_lxor. destruct c0, (ubit x 0), (ubit y 0); reflexivity.
  - change (gen p g (S (S j)) (S j)) with (xorb (ubit g (S j)) (ubit p (S j) && gen p g (S j) j)).
    rewrite IH, Eg, (Hc (S j)). cbn [Nat.eqb]. rewrite andb_false_r.
    unfold p at 1. rewrite ubit_lxor. destruct c0; rewrite xorb_false_r; reflexivity.
Qed.

Lemma carry_exists x y c0 : exists c, x + y + N.b2n c0 = N.lxor x (N.lxor y c) /\
  (forall j, ubit c (S j) = xorb (ubit x j && ubit y j) (xorb (ubit x j) (ubit y j) && ubit c j)) /\
  ubit c 0 = c0.
Proof.
  destruct (N.add_carry_bits x y c0) as (c & E1 & E2 & E3). exists c. split; [|split].
  - rewrite E1. apply N.lxor_assoc.
  - intros j. unfold ubit. rewrite Nat2N.inj_succ, <- N.div2_bits.
    rewrite E2, !N.lor_spec, !N.land_spec, N.lor_spec.
    destruct (N.testbit x (N.of_nat j)), (N.testbit y (N.of_nat j)), (N.testbit c (N.of_nat j)); reflexivity.
  - exact E3.
Qed.

Lemma ubit_ext x y : (forall j, ubit x j = ubit y j) -> x = y.
Proof. intros E. apply N.bits_inj. intro j. specialize (E (N.to_nat j)). unfold ubit in E. rewrite N2Nat.id in E. exact E. Qed.
Lemma ubit_high x n j : x < 2 ^ N.of_nat n -> (n <= j)%nat -> ubit x j = false.
Proof. intros L K. unfold ubit. apply (proj1 (bits_lt x (N.of_nat n)) L). lia. Qed.

(** The adder with carry-in: the prefix network started from [p = x ^ y] and
    [g = (x & y) ^ (cin ? p & 1 : 0)] yields the sum, up to the carry-in bit itself. *)
Lemma ks_val_add W n x y (c0 : bool) : (1 <= n < W)%nat -> x < 2 ^ N.of_nat n -> y < 2 ^ N.of_nat n ->
  N.lxor (ks_val W n (N.lxor x y) (N.lxor (N.land x y) (if c0 then N.land (N.lxor x y) 1 else 0))) (N.b2n c0)
  = x + y + N.b2n c0.
Proof.
  intros Hn Hx Hy. destruct (carry_exists x y c0) as (c & E1 & Hc & H0).
  pose proof (gen_carry _ _ _ Hc H0) as Hgen. rewrite E1.
  set (p := N.lxor x y) in *. set (g := N.lxor (N.land x y) (if c0 then N.land p 1 else 0)) in *.
  destruct (@ks_loop_carries W p g n Hn) as [C1 C2].
  apply ubit_ext. intros j. rewrite !ubit_lxor. unfold ks_val. rewrite ubit_lxor, ubit_shl.
  destruct j as [|j].
  - cbn. rewrite andb_false_r. cbn. unfold p. rewrite ubit_lxor, H0.
    destruct c0; cbn; destruct (ubit x 0), (ubit y 0); reflexivity.
  - assert (B : ubit (N.b2n c0) (S j) = false) by (destruct c0; [unfold ubit; cbn|]; reflexivity).
    rewrite B, xorb_false_r. cbn [Nat.leb Nat.sub]. rewrite Nat.sub_0_r, andb_true_r.
    unfold p at 2. rewrite ubit_lxor.
    assert (Hcar : (S j <? W)%nat && ubit (snd (ks_loop_val W n (ceil_log2 n) 0 p g)) j = ubit c (S j)).
    { destruct (Nat.lt_ge_cases j n) as [L|L].
      - destruct (Nat.ltb_spec (S j) W); [|lia]. cbn [andb]. rewrite C1 by exact L. apply Hgen.
      - rewrite C2 by exact L. rewrite Hc, (ubit_high Hx L), (ubit_high Hy L). cbn.
        replace (ubit g j) with false; [apply andb_false_r|]. symmetry.
        unfold g. rewrite ubit_lxor, ubit_land, (ubit_high Hx L). cbn.
        destruct c0; [|destruct j; reflexivity]. rewrite ubit_land. unfold p. rewrite ubit_lxor, (ubit_high Hx L), (ubit_high Hy L).
        reflexivity. }
    rewrite Hcar. destruct (ubit c (S j)), (ubit x (S j)), (ubit y (S j)); reflexivity.
Qed.
