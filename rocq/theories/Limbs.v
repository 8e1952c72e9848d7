(** * Limb and byte representation of the fixed-width integers

    mpc-core/src/uint/ruint_wrapper.rs and field_uint.rs where they walk over limbs and bytes.
    BITS = 64 * LIMBS for every backend (uint/mod.rs:90-112); [L] is LIMBS. *)
From Coq Require Import String List Arith NArith ZArith Lia Bool.
From Verif Require Import Proc Alg Zp Uint.
Import ListNotations.
Set Implicit Arguments.
Local Open Scope N_scope.

(** little-endian digits; [digits 2^64] are limbs, [digits 256] bytes *)
Fixpoint digits (b : N) (n : nat) (x : N) : list N :=
  match n with O => [] | S n => (x mod b) :: digits b n (x / b) end.
Fixpoint undigits (b : N) (l : list N) : N :=
  match l with [] => 0 | d :: l => d + b * undigits b l end.

Notation limb := (2 ^ 64).
(** ruint_wrapper.rs:392-394 [as_limbs] *)
Definition as_limbs (L : nat) (x : N) : list N := digits limb L x.
(** ruint's [from_limbs] (BITS = 64 LIMBS: every limb array is a value) *)
Definition from_limbs (l : list N) : N := undigits limb l.
(** ruint_wrapper.rs:395-400 [from_limbs_truncating] *)
Definition from_limbs_truncating (L : nat) (l : list N) : N :=
  let n := Nat.min (length l) L in from_limbs (firstn n l ++ repeat 0 (L - n)).
(** [u64::to_le_bytes], [u64::from_le_bytes] *)
Definition limb_bytes (l : N) : list N := digits 256 8 l.
Definition limb_of_bytes (bs : list N) : N := undigits 256 bs.
(** ruint_wrapper.rs:401-406 [to_le_bytes_into]: the bytes written into an output slice of
    length [len]; [None] = failed assertion *)
Definition to_le_bytes_into (L len : nat) (x : N) : option (list N) :=
  if (len =? 8 * L)%nat then Some (concat (map limb_bytes (as_limbs L x))) else None.
(** [chunks_exact(8)] *)
Fixpoint chunks8 (n : nat) (l : list N) : list (list N) :=
  match n with O => [] | S n => firstn 8 l :: chunks8 n (skipn 8 l) end.
(** ruint_wrapper.rs:407-414 [from_le_bytes]; [None] = failed assertion *)
Definition from_le_bytes (L : nat) (bs : list N) : option N :=
  if (length bs =? 8 * L)%nat then Some (from_limbs (map limb_of_bytes (chunks8 L bs))) else None.
(** ruint_wrapper.rs:265-275 [serialize_with_mode] *)
Definition ark_serialize (L : nat) (x : N) : list N := concat (map limb_bytes (as_limbs L x)).
(** ruint_wrapper.rs:287-299 [deserialize_with_mode]: reads from the front of the stream;
    [None] = unexpected end of input *)
Fixpoint read_limbs (L : nat) (bs : list N) : option (list N * list N) :=
  match L with
  | O => Some ([], bs)
  | S L => if (8 <=? length bs)%nat then
             match read_limbs L (skipn 8 bs) with
             | Some (l, rest) => Some (limb_of_bytes (firstn 8 bs) :: l, rest)
             | None => None
             end
           else None
  end.
Definition ark_deserialize (L : nat) (bs : list N) : option (N * list N) :=
  match read_limbs L bs with Some (l, rest) => Some (from_limbs l, rest) | None => None end.
(** ruint_wrapper.rs:249-258 [visit_seq] (serde): takes LIMBS elements; [None] = invalid length *)
Definition serde_visit (L : nat) (l : list N) : option N :=
  if (L <=? length l)%nat then Some (from_limbs (firstn L l)) else None.
(** ruint_wrapper.rs:415-422 [random_bits], given the drawn limbs *)
Definition random_bits (L : nat) (drawn : list N) (bitlen : nat) : option N :=
  match umask_checked (64 * L) bitlen with Some m => Some (N.land (from_limbs drawn) m) | None => None end.
(** ruint_wrapper.rs:423-425 [try_to_usize] (64-bit targets) *)
Definition try_to_usize (x : N) : option N := if x <? limb then Some x else None.
(** ruint_wrapper.rs:426-428 [to_u64_truncating]; 331-340 [as_]: the low limb, truncated to [k] bits *)
Definition to_u64_truncating (L : nat) (x : N) : N := nth 0 (as_limbs L x) 0.
Definition as_prim (L k : nat) (x : N) : N := to_u64_truncating L x mod 2 ^ N.of_nat k.
(** ruint_wrapper.rs:323-330 [as_::<u128>] *)
Definition as_u128 (L : nat) (x : N) : N :=
  let lo := nth 0 (as_limbs L x) 0 in
  let hi := if (1 <? L)%nat then nth 1 (as_limbs L x) 0 else 0 in
  N.lor (N.shiftl hi 64) lo.
(** ruint_wrapper.rs:342-348 [as_::<Bit>] *)
Definition as_bit (L : nat) (x : N) : bool := N.land (to_u64_truncating L x) 1 =? 1.

Section Reduce.
  Context {n : positive}.
  (** field_uint.rs:42-49 [reduce_from_limbs]: Horner's rule over the limbs, most significant first *)
  Definition reduce_from_limbs (L : nat) (x : N) : Zmod n :=
    fold_left (fun acc l => gadd (rmul acc (gadd (ofZ (Z.of_N (limb - 1))) rone)) (ofZ (Z.of_N l)))
              (rev (as_limbs L x)) gzero.
  (** field_uint.rs:72-74 [from_uint_unchecked], same limb count: ruint's [try_into] checks [< p] *)
  Definition from_uint_unchecked (x : N) : option (Zmod n) :=
    if x <? Npos n then Some (ofZ (Z.of_N x)) else None.
  (** field_uint.rs:100-109 [from_uint_unchecked] for a backend wider than the field's [BigInt] of
      [k] limbs; [debug] is whether debug assertions are on; [None] = panic *)
  Definition from_uint_unchecked_wide (debug : bool) (L k : nat) (x : N) : option (Zmod n) :=
    if debug && negb (forallb (fun l => l =? 0) (skipn k (as_limbs L x)))%bool then None
    else from_uint_unchecked (from_limbs (firstn k (as_limbs L x))).
  (** field_uint.rs:68-70 and 92-94 [to_uint], k-limb field element into L limbs *)
  Definition to_uint_wide (L k : nat) (x : Zmod n) : N := from_limbs_truncating L (as_limbs k (Z.to_N (val x))).
End Reduce.

(** ** Facts *)
Lemma undigits_digits b n : b <> 0 -> forall x, undigits b (digits b n x) = x mod b ^ N.of_nat n.
Proof.
  intros Hb. induction n as [|n IH]; intros x; cbn [digits undigits].
  - rewrite N.mod_1_r. reflexivity.
  - rewrite IH, Nat2N.inj_succ, N.pow_succ_r', N.mod_mul_r; [reflexivity|exact Hb|]. apply N.pow_nonzero. exact Hb.
Qed.
Lemma digits_len b n : forall x, length (digits b n x) = n.
Proof. induction n as [|n IH]; intros x; cbn; [|rewrite IH]; reflexivity. Qed.
Lemma digits_lt b n : b <> 0 -> forall x, Forall (fun d => d < b) (digits b n x).
Proof. intros Hb. induction n as [|n IH]; intros x; cbn; constructor; [apply N.mod_lt, Hb|apply IH]. Qed.
Lemma digits_undigits b l : Forall (fun d => d < b) l -> digits b (length l) (undigits b l) = l.
Proof.
  induction 1 as [|d l Hd _ IH]; cbn [digits undigits length]; [reflexivity|].
  assert (b <> 0) by lia. f_equal.
  - rewrite N.mul_comm, N.mod_add, N.mod_small by lia. reflexivity.
  - rewrite N.mul_comm, N.div_add, N.div_small, N.add_0_l by lia. exact IH.
Qed.
Lemma undigits_lt b l : Forall (fun d => d < b) l -> undigits b l < b ^ N.of_nat (length l).
Proof.
  induction 1 as [|d l Hd _ IH]; cbn [undigits length]; [cbn; lia|].
  rewrite Nat2N.inj_succ, N.pow_succ_r'.
  assert (b * (undigits b l + 1) <= b * b ^ N.of_nat (length l)) by (apply N.mul_le_mono_l; lia). lia.
Qed.
Lemma undigits_app b l m : undigits b (l ++ m) = undigits b l + b ^ N.of_nat (length l) * undigits b m.
Proof.
  induction l as [|d l IH]; cbn [app undigits length]; [change (N.of_nat 0) with 0; rewrite N.pow_0_r; lia|].
  rewrite IH, Nat2N.inj_succ, N.pow_succ_r'. rewrite N.mul_add_distr_l, N.mul_assoc. apply N.add_assoc.
Qed.
Lemma undigits_zeros b n : undigits b (repeat 0 n) = 0.
Proof. induction n as [|n IH]; cbn [repeat undigits]; [|rewrite IH]; lia. Qed.
Lemma limb_pow L : limb ^ N.of_nat L = 2 ^ N.of_nat (64 * L).
Proof. rewrite <- N.pow_mul_r. f_equal. lia. Qed.
Lemma firstn_digits b n : forall k x, (k <= n)%nat -> firstn k (digits b n x) = digits b k x.
Proof.
  induction n as [|n IH]; intros [|k] x L; try reflexivity; [lia|]. cbn [firstn digits]. rewrite IH by lia. reflexivity.
Qed.
Lemma skipn_digits b n : b <> 0 -> forall k x, skipn k (digits b n x) = digits b (n - k) (x / b ^ N.of_nat k).
Proof.
  intros Hb. induction n as [|n IH]; intros [|k] x; cbn [skipn digits Nat.sub]; try reflexivity.
  - rewrite N.div_1_r. reflexivity.
  - rewrite IH, Nat2N.inj_succ, N.pow_succ_r', N.div_div; [reflexivity|exact Hb|]. apply N.pow_nonzero. exact Hb.
Qed.

(** limbs *)
Lemma limbs_roundtrip L x : x < 2 ^ N.of_nat (64 * L) -> from_limbs (as_limbs L x) = x.
Proof. intros Hx. unfold from_limbs, as_limbs. rewrite undigits_digits by discriminate. rewrite limb_pow. apply N.mod_small, Hx. Qed.
Lemma truncating_ok L l : Forall (fun d => d < limb) l ->
  from_limbs_truncating L l = from_limbs l mod 2 ^ N.of_nat (64 * L).
Proof.
  intros Hl. unfold from_limbs_truncating, from_limbs. rewrite undigits_app, undigits_zeros, N.mul_0_r, N.add_0_r.
  rewrite <- limb_pow. set (n := Nat.min (length l) L).
  assert (Hs : Forall (fun d => d < limb) (firstn n l)).
  { rewrite <- (firstn_skipn n l) in Hl. apply Forall_app in Hl. apply Hl. }
  destruct (Nat.le_gt_cases (length l) L) as [K|K].
  - assert (E : n = length l) by lia. rewrite E, firstn_all in *. symmetry. apply N.mod_small.
    eapply N.lt_le_trans; [apply undigits_lt, Hs|]. apply N.pow_le_mono_r; lia.
  - assert (E : n = L) by lia. rewrite E in *. rewrite <- (firstn_skipn L l) at 2. rewrite undigits_app.
    rewrite firstn_length, Nat.min_l by lia. rewrite N.mul_comm, N.mod_add by (apply N.pow_nonzero; discriminate).
    symmetry. apply N.mod_small. eapply N.lt_le_trans; [apply undigits_lt, Hs|].
    rewrite firstn_length, Nat.min_l by lia. lia.
Qed.
(** bytes *)
Lemma limb_bytes_roundtrip l : l < limb -> limb_of_bytes (limb_bytes l) = l.
Proof. intros Hl. unfold limb_of_bytes, limb_bytes. rewrite undigits_digits by discriminate. apply N.mod_small. exact Hl. Qed.
Lemma limb_bytes_len l : length (limb_bytes l) = 8%nat.
Proof. apply digits_len. Qed.
Lemma firstn_app_len {A} n (a b : list A) : length a = n -> firstn n (a ++ b) = a.
Proof. intros E. rewrite firstn_app, E, Nat.sub_diag, <- E, firstn_all. cbn. apply app_nil_r. Qed.
Lemma skipn_app_len {A} n (a b : list A) : length a = n -> skipn n (a ++ b) = b.
Proof. intros E. rewrite skipn_app, E, Nat.sub_diag, <- E, skipn_all. reflexivity. Qed.
Lemma read_limbs_ok ls rest : Forall (fun d => d < limb) ls ->
  read_limbs (length ls) (concat (map limb_bytes ls) ++ rest) = Some (ls, rest).
Proof.
  induction 1 as [|d ls Hd _ IH]; cbn [length read_limbs map concat]; [reflexivity|].
  rewrite <- app_assoc, firstn_app_len, skipn_app_len by apply limb_bytes_len.
  rewrite app_length, limb_bytes_len. cbn [Nat.leb Nat.add]. rewrite IH, limb_bytes_roundtrip by exact Hd. reflexivity.
Qed.
Lemma ark_roundtrip L x rest : x < 2 ^ N.of_nat (64 * L) -> ark_deserialize L (ark_serialize L x ++ rest) = Some (x, rest).
Proof.
  intros Hx. unfold ark_deserialize, ark_serialize. pose proof (@digits_len limb L x) as EL.
  pose proof (@read_limbs_ok (as_limbs L x) rest) as K. unfold as_limbs in *. rewrite EL in K.
  rewrite K; [|apply digits_lt; discriminate]. pose proof (limbs_roundtrip _ Hx) as R. unfold as_limbs in R. rewrite R. reflexivity.
Qed.
Lemma ark_size L x : length (ark_serialize L x) = (8 * L)%nat.
Proof.
  unfold ark_serialize, as_limbs. revert x. induction L as [|L IH]; intros x; cbn [digits map concat]; [reflexivity|].
  rewrite app_length, IH, limb_bytes_len. lia.
Qed.
(** every byte string long enough is decoded to a value of the width, and re-encoding gives the bytes back *)
Lemma limb_of_bytes_lt bs : length bs = 8%nat -> Forall (fun d => d < 256) bs -> limb_of_bytes bs < limb.
Proof. intros E Hb. pose proof (undigits_lt Hb) as K. rewrite E in K. exact K. Qed.
Lemma read_limbs_inv L : forall bs ls rest, Forall (fun d => d < 256) bs -> read_limbs L bs = Some (ls, rest) ->
  length ls = L /\ Forall (fun d => d < limb) ls /\ bs = concat (map limb_bytes ls) ++ rest.
Proof.
  induction L as [|L IH]; intros bs ls rest Hb E; cbn [read_limbs] in E.
  - injection E as <- <-. auto.
  - destruct (Nat.leb_spec 8 (length bs)) as [K|K]; [|discriminate].
    destruct (read_limbs L (skipn 8 bs)) as [[l r]|] eqn:R; [|discriminate]. injection E as <- <-.
    assert (Hf : Forall (fun d => d < 256) (firstn 8 bs) /\ Forall (fun d => d < 256) (skipn 8 bs)).
    { apply Forall_app. rewrite firstn_skipn. exact Hb. }
    destruct Hf as [Hf Hs]. destruct (IH _ _ _ Hs R) as (L1 & L2 & L3).
    assert (F8 : length (firstn 8 bs) = 8%nat) by (rewrite firstn_length; lia).
    split; [cbn; congruence|]. split; [constructor; [apply limb_of_bytes_lt; auto|exact L2]|].
    assert (E8 : limb_bytes (limb_of_bytes (firstn 8 bs)) = firstn 8 bs).
    { revert F8 Hf. generalize (firstn 8 bs). intros z F8 Hf. unfold limb_bytes, limb_of_bytes. rewrite <- F8. apply digits_undigits, Hf. }
    change (bs = (limb_bytes (limb_of_bytes (firstn 8 bs)) ++ concat (map limb_bytes l)) ++ r).
    rewrite E8, <- app_assoc, <- L3. symmetry. apply (firstn_skipn 8).
Qed.
Lemma ark_deserialize_inv L bs x rest : Forall (fun d => d < 256) bs -> ark_deserialize L bs = Some (x, rest) ->
  x < 2 ^ N.of_nat (64 * L) /\ bs = ark_serialize L x ++ rest.
Proof.
  intros Hb E. unfold ark_deserialize in E. destruct (read_limbs L bs) as [[l r]|] eqn:R; [|discriminate]. injection E as <- <-.
  destruct (read_limbs_inv _ Hb R) as (L1 & L2 & L3). split.
  - rewrite <- limb_pow, <- L1. apply undigits_lt, L2.
  - unfold ark_serialize, as_limbs, from_limbs. rewrite <- L1, digits_undigits by exact L2. exact L3.
Qed.
Lemma chunks8_ok ls : map limb_of_bytes (chunks8 (length ls) (concat (map limb_bytes ls))) = map (fun l => limb_of_bytes (limb_bytes l)) ls.
Proof.
  induction ls as [|l ls IH]; [reflexivity|]. cbn [length chunks8 map concat].
  rewrite firstn_app_len, skipn_app_len by apply limb_bytes_len. rewrite IH. reflexivity.
Qed.
Lemma le_bytes_roundtrip L x : x < 2 ^ N.of_nat (64 * L) ->
  exists bs, to_le_bytes_into L (8 * L) x = Some bs /\ from_le_bytes L bs = Some x.
Proof.
  intros Hx. exists (ark_serialize L x). unfold to_le_bytes_into, from_le_bytes. rewrite ark_size, !Nat.eqb_refl.
  split; [reflexivity|]. f_equal. unfold ark_serialize. pose proof (@digits_len limb L x) as EL.
  pose proof (chunks8_ok (as_limbs L x)) as K. unfold as_limbs in *. rewrite EL in K. rewrite K.
  rewrite <- (limbs_roundtrip L Hx) at 2. f_equal. unfold as_limbs.
  rewrite <- (map_id (digits limb L x)) at 2. apply map_ext_in. intros l Hin.
  apply limb_bytes_roundtrip. exact (proj1 (Forall_forall _ _) (@digits_lt limb L ltac:(discriminate) x) l Hin).
Qed.
Lemma to_le_bytes_panics L len x : len <> (8 * L)%nat -> to_le_bytes_into L len x = None.
Proof. intros E. unfold to_le_bytes_into. rewrite (proj2 (Nat.eqb_neq _ _) E). reflexivity. Qed.
Lemma serde_roundtrip L x : x < 2 ^ N.of_nat (64 * L) -> serde_visit L (as_limbs L x) = Some x.
Proof.
  intros Hx. unfold serde_visit, as_limbs. rewrite digits_len, Nat.leb_refl, firstn_all2 by (rewrite digits_len; lia).
  change (Some (from_limbs (as_limbs L x)) = Some x). rewrite (limbs_roundtrip L Hx). reflexivity.
Qed.
Lemma random_bits_ok L drawn k : (k <= 64 * L)%nat -> random_bits L drawn k = Some (from_limbs drawn mod 2 ^ N.of_nat k).
Proof. intros K. unfold random_bits. rewrite (umask_ok K), land_mask. reflexivity. Qed.

(** casts *)
Lemma to_u64_ok L x : (1 <= L)%nat -> to_u64_truncating L x = x mod limb.
Proof. intros K. destruct L; [lia|]. reflexivity. Qed.
Lemma as_prim_ok L k x : (1 <= L)%nat -> (k <= 64)%nat -> as_prim L k x = x mod 2 ^ N.of_nat k.
Proof.
  intros K1 K2. unfold as_prim. rewrite to_u64_ok by exact K1.
  replace 64 with (N.of_nat k + N.of_nat (64 - k)) by lia. rewrite N.pow_add_r.
  rewrite N.mod_mul_r by (apply N.pow_nonzero; discriminate).
  rewrite N.mul_comm, N.mod_add by (apply N.pow_nonzero; discriminate). apply N.mod_mod, N.pow_nonzero. discriminate.
Qed.
Lemma as_u128_ok L x : (1 <= L)%nat -> x < 2 ^ N.of_nat (64 * L) -> as_u128 L x = x mod 2 ^ 128.
Proof.
  intros K Hx. unfold as_u128. destruct L as [|[|L]]; [lia| |].
  - cbn [Nat.ltb Nat.leb as_limbs digits nth]. rewrite N.shiftl_0_l, N.lor_0_l. cbn in Hx.
    rewrite !N.mod_small; [reflexivity|lia|exact Hx].
  - cbn [Nat.ltb Nat.leb as_limbs digits nth].
    change (2 ^ 128) with (limb * limb). rewrite N.mod_mul_r by discriminate.
    apply N.bits_inj. intros j. rewrite N.lor_spec.
    destruct (N.lt_ge_cases j 64) as [Lj|Lj].
    + rewrite N.shiftl_spec_low by exact Lj. cbn [orb].
      rewrite <- (N.mod_pow2_bits_low (x mod limb + _) 64 j Lj). rewrite N.mul_comm, N.mod_add, N.mod_mod by discriminate. reflexivity.
    + rewrite N.shiftl_spec_high' by exact Lj.
      rewrite (N.mod_pow2_bits_high x 64 j Lj), orb_false_r.
      replace j with ((j - 64) + 64) at 2 by lia. rewrite <- N.div_pow2_bits. rewrite N.mul_comm, N.div_add by discriminate.
      rewrite (N.div_small (x mod limb)) by (apply N.mod_lt; discriminate). rewrite N.add_0_l. reflexivity.
Qed.
Lemma as_bit_ok L x : (1 <= L)%nat -> as_bit L x = N.odd x.
Proof.
  intros K. unfold as_bit. rewrite to_u64_ok by exact K. change 1 with (N.ones 1) at 1. rewrite N.land_ones.
  rewrite <- N.bit0_odd. rewrite <- (N.mod_pow2_bits_low x 64 0) by lia. generalize (x mod limb). intros y.
  change (2 ^ 1) with 2. rewrite N.bit0_mod || rewrite <- N.bit0_mod. destruct (N.testbit y 0); reflexivity.
Qed.
(** the truncating casts commute with xor: they can be applied to share components *)
Lemma mod_pow_lxor k x y : N.lxor x y mod 2 ^ k = N.lxor (x mod 2 ^ k) (y mod 2 ^ k).
Proof.
  apply N.bits_inj. intros j. rewrite N.lxor_spec. destruct (N.lt_ge_cases j k).
  - rewrite !N.mod_pow2_bits_low by assumption. apply N.lxor_spec.
  - rewrite !N.mod_pow2_bits_high by assumption. reflexivity.
Qed.

(** reduction *)
Section ReduceFacts.
  Context {n : positive}.
  Lemma shift_const : gadd (ofZ (Z.of_N (limb - 1))) rone = ofZ (n := n) (2 ^ 64).
  Proof. change rone with (ofZ (n := n) 1). rewrite <- ofZ_add. reflexivity. Qed.
  Lemma horner_ok ls : fold_left (fun acc l => gadd (rmul acc (gadd (ofZ (n := n) (Z.of_N (limb - 1))) rone)) (ofZ (Z.of_N l)))
                                  (rev ls) gzero = ofZ (Z.of_N (from_limbs ls)).
  Proof.
    induction ls as [|l ls IH]; [reflexivity|]. cbn [rev]. rewrite fold_left_app. cbn [fold_left]. rewrite IH, shift_const.
    rewrite <- ofZ_mul, <- ofZ_add. f_equal. unfold from_limbs. cbn [undigits]. rewrite N2Z.inj_add, N2Z.inj_mul.
    change (Z.of_N limb) with (2 ^ 64)%Z. lia.
  Qed.
  Lemma reduce_from_limbs_ok L x : x < 2 ^ N.of_nat (64 * L) -> reduce_from_limbs (n := n) L x = ofZ (Z.of_N x).
  Proof. intros Hx. unfold reduce_from_limbs. rewrite horner_ok, limbs_roundtrip by exact Hx. reflexivity. Qed.
  Lemma from_uint_unchecked_ok x : x < Npos n -> from_uint_unchecked x = Some (ofZ (n := n) (Z.of_N x)).
  Proof. intros Hx. unfold from_uint_unchecked. rewrite (proj2 (N.ltb_lt _ _) Hx). reflexivity. Qed.
  Lemma from_uint_unchecked_panics x : Npos n <= x -> from_uint_unchecked (n := n) x = None.
  Proof. intros Hx. unfold from_uint_unchecked. rewrite (proj2 (N.ltb_ge _ _) Hx). reflexivity. Qed.
  Lemma wide_ok debug L k x : (k <= L)%nat -> Npos n <= 2 ^ N.of_nat (64 * k) -> x < Npos n ->
    from_uint_unchecked_wide debug L k x = Some (ofZ (n := n) (Z.of_N x)).
  Proof.
    intros K Hn Hx. assert (Hk : x < 2 ^ N.of_nat (64 * k)) by lia. unfold from_uint_unchecked_wide.
    replace (forallb (fun l => l =? 0) (skipn k (as_limbs L x))) with true.
    - rewrite andb_false_r. unfold as_limbs. rewrite firstn_digits by exact K. change (digits limb k x) with (as_limbs k x).
      rewrite limbs_roundtrip by exact Hk. apply from_uint_unchecked_ok, Hx.
    - symmetry. unfold as_limbs. rewrite skipn_digits by discriminate. rewrite limb_pow, N.div_small by exact Hk.
      generalize (L - k)%nat. intros m. induction m as [|m IH]; [reflexivity|]. cbn [digits forallb]. exact IH.
  Qed.
  (** debug builds: anything not below the modulus panics *)
  Lemma wide_debug_panics L k x : (k <= L)%nat -> x < 2 ^ N.of_nat (64 * L) -> Npos n <= x ->
    from_uint_unchecked_wide (n := n) true L k x = None.
  Proof.
    intros K HL Hx. unfold from_uint_unchecked_wide. cbn [andb].
    destruct (forallb (fun l => l =? 0) (skipn k (as_limbs L x))) eqn:E; [|reflexivity]. cbn [negb].
    apply from_uint_unchecked_panics. replace (from_limbs (firstn k (as_limbs L x))) with x; [exact Hx|].
    rewrite <- (limbs_roundtrip L HL) at 1. unfold from_limbs. rewrite <- (firstn_skipn k (as_limbs L x)) at 1.
    rewrite undigits_app. replace (undigits limb (skipn k (as_limbs L x))) with 0; [lia|].
    clear -E. induction (skipn k (as_limbs L x)) as [|l ls IH]; [reflexivity|]. cbn [forallb] in E. apply andb_true_iff in E.
    destruct E as [E1 E2]. apply N.eqb_eq in E1. subst l. cbn [undigits]. rewrite <- (IH E2). lia.
  Qed.
  Lemma to_uint_wide_ok L k (x : Zmod n) : (k <= L)%nat -> Npos n <= 2 ^ N.of_nat (64 * k) -> to_uint_wide L k x = Z.to_N (val x).
  Proof.
    intros K Hn. unfold to_uint_wide. rewrite truncating_ok by (apply digits_lt; discriminate).
    assert (Hx : Z.to_N (val x) < Npos n) by (pose proof (val_range x); lia).
    rewrite limbs_roundtrip by lia. apply N.mod_small. eapply N.lt_le_trans; [exact Hx|].
    eapply N.le_trans; [exact Hn|]. apply N.pow_le_mono_r; lia.
  Qed.
End ReduceFacts.
