(** * Properties of binary shares, conversions and comparisons (C09-C13, C40) *)
From Coq Require Import String List Arith NArith ZArith Znumtheory Lia Bool.
From Verif Require Import Proc Alg Zp Rep3Net Rep3 Rep3Spec Rep3Proofs Rep3Wp Uint Binary BinaryWp Conv ConvWp CmpWp Limbs Concrete ConcreteU.
Import ListNotations.
Set Implicit Arguments.
Local Open Scope grp_scope.

Section Statements.
  (** [W]: width of the integer backend; [du k]: [random_bits] of [k] bits from a generator. *)
  Context {F : Type} `{FU : FieldUint F} {S M : Type} (W : nat) (du : nat -> S -> N * S) {DF : Draw S F}.
  Context {EN : Enc M (list N)} {ENN : Enc M (list (N * N))}
          {EL : Enc M (list (list N))} {ELL : Enc M (list (list N * list N))} {EF : Enc M (list F)}
          (cap : nat) (cap_pos : (1 <= cap)%nat).
  Notation B := (mbs F).
  Notation p := (fu_p (F := F)).
  (** the width contract of uint/field_uint.rs:9-14 *)
  Context (width : (B + 2 <= W)%nat).
  Implicit Types (st : pid -> rst S).

  (** ** C09 *)
  Theorem C09_a2b st a (x : F) : synced st -> shares a x ->
    all_ok cap (fun i => a2b W du i (st i) (a i))
      (fun r => shares (fun i => fst (r i)) (to_uint x) /\ synced (fun i => snd (r i))).
  Proof. exact (fun Hs Ha => wp_all_ok (a2b_wp du cap_pos width Hs Ha)). Qed.
  Theorem C09_a2b_many st a (xs : list F) : synced st -> shares_vec a xs ->
    all_ok cap (fun i => a2b_many W du i (st i) (a i))
      (fun r => shares_vec (fun i => fst (r i)) (map to_uint xs) /\ synced (fun i => snd (r i))).
  Proof. exact (fun Hs Ha => wp_all_ok (a2b_many_wp du cap_pos width Hs Ha)). Qed.
  (** the value is canonical: below the modulus, hence no bit at or above the modulus size *)
  Theorem C09_canonical (x : F) (j : nat) : (to_uint x < p)%N /\ ((B <= j)%nat -> N.testbit (to_uint x) (N.of_nat j) = false).
  Proof. exact (conj (to_uint_lt x) (fun L => ubit_high (to_uint_mbs x) L)). Qed.

  (** ** C10 *)
  Theorem C10_b2a st a u : synced st -> shares a u -> (u < p)%N ->
    all_ok cap (fun i => b2a W du i (st i) (a i))
      (fun r => shares (fun i => fst (r i)) (of_uint u) /\ synced (fun i => snd (r i))).
  Proof. exact (fun Hs Ha Hu => wp_all_ok (b2a_wp du cap_pos width Hs Ha Hu)). Qed.
  Theorem C10_b2a_many st a us : synced st -> shares_vec a us -> (forall u, In u us -> u < p)%N ->
    all_ok cap (fun i => b2a_many W du i (st i) (a i))
      (fun r => shares_vec (fun i => fst (r i)) (map of_uint us) /\ synced (fun i => snd (r i))).
  Proof. exact (fun Hs Ha Hu => wp_all_ok (b2a_many_wp du cap_pos width Hs Ha Hu)). Qed.
  Lemma roundtrip_wp st a (x : F) : synced st -> shares a x ->
    wp cap (fun i => u <- a2b W du i (st i) (a i) ;; b2a W du i (snd u) (fst u))
      (fun r => shares (fun i => fst (r i)) x /\ synced (fun i => snd (r i))).
  Proof.
    intros Hs Ha. apply wp_bind. eapply wp_mono; [|apply (a2b_wp du cap_pos width Hs Ha)]. intros r [R1 R2].
    eapply wp_mono; [|apply (b2a_wp du cap_pos width R2 R1 (to_uint_lt x))]. intros q [Q1 Q2].
    rewrite of_to_uint in Q1. auto.
  Qed.
  Theorem C10_roundtrip st a (x : F) : synced st -> shares a x ->
    all_ok cap (fun i => u <- a2b W du i (st i) (a i) ;; b2a W du i (snd u) (fst u))
      (fun r => shares (fun i => fst (r i)) x /\ synced (fun i => snd (r i))).
  Proof. exact (fun Hs Ha => wp_all_ok (roundtrip_wp Hs Ha)). Qed.

  (** ** C11: bit injection.  [bitval b] is 1 or 0; a component wider than one bit is rejected. *)
  Theorem C11_bit_inject st s v : synced st -> shares s v -> narrow 1 s ->
    all_ok cap (fun i => bit_inject (R := F) i (st i) (s i))
      (fun r => shares (fun i => fst (r i)) (if N.odd v then rone else 0) /\ synced (fun i => snd (r i))).
  Proof.
    exact (fun Hs Hv Hn => wp_all_ok (eq_ind _ (fun b => wp cap _ (fun r => shares _ (bitval b) /\ _)) (bit_inject_wp cap_pos Hs Hv Hn) _ (N.bit0_odd v))).
  Qed.
  Lemma bit_inject_many_odd st s vs : synced st -> shares_vec s vs -> (forall i, Forall (fun x => sa x < 2 /\ sb x < 2)%N (s i)) ->
    wp cap (fun i => bit_inject_many (R := F) i (st i) (s i))
      (fun r => shares_vec (fun i => fst (r i)) (map (fun v => if N.odd v then rone else 0) vs) /\ synced (fun i => snd (r i))).
  Proof.
    intros Hs Hv Hn. eapply wp_mono; [|apply (bit_inject_many_wp cap_pos Hs Hv Hn)]. intros r [R1 R2]. split; [|exact R2].
    erewrite map_ext; [exact R1|]. intros v. cbv beta. rewrite <- N.bit0_odd. reflexivity.
  Qed.
  Theorem C11_bit_inject_many st s vs : synced st -> shares_vec s vs -> (forall i, Forall (fun x => sa x < 2 /\ sb x < 2)%N (s i)) ->
    all_ok cap (fun i => bit_inject_many (R := F) i (st i) (s i))
      (fun r => shares_vec (fun i => fst (r i)) (map (fun v => if N.odd v then rone else 0) vs) /\ synced (fun i => snd (r i))).
  Proof. exact (fun Hs Hv Hn => wp_all_ok (bit_inject_many_odd Hs Hv Hn)). Qed.
  Theorem C11_wide_rejected st s : (forall i, is_bit (s i) = false) ->
    all_end cap (fun i => bit_inject (R := F) i (st i) (s i))
      (fun o => forall i, o i = Failed (Panic "assertion failed: x.a.bit_len() <= 1")).
  Proof. exact (fun Hw => wpo_all_end (bit_inject_wide_wpo cap st s Hw)). Qed.

  (** ** C12: comparisons, with [field_result r b]: the parties end with synchronised generators
      and a sharing of 1 if [b], of 0 otherwise *)
  Section C12.
    Context st (Hs : synced st) a b (x y : F) (Ha : shares a x) (Hb : shares b y).
    Notation conv := (a2b W du (S := S) (M := M) (F := F)).
    Notation ok := (@a2b_wp F _ _ S M W du _ _ cap cap_pos width).
    Theorem C12_ge : all_ok cap (fun i => ge W du conv i (st i) (a i) (b i)) (fun r => field_result r (to_uint y <=? to_uint x)%N).
    Proof. exact (wp_all_ok (ge_wp du cap_pos width conv ok Hs Ha Hb)). Qed.
    Theorem C12_le : all_ok cap (fun i => le W du conv i (st i) (a i) (b i)) (fun r => field_result r (to_uint x <=? to_uint y)%N).
    Proof. exact (wp_all_ok (le_wp du cap_pos width conv ok Hs Ha Hb)). Qed.
    Theorem C12_lt : all_ok cap (fun i => lt W du conv i (st i) (a i) (b i)) (fun r => field_result r (to_uint x <? to_uint y)%N).
    Proof. exact (wp_all_ok (lt_wp du cap_pos width conv ok Hs Ha Hb)). Qed.
    Theorem C12_gt : all_ok cap (fun i => gt W du conv i (st i) (a i) (b i)) (fun r => field_result r (to_uint y <? to_uint x)%N).
    Proof. exact (wp_all_ok (gt_wp du cap_pos width conv ok Hs Ha Hb)). Qed.
    Theorem C12_ge_public : all_ok cap (fun i => ge_public W du conv i (st i) (a i) y) (fun r => field_result r (to_uint y <=? to_uint x)%N).
    Proof. exact (wp_all_ok (ge_public_wp du cap_pos width conv ok y Hs Ha)). Qed.
    Theorem C12_le_public : all_ok cap (fun i => le_public W du conv i (st i) (a i) y) (fun r => field_result r (to_uint x <=? to_uint y)%N).
    Proof. exact (wp_all_ok (le_public_wp du cap_pos width conv ok y Hs Ha)). Qed.
    Theorem C12_lt_public : all_ok cap (fun i => lt_public W du conv i (st i) (a i) y) (fun r => field_result r (to_uint x <? to_uint y)%N).
    Proof. exact (wp_all_ok (lt_public_wp du cap_pos width conv ok y Hs Ha)). Qed.
    Theorem C12_gt_public : all_ok cap (fun i => gt_public W du conv i (st i) (a i) y) (fun r => field_result r (to_uint y <? to_uint x)%N).
    Proof. exact (wp_all_ok (gt_public_wp du cap_pos width conv ok y Hs Ha)). Qed.
    Theorem C12_eq : all_ok cap (fun i => eq_ W du conv i (st i) (a i) (b i)) (fun r => field_result r (feqb x y)).
    Proof. exact (wp_all_ok (eq_wp W du cap_pos conv ok Hs Ha Hb)). Qed.
    Theorem C12_neq : all_ok cap (fun i => neq W du conv i (st i) (a i) (b i)) (fun r => field_result r (negb (feqb x y))).
    Proof. exact (wp_all_ok (neq_wp W du cap_pos conv ok Hs Ha Hb)). Qed.
    Theorem C12_eq_public : all_ok cap (fun i => eq_public W du conv i (st i) (a i) y) (fun r => field_result r (feqb x y)).
    Proof. exact (wp_all_ok (eq_public_wp W du cap_pos conv ok y Hs Ha)). Qed.
    Theorem C12_neq_public : all_ok cap (fun i => neq_public W du conv i (st i) (a i) y) (fun r => field_result r (negb (feqb x y))).
    Proof. exact (wp_all_ok (neq_public_wp W du cap_pos conv ok y Hs Ha)). Qed.
    Theorem C12_is_zero : all_ok cap (fun i => is_zero W du conv i (st i) (a i))
      (fun r => (forall i, fst (r i) = feqb x 0) /\ synced (fun i => snd (r i))).
    Proof. exact (wp_all_ok (is_zero_wp W du cap_pos conv ok Hs Ha)). Qed.
  End C12.
  Theorem C12_eq_many st a b (xs ys : list F) : synced st -> shares_vec a xs -> shares_vec b ys -> length xs = length ys ->
    all_ok cap (fun i => eq_many W du i (st i) (a i) (b i))
      (fun r => shares_vec (fun i => fst (r i)) (map2 (fun x y => bitval (feqb x y)) xs ys) /\ synced (fun i => snd (r i))).
  Proof. exact (fun Hs Ha Hb L => wp_all_ok (eq_many_wp du cap_pos width Hs Ha Hb L)). Qed.
  Theorem C12_eq_public_many st a (xs ys : list F) : synced st -> shares_vec a xs -> length xs = length ys ->
    all_ok cap (fun i => eq_public_many W du i (st i) (a i) ys)
      (fun r => shares_vec (fun i => fst (r i)) (map2 (fun x y => bitval (feqb x y)) xs ys) /\ synced (fun i => snd (r i))).
  Proof. exact (fun Hs Ha L => wp_all_ok (eq_public_many_wp du cap_pos width ys Hs Ha L)). Qed.
  Theorem C12_eq_many_lengths st (a b : pid -> list (share F)) : (forall i, length (a i) <> length (b i)) ->
    all_end cap (fun i => eq_many W du i (st i) (a i) (b i))
      (fun o => forall i, o i = Failed (Eyre "During execution of eq_many: Invalid number of elements received")).
  Proof. exact (fun L => wpo_all_end (eq_many_len_wpo W du cap st a b L)). Qed.

  (** ** C13: operations on xor-shared integers *)
  Section C13.
    Context (a b c : pid -> share N) (x y z m : N) (k : nat).
    Theorem C13_xor : shares a x -> shares b y -> shares (fun i => shadd (a i) (b i)) (N.lxor x y).
    Proof. exact (@shadd_ok N _ a b x y). Qed.
    Theorem C13_xor_public : shares a x -> shares (fun i => add_public i (a i) m) (N.lxor x m).
    Proof. exact (@add_public_ok N _ a x m). Qed.
    Theorem C13_and_public : shares a x -> shares (fun i => and_mask (a i) m) (N.land x m).
    Proof. exact (fun Ha => shmap_ok (@lin3_land m) Ha). Qed.
    Theorem C13_or_public : shares a x -> shares (fun i => or_public i (a i) m) (N.lor x m).
    Proof. exact (@or_public_ok a x m). Qed.
    Theorem C13_shift_r : shares a x -> shares (fun i => shr (a i) k) (N.shiftr x (N.of_nat k)).
    Proof. exact (fun Ha => shmap_ok (@lin3_shr k) Ha). Qed.
    Theorem C13_shift_l : shares a x -> shares (fun i => shl W (a i) k) (N.shiftl x (N.of_nat k) mod 2 ^ N.of_nat W)%N.
    Proof. exact (fun Ha => shmap_ok (@lin3_shl W k) Ha). Qed.
    Theorem C13_and st : synced st -> shares a x -> shares b y ->
      all_ok cap (fun i => band W du i (st i) (a i) (b i))
        (fun r => shares (fun i => fst (r i)) (N.land x y) /\ synced (fun i => snd (r i))).
    Proof. exact (fun Hs Ha Hb => wp_all_ok (band_wp W du cap_pos Hs Ha Hb)). Qed.
    Theorem C13_or st : synced st -> shares a x -> shares b y ->
      all_ok cap (fun i => bor W du i (st i) (a i) (b i))
        (fun r => shares (fun i => fst (r i)) (N.lor x y) /\ synced (fun i => snd (r i))).
    Proof. exact (fun Hs Ha Hb => wp_all_ok (bor_wp W du cap_pos Hs Ha Hb)). Qed.
    (** bitwise choice: where the condition has a 1 take [y], else [z] *)
    Theorem C13_cmux st : synced st -> shares a x -> shares b y -> shares c z ->
      all_ok cap (fun i => bcmux W du i (st i) (a i) (b i) (c i))
        (fun r => shares (fun i => fst (r i)) (N.lor (N.land x y) (N.ldiff z x)) /\ synced (fun i => snd (r i))).
    Proof.
      exact (fun Hs Ha Hb Hc => wp_all_ok (bcmux_ldiff W du cap_pos Hs Ha Hb Hc)).
    Qed.
    Theorem C13_is_zero n st : (1 <= n)%nat -> synced st -> shares a x ->
      all_ok cap (fun i => bis_zero W du n i (st i) (a i))
        (fun r => shares (fun i => fst (r i)) (if (x mod 2 ^ N.of_nat n =? 0)%N then 1%N else 0%N) /\ synced (fun i => snd (r i))).
    Proof. exact (fun L Hs Ha => wp_all_ok (bis_zero_if W du cap_pos L Hs Ha)). Qed.
  End C13.
  Theorem C13_and_vec st a b xs ys : synced st -> shares_vec a xs -> shares_vec b ys ->
    all_ok cap (fun i => band_vec W du i (st i) (a i) (b i))
      (fun r => shares_vec (fun i => fst (r i)) (map2 N.land xs ys) /\ synced (fun i => snd (r i))).
  Proof. exact (fun Hs Ha Hb => wp_all_ok (band_vec_wp W du cap_pos Hs Ha Hb)). Qed.
  Theorem C13_or_tree st a xs : xs <> [] -> synced st -> shares_vec a xs ->
    all_ok cap (fun i => or_tree W du i (st i) (a i))
      (fun r => shares (fun i => fst (r i)) (fold_right N.lor 0%N xs) /\ synced (fun i => snd (r i))).
  Proof. exact (fun Hn Hs Ha => wp_all_ok (or_tree_fold W du cap_pos Hn Hs Ha)). Qed.
  Theorem C13_or_tree_empty st :
    all_end cap (fun i => or_tree W du i (st i) []) (fun o => forall i, exists e, o i = Failed (Panic e)).
  Proof. exact (wpo_all_end (or_tree_empty_panics W du cap st)). Qed.
  (** adders: sums and differences of [n]-bit values, with carry/borrow in bit [n] *)
  Theorem C13_add st a b x y n : (1 <= n < W)%nat -> (x < 2 ^ N.of_nat n)%N -> (y < 2 ^ N.of_nat n)%N ->
    synced st -> shares a x -> shares b y ->
    all_ok cap (fun i => ks_add W du i (st i) (a i) (b i) n)
      (fun r => shares (fun i => fst (r i)) (x + y)%N /\ synced (fun i => snd (r i))).
  Proof. exact (fun Hn Hx Hy Hs Ha Hb => wp_all_ok (ks_add_wp du cap_pos Hn Hx Hy Hs Ha Hb)). Qed.
  Theorem C13_sub st a b x y n : (1 <= n < W)%nat -> (x < 2 ^ N.of_nat n)%N -> (y < 2 ^ N.of_nat n)%N ->
    synced st -> shares a x -> shares b y ->
    all_ok cap (fun i => ks_sub W du i (st i) (a i) (b i) n)
      (fun r => shares (fun i => fst (r i)) (2 ^ N.of_nat n + x - y)%N /\ synced (fun i => snd (r i))).
  Proof. exact (fun Hn Hx Hy Hs Ha Hb => wp_all_ok (ks_sub_wp du cap_pos Hn Hx Hy Hs Ha Hb)). Qed.
  Theorem C13_add_mod st a b x y q n : (1 <= n)%nat -> (n + 1 < W)%nat -> (1 <= q < 2 ^ N.of_nat n)%N -> (x < q)%N -> (y < q)%N ->
    synced st -> shares a x -> shares b y ->
    all_ok cap (fun i => add_mod_p W du q i (st i) (a i) (b i) n)
      (fun r => shares (fun i => fst (r i)) ((x + y) mod q)%N /\ synced (fun i => snd (r i))).
  Proof. exact (fun H1 H2 H3 Hx Hy Hs Ha Hb => wp_all_ok (add_mod_p_wp du cap_pos H1 H2 H3 Hx Hy Hs Ha Hb)). Qed.
  (** shift of a public field element by a shared amount: only the low 8 bits of the amount count *)
  Theorem C13_shift_l_public_by_shared st a x (c : F) : synced st -> shares a x ->
    all_ok cap (fun i => shift_l_public_by_shared (b2a W du (F := F)) i (st i) c (a i))
      (fun r => shares (fun i => fst (r i)) (rmul c (rpow (rone + rone) (N.to_nat (x mod 256)%N))) /\ synced (fun i => snd (r i))).
  Proof. exact (fun Hs Ha => wp_all_ok (shift_l_wp cap_pos width (b2a W du (F := F)) (b2a_wp du cap_pos width (F := F)) c Hs Ha)). Qed.
  Theorem C13_pow_2_public (s r : pid -> share F) x c : shares s x -> (forall i, pow_2_public (s i) c = Some (r i)) ->
    shares r (rmul x (rpow (rone + rone) (N.to_nat (to_uint c)))).
  Proof. exact (fun Hs Hr => pow_2_public_ok c r Hs Hr). Qed.
  Theorem C13_pow_2_public_panics (s : share F) c : (N.of_nat B <= to_uint c)%N -> pow_2_public s c = None.
  Proof. exact (fun L => pow_2_public_panics s c L). Qed.
End Statements.

(** ** C40 *)
Theorem C40_mask W k : (k <= W)%nat -> umask_checked W k = Some (N.ones (N.of_nat k)).
Proof. exact (@umask_ok W k). Qed.
Theorem C40_limbs L x : (x < 2 ^ N.of_nat (64 * L))%N -> from_limbs (as_limbs L x) = x.
Proof. exact (@limbs_roundtrip L x). Qed.
Theorem C40_from_limbs_truncating L l : Forall (fun d => d < 2 ^ 64)%N l ->
  from_limbs_truncating L l = (from_limbs l mod 2 ^ N.of_nat (64 * L))%N.
Proof. exact (@truncating_ok L l). Qed.
Theorem C40_le_bytes L x : (x < 2 ^ N.of_nat (64 * L))%N ->
  exists bs, to_le_bytes_into L (8 * L) x = Some bs /\ from_le_bytes L bs = Some x.
Proof. exact (@le_bytes_roundtrip L x). Qed.
Theorem C40_serialize L x rest : (x < 2 ^ N.of_nat (64 * L))%N ->
  length (ark_serialize L x) = (8 * L)%nat /\ ark_deserialize L (ark_serialize L x ++ rest) = Some (x, rest).
Proof. exact (fun Hx => conj (ark_size L x) (ark_roundtrip L rest Hx)). Qed.
Theorem C40_deserialize L bs x rest : Forall (fun d => d < 256)%N bs -> ark_deserialize L bs = Some (x, rest) ->
  (x < 2 ^ N.of_nat (64 * L))%N /\ bs = ark_serialize L x ++ rest.
Proof. exact (@ark_deserialize_inv L bs x rest). Qed.
Theorem C40_serde L x : (x < 2 ^ N.of_nat (64 * L))%N -> serde_visit L (as_limbs L x) = Some x.
Proof. exact (@serde_roundtrip L x). Qed.
Theorem C40_random_bits L drawn k : (k <= 64 * L)%nat -> random_bits L drawn k = Some (from_limbs drawn mod 2 ^ N.of_nat k)%N.
Proof. exact (@random_bits_ok L drawn k). Qed.
Theorem C40_casts L x : (1 <= L)%nat -> (x < 2 ^ N.of_nat (64 * L))%N ->
  (forall k, (k <= 64)%nat -> as_prim L k x = x mod 2 ^ N.of_nat k)%N /\ as_u128 L x = (x mod 2 ^ 128)%N /\ as_bit L x = N.odd x.
Proof. exact (fun K Hx => conj (fun k Hk => as_prim_ok x K Hk) (conj (as_u128_ok K Hx) (as_bit_ok x K))). Qed.
(** casts can be applied to the components of an xor-sharing *)
Theorem C40_casts_xor k x y : (N.lxor x y mod 2 ^ k)%N = N.lxor (x mod 2 ^ k)%N (y mod 2 ^ k)%N.
Proof. exact (mod_pow_lxor k x y). Qed.
Theorem C40_reduce {n} L x : (x < 2 ^ N.of_nat (64 * L))%N -> reduce_from_limbs (n := n) L x = ofZ (Z.of_N x).
Proof. exact (@reduce_from_limbs_ok n L x). Qed.
Theorem C40_from_uint_unchecked {n} debug L k x : (k <= L)%nat -> (Npos n <= 2 ^ N.of_nat (64 * k))%N -> (x < Npos n)%N ->
  from_uint_unchecked_wide debug L k x = Some (ofZ (n := n) (Z.of_N x)).
Proof. exact (@wide_ok n debug L k x). Qed.
Theorem C40_from_uint_unchecked_debug {n} L k x : (k <= L)%nat -> (x < 2 ^ N.of_nat (64 * L))%N -> (Npos n <= x)%N ->
  from_uint_unchecked_wide (n := n) true L k x = None.
Proof. exact (@wide_debug_panics n L k x). Qed.
Lemma wide_release_truncates : exists x (r : F13), (Npos 13 <= x)%N /\ (x < 2 ^ N.of_nat (64 * 2))%N /\
  from_uint_unchecked_wide false 2 1 x = Some r /\ r <> ofZ (Z.of_N x).
Proof.
  exists (2 ^ 64 + 3)%N, (f13 3). split; [cbn; lia|]. split; [cbn; lia|]. split; [vm_compute; reflexivity|].
  intros C. apply (f_equal val) in C. vm_compute in C. discriminate C.
Qed.
(** In release builds a value beyond the field's limbs is silently truncated: a wrong element
    comes back although the documentation of [from_uint_unchecked] asks callers for reduced values only. *)
Theorem C40_from_uint_unchecked_release_refuted : exists x (r : F13), (Npos 13 <= x)%N /\ (x < 2 ^ N.of_nat (64 * 2))%N /\
  from_uint_unchecked_wide false 2 1 x = Some r /\ r <> ofZ (Z.of_N x).
Proof. exact wide_release_truncates. Qed.
Theorem C40_to_uint_widened {n} L k (x : Zmod n) : (k <= L)%nat -> (Npos n <= 2 ^ N.of_nat (64 * k))%N -> to_uint_wide L k x = Z.to_N (val x).
Proof. exact (@to_uint_wide_ok n L k x). Qed.

(** ** Non-vacuity *)
Example ex_C09_width : (mbs F13 + 2 <= 64)%nat.
Proof. vm_compute. lia. Qed.
Example ex_C09 : synced st13 /\ shares (sh13 3 7 11) (f13 3) /\ to_uint (f13 16) = 3%N.
Proof. split; [exact st13_synced|]. split; [apply sh13_shares|reflexivity]. Qed.
Example ex_C09_runs : all_ok 1 (fun i => a2b (M := msg) 64 du13 i (st13 i) (sh13 3 7 11 i))
   (fun r => shares (fun i => fst (r i)) 3%N /\ synced (fun i => snd (r i))).
Proof. exact (C09_a2b du13 (le_n 1) ex_C09_width st13_synced (sh13_shares 3 7 11)). Qed.
Example ex_C10 : shares (xs 11 5 9) 11%N /\ (11 < fu_p (F := F13))%N.
Proof. split; [apply xs_shares|reflexivity]. Qed.
Example ex_C11 : shares (xs 1 1 1) 1%N /\ narrow 1 (xs 1 1 1) /\ is_bit (xs 2 1 1 P0) = false.
Proof. split; [apply xs_shares|]. split; [intros []; split; reflexivity|reflexivity]. Qed.
Example ex_C12 : (to_uint (f13 12) <=? to_uint (f13 3))%N = false /\ feqb (f13 16) (f13 3) = true.
Proof. split; reflexivity. Qed.
Example ex_C13 : shares (xs 11 5 9) 11%N /\ (11 + 7 < 2 ^ N.of_nat 5)%N /\ (2 ^ 5 + 7 - 11 = 28)%N.
Proof. split; [apply xs_shares|split; reflexivity]. Qed.
Example ex_C40 : val (reduce_from_limbs (n := 13) 2 (2 ^ 64 + 3)%N) = 6%Z /\ from_limbs_truncating 1 [7%N; 1%N] = 7%N.
Proof. split; reflexivity. Qed.

Print Assumptions C09_a2b.
Print Assumptions C09_a2b_many.
Print Assumptions C10_b2a_many.
Print Assumptions C10_roundtrip.
Print Assumptions C11_bit_inject_many.
Print Assumptions C12_ge.
Print Assumptions C12_lt_public.
Print Assumptions C12_eq_many.
Print Assumptions C12_is_zero.
Print Assumptions C13_cmux.
Print Assumptions C13_or_tree.
Print Assumptions C13_add_mod.
Print Assumptions C13_shift_l_public_by_shared.
Print Assumptions C40_serialize.
Print Assumptions C40_reduce.
Print Assumptions C40_from_uint_unchecked_release_refuted.
