(** * Properties of replicated sharing over Z/2^K (C14-C16) *)
From Coq Require Import String List Arith NArith ZArith Lia Bool.
From Verif Require Import Proc Alg Zp Rep3Net Rep3 Rep3Spec Rep3Proofs Rep3Wp Uint Binary BinaryWp Conv ConvWp CmpWp Ring2k Ring2kWp Concrete ConcreteU ConcreteR.
Import ListNotations.
Set Implicit Arguments.
Local Open Scope grp_scope.

(** ** Specification: reconstruction as integers modulo [2^K] *)
Section Spec.
  Context {T : Type} `{IR : IntRing T}.
  Notation K := (rK T).
  (** the parties' shares are consistent and their three components, as unsigned [K]-bit integers,
      add up to [u] modulo [2^K] *)
  Definition opens (s : pid -> share T) (u : N) : Prop :=
    (forall i, sb (s i) = sa (s (prev i))) /\
    u = ((rto (sa (s P0)) + rto (sa (s P1)) + rto (sa (s P2))) mod 2 ^ N.of_nat K)%N.
  Lemma opens_elim s u : opens s u -> exists x, rto x = u /\ shares s x.
  Proof.
    intros [R E]. exists (sa (s P0) + sa (s P1) + sa (s P2)). split; [|split; [exact R|reflexivity]].
    rewrite E, !rto_add, N.add_mod_idemp_l by apply q_pos. reflexivity.
  Qed.
  Lemma opens_intro s x : shares s x -> opens s (rto x).
  Proof.
    intros [R A]. split; [exact R|]. unfold additive in A. rewrite <- A, !rto_add, N.add_mod_idemp_l by apply q_pos. reflexivity.
  Qed.
  Lemma opens_as s x u : shares s x -> rto x = u -> opens s u.
  Proof. intros Hs <-. apply opens_intro. exact Hs. Qed.
  Definition opens_vec (s : pid -> list (share T)) (us : list N) : Prop := pvec opens s us.
End Spec.

Section Statements.
  Context {T : Type} `{IR : IntRing T} {S M : Type} (dbg : bool) {DT : Draw S T}.
  Context {EN : Enc M (list N)} {ENN : Enc M (list (N * N))}
          {EL : Enc M (list (list N))} {ELL : Enc M (list (list N * list N))} {ET : Enc M (list T)}
          (cap : nat) (cap_pos : (1 <= cap)%nat).
  Notation K := (rK T).
  Notation q := (2 ^ N.of_nat (rK T))%N.
  Implicit Types (st : pid -> rst S).

  (** ** C14 *)
  Section C14.
    Context (a b c : pid -> share T) (u v w : N) (k : T).
    Lemma add_opens : opens a u -> opens b v -> opens (fun i => shadd (a i) (b i)) ((u + v) mod q)%N.
    Proof.
      intros (x & <- & Ha)%opens_elim (y & <- & Hb)%opens_elim. rewrite <- rto_add. apply opens_intro, shadd_ok; assumption.
    Qed.
    Theorem C14_add : opens a u -> opens b v -> opens (fun i => shadd (a i) (b i)) ((u + v) mod q)%N.
    Proof. exact add_opens. Qed.
    Lemma sub_opens : opens a u -> opens b v -> opens (fun i => shsub (a i) (b i)) ((q + u - v) mod q)%N.
    Proof.
      intros (x & <- & Ha)%opens_elim (y & <- & Hb)%opens_elim. rewrite <- rto_sub. apply opens_intro, shsub_ok; assumption.
    Qed.
    Theorem C14_sub : opens a u -> opens b v -> opens (fun i => shsub (a i) (b i)) ((q + u - v) mod q)%N.
    Proof. exact sub_opens. Qed.
    Lemma neg_opens : opens a u -> opens (fun i => shneg (a i)) ((q - u) mod q)%N.
    Proof. intros (x & <- & Ha)%opens_elim. rewrite <- rto_neg. apply opens_intro, shneg_ok. assumption. Qed.
    Theorem C14_neg : opens a u -> opens (fun i => shneg (a i)) ((q - u) mod q)%N.
    Proof. exact neg_opens. Qed.
    Lemma add_public_opens : opens a u -> opens (fun i => add_public i (a i) k) ((u + rto k) mod q)%N.
    Proof. intros (x & <- & Ha)%opens_elim. rewrite <- rto_add. apply opens_intro, add_public_ok. assumption. Qed.
    Theorem C14_add_public : opens a u -> opens (fun i => add_public i (a i) k) ((u + rto k) mod q)%N.
    Proof. exact add_public_opens. Qed.
    Lemma sub_shared_by_public_opens : opens a u -> opens (fun i => sub_shared_by_public i (a i) k) ((q + u - rto k) mod q)%N.
    Proof. intros (x & <- & Ha)%opens_elim. rewrite <- rto_sub. apply opens_intro, sub_shared_by_public_ok. assumption. Qed.
    Theorem C14_sub_shared_by_public : opens a u -> opens (fun i => sub_shared_by_public i (a i) k) ((q + u - rto k) mod q)%N.
    Proof. exact sub_shared_by_public_opens. Qed.
    Lemma sub_public_by_shared_opens : opens a u -> opens (fun i => sub_public_by_shared i k (a i)) ((q + rto k - u) mod q)%N.
    Proof. intros (x & <- & Ha)%opens_elim. rewrite <- rto_sub. apply opens_intro, sub_public_by_shared_ok. assumption. Qed.
    Theorem C14_sub_public_by_shared : opens a u -> opens (fun i => sub_public_by_shared i k (a i)) ((q + rto k - u) mod q)%N.
    Proof. exact sub_public_by_shared_opens. Qed.
    Lemma mul_public_opens : opens a u -> opens (fun i => mul_public (a i) k) ((u * rto k) mod q)%N.
    Proof. intros (x & <- & Ha)%opens_elim. rewrite <- rto_mul. apply opens_intro, mul_public_ok. assumption. Qed.
    Theorem C14_mul_public : opens a u -> opens (fun i => mul_public (a i) k) ((u * rto k) mod q)%N.
    Proof. exact mul_public_opens. Qed.
    Theorem C14_promote : opens (fun i => promote i k) (rto k).
    Proof. exact (opens_intro (promote_ok k)). Qed.
    Lemma mul_opens st : synced st -> opens a u -> opens b v ->
      wp cap (fun i => mul (DC := DT) i (st i) (a i) (b i)) (fun r => opens (fun i => fst (r i)) ((u * v) mod q)%N /\ synced (fun i => snd (r i))).
    Proof.
      intros Hs (x & <- & Ha)%opens_elim (y & <- & Hb)%opens_elim. eapply wp_mono; [|apply (rmul_wp cap_pos Hs Ha Hb)].
      intros r [R1 R2]. split; [|exact R2]. rewrite <- rto_mul. apply opens_intro. exact R1.
    Qed.
    Theorem C14_mul st : synced st -> opens a u -> opens b v ->
      all_ok cap (fun i => mul (DC := DT) i (st i) (a i) (b i)) (fun r => opens (fun i => fst (r i)) ((u * v) mod q)%N /\ synced (fun i => snd (r i))).
    Proof. exact (fun Hs Ha Hb => wp_all_ok (mul_opens Hs Ha Hb)). Qed.
    Lemma open_opens : opens a u -> wp cap (fun i => open i (a i)) (fun r => forall i, rto (r i) = u).
    Proof.
      intros (x & <- & Ha)%opens_elim. eapply wp_mono; [|apply (open_wp cap_pos Ha)]. intros r Hr i. rewrite Hr. reflexivity.
    Qed.
    Theorem C14_open : opens a u -> all_ok cap (fun i => open i (a i)) (fun r => forall i, rto (r i) = u).
    Proof. exact (fun Ha => wp_all_ok (open_opens Ha)). Qed.
    Lemma pow_opens st : synced st -> opens a u ->
      wp cap (fun i => rpow_public i (st i) (a i) k) (fun r => opens (fun i => fst (r i)) ((u ^ rto k) mod q)%N /\ synced (fun i => snd (r i))).
    Proof.
      intros Hs (x & <- & Ha)%opens_elim. eapply wp_mono; [|apply (rpow_public_wp cap_pos k Hs Ha)].
      intros r [R1 R2]. split; [|exact R2]. eapply opens_as; [exact R1|]. rewrite rto_rpow, N2Nat.id. reflexivity.
    Qed.
    Theorem C14_pow_public st : synced st -> opens a u ->
      all_ok cap (fun i => rpow_public i (st i) (a i) k) (fun r => opens (fun i => fst (r i)) ((u ^ rto k) mod q)%N /\ synced (fun i => snd (r i))).
    Proof. exact (fun Hs Ha => wp_all_ok (pow_opens Hs Ha)). Qed.
    Lemma cmux_opens st : synced st -> opens c w -> (w < 2)%N -> opens a u -> opens b v ->
      wp cap (fun i => cmux i (st i) (c i) (a i) (b i))
        (fun r => opens (fun i => fst (r i)) (if (w =? 1)%N then u else v) /\ synced (fun i => snd (r i))).
    Proof.
      intros Hs (z & <- & Hc)%opens_elim L (x & <- & Ha)%opens_elim (y & <- & Hb)%opens_elim.
      assert (Ez : z = if (rto z =? 1)%N then rone else 0).
      { apply rto_inj. destruct (N.eqb_spec (rto z) 1) as [E|E]; [rewrite rto_one; exact E|rewrite rto_zero; lia]. }
      assert (Hc' : shares c (rbit (rto z =? 1)%N)) by (unfold rbit; rewrite <- Ez; exact Hc).
      eapply wp_mono; [|apply (cmux_bit_wp cap_pos _ Hs Hc' Ha Hb)].
      intros r [R1 R2]. split; [|exact R2]. eapply opens_as; [exact R1|]. destruct (rto z =? 1)%N; reflexivity.
    Qed.
    Theorem C14_cmux st : synced st -> opens c w -> (w < 2)%N -> opens a u -> opens b v ->
      all_ok cap (fun i => cmux i (st i) (c i) (a i) (b i))
        (fun r => opens (fun i => fst (r i)) (if (w =? 1)%N then u else v) /\ synced (fun i => snd (r i))).
    Proof. exact (fun Hs Hc L Ha Hb => wp_all_ok (cmux_opens Hs Hc L Ha Hb)). Qed.
    (** [x + y - 2xy]; on bits this is exclusive or *)
    Lemma arith_xor_opens st : synced st -> opens a u -> opens b v ->
      wp cap (fun i => rarith_xor i (st i) (a i) (b i))
        (fun r => opens (fun i => fst (r i)) ((q + (u + v) mod q - (2 * (u * v)) mod q) mod q)%N /\ synced (fun i => snd (r i))).
    Proof.
      intros Hs (x & <- & Ha)%opens_elim (y & <- & Hb)%opens_elim. eapply wp_mono; [|apply (rarith_xor_wp cap_pos Hs Ha Hb)].
      intros r [R1 R2]. split; [|exact R2]. eapply opens_as; [exact R1|]. rewrite rto_sub, !rto_add, !rto_mul.
      rewrite <- N.add_mod by apply q_pos. do 3 f_equal. lia.
    Qed.
    Theorem C14_arithmetic_xor st : synced st -> opens a u -> opens b v ->
      all_ok cap (fun i => rarith_xor i (st i) (a i) (b i))
        (fun r => opens (fun i => fst (r i)) ((q + (u + v) mod q - (2 * (u * v)) mod q) mod q)%N /\ synced (fun i => snd (r i))).
    Proof. exact (fun Hs Ha Hb => wp_all_ok (arith_xor_opens Hs Ha Hb)). Qed.
    Lemma arith_xor_bits st : synced st -> (u < 2)%N -> (v < 2)%N -> opens a u -> opens b v ->
      wp cap (fun i => rarith_xor i (st i) (a i) (b i))
        (fun r => opens (fun i => fst (r i)) (N.lxor u v) /\ synced (fun i => snd (r i))).
    Proof.
      intros Hs Lu Lv Ha Hb. eapply wp_mono; [|apply (arith_xor_opens Hs Ha Hb)]. intros r [R1 R2]. split; [|exact R2].
      replace (N.lxor u v) with ((q + (u + v) mod q - (2 * (u * v)) mod q) mod q)%N; [exact R1|]. clear R1.
      assert (Hq : (2 <= q)%N).
      { pose proof (rK_pos (T := T)). change 2%N with (2 ^ 1)%N at 1. apply N.pow_le_mono_r; lia. }
      generalize dependent q. intros z Hz.
      assert (M0 : (0 mod z = 0)%N) by (apply N.mod_0_l; lia). assert (M1 : (1 mod z = 1)%N) by (apply N.mod_small; lia).
      destruct u as [|[| |]]; try lia; destruct v as [|[| |]]; try lia; cbn [N.add N.mul N.lxor Pos.add Pos.mul Pos.lxor]; rewrite ?M0, ?M1.
      - rewrite N.add_0_r, N.sub_0_r. apply N.mod_same. lia.
      - rewrite N.sub_0_r. replace (z + 1)%N with (1 + 1 * z)%N by lia. rewrite N.mod_add by lia. exact M1.
      - rewrite N.sub_0_r. replace (z + 1)%N with (1 + 1 * z)%N by lia. rewrite N.mod_add by lia. exact M1.
      - rewrite N.add_sub. apply N.mod_same. lia.
    Qed.
    Theorem C14_arithmetic_xor_bits st : synced st -> (u < 2)%N -> (v < 2)%N -> opens a u -> opens b v ->
      all_ok cap (fun i => rarith_xor i (st i) (a i) (b i))
        (fun r => opens (fun i => fst (r i)) (N.lxor u v) /\ synced (fun i => snd (r i))).
    Proof. exact (fun Hs Lu Lv Ha Hb => wp_all_ok (arith_xor_bits Hs Lu Lv Ha Hb)). Qed.
    (** multiplication by a public power of two: panics exactly when the exponent reaches [K] *)
    Lemma pow_2_opens r : opens a u -> (forall i, rpow_2_public (a i) k = Some (r i)) -> opens r ((u * 2 ^ rto k) mod q)%N.
    Proof.
      intros (x & <- & Ha)%opens_elim Hr. eapply opens_as; [exact (rpow_2_public_ok k r Ha Hr)|].
      rewrite rto_mul, rto_rof, N.mul_mod_idemp_r by apply q_pos. reflexivity.
    Qed.
    Theorem C14_pow_2_public r : opens a u -> (forall i, rpow_2_public (a i) k = Some (r i)) -> opens r ((u * 2 ^ rto k) mod q)%N.
    Proof. exact (pow_2_opens r). Qed.
    Theorem C14_pow_2_public_panics s : (N.of_nat K <= 2 ^ 64)%N -> rpow_2_public s k = None <-> (N.of_nat K <= rto k)%N.
    Proof. exact (rpow_2_public_defined cap_pos s k). Qed.
  End C14.
  (** batched *)
  Lemma opens_vec_elim us : forall s : pid -> list (share T), opens_vec s us -> exists xs, map rto xs = us /\ shares_vec s xs.
  Proof.
    induction us as [|u us IH]; intros s Hs.
    - exists []. split; [reflexivity|]. apply pvec_nil. exact (fun i => pvec_nil_inv Hs i).
    - destruct (pvec_cons_inv Hs) as (h & t & E & Hh & Ht). destruct (opens_elim Hh) as (x & <- & Hx).
      destruct (IH t Ht) as (xs & <- & Hxs). exists (x :: xs). split; [reflexivity|]. exact (pvec_cons _ _ _ E Hx Hxs).
  Qed.
  Lemma opens_vec_intro xs : forall s : pid -> list (share T), shares_vec s xs -> opens_vec s (map rto xs).
  Proof.
    induction xs as [|x xs IH]; intros s Hs.
    - apply pvec_nil. exact (fun i => pvec_nil_inv Hs i).
    - destruct (pvec_cons_inv Hs) as (h & t & E & Hh & Ht). exact (pvec_cons _ _ _ E (opens_intro Hh) (IH t Ht)).
  Qed.
  Lemma mul_vec_opens st a b us vs : synced st -> opens_vec a us -> opens_vec b vs ->
    wp cap (fun i => mul_vec (DC := DT) i (st i) (a i) (b i))
      (fun r => opens_vec (fun i => fst (r i)) (map2 (fun u v => (u * v) mod q)%N us vs) /\ synced (fun i => snd (r i))).
  Proof.
    intros Hs (xs & <- & Ha)%opens_vec_elim (ys & <- & Hb)%opens_vec_elim. eapply wp_mono; [|apply (mul_vec_wp cap_pos Hs Ha Hb)].
    intros r [R1 R2]. split; [|exact R2]. apply opens_vec_intro in R1.
    replace (map2 (fun u v => (u * v) mod q)%N (map rto xs) (map rto ys)) with (map rto (map2 bmul xs ys)); [exact R1|].
    clear. revert ys. induction xs as [|x xs IH]; intros [|y ys]; cbn [map2 map]; try reflexivity. rewrite IH.
    change (bmul x y) with (rmul x y). rewrite rto_mul. reflexivity.
  Qed.
  Theorem C14_mul_vec st a b us vs : synced st -> opens_vec a us -> opens_vec b vs ->
    all_ok cap (fun i => mul_vec (DC := DT) i (st i) (a i) (b i))
      (fun r => opens_vec (fun i => fst (r i)) (map2 (fun u v => (u * v) mod q)%N us vs) /\ synced (fun i => snd (r i))).
  Proof. exact (fun Hs Ha Hb => wp_all_ok (mul_vec_opens Hs Ha Hb)). Qed.
  Theorem C14_arithmetic_xor_many st a b (xs ys : list T) : synced st -> shares_vec a xs -> shares_vec b ys -> length xs = length ys ->
    all_ok cap (fun i => rarith_xor_many dbg i (st i) (a i) (b i))
      (fun r => shares_vec (fun i => fst (r i)) (map2 (fun x y => x + y - (rmul x y + rmul x y)) xs ys) /\ synced (fun i => snd (r i))).
  Proof. exact (fun Hs Ha Hb L => wp_all_ok (rarith_xor_many_wp cap_pos dbg Hs Ha Hb L)). Qed.

  (** shifts of binary shares by a public amount *)
  Theorem C15_shift_right_public a u c : shares a u -> (u < q)%N -> (c < 2 ^ 64)%N ->
    exists r : pid -> share N, (forall i, rshift_r_public K (a i) c = Some (r i)) /\ shares r (u / 2 ^ c)%N.
  Proof. exact (@rshift_r_ok K a u c). Qed.
  Theorem C15_shift_left_public a u c : shares a u -> (u < q)%N -> (c < 2 ^ 64)%N ->
    exists r : pid -> share N, (forall i, rshift_l_public K (a i) c = Some (r i)) /\ shares r (u * 2 ^ c mod q)%N.
  Proof. exact (@rshift_l_ok K a u c). Qed.
  Theorem C15_shift_huge_panics (x : share N) c : (2 ^ 64 <= c)%N -> rshift_r_public K x c = None /\ rshift_l_public K x c = None.
  Proof. exact (@rshift_none K x c). Qed.

  (** ** C15.  [K] a power of two, with or without debug assertions. *)
  Context (pw : is_pow2 K = true).
  Lemma a2b_opens st a u : synced st -> opens a u ->
    wp cap (fun i => ra2b dbg i (st i) (a i)) (fun r => shares (fun i => fst (r i)) u /\ synced (fun i => snd (r i))).
  Proof. intros Hs (x & <- & Ha)%opens_elim. exact (ra2b_wp dbg cap_pos pw Hs Ha). Qed.
  Theorem C15_a2b st a u : synced st -> opens a u ->
    all_ok cap (fun i => ra2b dbg i (st i) (a i)) (fun r => shares (fun i => fst (r i)) u /\ synced (fun i => snd (r i))).
  Proof. exact (fun Hs Ha => wp_all_ok (a2b_opens Hs Ha)). Qed.
  Lemma a2b_many_opens st a us : synced st -> opens_vec a us ->
    wp cap (fun i => ra2b_many dbg i (st i) (a i)) (fun r => shares_vec (fun i => fst (r i)) us /\ synced (fun i => snd (r i))).
  Proof. intros Hs (xs & <- & Ha)%opens_vec_elim. exact (ra2b_many_wp dbg cap_pos pw Hs Ha). Qed.
  Theorem C15_a2b_many st a us : synced st -> opens_vec a us ->
    all_ok cap (fun i => ra2b_many dbg i (st i) (a i)) (fun r => shares_vec (fun i => fst (r i)) us /\ synced (fun i => snd (r i))).
  Proof. exact (fun Hs Ha => wp_all_ok (a2b_many_opens Hs Ha)). Qed.
  Lemma b2a_opens st a u : synced st -> shares a u -> (u < q)%N ->
    wp cap (fun i => rb2a (T := T) dbg i (st i) (a i)) (fun r => opens (fun i => fst (r i)) u /\ synced (fun i => snd (r i))).
  Proof.
    intros Hs Ha Hu. eapply wp_mono; [|apply (rb2a_wp (T := T) dbg cap_pos pw Hs Ha Hu)]. intros r [R1 R2]. split; [|exact R2].
    eapply opens_as; [exact R1|]. rewrite rto_rof. apply N.mod_small. exact Hu.
  Qed.
  Theorem C15_b2a st a u : synced st -> shares a u -> (u < q)%N ->
    all_ok cap (fun i => rb2a (T := T) dbg i (st i) (a i)) (fun r => opens (fun i => fst (r i)) u /\ synced (fun i => snd (r i))).
  Proof. exact (fun Hs Ha Hu => wp_all_ok (b2a_opens Hs Ha Hu)). Qed.
  Lemma b2a_many_opens st a us : synced st -> shares_vec a us -> (forall u, In u us -> u < q)%N ->
    wp cap (fun i => rb2a_many (T := T) dbg i (st i) (a i)) (fun r => opens_vec (fun i => fst (r i)) us /\ synced (fun i => snd (r i))).
  Proof.
    intros Hs Ha Hu. eapply wp_mono; [|apply (rb2a_many_wp (T := T) dbg cap_pos pw Hs Ha Hu)]. intros r [R1 R2]. split; [|exact R2].
    apply opens_vec_intro in R1. rewrite map_map in R1. rewrite <- (map_id us). erewrite map_ext_in; [exact R1|].
    intros u Hin. cbv beta. rewrite rto_rof. symmetry. apply N.mod_small. apply Hu. exact Hin.
  Qed.
  Theorem C15_b2a_many st a us : synced st -> shares_vec a us -> (forall u, In u us -> u < q)%N ->
    all_ok cap (fun i => rb2a_many (T := T) dbg i (st i) (a i)) (fun r => opens_vec (fun i => fst (r i)) us /\ synced (fun i => snd (r i))).
  Proof. exact (fun Hs Ha Hu => wp_all_ok (b2a_many_opens Hs Ha Hu)). Qed.
  Lemma roundtrip_opens st a u : synced st -> opens a u ->
    wp cap (fun i => b <- ra2b dbg i (st i) (a i) ;; rb2a (T := T) dbg i (snd b) (fst b))
      (fun r => opens (fun i => fst (r i)) u /\ synced (fun i => snd (r i))).
  Proof.
    intros Hs Ha. apply wp_bind. eapply wp_mono; [|apply (a2b_opens Hs Ha)]. intros r [R1 R2].
    apply (b2a_opens R2 R1). destruct Ha as [_ ->]. apply N.mod_lt, q_pos.
  Qed.
  Theorem C15_roundtrip st a u : synced st -> opens a u ->
    all_ok cap (fun i => b <- ra2b dbg i (st i) (a i) ;; rb2a (T := T) dbg i (snd b) (fst b))
      (fun r => opens (fun i => fst (r i)) u /\ synced (fun i => snd (r i))).
  Proof. exact (fun Hs Ha => wp_all_ok (roundtrip_opens Hs Ha)). Qed.
  Lemma inject_opens st s (b : bool) : synced st -> shares s (N.b2n b) -> narrow 1 s ->
    wp cap (fun i => rbit_inject (T := T) i (st i) (s i)) (fun r => opens (fun i => fst (r i)) (N.b2n b) /\ synced (fun i => snd (r i))).
  Proof.
    intros Hs Hv Hn. eapply wp_mono; [|apply (bit_inject_wp cap_pos Hs Hv Hn)]. intros r [R1 R2]. split; [|exact R2].
    eapply opens_as; [exact R1|]. destruct b; [apply rto_one|apply rto_zero].
  Qed.
  Theorem C15_bit_inject st s (b : bool) : synced st -> shares s (N.b2n b) -> narrow 1 s ->
    all_ok cap (fun i => rbit_inject (T := T) i (st i) (s i)) (fun r => opens (fun i => fst (r i)) (N.b2n b) /\ synced (fun i => snd (r i))).
  Proof. exact (fun Hs Hv Hn => wp_all_ok (inject_opens b Hs Hv Hn)). Qed.
  Lemma inject_bit_opens st s (b : bool) : synced st -> shares s (N.b2n b) ->
    wp cap (fun i => rbit_inject_from_bit (T := T) i (st i) (s i)) (fun r => opens (fun i => fst (r i)) (N.b2n b) /\ synced (fun i => snd (r i))).
  Proof.
    intros Hs Hv. eapply wp_mono; [|apply (rbit_inject_from_bit_wp (T := T) cap_pos Hs Hv)]. intros r [R1 R2]. split; [|exact R2].
    eapply opens_as; [exact R1|]. destruct b; [apply rto_one|apply rto_zero].
  Qed.
  Theorem C15_bit_inject_from_bit st s (b : bool) : synced st -> shares s (N.b2n b) ->
    all_ok cap (fun i => rbit_inject_from_bit (T := T) i (st i) (s i)) (fun r => opens (fun i => fst (r i)) (N.b2n b) /\ synced (fun i => snd (r i))).
  Proof. exact (fun Hs Hv => wp_all_ok (inject_bit_opens b Hs Hv)). Qed.
  Lemma inject_bits_many_opens st s (bs : list bool) : synced st -> shares_vec s (map N.b2n bs) ->
    wp cap (fun i => rbit_inject_from_bits_many (T := T) i (st i) (s i)) (fun r => opens_vec (fun i => fst (r i)) (map N.b2n bs) /\ synced (fun i => snd (r i))).
  Proof.
    intros Hs Hv. eapply wp_mono; [|apply (rbit_inject_from_bits_many_wp (T := T) cap_pos Hs Hv)]. intros r [R1 R2]. split; [|exact R2].
    apply opens_vec_intro in R1. rewrite !map_map in R1. erewrite map_ext; [exact R1|]. intros []; cbv beta; symmetry; [apply rto_one|apply rto_zero].
  Qed.
  Theorem C15_bit_inject_from_bits_many st s (bs : list bool) : synced st -> shares_vec s (map N.b2n bs) ->
    all_ok cap (fun i => rbit_inject_from_bits_many (T := T) i (st i) (s i)) (fun r => opens_vec (fun i => fst (r i)) (map N.b2n bs) /\ synced (fun i => snd (r i))).
  Proof. exact (fun Hs Hv => wp_all_ok (inject_bits_many_opens bs Hs Hv)). Qed.

  (** comparisons on unsigned integers: a one-bit sharing of the truth value *)
  Section C15cmp.
    Context st (Hs : synced st) (a b : pid -> share T) (x y : T) (Ha : shares a x) (Hb : shares b y).
    Notation conv := (ra2b (T := T) (S := S) (M := M) dbg).
    Notation ok_ := (@ra2b_wp T _ _ S M dbg _ _ _ cap cap_pos pw).
    Theorem C15_ge : all_ok cap (fun i => rge dbg conv i (st i) (a i) (b i)) (fun r => bit_result r (rto y <=? rto x)%N).
    Proof. exact (wp_all_ok (rge_wp dbg cap_pos pw conv ok_ Hs Ha Hb)). Qed.
    Theorem C15_lt : all_ok cap (fun i => rlt dbg conv i (st i) (a i) (b i)) (fun r => bit_result r (rto x <? rto y)%N).
    Proof. exact (wp_all_ok (rlt_wp dbg cap_pos pw conv ok_ Hs Ha Hb)). Qed.
    Theorem C15_le : all_ok cap (fun i => rle dbg conv i (st i) (a i) (b i)) (fun r => bit_result r (rto x <=? rto y)%N).
    Proof. exact (wp_all_ok (rle_wp dbg cap_pos pw conv ok_ Hs Ha Hb)). Qed.
    Theorem C15_gt : all_ok cap (fun i => rgt dbg conv i (st i) (a i) (b i)) (fun r => bit_result r (rto y <? rto x)%N).
    Proof. exact (wp_all_ok (rgt_wp dbg cap_pos pw conv ok_ Hs Ha Hb)). Qed.
    Theorem C15_eq : all_ok cap (fun i => req dbg conv i (st i) (a i) (b i)) (fun r => bit_result r (rto x =? rto y)%N).
    Proof. exact (wp_all_ok (req_wp dbg cap_pos pw conv ok_ Hs Ha Hb)). Qed.
    Theorem C15_neq : all_ok cap (fun i => rneq dbg conv i (st i) (a i) (b i)) (fun r => bit_result r (negb (rto x =? rto y)%N)).
    Proof. exact (wp_all_ok (rneq_wp dbg cap_pos pw conv ok_ Hs Ha Hb)). Qed.
    Theorem C15_ge_public : all_ok cap (fun i => rge_public dbg conv i (st i) (a i) y) (fun r => bit_result r (rto y <=? rto x)%N).
    Proof. exact (wp_all_ok (rge_public_wp dbg cap_pos pw conv ok_ y Hs Ha)). Qed.
    Theorem C15_lt_public : all_ok cap (fun i => rlt_public dbg conv i (st i) (a i) y) (fun r => bit_result r (rto x <? rto y)%N).
    Proof. exact (wp_all_ok (rlt_public_wp dbg cap_pos pw conv ok_ y Hs Ha)). Qed.
    Theorem C15_le_public : all_ok cap (fun i => rle_public dbg conv i (st i) (a i) y) (fun r => bit_result r (rto x <=? rto y)%N).
    Proof. exact (wp_all_ok (rle_public_wp dbg cap_pos pw conv ok_ y Hs Ha)). Qed.
    Theorem C15_gt_public : all_ok cap (fun i => rgt_public dbg conv i (st i) (a i) y) (fun r => bit_result r (rto y <? rto x)%N).
    Proof. exact (wp_all_ok (rgt_public_wp dbg cap_pos pw conv ok_ y Hs Ha)). Qed.
    Theorem C15_eq_public : all_ok cap (fun i => req_public dbg conv i (st i) (a i) y) (fun r => bit_result r (rto x =? rto y)%N).
    Proof. exact (wp_all_ok (req_public_wp dbg cap_pos pw conv ok_ y Hs Ha)). Qed.
    Theorem C15_neq_public : all_ok cap (fun i => rneq_public dbg conv i (st i) (a i) y) (fun r => bit_result r (negb (rto x =? rto y)%N)).
    Proof. exact (wp_all_ok (rneq_public_wp dbg cap_pos pw conv ok_ y Hs Ha)). Qed.
    Theorem C15_is_zero : all_ok cap (fun i => ris_zero_open dbg conv i (st i) (a i))
      (fun r => (forall i, fst (r i) = (rto x =? 0)%N) /\ synced (fun i => snd (r i))).
    Proof. exact (wp_all_ok (ris_zero_open_wp dbg cap_pos pw conv ok_ Hs Ha)). Qed.
  End C15cmp.
End Statements.

(** *** C15, ring sizes that are not powers of two

    [IntRing2k] is also implemented by [RUint<BITS>] for every [BITS]
    (ring/int_ring.rs:280-312).  With debug assertions the conversion panics; without, it returns
    a sharing of a wrong integer: the number of prefix rounds is [ilog2(K)], rounded down. *)
Theorem C15_a2b_debug_panics {T} `{IR : IntRing T} {S M} {DT : Draw S T} {EN : Enc M (list N)} {ENN : Enc M (list (N * N))}
    cap (cap_pos : (1 <= cap)%nat) (st : pid -> rst S) a (x : T) :
  is_pow2 (rK T) = false -> synced st -> shares a x ->
  all_end cap (fun i => ra2b (M := M) true i (st i) (a i))
    (fun o => forall i, o i = Failed (Panic "assertion failed: bitlen.is_power_of_two()")).
Proof. exact (fun Hp Hs Ha => wpo_all_end (ra2b_debug_wpo cap_pos eq_refl Hp Hs Ha)). Qed.

(** what the release build computes for [RUint<192>]: the value 2^192 - 1 + 1 shared as
    (2^192 - 1, 0, 1) opens to 0, and its bit sharing opens to 2^192 - 2^128: the carry is lost *)
Definition a192 : pid -> share (R2 192) := rsh 192 0 0 (2 ^ 192 - 1).
Lemma a192_wrong : forall cap, (1 <= cap)%nat ->
  all_ok cap (fun i => ra2b (M := rmsg 192) false i (st13 i) (a192 i))
    (fun r => exists w, shares (fun i => fst (r i)) w /\ w <> rto (T := R2 192) 0).
Proof.
  intros cap cap_pos. apply wp_all_ok. eapply wp_mono; [|apply (ra2b_any_wp (T := R2 192) false cap_pos eq_refl st13_synced (rsh_shares 192 0 0 (2 ^ 192 - 1)))].
  intros r [R1 _]. eexists. split; [exact R1|]. vm_compute. discriminate.
Qed.
Theorem C15_a2b_non_power_of_two_refuted :
  exists (st : pid -> rst Z) (a : pid -> share (R2 192)) x, synced st /\ shares a x /\
    forall cap, (1 <= cap)%nat ->
    all_ok cap (fun i => ra2b (M := rmsg 192) false i (st i) (a i)) (fun r => exists w, shares (fun i => fst (r i)) w /\ w <> rto x).
Proof. exact (ex_intro _ st13 (ex_intro _ a192 (ex_intro _ _ (conj st13_synced (conj (rsh_shares 192 0 0 (2 ^ 192 - 1)) a192_wrong))))). Qed.

(** ** C16 *)
Section Casts.
  Context {T U : Type} `{IT : IntRing T} `{IU : IntRing U} {S M : Type} (dbg : bool) {DT : Draw S T} {DU : Draw S U}.
  Context {EN : Enc M (list N)} {ENN : Enc M (list (N * N))}
          {EL : Enc M (list (list N))} {ELL : Enc M (list (list N * list N))} {ET : Enc M (list T)} {EU : Enc M (list U)}
          (cap : nat) (cap_pos : (1 <= cap)%nat).
  Implicit Types (st : pid -> rst S).
  Lemma downcast_opens a u : (rK U <= rK T)%nat -> opens (T := T) a u ->
    exists r : pid -> share U, (forall i, downcast (a i) = Some (r i)) /\ opens r (u mod 2 ^ N.of_nat (rK U))%N.
  Proof.
    intros L (x & <- & Ha)%opens_elim. destruct (downcast_ok cap_pos L Ha) as (r & E & Hr). exists r. split; [exact E|].
    eapply opens_as; [exact Hr|apply rto_rof].
  Qed.
  Theorem C16_downcast a u : (rK U <= rK T)%nat -> opens (T := T) a u ->
    exists r : pid -> share U, (forall i, downcast (a i) = Some (r i)) /\ opens r (u mod 2 ^ N.of_nat (rK U))%N.
  Proof. exact (@downcast_opens a u). Qed.
  Lemma downcast_larger (s : share T) : (rK T < rK U)%nat -> downcast (U := U) s = None.
  Proof. intros L. unfold downcast. apply Nat.leb_gt in L. rewrite L. reflexivity. Qed.
  Theorem C16_downcast_larger_panics (s : share T) : (rK T < rK U)%nat -> downcast (U := U) s = None.
  Proof. exact (@downcast_larger s). Qed.
  Lemma upcast_opens st a u : is_pow2 (rK T) = true -> is_pow2 (rK U) = true -> (rK T < rK U)%nat -> synced st -> opens (T := T) a u ->
    wp cap (fun i => upcast_a2b (T := T) (U := U) dbg i (st i) (a i))
      (fun r => opens (fun i => fst (r i)) u /\ synced (fun i => snd (r i))).
  Proof.
    intros pT pU L Hs (x & <- & Ha)%opens_elim. eapply wp_mono; [|apply (upcast_a2b_wp (U := U) dbg cap_pos pT pU L Hs Ha)].
    intros r [R1 R2]. split; [|exact R2]. eapply opens_as; [exact R1|]. rewrite rto_rof. apply N.mod_small.
    eapply N.lt_le_trans; [apply rto_lt|]. apply N.pow_le_mono_r; lia.
  Qed.
  Theorem C16_upcast st a u : is_pow2 (rK T) = true -> is_pow2 (rK U) = true -> (rK T < rK U)%nat -> synced st -> opens (T := T) a u ->
    all_ok cap (fun i => upcast_a2b (T := T) (U := U) dbg i (st i) (a i))
      (fun r => opens (fun i => fst (r i)) u /\ synced (fun i => snd (r i))).
  Proof. exact (fun pT pU L Hs Ha => wp_all_ok (upcast_opens pT pU L Hs Ha)). Qed.
  Theorem C16_upcast_smaller_panics st a : (rK U <= rK T)%nat ->
    all_end cap (fun i => upcast_a2b (T := T) (U := U) dbg i (st i) (a i)) (fun o => forall i, o i = Failed (Panic "assertion failed: T::K < U::K")).
  Proof. exact (fun L => wpo_all_end (upcast_small_wpo dbg cap_pos st a L)). Qed.
  Lemma cast_opens st a u : is_pow2 (rK T) = true -> is_pow2 (rK U) = true -> synced st -> opens (T := T) a u ->
    wp cap (fun i => cast_a2b (T := T) (U := U) dbg i (st i) (a i))
      (fun r => opens (fun i => fst (r i)) (u mod 2 ^ N.of_nat (rK U))%N /\ synced (fun i => snd (r i))).
  Proof.
    intros pT pU Hs (x & <- & Ha)%opens_elim. eapply wp_mono; [|apply (cast_a2b_wp (U := U) dbg cap_pos pT pU Hs Ha)].
    intros r [R1 R2]. split; [|exact R2]. eapply opens_as; [exact R1|apply rto_rof].
  Qed.
  Theorem C16_cast st a u : is_pow2 (rK T) = true -> is_pow2 (rK U) = true -> synced st -> opens (T := T) a u ->
    all_ok cap (fun i => cast_a2b (T := T) (U := U) dbg i (st i) (a i))
      (fun r => opens (fun i => fst (r i)) (u mod 2 ^ N.of_nat (rK U))%N /\ synced (fun i => snd (r i))).
  Proof. exact (fun pT pU Hs Ha => wp_all_ok (cast_opens pT pU Hs Ha)). Qed.
End Casts.

Section CastsField.
  Context {T F : Type} `{IT : IntRing T} `{FU : FieldUint F} {S M : Type} (dbg : bool) (W : nat) (du : nat -> S -> N * S)
          {DT : Draw S T} {DF : Draw S F}.
  Context {EN : Enc M (list N)} {ENN : Enc M (list (N * N))}
          {EL : Enc M (list (list N))} {ELL : Enc M (list (list N * list N))} {ET : Enc M (list T)} {EF : Enc M (list F)}
          (cap : nat) (cap_pos : (1 <= cap)%nat).
  Notation p := (fu_p (F := F)).
  Context (width : (mbs F + 2 <= W)%nat) (pw : is_pow2 (rK T) = true).
  Implicit Types (st : pid -> rst S).
  Lemma f2r_opens st a (x : F) : synced st -> shares a x ->
    wp cap (fun i => field_to_ring (T := T) dbg W du i (st i) (a i))
      (fun r => opens (fun i => fst (r i)) (to_uint x mod 2 ^ N.of_nat (rK T))%N /\ synced (fun i => snd (r i))).
  Proof.
    intros Hs Ha. eapply wp_mono; [|apply (field_to_ring_wp (T := T) dbg du cap_pos width pw Hs Ha)].
    intros r [R1 R2]. split; [|exact R2]. eapply opens_as; [exact R1|apply rto_rof].
  Qed.
  Theorem C16_field_to_ring st a (x : F) : synced st -> shares a x ->
    all_ok cap (fun i => field_to_ring (T := T) dbg W du i (st i) (a i))
      (fun r => opens (fun i => fst (r i)) (to_uint x mod 2 ^ N.of_nat (rK T))%N /\ synced (fun i => snd (r i))).
  Proof. exact (fun Hs Ha => wp_all_ok (f2r_opens Hs Ha)). Qed.
  Lemma f2r_many_opens st a (xs : list F) : synced st -> shares_vec a xs ->
    wp cap (fun i => field_to_ring_many (T := T) dbg W du i (st i) (a i))
      (fun r => opens_vec (fun i => fst (r i)) (map (fun x => to_uint x mod 2 ^ N.of_nat (rK T))%N xs) /\ synced (fun i => snd (r i))).
  Proof.
    intros Hs Ha. eapply wp_mono; [|apply (field_to_ring_many_wp (T := T) dbg du cap_pos width pw Hs Ha)].
    intros r [R1 R2]. split; [|exact R2]. apply opens_vec_intro in R1. rewrite map_map in R1. erewrite map_ext; [exact R1|].
    intros x. cbv beta. rewrite rto_rof. reflexivity.
  Qed.
  Theorem C16_field_to_ring_many st a (xs : list F) : synced st -> shares_vec a xs ->
    all_ok cap (fun i => field_to_ring_many (T := T) dbg W du i (st i) (a i))
      (fun r => opens_vec (fun i => fst (r i)) (map (fun x => to_uint x mod 2 ^ N.of_nat (rK T))%N xs) /\ synced (fun i => snd (r i))).
  Proof. exact (fun Hs Ha => wp_all_ok (f2r_many_opens Hs Ha)). Qed.
  (** a ring value fits the field when it is below the modulus (always, if the ring is smaller) *)
  Lemma r2f_opens st a u : (u < p)%N -> synced st -> opens (T := T) a u ->
    wp cap (fun i => ring_to_field (F := F) dbg W du i (st i) (a i))
      (fun r => (exists x, shares (fun i => fst (r i)) x /\ to_uint x = u) /\ synced (fun i => snd (r i))).
  Proof.
    intros Hu Hs (x & E & Ha)%opens_elim. rewrite <- E in Hu. eapply wp_mono; [|apply (ring_to_field_wp dbg du cap_pos width pw Hu Hs Ha)].
    intros r [R1 R2]. split; [|exact R2]. eexists. split; [exact R1|]. rewrite to_of_uint by exact Hu. exact E.
  Qed.
  Theorem C16_ring_to_field st a u : (u < p)%N -> synced st -> opens (T := T) a u ->
    all_ok cap (fun i => ring_to_field (F := F) dbg W du i (st i) (a i))
      (fun r => (exists x, shares (fun i => fst (r i)) x /\ to_uint x = u) /\ synced (fun i => snd (r i))).
  Proof. exact (fun Hu Hs Ha => wp_all_ok (r2f_opens Hu Hs Ha)). Qed.
  Theorem C16_ring_to_field_many st a (xs : list T) : (forall x, In x xs -> rto x < p)%N -> synced st -> shares_vec a xs ->
    all_ok cap (fun i => ring_to_field_many (F := F) dbg W du i (st i) (a i))
      (fun r => shares_vec (fun i => fst (r i)) (map (fun x => of_uint (rto x)) xs) /\ synced (fun i => snd (r i))).
  Proof. exact (fun Hx Hs Ha => wp_all_ok (ring_to_field_many_wp dbg du cap_pos width pw Hx Hs Ha)). Qed.
  Theorem C16_ring_to_field_big st a (x : T) : (mbs F < rK T)%nat -> (rto x mod 2 ^ N.of_nat (mbs F) < p)%N -> synced st -> shares a x ->
    all_ok cap (fun i => ring_to_field_big (F := F) dbg W du i (st i) (a i))
      (fun r => shares (fun i => fst (r i)) (of_uint (rto x mod 2 ^ N.of_nat (mbs F))%N) /\ synced (fun i => snd (r i))).
  Proof. exact (fun L Hx Hs Ha => wp_all_ok (ring_to_field_big_wp dbg du cap_pos width pw L Hx Hs Ha)). Qed.
  Theorem C16_ring_to_field_big_many st a (xs : list T) : (mbs F < rK T)%nat -> (forall x, In x xs -> rto x mod 2 ^ N.of_nat (mbs F) < p)%N ->
    synced st -> shares_vec a xs ->
    all_ok cap (fun i => ring_to_field_big_many (F := F) dbg W du i (st i) (a i))
      (fun r => shares_vec (fun i => fst (r i)) (map (fun x => of_uint (rto x mod 2 ^ N.of_nat (mbs F))%N) xs) /\ synced (fun i => snd (r i))).
  Proof. exact (fun L Hx Hs Ha => wp_all_ok (ring_to_field_big_many_wp dbg du cap_pos width pw L Hx Hs Ha)). Qed.
End CastsField.

(** ** The hypotheses are satisfiable *)
Example ex_C14 : opens (rsh 8 200 17 91) 200 /\ opens (rsh 8 100 1 255) 100 /\ ((200 + 100) mod 2 ^ N.of_nat (rK (R2 8)) = 44)%N.
Proof. split; [exact (opens_intro (T := R2 8) (rsh_shares 8 200 17 91))|]. split; [exact (opens_intro (T := R2 8) (rsh_shares 8 100 1 255))|reflexivity]. Qed.
Example ex_C14_mul : all_ok 1 (fun i => mul (M := rmsg 8) i (st13 i) (rsh 8 200 17 91 i) (rsh 8 100 1 255 i))
  (fun r => opens (fun i => fst (r i)) 32 /\ synced (fun i => snd (r i))).
Proof. exact (C14_mul (M := rmsg 8) (le_n 1) st13_synced (opens_intro (T := R2 8) (rsh_shares 8 200 17 91)) (opens_intro (T := R2 8) (rsh_shares 8 100 1 255))). Qed.
Example ex_C14_pow : rpow_2_public (rsh 8 200 17 91 P0) (ofZ 8) = None /\ rpow_2_public (rsh 8 200 17 91 P0) (ofZ 7) <> None.
Proof. split; [reflexivity|discriminate]. Qed.
Example ex_C15_shift : shares (fun i : pid => match i with P0 => mkShare 200 91 | P1 => mkShare 17 200 | P2 => mkShare 91 17 end)%N (N.lxor 200 (N.lxor 17 91)) /\
  option_map sa (rshift_l_public 8 (mkShare 200 91)%N 3) = Some 64%N /\ option_map sa (rshift_l_public 8 (mkShare 200 91)%N 8) = Some 0%N.
Proof. split; [split; [intros []; reflexivity|reflexivity]|]. split; reflexivity. Qed.
Example ex_C15_pow2 : map is_pow2 [1; 8; 16; 32; 64; 128; 192; 0]%nat = [true; true; true; true; true; true; false; false].
Proof. reflexivity. Qed.
Example ex_C15 dbg : all_ok 1 (fun i => ra2b (M := rmsg 8) dbg i (st13 i) (rsh 8 200 17 91 i))
  (fun r => shares (fun i => fst (r i)) 200%N /\ synced (fun i => snd (r i))).
Proof. exact (C15_a2b (M := rmsg 8) dbg (le_n 1) (T := R2 8) eq_refl st13_synced (opens_intro (T := R2 8) (rsh_shares 8 200 17 91))). Qed.
Example ex_C15_ge dbg : all_ok 1 (fun i => rge (M := rmsg 8) dbg (ra2b dbg) i (st13 i) (rsh 8 200 17 91 i) (rsh 8 100 1 255 i))
  (fun r => bit_result r true).
Proof. exact (C15_ge (M := rmsg 8) dbg (le_n 1) (T := R2 8) eq_refl st13_synced (rsh_shares 8 200 17 91) (rsh_shares 8 100 1 255)). Qed.
Example ex_C15_debug : is_pow2 (rK (R2 192)) = false.
Proof. reflexivity. Qed.
Example ex_C16 : (rK (R2 8) < rK (R2 16))%nat /\ (exists r, downcast (T := R2 16) (U := R2 8) (rsh 16 1000 17 91 P0) = Some r) /\ (1000 mod 256 = 232)%N.
Proof. split; [vm_compute; repeat constructor|]. split; [eexists; reflexivity|reflexivity]. Qed.
Example ex_C16_field : (mbs F13 + 2 <= 64)%nat /\ (mbs F13 < rK (R2 8))%nat /\ (200 mod 2 ^ N.of_nat (mbs F13) < fu_p (F := F13))%N /\ (9 < fu_p (F := F13))%N.
Proof. split; [vm_compute; lia|]. split; [vm_compute; lia|split; reflexivity]. Qed.

Print Assumptions C14_add.
Print Assumptions C14_sub.
Print Assumptions C14_neg.
Print Assumptions C14_add_public.
Print Assumptions C14_sub_shared_by_public.
Print Assumptions C14_sub_public_by_shared.
Print Assumptions C14_mul_public.
Print Assumptions C14_promote.
Print Assumptions C14_mul.
Print Assumptions C14_open.
Print Assumptions C14_pow_public.
Print Assumptions C14_cmux.
Print Assumptions C14_arithmetic_xor.
Print Assumptions C14_arithmetic_xor_bits.
Print Assumptions C14_pow_2_public.
Print Assumptions C14_pow_2_public_panics.
Print Assumptions C14_mul_vec.
Print Assumptions C14_arithmetic_xor_many.
Print Assumptions C15_a2b.
Print Assumptions C15_a2b_many.
Print Assumptions C15_b2a.
Print Assumptions C15_b2a_many.
Print Assumptions C15_roundtrip.
Print Assumptions C15_bit_inject.
Print Assumptions C15_bit_inject_from_bit.
Print Assumptions C15_bit_inject_from_bits_many.
Print Assumptions C15_ge.
Print Assumptions C15_lt.
Print Assumptions C15_le.
Print Assumptions C15_gt.
Print Assumptions C15_eq.
Print Assumptions C15_neq.
Print Assumptions C15_ge_public.
Print Assumptions C15_lt_public.
Print Assumptions C15_le_public.
Print Assumptions C15_gt_public.
Print Assumptions C15_eq_public.
Print Assumptions C15_neq_public.
Print Assumptions C15_is_zero.
Print Assumptions C15_shift_right_public.
Print Assumptions C15_shift_left_public.
Print Assumptions C15_shift_huge_panics.
Print Assumptions C15_a2b_debug_panics.
Print Assumptions C15_a2b_non_power_of_two_refuted.
Print Assumptions C16_downcast.
Print Assumptions C16_downcast_larger_panics.
Print Assumptions C16_upcast.
Print Assumptions C16_upcast_smaller_panics.
Print Assumptions C16_cast.
Print Assumptions C16_field_to_ring.
Print Assumptions C16_field_to_ring_many.
Print Assumptions C16_ring_to_field.
Print Assumptions C16_ring_to_field_many.
Print Assumptions C16_ring_to_field_big.
Print Assumptions C16_ring_to_field_big_many.
