(** * What the composite circuits of yao/circuits.rs compute, as integer functions *)
From Coq Require Import String List Arith NArith Lia Bool.
From Verif Require Import Proc Alg Uint Rep3 Conv Garble Circuits CircuitsOk CircuitsArith CircuitsMod.
Import ListNotations.
Set Implicit Arguments.
Local Open Scope N_scope.

(** the bits of an element of the field of order [p] *)
Definition felt (p : N) (l : list bool) : Prop := length l = ubit_len p /\ bval l < p.

Section Fld.
  Variables (U : nat) (p : N).
  Hypothesis p_odd : N.odd p = true.
  Let n := ubit_len p.
  Hypothesis wide : (S n <= U)%nat.

  Lemma p_lt_n : p < p2 n.
  Proof. rewrite p2_eq. apply ubit_len_le. unfold n. lia. Qed.
  Lemma p_lt_iff k : (n <= k)%nat <-> p < p2 k.
  Proof. rewrite p2_eq. apply ubit_len_le. Qed.
  Lemma n_pos : (0 < n)%nat.
  Proof.
    pose proof p_lt_n as Hp. pose proof (@p_pos p p_odd). unfold n in *. destruct (ubit_len p) as [|k]; [|lia]. rewrite p2_0 in Hp. lia.
  Qed.
  Lemma small_lt_p k : (k < n)%nat -> p2 k <= p.
  Proof. intros Hk. destruct (N.le_gt_cases (p2 k) p) as [L|L]; [exact L|]. apply p_lt_iff in L. lia. Qed.
  Lemma felt_ne l : felt p l -> l <> [].
  Proof. intros (L & _) ->. cbn in L. pose proof n_pos. unfold n in *. lia. Qed.

  Lemma add_out_ok a b outlen : felt p a -> felt p b ->
    pok (adder_mod_p_out U p a b outlen)
        (fun r => length r = Nat.min outlen n /\ bval r = (bval a + bval b) mod p mod p2 outlen).
  Proof.
    intros Ha Hb. pose proof (@adder_mod_p_out_ok U p p_odd a b outlen) as Hm. cbv zeta in Hm.
    rewrite (proj1 Ha) in Hm. fold n in Hm. pose proof p_lt_n.
    apply Hm; [apply felt_ne; exact Ha|apply Hb|exact wide|lia|apply Ha|apply Hb].
  Qed.
  Lemma add_full_ok a b outlen : felt p a -> felt p b -> (n <= outlen)%nat ->
    pok (adder_mod_p_out U p a b outlen) (fun r => felt p r /\ bval r = (bval a + bval b) mod p).
  Proof.
    intros Ha Hb Ho. eapply pok_mono; [apply add_out_ok; assumption|]. cbn beta. intros r (L & V).
    pose proof (N.mod_lt (bval a + bval b) p ltac:(pose proof (@p_pos p p_odd); lia)) as Hm.
    pose proof p_lt_n. pose proof (p2_le Ho).
    rewrite (N.mod_small _ (p2 outlen)) in V by lia. rewrite Nat.min_r in L by exact Ho. split; [split; [exact L|lia]|exact V].
  Qed.
  Lemma compose_ok xs ys : felt p ys -> (length xs <= n)%nat -> bval xs < p ->
    pok (compose_field_element U p xs ys) (fun r => felt p r /\ bval r = (bval xs + bval ys) mod p).
  Proof.
    intros (Ly & Vy) Lx Vx. eapply pok_mono; [apply compose_field_element_ok; assumption|]. cbn beta.
    intros r (L & V). split; [split; [exact L|]|exact V]. rewrite V. apply N.mod_lt. pose proof (@p_pos p p_odd). lia.
  Qed.

  (** casts *)
  Lemma field_to_ring_ok wa wb wc : felt p wa -> felt p wb -> wc <> [] -> (length wc <= n)%nat ->
    pok (field_to_ring U p wa wb wc) (modsum (length wc) ((bval wa + bval wb) mod p + bval wc)).
  Proof.
    intros Ha Hb Hc Lc. unfold field_to_ring. eapply pok_bind; [apply add_out_ok; assumption|].
    intros bits (L & V). rewrite Nat.min_l in L by exact Lc.
    eapply pok_mono; [apply bin_addition_no_carry_ok|].
    - destruct bits; [destruct wc; [congruence|discriminate]|congruence].
    - congruence.
    - intros r (Lr & Vr). split; [congruence|]. rewrite Vr, L, V. pose proof (p2_pos (length wc)).
      rewrite N.add_mod_idemp_l by lia. reflexivity.
  Qed.
  Lemma ring_to_field_ok wa wb wc : wa <> [] -> length wb = length wa -> (length wa <= n)%nat ->
    (bval wa + bval wb) mod p2 (length wa) < p -> felt p wc ->
    pok (ring_to_field U p wa wb wc)
        (fun r => felt p r /\ bval r = ((bval wa + bval wb) mod p2 (length wa) + bval wc) mod p).
  Proof.
    intros Ha Lb La Hlt Hc. unfold ring_to_field. eapply pok_bind; [apply bin_addition_no_carry_ok; assumption|].
    intros bits (L & V). rewrite <- V in *. apply compose_ok; [exact Hc|lia|exact Hlt].
  Qed.

  (** division by a power of two *)
  Lemma field_int_div_power_2_ok wa wb wc k : felt p wa -> felt p wb -> felt p wc ->
    pok (field_int_div_power_2 U p wa wb wc k)
        (fun r => felt p r /\ bval r = ((bval wa + bval wb) mod p / p2 k + bval wc) mod p).
  Proof.
    intros Ha Hb Hc. unfold field_int_div_power_2. rewrite (proj1 Ha), Nat.eqb_refl.
    eapply pok_bind; [apply bin_addition_ok; [apply felt_ne; exact Ha|rewrite (proj1 Ha); apply Hb]|].
    intros r (Lr & Vr). rewrite (proj1 Ha) in Lr, Vr. fold n in Lr, Vr.
    pose proof p_lt_n as Hp. pose proof (@sub_p_ok U p p_odd (fst r) (snd r)) as Hs. cbv zeta in Hs.
    pose proof (@reduced p p_odd (fst r) (snd r)) as Hr. cbv zeta in Hr. rewrite Lr, Vr in Hs, Hr.
    assert (H2 : bval wa + bval wb < 2 * p) by (pose proof (proj2 Ha); pose proof (proj2 Hb); lia).
    eapply pok_bind; [apply Hs; [|exact wide|lia|exact H2]|].
    { destruct (fst r); [cbn in Lr; pose proof n_pos; lia|congruence]. }
    intros t Ht. destruct (Hr t ltac:(lia) H2 Ht) as (L & V).
    eapply pok_step; [apply mux_list_plain_skip; rewrite Lr; apply Ht|].
    rewrite <- V, <- bval_skipn. apply compose_ok; [exact Hc| |].
    - rewrite skipn_length, L. lia.
    - rewrite bval_skipn, V. pose proof (@p_pos p p_odd). pose proof (p2_pos k).
      eapply N.le_lt_trans; [apply N.div_le_upper_bound with (q := (bval wa + bval wb) mod p); nia|]. apply N.mod_lt. lia.
  Qed.

  (** integer division of field elements; a zero divisor is excluded *)
  Lemma div_le_lt x d : d <> 0 -> x < p -> x / d < p.
  Proof. intros Hd Hx. eapply N.le_lt_trans; [|exact Hx]. apply N.div_le_upper_bound; nia. Qed.
  Lemma quot_ok q wc x d : d <> 0 -> x < p -> felt p wc ->
    length q = n /\ bval q = quotient n x d ->
    pok (compose_field_element U p q wc) (fun r => felt p r /\ bval r = (x / d + bval wc) mod p).
  Proof.
    intros Hd Hx Hc (L & V). unfold quotient in V. destruct (N.eqb_spec d 0); [contradiction|].
    rewrite <- V. apply compose_ok; [exact Hc|lia|]. rewrite V. apply div_le_lt; assumption.
  Qed.
  Lemma modp_lt x : x mod p < p.
  Proof. apply N.mod_lt. pose proof (@p_pos p p_odd). lia. Qed.
  Lemma assert_bits_plain : plain (assert_bits p n) = Done tt.
  Proof. unfold assert_bits. fold n. rewrite Nat.eqb_refl. reflexivity. Qed.
  Lemma field_int_div_ok x1 x2 y1 y2 wc : felt p x1 -> felt p x2 -> felt p y1 -> felt p y2 -> felt p wc ->
    (bval y1 + bval y2) mod p <> 0 ->
    pok (field_int_div U p x1 x2 y1 y2 wc n)
        (fun r => felt p r /\ bval r = ((bval x1 + bval x2) mod p / ((bval y1 + bval y2) mod p) + bval wc) mod p).
  Proof.
    intros H1 H2 H3 H4 Hc Hd. unfold field_int_div. rewrite (proj1 H1). fold n.
    eapply pok_step; [apply assert_bits_plain|].
    eapply pok_bind; [apply add_full_ok; auto|]. intros a1 (F1 & V1).
    eapply pok_bind; [apply add_full_ok; auto|]. intros a2 (F2 & V2).
    eapply pok_bind; [apply bin_div_ok; rewrite (proj1 F1), (proj1 F2); lia|]. intros q Hq.
    rewrite (proj1 F1), V1, V2 in Hq. apply quot_ok; auto using modp_lt.
  Qed.
  Lemma field_int_div_by_public_ok x1 x2 ds wc : felt p x1 -> felt p x2 -> felt p wc -> (n <= length ds)%nat ->
    bval ds <> 0 ->
    pok (field_int_div_by_public U p x1 x2 ds wc n)
        (fun r => felt p r /\ bval r = ((bval x1 + bval x2) mod p / bval ds + bval wc) mod p).
  Proof.
    intros H1 H2 Hc Ld Hd. unfold field_int_div_by_public. rewrite (proj1 H1). fold n.
    eapply pok_step; [apply assert_bits_plain|].
    eapply pok_bind; [apply add_full_ok; auto|]. intros a1 (F1 & V1).
    eapply pok_bind; [apply bin_div_by_public_ok; rewrite (proj1 F1); exact Ld|]. intros q Hq.
    rewrite (proj1 F1), V1 in Hq. apply quot_ok; auto using modp_lt.
  Qed.
  Lemma field_int_div_by_shared_ok x1 x2 ds wc : felt p x1 -> felt p x2 -> felt p wc -> felt p ds ->
    (bval x1 + bval x2) mod p <> 0 ->
    pok (field_int_div_by_shared U p x1 x2 ds wc n)
        (fun r => felt p r /\ bval r = (bval ds / ((bval x1 + bval x2) mod p) + bval wc) mod p).
  Proof.
    intros H1 H2 Hc Fd Hd. unfold field_int_div_by_shared. rewrite (proj1 H1). fold n.
    eapply pok_step; [apply assert_bits_plain|].
    eapply pok_bind; [apply add_full_ok; auto|]. intros a1 (F1 & V1).
    eapply pok_bind; [apply bin_div_by_shared_ok; [apply felt_ne; exact Fd|rewrite (proj1 F1), (proj1 Fd); lia]|]. intros q Hq.
    rewrite (proj1 Fd), V1 in Hq. apply quot_ok; auto. apply Fd.
  Qed.

  (** slices *)
  Lemma slice_field_element_ok wa wb r1 r2 lo mid bitsize : felt p wa -> felt p wb -> felt p r1 -> felt p r2 ->
    (lo <= mid <= bitsize)%nat -> (bitsize <= n)%nat ->
    let x := (bval wa + bval wb) mod p mod p2 bitsize in
    pok (slice_field_element U p wa wb (r1 ++ r2) lo mid bitsize)
        (fun r => exists l h, r = l ++ h /\ felt p l /\ felt p h /\
           bval l = (x mod p2 mid / p2 lo + bval r1) mod p /\ bval h = (x / p2 mid + bval r2) mod p).
  Proof.
    intros Ha Hb H1 H2 Hlm Hbn x. unfold slice_field_element.
    eapply pok_bind; [apply add_out_ok; assumption|]. intros bits (L & V). fold x in V.
    rewrite Nat.min_l in L by exact Hbn. rewrite L.
    destruct (Nat.leb_spec lo mid); [|lia]. destruct (Nat.leb_spec mid bitsize); [|lia]. cbn [andb].
    replace (r1 ++ r2) with (concat [r1; r2]) by (cbn; rewrite app_nil_r; reflexivity).
    rewrite chunks_concat; [|rewrite (proj1 Ha); exact n_pos|rewrite (proj1 Ha); repeat constructor; [apply H1|apply H2]].
    assert (Hx : x <= (bval wa + bval wb) mod p) by (unfold x; apply N.mod_le; pose proof (p2_pos bitsize); lia).
    pose proof (modp_lt (bval wa + bval wb)). pose proof (p2_pos mid). pose proof (p2_pos lo).
    eapply pok_bind.
    { apply compose_ok; [exact H1|rewrite skipn_length, firstn_length; lia|].
      rewrite bval_skipn, bval_firstn, V. apply div_le_lt; [lia|]. pose proof (N.mod_le x (p2 mid)). lia. }
    intros l (Fl & Vl). rewrite bval_skipn, bval_firstn, V in Vl.
    eapply pok_bind.
    { apply compose_ok; [exact H2|rewrite skipn_length; lia|]. rewrite bval_skipn, V. apply div_le_lt; lia. }
    intros h (Fh & Vh). rewrite bval_skipn, V in Vh. apply pok_ret. exists l, h. auto.
  Qed.

  (** decompositions; the masks are elements of the other field, or of the ring *)
  Lemma limb bits i k : bval (firstn k (skipn (i * k) bits)) = bval bits / p2 (i * k) mod p2 k.
  Proof. rewrite bval_firstn, bval_skipn. reflexivity. Qed.

  Lemma decompose_to_rings_ok wa wb ms num dbl obl : felt p wa -> felt p wb ->
    Forall (fun l => length l = obl) ms -> length ms = num -> (0 < dbl)%nat -> (dbl <= obl)%nat ->
    let x := (bval wa + bval wb) mod p mod p2 (dbl * num) in
    pok (decompose_field_element_to_rings U p wa wb (concat ms) num dbl obl)
        (fun r => exists rs, r = concat rs /\
           forall i, (i < num)%nat -> (i * dbl < n)%nat ->
             exists l m, nth_error rs i = Some l /\ nth_error ms i = Some m /\ length l = obl /\
                         bval l = (x / p2 (i * dbl) mod p2 dbl + bval m) mod p2 obl).
  Proof.
    intros Ha Hb Hms Lm Hd Hdo x. unfold decompose_field_element_to_rings.
    eapply pok_bind; [apply add_out_ok; assumption|]. intros bits (L & V). fold x in V.
    rewrite chunks_concat by (try assumption; lia).
    eapply pok_mono.
    { apply (gflatM_ok (fun xy => compose_ring_element (fst xy) (snd xy))
                       (fun xy r => length r = obl /\ bval r = (bval (fst xy) + bval (snd xy)) mod p2 obl)).
      intros [a m] Hin. apply In_nth_error in Hin. destruct Hin as (i & Hi). rewrite nth_error_combine, chunks_nth in Hi by exact Hd.
      destruct (Nat.ltb_spec (i * dbl) (length bits)) as [Hlt|]; [|discriminate].
      destruct (nth_error ms i) as [m'|] eqn:Em; [|discriminate]. injection Hi as <- <-.
      assert (Lm' : length m' = obl) by (rewrite Forall_forall in Hms; apply Hms; eapply nth_error_In; exact Em).
      cbn [fst snd]. eapply pok_mono; [apply compose_ring_element_ok|].
      - intros E. apply (f_equal (@length bool)) in E. rewrite firstn_length, skipn_length in E. cbn in E. lia.
      - rewrite firstn_length. lia.
      - intros r (Lr & Vr). rewrite Lm' in *. auto. }
    cbn beta. intros r (rs & -> & HF). exists rs. split; [reflexivity|]. intros i Hi Hin.
    destruct (nth_error ms i) as [m|] eqn:Em; [|apply nth_error_None in Em; lia].
    destruct (Forall2_nth HF i (a := (firstn dbl (skipn (i * dbl) bits), m))) as (l & El & Ll & Vl).
    { rewrite nth_error_combine, chunks_nth, Em by exact Hd. destruct (Nat.ltb_spec (i * dbl) (length bits)); [reflexivity|]. nia. }
    exists l, m. cbn [fst snd] in Vl. rewrite limb, V in Vl. auto.
  Qed.

  Section Other.
    Variables (V : nat) (q : N).
    Hypothesis q_odd : N.odd q = true.
    Let nq := ubit_len q.
    Hypothesis wideq : (S nq <= V)%nat.
    Lemma decompose_to_ok wa wb ms dbl total : felt p wa -> felt p wb -> Forall (felt q) ms ->
      (0 < dbl)%nat -> (Nat.min dbl n <= nq)%nat ->
      let x := (bval wa + bval wb) mod p mod p2 total in
      (forall i, x / p2 (i * dbl) mod p2 dbl < q) ->
      pok (decompose_field_element_to U V p q wa wb (concat ms) dbl total)
        (fun r => exists rs, r = concat rs /\
           (forall i, (i < length rs)%nat <-> (i * dbl < Nat.min total n)%nat /\ (i < length ms)%nat) /\
           forall i, (i * dbl < Nat.min total n)%nat -> (i < length ms)%nat ->
             exists l m, nth_error rs i = Some l /\ nth_error ms i = Some m /\ felt q l /\
                         bval l = (x / p2 (i * dbl) mod p2 dbl + bval m) mod q).
    Proof.
      intros Ha Hb Hms Hd Hdn x Hx. unfold decompose_field_element_to.
      eapply pok_bind; [apply add_out_ok; assumption|]. intros bits (L & W). fold x in W.
      assert (Hnq : (0 < nq)%nat) by (pose proof n_pos; lia).
      rewrite (@chunks_concat _ (ubit_len q) ms); [|exact Hnq|eapply Forall_impl; [|exact Hms]; intros ? F; apply F].
      eapply pok_mono.
      { apply (gflatM_ok (fun xy => compose_field_element V q (fst xy) (snd xy))
                         (fun xy r => felt q r /\ bval r = (bval (fst xy) + bval (snd xy)) mod q)).
        intros [a m] Hin. apply In_nth_error in Hin. destruct Hin as (i & Hi). rewrite nth_error_combine, chunks_nth in Hi by exact Hd.
        destruct (Nat.ltb_spec (i * dbl) (length bits)) as [Hlt|]; [|discriminate].
        destruct (nth_error ms i) as [m'|] eqn:Em; [|discriminate]. injection Hi as <- <-.
        assert (Fm : felt q m') by (rewrite Forall_forall in Hms; apply Hms; eapply nth_error_In; exact Em).
        cbn [fst snd]. destruct Fm as (Lm & Vm).
        eapply pok_mono; [apply (@compose_field_element_ok V q q_odd); [exact Lm|rewrite firstn_length, skipn_length, L; unfold nq, n in *; lia|exact wideq|rewrite limb, W; apply Hx|exact Vm]|].
        cbn beta. intros r (Lr & Vr). split; [split; [exact Lr|]|exact Vr]. rewrite Vr. apply N.mod_lt. pose proof (@p_pos q q_odd). lia. }
      cbn beta. intros r (rs & -> & HF). exists rs. split; [reflexivity|]. split.
      { intros i. rewrite <- (Forall2_length_eq HF), <- nth_error_Some, nth_error_combine, chunks_nth, <- nth_error_Some by exact Hd.
        rewrite L. unfold n. destruct (Nat.ltb_spec (i * dbl) (Nat.min total (ubit_len p))); destruct (nth_error ms i); split; try easy; intros []; easy || lia. }
      intros i Hi Hin.
      destruct (nth_error ms i) as [m|] eqn:Em; [|apply nth_error_None in Em; lia].
      destruct (Forall2_nth HF i (a := (firstn dbl (skipn (i * dbl) bits), m))) as (l & El & Ll & Vl).
      { rewrite nth_error_combine, chunks_nth, Em by exact Hd. destruct (Nat.ltb_spec (i * dbl) (length bits)); [reflexivity|]. lia. }
      exists l, m. cbn [fst snd] in Vl. rewrite limb, W in Vl. auto.
    Qed.
  End Other.
End Fld.

(** ** Rings of 2^k elements *)
Lemma ring_to_ring_upcast_ok wa wb wc : wa <> [] -> length wb = length wa -> (length wa < length wc)%nat ->
  pok (ring_to_ring_upcast wa wb wc) (modsum (length wc) ((bval wa + bval wb) mod p2 (length wa) + bval wc)).
Proof.
  intros Ha Lb Lc. unfold ring_to_ring_upcast. eapply pok_bind; [apply bin_addition_no_carry_ok; assumption|].
  intros bits (L & V). rewrite <- V. apply add_shorter_ok; [|lia]. destruct bits; [destruct wa; [congruence|discriminate]|congruence].
Qed.
Lemma ring_div_power_2_ok wa wb wc k : length wb = length wa -> length wc = length wa -> (0 < k < length wa)%nat ->
  pok (ring_div_power_2 wa wb wc k) (modsum (length wa) ((bval wa + bval wb) mod p2 (length wa) / p2 k + bval wc)).
Proof.
  intros Lb Lc Hk. unfold ring_div_power_2. eapply pok_bind; [apply bin_addition_no_carry_ok; [destruct wa; [cbn in *; lia|congruence]|exact Lb]|].
  intros bits (L & V). unfold tail_from. rewrite L. destruct (Nat.leb_spec k (length wa)); [|lia]. eapply pok_step; [reflexivity|].
  rewrite <- V, <- bval_skipn, <- Lc. apply add_shorter_ok; [|rewrite skipn_length; lia].
  intros E. apply (f_equal (@length bool)) in E. rewrite skipn_length in E. cbn in E. lia.
Qed.
Section RingDiv.
  Variable k : nat.
  Hypothesis k_pos : (0 < k)%nat.
  Lemma k_ne (l : list bool) : length l = k -> l <> [].
  Proof. intros L ->. cbn in L. lia. Qed.
  Lemma ring_div_ok x1 x2 y1 y2 wc : length x1 = k -> length x2 = k -> length y1 = k -> length y2 = k -> length wc = k ->
    pok (ring_div x1 x2 y1 y2 wc)
        (modsum k (quotient k ((bval x1 + bval x2) mod p2 k) ((bval y1 + bval y2) mod p2 k) + bval wc)).
  Proof.
    intros L1 L2 L3 L4 Lc. unfold ring_div.
    eapply pok_bind; [apply bin_addition_no_carry_ok; [apply k_ne; exact L1|congruence]|]. intros a (La & Va).
    eapply pok_bind; [apply bin_addition_no_carry_ok; [apply k_ne; exact L3|congruence]|]. intros d (Ld & Vd).
    eapply pok_bind; [apply bin_div_ok; lia|]. intros q (Lq & Vq).
    rewrite L1 in *. rewrite L3 in *. rewrite La in *. rewrite Va, Vd in Vq. rewrite <- Vq, <- Lc. apply add_quotient_ok; [apply k_ne|]; congruence.
  Qed.
  Lemma ring_div_by_public_ok x1 x2 ds wc : length x1 = k -> length x2 = k -> (k <= length ds)%nat -> length wc = k ->
    pok (ring_div_by_public x1 x2 ds wc)
        (modsum k (quotient k ((bval x1 + bval x2) mod p2 k) (bval ds) + bval wc)).
  Proof.
    intros L1 L2 Ld Lc. unfold ring_div_by_public.
    eapply pok_bind; [apply bin_addition_no_carry_ok; [apply k_ne; exact L1|congruence]|]. intros a (La & Va).
    eapply pok_bind; [apply bin_div_by_public_ok; lia|]. intros q (Lq & Vq).
    rewrite L1 in *. rewrite La in *. rewrite Va in Vq. rewrite <- Vq, <- Lc. apply add_quotient_ok; [apply k_ne|]; congruence.
  Qed.
  Lemma ring_div_by_shared_ok x1 x2 ds wc : length x1 = k -> length x2 = k -> length ds = k -> length wc = k ->
    pok (ring_div_by_shared x1 x2 ds wc)
        (modsum k (quotient k (bval ds) ((bval x1 + bval x2) mod p2 k) + bval wc)).
  Proof.
    intros L1 L2 Ld Lc. unfold ring_div_by_shared.
    eapply pok_bind; [apply bin_addition_no_carry_ok; [apply k_ne; exact L1|congruence]|]. intros a (La & Va).
    eapply pok_bind; [apply bin_div_by_shared_ok; [apply k_ne; exact Ld|lia]|]. intros q (Lq & Vq).
    rewrite L1 in *. rewrite Ld in *. rewrite Va in Vq. rewrite <- Vq, <- Lc. apply add_quotient_ok; [apply k_ne|]; congruence.
  Qed.
End RingDiv.

(** F23: the addition of an even public constant is wrong: the carry out of bit 0 is the wire
    itself, also when the constant's bit is 0 *)
Lemma bin_addition_constant_refuted :
  exists xs ys r, length ys = length xs /\ plain (bin_addition_constant_no_carry xs ys) = Done r /\
                  bval r <> (bval xs + bval ys) mod 2 ^ N.of_nat (length xs).
Proof. exists [true; false], [false; false], [true; true]. vm_compute. repeat split; discriminate. Qed.

(** ** Statements in the form used in PropsGarble.v *)
Lemma addition_ok xs ys : xs <> [] -> length ys = length xs ->
  exists s c, plain (bin_addition xs ys) = Done (s, c) /\ length s = length xs /\
              bval s + 2 ^ N.of_nat (length xs) * N.b2n c = bval xs + bval ys.
Proof. intros Hx L. destruct (@bin_addition_ok xs ys Hx L) as ([s c] & E & Ls & V). rewrite p2_eq in V. exists s, c. auto. Qed.
Lemma subtraction_ok xs ys : xs <> [] -> length ys = length xs ->
  exists s c, plain (bin_subtraction xs ys) = Done (s, c) /\ length s = length xs /\
              c = (bval ys <=? bval xs) /\
              bval s = (bval xs + 2 ^ N.of_nat (length xs) - bval ys) mod 2 ^ N.of_nat (length xs).
Proof.
  intros Hx L. destruct (@bin_subtraction_ok xs ys Hx L) as ([s c] & E & D). exists s, c. split; [exact E|].
  split; [apply D|]. pose proof (bval_lt xs) as Bx. pose proof (bval_lt ys) as By. rewrite L in By.
  split; [exact (diffs_ge D Bx By)|]. destruct D as (Ls & V). cbn [fst snd] in *. rewrite <- p2_eq.
  replace (bval xs + p2 (length xs) - bval ys) with (bval s + p2 (length xs) * N.b2n c) by lia.
  symmetry. apply mod_small_add. rewrite <- Ls. apply bval_lt.
Qed.
Lemma comparison_ok a b : a <> [] -> length b = length a ->
  plain (unsigned_ge a b) = Done (bval b <=? bval a) /\ plain (unsigned_lt a b) = Done (bval a <? bval b) /\
  plain (unsigned_le b a) = Done (bval b <=? bval a) /\ plain (unsigned_gt b a) = Done (bval a <? bval b).
Proof. intros Ha L. auto using unsigned_ge_ok, unsigned_lt_ok, unsigned_le_ok, unsigned_gt_ok. Qed.
Lemma division_ok xs ds : xs <> [] -> (length xs <= length ds)%nat ->
  let q := if bval ds =? 0 then 2 ^ N.of_nat (length xs) - 1 else bval xs / bval ds in
  (exists r, plain (bin_div xs ds) = Done r /\ length r = length xs /\ bval r = q) /\
  (exists r, plain (bin_div_by_public xs ds) = Done r /\ length r = length xs /\ bval r = q) /\
  (exists r, plain (bin_div_by_shared xs ds) = Done r /\ length r = length xs /\ bval r = q).
Proof.
  intros Hx L. rewrite <- p2_eq. cbv zeta. change (if _ =? 0 then _ else _) with (quotient (length xs) (bval xs) (bval ds)).
  split; [|split]; [apply bin_div_ok|apply bin_div_by_public_ok|apply bin_div_by_shared_ok]; assumption.
Qed.
Lemma division_short_refuted : exists xs ds e, plain (bin_div xs ds) = Failed e.
Proof. exists [true; true], [true], (Panic "range start index out of range for slice"). reflexivity. Qed.
Lemma addition_mod_p_ok U p a b : N.odd p = true -> (S (ubit_len p) <= U)%nat -> felt p a -> felt p b ->
  exists r, plain (adder_mod_p U p a b) = Done r /\ felt p r /\ bval r = (bval a + bval b) mod p.
Proof. intros Ho Hw Ha Hb. apply (@add_full_ok U p Ho Hw); try assumption. rewrite (proj1 Ha). lia. Qed.
Lemma addition_mod_p_word_refuted : exists U p a b r, N.odd p = true /\ (ubit_len p <= U)%nat /\
  felt p a /\ felt p b /\ plain (adder_mod_p U p a b) = Done r /\ bval r <> (bval a + bval b) mod p.
Proof.
  exists 4%nat, 13, (uint_to_bits 11 4), (uint_to_bits 12 4).
  eexists. split; [reflexivity|]. split; [vm_compute; lia|]. split; [vm_compute; auto|]. split; [vm_compute; auto|].
  split; [vm_compute; reflexivity|]. vm_compute. discriminate.
Qed.
Lemma casts_ok U p wa wb wc : N.odd p = true -> (S (ubit_len p) <= U)%nat ->
  (felt p wa -> felt p wb -> wc <> [] -> (length wc <= ubit_len p)%nat ->
   exists r, plain (field_to_ring U p wa wb wc) = Done r /\ length r = length wc /\
             bval r = ((bval wa + bval wb) mod p + bval wc) mod 2 ^ N.of_nat (length wc)) /\
  (wa <> [] -> length wb = length wa -> (length wa < ubit_len p)%nat -> felt p wc ->
   exists r, plain (ring_to_field U p wa wb wc) = Done r /\ felt p r /\
             bval r = ((bval wa + bval wb) mod 2 ^ N.of_nat (length wa) + bval wc) mod p) /\
  (wa <> [] -> length wb = length wa -> (length wa < length wc)%nat ->
   exists r, plain (ring_to_ring_upcast wa wb wc) = Done r /\ length r = length wc /\
             bval r = ((bval wa + bval wb) mod 2 ^ N.of_nat (length wa) + bval wc) mod 2 ^ N.of_nat (length wc)).
Proof.
  intros Ho Hw. rewrite <- !p2_eq. split; [|split].
  - apply field_to_ring_ok; assumption.
  - intros Ha Lb La Hc. apply ring_to_field_ok; try assumption; [lia|].
    eapply N.lt_le_trans; [apply N.mod_lt; pose proof (p2_pos (length wa)); lia|]. apply (@small_lt_p U p Hw); assumption.
  - apply ring_to_ring_upcast_ok.
Qed.
Lemma field_division_zero_refuted : exists U p x1 x2 y1 y2 wc r,
  felt p x1 /\ felt p x2 /\ felt p y1 /\ felt p y2 /\ felt p wc /\ (bval y1 + bval y2) mod p = 0 /\
  plain (field_int_div U p x1 x2 y1 y2 wc (ubit_len p)) = Done r /\ ~ felt p r.
Proof.
  exists 8%nat, 13, (uint_to_bits 1 4), (uint_to_bits 2 4), (uint_to_bits 0 4), (uint_to_bits 0 4), (uint_to_bits 12 4).
  eexists. do 6 (split; [vm_compute; auto|]). split; [vm_compute; reflexivity|]. intros (_ & V). vm_compute in V. discriminate.
Qed.
Lemma ring_division_ok k x1 x2 y1 y2 wc ds : (0 < k)%nat ->
  length x1 = k -> length x2 = k -> length y1 = k -> length y2 = k -> length wc = k -> length ds = k ->
  let M := 2 ^ N.of_nat k in
  let quot x d := if d =? 0 then M - 1 else x / d in
  (exists r, plain (ring_div x1 x2 y1 y2 wc) = Done r /\ length r = k /\
             bval r = (quot ((bval x1 + bval x2) mod M) ((bval y1 + bval y2) mod M) + bval wc) mod M) /\
  (exists r, plain (ring_div_by_public x1 x2 ds wc) = Done r /\ length r = k /\
             bval r = (quot ((bval x1 + bval x2) mod M) (bval ds) + bval wc) mod M) /\
  (exists r, plain (ring_div_by_shared x1 x2 ds wc) = Done r /\ length r = k /\
             bval r = (quot (bval ds) ((bval x1 + bval x2) mod M) + bval wc) mod M) /\
  (forall j, (0 < j < k)%nat ->
   exists r, plain (ring_div_power_2 x1 x2 wc j) = Done r /\ length r = k /\
             bval r = ((bval x1 + bval x2) mod M / 2 ^ N.of_nat j + bval wc) mod M).
Proof.
  intros Hk L1 L2 L3 L4 Lc Ld. rewrite <- p2_eq. cbv zeta. split; [|split; [|split]].
  - apply (ring_div_ok Hk); assumption.
  - apply (ring_div_by_public_ok Hk); try assumption. lia.
  - apply (ring_div_by_shared_ok Hk); assumption.
  - intros j Hj. rewrite <- p2_eq, <- L1. apply ring_div_power_2_ok; congruence || lia.
Qed.
Lemma decompose_ok U V p q wa wb ms dbl total :
  N.odd p = true -> (S (ubit_len p) <= U)%nat -> N.odd q = true -> (S (ubit_len q) <= V)%nat ->
  felt p wa -> felt p wb -> Forall (felt q) ms -> (0 < dbl <= ubit_len q)%nat ->
  let x := (bval wa + bval wb) mod p mod 2 ^ N.of_nat total in
  (forall i, x / 2 ^ N.of_nat (i * dbl) mod 2 ^ N.of_nat dbl < q) ->
  exists rs, plain (decompose_field_element_to U V p q wa wb (concat ms) dbl total) = Done (concat rs) /\
    forall i, (i * dbl < Nat.min total (ubit_len p))%nat -> (i < length ms)%nat ->
      exists l m, nth_error rs i = Some l /\ nth_error ms i = Some m /\ felt q l /\
                  bval l = (x / 2 ^ N.of_nat (i * dbl) mod 2 ^ N.of_nat dbl + bval m) mod q.
Proof.
  intros Ho Hw Hoq Hwq Ha Hb Hm Hd x Hx. subst x. rewrite <- !p2_eq in *.
  destruct (@decompose_to_ok U p Ho Hw V q Hoq Hwq wa wb ms dbl total Ha Hb Hm (proj1 Hd) ltac:(lia)) as (r & E & rs & -> & _ & Hr).
  { intros i. rewrite !p2_eq. rewrite p2_eq in Hx. apply Hx. }
  exists rs. split; [exact E|]. intros i Hi Hl. rewrite <- !p2_eq. apply Hr; assumption.
Qed.
Lemma decompose_rings_ok U p wa wb ms num dbl obl :
  N.odd p = true -> (S (ubit_len p) <= U)%nat ->
  felt p wa -> felt p wb -> Forall (fun l => length l = obl) ms -> length ms = num -> (0 < dbl <= obl)%nat ->
  let x := (bval wa + bval wb) mod p mod 2 ^ N.of_nat (dbl * num) in
  exists rs, plain (decompose_field_element_to_rings U p wa wb (concat ms) num dbl obl) = Done (concat rs) /\
    forall i, (i < num)%nat -> (i * dbl < ubit_len p)%nat ->
      exists l m, nth_error rs i = Some l /\ nth_error ms i = Some m /\ length l = obl /\
                  bval l = (x / 2 ^ N.of_nat (i * dbl) mod 2 ^ N.of_nat dbl + bval m) mod 2 ^ N.of_nat obl.
Proof.
  intros Ho Hw Ha Hb Hm Ln Hd x. subst x. rewrite <- !p2_eq.
  destruct (@decompose_to_rings_ok U p Ho Hw wa wb ms num dbl obl Ha Hb Hm Ln (proj1 Hd) (proj2 Hd)) as (r & E & rs & -> & Hr).
  exists rs. split; [exact E|]. intros i Hi Hl. rewrite <- !p2_eq. apply Hr; assumption.
Qed.
Lemma slice_ok U p wa wb r1 r2 lo mid bitsize :
  N.odd p = true -> (S (ubit_len p) <= U)%nat ->
  felt p wa -> felt p wb -> felt p r1 -> felt p r2 -> (lo <= mid <= bitsize)%nat -> (bitsize <= ubit_len p)%nat ->
  let x := (bval wa + bval wb) mod p mod 2 ^ N.of_nat bitsize in
  exists l h, plain (slice_field_element U p wa wb (r1 ++ r2) lo mid bitsize) = Done (l ++ h) /\ felt p l /\ felt p h /\
    bval l = (x mod 2 ^ N.of_nat mid / 2 ^ N.of_nat lo + bval r1) mod p /\
    bval h = (x / 2 ^ N.of_nat mid + bval r2) mod p.
Proof.
  intros Ho Hw Ha Hb H1 H2 Hl Hn x. subst x. rewrite <- !p2_eq.
  destruct (@slice_field_element_ok U p Ho Hw wa wb r1 r2 lo mid bitsize Ha Hb H1 H2 Hl Hn) as (r & E & l & h & -> & Hr).
  exists l, h. auto.
Qed.
