(** * Bit injection, comparisons, shifts: correctness under every schedule *)
From Coq Require Import String List Arith NArith Lia Bool Ring.
From Verif Require Import Proc Alg Rep3Net Rep3 Rep3Spec Rep3Proofs Rep3Wp Uint Binary BinaryWp Conv ConvWp.
Import ListNotations.
Set Implicit Arguments.
Local Open Scope grp_scope.

Section InjectWp.
  Context {R : Type} `{CR : CRing R} {S M : Type} {DR : Draw S R} {ER : Enc M (list R)} (cap : nat) (cap_pos : (1 <= cap)%nat).
  Implicit Types (st : pid -> rst S).
  Add Ring Rr : (cring_theory (R := R)).

  Lemma inj_sum m0 m1 m2 (b0 b1 b2 : bool) : m0 + m1 + m2 = (0 : R) ->
    inj0 m0 b2 + inj1 m1 (xorb b1 b0) + inj2 m2 b2 (inj1 m1 (xorb b1 b0)) = bitval (xorb (xorb b0 b1) b2).
  Proof.
    intros Hm. assert (E : m0 = - (m1 + m2)) by (apply (gcancel_l (m1 + m2)); rewrite gadd_neg, <- Hm; grp). subst m0.
    unfold inj0, inj1, inj2, bitval. destruct b0, b1, b2; cbn [xorb]; ring.
  Qed.
  (** the bits held by a party *)
  Definition bit_shares (b : pid -> bool * bool) (v : bool) : Prop :=
    (forall i, snd (b i) = fst (b (prev i))) /\ xorb (xorb (fst (b P0)) (fst (b P1))) (fst (b P2)) = v.
  Lemma bit_inject_from_bits_wp st b v : synced st -> bit_shares b v ->
    wp cap (fun i => bit_inject_from_bits (R := R) i (st i) (b i))
      (fun r => shares (fun i => fst (r i)) (bitval v) /\ synced (fun i => snd (r i))).
  Proof.
    intros Hs [V A]. destruct (masking_ok (G := R) Hs) as [Hm Hs'].
    pose proof (V P0) as V0. pose proof (V P1) as V1. pose proof (V P2) as V2. cbn in V0, V1, V2.
    set (m := fun i => fst (masking (G := R) (st i))) in *.
    set (r0 := inj0 (m P0) (fst (b P2))). set (r1 := inj1 (m P1) (xorb (fst (b P1)) (fst (b P0)))).
    set (r2 := inj2 (m P2) (fst (b P2)) r1).
    exists (fun i => (match i with P0 => mkShare r0 r2 | P1 => mkShare r1 r0 | P2 => mkShare r2 r1 end, snd (masking (G := R) (st i)))).
    split.
    - apply runs_comp3. unfold bit_inject_from_bits, send_next, recv_prev, send_to, recv_from, send_many, recv_many.
      rewrite V0, V1. cbn [bind next prev]. repeat step3 cap_pos. apply comp3_ret_eq; reflexivity.
    - cbn [fst snd]. split; [|exact Hs'].
      eapply shares_intro; try reflexivity. rewrite <- A. unfold r0, r1, r2. apply inj_sum. exact Hm.
  Qed.
  Lemma shares_bits s v : shares s v -> bit_shares (fun i => (ubit (sa (s i)) 0, ubit (sb (s i)) 0)) (ubit v 0).
  Proof.
    intros [V A]. split; cbn [fst snd].
    - intros i. rewrite V. reflexivity.
    - rewrite <- A. cbn. rewrite !ubit_lxor. reflexivity.
  Qed.
  Lemma narrow_is_bit (s : share N) : (sa s < 2 /\ sb s < 2)%N -> is_bit s = true.
  Proof.
    intros [L1 L2]. unfold is_bit. apply andb_true_iff. split; apply Nat.leb_le, ubit_len_le; assumption.
  Qed.
  Lemma bit_inject_wp st s v : synced st -> shares s v -> narrow 1 s ->
    wp cap (fun i => bit_inject (R := R) i (st i) (s i))
      (fun r => shares (fun i => fst (r i)) (bitval (ubit v 0)) /\ synced (fun i => snd (r i))).
  Proof.
    intros Hs Hv Hn. unfold bit_inject. eapply wp_ext; [intros i; rewrite (@narrow_is_bit (s i) (Hn i)); reflexivity|].
    apply (bit_inject_from_bits_wp Hs (shares_bits Hv)).
  Qed.
  (** wide inputs are rejected before anything is sent *)
  Lemma bit_inject_wide_wpo st s : (forall i, is_bit (s i) = false) ->
    wpo cap (fun i => bit_inject (R := R) i (st i) (s i))
      (fun o => forall i, o i = Failed (Panic "assertion failed: x.a.bit_len() <= 1")).
  Proof.
    intros Hw. unfold bit_inject. eapply wpo_ext; [intros i; rewrite Hw; reflexivity|].
    apply wpo_fail. reflexivity.
  Qed.

  Lemma inj_masks_ok n : forall st, synced st ->
    additive_vec (fun i => fst (inj_masks (R := R) n (st i))) (repeat 0 n) /\ synced (fun i => snd (inj_masks (R := R) n (st i))).
  Proof.
    induction n as [|n IH]; intros st Hs; cbn [inj_masks repeat fst snd].
    - split; [apply pvec_nil; reflexivity|exact Hs].
    - destruct (masking_ok (G := R) Hs) as [Hm Hs']. destruct (IH _ Hs') as [K1 K2]. split; [|exact K2].
      eapply pvec_cons; [intros i; reflexivity|exact Hm|exact K1].
  Qed.
  Definition mr0 (m : list R) (x : list (share N)) := map2 (fun m x => inj0 m (ubit (sb x) 0)) m x.
  Definition mr1 (m : list R) (x : list (share N)) := map2 (fun m x => inj1 m (xorb (ubit (sa x) 0) (ubit (sb x) 0))) m x.
  Definition mr2 (m : list R) (x : list (share N)) (b : list R) :=
    map2 (fun mx c => inj2 (fst mx) (ubit (sa (snd mx)) 0) c) (map2 pair m x) b.
  Lemma inj_many_ok vs : forall (m : pid -> list R) s, additive_vec m (repeat 0 (length vs)) -> shares_vec s vs ->
    let r0 := mr0 (m P0) (s P0) in let r1 := mr1 (m P1) (s P1) in let r2 := mr2 (m P2) (s P2) r1 in
    length r0 = length vs /\ length r1 = length vs /\ length r2 = length vs /\
    shares_vec (fun i => match i with P0 => map2 mkShare r0 r2 | P1 => map2 mkShare r1 r0 | P2 => map2 mkShare r2 r1 end)
      (map (fun v => bitval (ubit v 0)) vs).
  Proof.
    induction vs as [|v vs IH]; intros m s Hm Hv; cbv zeta; cbn [length repeat map] in *.
    - unfold mr2, mr0, mr1. rewrite !(pvec_nil_inv Hm). do 3 (split; [reflexivity|]). apply pvec_nil. intros []; reflexivity.
    - destruct (pvec_cons_inv Hm) as (hm & tm & Em & Hhm & Htm). destruct (pvec_cons_inv Hv) as (hv & tv & Ev & Hhv & Htv).
      destruct (IH tm tv Htm Htv) as (L0 & L1 & L2 & K). rewrite !Em, !Ev. unfold mr0, mr1, mr2 in *. cbn [map2 length].
      split; [congruence|]. split; [congruence|]. split; [congruence|].
      destruct (shares_bits Hhv) as [V A]. pose proof (V P0) as V0. pose proof (V P1) as V1. cbn in V0, V1, A.
      set (b := fun i => ubit (sa (hv i)) 0) in *.
      set (q0 := inj0 (hm P0) (b P2)). set (q1 := inj1 (hm P1) (xorb (b P1) (b P0))). set (q2 := inj2 (hm P2) (b P2) q1).
      eapply pvec_cons with (h := fun i => match i with P0 => mkShare q0 q2 | P1 => mkShare q1 q0 | P2 => mkShare q2 q1 end).
      2:{ eapply shares_intro; try reflexivity. rewrite <- A. unfold q0, q1, q2. apply inj_sum. exact Hhm. }
      2:{ exact K. }
      intros []; cbn [fst snd]; unfold q0, q1, q2, b; rewrite ?V0, ?V1; reflexivity.
  Qed.
  Lemma bit_inject_many_wp st s vs : synced st -> shares_vec s vs -> (forall i, Forall (fun x => sa x < 2 /\ sb x < 2)%N (s i)) ->
    wp cap (fun i => bit_inject_many (R := R) i (st i) (s i))
      (fun r => shares_vec (fun i => fst (r i)) (map (fun v => bitval (ubit v 0)) vs) /\ synced (fun i => snd (r i))).
  Proof.
    intros Hs Hv Hn. destruct (inj_masks_ok (length vs) Hs) as [Hm Hs'].
    destruct (inj_many_ok Hm Hv) as (L0 & L1 & L2 & K). cbv zeta in *.
    set (m := fun i => fst (inj_masks (R := R) (length vs) (st i))) in *.
    set (r0 := mr0 (m P0) (s P0)) in *. set (r1 := mr1 (m P1) (s P1)) in *. set (r2 := mr2 (m P2) (s P2) r1) in *.
    change (length r0 = length vs) in L0. change (length r1 = length vs) in L1. change (length r2 = length vs) in L2.
    exists (fun i => (match i with P0 => map2 mkShare r0 r2 | P1 => map2 mkShare r1 r0 | P2 => map2 mkShare r2 r1 end, snd (inj_masks (R := R) (length vs) (st i)))).
    split; [|split; [exact K|exact Hs']].
    assert (Hb : forall i, forallb is_bit (s i) = true).
    { intros i. apply forallb_forall. intros x Hin. apply narrow_is_bit. exact (proj1 (Forall_forall _ _) (Hn i) x Hin). }
    apply runs_comp3. unfold bit_inject_many. rewrite !Hb, !(fun i => pvec_len i Hv).
    unfold recv_checked, send_next_many, recv_prev_many, send_many, recv_many. cbn [bind next prev].
    fold (m P0) (m P1) (m P2). change (map2 (fun m x => inj0 m (ubit (sb x) 0)) (m P0) (s P0)) with r0.
    change (map2 (fun m x => inj1 m (xorb (ubit (sa x) 0) (ubit (sb x) 0))) (m P1) (s P1)) with r1.
    repeat (step3 cap_pos; rewrite ?L0, ?L1, ?L2, ?Nat.eqb_refl; cbn [bind];
            try change (map2 (fun mx c => inj2 (fst mx) (ubit (sa (snd mx)) 0) c) (map2 pair (m P2) (s P2)) r1) with r2).
    apply comp3_ret_eq; reflexivity.
  Qed.
End InjectWp.

Section CmpWp.
  Context {F : Type} `{FU : FieldUint F} {S M : Type} (W : nat) (du : nat -> S -> N * S) {DF : Draw S F}.
  Context {EN : Enc M (list N)} {ENN : Enc M (list (N * N))}
          {EL : Enc M (list (list N))} {ELL : Enc M (list (list N * list N))} {EF : Enc M (list F)}
          (cap : nat) (cap_pos : (1 <= cap)%nat).
  Notation B := (mbs F).
  Notation p := (fu_p (F := F)).
  Context (width : (B + 2 <= W)%nat).
  Context (a2b : pid -> rst S -> share F -> prog pid M (share N * rst S)).
  Context (a2b_ok : forall st a x, synced st -> shares a x ->
    wp cap (fun i => a2b i (st i) (a i))
      (fun r => shares (fun i => fst (r i)) (to_uint x) /\ synced (fun i => snd (r i)))).
  Implicit Types (st : pid -> rst S).
  (** a shared bit, as an integer and as a field element *)
  Definition bit_result (r : pid -> share N * rst S) (b : bool) : Prop :=
    shares (fun i => fst (r i)) (N.b2n b) /\ narrow 1 (fun i => fst (r i)) /\ synced (fun i => snd (r i)).
  Definition field_result (r : pid -> share F * rst S) (b : bool) : Prop :=
    shares (fun i => fst (r i)) (bitval b) /\ synced (fun i => snd (r i)).

  Lemma top_bit x y : (x < 2 ^ N.of_nat B)%N -> (y < 2 ^ N.of_nat B)%N ->
    N.land (ushr (2 ^ N.of_nat B + x - y) B) 1 = N.b2n (y <=? x)%N.
  Proof.
    intros Hx Hy. rewrite land1. f_equal. unfold ubit, ushr. cbn [N.of_nat]. rewrite N.shiftr_spec', N.add_0_l.
    destruct (N.leb_spec y x) as [L|L].
    - apply N.testbit_true. replace (2 ^ N.of_nat B + x - y)%N with ((x - y) + 1 * 2 ^ N.of_nat B)%N by lia.
      rewrite N.div_add by lia. rewrite N.div_small by lia. reflexivity.
    - apply N.testbit_false. rewrite N.div_small by lia. reflexivity.
  Qed.
  Lemma top_bit_ok d x y (st : pid -> rst S) : (x < 2 ^ N.of_nat B)%N -> (y < 2 ^ N.of_nat B)%N -> synced st ->
    shares d (2 ^ N.of_nat B + x - y)%N -> bit_result (fun i => (and_mask (shr (d i) B) 1, st i)) (y <=? x)%N.
  Proof.
    intros Hx Hy Hs Hd. split; [|split; [apply narrow_mask1|exact Hs]]. cbn [fst].
    rewrite <- (top_bit Hx Hy). exact (shmap_ok (@lin3_land 1) (shmap_ok (@lin3_shr B) Hd)).
  Qed.
  Lemma B_lt_W : (1 <= B < W)%nat.
  Proof. pose proof (mbs_pos (F := F)). lia. Qed.

  Lemma unsigned_ge_wp st a b x y : synced st -> shares a x -> shares b y ->
    wp cap (fun i => unsigned_ge W du a2b i (st i) (a i) (b i)) (fun r => bit_result r (to_uint y <=? to_uint x)%N).
  Proof.
    intros Hs Ha Hb. unfold unsigned_ge. apply wp_bind. eapply wp_mono; [|apply (a2b_ok Hs Ha)]. intros r [R1 R2].
    apply wp_bind. eapply wp_mono; [|apply (a2b_ok R2 Hb)]. intros q [Q1 Q2].
    apply wp_bind. eapply wp_mono; [|apply (ks_sub_wp du cap_pos B_lt_W (to_uint_mbs x) (to_uint_mbs y) Q2 R1 Q1)].
    intros d [D1 D2]. apply wp_ret. exact (top_bit_ok (to_uint_mbs x) (to_uint_mbs y) D2 D1).
  Qed.
  Lemma ge_const_lhs_wp st b x y : synced st -> shares b y ->
    wp cap (fun i => ge_const_lhs W du a2b i (st i) x (b i)) (fun r => bit_result r (to_uint y <=? to_uint x)%N).
  Proof.
    intros Hs Hb. unfold ge_const_lhs. apply wp_bind. eapply wp_mono; [|apply (a2b_ok Hs Hb)]. intros q [Q1 Q2].
    apply wp_bind. eapply wp_mono; [|apply (ks_sub_from_const_wp du cap_pos B_lt_W (to_uint_mbs x) (to_uint_mbs y) Q2 Q1)].
    intros d [D1 D2]. apply wp_ret. exact (top_bit_ok (to_uint_mbs x) (to_uint_mbs y) D2 D1).
  Qed.
  Lemma ge_const_rhs_wp st a x y : synced st -> shares a x ->
    wp cap (fun i => ge_const_rhs W du a2b i (st i) (a i) y) (fun r => bit_result r (to_uint y <=? to_uint x)%N).
  Proof.
    intros Hs Ha. unfold ge_const_rhs. destruct (feqb y 0) eqn:E.
    - apply feqb_spec in E. subst y. apply wp_ret. rewrite to_uint_zero. split; [|split; [|exact Hs]]; cbn [fst].
      + replace (N.b2n (0 <=? to_uint x)%N) with 1%N; [apply promote_ok|]. destruct (N.leb_spec 0 (to_uint x)); [reflexivity|lia].
      + intros []; cbn; split; reflexivity.
    - assert (Hy : (1 <= to_uint y)%N).
      { destruct (N.eq_dec (to_uint y) 0) as [C|C]; [|lia]. exfalso. rewrite <- to_uint_zero in C. apply to_uint_inj in C.
        apply feqb_spec in C. congruence. }
      apply wp_bind. eapply wp_mono; [|apply (a2b_ok Hs Ha)]. intros q [Q1 Q2].
      pose proof (to_uint_mbs y) as Ly.
      apply wp_bind. eapply wp_mono; [|eapply (ks_sub_by_const_wp du cap_pos B_lt_W (to_uint_mbs x)); [|exact Q2|exact Q1]].
      + intros d [D1 D2]. apply wp_ret. exact (top_bit_ok (to_uint_mbs x) (to_uint_mbs y) D2 D1).
      + lia.
  Qed.
  Lemma inject_wp (ps : pid -> prog pid M (share N * rst S)) b : wp cap ps (fun r => bit_result r b) ->
    wp cap (fun i => inject i (ps i)) (fun r => field_result r b).
  Proof.
    intros Hp. unfold inject. apply wp_bind. eapply wp_mono; [|exact Hp]. intros r (R1 & R2 & R3).
    eapply wp_mono; [|apply (bit_inject_wp cap_pos R3 R1 R2)]. intros q [Q1 Q2]. split; [|exact Q2].
    replace b with (ubit (N.b2n b) 0); [exact Q1|]. destruct b; reflexivity.
  Qed.
  Lemma complement_wp (ps : pid -> prog pid M (share F * rst S)) b : wp cap ps (fun r => field_result r b) ->
    wp cap (fun i => complement i (ps i)) (fun r => field_result r (negb b)).
  Proof.
    intros Hp. unfold complement. apply wp_bind. eapply wp_mono; [|exact Hp]. intros r (R1 & R2).
    apply wp_ret. split; [|exact R2]. cbn [fst].
    replace (bitval (negb b)) with (rone - bitval b : F); [exact (sub_public_by_shared_ok rone R1)|].
    destruct b; unfold bitval, negb; grp.
  Qed.

  Lemma ge_wp st a b x y : synced st -> shares a x -> shares b y ->
    wp cap (fun i => ge W du a2b i (st i) (a i) (b i)) (fun r => field_result r (to_uint y <=? to_uint x)%N).
  Proof. intros Hs Ha Hb. apply inject_wp. exact (unsigned_ge_wp Hs Ha Hb). Qed.
  Lemma le_wp st a b x y : synced st -> shares a x -> shares b y ->
    wp cap (fun i => le W du a2b i (st i) (a i) (b i)) (fun r => field_result r (to_uint x <=? to_uint y)%N).
  Proof. intros Hs Ha Hb. exact (ge_wp Hs Hb Ha). Qed.
  Lemma lt_wp st a b x y : synced st -> shares a x -> shares b y ->
    wp cap (fun i => lt W du a2b i (st i) (a i) (b i)) (fun r => field_result r (to_uint x <? to_uint y)%N).
  Proof. intros Hs Ha Hb. rewrite N.ltb_antisym. apply complement_wp. exact (ge_wp Hs Ha Hb). Qed.
  Lemma gt_wp st a b x y : synced st -> shares a x -> shares b y ->
    wp cap (fun i => gt W du a2b i (st i) (a i) (b i)) (fun r => field_result r (to_uint y <? to_uint x)%N).
  Proof. intros Hs Ha Hb. rewrite N.ltb_antisym. apply complement_wp. exact (le_wp Hs Ha Hb). Qed.
  Lemma ge_public_wp st a x y : synced st -> shares a x ->
    wp cap (fun i => ge_public W du a2b i (st i) (a i) y) (fun r => field_result r (to_uint y <=? to_uint x)%N).
  Proof. intros Hs Ha. apply inject_wp. exact (ge_const_rhs_wp y Hs Ha). Qed.
  Lemma le_public_wp st a x y : synced st -> shares a x ->
    wp cap (fun i => le_public W du a2b i (st i) (a i) y) (fun r => field_result r (to_uint x <=? to_uint y)%N).
  Proof. intros Hs Ha. apply inject_wp. exact (ge_const_lhs_wp y Hs Ha). Qed.
  Lemma lt_public_wp st a x y : synced st -> shares a x ->
    wp cap (fun i => lt_public W du a2b i (st i) (a i) y) (fun r => field_result r (to_uint x <? to_uint y)%N).
  Proof. intros Hs Ha. rewrite N.ltb_antisym. apply complement_wp. exact (ge_public_wp y Hs Ha). Qed.
  Lemma gt_public_wp st a x y : synced st -> shares a x ->
    wp cap (fun i => gt_public W du a2b i (st i) (a i) y) (fun r => field_result r (to_uint y <? to_uint x)%N).
  Proof. intros Hs Ha. rewrite N.ltb_antisym. apply complement_wp. exact (le_public_wp y Hs Ha). Qed.

  Lemma diff_zero (x y : F) : (to_uint (x - y)%grp mod 2 ^ N.of_nat B =? 0)%N = feqb x y.
  Proof.
    rewrite N.mod_small by apply to_uint_mbs. apply eq_true_iff_eq. rewrite N.eqb_eq, feqb_spec. split.
    - intros E. rewrite <- to_uint_zero in E. apply to_uint_inj in E.
      apply (gcancel_l (- y)). transitivity (x - y); [grp|]. rewrite E. grp.
    - intros ->. rewrite <- to_uint_zero. f_equal. grp.
  Qed.
  Lemma eq_bit_wp st a b x y : synced st -> shares a x -> shares b y ->
    wp cap (fun i => eq_bit W du a2b i (st i) (a i) (b i)) (fun r => bit_result r (feqb x y)).
  Proof.
    intros Hs Ha Hb. unfold eq_bit. apply wp_bind. eapply wp_mono; [|apply (a2b_ok Hs (shsub_ok Ha Hb))]. intros r [R1 R2].
    eapply wp_mono; [|apply (bis_zero_wp W du cap_pos (mbs_pos (F := F)) R2 R1)].
    intros q (Q1 & Q2 & Q3). rewrite diff_zero in Q1. split; auto.
  Qed.
  Lemma eq_wp st a b x y : synced st -> shares a x -> shares b y ->
    wp cap (fun i => eq_ W du a2b i (st i) (a i) (b i)) (fun r => field_result r (feqb x y)).
  Proof. intros Hs Ha Hb. apply inject_wp. exact (eq_bit_wp Hs Ha Hb). Qed.
  Lemma eq_bit_public_wp st a x y : synced st -> shares a x ->
    wp cap (fun i => eq_bit_public W du a2b i (st i) (a i) y) (fun r => bit_result r (feqb x y)).
  Proof. intros Hs Ha. exact (eq_bit_wp Hs Ha (promote_ok y)). Qed.
  Lemma eq_public_wp st a x y : synced st -> shares a x ->
    wp cap (fun i => eq_public W du a2b i (st i) (a i) y) (fun r => field_result r (feqb x y)).
  Proof. intros Hs Ha. apply inject_wp. exact (eq_bit_public_wp y Hs Ha). Qed.
  Lemma neq_wp st a b x y : synced st -> shares a x -> shares b y ->
    wp cap (fun i => neq W du a2b i (st i) (a i) (b i)) (fun r => field_result r (negb (feqb x y))).
  Proof. intros Hs Ha Hb. apply complement_wp. exact (eq_wp Hs Ha Hb). Qed.
  Lemma neq_public_wp st a x y : synced st -> shares a x ->
    wp cap (fun i => neq_public W du a2b i (st i) (a i) y) (fun r => field_result r (negb (feqb x y))).
  Proof. intros Hs Ha. exact (neq_wp Hs Ha (promote_ok y)). Qed.
  Lemma is_zero_wp st a x : synced st -> shares a x ->
    wp cap (fun i => is_zero W du a2b i (st i) (a i))
      (fun r => (forall i, fst (r i) = feqb x 0) /\ synced (fun i => snd (r i))).
  Proof.
    intros Hs Ha. unfold is_zero. apply wp_bind. eapply wp_mono; [|apply (eq_bit_wp Hs zero_share_ok Ha)].
    intros r (R1 & R2 & R3). apply wp_bind. eapply wp_mono; [|apply (open_wp cap_pos R1)]. intros v Hv.
    apply wp_ret. cbn [fst snd]. split; [|exact R3]. intros i. rewrite Hv.
    assert (E : feqb x 0 = feqb 0 x).
    { apply eq_true_iff_eq. rewrite !feqb_spec. split; congruence. }
    rewrite E. destruct (feqb 0 x); reflexivity.
  Qed.

  (** batched equality *)
  Definition bits_result (r : pid -> list (share N) * rst S) (bs : list bool) : Prop :=
    shares_vec (fun i => fst (r i)) (map N.b2n bs) /\
    (forall i, Forall (fun x => sa x < 2 /\ sb x < 2)%N (fst (r i))) /\ synced (fun i => snd (r i)).
  Lemma shsub_vec_ok (a b : pid -> list (share F)) xs ys : shares_vec a xs -> shares_vec b ys ->
    shares_vec (fun i => map2 shsub (a i) (b i)) (map2 gsub xs ys).
  Proof. intros Ha Hb. exact (@pvec_map2 _ _ _ _ _ _ (@shares F _) (@shares F _) (@shares F _) (fun _ => shsub) gsub _ _ _ _ (fun a a' x x' Ka Kb => shsub_ok Ka Kb) Ha Hb). Qed.
  Lemma eq_bit_many_wp st a b xs ys : synced st -> shares_vec a xs -> shares_vec b ys -> length xs = length ys ->
    wp cap (fun i => eq_bit_many W du i (st i) (a i) (b i)) (fun r => bits_result r (map2 feqb xs ys)).
  Proof.
    intros Hs Ha Hb L. unfold eq_bit_many.
    eapply wp_ext; [intros i; rewrite (pvec_len i Ha), (pvec_len i Hb), L, Nat.eqb_refl; reflexivity|].
    apply wp_bind. eapply wp_mono; [|apply (a2b_many_wp du cap_pos width Hs (shsub_vec_ok Ha Hb))]. intros r [R1 R2].
    eapply wp_mono; [|apply (bis_zero_many_wp W du cap_pos to_uint (map2 gsub xs ys) (mbs_pos (F := F)) R2 R1)].
    intros q (Q1 & Q2 & Q3). split; [|split; auto].
    replace (map N.b2n (map2 feqb xs ys)) with (map (fun x => N.b2n (to_uint x mod 2 ^ N.of_nat B =? 0)%N) (map2 gsub xs ys)); [exact Q1|].
    clear -FU. revert ys. induction xs as [|x xs IH]; intros [|y ys]; cbn [map2 map]; try reflexivity.
    rewrite IH, diff_zero. reflexivity.
  Qed.
  Lemma eq_many_wp st a b xs ys : synced st -> shares_vec a xs -> shares_vec b ys -> length xs = length ys ->
    wp cap (fun i => eq_many W du i (st i) (a i) (b i))
      (fun r => shares_vec (fun i => fst (r i)) (map2 (fun x y => bitval (feqb x y)) xs ys) /\ synced (fun i => snd (r i))).
  Proof.
    intros Hs Ha Hb L. unfold eq_many.
    eapply wp_ext; [intros i; rewrite (pvec_len i Ha), (pvec_len i Hb), L, Nat.eqb_refl; reflexivity|].
    apply wp_bind. eapply wp_mono; [|apply (eq_bit_many_wp Hs Ha Hb L)]. intros r (R1 & R2 & R3).
    eapply wp_mono; [|apply (bit_inject_many_wp (R := F) cap_pos R3 R1 R2)]. intros q [Q1 Q2]. split; [|exact Q2].
    replace (map2 (fun x y => bitval (feqb x y)) xs ys) with (map (fun v => bitval (R := F) (ubit v 0)) (map N.b2n (map2 feqb xs ys))); [exact Q1|].
    clear. revert ys. induction xs as [|x xs IH]; intros [|y ys]; cbn [map2 map]; try reflexivity.
    rewrite IH. destruct (feqb x y); reflexivity.
  Qed.
  Lemma promote_vec_ok (ys : list F) : shares_vec (fun i => map (promote i) ys) ys.
  Proof.
    induction ys as [|y ys IH]; [apply pvec_nil; reflexivity|].
    eapply pvec_cons; [intros i; reflexivity|apply promote_ok|exact IH].
  Qed.
  Lemma eq_public_many_wp st a xs ys : synced st -> shares_vec a xs -> length xs = length ys ->
    wp cap (fun i => eq_public_many W du i (st i) (a i) ys)
      (fun r => shares_vec (fun i => fst (r i)) (map2 (fun x y => bitval (feqb x y)) xs ys) /\ synced (fun i => snd (r i))).
  Proof.
    intros Hs Ha L. eapply wp_ext; [|apply (eq_many_wp Hs Ha (promote_vec_ok ys) L)].
    intros i. unfold eq_public_many, eq_many, eq_bit_public_many. rewrite (pvec_len i Ha), L, map_length, Nat.eqb_refl. reflexivity.
  Qed.
  Lemma eq_many_len_wpo st (a b : pid -> list (share F)) : (forall i, length (a i) <> length (b i)) ->
    wpo cap (fun i => eq_many W du i (st i) (a i) (b i))
      (fun o => forall i, o i = Failed (Eyre "During execution of eq_many: Invalid number of elements received")).
  Proof.
    intros L. unfold eq_many. eapply wpo_ext; [intros i; rewrite (proj2 (Nat.eqb_neq _ _) (L i)); reflexivity|].
    apply wpo_fail. reflexivity.
  Qed.

  (** ** Powers of two *)
  Lemma pow_2_public_ok s x c r : shares s x ->
    (forall i, pow_2_public (s i) c = Some (r i)) -> shares r (rmul x (rpow (rone + rone) (N.to_nat (to_uint c)))).
  Proof.
    intros Hs Hr. unfold pow_2_public in Hr. destruct (feqb c 0) eqn:E.
    - apply feqb_spec in E. subst c. rewrite to_uint_zero. cbn [N.to_nat rpow]. rewrite rmul_comm, rmul_1.
      eapply shares_ext; [|exact Hs]. intros i. specialize (Hr i). congruence.
    - destruct (to_uint c <? 2 ^ 32)%N; [|specialize (Hr P0); discriminate].
      destruct (to_uint c <? N.of_nat B)%N; [|specialize (Hr P0); discriminate].
      eapply shares_ext; [|exact (mul_public_ok _ Hs)]. intros i. specialize (Hr i). congruence.
  Qed.
  (** every shift below the size of the modulus is accepted (that size fits in 32 bits) *)
  Lemma pow_2_public_defined s c : (N.of_nat B <= 2 ^ 32)%N -> (to_uint c < N.of_nat B)%N -> exists r, pow_2_public s c = Some r.
  Proof using FU.
    clear cap_pos width a2b_ok.
    intros HB L. unfold pow_2_public. destruct (feqb c 0); [eauto|].
    destruct (N.ltb_spec (to_uint c) (2 ^ 32)); [|lia]. destruct (N.ltb_spec (to_uint c) (N.of_nat B)); [eauto|lia].
  Qed.
  Lemma pow_2_public_panics s c : (N.of_nat B <= to_uint c)%N -> pow_2_public s c = None.
  Proof using FU.
    clear cap_pos width a2b_ok.
    intros L. unfold pow_2_public. destruct (feqb c 0) eqn:E.
    - apply feqb_spec in E. subst c. rewrite to_uint_zero in L. pose proof (mbs_pos (F := F)). lia.
    - destruct (to_uint c <? 2 ^ 32)%N; [|reflexivity]. destruct (N.ltb_spec (to_uint c) (N.of_nat B)); [lia|reflexivity].
  Qed.

  Context (b2a : pid -> rst S -> share N -> prog pid M (share F * rst S)).
  Context (b2a_ok : forall st a u, synced st -> shares a u -> (u < p)%N ->
    wp cap (fun i => b2a i (st i) (a i))
      (fun r => shares (fun i => fst (r i)) (of_uint u) /\ synced (fun i => snd (r i)))).
  Add Ring Fr : (cring_theory (R := F)).
  Lemma of_uint_bit (b : bool) : of_uint (F := F) (N.b2n b) = bitval b.
  Proof.
    destruct b; cbn.
    - rewrite <- (to_uint_one (F := F)). apply of_to_uint.
    - rewrite <- (to_uint_zero (F := F)). apply of_to_uint.
  Qed.
  Lemma shift_bits_wp n : forall k st a x, synced st -> shares a x ->
    wp cap (fun i => shift_bits b2a n k i (st i) (a i))
      (fun r => shares_vec (fun i => fst (r i)) (map (fun j => bitval (ubit x j)) (seq k n)) /\ synced (fun i => snd (r i))).
  Proof.
    induction n as [|n IH]; intros k st a x Hs Ha; cbn [shift_bits seq map].
    - apply wp_ret. split; [apply pvec_nil; reflexivity|exact Hs].
    - apply wp_bind. pose proof (shmap_ok (@lin3_land 1) (shmap_ok (@lin3_shr k) Ha)) as Hb. cbv beta in Hb. rewrite land1 in Hb.
      eapply wp_mono; [|apply (b2a_ok Hs Hb)].
      + intros r [R1 R2]. apply wp_bind. eapply wp_mono; [|apply (IH (Datatypes.S k) _ a x R2 Ha)].
        intros q [Q1 Q2]. apply wp_ret. cbn [fst snd]. split; [|exact Q2].
        eapply pvec_cons; [intros i; reflexivity| |exact Q1]. cbv beta.
        rewrite of_uint_bit, ubit_shr in R1. exact R1.
      + pose proof (fu_p_pos (F := F)). destruct (ubit (ushr x k) 0); cbn; lia.
  Qed.
  Definition shift_val (x : N) (j : nat) : F := if ubit x j then rpow (rone + rone) (2 ^ j) else rone.
  Lemma shift_factors_ok x n : forall k (bs : pid -> list (share F)),
    shares_vec bs (map (fun j => bitval (ubit x j)) (seq k n)) ->
    shares_vec (fun i => shift_factors i k (bs i)) (map (shift_val x) (seq k n)).
  Proof.
    induction n as [|n IH]; intros k bs Hb; cbn [seq map] in *.
    - apply pvec_nil. intros i. rewrite (pvec_nil_inv Hb). reflexivity.
    - destruct (pvec_cons_inv Hb) as (h & t & E & Hh & Ht).
      eapply pvec_cons; [intros i; rewrite E; reflexivity| |exact (IH _ t Ht)]. cbv beta.
      replace (shift_val x k) with (rmul (bitval (ubit x k)) (rpow (rone + rone) (2 ^ k)) + rone - bitval (ubit x k)).
      + exact (shsub_ok (add_public_ok rone (mul_public_ok _ Hh)) Hh).
      + unfold shift_val, bitval. destruct (ubit x k); ring.
  Qed.
  Lemma product_wp vs : forall st v w ws, synced st -> shares v w -> shares_vec ws vs ->
    wp cap (fun i => product i (st i) (v i) (ws i))
      (fun r => shares (fun i => fst (r i)) (fold_left rmul vs w) /\ synced (fun i => snd (r i))).
  Proof.
    induction vs as [|y vs IH]; intros st v w ws Hs Hv Hw.
    - eapply wp_ext; [intros i; rewrite (pvec_nil_inv Hw); reflexivity|]. apply wp_ret. auto.
    - destruct (pvec_cons_inv Hw) as (h & t & E & Hh & Ht).
      eapply wp_ext; [intros i; rewrite E; reflexivity|]. cbn [product fold_left]. apply wp_bind.
      eapply wp_mono; [|exact (rmul_wp cap_pos Hs Hv Hh)]. intros r [R1 R2]. apply (IH _ _ _ t R2 R1 Ht).
  Qed.
  Lemma rpow_add (z : F) n m : rpow z (n + m) = rmul (rpow z n) (rpow z m).
  Proof. induction n as [|n IH]; cbn [rpow Nat.add]; [rewrite rmul_1; reflexivity|]. rewrite IH. ring. Qed.
  Lemma shares_vec_last d xs x : forall l : pid -> list (share F), shares_vec l (xs ++ [x]) ->
    shares (fun i => last (l i) d) x /\ shares_vec (fun i => removelast (l i)) xs.
  Proof.
    intros l Hl.
    assert (K : exists h t, (forall i, l i = t i ++ [h i]) /\ shares h x /\ shares_vec t xs).
    { revert l Hl. induction xs as [|y xs IH]; intros l Hl; cbn [app] in Hl.
      - destruct (pvec_cons_inv Hl) as (h & t & E & Hh & Ht). exists h, (fun _ => []).
        split; [|split; [exact Hh|apply pvec_nil; reflexivity]]. intros i. rewrite E, (pvec_nil_inv Ht). reflexivity.
      - destruct (pvec_cons_inv Hl) as (h & t & E & Hh & Ht). destruct (IH t Ht) as (h' & t' & E' & Hh' & Ht').
        exists h', (fun i => h i :: t' i). split; [|split; [exact Hh'|eapply pvec_cons; [intros i; reflexivity|exact Hh|exact Ht']]].
        intros i. rewrite E, E'. reflexivity. }
    destruct K as (h & t & E & Hh & Ht). split.
    - eapply shares_ext; [|exact Hh]. intros i. rewrite E, last_last. reflexivity.
    - eapply pvec_ext; [|exact Ht]. intros i. rewrite E, removelast_last. reflexivity.
  Qed.
  Lemma shift_val_pow x j : shift_val x j = rpow (rone + rone) (if ubit x j then 2 ^ j else 0).
  Proof. unfold shift_val. destruct (ubit x j); reflexivity. Qed.
  Lemma low_byte x : N.to_nat (x mod 256) =
    ((if ubit x 7 then 2 ^ 7 else 0) + (if ubit x 0 then 2 ^ 0 else 0) + (if ubit x 1 then 2 ^ 1 else 0) + (if ubit x 2 then 2 ^ 2 else 0)
     + (if ubit x 3 then 2 ^ 3 else 0) + (if ubit x 4 then 2 ^ 4 else 0) + (if ubit x 5 then 2 ^ 5 else 0) + (if ubit x 6 then 2 ^ 6 else 0))%nat.
  Proof.
    change 256%N with (2 ^ 8)%N. unfold ubit. rewrite <- !(fun j => N.mod_pow2_bits_low x 8 j) by (cbn; lia).
    assert (L : (x mod 2 ^ 8 < 2 ^ 8)%N) by (apply N.mod_upper_bound; discriminate).
    generalize (x mod 2 ^ 8)%N L. clear. intros y L.
    assert (D : forallb (fun y => N.to_nat y =? 
     ((if N.testbit y (N.of_nat 7) then 2 ^ 7 else 0) + (if N.testbit y (N.of_nat 0) then 2 ^ 0 else 0)
     + (if N.testbit y (N.of_nat 1) then 2 ^ 1 else 0) + (if N.testbit y (N.of_nat 2) then 2 ^ 2 else 0)
     + (if N.testbit y (N.of_nat 3) then 2 ^ 3 else 0) + (if N.testbit y (N.of_nat 4) then 2 ^ 4 else 0) 
     + (if N.testbit y (N.of_nat 5) then 2 ^ 5 else 0) + (if N.testbit y (N.of_nat 6) then 2 ^ 6 else 0)))%nat (map N.of_nat (seq 0 256)) = true)
      by (vm_compute; reflexivity).
    apply Nat.eqb_eq. eapply (proj1 (forallb_forall _ _) D). apply in_map_iff. exists (N.to_nat y).
    split; [apply N2Nat.id|]. apply in_seq. change (2 ^ 8)%N with 256%N in L. lia.
  Qed.
  Lemma shift_l_wp st a x c : synced st -> shares a x ->
    wp cap (fun i => shift_l_public_by_shared b2a i (st i) c (a i))
      (fun r => shares (fun i => fst (r i)) (rmul c (rpow (rone + rone) (N.to_nat (x mod 256)))) /\ synced (fun i => snd (r i))).
  Proof.
    intros Hs Ha. unfold shift_l_public_by_shared. apply wp_bind. eapply wp_mono; [|apply (shift_bits_wp 8 0 Hs Ha)].
    intros bs [B1 B2]. pose proof (shift_factors_ok x 8 0 B1) as Hf.
    change (seq 0 8) with ([0;1;2;3;4;5;6] ++ [7])%nat in Hf. rewrite map_app in Hf. cbn [map] in Hf.
    change [shift_val x 0; shift_val x 1; shift_val x 2; shift_val x 3; shift_val x 4; shift_val x 5; shift_val x 6; shift_val x 7]
      with (map (shift_val x) (seq 0 7) ++ [shift_val x 7]) in Hf.
    destruct (@shares_vec_last zero_share _ _ _ Hf) as [F1 F2].
    apply wp_bind. eapply wp_mono; [|apply (product_wp B2 F1 F2)]. intros r [R1 R2]. apply wp_ret. cbn [fst snd]. split; [|exact R2].
    rewrite rmul_comm. rewrite low_byte. rewrite !rpow_add. rewrite <- !shift_val_pow.
    exact (mul_public_ok c R1).
  Qed.
End CmpWp.

(** ** Restatements used by the property file *)
Section Restate.
  Context {S M : Type} (W : nat) (du : nat -> S -> N * S).
  Context {EN : Enc M (list N)} {ENN : Enc M (list (N * N))}
          {EL : Enc M (list (list N))} {ELL : Enc M (list (list N * list N))} (cap : nat) (cap_pos : (1 <= cap)%nat).
  Implicit Types (st : pid -> rst S).
  Lemma cmux_bits m t f : N.lxor (N.land m (N.lxor f t)) f = N.lor (N.land m t) (N.ldiff f m).
  Proof.
    apply N.bits_inj. intros j. rewrite N.lxor_spec, N.lor_spec, !N.land_spec, N.lxor_spec, N.ldiff_spec.
    destruct (N.testbit m j), (N.testbit t j), (N.testbit f j); reflexivity.
  Qed.
  Lemma bcmux_ldiff st c xt xf m t f : synced st -> shares c m -> shares xt t -> shares xf f ->
    wp cap (fun i => bcmux W du i (st i) (c i) (xt i) (xf i))
      (fun r => shares (fun i => fst (r i)) (N.lor (N.land m t) (N.ldiff f m)) /\ synced (fun i => snd (r i))).
  Proof. intros Hs Hc Ht Hf. rewrite <- cmux_bits. exact (bcmux_wp W du cap_pos Hs Hc Ht Hf). Qed.
  Lemma bis_zero_if n st a x : (1 <= n)%nat -> synced st -> shares a x ->
    wp cap (fun i => bis_zero W du n i (st i) (a i))
      (fun r => shares (fun i => fst (r i)) (if (x mod 2 ^ N.of_nat n =? 0)%N then 1%N else 0%N) /\ synced (fun i => snd (r i))).
  Proof.
    intros L Hs Ha. eapply wp_mono; [|apply (bis_zero_wp W du cap_pos L Hs Ha)]. intros r (R1 & _ & R2). split; [|exact R2].
    destruct (x mod 2 ^ N.of_nat n =? 0)%N; exact R1.
  Qed.
  Lemma or_tree_fold xs st a : xs <> [] -> synced st -> shares_vec a xs ->
    wp cap (fun i => or_tree W du i (st i) (a i))
      (fun r => shares (fun i => fst (r i)) (fold_right N.lor 0%N xs) /\ synced (fun i => snd (r i))).
  Proof.
    intros Hn Hs Ha. assert (E : fold_right N.lor 0%N xs = big_or xs) by (clear; induction xs as [|x xs IH]; cbn; [|rewrite IH]; reflexivity).
    rewrite E. exact (or_tree_wp W du cap_pos Hn Hs Ha).
  Qed.
  Lemma or_tree_empty_panics st : wpo cap (fun i => or_tree W du i (st i) []) (fun o => forall i, exists e, o i = Failed (Panic e)).
  Proof. eapply wpo_mono; [|apply (or_tree_empty_wpo W du cap st)]. intros o Ho i. eexists. apply Ho. Qed.
End Restate.
