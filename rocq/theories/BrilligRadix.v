(** * [ToRadix] of the coBrillig VM on shared values *)
From Coq Require Import String List Arith NArith Lia Bool Ring.
From Verif Require Import Proc Alg Rep3Net Rep3 Rep3Spec Rep3Proofs Rep3Wp Uint Binary BinaryWp Conv ConvWp CmpWp Ring2k Ring2kWp
  VmDriver VmIdeal Brillig BrilligSpec BrilligSound BrilligTag BrilligDriver BrilligOps.
Import ListNotations.
Set Implicit Arguments.
Local Open Scope grp_scope.
Local Open Scope list_scope.

Section Radix.
  Context {F : Type} `{FU : FieldUint F} {S M : Type} (dbg : bool) (W : nat) (du : nat -> S -> N * S).
  Context {DF : Draw S F} {EN : Enc M (list N)} {ENN : Enc M (list (N * N))} {EF : Enc M (list F)}.
  Context {RT : isz -> Type} {RC : forall s, CRing (RT s)} {RI : forall s, @IntRing (RT s) (RC s)}
          {RD : forall s, Draw S (RT s)} {RE : forall s, Enc M (list (RT s))}.
  Context (HK : forall s, rK (RT s) = ibits s).
  Context (Y : yao (F := F) (S := S) (M := M) (RT := RT)).
  Context (cap : nat) (cap_pos : (1 <= cap)%nat) (HY : yao_ok Y cap).
  Notation p := (fu_p (F := F)).
  Notation bv := (bv (F := F) (RT := RT)).
  Implicit Types (st : pid -> rst S).

  (** what the remaining garbled circuits compute: the digits of a field element, least significant first, a small
      field element as an integer of 8 bits, and an integer of 32 bits as a field element *)
  Record yao_radix_ok : Prop := mkYaoRadix {
    yr_decompose : forall st a x n k, synced st -> shares a x -> (1 <= k <= 8)%nat ->
      wp cap (fun i => y_decompose Y i (st i) (a i) n k) (fun r =>
        (exists ws : list (pid -> share (RT U8)),
           Forall2 (fun w j => shares w (rof ((to_uint x / 2 ^ N.of_nat (k * j)) mod 2 ^ N.of_nat k)%N)) ws (seq 0 n) /\
           forall i, fst (r i) = map (fun w => w i) ws) /\ synced (fun i => snd (r i)));
    yr_f2r : forall st a x, synced st -> shares a x -> (to_uint x < 256)%N ->
      wp cap (fun i => y_f2r Y i (st i) (a i)) (sres_ok (rof (to_uint x)));
    yr_r2f : forall st (a : pid -> share (RT U32)) x, synced st -> shares a x -> (rto x < p)%N ->
      wp cap (fun i => y_r2f Y i (st i) (a i)) (sres_ok (of_uint (rto x))) }.
  Context (HR : yao_radix_ok).

  (** shares of the digits [ds], integers of 8 bits *)
  Definition digits_held (ds : list N) (l : pid -> list bv) : Prop :=
    exists w : list (pid -> bv), Forall2 (fun v d => vrel v true (BI d U8)) w ds /\ forall i, l i = map (fun v => v i) w.
  Definition radix_post {T} (f : T -> rst S) (ds : list N) (r : pid -> list bv * T) : Prop :=
    digits_held ds (fun i => fst (r i)) /\ synced (fun i => f (snd (r i))).

  Lemma held_nil : digits_held [] (fun _ => []).
  Proof. exists []. split; [constructor|reflexivity]. Qed.
  Lemma held_snoc ds l d v : digits_held ds l -> vrel v true (BI d U8) -> digits_held (ds ++ [d]) (fun i => l i ++ [v i]).
  Proof.
    intros (w & Hw & Ew) Hv. exists (w ++ [v]). split; [apply Forall2_app; [exact Hw|constructor; [exact Hv|constructor]]|].
    intros i. rewrite Ew, map_app. reflexivity.
  Qed.
  Lemma rto_small d : (d < 256)%N -> rto (rof (T := RT U8) d) = d.
  Proof. intros L. rewrite rto_rof. apply N.mod_small. rewrite HK. exact L. Qed.
  Lemma digit_rel (a : pid -> share (RT U8)) d : (d < 256)%N -> shares a (rof d) -> vrel (fun i => BShr (SI U8 (a i))) true (BI d U8).
  Proof. intros L Ha. eexists. split; [|reflexivity]. exists a, (rof d). split; [exact Ha|]. split; [apply rto_small; exact L|reflexivity]. Qed.
  (** rep3.rs:1581-1590 without [bits] *)
  Lemma limb_wp st a u : synced st -> shares a (of_uint u) -> (u < p)%N -> (u < 256)%N ->
    wp cap (fun i => limb dbg Y i (st i) (a i) false) (fun r => vrel (fun i => fst (r i)) true (BI u U8) /\ synced (fun i => snd (r i))).
  Proof.
    intros Hs Ha Lp L. unfold limb. apply wp_bind. eapply wp_mono; [|apply (yr_f2r HR Hs Ha); rewrite (to_of_uint Lp); exact L].
    intros l [A B]. rewrite (to_of_uint Lp) in A. apply wp_ret. cbn [fst snd]. split; [|exact B]. apply digit_rel; assumption.
  Qed.

  Lemma of_uint_neq0 r : (r <> 0)%N -> (r < p)%N -> of_uint r <> (0 : F).
  Proof. intros N L E. apply N. rewrite <- (to_of_uint L), E. exact to_uint_zero. Qed.
  Section Steps.
    Context (r : N) (r_pos : (1 < r)%N) (r_max : (r <= 256)%N) (r_p : (r < p)%N).
    Let rf : F := of_uint r.
    Lemma rf_neq0 : rf <> 0.
    Proof. apply of_uint_neq0; [lia|exact r_p]. Qed.
    Lemma rest_eq (x : F) : x - rmul (of_uint (to_uint x / r)) rf = of_uint (to_uint x mod r).
    Proof. pose proof (div_mod_field x rf_neq0) as E. unfold rf in E at 1 3. rewrite (to_of_uint r_p) in E. exact E. Qed.
    Lemma quot_lt (x : F) : (to_uint x / r < p)%N.
    Proof. pose proof (to_uint_lt x). pose proof (N.div_le_upper_bound (to_uint x) r (to_uint x)). nia. Qed.
    Lemma rem_lt (x : F) : (to_uint x mod r < r)%N.
    Proof. apply N.mod_lt. lia. Qed.

    Theorem radix_public_wp n : forall st a (x : F), synced st -> shares a x ->
      wp cap (fun i => radix_public dbg Y n i (st i) (a i) rf false) (radix_post (fun s => s) (digits n (to_uint x) r)).
    Proof.
      induction n as [|n IH]; intros st a x Hs Ha; cbn [radix_public digits].
      - apply wp_ret. split; [exact held_nil|exact Hs].
      - apply wp_bind. eapply wp_mono; [|exact (yo_fpub HY Hs Ha rf_neq0)]. intros d [D1 D2]. unfold rf in D1 at 1. rewrite (to_of_uint r_p) in D1.
        apply wp_bind. eapply wp_mono; [|apply (@limb_wp (fun i => snd (d i)) (fun i => shsub (a i) (mul_public (fst (d i)) rf)) (to_uint x mod r) D2)].
        + intros l [L1 L2]. apply wp_bind. eapply wp_mono; [|exact (IH _ _ _ L2 D1)]. intros ls [H1 H2]. rewrite (to_of_uint (quot_lt x)) in H1.
          apply wp_ret. split; [|exact H2]. cbn [fst]. apply (held_snoc H1 L1).
        + rewrite <- rest_eq. apply (shsub_ok Ha). apply mul_public_ok. exact D1.
        + pose proof (rem_lt x). lia.
        + pose proof (rem_lt x). lia.
    Qed.
    Theorem radix_shared_wp n : forall st a b (x : F), synced st -> shares a x -> shares b rf ->
      wp cap (fun i => radix_shared dbg Y n i (st i) (a i) (b i) false) (radix_post (fun s => s) (digits n (to_uint x) r)).
    Proof.
      induction n as [|n IH]; intros st a b x Hs Ha Hb; cbn [radix_shared digits].
      - apply wp_ret. split; [exact held_nil|exact Hs].
      - apply wp_bind. eapply wp_mono; [|exact (yo_fdiv HY Hs Ha Hb rf_neq0)]. intros d [D1 D2]. unfold rf in D1 at 1. rewrite (to_of_uint r_p) in D1.
        apply wp_bind. eapply wp_mono; [|exact (mul_wp cap_pos D2 D1 Hb)]. intros m [M1 M2].
        apply wp_bind. eapply wp_mono; [|apply (@limb_wp (fun i => snd (m i)) (fun i => shsub (a i) (fst (m i))) (to_uint x mod r) M2)].
        + intros l [L1 L2]. apply wp_bind. eapply wp_mono; [|exact (IH _ _ _ _ L2 D1 Hb)]. intros ls [H1 H2]. rewrite (to_of_uint (quot_lt x)) in H1.
          apply wp_ret. split; [|exact H2]. cbn [fst]. apply (held_snoc H1 L1).
        + rewrite <- rest_eq. apply (shsub_ok Ha). exact M1.
        + pose proof (rem_lt x). lia.
        + pose proof (rem_lt x). lia.
    Qed.
  End Steps.

  Lemma digits_pow2 k n : forall x, digits n x (2 ^ N.of_nat k) = rev (map (fun j => (x / 2 ^ N.of_nat (k * j)) mod 2 ^ N.of_nat k)%N (seq 0 n)).
  Proof.
    induction n as [|n IH]; intros x; [reflexivity|]. cbn [digits seq map rev]. rewrite IH. f_equal.
    - f_equal. rewrite <- seq_shift, map_map. apply map_ext. intros j. f_equal. rewrite N.div_div by (apply N.pow_nonzero; discriminate).
      f_equal. rewrite <- N.pow_add_r. f_equal. lia.
    - rewrite Nat.mul_0_r. change (2 ^ N.of_nat 0)%N with 1%N. rewrite N.div_1_r. reflexivity.
  Qed.
  Lemma Forall2_map_r {A B C} (R : A -> C -> Prop) (f : B -> C) l l' : Forall2 (fun a b => R a (f b)) l l' -> Forall2 R l (map f l').
  Proof. induction 1; constructor; assumption. Qed.
  Lemma Forall2_rev' {A B} (R : A -> B -> Prop) l l' : Forall2 R l l' -> Forall2 R (rev l) (rev l').
  Proof. induction 1; cbn; [constructor|]. apply Forall2_app; [assumption|]. constructor; [assumption|constructor]. Qed.
  Lemma npow2_log r : npow2 r = true -> r = (2 ^ N.log2 r)%N.
  Proof. unfold npow2. intros E. apply N.eqb_eq in E. congruence. Qed.

  (** the digits of [x], most significant first, when one of the two operands is shared *)
  Theorem radix_wp st (v w : pid -> bv) sh sh' (x : F) r n : (1 < r <= 256)%N -> (r < p)%N -> (sh || sh')%bool = true ->
    (sh = true \/ n <> 0%nat) ->
    vrel v sh (BF x) -> vrel w sh' (BI r U32) -> synced st ->
    wp cap (fun i => r_radix_s dbg Y i (st i) (v i) (w i) n false) (radix_post (fun s => s) (digits n (to_uint x) r)).
  Proof.
    intros [R1 R2] Rp Hsh Hn Hv Hw Hs. destruct sh, sh'; [| | |discriminate Hsh].
    - destruct Hv as (v' & (a & Ha & Ea) & Ev). destruct Hw as (w' & (b & y & Hb & Ey & Eb) & Ew).
      eapply wp_ext with (qs := fun i => bind (y_r2f Y i (st i) (b i)) (fun rf => radix_shared dbg Y n i (snd rf) (a i) (fst rf) false)).
      { intros i. rewrite Ev, Ea, Ew, Eb. reflexivity. }
      apply wp_bind. eapply wp_mono; [|apply (yr_r2f HR Hs Hb); rewrite Ey; exact Rp]. rewrite Ey. intros rf [B1 B2].
      exact (@radix_shared_wp r R1 R2 Rp n _ _ _ x B2 Ha B1).
    - destruct Hv as (v' & (a & Ha & Ea) & Ev).
      eapply wp_ext with (qs := fun i => if npow2 r then bind (y_decompose Y i (st i) (a i) n (N.to_nat (N.log2 r)))
          (fun l => Ret (rev (map (fun l => BShr (SI U8 l)) (fst l)), snd l)) else radix_public dbg Y n i (st i) (a i) (of_uint r) false).
      { intros i. rewrite Ev, Ea, (Hw i). cbn [r_radix_s]. replace (r <? imod U32)%N with true by (symmetry; apply N.ltb_lt; change (imod U32) with 4294967296%N; lia).
        replace (256 <? r)%N with false by (symmetry; apply N.ltb_ge; lia). rewrite (N.mod_small r p Rp). cbn [negb]. reflexivity. }
      destruct (npow2 r) eqn:Er; [|exact (@radix_public_wp r R1 R2 Rp n _ _ x Hs Ha)].
      apply npow2_log in Er. set (k := N.to_nat (N.log2 r)) in *.
      assert (Ek : r = (2 ^ N.of_nat k)%N) by (unfold k; rewrite N2Nat.id; exact Er).
      assert (K1 : (1 <= k)%nat). { destruct k; [|lia]. change (2 ^ N.of_nat 0)%N with 1%N in Ek. lia. }
      assert (K2 : (k <= 8)%nat). { destruct (le_lt_dec k 8) as [L|L]; [exact L|]. assert (2 ^ 9 <= 2 ^ N.of_nat k)%N by (apply N.pow_le_mono_r; lia). change (2 ^ 9)%N with 512%N in *. lia. }
      apply wp_bind. eapply wp_mono; [|exact (yr_decompose HR n Hs Ha (conj K1 K2))]. intros l [(ws & Hws & El) Hsl].
      apply wp_ret. split; [|exact Hsl]. cbn [fst]. rewrite Ek, digits_pow2.
      exists (rev (map (fun (w : pid -> share (RT U8)) i => BShr (SI U8 (w i))) ws)). split.
      + apply Forall2_rev', Forall2_map_r. clear El. induction Hws as [|w0 j ws js Hj Hws IHws]; [constructor|]. cbn [map]. constructor; [|exact IHws].
        apply digit_rel; [|exact Hj]. eapply N.lt_le_trans; [apply N.mod_lt; rewrite <- Ek; lia|]. rewrite <- Ek. exact R2.
      + intros i. rewrite El, map_rev, !map_map. reflexivity.
    - destruct Hw as (w' & (b & y & Hb & Ey & Eb) & Ew). destruct Hn as [|Hn]; [discriminate|]. destruct n as [|n]; [contradiction|].
      eapply wp_ext with (qs := fun i => bind (y_r2f Y i (st i) (b i)) (fun rf => bind (y_fby Y i (snd rf) x (fst rf)) (fun d =>
        bind (mul i (snd d) (fst d) (fst rf)) (fun m => bind (y_f2r Y i (snd m) (sub_public_by_shared i x (fst m))) (fun l =>
        bind (radix_shared dbg Y n i (snd l) (fst d) (fst rf) false) (fun ls => Ret (fst ls ++ [BShr (SI U8 (fst l))], snd ls))))))).
      { intros i. rewrite (Hv i), Ew, Eb. reflexivity. }
      apply wp_bind. eapply wp_mono; [|apply (yr_r2f HR Hs Hb); rewrite Ey; exact Rp]. rewrite Ey. intros rf [B1 B2].
      pose proof (of_uint_neq0 (r := r)) as N0. specialize (N0 ltac:(lia) Rp).
      apply wp_bind. eapply wp_mono; [|exact (yo_fby HY x B2 B1 N0)]. rewrite (to_of_uint Rp). intros d [D1 D2].
      apply wp_bind. eapply wp_mono; [|exact (mul_wp cap_pos D2 D1 B1)]. intros m [M1 M2].
      assert (Lr : (to_uint x mod r < r)%N) by (apply N.mod_lt; lia).
      apply wp_bind. eapply wp_mono; [|apply (@yr_f2r HR (fun i => snd (m i)) (fun i => sub_public_by_shared i x (fst (m i))) (of_uint (to_uint x mod r)) M2)].
      + rewrite (@to_of_uint F _ _ (to_uint x mod r)%N) by lia. intros l [L1 L2].
        apply wp_bind. eapply wp_mono; [|exact (@radix_shared_wp r R1 R2 Rp n _ _ _ _ L2 D1 B1)]. intros ls [H1 H2].
        rewrite (to_of_uint (@quot_lt r R1 R2 Rp x)) in H1. apply wp_ret. split; [|exact H2]. cbn [fst digits].
        apply (held_snoc H1). apply digit_rel; [lia|exact L1].
      + rewrite <- (@rest_eq r R1 R2 Rp). apply sub_public_by_shared_ok. exact M1.
      + rewrite to_of_uint by lia. lia.
  Qed.
  (** the operation of the driver *)
  Theorem r_radix_wp (ds : pid -> drst (S := S)) (v w : pid -> bv) sh sh' (x : F) r n : (1 < r <= 256)%N -> (r < p)%N -> (sh || sh')%bool = true ->
    (sh = true \/ n <> 0%nat) -> vrel v sh (BF x) -> vrel w sh' (BI r U32) -> synced (fun i => fst (ds i)) ->
    wp cap (fun i => r_radix dbg Y i (ds i) (v i) (w i) n false) (radix_post fst (digits n (to_uint x) r)).
  Proof.
    intros R Rp Hsh Hn Hv Hw Hs.
    eapply wp_ext with (qs := fun i => bind (r_radix_s dbg Y i (fst (ds i)) (v i) (w i) n false) (fun l => Ret (fst l, (snd l, snd (ds i))))).
    - intros i. destruct sh; [destruct Hv as (v' & _ & Ev); rewrite Ev; destruct (w i); reflexivity|].
      destruct sh'; [|discriminate]. destruct Hw as (w' & _ & Ew). rewrite Ew. destruct (v i); reflexivity.
    - apply wp_bind. eapply wp_mono; [|exact (@radix_wp _ v w sh sh' x r n R Rp Hsh Hn Hv Hw Hs)]. intros l [L1 L2]. apply wp_ret. split; assumption.
  Qed.
End Radix.
