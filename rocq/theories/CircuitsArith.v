(** * What the circuits of yao/circuits.rs compute: products, quotients, arithmetic modulo p *)
From Coq Require Import String List Arith NArith Lia Bool.
From Verif Require Import Proc Alg Uint Rep3 Conv Garble Circuits CircuitsOk.
Import ListNotations.
Set Implicit Arguments.
Local Open Scope N_scope.

Lemma gzero_plain : plain gzero = Done false. Proof. reflexivity. Qed.
Lemma gone_plain : plain gone = Done true. Proof. reflexivity. Qed.

(** ** Product with a public number *)
Lemma mul_loop_ok lhs rhs : forall i sum, length sum = (length lhs + i)%nat -> (0 < i)%nat ->
  pok (mul_loop false lhs i rhs sum)
      (fun r => length r = (length lhs + i + length rhs)%nat /\ bval r = bval sum + p2 i * (bval lhs * bval rhs)).
Proof.
  induction rhs as [|b rhs IH]; intros i sum L Hi; cbn [mul_loop length bval].
  - apply pok_ret. split; [lia|]. lia.
  - set (m := repeat false i ++ (if b then lhs else repeat false (length lhs))).
    assert (Lm : length m = (length lhs + i)%nat).
    { unfold m. rewrite app_length, repeat_length. destruct b; rewrite ?repeat_length; lia. }
    assert (Vm : bval m = p2 i * (N.b2n b * bval lhs)).
    { unfold m. rewrite bval_app, bval_repeat, repeat_length. destruct b; rewrite ?bval_repeat; cbn [N.b2n]; lia. }
    eapply pok_bind; [apply bin_addition_ok; [destruct sum; cbn in L; [lia|congruence]|congruence]|].
    intros r (Lr & Vr). eapply pok_mono.
    { apply IH; [|lia]. rewrite app_length, Lr. cbn [length]. lia. }
    intros s (Ls & Vs). split; [lia|]. rewrite Vs, bval_app, Lr, p2_S. cbn [bval].
    rewrite Vm in Vr. nia.
Qed.
Lemma bin_mul_with_public_ok lhs rhs : rhs <> [] ->
  pok (bin_mul_with_public lhs rhs)
      (fun r => length r = (length lhs + length rhs)%nat /\ bval r = bval lhs * bval rhs).
Proof.
  destruct rhs as [|b rhs]; [congruence|]. intros _. unfold bin_mul_with_public.
  eapply pok_step; [reflexivity|]. eapply pok_mono.
  { apply mul_loop_ok; [|lia]. rewrite app_length. destruct b; rewrite ?repeat_length; cbn [length]; lia. }
  intros r (L & V). split; [rewrite L; cbn [length]; lia|]. rewrite V, bval_app. cbn [bval N.b2n].
  rewrite p2_S, p2_0. destruct b; rewrite ?bval_repeat; cbn [N.b2n]; lia.
Qed.

(** ** Division *)
Lemma bval_rev_cons x xs : bval (rev (x :: xs)) = bval (rev xs) + p2 (length xs) * N.b2n x.
Proof. cbn [rev]. rewrite bval_app, rev_length. cbn [bval]. lia. Qed.

Lemma div_step d v q V qs k : 0 < d -> q = (d <=? v) -> v < 2 * d ->
  qs = ((v - d * N.b2n q) * p2 k + V) / d ->
  qs + p2 k * N.b2n q = (v * p2 k + V) / d.
Proof.
  intros Hd -> Hv ->. destruct (N.leb_spec d v); cbn [N.b2n].
  - replace (v * p2 k + V) with ((v - d * 1) * p2 k + V + p2 k * d) by nia.
    rewrite N.div_add by lia. lia.
  - rewrite N.mul_0_r, N.sub_0_r. lia.
Qed.

Section DivLoop.
  Variables (sub : list bool -> gprog bool (list bool * bool)) (m : nat) (d : N).
  Hypothesis sub_ok : forall acc, acc <> [] -> (length acc <= m)%nat -> pok (sub acc) (diffs m (bval acc) d).
  Hypothesis d_lt : d < p2 m.

  Lemma div_loop_ok n xs : forall acc,
    0 < d -> (n <= m)%nat -> (length acc + length xs <= n)%nat -> bval acc < d ->
    pok (div_loop sub n xs acc)
        (fun qs => length qs = length xs /\ bval (rev qs) = (bval acc * p2 (length xs) + bval (rev xs)) / d).
  Proof.
    induction xs as [|x xs IH]; intros acc Hd Hn L HR; cbn [div_loop].
    - apply pok_ret. split; [reflexivity|]. cbn [rev bval length]. rewrite p2_0, N.div_small; lia.
    - cbn [length] in L. destruct (Nat.eqb_spec (length acc) n); [lia|].
      eapply pok_bind; [apply sub_ok; [congruence|cbn; lia]|]. intros r Hr.
      set (v := bval (x :: acc)) in *.
      assert (Hv : v < p2 m).
      { pose proof (bval_lt (x :: acc)). pose proof (@p2_le (length (x :: acc)) m ltac:(cbn; lia)). lia. }
      assert (Hv2 : v < 2 * d). { unfold v. cbn [bval]. pose proof (b2n_le x). lia. }
      pose proof (diffs_ge Hr Hv d_lt) as Hq.
      eapply pok_step; [apply bin_multiplex_plain; rewrite (proj1 Hr); cbn; lia|].
      set (acc' := if snd r then _ else _).
      assert (La : length acc' = S (length acc)).
      { unfold acc'. destruct (snd r); [|reflexivity]. rewrite firstn_length, (proj1 Hr). cbn [length]. lia. }
      assert (Va : bval acc' = v - d * N.b2n (snd r)).
      { unfold acc'. destruct (snd r) eqn:E; cbn [N.b2n].
        - symmetry in Hq. apply N.leb_le in Hq. rewrite bval_firstn, (diffs_val Hr Hq Hv), N.mul_1_r.
          apply N.mod_small. pose proof (bval_lt (x :: acc)) as Q. fold v in Q. lia.
        - fold v. lia. }
      eapply pok_bind.
      { apply IH; try assumption; [lia|]. rewrite Va, Hq. destruct (N.leb_spec d v); cbn [N.b2n]; lia. }
      intros qs (Lq & Vq). apply pok_ret. split; [cbn; congruence|].
      rewrite !bval_rev_cons, Lq. cbn [length]. rewrite p2_S.
      rewrite Va in Vq. rewrite (div_step (bval (rev xs)) (length xs) Hd Hq Hv2 Vq). f_equal. unfold v. cbn [bval]. lia.
  Qed.
  (** division by zero gives only ones *)
  Lemma div_loop_zero n xs : forall acc,
    d = 0 -> (n <= m)%nat -> (length acc + length xs <= n)%nat ->
    pok (div_loop sub n xs acc) (fun qs => qs = repeat true (length xs)).
  Proof.
    induction xs as [|x xs IH]; intros acc Hd Hn L; cbn [div_loop].
    - apply pok_ret. reflexivity.
    - cbn [length] in L. destruct (Nat.eqb_spec (length acc) n); [lia|].
      eapply pok_bind; [apply sub_ok; [congruence|cbn; lia]|]. intros r Hr.
      assert (Hv : bval (x :: acc) < p2 m).
      { pose proof (bval_lt (x :: acc)). pose proof (@p2_le (length (x :: acc)) m ltac:(cbn; lia)). lia. }
      pose proof (diffs_ge Hr Hv d_lt) as Hq. rewrite Hd, (proj2 (N.leb_le _ _)) in Hq by lia.
      eapply pok_step; [apply bin_multiplex_plain; rewrite (proj1 Hr); cbn; lia|].
      eapply pok_bind; [apply IH; try assumption|].
      { rewrite Hq, firstn_length, (proj1 Hr). cbn [length]. lia. }
      intros qs ->. apply pok_ret. rewrite Hq. reflexivity.
  Qed.
End DivLoop.

(** the quotient; all ones when the divisor is zero *)
Definition quotient (n : nat) (x d : N) : N := if d =? 0 then p2 n - 1 else x / d.
Lemma bval_ones n : bval (repeat true n) = p2 n - 1.
Proof. induction n as [|n IH]; cbn [repeat bval N.b2n]; rewrite ?p2_0, ?p2_S, ?IH; [reflexivity|]. pose proof (p2_pos n). lia. Qed.
Lemma rev_repeat {A} (a : A) n : rev (repeat a n) = repeat a n.
Proof.
  induction n as [|n IH]; [reflexivity|]. cbn [repeat rev]. rewrite IH.
  change [a] with (repeat a 1). rewrite <- repeat_app, Nat.add_comm. reflexivity.
Qed.

Section Div.
  Variables (sub : list bool -> gprog bool (list bool * bool)) (m : nat) (d : N).
  Hypothesis sub_ok : forall acc, acc <> [] -> (length acc <= m)%nat -> pok (sub acc) (diffs m (bval acc) d).
  Hypothesis d_lt : d < p2 m.
  Lemma div_ok xs : (length xs <= m)%nat ->
    pok (gbind (div_loop sub (length xs) (rev xs) []) (fun qs => GRet (rev qs)))
        (fun r => length r = length xs /\ bval r = quotient (length xs) (bval xs) d).
  Proof.
    intros L. unfold quotient. destruct (N.eqb_spec d 0) as [E|E].
    - eapply pok_bind; [apply (@div_loop_zero sub m d sub_ok d_lt); [exact E|exact L|rewrite rev_length; cbn; lia]|].
      intros qs ->. apply pok_ret. rewrite rev_repeat, repeat_length, rev_length, bval_ones. auto.
    - eapply pok_bind; [apply (@div_loop_ok sub m d sub_ok d_lt); [lia|exact L|rewrite rev_length; cbn; lia|cbn; lia]|].
      intros qs (Lq & Vq). apply pok_ret. rewrite rev_length in *. split; [exact Lq|].
      rewrite Vq, rev_involutive. f_equal.
  Qed.
End Div.

Lemma bin_div_ok xs ds : (length xs <= length ds)%nat ->
  pok (bin_div xs ds) (fun r => length r = length xs /\ bval r = quotient (length xs) (bval xs) (bval ds)).
Proof.
  intros L. unfold bin_div. apply (@div_ok _ (length ds)); [|apply bval_lt|exact L].
  intros acc Ha La. apply bin_subtraction_partial_ok; assumption.
Qed.
Lemma bin_div_by_public_ok xs ds : (length xs <= length ds)%nat ->
  pok (bin_div_by_public xs ds) (fun r => length r = length xs /\ bval r = quotient (length xs) (bval xs) (bval ds)).
Proof.
  intros L. unfold bin_div_by_public. apply (@div_ok _ (length ds)); [|apply bval_lt|exact L].
  intros acc Ha La. apply bin_subtraction_partial_by_constant_ok; assumption.
Qed.

(** division of a public dividend *)
Lemma shared_step (x : bool) acc d r m c (s := fst r) :
  diffs m (bval (x :: acc)) d r -> length (x :: acc) = m -> d < p2 m -> c = snd r ->
  length (if c then s else x :: acc) = m /\
  bval (if c then s else x :: acc) = bval (x :: acc) - d * N.b2n c /\
  c = (d <=? bval (x :: acc)).
Proof.
  intros Hr L Hd ->. pose proof (bval_lt (x :: acc)) as Hv. rewrite L in Hv.
  pose proof (diffs_ge Hr Hv Hd) as Hq. rewrite Hq. destruct (N.leb_spec d (bval (x :: acc))); cbn [N.b2n].
  - split; [apply Hr|]. split; [|reflexivity]. unfold s. rewrite (diffs_val Hr) by assumption. lia.
  - split; [exact L|]. split; [lia|reflexivity].
Qed.
Lemma div_shared_loop_ok ds xs : forall i acc, let d := bval ds in
  0 < d -> length acc = length ds -> bval acc < d -> bval acc < p2 i -> (i + length xs <= length ds)%nat ->
  pok (div_shared_loop ds xs acc)
      (fun qs => length qs = length xs /\ bval (rev qs) = (bval acc * p2 (length xs) + bval (rev xs)) / d).
Proof.
  induction xs as [|x xs IH]; intros i acc d Hd L HR Hi Hb; cbn [div_shared_loop].
  - apply pok_ret. split; [reflexivity|]. cbn [rev bval length]. rewrite p2_0, N.div_small; lia.
  - cbn [length] in Hb. rewrite L, Nat.eqb_refl. set (acc0 := removelast acc).
    assert (La0 : S (length acc0) = length ds).
    { unfold acc0. rewrite removelast_length. lia. }
    assert (Va0 : bval acc0 = bval acc).
    { unfold acc0. assert (Hne : acc <> []) by (intros ->; cbn in L; lia).
      pose proof (@bval_last acc false Hne) as Hl. rewrite L in Hl.
      pose proof (@p2_le i (pred (length ds)) ltac:(lia)).
      destruct (last acc false); cbn [N.b2n] in Hl; lia. }
    eapply (@pok_step _ _ _ x); [destruct x; reflexivity|].
    assert (Hds : length ds = length (x :: acc0)) by (cbn [length]; lia).
    eapply pok_bind; [apply bin_subtraction_ok; [congruence|exact Hds]|]. intros [s c] Hr. cbn [fst snd].
    assert (Hlen : length s = S (length acc0)) by exact (proj1 Hr).
    destruct s as [|r0 res]; [discriminate|].
    destruct (shared_step Hr eq_refl ltac:(rewrite <- Hds; apply bval_lt) eq_refl) as (Ln & Vn & Hq).
    eapply pok_step; [apply mux_const_plain|].
    eapply pok_step; [apply bin_multiplex_plain; cbn in Hlen; lia|].
    set (nacc := (if c then r0 else x) :: _).
    assert (En : nacc = if c then r0 :: res else x :: acc0).
    { unfold nacc. destruct c; [|reflexivity]. f_equal. apply firstn_all2. cbn in Hlen. lia. }
    cbn [fst snd] in *. rewrite <- En in Ln, Vn. rewrite <- Hds in Ln.
    assert (Ev : bval (x :: acc0) = N.b2n x + 2 * bval acc) by (cbn [bval]; lia).
    fold d in Vn, Hq. rewrite Ev in Vn, Hq.
    pose proof (b2n_le x).
    eapply pok_bind.
    { apply (IH (S i)); try assumption; try lia.
      - fold d. rewrite Vn, Hq. destruct (N.leb_spec d (N.b2n x + 2 * bval acc)); cbn [N.b2n]; lia.
      - rewrite Vn, p2_S. lia. }
    intros qs (Lq & Vq). apply pok_ret. split; [cbn; congruence|]. fold d in Vq.
    rewrite !bval_rev_cons, Lq. cbn [length]. rewrite p2_S.
    rewrite Vn in Vq. rewrite (@div_step d (N.b2n x + 2 * bval acc) c (bval (rev xs)) _ (length xs) Hd Hq ltac:(lia) Vq).
    f_equal. lia.
Qed.
Lemma div_shared_loop_zero ds xs : forall acc,
  bval ds = 0 -> length acc = length ds -> ds <> [] ->
  pok (div_shared_loop ds xs acc) (fun qs => qs = repeat true (length xs)).
Proof.
  induction xs as [|x xs IH]; intros acc Hd L Hds; cbn [div_shared_loop].
  - apply pok_ret. reflexivity.
  - rewrite L, Nat.eqb_refl. set (acc0 := removelast acc).
    assert (La0 : length ds = length (x :: acc0)).
    { unfold acc0. cbn [length]. rewrite removelast_length. destruct ds; [congruence|]. cbn [length] in *. lia. }
    eapply (@pok_step _ _ _ x); [destruct x; reflexivity|].
    eapply pok_bind; [apply bin_subtraction_ok; [congruence|exact La0]|]. intros [s c] Hr. cbn [fst snd].
    assert (Hlen : length s = S (length acc0)) by exact (proj1 Hr).
    destruct s as [|r0 res]; [discriminate|].
    destruct (shared_step Hr eq_refl ltac:(rewrite <- La0; apply bval_lt) eq_refl) as (Ln & Vn & Hq).
    cbn [fst snd] in *.
    rewrite Hd, (proj2 (N.leb_le _ _)) in Hq by lia. subst c.
    eapply pok_step; [apply mux_const_plain|].
    eapply pok_step; [apply bin_multiplex_plain; cbn in Hlen; lia|].
    eapply pok_bind; [apply IH; try assumption|].
    { rewrite La0. cbn [length]. f_equal. rewrite firstn_length. cbn in Hlen. lia. }
    intros qs ->. apply pok_ret. reflexivity.
Qed.
Lemma bin_div_by_shared_ok xs ds : xs <> [] -> (length xs <= length ds)%nat ->
  pok (bin_div_by_shared xs ds) (fun r => length r = length xs /\ bval r = quotient (length xs) (bval xs) (bval ds)).
Proof.
  intros Hne L. unfold bin_div_by_shared. destruct (rev xs) as [|x rx] eqn:Er.
  { apply (f_equal (@rev bool)) in Er. rewrite rev_involutive in Er. cbn in Er. congruence. }
  destruct ds as [|d0 dtl]; [destruct xs; [congruence|cbn in L; lia]|]. set (ds := d0 :: dtl) in *.
  assert (Ex : xs = rev (x :: rx)) by (rewrite <- Er, rev_involutive; reflexivity).
  assert (Lx : length xs = S (length rx)) by (rewrite Ex, rev_length; reflexivity).
  set (acc0 := repeat false (length dtl)).
  assert (La : length (x :: acc0) = length ds) by (cbn; unfold acc0; rewrite repeat_length; reflexivity).
  assert (V0 : bval (x :: acc0) = N.b2n x) by (cbn [bval]; unfold acc0; rewrite bval_repeat; lia).
  eapply pok_bind; [apply bin_subtraction_partial_from_constant_ok; [congruence|lia]|]. intros r Hr.
  destruct (shared_step Hr La (bval_lt ds) eq_refl) as (Ln & Vn & Hq).
  eapply pok_step; [apply bin_multiplex_const_plain; rewrite (proj1 Hr), La; lia|].
  set (acc := if snd r then firstn _ _ else _).
  assert (Eacc : acc = if snd r then fst r else x :: acc0).
  { unfold acc. destruct (snd r); [|reflexivity]. apply firstn_all2. rewrite (proj1 Hr), La. lia. }
  rewrite <- Eacc in Ln, Vn. rewrite V0 in Vn, Hq. pose proof (b2n_le x).
  unfold quotient. destruct (N.eqb_spec (bval ds) 0) as [E|E].
  - eapply pok_bind; [apply div_shared_loop_zero; [exact E|exact Ln|unfold ds; congruence]|]. intros qs ->.
    rewrite E, (proj2 (N.leb_le _ _)) in Hq by lia. rewrite Hq. apply pok_ret.
    change (true :: repeat true (length rx)) with (repeat true (S (length rx))).
    rewrite rev_repeat, <- Lx, repeat_length, bval_ones. auto.
  - eapply pok_bind.
    { apply (@div_shared_loop_ok ds rx 1 acc); try assumption; try lia.
      - rewrite Vn, Hq. destruct (N.leb_spec (bval ds) (N.b2n x)); cbn [N.b2n]; lia.
      - rewrite Vn, p2_S, p2_0. lia. }
    intros qs (Lq & Vq). apply pok_ret. rewrite rev_length. split; [cbn; lia|].
    rewrite Ex, !bval_rev_cons, Lq. rewrite Vn in Vq.
    rewrite (@div_step (bval ds) (N.b2n x) (snd r) (bval (rev rx)) _ (length rx) ltac:(lia) Hq ltac:(lia) Vq). f_equal. lia.
Qed.
