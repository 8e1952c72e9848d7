(** * Univariate polynomials in evaluation form (co-noir)

    Models co-noir/co-noir-common/src/barycentric.rs and co-noir/ultrahonk/src/decider/univariate.rs:57-213:
    extension of the values at 0, ..., n-1 to more points, and evaluation at any point.

    Simplifications: the tables of barycentric.rs are computed where they are used; arrays of fixed size are
    lists. *)
From Coq Require Import String List Arith Lia Bool Ring.
From Verif Require Import Proc Alg NNet Rep3 ShamirPoly Shamir ShamirAlg.
Import ListNotations.
Set Implicit Arguments.
Local Open Scope grp_scope.
Local Open Scope string_scope.
Local Open Scope list_scope.

Section Univariate.
  Context {F : Type} {FF : Fld F}.
  Add Ring FringU : (@cring_theory F _).
  Infix "*" := rmul : grp_scope.
  Notation "1" := rone : grp_scope.

  (** ** barycentric.rs *)
  (** barycentric.rs:21-37 [construct_lagrange_denominators], the [i]-th *)
  Definition lagrange_denominator (n i : nat) : F :=
    fold_left (fun r j => if (i =? j)%nat then r else r * (fnat i - fnat j)) (seq 0 n) 1.
  (** barycentric.rs:98-116 [construct_full_numerator_values], for the point [x] *)
  Definition full_numerator (n : nat) (x : F) : F := fold_left (fun r j => r * (x - fnat j)) (seq 0 n) 1.
  (** co-noir-common/src/utils.rs:20-22: [batch_inversion] of ark-ff leaves zeros *)
  Definition inv0 (x : F) : F := if feqb x 0 then 0 else finv x.
  (** barycentric.rs:42-63 [construct_denominator_inverses], for the points [k] and [j] *)
  Definition denominator_inverse (n k j : nat) : F := inv0 (lagrange_denominator n j * (fnat k - fnat j)).

  (** ** univariate.rs *)
  (** univariate.rs:64-68: two values; [c] new values, the last one is [last] *)
  Fixpoint ext2 (c : nat) (last delta : F) : list F :=
    match c with O => [] | S c => let e := last + delta in e :: ext2 c e delta end.
  (** univariate.rs:81-84: three values *)
  Fixpoint ext3 (c : nat) (last extra a2 : F) : list F :=
    match c with O => [] | S c => let e := last + extra in e :: ext3 c e (extra + a2) a2 end.
  (** univariate.rs:142-149: four values *)
  Fixpoint ext4 (c : nat) (last isq xa lin three_a six_a three_a_two_b : F) : list F :=
    match c with
    | O => []
    | S c => let e := last + isq + lin in
        e :: ext4 c e (isq + (xa + three_a)) (xa + six_a) (lin + three_a_two_b) three_a six_a three_a_two_b
    end.
  (** univariate.rs:151-173: the other lengths, the value at [k] *)
  Definition bary_value (poly : list F) (k : nat) : F :=
    let n := length poly in
    fold_left (fun e j => e + nth j poly 0 * denominator_inverse n k j) (seq 0 n) 0 * full_numerator n (fnat k).
  (** univariate.rs:57-175 [extend_from] *)
  Definition extend_from (SIZE : nat) (poly : list F) : outcome (list F) :=
    if (SIZE <? length poly)%nat then Failed (Panic "length <= extended_length") else
    let more := (SIZE - length poly)%nat in
    match poly with
    | [p0; p1] => Done (poly ++ ext2 more p1 (p1 - p0))
    | [p0; p1; p2] =>
        if feqb (fnat 2) 0 then Failed (Panic "inverse of 2") else
        let inverse_two := finv (fnat 2) in
        let a := (p2 + p0) * inverse_two - p1 in
        let b := p1 - a - p0 in
        let a2 := a + a in
        let a_mul := a2 + a2 in
        Done (poly ++ ext3 more p2 (a_mul + a + b) a2)
    | [p0; p1; p2; p3] =>
        if feqb (fnat 6) 0 then Failed (Panic "inverse of 6") else
        let inverse_six := finv (fnat 6) in
        let zero_times_3 := p0 + p0 + p0 in
        let zero_times_6 := zero_times_3 + zero_times_3 in
        let zero_times_12 := zero_times_6 + zero_times_6 in
        let one_times_3 := p1 + p1 + p1 in
        let one_times_6 := one_times_3 + one_times_3 in
        let two_times_3 := p2 + p2 + p2 in
        let three_times_2 := p3 + p3 in
        let three_times_3 := three_times_2 + p3 in
        let one_minus_two_times_3 := one_times_3 - two_times_3 in
        let one_minus_two_times_6 := one_minus_two_times_3 + one_minus_two_times_3 in
        let one_minus_two_times_12 := one_minus_two_times_6 + one_minus_two_times_6 in
        let a := (one_minus_two_times_3 + p3 - p0) * inverse_six in
        let b := (zero_times_6 - one_minus_two_times_12 - one_times_3 - three_times_3) * inverse_six in
        let c := (p0 - zero_times_12 + one_minus_two_times_12 + one_times_6 + two_times_3 + three_times_2) * inverse_six in
        let a_plus_b := a + b in
        let a_plus_b_times_2 := a_plus_b + a_plus_b in
        let three_a := a + a + a in
        let six_a := three_a + three_a in
        let three_a_plus_two_b := a_plus_b_times_2 + a in
        let linear_term := fnat 3 * three_a_plus_two_b + (a_plus_b + c) in
        Done (poly ++ ext4 more p3 (fnat 27 * a) (fnat 18 * a) linear_term three_a six_a three_a_plus_two_b)
    | _ => Done (poly ++ map (bary_value poly) (seq (length poly) more))
    end.
  (** univariate.rs:180-213 [evaluate] of a univariate with the given values; [F::one() / 0] panics (ark-ff) *)
  Definition evaluate (evals : list F) (u : F) : outcome F :=
    let n := length evals in
    if feqb u 0 then match evals with [] => Failed (Panic "index") | e :: _ => Done e end else
    if existsb (fun i => feqb (lagrange_denominator n i * (u - fnat i)) 0) (seq 0 n) then Failed (Panic "division by zero") else
    Done (fold_left (fun r i => r + nth i evals 0 * finv (lagrange_denominator n i * (u - fnat i))) (seq 0 n) 0 * full_numerator n u).

  (** ** Proofs *)
  Lemma smulU (a b : F) : smul a b = a * b.
  Proof. reflexivity. Qed.
  (** the values of the polynomial [c] at 0, ..., n-1 *)
  Definition values (c : list F) (n : nat) : list F := map (fun k => peval c (fnat k)) (seq 0 n).
  (** different numbers below [n] are different field elements *)
  Definition wide (n : nat) : Prop := NoDup (map fnat (seq 0 n) : list F).

  Lemma nth_values c n k : k < n -> nth k (values c n) 0 = peval c (fnat k).
  Proof.
    intros L. unfold values. rewrite (nth_indep _ 0 (peval c (fnat 0))) by (rewrite map_length, seq_length; exact L).
    rewrite (map_nth (fun k => peval c (fnat k))), seq_nth by exact L. reflexivity.
  Qed.
  Lemma length_values c n : length (values c n) = n.
  Proof. unfold values. rewrite map_length, seq_length. reflexivity. Qed.
  Lemma wide_le n m : m <= n -> wide n -> wide m.
  Proof.
    intros L W. unfold wide in *. replace n with (m + (n - m))%nat in W by lia. rewrite seq_app, map_app in W.
    revert W. generalize (map fnat (seq (0 + m) (n - m)) : list F). generalize (map fnat (seq 0 m) : list F). clear. intros l r.
    induction l as [|x l IH]; intros ND; [constructor|]. cbn [app] in ND. inversion ND as [|y z N1 N2]; subst. constructor; [|exact (IH N2)].
    intros Hi. apply N1. apply in_or_app. left. exact Hi.
  Qed.
  Lemma wide_neq n i j : wide n -> i < n -> j < n -> i <> j -> fnat i <> (fnat j : F).
  Proof.
    intros W Li Lj Hne E. apply Hne. unfold wide in W. rewrite NoDup_nth with (d := fnat 0) in W. rewrite map_length, seq_length in W.
    apply W; [exact Li|exact Lj|]. rewrite !map_nth, !seq_nth by lia. exact E.
  Qed.
  Lemma den_fprod i l : forall a, fold_left (fun r j => if (i =? j)%nat then r else r * (fnat i - fnat j)) l a = a * fprod i (fun j => fnat i - fnat j) l.
  Proof. induction l as [|j l IH]; intros a; cbn [fold_left fprod]; [ring|]. destruct (i =? j)%nat; rewrite IH; ring. Qed.
  Lemma lagrange_denominator_ok n i : lagrange_denominator n i = fprod i (fun j => fnat i - fnat j) (seq 0 n).
  Proof. unfold lagrange_denominator. rewrite den_fprod. ring. Qed.
  Lemma numerator_fold x l : forall a : F, fold_left (fun r j => r * (x - fnat j)) l a = a * fold_left (fun r j => r * (x - fnat j)) l 1.
  Proof.
    induction l as [|j l IH]; intros a; cbn [fold_left]; [ring|]. rewrite IH, (IH (1 * (x - fnat j))). ring.
  Qed.
  Lemma numerator_split i x l : NoDup l -> In i l -> fold_left (fun r j => r * (x - fnat j)) l 1 = (x - fnat i) * fprod i (fun j => x - fnat j) l.
  Proof.
    assert (K : forall l, ~ In i l -> fold_left (fun r j => r * (x - fnat j)) l 1 = fprod i (fun j => x - fnat j) l).
    { clear l. induction l as [|j l IH]; intros Hn; cbn [fold_left fprod]; [reflexivity|]. rewrite numerator_fold, IH by (intros Hi; apply Hn; right; exact Hi).
      destruct (Nat.eqb_spec i j) as [->|_]; [exfalso; apply Hn; left; reflexivity|]. ring. }
    induction l as [|j l IH]; intros ND Hi; [contradiction|]. inversion ND as [|y z N1 N2]; subst. cbn [fold_left fprod]. rewrite numerator_fold.
    destruct (Nat.eqb_spec i j) as [->|Hne]; [rewrite K by exact N1; ring|]. destruct Hi as [->|Hi]; [contradiction|]. rewrite IH by assumption. ring.
  Qed.
  (** a term of the barycentric formula *)
  Lemma bary_term n i x : wide n -> i < n -> x <> fnat i ->
    finv (lagrange_denominator n i * (x - fnat i)) * full_numerator n x = peval (lag_poly (seq 0 n) i) x.
  Proof.
    intros W Li Hx. assert (Hi : In i (seq 0 n)) by (apply in_seq; lia).
    destruct (precompute_one_ok i (W : points (seq 0 n)) Hi) as (_ & _ & L2 & L3). rewrite L3.
    rewrite lagrange_denominator_ok. unfold full_numerator. rewrite (@numerator_split i x _ (seq_NoDup n 0) Hi).
    set (d := fprod i (fun j => fnat i - fnat j) (seq 0 n)) in *. set (q := fprod i (fun j => x - fnat j) (seq 0 n)).
    assert (Hy : x - fnat i <> 0) by (apply fsub_neq; exact Hx).
    rewrite rmul_comm. apply fdiv_eq; [apply fmul_neq; assumption|exact L2|]. ring.
  Qed.
  Lemma fold_add_sumn {A} (f : A -> F) l : forall a, fold_left (fun r i => r + f i) l a = a + fold_left gadd (map f l) 0.
  Proof.
    induction l as [|i l IH]; intros a; cbn [fold_left map]; [ring|]. rewrite IH. rewrite !fold_sumn. ring.
  Qed.
  Lemma fold_seq_sumn (f : nat -> F) n : fold_left (fun r i => r + f i) (seq 0 n) 0 = sumn n f.
  Proof.
    rewrite fold_add_sumn, fold_sumn, map_length, seq_length, !gadd_0. apply sumn_ext. intros k L.
    rewrite (nth_indep _ 0 (f O)) by (rewrite map_length, seq_length; exact L). rewrite map_nth, seq_nth by exact L. reflexivity.
  Qed.
  Lemma sumn_mul_r n (f : nat -> F) c : sumn n f * c = sumn n (fun k => f k * c).
  Proof. induction n as [|n IH]; cbn [sumn]; [ring|]. rewrite <- IH. ring. Qed.
  (** the barycentric formula *)
  Lemma bary_sum n c x : wide n -> length c <= n -> (forall i, i < n -> x <> fnat i) ->
    sumn n (fun i => peval c (fnat i) * finv (lagrange_denominator n i * (x - fnat i))) * full_numerator n x = peval c x.
  Proof.
    intros W Lc Hx. rewrite sumn_mul_r.
    assert (Lx : length (map fnat (seq 0 n) : list F) = n) by (rewrite map_length, seq_length; reflexivity).
    pose proof (interp_unique c x (L := fun k => lag_poly (seq 0 n) (nth k (seq 0 n) O)) (W : points (seq 0 n)) (lag_basis (W : points (seq 0 n)))) as K.
    rewrite Lx in K. rewrite <- (K Lc). apply sumn_ext. intros k Lk. rewrite seq_nth by exact Lk. cbn [Nat.add].
    rewrite <- (bary_term W Lk (Hx k Lk)).
    rewrite (nth_indep _ 0 (fnat 0)) by (rewrite Lx; exact Lk). rewrite map_nth, seq_nth by exact Lk. cbn [Nat.add].
    match goal with |- ?l = smul ?a ?b => change (smul a b) with (a * b) end. ring.
  Qed.

  (** [evaluate] of the values of a polynomial is its value *)
  Lemma evaluate_ok n c u : wide n -> length c <= n -> 1 <= n -> (forall i, 1 <= i < n -> u <> fnat i) -> evaluate (values c n) u = Done (peval c u).
  Proof.
    intros W Lc Ln Hu. unfold evaluate. rewrite length_values. destruct (feqb u 0) eqn:E0.
    - apply feqb_spec in E0. subst u. destruct n as [|n]; [lia|]. reflexivity.
    - assert (Hx : forall i, i < n -> u <> fnat i).
      { intros [|i] L; [|apply Hu; lia]. intros ->. cbn [fnat] in E0. rewrite feqb_refl in E0. discriminate. }
      destruct (existsb _ _) eqn:Ex.
      + exfalso. apply existsb_exists in Ex as (i & Hi & E). apply in_seq in Hi. apply feqb_spec in E.
        assert (Li : i < n) by lia. assert (Hi' : In i (seq 0 n)) by (apply in_seq; lia).
        destruct (precompute_one_ok i (W : points (seq 0 n)) Hi') as (_ & _ & L2 & _). rewrite lagrange_denominator_ok in E.
        exact (fmul_neq L2 (fsub_neq (Hx i Li)) E).
      + f_equal. rewrite (fold_seq_sumn (fun i => nth i (values c n) 0 * finv (lagrange_denominator n i * (u - fnat i)))).
        rewrite <- (@bary_sum n c u W Lc Hx). f_equal. apply sumn_ext. intros k Lk. rewrite nth_values by exact Lk. reflexivity.
  Qed.
  (** at the other points of the domain it panics *)
  Lemma evaluate_panics evals i : wide (length evals) -> 1 <= i < length evals -> evaluate evals (fnat i) = Failed (Panic "division by zero").
  Proof.
    intros W L. unfold evaluate. destruct (feqb (fnat i) 0) eqn:E0.
    { apply feqb_spec in E0. exfalso. apply (@wide_neq (length evals) i 0 W); [lia|lia|lia|]. exact E0. }
    replace (existsb _ _) with true; [reflexivity|]. symmetry. apply existsb_exists. exists i. split; [apply in_seq; lia|]. apply feqb_spec. ring.
  Qed.


  (** *** Extension *)
  Lemma low (c : list F) x n : length c <= n -> n <= 4 ->
    peval c x = nth 0 c 0 + x * (nth 1 c 0 + x * (nth 2 c 0 + x * nth 3 c 0)) /\ forall k, n <= k -> nth k c 0 = 0.
  Proof.
    intros L N4. split; [|intros k Lk; apply nth_overflow; lia].
    destruct c as [|c0 [|c1 [|c2 [|c3 [|c4 c]]]]]; cbn [length] in L; try lia; cbn [peval nth]; rewrite ?smulU; try ring.
  Qed.
  Lemma values_split c n m : n <= m -> values c m = values c n ++ map (fun k => peval c (fnat k)) (seq n (m - n)).
  Proof. intros L. unfold values. replace m with (n + (m - n))%nat at 1 by lia. rewrite seq_app, map_app. reflexivity. Qed.
  Lemma ext2_vals a b : forall m k d, d = b -> ext2 m (a + fnat k * b) d = map (fun j => a + fnat j * b) (seq (S k) m).
  Proof.
    induction m as [|m IH]; intros k d ->; cbn [ext2 seq map]; [reflexivity|].
    replace (a + fnat k * b + b) with (a + fnat (S k) * b) by (cbn [fnat]; ring). rewrite IH by reflexivity. reflexivity.
  Qed.
  Lemma ext3_vals c0 c1 c2 : forall m k extra a2, extra = c2 * (fnat k + fnat k + 1) + c1 -> a2 = c2 + c2 ->
    ext3 m (c0 + fnat k * (c1 + fnat k * c2)) extra a2 = map (fun j => c0 + fnat j * (c1 + fnat j * c2)) (seq (S k) m).
  Proof.
    induction m as [|m IH]; intros k e a2 -> ->; cbn [ext3 seq map]; [reflexivity|].
    replace (c0 + fnat k * (c1 + fnat k * c2) + (c2 * (fnat k + fnat k + 1) + c1)) with (c0 + fnat (S k) * (c1 + fnat (S k) * c2)) by (cbn [fnat]; ring).
    rewrite IH; [reflexivity|cbn [fnat]; ring|reflexivity].
  Qed.
  Lemma ext4_vals c0 c1 c2 c3 : forall m k isq xa lin ta sa tb,
    isq = (1 + 1 + 1) * fnat k * fnat k * c3 -> xa = (1 + 1 + 1 + 1 + 1 + 1) * fnat k * c3 ->
    lin = fnat k * ((1 + 1 + 1) * c3 + c2 + c2) + (c3 + c2 + c1) -> ta = c3 + c3 + c3 -> sa = (1 + 1) * (c3 + c3 + c3) -> tb = (1 + 1 + 1) * c3 + c2 + c2 ->
    ext4 m (c0 + fnat k * (c1 + fnat k * (c2 + fnat k * c3))) isq xa lin ta sa tb = map (fun j => c0 + fnat j * (c1 + fnat j * (c2 + fnat j * c3))) (seq (S k) m).
  Proof.
    induction m as [|m IH]; intros k isq xa lin ta sa tb -> -> -> -> -> ->; cbn [ext4 seq map]; [reflexivity|].
    match goal with |- ?e :: _ = ?f :: _ => assert (E : e = f) by (cbn [fnat]; ring); rewrite E end. f_equal.
    apply IH; cbn [fnat]; ring.
  Qed.
  Lemma half_ok (x : F) : fnat 2 <> (0 : F) -> (x + x) * finv (fnat 2) = x.
  Proof.
    intros H. transitivity (x * (finv (fnat 2) * fnat 2)); [cbn [fnat]; ring|]. rewrite finv_l by exact H. ring.
  Qed.
  Lemma sixth_ok (x y : F) : fnat 6 <> (0 : F) -> y = fnat 6 * x -> y * finv (fnat 6) = x.
  Proof.
    intros H ->. transitivity (x * (finv (fnat 6) * fnat 6)); [ring|]. rewrite finv_l by exact H. ring.
  Qed.
  (** extension to more points of the values of a polynomial *)
  Lemma extend_ok SIZE n c : wide SIZE -> length c <= n -> n <= SIZE -> extend_from SIZE (values c n) = Done (values c SIZE).
  Proof.
    intros W Lc Ln. rewrite (@values_split c n SIZE Ln). unfold extend_from. rewrite length_values.
    replace (SIZE <? n)%nat with false by (symmetry; apply Nat.ltb_ge; exact Ln).
    assert (B : Done (values c n ++ map (bary_value (values c n)) (seq n (SIZE - n))) = Done (values c n ++ map (fun k => peval c (fnat k)) (seq n (SIZE - n)))).
    { do 2 f_equal. apply map_ext_in. intros k Hk. apply in_seq in Hk. unfold bary_value. rewrite length_values.
      assert (Hx : forall i, i < n -> (fnat k : F) <> fnat i) by (intros i Li; apply (@wide_neq SIZE); [exact W|lia|lia|lia]).
      rewrite (fold_seq_sumn (fun j => nth j (values c n) 0 * denominator_inverse n k j)).
      rewrite <- (@bary_sum n c (fnat k) (wide_le Ln W) Lc Hx). f_equal. apply sumn_ext. intros j Lj. rewrite nth_values by exact Lj.
      unfold denominator_inverse, inv0. rewrite feqb_0; [reflexivity|]. rewrite lagrange_denominator_ok. apply fmul_neq; [|apply fsub_neq; apply Hx; exact Lj].
      assert (Hj : In j (seq 0 n)) by (apply in_seq; lia). exact (proj1 (proj2 (proj2 (precompute_one_ok j (wide_le Ln W : points (seq 0 n)) Hj)))). }
    destruct n as [|[|[|[|[|n]]]]]; [exact B|exact B| | | |exact B]; clear B.
    - assert (P : forall j, peval c (fnat j) = nth 0 c 0 + fnat j * nth 1 c 0).
      { intros j. destruct (@low c (fnat j) 2 Lc ltac:(lia)) as [-> Z]. rewrite (Z 2), (Z 3) by lia. ring. }
      unfold values. cbn [map seq]. do 2 f_equal. 
      rewrite (P O), (P (S O)). rewrite (@ext2_vals (nth 0 c 0) (nth 1 c 0)) by (cbn [fnat]; ring).
      apply map_ext. intros j. symmetry. apply P.
    - assert (H2 : fnat 2 <> (0 : F)) by (apply (@wide_neq SIZE 2 0 W); lia).
      assert (P : forall j, peval c (fnat j) = nth 0 c 0 + fnat j * (nth 1 c 0 + fnat j * nth 2 c 0)).
      { intros j. destruct (@low c (fnat j) 3 Lc ltac:(lia)) as [-> Z]. rewrite (Z 3) by lia. ring. }
      unfold values. cbn [map seq]. rewrite (feqb_0 H2). do 2 f_equal. rewrite (P O), (P (S O)), (P 2).
      set (c0 := nth 0 c 0) in *. set (c1 := nth 1 c 0) in *. set (c2 := nth 2 c 0) in *.
      assert (Ea : (c0 + fnat 2 * (c1 + fnat 2 * c2) + (c0 + fnat 0 * (c1 + fnat 0 * c2))) * finv (fnat 2) - (c0 + fnat 1 * (c1 + fnat 1 * c2)) = c2).
      { transitivity ((c0 + c1 + c2 + c2 + (c0 + c1 + c2 + c2)) * finv (fnat 2) - (c0 + c1 + c2)).
        - assert (Ee : forall x y z w : F, x = y -> z = w -> x * finv (fnat 2) - z = y * finv (fnat 2) - w) by (intros x y z w -> ->; reflexivity).
          apply Ee; cbn [fnat]; ring.
        - rewrite (half_ok _ H2). ring. }
      rewrite Ea. rewrite (@ext3_vals c0 c1 c2) by (cbn [fnat]; ring). apply map_ext. intros j. symmetry. apply P.
    - assert (H6 : fnat 6 <> (0 : F)).
      { assert (H2 : fnat 2 <> (0 : F)) by (apply (@wide_neq SIZE 2 0 W); lia). assert (H3 : fnat 3 <> (0 : F)) by (apply (@wide_neq SIZE 3 0 W); lia).
        replace (fnat 6 : F) with (fnat 2 * fnat 3 : F) by (cbn [fnat]; ring). apply fmul_neq; assumption. }
      assert (P : forall j, peval c (fnat j) = nth 0 c 0 + fnat j * (nth 1 c 0 + fnat j * (nth 2 c 0 + fnat j * nth 3 c 0))).
      { intros j. destruct (@low c (fnat j) 4 Lc ltac:(lia)) as [-> _]. reflexivity. }
      unfold values. cbn [map seq]. rewrite (feqb_0 H6). do 2 f_equal. rewrite (P O), (P (S O)), (P 2), (P 3).
      set (c0 := nth 0 c 0) in *. set (c1 := nth 1 c 0) in *. set (c2 := nth 2 c 0) in *. set (c3 := nth 3 c 0) in *.
      cbv zeta.
      match goal with |- ext4 _ _ (fnat 27 * (?A * _)) _ (_ * (?a + ?b + (?a + ?b) + ?a) + (?a + ?b + ?cc)) _ _ _ = _ =>
        assert (Ea : a = c3) by (apply (sixth_ok _ H6); cbn [fnat]; ring); assert (Eb : b = c2) by (apply (sixth_ok _ H6); cbn [fnat]; ring);
        assert (Ec : cc = c1) by (apply (sixth_ok _ H6); cbn [fnat]; ring); rewrite Ea, Eb, Ec end.
      rewrite (@ext4_vals c0 c1 c2 c3) by (cbn [fnat]; ring). apply map_ext. intros j. symmetry. apply P.
  Qed.
  (** through any values there is a polynomial *)
  Lemma interpolation vals : wide (length vals) -> exists c, length c <= length vals /\ values c (length vals) = vals.
  Proof.
    intros W. set (n := length vals) in *. exists (psum n (fun k => pouter (lag_poly (seq 0 n) k) (nth k vals 0))).
    assert (Lx : length (map fnat (seq 0 n) : list F) = n) by (rewrite map_length, seq_length; reflexivity). split.
    - apply length_psum. intros k Lk. unfold pouter. rewrite map_length.
      assert (Hk : In k (seq 0 n)) by (apply in_seq; lia). rewrite (proj1 (proj2 (precompute_one_ok k (W : points (seq 0 n)) Hk))), seq_length. lia.
    - apply (nth_ext _ _ 0 0); [apply length_values|]. rewrite length_values. intros j Lj. rewrite nth_values by exact Lj. rewrite peval_psum.
      pose proof (interp_points (fun k => nth k vals 0) (j := j) (lag_basis (W : points (seq 0 n)))) as K. rewrite Lx in K.
      rewrite <- (K Lj). apply sumn_ext. intros k Lk. rewrite peval_pouter. rewrite seq_nth by exact Lk. cbn [Nat.add].
      rewrite (nth_indep (map fnat (seq 0 n)) 0 (fnat 0)) by (rewrite Lx; exact Lj). rewrite map_nth, seq_nth by exact Lj. reflexivity.
  Qed.
End Univariate.
