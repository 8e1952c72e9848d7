(** * The polynomial functions of shamir.rs compute Lagrange interpolation *)
From Coq Require Import String List Arith Lia Bool Ring.
From Verif Require Import Proc Alg NNet Rep3 ShamirPoly Shamir.
Import ListNotations.
Set Implicit Arguments.
Local Open Scope grp_scope.

Section Alg.
  Context {F : Type} {FF : Fld F}.
  Add Ring FringA : (@cring_theory F _).
  Infix "*" := rmul : grp_scope.
  Notation "1" := rone : grp_scope.

  (** ** Field facts *)
  Lemma fmul_neq (x y : F) : x <> 0 -> y <> 0 -> x * y <> 0.
  Proof.
    intros Hx Hy E. apply Hy. replace y with (1 * y) by ring. rewrite <- (finv_l _ Hx).
    replace (finv x * x * y) with (finv x * (x * y)) by ring. rewrite E. ring.
  Qed.
  Lemma finv_r (x : F) : x <> 0 -> x * finv x = 1.
  Proof. intros H. rewrite rmul_comm. apply finv_l. exact H. Qed.
  Lemma feqb_0 (x : F) : x <> 0 -> feqb x 0 = false.
  Proof. intros H. destruct (feqb x 0) eqn:E; [|reflexivity]. apply feqb_spec in E. contradiction. Qed.
  Lemma feqb_refl (x : F) : feqb x x = true.
  Proof. apply feqb_spec. reflexivity. Qed.
  Lemma fdiv_eq (a b c d : F) : b <> 0 -> d <> 0 -> a * d = c * b -> a * finv b = c * finv d.
  Proof.
    intros Hb Hd E. transitivity (a * finv b * (d * finv d)); [rewrite finv_r by exact Hd; ring|].
    replace (a * finv b * (d * finv d)) with (a * d * finv b * finv d) by ring. rewrite E.
    replace (c * b * finv b * finv d) with (c * (b * finv b) * finv d) by ring. rewrite finv_r by exact Hb. ring.
  Qed.

  (** ** [evaluate_poly] *)
  Section Ev.
    Context {G : Type} {AG : AbGrp G} {MD : Mod F G}.
    Lemma eval_fold (c : list G) x : forall top,
      fold_left (fun e a => smul x e + a) (rev c) top = peval (c ++ [top]) x.
    Proof.
      induction c as [|a c IH]; intros top; cbn [rev app peval fold_left].
      - rewrite smul_0_r. symmetry. apply gadd_0_r.
      - rewrite fold_left_app, IH. cbn [fold_left]. apply gadd_comm.
    Qed.
    Lemma evaluate_poly_ok (c : list G) x : evaluate_poly c x = peval c x.
    Proof.
      unfold evaluate_poly. destruct (rev c) as [|top iter] eqn:E.
      - apply (f_equal (@rev G)) in E. rewrite rev_involutive in E. subst c. reflexivity.
      - assert (Ec : c = rev iter ++ [top]).
        { apply (f_equal (@rev G)) in E. rewrite rev_involutive in E. exact E. }
        rewrite Ec, <- eval_fold, rev_involutive. reflexivity.
    Qed.
    (** ** [reconstruct] *)
    Lemma reconstruct_ok (s : list G) l : length s = length l ->
      reconstruct s l = sumn (length s) (fun k => smul (nth k l 0) (nth k s 0)).
    Proof.
      intros E. unfold reconstruct.
      assert (K : forall s l a, length s = length l ->
                fold_left (fun res sl => res + smul (snd sl) (fst sl)) (List.combine s l) a
                = a + sumn (length s) (fun k => smul (nth k l 0) (nth k s 0))).
      { clear. induction s as [|x s IH]; intros [|y l] a E; try discriminate; [cbn; symmetry; apply gadd_0_r|].
        cbn [List.combine fold_left length fst snd]. rewrite IH by (injection E; auto). rewrite sumn_first. cbn [nth]. grp. }
      rewrite K by exact E. apply gadd_0.
    Qed.
  End Ev.

  (** ** [map_opt] *)
  Lemma map_opt_some {A B} (f : A -> option B) g l : (forall a, In a l -> f a = Some (g a)) -> map_opt f l = Some (map g l).
  Proof.
    induction l as [|a l IH]; intros H; cbn; [reflexivity|]. rewrite H by (left; reflexivity).
    rewrite IH by (intros; apply H; right; assumption). reflexivity.
  Qed.

  (** ** Products over the other points *)
  Fixpoint fprod (i : nat) (f : nat -> F) (l : list nat) : F :=
    match l with [] => 1 | j :: l => if (i =? j)%nat then fprod i f l else f j * fprod i f l end.
  Lemma fprod_neq i f l : (forall j, In j l -> i <> j -> f j <> 0) -> fprod i f l <> 0.
  Proof.
    induction l as [|j l IH]; intros H; cbn [fprod]; [apply f_1_neq_0|].
    specialize (IH (fun k Hk => H k (or_intror Hk))). destruct (Nat.eqb_spec i j) as [|Hne]; [exact IH|].
    apply fmul_neq; [|exact IH]. apply H; [left; reflexivity|exact Hne].
  Qed.
  Lemma fprod_0 i f l j : In j l -> i <> j -> f j = 0 -> fprod i f l = 0.
  Proof.
    induction l as [|k l IH]; intros Hj Hne E; [contradiction|]. cbn [fprod]. destruct Hj as [->|Hj].
    - destruct (Nat.eqb_spec i j); [contradiction|]. rewrite E. ring.
    - rewrite IH by assumption. destruct (i =? k)%nat; [reflexivity|ring].
  Qed.
  Lemma fprod_mul i f g h k l : (forall j, f j * g j = h j * k j) -> fprod i f l * fprod i g l = fprod i h l * fprod i k l.
  Proof.
    intros E. induction l as [|j l IH]; cbn [fprod]; [ring|]. destruct (i =? j)%nat; [exact IH|].
    transitivity ((f j * g j) * (fprod i f l * fprod i g l)); [ring|]. rewrite E, IH. ring.
  Qed.
  Lemma lagrange_fold i l : forall a b,
    fold_left (fun nd j => if (i =? j)%nat then nd else (fst nd * fnat j, snd nd * (fnat j - fnat i))) l (a, b)
    = (a * fprod i fnat l, b * fprod i (fun j => fnat j - fnat i) l).
  Proof.
    induction l as [|j l IH]; intros a b; cbn [fold_left fprod]; [f_equal; ring|].
    destruct (i =? j)%nat; cbn [fst snd]; rewrite IH; f_equal; ring.
  Qed.

  (** ** [poly_times_root] *)
  Lemma length_sub_next r p : length (sub_next r p) = length p.
  Proof. induction p as [|a p IH]; [reflexivity|]. cbn [sub_next]. destruct p as [|b p]; [reflexivity|]. cbn [length] in *. rewrite IH. reflexivity. Qed.
  (** [sub_next r (a :: p)] is [a + X p - r p] *)
  Lemma peval_sub_next r x : forall p a, peval (sub_next r (a :: p)) x = a + (x - r) * peval p x.
  Proof.
    induction p as [|b p IH]; intros a; [cbn; ring|].
    change (sub_next r (a :: b :: p)) with ((a - b * r) :: sub_next r (b :: p)). cbn [peval]. rewrite IH.
    change (smul x (peval p x)) with (x * peval p x).
    change (smul x (b + (x - r) * peval p x)) with (x * (b + (x - r) * peval p x)). ring.
  Qed.
  Lemma length_times_root p r : length (poly_times_root p r) = S (length p).
  Proof. unfold poly_times_root. rewrite length_sub_next. reflexivity. Qed.
  Lemma peval_times_root p r x : peval (poly_times_root p r) x = (x - r) * peval p x.
  Proof. unfold poly_times_root. rewrite peval_sub_next. ring. Qed.
  Lemma precompute_fold i l : forall p d, exists q,
    fold_left (fun nd j => if (i =? j)%nat then nd else (poly_times_root (fst nd) (fnat j), snd nd * (fnat i - fnat j))) l (p, d)
    = (q, d * fprod i (fun j => fnat i - fnat j) l) /\
    (forall x, peval q x = peval p x * fprod i (fun j => x - fnat j) l) /\
    length q = (length p + length (filter (fun j => negb (i =? j)%nat) l))%nat.
  Proof.
    induction l as [|j l IH]; intros p d; cbn [fold_left fprod filter].
    - exists p. split; [f_equal; ring|]. split; [intros x; ring|cbn; lia].
    - destruct (i =? j)%nat; cbn [fst snd negb].
      + apply IH.
      + destruct (IH (poly_times_root p (fnat j)) (d * (fnat i - fnat j))) as (q & E & E2 & E3). exists q.
        split; [rewrite E; f_equal; ring|]. split.
        * intros x. rewrite E2, peval_times_root. ring.
        * rewrite E3, length_times_root. cbn. lia.
  Qed.
  Lemma zeros_fold l : forall p d, exists q,
    fold_left (fun nd j => (poly_times_root (fst nd) (fnat j), snd nd * - fnat j)) l (p, d)
    = (q, d * fold_right (fun j a => - fnat j * a) 1 l) /\
    (forall x, peval q x = peval p x * fold_right (fun j a => (x - fnat j) * a) 1 l) /\
    length q = (length p + length l)%nat.
  Proof.
    induction l as [|j l IH]; intros p d; cbn [fold_left fold_right].
    - exists p. split; [f_equal; ring|]. split; [intros x; ring|cbn; lia].
    - cbn [fst snd]. destruct (IH (poly_times_root p (fnat j)) (d * - fnat j)) as (q & E & E2 & E3). exists q.
      split; [rewrite E; f_equal; ring|]. split.
      + intros x. rewrite E2, peval_times_root. ring.
      + rewrite E3, length_times_root. cbn. lia.
  Qed.
  Lemma filter_others i l : NoDup l -> In i l -> S (length (filter (fun j => negb (i =? j)%nat) l)) = length l.
  Proof.
    induction l as [|j l IH]; intros ND Hi; [contradiction|]. inversion ND as [|a b N1 N2]; subst. cbn [filter].
    destruct (Nat.eqb_spec i j) as [->|Hne]; cbn [negb length].
    - f_equal. clear IH ND N2 Hi. induction l as [|k l IH]; [reflexivity|]. cbn [filter].
      destruct (Nat.eqb_spec j k) as [->|Hk]; cbn [negb length]; [exfalso; apply N1; left; reflexivity|].
      f_equal. apply IH. intros H. apply N1. right. exact H.
    - f_equal. apply IH; [exact N2|]. destruct Hi; [congruence|assumption].
  Qed.

  (** ** Interpolation points *)
  (** distinct points with distinct images in the field *)
  Definition points (l : list nat) : Prop := NoDup (map fnat l).
  Lemma points_nodup l : points l -> NoDup l.
  Proof. apply NoDup_map_inv. Qed.
  Lemma points_neq l i j : points l -> In i l -> In j l -> i <> j -> fnat i <> fnat j.
  Proof.
    unfold points. induction l as [|a l IH]; intros P Hi Hj Hne; [contradiction|]. cbn in P. inversion P as [|b k N1 N2]; subst.
    destruct Hi as [->|Hi], Hj as [->|Hj].
    - congruence.
    - intros E. apply N1. rewrite E. apply in_map. exact Hj.
    - intros E. apply N1. rewrite <- E. apply in_map. exact Hi.
    - apply IH; assumption.
  Qed.
  Definition lag_poly (coeffs : list nat) (i : nat) : list F :=
    match precompute_one coeffs i with Some p => p | None => [] end.
  Lemma precompute_one_ok coeffs i : points coeffs -> In i coeffs ->
    precompute_one coeffs i = Some (lag_poly coeffs i) /\
    length (lag_poly coeffs i) = length coeffs /\
    fprod i (fun j => fnat i - fnat j) coeffs <> 0 /\
    forall x, peval (lag_poly coeffs i) x = fprod i (fun j => x - fnat j) coeffs * finv (fprod i (fun j => fnat i - fnat j) coeffs).
  Proof.
    intros P Hi. unfold lag_poly, precompute_one.
    destruct (precompute_fold i coeffs [1] 1) as (q & E & E2 & E3). rewrite E. cbn [fst snd].
    set (d := fprod i (fun j => fnat i - fnat j) coeffs) in *.
    assert (Hd : d <> 0).
    { apply fprod_neq. intros j Hj Hne. apply fsub_neq. exact (points_neq P Hi Hj Hne). }
    replace (1 * d) with d by ring. rewrite (feqb_0 Hd). split; [reflexivity|]. split; [|split; [exact Hd|]].
    - rewrite map_length, E3. cbn [length]. rewrite <- (filter_others i (points_nodup P) Hi). reflexivity.
    - intros x. transitivity (peval (map (smul (finv d)) q) x).
      + f_equal. apply map_ext. intros a. apply rmul_comm.
      + rewrite peval_map_smul. change (smul (finv d) (peval q x)) with (finv d * peval q x). rewrite E2.
        replace (peval [1] x) with (1 : F) by (cbn; ring). ring.
  Qed.
  Lemma precompute_ok coeffs : points coeffs -> precompute_interpolation_polys coeffs = Some (map (lag_poly coeffs) coeffs).
  Proof.
    intros P. apply map_opt_some. intros i Hi. apply (precompute_one_ok i P Hi).
  Qed.
  Lemma lag_basis coeffs : points coeffs -> basis (map fnat coeffs) (fun k => lag_poly coeffs (nth k coeffs O)).
  Proof.
    intros P k Hk. rewrite map_length in Hk. set (i := nth k coeffs O). assert (Hi : In i coeffs) by (apply nth_In; exact Hk).
    destruct (precompute_one_ok i P Hi) as (_ & L1 & L2 & L3). split; [rewrite map_length; lia|].
    intros j Hj. rewrite map_length in Hj. rewrite (nth_indep _ 0 (fnat O)), map_nth by (rewrite map_length; lia).
    rewrite L3. destruct (Nat.eqb_spec j k) as [->|Hne].
    - fold i. apply finv_r. exact L2.
    - rewrite (@fprod_0 i _ coeffs (nth j coeffs O)); [ring|apply nth_In; exact Hj| |ring].
      intros E. apply Hne. symmetry. apply (proj1 (NoDup_nth coeffs O) (points_nodup P)); assumption.
  Qed.
  (** the Lagrange coefficients are the basis polynomials at 0 *)
  Lemma lagrange_ok coeffs : points coeffs ->
    lagrange_from_coeff coeffs = Some (map (fun i => peval (lag_poly coeffs i) 0) coeffs).
  Proof.
    intros P. apply map_opt_some. intros i Hi. unfold lagrange_one. rewrite lagrange_fold. cbn [fst snd].
    destruct (precompute_one_ok i P Hi) as (_ & _ & L2 & L3).
    assert (Hd : fprod i (fun j => fnat j - fnat i) coeffs <> 0).
    { apply fprod_neq. intros j Hj Hne. apply fsub_neq. apply (points_neq P Hj Hi). congruence. }
    replace (1 * fprod i (fun j => fnat j - fnat i) coeffs) with (fprod i (fun j => fnat j - fnat i) coeffs) by ring.
    rewrite (feqb_0 Hd), L3. f_equal. replace (1 * fprod i fnat coeffs) with (fprod i fnat coeffs) by ring.
    apply fdiv_eq; [exact Hd|exact L2|]. apply fprod_mul. intros j. ring.
  Qed.

  (** reconstruction from enough shares of a polynomial *)
  Lemma reconstruct_poly {G} {AG : AbGrp G} {MD : Mod F G} coeffs lag (c : list G) :
    points coeffs -> length c <= length coeffs -> lagrange_from_coeff coeffs = Some lag ->
    length lag = length coeffs /\ reconstruct (map (fun i => peval c (fnat i)) coeffs) lag = peval c 0.
  Proof.
    intros P Hc E. rewrite (lagrange_ok P) in E. injection E as <-. split; [apply map_length|].
    rewrite reconstruct_ok by (rewrite !map_length; reflexivity). rewrite map_length.
    pose proof (interp_unique c 0 (L := fun k => lag_poly coeffs (nth k coeffs O)) P (lag_basis P)) as K.
    rewrite map_length in K. rewrite <- (K Hc). apply sumn_ext. intros k Hk.
    rewrite (nth_indep _ (0 : F) (peval (lag_poly coeffs O) 0)) by (rewrite map_length; exact Hk).
    rewrite (map_nth (fun i => peval (lag_poly coeffs i) 0)).
    rewrite (nth_indep _ (0 : G) (peval c (fnat O))) by (rewrite map_length; exact Hk).
    rewrite (map_nth (fun i => peval c (fnat i))).
    rewrite (nth_indep _ (0 : F) (fnat O)) by (rewrite map_length; exact Hk). rewrite map_nth. reflexivity.
  Qed.

  (** interpolation through given values *)
  Lemma length_add_scaled r : forall i p, length (add_scaled r i p) = length r.
  Proof. induction r as [|a r IH]; intros [|b i] p; cbn; auto. Qed.
  Lemma peval_add_scaled x : forall r i p, length i <= length r -> peval (add_scaled r i p) x = peval r x + peval i x * p.
  Proof.
    induction r as [|a r IH]; intros [|b i] p Hl; cbn [add_scaled peval length] in *; try lia; try ring.
    rewrite IH by lia. change (@smul F F _ _ _) with (@rmul F _). ring.
  Qed.
  Lemma interpolate_fold x : forall pre s res, length pre = length s -> (forall q, In q pre -> length q <= length res) ->
    length (fold_left (fun res ip => add_scaled res (fst ip) (snd ip)) (List.combine pre s) res) = length res /\
    peval (fold_left (fun res ip => add_scaled res (fst ip) (snd ip)) (List.combine pre s) res) x
    = peval res x + sumn (length s) (fun k => peval (nth k pre []) x * nth k s 0).
  Proof.
    induction pre as [|q pre IH]; intros [|v s] res E H; try discriminate.
    - cbn. split; [reflexivity|ring].
    - cbn [List.combine fold_left fst snd length]. destruct (IH s (add_scaled res q v)) as [I1 I2].
      + injection E; auto.
      + intros q' Hq. rewrite length_add_scaled. apply H. right. exact Hq.
      + split; [rewrite I1; apply length_add_scaled|]. rewrite I2, sumn_first, peval_add_scaled by (apply H; left; reflexivity).
        cbn [nth]. ring.
  Qed.
  Lemma interpolate_ok coeffs pre s : points coeffs -> precompute_interpolation_polys coeffs = Some pre ->
    length s = length coeffs ->
    length (interpolate_poly_from_precomputed s pre) = length coeffs /\
    forall j, j < length coeffs -> peval (interpolate_poly_from_precomputed s pre) (fnat (nth j coeffs O)) = nth j s 0.
  Proof.
    intros P E Hs. rewrite (precompute_ok P) in E. injection E as <-. unfold interpolate_poly_from_precomputed.
    assert (HI : forall x, _) by (intros x; apply (@interpolate_fold x (map (lag_poly coeffs) coeffs) s (repeat 0 (length s)));
      [rewrite map_length; symmetry; exact Hs|
       intros q Hq; rewrite repeat_length; apply in_map_iff in Hq; destruct Hq as (i & <- & Hi);
       destruct (precompute_one_ok i P Hi) as (_ & L & _); lia]).
    split; [rewrite (proj1 (HI 0)), repeat_length; exact Hs|].
    intros j Hj. rewrite (proj2 (HI _)), peval_zeros, gadd_0.
    pose proof (interp_points (fun k => nth k s 0) (j := j) (lag_basis P)) as K. rewrite map_length in K.
    rewrite (nth_indep _ (0 : F) (fnat O)), map_nth in K by (rewrite map_length; exact Hj).
    rewrite <- (K Hj), Hs. apply sumn_ext. intros k Hk.
    rewrite (nth_indep _ [] (lag_poly coeffs O)), map_nth by (rewrite map_length; exact Hk). reflexivity.
  Qed.
  (** the polynomial with value [v] at 0 and zeros at [l] *)
  Lemma zero_points_ok l : (forall j, In j l -> fnat j <> 0) -> exists z,
    interpolation_poly_from_zero_points l = Some z /\ length z = S (length l) /\ peval z 0 = 1 /\
    forall j, In j l -> peval z (fnat j) = 0.
  Proof.
    intros Hl. unfold interpolation_poly_from_zero_points.
    destruct (zeros_fold l [1] 1) as (q & E & E2 & E3). rewrite E. cbn [fst snd].
    set (d := fold_right (fun j a => - fnat j * a) 1 l) in *.
    assert (Hd : d <> 0).
    { unfold d. clear -Hl. induction l as [|j l IH]; cbn [fold_right]; [apply f_1_neq_0|].
      apply fmul_neq; [|apply IH; intros; apply Hl; right; assumption].
      intros H0. apply (Hl j (or_introl eq_refl)). rewrite <- (gneg_neg (fnat j)), H0. apply gneg_0. }
    replace (1 * d) with d by ring. rewrite (feqb_0 Hd). eexists. split; [reflexivity|].
    assert (Ez : forall x, peval (map (fun r => r * finv d) q) x = fold_right (fun j a => (x - fnat j) * a) 1 l * finv d).
    { intros x. transitivity (peval (map (smul (finv d)) q) x).
      + f_equal. apply map_ext. intros a. apply rmul_comm.
      + rewrite peval_map_smul. change (smul (finv d) (peval q x)) with (finv d * peval q x). rewrite E2.
        replace (peval [1] x) with (1 : F) by (cbn; ring). ring. }
    split; [rewrite map_length, E3; reflexivity|]. split.
    - rewrite Ez. transitivity (d * finv d); [|apply finv_r; exact Hd]. f_equal. unfold d.
      clear. induction l as [|j l IH]; cbn [fold_right]; [reflexivity|]. rewrite IH. ring.
    - intros j Hj. rewrite Ez. transitivity ((0 : F) * finv d); [f_equal|ring].
      clear -Hj. induction l as [|k l IH]; [contradiction|]. cbn [fold_right].
      destruct Hj as [->|Hj]; [ring|]. rewrite IH by exact Hj. ring.
  Qed.
  Lemma peval_with_zeros {G} {AG : AbGrp G} {MD : Mod F G} (v : G) z x :
    peval (poly_with_zeros_from_precomputed v z) x = smul (peval z x) v.
  Proof. exact (peval_pouter z v x). Qed.
End Alg.
