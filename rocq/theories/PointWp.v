(** * Point shares and coordinate shares: correctness under every schedule *)
From Coq Require Import String List Arith NArith Lia Bool Ring.
From Verif Require Import Proc Alg Rep3Net Rep3 Rep3Spec Rep3Proofs Rep3Wp Uint Binary BinaryWp Conv ConvWp CmpWp Exec Point.
Import ListNotations.
Set Implicit Arguments.
Local Open Scope grp_scope.

(** ** What [point_addition] computes on plain coordinates *)
Section Pa.
  Context {F : Type} {FF : Fld F}.
  Add Ring Rf : (cring_theory (R := F)).
  Definition same_x (a b : F * F) : bool := feqb (fst a) (fst b).
  (** coordinates and the flag: for equal x-coordinates the slope is computed with divisor 1 *)
  Definition slope (a b : F * F) : F :=
    rmul (snd b - snd a) (finv (if same_x a b then rone else fst b - fst a)).
  Definition pa_x (a b : F * F) : F := rmul (slope a b) (slope a b) - fst a - fst b.
  Definition pa_y (a b : F * F) : F := rmul (slope a b) (fst a - pa_x a b) - snd a.
  Lemma pa_chord a b : fst a <> fst b -> (pa_x a b, pa_y a b) = chord a b.
  Proof.
    intros Hn. unfold pa_y, pa_x, slope, chord, same_x.
    destruct (feqb (fst a) (fst b)) eqn:E; [apply feqb_spec in E; contradiction|]. reflexivity.
  Qed.
  Lemma feqb_swap (x y : F) : feqb 0 (y - x) = feqb x y.
  Proof.
    destruct (feqb x y) eqn:E.
    - apply feqb_spec in E. subst. apply feqb_spec. unfold gsub. rewrite gadd_neg. reflexivity.
    - destruct (feqb 0 (y - x)) eqn:E'; [|reflexivity]. apply feqb_spec in E'.
      assert (x = y). { replace y with ((y - x) + x) by (unfold gsub; grp). rewrite <- E'. grp. }
      apply feqb_spec in H. congruence.
  Qed.
  Lemma divisor (x y : F) : (y - x) + rmul (- (y - x) + rone) (bitval (feqb x y)) = if feqb x y then rone else y - x.
  Proof. destruct (feqb x y); cbn [bitval]; ring. Qed.
End Pa.

Lemma map2_tab {A B C X} (f : A -> B -> C) (g : X -> A) (h : X -> B) l : map2 f (map g l) (map h l) = map (fun x => f (g x) (h x)) l.
Proof. induction l; cbn; congruence. Qed.
Lemma list_split (A B : Type) (l : list A) (m : list B) n : length l = n -> length m = n -> map fst (map2 pair l m) = l /\ map snd (map2 pair l m) = m.
Proof.
  revert m n. induction l as [|x l IH]; intros [|y m] n E1 E2; cbn in *; subst; try discriminate; [split; reflexivity|].
  injection E2 as E2. destruct (IH m (length l) eq_refl E2) as [-> ->]. split; reflexivity.
Qed.

Section PointWp.
  Context {F : Type} `{FU : FieldUint F} {C : Type} {AC : AbGrp C} {CV : Curve F C}.
  Context {S M : Type} (W : nat) (du : nat -> S -> N * S) {DF : Draw S F} {DC : Draw S C}.
  Context {EN : Enc M (list N)} {ENN : Enc M (list (N * N))}
          {EL : Enc M (list (list N))} {ELL : Enc M (list (list N * list N))} {EF : Enc M (list F)}
          {ELF : Enc M (list (list F))}
          (cap : nat) (cap_pos : (1 <= cap)%nat).
  Notation B := (mbs F).
  Context (width : (B + 2 <= W)%nat).
  Context (a2b : pid -> rst S -> share F -> prog pid M (share N * rst S)).
  Context (a2b_ok : forall st a x, synced st -> shares a x ->
    wp cap (fun i => a2b i (st i) (a i))
      (fun r => shares (fun i => fst (r i)) (to_uint x) /\ synced (fun i => snd (r i)))).
  Context (drawv : nat -> S -> list F * S) (drawv_len : forall n s, length (fst (drawv n s)) = n).
  Implicit Types (st : pid -> rst S).
  Add Ring Rf1 : (cring_theory (R := F)).

  (** The three shares returned: coordinates and flag. *)
  Definition pa_result (a b : F * F) (r : pid -> (share F * share F * share F) * rst S) : Prop :=
    shares (fun i => fst (fst (fst (r i)))) (pa_x a b) /\
    shares (fun i => snd (fst (fst (r i)))) (pa_y a b) /\
    shares (fun i => snd (fst (r i))) (bitval (same_x a b)) /\
    synced (fun i => snd (r i)).
  Lemma inv_wpf st a x : synced st -> shares a x ->
    wpf (M := M) cap inv_err (fun i => inv i (st i) (a i)) (fun r => shares (fun i => fst (r i)) (finv x) /\ synced (fun i => snd (r i))).
  Proof.
    intros Hs Ha. eapply wpo_mono; [|exact (inv_ok cap_pos Hs Ha)]. intros o [[_ Ho]|[_ (v & Hv & R1 & R2)]]; [left; exact Ho|].
    right. exists v. auto.
  Qed.
  Lemma point_addition_ok st ax ay bx by_ a b : synced st ->
    shares ax (fst a) -> shares ay (snd a) -> shares bx (fst b) -> shares by_ (snd b) ->
    wpf cap inv_err (fun i => point_addition W du a2b i (st i) (ax i) (ay i) (bx i) (by_ i)) (pa_result a b).
  Proof.
    intros Hs Ax Ay Bx By. unfold point_addition. cbv zeta.
    pose proof (shsub_ok Bx Ax) as Dx. pose proof (shsub_ok By Ay) as Dy.
    apply wpf_bind. eapply wp_mono; [|exact (eq_wp W du cap_pos a2b a2b_ok Hs zero_share_ok Dx)].
    intros z [Z1 Z2]. rewrite feqb_swap in Z1.
    apply wpf_bind. eapply wp_mono; [|exact (rmul_wp cap_pos Z2 (add_public_ok rone (shneg_ok Dx)) Z1)].
    intros m [M1 M2]. pose proof (shadd_ok Dx M1) as D1. rewrite divisor in D1.
    apply wpf_seq. eapply wpf_mono; [|exact (inv_wpf M2 D1)]. intros iv [I1 I2].
    apply wpf_bind. eapply wp_mono; [|exact (rmul_wp cap_pos I2 Dy I1)]. intros l [L1 L2].
    fold (same_x a b) in L1. fold (slope a b) in L1.
    apply wpf_bind. eapply wp_mono; [|exact (rmul_wp cap_pos L2 L1 L1)]. intros l2 [Q1 Q2].
    pose proof (shsub_ok (shsub_ok Q1 Ax) Bx) as X. fold (pa_x a b) in X.
    apply wpf_bind. eapply wp_mono; [|exact (rmul_wp cap_pos Q2 L1 (shsub_ok Ax X))]. intros t [T1 T2].
    apply wpf_wp. apply wp_ret. unfold pa_result. cbn [fst snd].
    split; [exact X|]. split; [|split; [exact Z1|exact T2]]. exact (shsub_ok T1 Ay).
  Qed.

  (** ** From point shares to coordinate shares *)
  (** what the conversion adds up: the sum of the first two components and the third *)
  Definition half (x : pid -> share C) : C := sa (x P0) + sa (x P1).
  Definition rest (x : pid -> share C) : C := sa (x P2).
  Lemma half_rest x p : shares x p -> half x + rest x = p.
  Proof. intros [_ A]. exact A. Qed.
  Lemma pre_x2_ok x : replicated x ->
    shares (fun i => fst (pre_x2 i (x i))) (fst (coords (rest x))) /\ shares (fun i => snd (pre_x2 i (x i))) (snd (coords (rest x))).
  Proof.
    intros V. pose proof (V P0) as V0. cbn in V0. unfold rest.
    split; [apply (@shares_intro F _ _ 0 0 (fst (coords (sa (x P2)))))|apply (@shares_intro F _ _ 0 0 (snd (coords (sa (x P2)))))];
      cbn; rewrite ?V0; try reflexivity; grp.
  Qed.
  Lemma share_nonzero_all x i : replicated x -> (forall i, sa (x i) <> 0) -> share_nonzero (x i) = true.
  Proof.
    intros V Hn. unfold share_nonzero, pzero. rewrite V.
    destruct (xy (sa (x i))) as [c|] eqn:E; [|apply xy_none in E; contradiction (Hn i)].
    destruct (xy (sa (x (prev i)))) as [d|] eqn:E2; [reflexivity|]. apply xy_none in E2. contradiction (Hn (prev i)).
  Qed.
  Definition pre_result (x : pid -> share C) (r : pid -> (share F * share F * (share F * share F)) * rst S) : Prop :=
    shares (fun i => fst (fst (fst (r i)))) (fst (coords (half x))) /\
    shares (fun i => snd (fst (fst (r i)))) (snd (coords (half x))) /\
    shares (fun i => fst (snd (fst (r i)))) (fst (coords (rest x))) /\
    shares (fun i => snd (snd (fst (r i)))) (snd (coords (rest x))) /\
    synced (fun i => snd (r i)).
  Lemma pre_wp st x : synced st -> replicated x -> (forall i, sa (x i) <> 0) ->
    wp cap (fun i => pre i (st i) (x i)) (pre_result x).
  Proof.
    intros Hs V Hn. unfold pre. eapply wp_ext; [intros i; rewrite (share_nonzero_all i V Hn); reflexivity|]. cbv zeta.
    destruct (masking_ok (G := F) Hs) as [Mx Hs1]. destruct (masking_ok (G := F) Hs1) as [My Hs2].
    set (rx := fun i => fst (masking (G := F) (st i))) in *. set (ry := fun i => fst (masking (G := F) (snd (masking (G := F) (st i))))) in *.
    apply wp_bind. apply wp_reshare_many; [exact cap_pos|]. apply wp_ret. unfold pre_result. cbn [fst snd].
    pose proof (V P1) as V1. cbn in V1.
    assert (E : sa (x P1) + sb (x P1) = half x) by (rewrite V1; unfold half; grp).
    split; [|split; [|split; [|split; [|exact Hs2]]]].
    - apply (additive_reshared (z := fun i => fst (pre_x01 i (x i) (rx i, ry i)))).
      unfold additive in *. cbn. rewrite E.
      change (rx P0 + (fst (coords (half x)) + rx P1) + rx P2 = fst (coords (half x))).
      replace (rx P0 + (fst (coords (half x)) + rx P1) + rx P2) with (fst (coords (half x)) + (rx P0 + rx P1 + rx P2)) by grp.
      rewrite Mx. grp.
    - apply (additive_reshared (z := fun i => snd (pre_x01 i (x i) (rx i, ry i)))).
      unfold additive in *. cbn. rewrite E.
      change (ry P0 + (snd (coords (half x)) + ry P1) + ry P2 = snd (coords (half x))).
      replace (ry P0 + (snd (coords (half x)) + ry P1) + ry P2) with (snd (coords (half x)) + (ry P0 + ry P1 + ry P2)) by grp.
      rewrite My. grp.
    - exact (proj1 (pre_x2_ok V)).
    - exact (proj2 (pre_x2_ok V)).
  Qed.
  (** a zero component: the assertion fails before anything is sent *)
  Lemma pre_zero i (s : rst S) (x : share C) : sa x = 0 \/ sb x = 0 ->
    pre (M := M) i s x = Fail (Panic "This fails if one share is zero").
  Proof.
    intros Hz. unfold pre, share_nonzero, pzero. destruct Hz as [Hz|Hz]; apply xy_none in Hz; rewrite Hz; [reflexivity|].
    destruct (xy (sa x)); reflexivity.
  Qed.

  Lemma p2f_ok st x : synced st -> replicated x -> (forall i, sa (x i) <> 0) ->
    wpf cap inv_err (fun i => point_share_to_fieldshares W du a2b i (st i) (x i)) (pa_result (coords (half x)) (coords (rest x))).
  Proof.
    intros Hs V Hn. unfold point_share_to_fieldshares. apply wpf_bind.
    eapply wp_mono; [|exact (pre_wp Hs V Hn)]. intros r (R1 & R2 & R3 & R4 & R5). cbv zeta.
    exact (point_addition_ok _ _ R5 R1 R2 R3 R4).
  Qed.
  (** ** The sum on the curve *)
  Lemma coords_xy (p : C) : p <> 0 -> xy p = Some (coords p).
  Proof. intros Hp. unfold coords. destruct (xy p) eqn:E; [reflexivity|]. apply xy_none in E. contradiction. Qed.
  Lemma same_x_iff (p q : C) : p <> 0 -> q <> 0 -> p <> q -> same_x (coords p) (coords q) = true <-> p + q = 0.
  Proof.
    intros Hp Hq Hn. pose proof (coords_xy Hp) as Ep. pose proof (coords_xy Hq) as Eq. unfold same_x.
    destruct (coords p) as [x y]. destruct (coords q) as [x' y']. cbn [fst snd]. rewrite feqb_spec. split.
    - intros <-. destruct (xy_same _ _ Ep Eq) as [E|E]; [congruence|]. rewrite E. apply gadd_neg.
    - intros E. assert (Eq' : q = - p) by (apply (gcancel_l p); rewrite E, gadd_neg; reflexivity).
      rewrite Eq', (xy_neg _ Ep) in Eq. congruence.
  Qed.
  Lemma pa_sum (p q : C) : p <> 0 -> q <> 0 -> p <> q -> p + q <> 0 ->
    xy (p + q) = Some (pa_x (coords p) (coords q), pa_y (coords p) (coords q)).
  Proof.
    intros Hp Hq Hn Hs. assert (Hx : fst (coords p) <> fst (coords q)).
    { intros E. apply Hs. apply same_x_iff; try assumption. unfold same_x. apply feqb_spec. exact E. }
    rewrite pa_chord by exact Hx. apply xy_chord; [apply coords_xy; exact Hp|apply coords_xy; exact Hq|exact Hx].
  Qed.
  (** equal points: the flag says infinity although the sum is the double of the point *)
  Lemma pa_double (p : C) : same_x (coords p) (coords p) = true.
  Proof. apply feqb_spec. reflexivity. Qed.

  (** The postcondition of the conversions: shares of the coordinates and of the flag. *)
  Definition coord_result (p : C) (r : pid -> (share F * share F * share F) * rst S) : Prop :=
    exists x y b, (xy p = if b : bool then None else Some (x, y)) /\
      shares (fun i => fst (fst (fst (r i)))) x /\ shares (fun i => snd (fst (fst (r i)))) y /\
      shares (fun i => snd (fst (r i))) (bitval b) /\ synced (fun i => snd (r i)).
  Lemma pa_coord_result (p q : C) r : p <> 0 -> q <> 0 -> p <> q -> pa_result (coords p) (coords q) r -> coord_result (p + q) r.
  Proof.
    intros Hp Hq Hn (R1 & R2 & R3 & R4). exists (pa_x (coords p) (coords q)), (pa_y (coords p) (coords q)), (same_x (coords p) (coords q)).
    split; [|split; [exact R1|split; [exact R2|split; [exact R3|exact R4]]]].
    destruct (same_x (coords p) (coords q)) eqn:E.
    - apply xy_none. apply same_x_iff; assumption.
    - apply pa_sum; try assumption. intros E'. apply same_x_iff in E'; try assumption. congruence.
  Qed.
  Lemma p2f_point st x p : synced st -> shares x p -> (forall i, sa (x i) <> 0) -> half x <> 0 -> half x <> rest x ->
    wpf cap inv_err (fun i => point_share_to_fieldshares W du a2b i (st i) (x i)) (coord_result p).
  Proof.
    intros Hs Hx Hn Hh Hr. eapply wpf_mono; [|exact (p2f_ok Hs (proj1 Hx) Hn)]. intros r R.
    rewrite <- (half_rest Hx). apply pa_coord_result; try assumption. exact (Hn P2).
  Qed.

  (** ** is_zero *)
  Definition bool_shares (b : pid -> bool * bool) (v : bool) : Prop := bit_shares b v.
  Lemma is_zero_ok st x : synced st -> replicated x -> (forall i, sa (x i) <> 0) ->
    wp cap (fun i => point_is_zero W du a2b i (st i) (x i))
      (fun r => bit_shares (fun i => fst (r i)) (same_x (coords (half x)) (coords (rest x))) /\ synced (fun i => snd (r i))).
  Proof.
    intros Hs V Hn. unfold point_is_zero. apply wp_bind.
    eapply wp_mono; [|exact (pre_wp Hs V Hn)]. intros r (R1 & R2 & R3 & R4 & R5). cbv zeta.
    apply wp_bind. eapply wp_mono; [|exact (eq_bit_wp W du cap_pos a2b a2b_ok R5 R1 R3)].
    intros e (E1 & E2 & E3). apply wp_ret. cbn [fst snd]. split; [|exact E3].
    fold (same_x (coords (half x)) (coords (rest x))) in E1. set (v := same_x _ _) in *. clearbody v.
    assert (Hb : forall n, (n < 2 -> negb (n =? 0) = ubit n 0)%N).
    { intros n Hlt. assert (n = 0 \/ n = 1)%N as [->| ->] by lia; reflexivity. }
    destruct (shares_bits E1) as [B1 B2]. cbn [fst snd] in B1, B2.
    assert (Ha : forall i, (sa (fst (e i)) < 2 /\ sb (fst (e i)) < 2)%N) by (intros i; exact (E2 i)).
    split; cbn [fst snd].
    - intros i. rewrite (Hb _ (proj2 (Ha i))), (Hb _ (proj1 (Ha (prev i)))). apply B1.
    - rewrite !(Hb _ (proj1 (Ha _))). rewrite B2. destruct v; reflexivity.
  Qed.
  Lemma is_zero_point st x p : synced st -> shares x p -> (forall i, sa (x i) <> 0) -> half x <> 0 -> half x <> rest x ->
    wp cap (fun i => point_is_zero W du a2b i (st i) (x i))
      (fun r => bit_shares (fun i => fst (r i)) (pzero p) /\ synced (fun i => snd (r i))).
  Proof.
    intros Hs Hx Hn Hh Hr. eapply wp_mono; [|exact (is_zero_ok Hs (proj1 Hx) Hn)]. intros r [R1 R2]. split; [|exact R2].
    replace (pzero p) with (same_x (coords (half x)) (coords (rest x))); [exact R1|].
    rewrite <- (half_rest Hx). unfold pzero. pose proof (@same_x_iff _ _ Hh (Hn P2) Hr) as K. fold (rest x) in K.
    destruct (same_x _ _); destruct (xy (half x + rest x)) eqn:E; try reflexivity.
    - rewrite (proj1 K eq_refl) in E. pose proof (proj2 (xy_none 0) eq_refl). congruence.
    - apply xy_none in E. apply K in E. discriminate.
  Qed.

  (** ** Batches: point addition *)
  Section Tab.
    Context {X : Type}.
    Implicit Types (g h : X -> F) (l : list X).
    Lemma vsub_ok g h l (a b : pid -> list (share F)) : shares_vec a (map g l) -> shares_vec b (map h l) ->
      shares_vec (fun i => map2 shsub (a i) (b i)) (map (fun x => g x - h x) l).
    Proof.
      intros Ha Hb. rewrite <- map2_tab.
      exact (@pvec_map2 _ _ _ _ _ _ (@shares F _) (@shares F _) (@shares F _) (fun _ => shsub) gsub _ _ _ _ (fun a a' x x' Ka Kb => shsub_ok Ka Kb) Ha Hb).
    Qed.
    Lemma vadd_ok g h l (a b : pid -> list (share F)) : shares_vec a (map g l) -> shares_vec b (map h l) ->
      shares_vec (fun i => map2 shadd (a i) (b i)) (map (fun x => g x + h x) l).
    Proof.
      intros Ha Hb. rewrite <- map2_tab.
      exact (@pvec_map2 _ _ _ _ _ _ (@shares F _) (@shares F _) (@shares F _) (fun _ => shadd) gadd _ _ _ _ (fun a a' x x' Ka Kb => shadd_ok Ka Kb) Ha Hb).
    Qed.
    Lemma vmul_wp st g h l (a b : pid -> list (share F)) : synced st -> shares_vec a (map g l) -> shares_vec b (map h l) ->
      wp (M := M) cap (fun i => mul_vec i (st i) (a i) (b i))
        (fun r => shares_vec (fun i => fst (r i)) (map (fun x => rmul (g x) (h x)) l) /\ synced (fun i => snd (r i))).
    Proof.
      intros Hs Ha Hb. eapply wp_mono; [|exact (mul_vec_wp cap_pos Hs Ha Hb)]. intros r [R1 R2]. split; [|exact R2].
      rewrite map2_tab in R1. exact R1.
    Qed.
    Lemma vinv_wpf st g l (a : pid -> list (share F)) : synced st -> shares_vec a (map g l) ->
      wpf (M := M) cap inv_err (fun i => inv_vec i (st i) (a i))
        (fun r => shares_vec (fun i => fst (r i)) (map (fun x => finv (g x)) l) /\ synced (fun i => snd (r i))).
    Proof.
      intros Hs Ha. eapply wpo_mono; [|exact (inv_vec_ok cap_pos Hs Ha)]. intros o [[_ Ho]|[_ (v & Hv & R1 & R2)]]; [left; exact Ho|].
      right. exists v. rewrite map_map in R1. auto.
    Qed.
    Lemma vone_ok g l (a : pid -> list (share F)) : shares_vec a (map g l) ->
      shares_vec (fun i => map (sub_public_by_shared i rone) (a i)) (map (fun x => - g x + rone) l).
    Proof.
      intros Ha. rewrite <- (map_map g (fun v => - v + rone)).
      apply (@pvec_map _ _ _ _ (@shares F _) (@shares F _) (fun i => sub_public_by_shared i rone) (fun v => - v + rone)); [|exact Ha].
      intros s x Hx. apply (add_public_ok rone (shneg_ok Hx)).
    Qed.
    Lemma vzero_ok l : shares_vec (fun _ => repeat zero_share (length l)) (map (fun _ : X => (0 : F)) l).
    Proof.
      induction l as [|x l IH]; cbn [length repeat map]; [apply pvec_nil; reflexivity|].
      exact (pvec_cons (fun _ => zero_share) 0 _ (fun i => eq_refl) zero_share_ok IH).
    Qed.
  End Tab.
  Definition pa_results (zs : list ((F * F) * (F * F))) (r : pid -> (list (share F) * list (share F) * list (share F)) * rst S) : Prop :=
    shares_vec (fun i => fst (fst (fst (r i)))) (map (fun z => pa_x (fst z) (snd z)) zs) /\
    shares_vec (fun i => snd (fst (fst (r i)))) (map (fun z => pa_y (fst z) (snd z)) zs) /\
    shares_vec (fun i => snd (fst (r i))) (map (fun z => bitval (same_x (fst z) (snd z))) zs) /\
    synced (fun i => snd (r i)).
  Lemma point_addition_many_ok st ax ay bx by_ zs : synced st ->
    shares_vec ax (map (fun z => fst (fst z)) zs) -> shares_vec ay (map (fun z => snd (fst z)) zs) ->
    shares_vec bx (map (fun z => fst (snd z)) zs) -> shares_vec by_ (map (fun z => snd (snd z)) zs) ->
    wpf cap inv_err (fun i => point_addition_many W du i (st i) (ax i) (ay i) (bx i) (by_ i)) (pa_results zs).
  Proof.
    intros Hs Ax Ay Bx By. unfold point_addition_many. cbv zeta.
    pose proof (vsub_ok _ _ _ Bx Ax) as Dx. pose proof (vsub_ok _ _ _ By Ay) as Dy.
    eapply wpf_ext; [intros i; rewrite (pvec_len i Dx), map_length; reflexivity|].
    apply wpf_bind. eapply wp_mono; [|refine (eq_many_wp du cap_pos width Hs (vzero_ok zs) Dx _); rewrite !map_length; reflexivity].
    intros z [Z1 Z2]. rewrite map2_tab in Z1.
    assert (Z1' : shares_vec (fun i => fst (z i)) (map (fun z => bitval (same_x (fst z) (snd z))) zs)).
    { replace (map (fun z => bitval (same_x (fst z) (snd z))) zs) with (map (fun x : F * F * (F * F) => bitval (R := F) (feqb 0 (fst (snd x) - fst (fst x)))) zs); [exact Z1|].
      apply map_ext. intros x. unfold same_x. rewrite feqb_swap. reflexivity. }
    clear Z1. apply wpf_bind. eapply wp_mono; [|exact (vmul_wp _ _ _ Z2 (vone_ok _ _ Dx) Z1')].
    intros m [M1 M2]. pose proof (vadd_ok _ _ _ Dx M1) as D1.
    assert (D1' : shares_vec (fun i => map2 shadd (map2 shsub (bx i) (ax i)) (fst (m i)))
        (map (fun z => if same_x (fst z) (snd z) then rone else fst (snd z) - fst (fst z)) zs)).
    { match goal with |- shares_vec _ ?l => replace l with (map (fun x : F * F * (F * F) => fst (snd x) - fst (fst x) + rmul (- (fst (snd x) - fst (fst x)) + rone) (bitval (same_x (fst x) (snd x)))) zs); [exact D1|] end.
      apply map_ext. intros x. unfold same_x. rewrite divisor. reflexivity. }
    clear D1. apply wpf_seq. eapply wpf_mono; [|exact (vinv_wpf _ _ M2 D1')]. intros iv [I1 I2].
    apply wpf_bind. eapply wp_mono; [|exact (vmul_wp _ _ _ I2 Dy I1)]. intros l [L1 L2].
    change (shares_vec (fun i => fst (l i)) (map (fun z => slope (fst z) (snd z)) zs)) in L1.
    apply wpf_bind. eapply wp_mono; [|exact (vmul_wp _ _ _ L2 L1 L1)]. intros l2 [Q1 Q2].
    pose proof (vsub_ok _ _ _ (vsub_ok _ _ _ Q1 Ax) Bx) as X0.
    change (shares_vec (fun i => map2 shsub (map2 shsub (fst (l2 i)) (ax i)) (bx i)) (map (fun z => pa_x (fst z) (snd z)) zs)) in X0.
    apply wpf_bind. eapply wp_mono; [|exact (vmul_wp _ _ _ Q2 L1 (vsub_ok _ _ _ Ax X0))]. intros t [T1 T2].
    apply wpf_wp. apply wp_ret. unfold pa_results. cbn [fst snd].
    split; [exact X0|]. split; [|split; [exact Z1'|exact T2]]. exact (vsub_ok _ _ _ T1 Ay).
  Qed.

  (** ** Batches: from point shares to coordinate shares *)
  Definition halves (s : pid -> share C) (h : C * C) : Prop :=
    replicated s /\ (forall i, sa (s i) <> 0) /\ half s = fst h /\ rest s = snd h.
  Lemma halves_nonzero x hs i : pvec halves x hs -> forallb share_nonzero (x i) = true.
  Proof.
    revert x. induction hs as [|h hs IH]; intros x Hx; [rewrite (pvec_nil_inv Hx i); reflexivity|].
    destruct (pvec_cons_inv Hx) as (s & t & E & (V & Hn & _) & Ht). rewrite E. cbn [forallb].
    rewrite (share_nonzero_all i V Hn), (IH _ Ht). reflexivity.
  Qed.
  Definition many_a (x : pid -> list (share C)) (rx ry : pid -> F) n (i : pid) : list (F * F) :=
    map2 (pre_x01 i) (x i) (map2 pair (repeat (rx i) n) (repeat (ry i) n)).
  Lemma many_a_ok rx ry : additive rx 0 -> additive ry 0 -> forall hs x, pvec halves x hs ->
    additive_vec (fun i => map fst (many_a x rx ry (length hs) i)) (map (fun h => fst (coords (fst h))) hs) /\
    additive_vec (fun i => map snd (many_a x rx ry (length hs) i)) (map (fun h => snd (coords (fst h))) hs).
  Proof.
    intros Rx Ry. induction hs as [|h hs IH]; intros x Hx.
    - split; apply pvec_nil; intros i; unfold many_a; rewrite (pvec_nil_inv Hx i); reflexivity.
    - destruct (pvec_cons_inv Hx) as (s & t & E & (V & Hn & Hh & Hr) & Ht). destruct (IH t Ht) as [I1 I2].
      pose proof (V P1) as V1. cbn in V1.
      assert (E1 : sa (s P1) + sb (s P1) = fst h) by (rewrite V1, <- Hh; unfold half; grp).
      split.
      + apply (pvec_cons (fun i => fst (pre_x01 i (s i) (rx i, ry i))) (fst (coords (fst h))) _
                 (t := fun i => map fst (many_a t rx ry (length hs) i))).
        * intros i. unfold many_a. rewrite E. reflexivity.
        * unfold additive in *. cbn. rewrite E1.
          replace (rx P0 + (fst (coords (fst h)) + rx P1) + rx P2) with (fst (coords (fst h)) + (rx P0 + rx P1 + rx P2)) by grp.
          rewrite Rx. grp.
        * exact I1.
      + apply (pvec_cons (fun i => snd (pre_x01 i (s i) (rx i, ry i))) (snd (coords (fst h))) _
                 (t := fun i => map snd (many_a t rx ry (length hs) i))).
        * intros i. unfold many_a. rewrite E. reflexivity.
        * unfold additive in *. cbn. rewrite E1.
          replace (ry P0 + (snd (coords (fst h)) + ry P1) + ry P2) with (snd (coords (fst h)) + (ry P0 + ry P1 + ry P2)) by grp.
          rewrite Ry. grp.
        * exact I2.
  Qed.
  Lemma pre_x2_many hs : forall x, pvec halves x hs ->
    shares_vec (fun i => map (fun x => fst (pre_x2 i x)) (x i)) (map (fun h => fst (coords (snd h))) hs) /\
    shares_vec (fun i => map (fun x => snd (pre_x2 i x)) (x i)) (map (fun h => snd (coords (snd h))) hs).
  Proof.
    induction hs as [|h hs IH]; intros x Hx.
    - split; apply pvec_nil; intros i; rewrite (pvec_nil_inv Hx i); reflexivity.
    - destruct (pvec_cons_inv Hx) as (s & t & E & (V & Hn & Hh & Hr) & Ht). destruct (IH t Ht) as [I1 I2].
      destruct (pre_x2_ok V) as [K1 K2]. rewrite Hr in K1, K2. split.
      + refine (pvec_cons _ _ _ _ K1 I1). intros i. rewrite E. reflexivity.
      + refine (pvec_cons _ _ _ _ K2 I2). intros i. rewrite E. reflexivity.
  Qed.
  Definition pre_results (hs : list (C * C)) (r : pid -> (list (share F) * list (share F) * (list (share F) * list (share F))) * rst S) : Prop :=
    shares_vec (fun i => fst (fst (fst (r i)))) (map (fun h => fst (coords (fst h))) hs) /\
    shares_vec (fun i => snd (fst (fst (r i)))) (map (fun h => snd (coords (fst h))) hs) /\
    shares_vec (fun i => fst (snd (fst (r i)))) (map (fun h => fst (coords (snd h))) hs) /\
    shares_vec (fun i => snd (snd (fst (r i)))) (map (fun h => snd (coords (snd h))) hs) /\
    synced (fun i => snd (r i)).
  Lemma pre_many_wp st x hs : synced st -> pvec halves x hs ->
    wp cap (fun i => pre_many i (st i) (x i)) (pre_results hs).
  Proof.
    intros Hs Hx. unfold pre_many.
    eapply wp_ext; [intros i; rewrite (halves_nonzero i Hx), (pvec_len i Hx); reflexivity|]. cbv zeta.
    destruct (masking_ok (G := F) Hs) as [Mx Hs1]. destruct (masking_ok (G := F) Hs1) as [My Hs2].
    set (rx := fun i => fst (masking (G := F) (st i))) in *. set (ry := fun i => fst (masking (G := F) (snd (masking (G := F) (st i))))) in *.
    destruct (many_a_ok Mx My Hx) as [A1 A2]. set (a := many_a x rx ry (length hs)) in *.
    apply wp_bind. apply wp_reshare_many with (x := fun i => map fst (a i) ++ map snd (a i)); [exact cap_pos|].
    assert (L1 : forall i, length (map fst (a i)) = length hs) by (intros i; rewrite (pvec_len i A1), map_length; reflexivity).
    assert (L2 : forall i, length (map snd (a i)) = length hs) by (intros i; rewrite (pvec_len i A2), map_length; reflexivity).
    eapply wp_ext; [intros i; rewrite app_length, (L1 (prev i)), (L2 (prev i));
      replace (length hs + length hs =? 2 * length hs)%nat with true by (symmetry; apply Nat.eqb_eq; lia);
      rewrite firstn_app, skipn_app, (L1 (prev i)), Nat.sub_diag, app_nil_r;
      rewrite (firstn_all2 (map fst (a (prev i)))) by (rewrite (L1 (prev i)); lia);
      rewrite (skipn_all2 (map fst (a (prev i)))) by (rewrite (L1 (prev i)); lia); reflexivity|].
    apply wp_ret. unfold pre_results. cbn [fst snd app skipn].
    destruct (pre_x2_many Hx) as [K1 K2].
    split; [exact (additive_vec_reshared A1)|]. split; [exact (additive_vec_reshared A2)|].
    split; [exact K1|]. split; [exact K2|exact Hs2].
  Qed.
  Lemma p2f_many_ok st x hs : synced st -> pvec halves x hs ->
    wpf cap inv_err (fun i => point_share_to_fieldshares_many W du i (st i) (x i))
      (pa_results (map (fun h => (coords (fst h), coords (snd h))) hs)).
  Proof.
    intros Hs Hx. unfold point_share_to_fieldshares_many. apply wpf_bind.
    eapply wp_mono; [|exact (pre_many_wp Hs Hx)]. intros r (R1 & R2 & R3 & R4 & R5). cbv zeta.
    apply point_addition_many_ok; try exact R5; rewrite map_map; assumption.
  Qed.
  (** the sharings for which the conversion works *)
  Definition generic (s : pid -> share C) (p : C) : Prop :=
    shares s p /\ (forall i, sa (s i) <> 0) /\ half s <> 0 /\ half s <> rest s.
  Lemma generic_halves : forall ps x, pvec generic x ps -> exists hs, pvec halves x hs /\
    ps = map (fun h => fst h + snd h) hs /\ Forall (fun h => fst h <> 0 /\ snd h <> 0 /\ fst h <> snd h) hs.
  Proof.
    induction ps as [|p ps IH]; intros x Hx.
    - exists []. split; [apply pvec_nil; exact (pvec_nil_inv Hx)|]. split; [reflexivity|constructor].
    - destruct (pvec_cons_inv Hx) as (s & t & E & (Hsh & Hn & Hh & Hr) & Ht). destruct (IH t Ht) as (hs & I1 & I2 & I3).
      exists ((half s, rest s) :: hs). split; [|split].
      + refine (pvec_cons s _ _ E _ I1). split; [exact (proj1 Hsh)|]. split; [exact Hn|]. split; reflexivity.
      + cbn [map fst snd]. rewrite (half_rest Hsh), I2. reflexivity.
      + constructor; [|exact I3]. cbn. split; [exact Hh|]. split; [exact (Hn P2)|exact Hr].
  Qed.
  Definition coord_of (p : C) (c : F * F * bool) : Prop := xy p = if snd c then None else Some (fst c).
  Definition coord_results (ps : list C) (r : pid -> (list (share F) * list (share F) * list (share F)) * rst S) : Prop :=
    exists cs, Forall2 coord_of ps cs /\
      shares_vec (fun i => fst (fst (fst (r i)))) (map (fun c => fst (fst c)) cs) /\
      shares_vec (fun i => snd (fst (fst (r i)))) (map (fun c => snd (fst c)) cs) /\
      shares_vec (fun i => snd (fst (r i))) (map (fun c => bitval (snd c)) cs) /\ synced (fun i => snd (r i)).
  Lemma pa_coord_of (p q : C) : p <> 0 -> q <> 0 -> p <> q ->
    coord_of (p + q) ((pa_x (coords p) (coords q), pa_y (coords p) (coords q)), same_x (coords p) (coords q)).
  Proof.
    intros Hp Hq Hn. unfold coord_of. cbn [fst snd]. destruct (same_x (coords p) (coords q)) eqn:E.
    - apply xy_none. apply same_x_iff; assumption.
    - apply pa_sum; try assumption. intros E'. apply same_x_iff in E'; try assumption. congruence.
  Qed.
  Lemma p2f_many_points st x ps : synced st -> pvec generic x ps ->
    wpf cap inv_err (fun i => point_share_to_fieldshares_many W du i (st i) (x i)) (coord_results ps).
  Proof.
    intros Hs Hx. destruct (generic_halves Hx) as (hs & H1 & -> & H3).
    eapply wpf_mono; [|exact (p2f_many_ok Hs H1)]. intros r (R1 & R2 & R3 & R4). rewrite map_map in R1, R2, R3. cbn [fst snd] in R1, R2, R3.
    exists (map (fun h => ((pa_x (coords (fst h)) (coords (snd h)), pa_y (coords (fst h)) (coords (snd h))), same_x (coords (fst h)) (coords (snd h)))) hs).
    rewrite !map_map. cbn [fst snd]. split; [|split; [exact R1|split; [exact R2|split; [exact R3|exact R4]]]].
    clear - H3. induction H3 as [|h hs (A & B0 & D) _ IH]; constructor; [|exact IH]. apply pa_coord_of; assumption.
  Qed.
  Lemma is_zero_many_ok st x ps : synced st -> pvec generic x ps ->
    wp cap (fun i => point_is_zero_many W du i (st i) (x i))
      (fun r => pvec bit_shares (fun i => fst (r i)) (map pzero ps) /\ synced (fun i => snd (r i))).
  Proof.
    intros Hs Hx. destruct (generic_halves Hx) as (hs & H1 & -> & H3). unfold point_is_zero_many.
    apply wp_bind. eapply wp_mono; [|exact (pre_many_wp Hs H1)]. intros r (R1 & R2 & R3 & R4 & R5). cbv zeta.
    apply wp_bind. eapply wp_mono; [|refine (eq_bit_many_wp du cap_pos width R5 R1 R3 _); rewrite !map_length; reflexivity].
    intros e (E1 & E2 & E3).
    eapply wp_ext; [intros i; rewrite (pvec_len i E1), (pvec_len i H1), !map_length, map2_length, !map_length, Nat.min_id, Nat.eqb_refl; reflexivity|].
    apply wp_ret. cbn [fst snd]. split; [|exact E3]. rewrite map2_tab in E1. rewrite map_map in E1 |- *.
    set (ee := fun i => fst (e i)) in *. change (pvec bit_shares (fun i => map (fun s => (negb (sa s =? 0)%N, negb (sb s =? 0)%N)) (ee i)) (map (fun h => pzero (fst h + snd h)) hs)).
    change (shares_vec ee (map (fun h => N.b2n (feqb (fst (coords (fst h))) (fst (coords (snd h))))) hs)) in E1.
    change (forall i, Forall (fun x => sa x < 2 /\ sb x < 2)%N (ee i)) in E2.
    clearbody ee. clear - E1 E2 H3.
    revert ee E1 E2. induction H3 as [|h hs (A & B0 & D) _ IH]; intros ee E1 E2.
    - apply pvec_nil. intros i. rewrite (pvec_nil_inv E1 i). reflexivity.
    - cbn [map] in E1 |- *. destruct (pvec_cons_inv E1) as (s & t & E & Hh & Ht).
      assert (Hb : forall n, (n < 2 -> negb (n =? 0) = ubit n 0)%N).
      { intros n Hlt. assert (n = 0 \/ n = 1)%N as [->| ->] by lia; reflexivity. }
      assert (Ha : forall i, (sa (s i) < 2 /\ sb (s i) < 2)%N) by (intros i; specialize (E2 i); rewrite E in E2; inversion E2; assumption).
      refine (pvec_cons (fun i => (negb (sa (s i) =? 0)%N, negb (sb (s i) =? 0)%N)) _ _ (t := fun i => map (fun s => (negb (sa s =? 0)%N, negb (sb s =? 0)%N)) (t i)) _ _ _).
      + intros i. rewrite E. reflexivity.
      + replace (pzero (fst h + snd h)) with (same_x (coords (fst h)) (coords (snd h))).
        * destruct (shares_bits Hh) as [B1 B2]. cbn [fst snd] in B1, B2. split; cbn [fst snd].
          -- intros i. rewrite (Hb _ (proj2 (Ha i))), (Hb _ (proj1 (Ha (prev i)))). apply B1.
          -- rewrite !(Hb _ (proj1 (Ha _))). rewrite B2. unfold same_x. destruct (feqb _ _); reflexivity.
        * pose proof (same_x_iff A B0 D) as K. unfold pzero.
          destruct (same_x _ _); destruct (xy (fst h + snd h)) eqn:Ex; try reflexivity.
          -- rewrite (proj1 K eq_refl) in Ex. pose proof (proj2 (xy_none 0) eq_refl). congruence.
          -- apply xy_none in Ex. apply K in Ex. discriminate.
      + apply IH; [exact Ht|]. intros i. specialize (E2 i). rewrite E in E2. inversion E2; assumption.
  Qed.
End PointWp.
