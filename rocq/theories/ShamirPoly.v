(** * Polynomials over a field with coefficients in a module

    Specification side of the Shamir development (no code of /repo is modelled here):
    evaluation of coefficient lists, the root bound, Lagrange interpolation. *)
From Coq Require Import List Arith Lia Bool Ring.
From Verif Require Import Alg.
Import ListNotations.
Set Implicit Arguments.
Local Open Scope grp_scope.

(** finite sums *)
Section Sums.
  Context {G : Type} {AG : AbGrp G}.
  Fixpoint sumn (n : nat) (f : nat -> G) : G := match n with O => 0 | S n => sumn n f + f n end.
  Lemma sumn_ext n : forall f g, (forall k, k < n -> f k = g k) -> sumn n f = sumn n g.
  Proof. induction n as [|n IH]; intros f g E; cbn; [reflexivity|]. rewrite (IH f g), E by (intros; try apply E; lia). reflexivity. Qed.
  Lemma sumn_0 n f : (forall k, k < n -> f k = 0) -> sumn n f = 0.
  Proof. induction n as [|n IH]; intros E; cbn; [reflexivity|]. rewrite IH, E by (intros; try apply E; lia). apply gadd_0. Qed.
  Lemma sumn_add n f g : sumn n (fun k => f k + g k) = sumn n f + sumn n g.
  Proof. induction n as [|n IH]; cbn; [symmetry; apply gadd_0|]. rewrite IH. grp. Qed.
  Lemma sumn_delta n f j : j < n -> (forall k, k < n -> k <> j -> f k = 0) -> sumn n f = f j.
  Proof.
    induction n as [|n IH]; intros Hj E; [lia|]. cbn. destruct (Nat.eq_dec j n) as [->|Hne].
    - rewrite sumn_0; [apply gadd_0|]. intros k Hk. apply E; lia.
    - rewrite IH, (E n) by (try lia; intros; apply E; lia). apply gadd_0_r.
  Qed.
  Lemma sumn_first n f : sumn (S n) f = f O + sumn n (fun k => f (S k)).
  Proof.
    induction n as [|n IH]; [cbn; apply gadd_comm|]. cbn [sumn] in *. rewrite IH. grp.
  Qed.
  (** sum of a list *)
  Lemma fold_sumn (l : list G) : forall a, fold_left gadd l a = a + sumn (length l) (fun k => nth k l 0).
  Proof.
    induction l as [|x l IH]; intros a; [cbn; symmetry; apply gadd_0_r|].
    cbn [fold_left length]. rewrite IH, sumn_first. cbn [nth]. grp.
  Qed.
End Sums.

Section Poly.
  Context {F G : Type} {FF : Fld F} {AG : AbGrp G} {MD : Mod F G}.
  Add Ring Fring : (@cring_theory F _).
  Infix "*" := rmul : grp_scope.
  Notation "1" := rone : grp_scope.

  (** ** Evaluation of the polynomial with coefficients [c] (constant term first) *)
  Fixpoint peval (c : list G) (x : F) : G := match c with [] => 0 | a :: c => a + smul x (peval c x) end.

  Lemma smul_0_l (g : G) : smul (0 : F) g = 0.  Proof. exact (@bmul_0_l F G G _ _ _ mod_bilin g). Qed.
  Lemma smul_0_r (x : F) : smul x (0 : G) = 0.  Proof. exact (@bmul_0_r F G G _ _ _ mod_bilin x). Qed.
  Lemma smul_neg_l (x : F) (g : G) : smul (- x) g = - smul x g.  Proof. exact (@bmul_neg_l F G G _ _ _ mod_bilin x g). Qed.
  Lemma smul_neg_r (x : F) (g : G) : smul x (- g) = - smul x g.  Proof. exact (@bmul_neg_r F G G _ _ _ mod_bilin x g). Qed.
  Lemma smul_sub_l (x y : F) (g : G) : smul (x - y) g = smul x g - smul y g.  Proof. exact (@bmul_sub_l F G G _ _ _ mod_bilin x y g). Qed.
  Lemma smul_sub_r (x : F) (g h : G) : smul x (g - h) = smul x g - smul x h.  Proof. exact (@bmul_sub_r F G G _ _ _ mod_bilin x g h). Qed.
  Lemma smul_swap (x y : F) (g : G) : smul x (smul y g) = smul y (smul x g).
  Proof. rewrite <- !smul_mul, rmul_comm. reflexivity. Qed.
  Lemma smul_sumn n x f : smul x (sumn n f : G) = sumn n (fun k => smul x (f k)).
  Proof. induction n as [|n IH]; cbn; [apply smul_0_r|]. rewrite smul_add_r, IH. reflexivity. Qed.

  Lemma peval_0 c : peval c 0 = nth 0 c 0.
  Proof. destruct c as [|a c]; cbn; [reflexivity|]. rewrite smul_0_l. apply gadd_0_r. Qed.
  Lemma peval_app c : forall d x, peval (c ++ d) x = peval c x + peval (repeat 0 (length c) ++ d) x.
  Proof.
    induction c as [|a c IH]; intros d x; cbn [app peval length repeat]; [rewrite gadd_0; reflexivity|].
    rewrite IH, smul_add_r. grp.
  Qed.
  Lemma peval_zeros k x : peval (repeat 0 k) x = 0.
  Proof. induction k as [|k IH]; cbn; [reflexivity|]. rewrite IH, smul_0_r. apply gadd_0. Qed.
  Lemma peval_pad c k x : peval (c ++ repeat 0 k) x = peval c x.
  Proof.
    rewrite peval_app, <- repeat_app, peval_zeros. apply gadd_0_r.
  Qed.

  Fixpoint padd (a b : list G) : list G :=
    match a, b with [], _ => b | _, [] => a | x :: a, y :: b => (x + y) :: padd a b end.
  Lemma peval_padd a : forall b x, peval (padd a b) x = peval a x + peval b x.
  Proof.
    induction a as [|u a IH]; intros [|v b] x; cbn [padd peval].
    - grp.
    - grp.
    - grp.
    - rewrite IH, smul_add_r. grp.
  Qed.
  Lemma length_padd a : forall b, length (padd a b) = Nat.max (length a) (length b).
  Proof. induction a as [|u a IH]; intros [|v b]; cbn; auto. Qed.
  Lemma peval_map_smul k c x : peval (map (smul k) c) x = smul k (peval c x).
  Proof.
    induction c as [|a c IH]; cbn; [symmetry; apply smul_0_r|]. rewrite IH, smul_add_r. f_equal.
    apply smul_swap.
  Qed.
  Lemma peval_map_neg c x : peval (map gneg c) x = - peval c x.
  Proof. induction c as [|a c IH]; cbn; [symmetry; apply gneg_0|]. rewrite IH, smul_neg_r. grp. Qed.

  (** ** Division by [X - a] *)
  Fixpoint pquot (c : list G) (a : F) : list G :=
    match c with [] => [] | _ :: c => padd c (map (smul a) (pquot c a)) end.
  Lemma length_pquot c a : length (pquot c a) = pred (length c).
  Proof. induction c as [|u c IH]; cbn; [reflexivity|]. rewrite length_padd, map_length, IH. lia. Qed.
  Lemma peval_pquot c a x : peval c x = smul (x - a) (peval (pquot c a) x) + peval c a.
  Proof.
    induction c as [|u c IH]; cbn [pquot peval]; [rewrite smul_0_r; symmetry; apply gadd_0|].
    rewrite peval_padd, peval_map_smul. rewrite smul_add_r, (smul_swap (x - a) a).
    set (q := peval (pquot c a) x) in *.
    assert (E : smul (x - a) q = peval c x - peval c a) by (rewrite IH; grp).
    rewrite E, smul_sub_l, smul_sub_r. grp.
  Qed.

  Lemma finv_smul (x : F) (g : G) : x <> 0 -> smul x g = 0 -> g = 0.
  Proof.
    intros Hx E. transitivity (smul (finv x * x) g).
    - rewrite finv_l by exact Hx. symmetry. apply smul_1.
    - rewrite smul_mul, E. apply smul_0_r.
  Qed.
  Lemma fsub_neq (x y : F) : x <> y -> x - y <> 0.
  Proof. intros H E. apply H. replace x with (x - y + y) by grp. rewrite E. apply gadd_0. Qed.

  (** a polynomial with as many distinct roots as coefficients vanishes everywhere *)
  Lemma peval_roots (xs : list F) : forall c, NoDup xs -> length c <= length xs ->
    (forall a, In a xs -> peval c a = 0) -> forall x, peval c x = 0.
  Proof.
    induction xs as [|a xs IH]; intros c ND Hl Hr x.
    - destruct c as [|u c]; [reflexivity|cbn in Hl; lia].
    - inversion ND as [|b l N1 N2]; subst.
      rewrite (peval_pquot c a), (Hr a) by (left; reflexivity).
      rewrite (IH (pquot c a) N2); [rewrite smul_0_r; apply gadd_0|rewrite length_pquot; cbn in Hl; lia|].
      intros b Hb. apply (@finv_smul (b - a)).
      + apply fsub_neq. intros ->. contradiction.
      + pose proof (peval_pquot c a b) as E. rewrite (Hr a), (Hr b) in E by (cbn; auto). rewrite gadd_0_r in E. symmetry. exact E.
  Qed.
  (** two polynomials agreeing on enough points agree everywhere *)
  Lemma peval_unique (xs : list F) c d : NoDup xs -> length c <= length xs -> length d <= length xs ->
    (forall a, In a xs -> peval c a = peval d a) -> forall x, peval c x = peval d x.
  Proof.
    intros ND Hc Hd E x.
    assert (H : peval (padd c (map gneg d)) x = 0).
    { apply (@peval_roots xs); [exact ND|rewrite length_padd, map_length; lia|].
      intros a Ha. rewrite peval_padd, peval_map_neg, E by exact Ha. apply gadd_neg. }
    rewrite peval_padd, peval_map_neg in H.
    replace (peval c x) with (peval c x + - peval d x + peval d x) by grp. rewrite H. apply gadd_0.
  Qed.
End Poly.

Section PolyMul.
  Context {F G : Type} {FF : Fld F} {AG : AbGrp G} {MD : Mod F G}.
  Add Ring Fring2 : (@cring_theory F _).
  Infix "*" := rmul : grp_scope.
  Notation "1" := rone : grp_scope.

  (** ** Products *)
  Fixpoint pmul (p : list F) (c : list G) : list G :=
    match p with [] => [] | a :: p => padd (map (smul a) c) (0 :: pmul p c) end.
  Lemma peval_pmul p c x : peval (pmul p c) x = smul (peval p x) (peval c x).
  Proof.
    induction p as [|a p IH]; [cbn; symmetry; apply smul_0_l|]. cbn [pmul]. rewrite peval_padd, peval_map_smul.
    cbn [peval]. rewrite IH, gadd_0, smul_add_l. f_equal. symmetry. exact (smul_mul x (peval p x) (peval c x)).
  Qed.
  Lemma length_pmul p : forall c a b, length p <= S a -> length c <= S b -> length (pmul p c) <= S (a + b).
  Proof.
    induction p as [|u p IH]; intros c a b Hp Hc; cbn [pmul length]; [lia|].
    rewrite length_padd, map_length. cbn [length] in *.
    destruct a as [|a].
    - destruct p; [cbn; lia|cbn in Hp; lia].
    - specialize (IH c a b ltac:(lia) Hc). lia.
  Qed.
  (** the polynomial [p] with every coefficient multiplied by [v] *)
  Definition pouter (p : list F) (v : G) : list G := map (fun a => smul a v) p.
  Lemma peval_pouter p v x : peval (pouter p v) x = smul (peval p x) v.
  Proof.
    unfold pouter. induction p as [|a p IH]; cbn [map peval]; [symmetry; apply smul_0_l|]. rewrite IH, smul_add_l. f_equal.
    symmetry. exact (smul_mul x (peval p x) v).
  Qed.
  (** sums of polynomials *)
  Fixpoint psum (n : nat) (f : nat -> list G) : list G := match n with O => [] | S n => padd (psum n f) (f n) end.
  Lemma peval_psum n f x : peval (psum n f) x = sumn n (fun k => peval (f k) x).
  Proof. induction n as [|n IH]; cbn; [reflexivity|]. rewrite peval_padd, IH. reflexivity. Qed.
  Lemma length_psum n f m : (forall k, k < n -> length (f k) <= m) -> length (psum n f) <= m.
  Proof. induction n as [|n IH]; intros H; cbn; [lia|]. rewrite length_padd. specialize (IH (fun k Hk => H k (Nat.lt_lt_succ_r _ _ Hk))). specialize (H n (Nat.lt_succ_diag_r n)). lia. Qed.

  (** ** Lagrange interpolation *)
  (** [L] is a Lagrange basis for the points [xs] *)
  Definition basis (xs : list F) (L : nat -> list F) : Prop :=
    forall k, k < length xs -> length (L k) <= length xs /\
      forall j, j < length xs -> peval (L k) (nth j xs 0) = if (j =? k)%nat then 1 else 0.
  Lemma interp_points xs L (v : nat -> G) j : basis xs L -> j < length xs ->
    sumn (length xs) (fun k => smul (peval (L k) (nth j xs 0)) (v k)) = v j.
  Proof.
    intros B Hj. rewrite (@sumn_delta G _ _ _ j Hj).
    - destruct (B j Hj) as [_ E]. rewrite E by exact Hj. rewrite Nat.eqb_refl. apply smul_1.
    - intros k Hk Hne. destruct (B k Hk) as [_ E]. rewrite E by exact Hj.
      destruct (Nat.eqb_spec j k); [congruence|]. apply smul_0_l.
  Qed.
  Lemma interp_unique xs L (c : list G) x : NoDup xs -> basis xs L -> length c <= length xs ->
    sumn (length xs) (fun k => smul (peval (L k) x) (peval c (nth k xs 0))) = peval c x.
  Proof.
    intros ND B Hc.
    set (d := psum (length xs) (fun k => pouter (L k) (peval c (nth k xs 0)))).
    assert (Ed : forall y, peval d y = sumn (length xs) (fun k => smul (peval (L k) y) (peval c (nth k xs 0)))).
    { intros y. unfold d. rewrite peval_psum. apply sumn_ext. intros k Hk. apply peval_pouter. }
    rewrite <- Ed. apply (@peval_unique F G FF AG MD xs); [exact ND| |exact Hc|].
    - unfold d. apply length_psum. intros k Hk. unfold pouter. rewrite map_length. apply B. exact Hk.
    - intros a Ha. destruct (In_nth _ _ 0 Ha) as (j & Hj & <-). rewrite Ed.
      exact (interp_points (fun k => peval c (nth k xs 0)) B Hj).
  Qed.
End PolyMul.
Arguments interp_unique {F G FF AG MD} [xs L] c x _ _ _.
Arguments interp_points {F G FF AG MD} [xs L] v [j] _ _.
