(** * A concrete curve for the examples: y^2 = x^3 + 2 over the field with 13 elements, 19 points *)
From Coq Require Import List NArith ZArith Znumtheory Lia Bool.
From Verif Require Import Proc Alg Zp Rep3Net Rep3 Rep3Spec Uint Binary Conv Concrete ConcreteU Point.
Import ListNotations.
Local Open Scope grp_scope.

Notation G19 := (Zmod 19).
Notation g19 := (@ofZ 19).
(** the multiples of (1, 4) *)
Definition curve_tab : list (option (Z * Z)) :=
  [None; Some (1, 4); Some (2, 7); Some (6, 7); Some (10, 1); Some (5, 6); Some (4, 1); Some (9, 4); Some (3, 9); Some (12, 1);
   Some (12, 12); Some (3, 4); Some (9, 9); Some (4, 12); Some (5, 7); Some (10, 12); Some (6, 6); Some (2, 6); Some (1, 9)]%Z.
Definition fxy (c : option (Z * Z)) : option (F13 * F13) := match c with Some (x, y) => Some (f13 x, f13 y) | None => None end.
Definition xy19 (p : G19) : option (F13 * F13) := fxy (nth (Z.to_nat (val p)) curve_tab None).
Definition xy_eqb (a b : option (F13 * F13)) : bool :=
  match a, b with
  | Some (x, y), Some (x', y') => feqb x x' && feqb y y'
  | None, None => true
  | _, _ => false
  end.
Lemma xy_eqb_spec a b : xy_eqb a b = true <-> a = b.
Proof.
  destruct a as [[x y]|], b as [[x' y']|]; cbn [xy_eqb]; split; intros E; try discriminate; try reflexivity.
  - apply andb_true_iff in E. destruct E as [E1 E2]. apply feqb_spec in E1. apply feqb_spec in E2. congruence.
  - injection E as -> ->. apply andb_true_iff. split; apply feqb_spec; reflexivity.
Qed.
Definition pts : list G19 := map (fun k => g19 (Z.of_nat k)) (seq 0 19).
Definition fs : list F13 := map (fun k => f13 (Z.of_nat k)) (seq 0 13).
Lemma pts_all (p : G19) : In p pts.
Proof.
  unfold pts. apply in_map_iff. exists (Z.to_nat (val p)). pose proof (val_range p). split.
  - rewrite Z2Nat.id by lia. apply ofZ_val.
  - apply in_seq. lia.
Qed.
Lemma fs_all (x : F13) : In x fs.
Proof.
  unfold fs. apply in_map_iff. exists (Z.to_nat (val x)). pose proof (val_range x). split.
  - rewrite Z2Nat.id by lia. apply ofZ_val.
  - apply in_seq. lia.
Qed.
Definition of_xy19 (x y : F13) : option G19 := find (fun p => xy_eqb (xy19 p) (Some (x, y))) pts.
Definition zero19 (p : G19) : bool := Z.eqb (val p) 0.
Lemma zero19_spec p : zero19 p = true <-> p = 0.
Proof.
  unfold zero19. rewrite Z.eqb_eq. split; [|intros ->; reflexivity]. intros E. apply Zmod_eq. exact E.
Qed.
Lemma same19 (p q : G19) : Z.eqb (val p) (val q) = true <-> p = q.
Proof. rewrite Z.eqb_eq. split; [apply Zmod_eq|intros ->; reflexivity]. Qed.
Lemma all_pts (f : G19 -> bool) : forallb f pts = true -> forall p, f p = true.
Proof. intros E p. exact (proj1 (forallb_forall f pts) E p (pts_all p)). Qed.
Lemma all_fs (f : F13 -> bool) : forallb f fs = true -> forall p, f p = true.
Proof. intros E p. exact (proj1 (forallb_forall f fs) E p (fs_all p)). Qed.
Definition chk_zero (p : G19) := match xy19 p with None => zero19 p | Some _ => negb (zero19 p) end.
Definition chk_inj (p : G19) := forallb (fun q => implb (xy_eqb (xy19 q) (xy19 p)) (Z.eqb (val q) (val p))) pts.
Definition chk_neg (p : G19) := match xy19 p with Some (x, y) => xy_eqb (xy19 (- p)) (Some (x, - y)) | None => true end.
Definition chk_same (p : G19) := forallb (fun q => match xy19 p, xy19 q with
  | Some (x, y), Some (x', y') => implb (feqb x x') (Z.eqb (val q) (val p) || Z.eqb (val q) (val (- p))) | _, _ => true end) pts.
Definition chk_chord (p : G19) := forallb (fun q => match xy19 p, xy19 q with
  | Some a, Some b => feqb (fst a) (fst b) || xy_eqb (xy19 (p + q)) (Some (chord a b)) | _, _ => true end) pts.
Lemma chk_all : forallb (fun p => chk_zero p && chk_inj p && chk_neg p && chk_same p && chk_chord p) pts = true.
Proof. vm_compute. reflexivity. Qed.
Lemma chk p : chk_zero p = true /\ chk_inj p = true /\ chk_neg p = true /\ chk_same p = true /\ chk_chord p = true.
Proof. pose proof (all_pts _ chk_all p) as A. cbv beta in A. rewrite !andb_true_iff in A. tauto. Qed.
#[export] Instance curve19 : Curve F13 G19.
Proof.
  refine {| xy := xy19; of_xy := of_xy19 |}.
  - intros p. rewrite <- zero19_spec. destruct (chk p) as (X & _). unfold chk_zero in X.
    destruct (xy19 p), (zero19 p); cbn in X; split; intros E; congruence.
  - intros x y p. unfold of_xy19. split; intros E.
    + apply find_some in E. destruct E as [_ E]. apply xy_eqb_spec in E. exact E.
    + assert (X : forall q, xy19 q = Some (x, y) -> q = p).
      { intros q Eq. apply same19. rewrite <- E in Eq. destruct (chk p) as (_ & A & _). unfold chk_inj in A.
        rewrite forallb_forall in A. specialize (A q (pts_all q)). apply xy_eqb_spec in Eq. rewrite Eq in A. exact A. }
      destruct (find _ pts) as [q|] eqn:Ef.
      * apply find_some in Ef. destruct Ef as [_ Ef]. apply xy_eqb_spec in Ef. f_equal. apply X. exact Ef.
      * pose proof (find_none _ _ Ef p (pts_all p)) as N. cbv beta in N. apply xy_eqb_spec in E. congruence.
  - intros p x y E. destruct (chk p) as (_ & _ & A & _). unfold chk_neg in A. rewrite E in A. apply xy_eqb_spec in A. exact A.
  - intros p q x y y' E1 E2. destruct (chk p) as (_ & _ & _ & A & _). unfold chk_same in A.
    rewrite forallb_forall in A. specialize (A q (pts_all q)). cbv beta in A. rewrite E1, E2 in A.
    rewrite (proj2 (feqb_spec x x) eq_refl) in A. cbn [implb] in A. apply orb_true_iff in A. rewrite !same19 in A. exact A.
  - intros p q a b E1 E2 N. destruct (chk p) as (_ & _ & _ & _ & A). unfold chk_chord in A.
    rewrite forallb_forall in A. specialize (A q (pts_all q)). cbv beta in A. rewrite E1, E2 in A.
    apply orb_true_iff in A. destruct A as [A|A]; [apply feqb_spec in A; contradiction|]. apply xy_eqb_spec in A. exact A.
Defined.
(** the points with coordinates are those on the curve *)
Definition chk_eq (x : F13) := forallb (fun y => Bool.eqb (existsb (fun p => xy_eqb (xy19 p) (Some (x, y))) pts)
  (feqb (rmul y y) (rmul x (rmul x x) + f13 2))) fs.
Lemma curve19_eq : forall x y : F13, (exists p : G19, xy p = Some (x, y)) <-> rmul y y = rmul x (rmul x x) + f13 2.
Proof.
  intros x y. pose proof (all_fs chk_eq ltac:(vm_compute; reflexivity) x) as A. unfold chk_eq in A.
  rewrite forallb_forall in A. specialize (A y (fs_all y)). apply eqb_prop in A.
  rewrite <- feqb_spec, <- A, existsb_exists. split.
  - intros [p E]. exists p. split; [apply pts_all|apply xy_eqb_spec; exact E].
  - intros (p & _ & E). exists p. apply xy_eqb_spec. exact E.
Qed.

(** messages: those of the field protocols and lists of lists *)
Inductive cmsg : Type := CB (m : msg) | CL (l : list (list F13)).
#[export] Instance cenc_b {A} {E : Enc msg A} : Enc cmsg A.
Proof.
  refine {| enc := fun x => CB (enc x); dec := fun m => match m with CB b => dec b | _ => None end |}. intros x. apply dec_enc.
Defined.
#[export] Instance cenc_l : Enc cmsg (list (list F13)).
Proof. refine {| enc := CL; dec := fun m => match m with CL l => Some l | _ => None end |}. reflexivity. Defined.
#[export] Instance draw19 : Draw Z G19 := fun s => (g19 (s / 65536), ((s * 1103515245 + 12345) mod 2147483648)%Z).
(** a vector from one read of the generator *)
Fixpoint drawv13 (n : nat) (s : Z) : list F13 * Z :=
  match n with O => ([], s) | S n => (fst (draw s) :: fst (drawv13 n (snd (draw s))), snd (drawv13 n (snd (draw s)))) end.
Lemma drawv13_len n s : length (fst (drawv13 n s)) = n.
Proof. revert s. induction n; intros s; cbn; [reflexivity|]. rewrite IHn. reflexivity. Qed.
(** sharing of [v] with components [a], [b] *)
Definition sh19 (v a b : Z) : pid -> share G19 := fun i =>
  match i with
  | P0 => mkShare (g19 a) (g19 (v - a - b))
  | P1 => mkShare (g19 b) (g19 a)
  | P2 => mkShare (g19 (v - a - b)) (g19 b)
  end%Z.
Lemma sh19_shares v a b : shares (sh19 v a b) (g19 v).
Proof.
  split; [intros []; reflexivity|]. unfold additive, sh19. cbn [sa].
  etransitivity; [exact (ofZ_sum3 _ _ _)|f_equal; lia].
Qed.
(** a state whose point masks are not zero *)
Definition stc : pid -> rst Z := fun i =>
  match i with
  | P0 => mkRst 11111111 33333333 (mkBC 70001 140003 None) (mkBC 210005 280007 (Some 350009))
  | P1 => mkRst 22222222 11111111 (mkBC 420011 140003 (Some 70001)) (mkBC 280007 210005 None)
  | P2 => mkRst 33333333 22222222 (mkBC 140003 70001 (Some 420011)) (mkBC 350009 210005 (Some 280007))
  end%Z.
Lemma stc_synced : synced stc.
Proof.
  constructor.
  - intros []; reflexivity.
  - do 3 eexists. split; reflexivity.
  - do 3 eexists. split; reflexivity.
Qed.
