(** * Algebraic carriers used by the model

    ark-ff / ark-ec types are not modelled; protocols are stated for every
    carrier with the laws below:
    - [AbGrp]: field, ring, curve-point and xor-bitstring addition,
    - [Bilin]: field multiplication, scalar times point, bitwise and. *)
From Coq Require Import List ZArith Lia Ring Ring_theory Bool.
Import ListNotations.

Class AbGrp (G : Type) := {
  gzero : G;
  gadd : G -> G -> G;
  gneg : G -> G;
  gadd_assoc : forall x y z, gadd x (gadd y z) = gadd (gadd x y) z;
  gadd_comm : forall x y, gadd x y = gadd y x;
  gadd_0 : forall x, gadd gzero x = x;
  gadd_neg : forall x, gadd x (gneg x) = gzero }.

Definition gsub {G} `{AbGrp G} (x y : G) : G := gadd x (gneg y).

Declare Scope grp_scope.
Delimit Scope grp_scope with grp.
Infix "+" := gadd : grp_scope.
Infix "-" := gsub : grp_scope.
Notation "- x" := (gneg x) : grp_scope.
Notation "0" := gzero : grp_scope.

Class Bilin (A B C : Type) `{AbGrp A} `{AbGrp B} `{AbGrp C} := {
  bmul : A -> B -> C;
  bmul_add_l : forall x y z, bmul (gadd x y) z = gadd (bmul x z) (bmul y z);
  bmul_add_r : forall x y z, bmul x (gadd y z) = gadd (bmul x y) (bmul x z) }.

(** ** A decision procedure for abelian groups *)
Section GrpTac.
  Context {G : Type} `{AG : AbGrp G}.
  Local Open Scope grp_scope.

  Lemma gadd_0_r x : x + 0 = x.
  Proof. rewrite gadd_comm. apply gadd_0. Qed.
  Lemma gadd_neg_l x : - x + x = 0.
  Proof. rewrite gadd_comm. apply gadd_neg. Qed.
  Lemma gcancel_l x y z : x + y = x + z -> y = z.
  Proof.
    intros E. rewrite <- (gadd_0 y), <- (gadd_0 z), <- (gadd_neg_l x), <- !gadd_assoc, E. reflexivity.
  Qed.
  Lemma gneg_unique x y : x + y = 0 -> y = - x.
  Proof. intros E. apply (gcancel_l x). rewrite E, gadd_neg. reflexivity. Qed.
  Lemma gneg_0 : - 0 = (0 : G).
  Proof. symmetry. apply gneg_unique. apply gadd_0. Qed.
  Lemma gneg_neg x : - - x = x.
  Proof. symmetry. apply gneg_unique. apply gadd_neg_l. Qed.
  Lemma gneg_add x y : - (x + y) = - x + - y.
  Proof.
    symmetry. apply gneg_unique.
    rewrite (gadd_comm (- x)), gadd_assoc, <- (gadd_assoc x), gadd_neg, gadd_0_r. apply gadd_neg.
  Qed.

  Fixpoint nmul (n : nat) (x : G) : G := match n with O => 0 | S n => x + nmul n x end.
  Definition zmul (z : Z) (x : G) : G :=
    match z with Z0 => 0 | Zpos p => nmul (Pos.to_nat p) x | Zneg p => - nmul (Pos.to_nat p) x end.
  Lemma nmul_add n m x : nmul (n + m) x = nmul n x + nmul m x.
  Proof. induction n as [|n IH]; cbn; [rewrite gadd_0; reflexivity|]. rewrite IH, gadd_assoc. reflexivity. Qed.
  Lemma zmul_nat n m x : zmul (Z.of_nat n - Z.of_nat m) x = nmul n x + - nmul m x.
  Proof.
    destruct (Z.compare_spec (Z.of_nat n) (Z.of_nat m)) as [E|E|E].
    - assert (n = m) by lia. subst m. rewrite Z.sub_diag, gadd_neg. reflexivity.
    - assert (exists d, m = n + S d)%nat as [d ->] by (exists (m - n - 1)%nat; lia).
      replace (Z.of_nat n - Z.of_nat (n + S d))%Z with (Zneg (Pos.of_succ_nat d)) by lia.
      cbn [zmul]. rewrite SuccNat2Pos.id_succ, nmul_add, gneg_add, gadd_assoc, gadd_neg, gadd_0. reflexivity.
    - assert (exists d, n = m + S d)%nat as [d ->] by (exists (n - m - 1)%nat; lia).
      replace (Z.of_nat (m + S d) - Z.of_nat m)%Z with (Zpos (Pos.of_succ_nat d)) by lia.
      cbn [zmul]. rewrite SuccNat2Pos.id_succ, Nat.add_comm, nmul_add, <- gadd_assoc, gadd_neg, gadd_0_r. reflexivity.
  Qed.
  Lemma Z_diff (z : Z) : exists n m, z = (Z.of_nat n - Z.of_nat m)%Z.
  Proof. exists (Z.to_nat z), (Z.to_nat (- z)). lia. Qed.
  Lemma zmul_add z w x : zmul (z + w) x = zmul z x + zmul w x.
  Proof.
    destruct (Z_diff z) as (a & b & ->), (Z_diff w) as (c & d & ->).
    replace (Z.of_nat a - Z.of_nat b + (Z.of_nat c - Z.of_nat d))%Z
      with (Z.of_nat (a + c) - Z.of_nat (b + d))%Z by lia.
    rewrite !zmul_nat, !nmul_add, gneg_add, !gadd_assoc. f_equal.
    rewrite <- !gadd_assoc. f_equal. apply gadd_comm.
  Qed.
  Lemma zmul_opp z x : zmul (- z) x = - zmul z x.
  Proof.
    apply gneg_unique. rewrite <- zmul_add. rewrite Z.add_opp_diag_r. reflexivity.
  Qed.

  Inductive gexp := GV (n : nat) | G0 | GA (a b : gexp) | GN (a : gexp).
  Fixpoint gden (env : list G) (e : gexp) : G :=
    match e with
    | GV n => nth n env 0
    | G0 => 0
    | GA a b => gden env a + gden env b
    | GN a => - gden env a
    end.
  (* normal form: one coefficient per variable *)
  Fixpoint unit_v (n : nat) : list Z := match n with O => [1%Z] | S n => 0%Z :: unit_v n end.
  Fixpoint vadd (a b : list Z) : list Z :=
    match a, b with
    | [], _ => b | _, [] => a
    | x :: a, y :: b => (x + y)%Z :: vadd a b
    end.
  Fixpoint gnf (e : gexp) : list Z :=
    match e with
    | GV n => unit_v n
    | G0 => []
    | GA a b => vadd (gnf a) (gnf b)
    | GN a => map Z.opp (gnf a)
    end.
  Fixpoint gval (env : list G) (v : list Z) : G :=
    match v with
    | [] => 0
    | z :: v => zmul z (hd 0 env) + gval (tl env) v
    end.
  Lemma gval_unit n : forall env, gval env (unit_v n) = nth n env 0.
  Proof.
    induction n as [|n IH]; intros env; cbn [unit_v gval].
    - rewrite gadd_0_r. change (zmul 1 (hd 0 env)) with (hd 0 env + 0). rewrite gadd_0_r.
      destruct env; reflexivity.
    - rewrite IH. cbn [zmul]. rewrite gadd_0. destruct env; cbn; [destruct n; reflexivity|reflexivity].
  Qed.
  Lemma gval_add a : forall env b, gval env (vadd a b) = gval env a + gval env b.
  Proof.
    induction a as [|x a IH]; intros env b.
    - cbn. rewrite gadd_0. reflexivity.
    - destruct b as [|y b]; cbn [vadd gval]; [rewrite gadd_0_r; reflexivity|].
      rewrite IH, zmul_add, !gadd_assoc. f_equal. rewrite <- !gadd_assoc. f_equal. apply gadd_comm.
  Qed.
  Lemma gval_opp a : forall env, gval env (map Z.opp a) = - gval env a.
  Proof.
    induction a as [|x a IH]; intros env; cbn [map gval]; [symmetry; apply gneg_0|].
    rewrite IH, zmul_opp, gneg_add. reflexivity.
  Qed.
  Lemma gnf_ok env e : gden env e = gval env (gnf e).
  Proof.
    induction e as [n| |a IHa b IHb|a IHa]; cbn [gden gnf].
    - symmetry. apply gval_unit.
    - reflexivity.
    - rewrite gval_add, IHa, IHb. reflexivity.
    - rewrite gval_opp, IHa. reflexivity.
  Qed.
  Fixpoint vzero (v : list Z) : bool := match v with [] => true | z :: v => (z =? 0)%Z && vzero v end.
  Lemma vzero_ok v : forall env, vzero v = true -> gval env v = 0.
  Proof.
    induction v as [|z v IH]; cbn; intros env H; [reflexivity|].
    apply andb_prop in H. destruct H as [Hz Hv]. apply Z.eqb_eq in Hz. subst z.
    cbn [zmul]. rewrite gadd_0. apply IH. exact Hv.
  Qed.
  Lemma grp_decide env a b : vzero (gnf (GA a (GN b))) = true -> gden env a = gden env b.
  Proof.
    intros H. apply vzero_ok with (env := env) in H. rewrite <- gnf_ok in H. cbn [gden] in H.
    rewrite gadd_comm in H. apply (gcancel_l (- gden env b)). rewrite H, gadd_neg_l. reflexivity.
  Qed.
End GrpTac.

Ltac grp_index x env :=
  match env with
  | x :: _ => constr:(O)
  | _ :: ?t => let n := grp_index x t in constr:(S n)
  end.
Ltac grp_addv x env :=
  match env with
  | context [x :: _] => env
  | _ => constr:(x :: env)
  end.
Ltac grp_vars e env :=
  match e with
  | gadd ?a ?b => let env := grp_vars a env in grp_vars b env
  | gsub ?a ?b => let env := grp_vars a env in grp_vars b env
  | gneg ?a => grp_vars a env
  | gzero => env
  | _ => grp_addv e env
  end.
Ltac grp_reify e env :=
  match e with
  | gadd ?a ?b => let a := grp_reify a env in let b := grp_reify b env in constr:(GA a b)
  | gsub ?a ?b => let a := grp_reify a env in let b := grp_reify b env in constr:(GA a (GN b))
  | gneg ?a => let a := grp_reify a env in constr:(GN a)
  | gzero => constr:(G0)
  | _ => let n := grp_index e env in constr:(GV n)
  end.
(** Proves equations between abelian-group expressions. *)
Ltac grp :=
  match goal with
  | |- @eq ?G ?a ?b =>
      let env := grp_vars a (@nil G) in
      let env := grp_vars b env in
      let ra := grp_reify a env in
      let rb := grp_reify b env in
      exact (grp_decide env ra rb eq_refl)
  end.

Section BilinFacts.
  Context {A B C : Type} `{BL : Bilin A B C}.
  Local Open Scope grp_scope.
  Lemma bmul_0_l y : bmul 0 y = 0.
  Proof.
    pose proof (bmul_add_l 0 0 y) as E. rewrite gadd_0 in E.
    apply (gcancel_l (bmul 0 y)). rewrite <- E, gadd_0_r. reflexivity.
  Qed.
  Lemma bmul_0_r x : bmul x 0 = 0.
  Proof.
    pose proof (bmul_add_r x 0 0) as E. rewrite gadd_0 in E.
    apply (gcancel_l (bmul x 0)). rewrite <- E, gadd_0_r. reflexivity.
  Qed.
  Lemma bmul_neg_l x y : bmul (- x) y = - bmul x y.
  Proof. apply gneg_unique. rewrite <- bmul_add_l, gadd_neg. apply bmul_0_l. Qed.
  Lemma bmul_neg_r x y : bmul x (- y) = - bmul x y.
  Proof. apply gneg_unique. rewrite <- bmul_add_r, gadd_neg. apply bmul_0_r. Qed.
  Lemma bmul_sub_l x y z : bmul (x - y) z = bmul x z - bmul y z.
  Proof. unfold gsub. rewrite bmul_add_l, bmul_neg_l. reflexivity. Qed.
  Lemma bmul_sub_r x y z : bmul x (y - z) = bmul x y - bmul x z.
  Proof. unfold gsub. rewrite bmul_add_r, bmul_neg_r. reflexivity. Qed.
End BilinFacts.

(** ** Commutative rings *)
Class CRing (R : Type) := {
  cr_grp :> AbGrp R;
  rone : R;
  rmul : R -> R -> R;
  rmul_comm : forall x y, rmul x y = rmul y x;
  rmul_assoc : forall x y z, rmul x (rmul y z) = rmul (rmul x y) z;
  rmul_1 : forall x, rmul rone x = x;
  rmul_add_l : forall x y z, rmul (gadd x y) z = gadd (rmul x z) (rmul y z) }.

Lemma cring_theory {R} `{CRing R} : ring_theory gzero rone gadd rmul gsub gneg (@eq R).
Proof.
  constructor; intros; try reflexivity.
  - apply gadd_0.
  - apply gadd_comm.
  - apply gadd_assoc.
  - apply rmul_1.
  - apply rmul_comm.
  - apply rmul_assoc.
  - apply rmul_add_l.
  - apply gadd_neg.
Qed.

#[export] Instance ring_bilin {R} `{CRing R} : Bilin R R R.
Proof.
  refine {| bmul := rmul |}.
  - apply rmul_add_l.
  - intros. rewrite !(rmul_comm x). apply rmul_add_l.
Defined.

(** Fields, with decidable zero test ([ark_ff::Field::inverse] returns [None] on 0). *)
Class Fld (F : Type) := {
  fld_ring :> CRing F;
  finv : F -> F;
  feqb : F -> F -> bool;
  feqb_spec : forall x y, feqb x y = true <-> x = y;
  f_1_neq_0 : (rone : F) <> gzero;
  finv_l : forall x, x <> gzero -> rmul (finv x) x = rone }.

(** Modules over a ring: curve points. *)
Class Mod (R G : Type) `{CRing R} `{AbGrp G} := {
  smul : R -> G -> G;
  smul_add_l : forall r s x, smul (gadd r s) x = gadd (smul r x) (smul s x);
  smul_add_r : forall r x y, smul r (gadd x y) = gadd (smul r x) (smul r y);
  smul_mul : forall r s x, smul (rmul r s) x = smul r (smul s x);
  smul_1 : forall x, smul rone x = x }.

#[export] Instance mod_bilin {R G} `{Mod R G} : Bilin R G G :=
  {| bmul := smul; bmul_add_l := smul_add_l; bmul_add_r := smul_add_r |}.
(** A ring is a module over itself. *)
#[export] Instance mod_self {R} `{CRing R} : Mod R R.
Proof.
  refine {| smul := rmul |}.
  - apply rmul_add_l.
  - intros. rewrite !(rmul_comm r). apply rmul_add_l.
  - intros. symmetry. apply rmul_assoc.
  - apply rmul_1.
Defined.

(** ** xor on natural numbers: the carrier of binary shares (fixed-width unsigned
    integers of mpc-core/src/uint; widths are tracked separately). *)
#[export] Instance xor_grp : AbGrp N.
Proof.
  refine {| gzero := 0%N; gadd := N.lxor; gneg := fun x => x |}; intros.
  - symmetry. apply N.lxor_assoc.
  - apply N.lxor_comm.
  - apply N.lxor_0_l.
  - apply N.lxor_nilpotent.
Defined.
#[export] Instance and_bilin : Bilin N N N.
Proof.
  refine {| bmul := N.land |}; cbn; intros; apply N.bits_inj; intro n;
    rewrite ?N.land_spec, ?N.lxor_spec, ?N.land_spec;
    destruct (N.testbit x n), (N.testbit y n), (N.testbit z n); reflexivity.
Defined.

(** ** Lists *)
Fixpoint map2 {A B C} (f : A -> B -> C) (l : list A) (k : list B) : list C :=
  match l, k with
  | x :: l, y :: k => f x y :: map2 f l k
  | _, _ => []
  end.
Lemma map2_length {A B C} (f : A -> B -> C) l : forall k,
  length (map2 f l k) = Nat.min (length l) (length k).
Proof. induction l as [|x l IH]; intros [|y k]; cbn; auto. Qed.
Lemma map2_nth {A B C} (f : A -> B -> C) l : forall k n da db dc,
  n < length l -> n < length k -> nth n (map2 f l k) dc = f (nth n l da) (nth n k db).
Proof.
  induction l as [|x l IH]; intros [|y k] [|n] da db dc H1 H2; cbn in *; try lia; auto.
  apply IH; lia.
Qed.
Lemma list_ext {A} (d : A) (l k : list A) :
  length l = length k -> (forall n, n < length l -> nth n l d = nth n k d) -> l = k.
Proof. apply nth_ext. Qed.
