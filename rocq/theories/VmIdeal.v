(** * The co-circom MPC-VM: what the driver of three parties computes on the values behind its shares

    [tv] is a value with the tag that a [Rep3VmType] carries (public or shared), with the secret in
    place of the shares.  [ideal_bop] and its companions say what mpc/rep3.rs returns on such
    values; VmDriverWp.v proves that the three parties compute exactly this.  The lemmas below
    compare them with the driver on clear values. *)
From Coq Require Import String List Arith NArith Lia Bool Ring.
From Verif Require Import Proc Alg Rep3Net Rep3 Rep3Spec Rep3Proofs Rep3Wp Uint Binary Conv ConvWp CmpWp Garble Circuits Yao VmDriver.
Import ListNotations.
Set Implicit Arguments.
Local Open Scope grp_scope.
Local Open Scope string_scope.

(** rep3.rs:33-42 with the secret in place of the share *)
Inductive tv (F : Type) : Type := Pub : F -> tv F | Sh : F -> tv F.
Arguments Pub {F}. Arguments Sh {F}.
Definition tval {F} (a : tv F) : F := match a with Pub x | Sh x => x end.
Definition tshared {F} (a : tv F) : bool := match a with Pub _ => false | Sh _ => true end.

(** nothing is claimed about the parties in these cases *)
Definition undef : err := Panic "unspecified".

Section Ideal.
  Context {F : Type} `{FU : FieldUint F}.
  Variable fsqrt : F -> option F.
  Notation p := (fu_p (F := F)).
  Add Ring Fr : (cring_theory (R := F)).

  (** one operand at least is shared *)
  Definition mixed_bop (o : bop) (a b : tv F) : outcome (tv F) :=
    let x := tval a in let y := tval b in
    let bool_ c := Done (Sh (boolF c)) in
    let todo := Failed (Panic "not yet implemented") in
    match o with
    | OAdd => Done (Sh (x + y))
    | OSub => Done (Sh (x - y))
    | OMul => Done (Sh (rmul x y))
    | ODiv => if feqb y 0 then Failed inv_err else Done (Sh (rmul x (finv y)))
    | OIntDiv => if feqb y 0 then Failed undef else Done (Sh (of_uint (to_uint x / to_uint y)))
    | OPow => match b with
              | Pub y => if feqb y 0 then Done (Pub rone) else Done (Sh (rpow x (N.to_nat (to_uint y))))
              | Sh _ => todo
              end
    | OMod => if feqb y 0 then Failed undef
              else match b with
                   | Pub _ => if feqb y rone then Failed (Panic "attempt to divide by zero")
                              else Done (Sh (of_uint (to_uint x mod to_uint y)))
                   | Sh _ => Done (Sh (of_uint (to_uint x mod to_uint y)))
                   end
    (* rep3.rs:268-350: with a public left operand the comparison is the one of the opposite
       strictness *)
    | OLt => bool_ (if tshared a then to_uint (val x) <? to_uint (val y) else to_uint (val x) <=? to_uint (val y))%N
    | OLe => bool_ (if tshared a then to_uint (val x) <=? to_uint (val y) else to_uint (val x) <? to_uint (val y))%N
    | OGt => bool_ (if tshared a then to_uint (val y) <? to_uint (val x) else to_uint (val y) <=? to_uint (val x))%N
    | OGe => bool_ (if tshared a then to_uint (val y) <=? to_uint (val x) else to_uint (val y) <? to_uint (val x))%N
    | OEq => bool_ (feqb x y)
    | ONeq => bool_ (negb (feqb x y))
    | OShiftR => match a, b with
                 | Pub _, _ => if feqb x 0 then Done (Pub 0) else todo
                 | _, Pub _ => if (to_uint y <? 2 ^ 64)%N then Done (Sh (of_uint (ushr (to_uint x) (N.to_nat (to_uint y)))))
                               else Failed (Panic "shift_r_public")
                 | _, _ => todo
                 end
    | OShiftL => match a, b with
                 | Pub _, _ => if feqb x 0 then Done (Pub 0)
                               else Done (Sh (rmul x (rpow (rone + rone) (N.to_nat (to_uint y mod 256)))))
                 | _, Pub _ => if (to_uint y =? 0)%N || (to_uint y <? 2 ^ 32)%N && (to_uint y <? N.of_nat (mbs F))%N
                               then Done (Sh (rmul x (rpow (rone + rone) (N.to_nat (to_uint y)))))
                               else Failed (Panic "pow_2_public")
                 | _, _ => todo
                 end
    | OBoolOr => Done (Sh (x + y - rmul x y))
    | OBoolAnd => Done (Sh (rmul x y))
    | OBitOr => let u := N.lor (to_uint x) (to_uint y) in if (u <? p)%N then Done (Sh (of_uint u)) else Failed undef
    | OBitAnd => Done (Sh (of_uint (N.land (to_uint x) (to_uint y))))
    | OBitXor => let u := N.lxor (to_uint x) (to_uint y) in if (u <? p)%N then Done (Sh (of_uint u)) else Failed undef
    end.
  Definition ideal_bop (o : bop) (a b : tv F) : outcome (tv F) :=
    match a, b with
    | Pub x, Pub y => omap Pub (plain_bop o x y)
    | _, _ => mixed_bop o a b
    end.
  Definition nonneg (r : F) : F := if is_negative r then - r else r.
  Definition ideal_uop (o : uop) (a : tv F) : outcome (tv F) :=
    match a with
    | Pub x => omap Pub (plain_uop fsqrt o x)
    | Sh x => match o with
              | ONeg => Done (Sh (- x))
              | OSqrt => match fsqrt x with None => Failed (Eyre "cannot compute sqrt") | Some r => Done (Sh (nonneg r)) end
              | OBoolNot => Done (Sh (rone - x))
              end
    end.
  Definition ideal_cmux (c a b : tv F) : outcome (tv F) :=
    match c with
    | Pub c => if is01 c then Done (if feqb c rone then a else b) else Failed (Panic "assertion failed")
    | Sh c => Done (Sh (tval b + rmul c (tval a - tval b)))
    end.
  Definition ideal_is_zero (a : tv F) (allow : bool) : outcome bool :=
    if negb allow && tshared a then Failed (Eyre "allow_secret_inputs is false and input is shared")
    else Done (feqb (tval a) 0).
  Definition ideal_to_index (a : tv F) : outcome N :=
    match a with Pub x => to_usize x | Sh _ => Failed (Eyre "ToIndex called on shared value!") end.
  Definition ideal_num2bits (a : tv F) (bits : nat) : list (tv F) :=
    map (if tshared a then Sh else Pub) (plain_num2bits (tval a) bits).
  Definition ideal_addbits (a b : list (tv F)) : outcome (list (tv F) * tv F) :=
    omap (fun r => (map Sh (fst r), Sh (snd r))) (plain_addbits (map tval a) (map tval b)).

  (** ** Arithmetic of the representatives *)
  Lemma of_uint_0' : of_uint (F := F) 0 = 0.
  Proof. rewrite <- (to_uint_zero (F := F)). apply of_to_uint. Qed.
  Lemma of_uint_add u v : (u + v < p)%N -> of_uint (F := F) (u + v) = of_uint u + of_uint v.
  Proof.
    intros L. rewrite <- (of_to_uint (of_uint u + of_uint v)), to_uint_add, !to_of_uint by lia. rewrite N.mod_small by exact L. reflexivity.
  Qed.
  Lemma of_uint_mul u v : (u * v < p)%N -> (v < p)%N -> of_uint (F := F) (u * v) = rmul (of_uint u) (of_uint v).
  Proof.
    induction u as [|u IH] using N.peano_ind; intros L Lv.
    - cbn [N.mul]. rewrite of_uint_0'. ring.
    - assert (Hp : (1 < p)%N) by (pose proof (to_uint_lt (F := F) rone); rewrite to_uint_one in *; assumption).
      destruct (N.eq_dec v 0) as [->|Hv]; [rewrite N.mul_0_r, of_uint_0'; ring|].
      assert (Lu : (N.succ u <= N.succ u * v)%N) by nia.
      rewrite N.mul_succ_l in *. rewrite of_uint_add, IH by lia.
      rewrite <- N.add_1_r, of_uint_add by lia. rewrite <- (to_uint_one (F := F)), of_to_uint. ring.
  Qed.
  Lemma div_mod_field (x y : F) : y <> 0 -> x - rmul (of_uint (to_uint x / to_uint y)) y = of_uint (to_uint x mod to_uint y).
  Proof.
    intros Hy. set (u := to_uint x). set (v := to_uint y).
    assert (Hv : v <> 0%N). { intros E. apply Hy. rewrite <- (of_to_uint y). fold v. rewrite E. apply of_uint_0'. }
    pose proof (to_uint_lt x) as Lx. pose proof (to_uint_lt y) as Ly. fold u in Lx. fold v in Ly.
    pose proof (N.div_mod u v Hv) as E. pose proof (N.mod_lt u v Hv).
    assert (L : (u / v * v + u mod v < p)%N) by nia.
    assert (Ex : x = rmul (of_uint (u / v)) (of_uint v) + of_uint (u mod v)).
    { rewrite <- of_uint_mul by (try exact Ly; revert L; generalize (u / v * v)%N (u mod v)%N; intros; lia).
      rewrite <- of_uint_add by exact L. rewrite (N.mul_comm (u / v)), <- E. symmetry. apply of_to_uint. }
    rewrite Ex. unfold v at 2. rewrite of_to_uint. ring.
  Qed.
  Lemma to_uint_inj (x y : F) : to_uint x = to_uint y -> x = y.
  Proof. intros E. rewrite <- (of_to_uint x), E. apply of_to_uint. Qed.
  Lemma to_uint_eq0 (x : F) : (to_uint x =? 0)%N = feqb x 0.
  Proof.
    destruct (N.eqb_spec (to_uint x) 0) as [E|E]; symmetry.
    - apply feqb_spec. apply to_uint_inj. rewrite E. symmetry. apply to_uint_zero.
    - destruct (feqb x 0) eqn:E'; [|reflexivity]. apply feqb_spec in E'. subst. rewrite to_uint_zero in E. contradiction.
  Qed.
  Lemma val_inj (x y : F) : val x = val y -> x = y.
  Proof. unfold val. intros E. transitivity (x - half + half); [ring|]. rewrite E. ring. Qed.

  (** the point where the negative numbers start *)
  Hypothesis p_odd : N.odd p = true.
  Lemma p_gt1 : (1 < p)%N.
  Proof. pose proof (to_uint_lt (F := F) rone). rewrite to_uint_one in *. assumption. Qed.
  Lemma two_neq0 : rone + rone <> (0 : F).
  Proof.
    intros E. apply (f_equal (fun x => to_uint x)) in E. rewrite to_uint_add, to_uint_one, to_uint_zero in E. pose proof p_gt1.
    destruct (N.eq_dec p 2) as [E2|E2]; [rewrite E2 in p_odd; discriminate|]. rewrite N.mod_small in E by lia. discriminate.
  Qed.
  Lemma half_twice : half + half = (rone : F).
  Proof. unfold half. transitivity (rmul (finv (rone + rone)) (rone + rone) : F); [ring|]. apply finv_l. exact two_neq0. Qed.
  Lemma to_uint_half : (2 * to_uint (half (F := F)) = p + 1)%N.
  Proof.
    pose proof (f_equal (fun x => to_uint x) half_twice) as E. cbv beta in E. rewrite to_uint_add, to_uint_one in E.
    set (h := to_uint half) in *. pose proof (to_uint_lt (F := F) half) as L. fold h in L. pose proof p_gt1.
    apply N.odd_spec in p_odd. destruct p_odd as [k Ek].
    destruct (N.lt_ge_cases (h + h) p) as [C|C].
    - rewrite N.mod_small in E by exact C. lia.
    - replace (h + h)%N with ((h + h - p) + 1 * p)%N in E by lia. rewrite N.mod_add, N.mod_small in E by lia. lia.
  Qed.
  Lemma to_uint_neg (x : F) : x <> 0 -> to_uint (- x) = (p - to_uint x)%N.
  Proof.
    intros Hx. assert (E : to_uint (- x + x) = 0%N) by (replace (- x + x) with (0 : F) by ring; apply to_uint_zero).
    rewrite to_uint_add in E. pose proof (to_uint_lt x). pose proof (to_uint_lt (- x)).
    assert (to_uint x <> 0%N) by (intros E0; apply Hx; apply to_uint_inj; rewrite E0; symmetry; apply to_uint_zero).
    destruct (N.lt_ge_cases (to_uint (- x) + to_uint x) p) as [C|C].
    - rewrite N.mod_small in E by exact C. lia.
    - replace (to_uint (- x) + to_uint x)%N with ((to_uint (- x) + to_uint x - p) + 1 * p)%N in E by lia.
      rewrite N.mod_add, N.mod_small in E by lia. lia.
  Qed.
  Lemma nonneg_neg (r : F) : nonneg (- r) = nonneg r.
  Proof.
    destruct (feqb r 0) eqn:E0.
    - apply feqb_spec in E0. subst r. replace (- 0) with (0 : F) by ring. reflexivity.
    - assert (Hr : r <> 0) by (intros ->; rewrite (proj2 (feqb_spec 0 0) eq_refl) in E0; discriminate).
      unfold nonneg, is_negative. rewrite (to_uint_neg Hr). pose proof to_uint_half. pose proof (to_uint_lt r).
      destruct (N.leb_spec (to_uint half) (p - to_uint r)), (N.leb_spec (to_uint half) (to_uint r)); try lia; ring.
  Qed.
  Lemma neg_half_neq0 : half <> (0 : F).
  Proof. intros E. pose proof to_uint_half as K. rewrite E, to_uint_zero in K. lia. Qed.
  Lemma val_ge (r : F) : (to_uint (val (0 : F)%grp) <=? to_uint (val r))%N = negb (is_negative r).
  Proof.
    assert (E0 : to_uint (val (0 : F)) = (p - to_uint half)%N).
    { unfold val. replace (0 - half) with (- half : F) by ring. apply to_uint_neg. exact neg_half_neq0. }
    assert (Er : to_uint (val r) = ((to_uint r + (p - to_uint half)) mod p)%N).
    { unfold val. replace (r - half) with (r + - half : F) by ring. rewrite to_uint_add, to_uint_neg by exact neg_half_neq0. reflexivity. }
    pose proof to_uint_half. pose proof (to_uint_lt r). unfold is_negative. rewrite E0, Er. set (h := to_uint half) in *.
    destruct (N.leb_spec h (to_uint r)) as [L|L]; cbn [negb].
    - apply N.leb_gt. replace (to_uint r + (p - h))%N with (to_uint r - h + 1 * p)%N by lia. rewrite N.mod_add, N.mod_small by lia. lia.
    - apply N.leb_le. rewrite N.mod_small by lia. lia.
  Qed.
  (** the two square roots differ by the sign *)
  Lemma root_sign (y r : F) : rmul y y = rmul r r -> nonneg y = nonneg r.
  Proof.
    intros E. assert (K : rmul (y - r) (y + r) = 0) by (transitivity (rmul y y - rmul r r : F); [ring|rewrite E; ring]).
    destruct (feqb (y - r) 0) eqn:E0.
    - apply feqb_spec in E0. assert (y = r) by (transitivity (y - r + r); [ring|rewrite E0; ring]). congruence.
    - assert (Hn : y - r <> 0) by (intros E1; rewrite E1, (proj2 (feqb_spec 0 0) eq_refl) in E0; discriminate).
      assert (K2 : y + r = 0).
      { transitivity (rmul (finv (y - r)) (rmul (y - r) (y + r)) : F).
        - transitivity (rmul (rmul (finv (y - r)) (y - r)) (y + r) : F); [rewrite (finv_l (y - r) Hn); ring|ring].
        - rewrite K. ring. }
      assert (y = - r) by (transitivity (y + r - r : F); [ring|rewrite K2; ring]). subst y. apply nonneg_neg.
  Qed.

  (** ** Agreement with the driver on clear values *)
  (** where it can differ although both drivers return a value *)
  Definition faithful (o : bop) (a b : tv F) : Prop :=
    match o with
    | OLt | OLe | OGt | OGe => match a, b with Pub x, Sh y => x <> y | _, _ => True end
    | OShiftL => match a, b with Pub x, Sh y => (to_uint y < 256)%N | _, _ => True end
    | OBoolOr | OBoolAnd => is01 (tval a) = true /\ is01 (tval b) = true
    | _ => True
    end.
  Lemma is01_cases (x : F) : is01 x = true -> x = rone \/ x = 0.
  Proof. unfold is01. intros E. apply orb_prop in E as [E|E]; apply feqb_spec in E; auto. Qed.
  Lemma to_usize_01 (x : F) : is01 x = true -> to_usize x = Done (if feqb x rone then 1 else 0)%N.
  Proof.
    intros E. unfold to_usize. apply is01_cases in E as [->| ->].
    - rewrite (proj2 (feqb_spec rone rone) eq_refl), to_uint_one. reflexivity.
    - rewrite to_uint_zero. destruct (feqb 0 rone) eqn:E1; [|reflexivity].
      apply feqb_spec in E1. exfalso. apply f_1_neq_0. symmetry. exact E1.
  Qed.
  Lemma feqb_refl' (x : F) : feqb x x = true.
  Proof. apply feqb_spec. reflexivity. Qed.
  Lemma feqb_comm (x y : F) : feqb x y = feqb y x.
  Proof.
    destruct (feqb x y) eqn:E; symmetry.
    - apply feqb_spec in E. subst. apply feqb_refl'.
    - destruct (feqb y x) eqn:E'; [|reflexivity]. apply feqb_spec in E'. subst. rewrite feqb_refl' in E. discriminate.
  Qed.
  Lemma feqb01 : feqb (0 : F) rone = false.
  Proof. destruct (feqb (0 : F) rone) eqn:E; [|reflexivity]. apply feqb_spec in E. exfalso. apply f_1_neq_0. symmetry. exact E. Qed.
  Lemma feqb10 : feqb (rone : F) 0 = false.
  Proof. destruct (feqb (rone : F) 0) eqn:E; [|reflexivity]. apply feqb_spec in E. exfalso. apply f_1_neq_0. exact E. Qed.
  Lemma ltb_leb_neq (x y : F) : x <> y -> (to_uint (val x) <? to_uint (val y))%N = (to_uint (val x) <=? to_uint (val y))%N.
  Proof.
    intros Hn. assert (to_uint (val x) <> to_uint (val y)) by (intros E; apply Hn, val_inj, to_uint_inj; exact E).
    destruct (N.ltb_spec (to_uint (val x)) (to_uint (val y))), (N.leb_spec (to_uint (val x)) (to_uint (val y))); reflexivity || lia.
  Qed.
  Lemma reduced_small u : (u < p)%N -> reduced (F := F) u = of_uint u.
  Proof. intros L. unfold reduced. rewrite N.mod_small by exact L. reflexivity. Qed.
  Lemma div_lt_p (x y : F) : (to_uint x / to_uint y < p)%N.
  Proof.
    pose proof (to_uint_lt x). destruct (N.eq_dec (to_uint y) 0) as [->|Hy]; [destruct (to_uint x); cbn; lia|].
    eapply N.le_lt_trans; [apply N.div_le_upper_bound with (q := to_uint x); [exact Hy|nia]|assumption].
  Qed.
  Lemma mod_lt_p (x y : F) : y <> 0 -> (to_uint x mod to_uint y < p)%N.
  Proof.
    intros Hy. pose proof (to_uint_lt y). eapply N.lt_trans; [apply N.mod_lt|eassumption].
    intros E. apply Hy, to_uint_inj. rewrite E. symmetry. apply to_uint_zero.
  Qed.
  Lemma land_lt_p (u v : N) : (u < p)%N -> (N.land u v < p)%N.
  Proof.
    intros L. eapply N.le_lt_trans; [|exact L]. clear L.
    assert (E : N.ldiff (N.land u v) u = 0%N). { apply N.bits_inj_0. intros j. rewrite N.ldiff_spec, N.land_spec. destruct (N.testbit u j), (N.testbit v j); reflexivity. }
    apply N.ldiff_le. exact E.
  Qed.
  Lemma feqb_false_neq (x y : F) : feqb x y = false -> x <> y.
  Proof. intros E ->. rewrite feqb_refl' in E. discriminate. Qed.

  Lemma ideal_bop_agrees o a b r v : faithful o a b -> ideal_bop o a b = Done r -> plain_bop o (tval a) (tval b) = Done v -> tval r = v.
  Proof.
    intros Hf Hi Hp.
    assert (Hm : tshared a || tshared b = true -> mixed_bop o a b = Done r -> tval r = v).
    2:{ destruct a as [x|x], b as [y|y]; try (apply Hm; [reflexivity|exact Hi]). clear Hm.
        cbn [ideal_bop tval] in *. rewrite Hp in Hi. injection Hi as <-. reflexivity. }
    clear Hi. intros Ht Hi. unfold mixed_bop, plain_bop in *. cbv zeta in *. set (x := tval a) in *. set (y := tval b) in *.
    destruct o.
    - injection Hi as <-. injection Hp as <-. reflexivity.
    - injection Hi as <-. injection Hp as <-. reflexivity.
    - injection Hi as <-. injection Hp as <-. reflexivity.
    - destruct (feqb y 0); [discriminate|]. injection Hi as <-. injection Hp as <-. reflexivity.
    - destruct (feqb y 0); [discriminate|]. injection Hi as <-. injection Hp as <-. cbn [tval].
      symmetry. apply reduced_small, div_lt_p.
    - destruct b as [b|b]; [|discriminate]. cbn [tval] in y. fold y in Hi. injection Hp as <-.
      destruct (feqb y 0) eqn:E0.
      + apply feqb_spec in E0. rewrite E0, to_uint_zero. injection Hi as <-. reflexivity.
      + injection Hi as <-. reflexivity.
    - destruct (feqb y 0) eqn:E0; [discriminate|]. injection Hp as <-. rewrite reduced_small by (apply mod_lt_p, feqb_false_neq, E0).
      destruct b; [destruct (feqb y rone); [discriminate|]|]; injection Hi as <-; reflexivity.
    - injection Hi as <-. injection Hp as <-. cbn [tval]. destruct a, b; try discriminate Ht; cbn [tshared tval] in *; subst x y; cbn [faithful] in Hf; try reflexivity.
      rewrite <- ltb_leb_neq by assumption. reflexivity.
    - injection Hi as <-. injection Hp as <-. cbn [tval]. destruct a, b; try discriminate Ht; cbn [tshared tval] in *; subst x y; cbn [faithful] in Hf; try reflexivity.
      rewrite <- ltb_leb_neq by assumption. reflexivity.
    - injection Hi as <-. injection Hp as <-. cbn [tval]. destruct a, b; try discriminate Ht; cbn [tshared tval] in *; subst x y; cbn [faithful] in Hf; try reflexivity.
      rewrite <- ltb_leb_neq by congruence. reflexivity.
    - injection Hi as <-. injection Hp as <-. cbn [tval]. destruct a, b; try discriminate Ht; cbn [tshared tval] in *; subst x y; cbn [faithful] in Hf; try reflexivity.
      rewrite <- ltb_leb_neq by congruence. reflexivity.
    - injection Hi as <-. injection Hp as <-. reflexivity.
    - injection Hi as <-. injection Hp as <-. reflexivity.
    - unfold to_usize in Hp. destruct (to_uint y <? 2 ^ 64)%N eqn:E64; [|discriminate]. cbn [obind] in Hp. injection Hp as <-.
      destruct a as [a|a], b as [b|b]; try discriminate Ht; try discriminate Hi; cbn [tval] in x, y; subst x y.
      + destruct (feqb a 0) eqn:E0; [|discriminate]. apply feqb_spec in E0. subst a. injection Hi as <-. cbn [tval].
        rewrite to_uint_zero. unfold ushr. rewrite N.shiftr_0_l. symmetry. apply of_uint_0'.
      + injection Hi as <-. reflexivity.
    - unfold to_usize in Hp. destruct (to_uint y <? 2 ^ 64)%N eqn:E64; [|discriminate]. cbn [obind] in Hp. injection Hp as <-.
      destruct a as [a|a], b as [b|b]; try discriminate Ht; try discriminate Hi; cbn [tval faithful] in x, y, Hf; subst x y.
      + destruct (feqb a 0) eqn:E0; injection Hi as <-; cbn [tval].
        * apply feqb_spec in E0. subst a. ring.
        * rewrite N.mod_small by exact Hf. reflexivity.
      + destruct ((to_uint b =? 0) || (to_uint b <? 2 ^ 32) && (to_uint b <? N.of_nat (mbs F)))%N; [|discriminate]. injection Hi as <-. reflexivity.
    - destruct Hf as [Hx Hy]. fold x in Hx. fold y in Hy. rewrite !to_usize_01 in Hp by assumption. cbn [obind] in Hp. injection Hp as <-. injection Hi as <-. cbn [tval].
      apply is01_cases in Hx as [->| ->]; apply is01_cases in Hy as [->| ->]; rewrite ?feqb_refl', ?feqb01; cbn; ring.
    - destruct Hf as [Hx Hy]. fold x in Hx. fold y in Hy. rewrite !to_usize_01 in Hp by assumption. cbn [obind] in Hp. injection Hp as <-. injection Hi as <-. cbn [tval].
      apply is01_cases in Hx as [->| ->]; apply is01_cases in Hy as [->| ->]; rewrite ?feqb_refl', ?feqb01; cbn; ring.
    - injection Hp as <-. destruct (N.ltb_spec (N.lor (to_uint x) (to_uint y)) p) as [L|L]; [|discriminate]. injection Hi as <-.
      symmetry. apply reduced_small. exact L.
    - injection Hp as <-. injection Hi as <-. symmetry. apply reduced_small. apply land_lt_p, to_uint_lt.
    - injection Hp as <-. destruct (N.ltb_spec (N.lxor (to_uint x) (to_uint y)) p) as [L|L]; [|discriminate]. injection Hi as <-.
      symmetry. apply reduced_small. exact L.
  Qed.
  (** where the driver of three parties returns a value whenever the one on clear values does *)
  Definition supported (o : bop) (a b : tv F) : Prop :=
    tshared a = false /\ tshared b = false \/
    match o with
    | OPow => tshared b = false
    | OMod => tshared b = true \/ tval b <> rone
    | OShiftR => tshared b = false \/ tshared a = false /\ tval a = 0
    | OShiftL => tshared a = false \/
                 tshared b = false /\ (to_uint (tval b) < 2 ^ 32)%N /\ (to_uint (tval b) < N.of_nat (mbs F))%N
    | OBitOr => (N.lor (to_uint (tval a)) (to_uint (tval b)) < p)%N
    | OBitXor => (N.lxor (to_uint (tval a)) (to_uint (tval b)) < p)%N
    | _ => True
    end.
  Lemma feqb_neq (x y : F) : x <> y -> feqb x y = false.
  Proof. intros Hn. destruct (feqb x y) eqn:E; [|reflexivity]. apply feqb_spec in E. contradiction. Qed.
  Lemma ideal_bop_defined o a b v : supported o a b -> plain_bop o (tval a) (tval b) = Done v -> exists r, ideal_bop o a b = Done r.
  Proof.
    intros Hs Hp. assert (Hm : tshared a || tshared b = true -> exists r, mixed_bop o a b = Done r).
    2:{ destruct a as [x|x], b as [y|y]; try (apply Hm; reflexivity). cbn [ideal_bop tval] in *. rewrite Hp. eexists. reflexivity. }
    intros Ht. destruct Hs as [[E1 E2]|Hs]; [rewrite E1, E2 in Ht; discriminate|].
    unfold mixed_bop, plain_bop in *. cbv zeta in *.
    destruct o; try (eexists; reflexivity); cbn [obind] in Hp.
    - destruct (feqb (tval b) 0); [discriminate|]. eexists; reflexivity.
    - destruct (feqb (tval b) 0); [discriminate|]. eexists; reflexivity.
    - destruct b as [y|y]; [|discriminate Hs]. destruct (feqb y 0); eexists; reflexivity.
    - destruct (feqb (tval b) 0); [discriminate|]. destruct b as [y|y]; [|eexists; reflexivity]. cbn [tval tshared] in *.
      destruct Hs as [Hs|Hs]; [discriminate|]. rewrite (feqb_neq Hs). eexists; reflexivity.
    - unfold to_usize in Hp. destruct (to_uint (tval b) <? 2 ^ 64)%N eqn:E64; [|discriminate].
      destruct a as [x|x], b as [y|y]; cbn [tval tshared orb] in *; try discriminate Ht.
      + destruct Hs as [Hs|[_ Hs]]; [discriminate|]. subst x. rewrite feqb_refl'. eexists; reflexivity.
      + eexists; reflexivity.
      + destruct Hs as [Hs|[Hs _]]; discriminate.
    - destruct a as [x|x], b as [y|y]; cbn [tval tshared orb] in *; try discriminate Ht.
      + destruct (feqb x 0); eexists; reflexivity.
      + destruct Hs as [Hs|(_ & H1 & H2)]; [discriminate|]. apply N.ltb_lt in H1, H2. rewrite H1, H2, orb_true_r. eexists; reflexivity.
      + destruct Hs as [Hs|[Hs _]]; discriminate.
    - apply N.ltb_lt in Hs. rewrite Hs. eexists; reflexivity.
    - apply N.ltb_lt in Hs. rewrite Hs. eexists; reflexivity.
  Qed.
  Lemma ideal_bop_ok o a b v : supported o a b -> faithful o a b -> plain_bop o (tval a) (tval b) = Done v ->
    exists r, ideal_bop o a b = Done r /\ tval r = v.
  Proof.
    intros Hs Hf Hp. destruct (ideal_bop_defined Hs Hp) as [r Hr]. exists r. split; [exact Hr|]. eapply ideal_bop_agrees; eassumption.
  Qed.
  Lemma ideal_uop_agrees o a r v : ideal_uop o a = Done r -> plain_uop fsqrt o (tval a) = Done v -> tval r = v.
  Proof.
    destruct a as [x|x], o; cbn [ideal_uop plain_uop tval]; intros Hi Hp.
    - injection Hi as <-. injection Hp as <-. reflexivity.
    - destruct (fsqrt x); [|discriminate]. injection Hi as <-. injection Hp as <-. reflexivity.
    - destruct (is01 x); [|discriminate]. injection Hi as <-. injection Hp as <-. reflexivity.
    - injection Hi as <-. injection Hp as <-. reflexivity.
    - destruct (fsqrt x); [|discriminate]. injection Hi as <-. injection Hp as <-. reflexivity.
    - destruct (is01 x); [|discriminate]. injection Hi as <-. injection Hp as <-. reflexivity.
  Qed.
  Lemma ideal_cmux_agrees c a b v : plain_cmux (tval c) (tval a) (tval b) = Done v -> exists r, ideal_cmux c a b = Done r /\ tval r = v.
  Proof.
    unfold plain_cmux. destruct (is01 (tval c)) eqn:E; [|discriminate]. intros Hv. injection Hv as <-.
    destruct c as [c|c]; cbn [ideal_cmux tval] in *.
    - rewrite E. eexists. split; [reflexivity|]. destruct (feqb c rone); reflexivity.
    - eexists. split; [reflexivity|]. cbn [tval]. apply is01_cases in E as [->| ->]; rewrite ?feqb_refl', ?feqb01; ring.
  Qed.
End Ideal.
