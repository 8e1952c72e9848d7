(** * The coBrillig VM on values with tags

    [tagged_driver] is what the parties compute together, on the values behind their shares: a value is
    public, shared, or ([TUnk]) shared and unknown, which is what the random noise of an untaken branch
    is.  [undef] marks the cases about which BrilligSim.v claims nothing. *)
From Coq Require Import String List Arith NArith Lia Bool.
From Verif Require Import Proc Alg Rep3Net Rep3 Conv ConvWp VmDriver VmIdeal Brillig BrilligSpec BrilligSound.
Import ListNotations.
Set Implicit Arguments.
Local Open Scope grp_scope.
Local Open Scope string_scope.
Local Open Scope list_scope.

(** mpc/rep3.rs:33-38 [Rep3BrilligType] with the secret in place of the share *)
Inductive tb (F : Type) : Type := TPub (x : bval F) | TShr (x : bval F) | TUnk (t : bty).
Arguments TPub {F}. Arguments TShr {F}. Arguments TUnk {F}.

Section Tagged.
  Context {F : Type} `{FU : FieldUint F}.
  Variables (P M : Type).
  (** [dbg]: a debug build; [strict]: claim nothing about divisions by a shared field element, which
      the parties may abort *)
  Variables (dbg strict : bool).
  Notation p := (fu_p (F := F)).
  Definition tty (a : tb F) : bty := match a with TPub x | TShr x => bty_of x | TUnk t => t end.
  Definition terr : err := Panic "failed".
  Definition tpubv (f : bval F -> outcome (tb F)) (a : tb F) (k : outcome (tb F)) : outcome (tb F) := match a with TPub x => f x | _ => k end.
  Definition in_range (x : bval F) : bool := match x with BF _ => true | BI n s => (n <? imod s)%N end.

  (** the operations that the parties do not have, or that may fail *)
  Definition excluded (o : bbin) (x : bval F) (shared_rhs : bool) : bool :=
    match o, x with
    | BDiv, BI _ U1 => true
    | BDiv, BF _ => (strict && shared_rhs)%bool
    | _, _ => false
    end.
  Definition tmixed (o : bbin) (x y : bval F) (shared_rhs : bool) : outcome (tb F) :=
    if excluded o x shared_rhs then Failed undef
    else match sbin o x y with Some z => Done (TShr z) | None => Failed undef end.
  Definition tbin (o : bbin) (a b : tb F) : outcome (tb F) :=
    match a, b with
    | TPub x, TPub y => omap TPub (plain_bin dbg o x y)
    | TPub x, TShr y => tmixed o x y true
    | TShr x, TPub y => tmixed o x y false
    | TShr x, TShr y => tmixed o x y true
    | _, _ => Failed undef
    end.
  Definition tnot (a : tb F) : outcome (tb F) :=
    match a with
    | TPub x => omap TPub (plain_not x)
    | TShr x => match x with
                | BF _ => Failed terr
                | BI _ _ => match snot x with Some y => Done (TShr y) | None => Failed undef end
                end
    | TUnk (TInt s) => Done (TUnk (TInt s))
    | TUnk TField => Failed terr
    end.
  Definition tcast (a : tb F) (t : bty) : outcome (tb F) :=
    match a with
    | TPub x => Done (TPub (plain_cast x t))
    | TShr x => match x, t with
                | BI n _, TField => if (n <? p)%N then match scast x t with Some y => Done (TShr y) | None => Failed undef end else Failed undef
                | _, _ => match scast x t with Some y => Done (TShr y) | None => Failed undef end
                end
    | TUnk _ => Failed undef
    end.
  Definition tradix (a r : tb F) (n : nat) (b : bool) : outcome (list (tb F)) :=
    match a, r with TPub x, TPub y => omap (map TPub) (plain_radix x y n b) | _, _ => Failed undef end.
  (** the value selected by a shared condition is shared; it may be unknown *)
  Definition tsel (a : tb F) : outcome (tb F) :=
    match a with
    | TPub x | TShr x => Done (TShr x)
    | TUnk t => Done (TUnk t)
    end.
  Definition tok (a : tb F) : bool := match a with TPub x | TShr x => in_range x | TUnk _ => true end.
  Definition ty_eqb (a b : bty) : bool :=
    match a, b with TField, TField => true | TInt s, TInt s' => isz_eqb s s' | _, _ => false end.
  Definition tcmux (c t f : tb F) : outcome (tb F) :=
    match c with
    | TPub (BI n U1) => Done (if (n =? 1)%N then t else f)
    | TShr (BI n U1) =>
        if ty_eqb (tty t) (tty f) then
          if (tok t && tok f)%bool then
            obind (match t, f with TPub x, TPub y => omap (fun _ => tt) (plain_bin dbg BSub x y) | _, _ => Done tt end) (fun _ =>
            if (n =? 1)%N then tsel t else if (n =? 0)%N then tsel f else Failed undef)
          else Failed undef
        else Failed terr
    | TUnk _ => Failed undef
    | _ => Failed terr
    end.
  Definition trandom (a : tb F) : outcome (tb F) := match a with TPub _ => Failed undef | TShr x => Done (TUnk (bty_of x)) | TUnk t => Done (TUnk t) end.
  Definition tusize (a : tb F) : outcome nat := match a with TPub x => plain_usize x | _ => Failed terr end.
  Definition tchar (a : tb F) : outcome N := match a with TPub x => plain_char x | _ => Failed terr end.
  Definition tbool (a : tb F) : option bool := match a with TPub x => plain_bool x | _ => None end.
  Definition tint_of (a : tb F) (s : isz) : outcome (tb F) := if ty_eqb (tty a) (TInt s) then Done a else Failed terr.
  Definition tfield_of (a : tb F) : outcome (tb F) := if ty_eqb (tty a) TField then Done a else Failed terr.
  Definition ton {A} (o : outcome A) : outcome (A * unit) := omap (fun v => (v, tt)) o.
  Definition tagged_driver : bdriver P M F :=
    @mkD P M F (tb F) unit (TPub plain_default) (fun x t => TPub (plain_public x t)) tusize tchar tbool tint_of tfield_of
      (fun n => ((tt, tt), tt)) tnot
      (fun st v t => leaf (ton (tcast v t)))
      (fun st o a b => leaf (ton (tbin o a b)))
      (fun st v r n b => leaf (ton (tradix v r n b)))
      (fun st c t f => leaf (ton (tcmux c t f)))
      (fun st v => leaf (ton (trandom v))).
End Tagged.

(** ** Both drivers compute what BrilligSpec.v says *)
Section Sounds.
  Context {F : Type} `{FU : FieldUint F}.
  Variables (P M : Type) (dbg strict : bool).
  Notation p := (fu_p (F := F)).
  Notation bval := (bval F).

  Lemma imod_le s : (imod s <= q128)%N.
  Proof. unfold imod, q128. apply N.pow_le_mono_r; [lia|]. destruct s; cbn; lia. Qed.
  Lemma imod_pos s : (0 < imod s)%N.
  Proof. unfold imod. apply N.neq_0_lt_0, N.pow_nonzero. lia. Qed.
  Lemma q128_imod s : exists k, q128 = (k * imod s)%N.
  Proof.
    exists (2 ^ (128 - N.of_nat (ibits s)))%N. unfold q128, imod. rewrite <- N.pow_add_r. f_equal. destruct s; reflexivity.
  Qed.
  Lemma mod_q128_imod n s : ((n mod q128) mod imod s = n mod imod s)%N.
  Proof.
    destruct (q128_imod s) as (k & E). rewrite E. pose proof (imod_pos s).
    assert (k <> 0)%N by (intros ->; unfold q128 in E; cbn in E; discriminate).
    rewrite (N.mul_comm k), N.mod_mul_r by lia.
    rewrite (N.mul_comm (imod s) ((n / imod s) mod k)), N.mod_add by lia. apply N.mod_mod. lia.
  Qed.
  Lemma land_imod n s : N.land n (N.ones (N.of_nat (ibits s))) = (n mod imod s)%N.
  Proof. rewrite N.land_ones. reflexivity. Qed.
  Lemma b2n_bit b : BI (F := F) (N.b2n b) U1 = bit_of b.
  Proof. destruct b; reflexivity. Qed.
  Lemma to_uint_zero_feqb (y : F) : (to_uint y =? 0)%N = feqb y 0.
  Proof. destruct (feqb y 0) eqn:E.
    - apply feqb_spec in E. subst. apply N.eqb_eq. apply to_uint_zero.
    - apply N.eqb_neq. intros E0. assert (feqb y 0 = true); [|congruence]. apply feqb_spec. apply to_uint_inj. rewrite E0. symmetry. apply to_uint_zero.
  Qed.

  Lemma plain_field_spec o (x y : F) z r : plain_field o x y = Done r -> sfield o x y = Some z -> r = z.
  Proof.
    destruct o; cbn [plain_field sfield]; try (intros H1 H2; injection H1 as <-; injection H2 as <-; rewrite ?b2n_bit; reflexivity).
    - destruct (feqb y 0); [discriminate|]. intros H1 H2; injection H1 as <-; injection H2 as <-; reflexivity.
    - rewrite to_uint_zero_feqb. destruct (feqb y 0); [discriminate|]. intros H1 H2; injection H1 as <-; injection H2 as <-; reflexivity.
    - intros H1 H2; injection H1 as <-; injection H2 as <-. unfold bit_of. rewrite N.leb_antisym. destruct (_ <? _)%N; reflexivity.
  Qed.
  Lemma sub_mod l r s : (l < imod s)%N -> (r < imod s)%N ->
    ((l + q128 - r) mod imod s = if r <=? l then l - r else l + imod s - r)%N.
  Proof.
    intros L1 L2. destruct (q128_imod s) as (k & E). pose proof (imod_pos s). pose proof (imod_le s).
    assert (Hk : (1 <= k)%N) by (destruct k; [cbn in E; unfold q128 in E; cbn in E; discriminate|lia]).
    destruct (N.leb_spec r l).
    - replace (l + q128 - r)%N with ((l - r) + k * imod s)%N by (rewrite <- E; lia). rewrite N.mod_add by lia. apply N.mod_small. lia.
    - replace (l + q128 - r)%N with ((l + imod s - r) + (k - 1) * imod s)%N by (rewrite N.mul_sub_distr_r, <- E; lia).
      rewrite N.mod_add by lia. apply N.mod_small. lia.
  Qed.
  Lemma plain_int_spec o l r s z w : plain_int (F := F) dbg o l r s = Done w -> sint o l r s = Some z -> w = z.
  Proof.
    unfold sint. change (2 ^ N.of_nat (ibits s))%N with (imod s). destruct (_ && _)%bool eqn:B; [|discriminate].
    apply andb_true_iff in B. destruct B as [L1 L2]. apply N.ltb_lt in L1. apply N.ltb_lt in L2.
    pose proof (imod_pos s).
    assert (E128 : imod U128 = q128) by reflexivity.
    assert (W : forall b e, wrapping_op (F := F) dbg b e s = Done w -> w = BI (e mod imod s) s).
    { intros b e. unfold wrapping_op. destruct (_ && _)%bool; [discriminate|]. intros E. injection E as <-. rewrite mod_q128_imod. reflexivity. }
    destruct o; cbn [plain_int].
    - intros H1 H2. injection H2 as <-. destruct s; first [injection H1 as <-; reflexivity | exact (W _ _ H1)].
    - intros H1 H2. injection H2 as <-. rewrite <- (sub_mod _ L1 L2).
      destruct s; first [injection H1 as <-; reflexivity | exact (W _ _ H1)].
    - intros H1 H2. injection H2 as <-. destruct s; first [injection H1 as <-; reflexivity | exact (W _ _ H1)].
    - destruct (N.eqb_spec r 0); [destruct s; discriminate|]. intros H1 H2. injection H2 as <-.
      assert ((l / r) mod imod s = l / r)%N as E by (apply N.mod_small; pose proof (N.div_le_upper_bound l r l); nia).
      destruct s; injection H1 as <-; rewrite ?E; reflexivity.
    - discriminate.
    - intros H1 H2. injection H2 as <-. destruct s; injection H1 as <-; rewrite b2n_bit; reflexivity.
    - intros H1 H2. injection H2 as <-. destruct s; injection H1 as <-; rewrite b2n_bit; reflexivity.
    - intros H1 H2. injection H2 as <-. destruct s; injection H1 as <-; unfold bit_of; rewrite N.leb_antisym; destruct (_ <? _)%N; reflexivity.
  Qed.
  Lemma plain_bin_spec o a b z r : plain_bin (F := F) dbg o a b = Done r -> sbin o a b = Some z -> r = z.
  Proof.
    destruct a, b; cbn [plain_bin sbin]; try discriminate.
    - apply plain_field_spec.
    - destruct (isz_eqb _ _); [|discriminate]. apply plain_int_spec.
  Qed.
  Lemma plain_cast_spec a t y : scast a t = Some y -> plain_cast (F := F) a t = y.
  Proof.
    destruct a as [x|n s], t as [|s']; cbn [scast plain_cast].
    - intros E. injection E as <-. reflexivity.
    - intros E. injection E as <-. rewrite land_imod. unfold to_u128. rewrite mod_q128_imod. reflexivity.
    - destruct (_ <? _)%N; [|discriminate]. intros E. injection E as <-. reflexivity.
    - destruct (N.ltb_spec n (2 ^ N.of_nat (ibits s))) as [L|]; [|discriminate]. intros E. injection E as <-.
      destruct (Nat.leb_spec (ibits s) (ibits s')); [|rewrite land_imod; reflexivity].
      f_equal. symmetry. apply N.mod_small. eapply N.lt_le_trans; [exact L|]. apply N.pow_le_mono_r; lia.
  Qed.
  Lemma plain_not_spec a y : snot a = Some y -> plain_not (F := F) a = Done y.
  Proof.
    destruct a as [|n s]; cbn [snot plain_not]; [discriminate|]. destruct (N.ltb_spec n (2 ^ N.of_nat (ibits s))) as [L|]; [|discriminate].
    intros E. injection E as <-. do 2 f_equal.
    set (k := N.of_nat (ibits s)) in *.
    assert (Hk : (k <= 128)%N) by (unfold k; destruct s; cbn; lia).
    assert (E : N.land (N.lxor n (N.ones 128)) (N.ones k) = N.lxor n (N.ones k)).
    { apply N.bits_inj. intros i. rewrite N.land_spec, !N.lxor_spec.
      destruct (N.ltb_spec i k).
      - rewrite !N.ones_spec_low by lia. rewrite andb_true_r. reflexivity.
      - rewrite !(N.ones_spec_high k) by lia. rewrite andb_false_r, xorb_false_r. symmetry.
        destruct (N.eq_dec n 0) as [->|]; [apply N.bits_0|]. apply N.bits_above_log2. apply N.log2_lt_pow2; [lia|]. 
        eapply N.lt_le_trans; [exact L|]. apply N.pow_le_mono_r; lia. }
    rewrite E.
    assert (E2 : N.lxor n (N.ones k) = N.lnot n k) by reflexivity. rewrite E2.
    destruct (N.eq_dec n 0) as [->|Hn].
    - rewrite N.lnot_0_l, N.ones_equiv. rewrite N.sub_0_r, N.sub_1_r. reflexivity.
    - rewrite N.lnot_sub_low by (apply N.log2_lt_pow2; lia). rewrite N.ones_equiv, N.sub_1_r. reflexivity.
  Qed.
  Lemma plain_limbs_spec n : forall x r b, plain_limbs (F := F) n x r b =
    map (fun d => if b then bit_of (negb (d =? 0)%N) else BI d U8) (digits n x r).
  Proof.
    induction n as [|n IH]; intros x r b; cbn [plain_limbs digits]; [reflexivity|]. rewrite map_app, IH. cbn [map].
    do 2 f_equal. destruct b; [|reflexivity]. destruct (_ =? _)%N; reflexivity.
  Qed.
  Lemma plain_radix_spec a r n b l z : plain_radix (F := F) a r n b = Done l -> sradix a r n b = Some z -> l = z.
  Proof.
    destruct a, r as [|r []]; cbn [plain_radix sradix]; try discriminate. destruct (_ =? _)%N; [discriminate|]. cbn [andb].
    intros H1 H2. injection H1 as <-. injection H2 as <-. apply plain_limbs_spec.
  Qed.
  Lemma plain_usize_spec a n m : plain_usize (F := F) a = Done n -> susize a = Some m -> n = m.
  Proof. destruct a as [|k []]; cbn [plain_usize susize]; try discriminate. destruct (_ <? _)%N; [|discriminate]. destruct (_ <? _)%N; [|discriminate]. congruence. Qed.
  Lemma plain_char_spec a n m : plain_char (F := F) a = Done n -> schar a = Some m -> n = m.
  Proof. destruct a as [|k []]; cbn [plain_char schar ibits]; try discriminate. change (2 ^ N.of_nat 8)%N with 256%N. destruct (_ <? _)%N; [|discriminate]. congruence. Qed.
  Lemma plain_bool_spec a c : sbool a = Some c -> plain_bool (F := F) a = Some c.
  Proof. destruct a as [|[|[]] []]; cbn; try discriminate; intros E; injection E as <-; reflexivity. Qed.
  Lemma plain_public_spec x t v : sconst x t = Some v -> plain_public (F := F) x t = v.
  Proof.
    destruct t as [|s]; cbn; intros E; [injection E as <-; reflexivity|].
    destruct (N.ltb_spec (to_uint x) (2 ^ N.of_nat (ibits s))) as [L|]; [|discriminate]. injection E as <-.
    unfold to_u128. rewrite N.mod_small; [reflexivity|]. pose proof (imod_le s). unfold imod in *. lia.
  Qed.
  Lemma to_u128_one : to_u128 (rone : F) = 1%N.
  Proof. unfold to_u128. rewrite to_uint_one. reflexivity. Qed.
  Lemma to_u128_zero : to_u128 (0 : F) = 0%N.
  Proof. unfold to_u128. rewrite to_uint_zero. reflexivity. Qed.

  Variable trng : nat -> bty -> bval.
  Lemma plain_sound : sound (plain_driver P M dbg trng) (fun v x => v = x) true.
  Proof.
    constructor; cbn.
    - reflexivity.
    - apply plain_public_spec.
    - unfold plain_public. rewrite to_u128_one. reflexivity.
    - unfold plain_public. rewrite to_u128_zero. reflexivity.
    - intros v x n m ->. apply plain_usize_spec.
    - intros v x n m ->. apply plain_char_spec.
    - intros v x b c -> H1 H2. rewrite (plain_bool_spec _ H2) in H1. congruence.
    - intros v x c _ -> H2. rewrite (plain_bool_spec _ H2). discriminate.
    - intros v s r. destruct v; cbn; [discriminate|]. destruct (isz_eqb _ _); congruence.
    - intros v r. destruct v; cbn; congruence.
    - intros v x r y -> H1 H2. rewrite (plain_not_spec _ H2) in H1. congruence.
    - intros st v x t r y -> H1 H2. injection H1 as <-. apply plain_cast_spec. exact H2.
    - intros st o v x w y r z -> -> H1 H2. odone. cbn. eapply plain_bin_spec; eassumption.
    - intros st v x w y n b r z -> -> H1 H2. odone. cbn. rewrite (plain_radix_spec _ _ _ _ Heqo H2).
      clear. induction z; constructor; auto.
    - intros st c t f r x -> H1 ->. odone. cbn in Heqo. injection Heqo as <-. reflexivity.
    - intros st c t f r x -> H1 ->. odone. cbn in Heqo. injection Heqo as <-. reflexivity.
  Qed.

  (** a tagged value that is known *)
  Definition tev (t : tb F) (x : bval) : Prop := t = TPub x \/ t = TShr x.
  Lemma tmixed_spec o x y b r z : tmixed (F := F) strict o x y b = Done r -> sbin o x y = Some z -> r = TShr z.
  Proof. unfold tmixed. destruct (excluded _ _ _ _); [discriminate|]. intros H1 H2. rewrite H2 in H1. congruence. Qed.
  Lemma tagged_sound : sound (tagged_driver P M dbg strict) tev false.
  Proof.
    constructor; cbn.
    - left. reflexivity.
    - intros x t v H1. left. f_equal. apply plain_public_spec. exact H1.
    - left. unfold plain_public. rewrite to_u128_one. reflexivity.
    - left. unfold plain_public. rewrite to_u128_zero. reflexivity.
    - intros v x n m [->| ->]; cbn; [apply plain_usize_spec|discriminate].
    - intros v x n m [->| ->]; cbn; [apply plain_char_spec|discriminate].
    - intros v x b c [->| ->]; cbn; [|discriminate]. intros H1 H2. rewrite (plain_bool_spec _ H2) in H1. congruence.
    - discriminate.
    - intros v s r. unfold tint_of. destruct (ty_eqb _ _); congruence.
    - intros v r. unfold tfield_of. destruct (ty_eqb _ _); congruence.
    - intros v x r y [->| ->]; cbn [tnot]; intros H1 H2.
      + rewrite (plain_not_spec _ H2) in H1. cbn in H1. injection H1 as <-. left. reflexivity.
      + destruct x; [discriminate|]. rewrite H2 in H1. injection H1 as <-. right. reflexivity.
    - intros st v x t r y [->| ->]; cbn [tcast]; intros H1 H2; odone; cbn [fst].
      + cbn in H1. injection H1 as <-. left. cbn. f_equal. apply plain_cast_spec. exact H2.
      + unfold ton in H1. odone. right. cbn [fst]. destruct x, t; try (rewrite H2 in Heqo; congruence). destruct (_ <? _)%N; [|discriminate]. rewrite H2 in Heqo. congruence.
    - intros st o v x w y r z [->| ->] [->| ->]; intros H1 H2; unfold ton in H1; odone; cbn [fst];
        match goal with E : tbin _ _ _ _ _ = Done _ |- _ => rename E into Q end.
      + unfold tbin in Q. odone. left. f_equal. eapply plain_bin_spec; eassumption.
      + right. eapply tmixed_spec; [exact Q|exact H2].
      + right. eapply tmixed_spec; [exact Q|exact H2].
      + right. eapply tmixed_spec; [exact Q|exact H2].
    - intros st v x w y n b r z [->| ->] [->| ->]; intros H1 H2; unfold ton in H1; odone; cbn [fst];
        match goal with E : tradix _ _ _ _ = Done _ |- _ => rename E into Q end; try discriminate.
      unfold tradix in Q. odone. match goal with E : plain_radix _ _ _ _ = Done _ |- _ => rewrite (plain_radix_spec _ _ _ _ E H2) end.
      clear. induction z; constructor; auto. left. reflexivity.
    - intros st c t f r x [->| ->] H1 Ht; unfold ton in H1; odone; cbn [fst];
        match goal with E : tcmux _ _ _ _ = Done _ |- _ => rename E into Q end.
      + cbn in Q. injection Q as <-. exact Ht.
      + cbn [tcmux] in Q. destruct (ty_eqb _ _); [|discriminate]. destruct (_ && _)%bool; [|discriminate]. odone.
        destruct Ht as [->| ->]; cbn in Q; injection Q as <-; right; reflexivity.
    - intros st c t f r x [->| ->] H1 Hf; unfold ton in H1; odone; cbn [fst];
        match goal with E : tcmux _ _ _ _ = Done _ |- _ => rename E into Q end.
      + cbn in Q. injection Q as <-. exact Hf.
      + cbn [tcmux] in Q. destruct (ty_eqb _ _); [|discriminate]. destruct (_ && _)%bool; [|discriminate]. odone.
        destruct Hf as [->| ->]; cbn in Q; injection Q as <-; right; reflexivity.
  Qed.
End Sounds.
