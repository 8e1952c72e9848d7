(** * Integers modulo n

    The carrier [Zmod n] of canonical representatives in [0, n): models prime fields
    (ark-ff [PrimeField], canonical representative = [into_bigint]) and the rings
    Z/2^k of mpc-core/src/protocols/rep3_ring/ring/ring_impl.rs (wrapping arithmetic). *)
From Coq Require Import ZArith Znumtheory List Lia Bool Eqdep_dec.
From Verif Require Import Alg.
Import ListNotations.
Local Open Scope Z_scope.

Definition Zmod (n : positive) : Type := { z : Z | (z mod Zpos n =? z) = true }.

Section Zmod.
  Context {n : positive}.
  Definition val (x : Zmod n) : Z := proj1_sig x.
  Lemma mod_ok z : ((z mod Zpos n) mod Zpos n =? z mod Zpos n) = true.
  Proof. apply Z.eqb_eq. apply Z.mod_mod. discriminate. Qed.
  Definition ofZ (z : Z) : Zmod n := exist _ (z mod Zpos n) (mod_ok z).

  Lemma Zmod_eq (x y : Zmod n) : val x = val y -> x = y.
  Proof.
    destruct x as [x Hx], y as [y Hy]. cbn. intros ->. f_equal. apply UIP_dec. apply bool_dec.
  Qed.
  Lemma val_mod (x : Zmod n) : val x mod Zpos n = val x.
  Proof. destruct x as [x Hx]. cbn. apply Z.eqb_eq. exact Hx. Qed.
  Lemma val_range (x : Zmod n) : 0 <= val x < Zpos n.
  Proof. rewrite <- val_mod. apply Z.mod_pos_bound. reflexivity. Qed.
  Lemma val_ofZ z : val (ofZ z) = z mod Zpos n.
  Proof. reflexivity. Qed.
  Lemma val_ofZ_small z : 0 <= z < Zpos n -> val (ofZ z) = z.
  Proof. intros H. rewrite val_ofZ. apply Z.mod_small. exact H. Qed.
  Lemma ofZ_val x : ofZ (val x) = x.
  Proof. apply Zmod_eq. apply val_mod. Qed.
  Lemma ofZ_mod z : ofZ (z mod Zpos n) = ofZ z.
  Proof. apply Zmod_eq. cbn. apply Z.mod_mod. discriminate. Qed.
  Lemma ofZ_eq z w : z mod Zpos n = w mod Zpos n -> ofZ z = ofZ w.
  Proof. intros E. apply Zmod_eq. exact E. Qed.
  Lemma ofZ_inj z w : ofZ z = ofZ w -> z mod Zpos n = w mod Zpos n.
  Proof. intros E. apply (f_equal val) in E. exact E. Qed.

  Local Ltac zm := intros; apply Zmod_eq; cbn.
  #[export] Instance zmod_grp : AbGrp (Zmod n) | 0.
  Proof.
    refine {| gzero := ofZ 0; gadd := fun x y => ofZ (val x + val y); gneg := fun x => ofZ (- val x) |}; zm.
    - rewrite Zplus_mod_idemp_r, Zplus_mod_idemp_l. f_equal. lia.
    - f_equal. lia.
    - apply val_mod.
    - rewrite Zplus_mod_idemp_r. rewrite Z.add_opp_diag_r. reflexivity.
  Defined.
  #[export] Instance zmod_ring : CRing (Zmod n) | 0.
  Proof.
    refine {| cr_grp := zmod_grp; rone := ofZ 1; rmul := fun x y => ofZ (val x * val y) |}; zm.
    - f_equal. lia.
    - rewrite Zmult_mod_idemp_r, Zmult_mod_idemp_l. f_equal. lia.
    - rewrite Zmult_mod_idemp_l. rewrite Z.mul_1_l. apply val_mod.
    - rewrite Zmult_mod_idemp_l, Zplus_mod_idemp_l, Zplus_mod_idemp_r. f_equal. lia.
  Defined.

  Lemma val_0 : val gzero = 0.
  Proof. reflexivity. Qed.
  Lemma val_add x y : val (gadd x y) = (val x + val y) mod Zpos n.
  Proof. reflexivity. Qed.
  Lemma val_neg x : val (gneg x) = (- val x) mod Zpos n.
  Proof. reflexivity. Qed.
  Lemma val_sub x y : val (gsub x y) = (val x - val y) mod Zpos n.
  Proof. unfold gsub. rewrite val_add, val_neg, Zplus_mod_idemp_r. reflexivity. Qed.
  Lemma val_mul x y : val (rmul x y) = (val x * val y) mod Zpos n.
  Proof. reflexivity. Qed.
  Lemma ofZ_add z w : ofZ (z + w) = gadd (ofZ z) (ofZ w).
  Proof. apply Zmod_eq. cbn. apply Zplus_mod. Qed.
  Lemma ofZ_neg z : ofZ (- z) = gneg (ofZ z).
  Proof.
    apply Zmod_eq. cbn. rewrite <- (Z.sub_0_l z), <- (Z.sub_0_l (z mod _)), Zminus_mod_idemp_r. reflexivity.
  Qed.
  Lemma ofZ_sub z w : ofZ (z - w) = gsub (ofZ z) (ofZ w).
  Proof. unfold gsub. rewrite <- ofZ_neg, <- ofZ_add. reflexivity. Qed.
  Lemma ofZ_mul z w : ofZ (z * w) = rmul (ofZ z) (ofZ w).
  Proof. apply Zmod_eq. cbn. apply Zmult_mod. Qed.
  Lemma ofZ_sum3 a b c : gadd (gadd (ofZ a) (ofZ b)) (ofZ c) = ofZ (a + b + c).
  Proof. rewrite !ofZ_add. reflexivity. Qed.
  Definition zeqb (x y : Zmod n) : bool := val x =? val y.
  Lemma zeqb_spec x y : zeqb x y = true <-> x = y.
  Proof.
    unfold zeqb. rewrite Z.eqb_eq. split; [apply Zmod_eq|intros ->; reflexivity].
  Qed.

  (** Inverse by search over the representatives (only its specification matters). *)
  Definition zinv (x : Zmod n) : Zmod n :=
    match find (fun u => (Z.of_nat u * val x) mod Zpos n =? 1 mod Zpos n) (seq 0 (Pos.to_nat n)) with
    | Some u => ofZ (Z.of_nat u)
    | None => ofZ 0
    end.
End Zmod.

Existing Class prime.
Lemma zinv_ok {n} {Hp : prime (Zpos n)} (x : Zmod n) : x <> gzero -> rmul (zinv x) x = rone.
Proof.
  intros Hx. unfold zinv.
  destruct (find _ _) as [u|] eqn:E.
  - apply find_some in E. destruct E as [_ E]. apply Z.eqb_eq in E. apply Zmod_eq. cbn.
    rewrite Zmult_mod_idemp_l. exact E.
  - exfalso.
    assert (Hv : val x <> 0) by (intros C; apply Hx; apply Zmod_eq; exact C).
    pose proof (val_range x) as Hr.
    assert (R : rel_prime (val x) (Zpos n)).
    { apply rel_prime_sym, prime_rel_prime; [exact Hp|]. intros D. apply Z.divide_pos_le in D; lia. }
    apply rel_prime_bezout in R. destruct R as [u v Huv].
    assert (Hu : 0 <= u mod Zpos n < Zpos n) by (apply Z.mod_pos_bound; reflexivity).
    apply (find_none _ _) with (x := Z.to_nat (u mod Zpos n)) in E.
    + apply Z.eqb_neq in E. apply E. rewrite Z2Nat.id by lia. rewrite Zmult_mod_idemp_l.
      rewrite <- Huv. rewrite Z.mod_add by discriminate. reflexivity.
    + apply in_seq. split; [lia|]. cbn. apply Nat2Z.inj_lt. rewrite Z2Nat.id by lia. rewrite positive_nat_Z. lia.
Qed.
#[export] Instance zmod_fld {n} {Hp : prime (Zpos n)} : Fld (Zmod n).
Proof.
  refine {| fld_ring := zmod_ring; finv := zinv; feqb := zeqb |}.
  - apply zeqb_spec.
  - intros C. apply (f_equal val) in C. cbn in C. pose proof (prime_ge_2 _ Hp). rewrite Z.mod_small in C by lia. discriminate C.
  - intros x Hx. apply zinv_ok. exact Hx.
Defined.

(** Small primes, for examples. *)
Lemma prime_13 : prime 13.
Proof.
  apply prime_alt. split; [lia|]. intros k Hk [q Hq].
  assert (q > 1 /\ q < 13) by nia.
  assert (In k (map Z.of_nat (seq 2 11))) by (apply in_map_iff; exists (Z.to_nat k); rewrite Z2Nat.id, in_seq by lia; lia).
  assert (In q (map Z.of_nat (seq 2 11))) by (apply in_map_iff; exists (Z.to_nat q); rewrite Z2Nat.id, in_seq by lia; lia).
  cbn in *. lia.
Qed.
