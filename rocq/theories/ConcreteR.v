(** * Concrete carriers for the examples on rings Z/2^k *)
From Coq Require Import List NArith ZArith Znumtheory Lia.
From Verif Require Import Proc Alg Zp Rep3Net Rep3 Rep3Spec Uint Binary Conv Ring2k Concrete ConcreteU.
Import ListNotations.

(** [u8], ..., [u128] and [RUint<k>] with wrapping operations (ring/int_ring.rs:66-312) *)
Notation R2 k := (Zmod (Pos.pow 2 k)).
Lemma pos_pow_N k : N.pos (2 ^ k) = (2 ^ N.of_nat (Pos.to_nat k))%N.
Proof. rewrite positive_nat_N. reflexivity. Qed.
#[export] Instance int_ring {k : positive} : @IntRing (R2 k) _.
Proof.
  assert (E : Zpos (2 ^ k) = Z.of_N (2 ^ N.of_nat (Pos.to_nat k))) by (rewrite <- pos_pow_N; reflexivity).
  refine {| rK := Pos.to_nat k; rto := fun x => Z.to_N (val x); rof := fun u => ofZ (Z.of_N u) |}; rewrite <- ?pos_pow_N.
  - intros x. pose proof (val_range x). lia.
  - intros x y. change (val (x + y)%grp) with ((val x + val y) mod Zpos (2 ^ k))%Z. pose proof (val_range x). pose proof (val_range y).
    rewrite Z2N.inj_mod, Z2N.inj_add by lia. reflexivity.
  - intros x y. change (val (rmul x y)) with ((val x * val y) mod Zpos (2 ^ k))%Z. pose proof (val_range x). pose proof (val_range y).
    rewrite Z2N.inj_mod, Z2N.inj_mul by nia. reflexivity.
  - intros x. rewrite Z2N.id by (pose proof (val_range x); lia). apply ofZ_val.
  - intros u. rewrite val_ofZ, Z2N.inj_mod by lia. rewrite N2Z.id. reflexivity.
  - change rone with (ofZ (n := 2 ^ k) 1). rewrite val_ofZ_small; [reflexivity|].
    assert (1 < 2 ^ k)%positive by (apply Pos.pow_gt_1; lia). lia.
Defined.
(** messages: the binary-share messages and vectors of ring elements *)
Inductive rmsg (k : positive) : Type := RB (m : msg) | RT (l : list (R2 k)).
Arguments RB {k}. Arguments RT {k}.
#[export] Instance renc_b {k A} {E : Enc msg A} : Enc (rmsg k) A.
Proof.
  refine {| enc := fun x => RB (enc x); dec := fun m => match m with RB b => dec b | RT _ => None end |}. intros x. apply dec_enc.
Defined.
#[export] Instance renc_t {k} : Enc (rmsg k) (list (R2 k)).
Proof. refine {| enc := RT; dec := fun m => match m with RT l => Some l | RB _ => None end |}. reflexivity. Defined.
#[export] Instance rdrawZ {k} : Draw Z (R2 k) := fun s => (ofZ (s / 65536), ((s * 1103515245 + 12345) mod 2147483648)%Z).
(** additive sharing of [v] with components [a], [b] *)
Definition rsh k (v a b : Z) : pid -> share (R2 k) := fun i =>
  match i with
  | P0 => mkShare (ofZ a) (ofZ (v - a - b))
  | P1 => mkShare (ofZ b) (ofZ a)
  | P2 => mkShare (ofZ (v - a - b)) (ofZ b)
  end%Z.
Lemma rsh_shares k v a b : @shares _ (@cr_grp _ zmod_ring) (rsh k v a b) (ofZ v).
Proof.
  split; [intros []; reflexivity|]. unfold additive, rsh. cbn [sa].
  etransitivity; [exact (ofZ_sum3 _ _ _)|f_equal; lia].
Qed.
