(** * Concrete carriers for the examples on binary shares *)
From Coq Require Import List NArith ZArith Znumtheory Lia.
From Verif Require Import Proc Alg Zp Rep3Net Rep3 Rep3Spec Uint Binary Conv Concrete.
Import ListNotations.

(** every prime field has the canonical-representative conversions
    (uint/field_uint.rs:16-37; ark-ff [into_bigint]/[from_bigint]) *)
#[export] Instance zmod_fu {n : positive} {Hp : prime (Zpos n)} : @FieldUint (Zmod n) _.
Proof.
  refine {| fu_p := Npos n; to_uint := fun x => Z.to_N (val x); of_uint := fun u => ofZ (Z.of_N u) |}.
  - intros x. pose proof (val_range x). lia.
  - intros x y. change (val (x + y)%grp) with ((val x + val y) mod Zpos n)%Z. pose proof (val_range x). pose proof (val_range y).
    rewrite Z2N.inj_mod, Z2N.inj_add by lia. reflexivity.
  - intros x. rewrite Z2N.id by (pose proof (val_range x); lia). apply ofZ_val.
  - intros u L. rewrite val_ofZ_small by lia. apply N2Z.id.
  - change rone with (ofZ (n := n) 1). rewrite val_ofZ_small; [reflexivity|]. pose proof (prime_ge_2 _ Hp). lia.
Defined.

(** a message type carrying everything the protocols send *)
Inductive msg : Type :=
| MN (l : list N) | MNN (l : list (N * N)) | ML (l : list (list N)) | MLL (l : list (list N * list N)) | MF (l : list F13).
#[export] Instance enc_n : Enc msg (list N).
Proof. refine {| enc := MN; dec := fun m => match m with MN l => Some l | _ => None end |}. reflexivity. Defined.
#[export] Instance enc_nn : Enc msg (list (N * N)).
Proof. refine {| enc := MNN; dec := fun m => match m with MNN l => Some l | _ => None end |}. reflexivity. Defined.
#[export] Instance enc_l : Enc msg (list (list N)).
Proof. refine {| enc := ML; dec := fun m => match m with ML l => Some l | _ => None end |}. reflexivity. Defined.
#[export] Instance enc_ll : Enc msg (list (list N * list N)).
Proof. refine {| enc := MLL; dec := fun m => match m with MLL l => Some l | _ => None end |}. reflexivity. Defined.
#[export] Instance enc_f : Enc msg (list F13).
Proof. refine {| enc := MF; dec := fun m => match m with MF l => Some l | _ => None end |}. reflexivity. Defined.
(** [random_bits] (uint/ruint_wrapper.rs:415-422) from the example generator *)
Definition du13 (k : nat) (s : Z) : N * Z :=
  (N.land (Z.to_N (s / 65536)) (umask k), ((s * 1103515245 + 12345) mod 2147483648)%Z).
(** xor-sharing of [v] with components [a], [b] *)
Definition xs (v a b : N) : pid -> share N := fun i =>
  match i with
  | P0 => mkShare a (N.lxor (N.lxor v a) b)
  | P1 => mkShare b a
  | P2 => mkShare (N.lxor (N.lxor v a) b) b
  end.
Lemma xs_shares v a b : shares (xs v a b) v.
Proof.
  split; [intros []; reflexivity|]. unfold additive, xs. cbn [sa]. cbn.
  apply N.bits_inj. intros j. rewrite !N.lxor_spec.
  destruct (N.testbit v j), (N.testbit a j), (N.testbit b j); reflexivity.
Qed.
