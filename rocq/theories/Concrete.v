(** * Concrete carriers used by the examples of the property files *)
From Coq Require Import List ZArith Znumtheory Lia.
From Verif Require Import Proc Alg Zp Rep3Net Rep3 Rep3Spec.
Import ListNotations.
Local Open Scope grp_scope.

(** ** Concrete carriers for the examples: the field with 13 elements, a linear
    congruential generator, identity encoding. *)
#[export] Instance prime13 : prime (Zpos 13) := prime_13.
Notation F13 := (Zmod 13).
Notation f13 := (@ofZ 13).
#[export] Instance draw13 : Draw Z F13 := fun s => (f13 (s / 65536), ((s * 1103515245 + 12345) mod 2147483648)%Z).
#[export] Instance drawZ : Draw Z Z := fun s => ((s / 65536)%Z, ((s * 1103515245 + 12345) mod 2147483648)%Z).
#[export] Instance seedZ : Seeded Z Z := fun s => s.
#[export] Instance enc13 : Enc (list F13) (list F13) := {| enc := fun x => x; dec := fun x => Some x; dec_enc := fun x => eq_refl |}.
Definition st13 : pid -> rst Z := fun i =>
  match i with
  | P0 => mkRst 11111111 33333333 (mkBC 1 3 None) (mkBC 4 5 (Some 6))
  | P1 => mkRst 22222222 11111111 (mkBC 2 3 (Some 1)) (mkBC 5 4 None)
  | P2 => mkRst 33333333 22222222 (mkBC 3 1 (Some 2)) (mkBC 6 4 (Some 5))
  end%Z.
Lemma st13_synced : synced st13.
Proof.
  constructor.
  - intros []; reflexivity.
  - do 3 eexists. split; reflexivity.
  - do 3 eexists. split; reflexivity.
Qed.
Definition sh13 (v a b : Z) : pid -> share F13 := fun i =>
  match i with
  | P0 => mkShare (f13 a) (f13 (v - a - b))
  | P1 => mkShare (f13 b) (f13 a)
  | P2 => mkShare (f13 (v - a - b)) (f13 b)
  end%Z.
Lemma sh13_shares v a b : shares (sh13 v a b) (f13 v).
Proof.
  split; [intros []; reflexivity|]. unfold additive, sh13. cbn [sa].
  etransitivity; [exact (ofZ_sum3 _ _ _)|f_equal; lia].
Qed.

