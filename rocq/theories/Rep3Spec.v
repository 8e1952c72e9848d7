(** * Specification vocabulary for replicated sharing

    Nothing here refers to a protocol of the model: only to the share record
    (mpc-core/src/protocols/rep3/arithmetic/types.rs:21-28) and the generator state. *)
From Coq Require Import List.
From Verif Require Import Alg Proc Rep3Net Rep3.
Import ListNotations.
Set Implicit Arguments.
Local Open Scope grp_scope.

Section Spec.
  Context {G : Type} `{AbGrp G}.
  (** Three additive summands of [x] (no replication). *)
  Definition additive (z : pid -> G) (x : G) : Prop := z P0 + z P1 + z P2 = x.
  (** Replication: the second component of party [i] is the first one of party [i-1]. *)
  Definition replicated (s : pid -> share G) : Prop := forall i, sb (s i) = sa (s (prev i)).
  (** A valid replicated sharing of [x]. *)
  Definition shares (s : pid -> share G) (x : G) : Prop :=
    replicated s /\ additive (fun i => sa (s i)) x.
End Spec.

(** Position-wise lifting of a relation between per-party data and a value to vectors. *)
Definition pvec {A B} (R : (pid -> A) -> B -> Prop) (l : pid -> list A) (xs : list B) : Prop :=
  (forall i, length (l i) = length xs) /\
  forall n x, nth_error xs n = Some x ->
    exists a, (forall i, nth_error (l i) n = Some (a i)) /\ R a x.

Definition shares_vec {G} `{AbGrp G} := pvec (@shares G _).
Definition additive_vec {G} `{AbGrp G} := pvec (@additive G _).

(** Generators agree pairwise: the second generator of party [i] is the first of party [i-1];
    the three-key generators used by the conversions agree between the two parties holding them. *)
Record synced {S} (st : pid -> rst S) : Prop := {
  sync_rand : forall i, rng2 (st i) = rng1 (st (prev i));
  sync_bc1 : exists a0 a1 a2, bc1 (st P1) = mkBC a1 a2 (Some a0) /\ bc1 (st P2) = mkBC a2 a0 (Some a1);
  sync_bc2 : exists b0 b1 b2, bc2 (st P0) = mkBC b0 b1 (Some b2) /\ bc2 (st P2) = mkBC b2 b0 (Some b1) }.
