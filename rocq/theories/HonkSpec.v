(** * What the gates of UltraHonk mean (C72)

    Specification: a row by the names of its entities, in the order of
    co-noir-common/src/polynomials/entities.rs:103-110, 257-311, 636-652; and for every kind of gate the equations it
    stands for. Nothing of HonkRelations.v is used. *)
From Coq Require Import List Arith Lia Bool.
From Verif Require Import Proc Alg NNet Rep3 ShamirPoly Shamir ShamirAlg.
Import ListNotations.
Set Implicit Arguments.
Local Open Scope grp_scope.
Local Open Scope list_scope.

Section Spec.
  Context {F : Type} {FF : Fld F}.
  Infix "*" := rmul : grp_scope.
  Notation "1" := rone : grp_scope.
  (** entities.rs:103-110: a row *)
  Record gate := {
    m : F; c : F; q1 : F; q2 : F; q3 : F; q4 : F; lookup : F; arith : F; delta_range : F; ell : F; memory : F; nnf : F; pos2_ext : F; pos2_int : F;
    s1 : F; s2 : F; s3 : F; s4 : F; i1 : F; i2 : F; i3 : F; i4 : F; t1 : F; t2 : F; t3 : F; t4 : F; first : F; last : F;
    w1 : F; w2 : F; w3 : F; w4 : F; z : F; inverses : F; counts : F; tags : F;
    w1' : F; w2' : F; w3' : F; w4' : F; z' : F }.
  (** entities.rs:103-110: the order of the entities *)
  Definition encode (g : gate) : list F :=
    [m g; c g; q1 g; q2 g; q3 g; q4 g; lookup g; arith g; delta_range g; ell g; memory g; nnf g; pos2_ext g; pos2_int g;
     s1 g; s2 g; s3 g; s4 g; i1 g; i2 g; i3 g; i4 g; t1 g; t2 g; t3 g; t4 g; first g; last g;
     w1 g; w2 g; w3 g; w4 g; z g; inverses g; counts g; tags g; w1' g; w2' g; w3' g; w4' g; z' g].

  (** the sum of the linear terms of a gate *)
  Definition linear (g : gate) : F := q1 g * w1 g + q2 g * w2 g + q3 g * w3 g + q4 g * w4 g + c g.
  (** three *)
  Definition three : F := 1 + 1 + 1.
  (** between 0 and 3 *)
  Definition small (x : F) : Prop := x = 0 \/ x = 1 \/ x = 1 + 1 \/ x = three.
  (** 0 or 1 *)
  Definition bit (x : F) : Prop := x = 0 \/ x = 1.
  (** the line through two points with slope [l] meets the curve again in (x3, -y3) *)
  Definition on_chord (l x1 y1 x2 x3 y3 : F) : Prop := x3 = l * l - x1 - x2 /\ y3 = l * (x1 - x3) - y1.
  (** the S-box *)
  Definition pow5 (x : F) : F := x * x * x * x * x.
  (** a multiple *)
  Fixpoint times (n : nat) (x : F) : F := match n with O => 0 | S n => x + times n x end.
  (** a row of the matrix of external rounds times the state *)
  Definition mat (a b d e : nat) (u : F * F * F * F) : F :=
    let '(u1, u2, u3, u4) := u in times a u1 + times b u2 + times d u3 + times e u4.
  (** products and sums over rows *)
  Fixpoint prod (n : nat) (f : nat -> F) : F := match n with O => 1 | S n => prod n f * f n end.
End Spec.
