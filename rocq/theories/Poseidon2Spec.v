(** * Specification of the Poseidon2 permutation

    From the paper: matrices, x^D and the round structure, stated without the algorithms of Poseidon2.v. *)
From Coq Require Import List Arith NArith.
From Verif Require Import Alg Rep3 Poseidon2.
Import ListNotations.
Set Implicit Arguments.

(** the 4x4 matrix and the matrix of the external layer of size [t] *)
Definition m4 (i j : nat) : nat := nth j (nth i [[5; 7; 1; 3]; [4; 6; 1; 1]; [1; 3; 5; 7]; [1; 1; 4; 6]] []) 0.
Definition ext_coeff (t i j : nat) : nat :=
  if t <? 4 then if i =? j then 2 else 1
  else if t =? 4 then m4 i j
  else (if i / 4 =? j / 4 then 2 else 1) * m4 (i mod 4) (j mod 4).

Local Open Scope grp_scope.
Section Spec.
  Context {F : Type} `{CRing F}.
  Definition fsum (l : list F) : F := fold_right gadd 0 l.
  (** multiplication by the external matrix *)
  Definition ext_layer (t : nat) (l : list F) : list F :=
    map (fun i => fsum (map (fun j => nmul (ext_coeff t i j) (nth j l 0)) (seq 0 t))) (seq 0 t).
  (** multiplication by the matrix of ones plus the diagonal matrix *)
  Definition int_layer (diag : list F) (l : list F) : list F :=
    map2 (fun x m => fsum l + rmul x m) l diag.
  Definition power (d : N) (x : F) : F := rpow x (N.to_nat d).
  Definition ext_round (t : nat) (d : N) (l rc : list F) : list F := ext_layer t (map (power d) (map2 gadd l rc)).
  Definition int_round (d : N) (diag l : list F) (c : F) : list F :=
    int_layer diag (match l with [] => [] | x :: l => power d (x + c) :: l end).
  Definition poseidon2 (t : nat) (d : N) (p : pparams F) (l : list F) : list F :=
    fold_left (ext_round t d) (firstn (rounds_f_end p) (skipn (rounds_f_beginning p) (round_constants_external p)))
      (fold_left (int_round d (mat_internal_diag_m_1 p)) (firstn (rounds_p p) (round_constants_internal p))
        (fold_left (ext_round t d) (firstn (rounds_f_beginning p) (round_constants_external p)) (ext_layer t l))).

  (** The state sizes of the paper *)
  Definition valid_t (t : nat) : Prop := In t [2; 3; 4; 8; 12; 16; 20; 24]%nat.
  (** Parameters as built by [Poseidon2Params::new] (array sizes from the types), with the diagonals
      that the linear layers of sizes 2 and 3 are specialised to (debug assertions). *)
  Definition wf_params (t : nat) (p : pparams F) : Prop :=
    valid_t t /\ length (mat_internal_diag_m_1 p) = t /\
    length (round_constants_external p) = (rounds_f_beginning p + rounds_f_end p)%nat /\
    Forall (fun rc => length rc = t) (round_constants_external p) /\
    length (round_constants_internal p) = rounds_p p /\
    (t = 2%nat -> mat_internal_diag_m_1 p = [rone; rone + rone]) /\
    (t = 3%nat -> mat_internal_diag_m_1 p = [rone; rone; rone + rone]).
End Spec.
