(** * Specification of Merkle trees: the recursive tree hash and the folding along a path *)
From Coq Require Import List Arith NArith Bool.
From Verif Require Import Alg Merkle.
Import ListNotations.
Set Implicit Arguments.
Local Open Scope grp_scope.
Section Spec.
  Context {F : Type} `{CRing F}.
  (** hash of at most [t] elements with a permutation [P] of states of [t] elements *)
  Definition hash (compress : bool) (t : nat) (P : list F -> list F) (c : list F) : F :=
    let s := c ++ repeat 0 (t - length c) in
    if compress then nth 0 (P s) 0 + nth 0 s 0 else nth 0 (P s) 0.
  (** the root of the tree of the given arity and depth over [a^depth] leaves *)
  Fixpoint tree_root (h : list F -> F) (a depth : nat) (l : list F) : F :=
    match depth with
    | O => nth 0 l 0
    | Datatypes.S k => h (map (fun j => tree_root h a k (firstn (a ^ k) (skipn (j * a ^ k) l))) (seq 0 a))
    end.
  (** the value reached from a leaf along a path (first element next to the leaf) *)
  Fixpoint path_root (h : list F -> F) (leaf : F) (ws : list (wit (F := F))) : F :=
    match ws with
    | [] => leaf
    | w :: ws => path_root h (h (firstn (position w) (other w) ++ leaf :: skipn (position w) (other w))) ws
    end.
  (** the index of the leaf that a path of arity [a] starts from *)
  Fixpoint path_index (a : nat) (ws : list (wit (F := F))) : nat :=
    match ws with [] => O | w :: ws => (position w + a * path_index a ws)%nat end.
  Definition path_wf (a : nat) (ws : list (wit (F := F))) : Prop :=
    Forall (fun w => (length (other w) = a - 1 /\ position w < a)%nat) ws.
End Spec.
