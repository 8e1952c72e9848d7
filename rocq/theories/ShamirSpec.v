(** * Specification of Shamir sharings *)
From Coq Require Import List Arith.
From Verif Require Import Proc Alg NNet Rep3 ShamirPoly Shamir.
Import ListNotations.
Set Implicit Arguments.
Local Open Scope grp_scope.

Section Spec.
  Context {F G : Type} {FF : Fld F} {AG : AbGrp G} {MD : Mod F G}.
  (** [s i] (party [i]'s share, [i < n]) are the values at the points 1..n of one polynomial of
      degree at most [d] with value [x] at 0. *)
  Definition sharing (n d : nat) (s : nat -> G) (x : G) : Prop :=
    exists c, length c <= S d /\ peval c 0 = x /\ forall i, i < n -> s i = peval c (fnat (S i)).
  (** the same for vectors *)
  Definition sharings (n d : nat) (s : nat -> list G) (xs : list G) : Prop :=
    (forall i, i < n -> length (s i) = length xs) /\
    forall k, k < length xs -> sharing n d (fun i => nth k (s i) 0) (nth k xs 0).
End Spec.

Section StateSpec.
  Context {F : Type} {FF : Fld F} {Sg : Type}.
  (** a pair of polynomials of degree at most [t] and [2t] with the same value at 0 *)
  Definition dpair (t : nat) (pq : list F * list F) : Prop :=
    length (fst pq) <= S t /\ length (snd pq) <= S (2 * t) /\ peval (fst pq) 0 = peval (snd pq) 0.
  Definition peval_at (i : nat) (c : list F) : F := peval c (fnat (S i)).
  (** Well-formed correlated randomness: all parties hold their evaluations of one list [L] of
      double sharings, and the pairwise generators agree. *)
  Record rng_wf (n t : nat) (L : list (list F * list F)) (r : nat -> srng (F := F) (Sg := Sg)) : Prop := {
    rw_id : forall i, i < n -> sr_id (r i) = i;
    rw_t : forall i, i < n -> sr_t (r i) = t;
    rw_n : forall i, i < n -> sr_n (r i) = n;
    rw_pre_t : forall i, i < n -> precompute_interpolation_polys (map (fun k => (i + k) mod n + 1) (seq 1 (t + 1)))%nat = Some (sr_pre_t (r i));
    rw_pre_2t : forall i, i < n ->
      precompute_interpolation_polys (O :: map (fun k => (i + k) mod n + 1) (seq 1 (2 * t)))%nat = Some (sr_pre_2t (r i));
    rw_shared : forall i, i < n -> length (sr_shared (r i)) = (n - 1)%nat;
    rw_matrix : forall i, i < n -> sr_matrix (r i) = create_vandermonde_matrix n t;
    rw_agree : forall i j, i < n -> j < n -> i <> j -> get_rng (r i) j = get_rng (r j) i;
    rw_good : Forall (dpair t) L;
    rw_rt : forall i, i < n -> sr_rt (r i) = map (fun pq => peval_at i (fst pq)) L;
    rw_r2t : forall i, i < n -> sr_r2t (r i) = map (fun pq => peval_at i (snd pq)) L }.
  Record sm_wf (n t gen : nat) (L : list (list F * list F)) (st : nat -> sst (F := F) (Sg := Sg)) : Prop := {
    sw_id : forall i, i < n -> ss_id (st i) = i;
    sw_n : forall i, i < n -> ss_n (st i) = n;
    sw_t : forall i, i < n -> ss_t (st i) = t;
    sw_open_t : forall i, i < n -> lagrange_from_coeff (open_points i n (t + 1)) = Some (ss_open_t (st i));
    sw_open_2t : forall i, i < n -> lagrange_from_coeff (open_points i n (2 * t + 1)) = Some (ss_open_2t (st i));
    sw_mul : forall i, i < n -> lagrange_from_coeff (seq 1 (2 * t + 1)) = Some (ss_mul_2t (st i));
    sw_zeros : forall i, i < n -> interpolation_poly_from_zero_points (seq (n - t + 1) t) = Some (ss_zeros (st i));
    sw_gen : forall i, i < n -> ss_gen (st i) = gen;
    sw_gen_pos : 0 < gen;
    sw_rng : rng_wf n t L (fun i => ss_rng (st i)) }.
  Definition sm_synced (n t : nat) (st : nat -> sst (F := F) (Sg := Sg)) : Prop := exists gen L, sm_wf n t gen L st.
End StateSpec.
