(** * C35, C36: sharings and multiplication messages hide the secret

    Randomness is a tape of values ([tape], Secrecy.v): a party's generator returns the values of
    its tape in order. "Independent of the secret" means: the tapes that give a view for one secret
    and for another are in one-to-one correspondence. *)
From Coq Require Import String List ZArith Arith Lia.
From Verif Require Import Proc Alg Zp Rep3Net Rep3 Rep3Spec Concrete ConcreteS Secrecy SecretShare Shamir ShamirPoly.
Import ListNotations.
Local Open Scope grp_scope.

Section C35.
  Context {G : Type} {AG : AbGrp G}.
  (** C35, replicated sharing of one element: for every secret and every party each view (pair of
      shares) arises from exactly one choice of the two random elements drawn by the dealer. *)
  Theorem C35_rep3_view (x : G) (i : pid) (v : share G) :
    exists! r : tape G, length r = 2%nat /\ fst (Rep3.share_field_element x r) i = v.
  Proof. exact (share_view x i v). Qed.
  (** C35, replicated sharing of a vector. *)
  Theorem C35_rep3_vector_view (xs : list G) (i : pid) (vs : list (share G)) : length vs = length xs ->
    exists! r : tape G, length r = (2 * length xs)%nat /\ fst (Rep3.share_field_elements xs r) i = vs.
  Proof. exact (@shares_view G AG xs i vs). Qed.

  Context {F : Type} {FF : Fld F} {MD : Mod F G}.
  (** C35, Shamir sharing of degree [t]: any [t] different parties, every view, every secret:
      exactly one choice of the [t] random coefficients. *)
  Theorem C35_shamir_view (x : G) n t (ids : list nat) (v : list G) : length ids = t -> length v = t ->
    NoDup (map fnat (O :: map S ids) : list F) -> (forall k, In k ids -> k < n) ->
    exists! r : tape G, length r = t /\
      map (fun k => nth k (fst (sm_share (F := F) x n t r)) 0) ids = v.
  Proof. exact (@sm_view_unique F FF G AG MD x n t ids v). Qed.
  (** C35, Shamir sharing of a vector seen by at most [t] parties: a bijection of the random
      coefficients turns the secrets [xs] into [xs'] and keeps everything the parties hold. *)
  Theorem C35_shamir_vector_view (xs xs' : list G) n t (ids : list nat) : length ids <= t ->
    (forall k, In k ids -> k < n /\ fnat (S k) <> (0 : F)) -> length xs' = length xs ->
    exists f g : tape G -> tape G, forall r, length r = (length xs * t)%nat ->
      length (f r) = (length xs * t)%nat /\ length (g r) = (length xs * t)%nat /\ g (f r) = r /\ f (g r) = r /\
      map (fun k => nth k (fst (Shamir.share_field_elements (F := F) xs t n r)) []) ids =
      map (fun k => nth k (fst (Shamir.share_field_elements (F := F) xs' t n (f r))) []) ids.
  Proof. intros L Hk Lx. exact (@sm_view_vec F FF G AG MD xs n t ids L Hk xs' Lx). Qed.
End C35.

Section C36.
  Context {R : Type} {AG : AbGrp R} {BL : Bilin R R R} {M : Type} {ER : Enc M (list R)}.
  Variables (cap : nat) (cap_pos : 1 <= cap) (i : pid).

  (** C36, one multiplication: whatever the operands, every value [c] of the message received by
      party [i] occurs for exactly one value of the element drawn from the generator that party [i]
      does not hold. *)
  Theorem C36_mul_message (st : pid -> rst (tape R)) (x y : pid -> share R) (c : R) :
    exists! r, exists out, sees cap i (fun j => mul (M := M) j (joint i [r] st j) (x j) (y j)) (out, [enc [c]]).
  Proof. exact (mul_message cap_pos i st x y c). Qed.

  (** C36, circuits: two sharings that agree on the part held by party [i]; for every tape [u] of the
      generator unknown to [i] in the first run exactly one tape in the second run gives party [i] the
      same view: all its wires, its final state and all messages it received. *)
  Theorem C36_circuit (C : list (gate R)) (st : pid -> rst (tape R)) (w w' : pid -> list (share R)) (u : tape R) :
    w i = w' i -> length u = muls C ->
    exists! u', length u' = muls C /\
      exists v, sees cap i (fun j => circ (M := M) j C (joint i u st j) (w j)) v /\
                sees cap i (fun j => circ (M := M) j C (joint i u' st j) (w' j)) v.
  Proof. exact (@circ_view R AG BL M ER cap cap_pos i C st w w' u). Qed.

  (** C36, circuits with opened outputs: the view, now including the opened values, depends on the
      inputs of the others only through the values of the opened wires. *)
  Theorem C36_circuit_open (C : list (gate R)) (outs : list nat) (st : pid -> rst (tape R))
    (w w' : pid -> list (share R)) (xs xs' : list R) (u : tape R) :
    synced st -> w i = w' i -> length u = muls C -> shares_vec w xs -> shares_vec w' xs' ->
    map (fun n => nth n (cval C xs) 0) outs = map (fun n => nth n (cval C xs') 0) outs ->
    exists! u', length u' = muls C /\
      exists v, sees cap i (fun j => circ_open (M := M) j C outs (joint i u st j) (w j)) v /\
                sees cap i (fun j => circ_open (M := M) j C outs (joint i u' st j) (w' j)) v.
  Proof. exact (@circ_open_view R AG BL M ER cap cap_pos i C outs st w w' xs xs' u). Qed.

  (** The circuits compute what they should (the statements above are about working protocols). *)
  Theorem C36_circuit_correct (C : list (gate R)) (st : pid -> rst (tape R)) (w : pid -> list (share R)) (xs : list R) :
    synced st -> shares_vec w xs ->
    all_ok cap (fun j => circ (M := M) j C (st j) (w j)) (fun r => shares_vec (fun j => fst (r j)) (cval C xs)).
  Proof.
    exact (@circ_ok R AG BL (tape R) M _ ER cap cap_pos C st w xs).
  Qed.
End C36.

(** ** Concrete cases *)
Definition tp (l : list Z) : tape F13 := map f13 l.
Definition stt : pid -> rst (tape F13) := fun j =>
  match j with
  | P0 => mkRst (tp [1; 2; 3]) (tp [7; 8; 9]) (mkBC [] [] None) (mkBC [] [] (Some []))
  | P1 => mkRst (tp [4; 5; 6]) (tp [1; 2; 3]) (mkBC [] [] (Some [])) (mkBC [] [] None)
  | P2 => mkRst (tp [7; 8; 9]) (tp [4; 5; 6]) (mkBC [] [] (Some [])) (mkBC [] [] (Some []))
  end%Z.
Lemma stt_synced : synced stt.
Proof.
  constructor; [intros []; reflexivity| |]; exists [], [], []; split; reflexivity.
Qed.
(** P0's two shares of 5 also occur for the secret 6, with other random elements. *)
Example ex_C35 : fst (Rep3.share_field_element (f13 5) (tp [3; 4]%Z)) Rep3Net.P0 = fst (Rep3.share_field_element (f13 6) (tp [3; 5]%Z)) Rep3Net.P0
  /\ fst (Rep3.share_field_element (f13 5) (tp [3; 4]%Z)) Rep3Net.P1 <> fst (Rep3.share_field_element (f13 6) (tp [3; 5]%Z)) Rep3Net.P1.
Proof. split; [vm_compute; reflexivity|vm_compute; discriminate]. Qed.
(** Two parties (1 and 3 of 5) of a degree-2 sharing. *)
Example ex_C35_shamir : exists! r : tape F13, length r = 2%nat /\
  map (fun k => nth k (fst (sm_share (F := F13) (f13 5) 5 2 r)) 0) [0; 2]%nat = tp [11; 12]%Z.
Proof.
  apply C35_shamir_view; [reflexivity|reflexivity| |intros k [<-|[<-|[]]]; lia].
  repeat constructor; cbn; intuition discriminate.
Qed.
(** A circuit with two dependent products: (x*y + 3) * x. *)
Definition exC : list (gate F13) := [GMul 0 1; GAddPub 2 (f13 3); GMul 3 0].
Definition exw (v1 a1 b1 v2 a2 b2 : Z) : pid -> list (share F13) := fun j => [sh13 v1 a1 b1 j; sh13 v2 a2 b2 j].
Lemma exw_shares v1 a1 b1 v2 a2 b2 : shares_vec (exw v1 a1 b1 v2 a2 b2) [f13 v1; f13 v2].
Proof.
  unfold exw. refine (Rep3Proofs.pvec_cons _ _ _ (fun j => eq_refl) (sh13_shares v1 a1 b1) _).
  refine (Rep3Proofs.pvec_cons _ _ _ (fun j => eq_refl) (sh13_shares v2 a2 b2) _). apply Rep3Proofs.pvec_nil. reflexivity.
Qed.
(** Inputs (2, 3) and (5, 5) with the same shares at P0; party P0 cannot tell them apart. *)
Example ex_C36 : exists! u', length u' = 2%nat /\
  exists v, sees 1 Rep3Net.P0 (fun j => circ (M := list F13) j exC (joint Rep3Net.P0 (tp [4; 5]%Z) stt j) (exw 2 1 7 3 2 4 j)) v /\
            sees 1 Rep3Net.P0 (fun j => circ (M := list F13) j exC (joint Rep3Net.P0 u' stt j) (exw 5 1 10 5 2 6 j)) v.
Proof. refine (C36_circuit 1 (le_n 1) Rep3Net.P0 exC stt (exw 2 1 7 3 2 4) (exw 5 1 10 5 2 6) (tp [4; 5]%Z) _ _); [vm_compute; reflexivity|reflexivity]. Qed.
(** Inputs (2, 3) and (1, 2): both give the opened output 5. *)
Example ex_C36_open : exists! u', length u' = 2%nat /\
  exists v, sees 1 Rep3Net.P0 (fun j => circ_open (M := list F13) j exC [4]%nat (joint Rep3Net.P0 (tp [4; 5]%Z) stt j) (exw 2 1 7 3 2 4 j)) v /\
            sees 1 Rep3Net.P0 (fun j => circ_open (M := list F13) j exC [4]%nat (joint Rep3Net.P0 u' stt j) (exw 1 1 6 2 2 3 j)) v.
Proof.
  refine (C36_circuit_open 1 (le_n 1) Rep3Net.P0 exC [4]%nat stt _ _ _ _ _ stt_synced _ _ (exw_shares 2 1 7 3 2 4) (exw_shares 1 1 6 2 2 3) _);
  [vm_compute; reflexivity|reflexivity|]. cbn [map]. f_equal. apply Zmod_eq. vm_compute. reflexivity.
Qed.
(** If the opened values differ the views differ: nothing weaker than the hypothesis would do. *)
Example ex_C36_open_differs : map (fun n => nth n (cval exC [f13 2; f13 3]) 0) [4]%nat <> map (fun n => nth n (cval exC [f13 5; f13 2]) 0) [4]%nat.
Proof. intros E. apply (f_equal (map val)) in E. vm_compute in E. discriminate E. Qed.

Print Assumptions C35_rep3_view.
Print Assumptions C35_rep3_vector_view.
Print Assumptions C35_shamir_view.
Print Assumptions C35_shamir_vector_view.
Print Assumptions C36_mul_message.
Print Assumptions C36_circuit.
Print Assumptions C36_circuit_open.
Print Assumptions C36_circuit_correct.
