(** * Concrete carriers for the examples on the MPC-VM *)
From Coq Require Import List Arith NArith ZArith Lia Bool.
From Verif Require Import Proc Alg Zp Rep3Net Rep3 Rep3Spec Uint Conv Garble Garbled Yao Concrete ConcreteU ConcreteY VmDriver VmIdeal VmDriverWp.
Import ListNotations.

(** a toy hash that keeps the two labels of a wire apart *)
Definition hash_v (x t : N) : N := N.lxor x (977 * t + 12289).
Lemma hash_v_sep : forall d z n, color d = true -> hash_v z (otweak_t n false) <> hash_v (N.lxor z d) (otweak_t n false).
Proof.
  intros d z n Hd E. unfold hash_v in E. set (c := (977 * otweak_t n false + 12289)%N) in *.
  assert (d = 0%N).
  { replace d with (N.lxor (N.lxor z c) (N.lxor (N.lxor z d) c)).
    - rewrite <- E. apply N.lxor_nilpotent.
    - apply N.bits_inj. intros j. rewrite !N.lxor_spec. destruct (N.testbit z j), (N.testbit c j), (N.testbit d j); reflexivity. }
  subst d. discriminate.
Qed.
(** square roots in the field with 13 elements by search *)
Definition fsqrt13 (x : F13) : option F13 := find (fun w => feqb (rmul w w) x) (map f13 [0; 1; 2; 3; 4; 5; 6; 7; 8; 9; 10; 11; 12]%Z).
Lemma fsqrt13_root z w : fsqrt13 z = Some w -> rmul w w = z.
Proof. intros E. apply find_some in E as [_ E]. apply feqb_spec. exact E. Qed.
Lemma all13 (w : F13) : In w (map f13 [0; 1; 2; 3; 4; 5; 6; 7; 8; 9; 10; 11; 12]%Z).
Proof.
  rewrite <- (ofZ_val w). apply in_map. pose proof (val_range w) as R. set (v := Zp.val w) in *.
  assert (C : (v = 0 \/ v = 1 \/ v = 2 \/ v = 3 \/ v = 4 \/ v = 5 \/ v = 6 \/ v = 7 \/ v = 8 \/ v = 9 \/ v = 10 \/ v = 11 \/ v = 12)%Z) by lia.
  cbn [In]. lia.
Qed.
Lemma fsqrt13_none z : fsqrt13 z = None -> forall w, rmul w w <> z.
Proof. intros E w Ew. pose proof (find_none _ _ E w (all13 w)) as K. cbv beta in K. rewrite (proj2 (feqb_spec _ _) Ew) in K. discriminate. Qed.
(** the private generators, the two states *)
Definition rgof13 (i : pid) (st : rst Z) : Z := rg_t i.
Definition d13 : pid -> dst (S := Z) := fun i => (st13 i, st13 i).
Lemma d13_synced : synced2 d13.
Proof. split; exact st13_synced. Qed.
(** related values *)
Definition pv (v : Z) : pid -> rv F13 := fun _ => RPub (f13 v).
Definition sv (v a b : Z) : pid -> rv F13 := fun i => RSh (sh13 v a b i).
Lemma pv_rel v : rel (pv v) (Pub (f13 v)).
Proof. intros i. reflexivity. Qed.
Lemma sv_rel v a b : rel (sv v a b) (Sh (f13 v)).
Proof. exists (sh13 v a b). split; [reflexivity|apply sh13_shares]. Qed.
Lemma done13 (o : outcome F13) v : match o with Done x => feqb x v | Failed _ => false end = true -> o = Done v.
Proof. destruct o; [|discriminate]. intros E. apply feqb_spec in E. congruence. Qed.
