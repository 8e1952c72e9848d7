(** * Concrete carriers for the examples on Yao shares: a toy hash, identity digest *)
From Coq Require Import List Arith NArith ZArith Lia Bool.
From Verif Require Import Proc Alg Zp Rep3Net Rep3 Rep3Spec Uint Conv Garble CircuitsOk Garbled Yao YaoSpec YaoWp YaoOut Concrete ConcreteU.
Import ListNotations.
Local Open Scope N_scope.

(** labels of 16 bits; the offset has its lowest bit set, as [WireMod2::rand_delta] does *)
Definition hash_t (x t : N) : N := (x * x + 40503 * x + 977 * t + 12289) mod 65521.
Definition gtweak_t (n : N) : N := 2 * n.
Definition otweak_t (n : N) (b : bool) : N := 4 * n + N.b2n b.
Definition label_t (s : Z) : N * Z := du13 15 s.
Definition delta_t (s : Z) : N * Z := (N.lor (fst (du13 15 s)) 1, snd (du13 15 s)).
Definition digest_t (l : list N) : list N := l.
Fixpoint eqb_t (a b : list N) : bool :=
  match a, b with
  | [], [] => true
  | x :: a, y :: b => (x =? y) && eqb_t a b
  | _, _ => false
  end.
Lemma eqb_t_spec x : forall y, eqb_t x y = true <-> x = y.
Proof.
  induction x as [|a x IH]; intros [|b y]; cbn; split; intros E; try reflexivity; try discriminate.
  - apply andb_prop in E as [E1 E2]. apply N.eqb_eq in E1. apply IH in E2. congruence.
  - injection E as -> ->. rewrite N.eqb_refl. apply IH. reflexivity.
Qed.
Lemma delta_t_odd s : color (fst (delta_t s)) = true.
Proof.
  unfold color, delta_t. cbn [fst]. rewrite <- N.bit0_odd, N.lor_spec. rewrite orb_true_r. reflexivity.
Qed.
Lemma p13_odd : N.odd (fu_p (F := F13)) = true.
Proof. reflexivity. Qed.
Lemma w13y : (mbs F13 + 2 <= 64)%nat.
Proof. apply Nat.leb_le. vm_compute. reflexivity. Qed.
(** the private generators *)
Definition rg_t : pid -> Z := fun i => match i with P0 => 77777777 | P1 => 987654321 | P2 => 123456789 end%Z.

Section Check.
  Context {S : Type} (hash : N -> N -> N) (gtweak : N -> N) (otweak : N -> bool -> N) (draw_label : S -> N * S).
  (** decides [separated] *)
  Fixpoint sep_list (d : N) (k : N) (zs : list N) : bool :=
    match zs with
    | [] => true
    | z :: zs => negb (hash z (otweak k false) =? hash (N.lxor z d) (otweak k false)) && sep_list d (k + 1) zs
    end.
  Lemma sep_list_ok d zs : forall k0, sep_list d (N.of_nat k0) zs = true -> forall k z, nth_error zs k = Some z ->
    hash z (otweak (N.of_nat (k0 + k)) false) <> hash (N.lxor z d) (otweak (N.of_nat (k0 + k)) false).
  Proof.
    induction zs as [|y zs IH]; intros k0 E k z K; [destruct k; discriminate|].
    cbn in E. apply andb_prop in E as [E1 E2]. destruct k as [|k]; cbn in K.
    - injection K as ->. rewrite Nat.add_0_r. apply negb_true_iff, N.eqb_neq in E1. exact E1.
    - replace (N.of_nat k0 + 1) with (N.of_nat (Datatypes.S k0)) in E2 by lia.
      replace (k0 + Datatypes.S k)%nat with (Datatypes.S k0 + k)%nat by lia. exact (IH _ E2 _ _ K).
  Qed.
  Definition sep_check (d : N) (pg : gprog N (list N)) (rng : S) : bool :=
    match fst (garble hash gtweak draw_label d pg (new_garbler rng)) with
    | Done g => sep_list d 0 g
    | Failed _ => false
    end.
  Lemma sep_check_ok d pg rng : sep_check d pg rng = true -> run_separated hash gtweak otweak draw_label d pg rng.
  Proof.
    unfold sep_check, run_separated. intros E g G. rewrite G in E. intros k z K. exact (@sep_list_ok d g 0 E k z K).
  Qed.
End Check.
(** Yao shares of given bits *)
Definition ys (d : N) (zs : list N) (bs : list bool) : pid -> list N := fun i => match i with P0 => labels d zs bs | _ => zs end.
Lemma ys_shares d zs bs : length zs = length bs -> yao_shares d (ys d zs bs) bs.
Proof. intros L. split; [reflexivity|]. split; [exact L|reflexivity]. Qed.
