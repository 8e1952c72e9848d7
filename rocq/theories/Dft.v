(** * Evaluation and interpolation on domains of roots of unity

    The transforms of the crate taceo-ark-algebra ([fft::Domain], [bit_reverse]) are external:
    they are specified here by what co-circom/co-groth16/src/groth16/reduction.rs:38-44, 61-73,
    224-227 says about them.  [Domain::ifft_in_to_out] takes evaluations in natural order and
    leaves the coefficients in bit-reversed order; [Domain::fft_out_to_in] takes coefficients in
    bit-reversed order and returns evaluations in natural order. *)
From Coq Require Import String List Arith Lia Bool Ring.
From Verif Require Import Proc Alg Rep3 ShamirPoly Shamir ShamirAlg.
Import ListNotations.
Set Implicit Arguments.
Local Open Scope grp_scope.

(** ** Bit reversal *)
(** [bitrev k i]: the lowest [k] bits of [i] in reversed order *)
Fixpoint bitrev (k i : nat) : nat :=
  match k with O => O | S k => (2 ^ k * (i mod 2) + bitrev k (i / 2))%nat end.
(** the bit of weight [2^j] *)
Definition bit (j i : nat) : nat := ((i / 2 ^ j) mod 2)%nat.

Lemma bitrev_lt k : forall i, bitrev k i < 2 ^ k.
Proof.
  induction k as [|k IH]; intros i; cbn [bitrev]; [cbn; lia|].
  specialize (IH (i / 2)). pose proof (Nat.mod_upper_bound i 2 ltac:(lia)). cbn [Nat.pow]. nia.
Qed.
Lemma bit_0 i : bit 0 i = (i mod 2)%nat.
Proof. unfold bit. cbn [Nat.pow]. rewrite Nat.div_1_r. reflexivity. Qed.
Lemma bit_S j i : bit (S j) i = bit j (i / 2).
Proof. unfold bit. cbn [Nat.pow]. rewrite Nat.div_div by (try apply Nat.pow_nonzero; lia). reflexivity. Qed.
Lemma bit_low j k a b : j < k -> bit j (2 ^ k * a + b) = bit j b.
Proof.
  intros L. unfold bit.
  replace (2 ^ k * a + b)%nat with (b + (2 ^ (k - S j) * a * 2) * 2 ^ j)%nat.
  2: { replace (2 ^ k)%nat with (2 ^ (k - S j) * 2 ^ S j)%nat by (rewrite <- Nat.pow_add_r; f_equal; lia). cbn [Nat.pow]. lia. }
  rewrite Nat.div_add by (apply Nat.pow_nonzero; lia). apply Nat.mod_add. lia.
Qed.
Lemma bit_top k a b : b < 2 ^ k -> a < 2 -> bit k (2 ^ k * a + b) = a.
Proof.
  intros Lb La. unfold bit. rewrite (Nat.mul_comm _ a), Nat.div_add_l by (apply Nat.pow_nonzero; lia).
  rewrite (Nat.div_small b) by exact Lb. rewrite Nat.add_0_r. apply Nat.mod_small. exact La.
Qed.
Lemma bitrev_bit k : forall i j, j < k -> bit j (bitrev k i) = bit (k - 1 - j) i.
Proof.
  induction k as [|k IH]; intros i j L; [lia|]. cbn [bitrev].
  destruct (Nat.eq_dec j k) as [->|Hne].
  - rewrite bit_top by (try apply bitrev_lt; apply Nat.mod_upper_bound; lia).
    replace (S k - 1 - k)%nat with 0%nat by lia. symmetry. apply bit_0.
  - rewrite bit_low by lia. rewrite IH by lia.
    replace (S k - 1 - j)%nat with (S (k - 1 - j))%nat by lia. symmetry. apply bit_S.
Qed.
Lemma bits_eq k : forall a b, a < 2 ^ k -> b < 2 ^ k -> (forall j, j < k -> bit j a = bit j b) -> a = b.
Proof.
  induction k as [|k IH]; intros a b La Lb E; [cbn in *; lia|].
  assert (Hd : (a / 2 = b / 2)%nat).
  { cbn [Nat.pow] in *. apply IH; try (apply Nat.div_lt_upper_bound; lia). intros j Lj. rewrite <- !bit_S. apply E. lia. }
  pose proof (E O ltac:(lia)) as E0. rewrite !bit_0 in E0.
  rewrite (Nat.div_mod a 2), (Nat.div_mod b 2) by lia. congruence.
Qed.
Lemma bitrev_invol k i : i < 2 ^ k -> bitrev k (bitrev k i) = i.
Proof.
  intros L. apply (@bits_eq k); [apply bitrev_lt|exact L|]. intros j Lj.
  rewrite !bitrev_bit by lia. f_equal. lia.
Qed.

Section Perm.
  Context {A : Type} (d : A).
  (** taceo_ark_algebra [bit_reverse] on a vector of length [2^k] *)
  Definition bit_reverse (k : nat) (v : list A) : list A := map (fun i => nth (bitrev k i) v d) (seq 0 (2 ^ k)).
  Lemma bit_reverse_length k v : length (bit_reverse k v) = (2 ^ k)%nat.
  Proof. unfold bit_reverse. rewrite map_length, seq_length. reflexivity. Qed.
  Lemma bit_reverse_nth k v i e : i < 2 ^ k -> nth i (bit_reverse k v) e = nth (bitrev k i) v d.
  Proof.
    intros L. unfold bit_reverse. rewrite (nth_indep _ e (nth (bitrev k 0) v d)) by (rewrite map_length, seq_length; exact L).
    rewrite (map_nth (fun i => nth (bitrev k i) v d)), seq_nth by exact L. reflexivity.
  Qed.
  Lemma bit_reverse_invol k v : length v = (2 ^ k)%nat -> bit_reverse k (bit_reverse k v) = v.
  Proof.
    intros L. apply (list_ext d); [rewrite bit_reverse_length; auto|]. intros i Hi. rewrite bit_reverse_length in Hi.
    rewrite !bit_reverse_nth by (try apply bitrev_lt; exact Hi). rewrite bitrev_invol by exact Hi. reflexivity.
  Qed.
End Perm.
Lemma bit_reverse_map2 {A B C} (da : A) (db : B) (dc : C) (f : A -> B -> C) k a b :
  length a = (2 ^ k)%nat -> length b = (2 ^ k)%nat ->
  bit_reverse dc k (map2 f a b) = map2 f (bit_reverse da k a) (bit_reverse db k b).
Proof.
  intros La Lb. apply (list_ext dc).
  - rewrite map2_length, !bit_reverse_length. lia.
  - intros i Hi. rewrite bit_reverse_length in Hi. rewrite bit_reverse_nth by exact Hi.
    rewrite (@map2_nth _ _ _ f _ _ _ da db dc) by (rewrite ?La, ?Lb; apply bitrev_lt).
    rewrite (@map2_nth _ _ _ f _ _ i da db dc) by (rewrite bit_reverse_length; exact Hi).
    rewrite !bit_reverse_nth by exact Hi. reflexivity.
Qed.

(** ** Powers *)
Section Pow.
  Context {F : Type} {FF : Fld F}.
  Add Ring FringD : (@cring_theory F _).
  Infix "*" := rmul : grp_scope.
  Notation "1" := rone : grp_scope.
  Lemma fpow_add (x : F) a b : fpow x (a + b) = fpow x a * fpow x b.
  Proof. induction a as [|a IH]; cbn [fpow Nat.add]; [ring|]. rewrite IH. ring. Qed.
  Lemma fpow_mul (x : F) a b : fpow x (a * b) = fpow (fpow x a) b.
  Proof. induction b as [|b IH]; [rewrite Nat.mul_0_r; reflexivity|]. rewrite Nat.mul_succ_r, fpow_add, IH. cbn [fpow]. ring. Qed.
  Lemma fpow_1 k : fpow (1 : F) k = 1.
  Proof. induction k as [|k IH]; cbn; [reflexivity|]. rewrite IH. ring. Qed.
  Lemma fpow_mul_l (x y : F) k : fpow (x * y) k = fpow x k * fpow y k.
  Proof. induction k as [|k IH]; cbn; [ring|]. rewrite IH. ring. Qed.
  Lemma fpow_neq (x : F) k : x <> 0 -> fpow x k <> 0.
  Proof. intros N. induction k as [|k IH]; cbn; [apply f_1_neq_0|]. apply fmul_neq; assumption. Qed.
  Lemma fnat_add a b : fnat (a + b) = fnat a + fnat b :> F.
  Proof. induction a as [|a IH]; cbn; [ring|]. rewrite IH. ring. Qed.
  Lemma fnat_mul a b : fnat (a * b) = fnat a * fnat b :> F.
  Proof. induction a as [|a IH]; cbn [fnat Nat.mul]; [ring|]. rewrite fnat_add, IH. ring. Qed.
  Lemma geometric (x : F) n : (x - 1) * sumn n (fun k => fpow x k) = fpow x n - 1.
  Proof. induction n as [|n IH]; cbn [sumn fpow]; [ring|]. transitivity ((x - 1) * sumn n (fun k => fpow x k) + (x - 1) * fpow x n); [ring|]. rewrite IH. ring. Qed.

  (** [g] generates a domain with [n] points: a primitive [n]-th root of unity, [n] invertible *)
  Record root (g : F) (n : nat) : Prop := {
    root_pos : 0 < n;
    root_n : fpow g n = 1;
    root_k : forall k, 0 < k < n -> fpow g k <> 1;
    root_inv : fnat n <> (0 : F) }.
  Lemma root_neq g n : root g n -> g <> 0.
  Proof.
    intros R E. pose proof (root_n R) as H. pose proof (root_pos R) as Lp. rewrite E in H. destruct n; [lia|]. cbn in H.
    apply f_1_neq_0. rewrite <- H. ring.
  Qed.
  Lemma fpow_inv g a : g <> 0 -> fpow (finv g) a * fpow g a = 1.
  Proof. intros Ng. rewrite <- fpow_mul_l, finv_l by exact Ng. apply fpow_1. Qed.
  (** sum of a character *)
  Lemma char_sum g n a b : root g n -> a < n -> b < n ->
    sumn n (fun k => fpow (finv g) (k * a) * fpow g (k * b)) = if (a =? b)%nat then fnat n else 0.
  Proof.
    intros R La Lb. pose proof (root_neq R) as Ng.
    destruct (Nat.eqb_spec a b) as [->|Hne].
    - transitivity (sumn n (fun _ => 1 : F)); [apply sumn_ext; intros k _; apply fpow_inv; exact Ng|].
      clear. induction n as [|n IH]; cbn; [reflexivity|]. rewrite IH. ring.
    - set (x := fpow (finv g) a * fpow g b).
      assert (Ex : forall k, fpow (finv g) (k * a) * fpow g (k * b) = fpow x k).
      { intros k. unfold x. rewrite fpow_mul_l, !(Nat.mul_comm k), !fpow_mul. reflexivity. }
      rewrite (sumn_ext _ (fun k => fpow x k)) by (intros; apply Ex).
      assert (Xn : fpow x n = 1).
      { unfold x. rewrite fpow_mul_l, <- !fpow_mul, !(Nat.mul_comm _ n), !fpow_mul, (root_n R).
        assert (E : fpow (finv g) n = 1) by (pose proof (fpow_inv n Ng) as E; rewrite (root_n R) in E; rewrite <- E; ring).
        rewrite E, !fpow_1. ring. }
      assert (X1 : x - 1 <> 0).
      { apply fsub_neq. intros E. unfold x in E.
        assert (Eg : fpow g b = fpow g a).
        { transitivity (fpow g a * (fpow (finv g) a * fpow g b)); [|rewrite E; ring].
          transitivity ((fpow (finv g) a * fpow g a) * fpow g b); [rewrite fpow_inv by exact Ng; ring|ring]. }
        assert (K : forall u v, u < v -> v < n -> fpow g u = fpow g v -> False).
        { intros u v Luv Lv Euv. apply (root_k R (k := v - u)); [lia|].
          replace v with (u + (v - u))%nat in Euv by lia. rewrite fpow_add in Euv.
          transitivity ((fpow (finv g) u * fpow g u) * fpow g (v - u)); [rewrite fpow_inv by exact Ng; ring|].
          transitivity (fpow (finv g) u * (fpow g u * fpow g (v - u))); [ring|]. rewrite <- Euv. apply fpow_inv. exact Ng. }
        destruct (Nat.lt_total a b) as [H|[H|H]]; [eapply K; [exact H|exact Lb|symmetry; exact Eg]|contradiction|eapply K; [exact H|exact La|exact Eg]]. }
      destruct (feqb (sumn n (fun k => fpow x k)) 0) eqn:Eb; [apply feqb_spec; exact Eb|].
      exfalso. assert (Ns : sumn n (fun k => fpow x k) <> 0) by (intros E; apply feqb_spec in E; congruence).
      apply (fmul_neq X1 Ns). rewrite geometric, Xn. ring.
  Qed.
  Lemma root_distinct g n a b : root g n -> a < n -> b < n -> fpow g a = fpow g b -> a = b.
  Proof.
    intros R. pose proof (root_neq R) as Ng.
    assert (K : forall u v, u < v -> v < n -> fpow g u = fpow g v -> False).
    { intros u v Luv Lv Euv. apply (root_k R (k := v - u)); [lia|].
      replace v with (u + (v - u))%nat in Euv by lia. rewrite fpow_add in Euv.
      transitivity ((fpow (finv g) u * fpow g u) * fpow g (v - u)); [rewrite fpow_inv by exact Ng; ring|].
      transitivity (fpow (finv g) u * (fpow g u * fpow g (v - u))); [ring|]. rewrite <- Euv. apply fpow_inv. exact Ng. }
    intros La Lb E. destruct (Nat.lt_total a b) as [H|[H|H]]; [exfalso; exact (K a b H Lb E)|exact H|exfalso; exact (K b a H La (eq_sym E))].
  Qed.
  Lemma nodup_map {A B} (f : A -> B) l : NoDup l -> (forall a b, In a l -> In b l -> f a = f b -> a = b) -> NoDup (map f l).
  Proof.
    induction l as [|x l IH]; intros ND I; cbn; [constructor|]. inversion ND as [|y k N1 N2]; subst. constructor.
    - intros Hx. apply in_map_iff in Hx as (y & E & Hy). apply N1. rewrite <- (I y x); [exact Hy|right; exact Hy|left; reflexivity|exact E].
    - apply IH; [exact N2|]. intros a b Ha Hb. apply I; right; assumption.
  Qed.
  Lemma nodup_powers g n (s : F) : root g n -> s <> 0 -> NoDup (map (fun i => s * fpow g i) (seq 0 n)).
  Proof.
    intros R Ns. apply nodup_map; [apply seq_NoDup|].
    intros a b Ha Hb E. apply in_seq in Ha, Hb. apply (root_distinct R); try lia.
    transitivity (finv s * s * fpow g a); [rewrite finv_l by exact Ns; ring|].
    transitivity (finv s * (s * fpow g a)); [ring|]. rewrite E.
    transitivity (finv s * s * fpow g b); [ring|]. rewrite finv_l by exact Ns. ring.
  Qed.
End Pow.

(** ** Transforms of vectors over a module *)
Section Dft.
  Context {F G : Type} {FF : Fld F} {AG : AbGrp G} {MD : Mod F G}.
  Add Ring FringE : (@cring_theory F _).
  Infix "*" := rmul : grp_scope.
  Notation "1" := rone : grp_scope.
  (** evaluations at the [n] powers of [g] *)
  Definition dft (g : F) (n : nat) (c : list G) : list G := map (fun i => peval c (fpow g i)) (seq 0 n).
  (** coefficients of the polynomial with the given evaluations at the powers of [g] *)
  Definition idft (g : F) (n : nat) (v : list G) : list G := map (smul (finv (fnat n))) (dft (finv g) n v).
  (** [Domain::ifft_in_to_out], [Domain::fft_out_to_in] for the domain of size [2^k] generated by [g] *)
  Definition ifft_in_to_out (g : F) (k : nat) (v : list G) : list G := bit_reverse 0 k (idft g (2 ^ k) v).
  Definition fft_out_to_in (g : F) (k : nat) (c : list G) : list G := dft g (2 ^ k) (bit_reverse 0 k c).

  Lemma nth_map_seq {B} (f : nat -> B) n i d : i < n -> nth i (map f (seq 0 n)) d = f i.
  Proof.
    intros L. rewrite (nth_indep _ d (f 0%nat)) by (rewrite map_length, seq_length; exact L).
    rewrite map_nth, seq_nth by exact L. reflexivity.
  Qed.
  Lemma dft_length g n c : length (dft g n c) = n.
  Proof. unfold dft. rewrite map_length, seq_length. reflexivity. Qed.
  Lemma idft_length g n v : length (idft g n v) = n.
  Proof. unfold idft. rewrite map_length. apply dft_length. Qed.
  Lemma dft_nth g n c i d : i < n -> nth i (dft g n c) d = peval c (fpow g i).
  Proof. exact (@nth_map_seq G (fun i => peval c (fpow g i)) n i d). Qed.
  Lemma idft_nth g n v i : i < n -> nth i (idft g n v) 0 = smul (finv (fnat n)) (peval v (fpow (finv g) i)).
  Proof.
    intros L. unfold idft. rewrite (nth_indep _ 0 (smul (finv (fnat n)) 0)) by (rewrite map_length, dft_length; exact L).
    rewrite map_nth, dft_nth by exact L. reflexivity.
  Qed.
  Lemma peval_sumn (c : list G) : forall x, peval c x = sumn (length c) (fun j => smul (fpow x j) (nth j c 0)).
  Proof.
    induction c as [|a c IH]; intros x; [reflexivity|]. cbn [length peval]. rewrite sumn_first. cbn [nth fpow].
    rewrite smul_1, IH, smul_sumn. f_equal. apply sumn_ext. intros j _. rewrite <- smul_mul. reflexivity.
  Qed.
  Lemma peval_ext (c d : list G) x : length c = length d -> (forall j, j < length c -> nth j c 0 = nth j d 0) -> peval c x = peval d x.
  Proof. intros L E. rewrite (list_ext 0 c d L E). reflexivity. Qed.
  Lemma sumn_swap n m (f : nat -> nat -> G) : sumn n (fun i => sumn m (fun j => f i j)) = sumn m (fun j => sumn n (fun i => f i j)).
  Proof. induction n as [|n IH]; cbn [sumn]; [rewrite sumn_0; [reflexivity|intros; reflexivity]|]. rewrite IH, sumn_add. reflexivity. Qed.
  Lemma smul_sumn_l n (f : nat -> F) (x : G) : sumn n (fun k => smul (f k) x) = smul (sumn n f) x.
  Proof. induction n as [|n IH]; cbn; [symmetry; apply smul_0_l|]. rewrite IH, smul_add_l. reflexivity. Qed.

  (** the coefficients interpolate *)
  Lemma idft_points g n v i : root g n -> length v = n -> i < n -> peval (idft g n v) (fpow g i) = nth i v 0.
  Proof.
    intros R L Li. rewrite peval_sumn, idft_length.
    transitivity (sumn n (fun j => sumn n (fun k => smul (finv (fnat n) * (fpow (finv g) (j * k) * fpow g (j * i))) (nth k v 0)))).
    { apply sumn_ext. intros j Lj. rewrite idft_nth by exact Lj. rewrite peval_sumn, L, smul_sumn, smul_sumn. apply sumn_ext. intros k _.
      rewrite <- !smul_mul. f_equal. rewrite <- !fpow_mul, (Nat.mul_comm i j). ring. }
    rewrite sumn_swap.
    rewrite (@sumn_delta G _ _ _ i Li).
    - rewrite smul_sumn_l. transitivity (smul 1 (nth i v 0)); [f_equal|apply smul_1].
      transitivity (finv (fnat n) * sumn n (fun j => fpow (finv g) (j * i) * fpow g (j * i))).
      + symmetry. exact (smul_sumn n (finv (fnat n)) (fun j => fpow (finv g) (j * i) * fpow g (j * i))).
      + rewrite (char_sum R Li Li), Nat.eqb_refl. apply finv_l. apply (root_inv R).
    - intros k Lk Hne. rewrite smul_sumn_l. transitivity (smul (0 : F) (nth k v 0)); [f_equal|apply smul_0_l].
      transitivity (finv (fnat n) * sumn n (fun j => fpow (finv g) (j * k) * fpow g (j * i))).
      + symmetry. exact (smul_sumn n (finv (fnat n)) (fun j => fpow (finv g) (j * k) * fpow g (j * i))).
      + rewrite (char_sum R Lk Li). destruct (Nat.eqb_spec k i); [contradiction|]. ring.
  Qed.
  (** scaling coefficient [j] by [s^j] evaluates at [s * x] *)
  Lemma peval_scale (c : list G) s x n : length c = n ->
    peval (map2 (fun a p => smul p a) c (map (fpow s) (seq 0 n))) x = peval c (s * x).
  Proof.
    intros L. rewrite !peval_sumn, map2_length, map_length, seq_length, L, Nat.min_id. apply sumn_ext. intros j Lj.
    rewrite (@map2_nth _ _ _ (fun (a : G) (p : F) => smul p a) _ _ _ 0 0 0) by (rewrite ?map_length, ?seq_length, ?L; exact Lj).
    rewrite nth_map_seq by exact Lj. rewrite <- smul_mul, fpow_mul_l. f_equal. ring.
  Qed.
  (** the coset evaluation of the witness maps *)
  Definition coset_eval (g s : F) (k : nat) (v : list G) : list G :=
    fft_out_to_in g k (map2 (fun a p => smul p a) (ifft_in_to_out g k v) (bit_reverse (0 : F) k (map (fpow s) (seq 0 (2 ^ k))))).
  Lemma coset_eval_length g s k v : length (coset_eval g s k v) = (2 ^ k)%nat.
  Proof. apply dft_length. Qed.
  Lemma coset_eval_nth g s k v i : i < 2 ^ k ->
    nth i (coset_eval g s k v) 0 = peval (idft g (2 ^ k) v) (s * fpow g i).
  Proof.
    intros L. unfold coset_eval, fft_out_to_in, ifft_in_to_out. rewrite dft_nth by exact L.
    rewrite <- (@bit_reverse_map2 _ _ _ (0 : G) (0 : F) (0 : G)) by (rewrite ?idft_length, ?map_length, ?seq_length; reflexivity).
    rewrite bit_reverse_invol by (rewrite map2_length, idft_length, map_length, seq_length; lia).
    apply peval_scale. apply idft_length.
  Qed.
End Dft.

(** ** A polynomial with as many roots as coefficients is the zero list *)
Section Zero.
  Context {F G : Type} {FF : Fld F} {AG : AbGrp G} {MD : Mod F G}.
  Add Ring FringZ : (@cring_theory F _).
  Lemma nth_padd (a : list G) : forall b k, nth k (padd a b) 0 = nth k a 0 + nth k b 0.
  Proof.
    induction a as [|u a IH]; intros [|v b] [|k]; cbn; rewrite ?gadd_0, ?gadd_0_r; try reflexivity. apply IH.
  Qed.
  Lemma nth_pquot (c : list G) a m : length c = S (S m) -> nth m (pquot c a) 0 = nth (S m) c 0.
  Proof.
    destruct c as [|u c]; [discriminate|]. intros L. cbn [pquot nth]. rewrite nth_padd.
    rewrite (nth_overflow (map _ _)); [apply gadd_0_r|]. rewrite map_length, length_pquot. cbn in L. lia.
  Qed.
  Lemma top_zero (xs : list F) : forall (c : list G) m, NoDup xs -> length xs = S m -> length c <= S m ->
    (forall a, In a xs -> peval c a = 0) -> nth m c 0 = 0.
  Proof.
    induction xs as [|a xs IH]; intros c m ND L Lc Hr; [discriminate|]. cbn in L. injection L as L.
    destruct (Nat.eq_dec (length c) (S m)) as [Le|Hne]; [|apply nth_overflow; lia].
    inversion ND as [|b l N1 N2]; subst b l.
    destruct m as [|m].
    - destruct c as [|u [|v c]]; try discriminate. specialize (Hr a (or_introl eq_refl)). cbn in Hr. rewrite smul_0_r, gadd_0_r in Hr. exact Hr.
    - rewrite <- (nth_pquot c a) by exact Le. apply (IH (pquot c a) m N2 L); [rewrite length_pquot; lia|].
      intros b Hb. apply (@finv_smul F G FF AG MD (b - a)).
      + apply fsub_neq. intros ->. contradiction.
      + pose proof (peval_pquot c a b) as E. rewrite (Hr a), (Hr b) in E by (cbn; auto). rewrite gadd_0_r in E. symmetry. exact E.
  Qed.
End Zero.
