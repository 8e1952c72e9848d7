(** * What a sumcheck computes, and the proof of it (C68, C69)

    Specification: multilinear extensions ([mle]), the sum over all rows ([total]), the polynomial of a round
    ([round_poly]). No code of /repo is modelled here. *)
From Coq Require Import String List Arith Lia Bool Ring.
From Verif Require Import Proc Alg NNet Rep3 ShamirPoly Shamir ShamirAlg Univariate Sumcheck.
Import ListNotations.
Set Implicit Arguments.
Local Open Scope grp_scope.
Local Open Scope list_scope.

Section Spec.
  Context {F : Type} {FF : Fld F}.
  Add Ring FringSC : (@cring_theory F _).
  Infix "*" := rmul : grp_scope.
  Notation "1" := rone : grp_scope.
  Notation sub := (sub (F := F)).

  (** the product of the challenges at the bits of [x] *)
  Fixpoint pow (bs : list F) (x : nat) : F :=
    match bs with [] => 1 | b :: bs => (if Nat.odd x then b else 1) * pow bs (Nat.div2 x) end.
  (** the Lagrange polynomial of the corner [x] at the point [us] *)
  Fixpoint eqw (us : list F) (x : nat) : F :=
    match us with [] => 1 | u :: us => (if Nat.odd x then u else 1 - u) * eqw us (Nat.div2 x) end.
  (** the multilinear extension of the values [col], zero where there are none, at [us] *)
  Definition mle (us : list F) (col : list F) : F := sumn (2 ^ length us) (fun x => eqw us x * nth x col 0).

  (** a row of the columns; an edge: the values at both ends as a linear function; its points *)
  Definition row (cols : list (list F)) (i : nat) : list F := map (fun col => nth i col 0) cols.
  Definition edge (cols : list (list F)) (l : nat) : list (F * F) :=
    map (fun col => (nth (2 * l) col 0, nth (S (2 * l)) col 0 - nth (2 * l) col 0)) cols.
  Definition line (e : list (F * F)) (x : F) : list F := map (fun p => fst p + snd p * x) e.

  (** a weighted sum over the subrelations *)
  Fixpoint wsum (ss : list sub) (xs : list F) (f : sub -> F) : F :=
    match ss, xs with s :: ss, x :: xs => x * f s + wsum ss xs f | _, _ => 0 end.
  Definition sval (s : sub) (w : F) (r : list F) : F := if sb_indep s then w * sb_prover s r else sb_prover s r.
  Variables (subs : list sub) (xs : list F) (MAX SIZE N : nat).
  (** the sum over the 2^m rows *)
  Definition total (m : nat) (bs : list F) (c : F) (cols : list (list F)) : F :=
    wsum subs xs (fun s => sumn (2 ^ m) (fun i => sval s (c * pow bs i) (row cols i))).
  (** the polynomial of a round with 2^m edges *)
  Definition round_poly (m : nat) (b : F) (bs : list F) (c : F) (cols : list (list F)) (x : F) : F :=
    wsum subs xs (fun s => sumn (2 ^ m) (fun l => sval s (c * (1 + x * (b - 1)) * pow bs l) (line (edge cols l) x))).

  (** what is assumed about a subrelation: along a line it is a polynomial with at most [sb_len] coefficients, it
      vanishes where all entities do and where it is skipped, and prover and verifier compute the same *)
  Definition sub_ok (s : sub) : Prop :=
    (forall r, length r = N -> sb_verify s r = sb_prover s r) /\
    (forall e, length e = N -> exists p, length p <= sb_len s /\ forall x, sb_prover s (line e x) = peval p x) /\
    sb_prover s (repeat 0 N) = 0 /\
    (forall e, length e = N -> sb_skip s (map (fun p => values [fst p; snd p] MAX) e) = true -> forall x, sb_prover s (line e x) = 0) /\
    sb_len s <= MAX /\ sb_len s <= SIZE /\ (sb_indep s = true -> S (sb_len s) <= SIZE).
  (** the columns satisfy the subrelations: those that hold in every row do, the others in the sum *)
  Definition satisfied (m : nat) (cols : list (list F)) : Prop :=
    Forall (fun s => if sb_indep s then forall i, i < 2 ^ m -> sb_prover s (row cols i) = 0
                     else sumn (2 ^ m) (fun i => sb_prover s (row cols i)) = 0) subs.
  (** one column after a challenge *)
  Definition folds (u : F) (col col' : list F) : Prop :=
    forall l, nth l col' 0 = nth (2 * l) col 0 + (nth (S (2 * l)) col 0 - nth (2 * l) col 0) * u.

  (** ** Sums *)
  Lemma wsum_ext ss : forall ys f g, (forall s, In s ss -> f s = g s) -> wsum ss ys f = wsum ss ys g.
  Proof.
    induction ss as [|s ss IH]; intros [|y ys] f g E; cbn [wsum]; try reflexivity.
    rewrite (E s) by (left; reflexivity). rewrite (IH ys f g) by (intros; apply E; right; assumption). reflexivity.
  Qed.
  Lemma wsum_add ss : forall ys f g, wsum ss ys f + wsum ss ys g = wsum ss ys (fun s => f s + g s).
  Proof. induction ss as [|s ss IH]; intros [|y ys] f g; cbn [wsum]; try (apply gadd_0). rewrite <- IH. ring. Qed.
  Lemma sumn_double n (f : nat -> F) : sumn (2 * n) f = sumn n (fun l => f (2 * l)%nat + f (S (2 * l))).
  Proof.
    induction n as [|n IH]; [reflexivity|]. replace (2 * S n)%nat with (S (S (2 * n))) by lia. cbn [sumn]. rewrite IH. ring.
  Qed.
  Lemma pow_even b bs l : pow (b :: bs) (2 * l) = pow bs l.
  Proof. cbn [pow]. rewrite Nat.odd_mul, Nat.div2_double. cbn. ring. Qed.
  Lemma pow_odd b bs l : pow (b :: bs) (S (2 * l)) = b * pow bs l.
  Proof. cbn [pow]. rewrite Nat.odd_succ, Nat.even_mul, Nat.div2_succ_double. reflexivity. Qed.
  Lemma eqw_even u us l : eqw (u :: us) (2 * l) = (1 - u) * eqw us l.
  Proof. cbn [eqw]. rewrite Nat.odd_mul, Nat.div2_double. reflexivity. Qed.
  Lemma eqw_odd u us l : eqw (u :: us) (S (2 * l)) = u * eqw us l.
  Proof. cbn [eqw]. rewrite Nat.odd_succ, Nat.even_mul, Nat.div2_succ_double. reflexivity. Qed.

  Lemma wsum_zero ss : forall ys f, (forall s, In s ss -> f s = 0) -> wsum ss ys f = 0.
  Proof.
    induction ss as [|s ss IH]; intros [|y ys] f E; cbn [wsum]; try reflexivity.
    rewrite (E s) by (left; reflexivity). rewrite IH by (intros; apply E; right; assumption). ring.
  Qed.
  Lemma satisfied_total m bs c cols : satisfied m cols -> total m bs c cols = 0.
  Proof.
    intros H. unfold total. apply wsum_zero. intros s Hi. unfold satisfied in H. rewrite Forall_forall in H. specialize (H s Hi).
    unfold sval. destruct (sb_indep s); [|exact H].
    apply sumn_0. intros i Hl. rewrite H by exact Hl. ring.
  Qed.

  (** ** Rounds *)
  Lemma line_0 cols l : line (edge cols l) 0 = row cols (2 * l).
  Proof. unfold line, edge, row. rewrite map_map. apply map_ext. intros col. cbn [fst snd]. ring. Qed.
  Lemma line_1 cols l : line (edge cols l) 1 = row cols (S (2 * l)).
  Proof. unfold line, edge, row. rewrite map_map. apply map_ext. intros col. cbn [fst snd]. ring. Qed.
  (** at 0 and 1 the polynomial adds up to the sum over the rows *)
  Lemma round_sum m b bs c cols : round_poly m b bs c cols 0 + round_poly m b bs c cols 1 = total (S m) (b :: bs) c cols.
  Proof.
    unfold round_poly, total. rewrite wsum_add. apply wsum_ext. intros s _. rewrite <- sumn_add. change (2 ^ S m)%nat with (2 * 2 ^ m)%nat. rewrite sumn_double.
    apply sumn_ext. intros l _. rewrite line_0, line_1, pow_even, pow_odd. unfold sval. destruct (sb_indep s); ring.
  Qed.
  Lemma folds_row u cols cols' : Forall2 (folds u) cols cols' -> forall l, row cols' l = line (edge cols l) u.
  Proof.
    intros H l. unfold row, line, edge. rewrite map_map. induction H as [|a b cols cols' E _ IH]; [reflexivity|]. cbn [map fst snd]. rewrite IH, E. reflexivity.
  Qed.
  (** at the challenge it is the sum over the rows of the next round *)
  Lemma round_next m b bs c cols cols' u : Forall2 (folds u) cols cols' ->
    round_poly m b bs c cols u = total m bs (c * (1 + u * (b - 1))) cols'.
  Proof.
    intros H. unfold round_poly, total. apply wsum_ext. intros s _. apply sumn_ext. intros l _. rewrite (folds_row H). reflexivity.
  Qed.
  Lemma mle_folds u us col col' : folds u col col' -> mle (u :: us) col = mle us col'.
  Proof.
    intros H. unfold mle. cbn [length]. change (2 ^ S (length us))%nat with (2 * 2 ^ length us)%nat. rewrite sumn_double. apply sumn_ext.
    intros l _. rewrite eqw_even, eqw_odd, (H l). ring.
  Qed.
  Lemma mle_nil col : mle [] col = nth 0 col 0.
  Proof. unfold mle. cbn. ring. Qed.

  (** ** The polynomial of a round has few coefficients *)
  Definition poly_fun (n : nat) (f : F -> F) : Prop := exists p, length p <= n /\ forall x, f x = peval p x.
  Lemma poly_ext n f g : (forall x, f x = g x) -> poly_fun n f -> poly_fun n g.
  Proof. intros E (p & L & H). exists p. split; [exact L|]. intros x. rewrite <- E. apply H. Qed.
  Lemma poly_zero n : poly_fun n (fun _ => 0).
  Proof. exists []. split; [cbn; lia|]. reflexivity. Qed.
  Lemma poly_add n f g : poly_fun n f -> poly_fun n g -> poly_fun n (fun x => f x + g x).
  Proof.
    intros (p & L & H) (q & L' & H'). exists (padd p q). split; [rewrite length_padd; lia|]. intros x. rewrite peval_padd, H, H'. reflexivity.
  Qed.
  Lemma poly_mul n a f : poly_fun n f -> poly_fun n (fun x => a * f x).
  Proof.
    intros (p & L & H). exists (map (smul a) p). split; [rewrite map_length; exact L|]. intros x. rewrite peval_map_smul, H. reflexivity.
  Qed.
  Lemma poly_le n m f : n <= m -> poly_fun n f -> poly_fun m f.
  Proof. intros L (p & L' & H). exists p. split; [lia|exact H]. Qed.
  Lemma poly_linear n a b f : poly_fun n f -> poly_fun (S n) (fun x => (a + x * b) * f x).
  Proof.
    intros (p & L & H). exists (padd (map (smul a) p) (0 :: map (smul b) p)). split; [rewrite length_padd; cbn [length]; rewrite !map_length; lia|].
    intros x. rewrite peval_padd. cbn [peval]. rewrite !peval_map_smul, !smulU, H. ring.
  Qed.
  Lemma poly_sumn n k (f : nat -> F -> F) : (forall l, l < k -> poly_fun n (f l)) -> poly_fun n (fun x => sumn k (fun l => f l x)).
  Proof.
    induction k as [|k IH]; intros H; cbn [sumn]; [apply poly_zero|]. apply poly_add; [apply IH; intros; apply H; lia|apply H; lia].
  Qed.
  Lemma poly_wsum n ss : forall ys (f : sub -> F -> F), (forall s, In s ss -> poly_fun n (f s)) -> poly_fun n (fun x => wsum ss ys (fun s => f s x)).
  Proof.
    induction ss as [|s ss IH]; intros [|y ys] f H; cbn [wsum]; try apply poly_zero.
    apply poly_add; [apply poly_mul, H; left; reflexivity|apply IH; intros; apply H; right; assumption].
  Qed.
  Lemma length_edge cols l : length (edge cols l) = length cols.
  Proof. apply map_length. Qed.
  Lemma round_degree m b bs c cols : Forall sub_ok subs -> length cols = N -> poly_fun SIZE (round_poly m b bs c cols).
  Proof.
    intros Hs Lc. unfold round_poly. apply poly_wsum. intros s Hi. rewrite Forall_forall in Hs. destruct (Hs s Hi) as (_ & P & _ & _ & _ & S1 & S2).
    apply (@poly_sumn SIZE (2 ^ m) (fun l x => sval s (c * (1 + x * (b - 1)) * pow bs l) (line (edge cols l) x))). intros l _.
    destruct (P (edge cols l)) as (p & Lp & Ep); [rewrite length_edge; exact Lc|].
    unfold sval. destruct (sb_indep s).
    - apply (poly_le (S2 eq_refl)). apply poly_ext with (f := fun x => (c * pow bs l + x * (c * pow bs l * (b - 1))) * sb_prover s (line (edge cols l) x)); [intros x; ring|].
      apply poly_linear. exists p. split; assumption.
    - apply (poly_le S1). exists p. split; assumption.
  Qed.
End Spec.
