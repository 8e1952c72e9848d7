(** * Proofs: what the relations of UltraHonk mean (C72) *)
From Coq Require Import String List Arith Lia Bool Ring Field.
From Verif Require Import Proc Alg NNet Rep3 Rep3Wp ShamirPoly Shamir ShamirAlg Univariate Sumcheck SumcheckSpec HonkRelations HonkProofs HonkSpec.
Import ListNotations.
Set Implicit Arguments.
Local Open Scope grp_scope.
Local Open Scope list_scope.

Section Meaning.
  Context {F : Type} {FF : Fld F}.
  Add Ring FringHM : (@cring_theory F _).
  Infix "*" := rmul : grp_scope.
  Notation "1" := rone : grp_scope.
  Notation gate := (gate (F := F)).
  Variable P : rparams (F := F).
  Implicit Type g : gate.

  Lemma eq_sub (x y : F) : x - y = 0 <-> x = y.
  Proof. split; intros H; [transitivity (x - y + y); [ring|rewrite H; ring]|rewrite H; ring]. Qed.
  Lemma zero_prod (x y : F) : y <> 0 -> (x * y = 0 <-> x = 0).
  Proof. intros N. split; intros H; [destruct (fld_integral _ _ H); [assumption|contradiction]|rewrite H; ring]. Qed.
  Ltac open := unf; cbn [ent nth encode]; cbn [fnat].

  (** *** Arithmetic gates *)
  Lemma two_ok : (1 + 1 <> (0 : F)) -> finv (fnat 2) * (1 + 1) = (1 : F).
  Proof. intros N. cbn [fnat]. replace (1 + (1 + 0)) with (1 + 1 : F) by ring. apply finv_l. exact N. Qed.
  Lemma arith_off g : arith g = 0 -> arith0 (encode g) = 0 /\ arith1 (encode g) = 0.
  Proof. intros H. open. rewrite H. split; ring. Qed.
  Lemma arith_1 g : (1 + 1 <> (0 : F)) -> arith g = 1 ->
    arith0 (encode g) = m g * w1 g * w2 g + linear g /\ arith1 (encode g) = 0.
  Proof.
    intros N H. assert (T := two_ok N). open. cbn [fnat] in T. rewrite H. unfold linear. split; [|ring].
    transitivity (m g * w1 g * w2 g * (finv (1 + (1 + 0)) * (1 + 1)) + (q1 g * w1 g + q2 g * w2 g + q3 g * w3 g + q4 g * w4 g + c g)); [ring|rewrite T; ring].
  Qed.
  Lemma arith_2 g : (1 + 1 <> (0 : F)) -> arith g = 1 + 1 ->
    arith0 (encode g) = m g * w1 g * w2 g + (1 + 1) * (linear g + w4' g) /\ arith1 (encode g) = 0.
  Proof.
    intros N H. assert (T := two_ok N). open. cbn [fnat] in T. rewrite H. unfold linear. split; [|ring].
    transitivity (m g * w1 g * w2 g * (finv (1 + (1 + 0)) * (1 + 1)) + (1 + 1) * (q1 g * w1 g + q2 g * w2 g + q3 g * w3 g + q4 g * w4 g + c g + w4' g)); [ring|rewrite T; ring].
  Qed.
  Lemma arith_3 g : arith g = three ->
    arith0 (encode g) = three * (linear g + (1 + 1) * w4' g) /\ arith1 (encode g) = (1 + 1) * three * (w1 g + w4 g + m g - w1' g).
  Proof. intros H. open. rewrite H. unfold linear, three. split; ring. Qed.

  (** *** Range gates *)
  Lemma delta_small (x : F) : delta_term x 1 = 0 <-> small x.
  Proof.
    unfold delta_term, sqr, small, three. cbn [fnat].
    replace (((x + - (1)) * (x + - (1)) + - (1)) * ((x + - (1 + (1 + 0))) * (x + - (1 + (1 + 0))) + - (1)) * 1) with (x * (x - (1 + 1)) * ((x - 1) * (x - (1 + 1 + 1)))) by ring.
    split.
    - intros H. destruct (fld_integral _ _ H) as [A|A]; destruct (fld_integral _ _ A) as [B|B]; rewrite ?eq_sub in B; tauto.
    - intros [H|[H|[H|H]]]; rewrite H; ring.
  Qed.
  Lemma range_gate g : delta_range g = 1 ->
    (delta0 (encode g) = 0 /\ delta1 (encode g) = 0 /\ delta2 (encode g) = 0 /\ delta3 (encode g) = 0 <->
     small (w2 g - w1 g) /\ small (w3 g - w2 g) /\ small (w4 g - w3 g) /\ small (w1' g - w4 g)).
  Proof. intros H. unfold delta0, delta1, delta2, delta3. cbn [ent nth encode]. rewrite H, !delta_small. tauto. Qed.

  (** *** Points of the curve *)
  Lemma chord l d x1 y1 x2 x3 y3 y2 : d <> (0 : F) -> l * d = y2 - y1 -> d = x2 - x1 ->
    ((x3 + x2 + x1) * (d * d) = (y2 - y1) * (y2 - y1) /\ (y1 + y3) * d + (x3 - x1) * (y2 - y1) = 0 <-> on_chord l x1 y1 x2 x3 y3).
  Proof.
    intros N L D. unfold on_chord. rewrite <- L. split.
    - intros [A B]. assert (X : x3 = l * l - x1 - x2).
      { apply eq_sub. apply (@zero_prod _ (d * d)); [intros Z; apply fld_integral in Z; tauto|].
        transitivity ((x3 + x2 + x1) * (d * d) - l * d * (l * d)); [ring|rewrite A; ring]. }
      split; [exact X|]. apply eq_sub. apply (@zero_prod _ d); [exact N|]. rewrite <- B. ring.
    - intros [-> ->]. split; ring.
  Qed.
  Lemma add_gate g l : ell g = 1 -> m g = 0 -> q1 g * q1 g = 1 -> w1' g <> w2 g -> l * (w1' g - w2 g) = q1 g * w4' g - w3 g ->
    (elliptic0 P (encode g) = 0 /\ elliptic1 P (encode g) = 0 <-> on_chord l (w2 g) (w3 g) (w1' g) (w2' g) (w3' g)).
  Proof.
    intros Q M S D L. assert (N : w1' g - w2 g <> 0) by (rewrite eq_sub; exact D).
    rewrite <- (@chord l _ (w2 g) (w3 g) (w1' g) (w2' g) (w3' g) (q1 g * w4' g) N L eq_refl).
    open. rewrite Q, M. rewrite <- (eq_sub (_ * (_ * _)) _).
    match goal with |- ?a = 0 /\ ?b = 0 <-> ?a' = 0 /\ ?b' = 0 => replace a with a'; [replace b with b'; [tauto|ring]|] end.
    transitivity ((w2' g + w1' g + w2 g) * ((w1' g - w2 g) * (w1' g - w2 g)) - (q1 g * q1 g) * w4' g * w4' g - w3 g * w3 g + w3 g * w4' g * q1 g + w3 g * w4' g * q1 g); [ring|rewrite S; ring].
  Qed.
  Lemma double_gate g l : ell g = 1 -> m g = 1 -> w3 g + w3 g <> 0 -> w3 g * w3 g = w2 g * w2 g * w2 g + rp_curve_b P ->
    l * (w3 g + w3 g) = three * (w2 g * w2 g) ->
    (elliptic0 P (encode g) = 0 /\ elliptic1 P (encode g) = 0 <-> on_chord l (w2 g) (w3 g) (w2 g) (w2' g) (w3' g)).
  Proof.
    intros Q M N C L. open. rewrite Q, M. unfold on_chord.
    match goal with |- ?a = 0 /\ ?b = 0 <-> _ =>
      replace a with ((w2' g - (l * l - w2 g - w2 g)) * ((w3 g + w3 g) * (w3 g + w3 g)));
      [replace b with ((l * (w2 g - w2' g) - w3 g - w3' g) * (w3 g + w3 g))|] end.
    - rewrite !zero_prod, !eq_sub; [|exact N|intros Z; apply fld_integral in Z; tauto]. intuition congruence.
    - transitivity (l * (w3 g + w3 g) * (w2 g - w2' g) - (w3 g + w3' g) * (w3 g + w3 g)); [ring|rewrite L; unfold three; ring].
    - transitivity ((w2' g + w2 g + w2 g) * ((w3 g + w3 g) * (w3 g + w3 g)) - l * (w3 g + w3 g) * (l * (w3 g + w3 g))); [ring|rewrite L; unfold three].
      replace (w3 g * w3 g - rp_curve_b P) with (w2 g * w2 g * w2 g) by (rewrite C; ring). ring.
  Qed.

  (** *** Rounds of Poseidon2 *)
  Definition state1 g := (pow5 (w1 g + q1 g), pow5 (w2 g + q2 g), pow5 (w3 g + q3 g), pow5 (w4 g + q4 g)).
  Lemma pos_ext_gate g : pos2_ext g = 1 ->
    (pos_ext0 (encode g) = 0 /\ pos_ext1 (encode g) = 0 /\ pos_ext2 (encode g) = 0 /\ pos_ext3 (encode g) = 0 <->
     w1' g = mat 5 7 1 3 (state1 g) /\ w2' g = mat 4 6 1 1 (state1 g) /\ w3' g = mat 1 3 5 7 (state1 g) /\ w4' g = mat 1 1 4 6 (state1 g)).
  Proof.
    intros Q. open. rewrite Q. unfold state1, mat, pow5. cbn [times].
    match goal with |- ?a = 0 /\ ?b = 0 /\ ?d = 0 /\ ?e = 0 <-> w1' g = ?a' /\ w2' g = ?b' /\ w3' g = ?d' /\ w4' g = ?e' =>
      replace a with (a' - w1' g) by ring; replace b with (b' - w2' g) by ring; replace d with (d' - w3' g) by ring; replace e with (e' - w4' g) by ring end.
    rewrite !eq_sub. intuition congruence.
  Qed.
  Lemma pos_int_gate g : pos2_int g = 1 ->
    let u := (pow5 (w1 g + q1 g), w2 g, w3 g, w4 g) in
    (pos_int0 P (encode g) = 0 /\ pos_int1 P (encode g) = 0 /\ pos_int2 P (encode g) = 0 /\ pos_int3 P (encode g) = 0 <->
     w1' g = rp_d0 P * pow5 (w1 g + q1 g) + mat 1 1 1 1 u /\ w2' g = rp_d1 P * w2 g + mat 1 1 1 1 u /\
     w3' g = rp_d2 P * w3 g + mat 1 1 1 1 u /\ w4' g = rp_d3 P * w4 g + mat 1 1 1 1 u).
  Proof.
    intros Q u. open. rewrite Q. unfold u, mat, pow5. cbn [times].
    match goal with |- ?a = 0 /\ ?b = 0 /\ ?d = 0 /\ ?e = 0 <-> w1' g = ?a' /\ w2' g = ?b' /\ w3' g = ?d' /\ w4' g = ?e' =>
      replace a with (a' - w1' g) by ring; replace b with (b' - w2' g) by ring; replace d with (d' - w3' g) by ring; replace e with (e' - w4' g) by ring end.
    rewrite !eq_sub. intuition congruence.
  Qed.

  (** *** Memory *)
  (** the record of an access: index, and two values or time stamp and value *)
  Definition record g : F := rp_eta1 P * w1 g + rp_eta2 P * w2 g + rp_eta3 P * w3 g.
  Definition record' g : F := rp_eta1 P * w1' g + rp_eta2 P * w2' g + rp_eta3 P * w3' g.
  Definition memory_ok g : Prop :=
    memory0 P (encode g) = 0 /\ memory1 (encode g) = 0 /\ memory2 (encode g) = 0 /\ memory3 P (encode g) = 0 /\ memory4 (encode g) = 0 /\ memory5 P (encode g) = 0.
  Lemma bit_neg (x : F) : x * x + x = 0 <-> bit (- x).
  Proof.
    unfold bit. split.
    - intros H. replace (x * x + x) with (x * (x + 1)) in H by ring. destruct (fld_integral _ _ H) as [E|E]; [left; rewrite E; ring|right; transitivity (1 - (x + 1)); [ring|rewrite E; ring]].
    - intros [E|E]; [replace x with (- - x) by ring; rewrite E; ring|replace x with (- - x) by ring; rewrite E; ring].
  Qed.
  Lemma step (d v v' : F) : bit d -> ((1 - d) * (v' - v) = 0 <-> (d = 0 -> v' = v)).
  Proof.
    intros [E|E]; rewrite E.
    - replace ((1 - 0) * (v' - v)) with (v' - v) by ring. rewrite eq_sub. tauto.
    - replace ((1 - 1) * (v' - v)) with (0 : F) by ring. split; [intros _ Z|reflexivity]. exfalso. exact (f_1_neq_0 Z).
  Qed.
  (** an access: the record is in [w4] *)
  Lemma access_gate g : memory g = 1 -> q1 g = 1 -> m g = 1 -> q2 g = 0 -> q3 g = 0 -> q4 g = 0 ->
    (memory_ok g <-> w4 g = record g + c g).
  Proof.
    intros Q A B C D E. unfold memory_ok, record. open. rewrite Q, A, B, C, D, E.
    match goal with |- ?a = 0 /\ ?b = 0 /\ ?d = 0 /\ ?e = 0 /\ ?f = 0 /\ ?h = 0 <-> ?x = ?y =>
      replace a with (y - x) by ring; replace b with (0 : F) by ring; replace d with (0 : F) by ring; replace e with (0 : F) by ring;
      replace f with (0 : F) by ring; replace h with (0 : F) by ring end.
    rewrite eq_sub. intuition congruence.
  Qed.
  (** sorted reads of a ROM *)
  Lemma rom_gate g : memory g = 1 -> q1 g = 1 -> q2 g = 1 -> m g = 0 -> q3 g = 0 -> q4 g = 0 ->
    (memory_ok g <-> w4 g = record g + c g /\ bit (w1' g - w1 g) /\ (w1' g = w1 g -> w4' g = w4 g)).
  Proof.
    intros Q A B C D E. unfold memory_ok, record. open. rewrite Q, A, B, C, D, E.
    match goal with |- ?a = 0 /\ ?b = 0 /\ ?d = 0 /\ ?e = 0 /\ ?f = 0 /\ ?h = 0 <-> ?x = ?y /\ _ =>
      replace a with (y - x) by ring; replace b with ((1 - (w1' g - w1 g)) * (w4' g - w4 g)) by ring;
      replace d with ((w1 g - w1' g) * (w1 g - w1' g) + (w1 g - w1' g)) by ring; replace e with (0 : F) by ring;
      replace f with (0 : F) by ring; replace h with (0 : F) by ring end.
    rewrite eq_sub, bit_neg. replace (- (w1 g - w1' g)) with (w1' g - w1 g) by ring.
    split.
    - intros (H1 & H2 & H3 & _). rewrite step in H2 by exact H3. rewrite eq_sub in H2. intuition congruence.
    - intros (H1 & H3 & H2). rewrite step by exact H3. rewrite eq_sub. intuition congruence.
  Qed.
  (** sorted accesses of a RAM; an access is a read if [w4] is the record, and a write if it is one more *)
  Lemma ram_gate g : memory g = 1 -> q3 g = 1 -> q1 g = 0 -> q2 g = 0 -> m g = 0 -> q4 g = 0 -> c g = 0 ->
    (memory_ok g <-> bit (w4 g - record g) /\ bit (w1' g - w1 g) /\ bit (w4' g - record' g) /\
                     (w1' g = w1 g -> w4' g = record' g -> w3' g = w3 g)).
  Proof.
    intros Q A B C D E C0. unfold memory_ok, record, record'. open. rewrite Q, A, B, C, D, E, C0.
    set (nx := rp_eta1 P * w1' g + rp_eta2 P * w2' g + rp_eta3 P * w3' g).
    match goal with |- ?a = 0 /\ ?b = 0 /\ ?d = 0 /\ ?e = 0 /\ ?f = 0 /\ ?h = 0 <-> bit (w4 g - ?y) /\ _ =>
      replace a with ((y - w4 g) * (y - w4 g) + (y - w4 g)) by ring; replace b with (0 : F) by ring; replace d with (0 : F) by ring;
      replace e with ((1 - (w1' g - w1 g)) * (w3' g - w3 g) * (nx - w4' g + 1)) by (unfold nx; ring);
      replace f with ((w1 g - w1' g) * (w1 g - w1' g) + (w1 g - w1' g)) by ring; replace h with ((nx - w4' g) * (nx - w4' g) + (nx - w4' g)) by (unfold nx; ring);
      set (rc := y) end.
    rewrite !bit_neg. replace (- (w1 g - w1' g)) with (w1' g - w1 g) by ring. replace (- (rc - w4 g)) with (w4 g - rc) by ring.
    replace (- (nx - w4' g)) with (w4' g - nx) by ring. replace (nx - w4' g + 1) with (1 - (w4' g - nx)) by ring.
    assert (K : bit (w1' g - w1 g) -> bit (w4' g - nx) ->
      ((1 - (w1' g - w1 g)) * (w3' g - w3 g) * (1 - (w4' g - nx)) = 0 <-> (w1' g = w1 g -> w4' g = nx -> w3' g = w3 g))).
    { intros B1 B2. rewrite <- (eq_sub (w1' g)), <- (eq_sub (w4' g)).
      replace ((1 - (w1' g - w1 g)) * (w3' g - w3 g) * (1 - (w4' g - nx))) with ((1 - (w1' g - w1 g)) * ((1 - (w4' g - nx)) * (w3' g - w3 g) + 0 - 0)) by ring.
      rewrite (@step _ 0 ((1 - (w4' g - nx)) * (w3' g - w3 g) + 0)) by exact B1.
      replace ((1 - (w4' g - nx)) * (w3' g - w3 g) + 0) with ((1 - (w4' g - nx)) * (w3' g - w3 g)) by ring.
      rewrite step by exact B2. tauto. }
    split.
    - intros (H1 & _ & _ & H2 & H3 & H4). rewrite (K H3 H4) in H2. tauto.
    - intros (H1 & H3 & H4 & H2). rewrite (K H3 H4). tauto.
  Qed.
  (** time stamps of sorted accesses of a RAM *)
  Lemma timestamp_gate g : memory g = 1 -> q1 g = 1 -> q4 g = 1 -> m g = 0 -> q2 g = 0 -> q3 g = 0 -> bit (w1' g - w1 g) ->
    (memory_ok g <-> w3 g = if feqb (w1' g) (w1 g) then w2' g - w2 g else 0).
  Proof.
    intros Q A B C D E H. unfold memory_ok. open. rewrite Q, A, B, C, D, E.
    match goal with |- ?a = 0 /\ ?b = 0 /\ ?d = 0 /\ ?e = 0 /\ ?f = 0 /\ ?h = 0 <-> _ =>
      replace a with ((1 - (w1' g - w1 g)) * (w2' g - w2 g) - w3 g) by ring; replace b with (0 : F) by ring; replace d with (0 : F) by ring;
      replace e with (0 : F) by ring; replace f with (0 : F) by ring; replace h with (0 : F) by ring end.
    destruct (feqb (w1' g) (w1 g)) eqn:W.
    - apply feqb_spec in W. rewrite W. replace ((1 - (w1 g - w1 g)) * (w2' g - w2 g)) with (w2' g - w2 g) by ring. rewrite eq_sub. intuition congruence.
    - destruct H as [H|H]; [exfalso; apply (proj1 (eq_sub _ _)) in H; apply feqb_spec in H; congruence|]. rewrite H.
      replace ((1 - 1) * (w2' g - w2 g)) with (0 : F) by ring. rewrite eq_sub. intuition congruence.
  Qed.

  (** *** Products of limbs *)
  Definition B := rp_limb P.
  Definition S14 := rp_sublimb P.
  Definition cross g : F := w1 g * w2' g + w1' g * w2 g.
  (** the value of five digits *)
  Definition digits5 (a b d e f : F) : F := a + S14 * (b + S14 * (d + S14 * (e + S14 * f))).
  Lemma nnf_gates g : nnf g = 1 ->
    (q2 g = 1 -> q3 g = 1 -> q4 g = 0 -> m g = 0 -> (nnf0 P (encode g) = 0 <-> B * cross g + w1' g * w2' g = w3 g + w4 g)) /\
    (q2 g = 1 -> q4 g = 1 -> q3 g = 0 -> m g = 0 -> (nnf0 P (encode g) = 0 <-> B * (w1 g * w4 g + w2 g * w3 g) + cross g = B * w3' g + w4' g)) /\
    (q2 g = 1 -> m g = 1 -> q3 g = 0 -> q4 g = 0 -> (nnf0 P (encode g) = 0 <-> B * cross g + w1' g * w2' g + w4 g = w3' g + w4' g)) /\
    (q3 g = 1 -> q4 g = 1 -> q2 g = 0 -> m g = 0 -> (nnf0 P (encode g) = 0 <-> w4 g = digits5 (w1 g) (w2 g) (w3 g) (w1' g) (w2' g))) /\
    (q3 g = 1 -> m g = 1 -> q2 g = 0 -> q4 g = 0 -> (nnf0 P (encode g) = 0 <-> w4' g = digits5 (w3 g) (w4 g) (w1' g) (w2' g) (w3' g))).
  Proof.
    intros Q. open. rewrite Q. unfold cross, digits5, B, S14.
    repeat match goal with |- _ /\ _ => split end; intros H1 H2 H3 H4; rewrite H1, H2, H3, H4; clear H1 H2 H3 H4;
    match goal with |- ?a = 0 <-> ?x = ?y => rewrite <- (eq_sub x y); first [replace a with (x - y) by ring; tauto|replace a with (- (x - y)) by ring] end;
    match goal with |- - ?a = 0 <-> _ => split; intros H; [transitivity (- - a); [ring|rewrite H; ring]|rewrite H; ring] end.
  Qed.

  (** *** The permutation argument *)
  Definition wire (id w : F) : F := w + rp_beta P * id + rp_gamma P.
  Definition by_position g : F := wire (i1 g) (w1 g) * wire (i2 g) (w2 g) * wire (i3 g) (w3 g) * wire (i4 g) (w4 g).
  Definition by_sigma g : F := wire (s1 g) (w1 g) * wire (s2 g) (w2 g) * wire (s3 g) (w3 g) * wire (s4 g) (w4 g).
  Theorem permutation_gates n (g : nat -> gate) : 1 <= n ->
    (forall i, i < n -> first (g i) = (if (i =? 0)%nat then 1 else 0)) -> (forall i, i < n -> last (g i) = (if (S i =? n)%nat then 1 else 0)) ->
    (forall i, S i < n -> z' (g i) = z (g (S i))) -> z (g 0%nat) = 0 ->
    (forall i, i < n -> perm0 P (encode (g i)) = 0 /\ perm1 (encode (g i)) = 0) ->
    prod n (fun i => by_position (g i)) = rp_delta P * prod n (fun i => by_sigma (g i)).
  Proof.
    intros Ln Hf Hl Hz Z0 H.
    assert (R : forall i, i < n -> (z (g i) + first (g i)) * by_position (g i) = (last (g i) * rp_delta P + z' (g i)) * by_sigma (g i)).
    { intros i Li. destruct (H i Li) as [A _]. apply eq_sub. rewrite <- A. unfold by_position, by_sigma, wire. open. ring. }
    assert (T : forall k, S k < n -> prod (S k) (fun i => by_position (g i)) = z (g (S k)) * prod (S k) (fun i => by_sigma (g i))).
    { induction k as [|k IH]; intros Lk.
      - cbn [prod]. specialize (R 0%nat ltac:(lia)). rewrite Hf, Hl, Z0, Hz in R by lia.
        replace (1 =? n)%nat with false in R by (symmetry; apply Nat.eqb_neq; lia). cbn [Nat.eqb] in R.
        transitivity ((0 + 1) * by_position (g 0%nat)); [ring|rewrite R; ring].
      - specialize (IH ltac:(lia)). assert (R1 := R (S k) ltac:(lia)). rewrite Hf, Hl, Hz in R1 by lia.
        replace (S (S k) =? n)%nat with false in R1 by (symmetry; apply Nat.eqb_neq; lia). cbn [Nat.eqb] in R1.
        cbn [prod] in IH |- *. rewrite IH.
        transitivity ((z (g (S k)) + 0) * by_position (g (S k)) * (prod k (fun i => by_sigma (g i)) * by_sigma (g k))); [ring|rewrite R1; ring]. }
    destruct n as [|n]; [lia|].
    assert (Rn := R n ltac:(lia)). assert (Hn := proj2 (H n ltac:(lia))). assert (Zn : z' (g n) = 0).
    { revert Hn. open. rewrite Hl by lia. rewrite Nat.eqb_refl. intros E. rewrite <- E. ring. }
    rewrite Hl, Nat.eqb_refl, Zn in Rn by lia. destruct n as [|n].
    - rewrite Hf, Z0 in Rn by lia. cbn [Nat.eqb] in Rn. cbn [prod]. transitivity ((0 + 1) * by_position (g 0%nat)); [ring|rewrite Rn; ring].
    - rewrite Hf in Rn by lia. cbn [Nat.eqb] in Rn. specialize (T n ltac:(lia)). change (prod (S (S n)) (fun i => by_position (g i))) with (prod (S n) (fun i => by_position (g i)) * by_position (g (S n))).
      rewrite T. change (prod (S (S n)) (fun i => by_sigma (g i))) with (prod (S n) (fun i => by_sigma (g i)) * by_sigma (g (S n))).
      transitivity ((z (g (S n)) + 0) * by_position (g (S n)) * prod (S n) (fun i => by_sigma (g i))); [ring|rewrite Rn; ring].
  Qed.

  (** *** Lookups *)
  Lemma sumn_opp n (f : nat -> F) : sumn n (fun i => - f i) = - sumn n f.
  Proof. induction n as [|n IH]; cbn [sumn]; [ring|]. rewrite IH. ring. Qed.
  (** the entry that is read: accumulators minus multiples of the next ones, and the number of the table *)
  Definition read_entry g : F :=
    (w1 g + q2 g * w1' g) + rp_beta P * (w2 g + m g * w2' g) + rp_beta P * rp_beta P * (w3 g + c g * w3' g) + rp_beta P * rp_beta P * rp_beta P * q3 g + rp_gamma P.
  Definition table_entry g : F :=
    t1 g + rp_beta P * t2 g + rp_beta P * rp_beta P * t3 g + rp_beta P * rp_beta P * rp_beta P * t4 g + rp_gamma P.
  Theorem lookup_gates n (g : nat -> gate) : (forall i, i < n -> read_entry (g i) <> 0 /\ table_entry (g i) <> 0 /\ bit (lookup (g i))) ->
    (forall i, i < n -> lookup0 P (encode (g i)) = 0 /\ lookup2 (encode (g i)) = 0) ->
    sumn n (fun i => lookup1 P (encode (g i))) = 0 ->
    sumn n (fun i => lookup (g i) * finv (read_entry (g i))) =
    sumn n (fun i => (if feqb (lookup (g i)) 1 || feqb (tags (g i)) 1 then counts (g i) else 0) * finv (table_entry (g i))) /\
    forall i, i < n -> bit (tags (g i)).
  Proof.
    intros Hn H S.
    assert (Tb : forall i, i < n -> bit (tags (g i))).
    { intros i Li. destruct (H i Li) as [_ T]. revert T. open. unfold bit. intros T. replace (tags (g i) * tags (g i) - tags (g i)) with (tags (g i) * (tags (g i) - 1)) in T by ring.
      apply fld_integral in T. rewrite eq_sub in T. exact T. }
    split; [|exact Tb]. apply eq_sub. etransitivity; [|exact S].
    rewrite (@sumn_ext _ _ n (fun i => lookup1 P (encode (g i))) (fun i => lookup (g i) * finv (read_entry (g i)) +
      - ((if feqb (lookup (g i)) 1 || feqb (tags (g i)) 1 then counts (g i) else 0) * finv (table_entry (g i))))).
    - rewrite sumn_add, sumn_opp. reflexivity.
    - intros i Li. destruct (H i Li) as [A _]. destruct (Hn i Li) as (Nr & Nt & Lb). specialize (Tb i Li).
      assert (A' : read_entry (g i) * table_entry (g i) * inverses (g i) = lookup (g i) + tags (g i) - lookup (g i) * tags (g i)).
      { apply eq_sub. rewrite <- A. unfold read_entry, table_entry. open. ring. }
      assert (L : lookup1 P (encode (g i)) = table_entry (g i) * inverses (g i) * lookup (g i) - read_entry (g i) * inverses (g i) * counts (g i)).
      { unfold read_entry, table_entry. open. ring. }
      rewrite L. clear L A H Hn S. revert Nr Nt Lb Tb A'. generalize (read_entry (g i)) (table_entry (g i)) (inverses (g i)) (lookup (g i)) (tags (g i)) (counts (g i)).
      intros r t v l a k Nr Nt Lb Tb A.
      assert (Er := finv_l r Nr). assert (Et := finv_l t Nt).
      assert (Z1 : feqb (1 : F) 1 = true) by (apply feqb_spec; reflexivity).
      assert (Z0 : feqb (0 : F) 1 = false) by (destruct (feqb (0 : F) 1) eqn:E; [apply feqb_spec in E; exfalso; symmetry in E; exact (f_1_neq_0 E)|reflexivity]).
      assert (Ir : t * v = finv r * (r * t * v)) by (transitivity (finv r * r * (t * v)); [rewrite Er; ring|ring]).
      assert (It : r * v = finv t * (r * t * v)) by (transitivity (finv t * t * (r * v)); [rewrite Et; ring|ring]).
      rewrite Ir, It, A. destruct Lb as [-> | ->]; destruct Tb as [-> | ->]; rewrite ?Z1, ?Z0; cbn [orb]; ring.
  Qed.
End Meaning.
