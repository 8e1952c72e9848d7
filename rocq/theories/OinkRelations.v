(** * The relations of the computed columns (C77) *)
From Coq Require Import String List Arith Lia Bool Ring Permutation.
From Verif Require Import Proc Alg NNet Rep3 ShamirPoly Shamir ShamirAlg Univariate Sumcheck SumcheckSpec HonkRelations HonkSpec HonkSkip Decider Oink OinkWiring OinkTrace OinkGrand OinkProofs.
Import ListNotations.
Set Implicit Arguments.
Local Open Scope grp_scope.
Local Open Scope list_scope.

Section Rel.
  Context {F : Type} {FF : Fld F}.
  Add Ring FringOR : (@cring_theory F _).
  Infix "*" := rmul : grp_scope.
  Notation "1" := rone : grp_scope.
  Variables (P : rparams (F := F)) (fs : list (list F)) (size : nat).
  Hypothesis L36 : length fs = 36.
  Notation beta := (rp_beta P).
  Notation gamma := (rp_gamma P).
  Notation num := (gp_numerator fs beta gamma).
  Notation den := (gp_denominator fs beta gamma).

  Lemma prod_nonzero n (f : nat -> F) : (forall i, i < n -> f i <> 0) -> prod n f <> 0.
  Proof.
    induction n as [|n IH]; intros H; cbn [prod]; [exact f_1_neq_0|]. intros E. apply (IH (fun i Hi => H i (Nat.lt_lt_succ_r _ _ Hi))).
    transitivity (prod n f * f n * finv (f n)); [|rewrite E; ring].
    transitivity (prod n f * (finv (f n) * f n)); [rewrite finv_l by (apply H; lia); ring|ring].
  Qed.
  Lemma inv0_nonzero x : x <> (0 : F) -> inv0 x * x = 1.
  Proof. intros N. unfold inv0. destruct (feqb x 0) eqn:E; [apply feqb_spec in E; contradiction|]. apply finv_l, N. Qed.
  Lemma cancel_r (a b c : F) : c <> 0 -> a * c = b * c -> a = b.
  Proof.
    intros N E. transitivity (a * c * finv c); [transitivity (a * (finv c * c)); [rewrite (finv_l _ N); ring|ring]|].
    rewrite E. transitivity (b * (finv c * c)); [ring|rewrite (finv_l _ N); ring].
  Qed.

  (** ** Permutation *)
  Theorem grand_relations blocks z : let n := length (concat blocks) in 1 <= n -> n < size ->
    (forall i, i < size -> cell fs 26 i = if (i =? 0)%nat then 1 else 0) -> (forall i, i < size -> cell fs 27 i = if (i =? n)%nat then 1 else 0) ->
    (forall k, k < 4 -> cell fs (14 + k) 0 = cell fs (18 + k) 0) ->
    (forall i, 1 <= i < n -> den i <> 0) ->
    prod n (fun i => num (S i)) = rp_delta P * prod n (fun i => den (S i)) ->
    compute_grand_product fs size (final_active_row 1 blocks) (active_ranges 1 blocks) (active_idxs (active_ranges 1 blocks)) beta gamma = Done z ->
    forall i, i < size -> perm0 P (row (all_entities (set_at 32 z fs)) i) = 0 /\ perm1 (row (all_entities (set_at 32 z fs)) i) = 0.
  Proof.
    intros n Hn Hs Hf Hl H0 Hd Hprod Hz i Hi. destruct (@grand_values F FF beta gamma fs size blocks Hn Hs) as (z' & Ez & Lz & V). rewrite Hz in Ez. injection Ez as <-. fold n in V.
    set (fs' := set_at 32 z fs).
    assert (L' : length fs' = 36) by (unfold fs'; rewrite set_length; exact L36).
    assert (EM : forall k, k < 36 -> k <> 32 -> ent k (row (all_entities fs') i) = cell fs k i) by (intros k Hk Nk; rewrite ent_main by lia; apply cell_other, Nk).
    assert (EZ : ent 32 (row (all_entities fs') i) = nth i z 0) by (rewrite ent_main by lia; apply cell_same; lia).
    assert (ES : ent 40 (row (all_entities fs') i) = nth (S i) z 0) by (transitivity (cell fs' 32 (S i)); [exact (@ent_shift F FF fs' i 4 L' ltac:(lia))|apply cell_same; lia]).
    assert (EN : perm_numerator P (row (all_entities fs') i) = num i) by (unfold perm_numerator, gp_numerator; rewrite !EM by lia; ring).
    assert (ED : perm_denominator P (row (all_entities fs') i) = den i) by (unfold perm_denominator, gp_denominator; rewrite !EM by lia; ring).
    unfold perm0, perm1. rewrite EN, ED, EZ, ES, !EM, Hf, Hl, !V by lia. cbn [Nat.eqb].
    destruct (Nat.eqb_spec i 0) as [->|N0].
    - destruct (Nat.eqb_spec 0 n); [lia|]. destruct (Nat.leb_spec 1 n); [|lia]. cbn [Nat.sub prod]. split; [|ring].
      assert (E : num 0 = den 0). { unfold gp_numerator, gp_denominator. pose proof (H0 0%nat ltac:(lia)) as A0. pose proof (H0 1%nat ltac:(lia)) as A1. pose proof (H0 2%nat ltac:(lia)) as A2. pose proof (H0 3%nat ltac:(lia)) as A3.
        cbn [Nat.add] in A0, A1, A2, A3. rewrite A0, A1, A2, A3. reflexivity. }
      rewrite E. assert (X := inv0_nonzero f_1_neq_0). transitivity (den 0 - inv0 1 * 1 * den 0); [ring|rewrite X; ring].
    - destruct (Nat.leb_spec i n) as [Li|Li].
      + assert (D1 : prod (i - 1) (fun j => den (S j)) <> 0) by (apply prod_nonzero; intros j Hj; apply Hd; lia).
        set (ip := inv0 (prod (i - 1) (fun j => den (S j)))). assert (I1 := inv0_nonzero D1). fold ip in I1.
        destruct (Nat.eqb_spec i n) as [En|Nn].
        * destruct (Nat.leb_spec (S i) n); [lia|]. split; [|ring].
          assert (PS : forall f : nat -> F, prod n (fun j => f (S j)) = prod (i - 1) (fun j => f (S j)) * f i).
          { intros f. rewrite <- En. destruct i as [|i']; [lia|]. cbn [prod Nat.sub]. rewrite Nat.sub_0_r. reflexivity. }
          rewrite (PS num), (PS den) in Hprod.
          transitivity (prod (i - 1) (fun j => num (S j)) * num i * ip - rp_delta P * den i); [ring|]. rewrite Hprod.
          transitivity (rp_delta P * den i * (ip * prod (i - 1) (fun j => den (S j))) - rp_delta P * den i); [ring|rewrite I1; ring].
        * destruct (Nat.leb_spec (S i) n); [|lia]. split; [|ring]. replace (S i - 1)%nat with i by lia.
          assert (PS : forall f : nat -> F, prod i (fun j => f (S j)) = prod (i - 1) (fun j => f (S j)) * f i).
          { intros f. destruct i as [|i']; [lia|]. cbn [prod Nat.sub]. rewrite Nat.sub_0_r. reflexivity. }
          rewrite (PS num), (PS den). set (dp := prod (i - 1) (fun j => den (S j))) in *. set (np := prod (i - 1) (fun j => num (S j))).
          assert (Di : dp * den i <> 0). { intros E. apply (Hd i ltac:(lia)). transitivity (ip * dp * den i); [rewrite I1; ring|]. transitivity (ip * (dp * den i)); [ring|rewrite E; ring]. }
          assert (I2 := inv0_nonzero Di).
          transitivity (np * ip * num i * (inv0 (dp * den i) * (dp * den i)) - np * num i * inv0 (dp * den i) * den i * (ip * dp)); [rewrite I1, I2; ring|ring].
      + destruct (Nat.eqb_spec i n); [lia|]. destruct (Nat.leb_spec (S i) n); [lia|]. split; ring.
  Qed.

  (** ** Lookups *)
  Notation read := (compute_read_term fs beta gamma).
  Notation write := (compute_write_term fs beta gamma).
  Notation fs' := (set_at 33 (compute_logderivative_inverses fs size beta gamma) fs).
  (** in row [i] the inverse is needed *)
  Definition needed (i : nat) : bool := feqb (cell fs 6 i) 1 || feqb (cell fs 35 i) 1.
  Lemma inverses_nth i : i < size -> nth i (compute_logderivative_inverses fs size beta gamma) 0 = if needed i then inv0 (read i * write i) else 0.
  Proof.
    intros H. unfold compute_logderivative_inverses. set (f := fun i => if feqb (cell fs 6 i) 1 || feqb (cell fs 35 i) 1 then inv0 (read i * write i) else 0).
    rewrite (nth_indep _ 0 (f 0%nat)) by (rewrite map_length, seq_length; exact H). rewrite map_nth, seq_nth by exact H. reflexivity.
  Qed.
  Lemma feqb_bit (x : F) : bit x -> if feqb x 1 then x = 1 else x = 0.
  Proof. intros H; destruct H as [H|H]; rewrite H; destruct (feqb _ 1) eqn:E; try reflexivity; [apply feqb_spec in E; exact E|]. rewrite <- not_true_iff_false in E. exfalso. apply E, feqb_spec. reflexivity. Qed.
  Lemma lookup_terms i : i < size ->
    read_term P (row (all_entities fs') i) = read i /\ write_term P (row (all_entities fs') i) = write i /\
    ent 33 (row (all_entities fs') i) = (if needed i then inv0 (read i * write i) else 0) /\
    (forall k, k < 36 -> k <> 33 -> ent k (row (all_entities fs') i) = cell fs k i).
  Proof.
    intros Hi. assert (L' : length fs' = 36) by (rewrite set_length; exact L36).
    assert (EM : forall k, k < 36 -> k <> 33 -> ent k (row (all_entities fs') i) = cell fs k i) by (intros k Hk Nk; rewrite ent_main by lia; apply cell_other, Nk).
    assert (ES : forall j, j < 5 -> ent (36 + j) (row (all_entities fs') i) = cell fs (28 + j) (S i)) by (intros j Hj; rewrite ent_shift by (exact L' || exact Hj); apply cell_other; lia).
    repeat split.
    - unfold read_term, compute_read_term. rewrite (ES 0%nat ltac:(lia) : ent 36 _ = _), (ES 1%nat ltac:(lia) : ent 37 _ = _), (ES 2%nat ltac:(lia) : ent 38 _ = _), !EM by lia. cbn [Nat.add]. ring.
    - unfold write_term, compute_write_term. rewrite !EM by lia. ring.
    - rewrite ent_main by lia. rewrite cell_same by lia. apply inverses_nth, Hi.
    - exact EM.
  Qed.
  Theorem lookup_rows : (forall i, i < size -> bit (cell fs 6 i) /\ bit (cell fs 35 i)) ->
    (forall i, i < size -> needed i = true -> read i <> 0 /\ write i <> 0) ->
    forall i, i < size -> lookup0 P (row (all_entities fs') i) = 0 /\ lookup2 (row (all_entities fs') i) = 0 /\
      lookup1 P (row (all_entities fs') i) = if needed i then cell fs 6 i * finv (read i) - cell fs 34 i * finv (write i) else 0.
  Proof.
    intros Hb Hnz i Hi. destruct (lookup_terms Hi) as (R & W & I & E). destruct (Hb i Hi) as [Bq Bt]. specialize (Hnz i Hi).
    unfold lookup0, lookup1, lookup2, inverse_exists. rewrite R, W, I, !E by lia. unfold needed in *.
    apply feqb_bit in Bq, Bt. destruct (feqb (cell fs 6 i) 1), (feqb (cell fs 35 i) 1); cbn [orb] in *; rewrite ?Bq, ?Bt;
      try (destruct (Hnz eq_refl) as [N1 N2];
           assert (N : read i * write i <> 0) by (intros X; apply N2; transitivity (finv (read i) * read i * write i); [rewrite (finv_l _ N1); ring|transitivity (finv (read i) * (read i * write i)); [ring|rewrite X; ring]]);
           assert (J := inv0_nonzero N);
           assert (J1 : write i * inv0 (read i * write i) = finv (read i)) by (apply (@cancel_r _ _ (read i) N1); rewrite (finv_l _ N1), <- J; ring);
           assert (J2 : read i * inv0 (read i * write i) = finv (write i)) by (apply (@cancel_r _ _ (write i) N2); rewrite (finv_l _ N2), <- J; ring);
           rewrite J1, J2; split; [transitivity (inv0 (read i * write i) * (read i * write i) - 1); [ring|rewrite J; ring]|split; ring]).
    repeat split; ring.
  Qed.
  (** how many of the first [m] rows that satisfy [b] are mapped to [j] *)
  Definition hits (b : nat -> bool) (loc : nat -> nat) (m j : nat) : nat := length (filter (fun i => b i && (loc i =? j)%nat) (seq 0 m)).
  Lemma hits_S b loc m j : hits b loc (S m) j = (hits b loc m j + if b m && (loc m =? j)%nat then 1 else 0)%nat.
  Proof. unfold hits. rewrite seq_S, filter_app, app_length. cbn [filter Nat.add]. destruct (b m && (loc m =? j)%nat); reflexivity. Qed.
  Lemma double_count b loc (f : nat -> F) n : forall m, (forall i, i < m -> b i = true -> loc i < n) ->
    sumn m (fun i => if b i then f (loc i) else 0) = sumn n (fun j => fnat (hits b loc m j) * f j).
  Proof.
    induction m as [|m IH]; intros H.
    - symmetry. apply sumn_0. intros j _. unfold hits. cbn [seq filter length fnat]. ring.
    - rewrite (@sumn_ext _ _ n _ (fun j => fnat (hits b loc m j) * f j + (if b m && (loc m =? j)%nat then f j else 0))).
      + rewrite sumn_add, <- IH by (intros i Hi; apply H; lia). cbn [sumn]. f_equal. destruct (b m) eqn:B.
        * symmetry. rewrite (@sumn_delta _ _ n _ (loc m)); [rewrite Nat.eqb_refl; reflexivity|apply H; [lia|exact B]|]. intros k _ N. destruct (Nat.eqb_spec (loc m) k); [congruence|reflexivity].
        * symmetry. apply sumn_0. reflexivity.
      + intros j _. rewrite hits_S, fnat_add. destruct (b m && (loc m =? j)%nat); cbn [fnat]; ring.
  Qed.
  Theorem lookup_sum (loc : nat -> nat) : (forall i, i < size -> bit (cell fs 6 i) /\ bit (cell fs 35 i)) ->
    (forall i, i < size -> needed i = true -> read i <> 0 /\ write i <> 0) ->
    let looks i := feqb (cell fs 6 i) 1 in
    (forall i, i < size -> cell fs 6 i = 1 -> loc i < size /\
       cell fs 28 i + cell fs 3 i * cell fs 28 (S i) = cell fs 22 (loc i) /\ cell fs 29 i + cell fs 0 i * cell fs 29 (S i) = cell fs 23 (loc i) /\
       cell fs 30 i + cell fs 1 i * cell fs 30 (S i) = cell fs 24 (loc i) /\ cell fs 4 i = cell fs 25 (loc i)) ->
    (forall j, j < size -> cell fs 34 j = fnat (hits looks loc size j)) ->
    (forall j, j < size -> 0 < hits looks loc size j -> cell fs 35 j = 1) ->
    sumn size (fun i => lookup1 P (row (all_entities fs') i)) = 0.
  Proof.
    intros Hb Hnz looks Hloc Hc Ht.
    rewrite (@sumn_ext _ _ size _ (fun i => (if looks i then finv (write (loc i)) else 0) + - (fnat (hits looks loc size i) * finv (write i)))).
    - rewrite sumn_add, (@double_count looks loc (fun j => finv (write j)) size size).
      + rewrite <- sumn_add. apply sumn_0. intros j _. ring.
      + intros i Hi B. apply Hloc; [exact Hi|]. apply feqb_spec, B.
    - intros i Hi. destruct (lookup_rows Hb Hnz Hi) as (_ & _ & ->). destruct (Hb i Hi) as [Bq _]. apply feqb_bit in Bq. unfold looks at 1, needed.
      destruct (feqb (cell fs 6 i) 1) eqn:Q; cbn [orb].
      + assert (E : read i = write (loc i)). { destruct (Hloc i Hi Bq) as (_ & E1 & E2 & E3 & E4). unfold compute_read_term, compute_write_term. rewrite <- E1, <- E2, <- E3, <- E4. ring. }
        rewrite Bq, E, (Hc i Hi). ring.
      + destruct (feqb (cell fs 35 i) 1) eqn:T; [rewrite Bq, (Hc i Hi); ring|].
        destruct (hits looks loc size i) as [|h] eqn:Eh; [cbn [fnat]; ring|]. exfalso. rewrite <- not_true_iff_false in T. apply T, feqb_spec, Ht; [exact Hi|lia].
  Qed.
End Rel.
