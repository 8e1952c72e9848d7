(** * The Oink prover: its columns satisfy all relations (C77), and the whole prover is accepted (C79) *)
From Coq Require Import String List Arith Lia Bool Ring Permutation.
From Verif Require Import Proc Alg NNet Rep3 ShamirPoly Shamir ShamirAlg Univariate Sumcheck SumcheckSpec HonkRelations HonkSpec HonkSkip Decider Oink OinkWiring OinkTrace OinkGrand OinkProofs OinkRelations.
Import ListNotations.
Set Implicit Arguments.
Local Open Scope grp_scope.
Local Open Scope list_scope.

Section Records.
  Context {F : Type} {FF : Fld F}.
  Add Ring FringOC : (@cring_theory F _).
  Infix "*" := rmul : grp_scope.
  Notation "1" := rone : grp_scope.

  (** ** Memory records *)
  Lemma nodup_parts (a b : list nat) : NoDup (a ++ b) -> NoDup a /\ NoDup b /\ forall x, In x a -> ~ In x b.
  Proof.
    induction a as [|x a IH]; cbn [app]; intros ND; [split; [constructor|split; [exact ND|intros x []]]|]. inversion ND as [|? ? N ND']; subst. destruct (IH ND') as (A & B & C).
    split; [constructor; [intros I; apply N, in_or_app; left; exact I|exact A]|]. split; [exact B|]. intros y [->|I]; [intros J; apply N, in_or_app; right; exact J|apply C, I].
  Qed.
  Lemma add_records_ok (f : nat -> F) : forall idxs w, NoDup idxs -> (forall i, In i idxs -> i < length w) ->
    exists w', add_records f idxs w = Done w' /\ length w' = length w /\ forall i, nth i w' 0 = nth i w 0 + if existsb (Nat.eqb i) idxs then f i else 0.
  Proof.
    induction idxs as [|a idxs IH]; intros w ND H.
    - exists w. split; [reflexivity|]. split; [reflexivity|]. intros i. cbn [existsb]. ring.
    - inversion ND as [|? ? Na ND']; subst. cbn [add_records]. unfold add_at.
      assert (Ha : a < length w) by (apply H; left; reflexivity).
      rewrite (nth_error_nth' w 0 Ha). cbn [obind].
      destruct (IH (set_at a (nth a w 0 + f a) w) ND') as (w' & E & L & V); [intros i Hi; rewrite set_length; apply H; right; exact Hi|].
      exists w'. split; [exact E|]. rewrite set_length in L. split; [exact L|]. intros i. rewrite V, set_nth. cbn [existsb].
      destruct (Nat.eqb_spec i a) as [->|N]; cbn [andb orb].
      + destruct (Nat.ltb_spec a (length w)); [|lia].
        destruct (existsb (Nat.eqb a) idxs) eqn:X; [|ring]. exfalso. apply existsb_exists in X. destruct X as [y [I Y]]. apply Nat.eqb_eq in Y. subst y. contradiction.
      + reflexivity.
  Qed.
  Theorem w4_values fs reads writes eta1 eta2 eta3 : NoDup (reads ++ writes) -> (forall i, In i (reads ++ writes) -> i < length (nth 31 fs [])) ->
    exists w4, compute_w4 fs reads writes eta1 eta2 eta3 = Done w4 /\ length w4 = length (nth 31 fs []) /\
      forall i, nth i w4 0 = cell fs 31 i + (if existsb (Nat.eqb i) reads then eta1 * cell fs 28 i + eta2 * cell fs 29 i + eta3 * cell fs 30 i else
                                             if existsb (Nat.eqb i) writes then eta1 * cell fs 28 i + eta2 * cell fs 29 i + eta3 * cell fs 30 i + 1 else 0).
  Proof.
    intros ND H. unfold compute_w4.
    destruct (@add_records_ok (record fs eta1 eta2 eta3) reads (nth 31 fs [])) as (w & E & L & V); [exact (proj1 (nodup_parts _ _ ND))|intros i I; apply H, in_or_app; left; exact I|].
    rewrite E. cbn [obind].
    destruct (@add_records_ok (fun i => record fs eta1 eta2 eta3 i + 1) writes w) as (w' & E' & L' & V'); [exact (proj1 (proj2 (nodup_parts _ _ ND)))|intros i I; rewrite L; apply H, in_or_app; right; exact I|].
    exists w'. split; [exact E'|]. split; [congruence|]. intros i. rewrite V', V. unfold cell at 1, record.
    destruct (existsb (Nat.eqb i) reads) eqn:R, (existsb (Nat.eqb i) writes) eqn:W; try ring.
    exfalso. apply existsb_exists in R, W. destruct R as [x [Ix X]], W as [y [Iy Y]]. apply Nat.eqb_eq in X, Y. subst x y. exact (proj2 (proj2 (nodup_parts _ _ ND)) _ Ix Iy).
  Qed.
  (** a gate of an access: the relations of memory hold with the computed record *)
  Theorem record_gate (P : rparams (F := F)) fs reads writes w4 i : length fs = 36 -> NoDup (reads ++ writes) -> (forall i, In i (reads ++ writes) -> i < length (nth 31 fs [])) ->
    compute_w4 fs reads writes (rp_eta1 P) (rp_eta2 P) (rp_eta3 P) = Done w4 ->
    cell fs 10 i = 1 -> cell fs 2 i = 1 -> cell fs 0 i = 1 -> cell fs 3 i = 0 -> cell fs 4 i = 0 -> cell fs 5 i = 0 -> cell fs 31 i = 0 ->
    (In i reads /\ cell fs 1 i = 0) \/ (In i writes /\ cell fs 1 i = 1) ->
    let r := row (all_entities (set_at 31 w4 fs)) i in
    memory0 P r = 0 /\ memory1 r = 0 /\ memory2 r = 0 /\ memory3 P r = 0 /\ memory4 r = 0 /\ memory5 P r = 0.
  Proof.
    intros L36 ND H E Q Q1 M Q2 Q3 Q4 Z C r. destruct (@w4_values fs reads writes (rp_eta1 P) (rp_eta2 P) (rp_eta3 P) ND H) as (w & E' & _ & V). rewrite E in E'. injection E' as <-.
    assert (EM : forall k, k < 36 -> k <> 31 -> ent k r = cell fs k i) by (intros k Hk Nk; unfold r; rewrite ent_main by (rewrite set_length; lia); apply cell_other, Nk).
    assert (E4 : ent 31 r = nth i w4 0) by (unfold r; rewrite ent_main by (rewrite set_length; lia); apply cell_same; lia).
    assert (W : ent 31 r = rp_eta1 P * cell fs 28 i + rp_eta2 P * cell fs 29 i + rp_eta3 P * cell fs 30 i + cell fs 1 i).
    { rewrite E4, V, Z. assert (B : forall l, existsb (Nat.eqb i) l = true <-> In i l).
      { intros l. rewrite existsb_exists. split; [intros [x [I X]]; apply Nat.eqb_eq in X; subst x; exact I|intros I; exists i; split; [exact I|apply Nat.eqb_refl]]. }
      destruct C as [[I Cc]|[I Cc]]; rewrite Cc.
      - rewrite (proj2 (B _) I). ring.
      - destruct (existsb (Nat.eqb i) reads) eqn:R; [|rewrite (proj2 (B _) I); ring]. exfalso. apply B in R. exact (proj2 (proj2 (nodup_parts _ _ ND)) _ R I). }
    unfold memory0, memory1, memory2, memory3, memory4, memory5, partial_record, q_one_two_memory, q_3_memory. rewrite W, (EM 10%nat), (EM 2%nat), (EM 0%nat), (EM 3%nat), (EM 4%nat), (EM 5%nat), (EM 1%nat), (EM 28%nat), (EM 29%nat), (EM 30%nat), Q, Q1, M, Q2, Q3, Q4 by lia.
    repeat split; ring.
  Qed.
End Records.

Section All.
  Context {F : Type} {FF : Fld F}.
  Add Ring FringOA : (@cring_theory F _).
  Infix "*" := rmul : grp_scope.
  Notation "1" := rone : grp_scope.

  (** ** What an honest circuit looks like *)
  (** every cell holds the value of its variable; the values with tags are, together, the values with the images of
      the tags; the rows of public inputs hold the same variable in the first two wires *)
  Record copies_ok (nv : nat) (real tags tau : nat -> nat) (blocks : list (list (list nat))) (num_public : nat) (vals : nat -> F) (fs : list (list F)) : Prop := {
    co_nv : forall c, In c (trace_cells real 1 blocks) -> fst c < nv;
    co_values : forall v k i, In (v, (k, i)) (trace_cells real 1 blocks) -> cell fs (28 + k) i = vals v;
    co_tags : let in_use := filter (fun v => existsb (fun c => (fst c =? v)%nat) (trace_cells real 1 blocks)) (seq 0 nv) in
              Permutation (map (fun v => (vals v, tau (tags v))) in_use) (map (fun v => (vals v, tags v)) in_use);
    co_public : forall j, j < num_public -> real (nth 0 (nth j (concat blocks) []) 0%nat) = real (nth 1 (nth j (concat blocks) []) 0%nat) }.
  (** everything that is looked up in row [i] is row [loc i] of the tables, which is counted as often as it is looked up;
      the terms of rows in which this happens are not zero *)
  Record lookups_ok (P : rparams (F := F)) (size : nat) (loc : nat -> nat) (fs : list (list F)) : Prop := {
    lo_bits : forall i, i < size -> bit (cell fs 6 i) /\ bit (cell fs 35 i);
    lo_terms : forall i, i < size -> cell fs 6 i = 1 \/ cell fs 35 i = 1 -> compute_read_term fs (rp_beta P) (rp_gamma P) i <> 0 /\ compute_write_term fs (rp_beta P) (rp_gamma P) i <> 0;
    lo_entry : forall i, i < size -> cell fs 6 i = 1 -> loc i < size /\
       cell fs 28 i + cell fs 3 i * cell fs 28 (S i) = cell fs 22 (loc i) /\ cell fs 29 i + cell fs 0 i * cell fs 29 (S i) = cell fs 23 (loc i) /\
       cell fs 30 i + cell fs 1 i * cell fs 30 (S i) = cell fs 24 (loc i) /\ cell fs 4 i = cell fs 25 (loc i);
    lo_counts : forall j, j < size -> cell fs 34 j = fnat (hits (fun i => feqb (cell fs 6 i) 1) loc size j);
    lo_tags : forall j, j < size -> 0 < hits (fun i => feqb (cell fs 6 i) 1) loc size j -> cell fs 35 j = 1 }.
  (** the relations in which neither z_perm nor the inverses of lookups occur *)
  Definition gate_relations (P : rparams (F := F)) : list (list F -> F) :=
    [arith0; arith1; delta0; delta1; delta2; delta3; elliptic0 P; elliptic1 P;
     memory0 P; memory1; memory2; memory3 P; memory4; memory5 P; nnf0 P; pos_ext0; pos_ext1; pos_ext2; pos_ext3; pos_int0 P; pos_int1 P; pos_int2 P; pos_int3 P].

  Lemma gates_same P r r' : (forall k, k < 41 -> k <> 32 -> k <> 33 -> k <> 40 -> ent k r = ent k r' :> F) -> forall f, In f (gate_relations P) -> f r = f r'.
  Proof.
    intros H f I. unfold gate_relations in I. cbn [In] in I.
    repeat (destruct I as [<-|I]; [
      unfold arith0, arith1, delta0, delta1, delta2, delta3, elliptic0, elliptic1, elliptic, memory0, memory1, memory2, memory3, memory4, memory5, nnf0, pos_ext0, pos_ext1, pos_ext2, pos_ext3, pos_ext, pos_int0, pos_int1, pos_int2, pos_int3,
        pos_int_sum, partial_record, neg_index_delta, index_delta_is_zero, index_increasing, neg_next_access, q_one_two_memory, q_3_memory, neg_index_delta;
      repeat match goal with |- context[ent ?k r] => rewrite (H k) by lia end; reflexivity|]). destruct I.
  Qed.
  Lemma satisfied_full (P : rparams (F := F)) m cols : satisfied (honk_relations P) m cols -> satisfied (honk_relations_full P) m cols.
  Proof.
    unfold satisfied, honk_relations, honk_relations_full, relations_with. intros H.
    repeat (apply Forall_cons_iff in H; destruct H as [? H]; constructor; [assumption|]). constructor.
  Qed.

  Variables (P : rparams (F := F)) (sep : nat) (fs : list (list F)) (m : nat) (reads writes : list nat) (w4 : list F).
  Variables (nv : nat) (real tags tau : nat -> nat) (blocks : list (list (list nat))) (num_public : nat) (vals : nat -> F) (loc : nat -> nat).
  Notation n := (length (concat blocks)).
  Notation size := (2 ^ m)%nat.
  Notation fs1 := (set_at 31 w4 fs).
  Notation fs2 := (set_at 33 (compute_logderivative_inverses fs1 size (rp_beta P) (rp_gamma P)) fs1).
  Hypothesis L36 : length fs = 36.
  Hypothesis W4 : compute_w4 fs reads writes (rp_eta1 P) (rp_eta1 P * rp_eta1 P) (rp_eta1 P * rp_eta1 P * rp_eta1 P) = Done w4.
  Hypothesis Hn : 1 <= n /\ n < size /\ num_public <= n.
  Hypothesis Hfirst : forall i, i < size -> cell fs 26 i = if (i =? 0)%nat then 1 else 0.
  Hypothesis Hlast : forall i, i < size -> cell fs 27 i = if (i =? n)%nat then 1 else 0.
  Hypothesis Hwired : wired sep size nv real tags tau blocks num_public fs.
  Hypothesis Hcopies : copies_ok nv real tags tau blocks num_public vals fs1.
  Hypothesis Hlookups : lookups_ok P size loc fs1.
  Hypothesis Hgates : forall f, In f (gate_relations P) -> forall i, i < size -> f (row (all_entities fs1) i) = 0.
  Hypothesis Hden : forall i, 1 <= i < n -> gp_denominator fs1 (rp_beta P) (rp_gamma P) i <> 0.
  Hypothesis Hdelta : compute_public_input_delta sep (rp_beta P) (rp_gamma P) (map (fun j => cell fs 29 (S j)) (seq 0 num_public)) 1 = Done (rp_delta P).

  Lemma cell2 k i : k <> 33 -> cell fs2 k i = cell fs1 k i.
  Proof. apply cell_other. Qed.
  Lemma nth_set_other A c k (x d : A) l : k <> c -> nth k (set_at c x l) d = nth k l d.
  Proof. intros N. rewrite set_nth. destruct (Nat.eqb_spec k c); [contradiction|reflexivity]. Qed.
  Theorem oink_satisfied : exists z,
    oink sep fs size reads writes (map (fun j => cell fs 29 (S j)) (seq 0 num_public)) 1 (final_active_row 1 blocks) (active_ranges 1 blocks) (active_idxs (active_ranges 1 blocks))
      (rp_eta1 P) (rp_beta P) (rp_gamma P) = Done (set_at 32 z fs2, rp_delta P) /\
    length z = size /\ nth 0 z 0 = 0 /\ satisfied (honk_relations_full P) m (all_entities (set_at 32 z fs2)).
  Proof.
    destruct Hn as (H1 & H2 & H3). destruct Hcopies as [CN CV CT CP]. destruct Hlookups as [LB LT LE LC LG].
    destruct (@grand_values F FF (rp_beta P) (rp_gamma P) fs2 size blocks H1 H2) as (z & Ez & Lz & Vz). exists z.
    assert (L1 : length fs1 = 36) by (rewrite set_length; exact L36). assert (L2 : length fs2 = 36) by (rewrite set_length; exact L1).
    assert (L3 : length (set_at 32 z fs2) = 36) by (rewrite set_length; exact L2).
    split; [unfold oink; rewrite W4; cbn [obind]; rewrite Hdelta; cbn [obind]; rewrite Ez; reflexivity|]. split; [exact Lz|]. split; [rewrite Vz; reflexivity|].
    assert (ND : needed fs1 = needed fs1) by reflexivity.
    assert (LT' : forall i, i < size -> needed fs1 i = true -> compute_read_term fs1 (rp_beta P) (rp_gamma P) i <> 0 /\ compute_write_term fs1 (rp_beta P) (rp_gamma P) i <> 0).
    { intros i Hi N. apply LT; [exact Hi|]. unfold needed in N. apply orb_true_iff in N. destruct N as [N|N]; apply feqb_spec in N; [left|right]; exact N. }
    (* entities of the last columns *)
    assert (E3 : forall k i, k < 41 -> k <> 32 -> k <> 40 -> ent k (row (all_entities (set_at 32 z fs2)) i) = ent k (row (all_entities fs2) i)).
    { intros k i Hk N1 N2. destruct (Nat.lt_ge_cases k 36) as [K|K].
      - rewrite !ent_main by lia. apply cell_other, N1.
      - replace k with (36 + (k - 36))%nat by lia. rewrite !ent_shift by (exact L3 || exact L2 || lia). apply cell_other. lia. }
    assert (E2 : forall k i, k < 41 -> k <> 33 -> ent k (row (all_entities fs2) i) = ent k (row (all_entities fs1) i)).
    { intros k i Hk N1. destruct (Nat.lt_ge_cases k 36) as [K|K].
      - rewrite !ent_main by lia. apply cell_other, N1.
      - replace k with (36 + (k - 36))%nat by lia. rewrite !ent_shift by (exact L1 || exact L2 || lia). apply cell_other. lia. }
    (* permutation *)
    assert (GP : forall i, i < size -> perm0 P (row (all_entities (set_at 32 z fs2)) i) = 0 /\ perm1 (row (all_entities (set_at 32 z fs2)) i) = 0).
    { apply (@grand_relations F FF P fs2 size L2 blocks z H1 H2).
      - intros i Hi. rewrite cell2, cell_other by discriminate. apply Hfirst, Hi.
      - intros i Hi. rewrite cell2, cell_other by discriminate. apply Hlast, Hi.
      - intros k Hk. rewrite !cell2, !cell_other by lia. destruct (@wired_zero F FF sep size nv real tags tau blocks num_public fs k ltac:(lia) Hwired Hk) as [A B]. congruence.
      - intros i Hi. unfold gp_denominator. rewrite !cell2 by discriminate. exact (Hden Hi).
      - apply (@wiring_product F FF sep size nv real tags tau blocks vals fs2 (rp_beta P) (rp_gamma P) num_public (rp_delta P)).
        + exact H2.
        + exact H3.
        + exact CN.
        + intros v k i I. rewrite cell2 by (apply (in_map snd) in I; rewrite trace_block, block_nodes in I; apply quads_in in I; cbn [snd fst] in I; lia). exact (CV v k i I).
        + exact CT.
        + exact CP.
        + intros k Hk. destruct (Hwired Hk) as [A B]. rewrite <- A, <- B. split; rewrite !nth_set_other by lia; reflexivity.
        + rewrite <- Hdelta. f_equal. apply map_ext. intros j. rewrite cell2, cell_other by discriminate. reflexivity.
      - exact Ez. }
    (* lookups *)
    assert (LS : forall i, lookup0 P (row (all_entities (set_at 32 z fs2)) i) = lookup0 P (row (all_entities fs2) i) /\
      lookup1 P (row (all_entities (set_at 32 z fs2)) i) = lookup1 P (row (all_entities fs2) i) /\ lookup2 (row (all_entities (set_at 32 z fs2)) i) = lookup2 (row (all_entities fs2) i)).
    { intros i. unfold lookup0, lookup1, lookup2, inverse_exists, read_term, write_term. rewrite !E3 by lia. repeat split. }
    apply satisfied_full, honk_satisfied. split.
    - intros f I i Hi. destruct (GP i Hi) as [G0 G1]. destruct (@lookup_rows F FF P fs1 size L1 LB LT' i Hi) as (K0 & K2 & _). destruct (LS i) as (S0 & _ & S2).
      assert (GT : forall f, In f (gate_relations P) -> f (row (all_entities (set_at 32 z fs2)) i) = 0).
      { intros f' I'. rewrite <- (Hgates I' Hi). refine (@gates_same P _ _ _ f' I'). intros k Hk N1 N2 N3. rewrite E3, E2 by assumption. reflexivity. }
      unfold in_rows in I. cbn [In] in I.
      repeat (destruct I as [<-|I]; [first [exact G0|exact G1|rewrite S0; exact K0|rewrite S2; exact K2|apply GT; unfold gate_relations; cbn [In]; tauto]|]). destruct I.
    - rewrite (@sumn_ext _ _ size _ (fun i => lookup1 P (row (all_entities fs2) i))) by (intros i _; apply LS).
      exact (@lookup_sum F FF P fs1 size L1 loc LB LT' LE LC LG).
  Qed.
End All.
