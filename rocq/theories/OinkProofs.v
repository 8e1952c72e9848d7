(** * The computed columns satisfy their relations (C77) *)
From Coq Require Import String List Arith Lia Bool Ring Permutation.
From Verif Require Import Proc Alg NNet Rep3 ShamirPoly Shamir ShamirAlg Univariate Sumcheck SumcheckSpec HonkRelations HonkSpec HonkSkip Decider Oink OinkWiring OinkTrace OinkGrand.
Import ListNotations.
Set Implicit Arguments.
Local Open Scope grp_scope.
Local Open Scope list_scope.

Section Columns.
  Context {F : Type} {FF : Fld F}.
  Add Ring FringOP : (@cring_theory F _).
  Infix "*" := rmul : grp_scope.
  Notation "1" := rone : grp_scope.

  (** ** Assignments *)
  Lemma set_length A i (x : A) : forall l, length (set_at i x l) = length l.
  Proof. revert i. intros i l; revert i. induction l as [|a l IH]; intros [|i]; cbn [set_at length]; try reflexivity. rewrite IH. reflexivity. Qed.
  Lemma set_nth A (x d : A) : forall l i j, nth j (set_at i x l) d = if ((j =? i) && (i <? length l))%nat then x else nth j l d.
  Proof.
    induction l as [|a l IH]; intros [|i] [|j]; cbn [set_at nth length]; try reflexivity.
    - rewrite andb_false_r. reflexivity.
    - rewrite IH. cbn [Nat.eqb]. reflexivity.
  Qed.
  Lemma cell_other c k (x : list F) fs i : k <> c -> cell (set_at c x fs) k i = cell fs k i.
  Proof. intros N. unfold cell. rewrite set_nth. destruct (Nat.eqb_spec k c); [contradiction|reflexivity]. Qed.
  Lemma cell_same c (x : list F) fs i : c < length fs -> cell (set_at c x fs) c i = nth i x 0.
  Proof. intros H. unfold cell. rewrite set_nth, Nat.eqb_refl. destruct (Nat.ltb_spec c (length fs)); [reflexivity|lia]. Qed.

  (** ** Entities of a row *)
  Lemma ent_main fs i k : k < length fs -> ent k (row (all_entities fs) i) = cell fs k i.
  Proof.
    intros H. unfold ent, row, cell, all_entities. change (0 : F) with ((fun col : list F => nth i col 0) []) at 1 || idtac.
    rewrite (nth_indep _ 0 ((fun col => nth i col 0) [])) by (rewrite map_length, app_length; lia). rewrite (map_nth (fun col => nth i col 0)). rewrite app_nth1 by exact H. reflexivity.
  Qed.
  Lemma nth_shift (g : list F) i : nth i (shift_column g) 0 = nth (S i) g 0.
  Proof.
    unfold shift_column. destruct g as [|a g]; [destruct i as [|[|i]]; reflexivity|]. cbn [tl nth]. destruct (Nat.lt_ge_cases i (length g)) as [L|L].
    - apply app_nth1, L.
    - rewrite app_nth2, (nth_overflow g) by exact L. destruct (i - length g)%nat as [|[|n]]; reflexivity.
  Qed.
  Lemma ent_shift fs i j : length fs = 36 -> j < 5 -> ent (36 + j) (row (all_entities fs) i) = cell fs (28 + j) (S i).
  Proof.
    intros H Hj. unfold ent, row, cell, all_entities, to_be_shifted.
    assert (L : length (firstn 5 (skipn 28 fs)) = 5%nat) by (rewrite firstn_length, skipn_length, H; reflexivity).
    rewrite (nth_indep _ 0 ((fun col => nth i col 0) (shift_column []))) by (rewrite map_length, app_length, map_length, L; lia). rewrite (map_nth (fun col => nth i col 0)).
    rewrite app_nth2 by lia. replace (36 + j - length fs)%nat with j by lia. rewrite (map_nth shift_column), nth_shift. f_equal.
    rewrite <- (firstn_skipn 28 fs) at 2. rewrite app_nth2 by (rewrite firstn_length; lia). rewrite firstn_length, H. replace (28 + j - Nat.min 28 36)%nat with j by lia.
    rewrite <- (firstn_skipn 5 (skipn 28 fs)) at 2. rewrite app_nth1 by lia. reflexivity.
  Qed.

  (** ** The grand product *)
  Variables (beta gamma : F) (fs : list (list F)) (size : nat).
  Notation num := (gp_numerator fs beta gamma).
  Notation den := (gp_denominator fs beta gamma).
  Lemma runs_nth : forall l acc i, i < length l -> nth i (runs acc l) 0 = acc * prod (S i) (fun j => nth j l 0).
  Proof.
    induction l as [|x l IH]; intros acc i H; [cbn in H; lia|]. cbn [runs]. destruct i as [|i]; [cbn [nth prod]; ring|].
    cbn [length] in H. cbn [nth]. rewrite IH by lia. rewrite (prod_head _ (S i)). cbn [nth]. ring.
  Qed.
  Lemma running_nth l i : i < length l -> nth i (running l) 0 = prod (S i) (fun j => nth j l 0).
  Proof.
    destruct l as [|x l]; intros H; [cbn in H; lia|]. cbn [running]. destruct i as [|i]; [cbn [nth prod]; ring|].
    cbn [length] in H. cbn [nth]. rewrite runs_nth by lia. rewrite (prod_head _ (S i)). cbn [nth]. reflexivity.
  Qed.
  Lemma running_length l : length (running l) = length l.
  Proof.
    destruct l as [|x l]; [reflexivity|]. cbn [running length]. f_equal. revert x. induction l as [|y l IH]; intros x; [reflexivity|]. cbn [runs length]. rewrite IH. reflexivity.
  Qed.
  Lemma fill_none blocks : forall l z, fold_left (gp_fill (active_ranges 1 blocks)) l z = (z : list F).
  Proof.
    induction l as [|i l IH]; intros z; [reflexivity|]. cbn [fold_left]. rewrite IH. unfold gp_fill.
    destruct (find _ _) as [[a [b c]]|] eqn:E; [|reflexivity]. apply find_some in E. destruct E as [I E].
    destruct (ranges_adjacent blocks 1 i) as [A _]. rewrite Forall_forall in A. rewrite (A _ I) in E. discriminate E.
  Qed.
  Lemma assign_all nums dens n : forall z k, (forall i, i < n -> S (S i) < length z) ->
    nth k (fold_left (gp_assign (fun i => nth i (seq 1 (S n)) 0%nat) nums dens) (seq 0 n) z) 0 =
    if ((2 <=? k) && (k <? n + 2))%nat then nth (k - 2) nums 0 * nth (k - 2) dens 0 else nth k z 0.
  Proof.
    intros z k H. assert (Hidx : forall i, i < n -> nth (S i) (seq 1 (S n)) 0%nat = (i + 2)%nat) by (intros i Hi; rewrite seq_nth by lia; lia).
    set (ix := seq 1 (S n)) in *.
    assert (G : forall m, m <= n -> length (fold_left (gp_assign (fun i => nth i ix 0%nat) nums dens) (seq 0 m) z) = length z /\
      nth k (fold_left (gp_assign (fun i => nth i ix 0%nat) nums dens) (seq 0 m) z) 0 = if ((2 <=? k) && (k <? m + 2))%nat then nth (k - 2) nums 0 * nth (k - 2) dens 0 else nth k z 0).
    2: { exact (proj2 (G n (le_n n))). }
    induction m as [|m IH]; intros Hm.
    - split; [reflexivity|]. cbn [seq fold_left]. destruct (Nat.leb_spec 2 k), (Nat.ltb_spec k (0 + 2)); try reflexivity; lia.
    - destruct (IH ltac:(lia)) as [Ln E]. rewrite seq_S, fold_left_app. cbn [fold_left]. change (0 + m)%nat with m. unfold gp_assign at 1 3. split; [rewrite set_length; exact Ln|].
      rewrite set_nth, Ln, E, Hidx by lia. specialize (H m ltac:(lia)).
      destruct (Nat.eqb_spec k (m + 2)) as [->|N].
      + destruct (Nat.ltb_spec (m + 2) (length z)); [|lia]. cbn [andb]. replace (m + 2 - 2)%nat with m by lia.
        destruct (Nat.leb_spec 2 (m + 2)), (Nat.ltb_spec (m + 2) (S m + 2)); try lia. reflexivity.
      + cbn [andb]. destruct (Nat.leb_spec 2 k), (Nat.ltb_spec k (m + 2)), (Nat.ltb_spec k (S m + 2)); try reflexivity; lia.
  Qed.
  (** the column [z_perm] *)
  Lemma grand_values blocks : let n := length (concat blocks) in 1 <= n -> n < size ->
    exists z, compute_grand_product fs size (final_active_row 1 blocks) (active_ranges 1 blocks) (active_idxs (active_ranges 1 blocks)) beta gamma = Done z /\ length z = size /\
      forall k, nth k z 0 = if (k =? 0)%nat then 0 else if (k <=? n)%nat then prod (k - 1) (fun i => num (S i)) * inv0 (prod (k - 1) (fun i => den (S i))) else 0.
  Proof.
    intros n Hn Hs. unfold compute_grand_product. rewrite active_all, (final_row blocks Hn). fold n. rewrite seq_length.
    destruct (Nat.ltb_spec 0 n) as [_|]; [|lia]. destruct (Nat.leb_spec size 1) as [|_]; [lia|]. rewrite fill_none.
    destruct n as [|m] eqn:En; [lia|]. replace (S m - 1)%nat with m by lia.
    set (f := fun i => num (nth i (seq 1 (S m)) 0%nat)). set (g := fun i => den (nth i (seq 1 (S m)) 0%nat)).
    eexists. split; [reflexivity|].
    assert (Lz : length (set_at 1 1 (repeat (0 : F) size)) = size) by (rewrite set_length; apply repeat_length). split.
    - assert (G : forall l z, length (fold_left (gp_assign (fun i => nth i (seq 1 (S m)) 0%nat) (running (map f (seq 0 m))) (map inv0 (running (map g (seq 0 m))))) l z) = length z).
      { induction l as [|i l IH]; intros z; [reflexivity|]. cbn [fold_left]. rewrite IH. apply set_length. }
      rewrite G. exact Lz.
    - intros k. rewrite assign_all by (intros i Hi; rewrite Lz; lia). rewrite set_nth, repeat_length.
      assert (R0 : nth k (repeat (0 : F) size) 0 = 0) by (destruct (Nat.lt_ge_cases k size); [apply nth_repeat|apply nth_overflow; rewrite repeat_length; lia]).
      assert (NM : forall h : nat -> F, forall j, j < m -> nth j (map h (seq 0 m)) 0 = h j).
      { intros h j Hj. rewrite (nth_indep _ 0 (h 0%nat)) by (rewrite map_length, seq_length; exact Hj). rewrite map_nth, seq_nth by exact Hj. reflexivity. }
      destruct (Nat.leb_spec 2 k) as [K2|K2]; [destruct (Nat.ltb_spec k (m + 2)) as [Km|Km]|]; cbn [andb].
      + destruct (Nat.eqb_spec k 0); [lia|]. destruct (Nat.leb_spec k (S m)); [|lia].
        assert (Pr : forall h h' : nat -> F, (forall j, j < m -> h j = h' (S j)) -> nth (k - 2) (running (map h (seq 0 m))) 0 = prod (k - 1) (fun i => h' (S i))).
        { intros h h' E. rewrite running_nth by (rewrite map_length, seq_length; lia). replace (S (k - 2)) with (k - 1)%nat by lia. apply prod_ext. intros j Hj. rewrite NM by lia. apply E. lia. }
        rewrite (Pr f num) by (intros j Hj; unfold f; rewrite seq_nth by lia; reflexivity). f_equal.
        rewrite (nth_indep _ 0 (inv0 0)) by (rewrite map_length, running_length, map_length, seq_length; lia). rewrite map_nth. f_equal.
        apply (Pr g den). intros j Hj. unfold g. rewrite seq_nth by lia. reflexivity.
      + rewrite R0. destruct (Nat.eqb_spec k 1); [lia|]. cbn [andb]. destruct (Nat.eqb_spec k 0); [lia|]. destruct (Nat.leb_spec k (S m)); [lia|]. reflexivity.
      + rewrite R0. destruct k as [|[|k]]; [reflexivity| |lia]. cbn [Nat.eqb andb Nat.leb Nat.sub prod]. destruct (Nat.ltb_spec 1 size); [|lia].
        unfold inv0. destruct (feqb 1 0) eqn:E; [exfalso; apply feqb_spec in E; exact (f_1_neq_0 E)|]. transitivity (finv 1 * 1); [symmetry; apply finv_l, f_1_neq_0|ring].
  Qed.
End Columns.
