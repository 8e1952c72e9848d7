(** * Stable sorting: specification, and ranks *)
From Coq Require Import Permutation List Arith NArith Lia Bool.
Import ListNotations.
Set Implicit Arguments.

(** ** Specification (independent of the model) *)
(** [a] comes before [b] in the stable order by [key] *)
Definition before (key : nat -> N) (a b : nat) : Prop := (key a < key b)%N \/ (key a = key b /\ a < b).
(** [sigma] lists the positions [0..n] in the stable order of their keys *)
Definition stable_order (n : nat) (key : nat -> N) (sigma : list nat) : Prop :=
  Permutation sigma (seq 0 n) /\ forall i j, i < j < n -> before key (nth i sigma 0) (nth j sigma 0).
(** the elements of [xs] at the positions [sigma] *)
Definition select_at {X} (d : X) (xs : list X) (sigma : list nat) : list X := map (fun k => nth k xs d) sigma.

(** ** Positions in a permutation *)
Fixpoint pindex (l : list nat) (x : nat) : nat :=
  match l with [] => 0 | y :: l => if y =? x then 0 else S (pindex l x) end.
Lemma pindex_spec l x : In x l -> pindex l x < length l /\ nth (pindex l x) l 0 = x.
Proof.
  induction l as [|y l IH]; [intros []|]. intros Hin. cbn. destruct (Nat.eqb_spec y x) as [->|N].
  - split; [lia|reflexivity].
  - destruct Hin as [Hy|Hin]; [contradiction|]. destruct (IH Hin). split; [lia|assumption].
Qed.
Section Perm.
  Variables (n : nat) (p : list nat).
  Hypothesis Hp : Permutation p (seq 0 n).
  Lemma perm_len : length p = n.
  Proof. rewrite (Permutation_length Hp). apply seq_length. Qed.
  Lemma perm_lt k : k < n -> nth k p 0 < n.
  Proof.
    intros L. assert (I : In (nth k p 0) (seq 0 n)).
    { apply (Permutation_in _ Hp). apply nth_In. rewrite perm_len. exact L. }
    apply in_seq in I. lia.
  Qed.
  Lemma perm_nodup : NoDup p.
  Proof. apply (Permutation_NoDup (Permutation_sym Hp)). apply seq_NoDup. Qed.
  Lemma perm_inj j k : j < n -> k < n -> nth j p 0 = nth k p 0 -> j = k.
  Proof. intros Lj Lk E. apply (proj1 (NoDup_nth p 0) perm_nodup); [rewrite perm_len; exact Lj|rewrite perm_len; exact Lk|exact E]. Qed.
  Lemma perm_index j : j < n -> pindex p j < n /\ nth (pindex p j) p 0 = j.
  Proof.
    intros L. destruct (pindex_spec p j) as [A B].
    - apply (Permutation_in _ (Permutation_sym Hp)). apply in_seq. lia.
    - rewrite perm_len in A. auto.
  Qed.
End Perm.
Lemma perm_of_inj n f : (forall k, k < n -> f k < n) -> (forall j k, j < n -> k < n -> f j = f k -> j = k) ->
  Permutation (map f (seq 0 n)) (seq 0 n).
Proof.
  intros Hlt Hinj. apply NoDup_Permutation_bis.
  - apply NoDup_nth with (d := f 0). intros i j. rewrite map_length, seq_length. intros Li Lj.
    rewrite !map_nth, !seq_nth by assumption. cbn. auto.
  - rewrite map_length, seq_length. lia.
  - intros x Hx. apply in_map_iff in Hx. destruct Hx as (k & <- & Hk). apply in_seq in Hk. apply in_seq. specialize (Hlt k). lia.
Qed.
Lemma tab_nth {X} n (f : nat -> X) k d : k < n -> nth k (map f (seq 0 n)) d = f k.
Proof. intros L. rewrite (nth_indep _ d (f 0)) by (rewrite map_length, seq_length; lia). rewrite map_nth, seq_nth by lia. reflexivity. Qed.
Lemma tab_len {X} n (f : nat -> X) : length (map f (seq 0 n)) = n.
Proof. rewrite map_length. apply seq_length. Qed.
Lemma perm_compose n p q : Permutation p (seq 0 n) -> Permutation q (seq 0 n) -> Permutation (map (fun k => nth k p 0) q) (seq 0 n).
Proof.
  intros Hp Hq. apply Permutation_trans with (map (fun k => nth k p 0) (seq 0 n)).
  - apply Permutation_map. exact Hq.
  - apply perm_of_inj.
    + intros k. apply (perm_lt Hp).
    + intros j k. apply (perm_inj Hp).
Qed.
Lemma perm_inverse n p : Permutation p (seq 0 n) -> Permutation (map (pindex p) (seq 0 n)) (seq 0 n).
Proof.
  intros Hp. apply perm_of_inj.
  - intros k L. apply (perm_index Hp L).
  - intros j k Lj Lk E. rewrite <- (proj2 (perm_index Hp Lj)), <- (proj2 (perm_index Hp Lk)). congruence.
Qed.

(** ** Counting and ranks *)
Definition cnt (P : nat -> bool) (n : nat) : nat := length (filter P (seq 0 n)).
Lemma cnt_S P n : cnt P (S n) = cnt P n + if P n then 1 else 0.
Proof. unfold cnt. rewrite seq_S, filter_app, app_length. cbn [plus filter]. destruct (P n); reflexivity. Qed.
Lemma cnt_ext P Q n : (forall k, k < n -> P k = Q k) -> cnt P n = cnt Q n.
Proof. induction n as [|n IH]; intros E; [reflexivity|]. rewrite !cnt_S, IH, E; auto. Qed.
Lemma cnt_le P n : cnt P n <= n.
Proof. induction n as [|n IH]; [cbn; lia|]. rewrite cnt_S. destruct (P n); lia. Qed.
Lemma cnt_mono P Q n : (forall k, k < n -> P k = true -> Q k = true) -> cnt P n <= cnt Q n.
Proof.
  induction n as [|n IH]; intros E; [cbn; lia|]. rewrite !cnt_S. specialize (IH (fun k L => E k (Nat.lt_lt_succ_r _ _ L))).
  destruct (P n) eqn:Pn; [rewrite (E n) by (auto; lia); lia|]. destruct (Q n); lia.
Qed.
Lemma cnt_strict P Q n m : (forall k, k < n -> P k = true -> Q k = true) -> m < n -> P m = false -> Q m = true -> cnt P n < cnt Q n.
Proof.
  induction n as [|n IH]; intros E L Pm Qm; [lia|]. rewrite !cnt_S.
  destruct (Nat.eq_dec m n) as [->|N].
  - rewrite Pm, Qm. pose proof (@cnt_mono P Q n (fun k L => E k (Nat.lt_lt_succ_r _ _ L))). lia.
  - specialize (IH (fun k L => E k (Nat.lt_lt_succ_r _ _ L))). specialize (IH ltac:(lia) Pm Qm).
    destruct (P n) eqn:Pn; [rewrite (E n) by (auto; lia); lia|]. destruct (Q n); lia.
Qed.
Lemma cnt_or P Q n : (forall k, k < n -> P k = true -> Q k = false) -> cnt (fun k => P k || Q k) n = cnt P n + cnt Q n.
Proof.
  induction n as [|n IH]; intros E; [reflexivity|]. rewrite !cnt_S, IH by auto. specialize (E n (Nat.lt_succ_diag_r n)).
  destruct (P n); [rewrite E by reflexivity; cbn; lia|]. cbn. lia.
Qed.
Lemma cnt_cut P n m : m <= n -> cnt (fun k => (k <? m) && P k) n = cnt P m.
Proof.
  induction n as [|n IH]; intros L.
  - replace m with 0 by lia. reflexivity.
  - rewrite cnt_S. destruct (Nat.eq_dec m (S n)) as [->|N].
    + rewrite cnt_S. rewrite (proj2 (Nat.ltb_lt n (S n))) by lia. cbn [andb]. f_equal.
      apply cnt_ext. intros k Lk. rewrite (proj2 (Nat.ltb_lt k (S n))) by lia. reflexivity.
    + rewrite IH by lia. rewrite (proj2 (Nat.ltb_ge n m)) by lia. cbn. lia.
Qed.
Lemma filter_perm {X} (P : X -> bool) l l' : Permutation l l' -> Permutation (filter P l) (filter P l').
Proof.
  induction 1; cbn.
  - constructor.
  - destruct (P x); [apply perm_skip|]; assumption.
  - destruct (P x), (P y); try apply Permutation_refl. apply perm_swap.
  - eapply Permutation_trans; eassumption.
Qed.
Lemma filter_map_len {X Y} (P : Y -> bool) (f : X -> Y) l : length (filter P (map f l)) = length (filter (fun x => P (f x)) l).
Proof. induction l as [|x l IH]; [reflexivity|]. cbn. destruct (P (f x)); cbn; rewrite IH; reflexivity. Qed.
(** counting is invariant under a renaming of the positions *)
Lemma cnt_reindex P n f : Permutation (map f (seq 0 n)) (seq 0 n) -> cnt P n = cnt (fun k => P (f k)) n.
Proof. intros Hp. unfold cnt. rewrite <- (filter_map_len P f (seq 0 n)). symmetry. apply Permutation_length, filter_perm, Hp. Qed.

Definition beforeb (key : nat -> N) (a b : nat) : bool := (key a <? key b)%N || ((key a =? key b)%N && (a <? b)).
Lemma beforeb_spec key a b : beforeb key a b = true <-> before key a b.
Proof.
  unfold beforeb, before. rewrite orb_true_iff, andb_true_iff, N.ltb_lt, N.eqb_eq, Nat.ltb_lt. reflexivity.
Qed.
(** the number of positions that come before [j] *)
Definition rank (n : nat) (key : nat -> N) (j : nat) : nat := cnt (fun k => beforeb key k j) n.
Section Rank.
  Variables (n : nat) (key : nat -> N).
  Lemma before_irrefl j : beforeb key j j = false.
  Proof. unfold beforeb. rewrite N.ltb_irrefl, Nat.ltb_irrefl, andb_false_r. reflexivity. Qed.
  Lemma before_total j k : j <> k -> before key j k \/ before key k j.
  Proof. unfold before. lia. Qed.
  Lemma rank_mono j k : j < n -> before key j k -> rank n key j < rank n key k.
  Proof.
    intros L Hjk. unfold rank. apply cnt_strict with (m := j).
    - intros i Li Hi. apply beforeb_spec in Hi. apply beforeb_spec. unfold before in *. lia.
    - exact L.
    - apply before_irrefl.
    - apply beforeb_spec. exact Hjk.
  Qed.
  Lemma rank_lt j : j < n -> rank n key j < n.
  Proof.
    intros L. unfold rank. apply Nat.lt_le_trans with (cnt (fun _ => true) n); [|apply cnt_le].
    apply cnt_strict with (m := j); auto. apply before_irrefl.
  Qed.
  Lemma rank_before j k : j < n -> k < n -> rank n key j < rank n key k -> before key j k.
  Proof.
    intros Lj Lk L. destruct (Nat.eq_dec j k) as [->|N]; [lia|]. destruct (before_total N) as [B|B]; [exact B|].
    apply rank_mono in B; [lia|exact Lk].
  Qed.
  Lemma rank_perm : Permutation (map (rank n key) (seq 0 n)) (seq 0 n).
  Proof.
    apply perm_of_inj; [exact rank_lt|]. intros j k Lj Lk E. destruct (Nat.eq_dec j k) as [|N]; [assumption|].
    destruct (before_total N) as [B|B]; apply rank_mono in B; lia.
  Qed.
  Lemma rank_ltb j k : j < n -> k < n -> (rank n key j <? rank n key k) = beforeb key j k.
  Proof.
    intros Lj Lk. destruct (Nat.ltb_spec (rank n key j) (rank n key k)) as [L|L].
    - symmetry. apply beforeb_spec. apply rank_before; assumption.
    - destruct (beforeb key j k) eqn:B; [|reflexivity]. apply beforeb_spec in B. apply rank_mono in B; lia.
  Qed.
  (** the positions in order of their rank are in stable order *)
  Definition sorted_positions : list nat := map (pindex (map (rank n key) (seq 0 n))) (seq 0 n).
  Lemma sorted_pos k : k < n -> nth k sorted_positions 0 < n /\ rank n key (nth k sorted_positions 0) = k.
  Proof.
    intros L. unfold sorted_positions. rewrite tab_nth by exact L. destruct (perm_index rank_perm L) as [A B].
    split; [exact A|]. rewrite tab_nth in B by exact A. exact B.
  Qed.
  Lemma sorted_stable : stable_order n key sorted_positions.
  Proof.
    split; [apply perm_inverse, rank_perm|]. intros i j [L1 L2].
    destruct (@sorted_pos i ltac:(lia)) as [A1 B1]. destruct (@sorted_pos j L2) as [A2 B2].
    apply rank_before; [exact A1|exact A2|lia].
  Qed.
  Lemma sorted_rank j : j < n -> nth (rank n key j) sorted_positions 0 = j.
  Proof.
    intros L. destruct (@sorted_pos (rank n key j) (rank_lt L)) as [A B].
    pose proof (@perm_inj n _ rank_perm (nth (rank n key j) sorted_positions 0) j A L) as I. rewrite !tab_nth in I by assumption. apply I. exact B.
  Qed.
End Rank.
Lemma rank_ext n key key' : (forall k, k < n -> key k = key' k) -> forall j, j < n -> rank n key j = rank n key' j.
Proof. intros E j L. unfold rank. apply cnt_ext. intros k Lk. unfold beforeb. rewrite !E by assumption. reflexivity. Qed.
(** one more digit: the rank for the bit of the sorted list is the rank for the longer key *)
Lemma rank_step n key (b : nat -> bool) (b' : nat -> bool) h :
  (forall j, j < n -> (key j < h)%N) -> (forall j, j < n -> b' (rank n key j) = b j) ->
  forall j, j < n -> rank n (fun k => N.b2n (b' k)) (rank n key j) = rank n (fun k => (h * N.b2n (b k) + key k)%N) j.
Proof.
  intros Hk Hb j L. unfold rank at 1. rewrite (@cnt_reindex _ n _ (rank_perm n key)). unfold rank at 3.
  apply cnt_ext. intros k Lk. unfold beforeb at 1. rewrite !Hb by assumption. rewrite rank_ltb by assumption.
  unfold beforeb. pose proof (Hk j L). pose proof (Hk k Lk).
  destruct (b k), (b j); cbn [N.b2n].
  - rewrite N.ltb_irrefl, N.eqb_refl, !N.mul_1_r. cbn [orb andb].
    destruct (N.ltb_spec (key k) (key j)) as [A|A], (N.ltb_spec (h + key k) (h + key j)) as [A'|A'], (N.eqb_spec (key k) (key j)) as [B|B], (N.eqb_spec (h + key k) (h + key j)) as [B'|B']; try lia; reflexivity.
  - cbn. replace (h * 1 + key k <? h * 0 + key j)%N with false by (symmetry; apply N.ltb_ge; lia).
    replace (h * 1 + key k =? h * 0 + key j)%N with false by (symmetry; apply N.eqb_neq; lia). reflexivity.
  - cbn. replace (h * 0 + key k <? h * 1 + key j)%N with true by (symmetry; apply N.ltb_lt; lia). reflexivity.
  - rewrite N.ltb_irrefl, N.eqb_refl, !N.mul_0_r. reflexivity.
Qed.
(** ** The rank by one bit, as computed from running sums *)
Lemma rank_zero n (b : nat -> bool) m : m < n -> b m = false -> S (rank n (fun k => N.b2n (b k)) m) = cnt (fun k => negb (b k)) (S m).
Proof.
  intros L E. rewrite cnt_S, E. cbn [negb]. rewrite Nat.add_1_r. f_equal. unfold rank.
  rewrite <- (@cnt_cut (fun k => negb (b k)) n m) by lia. apply cnt_ext. intros k Lk. unfold beforeb. rewrite E.
  destruct (k <? m), (b k); reflexivity.
Qed.
Lemma rank_one n (b : nat -> bool) m : m < n -> b m = true -> S (rank n (fun k => N.b2n (b k)) m) = cnt (fun k => negb (b k)) n + cnt b (S m).
Proof.
  intros L E. rewrite cnt_S, E. rewrite Nat.add_1_r, Nat.add_succ_r. f_equal. unfold rank.
  rewrite <- (@cnt_cut b n m) by lia. rewrite <- cnt_or.
  - apply cnt_ext. intros k Lk. unfold beforeb. rewrite E. destruct (k <? m), (b k); reflexivity.
  - intros k Lk. destruct (b k); cbn; [discriminate|]. rewrite andb_false_r. auto.
Qed.

(** ** Consequences of the specification *)
Lemma stable_permutation {X} (d : X) xs key sigma : stable_order (length xs) key sigma -> Permutation (select_at d xs sigma) xs.
Proof.
  intros [Hp _]. unfold select_at. eapply Permutation_trans; [apply Permutation_map; exact Hp|].
  replace (map (fun k => nth k xs d) (seq 0 (length xs))) with xs; [apply Permutation_refl|].
  apply nth_ext with (d := d) (d' := d); [rewrite tab_len; reflexivity|]. intros k L. rewrite tab_nth by exact L. reflexivity.
Qed.
Lemma stable_sorted n key sigma : stable_order n key sigma -> forall i j, i < j < n -> (key (nth i sigma O) <= key (nth j sigma O))%N.
Proof. intros [_ Hs] i j L. specialize (Hs i j L). unfold before in Hs. lia. Qed.
Lemma stable_keeps_order n key sigma : stable_order n key sigma -> forall i j, i < j < n -> key (nth i sigma 0) = key (nth j sigma 0) -> nth i sigma 0 < nth j sigma 0.
Proof. intros [_ Hs] i j L E. specialize (Hs i j L). unfold before in Hs. lia. Qed.
