(** * Merkle trees on field elements: root, witnesses, verification *)
From Coq Require Import String List Arith NArith Bool Lia Ring.
From Verif Require Import Proc Alg Rep3 Poseidon2 Poseidon2Spec Poseidon2Mat Poseidon2Lin Poseidon2Wp Merkle MerkleSpec MerkleMem.
Import ListNotations.
Set Implicit Arguments.
Local Open Scope nat_scope.

(** ** Powers *)
Lemma pow_pos a k : 2 <= a -> 0 < a ^ k.
Proof. intros Ha. assert (a ^ k <> 0) by (apply Nat.pow_nonzero; lia). lia. Qed.
Lemma pow_gt a k : 2 <= a -> k < a ^ k.
Proof. intros Ha. apply Nat.pow_gt_lin_r. lia. Qed.
Lemma ilog_pow a k : 2 <= a -> forall f, k <= f -> ilog_ f a (a ^ k) = k.
Proof.
  intros Ha. induction k as [|k IH]; intros f Hf.
  - destruct f; [reflexivity|]. cbn [ilog_ Nat.pow]. rewrite (proj2 (Nat.ltb_lt 1 a)) by lia. reflexivity.
  - destruct f as [|f]; [lia|]. cbn [ilog_]. pose proof (@pow_pos a k Ha). rewrite (proj2 (Nat.ltb_ge (a ^ S k) a)) by (cbn; nia).
    cbn [Nat.pow]. rewrite (Nat.mul_comm a), Nat.div_mul by lia. rewrite IH by lia. reflexivity.
Qed.
Lemma is_power_pow a k : 2 <= a -> is_power a (a ^ k) = true.
Proof.
  intros Ha. unfold is_power, ilog. pose proof (@pow_pos a k Ha). pose proof (@pow_gt a k Ha).
  rewrite (proj2 (Nat.ltb_ge a 2)) by lia. destruct (Nat.eqb_spec (a ^ k) 0); [lia|]. cbn [orb]. rewrite ilog_pow by lia. apply Nat.eqb_refl.
Qed.
Lemma is_power_inv a n : is_power a n = true -> 2 <= a /\ exists k, n = a ^ k.
Proof.
  unfold is_power, ilog. destruct (Nat.ltb_spec a 2); [discriminate|]. destruct (Nat.eqb_spec n 0); [discriminate|]. cbn [orb]. intros E.
  split; [lia|]. eexists. apply Nat.eqb_eq. exact E.
Qed.

Local Open Scope grp_scope.
Section Tree.
  Context {F : Type} `{CRing F}.
  Add Ring FringM : (@cring_theory F _).

  (** ** The recursive tree hash level by level *)
  Lemma tree_root_ext (h : list F -> F) a k : forall l l', l = l' -> tree_root h a k l = tree_root h a k l'.
  Proof. intros l l' ->. reflexivity. Qed.
  Lemma tree_root_level (h : list F -> F) a k : (2 <= a)%nat -> forall l, length l = (a ^ Datatypes.S k)%nat ->
    tree_root h a (Datatypes.S k) l = tree_root h a k (map h (chunks a l)).
  Proof.
    intros Ha. induction k as [|k IH]; intros l E.
    - cbn [Nat.pow] in E. rewrite Nat.mul_1_r in E. assert (Ec : chunks a l = [l]).
      { rewrite (@chunks_S F a l 0) by lia. rewrite firstn_all2, skipn_all2 by lia. reflexivity. }
      rewrite Ec. cbn [tree_root map nth Nat.pow]. f_equal.
      apply (list_ext 0); [rewrite map_length, seq_length; lia|]. rewrite map_length, seq_length. intros j Hj.
      rewrite (nth_map_lt _ (seq 0 a) O) by (rewrite seq_length; exact Hj). rewrite nth_seq0 by exact Hj. rewrite Nat.mul_1_r.
      rewrite <- (Nat.add_0_r j) at 2. rewrite <- nth_skipn. destruct (skipn j l); reflexivity.
    - change (h (map (fun j => tree_root h a (Datatypes.S k) (firstn (a ^ Datatypes.S k) (skipn (j * a ^ Datatypes.S k) l))) (seq 0 a)) =
        h (map (fun j => tree_root h a k (firstn (a ^ k) (skipn (j * a ^ k) (map h (chunks a l))))) (seq 0 a))).
      f_equal. apply map_ext_in. intros j Hj. apply in_seq in Hj.
      assert (Hp : (a ^ Datatypes.S (Datatypes.S k) = a * a ^ Datatypes.S k)%nat) by reflexivity.
      assert (Hp1 : (a ^ Datatypes.S k = a * a ^ k)%nat) by reflexivity.
      assert (Hj' : (j * a ^ Datatypes.S k + a ^ Datatypes.S k <= length l)%nat).
      { rewrite E, Hp. assert (Datatypes.S j * a ^ Datatypes.S k <= a * a ^ Datatypes.S k)%nat by (apply Nat.mul_le_mono_r; lia). lia. }
      rewrite IH by (rewrite firstn_length, skipn_length; lia).
      apply tree_root_ext. rewrite skipn_map, firstn_map.
      rewrite (@chunks_skipn F a l (a ^ Datatypes.S k - j * a ^ k) (j * a ^ k)); [|lia|].
      + rewrite (@chunks_firstn F a _ (a ^ Datatypes.S k - j * a ^ k - a ^ k) (a ^ k)); [|lia|].
        * f_equal. f_equal. rewrite Hp1. f_equal; [lia|]. f_equal. lia.
        * rewrite skipn_length, E, Hp. rewrite Hp1 in *. nia.
      + rewrite E, Hp. rewrite Hp1 in *. nia.
  Qed.

  Variables (t : nat) (d : N) (p : pparams F).
  Hypothesis W : wf_params t p.
  Notation P := (poseidon2 t d p).
  Definition B (compress : bool) (c : list F) : list F := if compress then on_first (fun x => x + nth 0 c 0) (P c) else P c.
  Lemma P_length c : length c = t -> length (P c) = t.
  Proof. intros E. apply (permutation_spec d c W E). Qed.
  Lemma block_ok compress c : length c = t -> block t d p compress c = Some (B compress c) /\ length (B compress c) = t.
  Proof.
    intros E. pose proof (t_pos W) as Ht. unfold block, B. rewrite (proj1 (permutation_spec d c W E)). destruct compress.
    - rewrite (nth_error_nth' c 0) by lia. cbn [obind option_map]. split; [reflexivity|]. rewrite on_first_length. apply P_length. exact E.
    - split; [reflexivity|]. apply P_length. exact E.
  Qed.
  Lemma nth0_B compress c a : length c = a -> (a <= t)%nat -> nth 0 (B compress (c ++ repeat 0 (t - a))) 0 = hash compress t P c.
  Proof.
    intros E Ha. pose proof (t_pos W) as Ht. unfold hash, B. rewrite E. destruct compress; [|reflexivity].
    pose proof (@P_length (c ++ repeat 0 (t - a))) as L. rewrite app_length, E, repeat_length in L. specialize (L ltac:(lia)).
    destruct (P (c ++ repeat 0 (t - a))); [cbn in L; lia|reflexivity].
  Qed.
  Lemma firsts_hash compress a : (0 < a <= t)%nat -> forall m lv rest, length lv = (m * a)%nat ->
    map (fun q => nth (t * q) (each t (B compress) (padded 0 t a lv) ++ rest) 0) (seq 0 m) = map (hash compress t P) (chunks a lv).
  Proof.
    intros Ha. pose proof (t_pos W) as Ht. induction m as [|m IH]; intros lv rest E; [destruct lv; [reflexivity|discriminate]|].
    destruct (length_m lv m a E) as [L2 L1].
    assert (Lb : length (firstn a lv ++ repeat 0 (t - a)) = t) by (rewrite app_length, repeat_length; lia).
    assert (Lp : length (padded 0 t a (skipn a lv)) = (m * t)%nat) by (apply padded_length; lia).
    assert (LB : length (B compress (firstn a lv ++ repeat 0 (t - a))) = t) by (apply block_ok; exact Lb).
    rewrite (@padded_S F 0 t a lv m) by (lia || exact E).
    rewrite (@each_S F t (B compress) _ m) by (try exact Ht; rewrite app_length, Lb, Lp; reflexivity).
    rewrite firstn_app_len, skipn_app_len by exact Lb.
    rewrite (@chunks_S F a lv m) by (lia || exact E). cbn [seq map]. rewrite <- app_assoc. f_equal.
    - rewrite Nat.mul_0_r. rewrite app_nth1 by lia. apply nth0_B; [exact L1|lia].
    - rewrite <- (IH (skipn a lv) rest L2). rewrite <- seq_shift, map_map. apply map_ext. intros q.
      rewrite app_nth2 by (rewrite LB; nia). rewrite LB. f_equal. nia.
  Qed.

  (** one iteration *)
  Lemma level_step compress a k lv rest : (2 <= a <= t)%nat -> length lv = (a ^ Datatypes.S k)%nat ->
    exists l1 l2, on_blocks t (a ^ k) (block t d p compress) (padded 0 t a lv ++ rest) = Some l1 /\
      compact 0 t a (a ^ k / a) l1 = Some l2 /\
      match k with
      | O => nth_error l2 0 = Some (hash compress t P lv)
      | Datatypes.S k' => exists rest', l2 = padded 0 t a (map (hash compress t P) (chunks a lv)) ++ rest'
      end.
  Proof.
    intros Ha E. pose proof (t_pos W) as Ht. cbn [Nat.pow] in E.
    assert (Lp : length (padded 0 t a lv) = (a ^ k * t)%nat) by (apply padded_length; lia).
    pose proof (@firsts_hash compress a ltac:(lia) (a ^ k) lv rest ltac:(lia)) as FH.
    set (l1 := each t (B compress) (padded 0 t a lv) ++ rest) in *.
    assert (L1 : length l1 = (a ^ k * t + length rest)%nat).
    { unfold l1. rewrite app_length, (@each_length F t (B compress) _ (a ^ k)); [reflexivity|exact Ht|exact Lp|]. intros c Hc. apply block_ok. exact Hc. }
    exists l1.
    assert (Eb : on_blocks t (a ^ k) (block t d p compress) (padded 0 t a lv ++ rest) = Some l1).
    { apply (@on_blocks_ok F t (a ^ k) (block t d p compress) (B compress) (padded 0 t a lv) rest); [exact Ht|exact Lp|]. intros c Hc. apply block_ok. exact Hc. }
    destruct k as [|k'].
    - exists l1. split; [exact Eb|]. cbn [Nat.pow] in *. rewrite Nat.div_small by lia. split; [reflexivity|].
      cbn [seq map] in FH. rewrite Nat.mul_0_r in FH. rewrite (@chunks_S F a lv 0) in FH by lia. rewrite firstn_all2 in FH by lia. cbn [map] in FH.
      injection FH as Eh _. rewrite <- Eh. apply nth_error_nth'. rewrite L1. nia.
    - assert (Em : (a ^ Datatypes.S k' / a = a ^ k')%nat) by (cbn [Nat.pow]; rewrite Nat.mul_comm, Nat.div_mul by lia; reflexivity).
      rewrite Em. destruct (@compact_padded F 0 t a (a ^ k') l1) as (l2 & E2 & L2 & P2); [lia|lia|rewrite L1; cbn [Nat.pow]; lia|].
      exists l2. split; [exact Eb|]. split; [exact E2|]. exists (skipn (t * a ^ k') l2).
      rewrite <- (firstn_skipn (t * a ^ k') l2) at 1. f_equal. rewrite P2. f_equal. exact FH.
  Qed.
  Lemma map_hash_length (h : list F -> F) a k lv : (2 <= a)%nat -> length lv = (a ^ Datatypes.S k)%nat -> length (map h (chunks a lv)) = (a ^ k)%nat.
  Proof. intros Ha E. rewrite map_length. apply chunks_length; [lia|]. cbn [Nat.pow] in E. lia. Qed.
  Lemma tree_loop_ok compress a k : (2 <= a <= t)%nat -> forall fuel lv rest, length lv = (a ^ Datatypes.S k)%nat -> (k < fuel)%nat ->
    tree_loop t d p fuel compress a (a ^ Datatypes.S k) (padded 0 t a lv ++ rest) = Some (tree_root (hash compress t P) a (Datatypes.S k) lv).
  Proof.
    intros Ha. induction k as [|k IH]; intros fuel lv rest E Hf; (destruct fuel as [|fuel]; [lia|]); cbn [tree_loop].
    - destruct (@level_step compress a 0 lv rest Ha E) as (l1 & l2 & E1 & E2 & E3).
      rewrite (proj2 (Nat.leb_gt (a ^ 1) 1)) by (cbn; lia).
      replace (a ^ 1 mod a)%nat with O by (cbn [Nat.pow]; rewrite Nat.mul_comm, Nat.mod_mul by lia; reflexivity). cbn [Nat.eqb negb].
      replace (a ^ 1 / a)%nat with (a ^ 0)%nat by (cbn [Nat.pow]; rewrite Nat.mul_comm, Nat.div_mul by lia; reflexivity).
      rewrite E1. cbn [obind]. rewrite E2. cbn [obind]. rewrite tree_root_level by (lia || exact E).
      cbn [Nat.pow] in E. rewrite (@chunks_S F a lv 0) by lia. rewrite firstn_all2 by lia. cbn [map tree_root nth].
      destruct fuel; exact E3.
    - destruct (@level_step compress a (Datatypes.S k) lv rest Ha E) as (l1 & l2 & E1 & E2 & rest' & E3).
      assert (Hk : (0 < a ^ k)%nat) by (apply pow_pos; lia).
      rewrite (proj2 (Nat.leb_gt (a ^ Datatypes.S (Datatypes.S k)) 1)) by (cbn [Nat.pow]; nia).
      replace (a ^ Datatypes.S (Datatypes.S k) mod a)%nat with O by (cbn [Nat.pow]; rewrite (Nat.mul_comm a (a * a ^ k)), Nat.mod_mul by lia; reflexivity). cbn [Nat.eqb negb].
      replace (a ^ Datatypes.S (Datatypes.S k) / a)%nat with (a ^ Datatypes.S k)%nat by (cbn [Nat.pow]; rewrite (Nat.mul_comm a (a * a ^ k)), Nat.div_mul by lia; reflexivity).
      rewrite E1. cbn [obind]. rewrite E2. cbn [obind]. rewrite tree_root_level by (lia || exact E).
      subst l2. apply IH; [|lia]. apply map_hash_length; [lia|exact E].
  Qed.
  Lemma padded_compression_eq a k (l : list F) : (2 <= a <= t)%nat -> length l = (a ^ Datatypes.S k)%nat -> padded_compression 0 t a l = padded 0 t a l.
  Proof.
    intros Ha E. unfold padded_compression. destruct (Nat.eqb_spec t a) as [->|]; [|reflexivity]. symmetry. apply padded_id with (m := (a ^ k)%nat); [lia|]. cbn [Nat.pow] in E. lia.
  Qed.
  Lemma pow_S_gt a k : (2 <= a)%nat -> (k < a ^ Datatypes.S k)%nat.
  Proof. intros Ha. pose proof (@pow_gt a (Datatypes.S k) Ha). lia. Qed.
  Theorem sponge_root a k l : (2 <= a < t)%nat -> length l = (a ^ Datatypes.S k)%nat ->
    merkle_tree_sponge t d p a l = Some (tree_root (hash false t P) a (Datatypes.S k) l).
  Proof.
    intros Ha E. unfold merkle_tree_sponge. rewrite E, is_power_pow by lia. rewrite (proj2 (Nat.leb_gt t a)) by lia. cbn [orb negb].
    rewrite <- (app_nil_r (padded 0 t a l)). apply tree_loop_ok; [lia|exact E|apply pow_S_gt; lia].
  Qed.
  Theorem compression_root a k l : (2 <= a <= t)%nat -> length l = (a ^ Datatypes.S k)%nat ->
    merkle_tree_compression t d p a l = Some (tree_root (hash true t P) a (Datatypes.S k) l).
  Proof.
    intros Ha E. unfold merkle_tree_compression. rewrite E, is_power_pow by lia. rewrite (proj2 (Nat.ltb_ge t a)) by lia. cbn [orb negb].
    rewrite (@padded_compression_eq a k) by assumption.
    rewrite <- (app_nil_r (padded 0 t a l)). apply tree_loop_ok; [lia|exact E|apply pow_S_gt; lia].
  Qed.

  (** ** Witnesses *)
  Lemma padded_group a m : (0 < a <= t)%nat -> forall (lv rest : list F) q, length lv = (m * a)%nat -> (q < m)%nat ->
    firstn a (skipn (q * t) (padded 0 t a lv ++ rest)) = nth q (chunks a lv) [].
  Proof.
    intros Ha. induction m as [|m IH]; intros lv rest q E Hq; [lia|]. destruct (length_m lv m a E) as [L2 L1].
    assert (Lb : length (firstn a lv ++ repeat 0 (t - a)) = t) by (rewrite app_length, repeat_length; lia).
    rewrite (@padded_S F 0 t a lv m) by (lia || exact E). rewrite (@chunks_S F a lv m) by (lia || exact E). destruct q as [|q].
    - cbn [Nat.mul skipn nth]. rewrite <- !app_assoc. apply firstn_app_len. exact L1.
    - cbn [nth]. rewrite <- (IH (skipn a lv) rest q L2) by lia. f_equal. rewrite <- app_assoc.
      replace (Datatypes.S q * t)%nat with (t + q * t)%nat by lia. rewrite <- Lb at 1.
      generalize (firstn a lv ++ repeat 0 (t - a)) as b. generalize (padded 0 t a (skipn a lv) ++ rest) as r. clear. intros r b.
      induction b as [|x b IH]; [reflexivity|exact IH].
  Qed.
  Lemma nth_chunk a m : (0 < a)%nat -> forall (lv : list F) q j, length lv = (m * a)%nat -> (q < m)%nat -> (j < a)%nat -> nth j (nth q (chunks a lv) []) 0 = nth (q * a + j) lv 0.
  Proof.
    intros Ha. induction m as [|m IH]; intros lv q j E Hq Hj; [lia|]. destruct (length_m lv m a E) as [L2 L1].
    rewrite (@chunks_S F a lv m) by (lia || exact E). destruct q as [|q]; cbn [nth].
    - cbn [Nat.mul Nat.add]. rewrite <- (firstn_skipn a lv) at 2. rewrite app_nth1 by lia. reflexivity.
    - rewrite IH by (lia || exact L2). rewrite nth_skipn. f_equal. lia.
  Qed.
  Lemma witness_element_ok a m (lv rest : list F) i : (2 <= a <= t)%nat -> length lv = (m * a)%nat -> (i < m * a)%nat ->
    let w := witness_element t a i (padded 0 t a lv ++ rest) in
    (length (other w) = a - 1)%nat /\ position w = (i mod a)%nat /\ firstn (position w) (other w) ++ nth i lv 0 :: skipn (position w) (other w) = nth (i / a) (chunks a lv) [].
  Proof.
    intros Ha E Hi. cbv zeta. unfold witness_element. cbn [other position].
    assert (Hq : (i / a < m)%nat) by (apply Nat.div_lt_upper_bound; lia).
    rewrite (@padded_group a m) by (lia || assumption).
    set (g := nth (i / a) (chunks a lv) []).
    assert (Lg : length g = a).
    { apply (@chunks_each_length F a lv m); [lia|exact E|]. apply nth_In. rewrite (@chunks_length F a lv m) by (lia || exact E). exact Hq. }
    assert (Hp : (i mod a < a)%nat) by (apply Nat.mod_upper_bound; lia).
    pose proof (filter_removed g 0 (pos := i mod a) ltac:(lia)) as Fr. cbn [Nat.add] in Fr. rewrite Fr.
    assert (En : nth i lv 0 = nth (i mod a) g 0).
    { unfold g. rewrite (@nth_chunk a m) by (lia || assumption). f_equal. rewrite (Nat.div_mod_eq i a) at 1. lia. }
    rewrite En. split; [|split; [reflexivity|]].
    - rewrite app_length, firstn_length, skipn_length. lia.
    - apply firstn_insert. lia.
  Qed.
  Lemma nth_map_hash (h : list F -> F) a m (lv : list F) q : (0 < a)%nat -> length lv = (m * a)%nat -> (q < m)%nat -> nth q (map h (chunks a lv)) 0 = h (nth q (chunks a lv) []).
  Proof.
    intros Ha E Hq. rewrite (nth_indep _ 0 (h [])) by (rewrite map_length, (@chunks_length F a lv m) by assumption; exact Hq). apply map_nth.
  Qed.
  Lemma witness_loop_ok compress a k : (2 <= a <= t)%nat -> forall fuel lv rest i, length lv = (a ^ Datatypes.S k)%nat -> (k < fuel)%nat -> (i < a ^ Datatypes.S k)%nat ->
    exists ws, witness_loop t d p fuel compress a (a ^ Datatypes.S k) i (padded 0 t a lv ++ rest) = Some (tree_root (hash compress t P) a (Datatypes.S k) lv, ws) /\
      length ws = Datatypes.S k /\ path_wf a ws /\ path_index a ws = i /\ path_root (hash compress t P) (nth i lv 0) ws = tree_root (hash compress t P) a (Datatypes.S k) lv.
  Proof.
    intros Ha. induction k as [|k IH]; intros fuel lv rest i E Hf Hi; (destruct fuel as [|fuel]; [lia|]); cbn [witness_loop].
    - destruct (@level_step compress a 0 lv rest Ha E) as (l1 & l2 & E1 & E2 & E3).
      rewrite (proj2 (Nat.leb_gt (a ^ 1) 1)) by (cbn; lia).
      replace (a ^ 1 mod a)%nat with O by (cbn [Nat.pow]; rewrite Nat.mul_comm, Nat.mod_mul by lia; reflexivity). cbn [Nat.eqb negb].
      replace (a ^ 1 / a)%nat with (a ^ 0)%nat by (cbn [Nat.pow]; rewrite Nat.mul_comm, Nat.div_mul by lia; reflexivity).
      rewrite E1. cbn [obind]. rewrite E2. cbn [obind]. rewrite tree_root_level by (lia || exact E).
      destruct (@witness_element_ok a 1 lv rest i Ha) as (W1 & W2 & W3); [cbn [Nat.pow] in E; lia|cbn [Nat.pow] in Hi; lia|].
      set (w := witness_element t a i (padded 0 t a lv ++ rest)) in *.
      cbn [Nat.pow] in E, Hi. rewrite (@chunks_S F a lv 0) in * by lia. rewrite firstn_all2 in * by lia. cbn [map tree_root nth].
      assert (Ei : (i / a = 0)%nat) by (apply Nat.div_small; lia). rewrite Ei in *. cbn [nth] in W3.
      assert (Em : (i mod a = i)%nat) by (apply Nat.mod_small; lia).
      exists [w]. split.
      + destruct fuel; cbn [witness_loop Nat.pow Nat.leb Nat.eqb negb]; rewrite E3; reflexivity.
      + split; [reflexivity|]. split; [constructor; [split; [exact W1|lia]|constructor]|]. split; [cbn; lia|]. cbn [path_root]. rewrite W3, firstn_all2 by lia. reflexivity.
    - destruct (@level_step compress a (Datatypes.S k) lv rest Ha E) as (l1 & l2 & E1 & E2 & rest' & E3).
      assert (Hk : (0 < a ^ k)%nat) by (apply pow_pos; lia).
      rewrite (proj2 (Nat.leb_gt (a ^ Datatypes.S (Datatypes.S k)) 1)) by (cbn [Nat.pow]; nia).
      replace (a ^ Datatypes.S (Datatypes.S k) mod a)%nat with O by (cbn [Nat.pow]; rewrite (Nat.mul_comm a (a * a ^ k)), Nat.mod_mul by lia; reflexivity). cbn [Nat.eqb negb].
      replace (a ^ Datatypes.S (Datatypes.S k) / a)%nat with (a ^ Datatypes.S k)%nat by (cbn [Nat.pow]; rewrite (Nat.mul_comm a (a * a ^ k)), Nat.div_mul by lia; reflexivity).
      rewrite E1. cbn [obind]. rewrite E2. cbn [obind]. rewrite tree_root_level by (lia || exact E).
      assert (Hp : (a ^ Datatypes.S (Datatypes.S k) = a ^ Datatypes.S k * a)%nat) by (cbn [Nat.pow]; lia).
      rewrite Hp in Hi, E.
      destruct (@witness_element_ok a (a ^ Datatypes.S k) lv rest i Ha E Hi) as (W1 & W2 & W3).
      set (w := witness_element t a i (padded 0 t a lv ++ rest)) in *. subst l2.
      assert (Hi' : (i / a < a ^ Datatypes.S k)%nat) by (apply Nat.div_lt_upper_bound; lia).
      destruct (IH fuel (map (hash compress t P) (chunks a lv)) rest' (i / a)%nat) as (ws & V1 & V2 & V3 & V4 & V5); [apply map_hash_length; [lia|rewrite E; exact (eq_sym Hp)]|lia|exact Hi'|].
      rewrite V1. exists (w :: ws). split; [reflexivity|]. split; [cbn; lia|]. split; [constructor; [split; [exact W1|rewrite W2; apply Nat.mod_upper_bound; lia]|exact V3]|].
      split; [cbn [path_index]; rewrite V4, W2; rewrite (Nat.div_mod_eq i a) at 3; lia|].
      cbn [path_root]. rewrite W3. rewrite <- V5. rewrite (@nth_map_hash (hash compress t P) a (a ^ Datatypes.S k)) by (lia || assumption). reflexivity.
  Qed.

  (** ** Verification *)
  Context {FE : F -> F -> bool}.
  Hypothesis FE_spec : forall x y, FE x y = true <-> x = y.
  Lemma path_state_ok arity (leaf : F) w : (arity <= t)%nat -> (length (other w) = arity - 1)%nat -> (position w < arity)%nat ->
    path_state t arity leaf w = (firstn (position w) (other w) ++ leaf :: skipn (position w) (other w)) ++ repeat 0 (t - arity).
  Proof.
    intros Ha E Hp. set (pos := position w) in *.
    assert (Lf : length (firstn pos (other w)) = pos) by (rewrite firstn_length; lia).
    assert (Li : length (firstn pos (other w) ++ leaf :: skipn pos (other w)) = arity) by (rewrite app_length, Lf; cbn [length]; rewrite skipn_length; lia).
    apply (list_ext 0); [unfold path_state; rewrite map_length, seq_length, app_length, Li, repeat_length; lia|].
    unfold path_state. rewrite map_length, seq_length. intros i Hi. rewrite (nth_map_lt _ (seq 0 t) O) by (rewrite seq_length; exact Hi). rewrite nth_seq0 by exact Hi.
    fold pos. destruct (Nat.ltb_spec i arity) as [Hia|Hia].
    - rewrite app_nth1 by lia. destruct (Nat.compare_spec i pos) as [->|Hlt|Hgt].
      + rewrite app_nth2 by lia. rewrite Lf, Nat.sub_diag. reflexivity.
      + rewrite app_nth1 by lia. rewrite <- (firstn_skipn pos (other w)) at 1. rewrite app_nth1 by lia. reflexivity.
      + rewrite app_nth2 by lia. rewrite Lf. destruct (i - pos)%nat as [|q] eqn:Eq; [lia|]. cbn [nth]. rewrite nth_skipn. f_equal. lia.
    - rewrite app_nth2 by lia. symmetry. apply nth_repeat.
  Qed.
  Lemma verify_loop_wf compress arity root : (0 < arity <= t)%nat -> forall ws leaf, path_wf arity ws ->
    verify_loop (FE := FE) t d p compress arity root leaf ws = Some (FE root (path_root (hash compress t P) leaf ws)).
  Proof.
    intros Ha. induction ws as [|w ws IH]; intros leaf Hw; [reflexivity|]. inversion Hw as [|? ? [W1 W2] W3]; subst. cbn [verify_loop path_root].
    rewrite W1, Nat.eqb_refl. cbn [negb]. rewrite (proj2 (Nat.leb_gt arity (position w))) by lia.
    rewrite (@path_state_ok arity leaf w) by (lia || assumption).
    set (c := firstn (position w) (other w) ++ leaf :: skipn (position w) (other w)).
    assert (Lc : length c = arity) by (unfold c; rewrite app_length, firstn_length; cbn [length]; rewrite skipn_length; lia).
    assert (Ls : length (c ++ repeat 0 (t - arity)) = t) by (rewrite app_length, repeat_length; lia).
    destruct (@block_ok compress _ Ls) as [B1 B2]. rewrite B1. cbn [obind]. rewrite (nth_error_nth' _ 0) by (rewrite B2; lia). cbn [obind].
    rewrite nth0_B by (lia || exact Lc). apply IH. exact W3.
  Qed.
  Lemma verify_loop_true compress arity root : (0 < arity <= t)%nat -> forall ws leaf,
    verify_loop (FE := FE) t d p compress arity root leaf ws = Some true -> path_wf arity ws.
  Proof.
    intros Ha. induction ws as [|w ws IH]; intros leaf Hv; [constructor|]. cbn [verify_loop] in Hv.
    destruct (Nat.eqb_spec (length (other w)) (arity - 1)) as [W1|]; [|discriminate]. cbn [negb] in Hv.
    destruct (Nat.leb_spec arity (position w)) as [|W2]; [discriminate|]. constructor; [split; assumption|].
    destruct (block t d p compress (path_state t arity leaf w)) as [s|]; [|discriminate]. cbn [obind] in Hv.
    destruct (nth_error s 0) as [x|]; [|discriminate]. cbn [obind] in Hv. exact (IH x Hv).
  Qed.
  Definition verify (compress : bool) := if compress then verify_merkle_path_compression (FE := FE) t d p else verify_merkle_path_sponge (FE := FE) t d p.
  Definition fits (compress : bool) (arity : nat) : Prop := if compress then (arity <= t)%nat else (arity < t)%nat.
  Lemma verify_cons compress root leaf w ws : fits compress (length (other w) + 1) ->
    verify compress root leaf (w :: ws) = verify_loop (FE := FE) t d p compress (length (other w) + 1) root leaf (w :: ws).
  Proof.
    unfold fits, verify. destruct compress; intros Hf.
    - unfold verify_merkle_path_compression. cbn [nth_error obind]. rewrite (proj2 (Nat.ltb_ge t (length (other w) + 1))) by lia. reflexivity.
    - unfold verify_merkle_path_sponge. cbn [nth_error obind]. rewrite (proj2 (Nat.leb_gt t (length (other w) + 1))) by lia. reflexivity.
  Qed.
  (** what is accepted: exactly the non-empty paths of one arity (given by the first element) that fold to the root *)
  Theorem verify_iff compress root leaf ws : verify compress root leaf ws = Some true <->
    exists w0 ws', ws = w0 :: ws' /\ let arity := (length (other w0) + 1)%nat in
      fits compress arity /\ path_wf arity ws /\ path_root (hash compress t P) leaf ws = root.
  Proof.
    split.
    - intros Hv. destruct ws as [|w ws]; [destruct compress; discriminate|]. exists w, ws. split; [reflexivity|]. cbv zeta.
      assert (Hf : fits compress (length (other w) + 1)).
      { unfold verify, fits in *. destruct compress.
        - unfold verify_merkle_path_compression in Hv. cbn [nth_error obind] in Hv. destruct (Nat.ltb_spec t (length (other w) + 1)); [discriminate|lia].
        - unfold verify_merkle_path_sponge in Hv. cbn [nth_error obind] in Hv. destruct (Nat.leb_spec t (length (other w) + 1)); [discriminate|lia]. }
      rewrite verify_cons in Hv by exact Hf. split; [exact Hf|].
      assert (Ha : (0 < length (other w) + 1 <= t)%nat) by (unfold fits in Hf; destruct compress; lia).
      pose proof (@verify_loop_true _ _ _ Ha _ _ Hv) as Hw. split; [exact Hw|].
      rewrite (@verify_loop_wf _ _ _ Ha) in Hv by exact Hw. injection Hv as Hv. symmetry. apply FE_spec. exact Hv.
    - intros (w0 & ws' & -> & Hf & Hw & Hr). rewrite verify_cons by exact Hf.
      assert (Ha : (0 < length (other w0) + 1 <= t)%nat) by (unfold fits in Hf; destruct compress; lia).
      rewrite (@verify_loop_wf _ _ _ Ha) by exact Hw. rewrite Hr. f_equal. apply FE_spec. reflexivity.
  Qed.
  Definition merkle_with_witness (compress : bool) :=
    if compress then merkle_tree_compression_with_witness t d p else merkle_tree_sponge_with_witness t d p.
  Lemma with_witness_loop compress a k l i : (2 <= a)%nat -> fits compress a -> length l = (a ^ Datatypes.S k)%nat ->
    merkle_with_witness compress a l i = witness_loop t d p (length l) compress a (a ^ Datatypes.S k) i (padded 0 t a l ++ []).
  Proof.
    intros Ha Hf E. unfold merkle_with_witness, fits in *. rewrite app_nil_r. destruct compress.
    - unfold merkle_tree_compression_with_witness. rewrite E, is_power_pow by lia. rewrite (proj2 (Nat.ltb_ge t a)) by lia. cbn [orb negb].
      rewrite (@padded_compression_eq a k) by (lia || assumption). reflexivity.
    - unfold merkle_tree_sponge_with_witness. rewrite E, is_power_pow by lia. rewrite (proj2 (Nat.leb_gt t a)) by lia. reflexivity.
  Qed.
  (** every witness verifies *)
  Theorem witness_verifies compress a k l i : (2 <= a)%nat -> fits compress a -> length l = (a ^ Datatypes.S k)%nat -> (i < length l)%nat ->
    exists ws, merkle_with_witness compress a l i = Some (tree_root (hash compress t P) a (Datatypes.S k) l, ws) /\
      length ws = Datatypes.S k /\ path_wf a ws /\ path_index a ws = i /\
      verify compress (tree_root (hash compress t P) a (Datatypes.S k) l) (nth i l 0) ws = Some true.
  Proof.
    intros Ha Hf E Hi. assert (Hat : (2 <= a <= t)%nat) by (unfold fits in Hf; destruct compress; lia).
    destruct (@witness_loop_ok compress a k Hat (length l) l [] i E) as (ws & V1 & V2 & V3 & V4 & V5); [rewrite E; apply pow_S_gt; lia|rewrite <- E; exact Hi|].
    exists ws. rewrite (@with_witness_loop compress a k l i Ha Hf E). split; [exact V1|]. split; [exact V2|]. split; [exact V3|]. split; [exact V4|].
    apply verify_iff. destruct ws as [|w ws]; [discriminate|]. exists w, ws. split; [reflexivity|]. cbv zeta.
    inversion V3 as [|? ? [W1 W2] W3]; subst. replace (length (other w) + 1)%nat with a by lia. split; [exact Hf|]. split; [exact V3|exact V5].
  Qed.
  (** accepted paths of the arity and depth of the tree lead to the leaf, unless two different inputs of the hash collide *)
  Lemma path_sound (h : list F -> F) a k : (2 <= a)%nat -> forall l ws leaf, length l = (a ^ k)%nat -> length ws = k -> path_wf a ws ->
    path_root h leaf ws = tree_root h a k l ->
    leaf = nth (path_index a ws) l 0 \/ exists c c', c <> c' /\ length c = a /\ length c' = a /\ h c = h c'.
  Proof.
    intros Ha. induction k as [|k IH]; intros l ws leaf E Ew Hw Hr.
    - destruct ws; [|discriminate]. left. exact Hr.
    - destruct ws as [|w ws]; [discriminate|]. inversion Hw as [|? ? [W1 W2] W3]; subst. cbn [path_root path_index] in *.
      assert (Hb : (path_index a ws < a ^ k)%nat).
      { cbn in Ew. injection Ew as <-. clear -W3 Ha. induction W3 as [|w ws [_ Hp] W3 IH]; cbn [path_index length Nat.pow]; [lia|].
        assert (a * Datatypes.S (path_index a ws) <= a * a ^ length ws)%nat by (apply Nat.mul_le_mono_l; lia). lia. }
      rewrite tree_root_level in Hr by (lia || exact E).
      destruct (IH (map h (chunks a l)) ws (h (firstn (position w) (other w) ++ leaf :: skipn (position w) (other w)))) as [El|C]; [|cbn in Ew; lia|exact W3|exact Hr| |right; exact C].
      + apply map_hash_length; [lia|exact E].
      + assert (E' : length l = (a ^ k * a)%nat) by (cbn [Nat.pow] in E; lia).
        rewrite (@nth_map_hash h a (a ^ k)) in El by (lia || assumption).
        set (c := firstn (position w) (other w) ++ leaf :: skipn (position w) (other w)) in *. set (c' := nth (path_index a ws) (chunks a l) []) in *.
        assert (Lf : length (firstn (position w) (other w)) = position w) by (rewrite firstn_length; lia).
        assert (Lc : length c = a) by (unfold c; rewrite app_length, Lf; cbn [length]; rewrite skipn_length; lia).
        assert (Lc' : length c' = a).
        { apply (@chunks_each_length F a l (a ^ k)); [lia|exact E'|]. apply nth_In. rewrite (@chunks_length F a l (a ^ k)) by (lia || exact E'). exact Hb. }
        destruct (list_eq_dec (fun x y => match FE x y as b return FE x y = b -> {x = y} + {x <> y} with true => fun e => left (proj1 (FE_spec x y) e) | false => fun e => right (fun E0 => Bool.diff_false_true (eq_trans (eq_sym e) (proj2 (FE_spec x y) E0))) end eq_refl) c c') as [Ec|Ec].
        * left. transitivity (nth (position w) c 0).
          -- unfold c. rewrite app_nth2 by lia. rewrite Lf, Nat.sub_diag. reflexivity.
          -- rewrite Ec. unfold c'. rewrite (@nth_chunk a (a ^ k)) by (lia || assumption). f_equal. lia.
        * right. exists c, c'. auto.
  Qed.
  Theorem verify_sound compress a k l leaf ws : (2 <= a)%nat -> length l = (a ^ Datatypes.S k)%nat -> length ws = Datatypes.S k -> Forall (fun w => length (other w) = a - 1)%nat ws ->
    verify compress (tree_root (hash compress t P) a (Datatypes.S k) l) leaf ws = Some true ->
    leaf = nth (path_index a ws) l 0 \/ exists c c', c <> c' /\ length c = a /\ length c' = a /\ hash compress t P c = hash compress t P c'.
  Proof.
    intros Ha E Ew Hw Hv. apply verify_iff in Hv. destruct Hv as (w0 & ws' & -> & Hf & Hp & Hr).
    inversion Hw as [|? ? W1 W2]; subst. replace (length (other w0) + 1)%nat with a in * by lia.
    exact (@path_sound _ a (Datatypes.S k) Ha _ _ _ E Ew Hp Hr).
  Qed.

  (** ** What is not checked *)
  (** a node of the tree is accepted as a leaf, with a shorter path *)
  Theorem inner_node_verifies compress a k l i : (2 <= a)%nat -> fits compress a -> length l = (a ^ Datatypes.S (Datatypes.S k))%nat -> (i < a ^ Datatypes.S k)%nat ->
    exists ws, length ws = Datatypes.S k /\
      verify compress (tree_root (hash compress t P) a (Datatypes.S (Datatypes.S k)) l) (hash compress t P (firstn a (skipn (i * a) l))) ws = Some true.
  Proof.
    intros Ha Hf E Hi. rewrite tree_root_level by (lia || exact E).
    assert (E' : length l = (a ^ Datatypes.S k * a)%nat) by (rewrite E; cbn [Nat.pow]; lia).
    destruct (@witness_verifies compress a k (map (hash compress t P) (chunks a l)) i Ha Hf) as (ws & _ & V2 & _ & _ & V5).
    - apply map_hash_length; [lia|exact E].
    - rewrite (@map_hash_length _ a (Datatypes.S k)) by (lia || exact E). exact Hi.
    - exists ws. split; [exact V2|]. replace (hash compress t P (firstn a (skipn (i * a) l))) with (nth i (map (hash compress t P) (chunks a l)) 0); [exact V5|].
      rewrite (@nth_map_hash _ a (a ^ Datatypes.S k)) by (lia || assumption). f_equal.
      clear -Ha E' Hi. revert Hi l E'. generalize (a ^ Datatypes.S k)%nat as m. revert i. induction i as [|i IH]; intros m Hi l E'.
      + destruct m as [|m]; [lia|]. rewrite (@chunks_S F a l m) by (lia || exact E'). reflexivity.
      + destruct m as [|m]; [lia|]. rewrite (@chunks_S F a l m) by (lia || exact E'). cbn [nth]. destruct (length_m l m a E') as [L2 L1]. rewrite (IH m) by (lia || exact L2).
        f_equal. cbn [Nat.mul]. generalize (i * a)%nat as q. clear. intros q. revert l. induction a as [|a IH]; intros l; [reflexivity|]. destruct l; [destruct q; reflexivity|apply IH].
  Qed.
  (** the zero padding of the state is accepted as a leaf of a tree of smaller arity *)
  Theorem padding_verifies compress a l : (2 <= a)%nat -> fits compress (a + 1) -> length l = a ->
    verify compress (tree_root (hash compress t P) a 1 l) 0 [mkWit l a] = Some true.
  Proof.
    intros Ha Hf E. apply verify_iff. exists (mkWit l a), []. split; [reflexivity|]. cbn [other]. rewrite E. cbv zeta. split; [exact Hf|].
    split; [constructor; [cbn [other position]; lia|constructor]|]. cbn [path_root other position].
    rewrite tree_root_level by (lia || (cbn [Nat.pow]; lia)). rewrite (@chunks_S F a l 0) by lia. rewrite !firstn_all2, !skipn_all2 by lia. cbn [chunks map tree_root nth].
    unfold hash. rewrite app_length, E. cbn [length].
    assert (Hat : (a + 1 <= t)%nat) by (unfold fits in Hf; destruct compress; lia).
    replace ((l ++ [0]) ++ repeat 0 (t - (a + 1))) with (l ++ repeat 0 (t - a)); [reflexivity|].
    rewrite <- app_assoc. f_equal. replace (t - a)%nat with (Datatypes.S (t - (a + 1))) by lia. reflexivity.
  Qed.
  Lemma is_power_1 a : (2 <= a)%nat -> is_power a 1 = true.
  Proof. intros Ha. exact (@is_power_pow a 0 Ha). Qed.
  Theorem sponge_single_panics a x : (2 <= a < t)%nat -> merkle_tree_sponge t d p a [x] = None.
  Proof.
    intros Ha. unfold merkle_tree_sponge. cbn [length]. rewrite is_power_1 by lia. rewrite (proj2 (Nat.leb_gt t a)) by lia. cbn [orb negb tree_loop Nat.leb].
    unfold padded, chunks_exact. cbn [length]. rewrite Nat.div_small by lia. reflexivity.
  Qed.
  Theorem compression_single a x : (2 <= a <= t)%nat -> merkle_tree_compression t d p a [x] = if (t =? a)%nat then Some x else None.
  Proof.
    intros Ha. unfold merkle_tree_compression. cbn [length]. rewrite is_power_1 by lia. rewrite (proj2 (Nat.ltb_ge t a)) by lia. cbn [orb negb tree_loop Nat.leb].
    unfold padded_compression. destruct (t =? a)%nat; [reflexivity|]. unfold padded, chunks_exact. cbn [length]. rewrite Nat.div_small by lia. reflexivity.
  Qed.
  Theorem verify_empty_panics compress root leaf : verify compress root leaf [] = None.
  Proof. destruct compress; reflexivity. Qed.
End Tree.
