(** * Merkle trees: the in-place operations *)
From Coq Require Import String List Arith NArith Bool Lia.
From Verif Require Import Proc Alg Rep3 Poseidon2 Poseidon2Lin Merkle.
Import ListNotations.
Set Implicit Arguments.
Local Open Scope nat_scope.

Section Chunks.
  Context {A : Type}.
  Lemma chunks_length t (l : list A) m : 0 < t -> length l = m * t -> length (chunks t l) = m.
  Proof.
    intros Ht. revert l. induction m as [|m IH]; intros l E; [destruct l; [reflexivity|discriminate]|].
    rewrite (@chunks_S A t l m) by assumption. cbn [length]. rewrite IH; [reflexivity|]. rewrite skipn_length. rewrite E. cbn. lia.
  Qed.
  Lemma chunks_each_length t (l : list A) m c : 0 < t -> length l = m * t -> In c (chunks t l) -> length c = t.
  Proof.
    intros Ht. revert l. induction m as [|m IH]; intros l E Hc; [destruct l; [destruct Hc|discriminate]|].
    rewrite (@chunks_S A t l m) in Hc by assumption. destruct (length_m l m t E) as [L2 L1]. destruct Hc as [<-|Hc]; [exact L1|]. apply (IH _ L2 Hc).
  Qed.
  Lemma chunks_app t (c l : list A) m : 0 < t -> length c = t -> length l = m * t -> chunks t (c ++ l) = c :: chunks t l.
  Proof.
    intros Ht Ec El. rewrite (@chunks_S A t (c ++ l) m) by (try assumption; rewrite app_length, Ec, El; reflexivity).
    rewrite firstn_app_len, skipn_app_len by assumption. reflexivity.
  Qed.
  Lemma chunks_skipn t (l : list A) m k : 0 < t -> length l = (k + m) * t -> skipn k (chunks t l) = chunks t (skipn (k * t) l).
  Proof.
    intros Ht. revert l. induction k as [|k IH]; intros l E; [reflexivity|].
    rewrite (@chunks_S A t l (k + m)) by assumption. cbn [skipn]. destruct (length_m l (k + m) t E) as [L2 L1]. rewrite IH by exact L2.
    f_equal. cbn [Nat.mul]. clear -l. generalize (k * t). intros q. revert l. induction t as [|t IH]; intros l; cbn; [reflexivity|]. destruct l; [destruct q; reflexivity|apply IH].
  Qed.
  Lemma chunks_firstn t (l : list A) m k : 0 < t -> length l = (k + m) * t -> firstn k (chunks t l) = chunks t (firstn (k * t) l).
  Proof.
    intros Ht. revert l. induction k as [|k IH]; intros l E; [reflexivity|].
    rewrite (@chunks_S A t l (k + m)) by assumption. cbn [firstn]. destruct (length_m l (k + m) t E) as [L2 L1]. rewrite IH by exact L2.
    rewrite (@chunks_S A t (firstn (S k * t) l) k); [|exact Ht|rewrite firstn_length, E; cbn; lia].
    rewrite firstn_firstn. replace (Nat.min t (S k * t)) with t by (cbn; lia). f_equal. f_equal. rewrite firstn_skipn_comm. f_equal.
  Qed.
  Lemma chunks_exact_eq t (l : list A) m : 0 < t -> length l = m * t -> chunks_exact t l = chunks t l.
  Proof.
    intros Ht E. unfold chunks_exact. rewrite E, Nat.div_mul by lia. apply firstn_all2. rewrite (chunks_length l m Ht E). lia.
  Qed.
End Chunks.

Section Mem.
  Context {A : Type} (z : A).
  Lemma set_at_ok l k (x : A) : k < length l -> exists l', set_at l k x = Some l' /\ length l' = length l /\
    forall j, nth j l' z = if j =? k then x else nth j l z.
  Proof.
    intros Hk. unfold set_at. rewrite (proj2 (Nat.ltb_lt _ _) Hk). eexists. split; [reflexivity|].
    assert (E : length (firstn k l) = k) by (rewrite firstn_length; lia).
    split; [rewrite app_length, E; cbn [length]; rewrite skipn_length; lia|].
    intros j. destruct (Nat.eqb_spec j k) as [->|Hj].
    - rewrite app_nth2 by lia. rewrite E, Nat.sub_diag. reflexivity.
    - destruct (Nat.lt_ge_cases j k) as [Hl|Hg].
      + rewrite app_nth1 by lia. rewrite <- (firstn_skipn k l) at 2. rewrite app_nth1 by lia. reflexivity.
      + rewrite app_nth2 by lia. rewrite E. destruct (j - k) as [|q] eqn:Eq; [lia|]. cbn [nth]. rewrite nth_skipn. f_equal. lia.
  Qed.
  Lemma copy_at_ok l k r : k < length l -> r < length l -> exists l', copy_at l k r = Some l' /\ length l' = length l /\
    forall j, nth j l' z = if j =? k then nth r l z else nth j l z.
  Proof.
    intros Hk Hr. unfold copy_at. rewrite (nth_error_nth' l z Hr). cbn [obind]. apply set_at_ok. exact Hk.
  Qed.
  Lemma fold_seq_ok {X} (f : X -> nat -> option X) (Inv : nat -> X -> Prop) n : forall s x,
    (forall k x, s <= k < s + n -> Inv k x -> exists x', f x k = Some x' /\ Inv (S k) x') -> Inv s x ->
    exists x', fold_opt f (seq s n) x = Some x' /\ Inv (s + n) x'.
  Proof.
    induction n as [|n IH]; intros s x Hf Hx; cbn [seq fold_opt].
    - exists x. rewrite Nat.add_0_r. auto.
    - destruct (Hf s x ltac:(lia) Hx) as (x1 & E1 & H1). rewrite E1. cbn [obind].
      destruct (IH (S s) x1) as (x' & E & H'); [intros k y Hk; apply Hf; lia|exact H1|]. exists x'. split; [exact E|]. replace (s + S n) with (S s + n) by lia. exact H'.
  Qed.
  (** the content after the compaction *)
  Definition compacted (t a : nat) (l : list A) (k : nat) : A := if k mod t <? a then nth (t * (a * (k / t) + k mod t)) l z else z.
  Lemma compact_nth t a m l : 2 <= a -> a <= t -> t * (a * m) <= length l ->
    exists l', compact z t a m l = Some l' /\ length l' = length l /\
      forall k, nth k l' z = if k <? t * m then compacted t a l k else nth k l z.
  Proof.
    intros Ha Hat Hl.
    set (Inv := fun q (l' : list A) => length l' = length l /\ forall k, nth k l' z = if k <? q then compacted t a l k else nth k l z).
    assert (Hm : forall i j, j < t -> (t * i + j) mod t = j) by (intros i j Hj; rewrite Nat.mul_comm, Nat.add_comm, Nat.mod_add by lia; apply Nat.mod_small; exact Hj).
    assert (Hd : forall i j, j < t -> (t * i + j) / t = i) by (intros i j Hj; rewrite Nat.mul_comm, Nat.add_comm, Nat.div_add by lia; rewrite Nat.div_small by exact Hj; reflexivity).
    assert (St : forall q l' x l'', Inv q l' -> x = compacted t a l q -> length l'' = length l' -> (forall j, nth j l'' z = if j =? q then x else nth j l' z) -> Inv (S q) l'').
    { intros q l' x l'' [I1 I2] Hx L N. split; [congruence|]. intros k. rewrite N. destruct (Nat.eqb_spec k q) as [->|Hk].
      - rewrite (proj2 (Nat.ltb_lt q (S q))) by lia. exact Hx.
      - rewrite I2. destruct (Nat.ltb_spec k q), (Nat.ltb_spec k (S q)); try lia; reflexivity. }
    enough (exists l', compact z t a m l = Some l' /\ Inv (t * m) l') as (l' & E & I1 & I2) by (exists l'; auto).
    unfold compact.
    destruct (@fold_seq_ok (list A) (fun l i =>
      obind (fold_opt (fun l j => copy_at l (t * i + j) (t * a * i + j * t)) (seq 0 a) l) (fun l =>
      fold_opt (fun l j => set_at l (t * i + j) z) (seq a (t - a)) l)) (fun i => Inv (t * i)) m 0 l) as (l' & E & I').
    - intros i x Hi Hx.
      assert (Hb : t * i + t <= t * m) by (assert (t * S i <= t * m) by (apply Nat.mul_le_mono_l; lia); lia).
      assert (Hc : t * m <= t * (a * m)) by (apply Nat.mul_le_mono_l; nia).
      destruct (@fold_seq_ok (list A) (fun l j => copy_at l (t * i + j) (t * a * i + j * t)) (fun j => Inv (t * i + j)) a 0 x) as (x1 & E1 & H1).
      + intros j y Hj Hy. pose proof Hy as [Y1 Y2].
        assert (Hr : t * a * i + j * t < length l).
        { apply Nat.lt_le_trans with (t * (a * m)); [|exact Hl]. replace (t * a * i + j * t) with (t * (a * i + j)) by lia. apply Nat.mul_lt_mono_pos_l; [lia|].
          assert (a * S i <= a * m) by (apply Nat.mul_le_mono_l; lia). lia. }
        destruct (@copy_at_ok y (t * i + j) (t * a * i + j * t)) as (y' & E & L & N); [lia|lia|].
        exists y'. split; [exact E|]. rewrite <- plus_n_Sm. apply (St _ _ _ _ Hy) with (3 := N); [|exact L].
        rewrite Y2. unfold compacted. rewrite Hm, Hd by lia. rewrite (proj2 (Nat.ltb_lt j a)) by lia.
        replace (t * (a * i + j)) with (t * a * i + j * t) by lia.
        destruct (Nat.ltb_spec (t * a * i + j * t) (t * i + j)) as [Hlt|_]; [|reflexivity]. exfalso. nia.
      + rewrite Nat.add_0_r. exact Hx.
      + rewrite E1. cbn [obind].
        destruct (@fold_seq_ok (list A) (fun l j => set_at l (t * i + j) z) (fun j => Inv (t * i + j)) (t - a) a x1) as (x2 & E2 & H2).
        * intros j y Hj Hy. pose proof Hy as [Y1 Y2].
          destruct (@set_at_ok y (t * i + j) z) as (y' & E & L & N); [lia|].
          exists y'. split; [exact E|]. rewrite <- plus_n_Sm. apply (St _ _ _ _ Hy) with (3 := N); [|exact L].
          unfold compacted. rewrite Hm, Hd by lia. rewrite (proj2 (Nat.ltb_ge j a)) by lia. reflexivity.
        * exact H1.
        * exists x2. split; [exact E2|]. replace (t * S i) with (t * i + (a + (t - a))) by lia. exact H2.
    - split; [reflexivity|]. intros k. rewrite Nat.mul_0_r. reflexivity.
    - exists l'. split; [exact E|exact I'].
  Qed.

  (** *** Padding *)
  Lemma padded_nil t a : padded z t a [] = [].
  Proof. unfold padded, chunks_exact. cbn. rewrite firstn_nil. reflexivity. Qed.
  Lemma padded_eq t a l m : 0 < a -> length l = m * a -> padded z t a l = concat (map (fun c => c ++ repeat z (t - length c)) (chunks a l)).
  Proof. intros Ha E. unfold padded. rewrite (chunks_exact_eq l m Ha E). reflexivity. Qed.
  Lemma padded_S t a l m : 0 < a -> length l = S m * a -> padded z t a l = (firstn a l ++ repeat z (t - a)) ++ padded z t a (skipn a l).
  Proof.
    intros Ha E. destruct (length_m l m a E) as [L2 L1]. rewrite (@padded_eq t a l (S m)), (@padded_eq t a (skipn a l) m) by assumption.
    rewrite (@chunks_S A a l m) by assumption. cbn [map concat]. rewrite L1. reflexivity.
  Qed.
  Lemma padded_length t a l m : 0 < a -> a <= t -> length l = m * a -> length (padded z t a l) = m * t.
  Proof.
    intros Ha Hat. revert l. induction m as [|m IH]; intros l E; [destruct l; [rewrite padded_nil; reflexivity|discriminate]|].
    destruct (length_m l m a E) as [L2 L1]. rewrite (@padded_S t a l m), !app_length, L1, repeat_length, IH by assumption. cbn. lia.
  Qed.
  Lemma padded_id a l m : 0 < a -> length l = m * a -> padded z a a l = l.
  Proof.
    intros Ha. revert l. induction m as [|m IH]; intros l E; [destruct l; [apply padded_nil|discriminate]|].
    destruct (length_m l m a E) as [L2 L1]. rewrite (@padded_S a a l m), IH, Nat.sub_diag by assumption. cbn [repeat]. rewrite app_nil_r. apply firstn_skipn.
  Qed.
  Lemma padded_nth t a : 0 < a -> a <= t -> forall m l k, length l = m * a -> k < m * t ->
    nth k (padded z t a l) z = if k mod t <? a then nth (a * (k / t) + k mod t) l z else z.
  Proof.
    intros Ha Hat. induction m as [|m IH]; intros l k E Hk; [lia|].
    destruct (length_m l m a E) as [L2 L1]. rewrite (@padded_S t a l m) by assumption.
    assert (Lb : length (firstn a l ++ repeat z (t - a)) = t) by (rewrite app_length, repeat_length; lia).
    destruct (Nat.lt_ge_cases k t) as [Hl|Hg].
    - rewrite app_nth1 by lia. rewrite Nat.mod_small, Nat.div_small by exact Hl. rewrite Nat.mul_0_r, Nat.add_0_l.
      destruct (Nat.ltb_spec k a) as [H1|H1].
      + rewrite app_nth1 by lia. rewrite <- (firstn_skipn a l) at 2. rewrite app_nth1 by lia. reflexivity.
      + rewrite app_nth2 by lia. apply nth_repeat.
    - rewrite app_nth2 by lia. rewrite Lb. rewrite IH by (try exact L2; cbn in Hk; lia).
      assert (Em : k mod t = (k - t) mod t) by (rewrite <- (Nat.mod_add (k - t) 1 t) by lia; f_equal; lia).
      assert (Ed : k / t = (k - t) / t + 1) by (rewrite <- (Nat.div_add (k - t) 1 t) by lia; f_equal; lia).
      rewrite Em, Ed. destruct ((k - t) mod t <? a); [|reflexivity]. rewrite nth_skipn. f_equal. lia.
  Qed.
  Lemma compact_padded t a m l : 2 <= a -> a <= t -> t * (a * m) <= length l ->
    exists l', compact z t a m l = Some l' /\ length l' = length l /\
      firstn (t * m) l' = padded z t a (map (fun q => nth (t * q) l z) (seq 0 (a * m))).
  Proof.
    intros Ha Hat Hl. destruct (@compact_nth t a m l Ha Hat Hl) as (l' & E & L & N). exists l'. split; [exact E|]. split; [exact L|].
    assert (Lm : length (map (fun q => nth (t * q) l z) (seq 0 (a * m))) = m * a) by (rewrite map_length, seq_length; lia).
    assert (Hmt : t * m <= length l) by (apply Nat.le_trans with (t * (a * m)); [apply Nat.mul_le_mono_l; nia|exact Hl]).
    apply (list_ext z).
    - rewrite firstn_length, (@padded_length t a _ m) by (lia || exact Lm). lia.
    - rewrite firstn_length. intros k Hk. rewrite (@padded_nth t a) with (m := m) by (lia || exact Lm).
      transitivity (nth k l' z); [rewrite <- (firstn_skipn (t * m) l') at 2; rewrite app_nth1 by (rewrite firstn_length; lia); reflexivity|].
      rewrite N. rewrite (proj2 (Nat.ltb_lt k (t * m))) by lia. unfold compacted.
      destruct (Nat.ltb_spec (k mod t) a) as [Hka|]; [|reflexivity].
      assert (Hq : k / t < m) by (apply Nat.div_lt_upper_bound; lia).
      assert (Hb : a * (k / t) + k mod t < a * m) by (assert (a * S (k / t) <= a * m) by (apply Nat.mul_le_mono_l; lia); lia).
      rewrite (nth_map_lt _ (seq 0 (a * m)) O) by (rewrite seq_length; exact Hb). rewrite nth_seq0 by exact Hb. reflexivity.
  Qed.
  Lemma on_blocks_ok t len (f : list A -> option (list A)) g l rest : 0 < t -> length l = len * t ->
    (forall c, length c = t -> f c = Some (g c)) -> on_blocks t len f (l ++ rest) = Some (each t g l ++ rest).
  Proof.
    intros Ht E Hf. unfold on_blocks.
    replace (t * Nat.min len (length (l ++ rest) / t)) with (length l).
    - rewrite firstn_app_len, skipn_app_len by reflexivity. rewrite (@each_opt_some A t f g l len) by assumption. reflexivity.
    - rewrite Nat.min_l; [lia|]. rewrite app_length, E. apply Nat.div_le_lower_bound; lia.
  Qed.
End Mem.

(** a list with the element at one position removed *)
Lemma filter_skip {A} (g : list A) : forall s pos, pos < s -> map snd (filter (fun jx => negb (fst jx =? pos)) (List.combine (seq s (length g)) g)) = g.
Proof.
  induction g as [|x g IH]; intros s pos Hp; [reflexivity|]. cbn. destruct (Nat.eqb_spec s pos); [lia|]. cbn. f_equal. apply IH. lia.
Qed.
Lemma filter_removed {A} (g : list A) : forall s pos, pos < length g ->
  map snd (filter (fun jx => negb (fst jx =? s + pos)) (List.combine (seq s (length g)) g)) = firstn pos g ++ skipn (S pos) g.
Proof.
  induction g as [|x g IH]; intros s pos Hp; [cbn in Hp; lia|]. cbn [length seq List.combine filter fst]. destruct pos as [|pos].
  - rewrite Nat.add_0_r, Nat.eqb_refl. cbn. apply filter_skip. lia.
  - destruct (Nat.eqb_spec s (s + S pos)); [lia|]. cbn [negb map snd firstn skipn app]. f_equal. rewrite <- plus_n_Sm. apply (IH (S s) pos). cbn in Hp. lia.
Qed.
Lemma firstn_insert {A} (g : list A) pos d : pos < length g -> firstn pos (firstn pos g ++ skipn (S pos) g) ++ nth pos g d :: skipn pos (firstn pos g ++ skipn (S pos) g) = g.
Proof.
  intros Hp. assert (E : length (firstn pos g) = pos) by (rewrite firstn_length; lia).
  rewrite firstn_app_len, skipn_app_len by exact E.
  rewrite <- (firstn_skipn pos g) at 4. f_equal. clear E. revert g Hp. induction pos as [|pos IH]; intros [|x g] Hp; cbn in Hp; try lia; [reflexivity|]. cbn [nth]. rewrite IH by lia. reflexivity.
Qed.
