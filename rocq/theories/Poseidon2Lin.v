(** * Poseidon2: chunks and the linear layers on families of shares *)
From Coq Require Import String List Arith NArith Lia Bool Ring.
From Verif Require Import Proc Alg Rep3Net NNet Rep3 Shamir Poseidon2 Poseidon2Spec.
Import ListNotations.
Set Implicit Arguments.
Local Open Scope grp_scope.

Lemma nth_map_lt {A B} (f : A -> B) l k d d' : (k < length l)%nat -> nth k (map f l) d' = f (nth k l d).
Proof. revert k. induction l as [|x l IH]; intros [|k] E; cbn in *; try lia; auto. apply IH. lia. Qed.
Lemma nth_seq0 k n d : (k < n)%nat -> nth k (seq 0 n) d = k.
Proof. intros. rewrite seq_nth by assumption. reflexivity. Qed.
Lemma length_m {A} (l : list A) m t : length l = (Datatypes.S m * t)%nat -> length (skipn t l) = (m * t)%nat /\ length (firstn t l) = t.
Proof. intros E. rewrite skipn_length, firstn_length, E. cbn [Nat.mul]. lia. Qed.

Lemma firstn_app_len {A} (a b : list A) t : length a = t -> firstn t (a ++ b) = a.
Proof. intros <-. rewrite firstn_app, Nat.sub_diag, firstn_O, app_nil_r. apply firstn_all. Qed.
Lemma skipn_app_len {A} (a b : list A) t : length a = t -> skipn t (a ++ b) = b.
Proof. intros <-. rewrite skipn_app, Nat.sub_diag, skipn_all. reflexivity. Qed.

(** ** Chunks *)
Section Chunks.
  Context {A : Type}.
  Lemma chunks_S t (l : list A) m : (0 < t)%nat -> length l = (Datatypes.S m * t)%nat ->
    chunks t l = firstn t l :: chunks t (skipn t l).
  Proof.
    intros Ht E. unfold chunks. cut (forall f f' (l : list A), (length l <= f)%nat -> (length l <= f')%nat -> chunks_ f t l = chunks_ f' t l).
    - intros Hf. assert (length l = Datatypes.S (length l - 1)) as El by (rewrite E; cbn [Nat.mul]; lia).
      rewrite El. cbn [chunks_]. destruct l as [|x l]; [cbn in El; lia|]. f_equal. apply Hf.
      + rewrite skipn_length. lia.
      + lia.
    - induction f as [|f IH]; intros f' l0 H1 H2.
      + destruct l0; cbn in H1; [|lia]. destruct f'; reflexivity.
      + destruct f' as [|f']; [destruct l0; cbn in H2; [reflexivity|lia]|]. cbn [chunks_]. destruct l0 as [|x l0]; [reflexivity|].
        f_equal. apply IH; rewrite skipn_length; cbn [length] in *; lia.
  Qed.
  Lemma chunks_nil t : chunks t (@nil A) = [].
  Proof. reflexivity. Qed.
  Lemma each_S t f (l : list A) m : (0 < t)%nat -> length l = (Datatypes.S m * t)%nat ->
    each t f l = f (firstn t l) ++ each t f (skipn t l).
  Proof. intros. unfold each. rewrite (@chunks_S t l m) by assumption. reflexivity. Qed.
  Lemma each_length t f (l : list A) m : (0 < t)%nat -> length l = (m * t)%nat ->
    (forall c, length c = t -> length (f c) = t) -> length (each t f l) = (m * t)%nat.
  Proof.
    intros Ht E Hf. revert l E. induction m as [|m IH]; intros l E.
    - destruct l; [reflexivity|discriminate].
    - rewrite (@each_S t f l m), app_length by assumption. destruct (length_m l m t E) as [L1 L2].
      rewrite Hf, IH by assumption. reflexivity.
  Qed.
  Lemma each_each t f g (l : list A) m : (0 < t)%nat -> length l = (m * t)%nat ->
    (forall c, length c = t -> length (g c) = t) -> each t f (each t g l) = each t (fun c => f (g c)) l.
  Proof.
    intros Ht E Hg. revert l E. induction m as [|m IH]; intros l E.
    - destruct l; [reflexivity|discriminate].
    - destruct (length_m l m t E) as [L1 L2].
      rewrite (@each_S t (fun c => f (g c)) l m) by assumption. rewrite <- IH by assumption.
      rewrite (@each_S t g l m) by assumption.
      assert (Lg : length (g (firstn t l)) = t) by auto.
      rewrite (@each_S t f (g (firstn t l) ++ each t g (skipn t l)) m); [|assumption|].
      + rewrite firstn_app_len, skipn_app_len by assumption. reflexivity.
      + rewrite app_length, Lg, (@each_length t g (skipn t l) m) by assumption. reflexivity.
  Qed.
  Lemma each_ext t f g (l : list A) m : (0 < t)%nat -> length l = (m * t)%nat ->
    (forall c, length c = t -> f c = g c) -> each t f l = each t g l.
  Proof.
    intros Ht E Hf. revert l E. induction m as [|m IH]; intros l E.
    - destruct l; [reflexivity|discriminate].
    - destruct (length_m l m t E) as [L1 L2]. rewrite !(@each_S t _ l m) by assumption. rewrite Hf, IH by assumption. reflexivity.
  Qed.
  Lemma each_id t (l : list A) m : (0 < t)%nat -> length l = (m * t)%nat -> each t (fun c => c) l = l.
  Proof.
    intros Ht E. revert l E. induction m as [|m IH]; intros l E.
    - destruct l; [reflexivity|discriminate].
    - destruct (length_m l m t E) as [L1 L2]. rewrite !(@each_S t _ l m) by assumption. rewrite IH by assumption. apply firstn_skipn.
  Qed.
  Lemma each_opt_some t f g (l : list A) m : (0 < t)%nat -> length l = (m * t)%nat ->
    (forall c, length c = t -> f c = Some (g c)) -> each_opt t f l = Some (each t g l).
  Proof.
    intros Ht E Hf. unfold each_opt, each. revert l E. induction m as [|m IH]; intros l E.
    - destruct l; [reflexivity|discriminate].
    - destruct (length_m l m t E) as [L1 L2]. rewrite (@chunks_S t l m) by assumption. cbn [map_opt map concat].
      rewrite Hf by assumption. specialize (IH _ L1). destruct (map_opt f (chunks t (skipn t l))); cbn in *; congruence.
  Qed.
  Lemma firsts_each z t (l : list A) m : (0 < t)%nat -> length l = (m * t)%nat ->
    firsts z t l = each t (fun c => [nth 0 c z]) l.
  Proof. intros. unfold firsts, each. induction (chunks t l) as [|c cs IH]; cbn; [reflexivity|]. rewrite IH. reflexivity. Qed.
  Lemma firsts_length z t (l : list A) m : (0 < t)%nat -> length l = (m * t)%nat -> length (firsts z t l) = m.
  Proof.
    intros Ht E. unfold firsts. rewrite map_length. revert l E. induction m as [|m IH]; intros l E.
    - destruct l; [reflexivity|discriminate].
    - destruct (length_m l m t E) as [L1 L2]. rewrite (@chunks_S t l m) by assumption. cbn [length]. rewrite IH by assumption. reflexivity.
  Qed.
  Lemma firsts_S z t (l : list A) m : (0 < t)%nat -> length l = (Datatypes.S m * t)%nat ->
    firsts z t l = nth 0 (firstn t l) z :: firsts z t (skipn t l).
  Proof. intros. unfold firsts. rewrite (@chunks_S t l m) by assumption. reflexivity. Qed.
  Lemma set_firsts_S t (l : list A) r vec m : (0 < t)%nat -> length l = (Datatypes.S m * t)%nat ->
    set_firsts t l (r :: vec) = on_first (fun _ => r) (firstn t l) ++ set_firsts t (skipn t l) vec.
  Proof. intros. unfold set_firsts. rewrite (@chunks_S t l m) by assumption. reflexivity. Qed.
  Lemma on_first_length f (l : list A) : length (on_first f l) = length l.
  Proof. destruct l; reflexivity. Qed.
  (** writing back images of the first elements *)
  Lemma set_firsts_map z t g (l : list A) m : (0 < t)%nat -> length l = (m * t)%nat ->
    set_firsts t l (map g (firsts z t l)) = each t (on_first g) l.
  Proof.
    intros Ht E. revert l E. induction m as [|m IH]; intros l E.
    - destruct l; [reflexivity|discriminate].
    - destruct (length_m l m t E) as [L1 L2]. rewrite (@firsts_S z t l m) by assumption. cbn [map].
      rewrite (@set_firsts_S t l _ _ m), IH, (@each_S t (on_first g) l m) by assumption. f_equal.
      destruct (firstn t l); reflexivity.
  Qed.
  Lemma each_map t g (l : list A) m : (0 < t)%nat -> length l = (m * t)%nat -> each t (map g) l = map g l.
  Proof.
    intros Ht E. revert l E. induction m as [|m IH]; intros l E.
    - destruct l; [reflexivity|discriminate].
    - destruct (length_m l m t E) as [L1 L2]. rewrite (@each_S t (map g) l m), IH, <- map_app, firstn_skipn by assumption. reflexivity.
  Qed.
End Chunks.

(** ** Families of vectors: [l i] is the vector of the party [i], [xs] the vector of secrets *)
Section GVec.
  Context {I : Type} (mem : I -> Prop).
  Definition gvec {A B} (z : A) (z' : B) (R : (I -> A) -> B -> Prop) (l : I -> list A) (xs : list B) : Prop :=
    (forall i, mem i -> length (l i) = length xs) /\
    forall k, (k < length xs)%nat -> R (fun i => nth k (l i) z) (nth k xs z').
  Definition rext {A B} (R : (I -> A) -> B -> Prop) : Prop := forall a b x, (forall i, mem i -> a i = b i) -> R a x -> R b x.
  Section One.
    Context {A B : Type} (z : A) (z' : B) (R : (I -> A) -> B -> Prop) (Rx : rext R).
    Notation gvec := (gvec z z' R).
    Lemma gvec_ext l l' xs : (forall i, mem i -> l i = l' i) -> gvec l xs -> gvec l' xs.
    Proof.
      intros E [G1 G2]. split.
      - intros i Hi. rewrite <- E by assumption. auto.
      - intros k Hk. eapply Rx; [|apply G2; exact Hk]. intros i Hi. cbn. rewrite E by assumption. reflexivity.
    Qed.
    Lemma gvec_nil : gvec (fun _ => []) [].
    Proof. split; [reflexivity|]. cbn. intros. lia. Qed.
    Lemma gvec_app l l' xs xs' : gvec l xs -> gvec l' xs' -> gvec (fun i => l i ++ l' i) (xs ++ xs').
    Proof.
      intros [L1 L2] [K1 K2]. split.
      - intros i Hi. rewrite !app_length. rewrite L1, K1 by assumption. reflexivity.
      - intros k Hk. rewrite app_length in Hk. destruct (Nat.lt_ge_cases k (length xs)) as [E|E].
        + rewrite app_nth1 by assumption. eapply Rx; [|apply L2; exact E]. intros i Hi. cbn. rewrite app_nth1; [reflexivity|]. rewrite L1 by assumption. exact E.
        + rewrite app_nth2 by assumption. eapply Rx; [|apply (K2 (k - length xs)%nat); lia]. intros i Hi. cbn.
          rewrite app_nth2; rewrite L1 by assumption; [reflexivity|exact E].
    Qed.
    Lemma gvec_cons h l x xs : R h x -> gvec l xs -> gvec (fun i => h i :: l i) (x :: xs).
    Proof.
      intros Hh [L1 L2]. split.
      - intros i Hi. cbn. rewrite L1 by assumption. reflexivity.
      - intros [|k] Hk; cbn in *; [exact Hh|]. apply L2. lia.
    Qed.
    Lemma gvec_firstn n l xs : gvec l xs -> gvec (fun i => firstn n (l i)) (firstn n xs).
    Proof.
      intros [L1 L2]. split.
      - intros i Hi. rewrite !firstn_length, L1 by assumption. reflexivity.
      - intros k Hk. rewrite firstn_length in Hk.
        assert (E : forall {C} (l : list C) d, nth k (firstn n l) d = nth k l d).
        { intros C l0 d. rewrite <- (firstn_skipn n l0) at 2. destruct (Nat.lt_ge_cases k (length (firstn n l0))) as [E|E].
          - rewrite app_nth1 by assumption. reflexivity.
          - rewrite app_nth2 by assumption. rewrite firstn_length in E. rewrite (nth_overflow (firstn n l0)) by (rewrite firstn_length; lia).
            rewrite nth_overflow; [reflexivity|]. rewrite skipn_length, firstn_length. lia. }
        rewrite E. eapply Rx; [|apply L2; lia]. intros i Hi. cbn. rewrite E. reflexivity.
    Qed.
    Lemma nth_skipn {C} n k (l : list C) d : nth k (skipn n l) d = nth (n + k) l d.
    Proof. revert l. induction n as [|n IH]; intros [|x l]; cbn; auto. destruct k; reflexivity. Qed.
    Lemma gvec_skipn n l xs : gvec l xs -> gvec (fun i => skipn n (l i)) (skipn n xs).
    Proof.
      intros [L1 L2]. split.
      - intros i Hi. rewrite !skipn_length, L1 by assumption. reflexivity.
      - intros k Hk. rewrite skipn_length in Hk. rewrite nth_skipn. eapply Rx; [|apply (L2 (n + k)%nat); lia].
        intros i Hi. cbn. rewrite nth_skipn. reflexivity.
    Qed.
    Lemma gvec_tab n (f : I -> nat -> A) (g : nat -> B) : (forall k, (k < n)%nat -> R (fun i => f i k) (g k)) ->
      gvec (fun i => map (f i) (seq 0 n)) (map g (seq 0 n)).
    Proof.
      intros Hf. split.
      - intros i Hi. rewrite !map_length. reflexivity.
      - intros k Hk. rewrite map_length, seq_length in Hk. rewrite (nth_map_lt g (seq 0 n) O) by (rewrite seq_length; exact Hk).
        rewrite nth_seq0 by exact Hk. eapply Rx; [|apply Hf; exact Hk]. intros i Hi. cbn.
        rewrite (nth_map_lt (f i) (seq 0 n) O) by (rewrite seq_length; exact Hk). rewrite nth_seq0 by exact Hk. reflexivity.
    Qed.
    Lemma gvec_first l xs : (0 < length xs)%nat -> gvec l xs -> R (fun i => nth 0 (l i) z) (nth 0 xs z').
    Proof. intros E [_ G]. apply G. exact E. Qed.
    Lemma gvec_on_first (f : I -> A -> A) g l xs : (forall a x, R a x -> R (fun i => f i (a i)) (g x)) ->
      gvec l xs -> gvec (fun i => on_first (f i) (l i)) (on_first g xs).
    Proof.
      intros Hf [L1 L2]. split.
      - intros i Hi. rewrite !on_first_length. auto.
      - intros k Hk. rewrite on_first_length in Hk. destruct xs as [|x xs]; [cbn in Hk; lia|]. destruct k as [|k]; cbn [on_first nth].
        + eapply Rx; [|apply Hf; apply (L2 0%nat); cbn; lia]. intros i Hi. cbn. specialize (L1 i Hi). destruct (l i); [discriminate|reflexivity].
        + eapply Rx; [|apply (L2 (Datatypes.S k)); exact Hk]. intros i Hi. cbn. destruct (l i); reflexivity.
    Qed.
    Lemma gvec_on_first' h y l xs : R h y -> gvec l xs -> gvec (fun i => on_first (fun _ => h i) (l i)) (on_first (fun _ => y) xs).
    Proof. intros Hh. apply gvec_on_first. intros. exact Hh. Qed.
  End One.
  Lemma gvec_map {A B A' B'} (z : A) (z' : B) (y : A') (y' : B') (R : (I -> A) -> B -> Prop) (R' : (I -> A') -> B' -> Prop) (f : I -> A -> A') (g : B -> B') l xs :
    rext R' -> (forall a x, R a x -> R' (fun i => f i (a i)) (g x)) ->
    gvec z z' R l xs -> gvec y y' R' (fun i => map (f i) (l i)) (map g xs).
  Proof.
    intros Rx Hf [L1 L2]. split.
    - intros i Hi. rewrite !map_length. auto.
    - intros k Hk. rewrite map_length in Hk. rewrite (nth_map_lt g xs z') by exact Hk. eapply Rx; [|apply Hf; apply L2; exact Hk].
      intros i Hi. cbn. rewrite (nth_map_lt (f i) (l i) z); [reflexivity|]. rewrite L1 by assumption. exact Hk.
  Qed.
  (** with public constants *)
  Lemma gvec_map2_pub {A B C} (z : A) (z' : B) (zc : C) (R : (I -> A) -> B -> Prop) (f : I -> A -> C -> A) (g : B -> C -> B) l xs cs :
    rext R -> (forall a x c, R a x -> R (fun i => f i (a i) c) (g x c)) ->
    gvec z z' R l xs -> gvec z z' R (fun i => map2 (f i) (l i) cs) (map2 g xs cs).
  Proof.
    intros Rx Hf [L1 L2]. split.
    - intros i Hi. rewrite !map2_length, L1 by assumption. reflexivity.
    - intros k Hk. rewrite map2_length in Hk. rewrite (@map2_nth _ _ _ g xs cs k z' zc) by lia.
      eapply Rx; [|apply Hf; apply L2; lia]. intros i Hi. cbn. rewrite (@map2_nth _ _ _ (f i) (l i) cs k z zc); [reflexivity| |lia].
      rewrite L1 by assumption. lia.
  Qed.
  Lemma gvec_map2 {A B A' B' A2 B2} (z : A) (z' : B) (y : A') (y' : B') (w : A2) (w' : B2) (R : (I -> A) -> B -> Prop) (R' : (I -> A') -> B' -> Prop) (R2 : (I -> A2) -> B2 -> Prop) (f : I -> A -> A' -> A2) (g : B -> B' -> B2) l l' xs xs' :
    rext R2 -> (forall a x a' x', R a x -> R' a' x' -> R2 (fun i => f i (a i) (a' i)) (g x x')) ->
    gvec z z' R l xs -> gvec y y' R' l' xs' -> gvec w w' R2 (fun i => map2 (f i) (l i) (l' i)) (map2 g xs xs').
  Proof.
    intros Rx Hf [L1 L2] [K1 K2]. split.
    - intros i Hi. rewrite !map2_length, L1, K1 by assumption. reflexivity.
    - intros k Hk. rewrite map2_length in Hk. rewrite (@map2_nth _ _ _ g xs xs' k z' y') by lia.
      eapply Rx; [|apply Hf; [apply (L2 k); lia|apply (K2 k); lia]]. intros i Hi. cbn.
      rewrite (@map2_nth _ _ _ (f i) (l i) (l' i) k z y); [reflexivity|rewrite L1 by assumption; lia|rewrite K1 by assumption; lia].
  Qed.
  Lemma gvec_each {A B A' B'} (z : A) (z' : B) (y : A') (y' : B') (R : (I -> A) -> B -> Prop) (R' : (I -> A') -> B' -> Prop) t (f : I -> list A -> list A') (g : list B -> list B') m : (0 < t)%nat -> rext R -> rext R' ->
    (forall l xs, length xs = t -> gvec z z' R l xs -> gvec y y' R' (fun i => f i (l i)) (g xs)) ->
    forall l xs, length xs = (m * t)%nat -> gvec z z' R l xs ->
    gvec y y' R' (fun i => concat (map (f i) (chunks t (l i)))) (concat (map g (chunks t xs))).
  Proof.
    intros Ht Rx Rx' Hf. induction m as [|m IH]; intros l xs E G.
    - destruct xs; [|discriminate]. cbn. eapply gvec_ext with (l := fun _ => []); [exact Rx'| |apply gvec_nil].
      intros i Hi. destruct G as [G _]. specialize (G i Hi). destruct (l i); [reflexivity|discriminate].
    - destruct (length_m xs m t E) as [L1 L2]. rewrite (@chunks_S B t xs m) by assumption. cbn [map concat].
      eapply gvec_ext with (l := fun i => f i (firstn t (l i)) ++ concat (map (f i) (chunks t (skipn t (l i))))); [exact Rx'| |].
      + intros i Hi. rewrite (@chunks_S A t (l i) m); [reflexivity|assumption|]. destruct G as [G _]. rewrite G by assumption. exact E.
      + apply gvec_app; [exact Rx'| |].
        * apply (Hf (fun i => firstn t (l i))); [exact L2|]. apply gvec_firstn; assumption.
        * apply (IH (fun i => skipn t (l i))); [exact L1|]. apply gvec_skipn; assumption.
  Qed.
  Lemma gvec_firsts {A B} (z : A) (z' : B) (R : (I -> A) -> B -> Prop) t m l xs : (0 < t)%nat -> rext R -> length xs = (m * t)%nat ->
    gvec z z' R l xs -> gvec z z' R (fun i => firsts z t (l i)) (firsts z' t xs).
  Proof.
    intros Ht Rx E G. rewrite (@firsts_each B z' t xs m) by assumption.
    eapply gvec_ext with (l := fun i => each t (fun c => [nth 0 c z]) (l i)); [exact Rx| |].
    - intros i Hi. symmetry. apply (@firsts_each A z t (l i) m); [assumption|]. destruct G as [G _]. rewrite G by assumption. exact E.
    - unfold each. apply gvec_each with (z := z) (z' := z') (R := R) (m := m) (f := fun _ c => [nth 0 c z]); try assumption.
      intros l0 xs0 E0 G0. apply gvec_cons; [|apply gvec_nil]. apply gvec_first; [lia|exact G0].
  Qed.
  Lemma gvec_set_firsts {A B} (z : A) (z' : B) (R : (I -> A) -> B -> Prop) t m : (0 < t)%nat -> rext R -> forall l xs v ys, length xs = (m * t)%nat -> length ys = m ->
    gvec z z' R l xs -> gvec z z' R v ys -> gvec z z' R (fun i => set_firsts t (l i) (v i)) (set_firsts t xs ys).
  Proof.
    intros Ht Rx. induction m as [|m IH]; intros l xs v ys E Ey G Gv.
    - destruct xs; [|discriminate]. eapply gvec_ext with (l := fun _ => []); [exact Rx| |apply gvec_nil].
      intros i Hi. destruct G as [G _]. specialize (G i Hi). destruct (l i); [reflexivity|discriminate].
    - destruct (length_m xs m t E) as [L1 L2]. destruct ys as [|y ys]; [discriminate|]. rewrite (@set_firsts_S B t xs y ys m) by assumption.
      eapply gvec_ext with (l := fun i => on_first (fun _ => nth 0 (v i) z) (firstn t (l i)) ++ set_firsts t (skipn t (l i)) (skipn 1 (v i))); [exact Rx| |].
      + intros i Hi. destruct Gv as [Gv _]. specialize (Gv i Hi). destruct (v i) as [|r vec]; [discriminate|]. cbn [nth skipn].
        symmetry. apply (@set_firsts_S A t (l i) r vec m); [assumption|]. destruct G as [G _]. rewrite G by assumption. exact E.
      + apply gvec_app; [exact Rx| |].
        * apply (@gvec_on_first' A B z z' R Rx (fun i => nth 0 (v i) z) y (fun i => firstn t (l i)) (firstn t xs)).
          -- apply (@gvec_first A B z z' R v (y :: ys)); [cbn; lia|exact Gv].
          -- apply gvec_firstn; assumption.
        * apply (IH (fun i => skipn t (l i)) (skipn t xs) (fun i => skipn 1 (v i)) ys); [exact L1|injection Ey as Ey; exact Ey| |].
          -- apply gvec_skipn; assumption.
          -- apply (@gvec_skipn A B z z' R Rx 1 v (y :: ys)). exact Gv.
  Qed.

  (** *** Linear layers *)
  Section Lin.
    Context {A F : Type} {CR : CRing F} (z : A) (add : A -> A -> A) (scale : A -> F -> A) (sum : list A -> A) (R : (I -> A) -> F -> Prop).
    Hypothesis Rx : rext R.
    Hypothesis Radd : forall a b x y, R a x -> R b y -> R (fun i => add (a i) (b i)) (x + y).
    Hypothesis Rscale : forall a x c, R a x -> R (fun i => scale (a i) c) (rmul x c).
    Notation G := (gvec z 0 R).
    Definition pm4 := matmul_m4 (0 : F) gadd.
    Lemma m4_ok l xs : length xs = 4%nat -> G l xs -> G (fun i => matmul_m4 z add (l i)) (pm4 xs).
    Proof.
      intros E [_ L2]. rewrite E in L2.
      pose proof (L2 0%nat ltac:(lia)) as R0. pose proof (L2 1%nat ltac:(lia)) as R1. pose proof (L2 2%nat ltac:(lia)) as R2. pose proof (L2 3%nat ltac:(lia)) as R3.
      clear L2. unfold pm4, matmul_m4, dbl. repeat (apply gvec_cons; [|]); [| | | |apply gvec_nil];
      repeat (first [assumption | apply (@Radd (fun i => _) (fun i => _))]).
    Qed.
    Definition pext (t : nat) (l : list F) : list F := match ext_p t l with Some l => l | None => [] end.
    Lemma fold_add_ok n : forall k (f : I -> nat -> A) (g : nat -> F) a x, R a x -> (forall j, (k <= j < k + n)%nat -> R (fun i => f i j) (g j)) ->
      R (fun i => fold_left (fun acc j => add acc (f i j)) (seq k n) (a i)) (fold_left (fun acc j => acc + g j) (seq k n) x).
    Proof.
      induction n as [|n IH]; intros k f g a x Ha Hf; cbn [seq fold_left]; [exact Ha|].
      apply (IH (Datatypes.S k) f g (fun i => add (a i) (f i k))); [|intros; apply Hf; lia].
      apply Radd; [exact Ha|]. apply Hf. lia.
    Qed.
    Lemma blocks_ok t m l xs : t = (m * 4)%nat -> (0 < m)%nat -> length xs = t -> G l xs ->
      G (fun i => matmul_blocks z add t (l i)) (matmul_blocks 0 gadd t xs).
    Proof.
      intros Et Hm E GL.
      assert (GI : G (fun i => concat (map (matmul_m4 z add) (chunks 4 (l i)))) (concat (map pm4 (chunks 4 xs)))).
      { apply gvec_each with (z := z) (z' := (0 : F)) (R := R) (m := m) (f := fun _ => matmul_m4 z add); try assumption; [lia|exact m4_ok|lia]. }
      assert (EI : length (concat (map pm4 (chunks 4 xs))) = t).
      { change (concat (map pm4 (chunks 4 xs))) with (each 4 pm4 xs). rewrite (@each_length F 4 pm4 xs m); [lia|lia|lia|reflexivity]. }
      destruct GI as [_ GI]. rewrite EI in GI.
      unfold matmul_blocks. cbv zeta. fold pm4.
      apply (@gvec_tab A F z 0 R Rx t (fun i k => add (nth k (concat (map (matmul_m4 z add) (chunks 4 (l i)))) z) _)).
      intros k Hk. apply Radd; [apply GI; exact Hk|].
      assert (Hm4 : (k mod 4 < 4)%nat) by (apply Nat.mod_upper_bound; lia).
      apply (@fold_add_ok (t / 4 - 1) 1 (fun i j => nth (4 * j + k mod 4) (concat (map (matmul_m4 z add) (chunks 4 (l i)))) z)
               (fun j => nth (4 * j + k mod 4) (concat (map pm4 (chunks 4 xs))) 0)).
      - apply GI. lia.
      - intros j Hj. apply GI. subst t. rewrite Nat.div_mul in Hj by lia. lia.
    Qed.
    Lemma ext_ok t l xs : valid_t t -> length xs = t -> G l xs ->
      (forall i, mem i -> exists l', matmul_external z add t (l i) = Some l') /\
      G (fun i => match matmul_external z add t (l i) with Some l' => l' | None => [] end) (pext t xs).
    Proof.
      intros Hv E GL. unfold pext, ext_p. unfold valid_t in Hv. cbn [In] in Hv.
      destruct Hv as [Hv|[Hv|[Hv|Hv]]].
      - rewrite <- Hv in *. cbn [matmul_external]. split; [eauto|]. destruct GL as [_ L2]. rewrite E in L2.
        pose proof (L2 0%nat ltac:(lia)) as R0. pose proof (L2 1%nat ltac:(lia)) as R1.
        repeat (apply gvec_cons; [|]); [| |apply gvec_nil];
        repeat (first [assumption | apply (@Radd (fun i => _) (fun i => _))]).
      - rewrite <- Hv in *. cbn [matmul_external]. split; [eauto|]. destruct GL as [_ L2]. rewrite E in L2.
        pose proof (L2 0%nat ltac:(lia)) as R0. pose proof (L2 1%nat ltac:(lia)) as R1. pose proof (L2 2%nat ltac:(lia)) as R2.
        repeat (apply gvec_cons; [|]); [| | |apply gvec_nil];
        repeat (first [assumption | apply (@Radd (fun i => _) (fun i => _))]).
      - rewrite <- Hv in *. cbn [matmul_external]. split; [eauto|]. apply m4_ok; [exact E|exact GL].
      - assert (Hb : forall {X} (z : X) add l, matmul_external z add t l = Some (matmul_blocks z add t l)).
        { intros. clear E. destruct Hv as [<-|[<-|[<-|[<-|[<-|[]]]]]]; reflexivity. }
        split; [intros; rewrite Hb; eauto|]. rewrite Hb.
        eapply gvec_ext with (l := fun i => matmul_blocks z add t (l i)); [exact Rx|intros; rewrite Hb; reflexivity|].
        apply (@blocks_ok t (t / 4) l xs); try assumption.
        + clear - Hv. destruct Hv as [<-|[<-|[<-|[<-|[<-|[]]]]]]; reflexivity.
        + clear - Hv. destruct Hv as [<-|[<-|[<-|[<-|[<-|[]]]]]]; cbn; lia.
    Qed.
    Lemma fold_list_ok xs : forall l a x, R a x -> G l xs -> R (fun i => fold_left add (l i) (a i)) (fold_left gadd xs x).
    Proof.
      induction xs as [|y xs IH]; intros l a x Ha GL; cbn [fold_left].
      - eapply Rx; [|exact Ha]. intros i Hi. destruct GL as [GL _]. specialize (GL i Hi). destruct (l i); [reflexivity|discriminate].
      - eapply Rx; [|apply (IH (fun i => skipn 1 (l i)) (fun i => add (a i) (nth 0 (l i) z)))].
        + intros i Hi. cbv beta. destruct GL as [GL _]. specialize (GL i Hi). destruct (l i); [discriminate|reflexivity].
        + apply Radd; [exact Ha|]. apply (@gvec_first A F z 0 R l (y :: xs)); [cbn; lia|exact GL].
        + apply (@gvec_skipn A F z 0 R Rx 1 l (y :: xs)). exact GL.
    Qed.
    Lemma sum_from_zero_ok l xs : R (fun _ => z) 0 -> G l xs -> R (fun i => sum_from_zero z add (l i)) (sum_from_zero 0 gadd xs).
    Proof. intros R0 GL. unfold sum_from_zero. apply (@fold_list_ok xs l (fun _ => z)); assumption. Qed.
    Lemma sum_from_first_ok l xs : (0 < length xs)%nat -> G l xs -> R (fun i => sum_from_first z add (l i)) (sum_from_zero 0 gadd xs).
    Proof.
      intros E GL. unfold sum_from_zero, sum_from_first. destruct xs as [|x xs]; [cbn in E; lia|]. cbn [fold_left].
      apply (@fold_list_ok xs (fun i => skipn 1 (l i)) (fun i => nth 0 (l i) z)).
      - rewrite gadd_0. apply (@gvec_first A F z 0 R l (x :: xs)); assumption.
      - apply (@gvec_skipn A F z 0 R Rx 1 l (x :: xs)). exact GL.
    Qed.
    Hypothesis Rsum : forall l xs, (0 < length xs)%nat -> G l xs -> R (fun i => sum (l i)) (sum_from_zero 0 gadd xs).
    Lemma int_ok t diag l xs : valid_t t -> length xs = t -> length diag = t -> G l xs ->
      G (fun i => matmul_internal z add scale sum t diag (l i)) (int_p t diag xs).
    Proof.
      intros Hv E Ed GL. unfold int_p. unfold valid_t in Hv. cbn [In] in Hv.
      destruct Hv as [Hv|[Hv|Hv]].
      - rewrite <- Hv in *. cbn [matmul_internal]. destruct GL as [_ L2]. rewrite E in L2.
        pose proof (L2 0%nat ltac:(lia)) as R0. pose proof (L2 1%nat ltac:(lia)) as R1. unfold dbl.
        repeat (apply gvec_cons; [|]); [| |apply gvec_nil];
        repeat (first [assumption | apply (@Radd (fun i => _) (fun i => _))]).
      - rewrite <- Hv in *. cbn [matmul_internal]. destruct GL as [_ L2]. rewrite E in L2.
        pose proof (L2 0%nat ltac:(lia)) as R0. pose proof (L2 1%nat ltac:(lia)) as R1. pose proof (L2 2%nat ltac:(lia)) as R2. unfold dbl.
        repeat (apply gvec_cons; [|]); [| | |apply gvec_nil];
        repeat (first [assumption | apply (@Radd (fun i => _) (fun i => _))]).
      - assert (Ht : (4 <= t)%nat) by lia.
        assert (Hb : forall {X} (z : X) add scale sum l, matmul_internal z add scale sum t diag l = map2 (fun s m => add (scale s m) (sum l)) l diag).
        { intros. destruct t as [|[|[|[|t']]]]; [lia..|reflexivity]. }
        rewrite Hb. eapply gvec_ext with (l := fun i => map2 (fun s m => add (scale s m) (sum (l i))) (l i) diag); [exact Rx|intros; rewrite Hb; reflexivity|].
        assert (Rs : R (fun i => sum (l i)) (sum_from_zero 0 gadd xs)) by (apply Rsum; [lia|exact GL]).
        apply (@gvec_map2_pub A F F z 0 0 R (fun i s m => add (scale s m) (sum (l i)))); [exact Rx| |exact GL].
        intros a x c Ha. apply Radd; [|exact Rs]. apply Rscale. exact Ha.
    Qed.
  End Lin.

  (** Correlated randomness for the S-boxes: shares of [r], .., [r^5] *)
  Definition pc_ok {A F} {CR : CRing F} (z : A) (R : (I -> A) -> F -> Prop) (pc : I -> precomp A) (rs : list F) : Prop :=
    gvec z 0 R (fun i => pc_r (pc i)) rs /\ gvec z 0 R (fun i => pc_r2 (pc i)) (map (fun r => rpow r 2) rs) /\
    gvec z 0 R (fun i => pc_r3 (pc i)) (map (fun r => rpow r 3) rs) /\ gvec z 0 R (fun i => pc_r4 (pc i)) (map (fun r => rpow r 4) rs) /\
    gvec z 0 R (fun i => pc_r5 (pc i)) (map (fun r => rpow r 5) rs).
  Lemma pc_ok_has {A F} {CR : CRing F} (z : A) (R : (I -> A) -> F -> Prop) pc rs off len i :
    pc_ok z R pc rs -> mem i -> (off + len <= length rs)%nat -> pc_has (pc i) off len = true.
  Proof.
    intros ((A1 & _) & (A2 & _) & (A3 & _) & (A4 & _) & (A5 & _)) Hi E. rewrite map_length in *.
    unfold pc_has. rewrite A1, A2, A3, A4, A5 by exact Hi. rewrite (proj2 (Nat.leb_le _ _) E). reflexivity.
  Qed.
  Lemma pc_ok_at {A F} {CR : CRing F} (z : A) (R : (I -> A) -> F -> Prop) pc rs k :
    pc_ok z R pc rs -> (k < length rs)%nat -> let r := nth k rs 0 in
    R (fun i => nth k (pc_r (pc i)) z) r /\ R (fun i => nth k (pc_r2 (pc i)) z) (rpow r 2) /\ R (fun i => nth k (pc_r3 (pc i)) z) (rpow r 3) /\
    R (fun i => nth k (pc_r4 (pc i)) z) (rpow r 4) /\ R (fun i => nth k (pc_r5 (pc i)) z) (rpow r 5).
  Proof.
    intros ((_ & A1) & (_ & A2) & (_ & A3) & (_ & A4) & (_ & A5)) Hk. cbv zeta. rewrite map_length in *.
    specialize (A1 k Hk). specialize (A2 k Hk). specialize (A3 k Hk). specialize (A4 k Hk). specialize (A5 k Hk).
    rewrite (nth_map_lt _ rs 0) in A2 by exact Hk. rewrite (nth_map_lt _ rs 0) in A3 by exact Hk.
    rewrite (nth_map_lt _ rs 0) in A4 by exact Hk. rewrite (nth_map_lt _ rs 0) in A5 by exact Hk. auto.
  Qed.
End GVec.
