(** * Rows between two active ranges of the grand product (C77_gaps) *)
From Coq Require Import String List Arith Lia Bool Ring.
From Verif Require Import Proc Alg NNet Rep3 ShamirPoly Shamir ShamirAlg Univariate Sumcheck SumcheckSpec HonkRelations HonkSpec HonkSkip Decider Oink OinkWiring OinkTrace OinkGrand OinkProofs.
Import ListNotations.
Set Implicit Arguments.
Local Open Scope grp_scope.
Local Open Scope list_scope.

Section Gap.
  Context {F : Type} {FF : Fld F}.
  Infix "*" := rmul : grp_scope.
  Notation "1" := rone : grp_scope.
  (** co-noir-common/src/keys/types.rs:18-27 [add_range]: ranges are added one behind the other; none is empty
      (plain_proving_key.rs:140-142) *)
  Definition ordered (ranges : list (nat * nat)) : Prop :=
    (forall k, k < length ranges -> fst (nth k ranges (0, 0)%nat) < snd (nth k ranges (0, 0)%nat)) /\
    (forall k, S k < length ranges -> snd (nth k ranges (0, 0)%nat) <= fst (nth (S k) ranges (0, 0)%nat)).
  (** oink_prover.rs:407: row [i] is inactive, between the ranges [k] and [k + 1] *)
  Definition between (ranges : list (nat * nat)) (k i : nat) : Prop :=
    S k < length ranges /\ snd (nth k ranges (0, 0)%nat) <= i /\ i < fst (nth (S k) ranges (0, 0)%nat).

  Lemma in_pairs : forall (l : list (nat * nat)) p, In p (List.combine l (tl l)) <-> exists k, S k < length l /\ p = (nth k l (0, 0)%nat, nth (S k) l (0, 0)%nat).
  Proof.
    induction l as [|a l IH]; intros p; [split; [intros []|intros (k & H & _); cbn in H; lia]|].
    destruct l as [|b l]; [split; [intros []|intros (k & H & _); cbn in H; lia]|].
    change (List.combine (a :: b :: l) (tl (a :: b :: l))) with ((a, b) :: List.combine (b :: l) (tl (b :: l))). split.
    - intros [<-|H]; [exists 0%nat; split; [cbn; lia|reflexivity]|]. apply IH in H. destruct H as (k & H & ->). exists (S k). split; [cbn in *; lia|reflexivity].
    - intros ([|k] & H & ->); [left; reflexivity|]. right. apply IH. exists k. split; [cbn in *; lia|reflexivity].
  Qed.
  Lemma ordered_le ranges : ordered ranges -> forall j k, j <= k -> k < length ranges -> fst (nth j ranges (0, 0)%nat) <= fst (nth k ranges (0, 0)%nat) /\ snd (nth j ranges (0, 0)%nat) <= snd (nth k ranges (0, 0)%nat).
  Proof.
    intros [N O] j k H. induction H as [|k H IH]; intros L; [lia|]. specialize (IH ltac:(lia)). pose proof (O k L). pose proof (N k ltac:(lia)). pose proof (N (S k) L). lia.
  Qed.
  Lemma between_unique ranges i j k : ordered ranges -> between ranges j i -> between ranges k i -> j = k.
  Proof.
    intros O (Lj & J1 & J2) (Lk & K1 & K2). destruct (lt_eq_lt_dec j k) as [[H|H]|H]; [exfalso|exact H|exfalso].
    - destruct (ordered_le O (j := S j) (k := k)) as [A _]; [lia|lia|]. destruct O as [N _]. pose proof (N k ltac:(lia)). lia.
    - destruct (ordered_le O (j := S k) (k := j)) as [A _]; [lia|lia|]. destruct O as [N _]. pose proof (N j ltac:(lia)). lia.
  Qed.
  Lemma start_active ranges i k : ordered ranges -> k < length ranges -> ~ between ranges i (fst (nth k ranges (0, 0)%nat)).
  Proof.
    intros O Lk (Li & I1 & I2). destruct (le_lt_dec (S i) k) as [H|H].
    - destruct (ordered_le O (j := S i) (k := k)); lia.
    - destruct (ordered_le O (j := k) (k := i)) as [_ A]; [lia|lia|]. destruct O as [N _]. pose proof (N k Lk). lia.
  Qed.
  (** oink_prover.rs:404-411: the start of the next range, if the row is inactive *)
  Definition next_start (ranges : list (nat * nat)) (i : nat) : option nat :=
    match find (fun p => (snd (fst p) <=? i) && (i <? fst (snd p)))%nat (List.combine ranges (tl ranges)) with Some (_, (s, _)) => Some s | None => None end.
  Lemma next_some ranges i k : ordered ranges -> between ranges k i -> next_start ranges i = Some (fst (nth (S k) ranges (0, 0)%nat)).
  Proof.
    intros O B. unfold next_start. destruct (find _ _) as [[p q]|] eqn:E.
    - apply find_some in E. destruct E as [I T]. apply in_pairs in I. destruct I as (j & L & X). injection X as -> ->. cbn [fst snd] in T.
      apply andb_prop in T. destruct T as [T1 T2]. apply Nat.leb_le in T1. apply Nat.ltb_lt in T2.
      assert (J : j = k) by (apply (between_unique (ranges := ranges) (i := i)); [exact O|split; [exact L|split; assumption]|exact B]). subst j.
      destruct (nth (S k) ranges (0, 0)%nat). reflexivity.
    - exfalso. destruct B as (L & B1 & B2). refine (_ (find_none _ _ E (nth k ranges (0, 0)%nat, nth (S k) ranges (0, 0)%nat) _)).
      + cbn [fst snd]. apply Nat.leb_le in B1. apply Nat.ltb_lt in B2. rewrite B1, B2. discriminate.
      + apply in_pairs. exists k. split; [exact L|reflexivity].
  Qed.
  Lemma next_none ranges i : (forall k, ~ between ranges k i) -> next_start ranges i = None.
  Proof.
    intros N. unfold next_start. destruct (find _ _) as [[p q]|] eqn:E; [|reflexivity]. exfalso.
    apply find_some in E. destruct E as [I T]. apply in_pairs in I. destruct I as (j & L & X). injection X as -> ->. cbn [fst snd] in T.
    apply andb_prop in T. destruct T as [T1 T2]. apply Nat.leb_le in T1. apply Nat.ltb_lt in T2. apply (N j). split; [exact L|split; assumption].
  Qed.
  Lemma fill_next ranges (z : list F) i : gp_fill ranges z i = match next_start ranges i with Some s => set_at i (nth s z 0) z | None => z end.
  Proof. unfold gp_fill, next_start. destruct (find _ _) as [[p [s e]]|]; reflexivity. Qed.
  Lemma fill_length ranges : forall l (z : list F), length (fold_left (gp_fill ranges) l z) = length z.
  Proof. induction l as [|i l IH]; intros z; [reflexivity|]. cbn [fold_left]. rewrite IH, fill_next. destruct (next_start ranges i); [apply set_length|reflexivity]. Qed.
  Lemma next_active ranges i s : ordered ranges -> next_start ranges i = Some s -> next_start ranges s = None.
  Proof.
    intros O E. unfold next_start in E. destruct (find _ _) as [[p q]|] eqn:X; [|discriminate]. destruct q as [s' e]. injection E as ->.
    apply find_some in X. destruct X as [I _]. apply in_pairs in I. destruct I as (j & L & Y). injection Y as _ Y.
    apply next_none. intros k B. apply (start_active (i := k) O L). rewrite <- Y. exact B.
  Qed.
  Lemma fill_nth ranges (z : list F) : ordered ranges -> forall D j, D <= length z ->
    nth j (fold_left (gp_fill ranges) (seq 0 D) z) 0 = match next_start ranges j with Some s => if (j <? D)%nat then nth s z 0 else nth j z 0 | None => nth j z 0 end.
  Proof.
    intros O. induction D as [|D IH]; intros j L; [cbn [seq fold_left]; destruct (next_start ranges j); reflexivity|].
    rewrite seq_S, fold_left_app. cbn [fold_left]. rewrite fill_next, Nat.add_0_l. specialize (fun j => IH j ltac:(lia)).
    destruct (next_start ranges D) as [s|] eqn:E.
    - rewrite set_nth, fill_length. assert (B : (D <? length z)%nat = true) by (apply Nat.ltb_lt; lia). rewrite B, andb_true_r, !IH, (next_active D O E).
      destruct (Nat.eqb_spec j D) as [->|N]; [rewrite E; assert (X : (D <? S D)%nat = true) by (apply Nat.ltb_lt; lia); rewrite X; reflexivity|].
      assert (X : (j <? S D)%nat = (j <? D)%nat) by (destruct (Nat.ltb_spec j D), (Nat.ltb_spec j (S D)); lia || reflexivity). rewrite X. reflexivity.
    - rewrite IH. destruct (Nat.eq_dec j D) as [->|N]; [rewrite E; reflexivity|].
      assert (X : (j <? S D)%nat = (j <? D)%nat) by (destruct (Nat.ltb_spec j D), (Nat.ltb_spec j (S D)); lia || reflexivity). rewrite X. reflexivity.
  Qed.
  (** every row between two ranges gets the value of the first row of the next range; no other row changes *)
  Theorem fill_gaps ranges (z : list F) D : ordered ranges -> D <= length z ->
    (forall k i, between ranges k i -> i < D -> nth i (fold_left (gp_fill ranges) (seq 0 D) z) 0 = nth (fst (nth (S k) ranges (0, 0)%nat)) z 0) /\
    (forall i, (forall k, ~ between ranges k i) \/ D <= i -> nth i (fold_left (gp_fill ranges) (seq 0 D) z) 0 = nth i z 0) /\
    length (fold_left (gp_fill ranges) (seq 0 D) z) = length z.
  Proof.
    intros O L. split; [|split; [|apply fill_length]].
    - intros k i B H. rewrite (fill_nth z O); [|exact L]. rewrite (next_some O B). apply Nat.ltb_lt in H. rewrite H. reflexivity.
    - intros i [N|N]; rewrite (fill_nth z O); try exact L; [rewrite (next_none N); reflexivity|].
      destruct (next_start ranges i); [|reflexivity]. apply Nat.ltb_ge in N. rewrite N. reflexivity.
  Qed.

  (** ** The whole column, for any ranges *)
  Lemma in_active ranges i : In i (active_idxs ranges) <-> exists j, j < length ranges /\ fst (nth j ranges (0, 0)%nat) <= i < snd (nth j ranges (0, 0)%nat).
  Proof.
    unfold active_idxs. rewrite in_flat_map. split.
    - intros (p & I & H). apply (In_nth _ _ (0, 0)%nat) in I. destruct I as (j & Lj & <-). exists j. split; [exact Lj|]. apply in_seq in H. lia.
    - intros (j & Lj & H). exists (nth j ranges (0, 0)%nat). split; [apply nth_In, Lj|]. apply in_seq. lia.
  Qed.
  Lemma active_between ranges i k : ordered ranges -> In i (active_idxs ranges) -> ~ between ranges k i.
  Proof.
    intros O I (L & B1 & B2). apply in_active in I. destruct I as (j & Lj & H). destruct (le_lt_dec j k) as [C|C].
    - destruct (ordered_le O (j := j) (k := k)); lia.
    - destruct (ordered_le O (j := S k) (k := j)); lia.
  Qed.
  Lemma ordered_tl a l : ordered (a :: l) -> ordered l.
  Proof. intros [N O]. split; intros k Hk; [apply (N (S k))|apply (O (S k))]; cbn [length]; lia. Qed.
  Lemma active_nodup : forall ranges, ordered ranges -> NoDup (active_idxs ranges).
  Proof.
    induction ranges as [|a l IH]; intros O; [constructor|]. unfold active_idxs. cbn [flat_map]. fold (active_idxs l).
    assert (G : forall i, In i (active_idxs l) -> snd a <= i).
    { intros i I. apply in_active in I. destruct I as (j & Lj & H). pose proof (ordered_tl O) as O'. destruct (ordered_le O' (j := 0) (k := j)) as [A _]; [lia|exact Lj|].
      destruct O as [_ O]. specialize (O 0%nat). cbn [length nth] in O. specialize (O ltac:(lia)). lia. }
    specialize (IH (ordered_tl O)). assert (S' : forall n s, (s + n <= snd a)%nat -> NoDup (seq s n ++ active_idxs l)).
    { induction n as [|n IHn]; intros s H; [exact IH|]. cbn [seq app]. constructor; [|apply IHn; lia].
      intros I. apply in_app_or in I. destruct I as [I|I]; [apply in_seq in I; lia|apply G in I; lia]. }
    apply S'. destruct O as [N _]. specialize (N 0%nat). cbn [length nth] in N. specialize (N ltac:(lia)). lia.
  Qed.
  Lemma assign_length ix (nums dens : list F) : forall l z, length (fold_left (gp_assign ix nums dens) l z) = length z.
  Proof. induction l as [|i l IH]; intros z; [reflexivity|]. cbn [fold_left]. rewrite IH. apply set_length. Qed.
  Lemma assign_sorted (ix : list nat) (nums dens : list F) (z : list F) : NoDup ix -> (forall i, In i ix -> i < length z) ->
    forall m, m < length ix ->
    let z' := fold_left (gp_assign (fun i => nth i ix 0%nat) nums dens) (seq 0 m) z in
    (forall t, t < length ix -> nth (nth t ix 0%nat) z' 0 = if ((1 <=? t) && (t <=? m))%nat then nth (t - 1) nums 0 * nth (t - 1) dens 0 else nth (nth t ix 0%nat) z 0) /\
    (forall x, ~ In x ix -> nth x z' 0 = nth x z 0).
  Proof.
    intros N H m. induction m as [|m IH]; intros Hm.
    - split; [intros t Ht|reflexivity]. cbn [seq fold_left]. destruct (Nat.leb_spec 1 t), (Nat.leb_spec t 0); try reflexivity; lia.
    - destruct (IH ltac:(lia)) as [I1 I2]. cbv zeta. rewrite seq_S, fold_left_app. cbn [fold_left]. rewrite Nat.add_0_l. unfold gp_assign at 1 3.
      split; [intros t Ht|intros x Hx]; rewrite set_nth, assign_length.
      + rewrite (I1 t Ht). destruct (Nat.eqb_spec (nth t ix 0%nat) (nth (S m) ix 0%nat)) as [E|E].
        * assert (t = S m) by (apply (proj1 (NoDup_nth ix 0%nat) N); assumption). subst t.
          pose proof (H _ (nth_In ix 0%nat Hm)) as B. apply Nat.ltb_lt in B. rewrite B. cbn [andb]. replace (S m - 1)%nat with m by lia.
          destruct (Nat.leb_spec 1 (S m)), (Nat.leb_spec (S m) (S m)); try lia. reflexivity.
        * cbn [andb]. assert (t <> S m) by (intros ->; apply E; reflexivity).
          destruct (Nat.leb_spec 1 t), (Nat.leb_spec t m), (Nat.leb_spec t (S m)); try reflexivity; lia.
      + destruct (Nat.eqb_spec x (nth (S m) ix 0%nat)) as [E|E]; [exfalso; apply Hx; rewrite E; apply nth_In, Hm|]. cbn [andb]. apply I2, Hx.
  Qed.
  Theorem grand_ranges (beta gamma : F) fs size final ranges : ordered ranges -> ranges <> [] -> fst (nth 0 ranges (0, 0)%nat) = 1%nat ->
    (forall i, In i (active_idxs ranges) -> i <= final) -> final < size ->
    let ix := active_idxs ranges in
    exists z, compute_grand_product fs size final ranges ix beta gamma = Done z /\ length z = size /\
      (forall t, t < length ix -> nth (nth t ix 0%nat) z 0 =
         prod t (fun i => gp_numerator fs beta gamma (nth i ix 0%nat)) * inv0 (prod t (fun i => gp_denominator fs beta gamma (nth i ix 0%nat)))) /\
      (forall k i, between ranges k i -> nth i z 0 = nth (fst (nth (S k) ranges (0, 0)%nat)) z 0) /\
      (forall i, ~ In i ix -> (forall k, ~ between ranges k i) -> nth i z 0 = 0).
  Proof.
    intros O Ne H1 Hf Hs ix. pose proof (active_nodup O) as N. fold ix in N.
    destruct ranges as [|[a e] l]; [contradiction|]. cbn [nth fst] in H1. subst a.
    assert (E1 : (1 < e)%nat) by (destruct O as [X _]; specialize (X 0%nat); cbn [length nth fst snd] in X; apply X; lia).
    assert (Hd : nth 0 ix 0%nat = 1%nat /\ 1 <= length ix).
    { subst ix. unfold active_idxs. cbn [flat_map fst snd]. destruct (e - 1)%nat as [|w] eqn:W; [lia|]. cbn [seq app nth length]. lia. }
    destruct Hd as [Hd La]. assert (I1 : In 1%nat ix) by (rewrite <- Hd; apply nth_In; lia). pose proof (Hf _ I1) as F1.
    set (ranges := (1%nat, e) :: l) in *. unfold compute_grand_product.
    destruct (Nat.ltb_spec 0 (length ix)) as [_|]; [|lia]. destruct (Nat.leb_spec size 1) as [|_]; [lia|].
    set (f := fun i => gp_numerator fs beta gamma (nth i ix 0%nat)). set (g := fun i => gp_denominator fs beta gamma (nth i ix 0%nat)).
    set (m := (length ix - 1)%nat). set (nums := running (map f (seq 0 m))). set (dens := map inv0 (running (map g (seq 0 m)))).
    set (z0 := set_at 1 1 (repeat (0 : F) size)). assert (Lz : length z0 = size) by (subst z0; rewrite set_length; apply repeat_length).
    destruct (assign_sorted (ix := ix) nums dens z0 N) with (m := m) as [A1 A2]; [intros i Hi; rewrite Lz; apply Hf in Hi; lia|subst m; lia|].
    set (z1 := fold_left _ (seq 0 m) z0) in *. assert (L1 : length z1 = size) by (subst z1; rewrite assign_length; exact Lz).
    destruct (fill_gaps z1 (D := S final) O) as (G1 & G2 & G3); [lia|].
    set (z2 := fold_left _ (seq 0 (S final)) z1) in *. exists z2. split; [reflexivity|]. split; [rewrite G3; exact L1|].
    assert (Z0 : forall k, nth k z0 0 = if (k =? 1)%nat then 1 else 0).
    { intros k. subst z0. rewrite set_nth, repeat_length. destruct (Nat.ltb_spec 1 size); [|lia]. rewrite andb_true_r. destruct (k =? 1)%nat; [reflexivity|].
      destruct (Nat.lt_ge_cases k size); [apply nth_repeat|apply nth_overflow; rewrite repeat_length; lia]. }
    split; [|split].
    - intros t Ht. rewrite G2 by (left; intros k; apply active_between; [exact O|apply nth_In, Ht]). rewrite (A1 t Ht).
      destruct t as [|t].
      + cbn [Nat.leb andb prod]. rewrite Hd, Z0. cbn [Nat.eqb]. unfold inv0. destruct (feqb 1 0) eqn:E; [exfalso; apply feqb_spec in E; exact (f_1_neq_0 E)|].
        symmetry. transitivity (finv 1 * 1); [|apply finv_l, f_1_neq_0]. apply rmul_comm.
      + assert (T : t < m) by (subst m; lia). destruct (Nat.leb_spec 1 (S t)); [|lia]. destruct (Nat.leb_spec (S t) m); [|lia]. cbn [andb]. replace (S t - 1)%nat with t by lia.
        assert (Pr : forall h : nat -> F, nth t (running (map h (seq 0 m))) 0 = prod (S t) h).
        { intros h. rewrite running_nth by (rewrite map_length, seq_length; exact T). apply prod_ext. intros j Hj.
          rewrite (nth_indep _ 0 (h 0%nat)) by (rewrite map_length, seq_length; lia). rewrite map_nth, seq_nth by lia. reflexivity. }
        unfold nums, dens. rewrite (Pr f). f_equal. rewrite (nth_indep _ 0 (inv0 0)) by (rewrite map_length, running_length, map_length, seq_length; exact T).
        rewrite map_nth. f_equal. apply (Pr g).
    - intros k i B. pose proof B as (Lk & B1 & B2). assert (Is : In (fst (nth (S k) ranges (0, 0)%nat)) ix).
      { subst ix. apply in_active. exists (S k). split; [exact Lk|]. destruct O as [X _]. specialize (X _ Lk). lia. }
      rewrite (G1 k i B) by (apply Hf in Is; lia). symmetry. apply G2. left. intros j. apply start_active; [exact O|exact Lk].
    - intros i Hi Hb. rewrite G2 by (left; exact Hb). rewrite (A2 i Hi), Z0. destruct (Nat.eqb_spec i 1) as [->|]; [contradiction|reflexivity].
  Qed.
End Gap.

(** ** The ranges themselves (C83) *)
(** co-noir-common/src/keys/types.rs:4-8 [ActiveRegionData]: ranges, idxs, current_end *)
Definition region := (list (nat * nat) * list nat * nat)%type.
(** keys/types.rs:10-16 [new] *)
Definition new_region : region := ([], [], 0%nat).
(** keys/types.rs:18-27 [add_range] *)
Definition add_range (r : region) (start fin : nat) : outcome region :=
  let '(ranges, idxs, current) := r in
  if (current <=? start)%nat then Done (ranges ++ [(start, fin)], idxs ++ seq start (fin - start), fin) else Failed (Panic "Ranges should be non-overlapping and increasing"%string).
(** plain_proving_key.rs:140-142: one range after the other *)
Fixpoint add_ranges (r : region) (l : list (nat * nat)) : outcome region :=
  match l with [] => Done r | (s, e) :: l => obind (add_range r s e) (fun r => add_ranges r l) end.

Lemma ordered_cons s e l : ordered ((s, e) :: l) <-> s < e /\ (l = [] \/ e <= fst (nth 0 l (0, 0)%nat)) /\ ordered l.
Proof.
  split.
  - intros O. pose proof (ordered_tl O) as O'. destruct O as [N O]. split; [apply (N 0%nat); cbn; lia|]. split; [|exact O'].
    destruct l as [|b l]; [left; reflexivity|right]. apply (O 0%nat). cbn; lia.
  - intros (H & [->|E] & [N O]); split; intros k Hk.
    + destruct k as [|k]; cbn in *; lia.
    + cbn in Hk; lia.
    + destruct k as [|k]; [exact H|]. apply N. cbn in Hk. lia.
    + destruct k as [|k]; [exact E|]. apply O. cbn in Hk. lia.
Qed.
Lemma add_ranges_from : forall l ranges idxs current, Forall (fun p => fst p < snd p) l ->
  ((l = [] \/ current <= fst (nth 0 l (0, 0)%nat)) /\ ordered l -> add_ranges (ranges, idxs, current) l = Done (ranges ++ l, idxs ++ active_idxs l, List.last (map snd l) current)) /\
  (~ ((l = [] \/ current <= fst (nth 0 l (0, 0)%nat)) /\ ordered l) -> add_ranges (ranges, idxs, current) l = Failed (Panic "Ranges should be non-overlapping and increasing"%string)).
Proof.
  induction l as [|[s e] l IH]; intros ranges idxs current P.
  - split; [intros _; cbn; rewrite !app_nil_r; reflexivity|]. intros X. exfalso. apply X. split; [left; reflexivity|]. split; intros k Hk; cbn in Hk; lia.
  - inversion P as [|? ? Ps Pl]; subst. cbn [fst snd] in Ps. cbn [add_ranges add_range nth fst]. destruct (Nat.leb_spec current s) as [C|C]; cbn [obind].
    + destruct (IH (ranges ++ [(s, e)]) (idxs ++ seq s (e - s)) e Pl) as [I1 I2]. split.
      * intros [_ O]. apply ordered_cons in O. destruct O as (_ & E & O). rewrite I1 by (split; assumption). rewrite <- !app_assoc. f_equal. f_equal.
        clear. destruct l as [|b l]; [reflexivity|]. cbn [map]. change (List.last (snd (s, e) :: snd b :: map snd l) current) with (List.last (snd b :: map snd l) current).
        assert (G : forall (m : list nat) x d d', List.last (x :: m) d = List.last (x :: m) d') by (induction m as [|y m IHm]; intros x d d'; [reflexivity|apply (IHm y)]). apply G.
      * intros X. apply I2. intros [E O]. apply X. split; [right; exact C|]. apply ordered_cons. repeat split; assumption || apply O.
    + split; [intros [[E|E] _]; [discriminate|lia]|reflexivity].
Qed.
(** ranges that are not empty are accepted if and only if they are ordered *)
Theorem add_ranges_ok l : Forall (fun p => fst p < snd p) l ->
  (ordered l -> add_ranges new_region l = Done (l, active_idxs l, List.last (map snd l) 0%nat)) /\
  (~ ordered l -> add_ranges new_region l = Failed (Panic "Ranges should be non-overlapping and increasing"%string)).
Proof.
  intros P. destruct (add_ranges_from [] [] 0 P) as [A B]. split.
  - intros O. apply A. split; [right; lia|exact O].
  - intros O. apply B. intros [_ X]. exact (O X).
Qed.
Lemma active_rows l : ordered l -> NoDup (active_idxs l) /\ (forall i, In i (active_idxs l) <-> exists p, In p l /\ fst p <= i < snd p).
Proof.
  intros O. split; [apply active_nodup, O|]. intros i. rewrite in_active. split.
  - intros (j & L & H). exists (nth j l (0, 0)%nat). split; [apply nth_In, L|exact H].
  - intros (p & I & H). apply (In_nth _ _ (0, 0)%nat) in I. destruct I as (j & L & <-). exists j. split; [exact L|exact H].
Qed.
(** a range that ends before it begins *)
Lemma reversed_refuted : exists l ranges idxs last, add_ranges new_region l = Done (ranges, idxs, last) /\ ~ NoDup idxs.
Proof.
  exists [(1, 6); (6, 2); (3, 5)]%nat. do 3 eexists. split; [reflexivity|]. cbn. intros N.
  inversion N as [|? ? _ N1]; subst. inversion N1 as [|? ? _ N2]; subst. inversion N2 as [|? ? X _]; subst. apply X. cbn. auto 6.
Qed.
