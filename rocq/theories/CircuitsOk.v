(** * The circuits compute the integer functions
    Plain (boolean) meaning of the circuits of Circuits.v, for all widths. *)
From Coq Require Import String List Arith NArith Lia Bool.
From Verif Require Import Proc Alg Uint Rep3 Conv Garble Circuits CircuitsSim.
Import ListNotations.
Set Implicit Arguments.
Local Open Scope gp_scope.
Local Open Scope N_scope.

(** ** Specification: the number written by a list of bits, least significant first *)
Fixpoint bval (l : list bool) : N :=
  match l with [] => 0 | b :: l => N.b2n b + 2 * bval l end.
(** 2^n for a length [n] *)
Definition p2 (n : nat) : N := 2 ^ N.of_nat n.

(** the circuit finishes with a result satisfying [Q] *)
Definition pok {A} (p : gprog bool A) (Q : A -> Prop) : Prop := exists a, plain p = Done a /\ Q a.

Lemma p2_0 : p2 0 = 1. Proof. reflexivity. Qed.
Lemma p2_S n : p2 (S n) = 2 * p2 n.
Proof. unfold p2. rewrite Nat2N.inj_succ, N.pow_succ_r'. reflexivity. Qed.
Lemma p2_pos n : 0 < p2 n.
Proof. unfold p2. apply N.neq_0_lt_0, N.pow_nonzero. lia. Qed.
Lemma p2_add a b : p2 (a + b) = p2 a * p2 b.
Proof. unfold p2. rewrite Nat2N.inj_add. apply N.pow_add_r. Qed.
Lemma p2_le a b : (a <= b)%nat -> p2 a <= p2 b.
Proof. intros. unfold p2. apply N.pow_le_mono_r; lia. Qed.
#[global] Opaque p2.

Lemma bval_lt l : bval l < p2 (length l).
Proof. induction l as [|[] l IH]; cbn [bval length N.b2n]; rewrite ?p2_0, ?p2_S; lia. Qed.
Lemma bval_app a b : bval (a ++ b) = bval a + p2 (length a) * bval b.
Proof. induction a as [|x a IH]; cbn [bval length app]; rewrite ?p2_0, ?p2_S, ?IH; lia. Qed.
Lemma bval_inj a b : length a = length b -> bval a = bval b -> a = b.
Proof.
  revert b. induction a as [|x a IH]; intros [|y b]; cbn [length bval]; try discriminate; [reflexivity|].
  intros L E. destruct x, y; cbn [N.b2n] in E; try lia; f_equal; apply IH; lia.
Qed.
Lemma bval_repeat n : bval (repeat false n) = 0.
Proof. induction n; cbn [repeat bval N.b2n]; lia. Qed.
Lemma bval_negb l : bval (map negb l) + bval l + 1 = p2 (length l).
Proof. induction l as [|[] l IH]; cbn [map bval negb N.b2n length]; rewrite ?p2_0, ?p2_S; lia. Qed.
Lemma mod_small_add a b m : a < m -> (a + m * b) mod m = a.
Proof. intros. rewrite N.mul_comm, N.mod_add by lia. apply N.mod_small. assumption. Qed.
Lemma div_small_add a b m : a < m -> (a + m * b) / m = b.
Proof. intros. rewrite N.mul_comm, N.div_add by lia. rewrite N.div_small by assumption. lia. Qed.
Lemma bval_firstn n l : bval (firstn n l) = bval l mod p2 n.
Proof.
  destruct (Nat.le_gt_cases (length l) n) as [Hl|Hl].
  - rewrite firstn_all2 by exact Hl. symmetry. apply N.mod_small.
    pose proof (bval_lt l). pose proof (@p2_le (length l) n Hl). lia.
  - rewrite <- (firstn_skipn n l) at 2. rewrite bval_app, firstn_length_le by lia.
    symmetry. apply mod_small_add. pose proof (bval_lt (firstn n l)) as Hb. rewrite firstn_length_le in Hb by lia. exact Hb.
Qed.
Lemma bval_skipn n l : bval (skipn n l) = bval l / p2 n.
Proof.
  destruct (Nat.le_gt_cases (length l) n) as [Hl|Hl].
  - rewrite skipn_all2 by exact Hl. symmetry. apply N.div_small.
    pose proof (bval_lt l). pose proof (@p2_le (length l) n Hl). lia.
  - rewrite <- (firstn_skipn n l) at 2. rewrite bval_app, firstn_length_le by lia.
    symmetry. apply div_small_add. pose proof (bval_lt (firstn n l)) as Hb. rewrite firstn_length_le in Hb by lia. exact Hb.
Qed.
Lemma uint_to_bits_length x n : length (uint_to_bits x n) = n.
Proof. unfold uint_to_bits. rewrite map_length. apply seq_length. Qed.
Lemma uint_to_bits_S x n : uint_to_bits x (S n) = N.odd x :: uint_to_bits (x / 2) n.
Proof.
  unfold uint_to_bits. cbn [seq map]. f_equal.
  - unfold ubit. apply N.bit0_odd.
  - rewrite <- seq_shift, map_map. apply map_ext. intros i. unfold ubit.
    rewrite <- N.div2_div, N.div2_spec, N.shiftr_spec by lia. f_equal. lia.
Qed.
Lemma bval_uint_to_bits n x : bval (uint_to_bits x n) = x mod p2 n.
Proof.
  revert x. induction n as [|n IH]; intros x.
  - cbn. rewrite p2_0, N.mod_1_r. reflexivity.
  - rewrite uint_to_bits_S. cbn [bval]. rewrite IH, p2_S.
    pose proof (p2_pos n). rewrite N.mod_mul_r by lia.
    replace (N.b2n (N.odd x)) with (x mod 2); [lia|].
    rewrite <- N.bit0_odd, N.bit0_mod. reflexivity.
Qed.

Section Rules.
  Lemma plain_bind {A B} (p : gprog bool A) (k : A -> gprog bool B) :
    plain (gbind p k) = match plain p with Done a => plain (k a) | Failed e => Failed e end.
  Proof. induction p; cbn [gbind plain]; auto. Qed.
  Lemma pok_bind {A B} (p : gprog bool A) (k : A -> gprog bool B) Q R :
    pok p Q -> (forall a, Q a -> pok (k a) R) -> pok (gbind p k) R.
  Proof.
    intros (a & E & Ha) Hk. destruct (Hk a Ha) as (b & E' & Hb). exists b. rewrite plain_bind, E. auto.
  Qed.
  Lemma pok_ret {A} (a : A) (Q : A -> Prop) : Q a -> pok (GRet a) Q.
  Proof. intros. exists a. auto. Qed.
  Lemma pok_mono {A} (p : gprog bool A) (Q R : A -> Prop) : pok p Q -> (forall a, Q a -> R a) -> pok p R.
  Proof. intros (a & E & Ha) Hm. exists a. auto. Qed.
  Lemma pok_eq {A} (p : gprog bool A) a (Q : A -> Prop) : plain p = Done a -> Q a -> pok p Q.
  Proof. intros. exists a. auto. Qed.
  (** a step with known result *)
  Lemma pok_step {A B} (p : gprog bool A) a (k : A -> gprog bool B) Q : plain p = Done a -> pok (k a) Q -> pok (gbind p k) Q.
  Proof. intros E Hk. eapply pok_bind; [apply (@pok_eq _ _ a (fun x => x = a)); [exact E|reflexivity]|]. intros ? ->. exact Hk. Qed.
  Lemma pok_det {A} (p : gprog bool A) (Q R : A -> Prop) : pok p Q -> pok p R -> pok p (fun a => Q a /\ R a).
  Proof. intros (a & E & Ha) (b & E' & Hb). rewrite E in E'. injection E' as <-. exists a. auto. Qed.

  Lemma gmapM_pok {A B C} (g : A -> gprog bool B) (v : A -> C) (R : C -> B -> Prop) l :
    (forall a, In a l -> pok (g a) (R (v a))) -> pok (gmapM g l) (Forall2 R (map v l)).
  Proof.
    induction l as [|a l IH]; intros Hg; cbn [gmapM map].
    - apply pok_ret. constructor.
    - eapply pok_bind; [apply Hg; left; reflexivity|]. intros b Hb.
      eapply pok_bind; [apply IH; intros; apply Hg; right; assumption|]. intros r Hr.
      apply pok_ret. constructor; assumption.
  Qed.
  Lemma gmapM_plain {A B} (g : A -> gprog bool B) (h : A -> B) l :
    (forall a, In a l -> plain (g a) = Done (h a)) -> plain (gmapM g l) = Done (map h l).
  Proof.
    induction l as [|a l IH]; intros Hg; cbn [gmapM map]; [reflexivity|].
    rewrite plain_bind, Hg by (left; reflexivity). rewrite plain_bind, IH by (intros; apply Hg; right; assumption).
    reflexivity.
  Qed.
End Rules.

(** ** Gates *)
Lemma gor_plain x y : plain (gor x y) = Done (x || y).
Proof. destruct x, y; reflexivity. Qed.
Lemma gmux_plain b x y : plain (gmux b x y) = Done (if b then y else x).
Proof. destruct b, x, y; reflexivity. Qed.
Lemma mux_const_plain b x y : plain (mux_const b x y) = Done (if b then y else x).
Proof. destruct b, x, y; reflexivity. Qed.

Definition adds (x y c : bool) (r : bool * bool) : Prop := N.b2n (fst r) + 2 * N.b2n (snd r) = N.b2n x + N.b2n y + N.b2n c.
Lemma full_adder_ok a b c : pok (full_adder a b c) (adds a b c).
Proof. destruct a, b, c; eexists; (split; [reflexivity|]); reflexivity. Qed.
Lemma full_adder_const_ok a b c : pok (full_adder_const a b c) (adds a b c).
Proof. destruct a, b, c; eexists; (split; [reflexivity|]); reflexivity. Qed.
Lemma half_adder_ok a b : pok (half_adder a b) (adds a b false).
Proof. destruct a, b; eexists; (split; [reflexivity|]); reflexivity. Qed.
Lemma full_adder_cin_set_ok a b : pok (full_adder_cin_set a b) (adds a b true).
Proof. destruct a, b; eexists; (split; [reflexivity|]); reflexivity. Qed.
Lemma full_adder_const_cin_set_ok a b : pok (full_adder_const_cin_set a b) (adds a b true).
Proof. destruct a, b; eexists; (split; [reflexivity|]); reflexivity. Qed.
Lemma neg_adder_ok a b c : pok (neg_adder a b c) (adds a (negb b) c).
Proof. destruct a, b, c; eexists; (split; [reflexivity|]); reflexivity. Qed.
Lemma neg_adder_x0_ok b c : pok (neg_adder_x0 b c) (adds false (negb b) c).
Proof. destruct b, c; eexists; (split; [reflexivity|]); reflexivity. Qed.
Lemma neg_const_x0_ok b c : pok (neg_const_x0 b c) (adds false (negb b) c).
Proof. destruct b, c; eexists; (split; [reflexivity|]); reflexivity. Qed.
Lemma half_adder_const_ok a : pok (half_adder_const a true) (adds a true false).
Proof. destruct a; eexists; (split; [reflexivity|]); reflexivity. Qed.

(** ** Ripple loops *)
(** [r] = [n] sum bits and the carry *)
Definition sums (n : nat) (v : N) (r : list bool * bool) : Prop :=
  length (fst r) = n /\ bval (fst r) + p2 n * N.b2n (snd r) = v.

Lemma sums_0 c : sums 0 (N.b2n c) ([], c).
Proof. split; [reflexivity|]. cbn. rewrite p2_0. lia. Qed.
Lemma sums_cons n x y c v r t :
  adds x y c r -> sums n (v + N.b2n (snd r)) t -> sums (S n) (N.b2n x + N.b2n y + N.b2n c + 2 * v) (fst r :: fst t, snd t).
Proof.
  unfold adds, sums. intros E (L & V). cbn [fst snd length bval]. split; [congruence|]. rewrite p2_S. lia.
Qed.

Lemma ripple_ok {X Y} (vx : X -> bool) (vy : Y -> bool) f xs ys c :
  (forall x y c, pok (f x y c) (adds (vx x) (vy y) c)) -> (length xs <= length ys)%nat ->
  pok (ripple f xs ys c)
      (sums (length xs) (bval (map vx xs) + bval (map vy (firstn (length xs) ys)) + N.b2n c)).
Proof.
  intros Hf. revert ys c. induction xs as [|x xs IH]; intros [|y ys] c L; cbn [length] in L;
    try (cbn [ripple length firstn map bval]; apply pok_ret, sums_0); try lia.
  cbn [ripple length firstn map bval]. eapply pok_bind; [apply Hf|]. intros r Hr.
  eapply pok_bind; [apply IH; lia|]. intros t Ht. apply pok_ret.
  replace (N.b2n (vx x) + 2 * bval (map vx xs) + (N.b2n (vy y) + 2 * bval (map vy (firstn (length xs) ys))) + N.b2n c)
    with (N.b2n (vx x) + N.b2n (vy y) + N.b2n c + 2 * (bval (map vx xs) + bval (map vy (firstn (length xs) ys)))) by lia.
  eapply sums_cons; eassumption.
Qed.
Lemma ripple1_ok {Y} (vy : Y -> bool) f ys c :
  (forall y c, pok (f y c) (adds false (vy y) c)) ->
  pok (ripple1 f ys c) (sums (length ys) (bval (map vy ys) + N.b2n c)).
Proof.
  intros Hf. revert c. induction ys as [|y ys IH]; intros c; cbn [ripple1 length map bval].
  - apply pok_ret, sums_0.
  - eapply pok_bind; [apply Hf|]. intros r Hr. eapply pok_bind; [apply IH|]. intros t Ht. apply pok_ret.
    replace (N.b2n (vy y) + 2 * bval (map vy ys) + N.b2n c)
      with (N.b2n false + N.b2n (vy y) + N.b2n c + 2 * bval (map vy ys)) by (cbn [N.b2n]; lia).
    eapply sums_cons; eassumption.
Qed.

Ltac nb := repeat match goal with
  | |- context [N.b2n ?b] => is_var b; assert (N.b2n b <= 1) by (destruct b; cbn; lia); generalize dependent (N.b2n b); intros
  end.
Lemma b2n_le b : N.b2n b <= 1. Proof. destruct b; cbn; lia. Qed.
Lemma map_same {A} (l : list A) : map (fun x => x) l = l. Proof. apply map_id. Qed.

(** ** Addition *)
Lemma bin_addition_ok xs ys : xs <> [] -> length ys = length xs ->
  pok (bin_addition xs ys) (sums (length xs) (bval xs + bval ys)).
Proof.
  destruct xs as [|x xs], ys as [|y ys]; cbn [length]; try (intros; congruence). intros _ L. injection L as L.
  cbn [bin_addition]. eapply pok_bind; [apply half_adder_ok|]. intros r Hr.
  eapply pok_bind; [apply (ripple_ok (fun x => x) (fun y => y)); [apply full_adder_ok|lia]|].
  intros t Ht. apply pok_ret. rewrite <- L, firstn_all in Ht. rewrite !map_id, L in Ht.
  cbn [bval]. replace (N.b2n x + 2 * bval xs + (N.b2n y + 2 * bval ys)) with
    (N.b2n x + N.b2n y + N.b2n false + 2 * (bval xs + bval ys)) by (cbn [N.b2n]; lia).
  eapply sums_cons; eassumption.
Qed.

Lemma removelast_length {A} (l : list A) : length (removelast l) = pred (length l).
Proof. induction l as [|a [|b l] IH]; [reflexivity..|]. cbn [removelast length] in *. rewrite IH. reflexivity. Qed.
Lemma removelast_firstn_len_ {A} (l : list A) : removelast l = firstn (pred (length l)) l.
Proof. apply removelast_firstn_len. Qed.
Lemma bval_last l d : l <> [] -> bval l = bval (removelast l) + p2 (pred (length l)) * N.b2n (last l d).
Proof.
  intros Hl. rewrite (app_removelast_last d Hl) at 1. rewrite bval_app, removelast_length. cbn [bval]. lia.
Qed.

Definition modsum (n : nat) (v : N) (r : list bool) : Prop := length r = n /\ bval r = v mod p2 n.


Lemma sums_modsum n v r : sums n v r -> modsum n v (fst r).
Proof.
  intros (L & V). split; [exact L|]. rewrite <- V. symmetry. apply mod_small_add.
  rewrite <- L. apply bval_lt.
Qed.
Lemma sums_le n v r : sums n v r -> v < 2 * p2 n.
Proof. intros (L & V). pose proof (bval_lt (fst r)). rewrite L in H. pose proof (b2n_le (snd r)). nia. Qed.
(** a full adder whose carry is not computed *)
Lemma adds_xor x y c : exists c', adds x y c (xorb (xorb x y) c, c').
Proof. destruct x, y, c; (exists true; reflexivity) || (exists false; reflexivity). Qed.
Lemma sums_snoc n v x y r t :
  sums n v r -> adds x y (snd r) t -> sums (S n) (v + p2 n * (N.b2n x + N.b2n y)) (fst r ++ [fst t], snd t).
Proof.
  unfold sums, adds. intros (L & V) E. cbn [fst snd]. rewrite app_length, bval_app, L, p2_S. cbn [length bval].
  split; [lia|]. nia.
Qed.
Lemma sums_join n m v w t u :
  sums n v t -> sums m (w + N.b2n (snd t)) u -> sums (n + m) (v + p2 n * w) (fst t ++ fst u, snd u).
Proof.
  unfold sums. intros (L & V) (L' & V'). cbn [fst snd]. rewrite app_length, bval_app, L, p2_add.
  split; [lia|]. nia.
Qed.

Lemma bin_addition_no_carry_ok xs ys : xs <> [] -> length ys = length xs ->
  pok (bin_addition_no_carry xs ys) (modsum (length xs) (bval xs + bval ys)).
Proof.
  destruct xs as [|x xs], ys as [|y ys]; cbn [length]; try (intros; congruence). intros _ L. injection L as L.
  destruct xs as [|x' xs'].
  - destruct ys; [|discriminate]. destruct x, y; eexists; (split; [reflexivity|]); (split; [reflexivity|]); cbn [length]; rewrite p2_S, p2_0; reflexivity.
  - set (xs := x' :: xs') in *. change (bin_addition_no_carry (x :: xs) (y :: ys)) with
      (r <- half_adder x y ;; t <- ripple full_adder (removelast xs) ys (snd r) ;;
       z1 <- gxor (last xs x) (last ys y) ;; s <- gxor z1 (snd t) ;; GRet (fst r :: fst t ++ [s])).
    eapply pok_bind; [apply half_adder_ok|]. intros r Hr.
    assert (Lx : length xs = S (length xs')) by reflexivity.
    eapply pok_bind; [apply (ripple_ok (fun x => x) (fun y => y)); [apply full_adder_ok|rewrite removelast_length; lia]|].
    intros t Ht. rewrite removelast_length, !map_id in Ht. rewrite Lx in Ht. cbn [pred] in Ht.
    replace (firstn (length xs') ys) with (removelast ys) in Ht
      by (rewrite removelast_firstn_len, L, Lx; reflexivity).
    eapply pok_step; [reflexivity|]. eapply pok_step; [reflexivity|]. apply pok_ret.
    destruct (adds_xor (last xs x) (last ys y) (snd t)) as (c' & Hc).
    pose proof (sums_snoc Ht Hc) as Hs. cbn [fst snd] in Hs.
    change (fst r :: fst t ++ [xorb (xorb (last xs x) (last ys y)) (snd t)]) with
      (fst (fst r :: fst (fst t ++ [xorb (xorb (last xs x) (last ys y)) (snd t)], c'), c')).
    apply sums_modsum. cbn [bval]. rewrite Lx.
    replace (N.b2n x + 2 * bval xs + (N.b2n y + 2 * bval ys)) with
      (N.b2n x + N.b2n y + N.b2n false + 2 * (bval xs + bval ys)) by (cbn [N.b2n]; lia).
    apply (@sums_cons _ _ _ _ (bval xs + bval ys) _ (_, c') Hr).
    rewrite (@bval_last xs x), (@bval_last ys y) by (intros E; rewrite E in *; discriminate).
    rewrite L, Lx. cbn [pred].
    match type of Hs with sums _ ?v _ => match goal with |- sums _ ?w _ => replace w with v by lia end end.
    exact Hs.
Qed.

(** addition of an odd public constant *)
Lemma bin_addition_constant_no_carry_ok xs ys : xs <> [] -> length ys = length xs -> hd false ys = true ->
  pok (bin_addition_constant_no_carry xs ys) (modsum (length xs) (bval xs + bval ys)).
Proof.
  destruct xs as [|x xs], ys as [|y ys]; cbn [length]; try (intros; congruence). intros _ L Hy. injection L as L.
  cbn [hd] in Hy. subst y.
  destruct xs as [|x' xs'].
  - destruct ys; [|discriminate]. destruct x; eexists; (split; [reflexivity|]); (split; [reflexivity|]); cbn [length]; rewrite p2_S, p2_0; reflexivity.
  - set (xs := x' :: xs') in *. change (bin_addition_constant_no_carry (x :: xs) (true :: ys)) with
      (r <- half_adder_const x true ;; t <- ripple full_adder_const (removelast xs) ys (snd r) ;;
       z1 <- (if last ys true then gneg (last xs x) else GRet (last xs x)) ;; s <- gxor z1 (snd t) ;;
       GRet (fst r :: fst t ++ [s])).
    eapply pok_bind; [apply half_adder_const_ok|]. intros r Hr.
    assert (Lx : length xs = S (length xs')) by reflexivity.
    eapply pok_bind; [apply (ripple_ok (fun x => x) (fun y => y)); [apply full_adder_const_ok|rewrite removelast_length; lia]|].
    intros t Ht. rewrite removelast_length, !map_id in Ht. rewrite Lx in Ht. cbn [pred] in Ht.
    replace (firstn (length xs') ys) with (removelast ys) in Ht
      by (rewrite removelast_firstn_len, L, Lx; reflexivity).
    eapply (@pok_step _ _ _ (xorb (last xs x) (last ys true)));
      [destruct (last ys true), (last xs x); reflexivity|].
    eapply pok_step; [reflexivity|]. apply pok_ret.
    destruct (adds_xor (last xs x) (last ys true) (snd t)) as (c' & Hc).
    pose proof (sums_snoc Ht Hc) as Hs. cbn [fst snd] in Hs.
    change (fst r :: fst t ++ [xorb (xorb (last xs x) (last ys true)) (snd t)]) with
      (fst (fst r :: fst (fst t ++ [xorb (xorb (last xs x) (last ys true)) (snd t)], c'), c')).
    apply sums_modsum. cbn [bval]. rewrite Lx.
    replace (N.b2n x + 2 * bval xs + (N.b2n true + 2 * bval ys)) with
      (N.b2n x + N.b2n true + N.b2n false + 2 * (bval xs + bval ys)) by (cbn [N.b2n]; lia).
    apply (@sums_cons _ _ _ _ (bval xs + bval ys) _ (_, c') Hr).
    rewrite (@bval_last xs x), (@bval_last ys true) by (intros E; rewrite E in *; discriminate).
    rewrite L, Lx. cbn [pred].
    match type of Hs with sums _ ?v _ => match goal with |- sums _ ?w _ => replace w with v by lia end end.
    exact Hs.
Qed.

(** ** Subtraction: the carry says that there was no underflow *)
Definition diffs (n : nat) (x y : N) (r : list bool * bool) : Prop :=
  length (fst r) = n /\ bval (fst r) + p2 n * N.b2n (snd r) + y = x + p2 n.
Lemma sums_diffs n x ys r : length ys = n -> sums n (x + bval (map negb ys) + 1) r -> diffs n x (bval ys) r.
Proof. intros <- (L & V). split; [exact L|]. rewrite V. pose proof (bval_negb ys). lia. Qed.

Lemma bin_subtraction_ok xs ys : xs <> [] -> length ys = length xs ->
  pok (bin_subtraction xs ys) (diffs (length xs) (bval xs) (bval ys)).
Proof.
  destruct xs as [|x xs], ys as [|y ys]; cbn [length]; try (intros; congruence). intros _ L. injection L as L.
  cbn [bin_subtraction]. eapply pok_step; [reflexivity|]. eapply pok_bind; [apply full_adder_cin_set_ok|]. intros r Hr.
  eapply pok_bind; [apply (ripple_ok (fun x => x) negb); [apply neg_adder_ok|lia]|].
  intros t Ht. apply pok_ret. rewrite <- L, firstn_all in Ht. rewrite map_id, L in Ht.
  apply sums_diffs with (ys := y :: ys); [cbn [length]; congruence|]. cbn [map bval].
  replace (N.b2n x + 2 * bval xs + (N.b2n (negb y) + 2 * bval (map negb ys)) + 1) with
    (N.b2n x + N.b2n (negb y) + N.b2n true + 2 * (bval xs + bval (map negb ys))) by (cbn [N.b2n]; lia).
  eapply sums_cons; eassumption.
Qed.

(** common part of the three partial subtractions *)
Lemma partial_sums x y xs ys r t u (n := length xs) :
  (n <= length ys)%nat ->
  adds x (negb y) true r ->
  sums n (bval xs + bval (map negb (firstn n ys)) + N.b2n (snd r)) t ->
  sums (length (skipn n ys)) (bval (map negb (skipn n ys)) + N.b2n (snd t)) u ->
  diffs (S (length ys)) (bval (x :: xs)) (bval (y :: ys)) (fst r :: fst t ++ fst u, snd u).
Proof.
  intros L Hr Ht Hu.
  apply sums_diffs with (ys := y :: ys); [reflexivity|]. cbn [map bval].
  pose proof (sums_join (bval (map negb (skipn n ys))) Ht Hu) as Hj. rewrite skipn_length in Hj.
  replace (n + (length ys - n))%nat with (length ys) in Hj by lia.
  replace (N.b2n x + 2 * bval xs + (N.b2n (negb y) + 2 * bval (map negb ys)) + 1) with
    (N.b2n x + N.b2n (negb y) + N.b2n true + 2 * (bval xs + bval (map negb ys))) by (cbn [N.b2n]; lia).
  apply (@sums_cons _ _ _ _ (bval xs + bval (map negb ys)) _ (fst t ++ fst u, snd u) Hr).
  replace (bval (map negb ys)) with (bval (map negb (firstn n ys)) + p2 n * bval (map negb (skipn n ys))).
  2:{ rewrite <- (firstn_skipn n ys) at 3. rewrite map_app, bval_app, map_length, firstn_length_le by lia. reflexivity. }
  match type of Hj with sums _ ?v _ => match goal with |- sums _ ?w _ => replace w with v by lia end end.
  exact Hj.
Qed.

Lemma bin_subtraction_partial_ok xs ys : xs <> [] -> (length xs <= length ys)%nat ->
  pok (bin_subtraction_partial xs ys) (diffs (length ys) (bval xs) (bval ys)).
Proof.
  destruct xs as [|x xs], ys as [|y ys]; cbn [length]; try (intros; congruence); try lia. intros _ L.
  cbn [bin_subtraction_partial]. eapply pok_step; [reflexivity|].
  eapply pok_bind; [apply full_adder_cin_set_ok|]. intros r Hr.
  eapply pok_bind; [apply (ripple_ok (fun x => x) negb); [apply neg_adder_ok|lia]|]. intros t Ht. rewrite map_id in Ht.
  unfold tail_from. cbn [length]. destruct (Nat.leb_spec (S (length xs)) (S (length ys))); [|lia].
  cbn [gbind skipn]. eapply pok_bind; [apply (ripple1_ok negb); apply neg_adder_x0_ok|]. intros u Hu.
  apply pok_ret. eapply partial_sums; try eassumption. lia.
Qed.
Lemma bin_subtraction_partial_by_constant_ok xs ys : xs <> [] -> (length xs <= length ys)%nat ->
  pok (bin_subtraction_partial_by_constant xs ys) (diffs (length ys) (bval xs) (bval ys)).
Proof.
  destruct xs as [|x xs], ys as [|y ys]; cbn [length]; try (intros; congruence); try lia. intros _ L.
  cbn [bin_subtraction_partial_by_constant].
  eapply pok_bind; [apply full_adder_const_cin_set_ok|]. intros r Hr.
  eapply pok_bind; [apply (ripple_ok (fun x => x) negb); [intros; apply full_adder_const_ok|lia]|]. intros t Ht. rewrite map_id in Ht.
  unfold tail_from. cbn [length]. destruct (Nat.leb_spec (S (length xs)) (S (length ys))); [|lia].
  cbn [gbind skipn]. eapply pok_bind; [apply (ripple1_ok negb); apply neg_const_x0_ok|]. intros u Hu.
  apply pok_ret. eapply partial_sums; try eassumption. lia.
Qed.
Lemma adds_comm x y c r : adds x y c r -> adds y x c r.
Proof. unfold adds. lia. Qed.
Lemma bin_subtraction_partial_from_constant_ok xs ys : xs <> [] -> (length xs <= length ys)%nat ->
  pok (bin_subtraction_partial_from_constant xs ys) (diffs (length ys) (bval xs) (bval ys)).
Proof.
  destruct xs as [|x xs], ys as [|y ys]; cbn [length]; try (intros; congruence); try lia. intros _ L.
  cbn [bin_subtraction_partial_from_constant]. eapply pok_step; [reflexivity|].
  eapply pok_bind; [apply full_adder_const_cin_set_ok|]. intros r Hr. apply adds_comm in Hr.
  eapply pok_bind.
  { apply (ripple_ok (fun x => x) negb); [|lia]. intros. eapply pok_step; [reflexivity|].
    eapply pok_mono; [apply full_adder_const_ok|]. intros. apply adds_comm. assumption. }
  intros t Ht. rewrite map_id in Ht. cbn [length skipn].
  eapply pok_bind; [apply (ripple1_ok negb); apply neg_adder_x0_ok|]. intros u Hu.
  apply pok_ret. eapply partial_sums; try eassumption. lia.
Qed.

Lemma diffs_ge n x y r : diffs n x y r -> x < p2 n -> y < p2 n -> snd r = (y <=? x).
Proof.
  intros (L & V) Hx Hy. pose proof (bval_lt (fst r)) as Hb. rewrite L in Hb.
  destruct (snd r), (N.leb_spec y x); cbn [N.b2n] in V; try reflexivity; lia.
Qed.
Lemma diffs_val n x y r : diffs n x y r -> y <= x -> x < p2 n -> bval (fst r) = x - y.
Proof.
  intros D Hy Hx. pose proof (diffs_ge D Hx ltac:(lia)) as E. rewrite (proj2 (N.leb_le _ _) Hy) in E.
  destruct D as (L & V). rewrite E in V. cbn [N.b2n] in V. lia.
Qed.

(** ** Comparison *)
Lemma carry_of_full x y c r : adds x y c r -> plain (full_adder_carry x y c) = Done (snd r).
Proof. destruct x, y, c, r as [[] []]; cbn; intros E; try reflexivity; discriminate. Qed.
Lemma carry_of_cin x y r : adds x y true r -> plain (full_adder_carry_cin_set x y) = Done (snd r).
Proof. destruct x, y, r as [[] []]; cbn; intros E; try reflexivity; discriminate. Qed.
Lemma ripple_carry_ok xs : forall ys c, length ys = length xs ->
  pok (ripple_carry xs ys c) (fun b => exists l, sums (length xs) (bval xs + bval (map negb ys) + N.b2n c) (l, b)).
Proof.
  induction xs as [|x xs IH]; intros [|y ys] c; cbn [length]; try discriminate; intros L; cbn [ripple_carry map bval].
  - apply pok_ret. exists []. apply sums_0.
  - injection L as L. eapply pok_step; [reflexivity|].
    destruct (full_adder_ok x (negb y) c) as (r & _ & Hr).
    eapply pok_step; [apply (carry_of_full Hr)|]. eapply pok_mono; [apply IH; exact L|].
    intros b (l & Hl). exists (fst r :: l).
    replace (N.b2n x + 2 * bval xs + (N.b2n (negb y) + 2 * bval (map negb ys)) + N.b2n c) with
      (N.b2n x + N.b2n (negb y) + N.b2n c + 2 * (bval xs + bval (map negb ys))) by lia.
    exact (@sums_cons _ _ _ _ _ _ (_, _) Hr Hl).
Qed.
Lemma unsigned_ge_ok a b : a <> [] -> length b = length a ->
  plain (unsigned_ge a b) = Done (bval b <=? bval a).
Proof.
  intros Ha L. cut (pok (unsigned_ge a b) (fun c => c = (bval b <=? bval a))).
  { intros (c & E & ->). exact E. }
  unfold unsigned_ge. destruct a as [|x xs], b as [|y ys]; try congruence; try discriminate.
  injection L as L. cbn [bin_subtraction_get_carry_only]. eapply pok_step; [reflexivity|].
  destruct (full_adder_cin_set_ok x (negb y)) as (r & _ & Hr).
  eapply pok_step; [apply (carry_of_cin Hr)|].
  eapply pok_mono; [apply ripple_carry_ok; exact L|]. intros c (l & Hl).
  pose proof (@sums_cons _ _ _ _ _ _ (_, _) Hr Hl) as Hs. cbn [fst snd] in Hs.
  assert (D : diffs (S (length xs)) (bval (x :: xs)) (bval (y :: ys)) (fst r :: l, c)).
  { apply sums_diffs; [cbn; congruence|]. cbn [map bval].
    match type of Hs with sums _ ?v _ => match goal with |- sums _ ?w _ => replace w with v by (cbn [N.b2n]; lia) end end.
    exact Hs. }
  exact (diffs_ge D (bval_lt (x :: xs)) ltac:(pose proof (bval_lt (y :: ys)) as Q; cbn [length] in Q; rewrite L in Q; exact Q)).
Qed.
Lemma unsigned_lt_ok a b : a <> [] -> length b = length a -> plain (unsigned_lt a b) = Done (bval a <? bval b).
Proof.
  intros Ha L. unfold unsigned_lt. rewrite plain_bind, unsigned_ge_ok by assumption. cbn. f_equal.
  symmetry. apply N.ltb_antisym.
Qed.
Lemma unsigned_le_ok a b : b <> [] -> length a = length b -> plain (unsigned_le a b) = Done (bval a <=? bval b).
Proof. apply unsigned_ge_ok. Qed.
Lemma unsigned_gt_ok a b : b <> [] -> length a = length b -> plain (unsigned_gt a b) = Done (bval b <? bval a).
Proof. apply unsigned_lt_ok. Qed.

(** ** Multiplexer *)
Lemma map_snd_combine {A B} (x : list A) (y : list B) : (length y <= length x)%nat -> map snd (List.combine x y) = y.
Proof. revert y. induction x as [|a x IH]; intros [|b y] L; cbn in *; try reflexivity; try lia. rewrite IH by lia. reflexivity. Qed.
Lemma map_fst_combine {A B} (x : list A) (y : list B) : (length x <= length y)%nat -> map fst (List.combine x y) = x.
Proof. revert y. induction x as [|a x IH]; intros [|b y] L; cbn in *; try reflexivity; try lia. rewrite IH by lia. reflexivity. Qed.
Lemma combine_firstn_l {A B} (x : list A) (y : list B) : List.combine x y = List.combine x (firstn (length x) y).
Proof. apply combine_firstn_l. Qed.
Lemma bin_multiplex_plain b x y : (length x <= length y)%nat ->
  plain (bin_multiplex b x y) = Done (if b then firstn (length x) y else x).
Proof.
  intros L. unfold bin_multiplex. rewrite (gmapM_plain _ (fun xy => if b then snd xy else fst xy)) by (intros; apply gmux_plain).
  f_equal. destruct b; [|apply map_fst_combine; exact L].
  rewrite combine_firstn_l. apply map_snd_combine. rewrite firstn_length. lia.
Qed.
Lemma bin_multiplex_const_plain b x y : (length x <= length y)%nat ->
  plain (bin_multiplex_const b x y) = Done (if b then firstn (length x) y else x).
Proof.
  intros L. unfold bin_multiplex_const. rewrite (gmapM_plain _ (fun xy => if b then snd xy else fst xy)) by (intros; apply mux_const_plain).
  f_equal. destruct b; [|apply map_fst_combine; exact L].
  rewrite combine_firstn_l. apply map_snd_combine. rewrite firstn_length. lia.
Qed.
