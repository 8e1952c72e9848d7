(** * The collaborative prover computes the plain proof: argument for any linear sharing *)
From Coq Require Import String List Arith Bool Lia.
From Verif Require Import Proc Alg Rep3Net Rep3 ShamirPoly Shamir ShamirAlg Dft Groth16.
Import ListNotations.
Set Implicit Arguments.
Unset Strict Implicit.
Local Open Scope grp_scope.
Local Open Scope list_scope.

(** ** The tables do not depend on the number of threads *)
Section Tables.
  Context {F : Type} {FF : Fld F}.
  Lemma run_powers_eq len : forall (c s : F), run_powers c s len = map (fun j => rmul c (fpow s j)) (seq 0 len).
  Proof.
    induction len as [|len IH]; intros c s; [reflexivity|]. cbn [run_powers seq map]. f_equal; [cbn; rewrite rmul_comm; symmetry; apply rmul_1|].
    rewrite IH, <- seq_shift, map_map. apply map_ext. intros j. cbn [fpow]. rewrite rmul_assoc. reflexivity.
  Qed.
  Lemma concat_chunks {B} (f : nat -> B) cs size : 0 < cs -> forall m, 
    concat (map (fun ci => map (fun j => f (ci * cs + j)%nat) (seq 0 (Nat.min cs (size - ci * cs)))) (seq 0 m)) = map f (seq 0 (Nat.min (m * cs) size)).
  Proof.
    intros Hc. induction m as [|m IH]; [reflexivity|]. rewrite seq_S, map_app, concat_app, IH. cbn [plus map concat]. rewrite app_nil_r.
    rewrite <- (map_map (fun j => m * cs + j)%nat f). rewrite <- map_app. f_equal.
    assert (E : forall len o, map (fun j => m * cs + j)%nat (seq o len) = seq (m * cs + o) len).
    { induction len as [|len IHl]; intros o; [reflexivity|]. cbn [seq map]. f_equal. rewrite IHl. f_equal. lia. }
    rewrite E, Nat.add_0_r. destruct (Nat.le_gt_cases size (m * cs)) as [L|L].
    - replace (size - m * cs)%nat with O by lia. rewrite Nat.min_0_r. cbn [seq]. rewrite app_nil_r. f_equal. lia.
    - rewrite (Nat.min_l (m * cs)) by lia. rewrite <- seq_app. f_equal. cbn [mult]. lia.
  Qed.
  Lemma chunked_powers_eq threads size (s : F) : chunked_powers threads size s = map (fpow s) (seq 0 size).
  Proof.
    unfold chunked_powers. assert (C : 0 < chunk_size threads size) by (unfold chunk_size; lia). revert C. generalize (chunk_size threads size). intros cs C.
    transitivity (concat (map (fun ci => map (fun j => fpow s (ci * cs + j)) (seq 0 (Nat.min cs (size - ci * cs)))) (seq 0 ((size + cs - 1) / cs)))).
    { f_equal. apply map_ext. intros ci. rewrite run_powers_eq. apply map_ext. intros j. symmetry. apply fpow_add. }
    rewrite concat_chunks by exact C. f_equal. f_equal.
    apply Nat.min_r. pose proof (Nat.div_mod (size + cs - 1) cs ltac:(lia)). pose proof (Nat.mod_upper_bound (size + cs - 1) cs ltac:(lia)). nia.
  Qed.
  Lemma table_eq threads k (s : F) : bit_reversed_coset_table threads s k = bit_reverse 0 k (map (fpow s) (seq 0 (2 ^ k))).
  Proof. unfold bit_reversed_coset_table. rewrite chunked_powers_eq. reflexivity. Qed.
End Tables.

(** ** Linear relations between the data of the parties and a value *)
Section Rel.
  Context {I : Type} (dom : I -> Prop).
  Definition orel {A B} (R : (I -> A) -> B -> Prop) (o : I -> outcome A) (o' : outcome B) : Prop :=
    match o' with Done b => exists a, (forall i, dom i -> o i = Done (a i)) /\ R a b | Failed e => forall i, dom i -> o i = Failed e end.
  Lemma orel_done {A B} (R : (I -> A) -> B -> Prop) a b : R a b -> orel R (fun i => Done (a i)) (Done b).
  Proof. exists a. auto. Qed.
  Arguments orel_done {A B} R a b _.
  Lemma orel_fail {A B} (R : (I -> A) -> B -> Prop) e : orel R (fun i => Failed e) (Failed e).
  Proof. intros i _. reflexivity. Qed.
  Lemma orel_ext {A B} (R : (I -> A) -> B -> Prop) o o1 o' : (forall i, dom i -> o i = o1 i) -> orel R o1 o' -> orel R o o'.
  Proof. intros E. destruct o'; cbn; [intros (x & X & HR); exists x; split; auto; intros; rewrite E; auto|intros X i Di; rewrite E; auto]. Qed.
  Lemma orel_obd {A B A' B'} (R : (I -> A) -> B -> Prop) (S : (I -> A') -> B' -> Prop) o o' (f : I -> A -> outcome A') f' :
    orel R o o' -> (forall a b, R a b -> o' = Done b -> orel S (fun i => f i (a i)) (f' b)) -> orel S (fun i => obd (o i) (f i)) (obd o' f').
  Proof.
    destruct o' as [b|e]; cbn; intros X K.
    - destruct X as (a & E & HR). eapply orel_ext; [|exact (K _ _ HR eq_refl)]. intros i Di. rewrite E by exact Di. reflexivity.
    - intros i Di. rewrite X by exact Di. reflexivity.
  Qed.

  Context {F : Type} {FF : Fld F}.
  Record lin {A B} {AA : AbGrp A} {MA : Mod F A} {AB : AbGrp B} {MB : Mod F B} (R : (I -> A) -> B -> Prop) : Prop := {
    lin_ext : forall a b x, (forall i, dom i -> a i = b i) -> R a x -> R b x;
    lin_0 : R (fun _ => 0) 0;
    lin_add : forall a b x y, R a x -> R b y -> R (fun i => a i + b i) (x + y);
    lin_smul : forall c a x, R a x -> R (fun i => smul c (a i)) (smul c x) }.

  Section Vec.
    Context {A B} {AA : AbGrp A} {MA : Mod F A} {AB : AbGrp B} {MB : Mod F B} (R : (I -> A) -> B -> Prop) (LR : lin R).
    Definition lv (v : I -> list A) (v' : list B) : Prop :=
      (forall i, dom i -> length (v i) = length v') /\ forall j, j < length v' -> R (fun i => nth j (v i) 0) (nth j v' 0).
    Lemma lin_neg a x : R a x -> R (fun i => - a i) (- x).
    Proof.
      intros X. apply (lin_smul LR (- rone)) in X. rewrite smul_neg_l, smul_1 in X. eapply (lin_ext LR); [|exact X].
      intros i _. cbn. rewrite smul_neg_l, smul_1. reflexivity.
    Qed.
    Lemma lin_sub a b x y : R a x -> R b y -> R (fun i => a i - b i) (x - y).
    Proof. intros X Y. apply (lin_add LR X (lin_neg Y)). Qed.
    Lemma lin_const_0 (a : I -> A) : (forall i, dom i -> a i = 0) -> R a 0.
    Proof. intros E. eapply (lin_ext LR); [|exact (lin_0 LR)]. intros i Di. symmetry. auto. Qed.
    Lemma lv_ext v w x : (forall i, dom i -> v i = w i) -> lv v x -> lv w x.
    Proof.
      intros E [L K]. split; [intros i Di; rewrite <- E by exact Di; auto|]. intros j Lj. eapply (lin_ext LR); [|exact (K j Lj)].
      intros i Di. cbn. rewrite E by exact Di. reflexivity.
    Qed.
    Lemma lv_nil : lv (fun _ => []) [].
    Proof. split; [reflexivity|]. intros j L. cbn in L. lia. Qed.
    Lemma lv_cons a x v vs : R a x -> lv v vs -> lv (fun i => a i :: v i) (x :: vs).
    Proof.
      intros X [L K]. split; [intros i Di; cbn; f_equal; auto|]. intros [|j] Lj; cbn in *; [eapply (lin_ext LR); [|exact X]; reflexivity|].
      apply K. lia.
    Qed.
    Lemma lv_nth v x j : lv v x -> R (fun i => nth j (v i) 0) (nth j x 0).
    Proof.
      intros [L K]. destruct (Nat.lt_ge_cases j (length x)) as [Lj|Lj]; [auto|].
      rewrite (nth_overflow x) by exact Lj. apply lin_const_0. intros i Di. apply nth_overflow. rewrite L by exact Di. exact Lj.
    Qed.
    Lemma lv_cons_inv v x xs : lv v (x :: xs) -> R (fun i => nth 0 (v i) 0) x /\ lv (fun i => tl (v i)) xs.
    Proof.
      intros [L K]. split; [exact (K O ltac:(cbn; lia))|]. split.
      - intros i Di. specialize (L i Di). destruct (v i); [discriminate|]. cbn in *. lia.
      - intros j Lj. eapply (lin_ext LR); [|exact (K (S j) ltac:(cbn; lia))]. intros i Di. cbn. specialize (L i Di). destruct (v i); [discriminate|]. reflexivity.
    Qed.
    Lemma lv_one v x : lv v [x] -> exists a, (forall i, dom i -> v i = [a i]) /\ R a x.
    Proof.
      intros [L K]. exists (fun i => nth 0 (v i) 0). split; [|exact (K O ltac:(cbn; lia))].
      intros i Di. specialize (L i Di). destruct (v i) as [|y [|]]; try discriminate. reflexivity.
    Qed.
    Lemma lv_peval v x p : lv v x -> R (fun i => peval (v i) p) (peval x p).
    Proof.
      revert v. induction x as [|x xs IH]; intros v V.
      - apply lin_const_0. intros i Di. destruct V as [L _]. specialize (L i Di). destruct (v i); [reflexivity|discriminate].
      - destruct (lv_cons_inv V) as [H0 H1]. pose proof (lin_add LR H0 (lin_smul LR p (IH _ H1))) as K. eapply (lin_ext LR); [|exact K].
        intros i Di. cbn. destruct V as [L _]. specialize (L i Di). destruct (v i); [discriminate|]. reflexivity.
    Qed.
    Lemma lv_map_seq (f : I -> nat -> A) (f' : nat -> B) n : (forall j, j < n -> R (fun i => f i j) (f' j)) ->
      lv (fun i => map (f i) (seq 0 n)) (map f' (seq 0 n)).
    Proof.
      intros K. split; [intros; rewrite !map_length; reflexivity|]. rewrite map_length, seq_length. intros j Lj.
      rewrite nth_map_seq by exact Lj. eapply (lin_ext LR); [|exact (K j Lj)]. intros i _. cbn. rewrite nth_map_seq by exact Lj. reflexivity.
    Qed.
    Lemma lv_bit_reverse k v x : lv v x -> lv (fun i => bit_reverse 0 k (v i)) (bit_reverse 0 k x).
    Proof. intros V. apply lv_map_seq. intros j _. apply lv_nth. exact V. Qed.
    Lemma lv_dft g n v x : lv v x -> lv (fun i => dft g n (v i)) (dft g n x).
    Proof. intros V. apply lv_map_seq. intros j _. apply lv_peval. exact V. Qed.
    Lemma lv_smul c v x : lv v x -> lv (fun i => map (smul c) (v i)) (map (smul c) x).
    Proof.
      intros [L K]. split; [intros; rewrite !map_length; auto|]. rewrite map_length. intros j Lj.
      rewrite (nth_indep _ 0 (smul c 0)) by (rewrite map_length; exact Lj). rewrite map_nth.
      eapply (lin_ext LR); [|exact (lin_smul LR c (K j Lj))]. intros i Di. cbn.
      rewrite (nth_indep (map _ _) 0 (smul c 0)) by (rewrite map_length, L; auto). rewrite map_nth. reflexivity.
    Qed.
    Lemma lv_idft g n v x : lv v x -> lv (fun i => idft g n (v i)) (idft g n x).
    Proof. intros V. apply lv_smul, lv_dft, V. Qed.
    Lemma lv_distribute (r : list F) : forall v x, lv v x -> lv (fun i => distribute (v i) r) (distribute x r).
    Proof.
      unfold distribute. intros v x V. revert v V r. induction x as [|x xs IH]; intros v V r.
      - eapply lv_ext; [|exact lv_nil]. intros i Di. destruct V as [L _]. specialize (L i Di). destruct (v i); [reflexivity|discriminate].
      - destruct (lv_cons_inv V) as [H0 H1]. destruct r as [|p r].
        + eapply lv_ext; [|exact lv_nil]. intros i Di. destruct (v i); reflexivity.
        + pose proof (lv_cons (lin_smul LR p H0) (IH _ H1 r)) as K. cbn. eapply lv_ext; [|exact K]. intros i Di. cbn.
          destruct V as [L _]. specialize (L i Di). destruct (v i); [discriminate|]. reflexivity.
    Qed.
    Lemma lv_shifted g k t v x : lv v x -> lv (fun i => shifted g k t (v i)) (shifted g k t x).
    Proof. intros V. apply lv_dft, lv_bit_reverse, lv_distribute, lv_bit_reverse, lv_idft, V. Qed.
    Lemma lv_app v x w y : lv v x -> lv w y -> lv (fun i => v i ++ w i) (x ++ y).
    Proof.
      intros [Lv Kv] [Lw Kw]. split; [intros; rewrite !app_length; f_equal; auto|]. rewrite app_length. intros j Lj.
      destruct (Nat.lt_ge_cases j (length x)) as [L|L].
      - rewrite app_nth1 by exact L. eapply (lin_ext LR); [|exact (Kv j L)]. intros i Di. cbn. rewrite app_nth1 by (rewrite Lv; auto). reflexivity.
      - rewrite app_nth2 by exact L. eapply (lin_ext LR); [|exact (Kw (j - length x)%nat ltac:(lia))]. intros i Di. cbn.
        rewrite app_nth2 by (rewrite Lv; auto). rewrite Lv by exact Di. reflexivity.
    Qed.
    Lemma lv_firstn n v x : lv v x -> lv (fun i => firstn n (v i)) (firstn n x).
    Proof.
      intros [L K]. split; [intros; rewrite !firstn_length; f_equal; auto|]. rewrite firstn_length. intros j Lj.
      assert (E : forall T (l : list T) d, j < n -> nth j (firstn n l) d = nth j l d).
      { clear. revert j. induction n as [|n IH]; intros j T l d Lj; [lia|]. destruct l as [|y l]; [destruct j; reflexivity|]. destruct j as [|j]; [reflexivity|].
        cbn. apply IH. lia. }
      rewrite E by lia. eapply (lin_ext LR); [|exact (K j ltac:(lia))]. intros i _. cbn. rewrite E by lia. reflexivity.
    Qed.
    Lemma lv_skipn n v x : lv v x -> lv (fun i => skipn n (v i)) (skipn n x).
    Proof.
      intros [L K]. split; [intros; rewrite !skipn_length; f_equal; auto|]. rewrite skipn_length. intros j Lj.
      assert (E : forall T (l : list T) d, nth j (skipn n l) d = nth (n + j) l d).
      { clear. intros T l d. revert l. induction n as [|n IH]; intros l; [reflexivity|]. destruct l as [|y l]; [destruct j; reflexivity|]. apply IH. }
      rewrite E. eapply (lin_ext LR); [|exact (K (n + j)%nat ltac:(lia))]. intros i _. cbn. rewrite E. reflexivity.
    Qed.
    Lemma lv_repeat0 n : lv (fun _ => repeat 0 n) (repeat 0 n).
    Proof. induction n; [apply lv_nil|]. cbn. apply lv_cons; [apply (lin_0 LR)|assumption]. Qed.
    Lemma lv_resize n v x : lv v x -> lv (fun i => resize n 0 (v i)) (resize n 0 x).
    Proof.
      intros V. unfold resize. pose proof (lv_app (lv_firstn n V) (lv_repeat0 (n - length x))) as K. eapply lv_ext; [|exact K].
      intros i Di. cbn. destruct V as [L _]. rewrite L by exact Di. reflexivity.
    Qed.
    Lemma lv_map_list {X} (f : I -> X -> A) (f' : X -> B) (l : list X) : (forall x, R (fun i => f i x) (f' x)) -> lv (fun i => map (f i) l) (map f' l).
    Proof. intros K. induction l; [apply lv_nil|]. cbn. apply lv_cons; auto. Qed.
    Lemma lv_sub v x w y : lv v x -> lv w y -> lv (fun i => map2 gsub (v i) (w i)) (map2 gsub x y).
    Proof.
      revert v w y. induction x as [|x xs IH]; intros v w y V W.
      - eapply lv_ext; [|exact lv_nil]. intros i Di. destruct V as [L _]. specialize (L i Di). destruct (v i); [reflexivity|discriminate].
      - destruct (lv_cons_inv V) as [V0 V1]. destruct y as [|y ys].
        + eapply lv_ext; [|exact lv_nil]. intros i Di. destruct W as [L _]. specialize (L i Di). destruct (w i); [destruct (v i); reflexivity|discriminate].
        + destruct (lv_cons_inv W) as [W0 W1]. pose proof (lv_cons (lin_sub V0 W0) (IH _ _ _ V1 W1)) as K. cbn. eapply lv_ext; [|exact K].
          intros i Di. cbn. destruct V as [L _]. specialize (L i Di). destruct W as [L' _]. specialize (L' i Di).
          destruct (v i); [discriminate|]. destruct (w i); [discriminate|]. reflexivity.
    Qed.
    Lemma orel_traverse {X} (f : I -> X -> outcome A) (f' : X -> outcome B) l : (forall x, orel R (fun i => f i x) (f' x)) ->
      orel lv (fun i => traverse (f i) l) (traverse f' l).
    Proof.
      intros K. induction l as [|x l IH]; [apply (orel_done lv), lv_nil|]. cbn [traverse].
      eapply orel_obd; [apply K|]. intros a b Hab _. cbn beta. eapply orel_obd; [exact IH|]. intros v vs V _. cbn beta.
      apply (orel_done lv (fun i => a i :: v i)). apply lv_cons; assumption.
    Qed.
  End Vec.
  Lemma lv_map_rel {A B A' B'} {AA : AbGrp A} {MA : Mod F A} {AB : AbGrp B} {MB : Mod F B} {AA' : AbGrp A'} {MA' : Mod F A'} {AB' : AbGrp B'} {MB' : Mod F B'}
        (R : (I -> A) -> B -> Prop) (S : (I -> A') -> B' -> Prop) (LR : lin R) (LS : lin S) (f : I -> A -> A') (f' : B -> B') :
    (forall a x, R a x -> S (fun i => f i (a i)) (f' x)) -> forall v x, lv R v x -> lv S (fun i => map (f i) (v i)) (map f' x).
  Proof.
    intros K v x. revert v. induction x as [|x xs IH]; intros v V.
    - eapply (lv_ext LS); [|exact (lv_nil S)]. intros i Di. destruct V as [L _]. specialize (L i Di). destruct (v i); [reflexivity|discriminate].
    - destruct (lv_cons_inv LR V) as [V0 V1]. pose proof (lv_cons LS (K _ _ V0) (IH _ V1)) as E. cbn. eapply (lv_ext LS); [|exact E].
      intros i Di. cbn. destruct V as [L _]. specialize (L i Di). destruct (v i); [discriminate|]. reflexivity.
  Qed.
  Lemma lv_msm {A} {AA : AbGrp A} {MA : Mod F A} (RH : (I -> F) -> F -> Prop) (RP : (I -> A) -> A -> Prop) (LH : lin RH) (LP : lin RP)
        (PT : forall a x p, RH a x -> RP (fun i => smul (a i) p) (smul x p)) :
    forall (q : list A) h h', lv RH h h' -> RP (fun i => msm q (h i)) (msm q h').
  Proof.
    induction q as [|p q IH]; intros h h' V; [apply (lin_0 LP)|]. destruct h' as [|x h'].
    - cbn. apply (lin_const_0 LP). intros i Di. destruct V as [L _]. specialize (L i Di). destruct (h i); [reflexivity|discriminate].
    - destruct (lv_cons_inv LH V) as [V0 V1]. pose proof (lin_add LP (PT _ _ p V0) (IH _ _ V1)) as K. cbn. eapply (lin_ext LP); [|exact K].
      intros i Di. cbn. destruct V as [L _]. specialize (L i Di). destruct (h i); [discriminate|]. reflexivity.
  Qed.
End Rel.
Arguments orel_done {I dom A B} R a b _.

(** ** The prover *)
Section Gen.
  Context {I M F AS St G1 G2 : Type} {FF : Fld F} {FT : Fft F} {AA : AbGrp AS} {MA : Mod F AS}.
  Context {AG1 : AbGrp G1} {MG1 : Mod F G1} {AG2 : AbGrp G2} {MG2 : Mod F G2}.
  Context (dom : I -> Prop) (D : I -> driver I M F AS St G1 G2) (fuel : nat) (threads : I -> nat) (threads0 : nat).
  Context (RA : (I -> AS) -> F -> Prop) (RH : (I -> F) -> F -> Prop) (R1 : (I -> G1) -> G1 -> Prop) (R2 : (I -> G2) -> G2 -> Prop).
  Context (sync : (I -> St) -> Prop) (adv : nat -> St -> St).
  Context (LA : lin dom RA) (LH : lin dom RH) (L1 : lin dom R1) (L2 : lin dom R2).
  Context (Hpub : forall a x c, RA a x -> RA (fun i => drv_add_public (D i) (a i) c) (x + c)).
  Context (Hprom : forall c, RA (fun i => drv_promote (D i) c) c).
  Context (Hhalf : forall a x, RA a x -> RH (fun i => drv_to_half_share (D i) (a i)) x).
  Context (HaddH : forall a x c, RH a x -> RH (fun i => if drv_adds (D i) then a i + c else a i) (x + c)).
  Context (Hadd1 : forall a x c, R1 a x -> R1 (fun i => if drv_adds (D i) then a i + c else a i) (x + c)).
  Context (Hadd2 : forall a x c, R2 a x -> R2 (fun i => if drv_adds (D i) then a i + c else a i) (x + c)).
  Context (Hpt1 : forall a x p, RH a x -> R1 (fun i => smul (a i) p) (smul x p)).
  Context (Hpt2 : forall a x p, RH a x -> R2 (fun i => smul (a i) p) (smul x p)).
  Context (Hsync : forall st st', (forall i, dom i -> st i = st' i) -> sync st -> sync st').
  Context (Hadv : forall k st, sync st -> sync (fun i => adv k (st i))).
  Context (Hlmv : forall st a b x y, sync st -> lv dom RA a x -> lv dom RA b y -> length x = length y ->
                  exists z, (forall i, dom i -> drv_local_mul_vec (D i) (a i) (b i) (st i) = Done (z i, adv (length x) (st i))) /\ lv dom RH z (map2 rmul x y)).
  Notation PD := (plain_driver (F := F) (G1 := G1) (G2 := G2)).
  Notation lvA := (lv dom RA).
  Notation lvH := (lv dom RH).

  Lemma lv_nth_error {A B} {AX : AbGrp A} {AY : AbGrp B} {MX : Mod F A} {MY : Mod F B} (R : (I -> A) -> B -> Prop) (LR : lin dom R) v x j : lv dom R v x ->
    match nth_error x j with
    | Some y => exists a, (forall i, dom i -> nth_error (v i) j = Some (a i)) /\ R a y
    | None => forall i, dom i -> nth_error (v i) j = None
    end.
  Proof.
    intros [L K]. destruct (nth_error x j) as [y|] eqn:E.
    - assert (Lj : j < length x) by (apply nth_error_Some; congruence). exists (fun i => nth j (v i) 0). split.
      + intros i Di. apply nth_error_nth'. rewrite L by exact Di. exact Lj.
      + specialize (K j Lj). rewrite (nth_error_nth _ _ 0 E) in K. exact K.
    - apply nth_error_None in E. intros i Di. apply nth_error_None. rewrite L by exact Di. exact E.
  Qed.

  Lemma eval_rel pub wit w (W : lvA wit w) row : forall acc x, RA acc x ->
    orel dom RA (fun i => evaluate_constraint (D i) pub (wit i) row (acc i)) (evaluate_constraint PD pub w row x).
  Proof.
    induction row as [|[c ix] row IH]; intros acc x X; [apply (orel_done RA), X|]. cbn [evaluate_constraint].
    destruct (nth_error pub ix) as [v|] eqn:E.
    - apply IH with (acc := fun i => drv_add_public (D i) (acc i) (rmul v c)). cbn. apply Hpub, X.
    - pose proof (lv_nth_error LA (ix - length pub) W) as K. destruct (nth_error w (ix - length pub)) as [y|].
      + destruct K as (a & Ea & Ha). eapply orel_ext with (o1 := fun i => evaluate_constraint (D i) pub (wit i) row (acc i + smul c (a i))).
        * intros i Di. rewrite Ea by exact Di. reflexivity.
        * apply IH. apply (lin_add LA X). apply (lin_smul LA). exact Ha.
      + eapply orel_ext; [|apply orel_fail]. intros i Di. rewrite K by exact Di. reflexivity.
  Qed.
  Lemma eval_half_rel pub wit w (W : lvA wit w) row : forall acc x, RH acc x ->
    orel dom RH (fun i => evaluate_constraint_half (D i) pub (wit i) row (acc i)) (evaluate_constraint_half PD pub w row x).
  Proof.
    induction row as [|[c ix] row IH]; intros acc x X; [apply (orel_done RH), X|]. cbn [evaluate_constraint_half].
    destruct (nth_error pub ix) as [v|] eqn:E.
    - apply IH with (acc := fun i => if drv_adds (D i) then acc i + rmul v c else acc i). cbn. apply HaddH, X.
    - pose proof (lv_nth_error LA (ix - length pub) W) as K. destruct (nth_error w (ix - length pub)) as [y|].
      + destruct K as (a & Ea & Ha).
        eapply orel_ext with (o1 := fun i => evaluate_constraint_half (D i) pub (wit i) row (acc i + rmul (drv_to_half_share (D i) (a i)) c)).
        * intros i Di. rewrite Ea by exact Di. reflexivity.
        * apply IH with (acc := fun i => acc i + rmul (drv_to_half_share (D i) (a i)) c). apply (lin_add LH X).
          pose proof (lin_smul LH c (Hhalf Ha)) as S. cbn in S. cbn [drv_to_half_share PD plain_driver]. rewrite (rmul_comm y c).
          eapply (lin_ext LH); [|exact S]. intros i _. cbn. apply rmul_comm.
      + eapply orel_ext; [|apply orel_fail]. intros i Di. rewrite K by exact Di. reflexivity.
  Qed.
  Lemma rows_rel n rows pub wit w (W : lvA wit w) : orel dom lvA (fun i => evaluate_rows (D i) n rows pub (wit i)) (evaluate_rows PD n rows pub w).
  Proof.
    unfold evaluate_rows. eapply orel_obd with (R := lvA).
    - apply (orel_traverse LA). intros row. apply (eval_rel pub W row (acc := fun _ => 0)), (lin_0 LA).
    - intros v x V _. apply (orel_done lvA (fun i => resize n 0 (v i))). apply (lv_resize LA), V.
  Qed.
  Lemma rows_half_rel n rows pub wit w (W : lvA wit w) :
    orel dom lvH (fun i => evaluate_rows_half (D i) n rows pub (wit i)) (evaluate_rows_half PD n rows pub w).
  Proof.
    unfold evaluate_rows_half. eapply orel_obd with (R := lvH).
    - apply (orel_traverse LH). intros row. apply (eval_half_rel pub W row (acc := fun _ => 0)), (lin_0 LH).
    - intros v x V _. apply (orel_done lvH (fun i => resize n 0 (v i))). apply (lv_resize LH), V.
  Qed.
  Lemma with_public_rel nc ni a x pub : lvA a x -> lvA (fun i => with_public (D i) nc ni (a i) pub) (with_public PD nc ni x pub).
  Proof.
    intros V. unfold with_public. apply (lv_app LA); [apply (lv_firstn LA), V|]. apply (lv_app LA); [|apply (lv_skipn LA), V].
    apply (lv_map_list LA). intros c. apply Hprom.
  Qed.
  Lemma resize_length {A} n (d : A) l : length (resize n d l) = n.
  Proof. unfold resize. rewrite app_length, firstn_length, repeat_length. lia. Qed.
  Lemma rows_length n rows pub w a : evaluate_rows PD n rows pub w = Done a -> length a = n.
  Proof. unfold evaluate_rows. destruct (traverse _ _); cbn; [|discriminate]. injection 1 as <-. apply resize_length. Qed.
  Lemma with_public_length n nc ni (a : list F) pub : length a = n -> nc + ni <= n -> length pub = ni -> length (with_public PD nc ni a pub) = n.
  Proof. intros L K P. unfold with_public. rewrite !app_length, firstn_length, map_length, skipn_length. lia. Qed.
  Lemma shifted_length {A} {AX : AbGrp A} {MX : Mod F A} g k t (v : list A) : length (shifted g k t v) = (2 ^ k)%nat.
  Proof. apply dft_length. Qed.
  Lemma domain_ge m : m <= 2 ^ Nat.log2_up m.
  Proof. destruct (Nat.le_gt_cases m 1) as [L|L]; [destruct m as [|[|]]; cbn; lia|apply Nat.log2_up_spec; exact L]. Qed.

  (** what the reduction does to the state *)
  Definition adv_wm (R : reduction) (m : matrices F) (st : St) : St :=
    let n := (2 ^ Nat.log2_up (num_constraints m + num_instance_variables m))%nat in
    match R with CircomReduction => adv n (adv n st) | LibSnarkReduction => adv n st end.
  Lemma wm_rel R m pub wit w st pst : lvA wit w -> sync st -> length pub = num_instance_variables m ->
    orel dom (fun r z => lvH (fun i => fst (r i)) (fst z) /\ snd z = pst /\ forall i, dom i -> snd (r i) = adv_wm R m (st i))
      (fun i => witness_map R (D i) fuel (threads i) m pub (wit i) (st i)) (witness_map R PD fuel threads0 m pub w pst).
  Proof.
    intros W Y Lp. set (T := fun r z => _). pose proof (domain_ge (num_constraints m + num_instance_variables m)) as DG.
    destruct R; cbn [witness_map adv_wm] in *.
    - unfold circom_witness_map. set (k := Nat.log2_up _) in *. destruct (two_adicity <? k)%nat; [apply orel_fail|].
      destruct (groth16_roots_of_unity fuel k) as [[g s]|]; [|apply orel_fail]. rewrite table_eq. set (tb := bit_reverse 0 k _).
      eapply orel_obd; [apply rows_rel, W|]. intros a0 x0 V0 E0. cbn beta. eapply orel_obd; [apply rows_rel, W|]. intros b y V1 E1. cbn beta.
      assert (La : length (with_public PD (num_constraints m) (num_instance_variables m) x0 pub) = (2 ^ k)%nat).
      { apply with_public_length; [exact (rows_length E0)|exact DG|exact Lp]. }
      pose proof (with_public_rel (num_constraints m) (num_instance_variables m) pub V0) as V2.
      destruct (Hlmv Y V2 V1) as (z & Ez & Hz); [rewrite La; symmetry; exact (rows_length E1)|]. rewrite La in Ez.
      cbn [obd drv_local_mul_vec PD plain_driver fst snd].
      pose proof (Hadv (2 ^ k) Y) as Y1.
      destruct (Hlmv Y1 (lv_shifted LA g k tb V2) (lv_shifted LA g k tb V1)) as (z1 & Ez1 & Hz1); [rewrite !shifted_length; reflexivity|].
      rewrite shifted_length in Ez1.
      exists (fun i => (map2 gsub (z1 i) (shifted g k tb (z i)), adv (2 ^ k) (adv (2 ^ k) (st i)))). split.
      + intros i Di. rewrite table_eq. fold tb. rewrite Ez by exact Di. cbn [obd fst snd]. rewrite Ez1 by exact Di. reflexivity.
      + unfold T. cbn [fst snd]. split; [|split; [reflexivity|intros; reflexivity]].
        apply (lv_sub LH); [exact Hz1|apply (lv_shifted LH), Hz].
    - unfold libsnark_witness_map. set (k := Nat.log2_up _) in *. destruct (two_adicity <? k)%nat; [apply orel_fail|].
      rewrite table_eq, chunked_powers_eq. set (tb := bit_reverse 0 k _). set (g := ark_root k).
      eapply orel_obd; [apply rows_rel, W|]. intros a0 x0 V0 E0. cbn beta. eapply orel_obd; [apply rows_rel, W|]. intros b y V1 E1. cbn beta.
      pose proof (with_public_rel (num_constraints m) (num_instance_variables m) pub V0) as V2.
      destruct (Hlmv Y (lv_shifted LA g k tb V2) (lv_shifted LA g k tb V1)) as (z1 & Ez1 & Hz1); [rewrite !shifted_length; reflexivity|].
      rewrite shifted_length in Ez1. cbn [obd drv_local_mul_vec PD plain_driver fst snd].
      eapply orel_ext with (o1 := fun i => obd (evaluate_rows_half (D i) (2 ^ k) (mat_c m) pub (wit i)) (fun c0 =>
        if feqb (fpow fgenerator (2 ^ k) - rone) 0 || feqb fgenerator 0 then Failed (Panic "called `Option::unwrap()` on a `None` value")
        else Done (map2 rmul (bit_reverse 0 k (ifft_in_to_out g k (map2 (fun x y => rmul (x - y) (finv (fpow fgenerator (2 ^ k) - rone))) (z1 i) (shifted g k tb c0))))
                     (map (fpow (finv fgenerator)) (seq 0 (2 ^ k))), adv (2 ^ k) (st i)))).
      { intros i Di. rewrite table_eq, chunked_powers_eq. fold tb. rewrite Ez1 by exact Di. cbn [obd fst snd]. reflexivity. }
      eapply orel_obd; [apply rows_half_rel, W|]. intros c x V3 _. cbn beta.
      destruct (feqb _ 0 || _); [apply orel_fail|]. apply (orel_done T (fun i => (_, adv (2 ^ k) (st i)))).
      unfold T. cbn [fst snd]. split; [|split; [reflexivity|intros; reflexivity]].
      assert (K : forall (u : I -> list F) x, lvH u x -> forall (r : list F), lvH (fun i => map2 rmul (u i) r) (map2 rmul x r)).
      { intros u x' U r. pose proof (lv_distribute LH r U) as E. unfold distribute in E.
        replace (map2 rmul x' r) with (map2 (fun c p => smul p c) x' r); [|clear; revert r; induction x'; intros [|]; cbn; try reflexivity; f_equal; [apply rmul_comm|auto]].
        eapply (lv_ext LH); [|exact E]. intros i Di. cbn. generalize (u i) as l. clear. intros l. revert r. induction l; intros [|]; cbn; try reflexivity. f_equal; [apply rmul_comm|auto]. }
      apply K. apply (lv_bit_reverse LH), (lv_bit_reverse LH), (lv_idft LH).
      set (q := finv _).
      assert (E : forall u v : list F, map2 (fun x y => rmul (x - y) q) u v = map (smul q) (map2 gsub u v)).
      { clear. induction u; intros [|]; cbn; try reflexivity. f_equal; [apply rmul_comm|auto]. }
      rewrite E. eapply (lv_ext LH) with (v := fun i => map (smul q) (map2 gsub (z1 i) (shifted g k tb (c i)))).
      { intros i _. symmetry. apply E. }
      apply (lv_smul LH), (lv_sub LH); [exact Hz1|apply (lv_shifted LH), V3].
  Qed.

  Lemma coeff_rel {G} {AG : AbGrp G} {MG : Mod F G} (RG : (I -> G) -> G -> Prop) (LG : lin dom RG)
        (HaddG : forall a x c, RG a x -> RG (fun i => if drv_adds (D i) then a i + c else a i) (x + c))
        (HptG : forall a x p, RH a x -> RG (fun i => smul (a i) p) (smul x p)) init x0 q vk input aux h :
    RG init x0 -> lvH aux h -> orel dom RG (fun i => calculate_coeff (D i) (init i) q vk input (aux i)) (calculate_coeff PD x0 q vk input h).
  Proof.
    intros X V. unfold calculate_coeff. destruct q as [|q0 q]; [apply orel_fail|]. destruct (_ <? _)%nat; [apply orel_fail|].
    cbn [drv_adds PD plain_driver]. apply (orel_done RG (fun i => _)).
    apply (lin_add LG); [|apply (lv_msm LH LG HptG), V]. apply HaddG with (a := fun i => _), HaddG with (a := fun i => _), HaddG. exact X.
  Qed.

  (** ** The network part, for any logic of programs *)
  Context (WP : forall A, (I -> prog I M A) -> ((I -> A) -> Prop) -> Prop) (WO : forall A, (I -> prog I M A) -> ((I -> outcome A) -> Prop) -> Prop).
  Context (WO_bind : forall A B (ps : I -> prog I M A) (ks : I -> A -> prog I M B) Q,
              WP ps (fun a => WO (fun i => ks i (a i)) Q) -> WO (fun i => bind (ps i) (ks i)) Q).
  Context (WO_ext : forall A (ps qs : I -> prog I M A) Q, (forall i, dom i -> ps i = qs i) -> WO qs Q -> WO ps Q).
  Context (WO_fail : forall A e (Q : (I -> outcome A) -> Prop), Q (fun _ => Failed e) -> WO (fun _ => Fail e) Q).
  Context (WO_ret : forall A (a : I -> A) (Q : (I -> outcome A) -> Prop), Q (fun i => Done (a i)) -> WO (fun i => Ret (a i)) Q).
  Context (WP_mono : forall A (ps : I -> prog I M A) (Q Q' : (I -> A) -> Prop), (forall a, Q a -> Q' a) -> WP ps Q -> WP ps Q').
  Context (Hrand : forall st, sync st -> exists r a, WP (fun i => drv_rand (D i) (st i)) (fun a' => forall i, dom i -> a' i = a i) /\
                                            RA (fun i => fst (a i)) r /\ sync (fun i => snd (a i))).
  Context (Hopen1 : forall st a x, sync st -> R1 a x -> WP (fun i => drv_open_1 (D i) (a i) (st i)) (fun c => forall i, dom i -> c i = (x, st i))).
  Context (Hopen2 : forall st a x, sync st -> R2 a x -> WP (fun i => drv_open_2 (D i) (a i) (st i)) (fun c => forall i, dom i -> c i = (x, st i))).
  Context (Hsmul : forall st a x b y, sync st -> R1 a x -> RA b y ->
              WP (fun i => drv_scalar_mul (D i) (a i) (b i) (st i)) (fun c => R1 (fun i => fst (c i)) (smul y x) /\ sync (fun i => snd (c i)))).

  Lemma WO_leaf {A B X} (R : (I -> A) -> B -> Prop) (o : I -> outcome A) o' (ks : I -> A -> prog I M X) (Q : (I -> outcome X) -> Prop) :
    orel dom R o o' -> match o' with Done b => forall a, R a b -> WO (fun i => ks i (a i)) Q | Failed e => Q (fun _ => Failed e) end ->
    WO (fun i => bind (leaf (o i)) (ks i)) Q.
  Proof.
    destruct o' as [b|e]; cbn; intros X0 K.
    - destruct X0 as (a & E & Ha). eapply WO_ext; [|exact (K a Ha)]. intros i Di. rewrite E by exact Di. reflexivity.
    - eapply WO_ext; [|apply WO_fail; exact K]. intros i Di. rewrite X0 by exact Di. reflexivity.
  Qed.
  Definition same_result {X} (o' : outcome (proof G1 G2)) (o : I -> outcome (proof G1 G2 * X)) : Prop :=
    forall i, dom i -> match o' with Done p => exists x, o i = Done (p, x) | Failed e => o i = Failed e end.
  Lemma create_rel pk r s rr ss h hh pub aux w st0 st1 pst pst1 : sync st0 -> sync st1 -> RA r rr -> RA s ss -> lvH h hh -> lvH aux w ->
    WO (fun i => create_proof (D i) pk (r i) (s i) (h i) pub (aux i) (st0 i) (st1 i))
       (same_result (obd (local (create_proof PD pk rr ss hh pub w pst pst1)) (fun x => Done (fst x)))).
  Proof.
    intros Y0 Y1 Hr Hs Vh Vw. unfold create_proof. destruct pub as [|p0 input]; [apply WO_fail; intros i _; reflexivity|].
    eapply WO_leaf; [apply (coeff_rel L1 Hadd1 Hpt1 (init := fun i => _)); [apply Hpt1, (Hhalf Hr)|exact Vw]|].
    cbn [drv_to_half_share PD plain_driver]. destruct (calculate_coeff _ (smul rr _) _ _ _ _) as [A|e]; [|intros i _; reflexivity]. intros ga Ha.
    eapply WO_leaf; [apply (coeff_rel L1 Hadd1 Hpt1 (init := fun i => _)); [apply Hpt1, (Hhalf Hs)|exact Vw]|].
    cbn [leaf bind]. destruct (calculate_coeff _ (smul ss (delta_g1 pk)) _ _ _ _) as [B1|e]; [|intros i _; reflexivity]. intros g1b Hb1.
    eapply WO_leaf; [apply (coeff_rel L2 Hadd2 Hpt2 (init := fun i => _)); [apply Hpt2, (Hhalf Hs)|exact Vw]|].
    cbn [leaf bind]. destruct (calculate_coeff _ (smul ss (delta_g2 pk)) _ _ _ _) as [B2|e]; [|intros i _; reflexivity]. intros g2b Hb2.
    cbn [leaf bind drv_local_mul_vec map2 fst snd drv_open_1 drv_open_2 drv_scalar_mul local obd].
    destruct (@Hlmv st0 (fun i => [r i]) (fun i => [s i]) [rr] [ss] Y0) as (z & Ez & Hz);
      [apply (lv_cons LA Hr), lv_nil|apply (lv_cons LA Hs), lv_nil|reflexivity|]. cbn [length map2] in Ez, Hz.
    destruct (lv_one Hz) as (z1 & Ez1 & Hz1).
    eapply WO_ext.
    { intros i Di. rewrite Ez by exact Di. cbn [leaf bind fst snd]. rewrite Ez1 by exact Di. reflexivity. }
    apply WO_bind. eapply WP_mono; [|apply (Hopen1 (Hadv 1 Y0) Ha)]. intros ao Hao. cbn beta in Hao.
    apply WO_bind. eapply WP_mono; [|apply (Hsmul Y1 Hb1 Hr)]. intros rb (Hrb & Y2).
    apply WO_bind. 
    eapply WP_mono; [|apply (@Hopen1 (fun i => snd (ao i)) (fun i => smul (drv_to_half_share (D i) (s i)) (fst (ao i)) + fst (rb i) - smul (z1 i) (delta_g1 pk) + msm (l_query pk) (aux i) + msm (h_query pk) (h i))
                               (smul ss A + smul rr B1 - smul (rmul rr ss) (delta_g1 pk) + msm (l_query pk) w + msm (h_query pk) hh))].
    - intros co Hco. cbn beta in Hco. apply WO_bind. eapply WP_mono; [|apply (Hopen2 Y2 Hb2)]. intros bo Hbo. cbn beta in Hbo.
      apply WO_ret. intros i Di. rewrite (Hao i Di), (Hco i Di), (Hbo i Di). cbn [fst snd]. eexists. reflexivity.
    - eapply Hsync; [|exact (Hadv 1 Y0)]. intros i Di. rewrite (Hao i Di). reflexivity.
    - apply (lin_add L1); [|apply (lv_msm LH L1 Hpt1), Vh]. apply (lin_add L1); [|apply (lv_msm LH L1 Hpt1), Vw].
      apply (lin_sub L1); [|apply Hpt1; exact Hz1]. apply (lin_add L1); [|exact Hrb].
      eapply (lin_ext L1); [|exact (Hpt1 A (Hhalf Hs))]. intros i Di. cbn. rewrite (Hao i Di). reflexivity.
  Qed.

  (** the randomness of the proof is determined by the states before any input is known *)
  Theorem prove_rel R m st0 st1 : sync st0 -> sync st1 -> exists r s : F, forall pk pub wit w, lvA wit w ->
    WO (fun i => prove_inner (D i) (witness_map R (D i) fuel (threads i)) pk m pub (wit i) (st0 i) (st1 i))
       (same_result (plain_prove R fuel threads0 pk m pub w r s)).
  Proof.
    intros Y0 Y1.
    assert (Y2 : sync (fun i => adv_wm R m (st0 i))). { destruct R; unfold adv_wm; cbn beta zeta; [apply Hadv with (st := fun i => adv _ (st0 i))|]; apply Hadv; assumption. }
    destruct (Hrand Y2) as (r & a & Wr & Hr & Y3). destruct (Hrand Y3) as (s & b & Ws & Hs & Y4).
    exists r, s. intros pk pub wit w W. unfold plain_prove, prove_inner.
    destruct (length pub =? num_instance_variables m)%nat eqn:Ep; cbn [negb]; [|apply WO_fail; intros i _; reflexivity]. apply Nat.eqb_eq in Ep.
    destruct (length w =? num_witness_variables m)%nat eqn:Ew; cbn [negb].
    2: { eapply WO_ext; [|apply WO_fail]; [intros i Di; cbn beta; destruct W as [L _]; rewrite (L i Di), Ew; reflexivity|]. intros i _. reflexivity. }
    eapply WO_ext; [intros i Di; destruct W as [L _]; rewrite (L i Di), Ew; cbn [negb]; reflexivity|].
    eapply WO_leaf; [apply (@wm_rel R m pub wit w st0 [r; s] W Y0 Ep)|].
    destruct (witness_map R PD fuel threads0 m pub w [r; s]) as [[hh ps]|e]; [|intros i _; reflexivity]. intros h (Vh & Es & Eh). cbn [fst snd] in *. subst ps.
    cbn [leaf bind drv_rand PD plain_driver pop fst snd].
    eapply WO_ext with (qs := fun i => bind (drv_rand (D i) (adv_wm R m (st0 i))) (fun r => bind (drv_rand (D i) (snd r)) (fun s =>
       create_proof (D i) pk (fst r) (fst s) (fst (h i)) pub (map (drv_to_half_share (D i)) (wit i)) (snd s) (st1 i)))).
    { intros i Di. rewrite (Eh i Di). reflexivity. }
    apply WO_bind. eapply WP_mono; [|exact Wr]. intros a' Ea. cbn beta.
    eapply WO_ext with (qs := fun i => bind (drv_rand (D i) (snd (a i))) (fun s =>
       create_proof (D i) pk (fst (a i)) (fst s) (fst (h i)) pub (map (drv_to_half_share (D i)) (wit i)) (snd s) (st1 i))).
    { intros i Di. rewrite (Ea i Di). reflexivity. }
    apply WO_bind. eapply WP_mono; [|exact Ws]. intros b' Eb. cbn beta.
    eapply WO_ext with (qs := fun i => create_proof (D i) pk (fst (a i)) (fst (b i)) (fst (h i)) pub (map (drv_to_half_share (D i)) (wit i)) (snd (b i)) (st1 i)).
    { intros i Di. rewrite (Eb i Di). reflexivity. }
    apply (@create_rel pk (fun i => fst (a i)) (fun i => fst (b i)) r s (fun i => fst (h i)) hh pub
             (fun i => map (drv_to_half_share (D i)) (wit i)) _ (fun i => snd (b i)) st1); try assumption.
    exact (@lv_map_rel _ dom F _ _ _ _ _ _ _ _ _ _ _ _ _ RA RH LA LH (fun i => drv_to_half_share (D i)) (fun x => x) Hhalf _ _ W).
  Qed.
End Gen.
