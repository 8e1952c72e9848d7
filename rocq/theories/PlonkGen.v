(** * A simulation between Plonk drivers

    The rounds of the prover treat shares only through the driver and through linear operations.
    When a family of drivers (one per party) is related to a local driver operation by operation,
    the whole run of the prover is related to the local run. *)
From Coq Require Import String List Arith Bool Lia.
From Verif Require Import Proc Alg Rep3Net Rep3 ShamirPoly Shamir ShamirAlg Dft Groth16 Groth16Gen Plonk.
Import ListNotations.
Set Implicit Arguments.
Unset Strict Implicit.
Local Open Scope grp_scope.
Local Open Scope list_scope.

Lemma local_bind {A B} (q : prog Empty_set Empty_set A) (k : A -> prog Empty_set Empty_set B) : local (bind q k) = obd (local q) (fun a => local (k a)).
Proof. induction q as [a|e|p|p]; cbn; try reflexivity; destruct p. Qed.
Lemma local_leaf {A} (o : outcome A) : local (leaf o) = o.
Proof. destruct o; reflexivity. Qed.

(** ** More about linear relations *)
Section VecMore.
  Context {I : Type} (dom : I -> Prop) {F : Type} {FF : Fld F}.
  Section One.
    Context {A B} {AA : AbGrp A} {MA : Mod F A} {AB : AbGrp B} {MB : Mod F B} (R : (I -> A) -> B -> Prop) (LR : lin dom R).
    Notation lv := (lv dom R).
    Lemma lv_nil_ext v : (forall i, dom i -> v i = []) -> lv v [].
    Proof. intros E. eapply (lv_ext LR); [|apply lv_nil]. intros i Di. symmetry. auto. Qed.
    Lemma lv_nil_inv v : lv v [] -> forall i, dom i -> v i = [].
    Proof. intros [L _] i Di. specialize (L i Di). destruct (v i); [reflexivity|discriminate]. Qed.
    Lemma lv_uncons v x xs : lv v (x :: xs) -> exists a w, (forall i, dom i -> v i = a i :: w i) /\ R a x /\ lv w xs.
    Proof.
      intros V. destruct (lv_cons_inv LR V) as [X W]. exists (fun i => nth 0 (v i) 0), (fun i => tl (v i)). split; [|split; assumption].
      intros i Di. destruct V as [L _]. specialize (L i Di). destruct (v i); [discriminate|]. reflexivity.
    Qed.
    Lemma lv_ind2 (P : (I -> list A) -> list B -> Prop) : (forall v w x, (forall i, dom i -> v i = w i) -> P v x -> P w x) ->
      P (fun _ => []) [] -> (forall a x v xs, R a x -> lv v xs -> P v xs -> P (fun i => a i :: v i) (x :: xs)) -> forall v x, lv v x -> P v x.
    Proof.
      intros PE P0 PS v x. revert v. induction x as [|x xs IH]; intros v V.
      - eapply PE; [|exact P0]. intros i Di. symmetry. exact (lv_nil_inv V Di).
      - destruct (lv_uncons V) as (a & w & Ew & X & W). eapply PE; [|exact (PS _ _ _ _ X W (IH _ W))]. intros i Di. symmetry. auto.
    Qed.
    Lemma lv_rev v x : lv v x -> lv (fun i => rev (v i)) (rev x).
    Proof.
      revert v x. apply lv_ind2; [|apply lv_nil|].
      - intros v w x E. apply (lv_ext LR). intros i Di. rewrite E by exact Di. reflexivity.
      - intros a x v xs X _ V. cbn [rev]. apply (lv_app LR); [exact V|]. apply (lv_cons LR); [exact X|apply lv_nil].
    Qed.
    Lemma lv_zip_pub {C} (f : I -> A -> C -> A) (f' : B -> C -> B) : (forall a x c, R a x -> R (fun i => f i (a i) c) (f' x c)) ->
      forall m v x, lv v x -> lv (fun i => zip_into (f i) (v i) m) (zip_into f' x m).
    Proof.
      intros K m v x V. revert m. revert v x V. apply (lv_ind2 (P := fun v x => forall m, lv (fun i => zip_into (f i) (v i) m) (zip_into f' x m))).
      - intros v w x E H m. eapply (lv_ext LR); [|apply H]. intros i Di. cbn. rewrite E by exact Di. reflexivity.
      - intros m. apply lv_nil.
      - intros a x v xs X V IH [|c m]; cbn [zip_into]; apply (lv_cons LR); auto.
    Qed.
    Lemma lv_on_head (f : I -> A -> A) (f' : B -> B) : (forall a x, R a x -> R (fun i => f i (a i)) (f' x)) ->
      forall v x, lv v x -> lv (fun i => on_head (f i) (v i)) (on_head f' x).
    Proof.
      intros K. apply lv_ind2.
      - intros v w x E. apply (lv_ext LR). intros i Di. rewrite E by exact Di. reflexivity.
      - apply lv_nil.
      - intros a x v xs X V _. cbn. apply (lv_cons LR); auto.
    Qed.
    Lemma last_nth {X} (d : X) l : last l d = nth (length l - 1) l d.
    Proof.
      induction l as [|y l IH]; [reflexivity|]. destruct l as [|z l]; [reflexivity|]. change (last (y :: z :: l) d) with (last (z :: l) d).
      rewrite IH. cbn [length]. replace (S (S (length l)) - 1)%nat with (S (S (length l) - 1)) by lia. reflexivity.
    Qed.
    Lemma rotate_right_eq {X} (d : X) l : rotate_right d l = match l with [] => [] | _ => nth (length l - 1) l d :: firstn (length l - 1) l end.
    Proof.
      unfold rotate_right. destruct l as [|y l]; [reflexivity|]. f_equal; [apply last_nth|]. rewrite removelast_firstn_len. f_equal. cbn [length]. lia.
    Qed.
    Lemma lv_rotate v x : lv v x -> lv (fun i => rotate_right 0 (v i)) (rotate_right 0 x).
    Proof.
      intros V. rewrite rotate_right_eq. destruct x as [|x xs].
      - apply lv_nil_ext. intros i Di. rewrite (lv_nil_inv V Di). reflexivity.
      - eapply (lv_ext LR) with (v := fun i => nth (length (x :: xs) - 1) (v i) 0 :: firstn (length (x :: xs) - 1) (v i)).
        + intros i Di. rewrite rotate_right_eq. destruct V as [L _]. rewrite <- (L i Di). specialize (L i Di). destruct (v i); [discriminate|]. reflexivity.
        + apply (lv_cons LR); [apply (lv_nth LR), V|apply (lv_firstn LR), V].
    Qed.
    Lemma lv_fold_snoc {X} (f : I -> list A -> X -> A) (f' : list B -> X -> B) : (forall q q' j, lv q q' -> R (fun i => f i (q i) j) (f' q' j)) ->
      forall js q q', lv q q' -> lv (fun i => fold_left (fun q j => q ++ [f i q j]) js (q i)) (fold_left (fun q j => q ++ [f' q j]) js q').
    Proof.
      intros K js. induction js as [|j js IH]; intros q q' Hq; [exact Hq|]. cbn [fold_left].
      apply (IH (fun i => q i ++ [f i (q i) j])). apply (lv_app LR); [exact Hq|]. apply (lv_cons LR); [apply K, Hq|apply lv_nil].
    Qed.
    Lemma lv_repeat n a x : R a x -> lv (fun i => repeat (a i) n) (repeat x n).
    Proof. intros X. induction n; [apply lv_nil|]. cbn. apply (lv_cons LR); assumption. Qed.
    Lemma lv_add v x w y : lv v x -> lv w y -> lv (fun i => map2 gadd (v i) (w i)) (map2 gadd x y).
    Proof.
      intros V. revert w y. revert v x V.
      apply (lv_ind2 (P := fun v x => forall w y, lv w y -> lv (fun i => map2 gadd (v i) (w i)) (map2 gadd x y))).
      - intros v w x E H u y U. eapply (lv_ext LR); [|apply H, U]. intros i Di. cbn. rewrite E by exact Di. reflexivity.
      - intros w y W. apply lv_nil.
      - intros a x v xs X V IH w [|y ys] W.
        + apply lv_nil_ext. intros i Di. rewrite (lv_nil_inv W Di). reflexivity.
        + destruct (lv_uncons W) as (b & w1 & Ew & Y & W1). eapply (lv_ext LR); [|exact (lv_cons LR (lin_add LR X Y) (IH _ _ W1))].
          intros i Di. cbn. rewrite Ew by exact Di. reflexivity.
    Qed.
    Lemma lv_fold_pub {C} (f : I -> A -> C -> A) (f' : B -> C -> B) : (forall a x c, R a x -> R (fun i => f i (a i) c) (f' x c)) ->
      forall l a x, R a x -> R (fun i => fold_left (f i) l (a i)) (fold_left f' l x).
    Proof. intros K l. induction l as [|c l IH]; intros a x X; [exact X|]. cbn. apply (IH (fun i => f i (a i) c)), K, X. Qed.
  End One.
  Lemma lv_zip {A B A' B'} {AA : AbGrp A} {MA : Mod F A} {AB : AbGrp B} {MB : Mod F B} {AA' : AbGrp A'} {MA' : Mod F A'} {AB' : AbGrp B'} {MB' : Mod F B'}
        (R : (I -> A) -> B -> Prop) (S : (I -> A') -> B' -> Prop) (LR : lin dom R) (LS : lin dom S) (f : I -> A -> A' -> A) (f' : B -> B' -> B) :
    (forall a x b y, R a x -> S b y -> R (fun i => f i (a i) (b i)) (f' x y)) ->
    forall v x, lv dom R v x -> forall w y, lv dom S w y -> lv dom R (fun i => zip_into (f i) (v i) (w i)) (zip_into f' x y).
  Proof.
    intros K. apply (lv_ind2 LR (P := fun v x => forall w y, lv dom S w y -> lv dom R (fun i => zip_into (f i) (v i) (w i)) (zip_into f' x y))).
    - intros v w x E H u y U. eapply (lv_ext LR); [|apply H, U]. intros i Di. cbn. rewrite E by exact Di. reflexivity.
    - intros w y W. apply lv_nil.
    - intros a x v xs X V IH w [|y ys] W.
      + eapply (lv_ext LR); [|exact (lv_cons LR X V)]. intros i Di. cbn. rewrite (lv_nil_inv W Di). reflexivity.
      + destruct (lv_uncons LS W) as (b & w1 & Ew & Y & W1). eapply (lv_ext LR); [|exact (lv_cons LR (K _ _ _ _ X Y) (IH _ _ W1))].
        intros i Di. cbn. rewrite Ew by exact Di. reflexivity.
  Qed.
  Lemma lv_fold_combine {A B} {AA : AbGrp A} {MA : Mod F A} {AB : AbGrp B} {MB : Mod F B} (R : (I -> A) -> B -> Prop) (LR : lin dom R) {C}
        (f : A -> C -> A) (f' : B -> C -> B) : (forall a x c, R a x -> R (fun i => f (a i) c) (f' x c)) ->
    forall (ls : list C) v x, lv dom R v x -> forall a y, R a y ->
      R (fun i => fold_left (fun acc xl => acc - f (fst xl) (snd xl)) (List.combine (v i) ls) (a i)) (fold_left (fun acc xl => acc - f' (fst xl) (snd xl)) (List.combine x ls) y).
  Proof.
    intros K ls v x V. revert ls. revert v x V.
    apply (lv_ind2 LR (P := fun v x => forall ls a y, R a y ->
      R (fun i => fold_left (fun acc xl => acc - f (fst xl) (snd xl)) (List.combine (v i) ls) (a i)) (fold_left (fun acc xl => acc - f' (fst xl) (snd xl)) (List.combine x ls) y))).
    - intros v w x E H ls a y Y. eapply (lin_ext LR); [|apply H, Y]. intros i Di. cbn. rewrite E by exact Di. reflexivity.
    - intros ls a y Y. exact Y.
    - intros a x v xs X V IH [|c ls] b y Y; [exact Y|]. cbn. apply (IH ls (fun i => b i - f (a i) c)). apply (lin_sub LR); auto.
  Qed.
End VecMore.

(** ** Relations between outcomes, up to errors *)
Section Orl.
  Context {I : Type} (dom : I -> Prop) (E : err -> err -> Prop) (bad : err -> Prop) (Erefl : forall e, E e e).
  Definition orl {A B} (R : (I -> A) -> B -> Prop) (o : I -> outcome A) (o' : outcome B) : Prop :=
    match o' with
    | Done b => exists a, (forall i, dom i -> o i = Done (a i)) /\ R a b
    | Failed e => bad e \/ exists e', E e' e /\ forall i, dom i -> o i = Failed e'
    end.
  Definition eqr {A} (a : I -> A) (b : A) : Prop := forall i, dom i -> a i = b.
  Definition pr {A B A' B'} (R : (I -> A) -> A' -> Prop) (S : (I -> B) -> B' -> Prop) (a : I -> A * B) (b : A' * B') : Prop :=
    R (fun i => fst (a i)) (fst b) /\ S (fun i => snd (a i)) (snd b).
  Lemma orl_done {A B} (R : (I -> A) -> B -> Prop) a b : R a b -> orl R (fun i => Done (a i)) (Done b).
  Proof. exists a. auto. Qed.
  Lemma orl_fail {A B} (R : (I -> A) -> B -> Prop) e : orl R (fun i => Failed e) (Failed e).
  Proof. right. exists e. auto. Qed.
  Lemma orl_ext {A B} (R : (I -> A) -> B -> Prop) o o1 o' : (forall i, dom i -> o i = o1 i) -> orl R o1 o' -> orl R o o'.
  Proof.
    intros X. destruct o' as [b|e]; cbn.
    - intros (x & Hx & HR). exists x. split; auto. intros. rewrite X; auto.
    - intros [B0|(e' & E' & Hx)]; [auto|]. right. exists e'. split; [exact E'|]. intros i Di. rewrite X; auto.
  Qed.
  Lemma orl_obd {A B A' B'} (R : (I -> A) -> B -> Prop) (S : (I -> A') -> B' -> Prop) o o' (f : I -> A -> outcome A') f' :
    orl R o o' -> (forall a b, R a b -> o' = Done b -> orl S (fun i => f i (a i)) (f' b)) -> orl S (fun i => obd (o i) (f i)) (obd o' f').
  Proof.
    destruct o' as [b|e]; cbn; intros X K.
    - destruct X as (a & Ha & HR). eapply orl_ext; [|exact (K _ _ HR eq_refl)]. intros i Di. rewrite Ha by exact Di. reflexivity.
    - destruct X as [B0|(e' & E' & Hx)]; [auto|]. right. exists e'. split; [exact E'|]. intros i Di. rewrite Hx by exact Di. reflexivity.
  Qed.
  Lemma orl_mono {A B} (R S : (I -> A) -> B -> Prop) o o' : (forall a b, R a b -> S a b) -> orl R o o' -> orl S o o'.
  Proof. intros K. destruct o'; cbn; [|auto]. intros (a & Ha & HR). exists a. auto. Qed.
  Lemma orl_refl {A} (o : outcome A) : orl eqr (fun _ => o) o.
  Proof. destruct o as [a|e]; [apply orl_done; intros i _; reflexivity|apply orl_fail]. Qed.
  Lemma orl_traverse {X A B F} {FF : Fld F} {AA : AbGrp A} {MA : Mod F A} {AB : AbGrp B} {MB : Mod F B} (R : (I -> A) -> B -> Prop) (LR : lin dom R)
        (f : I -> X -> outcome A) (f' : X -> outcome B) l : (forall x, orl R (fun i => f i x) (f' x)) ->
    orl (lv dom R) (fun i => traverse (f i) l) (traverse f' l).
  Proof.
    intros K. induction l as [|x l IH]; [apply orl_done, lv_nil|]. cbn [traverse].
    eapply orl_obd; [apply K|]. intros a b Hab _. cbn beta. eapply orl_obd; [exact IH|]. intros v vs V _. cbn beta.
    apply (orl_done (R := lv dom R) (a := fun i => a i :: v i)). apply (lv_cons LR); assumption.
  Qed.

  Context {P M : Type} (WO : forall A, (I -> prog P M A) -> ((I -> outcome A) -> Prop) -> Prop).
  Record wo_rules : Prop := {
    wo_seq : forall A B (ps : I -> prog P M A) (ks : I -> A -> prog P M B) Q, WO ps (fun o => WO (fun i => bind (leaf (o i)) (ks i)) Q) -> WO (fun i => bind (ps i) (ks i)) Q;
    wo_ext : forall A (ps qs : I -> prog P M A) Q, (forall i, dom i -> ps i = qs i) -> WO qs Q -> WO ps Q;
    wo_mono : forall A (ps : I -> prog P M A) (Q Q' : _ -> Prop), (forall o, Q o -> Q' o) -> WO ps Q -> WO ps Q';
    wo_fail : forall A e (Q : (I -> outcome A) -> Prop), (forall o, (forall i, dom i -> o i = Failed e) -> Q o) -> WO (fun _ => Fail e) Q;
    wo_ret : forall A (a : I -> A) (Q : (I -> outcome A) -> Prop), (forall o, (forall i, dom i -> o i = Done (a i)) -> Q o) -> WO (fun i => Ret (a i)) Q;
    wo_bad : forall e, bad e -> forall A (ps : I -> prog P M A) (Q : _ -> Prop), (forall o, Q o) -> WO ps Q }.
  Context (WR : wo_rules).
  Definition prel {A B} (R : (I -> A) -> B -> Prop) (ps : I -> prog P M A) (q : prog Empty_set Empty_set B) : Prop := WO ps (fun o => orl R o (local q)).
  Lemma prel_ext {A B} (R : (I -> A) -> B -> Prop) ps qs q : (forall i, dom i -> ps i = qs i) -> prel R qs q -> prel R ps q.
  Proof. intros X. apply (wo_ext WR). exact X. Qed.
  Lemma prel_mono {A B} (R S : (I -> A) -> B -> Prop) ps q : (forall a b, R a b -> S a b) -> prel R ps q -> prel S ps q.
  Proof. intros K. apply (wo_mono WR). intros o. apply orl_mono. exact K. Qed.
  Lemma prel_ret {A B} (R : (I -> A) -> B -> Prop) a b : R a b -> prel R (fun i => Ret (a i)) (Ret b).
  Proof. intros X. apply (wo_ret WR). intros o Ho. exists a. auto. Qed.
  Lemma prel_fail {A B} (R : (I -> A) -> B -> Prop) e : prel R (fun i => Fail e) (Fail e).
  Proof. apply (wo_fail WR). intros o Ho. right. exists e. auto. Qed.
  Lemma prel_leaf {A B} (R : (I -> A) -> B -> Prop) o o' : orl R o o' -> prel R (fun i => leaf (o i)) (leaf o').
  Proof.
    unfold prel. rewrite local_leaf. destruct o' as [b|e]; cbn.
    - intros (a & Ha & HR). eapply (wo_ext WR) with (qs := fun i => Ret (a i)); [intros i Di; rewrite Ha by exact Di; reflexivity|].
      apply (wo_ret WR). intros o1 Ho. exists a. auto.
    - intros [B0|(e' & E' & Hx)]; [apply (wo_bad WR B0); auto|]. eapply (wo_ext WR) with (qs := fun i => Fail e'); [intros i Di; rewrite Hx by exact Di; reflexivity|].
      apply (wo_fail WR). intros o1 Ho. right. exists e'. auto.
  Qed.
  Lemma prel_bind {A B A' B'} (R : (I -> A) -> B -> Prop) (S : (I -> A') -> B' -> Prop) ps q ks k :
    prel R ps q -> (forall a b, R a b -> local q = Done b -> prel S (fun i => ks i (a i)) (k b)) -> prel S (fun i => bind (ps i) (ks i)) (bind q k).
  Proof.
    intros X K. unfold prel in *. rewrite local_bind. apply (wo_seq WR). eapply (wo_mono WR); [|exact X]. cbn beta. intros o Ho.
    destruct (local q) as [b|e] eqn:Eq; cbn in Ho |- *.
    - destruct Ho as (a & Ha & HR). eapply (wo_ext WR); [|exact (K _ _ HR eq_refl)]. intros i Di. rewrite Ha by exact Di. reflexivity.
    - destruct Ho as [B0|(e' & E' & Hx)]; [apply (wo_bad WR B0); auto|].
      eapply (wo_ext WR) with (qs := fun i => Fail e'); [intros i Di; rewrite Hx by exact Di; reflexivity|].
      apply (wo_fail WR). intros o1 Ho. right. exists e'. auto.
  Qed.
  Lemma prel_local {A B} (R : (I -> A) -> B -> Prop) ps q q' : local q = local q' -> prel R ps q -> prel R ps q'.
  Proof. unfold prel. intros ->. auto. Qed.
  Lemma prel_bind_pub {A A' B'} (S : (I -> A') -> B' -> Prop) (o : outcome A) (ks : I -> A -> prog P M A') (k : A -> prog _ _ B') :
    (forall a, o = Done a -> prel S (fun i => ks i a) (k a)) -> prel S (fun i => bind (leaf o) (ks i)) (bind (leaf o) k).
  Proof.
    intros K. destruct o as [a|e]; [exact (K a eq_refl)|]. apply prel_fail.
  Qed.
End Orl.

(** ** The rounds *)
Arguments orl_done {I dom E bad A B R a b} _.
Arguments orl_fail {I dom E bad} _ {A B R e}.
Arguments orl_refl {I dom E bad} _ {A} o.
Arguments prel_ret {I dom E bad P M WO} WR {A B R a b} _.
Arguments prel_fail {I dom E bad} _ {P M WO} WR {A B R e}.

Section Sim.
  Context {I P M F AS PS G1 St T : Type} {FF : Fld F} {FT : Fft F} {AA : AbGrp AS} {MA : Mod F AS}.
  Context {AP : AbGrp PS} {MP : Mod F PS} {AG1 : AbGrp G1} {MG1 : Mod F G1}.
  Context (dom : I -> Prop) (E : err -> err -> Prop) (bad : err -> Prop) (Erefl : forall e, E e e).
  Context (WO : forall A, (I -> prog P M A) -> ((I -> outcome A) -> Prop) -> Prop) (WR : wo_rules dom bad WO).
  Context (D : I -> pdriver P M F AS PS G1 St) (DT : pdriver Empty_set Empty_set F F G1 G1 T).
  Context (H : list (F + G1) -> F) (fuel : nat) (zk : zkey F G1).
  Notation n := (domain_size zk).
  Context (RA : (I -> AS) -> F -> Prop) (RP : (I -> PS) -> G1 -> Prop) (LA : lin dom RA) (LP : lin dom RP).
  Notation lvA := (lv dom RA).
  Notation orl := (orl dom E bad).
  Notation prel := (prel dom E bad WO).
  Notation eqr := (eqr dom).
  Definition lvn (m : nat) (a : I -> list AS) (x : list F) : Prop := lvA a x /\ length x = m.
  (** states before the first fork (with the number of blinding factors still to draw), between the
      forks, of the two product arguments, and from then on (with the number of pairs that they own) *)
  Context (S0 : nat -> (I -> St) -> T -> Prop) (S1 SN SD : (I -> St) -> T -> Prop) (S2 : nat -> (I -> St) -> T -> Prop).
  Definition Sx st t := S0 0 st t \/ exists k, S2 k st t.
  Definition budget2 : nat := n + n * 4 * 4 + (n * 4 * 24 + n * 4 * 24).
  Record sim : Prop := {
    h_pub : forall a x c, RA a x -> RA (fun i => pd_add_public (D i) (a i) c) (pd_add_public DT x c);
    h_prom : forall c, RA (fun i => pd_promote (D i) c) (pd_promote DT c);
    h_msm : forall ps a x, lvA a x -> RP (fun i => pd_msm (D i) ps (a i)) (pd_msm DT ps x);
    h_eval : forall a x p, lvA a x -> x <> [] -> orl RA (fun i => pd_eval_poly (D i) (a i) p) (pd_eval_poly DT x p);
    h_rand : forall k st t, S0 (S k) st t -> prel (pr RA (S0 k)) (fun i => pd_rand (D i) (st i)) (pd_rand DT t);
    h_forkN : forall st t, S0 0 st t -> orl (pr SN S1) (fun i => pd_fork (D i) (n * 6 + 2) (st i)) (pd_fork DT (n * 6 + 2) t);
    h_forkD : forall st t, S1 st t -> orl (pr SD (S2 budget2)) (fun i => pd_fork (D i) (n * 7 + 2) (st i)) (pd_fork DT (n * 7 + 2) t);
    h_fork : forall m k st t, S2 (m + k) st t -> orl (pr (S2 m) (S2 k)) (fun i => pd_fork (D i) m (st i)) (pd_fork DT m t);
    h_mul : forall m k st t a x b y, S2 (m + k) st t -> lvn m a x -> lvn m b y ->
      prel (pr (lvn m) (S2 k)) (fun i => pd_mul_vec (D i) (a i) (b i) (st i)) (pd_mul_vec DT x y t);
    h_prodN : forall st t a x b y c z, SN st t -> lvn n a x -> lvn n b y -> lvn n c z ->
      prel (lvn n) (fun i => pd_array_prod_mul (D i) false (a i) (b i) (c i) (st i)) (pd_array_prod_mul DT false x y z t);
    h_prodD : forall st t a x b y c z, SD st t -> lvn n a x -> lvn n b y -> lvn n c z ->
      prel (lvn n) (fun i => pd_array_prod_mul (D i) true (a i) (b i) (c i) (st i)) (pd_array_prod_mul DT true x y z t);
    h_open_vec : forall st t a x, Sx st t -> lvA a x -> prel eqr (fun i => pd_open_vec (D i) (a i) (st i)) (pd_open_vec DT x t);
    h_open_point : forall st t a x, Sx st t -> RP a x -> prel eqr (fun i => pd_open_point (D i) (a i) (st i)) (pd_open_point DT x t);
    h_open_points : forall st t a x, Sx st t -> lv dom RP a x -> prel eqr (fun i => pd_open_points (D i) (a i) (st i)) (pd_open_points DT x t) }.
  Context (HS : sim).
  #[local] Hint Resolve Erefl : core.

  Lemma lvn_lv m a x : lvn m a x -> lvA a x.
  Proof. intros [V _]. exact V. Qed.
  Lemma lvn_map m (f : I -> nat -> AS) (f' : nat -> F) : (forall j, j < m -> RA (fun i => f i j) (f' j)) ->
    lvn m (fun i => map (f i) (seq 0 m)) (map f' (seq 0 m)).
  Proof. intros K. split; [apply (lv_map_seq LA), K|rewrite map_length, seq_length; reflexivity]. Qed.
  Lemma fft_rel g m v x : lvA v x -> lvn m (fun i => fft_dom g m (v i)) (fft_dom g m x).
  Proof. intros V. split; [apply (lv_dft LA), (lv_resize LA), V|apply dft_length]. Qed.
  Lemma idft_len {A} {AX : AbGrp A} {MX : Mod F A} g m (v : list A) : length (idft g m v) = m.
  Proof. unfold idft. rewrite map_length. apply dft_length. Qed.
  Lemma ifft_rel g m v x : lvA v x -> lvn m (fun i => ifft_dom g m (v i)) (ifft_dom g m x).
  Proof. intros V. split; [apply (lv_idft LA), (lv_resize LA), V|apply idft_len]. Qed.

  Lemma witness_rel pub wit w add ad ix : lvA wit w -> lvA add ad ->
    orl RA (fun i => get_witness (D i) zk pub (wit i) (add i) ix) (get_witness DT zk pub w ad ix).
  Proof.
    intros W A. unfold get_witness. destruct (ix <=? n_public zk)%nat.
    - destruct (nth_error pub ix); [apply (orl_done (R := RA)), (h_prom HS)|apply (orl_fail Erefl)].
    - destruct (n_vars zk <? n_additions zk)%nat; [apply (orl_fail Erefl)|]. destruct (ix <? n_vars zk - n_additions zk)%nat.
      + pose proof (lv_nth_error LA (ix - n_public zk - 1) W) as K. destruct (nth_error w _) as [y|].
        * destruct K as (a & Ea & Ha). exists a. split; [|exact Ha]. intros i Di. rewrite Ea by exact Di. reflexivity.
        * eapply orl_ext; [|apply (orl_fail Erefl)]. intros i Di. cbn. rewrite K by exact Di. reflexivity.
      + destruct (ix <? n_vars zk)%nat; [|apply (orl_fail Erefl)].
        pose proof (lv_nth_error LA (ix + n_additions zk - n_vars zk) A) as K. destruct (nth_error ad _) as [y|].
        * destruct K as (a & Ea & Ha). exists a. split; [|exact Ha]. intros i Di. rewrite Ea by exact Di. reflexivity.
        * eapply orl_ext; [|apply (orl_fail Erefl)]. intros i Di. cbn. rewrite K by exact Di. reflexivity.
  Qed.
  Lemma additions_rel pub wit w (W : lvA wit w) adds : forall acc ac, lvA acc ac ->
    orl lvA (fun i => calculate_additions (D i) zk pub (wit i) adds (acc i)) (calculate_additions DT zk pub w adds ac).
  Proof.
    induction adds as [|ad adds IH]; intros acc ac A; [apply (orl_done (R := lvA)), A|]. cbn [calculate_additions].
    eapply orl_obd; [apply (witness_rel pub _ W A)|]. intros w1 x1 X1 _. cbn beta.
    eapply orl_obd; [apply (witness_rel pub _ W A)|]. intros w2 x2 X2 _. cbn beta.
    apply (IH (fun i => acc i ++ [smul (factor1 ad) (w1 i) + smul (factor2 ad) (w2 i)])). apply (lv_app LA); [exact A|].
    apply (lv_cons LA); [|apply lv_nil]. apply (lin_add LA); apply (lin_smul LA); assumption.
  Qed.
  Lemma rand_many_rel k : forall j st t, S0 (k + j) st t -> prel (pr (lvn k) (S0 j)) (fun i => rand_many (D i) k (st i)) (rand_many DT k t).
  Proof.
    induction k as [|k IH]; intros j st t Y; cbn [rand_many].
    - apply (prel_ret WR (R := pr (lvn 0) (S0 j)) (a := fun i => ([], st i)) (b := ([], t))). split; [split; [apply lv_nil|reflexivity]|exact Y].
    - eapply (prel_bind WR); [apply (h_rand HS Y)|]. intros x y [X Y1] _. cbn beta. eapply (prel_bind WR); [apply (IH j _ _ Y1)|]. intros r rs [[R1 R2] Y2] _. cbn beta.
      apply (prel_ret WR (R := pr (lvn (S k)) (S0 j)) (a := fun i => (fst (x i) :: fst (r i), snd (r i)))). split; cbn [fst snd]; [|exact Y2].
      split; [apply (lv_cons LA); assumption|cbn; f_equal; exact R2].
  Qed.
  Lemma blind_rel v x b c : lvA v x -> lvA b c -> lvA (fun i => blind_coefficients (v i) (b i)) (blind_coefficients x c).
  Proof.
    intros V B. unfold blind_coefficients. apply (lv_rev LA) in B. apply (lv_app LA); [|exact B].
    apply (lv_zip LA LA (f := fun _ p c => p - c) (f' := fun p c => p - c)) with (w := fun i => rev (b i)); [|exact V|exact B].
    intros. apply (lin_sub LA); assumption.
  Qed.
  Lemma zip_into_length {A B} (f : A -> B -> A) : forall l m, length (zip_into f l m) = length l.
  Proof. induction l as [|x l IH]; intros [|y m]; cbn; auto. Qed.
  Lemma blind_length (x c : list F) : length (blind_coefficients x c) = (length x + length c)%nat.
  Proof. unfold blind_coefficients. rewrite app_length, zip_into_length, rev_length. reflexivity. Qed.

  (** polynomials with evaluations: the extended vector has [4 n] entries, the polynomial [n + k] *)
  Definition relPE (k : nat) (p : I -> poly_eval AS) (p' : poly_eval F) : Prop :=
    lvn (n + k) (fun i => pe_poly (p i)) (pe_poly p') /\ lvn (n * 4) (fun i => pe_eval (p i)) (pe_eval p').
  Definition relW (w : I -> wires AS) (w' : wires F) : Prop :=
    (lvn n (fun i => buffer_a (w i)) (buffer_a w') /\ lvn n (fun i => buffer_b (w i)) (buffer_b w') /\ lvn n (fun i => buffer_c (w i)) (buffer_c w')) /\
    relPE 2 (fun i => wire_a (w i)) (wire_a w') /\ relPE 2 (fun i => wire_b (w i)) (wire_b w') /\ relPE 2 (fun i => wire_c (w i)) (wire_c w').

  Lemma wire_rel dm pub wit w add ad b c m : dm_n dm = n -> lvA wit w -> lvA add ad -> lvn 2 b c ->
    orl (pr (lvn n) (relPE 2)) (fun i => compute_single_wire_poly (D i) zk dm pub (wit i) (add i) (b i) m) (compute_single_wire_poly DT zk dm pub w ad c m).
  Proof.
    intros En W A [B Lb]. unfold compute_single_wire_poly. rewrite En. eapply orl_obd with (R := lvA).
    - apply (orl_traverse LA). intros ix. apply witness_rel; assumption.
    - intros v x V _. cbn beta. apply (lv_resize LA n) in V.
      pose proof (ifft_rel (dm_w dm) n V) as [P1 P2].
      apply (orl_done (R := pr (lvn n) (relPE 2)) (a := fun i => (resize n 0 (v i), mkPE (blind_coefficients (ifft_dom (dm_w dm) n (resize n 0 (v i))) (b i))
         (fft_dom (dm_w4 dm) (n * 4) (ifft_dom (dm_w dm) n (resize n 0 (v i))))))).
      split; cbn [fst snd pe_poly pe_eval].
      + split; [exact V|apply resize_length].
      + split; cbn [pe_poly pe_eval]; [|apply fft_rel, P1]. split; [apply blind_rel; assumption|]. rewrite blind_length, P2, Lb. reflexivity.
  Qed.
  Lemma slice_rel j k l b c : lvn l b c -> j + k <= l -> lvn k (fun i => firstn k (skipn j (b i))) (firstn k (skipn j c)).
  Proof. intros [B L] K. split; [apply (lv_firstn LA), (lv_skipn LA), B|]. rewrite firstn_length, skipn_length. lia. Qed.
  Lemma wires_rel dm pub wit w add ad b c : dm_n dm = n -> lvA wit w -> lvA add ad -> lvn 11 b c ->
    orl relW (fun i => compute_wire_polynomials (D i) zk dm (b i) pub (wit i) (add i)) (compute_wire_polynomials DT zk dm c pub w ad).
  Proof.
    intros En W A B. unfold compute_wire_polynomials.
    eapply orl_obd; [apply (@wire_rel dm pub wit w add ad (fun i => firstn 2 (b i)) (firstn 2 c) (map_a zk) En W A (slice_rel (j := 0) (k := 2) B ltac:(lia)))|].
    intros wa xa [Va Pa] _. cbn beta.
    eapply orl_obd; [apply (@wire_rel dm pub wit w add ad (fun i => firstn 2 (skipn 2 (b i))) (firstn 2 (skipn 2 c)) (map_b zk) En W A (slice_rel (j := 2) (k := 2) B ltac:(lia)))|].
    intros wb xb [Vb Pb] _. cbn beta.
    eapply orl_obd; [apply (@wire_rel dm pub wit w add ad (fun i => firstn 2 (skipn 4 (b i))) (firstn 2 (skipn 4 c)) (map_c zk) En W A (slice_rel (j := 4) (k := 2) B ltac:(lia)))|].
    intros wc xc [Vc Pc] _. cbn beta.
    assert (L : forall (p : I -> list AS) x, lvn (n + 2) p x -> forall i, dom i -> (n + 2 <? length (p i))%nat = false).
    { intros p x [[L _] Lx] i Di. apply Nat.ltb_ge. rewrite L by exact Di. lia. }
    assert (L' : forall (x : list F), length x = (n + 2)%nat -> (n + 2 <? length x)%nat = false) by (intros x Lx; apply Nat.ltb_ge; lia).
    rewrite (L' _ (proj2 (proj1 Pa))), (L' _ (proj2 (proj1 Pb))), (L' _ (proj2 (proj1 Pc))). cbn [orb].
    eapply orl_ext with (o1 := fun i => Done (mkWires (fst (wa i)) (fst (wb i)) (fst (wc i)) (snd (wa i)) (snd (wb i)) (snd (wc i)))).
    - intros i Di. rewrite (L _ _ (proj1 Pa) i Di), (L _ _ (proj1 Pb) i Di), (L _ _ (proj1 Pc) i Di). reflexivity.
    - apply (orl_done (R := relW)). split; [|split; [|split]]; cbn; auto.
  Qed.
  Lemma commit_rel v x : lvA v x -> orl RP (fun i => commit (D i) zk (v i)) (commit DT zk x).
  Proof.
    intros V. unfold commit. eapply orl_ext with (o1 := fun i => obd (need (length x) (p_tau zk)) (fun _ => Done (pd_msm (D i) (firstn (length x) (p_tau zk)) (v i)))).
    { intros i Di. destruct V as [L _]. rewrite L by exact Di. reflexivity. }
    unfold need. destruct (_ <=? _)%nat; cbn [obd]; [|apply (orl_fail Erefl)]. apply (orl_done (R := RP)), (h_msm HS), V.
  Qed.

  Lemma domains_n m dm : domains_new (F := F) fuel m = Done dm -> dm_n dm = m.
  Proof.
    unfold domains_new. destruct (_ || _); [discriminate|]. destruct (_ <? _)%nat; [discriminate|]. destruct (_ <? _)%nat; [discriminate|].
    destruct (roots_of_unity fuel) as [[q rs]|]; [|discriminate]. destruct (nth_error rs (Nat.log2 m)); [|discriminate].
    destruct (nth_error rs (Nat.log2 m + 2)); [|discriminate]. destruct (nth_error rs 2); [|discriminate]. injection 1 as <-. reflexivity.
  Qed.
  (** what the initial round returns *)
  Definition relI (a : I -> list F * list AS * list AS * domains F * St) (b : list F * list F * list F * domains F * T) : Prop :=
    eqr (fun i => fst (fst (fst (fst (a i))))) (fst (fst (fst (fst b)))) /\ lvA (fun i => snd (fst (fst (fst (a i))))) (snd (fst (fst (fst b)))) /\
    lvn 11 (fun i => snd (fst (fst (a i)))) (snd (fst (fst b))) /\ (eqr (fun i => snd (fst (a i))) (snd (fst b)) /\ dm_n (snd (fst b)) = n) /\ S0 0 (fun i => snd (a i)) (snd b).
  Lemma init_rel pub wit w st t : lvA wit w -> S0 11 st t ->
    prel relI (fun i => init_round (D i) fuel zk pub (wit i) (st i)) (init_round DT fuel zk pub w t).
  Proof.
    intros W Y. unfold init_round. apply (prel_bind_pub Erefl WR). intros pub0 _.
    eapply (prel_bind WR); [apply (prel_leaf WR), (additions_rel pub0 W (additions zk) (acc := fun _ => [])), lv_nil|]. intros add ad A _. cbn beta.
    eapply (prel_bind WR); [apply (rand_many_rel (k := 11) (j := 0)), Y|]. intros b c [B Y1] _. cbn beta.
    apply (prel_bind_pub Erefl WR). intros dm Hdm.
    apply (prel_ret WR (R := relI) (a := fun i => (pub0, add i, fst (b i), dm, snd (b i)))). split; [intros i _; reflexivity|].
    split; [exact A|]. split; [exact B|]. split; [|exact Y1]. split; [intros i _; reflexivity|]. exact (domains_n Hdm).
  Qed.
  Lemma three_rel {A B} (R : (I -> A) -> B -> Prop) l l' (f : I -> G1 -> G1 -> G1 -> prog P M A) (f' : G1 -> G1 -> G1 -> prog Empty_set Empty_set B) : eqr l l' ->
    (forall a b c, prel R (fun i => f i a b c) (f' a b c)) ->
    prel R (fun i => match l i with a :: b :: c :: _ => f i a b c | _ => Fail oob end) (match l' with a :: b :: c :: _ => f' a b c | _ => Fail oob end).
  Proof.
    intros E1 K. eapply (prel_ext WR) with (qs := fun i => match l' with a :: b :: c :: _ => f i a b c | _ => Fail oob end).
    - intros i Di. rewrite E1 by exact Di. reflexivity.
    - destruct l' as [|a [|b [|c l']]]; try apply (prel_fail Erefl WR). apply K.
  Qed.
  Lemma round1_rel dm pub wit w add ad b c st t : dm_n dm = n -> lvA wit w -> lvA add ad -> lvn 11 b c -> S0 0 st t ->
    prel (pr relW eqr) (fun i => round1 (D i) zk dm (b i) pub (wit i) (add i) (st i)) (round1 DT zk dm c pub w ad t).
  Proof.
    intros En W A B Y. unfold round1. eapply (prel_bind WR); [apply (prel_leaf WR), (wires_rel pub En W A B)|]. intros ws xs (Wb & Wa & Wbb & Wc) _. cbn beta.
    eapply (prel_bind WR); [apply (prel_leaf WR), commit_rel, (proj1 (proj1 Wa))|]. intros ca ya Ca _. cbn beta.
    eapply (prel_bind WR); [apply (prel_leaf WR), commit_rel, (proj1 (proj1 Wbb))|]. intros cb yb Cb _. cbn beta.
    eapply (prel_bind WR); [apply (prel_leaf WR), commit_rel, (proj1 (proj1 Wc))|]. intros cc yc Cc _. cbn beta.
    eapply (prel_bind WR).
    { apply (h_open_points HS) with (a := fun i => [ca i; cb i; cc i]); [left; exact Y|]. repeat (apply (lv_cons LP); [assumption|]). apply lv_nil. }
    intros l l' El _. cbn beta.
    eapply (prel_ext WR) with (qs := fun i => match l' with a :: b :: c :: _ => Ret (ws i, (a, b, c)) | _ => Fail oob end).
    { intros i Di. rewrite El by exact Di. reflexivity. }
    destruct l' as [|x [|y [|z l']]]; try apply (prel_fail Erefl WR).
    apply (prel_ret WR (R := pr relW eqr) (a := fun i => (ws i, (x, y, z)))). split; cbn [fst snd]; [|intros i _; reflexivity].
    split; [exact Wb|]. split; [exact Wa|]. split; assumption.
  Qed.
  Lemma poly_nonempty m (x : list F) : length x = m -> 1 <= m -> x <> [].
  Proof. intros L Hm ->. cbn in L. lia. Qed.

  Lemma need_pub {A} (S : (I -> A) -> A -> Prop) {X} k (l : list X) (ks : I -> unit -> prog P M A) (q : unit -> prog Empty_set Empty_set A) :
    prel S (fun i => ks i tt) (q tt) -> prel S (fun i => bind (leaf (need k l)) (ks i)) (bind (leaf (need k l)) q).
  Proof. intros K. apply (prel_bind_pub Erefl WR). intros [] _. exact K. Qed.

  (** [relW], [relPE] and states after the second round *)
  Lemma compute_z_rel dm b c beta gamma ws xs st t : dm_n dm = n -> lvn 11 b c -> relW ws xs -> S0 0 st t ->
    prel (pr (relPE 3) (S2 (n * 4 * 4 + (n * 4 * 24 + n * 4 * 24)))) (fun i => compute_z (D i) zk dm (b i) beta gamma (ws i) (st i)) (compute_z DT zk dm c beta gamma xs t).
  Proof.
    intros En B ((Ba & Bb & Bc) & _) Y. unfold compute_z. cbv zeta.
    do 3 (apply (prel_bind_pub Erefl WR); intros _ _).
    eapply (prel_bind WR); [apply (prel_leaf WR), (h_forkN HS Y)|]. intros f0 g0 [Y0 Y1] _. cbn beta.
    eapply (prel_bind WR); [apply (prel_leaf WR), (h_forkD HS Y1)|]. intros f1 g1 [Yd Y2] _. cbn beta.
    eapply (prel_bind WR).
    { apply (h_prodN HS) with (a := fun i => map _ (seq 0 n)) (b := fun i => map _ (seq 0 n)) (c := fun i => map _ (seq 0 n));
        [exact Y0|..]; apply lvn_map; intros j _; do 2 apply (h_pub HS); apply (lv_nth LA); [apply Ba|apply Bb|apply Bc]. }
    intros nm nm' Vn _. cbn beta.
    eapply (prel_bind WR).
    { apply (h_prodD HS) with (a := fun i => map _ (seq 0 n)) (b := fun i => map _ (seq 0 n)) (c := fun i => map _ (seq 0 n));
        [exact Yd|..]; apply lvn_map; intros j _; do 2 apply (h_pub HS); apply (lv_nth LA); [apply Ba|apply Bb|apply Bc]. }
    intros dn dn' Vd _. cbn beta.
    eapply (prel_bind WR); [apply (h_mul HS (m := n) (k := n * 4 * 4 + (n * 4 * 24 + n * 4 * 24))); [|exact Vn|exact Vd]|].
    { replace (n + (n * 4 * 4 + (n * 4 * 24 + n * 4 * 24)))%nat with budget2 by (unfold budget2; lia). exact Y2. }
    intros bz bz' [[Vz Lz] Y3] _. cbn beta. rewrite En.
    pose proof (ifft_rel (dm_w dm) n (lv_rotate LA Vz)) as [P1 P2].
    assert (P3 : lvn (n + 3) (fun i => blind_coefficients (ifft_dom (dm_w dm) n (rotate_right 0 (fst (bz i)))) (firstn 3 (skipn 6 (b i))))
                  (blind_coefficients (ifft_dom (dm_w dm) n (rotate_right 0 (fst bz'))) (firstn 3 (skipn 6 c)))).
    { destruct (slice_rel (j := 6) (k := 3) B ltac:(lia)) as [V L]. split; [apply blind_rel; assumption|]. rewrite blind_length, P2, L. reflexivity. }
    assert (L' : (n + 3 <? length (blind_coefficients (ifft_dom (dm_w dm) n (rotate_right gzero (fst bz'))) (firstn 3 (skipn 6 c))))%nat = false).
    { apply Nat.ltb_ge. rewrite (proj2 P3). lia. }
    rewrite L'. eapply (prel_ext WR) with (qs := fun i => Ret (mkPE _ _, snd (bz i))).
    { intros i Di. destruct P3 as [[L _] L1]. rewrite L by exact Di. rewrite L'. reflexivity. }
    match goal with |- prel _ (fun i => Ret (@?a i)) _ => apply (prel_ret WR (a := a)) end. split; cbn [fst snd]; [|exact Y3].
    split; cbn [pe_poly pe_eval]; [exact P3|]. apply fft_rel, P1.
  Qed.

  Lemma round2_rel dm pub b c ws xs abc st t : dm_n dm = n -> lvn 11 b c -> relW ws xs -> S0 0 st t ->
    prel (fun o o' => (eqr (fun i => fst (fst (fst (fst (o i))))) (fst (fst (fst (fst o')))) /\ eqr (fun i => snd (fst (fst (fst (o i))))) (snd (fst (fst (fst o'))))) /\
                      relPE 3 (fun i => snd (fst (fst (o i)))) (snd (fst (fst o'))) /\ eqr (fun i => snd (fst (o i))) (snd (fst o')) /\
                      S2 (n * 4 * 4 + (n * 4 * 24 + n * 4 * 24)) (fun i => snd (o i)) (snd o'))
      (fun i => round2 (D i) H zk dm (b i) pub (ws i) abc (st i)) (round2 DT H zk dm c pub xs abc t).
  Proof.
    intros En B W Y. unfold round2. cbv zeta. eapply (prel_bind WR); [apply (compute_z_rel _ _ En B W Y)|]. intros z z' [Z Y1] _. cbn beta.
    eapply (prel_bind WR); [apply (prel_leaf WR), commit_rel, (proj1 (proj1 Z))|]. intros cz cz' C _. cbn beta.
    eapply (prel_bind WR); [apply (h_open_point HS (t := snd z')); [right; eexists; exact Y1|exact C]|]. intros oz oz' O _. cbn beta.
    match goal with |- prel _ (fun i => Ret (@?a i)) _ => apply (prel_ret WR (a := a)) end. cbn [fst snd].
    split; [split; intros i _; reflexivity|]. split; [exact Z|]. split; [exact O|exact Y1].
  Qed.

  Lemma mul_leg_rel m st t a x b y : S2 m st t -> lvn m a x -> lvn m b y ->
    prel (lvn m) (fun i => mul_leg (D i) (a i) (b i) (st i)) (mul_leg DT x y t).
  Proof.
    intros Y A B. unfold mul_leg. eapply (prel_bind WR); [apply (h_mul HS (m := m) (k := 0)); [rewrite Nat.add_0_r; exact Y|exact A|exact B]|].
    intros r r' [R1 _] _. cbn beta. match goal with |- prel _ (fun i => Ret (@?a i)) _ => apply (prel_ret WR (a := a)) end. exact R1.
  Qed.
  Lemma add_length (x y : list F) : length (map2 gadd x y) = Nat.min (length x) (length y).
  Proof. revert y. induction x as [|a x IH]; intros [|b y]; cbn; auto. Qed.
  Lemma chain_rel m : forall ms ms' k st t acc ac, S2 (m * length ms' + k) st t -> lvn m acc ac ->
    Forall2 (fun (p : (I -> list AS) * (I -> list AS)) q => lvn m (fst p) (fst q) /\ lvn m (snd p) (snd q)) ms ms' ->
    prel (lvn m) (fun i => add_mul_chain (D i) (acc i) (map (fun p => (fst p i, snd p i)) ms) (st i)) (add_mul_chain DT ac ms' t).
  Proof.
    intros ms ms' k st t acc ac Y A Fm. revert k st t acc ac Y A. induction Fm as [|[b c] [y z] ms ms' [Fb Fc] Fm IH]; intros k st t acc ac Y A; cbn [map add_mul_chain fst snd].
    - apply (prel_ret WR (R := lvn m)). exact A.
    - unfold add_mul_vec. cbn [length fst snd] in *. eapply (prel_bind WR) with (R := pr (lvn m) (S2 (m * length ms' + k))).
      + eapply (prel_bind WR).
        * apply (h_mul HS (m := m) (k := m * length ms' + k)) with (a := b) (b := c); [|exact Fb|exact Fc].
          replace (m + (m * length ms' + k))%nat with (m * S (length ms') + k)%nat by lia. exact Y.
        * intros r r' [[R1 R2] Y1] _. cbn beta. match goal with |- prel _ (fun i => Ret (@?a i)) _ => apply (prel_ret WR (a := a)) end.
          split; cbn [fst snd]; [|exact Y1]. split; [apply (lv_add LA); [exact R1|apply A]|]. rewrite add_length, R2, (proj2 A). lia.
      + intros r r' [R1 Y1] _. cbn beta. apply (IH k (fun i => snd (r i)) (snd r') (fun i => fst (r i)) (fst r')); assumption.
  Qed.
  Lemma sum_leg_rel m st t a x b y ms ms' : S2 (m * S (length ms')) st t -> lvn m a x -> lvn m b y ->
    Forall2 (fun (p : (I -> list AS) * (I -> list AS)) q => lvn m (fst p) (fst q) /\ lvn m (snd p) (snd q)) ms ms' ->
    prel (lvn m) (fun i => sum_leg (D i) (a i) (b i) (map (fun p => (fst p i, snd p i)) ms) (st i)) (sum_leg DT x y ms' t).
  Proof.
    intros Y A B Fm. unfold sum_leg. eapply (prel_bind WR).
    - apply (h_mul HS (m := m) (k := m * length ms')); [|exact A|exact B]. replace (m + m * length ms')%nat with (m * S (length ms'))%nat by lia. exact Y.
    - intros r r' [R1 Y1] _. cbn beta. apply (chain_rel (k := 0) (st := fun i => snd (r i)) (acc := fun i => fst (r i))); [rewrite Nat.add_0_r; exact Y1|exact R1|exact Fm].
  Qed.
  Lemma S2_eq k k' st t : k = k' -> S2 k st t -> S2 k' st t.
  Proof. intros ->. auto. Qed.
  Definition relM (m : nat) (es : I -> list (list AS)) (es' : list (list F)) : Prop := forall k, lvA (fun i => nth k (es i) []) (nth k es' []).
  Ltac fork m k Y := eapply (prel_bind WR); [apply (prel_leaf WR), (h_fork HS (m := m) (k := k)); eapply S2_eq; [|exact Y]; lia|];
    let f := fresh "f" in let g := fresh "g" in let A := fresh "Y" in let B := fresh "Y" in intros f g [A B] _; cbn beta.
  Ltac leg := eapply (prel_bind WR); [apply mul_leg_rel; eassumption|]; let f := fresh "r" in let g := fresh "r'" in let A := fresh "V" in intros f g A _; cbn beta.
  Lemma mul4vec_rel m k a b c d ap bp cp dp a' b' c' d' ap' bp' cp' dp' st t :
    lvn m a a' -> lvn m b b' -> lvn m c c' -> lvn m d d' -> lvn m ap ap' -> lvn m bp bp' -> lvn m cp cp' -> lvn m dp dp' -> S2 (m * 24 + k) st t ->
    prel (pr (relM m) (S2 k)) (fun i => mul4vec (D i) (a i) (b i) (c i) (d i) (ap i) (bp i) (cp i) (dp i) m (st i)) (mul4vec DT a' b' c' d' ap' bp' cp' dp' m t).
  Proof.
    intros A B C Dd Ap Bp Cp Dp Y. unfold mul4vec.
    fork m (m * 23 + k)%nat Y. fork m (m * 22 + k)%nat Y1. fork m (m * 21 + k)%nat Y3. fork m (m * 20 + k)%nat Y5.
    fork m (m * 19 + k)%nat Y7. fork m (m * 18 + k)%nat Y9. fork m (m * 17 + k)%nat Y11. fork m (m * 16 + k)%nat Y13.
    do 8 leg.
    fork m (m * 15 + k)%nat Y15. fork (m * 4)%nat (m * 11 + k)%nat Y17. fork (m * 6)%nat (m * 5 + k)%nat Y19. fork (m * 4)%nat (m * 1 + k)%nat Y21. fork m k Y23.
    leg.
    eapply (prel_bind WR).
    { apply (sum_leg_rel (ms := [(r0, r3); (r, r5); (r, r4)]) (ms' := [(r'0, r'3); (r', r'5); (r', r'4)]) Y18 V1 V3). repeat (apply Forall2_cons; [split; assumption|]); apply Forall2_nil. }
    intros s0 s0' Vs0 _. cbn beta.
    eapply (prel_bind WR).
    { apply (sum_leg_rel (ms := [(r1, r5); (r1, r4); (r0, r5); (r0, r4); (r, r6)]) (ms' := [(r'1, r'5); (r'1, r'4); (r'0, r'5); (r'0, r'4); (r', r'6)]) Y20 V2 V3). repeat (apply Forall2_cons; [split; assumption|]); apply Forall2_nil. }
    intros s1 s1' Vs1 _. cbn beta.
    eapply (prel_bind WR).
    { apply (sum_leg_rel (ms := [(r1, r6); (r2, r4); (r2, r5)]) (ms' := [(r'1, r'6); (r'2, r'4); (r'2, r'5)]) Y22 V0 V6). repeat (apply Forall2_cons; [split; assumption|]); apply Forall2_nil. }
    intros s2 s2' Vs2 _. cbn beta.
    leg. match goal with |- prel _ (fun i => Ret (@?a i)) _ => apply (prel_ret WR (a := a)) end. split; cbn [fst snd]; [|exact Y25].
    intros [|[|[|[|[|j]]]]]; cbn [nth]; try (apply lvn_lv with (m := m); assumption). destruct j; apply lv_nil.
  Qed.
  Lemma RA_add a x b y : RA a x -> RA b y -> RA (fun i => a i + b i) (x + y).
  Proof. apply (lin_add LA). Qed.
  Lemma post_rel m es es' j im : relM m es es' -> RA (fun i => mul4vec_post (es i) j im) (mul4vec_post es' j im).
  Proof.
    intros R. unfold mul4vec_post. cbv zeta. destruct (j mod 4 =? 0)%nat; [apply (lv_nth LA), R|].
    repeat apply RA_add; try apply (lin_smul LA); apply (lv_nth LA), R.
  Qed.
  Lemma div_zh_rel m v x : lvA v x -> lvA (fun i => div_by_zh m (v i)) (div_by_zh m x).
  Proof.
    intros V. unfold div_by_zh. eapply (lv_ext LA) with (v := fun i => fold_left (fun q j => q ++ [if (j <? m)%nat then - nth j (v i) 0 else nth (j - m) q 0 - nth j (v i) 0]) (seq 0 (length x)) []).
    { intros i Di. rewrite (proj1 V i Di). reflexivity. }
    apply (lv_fold_snoc LA (f := fun i q j => if (j <? m)%nat then - nth j (v i) 0 else nth (j - m) q 0 - nth j (v i) 0)
      (f' := fun q j => if (j <? m)%nat then - nth j x 0 else nth (j - m) q 0 - nth j x 0)); [|apply lv_nil].
    intros q q' j Q. destruct (j <? m)%nat; [apply (lin_neg LA)|apply (lin_sub LA)]; apply (lv_nth LA); assumption.
  Qed.
  Definition rel3 (t : I -> list AS * list AS * list AS) (t' : list F * list F * list F) : Prop :=
    lvA (fun i => fst (fst (t i))) (fst (fst t')) /\ lvA (fun i => snd (fst (t i))) (snd (fst t')) /\ lvA (fun i => snd (t i)) (snd t').
  Lemma split_rel m v x a y b z : lvA v x -> RA a y -> RA b z -> rel3 (fun i => split_t m (v i) (a i) (b i)) (split_t m x y z).
  Proof.
    intros V A B. unfold split_t. split; [|split]; cbn [fst snd].
    - apply (lv_app LA); [apply (lv_firstn LA), V|]. apply (lv_cons LA); [exact A|apply lv_nil].
    - apply (lv_app LA); [|apply (lv_cons LA); [exact B|apply lv_nil]].
      apply (lv_on_head LA (f := fun i x => x - a i)); [intros; apply (lin_sub LA); assumption|]. apply (lv_firstn LA), (lv_skipn LA), V.
    - apply (lv_on_head LA (f := fun i x => x - b i)); [intros; apply (lin_sub LA); assumption|]. apply (lv_firstn LA), (lv_skipn LA), V.
  Qed.
  Lemma need_rel m k v x : lvn m v x -> orl eqr (fun i => need k (v i)) (need k x).
  Proof.
    intros [[L _] Lx]. eapply orl_ext; [|apply (orl_refl Erefl)]. intros i Di. unfold need. rewrite L by exact Di. reflexivity.
  Qed.

  Ltac lint := first
    [ assumption
    | lazymatch goal with
      | |- lvn _ _ (map _ (seq 0 _)) => apply lvn_map; let j := fresh "j" in intros j _; lint
      | |- lvA _ (map _ (seq 0 _)) => apply (lv_map_seq LA); let j := fresh "j" in intros j _; lint
      | |- lvA _ _ => eapply lvn_lv; eassumption
      | |- RA _ (nth _ _ _) => apply (lv_nth LA); lint
      | |- RA _ (pd_add_public _ _ _) => apply (h_pub HS); lint
      | |- RA _ (mul4vec_post _ _ _) => eapply post_rel; eassumption
      | |- RA _ (smul _ _) => apply (lin_smul LA); lint
      | |- RA _ (gneg _) => apply (lin_neg LA); lint
      | |- RA _ (gadd _ _) => apply RA_add; lint
      | |- RA _ (gsub _ _) => apply (lin_sub LA); lint
      | |- RA _ gzero => apply (lin_0 LA); intros; reflexivity
      | |- RA _ (if ?b then _ else _) => destruct b; lint
      | |- RA _ (fold_left (fun acc xl => gsub acc (smul (nth ?j (evaluations (snd xl)) _) (fst xl))) _ _) =>
        apply (lv_fold_combine LA (f := fun a (c : zpoly F) => smul (nth j (evaluations c) 0) a) (f' := fun a c => smul (nth j (evaluations c) 0) a)); [intros; apply (lin_smul LA); assumption|lint|lint]
      end ].
  Lemma compute_t_rel dm b c beta gamma alpha ws xs z z' st t k : dm_n dm = n -> lvn 11 b c -> relW ws xs -> relPE 3 z z' ->
    S2 (n * 4 * 4 + (n * 4 * 24 + (n * 4 * 24 + k))) st t ->
    prel (pr rel3 (S2 k)) (fun i => compute_t (D i) zk dm (b i) beta gamma alpha (ws i) (z i) (st i)) (compute_t DT zk dm c beta gamma alpha xs z' t).
  Proof.
    intros En [Vb Lb] ((Ba & Bb & Bc) & (_ & Ea) & (_ & Eb) & (_ & Ec)) (_ & Ez) Y. unfold compute_t. cbv zeta. rewrite En.
    assert (LIN : forall p q, lvn (n * 4) (fun i => map (fun j => nth p (b i) 0 + smul (fpow (dm_w4 dm) j) (nth q (b i) 0)) (seq 0 (n * 4)))
                    (map (fun j => nth p c 0 + smul (fpow (dm_w4 dm) j) (nth q c 0)) (seq 0 (n * 4)))) by (intros; lint).
    pose proof (LIN 1%nat 0%nat) as Vap. pose proof (LIN 3%nat 2%nat) as Vbp. pose proof (LIN 5%nat 4%nat) as Vcp. clear LIN.
    fork (n * 4)%nat (n * 4 * 3 + (n * 4 * 24 + (n * 4 * 24 + k)))%nat Y. fork (n * 4)%nat (n * 4 * 2 + (n * 4 * 24 + (n * 4 * 24 + k)))%nat Y1.
    fork (n * 4)%nat (n * 4 * 1 + (n * 4 * 24 + (n * 4 * 24 + k)))%nat Y3. fork (n * 4)%nat (n * 4 * 24 + (n * 4 * 24 + k))%nat Y5.
    do 4 leg.
    apply (prel_bind_pub Erefl WR). intros _ _.
    eapply (prel_bind WR); [apply (prel_leaf WR), (need_rel (length (lagrange zk)) Ba)|]. intros _ _ _ _. cbn beta.
    apply (prel_bind_pub Erefl WR). intros _ _.
    assert (QUAD : forall f : nat -> F, lvn (n * 4) (fun i => map (fun j => nth 8 (b i) 0 + (smul (rmul (f j) (f j)) (nth 6 (b i) 0) + smul (f j) (nth 7 (b i) 0))) (seq 0 (n * 4)))
                    (map (fun j => nth 8 c 0 + (smul (rmul (f j) (f j)) (nth 6 c 0) + smul (f j) (nth 7 c 0))) (seq 0 (n * 4)))) by (intros; lint).
    pose proof (QUAD (fun j => fpow (dm_w4 dm) j)) as Vzp. pose proof (QUAD (fun j => rmul (fpow (dm_w4 dm) j) (dm_w dm))) as Vzwp. clear QUAD.
    cbn beta in Vzp, Vzwp.
    eapply (prel_bind WR).
    { eapply mul4vec_rel with (k := (n * 4 * 24 + k)%nat) (a := fun i => map _ (seq 0 (n * 4))) (b := fun i => map _ (seq 0 (n * 4))) (c := fun i => map _ (seq 0 (n * 4))) (d := fun i => map _ (seq 0 (n * 4)));
       [..|exact Vap|exact Vbp|exact Vcp|exact Vzp|exact Y7]; lint. }
    intros m2 m2' [M2 Ym2] _. cbn beta.
    eapply (prel_bind WR).
    { eapply mul4vec_rel with (k := k) (a := fun i => map _ (seq 0 (n * 4))) (b := fun i => map _ (seq 0 (n * 4))) (c := fun i => map _ (seq 0 (n * 4))) (d := fun i => map _ (seq 0 (n * 4)));
       [..|exact Vap|exact Vbp|exact Vcp|exact Vzwp|exact Ym2]; lint. }
    intros m3 m3' [M3 Ym3] _. cbn beta.
    apply (prel_bind_pub Erefl WR). intros _ _.
    match goal with |- prel _ (fun i => Ret (@?a i)) _ => apply (prel_ret WR (a := a)) end. split; cbn [fst snd]; [|exact Ym3].
    apply split_rel; [|lint|lint]. apply (lv_add LA); [apply div_zh_rel|]; apply lvn_lv with (m := (n * 4)%nat); apply ifft_rel.
    - pose proof (M2 0%nat) as M20. pose proof (M3 0%nat) as M30. lint.
    - lint.
  Qed.

  Lemma round3_rel dm b c beta gamma ws xs z z' cz st t k : dm_n dm = n -> lvn 11 b c -> relW ws xs -> relPE 3 z z' ->
    S2 (n * 4 * 4 + (n * 4 * 24 + (n * 4 * 24 + k))) st t ->
    prel (fun o o' => eqr (fun i => fst (fst (fst (o i)))) (fst (fst (fst o'))) /\ rel3 (fun i => snd (fst (fst (o i)))) (snd (fst (fst o'))) /\
                      eqr (fun i => snd (fst (o i))) (snd (fst o')) /\ S2 k (fun i => snd (o i)) (snd o'))
      (fun i => round3 (D i) H zk dm (b i) beta gamma (ws i) (z i) cz (st i)) (round3 DT H zk dm c beta gamma xs z' cz t).
  Proof.
    intros En B W Z Y. unfold round3. cbv zeta. eapply (prel_bind WR); [apply (compute_t_rel _ _ _ En B W Z Y)|]. intros u u' [[U1 [U2 U3]] Yu] _. cbn beta.
    eapply (prel_bind WR); [apply (prel_leaf WR), commit_rel, U1|]. intros c1 c1' C1 _. cbn beta.
    eapply (prel_bind WR); [apply (prel_leaf WR), commit_rel, U2|]. intros c2 c2' C2 _. cbn beta.
    eapply (prel_bind WR); [apply (prel_leaf WR), commit_rel, U3|]. intros c3 c3' C3 _. cbn beta.
    eapply (prel_bind WR).
    { apply (h_open_points HS (t := snd u')) with (a := fun i => [c1 i; c2 i; c3 i]); [right; eexists; exact Yu|]. repeat (apply (lv_cons LP); [assumption|]). apply lv_nil. }
    intros l l' El _. cbn beta. apply (three_rel (f := fun i x y z => Ret (_, fst (u i), (x, y, z), snd (u i)))); [exact El|]. intros x y w.
    match goal with |- prel _ (fun i => Ret (@?a i)) _ => apply (prel_ret WR (a := a)) end. cbn [fst snd].
    split; [intros i _; reflexivity|]. split; [split; [exact U1|split; assumption]|]. split; [intros i _; reflexivity|exact Yu].
  Qed.
  Lemma round4_rel dm alpha ws xs z z' ts st t k : relW ws xs -> relPE 3 z z' -> S2 k st t ->
    prel eqr (fun i => round4 (D i) H zk dm alpha (ws i) (z i) ts (st i)) (round4 DT H zk dm alpha xs z' ts t).
  Proof.
    intros (_ & ([Pa La] & _) & ([Pb Lb] & _) & ([Pc Lc] & _)) ([Pz Lz] & _) Y. unfold round4. cbv zeta.
    eapply (prel_bind WR); [apply (prel_leaf WR), (h_eval HS); [exact Pa|eapply poly_nonempty; [exact La|lia]]|]. intros ea ea' Ea _. cbn beta.
    eapply (prel_bind WR); [apply (prel_leaf WR), (h_eval HS); [exact Pb|eapply poly_nonempty; [exact Lb|lia]]|]. intros eb eb' Eb _. cbn beta.
    eapply (prel_bind WR); [apply (prel_leaf WR), (h_eval HS); [exact Pc|eapply poly_nonempty; [exact Lc|lia]]|]. intros ec ec' Ec _. cbn beta.
    eapply (prel_bind WR); [apply (prel_leaf WR), (h_eval HS); [exact Pz|eapply poly_nonempty; [exact Lz|lia]]|]. intros ez ez' Ez _. cbn beta.
    eapply (prel_bind WR).
    { apply (h_open_vec HS (t := t)) with (a := fun i => [ea i; eb i; ec i; ez i]); [right; eexists; exact Y|]. repeat (apply (lv_cons LA); [assumption|]). apply lv_nil. }
    intros l l' El _. cbn beta.
    eapply (prel_ext WR) with (qs := fun i => match l' with a :: b :: c :: z :: _ => Ret _ | _ => Fail oob end).
    { intros i Di. rewrite El by exact Di. reflexivity. }
    destruct l' as [|x [|y [|u [|v l']]]]; try apply (prel_fail Erefl WR).
    match goal with |- prel _ (fun i => Ret (@?a i)) _ => apply (prel_ret WR (a := a)) end. intros i _. reflexivity.
  Qed.

  Lemma zerofier_rel v x be : lvA v x -> orl lvA (fun i => div_by_zerofier (v i) be) (div_by_zerofier x be).
  Proof.
    intros V. unfold div_by_zerofier. destruct (feqb be 0); [apply (orl_fail Erefl)|]. cbv zeta.
    match goal with |- orl _ (fun i => Done (@?a i)) _ => apply (orl_done (a := a)) end.
    eapply (lv_ext LA) with (v := fun i => firstn (length x - 1)
        (fold_left (fun q j => q ++ [if (j <? 1)%nat then smul (- finv be) (nth j (v i) 0) else smul (finv be) (nth (j - 1) q 0 - nth j (v i) 0)])
           (seq 0 (length x)) [])).
    { intros i Di. rewrite (proj1 V i Di). reflexivity. }
    apply (lv_firstn LA).
    apply (lv_fold_snoc LA (f := fun i q j => if (j <? 1)%nat then smul (- finv be) (nth j (v i) 0) else smul (finv be) (nth (j - 1) q 0 - nth j (v i) 0))
      (f' := fun q j => if (j <? 1)%nat then smul (- finv be) (nth j x 0) else smul (finv be) (nth (j - 1) q 0 - nth j x 0))); [|apply lv_nil].
    intros q q' j Q. destruct (j <? 1)%nat; apply (lin_smul LA); [|apply (lin_sub LA)]; apply (lv_nth LA); assumption.
  Qed.
  Lemma zip_sh (f : I -> AS -> AS -> AS) (f' : F -> F -> F) v x w y :
    (forall a s b u, RA a s -> RA b u -> RA (fun i => f i (a i) (b i)) (f' s u)) -> lvA v x -> lvA w y ->
    lvA (fun i => zip_into (f i) (v i) (w i)) (zip_into f' x y).
  Proof. intros K V W. apply (lv_zip LA LA (f := f) (f' := f')) with (w := w); assumption. Qed.
  Lemma compute_r_rel dm pub beta gamma alpha xi ea eb ec es1 es2 ezw z z' t1 t2 t3 x1 x2 x3 :
    relPE 3 z z' -> lvA t1 x1 -> lvA t2 x2 -> lvA t3 x3 ->
    orl lvA (fun i => compute_r (D i) zk dm pub beta gamma alpha xi ea eb ec es1 es2 ezw (z i) (t1 i) (t2 i) (t3 i))
            (compute_r DT zk dm pub beta gamma alpha xi ea eb ec es1 es2 ezw z' x1 x2 x3).
  Proof.
    intros [[Z _] _] V1 V2 V3. unfold compute_r. eapply orl_obd; [apply (orl_refl Erefl)|]. intros l l' El _.
    eapply orl_ext with (o1 := fun i => _); [intros i Di; rewrite (El i Di); reflexivity|]. clear l El. cbv zeta.
    match goal with |- orl _ (fun i => Done (@?a i)) _ => apply (orl_done (a := a)) end.
    apply (lv_on_head LA (f := fun i x => pd_add_public (D i) x _)); [intros; apply (h_pub HS); assumption|].
    apply (zip_sh (f := fun _ x s => x - s)); [intros; apply (lin_sub LA); assumption| |].
    - apply (lv_zip_pub LA (f := fun i x add => pd_add_public (D i) x add)); [intros; apply (h_pub HS); assumption|].
      apply (zip_sh (f := fun _ _ add => smul _ add)); [intros; apply (lin_smul LA); assumption| |exact Z]. apply (lv_repeat LA), (lin_0 LA).
    - apply (lv_smul LA).
      apply (zip_sh (f := fun _ => gadd)); [intros; apply (lin_add LA); assumption| |exact V1].
      apply (zip_sh (f := fun _ x add => x + smul _ add)); [intros; apply (lin_add LA); [|apply (lin_smul LA)]; assumption| |exact V2].
      apply (zip_sh (f := fun _ _ add => smul _ add)); [intros; apply (lin_smul LA); assumption| |exact V3]. apply (lv_repeat LA), (lin_0 LA).
  Qed.
  Lemma wxi_rel v xi ea eb ec es1 es2 ws xs r r' : relW ws xs -> lvA r r' ->
    orl lvA (fun i => compute_wxi (D i) zk v xi ea eb ec es1 es2 (ws i) (r i)) (compute_wxi DT zk v xi ea eb ec es1 es2 xs r').
  Proof.
    intros (_ & ([Pa _] & _) & ([Pb _] & _) & ([Pc _] & _)) R1. unfold compute_wxi. cbv zeta. apply zerofier_rel.
    do 5 (apply (lv_on_head LA (f := fun i x => pd_add_public (D i) x _)); [intros; apply (h_pub HS); assumption|]).
    do 2 (apply (lv_zip_pub LA (f := fun i x add => pd_add_public (D i) x (rmul _ add))); [intros; apply (h_pub HS); assumption|]).
    apply (zip_sh (f := fun _ x add => smul _ add + x)); [intros; apply (lin_add LA); [apply (lin_smul LA)|]; assumption| |exact Pc].
    apply (zip_sh (f := fun _ x add => smul _ add + x)); [intros; apply (lin_add LA); [apply (lin_smul LA)|]; assumption| |exact Pb].
    apply (zip_sh (f := fun _ x add => smul _ add + x)); [intros; apply (lin_add LA); [apply (lin_smul LA)|]; assumption| |exact Pa].
    apply (zip_sh (f := fun _ x add => add)); [intros; assumption| |exact R1]. apply (lv_repeat LA), (lin_0 LA).
  Qed.
  Lemma wxiw_rel dm xi ezw z z' : relPE 3 z z' -> orl lvA (fun i => compute_wxiw (D i) dm xi ezw (z i)) (compute_wxiw DT dm xi ezw z').
  Proof.
    intros [[Z _] _]. unfold compute_wxiw. apply zerofier_rel.
    apply (lv_on_head LA (f := fun i x => pd_add_public (D i) x _)); [intros; apply (h_pub HS); assumption|exact Z].
  Qed.

  (** The whole prover *)
  Theorem plonk_sim pub wit w st t : lvA wit w -> S0 11 st t ->
    prel eqr (fun i => plonk_prove_inner (D i) H fuel zk pub (wit i) (st i)) (plonk_prove_inner DT H fuel zk pub w t).
  Proof.
    intros W Y. unfold plonk_prove_inner. eapply (prel_bind WR); [apply (init_rel pub W Y)|].
    intros i0 j0 (Epub & A & B & [Edm En] & Y0) _. cbn beta zeta.
    set (pub0 := fst (fst (fst (fst j0)))) in *. set (dm := snd (fst j0)) in *.
    eapply (prel_ext WR) with (qs := fun i => o1 <- round1 (D i) zk dm (snd (fst (fst (i0 i)))) pub0 (wit i) (snd (fst (fst (fst (i0 i))))) (snd (i0 i)) ;; _).
    { intros i Di. rewrite (Epub i Di), (Edm i Di). reflexivity. }
    eapply (prel_bind WR); [apply (round1_rel pub0 En W A B Y0)|]. intros o1 o1' [W1 Eabc] _. cbn beta zeta.
    eapply (prel_ext WR) with (qs := fun i => o2 <- round2 (D i) H zk dm (snd (fst (fst (i0 i)))) (tl pub0) (fst (o1 i)) (snd o1') (snd (i0 i)) ;; _).
    { intros i Di. rewrite (Eabc i Di). reflexivity. }
    eapply (prel_bind WR); [apply (round2_rel (tl pub0) (snd o1') En B W1 Y0)|]. intros o2 o2' ([Ebe Ega] & Z & Ecz & Y2) _. cbn beta zeta.
    set (beta := fst (fst (fst (fst o2')))) in *. set (gamma := snd (fst (fst (fst o2')))) in *. set (cz := snd (fst o2')) in *.
    eapply (prel_ext WR) with (qs := fun i => o3 <- round3 (D i) H zk dm (snd (fst (fst (i0 i)))) beta gamma (fst (o1 i)) (snd (fst (fst (o2 i)))) cz (snd (o2 i)) ;; _).
    { intros i Di. rewrite (Ebe i Di), (Ega i Di), (Ecz i Di). reflexivity. }
    eapply (prel_bind WR).
    { apply (round3_rel (k := 0) beta gamma cz En B W1 Z). eapply S2_eq; [|exact Y2]. lia. }
    intros o3 o3' (Eal & (T1 & T2 & T3) & Ets & Y3) _. cbn beta zeta.
    set (alpha := fst (fst (fst o3'))) in *. set (ts := snd (fst o3')) in *.
    eapply (prel_ext WR) with (qs := fun i => o4 <- round4 (D i) H zk dm alpha (fst (o1 i)) (snd (fst (fst (o2 i)))) ts (snd (o3 i)) ;; _).
    { intros i Di. rewrite (Eal i Di), (Ets i Di). reflexivity. }
    eapply (prel_bind WR); [apply (round4_rel dm alpha ts W1 Z Y3)|]. intros o4 o4' E4 _. cbn beta zeta.
    eapply (prel_ext WR) with (qs := fun i => r <- leaf (compute_r (D i) zk dm (tl pub0) beta gamma alpha (fst o4') _ _ _ _ _ _ _ _ _ _) ;; _).
    { intros i Di. rewrite (E4 i Di). reflexivity. }
    eapply (prel_bind WR); [apply (prel_leaf WR), (compute_r_rel dm (tl pub0) _ _ _ _ _ _ _ _ _ _ Z T1 T2 T3)|]. intros r r' Vr _. cbn beta.
    eapply (prel_bind WR); [apply (prel_leaf WR), (wxi_rel _ _ _ _ _ _ _ W1 Vr)|]. intros wx wx' Vx _. cbn beta.
    eapply (prel_bind WR); [apply (prel_leaf WR), (wxiw_rel _ _ _ Z)|]. intros wy wy' Vy _. cbn beta.
    eapply (prel_bind WR); [apply (prel_leaf WR), commit_rel, Vx|]. intros c1 c1' C1 _. cbn beta.
    eapply (prel_bind WR); [apply (prel_leaf WR), commit_rel, Vy|]. intros c2 c2' C2 _. cbn beta.
    eapply (prel_bind WR).
    { apply (h_open_points HS (t := snd o3')) with (a := fun i => [c1 i; c2 i]); [right; eexists; exact Y3|]. repeat (apply (lv_cons LP); [assumption|]). apply lv_nil. }
    intros l l' El _. cbn beta.
    eapply (prel_ext WR) with (qs := fun i => match l' with x :: y :: _ => Ret _ | _ => Fail oob end).
    { intros i Di. rewrite El by exact Di. reflexivity. }
    destruct l' as [|x [|y l']]; try apply (prel_fail Erefl WR).
    eapply (prel_ext WR) with (qs := fun i => Ret _).
    { intros i Di. reflexivity. }
    match goal with |- prel _ (fun i => Ret (@?a i)) _ => apply (prel_ret WR (a := a)) end. intros i Di. reflexivity.
  Qed.
End Sim.
