(** * The polynomials the Gemini and Shplonk prover computes (C73, C74)

    Specification ([lin], [linear], [op_ok]) and proof; no code of /repo is modelled here. *)
From Coq Require Import String List Arith Lia Bool Ring.
From Verif Require Import Proc Alg NNet Rep3 ShamirPoly Shamir ShamirAlg Univariate Sumcheck SumcheckSpec SumcheckSound Shplemini ShpleminiFold.
Import ListNotations.
Set Implicit Arguments.
Local Open Scope grp_scope.
Local Open Scope list_scope.

Section Poly.
  Context {F : Type} {FF : Fld F}.
  Add Ring FringGP : (@cring_theory F _).
  Infix "*" := rmul : grp_scope.
  Notation "1" := rone : grp_scope.

  (** the sum of s, s rho, s rho², ... times the elements; the power after [n] of them *)
  Fixpoint lin (rho s : F) (l : list F) : F := match l with [] => 0 | a :: l => s * a + lin rho (s * rho) l end.
  Fixpoint spow (rho s : F) (n : nat) : F := match n with O => s | S n => spow rho (s * rho) n end.
  Lemma lin_app rho l : forall s m, lin rho s (l ++ m) = lin rho s l + lin rho (spow rho s (length l)) m.
  Proof. induction l as [|a l IH]; intros s m; cbn [app lin length spow]; [symmetry; apply gadd_0|]. rewrite IH. ring. Qed.
  (** the maps from polynomials that respect the operations of the prover *)
  Definition linear (L : list F -> F) : Prop :=
    (forall d p s, length p <= length d -> L (add_scaled d p s) = L d + s * L p) /\ forall n, L (repeat 0 n) = 0.

  Lemma length_add_scaled d : forall p s, length (add_scaled d p s) = length d.
  Proof. induction d as [|x d IH]; intros [|y p] s; cbn; try reflexivity. f_equal. apply IH. Qed.
  Lemma nth_add_scaled d : forall p s i, length p <= length d -> nth i (add_scaled d p s) 0 = nth i d 0 + s * nth i p 0.
  Proof.
    induction d as [|x d IH]; intros [|y p] s i L; cbn [length] in L.
    - destruct i; cbn; ring.
    - lia.
    - cbn [add_scaled]. rewrite (nth_overflow []) by (cbn; lia). ring.
    - destruct i as [|i]; cbn [add_scaled nth]; [reflexivity|]. apply IH. lia.
  Qed.
  Lemma nth_repeat0 n : forall i, nth i (repeat (0 : F) n) 0 = 0.
  Proof. induction n as [|n IH]; intros [|i]; cbn; try reflexivity. apply IH. Qed.
  Lemma nth_tl (a : list F) i : nth i (tl a) 0 = nth (S i) a 0.
  Proof. destruct a; [destruct i; reflexivity|reflexivity]. Qed.
  Lemma linear_peval x : linear (fun p => peval p x).
  Proof.
    split.
    - intros d p s L. rewrite (peval_ext _ (padd d (map (smul s) p)) x); [rewrite peval_padd, peval_map_smul; reflexivity|].
      intros i. rewrite nth_add_scaled, nth_padd, nth_smul by exact L. reflexivity.
    - intros n. rewrite (peval_ext _ [] x); [reflexivity|]. intros i. rewrite nth_repeat0. destruct i; reflexivity.
  Qed.
  Lemma linear_nth i : linear (fun p => nth i p 0).
  Proof. split; [intros; apply nth_add_scaled; assumption|intros n; apply nth_repeat0]. Qed.
  Lemma sumn_scale n s (f : nat -> F) : s * sumn n f = sumn n (fun i => s * f i).
  Proof. induction n as [|n IH]; cbn [sumn]; [ring|]. rewrite <- IH. ring. Qed.
  Lemma linear_sumn n (w : nat -> F) (k : nat -> nat) : linear (fun p => sumn n (fun x => w x * nth (k x) p 0)).
  Proof.
    split.
    - intros d p s L. rewrite sumn_scale, <- sumn_add. apply sumn_ext. intros i _. rewrite nth_add_scaled by exact L. ring.
    - intros m. apply sumn_0. intros i _. rewrite nth_repeat0. ring.
  Qed.
  Lemma linear_mle us : linear (mle us).
  Proof. apply (linear_sumn (2 ^ length us) (eqw us) (fun x => x)). Qed.
  Lemma linear_mle_tl us : linear (fun p => mle us (tl p)).
  Proof.
    destruct (linear_sumn (2 ^ length us) (eqw us) S) as [H1 H2]. unfold mle. split; intros.
    - rewrite (@sumn_ext _ _ _ _ (fun x => eqw us x * nth (S x) (add_scaled d p s) 0)) by (intros; rewrite nth_tl; reflexivity).
      rewrite H1 by assumption. f_equal; [|f_equal]; apply sumn_ext; intros; rewrite nth_tl; reflexivity.
    - rewrite (@sumn_ext _ _ _ _ (fun x => eqw us x * nth (S x) (repeat 0 n) 0)) by (intros; rewrite nth_tl; reflexivity). apply H2.
  Qed.

  (** ** Batching *)
  Lemma batch_ok ps : forall rho s acc, Forall (fun p => length p <= length acc) ps ->
    exists acc', batch ps rho s acc = (acc', spow rho s (length ps)) /\ length acc' = length acc /\
      forall L, linear L -> L acc' = L acc + lin rho s (map L ps).
  Proof.
    induction ps as [|p ps IH]; intros rho s acc H; cbn [batch length spow map lin].
    - exists acc. split; [reflexivity|split; [reflexivity|]]. intros L _. symmetry. apply gadd_0_r.
    - inversion H; subst.
      destruct (IH rho (s * rho) (add_scaled acc p s)) as (acc' & E & El & HL); [rewrite length_add_scaled; assumption|].
      exists acc'. split; [exact E|]. rewrite length_add_scaled in El. split; [exact El|].
      intros L LL. rewrite (HL L LL). destruct LL as [LL _]. rewrite LL by assumption. ring.
  Qed.
  Lemma batched_ok log_n fs gs rho : Forall (fun p => length p <= 2 ^ log_n) fs -> Forall (fun p => length p <= 2 ^ log_n) gs ->
    exists bf bg, compute_batched_polys log_n fs gs rho = (bf, bg) /\ length bf = (2 ^ log_n)%nat /\ length bg = (2 ^ log_n)%nat /\
      (forall L, linear L -> L bf = lin rho 1 (map L fs)) /\ (forall L, linear L -> L bg = lin rho (spow rho 1 (length fs)) (map L gs)).
  Proof.
    intros Hf Hg. unfold compute_batched_polys.
    destruct (@batch_ok fs rho 1 (repeat 0 (2 ^ log_n))) as (bf & Ef & Lf & HF); [rewrite repeat_length; exact Hf|]. rewrite Ef.
    destruct (@batch_ok gs rho (spow rho 1 (length fs)) (repeat 0 (2 ^ log_n))) as (bg & Eg & Lg & HG); [rewrite repeat_length; exact Hg|]. rewrite Eg.
    exists bf, bg. rewrite repeat_length in Lf, Lg. repeat split; try assumption.
    - intros L LL. rewrite (HF L LL). destruct LL as [_ L0]. rewrite L0. apply gadd_0.
    - intros L LL. rewrite (HG L LL). destruct LL as [_ L0]. rewrite L0. apply gadd_0.
  Qed.
  Lemma length_zip f (d : list F) : forall p, length (zip_assign f d p) = length d.
  Proof. induction d as [|x d IH]; intros [|y p]; cbn; try reflexivity. f_equal. apply IH. Qed.
  Lemma zip_add (d : list F) : forall p, zip_assign gadd d p = add_scaled d p 1.
  Proof. induction d as [|x d IH]; intros [|y p]; cbn; try reflexivity. f_equal; [ring|apply IH]. Qed.
  Lemma zip_sub (d : list F) : forall p, zip_assign (fun a b => a - b) d p = add_scaled d p (- (1)).
  Proof. induction d as [|x d IH]; intros [|y p]; cbn; try reflexivity. f_equal; [ring|apply IH]. Qed.
  Lemma op_add d p : length p <= length d -> exists a, op_assign gadd d p = Done a /\ length a = length d /\ forall L, linear L -> L a = L d + L p.
  Proof.
    intros H. exists (zip_assign gadd d p). unfold op_assign. destruct (Nat.ltb_spec (length d) (length p)); [lia|].
    split; [reflexivity|split; [apply length_zip|]]. intros L [LL _]. rewrite zip_add, LL by exact H. ring.
  Qed.
  Lemma op_sub d p : length p <= length d -> exists a, op_assign (fun a b => a - b) d p = Done a /\ length a = length d /\ forall L, linear L -> L a = L d - L p.
  Proof.
    intros H. exists (zip_assign (fun a b => a - b) d p). unfold op_assign. destruct (Nat.ltb_spec (length d) (length p)); [lia|].
    split; [reflexivity|split; [apply length_zip|]]. intros L [LL _]. rewrite zip_sub, LL by exact H. ring.
  Qed.
  Lemma partially_ok bf bg r : length bg = length bf -> r <> 0 ->
    exists pos neg, partially_evaluated bf bg r = Done (pos, neg) /\ length pos = length bf /\ length neg = length bf /\
      (forall x, peval pos x = peval bf x + finv r * peval bg x) /\ (forall x, peval neg x = peval bf x - finv r * peval bg x).
  Proof.
    intros El N. unfold partially_evaluated. destruct (feqb r 0) eqn:Er; [apply feqb_spec in Er; contradiction|].
    set (g := map (fun x => x * finv r) bg). assert (Lg : length g <= length bf) by (unfold g; rewrite map_length; lia).
    assert (Eg : forall x, peval g x = finv r * peval bg x).
    { intros x. unfold g. rewrite (map_ext (fun x => x * finv r) (smul (finv r))) by (intros y; rewrite smulU; ring). rewrite peval_map_smul. reflexivity. }
    destruct (op_add bf g Lg) as (pos & Ep & L1 & HP). destruct (op_sub bf g Lg) as (neg & En & L2 & HN).
    rewrite Ep. cbn [obind]. rewrite En. cbn [obind]. exists pos, neg. split; [reflexivity|]. repeat split; try assumption.
    - intros x. rewrite (HP _ (linear_peval x)), Eg. reflexivity.
    - intros x. rewrite (HN _ (linear_peval x)), Eg. reflexivity.
  Qed.

  (** ** Folds *)
  Lemma at_ok (a : list F) i : i < length a -> at_index a i = Done (nth i a 0).
  Proof. intros H. unfold at_index. rewrite (nth_error_nth' a 0 H). reflexivity. Qed.
  Lemma omapM_ok A B (f : A -> outcome B) (g : A -> B) l : (forall a, In a l -> f a = Done (g a)) -> omapM f l = Done (map g l).
  Proof.
    induction l as [|a l IH]; intros H; [reflexivity|]. cbn [omapM map]. rewrite (H a) by (left; reflexivity). cbn [obind].
    rewrite IH by (intros; apply H; right; assumption). reflexivity.
  Qed.
  Lemma fold_once_ok n u a : length a = (2 * n)%nat -> exists b, fold_once n u a = Done b /\ length b = n /\ folds u a b.
  Proof.
    intros L. set (f := fun j => nth (2 * j) a 0 + u * (nth (2 * j + 1) a 0 - nth (2 * j) a 0)).
    exists (map f (seq 0 n)). split; [|split].
    - unfold fold_once. apply omapM_ok. intros j Hj. apply in_seq in Hj. rewrite !at_ok by lia. reflexivity.
    - rewrite map_length. apply seq_length.
    - intros l. destruct (Nat.lt_ge_cases l n) as [Hl|Hl].
      + rewrite (nth_indep _ 0 (f O)) by (rewrite map_length, seq_length; exact Hl). rewrite map_nth, seq_nth by exact Hl.
        unfold f. cbn [Nat.add]. replace (2 * l + 1)%nat with (S (2 * l)) by lia. ring.
      + rewrite !(nth_overflow a) by lia. rewrite nth_overflow by (rewrite map_length, seq_length; exact Hl). ring.
  Qed.
  Lemma last_def A (bs : list A) : forall b a, last (b :: bs) a = last bs b.
  Proof.
    intros b a. destruct bs as [|c bs]; [reflexivity|]. change (last (b :: c :: bs) a) with (last (c :: bs) a).
    revert c; induction bs as [|d bs IHb]; intros c; [reflexivity|]. apply (IHb d).
  Qed.
  Lemma fold_loop_ok us : forall e a, length us <= S e -> length a = (2 ^ S e)%nat ->
    exists bs, fold_loop us e a = Done bs /\ fchain us a bs /\ length bs = length us /\
      (forall b, In b bs -> 1 <= length b <= 2 ^ e) /\ length (last bs a) = (2 ^ (S e - length us))%nat.
  Proof.
    induction us as [|u us IH]; intros e a Lu La.
    - exists []. cbn [fold_loop fchain length last]. rewrite Nat.sub_0_r. repeat split; try assumption; try contradiction.
    - destruct (@fold_once_ok (2 ^ e) u a) as (b & Eb & Lb & Hb); [rewrite La; cbn [Nat.pow]; lia|].
      cbn [fold_loop]. rewrite Eb. cbn [obind]. assert (Pe : 1 <= 2 ^ e) by (apply Nat.neq_0_lt_0, Nat.pow_nonzero; lia).
      destruct e as [|e].
      + assert (us = []) as -> by (destruct us; [reflexivity|cbn in Lu; lia]). cbn [fold_loop obind]. exists [b].
        cbn [fchain length last]. repeat split; try assumption; destruct H as [<-|[]]; lia.
      + replace (S e - 1)%nat with e by lia.
        destruct (IH e b) as (bs & E & Hc & Ls & HL & Hl); [cbn in Lu; lia|exact Lb|].
        rewrite E. cbn [obind]. exists (b :: bs). split; [reflexivity|]. split; [split; assumption|]. split; [cbn; lia|]. split.
        * intros c [<-|Hi]; [lia|]. specialize (HL c Hi). cbn [Nat.pow]. lia.
        * cbn [length]. replace (S (S e) - S (length us))%nat with (S e - length us)%nat by lia. rewrite <- Hl.
          f_equal. apply last_def.
  Qed.
  Lemma fchain_app us : forall a bs us' bs', fchain us a bs -> fchain us' (last bs a) bs' -> length us = length bs -> fchain (us ++ us') a (bs ++ bs').
  Proof.
    induction us as [|u us IH]; intros a bs us' bs' H H' L; destruct bs as [|b bs]; cbn [length] in L; try lia; [exact H'|].
    destruct H as [H1 H2]. cbn [app fchain]. split; [exact H1|]. apply IH; [exact H2| |lia].
    rewrite last_def in H'. exact H'.
  Qed.
  Lemma folds_const u (c d : F) : d = c * (1 - u) -> folds u [c] [d].
  Proof. intros -> [|l]; [cbn; ring|]. rewrite !nth_overflow by (cbn [length]; lia). ring. Qed.
  Lemma tails_ok us : forall v t, fchain us [v * t] (tails v t us) /\ length (tails v t us) = length us.
  Proof.
    induction us as [|u us IH]; intros v t; [split; [exact I|reflexivity]|]. cbn [tails fchain length].
    destruct (IH v (t * (1 - u))) as [H1 H2]. split; [split; [apply folds_const; ring|exact H1]|f_equal; exact H2].
  Qed.
  Lemma tails_firstn us : forall v t k, firstn k (tails v t us) = tails v t (firstn k us).
  Proof. induction us as [|u us IH]; intros v t [|k]; cbn; try reflexivity. f_equal. apply IH. Qed.
  Lemma tails_const us : forall v t b, In b (tails v t us) -> exists c, b = [c].
  Proof. induction us as [|u us IH]; intros v t b H; [contradiction|]. destruct H as [<-|H]; [eexists; reflexivity|eapply IH, H]. Qed.
  (** the polynomials that are committed to, and the value of the multilinear extension after them *)
  Lemma compute_folds_ok log_n us a : 2 <= log_n <= length us -> length a = (2 ^ log_n)%nat ->
    exists ps bs, compute_fold_polynomials log_n us a = Done ps /\ firstn (length us - 1) ps = bs /\ length bs = (length us - 1)%nat /\
      fchain us a (bs ++ [[mle us a]]) /\ Forall (fun b => 1 <= length b <= 2 ^ log_n) bs.
  Proof.
    intros Hl La. unfold compute_fold_polynomials.
    destruct (@fold_loop_ok (firstn (log_n - 1) us) (log_n - 1) a) as (qs & E & Hc & Lq & HL & Hlast).
    { rewrite firstn_length. lia. } { replace (S (log_n - 1)) with log_n by lia. exact La. }
    rewrite E. cbn [obind]. rewrite firstn_length, Nat.min_l in Lq, Hlast by lia. replace (S (log_n - 1) - (log_n - 1))%nat with 1%nat in Hlast by lia.
    destruct (exists_last (l := qs)) as (qs0 & l & Eq); [destruct qs; [cbn in Lq; lia|discriminate]|].
    rewrite Eq, last_last in Hlast. cbn in Hlast.
    assert (Er : rev qs = l :: rev qs0) by (rewrite Eq, rev_app_distr; reflexivity). rewrite Er.
    destruct l as [|x [|y [|]]]; cbn in Hlast; try lia.
    rewrite at_ok by lia. cbn [obind at_index nth_error].
    set (u := nth (log_n - 1) us 0). set (fe := x + u * (y - x)).
    set (full := qs ++ [[fe]] ++ tails fe 1 (skipn log_n us)).
    assert (Eus : us = firstn (log_n - 1) us ++ [u] ++ skipn log_n us).
    { rewrite <- (firstn_skipn (log_n - 1) us) at 1. f_equal.
      assert (Es : forall k (l : list F), k < length l -> skipn k l = nth k l 0 :: skipn (S k) l).
      { clear. induction k as [|k IH]; intros [|z l] H; cbn in *; try lia; [reflexivity|]. rewrite IH by lia. destruct l; reflexivity. }
      rewrite Es by lia. cbn [app]. fold u. do 2 f_equal. lia. }
    assert (Fc : fchain us a full).
    { rewrite Eus. unfold full. apply fchain_app; [exact Hc| |rewrite firstn_length; lia].
      rewrite Eq, last_last. cbn [app fchain]. split.
      - intros [|i]; [cbn; unfold fe; ring|]. rewrite !nth_overflow by (cbn [length]; lia). ring.
      - replace [fe] with [fe * 1] by (f_equal; ring). apply tails_ok. }
    assert (Lfull : length full = length us).
    { unfold full. rewrite !app_length, Lq, (proj2 (tails_ok _ _ _)), skipn_length. cbn [length]. lia. }
    eexists _, (firstn (length us - 1) full). split; [reflexivity|].
    assert (Hone : forall b, In b (firstn (length us - 1) full) -> 1 <= length b <= 2 ^ log_n).
    { intros b Hb. assert (Hb' : In b full) by (rewrite <- (firstn_skipn (length us - 1) full); apply in_or_app; left; exact Hb).
      assert (P2 : (2 ^ (log_n - 1) <= 2 ^ log_n)%nat) by (apply Nat.pow_le_mono_r; lia).
      assert (P1 : (1 <= 2 ^ log_n)%nat) by (apply Nat.neq_0_lt_0, Nat.pow_nonzero; lia).
      unfold full in Hb'. apply in_app_or in Hb'. destruct Hb' as [Hb'|Hb']; [specialize (HL b Hb'); lia|].
      apply in_app_or in Hb'. destruct Hb' as [[<-|[]]|Hb']; [cbn; lia|]. apply tails_const in Hb'. destruct Hb' as [c ->]. cbn; lia. }
    split; [|split; [rewrite firstn_length; lia|split; [|apply Forall_forall; exact Hone]]].
    - unfold full. destruct (Nat.eq_dec log_n (length us)) as [El|El].
      + rewrite !firstn_app, Lq. replace (length us - 1 - (log_n - 1))%nat with 0%nat by lia. reflexivity.
      + rewrite !firstn_app, Lq. f_equal. cbn [length]. replace (length us - 1 - (log_n - 1))%nat with (S (length us - 1 - log_n)) by lia.
        cbn [firstn]. cbn [Nat.sub]. rewrite Nat.sub_0_r. f_equal. rewrite !tails_firstn. f_equal. rewrite skipn_firstn_comm, firstn_firstn. f_equal. lia.
    - assert (Ef : exists v, full = firstn (length us - 1) full ++ [[v]]).
      { assert (exists v, skipn (length us - 1) full = [[v]]) as [v Ev]; [|exists v; rewrite <- Ev; symmetry; apply firstn_skipn].
        assert (Ls : length (skipn (length us - 1) full) = 1%nat) by (rewrite skipn_length; lia).
        destruct (skipn (length us - 1) full) as [|b [|]] eqn:Es; cbn in Ls; try lia.
        assert (Hb : In b ([[fe]] ++ tails fe 1 (skipn log_n us))).
        { unfold full in Es. rewrite skipn_app in Es. replace (skipn (length us - 1) qs) with (@nil (list F)) in Es by (symmetry; apply skipn_all2; lia).
          rewrite <- (firstn_skipn (length us - 1 - length qs)). apply in_or_app. right. cbn [app] in Es |- *. rewrite Es. left. reflexivity. }
        apply in_app_or in Hb. destruct Hb as [[<-|[]]|Hb]; [eexists; reflexivity|]. apply tails_const in Hb. destruct Hb as [c ->]. eexists; reflexivity. }
      destruct Ef as [v Ev]. assert (Em : mle us a = v) by (rewrite Ev in Fc; eapply fchain_mle, Fc). rewrite Em, <- Ev. exact Fc.
  Qed.
End Poly.
