(** * The challenges with which a false opening can pass are few (C74)

    Proofs only; no code of /repo is modelled here. *)
From Coq Require Import String List Arith Lia Bool Ring.
From Verif Require Import Proc Alg NNet Rep3 ShamirPoly Shamir ShamirAlg Univariate Sumcheck SumcheckSpec SumcheckSound Shplemini ShpleminiFold ShpleminiPoly ShpleminiQuot ShpleminiVerify ShpleminiComplete ShpleminiSound.
Import ListNotations.
Set Implicit Arguments.
Local Open Scope grp_scope.
Local Open Scope list_scope.

Section Few.
  Context {F : Type} {FF : Fld F}.
  Add Ring FringGF : (@cring_theory F _).
  Infix "*" := rmul : grp_scope.
  Notation "1" := rone : grp_scope.
  Notation opening := (list F * F * F)%type.

  Lemma nth_neg (a : list F) : forall i, nth i (map gneg a) 0 = - nth i a 0.
  Proof. induction a as [|x a IH]; intros [|i]; cbn; try reflexivity; try apply IH; ring. Qed.
  Lemma nth_pquot a c : forall i, nth i (pquot c a) 0 = nth (S i) c 0 + a * nth (S i) (pquot c a) 0.
  Proof.
    induction c as [|x c IH]; intros i; [destruct i; cbn; ring|]. cbn [pquot nth]. rewrite !nth_padd, !nth_smul.
    rewrite (IH i). ring.
  Qed.
  (** a list of coefficients with as many roots as coefficients is zero *)
  Lemma coefs_zero xs : forall c, NoDup xs -> length c <= length xs -> (forall a, In a xs -> peval c a = 0) -> forall i, nth i c 0 = 0.
  Proof.
    induction xs as [|a xs IH]; intros c ND L H i.
    - destruct c; [destruct i; reflexivity|cbn in L; lia].
    - apply NoDup_cons_iff in ND. destruct ND as [N1 N2].
      assert (Q : forall i, nth i (pquot c a) 0 = 0).
      { apply IH; [exact N2|rewrite length_pquot; cbn in L; lia|]. intros b Hb. apply (@finv_smul _ _ _ _ _ (b - a)).
        - apply fsub_neq. intros ->. contradiction.
        - pose proof (peval_pquot c a b) as E. rewrite (H a), (H b) in E by (cbn; auto). rewrite gadd_0_r in E. symmetry. exact E. }
      destruct i as [|i].
      + pose proof (H a (or_introl eq_refl)) as E. destruct c as [|x c]; [reflexivity|]. cbn [peval nth] in *. rewrite smulU in E.
        assert (Z : peval c a = 0).
        { clear - Q. assert (Z : forall l, (forall i, nth i l 0 = 0) -> peval l a = 0).
          { induction l as [|y l IH]; intros Hl; [reflexivity|]. cbn [peval]. rewrite IH by (intros i; exact (Hl (S i))). rewrite smulU, (Hl 0%nat : y = 0). ring. }
          apply Z. intros i. pose proof (nth_pquot a (x :: c) i) as E. rewrite !Q in E. cbn [nth] in E. transitivity (nth i c 0 + a * 0); [ring|symmetry; exact E]. }
        rewrite Z in E. transitivity (x + a * 0); [ring|exact E].
      + pose proof (nth_pquot a c i) as E. rewrite !Q in E. transitivity (nth (S i) c 0 + a * 0); [ring|symmetry; exact E].
  Qed.
  Lemma few_poly n f xs : poly_fun n f -> (exists y, f y <> 0) -> NoDup xs -> Forall (fun x => f x = 0) xs -> length xs < n.
  Proof.
    intros (p & L & H) [y Ny] ND HF. destruct (Nat.lt_ge_cases (length xs) n) as [|G]; [assumption|]. exfalso. apply Ny. rewrite H.
    apply (@peval_roots _ _ _ _ _ xs); [exact ND|lia|]. intros a Ha. rewrite <- H. rewrite Forall_forall in HF. apply HF, Ha.
  Qed.

  (** ** rho *)
  Lemma few_rho (l m : list F) rhos : NoDup rhos -> Forall (lucky_rho l m) rhos -> length rhos < length l \/ rhos = [].
  Proof.
    intros ND H. destruct rhos as [|x rhos]; [right; reflexivity|left]. assert (H' := H). apply Forall_cons_iff in H'. destruct H' as [(N & L & _) _].
    destruct (Nat.lt_ge_cases (length (x :: rhos)) (length l)) as [|G]; [assumption|]. exfalso. apply N.
    apply (@nth_ext _ _ _ 0 0); [exact L|]. intros i _.
    assert (E : nth i (padd l (map gneg m)) 0 = 0).
    { apply (@coefs_zero (x :: rhos)); [exact ND|rewrite length_padd, map_length; lia|]. intros a Ha. rewrite peval_padd, peval_map_neg.
      rewrite Forall_forall in H. destruct (H a Ha) as (_ & _ & E). rewrite E. ring. }
    rewrite nth_padd, nth_neg in E. transitivity (nth i l 0 + - nth i m 0 + nth i m 0); [ring|]. rewrite E. ring.
  Qed.

  (** ** The secret of the reference string and z *)
  Lemma poly_peval c : poly_fun (length c) (peval c).
  Proof. exists c. split; [lia|reflexivity]. Qed.
  Lemma poly_const n (a : F) : 1 <= n -> poly_fun n (fun _ => a).
  Proof. intros L. exists [a]. split; [cbn; lia|]. intros x. cbn [peval]. rewrite smulU. ring. Qed.
  Lemma poly_sub n (f g : F -> F) : poly_fun n f -> poly_fun n g -> poly_fun n (fun x => f x - g x).
  Proof.
    intros Hf Hg. apply (@poly_ext _ _ n (fun x => f x + (- (1)) * g x)); [intros; ring|]. apply poly_add; [exact Hf|apply poly_mul, Hg].
  Qed.
  Lemma poly_shift n (z : F) (f : F -> F) : poly_fun n f -> poly_fun (S n) (fun x => (x - z) * f x).
  Proof. intros H. apply (@poly_ext _ _ _ (fun x => (- z + x * 1) * f x)); [intros; ring|]. apply poly_linear, H. Qed.
  Lemma poly_lin_terms n nu z os : 1 <= n -> Forall (fun o : opening => length (op_poly o) <= n) os -> forall s, poly_fun n (fun y => lin nu s (terms z y os)).
  Proof.
    intros L H. induction H as [|o os H1 H2 IH]; intros s; unfold terms in *; cbn [map lin]; [apply poly_zero|].
    apply poly_add; [|apply IH].
    eapply (@poly_ext _ _ _ (fun y => s * (inv0 (z - op_point o) * (peval (op_poly o) y - op_value o)))); [intros; ring|].
    apply poly_mul, poly_mul, poly_sub; [eapply poly_le; [exact H1|apply poly_peval]|apply poly_const, L].
  Qed.
  Lemma few_tau n q w os nu z taus : 1 <= n -> length q <= n -> length w < n -> Forall (fun o : opening => length (op_poly o) <= n) os ->
    NoDup taus -> Forall (lucky_tau q w os nu z) taus -> length taus < n.
  Proof.
    intros L Lq Lw Ho ND H. destruct taus as [|t taus]; [cbn; lia|]. assert (H' := H). apply Forall_cons_iff in H'. destruct H' as [[_ Y] _].
    apply (@few_poly n (opened q w os nu z)); [|exact Y|exact ND|eapply Forall_impl; [|exact H]; intros a [E _]; exact E].
    unfold opened. apply poly_sub; [apply poly_sub|].
    - eapply poly_le; [exact Lq|apply poly_peval].
    - apply poly_lin_terms; assumption.
    - eapply poly_le; [exact Lw|]. apply poly_shift, poly_peval.
  Qed.
  Lemma poly_vanish n (f : F -> F) os : poly_fun n f -> poly_fun (n + length os) (fun y => f y * vanish os y).
  Proof.
    intros H. induction os as [|o os IH]; unfold vanish in *; cbn [fold_right length].
    - rewrite Nat.add_0_r. eapply poly_ext; [|exact H]. intros; ring.
    - rewrite <- plus_n_Sm. eapply (@poly_ext _ _ _ (fun y => (y - op_point o) * (f y * fold_right (fun o p => (y - op_point o) * p) 1 os))); [intros; ring|].
      apply poly_shift, IH.
  Qed.
  Lemma poly_cross n nu os : 1 <= n -> Forall (fun o : opening => length (op_poly o) <= n) os -> forall s, poly_fun (n + length os) (cross nu s os).
  Proof.
    intros L H. induction H as [|o os H1 H2 IH]; intros s; cbn [cross length].
    - apply poly_zero.
    - apply poly_add.
      + apply (@poly_le _ _ (n + length os)%nat); [lia|]. apply (@poly_vanish n (fun y => s * (peval (op_poly o) y - op_value o)) os).
        apply poly_mul, poly_sub; [eapply poly_le; [exact H1|apply poly_peval]|apply poly_const, L].
      + rewrite <- plus_n_Sm. apply poly_shift, IH.
  Qed.
  Lemma few_z n q os nu zs : 1 <= n -> length q <= n -> Forall (fun o : opening => length (op_poly o) <= n) os ->
    NoDup zs -> Forall (lucky_z q os nu) zs -> length zs < n + length os.
  Proof.
    intros L Lq Ho ND H. destruct zs as [|t zs]; [cbn; lia|]. assert (H' := H). apply Forall_cons_iff in H'. destruct H' as [[_ Y] _].
    apply (@few_poly _ (batched q os nu)); [|exact Y|exact ND|eapply Forall_impl; [|exact H]; intros a [E _]; exact E].
    unfold batched. apply poly_sub; [|apply poly_cross; assumption]. apply poly_vanish. eapply poly_le; [exact Lq|apply poly_peval].
  Qed.

  (** ** r *)
  (** the polynomial of the square *)
  Fixpoint spread (c : list F) : list F := match c with [] => [] | x :: c => x :: 0 :: spread c end.
  Lemma peval_spread c x : peval (spread c) x = peval c (x * x).
  Proof. induction c as [|a c IH]; cbn [spread peval]; [reflexivity|]. rewrite IH, !smulU. ring. Qed.
  Lemma nth_spread c : forall i, nth (2 * i) (spread c) 0 = nth i c 0.
  Proof.
    induction c as [|a c IH]; intros i; [rewrite !nth_overflow by (cbn; lia); reflexivity|]. destruct i as [|i]; [reflexivity|].
    replace (2 * S i)%nat with (S (S (2 * i))) by lia. cbn [spread nth]. apply IH.
  Qed.
  Lemma length_spread c : length (spread c) = (2 * length c)%nat.
  Proof. induction c as [|a c IH]; cbn [spread length]; [reflexivity|]. rewrite IH. lia. Qed.
  (** the k-th square *)
  Fixpoint sqk (k : nat) (p : F) : F := match k with O => p | S k => sqk k (p * p) end.
  Lemma few_squares k : forall n c ps, length c <= n -> (exists i, nth i c 0 <> 0) -> NoDup ps -> Forall (fun p => peval c (sqk k p) = 0) ps -> length ps < 2 ^ k * n.
  Proof.
    induction k as [|k IH]; intros n c ps L [i Ni] ND H; cbn [sqk] in H.
    - cbn [Nat.pow]. destruct (Nat.lt_ge_cases (length ps) (1 * n)) as [|G]; [assumption|]. exfalso. apply Ni.
      apply (@coefs_zero ps); [exact ND|lia|]. rewrite Forall_forall in H. exact H.
    - replace (2 ^ S k * n)%nat with (2 ^ k * (2 * n))%nat by (cbn [Nat.pow]; lia). apply (IH (2 * n)%nat (spread c)).
      + rewrite length_spread. lia.
      + exists (2 * i)%nat. rewrite nth_spread. exact Ni.
      + exact ND.
      + eapply Forall_impl; [|exact H]. cbn. intros p E. rewrite peval_spread. rewrite <- E. f_equal. clear. revert p. induction k as [|k IHk]; intros p; [reflexivity|]. cbn [sqk]. apply IHk.
  Qed.
  (** two polynomials that are not the same *)
  Lemma few_agree k n c d ps : length c <= n -> length d <= n -> ~ (forall i, nth i c 0 = nth i d 0) -> NoDup ps ->
    Forall (fun p => peval c (sqk k p) = peval d (sqk k p)) ps -> length ps < 2 ^ k * n.
  Proof.
    intros Lc Ld N ND H. apply (@few_squares k n (padd c (map gneg d))).
    - rewrite length_padd, map_length. lia.
    - assert (D : forall m, (forall i, i < m -> nth i c 0 = nth i d 0) \/ exists i, nth i (padd c (map gneg d)) 0 <> 0).
      { induction m as [|m IH]; [left; intros; lia|]. destruct IH as [IH|IH]; [|right; exact IH].
        destruct (zero_dec (nth m (padd c (map gneg d)) 0)) as [Z|Z]; [|right; exists m; exact Z]. left. intros i Hi.
        destruct (Nat.eq_dec i m) as [->|]; [|apply IH; lia]. rewrite nth_padd, nth_neg in Z.
        transitivity (nth m c 0 + - nth m d 0 + nth m d 0); [ring|]. rewrite Z. ring. }
      destruct (D n) as [E|E]; [|exact E]. exfalso. apply N. intros i. destruct (Nat.lt_ge_cases i n) as [Li|Li]; [apply E, Li|]. rewrite !nth_overflow by lia. reflexivity.
    - exact ND.
    - eapply Forall_impl; [|exact H]. cbn. intros p E. rewrite peval_padd, peval_map_neg, E. ring.
  Qed.
  Lemma length_fold_col (u : F) a : length (fold_col u a) = length a.
  Proof. unfold fold_col. rewrite map_length, seq_length. reflexivity. Qed.
  Lemma few_first n u a g b rs : length a < n -> length b < n -> NoDup rs -> Forall (lucky_first u a g b) rs -> length rs < 2 * n.
  Proof.
    intros La Lb ND H. destruct rs as [|r rs]; [cbn; lia|]. assert (H' := H). apply Forall_cons_iff in H'. destruct H' as [[N _] _].
    apply (@few_agree 1 n (0 :: b) (u * g :: fold_col u a)); cbn [length]; [lia|rewrite length_fold_col; lia| |exact ND|].
    - intros E. apply N. split; [symmetry; exact (E 0%nat)|]. apply folds_col. intros i. exact (E (S i)).
    - eapply Forall_impl; [|exact H]. intros p [_ E]. exact E.
  Qed.
  Lemma split_list (f g : F -> Prop) n m ps : (forall p, f p \/ ~ f p) -> NoDup ps -> Forall (fun p => f p \/ g p) ps ->
    (forall qs, NoDup qs -> Forall f qs -> length qs <= n) -> (forall qs, NoDup qs -> Forall g qs -> length qs <= m) -> length ps <= n + m.
  Proof.
    intros D ND H Hf Hg.
    assert (S : exists l1 l2, NoDup l1 /\ NoDup l2 /\ incl l1 ps /\ incl l2 ps /\ Forall f l1 /\ Forall g l2 /\ length ps = (length l1 + length l2)%nat).
    { clear Hf Hg. induction ps as [|p ps IH].
      - exists [], []. repeat split; try constructor; intros ? [].
      - apply NoDup_cons_iff in ND. destruct ND as [N1 N2]. apply Forall_cons_iff in H. destruct H as [H1 H2].
        destruct (IH N2 H2) as (l1 & l2 & A1 & A2 & I1 & I2 & B1 & B2 & L). destruct (D p) as [P|P].
        + exists (p :: l1), l2. repeat split; try assumption.
          * constructor; [intros X; apply N1, I1, X|exact A1].
          * intros x [<-|X]; [left; reflexivity|right; apply I1, X].
          * intros x X. right. apply I2, X.
          * constructor; assumption.
          * cbn [length]. lia.
        + exists l1, (p :: l2). repeat split; try assumption.
          * constructor; [intros X; apply N1, I2, X|exact A2].
          * intros x X. right. apply I1, X.
          * intros x [<-|X]; [left; reflexivity|right; apply I2, X].
          * constructor; [destruct H1; [contradiction|assumption]|assumption].
          * cbn [length]. lia. }
    destruct S as (l1 & l2 & A1 & A2 & _ & _ & B1 & B2 & ->). specialize (Hf l1 A1 B1). specialize (Hg l2 A2 B2). lia.
  Qed.
  Lemma few_fold_at n us : forall k As v ps, 1 <= n -> Forall (fun a => length a <= n) As -> NoDup ps ->
    Forall (fun p => lucky_fold us As v (sqk k p)) ps -> length ps + 2 ^ (k + 1) * n <= 2 ^ (k + length us + 1) * n.
  Proof.
    induction us as [|u us IH]; intros k As v ps Ln HA ND H.
    - destruct ps as [|p ps]; [cbn [length]; replace (k + 0 + 1)%nat with (k + 1)%nat by lia; lia|]. apply Forall_cons_iff in H. destruct H as [[] _].
    - assert (PW : (2 ^ (k + 1) * n <= 2 ^ (k + length (u :: us) + 1) * n)%nat) by (apply Nat.mul_le_mono_r, Nat.pow_le_mono_r; cbn [length]; lia).
      destruct As as [|a As]; [destruct ps as [|p ps]; [cbn [length] in *; lia|]; apply Forall_cons_iff in H; destruct H as [[] _]|].
      apply Forall_cons_iff in HA. destruct HA as [La HA]. cbn [lucky_fold length] in *.
      assert (SQ : forall p, sqk k p * sqk k p = sqk (S k) p). { clear. induction k as [|k IHk]; intros p; [reflexivity|]. cbn [sqk]. apply IHk. }
      assert (Lh : length (hd [v] As) <= n) by (destruct HA; cbn [hd length]; lia).
      assert (P2 : (2 ^ (S k + 1) * n = 2 ^ (k + 1) * n + 2 ^ (k + 1) * n)%nat) by (replace (S k + 1)%nat with (S (k + 1)) by lia; cbn [Nat.pow]; lia).
      assert (P3 : (2 ^ (S k + 1) * n <= 2 ^ (S k + length us + 1) * n)%nat) by (apply Nat.mul_le_mono_r, Nat.pow_le_mono_r; lia).
      replace (k + S (length us) + 1)%nat with (S k + length us + 1)%nat by lia.
      assert (B : length ps <= 2 ^ (k + 1) * n + (2 ^ (S k + length us + 1) * n - 2 ^ (S k + 1) * n)).
      { apply (@split_list (fun p => ~ folds u a (hd [v] As) /\ peval (hd [v] As) (sqk (S k) p) = peval (fold_col u a) (sqk (S k) p)) (fun p => lucky_fold us As v (sqk (S k) p))).
        * intros p. destruct (folds_dec u a (hd [v] As)) as [X|X]; [right; intros [Y _]; contradiction|].
          destruct (zero_dec (peval (hd [v] As) (sqk (S k) p) - peval (fold_col u a) (sqk (S k) p))) as [Z|Z].
          -- left. split; [exact X|]. transitivity (peval (hd [v] As) (sqk (S k) p) - peval (fold_col u a) (sqk (S k) p) + peval (fold_col u a) (sqk (S k) p)); [ring|]. rewrite Z. ring.
          -- right. intros [_ Y]. apply Z. rewrite Y. ring.
        * exact ND.
        * eapply Forall_impl; [|exact H]. cbn beta. intros p. rewrite SQ. auto.
        * intros qs NDq Hq. destruct qs as [|q0 qs]; [cbn [length]; lia|]. assert (H' := Hq). apply Forall_cons_iff in H'. destruct H' as [[N _] _].
          apply Nat.lt_le_incl. replace (k + 1)%nat with (S k) by lia.
          apply (@few_agree (S k) n (hd [v] As) (fold_col u a)); [exact Lh|rewrite length_fold_col; exact La|intros E; apply N, folds_col, E|exact NDq|].
          eapply Forall_impl; [|exact Hq]. intros x [_ E]. exact E.
        * intros qs NDq Hq. pose proof (IH (S k) As v qs Ln HA NDq Hq). lia. }
      lia.
  Qed.
  (** [lucky_fold us As v (r * r)] for the challenge r *)
  Lemma few_fold n us As v rs : 1 <= n -> Forall (fun a => length a <= n) As -> NoDup rs ->
    Forall (fun r => lucky_fold us As v (r * r)) rs -> length rs <= 2 ^ (length us + 2) * n.
  Proof.
    intros L HA ND H. pose proof (@few_fold_at n us 1 As v rs L HA ND H) as B. replace (1 + length us + 1)%nat with (length us + 2)%nat in B by lia. lia.
  Qed.
End Few.
