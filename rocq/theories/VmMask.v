(** * Conditions on shared values: executing both branches under a mask computes the taken one *)
From Coq Require Import String List Arith NArith Bool Lia Ring.
From Verif Require Import Proc Alg Rep3Net Rep3 Rep3Spec Rep3Proofs Rep3Wp Uint Binary Conv ConvWp CmpWp Garble Circuits Yao VmDriver VmIdeal Vm VmRun VmSource VmCompile.
Import ListNotations.
Set Implicit Arguments.
Local Open Scope grp_scope.
Local Open Scope string_scope.
Local Open Scope list_scope.

Section Unfold.
  Context {F V : Type} `{CR : CRing F} (pubv : F -> V) (hm : option V -> handler F V) (consts : list F) (mask : option V) (off : nat) (st : @state V).
  Notation xi := (xi pubv hm consts mask off st).
  Notation xe := (xe pubv hm consts mask off st).
  Notation h := (hm mask).
  Lemma xi_eq a : xi a = match a with
      | IConst n => Done n
      | IAddr e => obind (xe e) (fun v => obind (h_to_index h v) (fun n => Done (N.to_nat n)))
      | IAdd a b => obind (xi a) (fun x => obind (xi b) (fun y => Done (x + y)))
      | IMul a b => obind (xi a) (fun x => obind (xi b) (fun y => Done (x * y)))
      end%nat.
  Proof. now destruct a. Qed.
  Lemma xe_eq e : xe e = match e with
      | EConst i => obind (oget (nth_error consts i)) (fun k => Done (pubv k))
      | EVar a => obind (xi a) (fun i => oget (nth_error (s_vars st) i))
      | ESig a => obind (xi a) (fun i => oget (nth_error (s_sig st) (off + i)))
      | EBin o a b => obind (xe a) (fun x => obind (xe b) (fun y =>
          match o with ODiv => obind (divisor pubv hm mask y) (fun y => h_bop h ODiv x y) | _ => h_bop h o x y end))
      | ENeg a => obind (xe a) (fun x => h_uop h ONeg x)
      | EEq a b => obind (xe a) (fun x => obind (xe b) (fun y => obind (h_bop h OEq x y) (fun z => h_bop h OBoolAnd z (vone pubv))))
      | EOut mapped code ix cmp => obind (xi ix) (fun i => obind (xi cmp) (fun c =>
          obind (oget (nth_error (s_subs st) c)) (fun s => obind (signal_of s mapped code i) (fun j => oget (nth_error (s_sig st) j)))))
      end%nat.
  Proof. now destruct e. Qed.
End Unfold.

(** ** A run that is more defined *)
Section Refine.
  Definition ole {A} (o o' : outcome A) : Prop := forall a, o = Done a -> o' = Done a.
  Lemma ole_refl {A} (o : outcome A) : ole o o. Proof. intros a E. exact E. Qed.
  Lemma ole_bind {A B} (o o' : outcome A) (f f' : A -> outcome B) : ole o o' -> (forall a, ole (f a) (f' a)) -> ole (obind o f) (obind o' f').
  Proof. intros Ho Hf b E. apply obind_done in E as (a & Ea & E). rewrite (Ho _ Ea). exact (Hf _ _ E). Qed.
  Lemma ole_failed {A} e (o : outcome A) : ole (Failed e) o. Proof. intros a E. discriminate. Qed.
  Context {F V : Type} `{CR : CRing F} (pubv : F -> V) (is_sh : V -> bool).
  Definition hle (h h' : handler F V) : Prop :=
    (forall o x y, ole (h_bop h o x y) (h_bop h' o x y)) /\ (forall o x, ole (h_uop h o x) (h_uop h' o x)) /\
    (forall c x y, ole (h_cmux h c x y) (h_cmux h' c x y)) /\ (forall x b, ole (h_is_zero h x b) (h_is_zero h' x b)) /\
    (forall x, ole (h_to_index h x) (h_to_index h' x)) /\ (forall x n, ole (h_num2bits h x n) (h_num2bits h' x n)) /\
    (forall x y, ole (h_addbits h x y) (h_addbits h' x y)) /\ (forall x, ole (h_open h x) (h_open h' x)).
  Lemma run_le h h' A (q : vmp F V A) : hle h h' -> ole (run h q) (run h' q).
  Proof.
    intros (H1 & H2 & H3 & H4 & H5 & H6 & H7 & H8).
    induction q as [a|e|o x y k IH|o x k IH|c x y k IH|x b k IH|x k IH|x n k IH|x y k IH|x k IH]; cbn [run]; try apply ole_refl; apply ole_bind; auto.
  Qed.
  Variables (hm hm' : option V -> handler F V) (Hle : forall m, hle (hm m) (hm' m)).
  Variables (consts : list F) (templs : list (string * stempl)) (cfg : acfg).
  Ltac prims := match goal with
    | |- ole (h_bop _ _ _ _) _ => apply Hle | |- ole (h_uop _ _ _) _ => apply Hle | |- ole (h_cmux _ _ _ _) _ => apply Hle
    | |- ole (h_is_zero _ _ _) _ => apply Hle | |- ole (h_to_index _ _) _ => apply Hle end.
  Ltac go := repeat first [progress intros|apply ole_bind|apply ole_refl|apply ole_failed|prims|assumption].
  Lemma expr_le mask off st : (forall a, ole (xi pubv hm consts mask off st a) (xi pubv hm' consts mask off st a)) /\
    (forall e, ole (xe pubv hm consts mask off st e) (xe pubv hm' consts mask off st e)).
  Proof.
    apply iexpr_ind; intros; cbn [xi xe]; go.
    destruct o; go. unfold divisor. destruct mask; go.
  Qed.
  Lemma rhs_le mask off st r : ole (xr pubv hm consts mask off st r) (xr pubv hm' consts mask off st r).
  Proof. destruct (expr_le mask off st) as [LI LE]. destruct r; cbn [xr]; go; auto. Qed.
  Lemma sto_le mask base rvs arr : ole (sto hm mask base rvs arr) (sto hm' mask base rvs arr).
  Proof. revert arr. induction rvs as [|v rvs IH]; intros arr; cbn [sto]; go. destruct mask; go. apply IH. Qed.
  Lemma comp_le b b' t off sg : (forall t off sg, ole (b t off sg) (b' t off sg)) -> ole (xcomp pubv hm cfg b t off sg) (xcomp pubv hm' cfg b' t off sg).
  Proof.
    intros Hb. unfold xcomp. destruct (cmp_accelerator _ _ _ _ _); [|apply Hb]. go. destruct (cmp_accelerator _ _ _ _ _); go.
    apply run_le, Hle.
  Qed.
  Lemma create_le b b' l sg : (forall t off sg, ole (b t off sg) (b' t off sg)) -> ole (xcreate (V := V) b l sg) (xcreate b' l sg).
  Proof. intros Hb. revert sg. induction l as [|s l IH]; intros sg; cbn [xcreate]; go. destruct (_ =? _)%nat; go; auto. Qed.
  Lemma stmt_le n s mask off st : ole (xs pubv is_sh hm consts templs cfg n s mask off st) (xs pubv is_sh hm' consts templs cfg n s mask off st).
  Proof.
    revert s mask off st. induction n as [|n IH]; intros s mask off st; cbn [xs]; [go|].
    destruct (expr_le mask off st) as [LI LE]. pose proof (rhs_le mask off st) as LR. pose proof (sto_le mask) as LS.
    assert (LC : forall t off sg, ole (xcomp pubv hm cfg (fun t off sg => obind (xs pubv is_sh hm consts templs cfg n (st_body t) None off (mkS (repeat (vzero pubv) (st_vars t)) sg [])) (fun st => Done (s_sig st))) t off sg)
        (xcomp pubv hm' cfg (fun t off sg => obind (xs pubv is_sh hm' consts templs cfg n (st_body t) None off (mkS (repeat (vzero pubv) (st_vars t)) sg [])) (fun st => Done (s_sig st))) t off sg)).
    { intros. apply comp_le. intros. apply ole_bind; [apply IH|intros; apply ole_refl]. }
    destruct s; repeat first [progress intros|apply ole_bind|apply ole_refl|apply ole_failed|prims|apply LI|apply LE|apply LR|apply LS|apply IH|apply LC|apply create_le
      |match goal with
       | |- ole (match ?x with _ => _ end) (match ?x with _ => _ end) => destruct x
       | |- ole (let _ := _ in _) _ => cbv zeta
       end].
  Qed.
  Lemma main_le n t off sg : ole (xmain pubv is_sh hm consts templs cfg n t off sg) (xmain pubv is_sh hm' consts templs cfg n t off sg).
  Proof. apply comp_le. intros. apply ole_bind; [apply stmt_le|intros; apply ole_refl]. Qed.
End Refine.

(** ** Drivers *)
Section Drivers.
  Context {F : Type} `{FU : FieldUint F}.
  Variable fsqrt : F -> option F.
  Add Ring Fr : (cring_theory (R := F)).
  Definition plain_h : handler F F :=
    mkH plain_bop (plain_uop fsqrt) plain_cmux (fun x _ => Done (feqb x 0)) to_usize (fun x n => Done (plain_num2bits x n)) plain_addbits (fun x => Done x).
  Definition ideal_h : handler F (tv F) :=
    mkH ideal_bop (ideal_uop fsqrt) ideal_cmux ideal_is_zero ideal_to_index (fun x n => Done (ideal_num2bits x n)) ideal_addbits (fun x => Done (tval x)).
  Lemma run_plain_h A (q : vmp F F A) : run_plain fsqrt q = run plain_h q.
  Proof.
    induction q as [a|e|o x y k IH|o x k IH|c x y k IH|x b k IH|x k IH|x n k IH|x y k IH|x k IH]; cbn [run run_plain plain_h h_bop h_uop h_cmux h_is_zero h_to_index h_num2bits h_addbits h_open obind]; auto.
    all: match goal with |- obind ?a _ = _ => destruct a end; cbn [obind]; auto.
  Qed.
  Lemma run_ideal_h A (q : vmp F (tv F) A) : run_ideal fsqrt q = run ideal_h q.
  Proof.
    induction q as [a|e|o x y k IH|o x k IH|c x y k IH|x b k IH|x k IH|x n k IH|x y k IH|x k IH]; cbn [run run_ideal ideal_h h_bop h_uop h_cmux h_is_zero h_to_index h_num2bits h_addbits h_open obind]; auto.
    all: match goal with |- obind ?a _ = _ => destruct a end; cbn [obind]; auto.
  Qed.
  (** the three-party driver where it returns the value of the clear one, else [outside] *)
  Definition agreeing (o : outcome (tv F)) (q : outcome F) : outcome (tv F) :=
    obind o (fun r => match q with Done v => if feqb (tval r) v then Done r else Failed outside | Failed _ => Failed outside end).
  Definition strict_h : handler F (tv F) :=
    mkH (fun o x y => agreeing (ideal_bop o x y) (plain_bop o (tval x) (tval y)))
        (fun o x => agreeing (ideal_uop fsqrt o x) (plain_uop fsqrt o (tval x)))
        ideal_cmux ideal_is_zero ideal_to_index (fun x n => Done (ideal_num2bits x n)) ideal_addbits (fun x => Done (tval x)).
  (** the branch is taken *)
  Definition active (m : option (tv F)) : bool := match m with None => true | Some m => feqb (tval m) rone end.
  (** agreement is asked for where the branch is taken *)
  Definition strict (m : option (tv F)) : handler F (tv F) := if active m then strict_h else ideal_h.
  Definition plain (m : option F) : handler F F := plain_h.
  Definition ideal (m : option (tv F)) : handler F (tv F) := ideal_h.
  Lemma agreeing_done o q r : agreeing o q = Done r -> o = Done r /\ q = Done (tval r).
  Proof.
    unfold agreeing. intros E. apply obind_done in E as (a & -> & E). destruct q as [v|]; [|discriminate].
    destruct (feqb (tval a) v) eqn:Ev; [|discriminate]. inversion E; subst. apply feqb_spec in Ev. subst v. auto.
  Qed.
  Lemma strict_le m : hle (strict m) (ideal m).
  Proof.
    unfold strict, ideal. destruct (active m); unfold hle; spl; intros; try apply ole_refl; intros a E; now apply agreeing_done in E as [E _].
  Qed.

  Definition clear (st : @state (tv F)) : @state F := mkS (map tval (s_vars st)) (map tval (s_sig st)) (s_subs st).
  Definition mask_ok (m : option (tv F)) : Prop := match m with None => True | Some m => tval m = rone \/ tval m = 0 end.
  Variables (consts : list F) (templs : list (string * stempl)) (cfg : acfg).
  Notation xiS := (xi Pub strict consts).
  Notation xeS := (xe Pub strict consts).
  Notation xiP := (xi (fun x => x) plain consts None).
  Notation xeP := (xe (fun x => x) plain consts None).

  Lemma nth_map {A B} (f : A -> B) {l i x} : nth_error l i = Some x -> nth_error (map f l) i = Some (f x).
  Proof. apply map_nth_error. Qed.
  Lemma slice_map {A B} (f : A -> B) {s n l r} : slice s n l = Some r -> slice s n (map f l) = Some (map f r).
  Proof. unfold slice. rewrite map_length. destruct (_ <=? _)%nat; [|discriminate]. intros E. inversion E. now rewrite skipn_map, firstn_map. Qed.
  Lemma splice_map {A B} (f : A -> B) {s xs l r} : splice s xs l = Some r -> splice s (map f xs) (map f l) = Some (map f r).
  Proof. unfold splice. rewrite !map_length. destruct (_ <=? _)%nat; [|discriminate]. intros E. inversion E. now rewrite !map_app, firstn_map, skipn_map. Qed.
  Lemma mask_active {m} : mask_ok m -> active m = true -> m = None \/ exists a, m = Some a /\ tval a = rone.
  Proof. destruct m as [a|]; [|auto]. cbn. intros _ E. apply feqb_spec in E. eauto. Qed.
  Lemma mask_inactive {m} : mask_ok m -> active m = false -> exists a, m = Some a /\ tval a = 0.
  Proof. destruct m as [a|]; [|discriminate]. cbn. intros [E|E] Ha; [rewrite E, feqb_refl' in Ha; discriminate|eauto]. Qed.
  Lemma cmux_one {m x y r} : tval m = rone -> ideal_cmux m x y = Done r -> tval r = tval x.
  Proof.
    destruct m as [c|c]; cbn; intros ->.
    - unfold is01. rewrite feqb_refl'. cbn. intros E. inversion E; subst. reflexivity.
    - intros E. inversion E. cbn. ring.
  Qed.
  Lemma cmux_zero {m x y r} : tval m = 0 -> ideal_cmux m x y = Done r -> tval r = tval y.
  Proof.
    destruct m as [c|c]; cbn; intros ->.
    - unfold is01. rewrite feqb_refl', feqb01. cbn. intros E. inversion E; subst. reflexivity.
    - intros E. inversion E. cbn. ring.
  Qed.
  Lemma strict_cmux m x y z : h_cmux (strict m) x y z = ideal_cmux x y z.
  Proof. unfold strict. now destruct (active m). Qed.

  Ltac dn H x E := apply obind_done in H as (x & E & H).
  Lemma expr_clear {mask} off st : mask_ok mask -> active mask = true ->
    (forall a i, xiS mask off st a = Done i -> xiP off (clear st) a = Done i) /\ (forall e v, xeS mask off st e = Done v -> xeP off (clear st) e = Done (tval v)).
  Proof.
    intros Hm Ha. assert (Hs : strict mask = strict_h) by (unfold strict; now rewrite Ha).
    apply iexpr_ind.
    - auto.
    - intros e IH i X. first [rewrite xi_eq in X; rewrite xi_eq|rewrite xe_eq in X; rewrite xe_eq]. dn X v Ev. dn X n En. inversion X; subst. rewrite (IH _ Ev). cbn [obind plain h_to_index plain_h]. rewrite Hs in En. destruct v; cbn in En; [|discriminate]. cbn [tval]. now rewrite En.
    - intros a IHa b IHb i X. first [rewrite xi_eq in X; rewrite xi_eq|rewrite xe_eq in X; rewrite xe_eq]. dn X x Ex. dn X y Ey. rewrite (IHa _ Ex), (IHb _ Ey). exact X.
    - intros a IHa b IHb i X. first [rewrite xi_eq in X; rewrite xi_eq|rewrite xe_eq in X; rewrite xe_eq]. dn X x Ex. dn X y Ey. rewrite (IHa _ Ex), (IHb _ Ey). exact X.
    - intros i v X. first [rewrite xi_eq in X; rewrite xi_eq|rewrite xe_eq in X; rewrite xe_eq]. dn X k Ek. rewrite Ek. cbn. inversion X. reflexivity.
    - intros a IH v X. first [rewrite xi_eq in X; rewrite xi_eq|rewrite xe_eq in X; rewrite xe_eq]. dn X i Ei. apply oget_done in X. rewrite (IH _ Ei). cbn. now rewrite (nth_map tval X).
    - intros a IH v X. first [rewrite xi_eq in X; rewrite xi_eq|rewrite xe_eq in X; rewrite xe_eq]. dn X i Ei. apply oget_done in X. rewrite (IH _ Ei). cbn. now rewrite (nth_map tval X).
    - intros o a IHa b IHb v X. first [rewrite xi_eq in X; rewrite xi_eq|rewrite xe_eq in X; rewrite xe_eq]. dn X x Ex. dn X y Ey. rewrite (IHa _ Ex), (IHb _ Ey). cbn [obind].
      destruct (bop_div o) as [->|Nd].
      + dn X w Ew. rewrite Hs in X. cbn in X. apply agreeing_done in X as [_ X]. cbn [divisor obind plain plain_h h_bop].
        assert (E : tval w = tval y).
        { destruct (mask_active Hm Ha) as [-> | (m & -> & Em)]; cbn [divisor] in Ew; [now inversion Ew|]. rewrite strict_cmux in Ew. exact (cmux_one Em Ew). }
        rewrite <- E. exact X.
      + assert (X' : h_bop strict_h o x y = Done v) by (destruct o; try (rewrite Hs in X; exact X); congruence). cbn in X'. apply agreeing_done in X' as [_ X'].
        destruct o; try exact X'.
    - intros a IH v X. first [rewrite xi_eq in X; rewrite xi_eq|rewrite xe_eq in X; rewrite xe_eq]. dn X x Ex. rewrite (IH _ Ex). rewrite Hs in X. cbn in X. apply agreeing_done in X as [_ X]. exact X.
    - intros a IHa b IHb v X. first [rewrite xi_eq in X; rewrite xi_eq|rewrite xe_eq in X; rewrite xe_eq]. dn X x Ex. dn X y Ey. dn X z Ez. rewrite (IHa _ Ex), (IHb _ Ey). rewrite Hs in Ez, X. cbn [strict_h h_bop] in Ez, X. apply agreeing_done in Ez as [_ Ez]. apply agreeing_done in X as [_ X].
      cbn [obind plain plain_h h_bop] in *. rewrite Ez. cbn [obind]. exact X.
    - intros mapped code ix IHx cmp IHc v X. first [rewrite xi_eq in X; rewrite xi_eq|rewrite xe_eq in X; rewrite xe_eq]. dn X i Ei. dn X c Ec. dn X s Es. dn X j Ej. apply oget_done in X. rewrite (IHx _ Ei), (IHc _ Ec). cbn [obind clear s_subs s_sig]. rewrite Es. cbn [obind]. rewrite Ej. cbn [obind].
      now rewrite (nth_map tval X).
  Qed.
  Lemma rhs_clear mask off st r vs : mask_ok mask -> active mask = true -> xr Pub strict consts mask off st r = Done vs ->
    xr (fun x => x) plain consts None off (clear st) r = Done (map tval vs).
  Proof.
    intros Hm Ha. destruct (expr_clear off st Hm Ha) as [CI CE]. destruct r; cbn [xr]; intros X.
    - dn X v Ev. inversion X. rewrite (CE _ _ Ev). reflexivity.
    - dn X i Ei. apply oget_done in X. rewrite (CI _ _ Ei). cbn. now rewrite (slice_map tval X).
    - dn X i Ei. apply oget_done in X. rewrite (CI _ _ Ei). cbn. now rewrite (slice_map tval X).
    - dn X i Ei. dn X c Ec. dn X s Es. dn X j Ej. apply oget_done in X. rewrite (CI _ _ Ei), (CI _ _ Ec). cbn [obind clear s_subs s_sig]. rewrite Es. cbn [obind]. rewrite Ej. cbn [obind].
      now rewrite (slice_map tval X).
  Qed.
  Lemma sto_clear {mask base rvs arr arr'} : mask_ok mask -> active mask = true -> sto strict mask base rvs arr = Done arr' ->
    sto plain None base (map tval rvs) (map tval arr) = Done (map tval arr').
  Proof.
    intros Hm Ha. revert arr. induction rvs as [|v rvs IH]; intros arr X; cbn [sto map] in *; [now inversion X|].
    dn X old Eo. apply oget_done in Eo. dn X x Ex. dn X arr2 E2. apply oget_done in E2. rewrite map_length, (nth_map tval Eo). cbn [oget obind].
    assert (E : tval x = tval v). { destruct (mask_active Hm Ha) as [-> | (m & -> & Em)]; [now inversion Ex|]. rewrite strict_cmux in Ex. exact (cmux_one Em Ex). }
    rewrite <- E. change [tval x] with (map tval [x]). rewrite (splice_map tval E2). cbn [oget obind]. now apply IH.
  Qed.
  Lemma sto_keeps {mask base rvs arr arr'} : mask_ok mask -> active mask = false -> sto strict mask base rvs arr = Done arr' -> map tval arr' = map tval arr.
  Proof.
    intros Hm Ha. destruct (mask_inactive Hm Ha) as (m & -> & Em). revert arr. induction rvs as [|v rvs IH]; intros arr X; cbn [sto] in *; [now inversion X|].
    dn X old Eo. apply oget_done in Eo. dn X x Ex. dn X arr2 E2. apply oget_done in E2. rewrite strict_cmux in Ex. apply (cmux_zero Em) in Ex.
    rewrite (IH _ X). clear - Eo E2 Ex. unfold splice in E2. cbn [length] in E2. destruct (_ <=? _)%nat; [|discriminate]. inversion E2; subst arr2. clear E2.
    revert Eo. generalize (base + length rvs)%nat. intros i. revert arr. induction i as [|i IH]; intros [|a arr] E; cbn in *; try discriminate.
    - inversion E; subst. now rewrite Ex.
    - f_equal. apply IH, E.
  Qed.
  Lemma bool_and_one m v r : tval m = rone -> tshared v = true -> h_bop strict_h OBoolAnd m v = Done r -> tval r = tval v /\ (tval v = rone \/ tval v = 0).
  Proof.
    intros Em Hv E. cbn [strict_h h_bop] in E. apply agreeing_done in E as [Ei Ep]. rewrite Em in Ep. cbn [plain_bop] in Ep. dn Ep a Ea. dn Ep b Eb. injection Ep as Er.
    assert (Ev : tval r = tval v).
    { destruct v as [v|v]; [discriminate|]. destruct m as [m|m]; cbn [ideal_bop mixed_bop tval] in *; inversion Ei; subst; cbn [tval]; ring. }
    split; [exact Ev|]. rewrite <- Ev, <- Er. unfold boolF. destruct (_ && _); auto.
  Qed.
  Lemma bool_and_zero {m v r mm} : tval m = 0 -> tshared v = true -> h_bop (strict mm) OBoolAnd m v = Done r -> tval r = 0.
  Proof.
    intros Em Hv E. assert (Ei : ideal_bop OBoolAnd m v = Done r). { unfold strict in E. destruct (active mm); cbn [strict_h ideal_h h_bop] in E; [now apply agreeing_done in E as [E _]|exact E]. }
    destruct v as [v|v]; [discriminate|]. destruct m as [m|m]; cbn [ideal_bop mixed_bop tval] in *; inversion Ei; subst; cbn [tval]; ring.
  Qed.
  Lemma bool_not_strict v r : h_uop strict_h OBoolNot v = Done r -> tval r = rone - tval v.
  Proof. cbn. intros E. apply agreeing_done in E as [_ E]. destruct (is01 _); [|discriminate]. now inversion E. Qed.
  Lemma bool_not_shared {v r mm} : tshared v = true -> h_uop (strict mm) OBoolNot v = Done r -> tshared r = true.
  Proof.
    intros Hv E. assert (Ei : ideal_uop fsqrt OBoolNot v = Done r). { unfold strict in E. destruct (active mm); cbn [strict_h ideal_h h_uop] in E; [now apply agreeing_done in E as [E _]|exact E]. }
    destruct v; [discriminate|]. cbn in Ei. now inversion Ei.
  Qed.
  Lemma is_zero_clear mm v b z : h_is_zero (strict mm) v b = Done z -> z = feqb (tval v) 0.
  Proof.
    intros E. assert (Ei : ideal_is_zero v b = Done z) by (unfold strict in E; destruct (active mm); exact E). unfold ideal_is_zero in Ei. destruct (_ && _); [discriminate|]. now inversion Ei.
  Qed.

  (** *** accelerators *)
  Lemma map_tag (a : tv F) (l : list F) : map tval (map (if tshared a then @Sh F else @Pub F) l) = l.
  Proof. rewrite map_map. destruct (tshared a); cbn; apply map_id. Qed.
  Lemma accel_none {name args outs} args' outs' : cmp_accelerator (Pub (F := F)) cfg name args outs = None -> cmp_accelerator (fun x : F => x) cfg name args' outs' = None.
  Proof. unfold cmp_accelerator. destruct (_ && _); [discriminate|]. destruct (_ && _); [discriminate|]. destruct (_ && _); [discriminate|auto]. Qed.
  Lemma accel_clear {name args outs q r} : cmp_accelerator (Pub (F := F)) cfg name args outs = Some q -> run strict_h q = Done r ->
    exists q', cmp_accelerator (fun x : F => x) cfg name (map tval args) outs = Some q' /\ run plain_h q' = Done (map tval (fst r), map tval (snd r)).
  Proof.
    unfold cmp_accelerator. destruct (ac_num2bits cfg && _); [|destruct (ac_addbits cfg && _); [|destruct (ac_iszero cfg && _); [|discriminate]]]; intros E X; inversion E; subst q; clear E; eexists; (split; [reflexivity|]).
    - destruct args as [|a [|b args]]; try discriminate. cbn in X. inversion X; subst r. cbn [fst snd]. unfold ideal_num2bits. rewrite map_tag. reflexivity.
    - rewrite map_length. destruct (Nat.even _); [|discriminate]. cbn [run strict_h h_addbits] in X. dn X y Ey. unfold ideal_addbits in Ey.
      rewrite firstn_map, skipn_map. cbn [run plain_h h_addbits]. destruct (plain_addbits _ _) as [w|]; [|discriminate]. cbn [omap] in Ey. inversion Ey; subst y. cbn in X. inversion X; subst r. cbn.
      rewrite map_map. cbn. now rewrite map_id.
    - destruct args as [|a [|b args]]; try discriminate. cbn [run map] in *. dn X z Ez. dn X s Es. dn X i Ei. dn X h Eh. inversion X; subst r. cbn [strict_h h_bop] in *.
      apply agreeing_done in Ez as [_ Ez]. apply agreeing_done in Es as [_ Es]. apply agreeing_done in Ei as [_ Ei]. apply agreeing_done in Eh as [_ Eh].
      cbn [plain_h h_bop tval] in *. unfold vzero, vone in *. cbn [tval] in *. rewrite Ez. cbn [obind]. rewrite Es. cbn [obind]. rewrite Ei. cbn [obind]. rewrite Eh. reflexivity.
  Qed.
  Lemma comp_clear b b' t off sg sg' : (forall t off sg sg', b t off sg = Done sg' -> b' t off (map tval sg) = Done (map tval sg')) ->
    xcomp Pub strict cfg b t off sg = Done sg' -> xcomp (fun x => x) plain cfg b' t off (map tval sg) = Done (map tval sg').
  Proof.
    intros Hb X. unfold xcomp in *. destruct (cmp_accelerator Pub cfg (st_name t) [] 0) as [q0|] eqn:E0.
    - dn X args Ea. apply oget_done in Ea. destruct (cmp_accelerator Pub cfg (st_name t) args (st_out t)) as [q|] eqn:Eq; [|discriminate]. dn X r Er.
      destruct (accel_clear Eq Er) as (q' & Q1 & Q2). destruct (cmp_accelerator (fun x => x) cfg (st_name t) [] 0) eqn:E1.
      2:{ exfalso. clear - E0 E1. unfold cmp_accelerator in *. destruct (_ && _); [discriminate|]. destruct (_ && _); [discriminate|]. destruct (_ && _); discriminate. }
      rewrite (slice_map tval Ea). cbn [oget obind]. rewrite Q1. unfold plain at 1. rewrite Q2. cbn [obind fst snd]. rewrite map_length. destruct (_ =? _)%nat; [|discriminate].
      dn X s1 E2. apply oget_done in E2. apply oget_done in X. rewrite (splice_map tval E2). cbn [oget obind]. now rewrite (splice_map tval X).
    - rewrite (accel_none [] 0 E0). now apply Hb.
  Qed.
  Lemma create_clear {b b' l sg l' sg'} : (forall t off sg sg', b t off sg = Done sg' -> b' t off (map tval sg) = Done (map tval sg')) ->
    xcreate (V := tv F) b l sg = Done (l', sg') -> xcreate b' l (map tval sg) = Done (l', map tval sg').
  Proof.
    intros Hb. revert sg l' sg'. induction l as [|s l IH]; intros sg l' sg' X; cbn [xcreate] in *; [now inversion X|].
    destruct (_ =? _)%nat.
    - dn X s1 E1. dn X r E2. destruct r as [l2 s2]. inversion X; subst. rewrite (Hb _ _ _ _ E1). cbn [obind]. now rewrite (IH _ _ _ E2).
    - dn X r E2. destruct r as [l2 s2]. inversion X; subst. now rewrite (IH _ _ _ E2).
  Qed.

  (** *** statements *)
  Notation xsS := (xs Pub (@tshared F) strict consts templs cfg).
  Notation xsP := (xs (fun x => x) (fun _ : F => false) plain consts templs cfg).
  Lemma map_zero n : map tval (repeat (vzero Pub) n) = repeat (vzero (fun x : F => x)) n.
  Proof. induction n as [|n IH]; [reflexivity|]. cbn [repeat map]. rewrite IH. reflexivity. Qed.
  Lemma stmt_clear n : forall s mask off st st', mask_ok mask -> xsS n s mask off st = Done st' ->
    (active mask = true -> xsP n s None off (clear st) = Done (clear st')) /\ (active mask = false -> clear st' = clear st).
  Proof.
    induction n as [|n IH]; intros s mask off st st' Hm X; [discriminate|].
    assert (HC : forall t off sg sg', xcomp Pub strict cfg (fun t off sg => obind (xsS n (st_body t) None off (mkS (repeat (vzero Pub) (st_vars t)) sg [])) (fun st => Done (s_sig st))) t off sg = Done sg' ->
       xcomp (fun x => x) plain cfg (fun t off sg => obind (xsP n (st_body t) None off (mkS (repeat (vzero (fun x => x)) (st_vars t)) sg [])) (fun st => Done (s_sig st))) t off (map tval sg) = Done (map tval sg')).
    { intros t o sg sg'. apply comp_clear. intros t0 o0 sg0 sg0' X0. dn X0 s1 E1. inversion X0; subst. apply IH in E1 as [E1 _]; [|exact I].
      specialize (E1 eq_refl). unfold clear in E1. cbn [s_vars s_sig s_subs] in E1. rewrite map_zero in E1. rewrite E1. reflexivity. }
    assert (Hact : active mask = true -> strict mask = strict_h) by (intros Ha; unfold strict; now rewrite Ha).
    pose proof (fun Ha => proj1 (expr_clear off st Hm Ha)) as CI. pose proof (fun Ha => proj2 (expr_clear off st Hm Ha)) as CE. pose proof (fun r vs Ha => @rhs_clear mask off st r vs Hm Ha) as CR0.
    cbn [xs] in *. destruct s as [|a b|k r a|k r a|mapped code k r ix cmp|symbol amount o j|e a|e a b|e a|line e].
    - inversion X; subst. auto.
    - dn X st1 X1. apply IH in X1 as [A1 A2]; [|exact Hm]. apply IH in X as [B1 B2]; [|exact Hm]. split; intros Ha; [now rewrite (A1 Ha); apply B1|now rewrite (B2 Ha); apply A2].
    - dn X vs Ev. dn Ev vs' Ew. unfold sized in Ev. destruct (length vs' =? k)%nat eqn:El; [|discriminate]. inversion Ev; subst vs'. dn X i Ei. dn X vars Ea. inversion X; subst st'. split; intros Ha.
      + rewrite (CR0 _ _ Ha Ew), (CI Ha _ _ Ei). cbn [obind]. unfold sized. rewrite map_length, El. cbn [obind]. apply (sto_clear Hm Ha) in Ea. rewrite map_rev in Ea. cbn [clear s_vars] in *. rewrite Ea. reflexivity.
      + apply (sto_keeps Hm Ha) in Ea. unfold clear. cbn [s_vars s_sig s_subs]. now rewrite Ea.
    - dn X vs Ev. dn Ev vs' Ew. unfold sized in Ev. destruct (length vs' =? k)%nat eqn:El; [|discriminate]. inversion Ev; subst vs'. dn X i Ei. dn X vars Ea. inversion X; subst st'. split; intros Ha.
      + rewrite (CR0 _ _ Ha Ew), (CI Ha _ _ Ei). cbn [obind]. unfold sized. rewrite map_length, El. cbn [obind]. apply (sto_clear Hm Ha) in Ea. rewrite map_rev in Ea. cbn [clear s_sig] in *. rewrite Ea. reflexivity.
      + apply (sto_keeps Hm Ha) in Ea. unfold clear. cbn [s_vars s_sig s_subs]. now rewrite Ea.
    - destruct mask as [m0|]; [discriminate|]. split; [intros Ha|discriminate]. dn X vs Ev. dn Ev vs' Ew. unfold sized in Ev. destruct (length vs' =? k)%nat eqn:El; [|discriminate]. inversion Ev; subst vs'.
      dn X i Ei. dn X c Ec. dn X s Es. rewrite (CR0 _ _ Ha Ew), (CI Ha _ _ Ei), (CI Ha _ _ Ec). cbn [obind]. unfold sized. rewrite map_length, El. cbn [obind clear s_subs s_sig]. rewrite Es. cbn [obind].
      destruct (sc_ran s); [discriminate|]. dn X j Ej. rewrite Ej. cbn [obind]. dn X sg Eg. apply oget_done in Eg. rewrite (splice_map tval Eg). cbn [oget obind]. cbv zeta in *. destruct (sc_prov s + k =? st_in (sc_t s))%nat.
      + dn X sg2 E2. rewrite (HC _ _ _ _ E2). cbn [obind]. dn X subs E3. rewrite E3. cbn. inversion X. reflexivity.
      + dn X subs E3. rewrite E3. cbn. inversion X. reflexivity.
    - destruct mask as [m0|]; [discriminate|]. split; [intros Ha|discriminate]. dn X t Et. rewrite Et. cbn [obind]. dn X r Er. destruct r as [l2 s2]. cbn [clear s_sig]. rewrite (create_clear HC Er). cbn. inversion X. reflexivity.
    - dn X v Ev. destruct (tshared v) eqn:Sh.
      + dn X m Em. set (last := match mask with Some m => m | None => vone Pub end) in *.
        assert (K : mask_ok (Some m) /\ (active mask = true -> active (Some m) = negb (feqb (tval v) 0)) /\ (active mask = false -> active (Some m) = false)).
        { destruct (active mask) eqn:Ha.
          - rewrite (Hact eq_refl) in Em. destruct (@bool_and_one last v m) as [B1 B2]; [|exact Sh|exact Em|].
            { subst last. destruct (mask_active Hm Ha) as [->|(z & -> & Ez)]; [reflexivity|exact Ez]. }
            cbn [mask_ok active]. rewrite B1. spl; [exact B2| |discriminate]. intros _. destruct B2 as [-> | ->]; rewrite ?feqb_refl', ?feqb01, ?feqb10; reflexivity.
          - destruct (mask_inactive Hm Ha) as (z & -> & Ez). subst last. apply (bool_and_zero Ez Sh) in Em. cbn [mask_ok active]. rewrite Em, feqb01. spl; auto. discriminate. }
        destruct K as (K1 & K2 & K3). apply IH in X as [A1 A2]; [|exact K1]. split; intros Ha.
        * rewrite (CE Ha _ _ Ev). cbn [obind plain plain_h h_is_zero]. specialize (K2 Ha). destruct (feqb (tval v) 0); cbn [negb] in K2; [now rewrite A2|now apply A1].
        * apply A2, K3, Ha.
      + dn X z Ez. apply is_zero_clear in Ez. split; intros Ha.
        * rewrite (CE Ha _ _ Ev). cbn [obind plain plain_h h_is_zero]. rewrite <- Ez. destruct z.
          -- destruct mask; [discriminate|]. inversion X. reflexivity.
          -- apply IH in X as [A1 _]; auto.
        * destruct z; [destruct mask; discriminate|]. apply IH in X as [_ A2]; auto.
    - dn X v Ev. destruct (tshared v) eqn:Sh.
      + set (last := match mask with Some m => m | None => vone Pub end) in *. cbv zeta in X. fold last in X. dn X m Em. dn X st1 X1. dn X nv Env. dn X m2 Em2.
        assert (K : mask_ok (Some m) /\ mask_ok (Some m2) /\ (active mask = true -> active (Some m) = negb (feqb (tval v) 0) /\ active (Some m2) = feqb (tval v) 0) /\ (active mask = false -> active (Some m) = false /\ active (Some m2) = false)).
        { pose proof (bool_not_shared Sh Env) as Shn. destruct (active mask) eqn:Ha.
          - rewrite (Hact eq_refl) in *. assert (El : tval last = rone). { subst last. destruct (mask_active Hm Ha) as [->|(z & -> & Ez)]; [reflexivity|exact Ez]. }
            destruct (@bool_and_one last v m) as [B1 B2]; [exact El|exact Sh|exact Em|]. destruct (@bool_and_one last nv m2) as [B3 B4]; [exact El|exact Shn|exact Em2|].
            apply bool_not_strict in Env. cbn [mask_ok active]. rewrite B1, B3. spl; [exact B2|exact B4| |discriminate]. intros _. rewrite Env.
            destruct B2 as [-> | ->].
            + replace (rone - rone) with (0 : F) by ring. rewrite ?feqb_refl', ?feqb01, ?feqb10. auto.
            + replace (rone - 0) with (rone : F) by ring. rewrite ?feqb_refl', ?feqb01, ?feqb10. auto.
          - destruct (mask_inactive Hm Ha) as (z & -> & Ez). subst last. apply (bool_and_zero Ez Sh) in Em. apply (bool_and_zero Ez Shn) in Em2. cbn [mask_ok active]. rewrite Em, Em2, feqb01. spl; auto. discriminate. }
        destruct K as (K1 & K2 & K3 & K4). apply IH in X1 as [A1 A2]; [|exact K1]. apply IH in X as [B1 B2]; [|exact K2]. split; intros Ha.
        * rewrite (CE Ha _ _ Ev). cbn [obind plain plain_h h_is_zero]. destruct (K3 Ha) as [K5 K6]. destruct (feqb (tval v) 0); cbn [negb] in K5; [rewrite <- (A2 K5); now apply B1|rewrite (B2 K6); now apply A1].
        * destruct (K4 Ha) as [K5 K6]. now rewrite (B2 K6), (A2 K5).
      + dn X z Ez. apply is_zero_clear in Ez. split; intros Ha.
        * rewrite (CE Ha _ _ Ev). cbn [obind plain plain_h h_is_zero]. rewrite <- Ez. destruct z; apply IH in X as [A1 _]; auto.
        * destruct z; apply IH in X as [_ A2]; auto.
    - dn X v Ev. dn X z Ez. apply is_zero_clear in Ez. destruct z.
      + inversion X; subst st'. split; [|auto]. intros Ha. rewrite (CE Ha _ _ Ev). cbn [obind plain plain_h h_is_zero]. now rewrite <- Ez.
      + dn X st1 X1. apply IH in X1 as [A1 A2]; [|exact Hm]. apply IH in X as [B1 B2]; [|exact Hm]. split; intros Ha.
        * rewrite (CE Ha _ _ Ev). cbn [obind plain plain_h h_is_zero]. rewrite <- Ez. rewrite (A1 Ha). now apply B1.
        * now rewrite (B2 Ha), (A2 Ha).
    - dn X v Ev. dn X z Ez. apply is_zero_clear in Ez. destruct z; [discriminate|]. inversion X; subst st'. split; [|auto]. intros Ha.
      rewrite (CE Ha _ _ Ev). cbn [obind plain plain_h h_is_zero]. now rewrite <- Ez.
  Qed.
  Lemma main_clear n t off sg sg' : xmain Pub (@tshared F) strict consts templs cfg n t off sg = Done sg' ->
    xmain (fun x => x) (fun _ : F => false) plain consts templs cfg n t off (map tval sg) = Done (map tval sg').
  Proof.
    apply comp_clear. intros t0 o0 sg0 sg0' X0. dn X0 s1 E1. inversion X0; subst. apply stmt_clear in E1 as [E1 _]; [|exact I].
    specialize (E1 eq_refl). unfold clear in E1. cbn [s_vars s_sig s_subs] in E1. rewrite map_zero in E1. rewrite E1. reflexivity.
  Qed.
End Drivers.

(** ** Whole programs *)
Section WholeCompile.
  Context {F V : Type} `{CR : CRing F} (pubv : F -> V) (is_sh : V -> bool) (h : handler F V) (p : source F).
  Lemma whole_compile n k ins r : xrun pubv is_sh (fun _ => h) p n k ins = Done r ->
    exists n0, forall fuel, (n0 <= fuel)%nat -> run h (vm_run pubv is_sh (compiled p) fuel k ins) = Done r.
  Proof.
    unfold xrun. intros X. apply obind_done in X as (sg & E1 & X). apply obind_done in X as (t & E2 & X). apply obind_done in X as (sg2 & E3 & X).
    apply oget_done in E2. unfold xmain in E3.
    destruct (comp_run (ps := compiled p) (templs := so_templs p) (stmt_leads pubv is_sh h (compiled p) (so_templs p) eq_refl n) t 1%nat 0%nat sg E3) as (n0 & c' & K & _).
    exists n0. intros fuel L. unfold vm_run. rewrite run_bind in E1; rewrite run_bind. apply obind_done in E1 as (s0 & E0 & E1). rewrite E0. cbn [obind]. rewrite run_bind. cbn [compiled ps_input_list]. rewrite E1. cbn [obind].
    rewrite run_bind. unfold call_main. rewrite run_bind, run_opt. cbn [compiled ps_main ps_templs].
    assert (Ea : assoc (so_main p) (map (fun x => (fst x, ct (snd x))) (so_templs p)) = Some (ct t)).
    { clear - E2. induction (so_templs p) as [|[k' t'] l IH]; cbn in *; [discriminate|]. destruct (String.eqb _ k'); [congruence|exact (IH E2)]. }
    rewrite Ea. cbn [obind]. rewrite run_bind. specialize (K _ L). change (c_set_prov (init_comp (ct t) 1) 0) with (init_comp (V := V) (ct t) 1) in K. rewrite K. cbn [obind run snd]. exact X.
  Qed.
End WholeCompile.
Section WholeClear.
  Context {F : Type} `{FU : FieldUint F} (fsqrt : F -> option F) (p : source F).
  Notation strict := (strict fsqrt). Notation plain := (plain fsqrt). Notation ideal := (ideal fsqrt).
  Definition clear_in (x : string * tv F) : string * F := (fst x, tval (snd x)).
  Ltac dn H x E := apply obind_done in H as (x & E & H).
  Lemma whole_le n k ins r : xrun Pub (@tshared F) strict p n k ins = Done r -> xrun Pub (@tshared F) ideal p n k ins = Done r.
  Proof.
    revert r. change (ole (xrun Pub (@tshared F) strict p n k ins) (xrun Pub (@tshared F) ideal p n k ins)).
    unfold xrun. apply ole_bind; [apply run_le, strict_le|]. intros sg. apply ole_bind; [apply ole_refl|]. intros t. apply ole_bind; [apply main_le; apply strict_le|]. intros sg2. apply run_le, strict_le.
  Qed.
  Lemma remove_clear k (l : list (string * tv F)) a l' : remove_key k l = Some (a, l') -> remove_key k (map clear_in l) = Some (tval a, map clear_in l').
  Proof.
    revert l'. induction l as [|[k' b] l IH]; intros l' E; cbn in *; [discriminate|]. destruct (String.eqb k k'); [inversion E; subst; reflexivity|].
    destruct (remove_key k l) as [[c l2]|]; [|discriminate]. inversion E; subst. now rewrite (IH _ eq_refl).
  Qed.
  Lemma array_clear (h : handler F (tv F)) (h' : handler F F) name off i n ins sg r : run (F := F) h (set_array name off i n ins sg) = Done r ->
    run (F := F) h' (set_array name off i n (map clear_in ins) (map tval sg)) = Done (map clear_in (fst r), map tval (snd r)).
  Proof.
    revert i ins sg. induction n as [|n IH]; intros i ins sg X; cbn [set_array] in *; [now inversion X|].
    rewrite run_bind, run_opt in X; rewrite run_bind, run_opt. dn X x Ex. destruct (remove_key _ ins) as [[a l]|] eqn:Er; [|discriminate]. inversion Ex; subst x. rewrite (remove_clear _ _ Er). cbn [obind fst snd] in *.
    rewrite run_bind, run_opt in X; rewrite run_bind, run_opt. dn X s Es. destruct (splice _ [a] sg) eqn:E; [|discriminate]. inversion Es; subst s. change [tval a] with (map tval [a]). rewrite (splice_map tval E). cbn [obind]. now apply IH.
  Qed.
  Lemma inputs_clear (h : handler F (tv F)) (h' : handler F F) l ins sg r : run (F := F) h (set_inputs l ins sg) = Done r -> run (F := F) h' (set_inputs l (map clear_in ins) (map tval sg)) = Done (map tval r).
  Proof.
    revert ins sg. induction l as [|[[name off] size] l IH]; intros ins sg X; cbn [set_inputs] in *; [now inversion X|]. destruct (size =? 1)%nat.
    - rewrite run_bind, run_opt in X; rewrite run_bind, run_opt. dn X x Ex. destruct (remove_key _ ins) as [[a l0]|] eqn:Er; [|discriminate]. inversion Ex; subst x. rewrite (remove_clear _ _ Er). cbn [obind fst snd] in *.
      rewrite run_bind, run_opt in X; rewrite run_bind, run_opt. dn X s Es. destruct (splice _ [a] sg) eqn:E; [|discriminate]. inversion Es; subst s. change [tval a] with (map tval [a]). rewrite (splice_map tval E). cbn [obind]. now apply IH.
    - rewrite run_bind in X; rewrite run_bind. dn X x Ex. rewrite (array_clear h h' _ _ _ _ _ _ Ex). cbn [obind fst snd]. now apply IH.
  Qed.
  Lemma open_clear idx sg r : run (strict None) (open_all idx sg) = Done r -> run (plain None) (open_all idx (map tval sg)) = Done r.
  Proof.
    revert r. induction idx as [|i idx IH]; intros r X; cbn [open_all] in *; [now inversion X|].
    rewrite run_bind, run_opt in X; rewrite run_bind, run_opt. dn X v Ev. destruct (nth_error sg i) eqn:E; [|discriminate]. inversion Ev; subst. rewrite (nth_map tval E). cbn [obind run] in *.
    unfold VmMask.strict, VmMask.plain in X |- *. cbn [active strict_h plain_h h_open obind] in X |- *. rewrite run_bind in X; rewrite run_bind. dn X y Ey. cbn [run] in X. inversion X; subst r. apply IH in Ey. unfold VmMask.plain in Ey. rewrite Ey. reflexivity.
  Qed.
  Lemma at_clear (h : handler F (tv F)) (h' : handler F F) idx sg r : run (F := F) h (at_all idx sg) = Done r -> run (F := F) h' (at_all idx (map tval sg)) = Done (map tval r).
  Proof.
    revert r. induction idx as [|i idx IH]; intros r X; cbn [at_all] in *; [now inversion X|].
    rewrite run_bind, run_opt in X; rewrite run_bind, run_opt. dn X v Ev. destruct (nth_error sg i) eqn:E; [|discriminate]. inversion Ev; subst. rewrite (nth_map tval E). cbn [obind] in *.
    rewrite run_bind in X; rewrite run_bind. dn X y Ey. inversion X; subst r. rewrite (IH _ Ey). reflexivity.
  Qed.
  Lemma whole_clear n k ins pubs wit : xrun Pub (@tshared F) strict p n k ins = Done (pubs, wit) ->
    xrun (fun x => x) (fun _ : F => false) plain p n k (map clear_in ins) = Done (pubs, map tval wit).
  Proof.
    unfold xrun. intros X. dn X sg E1. dn X t E2. dn X sg2 E3. rewrite run_bind in E1; rewrite run_bind. dn E1 s0 E0.
    assert (E0' : run (plain None) (init_signals (fun x : F => x) (compiled p)) = Done (map tval s0)).
    { unfold init_signals in *. rewrite run_opt in *. destruct (splice 0 [vone Pub] _) eqn:E; [|discriminate]. inversion E0; subst. apply (splice_map tval) in E. cbn [map] in E. rewrite map_zero in E. cbn in E. unfold vone. cbn. now rewrite E. }
    rewrite E0'. cbn [obind]. rewrite (inputs_clear _ (plain None) _ _ _ E1). cbn [obind]. rewrite E2. cbn [obind]. rewrite (main_clear _ _ _ _ _ _ _ _ E3). cbn [obind].
    unfold post_processing in *. destruct (_ <? _)%nat; [discriminate|]. rewrite run_bind in X; rewrite run_bind. dn X a Ea. apply open_clear in Ea. rewrite Ea. cbn [obind]. rewrite run_bind in X; rewrite run_bind. dn X b Eb. rewrite (at_clear _ (plain None) _ _ Eb). cbn [obind run] in *. inversion X. reflexivity.
  Qed.
  (** both drivers run the compiled program to the same witness *)
  Lemma whole_runs n k ins pubs wit : xrun Pub (@tshared F) strict p n k ins = Done (pubs, wit) ->
    exists n0, forall fuel, (n0 <= fuel)%nat ->
      run_ideal fsqrt (ideal_run (compiled p) fuel k ins) = Done (pubs, wit) /\
      run_plain fsqrt (vm_run (fun x => x) (fun _ => false) (compiled p) fuel k (map clear_in ins)) = Done (pubs, map tval wit).
  Proof.
    intros X. destruct (whole_compile Pub (@tshared F) (ideal_h fsqrt) p n k ins (whole_le n k ins X)) as (n1 & K1).
    destruct (whole_compile (fun x : F => x) (fun _ => false) (plain_h fsqrt) p n k _ (whole_clear n k ins X)) as (n2 & K2).
    exists (Nat.max n1 n2). intros fuel L. rewrite run_ideal_h, run_plain_h. split; [apply K1|apply K2]; lia.
  Qed.
End WholeClear.
