(** * The MPC-VM runs compiled programs according to their meaning *)
From Coq Require Import String List Arith NArith Bool Lia.
From Verif Require Import Proc Alg VmDriver Vm VmSource.
Import ListNotations.
Set Implicit Arguments.
Local Open Scope string_scope.
Local Open Scope list_scope.

Section RunLemmas.
  Context {F V : Type} (h : handler F V).
  Lemma run_bind {A B} (q : vmp F V A) (f : A -> vmp F V B) : run h (vbind q f) = obind (run h q) (fun a => run h (f a)).
  Proof.
    induction q as [a|e|o x y k IH|o x k IH|c x y k IH|x b k IH|x k IH|x n k IH|x y k IH|x k IH]; cbn [vbind run]; try reflexivity.
    all: match goal with |- obind ?a _ = _ => destruct a end; cbn [obind]; [apply IH|reflexivity].
  Qed.
  Lemma run_opt {A} e (o : option A) : run h (opt e o) = match o with Some a => Done a | None => Failed e end.
  Proof. now destruct o. Qed.
End RunLemmas.
Lemma oget_done {A} (o : option A) a : oget o = Done a -> o = Some a.
Proof. destruct o; cbn; congruence. Qed.
Lemma obind_done {A B} (o : outcome A) (f : A -> outcome B) b : obind o f = Done b -> exists a, o = Done a /\ f a = Done b.
Proof. destruct o; cbn; [eauto|discriminate]. Qed.

Ltac spl := repeat match goal with |- _ /\ _ => split end.
Lemma slice_one {A} {i} {l : list A} {v} : nth_error l i = Some v -> slice i 1 l = Some [v].
Proof.
  intros E. unfold slice. assert (i < length l) by (apply nth_error_Some; congruence). destruct (Nat.leb_spec (i + 1) (length l)); [|lia].
  f_equal. revert i E H H0. induction l as [|a l IH]; intros [|i] E L1 L2; cbn in *; try lia; [congruence|]. apply IH; auto; lia.
Qed.
Lemma bop_div o : o = ODiv \/ o <> ODiv.
Proof. destruct o; auto; right; discriminate. Qed.
(** the code [code] stands at position [ip] *)
Definition code_at (body : list opcode) (ip : nat) (code : list opcode) : Prop :=
  forall j op, nth_error code j = Some op -> nth_error body (ip + j) = Some op.
Lemma code_app body ip a b : code_at body ip (a ++ b) -> code_at body ip a /\ code_at body (ip + length a) b.
Proof.
  intros H. split; intros j op E.
  - apply H. rewrite nth_error_app1; [exact E|]. apply nth_error_Some. congruence.
  - rewrite <- Nat.add_assoc. apply H. rewrite nth_error_app2 by lia. now replace (length a + j - length a) with j by lia.
Qed.
Lemma code_cons body ip o b : code_at body ip (o :: b) -> nth_error body ip = Some o /\ code_at body (S ip) b.
Proof. intros H. split; [rewrite <- (Nat.add_0_r ip); now apply H|]. intros j op E. replace (S ip + j) with (ip + S j) by lia. now apply H. Qed.

Section Ok.
  Context {F V : Type} `{CR : CRing F} (pubv : F -> V) (is_sh : V -> bool) (h : handler F V).
  Variables (ps : parsed F) (templs : list (string * stempl)).
  Hypothesis Ht : ps_templs ps = map (fun x => (fst x, ct (snd x))) templs.
  Notation loop := (loop pubv is_sh ps).
  Notation step n := (step pubv is_sh ps (run_comp pubv ps (loop n))).
  Notation hm := (fun _ : option V => h).
  Notation xi := (xi pubv hm (ps_consts ps)).
  Notation xe := (xe pubv hm (ps_consts ps)).
  Notation xr := (xr pubv hm (ps_consts ps)).
  Notation xs := (xs pubv is_sh hm (ps_consts ps) templs (ps_acc ps)).
  Notation xcomp := (xcomp pubv hm (ps_acc ps)).
  Notation state := (@state V).

  (** with enough fuel the run from [m] ends with [r] *)
  Definition ev (m : mst V) (r : outcome (mst V)) : Prop := exists n, forall k, n <= k -> run h (loop k m) = r.
  Definition leads (m m' : mst V) : Prop := forall r, ev m' r -> ev m r.
  Lemma leads_refl m : leads m m. Proof. intros r E. exact E. Qed.
  Lemma leads_trans a b c : leads a b -> leads b c -> leads a c.
  Proof. intros A B r E. auto. Qed.
  Lemma leads_step0 m m' n0 : (forall n, n0 <= n -> run h (step n m) = Done (Goto m')) -> leads m m'.
  Proof.
    intros E r [n N]. exists (S (Nat.max n0 n)). intros k K. destruct k as [|k]; [lia|]. cbn [Vm.loop]. rewrite run_bind, E by lia. cbn [obind]. apply N. lia.
  Qed.
  Lemma leads_step m m' : (forall n, run h (step n m) = Done (Goto m')) -> leads m m'.
  Proof. intros E. apply leads_step0 with 0. intros n _. apply E. Qed.

  (** sub-components: before their run as created, except for the number of inputs *)
  Definition sub_ok (c : comp V) (s : scomp) : Prop :=
    c_t c = ct (sc_t s) /\ c_prov c = sc_prov s /\ c_off c = sc_off s /\
    (sc_ran s = false -> c = c_set_prov (init_comp (ct (sc_t s)) (sc_off s)) (sc_prov s)).
  Definition subs_ok (l : list (comp V)) (l' : list scomp) : Prop := Forall2 sub_ok l l'.
  Definition mk (ip : nat) body (st : state) rets c : mst V := mkM ip body (s_vars st) rets c (s_sig st).
  Definition related (mask : option V) (off : nat) (st : state) (c : comp V) : Prop :=
    store_cond c = mask /\ c_off c = off /\ subs_ok (c_subs c) (s_subs st).

  Lemma subs_nth {l l'} {i s} : subs_ok l l' -> nth_error l' i = Some s -> exists c, nth_error l i = Some c /\ sub_ok c s.
  Proof.
    intros H. revert i. induction H as [|x y l l' Hx H IH]; intros i E; [destruct i; discriminate|].
    destruct i; cbn in *; [inversion E; subst; eauto|auto].
  Qed.
  Lemma component_ok c (st : state) i s mapped code ix j : subs_ok (c_subs c) (s_subs st) -> nth_error (s_subs st) i = Some s ->
    signal_of s mapped code ix = Done j ->
    exists sc d, run h (component_at (F := F) c i mapped code ix) = Done (sc, d) /\ sub_ok sc s /\ c_off sc + d = j /\ nth_error (c_subs c) i = Some sc.
  Proof.
    intros Hs E J. destruct (subs_nth Hs E) as (sc & Ec & K). exists sc. unfold component_at. rewrite run_bind, run_opt, Ec. cbn [obind].
    destruct K as (K1 & K2 & K3 & K4). unfold signal_of in J. destruct mapped.
    - apply obind_done in J as (d & D & J). apply oget_done in D. rewrite K1. cbn [t_maps ct]. exists (ix + d). rewrite run_bind, run_opt, D. cbn [obind run]. inversion J. unfold sub_ok. spl; auto; lia.
    - exists ix. cbn [run]. inversion J. unfold sub_ok. spl; auto; lia.
  Qed.

  Lemma push_fields_run vs {c : comp V} {f fs} : c_fs c = f :: fs -> run h (push_fields (F := F) vs c) = Done (c_set_fs c ((rev vs ++ f) :: fs)).
  Proof.
    revert c f. induction vs as [|v vs IH]; intros c f E; cbn [push_fields rev app].
    - cbn [run]. f_equal. destruct c; cbn in *. now subst.
    - rewrite run_bind. unfold push_field. rewrite E. cbn [run obind]. rewrite (IH _ (v :: f)) by reflexivity.
      rewrite <- app_assoc. reflexivity.
  Qed.
  Lemma pop_fields_run vs {c : comp V} {f fs} : c_fs c = (vs ++ f) :: fs -> run h (pop_fields (F := F) (length vs) c) = Done (vs, c_set_fs c (f :: fs)).
  Proof.
    revert c. induction vs as [|v vs IH]; intros c E; cbn [pop_fields length].
    - cbn [run]. do 2 f_equal. destruct c; cbn in *. now subst.
    - rewrite run_bind. unfold pop_field. rewrite E. cbn [run obind app fst snd]. rewrite run_bind, (IH (c_set_fs c ((vs ++ f) :: fs))) by reflexivity. reflexivity.
  Qed.

  Ltac stp op := apply leads_step; intros ?n; unfold Vm.step, mk; cbn [m_body m_ip]; rewrite op.
  Ltac dn H x E := apply obind_done in H as (x & E & H).

  Lemma goto_eq ip ip' body (v : list V) r c c' s : ip = ip' -> c = c' -> Done (Goto (mkM ip body v r c s)) = Done (Goto (mkM ip' body v r c' s)).
  Proof. now intros -> ->. Qed.
  Ltac fin := unfold jump, next_c, next, set_c, set_ip, set_sig, set_vars, mk; cbn [run m_ip m_body m_vars m_shared m_c m_sig s_vars s_sig];
    apply goto_eq; [cbn [length]; try lia|try reflexivity].
  (** *** addresses and values *)
  Scheme iexp_ind2 := Induction for iexp Sort Prop with expr_ind2 := Induction for expr Sort Prop.
  Combined Scheme iexpr_ind from iexp_ind2, expr_ind2.
  Section Exprs.
    Variables (mask : option V) (off : nat) (st : state) (body : list opcode) (rets : list (V * list V)).
    Definition goal_i (a : iexp) : Prop := forall c ip g is x, related mask off st c -> c_is c = g :: is -> c_fs c <> [] ->
      code_at body ip (ci a) -> xi mask off st a = Done x ->
      leads (mk ip body st rets c) (mk (ip + length (ci a)) body st rets (c_set_is c ((x :: g) :: is))).
    Definition goal_e (e : expr) : Prop := forall c ip f fs v, related mask off st c -> c_fs c = f :: fs -> c_is c <> [] ->
      code_at body ip (ce e) -> xe mask off st e = Done v ->
      leads (mk ip body st rets c) (mk (ip + length (ce e)) body st rets (c_set_fs c ((v :: f) :: fs))).
    Lemma related_fs c s : related mask off st c -> related mask off st (c_set_fs c s).
    Proof. intros K. exact K. Qed.
    Lemma related_is c s : related mask off st c -> related mask off st (c_set_is c s).
    Proof. intros K. exact K. Qed.

    Lemma expr_leads : (forall a, goal_i a) /\ (forall e, goal_e e).
    Proof.
      apply iexpr_ind; unfold goal_i, goal_e.
      - (* IConst *) intros n c ip g is x R EI NF C X. cbn in X. inversion X; subst. cbn [ci length]. apply code_cons in C as [C _].
        stp C. rewrite run_bind. unfold push_index. cbn [m_c]. rewrite EI. cbn. fin.
      - (* IAddr *) intros e IH c ip g is x R EI NF C X. cbn [ci] in *. apply code_app in C as [C1 C2]. apply code_cons in C2 as [C2 _].
        cbn [VmSource.xi] in X. dn X v Ev. dn X n En. inversion X; subst x. destruct (c_fs c) as [|f fs] eqn:EF; [congruence|].
        eapply leads_trans; [eapply IH; eauto; congruence|].
        stp C2. unfold pop_field. cbn [m_c c_fs c_set_fs vbind run fst snd]. rewrite En. cbn [obind]. unfold push_index. cbn [c_is c_set_fs]. rewrite EI. cbn [vbind run].
        unfold next_c, next. cbn [run]. rewrite app_length. fin. destruct c; cbn in *. now subst.
      - (* IAdd *) intros a IHa b IHb c ip g is x R EI NF C X. cbn [ci] in *. apply code_app in C as [C1 C2]. apply code_app in C2 as [C2 C3]. apply code_cons in C3 as [C3 _].
        cbn [VmSource.xi] in X. dn X y Ey. dn X z Ez. inversion X; subst x.
        eapply leads_trans; [eapply IHa; eauto|]. eapply leads_trans; [eapply IHb with (c := c_set_is c ((y :: g) :: is)) (g := y :: g); eauto; reflexivity|].
        stp C3. unfold pop_index, push_index. cbn. rewrite !app_length. fin.
      - (* IMul *) intros a IHa b IHb c ip g is x R EI NF C X. cbn [ci] in *. apply code_app in C as [C1 C2]. apply code_app in C2 as [C2 C3]. apply code_cons in C3 as [C3 _].
        cbn [VmSource.xi] in X. dn X y Ey. dn X z Ez. inversion X; subst x.
        eapply leads_trans; [eapply IHa; eauto|]. eapply leads_trans; [eapply IHb with (c := c_set_is c ((y :: g) :: is)) (g := y :: g); eauto; reflexivity|].
        stp C3. unfold pop_index, push_index. cbn. rewrite !app_length. fin.
      - (* EConst *) intros i c ip f fs v R EF NI C X. cbn in X. dn X k Ek. apply oget_done in Ek. inversion X; subst. cbn [ce length]. apply code_cons in C as [C _].
        stp C. rewrite Ek. cbn. unfold push_field. cbn [m_c]. rewrite EF. cbn. fin.
      - (* EVar *) intros a IH c ip f fs v R EF NI C X. cbn [ce] in *. apply code_app in C as [C1 C2]. apply code_cons in C2 as [C2 _].
        cbn [VmSource.xe] in X. dn X i Ei. apply oget_done in X. destruct (c_is c) as [|g is] eqn:EI; [congruence|].
        eapply leads_trans; [eapply IH; eauto; congruence|].
        stp C2. unfold pop_index. cbn [mk m_c m_vars c_is c_set_is vbind run fst snd]. rewrite run_bind, run_opt.
        rewrite (slice_one X). cbn [obind]. rewrite run_bind, (push_fields_run _ (f := f) (fs := fs)) by exact EF.
        cbn. rewrite app_length. fin. destruct c; cbn in *. now subst.
      - (* ESig *) intros a IH c ip f fs v R EF NI C X. cbn [ce] in *. apply code_app in C as [C1 C2]. apply code_cons in C2 as [C2 _].
        cbn [VmSource.xe] in X. dn X i Ei. apply oget_done in X. destruct (c_is c) as [|g is] eqn:EI; [congruence|].
        eapply leads_trans; [eapply IH; eauto; congruence|].
        stp C2. unfold pop_index. cbn [mk m_c m_sig c_is c_set_is c_off vbind run fst snd]. rewrite run_bind, run_opt. replace (c_off c) with off by (symmetry; apply R).
        rewrite (slice_one X). cbn [obind]. rewrite run_bind, (push_fields_run _ (f := f) (fs := fs)) by exact EF.
        cbn. rewrite app_length. fin. destruct c; cbn in *. now subst.
      - (* EBin *) intros o a IHa b IHb c ip f fs v R EF NI C X. cbn [ce] in *. apply code_app in C as [C1 C2]. apply code_app in C2 as [C2 C3]. apply code_cons in C3 as [C3 _].
        cbn [VmSource.xe] in X. dn X y Ey. dn X z Ez.
        eapply leads_trans; [eapply IHa; eauto|]. eapply leads_trans; [eapply IHb with (c := c_set_fs c ((y :: f) :: fs)) (f := y :: f); eauto; reflexivity|].
        stp C3. rewrite !app_length. destruct (bop_div o) as [->|Nd].
        + dn X w Ew. unfold step_div, pop_field, push_field. cbn [mk m_c c_fs c_set_fs vbind run fst snd].
          rewrite run_bind. replace (store_cond _) with mask by (symmetry; apply R). unfold divisor in Ew. destruct mask as [m0|]; cbn [run].
          * rewrite Ew. cbn [obind]. cbn [run]. rewrite X. cbn. fin.
          * inversion Ew; subst. cbn [obind run]. rewrite X. cbn. fin.
        + assert (X' : h_bop h o y z = Done v) by (destruct o; try exact X; congruence).
          replace (match o with ODiv => _ | _ => _ end) with (step_binop (F := F) o (mk (ip + length (ce a) + length (ce b)) body st rets (c_set_fs (c_set_fs c ((y :: f) :: fs)) ((z :: y :: f) :: fs)))) by (destruct o; try reflexivity; congruence).
          unfold step_binop, pop_field, push_field. cbn [mk m_c c_fs c_set_fs vbind run fst snd]. rewrite X'. cbn. fin.
      - (* ENeg *) intros a IH c ip f fs v R EF NI C X. cbn [ce] in *. apply code_app in C as [C1 C2]. apply code_cons in C2 as [C2 _].
        cbn [VmSource.xe] in X. dn X y Ey.
        eapply leads_trans; [eapply IH; eauto|]. stp C2. unfold pop_field, push_field. cbn [mk m_c c_fs c_set_fs vbind run fst snd]. rewrite X. cbn. rewrite app_length. fin.
      - (* EEq *) intros a IHa b IHb c ip f fs v R EF NI C X. cbn [ce] in *. apply code_app in C as [C1 C2]. apply code_app in C2 as [C2 C3]. apply code_cons in C3 as [C3 _].
        cbn [VmSource.xe] in X. dn X y Ey. dn X z Ez. dn X w Ew.
        eapply leads_trans; [eapply IHa; eauto|]. eapply leads_trans; [eapply IHb with (c := c_set_fs c ((y :: f) :: fs)) (f := y :: f); eauto; reflexivity|].
        stp C3. unfold pop_fields, pop_field, push_field. cbn [mk m_c c_fs c_set_fs vbind run fst snd combine all_eq]. rewrite Ew. cbn [obind run]. rewrite X. cbn. rewrite !app_length. fin.
      - (* EOut *) intros mapped code ix IHx cmp IHc c ip f fs v R EF NI C X. cbn [ce] in *. apply code_app in C as [C1 C2]. apply code_app in C2 as [C2 C3]. apply code_cons in C3 as [C3 _].
        cbn [VmSource.xe] in X. dn X i Ei. dn X j Ej. dn X s Es. apply oget_done in Es. dn X n En. apply oget_done in X.
        destruct (c_is c) as [|g is] eqn:EI; [congruence|].
        eapply leads_trans; [eapply IHx; eauto; congruence|]. eapply leads_trans; [eapply IHc with (c := c_set_is c ((i :: g) :: is)) (g := i :: g); eauto; [reflexivity|cbn; congruence]|].
        stp C3. unfold step_output, pop_index. cbn [mk m_c c_is c_set_is vbind run fst snd]. rewrite run_bind.
        edestruct (@component_ok (c_set_is c (g :: is)) st) as (sc & d & E1 & E2 & E3 & E4); [apply R|exact Es|exact En|].
        match goal with |- context[component_at ?x] => change x with (c_set_is c (g :: is)) end. rewrite E1. cbn [obind fst snd]. rewrite run_bind, run_opt, E3. cbn [m_sig]. rewrite (slice_one X). cbn [obind]. rewrite run_bind, (push_fields_run _ (f := f) (fs := fs)) by exact EF.
        cbn. rewrite !app_length. fin. destruct c; cbn in *. now subst.
    Qed.

    Lemma rhs_leads r c ip f fs vs : related mask off st c -> c_fs c = f :: fs -> c_is c <> [] -> code_at body ip (cr r) -> xr mask off st r = Done vs ->
      leads (mk ip body st rets c) (mk (ip + length (cr r)) body st rets (c_set_fs c ((rev vs ++ f) :: fs))).
    Proof.
      intros R EF NI C X. destruct expr_leads as [LI LE]. destruct (c_is c) as [|g is] eqn:EI; [congruence|]. destruct r as [e|n a|n a|mapped code n ix cmp]; cbn [cr VmSource.xr] in *.
      - dn X v Ev. inversion X. apply (LE e); auto. congruence.
      - dn X i Ei. apply oget_done in X. apply code_app in C as [C1 C2]. apply code_cons in C2 as [C2 _].
        eapply leads_trans; [eapply (LI a); eauto; congruence|].
        stp C2. unfold pop_index. cbn [m_c m_vars c_is c_set_is vbind run fst snd]. rewrite run_bind, run_opt, X. cbn [obind].
        rewrite run_bind, (push_fields_run _ (f := f) (fs := fs)) by exact EF. cbn. rewrite app_length. fin. destruct c; cbn in *. now subst.
      - dn X i Ei. apply oget_done in X. apply code_app in C as [C1 C2]. apply code_cons in C2 as [C2 _].
        eapply leads_trans; [eapply (LI a); eauto; congruence|].
        stp C2. unfold pop_index. cbn [m_c m_sig c_is c_set_is c_off vbind run fst snd]. rewrite run_bind, run_opt. replace (c_off c) with off by (symmetry; apply R). rewrite X. cbn [obind].
        rewrite run_bind, (push_fields_run _ (f := f) (fs := fs)) by exact EF. cbn. rewrite app_length. fin. destruct c; cbn in *. now subst.
      - apply code_app in C as [C1 C2]. apply code_app in C2 as [C2 C3]. apply code_cons in C3 as [C3 _].
        dn X i Ei. dn X j Ej. dn X s Es. apply oget_done in Es. dn X m Em. apply oget_done in X.
        eapply leads_trans; [eapply (LI ix); eauto; congruence|]. eapply leads_trans; [eapply (LI cmp) with (c := c_set_is c ((i :: g) :: is)) (g := i :: g); eauto; [reflexivity|cbn; congruence]|].
        stp C3. unfold step_output, pop_index. cbn [m_c c_is c_set_is vbind run fst snd]. rewrite run_bind.
        edestruct (@component_ok (c_set_is c (g :: is)) st) as (sc & d & E1 & E2 & E3 & E4); [apply R|exact Es|exact Em|].
        match goal with |- context[component_at ?x] => change x with (c_set_is c (g :: is)) end. rewrite E1. cbn [obind fst snd]. rewrite run_bind, run_opt, E3. cbn [m_sig]. rewrite X. cbn [obind].
        rewrite run_bind, (push_fields_run _ (f := f) (fs := fs)) by exact EF. cbn. rewrite !app_length. fin. destruct c; cbn in *. now subst.
    Qed.
  End Exprs.

  (** *** statements *)
  Lemma sto_run mask base rvs arr arr' c f fs : c_fs c = (rvs ++ f) :: fs -> sto hm mask base rvs arr = Done arr' ->
    run h (store_into (F := F) mask base (length rvs) arr c) = Done (arr', c_set_fs c (f :: fs)).
  Proof.
    revert arr c. induction rvs as [|v rvs IH]; intros arr c EF X; cbn [length store_into sto] in *.
    - inversion X; subst. cbn [run]. do 2 f_equal. destruct c; cbn in *; now subst.
    - dn X old Eo. apply oget_done in Eo. dn X x Ex. dn X arr2 Ea. apply oget_done in Ea.
      rewrite run_bind, run_opt, Eo. cbn [obind]. unfold pop_field. rewrite EF. cbn [app vbind fst snd]. rewrite run_bind.
      assert (E : run h (match mask with Some b => VCmux b v old VRet | None => VRet v end) = Done x) by (destruct mask; cbn [run]; [rewrite Ex; reflexivity|now inversion Ex]).
      rewrite E. cbn [obind]. rewrite run_bind, run_opt, Ea. cbn [obind]. now rewrite (IH arr2 (c_set_fs c ((rvs ++ f) :: fs))) by auto.
  Qed.

  Definition publics (k : nat) : list (ifctx V) := repeat IfPublic k.
  Definition upd (k : nat) (c : comp V) (subs : list (comp V)) : comp V := c_set_subs (c_set_if c (publics k ++ c_if c)) subs.
  Lemma publics_cond k l : shared_cond (publics k ++ l) = shared_cond l.
  Proof. induction k; [reflexivity|exact IHk]. Qed.
  Lemma publics_if k l : if_shared (publics k ++ l) = if_shared l.
  Proof. induction k; [reflexivity|exact IHk]. Qed.
  Lemma publics_add a b l : publics a ++ publics b ++ l = publics (a + b) ++ l.
  Proof. unfold publics. now rewrite repeat_app, app_assoc. Qed.
  Lemma publics_in k l : publics k ++ IfPublic :: l = IfPublic :: publics k ++ l.
  Proof. unfold publics. induction k; [reflexivity|]. cbn [repeat app]. now rewrite IHk. Qed.
  Lemma cond_shared l : shared_cond (V := V) l = None -> if_shared l = false.
  Proof. induction l as [|[|a b c] l IH]; cbn; auto. discriminate. Qed.
  Lemma upd_upd a b c s s' : upd a (upd b c s) s' = upd (a + b) c s'.
  Proof. unfold upd, c_set_subs, c_set_if. cbn. now rewrite publics_add. Qed.
  Lemma upd_0 c : upd 0 c (c_subs c) = c. Proof. now destruct c. Qed.

  Definition goal_s (n : nat) : Prop := forall s mask off st st' body rets c ip, related mask off st c -> c_fs c <> [] -> c_is c <> [] ->
    code_at body ip (cs s) -> xs n s mask off st = Done st' ->
    exists k subs, (mask <> None -> k = 0) /\ subs_ok subs (s_subs st') /\
      leads (mk ip body st rets c) (mk (ip + length (cs s)) body st' rets (upd k c subs)).

  Notation body_run n := (fun t off sg => obind (xs n (st_body t) None off (mkS (repeat (vzero pubv) (st_vars t)) sg [])) (fun st => Done (s_sig st))).
  Lemma comp_run n : goal_s n -> forall t off prov sg sg', xcomp (body_run n) t off sg = Done sg' ->
    exists n0 c', (forall k, n0 <= k -> run h (run_comp pubv ps (loop k) (c_set_prov (init_comp (ct t) off) prov) sg) = Done (c', sg')) /\
      c_t c' = ct t /\ c_prov c' = prov /\ c_off c' = off.
  Proof.
    intros G t off prov sg sg' X. unfold xcomp, VmSource.xcomp in X. unfold run_comp. cbn [c_set_prov init_comp c_t c_off ct t_name t_in t_out t_body t_vars].
    destruct (cmp_accelerator pubv (ps_acc ps) (st_name t) [] 0) as [q0|].
    - dn X args Ea. apply oget_done in Ea. destruct (cmp_accelerator pubv (ps_acc ps) (st_name t) args (st_out t)) as [q|] eqn:Eq; [|discriminate].
      dn X r Er. destruct (length (fst r) =? st_out t)%nat eqn:El; [|discriminate]. dn X s1 E1. apply oget_done in E1. apply oget_done in X.
      exists 0. eexists. split; [intros k _|].
      + rewrite run_bind, run_opt, Ea. cbn [obind]. rewrite Eq, run_bind, Er. cbn [obind]. rewrite El, run_bind, run_opt, E1. cbn [obind]. rewrite run_bind, run_opt. cbn [obind] in X. rewrite X. reflexivity.
      + now cbn.
    - dn X st Es. inversion X; subst sg'. clear X.
      edestruct G as (k & subs & _ & S1 & L); [| | | |exact Es|].
      1: instantiate (1 := c_set_prov (init_comp (ct t) off) prov); unfold related; cbn; spl; auto; constructor.
      1, 2: discriminate.
      1: instantiate (1 := 0); instantiate (1 := cs (st_body t) ++ [Return]); intros j op Ej; rewrite nth_error_app1; [exact Ej|apply nth_error_Some; cbn; congruence].
      destruct (L (Done (mk (0 + length (cs (st_body t))) (cs (st_body t) ++ [Return]) st [] (upd k (c_set_prov (init_comp (ct t) off) prov) subs)))) as [n0 N0].
      { exists 1. intros i Hi. destruct i as [|i]; [lia|]. cbn [Vm.loop]. rewrite run_bind. unfold Vm.step, mk. cbn [m_body m_ip]. rewrite nth_error_app2 by lia.
        replace (0 + length (cs (st_body t)) - length (cs (st_body t))) with 0 by lia. reflexivity. }
      exists n0. eexists. split; [intros i Hi; rewrite run_bind; unfold mk in N0; cbn [s_vars s_sig] in N0; rewrite N0 by exact Hi; reflexivity|]. now cbn.
  Qed.
  Lemma create_run n : goal_s n -> forall l sg l' sg' subs, (forall s, In s l -> sc_prov s = 0 /\ sc_ran s = false) ->
    xcreate (xcomp (body_run n)) l sg = Done (l', sg') ->
    exists n0 new, subs_ok new l' /\ forall k, n0 <= k ->
      run h (start_comps (run_comp pubv ps (loop k)) (map (fun s => init_comp (ct (sc_t s)) (sc_off s)) l) subs sg) = Done (subs ++ new, sg').
  Proof.
    intros G. induction l as [|s l IH]; intros sg l' sg' subs Hl X; cbn [xcreate map start_comps] in *.
    - inversion X; subst. exists 0, []. split; [constructor|]. intros k _. cbn. now rewrite app_nil_r.
    - destruct (Hl s (or_introl eq_refl)) as [P0 R0]. cbn [init_comp c_t ct t_in]. destruct (st_in (sc_t s) =? 0)%nat.
      + dn X sg1 E1. dn X r E2. destruct r as [l2 sg2]. inversion X; subst. cbn [fst snd] in *.
        destruct (comp_run G _ _ 0 _ E1) as (n1 & c1 & K1 & K2 & K3 & K4).
        destruct (IH sg1 l2 sg' (subs ++ [c1])) as (n2 & new & S2 & K5); [intros; apply Hl; now right|exact E2|].
        exists (Nat.max n1 n2), (c1 :: new). split; [constructor; [|exact S2]; unfold sub_ok; cbn; spl; auto; [congruence|discriminate]|].
        intros k Hk. rewrite run_bind. change (init_comp (ct (sc_t s)) (sc_off s)) with (c_set_prov (V := V) (init_comp (ct (sc_t s)) (sc_off s)) 0).
        rewrite K1 by lia. cbn [obind fst snd]. rewrite K5 by lia. now rewrite <- app_assoc.
      + dn X r E2. destruct r as [l2 sg2]. inversion X; subst. cbn [fst snd] in *.
        destruct (IH sg l2 sg' (subs ++ [init_comp (ct (sc_t s)) (sc_off s)])) as (n2 & new & S2 & K5); [intros; apply Hl; now right|exact E2|].
        exists n2, (init_comp (ct (sc_t s)) (sc_off s) :: new). split; [constructor; [|exact S2]; unfold sub_ok; cbn; spl; auto; intros _; now rewrite P0|].
        intros k Hk. cbn [vbind fst snd]. rewrite K5 by lia. now rewrite <- app_assoc.
  Qed.
  Lemma assoc_templs k t : assoc k templs = Some t -> assoc k (ps_templs ps) = Some (ct t).
  Proof. rewrite Ht. clear. induction templs as [|[k' t'] l IH]; cbn; [discriminate|]. destruct (String.eqb k k'); [congruence|exact IH]. Qed.
  Lemma splice_subs l l' i c s l2 : subs_ok l l' -> sub_ok c s -> splice i [s] l' = Some l2 -> exists l1, splice i [c] l = Some l1 /\ subs_ok l1 l2.
  Proof.
    intros H K E. unfold splice in *. assert (L : length l = length l') by (clear - H; induction H; cbn; congruence). cbn [length] in *. rewrite L.
    destruct (i + 1 <=? length l')%nat; [|discriminate]. eexists. split; [reflexivity|]. inversion E; subst l2.
    assert (A : subs_ok (firstn i l) (firstn i l')). { clear - H. revert i. induction H; intros [|i]; cbn; constructor; auto. apply IHForall2. }
    assert (B : subs_ok (skipn (i + 1) l) (skipn (i + 1) l')). { clear - H. revert H. generalize (i + 1). intros n H. revert n. induction H; intros [|n]; cbn; try constructor; auto. }
    apply Forall2_app; [exact A|]. constructor; [exact K|exact B].
  Qed.

  Lemma publics_in' k l : publics k ++ IfPublic :: l = publics (S k) ++ l.
  Proof. now rewrite publics_in. Qed.
  Ltac pc := repeat match goal with
    | [ E : code_at _ _ (_ ++ _) |- _ ] => let C1 := fresh "C" in let C2 := fresh "C" in apply code_app in E as [C1 C2]
    | [ E : code_at _ _ (_ :: _) |- _ ] => let C1 := fresh "C" in let C2 := fresh "C" in apply code_cons in E as [C1 C2]
    end.
  Ltac ins := unfold Vm.step, mk; cbn [m_body m_ip];
    match goal with K : nth_error ?b ?i = Some _ |- context[nth_error ?b ?j] => replace j with i by lia; rewrite K end.
  Ltac stq := apply leads_step; intros ?n1; ins.
  Ltac len := cbn [cs]; rewrite ?app_length; cbn [length]; rewrite ?app_length; cbn [length]; rewrite ?app_length; cbn [length].
  Lemma leads_ip a b body st rets c m : a = b -> leads (mk b body st rets c) m -> leads (mk a body st rets c) m.
  Proof. now intros ->. Qed.
  Ltac eta := match goal with c : comp V |- _ => destruct c; cbn in *; now subst end.
  Ltac cat x := match goal with K : code_at _ _ x |- _ => exact K end.

  Lemma stmt_leads n : goal_s n.
  Proof.
    induction n as [|n IH]; unfold goal_s; intros s mask off st st' body rets c ip R NF NI C X; [discriminate|].
    destruct (c_fs c) as [|f fs] eqn:EF; [congruence|]. destruct (c_is c) as [|g is] eqn:EI; [congruence|].
    pose proof (fun r => @rhs_leads mask off st body rets r) as LR. destruct (expr_leads mask off st body rets) as [LI LE].
    assert (NI' : c_is c <> []) by congruence. assert (NF' : c_fs c <> []) by congruence.
    cbn [VmSource.xs] in X. destruct s as [|a b|k r a|k r a|mapped code k r ix cmp|symbol amount o j|e a|e a b|e a|line e]; pose proof C as CW; cbn [cs] in C; pc.
    - (* skip *) inversion X; subst. exists 0, (c_subs c). spl; auto; [apply R|]. rewrite upd_0. cbn. rewrite Nat.add_0_r. apply leads_refl.
    - (* seq *) dn X st1 X1. edestruct (IH a) as (k1 & s1 & A1 & A2 & A3); [exact R|exact NF'|exact NI'|cat (cs a)|exact X1|].
      edestruct (IH b) as (k2 & s2 & B1 & B2 & B3); [ | | |cat (cs b)|exact X|].
      { instantiate (1 := upd k1 c s1). unfold related, store_cond. cbn. rewrite publics_cond. spl; [apply R..|exact A2]. }
      1, 2: cbn; congruence.
      exists (k2 + k1), s2. spl; [intros M; now rewrite A1, B1|exact B2|]. rewrite upd_upd in B3. eapply leads_trans; [exact A3|]. cbn [cs]. rewrite app_length, Nat.add_assoc. exact B3.
    - (* store var *) dn X vs Ev. dn Ev vs' Ew. unfold sized in Ev. destruct (length vs' =? k)%nat eqn:El; [|discriminate]. apply Nat.eqb_eq in El. inversion Ev; subst vs'.
      dn X i Ei. dn X vars Ea. inversion X; subst st'. cbn [s_subs]. exists 0, (c_subs c). spl; auto; [apply R|]. rewrite upd_0.
      eapply leads_trans; [eapply LR; eauto|]. eapply leads_trans; [eapply (LI a) with (c := c_set_fs c ((rev vs ++ f) :: fs)); eauto; cbn; congruence|].
      stq. unfold pop_index. cbn [m_c c_is c_set_is vbind run fst snd]. rewrite run_bind.
      rewrite <- El, <- rev_length. replace (store_cond _) with mask by (symmetry; apply R). erewrite sto_run; [|reflexivity|exact Ea].
      cbn. len. fin. eta.
    - (* store signal *) dn X vs Ev. dn Ev vs' Ew. unfold sized in Ev. destruct (length vs' =? k)%nat eqn:El; [|discriminate]. apply Nat.eqb_eq in El. inversion Ev; subst vs'.
      dn X i Ei. dn X vars Ea. inversion X; subst st'. cbn [s_subs]. exists 0, (c_subs c). spl; auto; [apply R|]. rewrite upd_0.
      eapply leads_trans; [eapply LR; eauto|]. eapply leads_trans; [eapply (LI a) with (c := c_set_fs c ((rev vs ++ f) :: fs)); eauto; cbn; congruence|].
      stq. unfold pop_index. cbn [m_c c_is c_set_is vbind run fst snd]. rewrite run_bind.
      rewrite <- El, <- rev_length. replace (store_cond _) with mask by (symmetry; apply R). cbn [c_off c_set_is c_set_fs]. replace (c_off c) with off by (symmetry; apply R). erewrite sto_run; [|reflexivity|exact Ea].
      cbn. len. fin. eta.
    - (* input *) destruct mask as [m0|]; [discriminate|]. dn X vs Ev. dn Ev vs' Ew. unfold sized in Ev. destruct (length vs' =? k)%nat eqn:El; [|discriminate]. apply Nat.eqb_eq in El. inversion Ev; subst vs'.
      dn X i Ei. dn X q Eqq. dn X s Es. apply oget_done in Es. destruct (sc_ran s) eqn:Er; [discriminate|]. dn X j Ej. dn X sg Eg. apply oget_done in Eg.
      set (cc := c_set_is (c_set_fs c ((rev vs ++ f) :: fs)) (g :: is)).
      edestruct (@component_ok (c_set_fs cc (f :: fs)) st) as (sc & d & E1 & E2 & E3 & E4); [apply R|exact Es|exact Ej|]. pose proof E2 as (T1 & T2 & T3 & T4).
      assert (Sub : exists n0 s', (forall i, n0 <= i -> run h (if (c_prov (c_set_prov sc (c_prov sc + k)) =? t_in (c_t (c_set_prov sc (c_prov sc + k))))%nat
                  then run_comp pubv ps (loop i) (c_set_prov sc (c_prov sc + k)) sg else VRet (c_set_prov sc (c_prov sc + k), sg)) = Done (s', s_sig st')) /\
                exists subs, splice q [s'] (c_subs c) = Some subs /\ subs_ok subs (s_subs st') /\ s_vars st' = s_vars st).
      { cbn [c_prov c_t c_set_prov]. rewrite T1, T2. cbn [ct t_in]. cbv zeta in X. destruct (sc_prov s + k =? st_in (sc_t s))%nat.
        - dn X sg2 E5. dn X subs E6. apply oget_done in E6. inversion X; subst st'. cbn [s_sig s_subs s_vars].
          destruct (comp_run IH _ _ (sc_prov s + k) _ E5) as (n0 & c' & K1 & K2 & K3 & K4). exists n0, c'. split.
          + intros i0 Hi. rewrite (T4 Er). exact (K1 _ Hi).
          + edestruct (@splice_subs (c_subs c) (s_subs st) q c') as (l1 & L1 & L2); [apply R| |exact E6|]; [unfold sub_ok; cbn; spl; auto; discriminate|]. exists l1. auto.
        - dn X subs E6. apply oget_done in E6. inversion X; subst st'. cbn [s_sig s_subs s_vars]. exists 0. eexists. split; [intros; reflexivity|].
          edestruct (@splice_subs (c_subs c) (s_subs st) q (c_set_prov sc (sc_prov s + k))) as (l1 & L1 & L2); [apply R| |exact E6|].
          + unfold sub_ok. cbn. spl; auto. intros _. rewrite (T4 Er). reflexivity.
          + exists l1. auto. }
      destruct Sub as (n0 & s' & Sr & subs & Sp & So & Sv). exists 0, subs. spl; auto.
      eapply leads_trans; [eapply LR; eauto|].
      eapply leads_trans; [eapply (LI ix) with (c := c_set_fs c ((rev vs ++ f) :: fs)); eauto; cbn; congruence|].
      eapply leads_trans; [eapply (LI cmp) with (c := c_set_is (c_set_fs c ((rev vs ++ f) :: fs)) ((i :: g) :: is)) (g := i :: g); eauto; [reflexivity|cbn; congruence]|].
      apply leads_step0 with n0. intros n1 Hn. ins. unfold step_input. cbn [m_c c_if c_set_is c_set_fs m_sig].
      rewrite cond_shared by apply R. unfold pop_index. cbn [c_is c_set_is vbind fst snd]. rewrite run_bind, <- El, <- rev_length.
      erewrite pop_fields_run by reflexivity. cbn [obind fst snd]. rewrite run_bind.
      match goal with |- context[component_at ?x] => change x with (c_set_fs cc (f :: fs)) end. rewrite E1. cbn [obind fst snd]. rewrite run_bind, run_opt, rev_involutive, E3, Eg. cbn [obind].
      rewrite run_bind, rev_length, El, (Sr _ Hn). cbn [obind]. cbn [fst snd c_subs c_set_fs c_set_is]. rewrite run_bind, run_opt. cbn [c_subs cc c_set_fs c_set_is]. rewrite Sp. cbn. len. rewrite <- Sv. fin.
      unfold cc; eta.
    - (* create *) destruct mask as [m0|]; [discriminate|]. dn X t Et. apply oget_done in Et. dn X r Er. destruct r as [new sg]. inversion X; subst st'. clear X. cbn [fst snd s_subs s_sig s_vars] in *.
      edestruct (create_run IH) as (n0 & nw & K1 & K2); [|exact Er|].
      { intros s Hs. apply in_map_iff in Hs as (i & <- & _). now cbn. }
      exists 0, (c_subs c ++ nw). spl; auto; [apply Forall2_app; [apply R|exact K1]|].
      eapply leads_trans; [stq; unfold push_index; cbn [m_c]; rewrite EI; cbn; unfold set_c, set_ip; cbn; reflexivity|].
      eapply leads_trans; [stq; unfold push_index; cbn; unfold set_c, set_ip; cbn; reflexivity|].
      apply leads_step0 with n0. intros n1 Hn. ins. unfold step_create, pop_index. cbn [m_c c_is c_set_is vbind fst snd].
      rewrite run_bind, run_opt, (assoc_templs _ Et). cbn [obind]. rewrite run_bind. cbn [c_off c_subs c_set_is m_sig]. replace (c_off c) with off by (symmetry; apply R).
      specialize (K2 _ Hn). rewrite map_map in K2. cbn [sc_t sc_off] in K2. erewrite K2. cbn. fin. eta.
    - (* if *) dn X v Ev. eapply (LE e) in Ev; eauto.
      destruct (is_sh v) eqn:Sh.
      + dn X m Em. edestruct (IH a) as (k1 & s1 & A1 & A2 & A3); [ | | |cat (cs a)|exact X|].
        { instantiate (1 := c_set_if c (IfShared (match mask with Some m => m | None => vone pubv end) m v :: c_if c)). unfold related. cbn. spl; [reflexivity|apply R..]. }
        1, 2: cbn; congruence.
        rewrite A1 in A3 by congruence. exists 0, s1. spl; auto.
        eapply leads_trans; [exact Ev|]. eapply leads_trans; [|eapply leads_trans; [exact A3|]].
        * stq. unfold step_if, pop_field. cbn [m_c c_fs c_set_fs vbind run fst snd]. rewrite Sh. unfold push_shared. cbn [vbind run c_if c_set_fs].
          replace (shared_cond (c_if c)) with mask by (symmetry; apply R). rewrite Em. cbn. fin. eta.
        * stq. cbn. len. fin.
      + dn X z Ez. destruct z.
        * destruct mask as [m0|]; [discriminate|]. inversion X; subst st'. exists 1, (c_subs c). spl; [congruence|apply R|].
          eapply leads_trans; [exact Ev|]. stq. unfold step_if, pop_field. cbn [m_c c_fs c_set_fs vbind run fst snd]. rewrite Sh. cbn [run]. rewrite Ez. cbn. len. fin. eta.
        * edestruct (IH a) as (k1 & s1 & A1 & A2 & A3); [ | | |cat (cs a)|exact X|].
          { instantiate (1 := c_set_if c (IfPublic :: c_if c)). exact R. }
          1, 2: cbn; congruence.
          exists k1, s1. spl; auto. eapply leads_trans; [exact Ev|]. eapply leads_trans; [|eapply leads_trans; [exact A3|]].
          -- stq. unfold step_if, pop_field. cbn [m_c c_fs c_set_fs vbind run fst snd]. rewrite Sh. cbn [run]. rewrite Ez. cbn. fin. eta.
          -- stq. unfold step_end_truthy. cbn [m_c upd c_set_subs c_set_if c_if]. rewrite publics_in. cbn. len. fin.
    - (* if else *) dn X v Ev. eapply (LE e) in Ev; eauto.
      destruct (is_sh v) eqn:Sh.
      + dn X m Em. dn X st1 X1. dn X nv Env. dn X m2 Em2. set (last := match mask with Some m => m | None => vone pubv end) in *.
        edestruct (IH a) as (k1 & s1 & A1 & A2 & A3); [ | | |cat (cs a)|exact X1|].
        { instantiate (1 := c_set_if c (IfShared last m v :: c_if c)). unfold related. cbn. spl; [reflexivity|apply R..]. }
        1, 2: cbn; congruence.
        rewrite A1 in A3 by congruence.
        edestruct (IH b) as (k2 & s2 & B1 & B2 & B3); [ | | |cat (cs b)|exact X|].
        { instantiate (1 := c_set_subs (c_set_if c (IfShared last m2 v :: c_if c)) s1). unfold related. cbn. spl; [reflexivity|apply R|exact A2]. }
        1, 2: cbn; congruence.
        rewrite B1 in B3 by congruence.
        exists 0, s2. spl; auto.
        eapply leads_trans; [exact Ev|]. eapply leads_trans; [|eapply leads_trans; [exact A3|]].
        * stq. unfold step_if, pop_field. cbn [m_c c_fs c_set_fs vbind run fst snd]. rewrite Sh. unfold push_shared. cbn [vbind run c_if c_set_fs].
          replace (shared_cond (c_if c)) with mask by (symmetry; apply R). fold last. rewrite Em. cbn. fin. eta.
        * eapply leads_trans; [|eapply leads_trans; [exact B3|]].
          -- stq. unfold step_end_truthy. cbn [m_c upd c_set_subs c_set_if c_if publics repeat app]. replace (length (cs b) + 2 =? 0)%nat with false by (symmetry; apply Nat.eqb_neq; lia).
             cbn [toggle vbind run]. rewrite Env. cbn [obind run]. rewrite Em2. cbn. fin.
          -- stq. cbn. len. fin.
      + dn X z Ez. destruct z.
        * edestruct (IH b) as (k1 & s1 & A1 & A2 & A3); [ | | |cat (cs b)|exact X|].
          { instantiate (1 := c_set_if c (IfPublic :: c_if c)). exact R. }
          1, 2: cbn; congruence.
          exists k1, s1. spl; auto. eapply leads_trans; [exact Ev|]. eapply leads_trans; [|eapply leads_trans; [exact A3|]].
          -- stq. unfold step_if, pop_field. cbn [m_c c_fs c_set_fs vbind run fst snd]. rewrite Sh. cbn [run]. rewrite Ez. cbn. fin. eta.
          -- stq. unfold pop_if. cbn [m_c upd c_set_subs c_set_if c_if]. rewrite publics_in. cbn. len. fin.
        * edestruct (IH a) as (k1 & s1 & A1 & A2 & A3); [ | | |cat (cs a)|exact X|].
          { instantiate (1 := c_set_if c (IfPublic :: c_if c)). exact R. }
          1, 2: cbn; congruence.
          exists k1, s1. spl; auto. eapply leads_trans; [exact Ev|]. eapply leads_trans; [|eapply leads_trans; [exact A3|]].
          -- stq. unfold step_if, pop_field. cbn [m_c c_fs c_set_fs vbind run fst snd]. rewrite Sh. cbn [run]. rewrite Ez. cbn. fin. eta.
          -- stq. unfold step_end_truthy. cbn [m_c upd c_set_subs c_set_if c_if]. rewrite publics_in. cbn. len. fin. rewrite (Nat.add_comm (length (cs b)) 2); cbn; lia.
    - (* while *) dn X v Ev. eapply (LE e) in Ev; eauto. dn X z Ez. destruct z.
      + inversion X; subst st'. exists 0, (c_subs c). spl; auto; [apply R|]. rewrite upd_0.
        eapply leads_trans; [exact Ev|]. stq. unfold pop_field. cbn [m_c c_fs c_set_fs vbind run fst snd]. rewrite Ez. cbn. len. fin. eta.
      + dn X st1 X1.
        edestruct (IH a) as (k1 & s1 & A1 & A2 & A3); [exact R|exact NF'|exact NI'|cat (cs a)|exact X1|].
        edestruct (IH (SWhile e a)) as (k2 & s2 & B1 & B2 & B3); [ | | | |exact X|].
        { instantiate (1 := upd k1 c s1). unfold related, store_cond. cbn. rewrite publics_cond. spl; [apply R..|exact A2]. }
        1, 2: cbn; congruence.
        1: exact CW.
        exists (k2 + k1), s2. spl; [intros M; now rewrite A1, B1|exact B2|]. rewrite upd_upd in B3.
        eapply leads_trans; [exact Ev|]. eapply leads_trans; [|eapply leads_trans; [exact A3|]].
        * stq. unfold pop_field. cbn [m_c c_fs c_set_fs vbind run fst snd]. rewrite Ez. cbn. fin. eta.
        * eapply leads_trans; [|exact B3]. stq. rewrite (proj2 (Nat.ltb_ge _ _)) by (cbn [m_ip length]; lia). fin.
    - (* assert *) dn X v Ev. eapply (LE e) in Ev; eauto. dn X z Ez. destruct z; [discriminate|]. inversion X; subst st'. exists 0, (c_subs c). spl; auto; [apply R|]. rewrite upd_0.
      eapply leads_trans; [exact Ev|]. stq. unfold pop_field. cbn [m_c c_fs c_set_fs vbind run fst snd]. rewrite Ez. cbn. len. fin. eta.
  Qed.
End Ok.
