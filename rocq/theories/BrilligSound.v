(** * Runs of the coBrillig VM agree with what the program computes

    For a driver whose operations, on the values it represents, are those of BrilligSpec.v. *)
From Coq Require Import String List Arith NArith Lia Bool.
From Verif Require Import Proc Alg Rep3Net Rep3 Conv VmDriver Brillig BrilligSpec.
Import ListNotations.
Set Implicit Arguments.
Local Open Scope grp_scope.
Local Open Scope list_scope.

(** the result of a program that does not communicate *)
Definition pure_run {P M A} (q : prog P M A) : outcome A :=
  match q with Ret a => Done a | Fail e => Failed e | _ => Failed (Panic "communicates") end.
Lemma pure_run_leaf P M A (o : outcome A) : pure_run (leaf (P := P) (M := M) o) = o.
Proof. destruct o; reflexivity. Qed.
Lemma pure_run_bind P M A B (q : prog P M A) (f : A -> prog P M B) r :
  pure_run (bind q f) = Done r -> exists a, pure_run q = Done a /\ pure_run (f a) = Done r.
Proof. destruct q; cbn; try discriminate. intros H. eexists. split; [reflexivity|exact H]. Qed.

Ltac odone :=
  repeat match goal with
  | H : Done _ = Done _ |- _ => injection H as H; subst
  | H : Some _ = Some _ |- _ => injection H as H; subst
  | H : Failed _ = Done _ |- _ => discriminate H
  | H : None = Some _ |- _ => discriminate H
  | H : omap _ ?o = Done _ |- _ => unfold omap in H
  | H : obind ?o _ = Done _ |- _ => destruct o eqn:?; cbn [obind] in H; [|discriminate H]
  | H : sb ?o _ = Some _ |- _ => destruct o eqn:?; cbn [sb] in H; [|discriminate H]
  | H : pure_run (leaf _) = Done _ |- _ => rewrite pure_run_leaf in H
  | H : pure_run (bind _ _) = Done _ |- _ =>
      let a := fresh "a" in let H1 := fresh "Hp" in apply pure_run_bind in H; destruct H as (a & H1 & H)
  | H : pure_run (Ret _) = Done _ |- _ => cbn [pure_run] in H
  | H : pure_run (Fail _) = Done _ |- _ => discriminate H
  end.

Section Mems.
  Context {V X : Type} (ev : V -> X -> Prop) (d : V).
  Lemma mset_get m : forall a v b, mget d (mset d m a v) b = if (b =? a)%nat then v else mget d m b.
  Proof.
    intros a. revert m. induction a as [|a IH]; intros m v b.
    - destruct m; destruct b; cbn; try reflexivity. destruct b; reflexivity.
    - destruct m; destruct b as [|b]; cbn; try reflexivity.
      + specialize (IH [] v b). unfold mget in IH. rewrite IH. destruct (b =? a)%nat; [reflexivity|]. destruct b; reflexivity.
      + specialize (IH m v b). unfold mget in IH. exact IH.
  Qed.
  Lemma over_get vs : forall m b, mget d (over vs m) b = if (b <? length vs)%nat then nth b vs d else mget d m b.
  Proof.
    induction vs as [|v vs IH]; intros m b; cbn [over length]; [reflexivity|].
    destruct b as [|b]; [reflexivity|].
    change (mget d (v :: over vs (tl m)) (Datatypes.S b)) with (mget d (over vs (tl m)) b). rewrite IH.
    change (Datatypes.S b <? Datatypes.S (length vs))%nat with (b <? length vs)%nat. change (nth (Datatypes.S b) (v :: vs) d) with (nth b vs d).
    destruct (b <? length vs)%nat; [reflexivity|]. destruct m; [destruct b; reflexivity|reflexivity].
  Qed.
  Lemma mslice_get m : forall a vs b, mget d (mslice d m a vs) b =
    if ((a <=? b) && (b <? a + length vs))%nat%bool then nth (b - a) vs d else mget d m b.
  Proof.
    intros a. revert m. induction a as [|a IH]; intros m vs b.
    - cbn [mslice]. rewrite over_get, Nat.sub_0_r. reflexivity.
    - destruct b as [|b]; [destruct m; reflexivity|].
      change (Datatypes.S a <=? Datatypes.S b)%nat with (a <=? b)%nat.
      change (Datatypes.S b <? Datatypes.S a + length vs)%nat with (b <? a + length vs)%nat.
      change (Datatypes.S b - Datatypes.S a)%nat with (b - a)%nat.
      destruct m as [|x m]; cbn [mslice].
      + change (mget d (d :: mslice d [] a vs) (Datatypes.S b)) with (mget d (mslice d [] a vs) b). rewrite IH.
        destruct (_ && _)%bool; [reflexivity|]. destruct b; reflexivity.
      + change (mget d (x :: mslice d m a vs) (Datatypes.S b)) with (mget d (mslice d m a vs) b). rewrite IH. reflexivity.
  Qed.
End Mems.

Section Upds.
  Context {F : Type}.
  Lemma upds_get vs : forall (m : nat -> bval F) a b,
    upds m a vs b = if ((a <=? b) && (b <? a + length vs))%nat%bool then nth (b - a) vs (m b) else m b.
  Proof.
    induction vs as [|v vs IH]; intros m a b; cbn [upds length].
    - rewrite Nat.add_0_r. destruct (Nat.leb_spec a b), (Nat.ltb_spec b a); cbn; try reflexivity. lia.
    - rewrite IH. unfold upd.
      destruct (Nat.leb_spec (a + 1) b), (Nat.ltb_spec b (a + 1 + length vs)), (Nat.leb_spec a b), (Nat.ltb_spec b (a + Datatypes.S (length vs)));
        cbn; try lia; try (destruct (Nat.eqb_spec b a); try lia; try reflexivity).
      + replace (b - a)%nat with (Datatypes.S (b - (a + 1))) by lia. cbn. reflexivity.
      + subst. rewrite Nat.sub_diag. reflexivity.
  Qed.
End Upds.

Arguments mget : simpl never. Arguments mset : simpl never. Arguments mslice : simpl never.
Section Sound.
  Context {P M F : Type} `{FU : FieldUint F} (D : bdriver P M F).
  Notation V := (dV D).
  Variable ev : V -> bval F -> Prop.
  (** whether the driver decides every condition *)
  Variable total : bool.
  Notation one1 := (BI (F := F) 1 U1).

  Record sound : Prop := mkSound {
    so_default : ev (d_default D) (BF 0);
    so_public : forall x t v, sconst x t = Some v -> ev (d_public D x t) v;
    so_one : ev (d_public D rone (TInt U1)) one1;
    so_zero : ev (d_public D 0 (TInt U1)) (BI 0 U1);
    so_usize : forall v x n m, ev v x -> d_usize D v = Done n -> susize x = Some m -> n = m;
    so_char : forall v x n m, ev v x -> d_char D v = Done n -> schar x = Some m -> n = m;
    so_bool : forall v x b c, ev v x -> d_bool D v = Some b -> sbool x = Some c -> b = c;
    so_total : forall v x c, total = true -> ev v x -> sbool x = Some c -> d_bool D v <> None;
    so_int : forall v s r, d_int D v s = Done r -> r = v;
    so_field : forall v r, d_field D v = Done r -> r = v;
    so_not : forall v x r y, ev v x -> d_not D v = Done r -> snot x = Some y -> ev r y;
    so_cast : forall st v x t r y, ev v x -> pure_run (d_cast D st v t) = Done r -> scast x t = Some y -> ev (fst r) y;
    so_bin : forall st o v x w y r z, ev v x -> ev w y -> pure_run (d_bin D st o v w) = Done r -> sbin o x y = Some z -> ev (fst r) z;
    so_radix : forall st v x w y n b r z, ev v x -> ev w y -> pure_run (d_radix D st v w n b) = Done r ->
      sradix x y n b = Some z -> Forall2 ev (fst r) z;
    so_cmux1 : forall st c t f r x, ev c one1 -> pure_run (d_cmux D st c t f) = Done r -> ev t x -> ev (fst r) x;
    so_cmux0 : forall st c t f r x, ev c (BI 0 U1) -> pure_run (d_cmux D st c t f) = Done r -> ev f x -> ev (fst r) x
  }.
  Context (HD : sound).

  Notation bst := (bst V (dSt D)).
  Definition pss_rel : list (list N * list V) -> list (list N * list (bval F)) -> Prop :=
    Forall2 (fun e e' => fst e = fst e' /\ Forall2 ev (snd e) (snd e')).
  Record srel (s : bst) (z : sst (F := F)) : Prop := mkRel {
    r_mem : forall a, ev (mget (d_default D) (b_mem s) a) (s_mem z a);
    r_pss : pss_rel (b_pss s) (s_pss z);
    r_cd : Forall2 ev (b_cd s) (s_cd z);
    r_stack : b_stack s = s_stack z;
    r_ip : b_ip s = s_ip z;
    r_ctx : forall c, b_ctx s = Some c -> ev c one1
  }.
  Definition rrel (R : bres V) (r : sres (F := F)) : Prop :=
    match r with
    | SOk vs ps => exists ws ps', R = BSuccess ws ps' /\ Forall2 ev ws vs /\ pss_rel ps' ps
    | STrap => total = true -> R = BTrap
    end.

  Lemma resolve_rel s z a n m : srel s z -> resolve D s a = Done n -> sresolve z a = Some m -> n = m.
  Proof.
    intros R. destruct a; cbn; intros H1 H2; odone; [reflexivity|].
    rewrite (so_usize HD (r_mem R 0%nat) Heqo0 Heqo1). reflexivity.
  Qed.
  Lemma read_rel s z a v x : srel s z -> read D s a = Done v -> sread z a = Some x -> ev v x.
  Proof.
    intros R. unfold read, sread. intros H1 H2. odone. rewrite (resolve_rel _ R Heqo Heqo0). apply (r_mem R).
  Qed.
  Lemma usize_rel s z a n m : srel s z -> read_usize D s a = Done n -> sref z a = Some m -> n = m.
  Proof. intros R. unfold read_usize, sref. intros H1 H2. odone. exact (so_usize HD (read_rel _ R Heqo Heqo0) H1 H2). Qed.
  Lemma ref_rel s z a n m : srel s z -> read_ref D s a = Done n -> sref z a = Some m -> n = m.
  Proof.
    intros R. unfold read_ref. intros H1 H2. odone. destruct (_ <? _)%N; [|discriminate]. odone. exact (usize_rel _ R Heqo H2).
  Qed.
  Lemma int_rel s z a t v x : srel s z -> read_int D s a t = Done v -> sread z a = Some x -> ev v x.
  Proof. intros R. unfold read_int. intros H1 H2. odone. apply (so_int HD) in H1. subst. exact (read_rel _ R Heqo H2). Qed.
  Lemma field_rel s z a v x : srel s z -> read_field D s a = Done v -> sread z a = Some x -> ev v x.
  Proof. intros R. unfold read_field. intros H1 H2. odone. apply (so_field HD) in H1. subst. exact (read_rel _ R Heqo H2). Qed.
  Lemma drv_rel s z d : srel s z -> srel (set_drv D s d) z.
  Proof. intros []. constructor; assumption. Qed.
  Lemma ip_rel s z ip : srel s z -> srel (set_ip D s ip) (sjump z ip).
  Proof. intros []. constructor; cbn; auto. Qed.
  Lemma next_rel s z : srel s z -> srel (next D s) (sjump z (s_ip z + 1)).
  Proof. intros R. unfold next. rewrite (r_ip R). apply ip_rel. exact R. Qed.
  Lemma write_rel s z a v x s' z' : srel s z -> ev v x -> write D s a v = Done s' -> swrite z a x = Some z' -> srel (next D s') z'.
  Proof.
    intros R E. unfold write, swrite. intros H1 H2. odone. pose proof (resolve_rel _ R Heqo Heqo0). subst.
    destruct R. constructor; cbn; auto.
    intros b. rewrite mset_get. unfold upd. destruct (b =? _)%nat; auto.
  Qed.
  Lemma Forall2_nth A B (R : A -> B -> Prop) l m d e i : Forall2 R l m -> (i < length l)%nat -> R (nth i l d) (nth i m e).
  Proof. intros HX. revert i. induction HX as [|x y l m H0 HX IH]; intros [|i] L; cbn in *; try lia; [exact H0|]. apply IH. lia. Qed.
  Lemma Forall2_len A B (R : A -> B -> Prop) l m : Forall2 R l m -> length l = length m.
  Proof. induction 1; cbn; congruence. Qed.
  Lemma writes_rel s z a vs xs s' z' : srel s z -> Forall2 ev vs xs -> write_slice D s a vs = Done s' ->
    swrites z a xs = Some z' -> srel (next D s') z'.
  Proof.
    intros R E. unfold write_slice, swrites. intros H1 H2. odone. pose proof (resolve_rel _ R Heqo Heqo0). subst.
    pose proof (Forall2_len E) as L.
    destruct R. constructor; cbn; auto.
    intros b. rewrite mslice_get, upds_get, L.
    destruct (Nat.leb_spec n0 b), (Nat.ltb_spec b (n0 + length xs)); cbn; auto.
    apply Forall2_nth; [exact E|lia].
  Qed.
  Lemma array_rel s z h vs xs : srel s z -> read_heap_array D s h = Done vs -> sarray z h = Some xs -> Forall2 ev vs xs.
  Proof.
    intros R. unfold read_heap_array, sarray. destruct (snd h =? 0)%nat; intros H1 H2; odone; [constructor|].
    rewrite (ref_rel _ R Heqo Heqo0). generalize (seq 0 (snd h)). intros l. induction l; cbn; constructor; auto. apply (r_mem R).
  Qed.
  Lemma chars_rel vs xs : Forall2 ev vs xs -> forall k k', chars D vs = Done k -> schars xs = Some k' -> k = k'.
  Proof.
    induction 1 as [|v x vs xs E HX IH]; intros k k'; cbn [chars schars]; intros H1 H2; odone; [reflexivity|].
    rewrite (so_char HD E Heqo Heqo1), (IH _ _ eq_refl eq_refl). reflexivity.
  Qed.
  Lemma Forall2_app2 A B (R : A -> B -> Prop) a b c d : Forall2 R a b -> Forall2 R c d -> Forall2 R (a ++ c) (b ++ d).
  Proof. apply Forall2_app. Qed.
  Lemma slice_rel vs xs o n ws : Forall2 ev vs xs -> slice vs o n = Done ws -> Forall2 ev ws (firstn n (skipn o xs)).
  Proof.
    intros HX. unfold slice. destruct (_ <=? _)%nat; intros E; odone. clear -HX. revert o n. 
    induction HX as [|v x vs xs E HX IH]; intros [|o] [|n]; cbn; try constructor; auto.
    - exact (IH 0%nat n).
    - exact (IH o (Datatypes.S n)).
  Qed.
  Lemma guarded_rel s z o v x w y r q : srel s z -> ev v x -> ev w y -> pure_run (guarded D s o v w) = Done r ->
    sbin o x y = Some q -> ev (fst r) q.
  Proof.
    intros R E1 E2. unfold guarded. destruct (b_ctx s) as [c|] eqn:C; [|intros H1 H2; exact (so_bin HD _ _ E1 E2 H1 H2)].
    destruct (is_div o); [|intros H1 H2; exact (so_bin HD _ _ E1 E2 H1 H2)].
    intros H1 H2. odone. pose proof (so_cmux1 HD _ _ (r_ctx R C) Hp E2) as E3. exact (so_bin HD _ _ E1 E3 H1 H2).
  Qed.
  Lemma write_next_rel s z a v x s' z' : srel s z -> ev (fst v) x -> pure_run (write_next D s a v) = Done s' -> swrite z a x = Some z' -> srel s' z'.
  Proof. intros R E H1 H2. unfold write_next in H1. odone. exact (write_rel _ (drv_rel _ R) E Heqo H2). Qed.

  Lemma sint_of_eq x t y : sint_of (F := F) x t = Some y -> y = x.
  Proof. destruct x; cbn; [discriminate|]. destruct (isz_eqb _ _); [|discriminate]. intros HX. injection HX as HX. auto. Qed.
  Lemma sfield_of_eq x y : sfield_of (F := F) x = Some y -> y = x.
  Proof. destruct x; cbn; [|discriminate]. intros HX. injection HX as HX. auto. Qed.

  Ltac fwd R :=
    repeat match goal with
    | HX : sint_of _ _ = Some _ |- _ => apply sint_of_eq in HX; subst
    | HX : sfield_of _ = Some _ |- _ => apply sfield_of_eq in HX; subst
    | HX : read_ref D _ ?a = Done _, HY : sref _ ?a = Some _ |- _ => pose proof (ref_rel _ R HX HY); clear HX; subst
    | HX : read_usize D _ ?a = Done _, HY : sref _ ?a = Some _ |- _ => pose proof (usize_rel _ R HX HY); clear HX; subst
    | HX : read_int D _ ?a _ = Done _, HY : sread _ ?a = Some _ |- _ => pose proof (int_rel _ _ R HX HY); clear HX
    | HX : read_field D _ ?a = Done _, HY : sread _ ?a = Some _ |- _ => pose proof (field_rel _ R HX HY); clear HX
    | HX : read D _ ?a = Done _, HY : sread _ ?a = Some _ |- _ => pose proof (read_rel _ R HX HY); clear HX
    end.
  Lemma step_rel s z o s' z' : srel s z -> pure_run (step D s o) = Done s' -> sstep z o = Some z' -> srel s' z'.
  Proof.
    intros R. destruct o; cbn [step sstep]; intros H1 H2; try discriminate H2; try discriminate H1;
      unfold bin_field, bin_int, calldata_copy, to_radix in H1; odone; fwd R.
    - (* BinF *) refine (write_next_rel _ _ R _ H1 H2).
      eapply guarded_rel; [exact R| | |eassumption|eassumption]; assumption.
    - (* BinI *) refine (write_next_rel _ _ R _ H1 H2).
      eapply guarded_rel; [exact R| | |eassumption|eassumption]; assumption.
    - (* Not *) eapply write_rel; [exact R|eapply (so_not HD); eassumption|eassumption|exact H2].
    - (* Cast *) refine (write_next_rel _ _ R _ H1 H2). eapply (so_cast HD); eassumption.
    - (* Jump *) apply ip_rel. exact R.
    - (* CalldataCopy *) destruct (_ <=? _)%nat; [|discriminate].
      eapply writes_rel; [exact R|eapply slice_rel; [exact (r_cd R)|eassumption]|eassumption|exact H2].
    - (* Call *) destruct R. constructor; cbn; auto. congruence.
    - (* Const *) eapply write_rel; [exact R|eapply (so_public HD); eassumption|eassumption|exact H2].
    - (* IndirectConst *) eapply write_rel; [exact R|eapply (so_public HD); eassumption|eassumption|exact H2].
    - (* Return *) rewrite (r_stack R) in H1. destruct (s_stack z) eqn:Es; [discriminate|]. odone.
      destruct R. constructor; cbn; auto.
    - (* Foreign *) destruct f; cbn in H1, H2; odone; try discriminate.
      + unfold taceo_store in Heqo. destruct (b_ctx s); [discriminate|]. destruct (negb _); [discriminate|]. destruct (negb _); [discriminate|].
        destruct inputs as [|[nm|] [|[dt|] [|? ?]]]; try discriminate. odone.
        destruct (existsb _ _); [discriminate|]. odone.
        match goal with HX : read_heap_array D s nm = Done _, HY : sarray z nm = Some _ |- _ => pose proof (array_rel _ R HX HY) as A1 end.
        match goal with HX : read_heap_array D s dt = Done _, HY : sarray z dt = Some _ |- _ => pose proof (array_rel _ R HX HY) as A2 end.
        match goal with HX : chars D _ = Done _, HY : schars _ = Some _ |- _ => pose proof (chars_rel A1 HX HY) end. subst.
        destruct R. constructor; cbn; auto.
        * apply Forall2_app2; [assumption|]. constructor; [|constructor]. split; [reflexivity|exact A2].
        * discriminate.
      + apply next_rel. exact R.
    - (* Mov *) eapply write_rel; [exact R| |eassumption|exact H2]. assumption.
    - (* Load *) match goal with HX : read D s (Direct _) = Done _ |- _ => cbn in HX end. odone.
      eapply write_rel; [exact R|apply (r_mem R)|eassumption|exact H2].
    - (* Store *) eapply write_rel; [exact R| |eassumption|exact H2]. assumption.
    - (* ToRadix *) destruct (d_bool D d) as [b'|] eqn:Eb; [|discriminate]. odone.
      match goal with HX : sbool _ = Some _, HY : ev d _ |- _ => pose proof (so_bool HD HY Eb HX) end. subst.
      eapply writes_rel; [exact (drv_rel (snd a3) R)| |exact Heqo8|exact H2].
      match goal with HX : pure_run (d_radix _ _ _ _ _ _) = Done _, HY : sradix _ _ _ _ = Some _ |- _ => refine (so_radix HD _ _ _ _ _ HX HY) end;
        assumption.
  Qed.

  Lemma firstn_map_nth (m : list V) n : forall o, (o + n <= length m)%nat ->
    firstn n (skipn o m) = map (fun i => mget (d_default D) m (o + i)%nat) (seq 0 n).
  Proof.
    induction n as [|n IH]; intros o L; [reflexivity|].
    cbn [seq map]. rewrite <- seq_shift, map_map.
    assert (E : skipn o m = nth o m (d_default D) :: skipn (Datatypes.S o) m).
    { clear -L. revert m L. induction o as [|o IH]; intros [|x m] L; cbn in *; try lia; [reflexivity|]. apply IH. lia. }
    rewrite E. cbn [firstn]. rewrite Nat.add_0_r. f_equal. rewrite IH by lia.
    apply map_ext. intros i. f_equal. lia.
  Qed.
  Lemma stop_rel s z a b r q : srel s z -> stop D s a b = Done r -> sstop z a b = Some q -> rrel (fst r) q.
  Proof.
    intros R. unfold stop, sstop. intros H1 H2. odone. cbn [fst].
    pose proof (usize_rel _ R Heqo Heqo2). subst.
    unfold slice in Heqo1. destruct (_ <=? _)%nat eqn:L in Heqo1; [|discriminate]. odone. apply Nat.leb_le in L.
    destruct (Nat.eqb_spec n1 0) as [->|N].
    - odone. cbn. exists [], (b_pss s). repeat split; [constructor|apply (r_pss R)].
    - odone. destruct n1; [lia|]. cbn in Heqo0.
      pose proof (ref_rel _ R Heqo0 Heqo1). subst.
      cbn [rrel]. eexists _, _. split; [reflexivity|]. split; [|apply (r_pss R)].
      rewrite firstn_map_nth by exact L. generalize (seq 0 (Datatypes.S n1)). intros l.
      induction l; cbn; constructor; auto. apply (r_mem R).
  Qed.

  Lemma universe_rel s z d ctx a b v ip s' : srel s z -> ev ctx one1 -> ev (d_public D b (TInt U1)) v -> sread z a = Some v ->
    universe D s d ctx a b ip = Done s' -> srel s' (sjump z ip).
  Proof.
    intros R E1 E2 H0. unfold universe, write. intros H1. unfold sread in H0. odone.
    assert (Hr : resolve D s a = Done n) by (destruct a; exact Heqo0).
    pose proof (resolve_rel _ R Hr Heqo). subst.
    destruct R. constructor; cbn; auto.
    - intros b'. rewrite mset_get. destruct (Nat.eqb_spec b' n0) as [->|]; auto.
    - intros c E. injection E as <-. exact E1.
  Qed.
  Lemma swrite_pss z a (x : bval F) z' : swrite z a x = Some z' -> s_pss z' = s_pss z.
  Proof. unfold swrite. intros HX. odone. reflexivity. Qed.
  Lemma swrites_pss z a (x : list (bval F)) z' : swrites z a x = Some z' -> s_pss z' = s_pss z.
  Proof. unfold swrites. intros HX. odone. reflexivity. Qed.
  (** the stored states only grow *)
  Lemma sstep_pss z o z' : sstep (F := F) z o = Some z' -> exists l, s_pss z' = s_pss z ++ l.
  Proof.
    destruct o; cbn [sstep]; intros HX; odone;
      try (exists []; rewrite app_nil_r; first [exact (swrite_pss _ _ _ HX) | exact (swrites_pss _ _ _ HX) | reflexivity]).
    - destruct (_ <=? _)%nat; [|discriminate]. exists []. rewrite app_nil_r. exact (swrites_pss _ _ _ HX).
    - destruct (s_stack z); [discriminate|]. odone. exists []. rewrite app_nil_r. reflexivity.
    - destruct f; try discriminate.
      + destruct inputs as [|[nm|] [|[dt|] [|? ?]]]; try discriminate. odone. eexists. reflexivity.
      + odone. exists []. rewrite app_nil_r. reflexivity.
  Qed.
  Lemma srun_pss code f : forall z ws ps, srun (F := F) code f z = Some (SOk ws ps) -> exists l, ps = s_pss z ++ l.
  Proof.
    induction f as [|f IH]; intros z ws ps; cbn [srun]; [discriminate|]. intros HX. odone.
    destruct b eqn:Eb;
      lazymatch type of Eb with
      | _ = JumpIf _ _ => odone; destruct (IH _ _ _ HX) as (l & E); exists l; exact E
      | _ = Trap => discriminate
      | _ = Stop _ _ => unfold sstop in HX; odone; destruct (_ =? _)%nat; odone; exists []; rewrite app_nil_r; reflexivity
      | _ => destruct (sb (sstep z _) _) eqn:Es in HX; [|discriminate]; odone;
             destruct (sstep_pss _ _ Heqo0) as (l1 & E1); destruct (IH _ _ _ Es) as (l2 & E2);
             exists (l1 ++ l2); rewrite E2, E1, app_assoc; reflexivity
      end.
  Qed.

  Lemma cmuxes_rel1 c ts fs : forall st r xs, ev c one1 -> length ts = length fs -> pure_run (cmuxes D st c ts fs) = Done r ->
    Forall2 ev ts xs -> Forall2 ev (fst r) xs.
  Proof.
    revert fs. induction ts as [|t ts IH]; intros [|f fs] st r xs E L; cbn in *; try discriminate; intros H1 H2; odone.
    - inversion H2. constructor.
    - inversion H2; subst. cbn. constructor; [exact (so_cmux1 HD _ _ E Hp H3)|]. eapply IH; [exact E| |exact Hp0|assumption]. lia.
  Qed.
  Lemma cmuxes_rel0 c ts fs : forall st r xs, ev c (BI 0 U1) -> length ts = length fs -> pure_run (cmuxes D st c ts fs) = Done r ->
    Forall2 ev fs xs -> Forall2 ev (fst r) xs.
  Proof.
    revert fs. induction ts as [|t ts IH]; intros [|f fs] st r xs E L; cbn in *; try discriminate; intros H1 H2; odone.
    - inversion H2. constructor.
    - inversion H2; subst. cbn. constructor; [exact (so_cmux0 HD _ _ E Hp H3)|]. eapply IH; [exact E| |exact Hp0|assumption]. lia.
  Qed.
  Lemma noise_len vs : forall st r, pure_run (noise D st vs) = Done r -> length (fst r) = length vs.
  Proof. induction vs as [|v vs IH]; intros st r HX; cbn in HX; odone; [reflexivity|]. cbn. f_equal. exact (IH _ _ Hp0). Qed.

  Lemma merge_rel s c (b : bool) R1 R2 r vs ps : ev c (BI (if b then 1 else 0)%N U1) -> (ps = [] -> b_pss s = []) ->
    pure_run (merge D s c R1 R2) = Done r -> rrel (if b then R1 else R2) (SOk vs ps) -> rrel (fst r) (SOk vs ps).
  Proof.
    intros E Hps HX (ws & ps' & EQ & Hw & Hp). unfold merge in HX.
    assert (FIN : forall st ts fs, length ts = length fs -> ps' = [] -> Forall2 ev (if b then ts else fs) vs ->
      pure_run (r <- cmuxes D st c ts fs ;; Ret (BSuccess (fst r) (b_pss s), set_drv D s (snd r))) = Done r -> rrel (fst r) (SOk vs ps)).
    { intros st ts fs L -> Hv Hr. odone. inversion Hp; subst. cbn. rewrite (Hps eq_refl). eexists _, _. split; [reflexivity|].
      split; [|constructor]. destruct b; [exact (cmuxes_rel1 _ _ E L Hp0 Hv)|exact (cmuxes_rel0 _ _ E L Hp0 Hv)]. }
    destruct R1 as [ts tp|], R2 as [fs fp|].
    - destruct (negb _) eqn:N1 in HX; [discriminate|]. destruct (negb _) eqn:N2 in HX; [discriminate|].
      apply negb_false_iff, Nat.eqb_eq in N2. destruct tp, fp; try discriminate N1.
      destruct b; injection EQ as -> <-; exact (FIN _ _ _ N2 eq_refl Hw HX).
    - destruct b; [|discriminate EQ]. injection EQ as -> ->. destruct ps'; [|discriminate]. apply pure_run_bind in HX. destruct HX as (n0 & Hp0 & HX).
      refine (FIN _ _ _ _ eq_refl Hw HX). rewrite (noise_len _ _ Hp0). reflexivity.
    - destruct b; [discriminate EQ|]. injection EQ as -> ->. destruct ps'; [|discriminate]. apply pure_run_bind in HX. destruct HX as (n0 & Hp0 & HX).
      refine (FIN _ _ _ _ eq_refl Hw HX). exact (noise_len _ _ Hp0).
    - destruct b; discriminate EQ.
  Qed.

  Theorem run_sound code f : forall f' s z r q, srel s z -> pure_run (run_inner D code f s) = Done r -> srun code f' z = Some q ->
    rrel (fst r) q.
  Proof.
    induction f as [|f IH]; intros f' s z r q R H1 H2; [discriminate H1|].
    destruct f' as [|f']; [discriminate H2|]. cbn [run_inner srun] in H1, H2. rewrite (r_ip R) in H1.
    destruct (nth_error code (s_ip z)) as [o|]; cbn [sb] in H2; [|discriminate H2].
    assert (SIMPLE : pure_run (s' <- step D s o ;; run_inner D code f s') = Done r -> sb (sstep z o) (srun code f') = Some q -> rrel (fst r) q).
    { clear H1 H2. intros H1 H2. odone. exact (IH _ _ _ _ _ (step_rel _ R Hp Heqo0) H1 H2). }
    destruct o eqn:Eo; try (exact (SIMPLE H1 H2)); clear SIMPLE.
    - (* JumpIf *) odone. pose proof (read_rel _ R Hp Heqo0) as E. rename b0 into bb.
      destruct (d_bool D a) as [b'|] eqn:Eb.
      + pose proof (so_bool HD E Eb Heqo1). subst b'.
        destruct bb; [exact (IH _ _ _ _ _ (ip_rel _ R) H1 H2)|exact (IH _ _ _ _ _ (next_rel R) H1 H2)].
      + destruct (_ <=? _)%nat; [discriminate H1|]. destruct (b_ctx s) eqn:Ec; [discriminate H1|]. odone.
        assert (Hv : b = BI (if bb then 1 else 0)%N U1) by (destruct b as [|n []]; try discriminate; destruct n as [|[]]; try discriminate; cbn in Heqo1; injection Heqo1 as <-; reflexivity).
        subst b.
        assert (CH : forall vs ps, q = SOk vs ps -> rrel (fst (if bb then a3 else a4)) q).
        { intros vs ps _. destruct bb.
          - refine (IH _ _ _ _ _ _ Hp3 H2). exact (universe_rel _ _ _ _ R E (so_one HD) Heqo0 Hp1).
          - refine (IH _ _ _ _ _ _ Hp4 H2). refine (universe_rel _ _ _ _ R _ (so_zero HD) Heqo0 Hp2).
            exact (so_not HD (x := BI 0 U1) (y := one1) E Hp0 eq_refl). }
        destruct q as [vs ps|].
        * specialize (CH vs ps eq_refl). refine (merge_rel _ bb _ _ E _ H1 _); [|destruct bb; exact CH].
          intros ->. cbn [b_pss]. destruct (srun_pss _ _ _ H2) as (l & El). cbn in El.
          pose proof (r_pss R) as Hp'. destruct (s_pss z); [inversion Hp'; reflexivity|discriminate].
        * intros Ht. exfalso. exact (so_total HD Ht E Heqo1 Eb).
    - (* Trap *) odone. intros _. reflexivity.
    - (* Stop *) odone. exact (stop_rel _ _ R H1 H2).
  Qed.
End Sound.
