(** * Three-party garbled circuits: the streaming garbler and evaluator *)
From Coq Require Import String List Arith NArith Lia Bool.
From Verif Require Import Proc Alg Rep3Net Rep3 Rep3Spec Rep3Proofs Rep3Wp Uint Binary BinaryWp Conv ConvWp
  Garble Circuits CircuitsSim CircuitsOk CircuitsArith CircuitsMod CircuitsFun Garbled Yao YaoSpec YaoWp YaoOut.
Import ListNotations.
Set Implicit Arguments.

Section YaoStream.
  Context {F : Type} `{FU : FieldUint F} {S M : Type} (W : nat) (du : nat -> S -> N * S) {DF : Draw S F}.
  Context {Seed : Type} {SS : Seeded S Seed} {DS : Draw S Seed}.
  Context {EN : Enc M (list N)}.
  Variables (hash : N -> N -> N) (gtweak : N -> N) (otweak : N -> bool -> N).
  Context {Dg : Type} {ED : Enc M (list Dg)}.
  Variables (digest : list N -> Dg) (dg_eqb : Dg -> Dg -> bool).
  Variables (draw_label draw_delta : S -> N * S).
  Hypothesis dg_eqb_spec : forall x y, dg_eqb x y = true <-> x = y.
  Context (cap : nat) (cap_pos : (1 <= cap)%nat).
  Notation prog := (prog pid M).
  Notation garbler_rng := (garbler_rng (S := S) (Seed := Seed)).
  Notation garbler_next := (garbler_next (S := S) (Seed := Seed)).
  Notation comp3 := (comp3 cap).
  Notation sgarble := (sgarble (M := M) hash gtweak draw_label).
  Notation sevaluate := (sevaluate (M := M) hash gtweak).
  Notation garble := (garble hash gtweak draw_label).
  Implicit Types (st : pid -> rst S).
  Local Open Scope list_scope.

  Lemma emit_1 (s s' : gst (S := S)) new : g_blocks s' = g_blocks s ++ new -> emit (M := M) P1 s s' = send_blocks P0 new.
  Proof. intros E. unfold emit. rewrite E, skipn_app, Nat.sub_diag, skipn_all. reflexivity. Qed.

  Section Stream.
    Variable d : N.
    Hypothesis Hd : color d = true.

    (** What one run of the three parties through a circuit amounts to: the states of [garble], and
        the evaluator has hashed exactly the blocks of the garblers. *)
    Lemma stream {A Ab Ag Ae} (Rb : A -> Ab -> Prop) (Rg : A -> Ag -> Prop) (Re : A -> Ae -> Prop)
          (q : gprog wire A) : forall qb qg qe s t h b,
      gsim fst Rb q qb -> gsim snd Rg q qg -> gsim (ewire d) Re q qe -> in_step d s t -> plain qb = Done b ->
      exists a g x t' new, Rb a b /\ Rg a g /\ Re a x /\ fst (garble d qg s) = Done g /\
        in_step d (snd (garble d qg s)) t' /\ g_blocks (snd (garble d qg s)) = g_blocks s ++ new /\
        g_out (snd (garble d qg s)) = g_out s /\
        forall T (k0 : Ae * (est * list N) -> prog T) k1 k2 o,
          comp3 (k0 (x, (t', h ++ new))) (k1 (g, snd (garble d qg s))) (k2 (g, snd (garble d qg s))) [] [] [] [] [] [] o ->
          comp3 (bind (sevaluate qe t h) k0) (bind (sgarble P1 d qg s) k1) (bind (sgarble P2 d qg s) k2) [] [] [] [] [] [] o.
    Proof.
      induction q as [a|e|x y k IH|x y k IH|x k IH|k IH|k IH]; intros qb qg qe s t h b Sb Sg Se Hin Hb;
        inversion Sb; subst; inversion Sg; subst; inversion Se; subst;
        try match goal with
            | B : forall w, gsim fst _ _ _, G : forall w, gsim snd _ _ _, E : forall w, gsim (ewire d) _ _ _ |- _ =>
                rename B into SB, G into SG, E into SE
            end; cbn [plain] in Hb; try discriminate Hb.
      - cbn [Garble.garble fst snd]. do 3 eexists. exists t, []. injection Hb as ->. rewrite !app_nil_r.
        do 3 (split; [eassumption|]). split; [reflexivity|]. split; [exact Hin|]. split; [reflexivity|]. split; [reflexivity|].
        intros T k0 k1 k2 o HC. exact HC.
      - assert (E : N.lxor (ewire d x) (ewire d y) = ewire d (xorb (fst x) (fst y), N.lxor (snd x) (snd y)))
          by (unfold ewire; cbn; apply xor_gate_ok).
        cbn [Garble.garble Yao.sgarble Yao.sevaluate]. rewrite E.
        exact (IH _ _ _ _ s t h b (SB _) (SG (xorb (fst x) (fst y), N.lxor (snd x) (snd y))) (SE _) Hin Hb).
      - cbn [Garble.garble Yao.sgarble Yao.sevaluate].
        set (g := g_and hash gtweak d s (snd x) (snd y)).
        set (w := (fst x && fst y, fst g) : wire).
        destruct Hin as (I1 & I2 & I3 & I4).
        set (t1 := mkEst (e_gate t + 1) (e_out t) (e_circ t) (e_zero t) (e_one t)).
        assert (Hin' : in_step d (snd g) t1).
        { unfold in_step, consts_ok, g, g_and, t1. cbn. rewrite I1. auto. }
        set (c0 := fst (fst (garble_and_gate hash gtweak (g_gate s) (snd x) (snd y) d))).
        set (c1 := snd (fst (garble_and_gate hash gtweak (g_gate s) (snd x) (snd y) d))).
        assert (Eg : g_blocks (snd g) = g_blocks s ++ [c0; c1]) by reflexivity.
        assert (Ee : evaluate_and_gate hash gtweak (e_gate t) (ewire d x) (ewire d y) c0 c1 = ewire d w).
        { rewrite I1. unfold ewire, w, g, g_and. cbn [fst snd]. apply and_gate_ok. exact Hd. }
        destruct (IH w _ _ _ (snd g) t1 (h ++ [c0; c1]) b (SB w) (SG w) (SE w) Hin' Hb)
          as (a & g' & x' & t' & new & R1 & R2 & R3 & E1 & E2 & E3 & E4 & HC).
        exists a, g', x', t', (c0 :: c1 :: new). change (snd w) with (fst g) in *.
        do 5 (split; [assumption|]). split; [rewrite E3, Eg, <- app_assoc; reflexivity|]. split; [rewrite E4; reflexivity|].
        intros T k0 k1 k2 o HK. rewrite (emit_1 _ _ _ Eg). cbn [emit send_blocks].
        unfold receive_block, send_to, send_many, recv_from, recv_many. cbn [bind].
        repeat step3 cap_pos. rewrite Ee. fold t1. apply HC. rewrite <- app_assoc. exact HK.
      - assert (E : ewire d x = ewire d (negb (fst x), N.lxor d (snd x))) by (unfold ewire; cbn; apply neg_gate_ok).
        pose proof (SE (negb (fst x), N.lxor d (snd x))) as SE'. rewrite <- E in SE'.
        exact (IH _ _ _ _ s t h b (SB _) (SG (negb (fst x), N.lxor d (snd x))) SE' Hin Hb).
      - cbn [Garble.garble Yao.sgarble Yao.sevaluate].
        destruct Hin as (I1 & I2 & I3 & I4). unfold g_const_zero. rewrite I3. destruct (g_zero s) as [z|] eqn:Ez.
        + assert (E : ewire d (false, z) = z) by (unfold ewire, label; cbn; apply N.lxor_0_r).
          pose proof (SE (false, z)) as SE'. rewrite E in SE'. cbn [fst snd].
          destruct (IH (false, z) _ _ _ s t h b (SB _) (SG _) SE' ltac:(unfold in_step, consts_ok; rewrite Ez; auto) Hb)
            as (a & g' & x' & t' & new & R1 & R2 & R3 & E1 & E2 & E3 & E4 & HC).
          exists a, g', x', t', new. do 7 (split; [assumption|]). intros T k0 k1 k2 o HK.
          assert (E0 : g_blocks s = g_blocks s ++ []) by (symmetry; apply app_nil_r). rewrite (emit_1 _ _ _ E0). cbn [emit send_blocks bind].
          apply HC. exact HK.
        + set (z := draw_label (g_rng s)).
          assert (E : ewire d (false, fst z) = fst z) by (unfold ewire, label; cbn; apply N.lxor_0_r).
          pose proof (SE (false, fst z)) as SE'. rewrite E in SE'.
          cbn [fst snd g_constant add_block g_gate g_out g_rng g_blocks g_zero g_one]. fold z. set (s1 := mkGst _ _ _ _ _ _).
          set (t1 := mkEst (e_gate t) (e_out t) (e_circ t) (Some (fst z)) (e_one t)).
          assert (Hin' : in_step d s1 t1) by (unfold in_step, consts_ok, s1, t1; cbn; auto).
          assert (Eg : g_blocks s1 = g_blocks s ++ [fst z]) by (unfold s1; cbn; rewrite N.lxor_0_r; reflexivity).
          destruct (IH (false, fst z) _ _ _ s1 t1 (h ++ [fst z]) b (SB _) (SG _) SE' Hin' Hb)
            as (a & g' & x' & t' & new & R1 & R2 & R3 & E1 & E2 & E3 & E4 & HC).
          exists a, g', x', t', (fst z :: new). do 5 (split; [assumption|]).
          split; [etransitivity; [exact E3|]; rewrite Eg, <- app_assoc; reflexivity|]. split; [etransitivity; [exact E4|]; reflexivity|].
          intros T k0 k1 k2 o HK. rewrite (emit_1 _ _ _ Eg). cbn [emit send_blocks].
          unfold receive_block, send_to, send_many, recv_from, recv_many. cbn [bind].
          repeat step3 cap_pos. fold t1. apply HC. rewrite <- app_assoc. exact HK.
      - cbn [Garble.garble Yao.sgarble Yao.sevaluate].
        destruct Hin as (I1 & I2 & I3 & I4). unfold g_const_one. rewrite I4. destruct (g_one s) as [z|] eqn:Ez; cbn [option_map].
        + cbn [fst snd].
          destruct (IH (true, z) _ _ _ s t h b (SB _) (SG _) (SE _) ltac:(unfold in_step, consts_ok; rewrite Ez; auto) Hb)
            as (a & g' & x' & t' & new & R1 & R2 & R3 & E1 & E2 & E3 & E4 & HC).
          exists a, g', x', t', new. do 7 (split; [assumption|]). intros T k0 k1 k2 o HK.
          assert (E0 : g_blocks s = g_blocks s ++ []) by (symmetry; apply app_nil_r). rewrite (emit_1 _ _ _ E0). cbn [emit send_blocks bind].
          apply HC. exact HK.
        + set (z := draw_label (g_rng s)).
          cbn [fst snd g_constant add_block g_gate g_out g_rng g_blocks g_zero g_one]. fold z. set (s1 := mkGst _ _ _ _ _ _).
          set (t1 := mkEst (e_gate t) (e_out t) (e_circ t) (e_zero t) (Some (ewire d (true, fst z)))).
          assert (Hin' : in_step d s1 t1) by (unfold in_step, consts_ok, s1, t1; cbn; auto).
          assert (Eg : g_blocks s1 = g_blocks s ++ [ewire d (true, fst z)]) by reflexivity.
          destruct (IH (true, fst z) _ _ _ s1 t1 (h ++ [ewire d (true, fst z)]) b (SB _) (SG _) (SE _) Hin' Hb)
            as (a & g' & x' & t' & new & R1 & R2 & R3 & E1 & E2 & E3 & E4 & HC).
          exists a, g', x', t', (ewire d (true, fst z) :: new). do 5 (split; [assumption|]).
          split; [etransitivity; [exact E3|]; rewrite Eg, <- app_assoc; reflexivity|]. split; [etransitivity; [exact E4|]; reflexivity|].
          intros T k0 k1 k2 o HK. rewrite (emit_1 _ _ _ Eg). cbn [emit send_blocks].
          unfold receive_block, send_to, send_many, recv_from, recv_many. cbn [bind].
          repeat step3 cap_pos. fold t1. apply HC. rewrite <- app_assoc. exact HK.
    Qed.

    Lemma stream_outputs (ws : list wire) : forall (s : gst (S := S)) t h acc, in_step d s t -> decodable hash otweak d (g_out s) ws ->
      exists t' new, g_blocks (g_outputs hash otweak d s (map snd ws)) = g_blocks s ++ new /\
      forall T (k0 : list bool * (est * list N) -> prog T) k1 k2 o,
        comp3 (k0 (acc ++ map fst ws, (t', h ++ new))) (k1 (g_outputs hash otweak d s (map snd ws))) (k2 (g_outputs hash otweak d s (map snd ws)))
              [] [] [] [] [] [] o ->
        comp3 (bind (seoutputs (M := M) hash otweak t h acc (map (ewire d) ws)) k0)
              (bind (soutputs (M := M) hash otweak P1 d s (map snd ws)) k1)
              (bind (soutputs (M := M) hash otweak P2 d s (map snd ws)) k2) [] [] [] [] [] [] o.
    Proof.
      induction ws as [|w ws IH]; intros s t h acc Hin Hdec; cbn [map g_outputs fold_left seoutputs soutputs].
      - exists t, []. rewrite !app_nil_r. split; [reflexivity|]. intros T k0 k1 k2 o HC. exact HC.
      - destruct Hin as (I1 & I2 & I3 & I4).
        set (c0 := hash (snd w) (otweak (g_out s) false)). set (c1 := hash (N.lxor (snd w) d) (otweak (g_out s) true)).
        set (t1 := mkEst (e_gate t) (e_out t + 1) (e_circ t) (e_zero t) (e_one t)).
        assert (Hin' : in_step d (g_output hash otweak d s (snd w)) t1).
        { unfold in_step, consts_ok, t1. cbn. rewrite I2. auto. }
        assert (Hdec' : decodable hash otweak d (g_out (g_output hash otweak d s (snd w))) ws).
        { intros k w' Hk. specialize (Hdec (Datatypes.S k) w' Hk). cbn.
          replace (g_out s + 1 + N.of_nat k)%N with (g_out s + N.of_nat (Datatypes.S k))%N by lia. exact Hdec. }
        destruct (IH _ t1 (h ++ [c0; c1]) (acc ++ [fst w]) Hin' Hdec') as (t' & new & E3 & HC).
        unfold g_outputs in E3, HC.
        assert (Eg : g_blocks (g_output hash otweak d s (snd w)) = g_blocks s ++ [c0; c1]) by reflexivity.
        exists t', (c0 :: c1 :: new). split; [rewrite E3, Eg, <- app_assoc; reflexivity|].
        intros T k0 k1 k2 o HK. rewrite (emit_1 _ _ _ Eg). cbn [emit send_blocks].
        unfold receive_block, send_to, send_many, recv_from, recv_many. cbn [bind].
        assert (Ev : (if N.eqb (hash (ewire d w) (otweak (e_out t) false)) c0 then Ret false
              else if N.eqb (hash (ewire d w) (otweak (e_out t) true)) c1 then Ret true
              else Fail (Eyre "Output failed")) = Ret (P := pid) (M := M) (fst w)).
        { pose proof (Hdec 0%nat w eq_refl) as H0. rewrite N.add_0_r in H0. rewrite I2.
          unfold ewire, label, c0, c1. destruct (fst w); cbn [cmul].
          - destruct (N.eqb_spec (hash (N.lxor (snd w) d) (otweak (g_out s) false)) (hash (snd w) (otweak (g_out s) false))) as [E|E];
              [congruence|]. rewrite N.eqb_refl. reflexivity.
          - rewrite N.lxor_0_r, N.eqb_refl. reflexivity. }
        repeat step3 cap_pos. rewrite Ev. cbn [bind]. fold t1. apply HC. rewrite <- !app_assoc. exact HK.
    Qed.
  End Stream.

  Lemma stream_blocks (bs : list N) : forall acc T (k0 : unit -> prog T) k1 k2 o,
    comp3 (k0 tt) (k1 (acc ++ bs)) k2 [] [] [] [] [] [] o ->
    comp3 (bind (send_blocks P1 bs) k0) (bind (read_blocks (length bs) acc) k1) k2 [] [] [] [] [] [] o.
  Proof.
    induction bs as [|b bs IH]; intros acc T k0 k1 k2 o HC; cbn [send_blocks read_blocks length]; [rewrite app_nil_r in HC; exact HC|].
    unfold send_to, send_many, recv_from, recv_many. cbn [bind].
    apply send01; [cbn; exact cap_pos|]. cbn [app]. apply recv01. rewrite dec_enc. cbn [bind].
    apply IH. rewrite <- app_assoc. exact HC.
  Qed.

  Lemma sconvert_wp {A Ab O} (Rb : A -> Ab -> Prop) (Rg Re : A -> O -> Prop) (q : gprog wire A) qb qg qe b d delta st :
    color d = true -> knows_delta d delta -> synced st ->
    gsim fst Rb q qb -> gsim snd Rg q qg -> gsim (ewire d) Re q qe -> plain qb = Done b ->
    wp cap (fun i => sconvert (Seed := Seed) hash gtweak digest dg_eqb draw_label i (delta i) (match i with P0 => qe | _ => qg end) (st i))
      (fun r => exists a g x, Rb a b /\ Rg a g /\ Re a x /\
         forall i, r i = (match i with P0 => x | _ => g end, garbler_next st i)).
  Proof.
    intros Hd [D1 D2] Hs Sb Sg Se Hb.
    assert (I0 : in_step d (new_garbler (garbler_rng st)) (new_evaluator [])) by (repeat split).
    destruct (@stream d Hd _ _ _ _ Rb Rg Re q qb qg qe _ _ [] b Sb Sg Se I0 Hb) as (a & g & x & t' & new & Q1 & Q2 & Q3 & E1 & E2 & E3 & E4 & HC).
    exists (fun i => (match i with P0 => x | _ => g end, garbler_next st i)). split; [|exists a, g, x; auto].
    apply runs_comp3. unfold sconvert. rewrite D1, D2, (new_with_delta_1 (Seed := Seed) st), (new_with_delta_2 (Seed := Seed) Hs).
    cbn [bind fst snd]. apply HC. cbn [new_garbler g_blocks app] in E3. cbn [fst snd app].
    unfold receive_hash, send_hash, send_to, send_many, recv_from, recv_many. cbn [bind]. rewrite E3.
    pose proof (dg_refl dg_eqb dg_eqb_spec) as DR.
    repeat (step3 cap_pos; rewrite ?DR; cbn [bind]).
    apply comp3_ret_eq; reflexivity.
  Qed.

  Lemma soutput_01_wp (q : gprog wire (list wire)) qb qg qe b d delta st :
    color d = true -> knows_delta d delta -> synced st ->
    gsimf fst (map fst) q qb -> gsimf snd (map snd) q qg -> gsimf (ewire d) (map (ewire d)) q qe -> plain qb = Done b ->
    run_separated hash gtweak otweak draw_label d qg (garbler_rng st) ->
    wp cap (fun i => soutput_01 (Seed := Seed) hash gtweak otweak digest dg_eqb draw_label i (delta i) (match i with P0 => qe | _ => qg end) (st i))
      (fun r => forall i, r i = (match i with P2 => None | _ => Some b end, garbler_next st i)).
  Proof.
    intros Hd [D1 D2] Hs Sb Sg Se Hb Hsep.
    assert (I0 : in_step d (new_garbler (garbler_rng st)) (new_evaluator [])) by (repeat split).
    destruct (@stream d Hd _ _ _ _ _ _ _ q qb qg qe _ _ [] b Sb Sg Se I0 Hb) as (a & g & x & t' & new & Q1 & Q2 & Q3 & E1 & E2 & E3 & E4 & HC).
    subst b g x.
    assert (Hdec : decodable hash otweak d (g_out (snd (garble d qg (new_garbler (garbler_rng st))))) a).
    { intros k w Ew. rewrite E4. apply (Hsep _ E1). apply (map_nth_error snd k a Ew). }
    destruct (@stream_outputs d a _ t' ([] ++ new) [] E2 Hdec) as (t'' & new' & E5 & HO).
    exists (fun i => (match i with P2 => None | _ => Some (map fst a) end, garbler_next st i)). split; [|intros []; reflexivity].
    apply runs_comp3. unfold soutput_01. rewrite D1, D2, (new_with_delta_1 (Seed := Seed) st), (new_with_delta_2 (Seed := Seed) Hs).
    cbn [bind fst snd]. apply HC. cbn [fst snd]. apply HO. cbn [fst snd]. cbn [app] in *. rewrite E3 in E5. cbn [new_garbler g_blocks app] in E5.
    unfold receive_hash, send_hash, send_to, send_many, recv_from, recv_many. cbn [bind]. rewrite E5.
    pose proof (dg_refl dg_eqb dg_eqb_spec) as DR.
    step3 cap_pos. step3 cap_pos. rewrite DR. cbn [bind].
    pose proof (@g_decode_ok d Hd a) as Hdc. unfold g_decode_checked in Hdc. rewrite !map_length, Nat.eqb_refl in Hdc.
    replace (length (map snd a)) with (length (map (ewire d) a)) by (rewrite !map_length; reflexivity).
    apply stream_blocks. cbn [app]. rewrite Hdc. cbn [lift bind]. apply comp3_ret_eq; reflexivity.
  Qed.

  (** *** A garbler that sends another circuit *)
  Lemma tampered_circuit {A} (qe qg : gprog N A) d (delta : pid -> option N) st (c : list N) (x1 : A * rst S) g :
    knows_delta d delta -> synced st ->
    fst (garble d qg (new_garbler (garbler_rng st))) = Done g ->
    digest c <> digest (g_blocks (snd (garble d qg (new_garbler (garbler_rng st))))) ->
    wpo cap (fun i => match i with
        | P0 => convert (Seed := Seed) hash gtweak digest dg_eqb draw_label P0 None qe (st P0)
        | P1 => bind (send_many P0 c) (fun _ => Ret x1)
        | P2 => convert (Seed := Seed) hash gtweak digest dg_eqb draw_label P2 (delta P2) qg (st P2) end)
      (fun o => o P0 = Failed (Eyre "Inconsistent Garbled Circuits: Hashes do not match!")).
  Proof.
    intros [_ D2] Hs E1 Hne.
    exists (fun i => match i with P0 => Failed (Eyre "Inconsistent Garbled Circuits: Hashes do not match!")
        | P1 => Done x1 | P2 => Done (g, garbler_next st P2) end). split; [|reflexivity].
    apply runs_comp3. unfold convert. rewrite D2, (new_with_delta_2 (Seed := Seed) Hs).
    cbn [bind fst snd]. rewrite E1. cbn [garbled_circuits_error bind].
    unfold receive_circuit, send_circuit, send_to, send_many, recv_from, recv_many. cbn [bind].
    repeat (step3 cap_pos).
    assert (E : dg_eqb (digest (g_blocks (snd (garble d qg (new_garbler (garbler_rng st)))))) (digest c) = false).
    { destruct (dg_eqb _ (digest c)) eqn:E; [|reflexivity]. apply dg_eqb_spec in E. congruence. }
    rewrite E. cbn [bind].
    exact (comp3_leaf cap (fun i => match i with P0 => Failed (Eyre "Inconsistent Garbled Circuits: Hashes do not match!")
        | P1 => Done x1 | P2 => Done (g, garbler_next st P2) end)).
  Qed.

  (** *** The conversions with streaming *)
  Hypothesis p_odd : N.odd (fu_p (F := F)) = true.
  Notation B := (mbs F).
  Notation p := (fu_p (F := F)).
  Hypothesis width : (B + 2 <= W)%nat.
  Notation zero_labels := (zero_labels draw_label).
  Local Open Scope grp_scope.
  Lemma a2y_streaming_wp d delta st rg a (x : F) : color d = true -> knows_delta d delta -> synced st -> shares a x ->
    wp cap (fun i => a2y_streaming (Seed := Seed) W hash gtweak digest dg_eqb draw_label i (a i) (delta i) (st i) (rg i))
      (fun r => yao_shares d (fun i => fst (r i)) (field_to_bits x) /\ synced (fun i => fst (snd (r i)))).
  Proof.
    intros Hd HD Hs Ha. unfold a2y_streaming, joint_input_arithmetic_added.
    apply wp_bind. eapply wp_mono; [|exact (@joint_arith_wp _ _ _ _ _ _ draw_label cap cap_pos d delta (fun i => [a i]) rg 1 HD (fun i => eq_refl))].
    cbv beta. intros r Hr. rewrite Nat.mul_1_l in Hr.
    set (z1 := zero_labels B (rg P1)) in *. set (z2 := zero_labels B (rg P2)) in *.
    cbn [sums01 sums2 map fields_to_bits concat] in Hr. rewrite !app_nil_r in Hr.
    set (u := sa (a P1) + sb (a P1)) in *. set (v := sa (a P2)) in *.
    assert (L1 : length (field_to_bits u) = length (fst z1)) by (unfold z1; rewrite fbits_length, zero_labels_length; reflexivity).
    assert (L2 : length (field_to_bits v) = length (fst z2)) by (unfold z2; rewrite fbits_length, zero_labels_length; reflexivity).
    set (w1 := zipw (field_to_bits u) (fst z1)). set (w2 := zipw (field_to_bits v) (fst z2)).
    assert (Hx : u + v = x).
    { apply shares_elim in Ha; destruct Ha as (x0 & x1 & x2 & -> & E0 & E1 & E2). unfold u, v. rewrite E1, E2. cbn. grp. }
    apply wp_bind.
    eapply wp_ext; [|eapply wp_mono; [|eapply (@sconvert_wp _ _ _ _ _ _ (adder_mod_p W p w1 w2) _ _ _ _ d delta st Hd HD Hs);
       [apply (adder_mod_p_sim fst)|apply (adder_mod_p_sim snd)|apply (adder_mod_p_sim (ewire d))|]]].
    - intros i. rewrite (Hr i). unfold w1, w2, zipw. destruct i; cbn [fst snd];
        rewrite ?map_snd_zip, ?map_ewire_zip by assumption; reflexivity.
    - cbv beta. intros q (ws & g & y & E1 & E2 & E3 & Hq). apply wp_ret. cbn [fst snd]. split.
      + unfold yao_shares. rewrite !Hq. cbn [fst]. split; [reflexivity|]. rewrite E1, E2, E3, labels_split, !map_length. auto.
      + eapply synced_ext; [|exact (garbler_next_synced (Seed := Seed) Hs)]. intros i. rewrite (Hq i). reflexivity.
    - unfold w1, w2, zipw. rewrite !map_fst_zip by assumption.
      assert (Ea : plain (adder_mod_p W p (field_to_bits u) (field_to_bits v)) = Done (field_to_bits (u + v))) by (eapply adder_one; eassumption).
      rewrite Ea, Hx. reflexivity.
  Qed.
  Lemma y2a_streaming_wp d delta st rg w bs : color d = true -> knows_delta d delta -> synced st -> yao_shares d w bs -> felt p bs ->
    run_separated hash gtweak otweak draw_label d (y2a_wires (F := F) W draw_label (w P1) rg) (garbler_rng st) ->
    wp cap (fun i => y2a_streaming (F := F) (Seed := Seed) W hash gtweak otweak digest dg_eqb draw_label i (w i) (delta i) (st i) (rg i))
      (fun r => shares (fun i => fst (r i)) (of_uint (bval bs)) /\ synced (fun i => fst (snd (r i)))).
  Proof.
    unfold y2a_streaming. eapply (@y2a_gen F _ _ S M W DF Seed SS DS EN hash gtweak otweak draw_label cap cap_pos p_odd width
      (soutput_01 (Seed := Seed) hash gtweak otweak digest dg_eqb draw_label) garbler_next).
    - intros st' Hs'. exact (garbler_next_synced (Seed := Seed) Hs').
    - intros. eapply soutput_01_wp; eauto.
  Qed.
  Hypothesis delta_odd : forall s, color (fst (draw_delta s)) = true.
  Lemma a2y2b_streaming_wp st rg a (x : F) : synced st -> shares a x ->
    wp cap (fun i => a2y2b_streaming (Seed := Seed) W du hash gtweak digest dg_eqb draw_label draw_delta i (a i) (st i) (rg i))
      (fun r => shares (fun i => fst (r i)) (to_uint x) /\ synced (fun i => fst (snd (r i)))).
  Proof.
    intros Hs Ha. unfold a2y2b_streaming. destruct (garbler_delta_ok draw_delta Hs) as [HD Hs'].
    apply wp_bind. eapply wp_mono; [|exact (@a2y_streaming_wp _ _ _ rg a x (delta_odd _) HD Hs' Ha)].
    cbv beta. intros y [Hy Sy]. apply wp_bind.
    eapply wp_mono; [|eapply (@y2b_wp S M W du EN cap cap_pos _ _ _ _ (delta_odd _) Sy Hy); rewrite fbits_length; lia].
    cbv beta. intros r [Hr Sr]. apply wp_ret. cbn [fst snd]. rewrite fbits_bval in Hr. auto.
  Qed.
  Lemma b2y2a_streaming_wp st rg a (u : N) : synced st -> shares a u -> (u < p)%N ->
    b2y2a_sep (F := F) (Seed := Seed) W hash gtweak otweak draw_label draw_delta st rg ->
    wp cap (fun i => b2y2a_streaming (Seed := Seed) W hash gtweak otweak digest dg_eqb draw_label draw_delta i (a i) (st i) (rg i))
      (fun r => shares (fun i => fst (r i)) (of_uint (F := F) u) /\ synced (fun i => fst (snd (r i)))).
  Proof.
    intros Hs Ha Hu Hsep. unfold b2y2a_streaming. destruct (garbler_delta_ok draw_delta Hs) as [HD Hs'].
    apply wp_bind. eapply wp_mono; [|eapply (@b2y_wp F _ _ S M Seed SS DS EN hash gtweak draw_label cap cap_pos _ _ _ rg a u HD Hs' Ha)].
    cbv beta. intros y (Hy & E1 & E2).
    rewrite <- (bval_bits (F := F) Hu).
    pose proof (@y2a_streaming_wp _ _ (garbler_next (fun i => snd (garbler_delta draw_delta i (st i)))) (b2y_rng (F := F) draw_label rg)
       _ _ (delta_odd _) HD (garbler_next_synced (Seed := Seed) Hs') Hy (felt_bits (F := F) Hu)) as K.
    cbv beta in K. rewrite E1 in K. eapply wp_ext; [|exact (K Hsep)].
    intros i. rewrite (E2 i). reflexivity.
  Qed.

  (** ** The selectors *)
  Context {ENN : Enc M (list (N * N))}.
  Lemma a2b_selector_wp t st rg a (x : F) : synced st -> shares a x ->
    wp cap (fun i => a2b_selector (Seed := Seed) W du hash gtweak digest dg_eqb draw_label draw_delta t i (a i) (st i) (rg i))
      (fun r => shares (fun i => fst (r i)) (to_uint x) /\ synced (fun i => fst (snd (r i)))).
  Proof.
    intros Hs Ha. destruct t; unfold a2b_selector.
    - apply wp_bind. eapply wp_mono; [|exact (@a2b_wp F _ _ S M W du _ _ cap cap_pos width st a x Hs Ha)].
      cbv beta. intros r [K1 K2]. apply wp_ret. split; [exact K1|exact K2].
    - exact (@a2y2b_wp F _ _ S M W du Seed SS DS EN hash gtweak Dg ED digest dg_eqb draw_label draw_delta dg_eqb_spec cap cap_pos p_odd width delta_odd st rg a x Hs Ha).
  Qed.
  Lemma b2a_selector_wp t st rg a (u : N) : synced st -> shares a u -> (u < fu_p (F := F))%N ->
    (t = Yao -> b2y2a_sep (F := F) (Seed := Seed) W hash gtweak otweak draw_label draw_delta st rg) ->
    wp cap (fun i => b2a_selector (Seed := Seed) W du hash gtweak otweak digest dg_eqb draw_label draw_delta t i (a i) (st i) (rg i))
      (fun r => shares (fun i => fst (r i)) (of_uint (F := F) u) /\ synced (fun i => fst (snd (r i)))).
  Proof.
    intros Hs Ha Hu Hsep. destruct t; unfold b2a_selector.
    - apply wp_bind. eapply wp_mono; [|exact (@b2a_wp F _ _ S M W du _ _ _ cap cap_pos width st a u Hs Ha Hu)].
      cbv beta. intros r [K1 K2]. apply wp_ret. split; [exact K1|exact K2].
    - exact (@b2y2a_wp F _ _ S M W _ Seed SS DS EN hash gtweak otweak Dg ED digest dg_eqb draw_label draw_delta dg_eqb_spec cap cap_pos p_odd width delta_odd st rg a u Hs Ha Hu (Hsep eq_refl)).
  Qed.
End YaoStream.
