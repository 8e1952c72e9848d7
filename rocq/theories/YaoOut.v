(** * Three-party garbled circuits: outputs, Yao to arithmetic, the blueprint *)
From Coq Require Import String List Arith NArith Lia Bool Btauto.
From Verif Require Import Proc Alg Rep3Net Rep3 Rep3Spec Rep3Proofs Rep3Wp Uint Binary BinaryWp Conv ConvWp
  Garble Circuits CircuitsSim CircuitsOk CircuitsArith CircuitsMod CircuitsFun Garbled Yao YaoSpec YaoWp.
Import ListNotations.
Set Implicit Arguments.
Local Open Scope grp_scope.

(** A circuit on three bundles does not look into wires. *)
Definition natural3 (C : circuit3) : Prop :=
  forall (X1 X2 : Type) (f : X1 -> X2) a b c, gsimf f (map f) (C X1 a b c) (C X2 (map f a) (map f b) (map f c)).

Section YaoOut.
  Context {F : Type} `{FU : FieldUint F} {S M : Type} (W : nat) (du : nat -> S -> N * S) {DF : Draw S F}.
  Context {Seed : Type} {SS : Seeded S Seed} {DS : Draw S Seed}.
  Context {EN : Enc M (list N)}.
  Variables (hash : N -> N -> N) (gtweak : N -> N) (otweak : N -> bool -> N).
  Context {Dg : Type} {ED : Enc M (list Dg)}.
  Variables (digest : list N -> Dg) (dg_eqb : Dg -> Dg -> bool).
  Variables (draw_label draw_delta : S -> N * S).
  Hypothesis dg_eqb_spec : forall x y, dg_eqb x y = true <-> x = y.
  Context (cap : nat) (cap_pos : (1 <= cap)%nat).
  Hypothesis p_odd : N.odd (fu_p (F := F)) = true.
  Notation prog := (prog pid M).
  Notation B := (mbs F).
  Notation p := (fu_p (F := F)).
  Hypothesis width : (B + 2 <= W)%nat.
  Notation zero_labels := (zero_labels draw_label).
  Notation garbler_rng := (garbler_rng (S := S) (Seed := Seed)).
  Notation garbler_next := (garbler_next (S := S) (Seed := Seed)).
  Implicit Types (st : pid -> rst S).

  (** the output labels of a run tell their two values apart *)
  Definition run_separated (d : N) (pg : gprog N (list N)) (rng : S) : Prop :=
    forall g, fst (garble hash gtweak draw_label d pg (new_garbler rng)) = Done g -> separated hash otweak d g.

  Lemma output_01_wp (q : gprog wire (list wire)) qb qg qe b d delta st :
    color d = true -> knows_delta d delta -> synced st ->
    gsimf fst (map fst) q qb -> gsimf snd (map snd) q qg -> gsimf (ewire d) (map (ewire d)) q qe -> plain qb = Done b ->
    run_separated d qg (garbler_rng st) ->
    wp cap (fun i => output_01 (Seed := Seed) hash gtweak otweak digest dg_eqb draw_label i (delta i) (match i with P0 => qe | _ => qg end) (st i))
      (fun r => forall i, r i = (match i with P2 => None | _ => Some b end, garbler_next st i)).
  Proof.
    intros Hd [D1 D2] Hs Sb Sg Se Hb Hsep.
    destruct (garble_eval_out hash gtweak otweak draw_label Hd (garbler_rng st) Sb Sg Se Hb) as (g & t & t' & E1 & Lg & E2 & E3).
    destruct (E2 (Hsep g E1)) as [E4 E5].
    exists (fun i => (match i with P2 => None | _ => Some b end, garbler_next st i)). split; [|intros []; reflexivity].
    apply runs_comp3. unfold output_01. rewrite D1, D2, (new_with_delta_1 (Seed := Seed) st), (new_with_delta_2 (Seed := Seed) Hs).
    cbn [bind fst snd]. rewrite E1. cbn [garbled_circuits_error bind].
    unfold receive_circuit, send_circuit, send_to, send_many, recv_from, recv_many. cbn [bind].
    pose proof (dg_refl dg_eqb dg_eqb_spec) as DR.
    repeat (step3 cap_pos; rewrite ?DR; cbn [bind]; rewrite ?E4; cbn [garbled_circuits_error bind fst snd]; rewrite ?E5, ?E3; cbn [lift bind fst snd]).
    apply comp3_ret_eq; reflexivity.
  Qed.

  Lemma output_all_wp (q : gprog wire (list wire)) qb qg qe b d delta st :
    color d = true -> knows_delta d delta -> synced st ->
    gsimf fst (map fst) q qb -> gsimf snd (map snd) q qg -> gsimf (ewire d) (map (ewire d)) q qe -> plain qb = Done b ->
    run_separated d qg (garbler_rng st) ->
    wp cap (fun i => output_all (Seed := Seed) hash gtweak otweak digest dg_eqb draw_label i (delta i) (match i with P0 => qe | _ => qg end) (st i))
      (fun r => forall i, r i = (b, garbler_next st i)).
  Proof.
    intros Hd [D1 D2] Hs Sb Sg Se Hb Hsep.
    destruct (garble_eval_out hash gtweak otweak draw_label Hd (garbler_rng st) Sb Sg Se Hb) as (g & t & t' & E1 & Lg & E2 & E3).
    destruct (E2 (Hsep g E1)) as [E4 E5].
    exists (fun i => (b, garbler_next st i)). split; [|intros []; reflexivity].
    apply runs_comp3. unfold output_all. rewrite D1, D2, (new_with_delta_1 (Seed := Seed) st), (new_with_delta_2 (Seed := Seed) Hs).
    cbn [bind fst snd]. rewrite E1. cbn [garbled_circuits_error bind].
    unfold receive_circuit, send_circuit, send_both_many, send_to, send_many, recv_from, recv_many. cbn [bind next prev].
    pose proof (dg_refl dg_eqb dg_eqb_spec) as DR.
    repeat (step3 cap_pos; rewrite ?DR; cbn [bind]; rewrite ?E4; cbn [garbled_circuits_error bind fst snd]; rewrite ?E5, ?E3; cbn [lift bind fst snd]).
    apply comp3_ret_eq; reflexivity.
  Qed.

  (** *** Masks of the outputs *)
  (** what each party knows of an output before the circuit runs *)
  Definition pre_share (i : pid) (k2 k3 : F) : share F :=
    match i with P0 => mkShare 0 (- k3) | P1 => mkShare (- k2) 0 | P2 => mkShare (- k3) (- k2) end.
  Lemma output_keys_wp st : synced st -> wp (M := M) cap (fun i => output_keys i (st i))
    (fun r => exists k2 k3, (forall i, fst (r i) = (pre_share i k2 k3, match i with P2 => k2 + k3 | _ => 0 end)) /\
       (forall i, rng1 (snd (r i)) = rng1 (st i)) /\ synced (fun i => snd (r i))).
  Proof.
    intros Hs. destruct (three_keys_bc1 (X := F) Hs) as (x0 & x1 & x2 & b1 & b2 & E1 & E2 & K1).
    destruct (three_keys_bc2 (X := F) Hs) as (y0 & y1 & y2 & c0 & c2 & G0 & G2 & _).
    set (k2 := x0 + x1 + x2). set (k3 := y0 + y1 + y2).
    exists (fun i => match i with
       | P0 => ((mkShare 0 (- k3), 0), set_bc2 (st P0) c0)
       | P1 => ((mkShare (- k2) 0, 0), set_bc1 (st P1) b1)
       | P2 => ((mkShare (- k3) (- k2), k2 + k3), set_bc2 (set_bc1 (st P2) b2) c2) end). split.
    - apply runs_comp3. unfold output_keys. rewrite E1, E2, G0, G2. cbn [fst snd key_sum].
      apply comp3_ret_eq; cbn [fst snd key_sum]; unfold key_sum, k2, k3; cbn [fst snd].
      + replace (y0 + y1 + y2) with (y0 + y1 + y2) by grp. reflexivity.
      + replace (x1 + x2 + x0) with (x0 + x1 + x2) by grp. reflexivity.
      + replace (y2 + y0 + y1) with (y0 + y1 + y2) by grp. replace (x2 + x0 + x1) with (x0 + x1 + x2) by grp. reflexivity.
    - exists k2, k3. split; [intros []; reflexivity|]. split; [intros []; reflexivity|].
      set (st1 := fun i => match i with P0 => st P0 | P1 => set_bc1 (st P1) b1 | P2 => set_bc1 (st P2) b2 end).
      assert (Hs1 : synced st1) by (apply K1; intros; try (destruct i); reflexivity).
      destruct (three_keys_bc2 (X := F) Hs1) as (y0' & y1' & y2' & c0' & c2' & G0' & G2' & K2).
      cbn in G0', G2'. rewrite G0 in G0'. rewrite G2 in G2'. injection G0' as <- <- <- <-. injection G2' as <-.
      apply K2; intros; try (destruct i); reflexivity.
  Qed.
  Lemma output_keys_many_wp n : forall st, synced st -> wp (M := M) cap (fun i => output_keys_many n i (st i))
    (fun r => exists l : list (F * F), length l = n /\
       (forall i, map fst (fst (r i)) = map (fun k => pre_share i (fst k) (snd k)) l) /\
       map snd (fst (r P2)) = map (fun k => fst k + snd k) l /\
       (forall i, rng1 (snd (r i)) = rng1 (st i)) /\ synced (fun i => snd (r i))).
  Proof.
    induction n as [|n IH]; intros st Hs; cbn [output_keys_many].
    - apply wp_ret. exists []. repeat split; auto; apply Hs.
    - apply wp_bind. eapply wp_mono; [|exact (output_keys_wp Hs)]. cbv beta. intros r (k2 & k3 & E & ER & Hs').
      apply wp_bind. eapply wp_mono; [|exact (IH _ Hs')]. cbv beta. intros q (l & Ll & Eq & Eq2 & ER' & Hs'').
      apply wp_ret. cbn [fst snd]. exists ((k2, k3) :: l). cbn [length map fst snd]. split; [congruence|].
      split; [intros i; rewrite (Eq i), (E i); reflexivity|]. split; [rewrite Eq2, (E P2); reflexivity|].
      split; [intros i; rewrite ER', ER; reflexivity|]. exact Hs''.
  Qed.

  Lemma bits_to_field_ok (x : F) : bits_to_field (M := M) W (field_to_bits x) = Ret x.
  Proof.
    clear cap_pos p_odd. unfold bits_to_field. rewrite skipn_all2 by (rewrite fbits_length; lia). cbn [existsb].
    rewrite firstn_all2 by (rewrite fbits_length; lia). rewrite bits_to_uint_bval by (rewrite fbits_length; lia).
    rewrite fbits_bval. destruct (N.leb_spec (fu_p (F := F)) (to_uint x)) as [L|L]; [pose proof (to_uint_lt x); lia|].
    rewrite of_to_uint. reflexivity.
  Qed.
  Lemma set_values_eq i (vs : list F) : forall res, (length vs <= length res)%nat ->
    set_values (M := M) W i res (map field_to_bits vs) = Ret (map2 (set_value i) res vs ++ skipn (length vs) res).
  Proof.
    clear cap_pos p_odd. induction vs as [|v vs IH]; intros [|r res] L; cbn in L; try lia; try reflexivity.
    cbn [map set_values map2 skipn length app]. rewrite bits_to_field_ok. cbn [bind]. rewrite IH by lia. reflexivity.
  Qed.

  (** the masked value completes the sharing *)
  Lemma set_value_shares k2 k3 (v : F) (a : pid -> share F) :
    (forall i, a i = match i with P2 => pre_share P2 k2 k3 | _ => set_value i (pre_share i k2 k3) (v + (k2 + k3)) end) -> shares a v.
  Proof.
    intros Ea. apply (@shares_intro _ _ a (v + (k2 + k3)) (- k2) (- k3) v); try (rewrite Ea; reflexivity). grp.
  Qed.
  (** without it the parties hold a sharing of minus the masks *)
  Lemma pre_share_shares k2 k3 (a : pid -> share F) :
    (forall i, a i = pre_share i k2 k3) -> shares a (- (k2 + k3)).
  Proof.
    intros Ea. apply (@shares_intro _ _ a 0 (- k2) (- k3)); try (rewrite Ea; reflexivity). grp.
  Qed.

  Lemma outputs_vec (vs : list F) : forall (l : list (F * F)) (a : pid -> list (share F)), (length vs <= length l)%nat ->
    (forall i, a i = match i with
        | P2 => map (fun k => pre_share P2 (fst k) (snd k)) l
        | _ => map2 (set_value i) (map (fun k => pre_share i (fst k) (snd k)) l) (map2 gadd vs (map (fun k => fst k + snd k) l))
                 ++ skipn (length vs) (map (fun k => pre_share i (fst k) (snd k)) l) end) ->
    shares_vec a (vs ++ map (fun k => - (fst k + snd k)) (skipn (length vs) l)).
  Proof.
    clear cap_pos p_odd width. induction vs as [|v vs IH]; intros l a L Ea.
    - cbn [length skipn app map map2] in *. revert a Ea. induction l as [|k l IHl]; intros a Ea.
      + apply pvec_nil. intros i. rewrite (Ea i). destruct i; reflexivity.
      + cbn [map]. eapply (@pvec_cons _ _ _ (fun i => pre_share i (fst k) (snd k)) _ (fun i => map (fun k => pre_share i (fst k) (snd k)) l)).
        * intros i. rewrite (Ea i). destruct i; reflexivity.
        * apply pre_share_shares with (k2 := fst k) (k3 := snd k). reflexivity.
        * apply IHl; [cbn in *; lia|]. intros i. destruct i; destruct l; reflexivity.
    - destruct l as [|k l]; [cbn in L; lia|]. cbn [length skipn app map map2] in *.
      eapply (@pvec_cons _ _ _ (fun i => match i with P2 => pre_share P2 (fst k) (snd k)
           | _ => set_value i (pre_share i (fst k) (snd k)) (v + (fst k + snd k)) end) _
         (fun i => match i with
        | P2 => map (fun k => pre_share P2 (fst k) (snd k)) l
        | _ => map2 (set_value i) (map (fun k => pre_share i (fst k) (snd k)) l) (map2 gadd vs (map (fun k => fst k + snd k) l))
                 ++ skipn (length vs) (map (fun k => pre_share i (fst k) (snd k)) l) end)).
      + intros i. rewrite (Ea i). destruct i; reflexivity.
      + apply set_value_shares with (k2 := fst k) (k3 := snd k). intros []; reflexivity.
      + apply IH; [lia|]. intros []; reflexivity.
  Qed.

  Hypothesis delta_odd : forall s, color (fst (draw_delta s)) = true.

  (** The circuit [C] on the summands [us], [vs] adds the results [outs] to the masks. *)
  Definition masks_outputs (C : circuit3) (us vs outs : list F) (m : nat) : Prop :=
    forall ks : list F, length ks = m ->
      plain (C bool (fields_to_bits us) (fields_to_bits vs) (fields_to_bits ks)) = Done (fields_to_bits (map2 gadd outs ks)).

  (** the zero labels of a blueprint with [n] inputs and [m] outputs *)
  Definition blueprint_wires (C : circuit3) (n m : nat) (rg : pid -> S) : gprog N (list N) :=
    C N (fst (zero_labels (n * B) (rg P1))) (fst (zero_labels (n * B) (rg P2)))
        (fst (zero_labels (m * B) (snd (zero_labels (n * B) (rg P2))))).
  Definition blueprint_rng st : S := from_seed (fst (draw (X := Seed) (snd (draw_delta (rng1 (st P1)))))).

  Lemma blueprint_wp C m st rg a xs outs : natural3 C -> synced st -> shares_vec a xs -> (length outs <= m)%nat ->
    masks_outputs C (sums01 a) (sums2 a) outs m ->
    run_separated (delta_of draw_delta st) (blueprint_wires C (length xs) m rg) (blueprint_rng st) ->
    wp cap (fun i => blueprint (Seed := Seed) W hash gtweak otweak digest dg_eqb draw_label draw_delta C m i (a i) (st i) (rg i))
      (fun r => exists ks : list F, length ks = m /\
         shares_vec (fun i => fst (r i)) (outs ++ map (fun k => - k) (skipn (length outs) ks)) /\ synced (fun i => fst (snd (r i)))).
  Proof.
    intros HC Hs Ha Lo Hp Hsep. unfold blueprint. destruct (garbler_delta_ok draw_delta Hs) as [HD Hs'].
    set (d := delta_of draw_delta st) in *. assert (Hd : color d = true) by apply delta_odd.
    assert (La : forall i, length (a i) = length xs) by (intros i; apply (pvec_len i Ha)).
    apply wp_bind. eapply wp_mono; [|exact (@joint_arith_wp _ _ _ _ _ _ draw_label cap cap_pos d _ a rg (length xs) HD La)].
    cbv beta. intros x012 Hx. set (n := length xs) in *.
    set (z1 := zero_labels (n * B) (rg P1)) in *. set (z2 := zero_labels (n * B) (rg P2)) in *.
    apply wp_bind. eapply wp_mono; [|exact (output_keys_many_wp m Hs')].
    cbv beta. intros k (l & Ll & Ek & Ek2 & ER & Hsk). set (ks := map (fun k : F * F => fst k + snd k) l) in *.
    assert (Lks : length ks = m) by (unfold ks; rewrite map_length; exact Ll).
    set (rg' := fun i => snd (x012 i)).
    apply wp_bind. eapply wp_ext; [|eapply wp_mono; [|exact (@input_id2_wp _ _ _ _ _ _ draw_label cap cap_pos d
        (fun i => fst (garbler_delta draw_delta i (st i))) ks m rg' (proj2 HD) Lks)]].
    { intros i. rewrite <- Ek2. destruct i; reflexivity. }
    cbv beta. intros x23 H23. unfold rg' in H23. rewrite (Hx P0), (Hx P1), (Hx P2) in H23. cbn [snd] in H23.
    set (z3 := zero_labels (m * B) (snd z2)) in *.
    assert (L1 : length (fields_to_bits (sums01 a)) = length (fst z1)).
    { unfold z1, sums01. rewrite fields_length, map_length, zero_labels_length, La. reflexivity. }
    assert (L2 : length (fields_to_bits (sums2 a)) = length (fst z2)).
    { unfold z2, sums2. rewrite fields_length, map_length, zero_labels_length, La. reflexivity. }
    assert (L3 : length (fields_to_bits ks) = length (fst z3)).
    { unfold z3. rewrite fields_length, zero_labels_length, Lks. reflexivity. }
    set (w1 := zipw (fields_to_bits (sums01 a)) (fst z1)). set (w2 := zipw (fields_to_bits (sums2 a)) (fst z2)).
    set (w3 := zipw (fields_to_bits ks) (fst z3)).
    apply wp_bind.
    eapply wp_ext; [|eapply wp_mono; [|eapply (@output_01_wp (C _ w1 w2 w3) _ _ _ _ d _ _ Hd HD Hsk);
       [apply (HC _ _ fst)|apply (HC _ _ snd)|apply (HC _ _ (ewire d))| |]]].
    - intros i. rewrite (Hx i), (H23 i). unfold w1, w2, w3, zipw. destruct i; cbn [fst snd];
        rewrite ?map_snd_zip, ?map_ewire_zip by assumption; reflexivity.
    - cbv beta. intros r Hr.
      assert (Ed : forall i, decode (M := M) W i (map fst (fst (k i))) (fst (r i)) =
        Ret (match i with P2 => map (fun k => pre_share P2 (fst k) (snd k)) l
             | _ => map2 (set_value i) (map (fun k => pre_share i (fst k) (snd k)) l) (map2 gadd outs ks)
                    ++ skipn (length outs) (map (fun k => pre_share i (fst k) (snd k)) l) end)).
      { intros i. rewrite (Hr i), (Ek i). destruct i; cbn [fst decode]; [| |reflexivity].
        all: unfold mbs; rewrite chunks_fbits.
        all: assert (Lm : length (map2 gadd outs ks) = length outs) by (rewrite map2_length; lia).
        all: rewrite set_values_eq by (rewrite Lm, map_length, Ll; exact Lo); rewrite Lm; reflexivity. }
      apply wp_bind. eapply wp_ext; [intros i; apply (Ed i)|]. apply wp_ret. cbv beta. apply wp_ret. cbn [fst snd].
      exists ks. split; [exact Lks|]. split.
      + unfold ks. rewrite skipn_map, map_map. apply outputs_vec; [lia|]. intros i. destruct i; reflexivity.
      + eapply synced_ext; [|exact (garbler_next_synced (Seed := Seed) Hsk)]. intros i. rewrite (Hr i). reflexivity.
    - unfold w1, w2, w3, zipw. rewrite !map_fst_zip by assumption. apply Hp. exact Lks.
    - unfold w1, w2, w3, zipw. rewrite !map_snd_zip by assumption.
      assert (Eg : garbler_rng (fun i => snd (k i)) = blueprint_rng st).
      { unfold YaoWp.garbler_rng, blueprint_rng. rewrite ER. reflexivity. }
      rewrite Eg. exact Hsep.
  Qed.

  Lemma felt_of_uint bs : felt p bs -> field_to_bits (of_uint (F := F) (bval bs)) = bs.
  Proof.
    clear cap_pos width. intros [L V]. apply bval_inj.
    - rewrite fbits_length, L. reflexivity.
    - rewrite fbits_bval, to_of_uint by exact V. reflexivity.
  Qed.

  (** *** Yao to arithmetic *)
  Definition y2a_wires (w : list N) (rg : pid -> S) : gprog N (list N) :=
    adder_mod_p W p w (fst (zero_labels B (rg P2))).
  Lemma y2a_gen out (Ko : (pid -> rst S) -> pid -> rst S) :
    (forall st, synced st -> synced (Ko st)) ->
    (forall (q : gprog wire (list wire)) qb qg qe b d delta st,
       color d = true -> knows_delta d delta -> synced st ->
       gsimf fst (map fst) q qb -> gsimf snd (map snd) q qg -> gsimf (ewire d) (map (ewire d)) q qe -> plain qb = Done b ->
       run_separated d qg (garbler_rng st) ->
       wp cap (fun i => out i (delta i) (match i with P0 => qe | _ => qg end) (st i))
         (fun r => forall i, r i = (match i with P2 => None | _ => Some b end, Ko st i))) ->
    forall d delta st rg w bs, color d = true -> knows_delta d delta -> synced st -> yao_shares d w bs -> felt p bs ->
    run_separated d (y2a_wires (w P1) rg) (garbler_rng st) ->
    wp cap (fun i => y2a_with W draw_label out i (w i) (delta i) (st i) (rg i))
      (fun r => shares (fun i => fst (r i)) (of_uint (bval bs)) /\ synced (fun i => fst (snd (r i)))).
  Proof.
    intros HK Hout d delta st rg w bs Hd HD Hs (E12 & Lw & E0) Hbs Hsep.
    eapply wp_ext with (qs := fun i => k <- output_keys (F := F) i (st i) ;;
        x23 <- input_field_id2 draw_label i (match i with P2 => Some (snd (fst k)) | _ => None end)
                 (match i with P2 => delta P2 | _ => None end) (rg i) ;;
        r <- out i (delta i) (adder_mod_p W fu_p (w i) (fst x23)) (snd k) ;;
        res <- match fst r with
               | Some bits => v <- bits_to_field W bits ;; Ret (set_value i (fst (fst k)) v)
               | None => Ret (fst (fst k))
               end ;;
        Ret (res, (snd r, snd x23))).
    { destruct HD as [D1 D2]. intros i; destruct i; unfold y2a_with; rewrite ?D1, ?D2; reflexivity. }
    apply wp_bind. eapply wp_mono; [|exact (output_keys_wp Hs)]. cbv beta. intros k (k2 & k3 & Ek & ER & Hsk).
    unfold input_field_id2.
    apply wp_bind. eapply wp_ext; [|eapply wp_mono; [|exact (@input_id2_wp _ _ _ _ _ _ draw_label cap cap_pos d
        (fun i => match i with P2 => delta P2 | _ => None end) [k2 + k3] 1 rg (proj2 HD) eq_refl)]].
    { intros i. rewrite (Ek i). destruct i; reflexivity. }
    cbv beta. intros x23 H23. rewrite Nat.mul_1_l in H23. cbn [fields_to_bits map concat] in H23. rewrite app_nil_r in H23.
    set (z := zero_labels B (rg P2)) in *.
    set (x := of_uint (F := F) (bval bs)). assert (Ebs : field_to_bits x = bs) by (apply felt_of_uint; exact Hbs).
    assert (L1 : length bs = length (w P1)) by congruence.
    assert (L2 : length (field_to_bits (k2 + k3)) = length (fst z)) by (unfold z; rewrite fbits_length, zero_labels_length; reflexivity).
    set (w1 := zipw bs (w P1)). set (w2 := zipw (field_to_bits (k2 + k3)) (fst z)).
    apply wp_bind.
    eapply wp_ext; [|eapply wp_mono; [|eapply (@Hout (adder_mod_p W p w1 w2) _ _ _ _ d _ _ Hd HD Hsk);
       [apply adder_mod_p_sim; auto|apply adder_mod_p_sim; auto|apply adder_mod_p_sim; auto| |]]].
    - intros i. rewrite (H23 i). unfold w1, w2, zipw. destruct i; cbn [fst snd].
      + rewrite !map_ewire_zip by assumption. rewrite E0. reflexivity.
      + rewrite !map_snd_zip by assumption. reflexivity.
      + rewrite !map_snd_zip by assumption. rewrite E12. reflexivity.
    - cbv beta. intros r Hr.
      eapply wp_ext with (qs := fun i => Ret (match i with P2 => pre_share P2 k2 k3 | _ => set_value i (pre_share i k2 k3) (x + (k2 + k3)) end,
         (Ko (fun i => snd (k i)) i, snd (x23 i)))).
      { intros i. rewrite (Hr i), (Ek i). destruct i; cbn [fst snd bind]; rewrite ?bits_to_field_ok; reflexivity. }
      apply wp_ret. cbn [fst snd]. split.
      + apply set_value_shares with (k2 := k2) (k3 := k3). intros []; reflexivity.
      + apply HK. exact Hsk.
    - unfold w1, w2, zipw. rewrite !map_fst_zip by assumption. rewrite <- Ebs. eapply adder_one; eassumption.
    - unfold w1, w2, zipw. rewrite !map_snd_zip by assumption.
      assert (Eg : garbler_rng (fun i => snd (k i)) = garbler_rng st) by (unfold YaoWp.garbler_rng; rewrite ER; reflexivity).
      rewrite Eg. exact Hsep.
  Qed.
  Lemma y2a_wp d delta st rg w bs : color d = true -> knows_delta d delta -> synced st -> yao_shares d w bs -> felt p bs ->
    run_separated d (y2a_wires (w P1) rg) (garbler_rng st) ->
    wp cap (fun i => y2a (Seed := Seed) W hash gtweak otweak digest dg_eqb draw_label i (w i) (delta i) (st i) (rg i))
      (fun r => shares (fun i => fst (r i)) (of_uint (bval bs)) /\ synced (fun i => fst (snd (r i)))).
  Proof.
    unfold y2a. apply y2a_gen with (Ko := garbler_next).
    - intros st' Hs'. exact (garbler_next_synced (Seed := Seed) Hs').
    - intros. eapply output_01_wp; eauto.
  Qed.

  (** *** Binary to Yao *)
  Lemma garble_bind (d : N) {A A'} (q : gprog N A) (k : A -> gprog N A') : forall g a g',
    garble hash gtweak draw_label d q g = (Done a, g') ->
    garble hash gtweak draw_label d (gbind q k) g = garble hash gtweak draw_label d (k a) g'.
  Proof.
    induction q as [|e|x y q IH|x y q IH|x q IH|q IH|q IH]; intros g a' g' E; cbn [gbind garble] in *; try (apply IH; exact E); congruence.
  Qed.
  Lemma evaluate_bind {A A'} (q : gprog N A) (k : A -> gprog N A') : forall e a e',
    evaluate hash gtweak q e = Done (a, e') -> evaluate hash gtweak (gbind q k) e = evaluate hash gtweak (k a) e'.
  Proof.
    induction q as [|e|x y q IH|x y q IH|x q IH|q IH|q IH]; intros g a' g' E; cbn [gbind evaluate] in *; try (apply IH; exact E); try congruence.
    - destruct (e_and hash gtweak g x y); [apply IH; exact E|discriminate E].
    - destruct (e_const_zero g); [apply IH; exact E|discriminate E].
    - destruct (e_const_one g); [apply IH; exact E|discriminate E].
  Qed.
  Lemma garble_xor (d : N) (xs : list N) : forall ys g,
    garble hash gtweak draw_label d (xor_many xs ys) g = (Done (map2 N.lxor xs ys), g).
  Proof.
    unfold xor_many. induction xs as [|x xs IH]; intros [|y ys] g; try reflexivity.
    cbn [List.combine gmapM fst snd]. cbn [gbind gxor garble map2].
    specialize (IH ys g). revert IH.
    generalize (gmapM (fun ab : N * N => gxor (fst ab) (snd ab)) (List.combine xs ys)).
    intros q E. rewrite (@garble_bind d _ _ q _ _ _ _ E). reflexivity.
  Qed.
  Lemma evaluate_xor (xs : list N) : forall ys e,
    evaluate hash gtweak (xor_many xs ys) e = Done (map2 N.lxor xs ys, e).
  Proof.
    unfold xor_many. induction xs as [|x xs IH]; intros [|y ys] e; try reflexivity.
    cbn [List.combine gmapM fst snd]. cbn [gbind gxor evaluate map2].
    specialize (IH ys e). revert IH.
    generalize (gmapM (fun ab : N * N => gxor (fst ab) (snd ab)) (List.combine xs ys)).
    intros q E. rewrite (@evaluate_bind _ _ q _ _ _ _ E). reflexivity.
  Qed.
  Lemma uint_to_bits_xor x y n : map2 xorb (uint_to_bits x n) (uint_to_bits y n) = uint_to_bits (N.lxor x y) n.
  Proof. clear width p_odd delta_odd.
    unfold uint_to_bits. generalize 0%nat. induction n as [|n IH]; intros s; [reflexivity|]. cbn [seq map map2]. rewrite IH.
    unfold ubit. rewrite N.lxor_spec. reflexivity.
  Qed.
  Lemma labels_xor d (z1 : list N) : forall z2 b1 b2, length b1 = length z1 -> length b2 = length z2 ->
    map2 N.lxor (labels d z1 b1) (labels d z2 b2) = labels d (map2 N.lxor z1 z2) (map2 xorb b1 b2).
  Proof. clear width p_odd delta_odd.
    unfold labels. induction z1 as [|x z1 IH]; intros [|y z2] [|a b1] [|b b2] L1 L2; try discriminate; try reflexivity.
    cbn [map2]. rewrite IH by (cbn in *; lia). f_equal. unfold label, cmul.
    destruct a, b; cbn [xorb]; apply N.bits_inj; intros n; rewrite ?N.lxor_spec, ?N.bits_0; btauto.
  Qed.
  Definition b2y_zero (rg : pid -> S) : list N :=
    map2 N.lxor (fst (zero_labels B (rg P1))) (fst (zero_labels B (rg P2))).
  Definition b2y_rng (rg : pid -> S) (i : pid) : S :=
    match i with P0 => rg P0 | P1 => snd (zero_labels B (rg P1)) | P2 => snd (zero_labels B (rg P2)) end.
  Lemma b2y_wp d delta st rg a (u : N) : knows_delta d delta -> synced st -> shares a u ->
    wp cap (fun i => b2y (F := F) (Seed := Seed) hash gtweak draw_label i (a i) (delta i) (st i) (rg i))
      (fun r => yao_shares d (fun i => fst (r i)) (uint_to_bits u B) /\ fst (r P1) = b2y_zero rg /\
         forall i, snd (r i) = (garbler_next st i, b2y_rng rg i)).
  Proof. clear width p_odd delta_odd.
    intros HD Hs Ha. unfold b2y, joint_input_binary_xored.
    apply shares_elim in Ha. destruct Ha as (x0 & x1 & x2 & -> & E0 & E1 & E2).
    apply wp_bind. eapply wp_ext; [|eapply wp_mono; [|exact (@joint_input_wp _ _ _ draw_label cap cap_pos d delta B
       (fun i => match i with P0 => [] | P1 => [uint_to_bits (N.lxor x1 x0) B] | P2 => [uint_to_bits x2 B] end) rg HD
       ltac:(cbn; rewrite app_nil_r, uint_to_bits_length; reflexivity) ltac:(cbn; rewrite app_nil_r, uint_to_bits_length; reflexivity))]].
    { intros []; rewrite ?E1, ?E2; reflexivity. }
    cbv beta. cbn [concat]. rewrite !app_nil_r. intros x Hx.
    set (z1 := zero_labels B (rg P1)) in *. set (z2 := zero_labels B (rg P2)) in *.
    eapply wp_ext with (qs := fun i => Ret (match i with
       | P0 => labels d (map2 N.lxor (fst z1) (fst z2)) (uint_to_bits (N.lxor (N.lxor x0 x1) x2) B)
       | _ => map2 N.lxor (fst z1) (fst z2) end, (garbler_next st i, b2y_rng rg i))).
    - intros i. rewrite (Hx i). destruct HD as [D1 D2]. destruct i; cbn [fst snd].
      + rewrite evaluate_xor. cbn [garbled_circuits_error bind fst snd]. rewrite labels_xor.
        * rewrite uint_to_bits_xor. replace (N.lxor (N.lxor x1 x0) x2) with (N.lxor (N.lxor x0 x1) x2); [reflexivity|].
          rewrite (N.lxor_comm x1 x0). reflexivity.
        * unfold z1. rewrite uint_to_bits_length, zero_labels_length. reflexivity.
        * unfold z2. rewrite uint_to_bits_length, zero_labels_length. reflexivity.
      + rewrite D1, (new_with_delta_1 (Seed := Seed) st). cbn [bind]. rewrite garble_xor. reflexivity.
      + rewrite D2, (new_with_delta_2 (Seed := Seed) Hs). cbn [bind]. rewrite garble_xor. reflexivity.
    - apply wp_ret. cbn [fst snd]. split; [|split; [reflexivity|intros i; reflexivity]]. split; [reflexivity|]. split; [|reflexivity].
      rewrite map2_length. unfold z1, z2. rewrite !zero_labels_length, uint_to_bits_length. apply Nat.min_id.
  Qed.

  (** the bits of a number, as read modulo 2^[B] *)
  Lemma felt_bits (u : N) : (u < p)%N -> felt p (uint_to_bits u B).
  Proof.
    clear cap_pos. intros Hu. assert (E : uint_to_bits u B = field_to_bits (of_uint (F := F) u)).
    { unfold field_to_bits. rewrite to_of_uint by exact Hu. reflexivity. }
    rewrite E. apply fbits_felt.
  Qed.
  Lemma bval_bits (u : N) : (u < p)%N -> bval (uint_to_bits u B) = u.
  Proof.
    clear cap_pos. intros Hu. assert (E : uint_to_bits u B = field_to_bits (of_uint (F := F) u)).
    { unfold field_to_bits. rewrite to_of_uint by exact Hu. reflexivity. }
    rewrite E, fbits_bval, to_of_uint by exact Hu. reflexivity.
  Qed.
  Definition b2y2a_sep st rg : Prop :=
    run_separated (delta_of draw_delta st) (y2a_wires (b2y_zero rg) (b2y_rng rg))
      (garbler_rng (garbler_next (fun i => snd (garbler_delta draw_delta i (st i))))).
  Lemma b2y2a_wp st rg a (u : N) : synced st -> shares a u -> (u < p)%N -> b2y2a_sep st rg ->
    wp cap (fun i => b2y2a (Seed := Seed) W hash gtweak otweak digest dg_eqb draw_label draw_delta i (a i) (st i) (rg i))
      (fun r => shares (fun i => fst (r i)) (of_uint (F := F) u) /\ synced (fun i => fst (snd (r i)))).
  Proof.
    intros Hs Ha Hu Hsep. unfold b2y2a. destruct (garbler_delta_ok draw_delta Hs) as [HD Hs'].
    apply wp_bind. eapply wp_mono; [|exact (b2y_wp rg HD Hs' Ha)]. cbv beta. intros y (Hy & E1 & E2).
    rewrite <- (bval_bits Hu).
    pose proof (@y2a_wp _ _ (garbler_next (fun i => snd (garbler_delta draw_delta i (st i)))) (b2y_rng rg)
       _ _ (delta_odd _) HD (garbler_next_synced (Seed := Seed) Hs') Hy (felt_bits Hu)) as K.
    cbv beta in K. rewrite E1 in K. eapply wp_ext; [|exact (K Hsep)].
    intros i. rewrite (E2 i). reflexivity.
  Qed.
End YaoOut.
