(** * Three-party garbled circuits: correctness under every schedule *)
From Coq Require Import String List Arith NArith Lia Bool Btauto.
From Verif Require Import Proc Alg Rep3Net Rep3 Rep3Spec Rep3Proofs Rep3Wp Uint Binary BinaryWp Conv ConvWp
  Garble Circuits CircuitsSim CircuitsOk CircuitsArith CircuitsMod CircuitsFun Garbled Yao YaoSpec.
Import ListNotations.
Set Implicit Arguments.
Local Open Scope grp_scope.

(** ** Garbling and evaluating, for arbitrary results *)
Section GarbleEval.
  Variables (hash : N -> N -> N) (gtweak : N -> N) (otweak : N -> bool -> N).
  Context {S : Type} (draw_label : S -> N * S) (d : N).
  Hypothesis Hd : color d = true.

  Lemma garble_eval {A Ab Ag Ae} (Rb : A -> Ab -> Prop) (Rg : A -> Ag -> Prop) (Re : A -> Ae -> Prop)
        (p : gprog wire A) pb pg pe rng b rest :
    gsim fst Rb p pb -> gsim snd Rg p pg -> gsim (ewire d) Re p pe -> plain pb = Done b ->
    let r := garble hash gtweak draw_label d pg (new_garbler rng) in
    exists a g x t', fst r = Done g /\
      evaluate hash gtweak pe (new_evaluator (g_blocks (snd r) ++ rest)) = Done (x, t') /\ e_circ t' = rest /\
      in_step d (snd r) t' /\ Rb a b /\ Rg a g /\ Re a x.
  Proof.
    intros Sb Sg Se Hb r. subst r.
    assert (I0 : forall c, in_step d (new_garbler rng) (new_evaluator c)) by (intros c; repeat split).
    pose proof (fun c rest => lockstep hash gtweak draw_label Hd rest Sb Sg Se (I0 c)) as HL.
    destruct (HL [] []) as (new & Enew & _). rewrite Enew. cbn [new_garbler g_blocks app].
    destruct (HL (new ++ rest) rest) as (new' & En' & Hk).
    rewrite Enew in En'. apply app_inv_head in En'. subst new'.
    destruct (Hk eq_refl) as [(e & E & _)|(a & b' & g & x & t' & Q1 & Q2 & Q3 & Q4 & Q5 & Q6 & Q7 & Q8)]; [congruence|].
    exists a, g, x, t'. rewrite Hb in Q1. injection Q1 as <-. auto 10.
  Qed.

  Lemma evaluate_out {A} (p : gprog N A) : forall u y u', evaluate hash gtweak p u = Done (y, u') -> e_out u' = e_out u.
  Proof.
    induction p as [a|e|y z k IH|y z k IH|y k IH|k IH|k IH]; intros u w u' E; cbn [evaluate] in E.
    - injection E as <- <-. reflexivity.
    - discriminate.
    - eapply IH. exact E.
    - unfold e_and, e_block in E. destruct (e_circ u) as [|g0 [|g1 c]]; cbn in E; try discriminate.
      apply IH in E. exact E.
    - eapply IH. exact E.
    - unfold e_const_zero, e_block in E. destruct (e_zero u); cbn in E; [eapply IH; exact E|].
      destruct (e_circ u); cbn in E; try discriminate. apply IH in E. exact E.
    - unfold e_const_one, e_block in E. destruct (e_one u); cbn in E; [eapply IH; exact E|].
      destruct (e_circ u); cbn in E; try discriminate. apply IH in E. exact E.
  Qed.

  (** with outputs *)
  Lemma garble_eval_out (p : gprog wire (list wire)) pb pg pe rng b :
    gsimf fst (map fst) p pb -> gsimf snd (map snd) p pg -> gsimf (ewire d) (map (ewire d)) p pe -> plain pb = Done b ->
    let r := garble hash gtweak draw_label d pg (new_garbler rng) in
    exists g t t', fst r = Done g /\ length g = length b /\
      (separated hash otweak d g ->
       evaluate hash gtweak pe (new_evaluator (g_blocks (g_outputs hash otweak d (snd r) g))) = Done (labels d g b, t) /\
       e_outputs hash otweak t (labels d g b) = Done (b, t')) /\
      g_decode_checked d (labels d g b) g = Done b.
  Proof.
    intros Sb Sg Se Hb r. subst r.
    pose proof (fun rest => @garble_eval _ _ _ _ _ _ _ p pb pg pe rng b rest Sb Sg Se Hb) as HL. cbv zeta in HL.
    destruct (HL []) as (a & g & x & t & E1 & _ & _ & I1 & -> & -> & ->).
    destruct (HL []) as (a0 & g0 & x0 & t0 & _ & Ev0 & _ & I0 & _ & _ & _).
    assert (Eo : g_out (snd (garble hash gtweak draw_label d pg (new_garbler rng))) = 0%N).
    { destruct I0 as (_ & Io & _). rewrite <- Io. apply evaluate_out in Ev0. exact Ev0. }
    exists (map snd a). rewrite labels_split.
    assert (Hs : separated hash otweak d (map snd a) -> exists t t',
      evaluate hash gtweak pe (new_evaluator (g_blocks (g_outputs hash otweak d (snd (garble hash gtweak draw_label d pg (new_garbler rng))) (map snd a)))) = Done (map (ewire d) a, t) /\
       e_outputs hash otweak t (map (ewire d) a) = Done (map fst a, t')).
    { intros Hsep.
      assert (Hdecod : decodable hash otweak d (g_out (snd (garble hash gtweak draw_label d pg (new_garbler rng)))) a).
      { intros k w Ew. rewrite Eo. apply Hsep. apply (map_nth_error snd k a Ew). }
      destruct (outputs_ok [] I1 Hdecod) as (outs & Eouts & _). rewrite Eouts.
      destruct (HL outs) as (a1 & g1 & x1 & t1 & F1 & Ev & Ec & I2 & Q3 & -> & ->).
      assert (Ea : a1 = a).
      { rewrite E1 in F1. injection F1 as F1. clear -Q3 F1. revert a Q3 F1.
        induction a1 as [|[b z] a1 IH]; intros [|[b' z'] a] G1 G2; cbn in *; try discriminate; [reflexivity|].
        injection G1 as -> G1. injection G2 as -> G2. f_equal. apply IH; assumption. }
      subst a1. destruct (outputs_ok [] I2 Hdecod) as (outs' & Eouts' & Hd').
      rewrite Eouts in Eouts'. apply app_inv_head in Eouts'. subst outs'.
      destruct Hd' as (t'' & Et & _); [rewrite app_nil_r; exact Ec|]. exists t1, t''. split; assumption. }
    (* the states depend on the hypothesis only through the blocks *)
    destruct (evaluate hash gtweak pe (new_evaluator (g_blocks (g_outputs hash otweak d (snd (garble hash gtweak draw_label d pg (new_garbler rng))) (map snd a))))) as [[y u]|e] eqn:Ee.
    - destruct (e_outputs hash otweak u (map (ewire d) a)) as [[v u']|e'] eqn:Eu.
      + exists u, u'. split; [exact E1|]. split; [rewrite !map_length; reflexivity|]. split; [|apply g_decode_ok; exact Hd].
        intros Hsep. destruct (Hs Hsep) as (t1 & t2 & Q1 & Q2). injection Q1 as -> ->. rewrite Q2 in Eu. injection Eu as <- <-. auto.
      + exists u, u. split; [exact E1|]. split; [rewrite !map_length; reflexivity|]. split; [|apply g_decode_ok; exact Hd].
        intros Hsep. destruct (Hs Hsep) as (t1 & t2 & Q1 & Q2). injection Q1 as -> ->. congruence.
    - exists t, t. split; [exact E1|]. split; [rewrite !map_length; reflexivity|]. split; [|apply g_decode_ok; exact Hd].
      intros Hsep. destruct (Hs Hsep) as (t1 & t2 & Q1 & Q2). discriminate.
  Qed.
End GarbleEval.

(** ** Bits and labels *)
Lemma labels_app d z1 z2 b1 b2 : length z1 = length b1 -> labels d (z1 ++ z2) (b1 ++ b2) = labels d z1 b1 ++ labels d z2 b2.
Proof.
  revert b1. induction z1 as [|z z1 IH]; intros [|b b1] L; cbn in *; try discriminate; [reflexivity|].
  unfold labels in IH. rewrite IH by lia. reflexivity.
Qed.
Lemma labels_length d zs bs : length zs = length bs -> length (labels d zs bs) = length bs.
Proof. revert bs. induction zs as [|z zs IH]; intros [|b bs] L; cbn in *; try discriminate; [reflexivity|]. unfold labels in IH. rewrite IH; lia. Qed.
Lemma colors_labels d zs bs : color d = true -> length zs = length bs ->
  map color (labels d zs bs) = map2 xorb (map color zs) bs.
Proof.
  intros Hd. revert bs. induction zs as [|z zs IH]; intros [|b bs] L; cbn in *; try discriminate; [reflexivity|].
  unfold labels in IH. rewrite IH by lia. f_equal.
  unfold label, color, cmul in *. destruct b; rewrite odd_lxor, ?Hd; [|reflexivity]. destruct (N.odd z); reflexivity.
Qed.
Lemma bval_xor a : forall b, length b = length a -> bval (map2 xorb a b) = N.lxor (bval a) (bval b).
Proof.
  induction a as [|x a IH]; intros [|y b] L; cbn [bval map2 length] in *; try discriminate; [reflexivity|].
  rewrite IH by lia. rewrite !(N.add_comm (N.b2n _)). apply N.bits_inj. intros n. rewrite N.lxor_spec.
  destruct n using N.peano_ind; [|clear IHn].
  - rewrite !N.testbit_0_r. reflexivity.
  - rewrite !N.testbit_succ_r, N.lxor_spec. reflexivity.
Qed.

Section EncodeFacts.
  Context {S : Type} (draw_label : S -> N * S).
  Notation zero_labels := (zero_labels draw_label).
  Lemma zero_labels_length n : forall s, length (fst (zero_labels n s)) = n.
  Proof. induction n; intros s; cbn; auto. Qed.
  Lemma zero_labels_app a b : forall s, zero_labels (a + b) s =
    (fst (zero_labels a s) ++ fst (zero_labels b (snd (zero_labels a s))), snd (zero_labels b (snd (zero_labels a s)))).
  Proof. induction a as [|a IH]; intros s; cbn; [destruct (zero_labels b s); reflexivity|]. rewrite IH. reflexivity. Qed.
  Lemma encode_bits_eq d bits : forall s, encode_bits draw_label d bits s =
    ((fst (zero_labels (length bits) s), labels d (fst (zero_labels (length bits) s)) bits), snd (zero_labels (length bits) s)).
  Proof. induction bits as [|b bits IH]; intros s; cbn; [reflexivity|]. rewrite IH. reflexivity. Qed.
  Lemma encode_many_eq d bits : forall s, encode_many draw_label d bits s =
    ((fst (zero_labels (length (concat bits)) s), labels d (fst (zero_labels (length (concat bits)) s)) (concat bits)),
     snd (zero_labels (length (concat bits)) s)).
  Proof.
    induction bits as [|b bits IH]; intros s; cbn [encode_many concat length YaoSpec.zero_labels]; [reflexivity|].
    rewrite IH, encode_bits_eq, app_length, zero_labels_app. cbn [fst snd].
    rewrite labels_app by apply zero_labels_length. reflexivity.
  Qed.
End EncodeFacts.

Lemma bits_to_uint_bval W bits : (length bits <= W)%nat -> bits_to_uint W bits = bval bits.
Proof.
  induction bits as [|b bits IH]; intros L; [reflexivity|]. cbn [bits_to_uint fold_right bval length] in *.
  unfold bits_to_uint in IH. rewrite IH by lia. unfold uwadd, ushl.
  pose proof (bval_lt (b :: bits)) as Hb. cbn [bval length] in Hb.
  pose proof (p2_le L) as Hp. 
  rewrite N.shiftl_mul_pow2, <- (p2_eq W). change (2 ^ N.of_nat 1)%N with 2%N.
  rewrite (N.mod_small (bval bits * 2)) by lia. rewrite N.mod_small by lia. lia.
Qed.

Section YaoWp.
  Context {F : Type} `{FU : FieldUint F} {S M : Type} (W : nat) (du : nat -> S -> N * S) {DF : Draw S F}.
  Context {Seed : Type} {SS : Seeded S Seed} {DS : Draw S Seed}.
  Context {EN : Enc M (list N)}.
  Variables (hash : N -> N -> N) (gtweak : N -> N) (otweak : N -> bool -> N).
  Context {Dg : Type} {ED : Enc M (list Dg)}.
  Variables (digest : list N -> Dg) (dg_eqb : Dg -> Dg -> bool).
  Variables (draw_label draw_delta : S -> N * S).
  Hypothesis dg_eqb_spec : forall x y, dg_eqb x y = true <-> x = y.
  Context (cap : nat) (cap_pos : (1 <= cap)%nat).
  Notation prog := (prog pid M).
  Notation B := (mbs F).
  Notation zero_labels := (zero_labels draw_label).
  Implicit Types (st : pid -> rst S).

  Lemma dg_refl x : dg_eqb x x = true.
  Proof. apply dg_eqb_spec. reflexivity. Qed.

  (** *** Randomness of the garblers *)
  Lemma garbler_sync st (f : S -> S) st' : synced st ->
    st' P0 = st P0 -> st' P1 = set_rand (st P1) (f (rng1 (st P1))) (rng2 (st P1)) ->
    st' P2 = set_rand (st P2) (rng1 (st P2)) (f (rng2 (st P2))) -> synced st'.
  Proof.
    intros [Hr Hb1 Hb2] E0 E1 E2. constructor.
    - pose proof (Hr P0) as R0. pose proof (Hr P1) as R1. pose proof (Hr P2) as R2.
      cbn [prev] in R0, R1, R2. intros []; cbn [prev]; rewrite ?E0, ?E1, ?E2; cbn; congruence.
    - rewrite E1, E2. exact Hb1.
    - rewrite E0, E2. exact Hb2.
  Qed.

  (** the offset both garblers draw *)
  Definition delta_of st : N := fst (draw_delta (rng1 (st P1))).
  Lemma garbler_delta_ok st : synced st ->
    knows_delta (delta_of st) (fun i => fst (garbler_delta draw_delta i (st i))) /\
    synced (fun i => snd (garbler_delta draw_delta i (st i))).
  Proof.
    intros Hs. pose proof (sync_rand Hs P2) as R. cbn [prev] in R. split.
    - split; cbn; unfold delta_of; [reflexivity|]. rewrite R. reflexivity.
    - eapply (@garbler_sync st (fun s => snd (draw_delta s))); [exact Hs|reflexivity..].
  Qed.

  (** the generator of both garblers *)
  Definition garbler_rng st : S := from_seed (fst (draw (X := Seed) (rng1 (st P1)))).
  Definition garbler_next st (i : pid) : rst S :=
    match i with P0 => st P0 | P1 => snd (random_rng1 (X := Seed) (st P1)) | P2 => snd (random_rng2 (X := Seed) (st P2)) end.
  Lemma garbler_next_synced st : synced st -> synced (garbler_next st).
  Proof. intros Hs. eapply (@garbler_sync st (fun s => snd (draw (X := Seed) s))); [exact Hs|reflexivity..]. Qed.
  Lemma new_with_delta_1 st : new_with_delta (M := M) (Seed := Seed) P1 (st P1) = Ret (new_garbler (garbler_rng st), garbler_next st P1).
  Proof. reflexivity. Qed.
  Lemma new_with_delta_2 st : synced st ->
    new_with_delta (M := M) (Seed := Seed) P2 (st P2) = Ret (new_garbler (garbler_rng st), garbler_next st P2).
  Proof.
    intros Hs. pose proof (sync_rand Hs P2) as R. cbn [prev] in R. unfold new_with_delta, garbler_rng. cbn.
    unfold random_rng2. rewrite R. reflexivity.
  Qed.

  (** *** Inputs *)
  Lemma joint_input_wp d delta n bits rg : knows_delta d delta ->
    length (concat (bits P1)) = n -> length (concat (bits P2)) = n ->
    let z1 := zero_labels n (rg P1) in let z2 := zero_labels n (rg P2) in
    wp cap (fun i => joint_input draw_label i (delta i) n (bits i) (rg i))
      (fun r => forall i, r i = match i with
         | P0 => ((labels d (fst z1) (concat (bits P1)), labels d (fst z2) (concat (bits P2))), rg P0)
         | P1 => ((fst z1, fst z2), snd z1)
         | P2 => ((fst z1, fst z2), snd z2)
         end).
  Proof.
    intros [D1 D2] L1 L2 z1 z2.
    exists (fun i => match i with
         | P0 => ((labels d (fst z1) (concat (bits P1)), labels d (fst z2) (concat (bits P2))), rg P0)
         | P1 => ((fst z1, fst z2), snd z1)
         | P2 => ((fst z1, fst z2), snd z2)
         end). split; [|intros []; reflexivity].
    apply runs_comp3. unfold joint_input. rewrite D1, D2.
    rewrite !encode_many_eq, L1, L2. cbn [fst snd]. fold z1 z2.
    unfold send_inputs, receive_bundle_from, send_many, recv_many. cbn [bind fst snd].
    assert (Z1 : length (fst z1) = n) by apply zero_labels_length.
    assert (Z2 : length (fst z2) = n) by apply zero_labels_length.
    assert (Y1 : length (labels d (fst z1) (concat (bits P1))) = n) by (rewrite labels_length; congruence).
    assert (Y2 : length (labels d (fst z2) (concat (bits P2))) = n) by (rewrite labels_length; congruence).
    repeat (step3 cap_pos; rewrite ?Z1, ?Z2, ?Y1, ?Y2, ?Nat.eqb_refl; cbn [bind]).
    apply comp3_ret_eq; reflexivity.
  Qed.

  Lemma fbits_length (x : F) : length (field_to_bits x) = B.
  Proof. apply uint_to_bits_length. Qed.
  Lemma fbits_bval (x : F) : bval (field_to_bits x) = to_uint x.
  Proof.
    unfold field_to_bits. rewrite bval_uint_to_bits. apply N.mod_small. rewrite p2_eq. apply to_uint_mbs.
  Qed.
  Lemma fbits_felt (x : F) : felt (fu_p (F := F)) (field_to_bits x).
  Proof. split; [apply fbits_length|]. rewrite fbits_bval. apply to_uint_lt. Qed.
  Lemma fbits_concat_length {X} (f : X -> F) l : length (concat (map (fun x => field_to_bits (f x)) l)) = (length l * B)%nat.
  Proof. induction l as [|x l IH]; [reflexivity|]. cbn. rewrite app_length, fbits_length, IH. reflexivity. Qed.
  Lemma felt_fbits l : felt (fu_p (F := F)) l -> l = field_to_bits (of_uint (bval l)).
  Proof.
    intros [L V]. apply bval_inj; [rewrite fbits_length; exact L|]. rewrite fbits_bval. symmetry. apply to_of_uint. exact V.
  Qed.

  Definition sums01 (a : pid -> list (share F)) : list F := map (fun x => sa x + sb x) (a P1).
  Definition sums2 (a : pid -> list (share F)) : list F := map sa (a P2).
  Definition fields_to_bits (l : list F) : list bool := concat (map field_to_bits l).

  Lemma joint_arith_wp d delta a rg n : knows_delta d delta -> (forall i, length (a i) = n) ->
    let z1 := zero_labels (n * B) (rg P1) in let z2 := zero_labels (n * B) (rg P2) in
    wp cap (fun i => joint_input_arithmetic_added_many draw_label i (a i) (delta i) (rg i))
      (fun r => forall i, r i = match i with
         | P0 => ((labels d (fst z1) (fields_to_bits (sums01 a)), labels d (fst z2) (fields_to_bits (sums2 a))), rg P0)
         | P1 => ((fst z1, fst z2), snd z1)
         | P2 => ((fst z1, fst z2), snd z2)
         end).
  Proof.
    intros HD L z1 z2. unfold joint_input_arithmetic_added_many.
    eapply wp_ext; [intros i; rewrite (L i); reflexivity|].
    set (bits := fun i => match i with
       | P0 => [] | P1 => map (fun x => field_to_bits (sa x + sb x)) (a P1)
       | P2 => map (fun x => field_to_bits (sa x)) (a P2) end).
    eapply (@wp_ext _ _ _ _ (fun i => joint_input draw_label i (delta i) (n * B) (bits i) (rg i))); [intros []; reflexivity|].
    assert (L1 : length (concat (bits P1)) = (n * B)%nat) by (unfold bits; rewrite fbits_concat_length, L; reflexivity).
    assert (L2 : length (concat (bits P2)) = (n * B)%nat) by (unfold bits; rewrite (fbits_concat_length sa), L; reflexivity).
    eapply wp_mono; [|exact (@joint_input_wp d delta (n * B) bits rg HD L1 L2)].
    cbv beta. intros r Hr i. rewrite (Hr i). unfold fields_to_bits, sums01, sums2. rewrite !map_map. reflexivity.
  Qed.

  Lemma input_id2_wp d delta (x : list F) n rg : delta P2 = Some d -> length x = n ->
    let z := zero_labels (n * B) (rg P2) in
    wp cap (fun i => input_field_id2_many draw_label i (match i with P2 => Some x | _ => None end)
                       (match i with P2 => delta P2 | _ => None end) n (rg i))
      (fun r => forall i, r i = match i with
         | P0 => (labels d (fst z) (fields_to_bits x), rg P0)
         | P1 => (fst z, rg P1)
         | P2 => (fst z, snd z)
         end).
  Proof.
    intros D2 L z.
    exists (fun i => match i with
         | P0 => (labels d (fst z) (fields_to_bits x), rg P0)
         | P1 => (fst z, rg P1)
         | P2 => (fst z, snd z)
         end). split; [|intros []; reflexivity].
    apply runs_comp3. unfold input_field_id2_many. rewrite D2, L, Nat.eqb_refl.
    assert (L1 : length (fields_to_bits x) = (n * B)%nat).
    { unfold fields_to_bits. rewrite (fbits_concat_length (fun x => x)), L. reflexivity. }
    fold (fields_to_bits x). rewrite encode_many_eq. fold (fields_to_bits x). rewrite L1. cbn [fst snd]. fold z.
    unfold send_inputs, receive_bundle_from, send_many, recv_many. cbn [bind fst snd].
    assert (Z1 : length (fst z) = (n * B)%nat) by apply zero_labels_length.
    assert (Y1 : length (labels d (fst z) (fields_to_bits x)) = (n * B)%nat) by (rewrite labels_length; congruence).
    repeat (step3 cap_pos; rewrite ?Z1, ?Y1, ?Nat.eqb_refl; cbn [bind]).
    apply comp3_ret_eq; reflexivity.
  Qed.

  (** *** Circuits *)
  Lemma convert_wp {A Ab O} (Rb : A -> Ab -> Prop) (Rg Re : A -> O -> Prop) (p : gprog wire A) pb pg pe b d delta st :
    color d = true -> knows_delta d delta -> synced st ->
    gsim fst Rb p pb -> gsim snd Rg p pg -> gsim (ewire d) Re p pe -> plain pb = Done b ->
    wp cap (fun i => convert (Seed := Seed) hash gtweak digest dg_eqb draw_label i (delta i) (match i with P0 => pe | _ => pg end) (st i))
      (fun r => exists a g x, Rb a b /\ Rg a g /\ Re a x /\
         forall i, r i = (match i with P0 => x | _ => g end, garbler_next st i)).
  Proof.
    intros Hd [D1 D2] Hs Sb Sg Se Hb.
    destruct (garble_eval hash gtweak draw_label Hd (garbler_rng st) [] Sb Sg Se Hb) as (a & g & x & t' & E1 & E2 & _ & _ & Q1 & Q2 & Q3).
    exists (fun i => (match i with P0 => x | _ => g end, garbler_next st i)). split; [|exists a, g, x; auto].
    apply runs_comp3. unfold convert. rewrite D1, D2, (new_with_delta_1 st), (new_with_delta_2 Hs).
    cbn [bind fst snd]. rewrite E1. cbn [garbled_circuits_error bind].
    unfold receive_circuit, send_circuit, send_to, send_many, recv_from, recv_many. cbn [bind].
    rewrite app_nil_r in E2.
    repeat (step3 cap_pos; rewrite ?dg_refl; cbn [bind]; rewrite ?E2; cbn [garbled_circuits_error bind fst]).
    apply comp3_ret_eq; reflexivity.
  Qed.

  (** *** Arithmetic to Yao *)
  Hypothesis p_odd : N.odd (fu_p (F := F)) = true.
  Hypothesis width : (B + 2 <= W)%nat.
  Notation p := (fu_p (F := F)).

  Lemma p_le_p2 : (p <= p2 B)%N.
  Proof. rewrite p2_eq. pose proof (fu_p_mbs (F := F)). lia. Qed.
  Lemma fbits_ne (x : F) : field_to_bits x <> [].
  Proof. intros E. pose proof (fbits_length x) as L. rewrite E in L. cbn in L. pose proof (mbs_pos (F := F)). lia. Qed.
  Lemma adder_one (u v : F) : plain (adder_mod_p W p (field_to_bits u) (field_to_bits v)) = Done (field_to_bits (u + v)).
  Proof.
    destruct (@adder_mod_p_ok W p p_odd (field_to_bits u) (field_to_bits v)) as (r & Er & L & V);
      rewrite ?fbits_length, ?fbits_bval; try apply fbits_ne; try apply to_uint_lt; try apply p_le_p2; try lia; try reflexivity.
    rewrite Er. f_equal. apply bval_inj; [rewrite L, !fbits_length; reflexivity|].
    rewrite V, !fbits_bval, to_uint_add. reflexivity.
  Qed.
  Lemma chunks_fbits (l : list F) : chunks (ubit_len p) (fields_to_bits l) = map field_to_bits l.
  Proof.
    clear cap_pos p_odd width. unfold fields_to_bits. apply chunks_concat; [pose proof (mbs_pos (F := F)); unfold mbs in *; lia|].
    apply Forall_forall. intros b [x [<- _]]%in_map_iff. apply fbits_length.
  Qed.
  Lemma adder_out_one (u v : F) : plain (adder_mod_p_out W p (field_to_bits u) (field_to_bits v) (ubit_len p)) = Done (field_to_bits (u + v)).
  Proof. rewrite <- adder_one. unfold adder_mod_p. rewrite fbits_length. reflexivity. Qed.
  Lemma adder_many us : forall vs, length vs = length us ->
    plain (adder_mod_p_many W p (fields_to_bits us) (fields_to_bits vs)) = Done (map field_to_bits (map2 gadd us vs)).
  Proof.
    intros vs. unfold adder_mod_p_many. rewrite !chunks_fbits. revert vs.
    induction us as [|u us IH]; intros [|v vs] L; try discriminate; [reflexivity|].
    cbn [map List.combine gmapM fst snd map2]. rewrite plain_bind, adder_out_one, plain_bind, IH by (cbn in L; lia). reflexivity.
  Qed.

  Definition zipw (b : list bool) (z : list N) : list wire := List.combine b z.

  Lemma a2y_wp d delta st rg a (x : F) : color d = true -> knows_delta d delta -> synced st -> shares a x ->
    wp cap (fun i => a2y (Seed := Seed) W hash gtweak digest dg_eqb draw_label i (a i) (delta i) (st i) (rg i))
      (fun r => yao_shares d (fun i => fst (r i)) (field_to_bits x) /\ synced (fun i => fst (snd (r i)))).
  Proof.
    intros Hd HD Hs Ha. unfold a2y, joint_input_arithmetic_added.
    apply wp_bind. eapply wp_mono; [|exact (@joint_arith_wp d delta (fun i => [a i]) rg 1 HD (fun i => eq_refl))].
    cbv beta. intros r Hr. rewrite Nat.mul_1_l in Hr.
    set (z1 := zero_labels B (rg P1)) in *. set (z2 := zero_labels B (rg P2)) in *.
    cbn [sums01 sums2 map fields_to_bits concat] in Hr. rewrite !app_nil_r in Hr.
    set (u := sa (a P1) + sb (a P1)) in *. set (v := sa (a P2)) in *.
    assert (L1 : length (field_to_bits u) = length (fst z1)) by (unfold z1; rewrite fbits_length, zero_labels_length; reflexivity).
    assert (L2 : length (field_to_bits v) = length (fst z2)) by (unfold z2; rewrite fbits_length, zero_labels_length; reflexivity).
    set (w1 := zipw (field_to_bits u) (fst z1)). set (w2 := zipw (field_to_bits v) (fst z2)).
    assert (Hx : u + v = x).
    { apply shares_elim in Ha; destruct Ha as (x0 & x1 & x2 & -> & E0 & E1 & E2). unfold u, v. rewrite E1, E2. cbn. grp. }
    apply wp_bind.
    eapply wp_ext; [|eapply wp_mono; [|eapply (@convert_wp _ _ _ _ _ _ (adder_mod_p W p w1 w2) _ _ _ _ d delta st Hd HD Hs);
       [apply (adder_mod_p_sim fst)|apply (adder_mod_p_sim snd)|apply (adder_mod_p_sim (ewire d))|]]].
    - intros i. rewrite (Hr i). unfold w1, w2, zipw. destruct i; cbn [fst snd];
        rewrite ?map_snd_zip, ?map_ewire_zip by assumption; reflexivity.
    - cbv beta. intros q (ws & g & y & E1 & E2 & E3 & Hq). apply wp_ret. cbn [fst snd]. split.
      + unfold yao_shares. rewrite !Hq. cbn [fst]. split; [reflexivity|]. rewrite E1, E2, E3, labels_split, !map_length. auto.
      + eapply synced_ext; [|exact (garbler_next_synced Hs)]. intros i. rewrite (Hq i). reflexivity.
    - unfold w1, w2, zipw. rewrite !map_fst_zip by assumption. rewrite adder_one, Hx. reflexivity.
  Qed.

  Lemma yao_vec_split d (ws : list (list wire)) (l : pid -> list (list N)) :
    (forall i, l i = match i with P0 => map (map (ewire d)) ws | _ => map (map snd) ws end) ->
    pvec (yao_shares d) l (map (map fst) ws).
  Proof.
    intros El. split; [intros i; rewrite El; destruct i; rewrite !map_length; reflexivity|].
    unfold wire in *. intros n bs En. rewrite nth_error_map in En. destruct (nth_error ws n) as [w|] eqn:Ew; cbn in En; [|discriminate]. injection En as <-.
    exists (fun i => match i with P0 => map (ewire d) w | _ => map snd w end). split.
    - intros i. rewrite El. destruct i; rewrite nth_error_map, Ew; reflexivity.
    - split; [reflexivity|]. rewrite labels_split, !map_length. auto.
  Qed.

  Lemma sums_vec a (xs : list F) : shares_vec a xs -> map2 gadd (sums01 a) (sums2 a) = xs.
  Proof.
    unfold sums01, sums2. revert a. induction xs as [|x xs IH]; intros a Ha.
    - rewrite (pvec_nil_inv Ha P1). reflexivity.
    - destruct (pvec_cons_inv Ha) as (h & t & El & Hh & Ht). specialize (IH t Ht).
      rewrite (El P1), (El P2). cbn [map map2]. rewrite IH. f_equal.
      apply shares_elim in Hh; destruct Hh as (x0 & x1 & x2 & -> & E0 & E1 & E2). rewrite E1, E2. cbn. grp.
  Qed.
  Lemma fields_length (l : list F) : length (fields_to_bits l) = (length l * B)%nat.
  Proof. unfold fields_to_bits. rewrite (fbits_concat_length (fun x => x)). reflexivity. Qed.

  Lemma a2y_many_wp d delta st rg a (xs : list F) : color d = true -> knows_delta d delta -> synced st -> shares_vec a xs ->
    wp cap (fun i => a2y_many (Seed := Seed) W hash gtweak digest dg_eqb draw_label i (a i) (delta i) (st i) (rg i))
      (fun r => pvec (yao_shares d) (fun i => fst (r i)) (map field_to_bits xs) /\ synced (fun i => fst (snd (r i)))).
  Proof.
    intros Hd HD Hs Ha. unfold a2y_many. set (n := length xs).
    assert (La : forall i, length (a i) = n) by (intros i; apply (pvec_len i Ha)).
    apply wp_bind. eapply wp_mono; [|exact (@joint_arith_wp d delta a rg n HD La)].
    cbv beta. intros r Hr.
    set (z1 := zero_labels (n * B) (rg P1)) in *. set (z2 := zero_labels (n * B) (rg P2)) in *.
    assert (L1 : length (fields_to_bits (sums01 a)) = length (fst z1)).
    { unfold z1, sums01. rewrite fields_length, map_length, zero_labels_length, La. reflexivity. }
    assert (L2 : length (fields_to_bits (sums2 a)) = length (fst z2)).
    { unfold z2, sums2. rewrite fields_length, map_length, zero_labels_length, La. reflexivity. }
    set (w1 := zipw (fields_to_bits (sums01 a)) (fst z1)). set (w2 := zipw (fields_to_bits (sums2 a)) (fst z2)).
    apply wp_bind.
    eapply wp_ext; [|eapply wp_mono; [|eapply (@convert_wp _ _ _ _ _ _ (adder_mod_p_many W p w1 w2) _ _ _ _ d delta st Hd HD Hs);
       [apply (adder_mod_p_many_sim fst)|apply (adder_mod_p_many_sim snd)|apply (adder_mod_p_many_sim (ewire d))|]]].
    - intros i. rewrite (Hr i). unfold w1, w2, zipw. destruct i; cbn [fst snd];
        rewrite ?map_snd_zip, ?map_ewire_zip by assumption; reflexivity.
    - cbv beta. intros q (ws & g & y & E1 & E2 & E3 & Hq). apply wp_ret. cbn [fst snd]. split.
      + rewrite E1. apply yao_vec_split. intros i. rewrite (Hq i), E2, E3. destruct i; reflexivity.
      + eapply synced_ext; [|exact (garbler_next_synced Hs)]. intros i. rewrite (Hq i). reflexivity.
    - unfold w1, w2, zipw. rewrite !map_fst_zip by assumption.
      rewrite adder_many by (unfold sums01, sums2; rewrite !map_length, !La; reflexivity). rewrite (sums_vec Ha). reflexivity.
  Qed.

  (** *** Yao to binary *)
  Lemma collapse_lxor d w bs : color d = true -> yao_shares d w bs -> (length bs <= W)%nat ->
    N.lxor (collapse W (w P0)) (collapse W (w P1)) = bval bs /\ collapse W (w P2) = collapse W (w P1).
  Proof. clear width p_odd.
    intros Hd (E12 & L & E0) Hw. rewrite <- E12. split; [|reflexivity]. unfold collapse.
    assert (L0 : length (w P0) = length bs) by (rewrite E0, labels_length; congruence).
    rewrite !bits_to_uint_bval by (rewrite map_length; lia).
    rewrite E0, colors_labels, bval_xor by (rewrite ?map_length; congruence).
    rewrite N.lxor_comm, <- N.lxor_assoc, N.lxor_nilpotent, N.lxor_0_l. reflexivity.
  Qed.
  Lemma y2b_sync st st' n : synced st ->
    st' P0 = set_rand (st P0) (snd (uint_draws du n (rng1 (st P0)))) (rng2 (st P0)) ->
    st' P1 = set_rand (st P1) (rng1 (st P1)) (snd (uint_draws du n (rng2 (st P1)))) -> st' P2 = st P2 -> synced st'.
  Proof. clear width p_odd.
    intros [Hr Hb1 Hb2] E0 E1 E2. constructor.
    - pose proof (Hr P0) as R0. pose proof (Hr P1) as R1. pose proof (Hr P2) as R2.
      cbn [prev] in R0, R1, R2. intros []; cbn [prev]; rewrite ?E0, ?E1, ?E2; cbn; congruence.
    - rewrite E1, E2. exact Hb1.
    - rewrite E0, E2. exact Hb2.
  Qed.

  Lemma y2b_wp d st w bs : color d = true -> synced st -> yao_shares d w bs -> (length bs <= W)%nat ->
    wp cap (fun i => y2b W du i (w i) (st i))
      (fun r => shares (fun i => fst (r i)) (bval bs) /\ synced (fun i => snd (r i))).
  Proof. clear width p_odd.
    intros Hd Hs Hw HW. destruct (collapse_lxor Hd Hw HW) as [Hc E21]. destruct Hw as (E12 & L & E0).
    assert (L0 : length (w P0) = length bs) by (rewrite E0, labels_length; congruence).
    pose proof (sync_rand Hs P1) as R. cbn [prev] in R.
    set (c0 := collapse W (w P0)) in *. set (c1 := collapse W (w P1)) in *.
    set (q := du (length bs) (rng1 (st P0))).
    exists (fun i => match i with
       | P0 => (mkShare (fst q) (N.lxor c0 (fst q)), set_rand (st P0) (snd q) (rng2 (st P0)))
       | P1 => (mkShare c1 (fst q), set_rand (st P1) (rng1 (st P1)) (snd q))
       | P2 => (mkShare (N.lxor c0 (fst q)) c1, st P2) end). split.
    - apply runs_comp3. unfold y2b, send_to, send_many, recv_from, recv_many. rewrite R, E21, L, L0. fold c0 c1 q.
      cbn [bind]. repeat step3 cap_pos. apply comp3_ret_eq; reflexivity.
    - split.
      + split; [intros []; reflexivity|]. unfold additive. cbn. rewrite <- Hc.
        apply N.bits_inj. intros k. rewrite !N.lxor_spec. btauto.
      + eapply (@y2b_sync st _ [length bs] Hs); cbn [uint_draws fst snd]; rewrite ?R; reflexivity.
  Qed.

  Lemma uint_draws_length l : forall s, length (fst (uint_draws du l s)) = length l.
  Proof. induction l; intros s; cbn; auto. Qed.
  Lemma y2b_many_wp d st w bss : color d = true -> synced st -> pvec (yao_shares d) w bss ->
    Forall (fun bs => length bs <= W)%nat bss ->
    wp cap (fun i => y2b_many W du i (w i) (st i))
      (fun r => shares_vec (fun i => fst (r i)) (map bval bss) /\ synced (fun i => snd (r i))).
  Proof. clear width p_odd.
    intros Hd Hs Hw HW. pose proof (sync_rand Hs P1) as R. cbn [prev] in R.
    assert (Hlen : forall i, map (@length N) (w i) = map (@length bool) bss).
    { clear HW. revert w Hw. induction bss as [|bs bss IH]; intros w Hw i; [rewrite (pvec_nil_inv Hw); reflexivity|].
      destruct (pvec_cons_inv Hw) as (h & t & El & (Q1 & Q2 & Q3) & Ht). rewrite El. cbn [map]. rewrite (IH _ Ht).
      f_equal. destruct i; rewrite ?Q3, ?labels_length; congruence. }
    set (q := uint_draws du (map (@length bool) bss) (rng1 (st P0))).
    set (c0 := map (collapse W) (w P0)). set (c1 := map (collapse W) (w P1)).
    assert (E21 : map (collapse W) (w P2) = c1).
    { unfold c1. clearbody q. clear HW Hlen c0 c1. revert w Hw. induction bss as [|bs bss IH]; intros w Hw; [rewrite !(pvec_nil_inv Hw); reflexivity|].
      destruct (pvec_cons_inv Hw) as (h & t & El & (Q1 & Q2 & Q3) & Ht). rewrite !El. cbn [map]. rewrite (IH _ Ht), Q1. reflexivity. }
    exists (fun i => match i with
       | P0 => (map2 mkShare (fst q) (map2 N.lxor c0 (fst q)), set_rand (st P0) (snd q) (rng2 (st P0)))
       | P1 => (map2 mkShare c1 (fst q), set_rand (st P1) (rng1 (st P1)) (snd q))
       | P2 => (map2 mkShare (map2 N.lxor c0 (fst q)) c1, st P2) end). split.
    - apply runs_comp3. unfold y2b_many, send_many, recv_many. rewrite R, E21, !Hlen. fold c0 c1 q.
      cbn [bind]. repeat step3 cap_pos. apply comp3_ret_eq; reflexivity.
    - split.
      + apply (@pvec_ext _ _ _ (fun i => match i with P0 => map2 mkShare (fst q) (map2 N.lxor c0 (fst q))
           | P1 => map2 mkShare c1 (fst q) | P2 => map2 mkShare (map2 N.lxor c0 (fst q)) c1 end)); [intros []; reflexivity|].
        assert (Lq : length (fst q) = length bss) by (unfold q; rewrite uint_draws_length, map_length; reflexivity).
        unfold c0, c1. clearbody q. clear Hlen E21 c0 c1. destruct q as [q s]. cbn [fst] in *. clear s. revert w q Hw HW Lq.
        induction bss as [|bs bss IH]; intros w q Hw HW Lq.
        * apply pvec_nil. intros i. rewrite !(pvec_nil_inv Hw). destruct q; [|discriminate]. destruct i; reflexivity.
        * destruct q as [|k q]; [discriminate|]. destruct (pvec_cons_inv Hw) as (h & t & El & Hh & Ht).
          inversion HW as [|? ? HW1 HW2]; subst. destruct (collapse_lxor Hd Hh HW1) as [Hc E21].
          specialize (IH t q Ht HW2 ltac:(cbn in Lq; lia)).
          eapply (@pvec_cons _ _ _ (fun i => match i with P0 => mkShare k (N.lxor (collapse W (h P0)) k)
             | P1 => mkShare (collapse W (h P1)) k | P2 => mkShare (N.lxor (collapse W (h P0)) k) (collapse W (h P1)) end) _ (fun i => match i with
             | P0 => map2 mkShare q (map2 N.lxor (map (collapse W) (t P0)) q) | P1 => map2 mkShare (map (collapse W) (t P1)) q
             | P2 => map2 mkShare (map2 N.lxor (map (collapse W) (t P0)) q) (map (collapse W) (t P1)) end)).
          -- intros i. rewrite !El. destruct i; reflexivity.
          -- split; [intros []; reflexivity|]. unfold additive. cbn. rewrite <- Hc.
             apply N.bits_inj. intros m. rewrite !N.lxor_spec. btauto.
          -- exact IH.
      + eapply (@y2b_sync st _ (map (@length bool) bss) Hs); cbn [snd]; rewrite ?R; reflexivity.
  Qed.

  (** *** Arithmetic to binary through Yao *)
  Hypothesis delta_odd : forall s, color (fst (draw_delta s)) = true.
  Lemma a2y2b_wp st rg a (x : F) : synced st -> shares a x ->
    wp cap (fun i => a2y2b (Seed := Seed) W du hash gtweak digest dg_eqb draw_label draw_delta i (a i) (st i) (rg i))
      (fun r => shares (fun i => fst (r i)) (to_uint x) /\ synced (fun i => fst (snd (r i)))).
  Proof.
    intros Hs Ha. unfold a2y2b. destruct (garbler_delta_ok Hs) as [HD Hs'].
    apply wp_bind. eapply wp_mono; [|exact (@a2y_wp _ _ _ rg a x (delta_odd _) HD Hs' Ha)].
    cbv beta. intros y [Hy Sy]. apply wp_bind.
    eapply wp_mono; [|exact (@y2b_wp _ _ _ _ (delta_odd _) Sy Hy ltac:(rewrite fbits_length; lia))].
    cbv beta. intros r [Hr Sr]. apply wp_ret. cbn [fst snd]. rewrite fbits_bval in Hr. auto.
  Qed.
  Lemma a2y2b_many_wp st rg a (xs : list F) : synced st -> shares_vec a xs ->
    wp cap (fun i => a2y2b_many (Seed := Seed) W du hash gtweak digest dg_eqb draw_label draw_delta i (a i) (st i) (rg i))
      (fun r => shares_vec (fun i => fst (r i)) (map to_uint xs) /\ synced (fun i => fst (snd (r i)))).
  Proof.
    intros Hs Ha. unfold a2y2b_many. destruct (garbler_delta_ok Hs) as [HD Hs'].
    apply wp_bind. eapply wp_mono; [|exact (@a2y_many_wp _ _ _ rg a xs (delta_odd _) HD Hs' Ha)].
    cbv beta. intros y [Hy Sy]. apply wp_bind.
    assert (HW : Forall (fun bs => length bs <= W)%nat (map field_to_bits xs)).
    { apply Forall_forall. intros b [z [<- _]]%in_map_iff. rewrite fbits_length. lia. }
    eapply wp_mono; [|exact (@y2b_many_wp _ _ _ _ (delta_odd _) Sy Hy HW)].
    cbv beta. intros r [Hr Sr]. apply wp_ret. cbn [fst snd].
    rewrite map_map in Hr. rewrite (map_ext _ to_uint) in Hr by apply fbits_bval. auto.
  Qed.
End YaoWp.
