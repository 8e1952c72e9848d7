(** * Plonk: the proof of the plain prover verifies *)
From Coq Require Import String List Arith Bool Lia Ring Permutation.
From Verif Require Import Proc Alg Rep3Net Rep3 ShamirPoly Shamir ShamirAlg Dft Groth16 Groth16Gen Groth16Complete Plonk PlonkPoly PlonkComplete PlonkQuot PlonkVerify.
Import ListNotations.
Set Implicit Arguments.
Unset Strict Implicit.
Local Open Scope grp_scope.
Local Open Scope list_scope.

Section Final.
  Context {F : Type} {FF : Fld F} {FT : Fft F}.
  Add Ring FringPF : (@cring_theory F _).
  Infix "*" := rmul : grp_scope.
  Notation "1" := rone : grp_scope.
  Context {G1 G2 GT : Type} {AG1 : AbGrp G1} {MG1 : Mod F G1} {AG2 : AbGrp G2} {MG2 : Mod F G2} {AGT : AbGrp GT} {MGT : Mod F GT}.
  Notation D := (plain_pdriver (F := F) (G1 := G1)).

  Section Key.
    Context (dm : domains F) (zk : zkey F G1) (gen1 : G1) (tau : F).
    Context (KO : key_ok dm gen1 tau zk) (DO : domain_ok dm (domain_size zk)) (NP : 1 <= n_public zk).
    Let n := domain_size zk.
    Let w := dm_w dm.
    Lemma np_size : n_public zk <= n.
    Proof.
      pose proof (ko_maps KO) as M. inversion M as [|m l Lm _]; subst. destruct (n_public zk) as [|k] eqn:E; [lia|].
      pose proof (ko_public KO (j := k) ltac:(lia)) as K. assert (k < length (map_a zk)) by (apply nth_error_Some; congruence). fold n in Lm. lia.
    Qed.
    Lemma poly_in p : In p [qm_poly zk; ql_poly zk; qr_poly zk; qo_poly zk; qc_poly zk; s1_poly zk; s2_poly zk; s3_poly zk] -> length (coeffs p) <= n.
    Proof. intros I. apply (proj1 (Forall_forall _ _) (ko_polys KO) p). apply in_or_app. left. exact I. Qed.
    (** lib.rs:179-203: the values of the Lagrange polynomials of the key *)
    Lemma lagrange_evals_ok xi l xin : calculate_lagrange_evaluations (zk_pow zk) (n_public zk) xi w = Done (l, xin) ->
      xin = fpow xi n /\ length l = n_public zk /\ forall j, j < n_public zk -> nth j l 0 = q (lag zk j) xi.
    Proof.
      intros E. unfold calculate_lagrange_evaluations in E. ostep E l' El. injection E as <- <-. rewrite square_times_ok, <- (ko_size KO). fold n.
      split; [reflexivity|]. rewrite square_times_ok, <- (ko_size KO) in El. fold n in El. apply lagrange_loop_ok in El. rewrite Nat.max_r in El by exact NP.
      destruct El as (Ll & Kl). split; [exact Ll|]. intros j Lj. destruct (Kl j Lj) as (N0 & V). replace (1 * fpow w j) with (fpow w j) in N0, V by ring.
      apply (fcancel N0). rewrite V. pose proof np_size. assert (Ip : In (lag zk j) (lagrange zk)) by (apply nth_In; rewrite (ko_lagrange KO); exact Lj).
      assert (Lc : length (coeffs (lag zk j)) <= n) by (apply (proj1 (Forall_forall _ _) (ko_polys KO) (lag zk j)); apply in_or_app; right; exact Ip).
      rewrite <- (@lagrange_value F _ w n (coeffs (lag zk j)) j xi (do_w DO) ltac:(lia) Lc (fun i Li => ko_delta KO Lj Li)). unfold q. ring.
    Qed.
    Lemma commit_ok (p : list F) c : commit D zk p = Done c -> c = smul (peval p tau) gen1.
    Proof.
      intros E. unfold commit in E. ostep E u Eu. injection E as <-. apply need_done in Eu. cbn [pd_msm plain_pdriver]. rewrite (ko_tau KO).
      rewrite msm_powers by exact Eu. f_equal. cbn. ring.
    Qed.
    (** round5.rs:118-205 *)
    Lemma compute_r_ok pub beta gamma alpha xi ea eb ec es1 es2 ezw z t1 t2 t3 r :
      compute_r D zk dm pub beta gamma alpha xi ea eb ec es1 es2 ezw z t1 t2 t3 = Done r ->
      length (pe_poly z) <= n + 6 -> length t1 <= n + 6 -> length t2 <= n + 6 -> length t3 <= n + 6 ->
      exists l xin, calculate_lagrange_evaluations (zk_pow zk) (n_public zk) xi w = Done (l, xin) /\ length r = (n + 6)%nat /\
      let e3 := (ea + beta * es1 + gamma) * (eb + beta * es2 + gamma) * ezw * alpha in
      let e2 := (ea + beta * xi + gamma) * (eb + beta * xi * vk_k1 (verifying_key zk) + gamma) * (ec + beta * xi * vk_k2 (verifying_key zk) + gamma) * alpha in
      let e4 := alpha * alpha * nth 0 l 0 in
      forall x, peval r x = ea * eb * q (qm_poly zk) x + ea * q (ql_poly zk) x + eb * q (qr_poly zk) x + ec * q (qo_poly zk) x + q (qc_poly zk) x
        - e3 * beta * q (s3_poly zk) x + (e2 + e4) * peval (pe_poly z) x
        - (xin - 1) * (peval t1 x + xin * peval t2 x + xin * xin * peval t3 x)
        + (calculate_pi pub l - e3 * (ec + gamma) - e4).
    Proof.
      intros E Lz L1 L2 L3. unfold compute_r in E. ostep E lx El. destruct lx as [l xin]. exists l, xin. split; [exact El|]. apply done_inj in E. subst r. fold n. cbv zeta. cbn [fst snd].
      pose proof (@poly_in (qm_poly zk) ltac:(cbn; tauto)). pose proof (@poly_in (ql_poly zk) ltac:(cbn; tauto)). pose proof (@poly_in (qr_poly zk) ltac:(cbn; tauto)).
      pose proof (@poly_in (qo_poly zk) ltac:(cbn; tauto)). pose proof (@poly_in (qc_poly zk) ltac:(cbn; tauto)). pose proof (@poly_in (s3_poly zk) ltac:(cbn; tauto)).
      split; [rewrite on_head_length, !zip_into_length, repeat_length; reflexivity|]. intros x.
      match goal with |- peval (on_head (fun x => pd_add_public D x ?r0) ?s) _ = _ => set (r0' := r0); set (sh := s) end.
      rewrite (@peval_on_head F _ (fun x => pd_add_public D x r0') r0' (fun _ => eq_refl)).
      2: { intro X. assert (length sh = 0)%nat by (rewrite X; reflexivity). unfold sh in *. rewrite !zip_into_length, repeat_length in *. lia. }
      unfold sh.
      rewrite (@peval_zip_add F _ (fun x s => x - s) (- (1))) by (try (intros; ring); rewrite map_length, !zip_into_length, !repeat_length; lia).
      rewrite (@peval_zip_add F _ (fun x add => pd_add_public D x add) 1) by (try (intros; cbn; ring); rewrite !zip_into_length, !repeat_length, ?length_add_factor, ?length_add_poly, ?map_length, ?length_add_factor, ?map_length; lia).
      rewrite (@peval_zip_set F _ (fun _ add => smul _ add) (_)) by (try (intros; rewrite smulF; reflexivity); lia).
      match goal with |- context [map (smul ?k) ?c] => replace (peval (map (smul k) c) x) with (k * peval c x)
        by (rewrite <- (peval_map_mul k c x); f_equal; apply map_ext; intros; rewrite smulF; ring) end.
      rewrite (@peval_zip_add F _ gadd 1) by (try (intros; ring); rewrite !zip_into_length, !repeat_length; lia).
      rewrite (@peval_zip_add F _ (fun x add => x + smul xin add) xin) by (try (intros; rewrite smulF; ring); rewrite !zip_into_length, !repeat_length; lia).
      rewrite (@peval_zip_set F _ (fun _ add => smul _ add) (_)) by (try (intros; rewrite smulF; reflexivity); lia).
      rewrite peval_add_factor, peval_add_poly, !peval_add_factor, peval_map_mul. unfold q, r0'. ring.
    Qed.
    (** round5.rs:208-259 *)
    Lemma compute_wxi_ok v xi ea eb ec es1 es2 W r wxi : compute_wxi D zk v xi ea eb ec es1 es2 W r = Done wxi ->
      length r = (n + 6)%nat -> length (pe_poly (wire_a W)) <= n + 6 -> length (pe_poly (wire_b W)) <= n + 6 -> length (pe_poly (wire_c W)) <= n + 6 ->
      peval r xi = 0 -> peval (pe_poly (wire_a W)) xi = ea -> peval (pe_poly (wire_b W)) xi = eb -> peval (pe_poly (wire_c W)) xi = ec ->
      q (s1_poly zk) xi = es1 -> q (s2_poly zk) xi = es2 ->
      forall x, (x - xi) * peval wxi x = peval r x + nth 0 v 0 * (peval (pe_poly (wire_a W)) x - ea) + nth 1 v 0 * (peval (pe_poly (wire_b W)) x - eb)
        + nth 2 v 0 * (peval (pe_poly (wire_c W)) x - ec) + nth 3 v 0 * (q (s1_poly zk) x - es1) + nth 4 v 0 * (q (s2_poly zk) x - es2).
    Proof.
      intros E Lr La Lb Lc Er Ea Eb Ec E1 E2. unfold compute_wxi in E. cbv zeta in E. fold n in E.
      pose proof (@poly_in (s1_poly zk) ltac:(cbn; tauto)) as L1. pose proof (@poly_in (s2_poly zk) ltac:(cbn; tauto)) as L2.
      match type of E with div_by_zerofier ?c _ = _ => set (res := c) in E end.
      assert (Ln : length res = (n + 6)%nat) by (unfold res; rewrite !on_head_length, !zip_into_length, repeat_length; reflexivity).
      assert (Nn : forall c : list F, length c = (n + 6)%nat -> c <> []) by (intros c Lc0 X; rewrite X in Lc0; cbn in Lc0; lia).
      assert (V : forall x, peval res x = peval r x + nth 0 v 0 * (peval (pe_poly (wire_a W)) x - ea) + nth 1 v 0 * (peval (pe_poly (wire_b W)) x - eb)
        + nth 2 v 0 * (peval (pe_poly (wire_c W)) x - ec) + nth 3 v 0 * (q (s1_poly zk) x - es1) + nth 4 v 0 * (q (s2_poly zk) x - es2)).
      { intros x. unfold res. assert (OH : forall k c, length c = (n + 6)%nat -> peval (on_head (fun x => pd_add_public D x k) c) x = peval c x + k).
        { intros k c Lk. apply peval_on_head; [reflexivity|apply Nn; exact Lk]. }
        rewrite !OH by (rewrite ?on_head_length, !zip_into_length, repeat_length; reflexivity).
        assert (ZA : forall k (l m : list F), length l = (n + 6)%nat -> length m <= n + 6 -> peval (zip_into (fun x add => smul k add + x) l m) x = peval l x + k * peval m x).
        { intros k l m Ll Lm. apply (@peval_zip_add F _ (fun x add => smul k add + x) k); [intros; rewrite smulF; ring|lia]. }
        assert (ZP : forall k (l m : list F), length l = (n + 6)%nat -> length m <= n + 6 -> peval (zip_into (fun x add => pd_add_public D x (k * add)) l m) x = peval l x + k * peval m x).
        { intros k l m Ll Lm. apply (@peval_zip_add F _ (fun x add => pd_add_public D x (k * add)) k); [intros; reflexivity|lia]. }
        rewrite !ZP by (rewrite ?zip_into_length, ?repeat_length; lia). rewrite !ZA by (rewrite ?zip_into_length, ?repeat_length; lia).
        rewrite (@peval_zip_set F _ (fun _ add => add) 1) by (try (intros; ring); lia). unfold q. ring. }
      destruct (div_by_zerofier_ok E) as (_ & Q).
      - apply Nn. exact Ln.
      - rewrite V, Er, Ea, Eb, Ec, E1, E2. ring.
      - intros x. rewrite <- Q. apply V.
    Qed.
    Lemma compute_wxiw_ok xi ezw z wxiw : compute_wxiw D dm xi ezw z = Done wxiw -> pe_poly z <> [] -> peval (pe_poly z) (xi * w) = ezw ->
      forall x, (x - xi * w) * peval wxiw x = peval (pe_poly z) x - ezw.
    Proof.
      intros E Nz Ez. unfold compute_wxiw in E. fold w in E.
      assert (V : forall x, peval (on_head (fun x => pd_add_public D x (- ezw)) (pe_poly z)) x = peval (pe_poly z) x - ezw).
      { intros x. rewrite (@peval_on_head F _ (fun x => pd_add_public D x (- ezw)) (- ezw) (fun _ => eq_refl)) by exact Nz. ring. }
      destruct (div_by_zerofier_ok E) as (_ & Q).
      - destruct (pe_poly z); [congruence|discriminate].
      - rewrite V, Ez. ring.
      - intros x. rewrite <- Q. apply V.
    Qed.
  End Key.

  Lemma smul_neg_l {G} {AG : AbGrp G} {MG : Mod F G} (a : F) (g : G) : - smul a g = smul (- a) g.
  Proof.
    assert (E : smul (- a) g + smul a g = 0).
    { rewrite <- smul_add_l. replace (- a + a) with (0 : F) by ring. assert (Z : smul 0 g + smul 0 g = smul (0 : F) g) by (rewrite <- smul_add_l; f_equal; ring).
      set (z := smul (0 : F) g) in *. transitivity (z + z - z); [grp|]. rewrite Z. grp. }
    transitivity (smul (- a) g + smul a g - smul a g); [rewrite E; grp|grp].
  Qed.
  Lemma smul_sub_l {G} {AG : AbGrp G} {MG : Mod F G} (a b : F) (g : G) : smul a g - smul b g = smul (a - b) g.
  Proof. unfold gsub. rewrite smul_neg_l, <- smul_add_l. reflexivity. Qed.
  (** the blinding polynomials *)
  Lemma blind2 (bs : list F) k p x : length bs = 11%nat -> k + 2 <= 11 -> 2 <= length p ->
    peval (blind_coefficients p (firstn 2 (skipn k bs))) x = peval p x + (fpow x (length p) - 1) * (nth (k + 1) bs 0 + x * nth k bs 0).
  Proof.
    intros Lb Lk Lp. rewrite peval_blind by (rewrite firstn_length; lia). do 2 f_equal.
    do 12 (destruct bs as [|? bs]; [try discriminate Lb|]); try discriminate Lb.
    do 10 (destruct k as [|k]; [cbn [skipn firstn rev app nth Nat.add peval]; rewrite ?smulF; cbn; rewrite ?smulF; ring|]). lia.
  Qed.
  Lemma blind3 (bs : list F) p x : length bs = 11%nat -> 3 <= length p ->
    peval (blind_coefficients p (firstn 3 (skipn 6 bs))) x = peval p x + (fpow x (length p) - 1) * (nth 8 bs 0 + (x * x * nth 6 bs 0 + x * nth 7 bs 0)).
  Proof.
    intros Lb Lp. rewrite peval_blind by (rewrite firstn_length; lia). do 2 f_equal.
    do 12 (destruct bs as [|? bs]; [try discriminate Lb|]); try discriminate Lb.
    cbn [skipn firstn rev app nth Nat.add peval]. rewrite ?smulF. cbn. rewrite ?smulF. ring.
  Qed.

  Theorem plain_complete (H : list (F + G1) -> F) (e : G1 -> G2 -> GT) (gen1 : G1) (gen2 : G2) (tau : F) fuel (zk : zkey F G1) dm (pub wit full b r0 r1 : list F) (p : plonk_proof F G1) :
    fft_ok (F := F) -> pairing e -> domains_new fuel (domain_size zk) = Done dm -> key_ok dm gen1 tau zk -> 1 <= n_public zk ->
    assignment zk pub wit full -> gates_ok zk (dm_w dm) full -> plonk_plain_prove H fuel zk pub wit b r0 r1 = Done p ->
    exists V, plonk_verify e gen1 gen2 H fuel (verifier_key gen2 tau zk) p (tl pub) = Done V /\ V.
  Proof.
    intros FO PR ED KO NP AS GO E. pose proof (domains_ok FO ED) as DO. set (n := domain_size zk) in *. set (w := dm_w dm) in *.
    assert (L8 : 8 <= n) by exact (n8 KO).
    unfold plonk_plain_prove, plonk_prove_inner in E.
    lstep E i0 Ei. unfold init_round in Ei. lstep Ei pub0 Ep. lstep Ei add Ea. lstep Ei bs Eb. lstep Ei dm' Ed. fold n in Ed. rewrite ED in Ed. apply done_inj in Ed. subst dm'.
    apply done_inj in Ei. subst i0. cbn [fst snd] in E. apply rand_many_plain in Eb. destruct bs as [bs [lst fks]]. cbn [fst snd] in *. destruct Eb as (Lb & ->).
    assert (PA : partial_add zk full add).
    { apply (additions_ok AS Ep Ea); [intros j Lj; cbn in Lj; lia|]. intros j ad Hj. exact Hj. }
    assert (Epub : tl pub0 = tl pub) by (unfold witness_new in Ep; destruct pub; [discriminate|injection Ep as <-; reflexivity]).
    lstep E o1 E1. unfold round1 in E1. lstep E1 W EW. lstep E1 ca Eca. lstep E1 cb Ecb. lstep E1 cc Ecc. cbn in E1. apply done_inj in E1. subst o1. cbn [fst snd] in E.
    unfold compute_wire_polynomials in EW. ostep EW wa Ewa. ostep EW wb Ewb. ostep EW wc Ewc. destruct (_ || _); [discriminate|]. apply done_inj in EW. subst W.
    destruct wa as [bufa pa], wb as [bufb pb], wc as [bufc pc]. cbn [fst snd] in *. set (W := mkWires bufa bufb bufc pa pb pc) in *.
    pose proof (ko_maps KO) as KM. rewrite Forall_forall in KM.
    destruct (wire_ok DO AS Ep PA Ewa (KM (map_a zk) ltac:(cbn; tauto))) as (pA & LA & VA & Lba & Vba & Pa & EvA).
    destruct (wire_ok DO AS Ep PA Ewb (KM (map_b zk) ltac:(cbn; tauto))) as (pB & LB & VB & Lbb & Vbb & Pb & EvB).
    destruct (wire_ok DO AS Ep PA Ewc (KM (map_c zk) ltac:(cbn; tauto))) as (pC & LC & VC & Lbc & Vbc & Pc & EvC).
    lstep E o2 E2. unfold round2 in E2. cbn [fst snd] in E2. rewrite Epub in E2, E.
    set (beta := challenge_beta H (verifying_key zk) (tl pub) ca cb cc) in *. set (gamma := challenge_gamma H beta) in *.
    lstep E2 zz Ez. lstep E2 cz Ecz. cbn in E2. apply done_inj in E2. subst o2. destruct zz as [z st2]. cbn [fst snd] in *.
    destruct (compute_z_ok KO DO (as_zero AS) Ez Vba Vbb Vbc) as (pZ & LZ & VZ0 & VZ & Pz & EvZ & ->).
    lstep E o3 E3. unfold round3 in E3. set (alpha := challenge_alpha H beta gamma cz) in *.
    lstep E3 t Et. lstep E3 c1 Ec1. lstep E3 c2 Ec2. lstep E3 c3 Ec3. cbn in E3. apply done_inj in E3. subst o3. cbn [fst snd] in E.
    destruct (compute_t_ok (W := W) KO DO GO NP LA LB LC LZ Lba VA VB VC Vba VZ0 VZ EvA EvB EvC EvZ Et) as (T1 & T2 & T3 & Ts & TV). fold n in T1, T2, T3, TV.
    destruct t as [[[t1 t2] t3] st3]. cbn [fst snd] in *. subst st3.
    lstep E o4 E4. unfold round4 in E4. set (xi := challenge_xi H alpha (fst (fst (c1, c2, c3))) (snd (fst (c1, c2, c3))) (snd (c1, c2, c3))) in *. cbn in E4. apply done_inj in E4. subst o4. cbn [fst snd] in E.
    set (ea := peval (pe_poly pa) xi) in *. set (eb := peval (pe_poly pb) xi) in *. set (ec := peval (pe_poly pc) xi) in *. set (ezw := peval (pe_poly z) (xi * dm_w dm)) in *.
    set (es1 := peval (coeffs (s1_poly zk)) xi) in *. set (es2 := peval (coeffs (s2_poly zk)) xi) in *. set (v := challenge_v H xi ea eb ec es1 es2 ezw) in *.
    lstep E r Er. lstep E wxi Ew1. lstep E wxiw Ew2. lstep E cw1 Ecw1. lstep E cw2 Ecw2. cbn in E. apply done_inj in E. subst p.
    fold n in LA, LB, LC, LZ, Lba, VA, Vba.
    assert (BA : forall x, peval (pe_poly pa) x = peval pA x + (fpow x n - 1) * A' (fun k => nth k bs 0) x).
    { intros x. rewrite Pa, <- LA. apply (@blind2 bs 0); [exact Lb|lia|lia]. }
    assert (BB : forall x, peval (pe_poly pb) x = peval pB x + (fpow x n - 1) * B' (fun k => nth k bs 0) x).
    { intros x. rewrite Pb, <- LB. apply (@blind2 bs 2); [exact Lb|lia|lia]. }
    assert (BC : forall x, peval (pe_poly pc) x = peval pC x + (fpow x n - 1) * C' (fun k => nth k bs 0) x).
    { intros x. rewrite Pc, <- LC. apply (@blind2 bs 4); [exact Lb|lia|lia]. }
    assert (BZ : forall x, peval (pe_poly z) x = peval pZ x + (fpow x n - 1) * Z' (fun k => nth k bs 0) x).
    { intros x. rewrite Pz, <- LZ. apply blind3; [exact Lb|lia]. }
    assert (La : length (pe_poly pa) = (n + 2)%nat) by (rewrite Pa, length_blind, firstn_length; lia).
    assert (Lb' : length (pe_poly pb) = (n + 2)%nat) by (rewrite Pb, length_blind, firstn_length, skipn_length; lia).
    assert (Lc : length (pe_poly pc) = (n + 2)%nat) by (rewrite Pc, length_blind, firstn_length, skipn_length; lia).
    assert (Lz : length (pe_poly z) = (n + 3)%nat) by (rewrite Pz, length_blind, firstn_length, skipn_length; lia).
    destruct (compute_r_ok KO NP Er) as (l & xin & El & Lr & Vr); [fold n; lia..|]. cbv zeta in Vr.
    destruct (lagrange_evals_ok KO DO NP El) as (Xn & Ll & Vl). fold n in Xn, Lr.
    assert (Lpub : length (tl pub) = n_public zk) by (pose proof (as_public AS) as K; clear - K; destruct pub; cbn in K |- *; lia).
    assert (EPI : calculate_pi (tl pub) l = PI zk bufa xi).
    { rewrite calculate_pi_ok by lia. rewrite (PI_sum KO NP LA LB LC LZ Lba). f_equal. rewrite Lpub. apply sumn_ext. intros j Lj. rewrite Vl by exact Lj. f_equal.
      assert (Ljn : j < n) by (pose proof (np_size KO NP) as K; fold n in K; lia). rewrite Vba by exact Ljn. unfold cell_value. rewrite (ko_public KO Lj), (as_pub AS Lj).
      destruct pub; [discriminate Ep|reflexivity]. }
    assert (R0 : peval r xi = 0).
    { rewrite Vr, Xn, EPI, (Vl O ltac:(lia)). rewrite TV. unfold NB, num3, den3, zh. fold n w. rewrite <- BA, <- BB, <- BC, <- BZ. fold ea eb ec.
      assert (EZW : ezw = peval pZ (xi * w) + (fpow xi n - 1) * Z' (fun k => nth k bs 0) (xi * w)).
      { unfold ezw. fold w. rewrite BZ. unfold w. rewrite (w_n DO). reflexivity. }
      rewrite <- EZW. change (q (s1_poly zk) xi) with es1. change (q (s2_poly zk) xi) with es2. change (buffer_a W) with bufa. ring. }
    pose proof (compute_wxi_ok KO NP Ew1 Lr ltac:(cbn; fold n; lia) ltac:(cbn; fold n; lia) ltac:(cbn; fold n; lia) R0 eq_refl eq_refl eq_refl eq_refl eq_refl tau) as Q1.
    pose proof (compute_wxiw_ok Ew2 ltac:(intro X; rewrite X in Lz; cbn in Lz; lia) eq_refl tau) as Q2.
    clear Er Ew1 Ew2 Et Ez. cbn [wire_a wire_b wire_c W] in Q1, Eca, Ecb, Ecc.
    unfold plonk_verify. cbn [verifier_key jv_n_public jv_power jv_key jv_x2]. rewrite Lpub, Nat.eqb_refl. cbn [negb]. cbv zeta.
    rewrite <- (ko_size KO). fold n. rewrite ED. cbn [obd].
    match goal with |- context [calculate_lagrange_evaluations _ _ (ch_xi ?c) _] => set (ch := c) in * end.
    change (ch_xi ch) with xi. rewrite El. cbn [obd]. eexists. split; [reflexivity|]. cbn [fst snd].
    unfold valid_pairing, calculate_e, calculate_f, calculate_r0_d. cbv zeta. cbn [pp_a pp_b pp_c pp_z pp_t1 pp_t2 pp_t3 pp_eval_a pp_eval_b pp_eval_c pp_eval_s1 pp_eval_s2 pp_eval_zw pp_wxi pp_wxiw fst snd].
    change (ch_xi ch) with xi. change (ch_alpha ch) with alpha. change (ch_beta ch) with beta. change (ch_gamma ch) with gamma. change (ch_v ch) with v. generalize (ch_u ch). intros u.
    destruct (ko_vk KO) as (K1 & K2 & K3 & K4 & K5 & K6 & K7 & K8). rewrite K1, K2, K3, K4, K5, K6, K7, K8.
    apply (commit_ok KO) in Eca, Ecb, Ecc, Ecz, Ec1, Ec2, Ec3, Ecw1, Ecw2.
    clear - PR Eca Ecb Ecc Ecz Ec1 Ec2 Ec3 Ecw1 Ecw2 Q1 Q2 Vr. rewrite Eca, Ecb, Ecc, Ecz, Ec1, Ec2, Ec3, Ecw1, Ecw2.
    repeat (rewrite <- smul_mul || rewrite <- smul_add_l || rewrite smul_sub_l).
    rewrite (pair_smul PR). rewrite <- (smul_1 gen2) at 2. rewrite (pair_smul PR). f_equal.
    rewrite Vr in Q1. unfold q in Q1.
    transitivity ((tau - xi) * peval wxi tau + u * ((tau - xi * dm_w dm) * peval wxiw tau) + (xi * peval wxi tau + u * xi * dm_w dm * peval wxiw tau)); [ring|].
    rewrite Q1, Q2. ring.
  Qed.

  (** round3.rs:451: the first Lagrange polynomial is used in every case *)
  Lemma no_lagrange (H : list (F + G1) -> F) fuel (zk : zkey F G1) (pub wit b r0 r1 : list F) p :
    Plonk.lagrange zk = [] -> plonk_plain_prove H fuel zk pub wit b r0 r1 <> Done p.
  Proof.
    intros EL E. unfold plonk_plain_prove, plonk_prove_inner in E. lstep E i0 Ei. lstep E o1 E1. lstep E o2 E2. lstep E o3 E3. clear E.
    unfold round3 in E3. lstep E3 t Et. clear E3. unfold compute_t in Et. cbv zeta in Et.
    do 13 (let x := fresh in let E := fresh in lstep Et x E). lstep Et u N. apply need_done in N. rewrite EL in N. cbn in N. lia.
  Qed.
End Final.
