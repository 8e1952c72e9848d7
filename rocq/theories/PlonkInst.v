(** * The Rep3 and the Shamir Plonk prover compute the plain proof *)
From Coq Require Import String List Arith Bool Lia Ring.
From Verif Require Import Proc Alg Rep3Net NNet Rep3 Rep3Spec Rep3Proofs Rep3Wp.
From Verif Require Import ShamirPoly Shamir ShamirAlg ShamirSpec ShamirRng ShamirDeal ShamirWp ShamirRed ShamirOps ShamirSetup Dft Groth16 Groth16Gen Groth16Inst Plonk PlonkGen PlonkIdeal.
Import ListNotations.
Set Implicit Arguments.
Unset Strict Implicit.
Local Open Scope grp_scope.
Local Open Scope list_scope.

Section Rep3Exact.
  Context {F S M : Type} {FF : Fld F} {DF : Draw S F} {EF : Enc M (list F)} {Seed : Type} {SS : Seeded S Seed} {DS : Draw S Seed}.
  Context (cap : nat) (cap_pos : 1 <= cap).
  Add Ring FringPE : (@cring_theory F _).
  Notation T := (pid -> rst S).
  (** ** The states of the parties as a function of the operations *)
  Definition zs (m : nat) : list (share F) := repeat zero_share m.
  Definition r_rand (t : T) : F * T := (fresh t, fun i => snd (rand (G := F) (t i))).
  Definition r_mul (m : nat) (t : T) : T := fun i => snd (lmul_vec (C := F) (t i) (zs m) (zs m)).
  Definition r_inv (m : nat) (t : T) : list F * T := (fresh_vec m t, r_mul m (fun i => snd (rands (G := F) m (t i)))).
  Definition r_fork (m : nat) (t : T) : T * T := (fun i => fst (fork (Seed := Seed) (t i)), fun i => snd (fork (Seed := Seed) (t i))).
  Lemma lmul_vec_state m : forall (st : rst S) (xs ys : list (share F)), length xs = m -> length ys = m ->
    snd (lmul_vec (C := F) st xs ys) = snd (lmul_vec (C := F) st (zs m) (zs m)).
  Proof.
    clear. unfold zs. induction m as [|m IH]; intros st [|x xs] [|y ys] Lx Ly; cbn in *; try discriminate; [reflexivity|]. apply IH; lia.
  Qed.
  Definition QR (k : nat) (st : pid -> rst S) (t : T) : Prop := synced t /\ forall i, st i = t i.
  Lemma draws_len k : forall s : S, length (fst (draws (X := F) k s)) = k.
  Proof. induction k as [|k IH]; intros s; cbn; [reflexivity|]. rewrite IH. reflexivity. Qed.
  Lemma gadd_length (x y : list F) m : length x = m -> length y = m -> length (map2 gadd x y) = m.
  Proof. clear. revert x y. induction m as [|m IH]; intros [|a x] [|b y] Hx Hy; cbn in *; try lia. f_equal. apply IH; lia. Qed.
  Lemma r_inv_length k t : length (fst (r_inv k t)) = k.
  Proof. cbn. unfold fresh_vec. apply gadd_length; [apply gadd_length|]; apply draws_len. Qed.
  Lemma r_mul_synced m t a b (xs ys : list F) : synced t -> shares_vec a xs -> shares_vec b ys -> length xs = m -> length ys = m -> synced (r_mul m t).
  Proof.
    clear. intros Hs A B La Lb. destruct (lmul_vec_ok Hs A B) as [_ K]. eapply synced_ext; [|exact K].
    intros i. apply lmul_vec_state; [rewrite (pvec_len i A); exact La|rewrite (pvec_len i B); exact Lb].
  Qed.
  Lemma mul_exact t a b (xs ys : list F) : synced t -> shares_vec a xs -> shares_vec b ys ->
    wp (M := M) cap (fun i => mul_vec i (t i) (a i) (b i)) (fun r => shares_vec (fun i => fst (r i)) (map2 rmul xs ys) /\
      forall i, snd (r i) = snd (lmul_vec (C := F) (t i) (a i) (b i))).
  Proof.
    intros Hst Ha Hb. destruct (lmul_vec_ok Hst Ha Hb) as [Hz _]. unfold mul_vec. apply wp_bind. eapply wp_mono; [|apply (reshare_vec_wp cap_pos); exact Hz].
    intros r Hr. apply wp_ret. split; [exact Hr|reflexivity].
  Qed.
  Lemma mul_open_exact t a b (xs ys : list F) : synced t -> shares_vec a xs -> shares_vec b ys ->
    wp (M := M) cap (fun i => mul_open_vec i (t i) (a i) (b i)) (fun r => (forall i, fst (r i) = map2 rmul xs ys) /\
      forall i, snd (r i) = snd (lmul_vec (C := F) (t i) (a i) (b i))).
  Proof.
    intros Hst Ha Hb. destruct (lmul_vec_ok Hst Ha Hb) as [Hz _]. unfold mul_open_vec. apply wp_bind. apply wp_broadcast_many; [exact cap_pos|]. apply wp_ret.
    split; [|reflexivity]. intros i. cbn [fst snd]. apply (additive_vec_open Hz i).
  Qed.
  Lemma inv_vec_exact t a (xs : list F) : synced t -> shares_vec a xs ->
    wpo (M := M) cap (fun i => inv_vec i (t i) (a i)) (fun o =>
      (existsb (fun y => feqb y 0) (map2 rmul xs (fresh_vec (length xs) t)) = true /\ forall i, o i = Failed inv_err) \/
      (existsb (fun y => feqb y 0) (map2 rmul xs (fresh_vec (length xs) t)) = false /\ exists v, (forall i, o i = Done (v i)) /\
        shares_vec (fun i => fst (v i)) (map finv xs) /\ forall i, snd (v i) = snd (r_inv (length xs) t) i)).
  Proof.
    intros Hst Ha. destruct (rands_ok (G := F) (length xs) Hst) as [Hr Hst'].
    fold (fresh_vec (length xs) t) in Hr. unfold inv_vec.
    apply wpo_ext with (qs := fun i =>
      y <- mul_open_vec i (snd (rands (G := F) (length xs) (t i))) (a i) (fst (rands (G := F) (length xs) (t i))) ;;
      (if existsb (fun y => feqb y 0) (fst y) then Fail inv_err
       else Ret (map2 (fun r y => mul_public r (finv y)) (fst (rands (G := F) (length xs) (t i))) (fst y), snd y))).
    { intros i. rewrite (pvec_len i Ha). reflexivity. }
    apply wpo_bind. eapply wp_mono; [|apply (mul_open_exact Hst' Ha Hr)].
    intros y [Hy Hs]. set (rs := fresh_vec (length xs) t) in *.
    assert (Elen : length rs = length xs).
    { rewrite <- (pvec_len Rep3Net.P0 Hr). apply rands_length. }
    destruct (existsb (fun y => feqb y 0) (map2 rmul xs rs)) eqn:E.
    - eapply wpo_ext with (qs := fun _ => Fail inv_err); [intros i; rewrite Hy, E; reflexivity|].
      apply wpo_fail. left. split; reflexivity.
    - assert (Hne : ~ In (0 : F) (map2 rmul xs rs)) by (intros C; apply (existsb_zero (F := F)) in C; congruence).
      eapply wpo_ext with (qs := fun i => Ret (map2 (fun r y => mul_public r (finv y)) (fst (rands (length xs) (t i))) (map2 rmul xs rs), snd (y i)));
        [intros i; rewrite Hy, E; reflexivity|].
      apply wp_wpo. apply wp_ret. right. split; [reflexivity|]. eexists. split; [reflexivity|].
      cbn [fst snd]. split; [|intros i; rewrite Hs; cbn [snd r_inv]; unfold r_mul; apply lmul_vec_state; [exact (pvec_len i Ha)|apply rands_length]].
      assert (Ev : map finv xs = map2 (fun r y => rmul r (finv y)) rs (map2 rmul xs rs)).
      { clear -Hne Elen. revert Hne Elen. generalize rs. induction xs as [|x xs IH]; intros [|r ks] Hne El; try discriminate; [reflexivity|].
        cbn in *. f_equal.
        - symmetry. apply mul_eq_finv.
          + apply finv_prod. intros C. apply Hne. left. exact C.
          + intros ->. apply Hne. left. ring.
        - apply IH; [tauto|congruence]. }
      rewrite Ev.
      eapply (@pvec_map2 _ _ _ _ _ _ (@shares F _) (fun (a : pid -> F) y => forall i, a i = y) (@shares F _)
               (fun _ r y => mul_public r (finv y)) (fun r y => rmul r (finv y)) _ (fun _ => map2 rmul xs rs)).
      + intros r yy x0 y0 Hsh Hyy. eapply shares_ext; [|apply (mul_public_ok (finv y0) Hsh)].
        intros i. cbn. rewrite Hyy. reflexivity.
      + exact Hr.
      + split; [reflexivity|]. intros n x0 Hx0. exists (fun _ => x0). split; auto.
  Qed.
End Rep3Exact.

Section Rep3.
  Context {F G1 S M : Type} {FF : Fld F} {AG1 : AbGrp G1} {MG1 : Mod F G1}.
  Context {DF : Draw S F} {EF : Enc M (list F)} {E1 : Enc M (list G1)}.
  Context {FT : Fft F} {Seed : Type} {SS : Seeded S Seed} {DS : Draw S Seed} {ES : Enc M (list Seed)} {ESS : Enc M (list (Seed * Seed))}.
  Context (cap : nat) (cap_pos : 1 <= cap).
  Notation all := (fun _ : pid => True).
  #[local] Existing Instance share_grp.
  #[local] Existing Instance share_mod.
  Add Ring FringPI : (@cring_theory F _).
  Notation T := (pid -> rst S).
  Lemma lin_shares_g {G} {AG : AbGrp G} {MG : Mod F G} : lin all (shares (G := G)).
  Proof.
    constructor.
    - intros a b x E. apply shares_ext. intros i. apply E. exact I.
    - split; [intros i; reflexivity|]. unfold additive. cbn. grp.
    - intros a b x y [A1 A2] [B1 B2]. split; [intros i; cbn; rewrite A1, B1; reflexivity|]. unfold additive in *. cbn. rewrite <- A2, <- B2. grp.
    - intros c a x [A1 A2]. split; [intros i; cbn; rewrite A1; reflexivity|]. unfold additive in *. cbn. rewrite <- A2, !smul_add_r. reflexivity.
  Qed.
  Lemma wo_rep3 : wo_rules all (fun _ => False) (fun A => wpo (A := A) (M := M) cap).
  Proof.
    constructor.
    - intros A B ps ks Q K. apply wpo_seq. exact K.
    - intros A ps qs Q E. apply wpo_ext. intros i. apply E. exact I.
    - intros A ps Q Q' K. apply wpo_mono. exact K.
    - intros A e Q K. apply wpo_fail. apply K. reflexivity.
    - intros A a Q K. apply wp_wpo. apply wp_ret. apply K. reflexivity.
    - intros e [].
  Qed.
  Notation prel := (prel all (fun e e' => e = e') (fun _ => False) (fun A => wpo (A := A) (M := M) cap)).
  Lemma prel_wp {A B} (R : (pid -> A) -> B -> Prop) ps b : wp (M := M) cap ps (fun a => R a b) -> prel R ps (Ret b).
  Proof. intros K. unfold PlonkGen.prel. apply wp_wpo. eapply wp_mono; [|exact K]. intros a Ha. exists a. split; [reflexivity|exact Ha]. Qed.
  Lemma horner_peval (cs : list (share F)) x : horner cs x = peval cs x.
  Proof.
    unfold horner. induction cs as [|c cs IH]; [reflexivity|]. cbn [fold_right peval]. rewrite IH. cbn. unfold shadd, mul_public. cbn. f_equal; ring.
  Qed.
  Lemma peval_split {G} {AG : AbGrp G} {MG : Mod F G} (c d : list G) x : peval (c ++ d) x = peval c x + smul (rpow x (length c)) (peval d x).
  Proof.
    induction c as [|a c IH]; cbn [app peval length rpow]; [rewrite smul_1, gadd_0; reflexivity|]. rewrite IH, smul_add_r, smul_mul. grp.
  Qed.
  Lemma eval_chunks_peval k x : 1 <= k -> forall fuel (cs : list (share F)) idx, length cs <= fuel ->
    eval_chunks k x idx (chunks_ fuel k cs) = smul (rpow x (idx * k)) (peval cs x).
  Proof.
    clear. intros Hk. induction fuel as [|fuel IH]; intros cs idx L.
    - destruct cs; [|cbn in L; lia]. cbn [chunks_ eval_chunks peval]. rewrite smul_0_r. reflexivity.
    - destruct (Nat.eq_dec (length cs) 0) as [E0|E0].
      + destruct cs; [|discriminate]. cbn [chunks_ eval_chunks peval]. rewrite smul_0_r. reflexivity.
      + transitivity (shadd (mul_public (horner (firstn k cs) x) (rpow x (idx * k))) (eval_chunks k x (Datatypes.S idx) (chunks_ fuel k (skipn k cs)))).
        { destruct cs; [cbn in E0; lia|reflexivity]. }
        rewrite IH by (rewrite skipn_length; lia). rewrite horner_peval. rewrite <- (firstn_skipn k cs) at 3. rewrite peval_split, smul_add_r, <- smul_mul.
        destruct (Nat.le_gt_cases (length cs) k) as [L1|L1].
        * rewrite (skipn_all2 cs L1). cbn [peval]. rewrite !smul_0_r. cbn. unfold shadd, mul_public. cbn. f_equal; f_equal; ring.
        * rewrite firstn_length, Nat.min_l by lia. replace (rpow x (Datatypes.S idx * k)) with (rmul (rpow x (idx * k)) (rpow x k)).
          -- cbn. unfold shadd, mul_public. cbn. f_equal; f_equal; ring.
          -- rewrite <- rpow_add. f_equal. lia.
  Qed.
  Lemma eval_poly_peval threads (cs : list (share F)) x : cs <> [] -> eval_poly threads (fun x => feqb x 0) cs x = Some (peval cs x).
  Proof.
    clear. intros Hc. unfold eval_poly. destruct (feqb x 0) eqn:E0.
    - apply feqb_spec in E0. subst. destruct cs as [|c cs]; [contradiction|]. rewrite peval_0. reflexivity.
    - f_equal. unfold chunks. rewrite eval_chunks_peval by lia. cbn [Nat.mul rpow]. apply smul_1.
  Qed.
  Lemma rep3_ops (threads : pid -> nat) :
    ops r_rand r_inv r_mul r_mul r_fork inv_err all (fun e e' => e = e') (fun _ => False) (fun A => wpo (A := A) (M := M) cap)
      (fun i => rep3_pdriver (Seed := Seed) (M := M) (threads i) i) (fun i a b st => mul_open_vec i st a b) (fun i a st => inv_vec i st a)
      (shares (G := F)) (shares (G := G1)) QR.
  Proof.
    constructor.
    - reflexivity.
    - intros a x c A. exact (add_public_ok c A).
    - intros c. exact (promote_ok c).
    - intros ps a x V. apply (lv_pvec lin_shares) in V. exact (msm_ok ps V).
    - intros a x p V Hx. cbn. exists (fun i => peval (a i) p). split.
      + intros i _. rewrite eval_poly_peval; [reflexivity|]. intros E0. destruct V as [L _]. specialize (L i I). rewrite E0 in L. destruct x; [contradiction|discriminate].
      + apply (lv_peval lin_shares), V.
    - intros k k' st t _ Y. exact Y.
    - intros k st t [Hs Et]. apply prel_wp. apply wp_ret. destruct (rand_ok (G := F) Hs) as [R1 R2]. split; cbn [fst snd r_rand].
      + eapply shares_ext; [|exact R1]. intros i. rewrite Et. reflexivity.
      + split; [exact R2|]. intros i. rewrite Et. reflexivity.
    - intros m k st t [Hs Et]. cbn. exists (fun i => fork (Seed := Seed) (st i)). split; [reflexivity|]. destruct (fork_ok (Seed := Seed) Hs) as [R1 R2].
      split; cbn [fst snd r_fork]; (split; [assumption|]); intros i; rewrite Et; reflexivity.
    - intros m k st t a x b y [Hs Et] [A La] [B Lb]. apply (lv_pvec lin_shares) in A, B. apply prel_wp.
      eapply wp_mono; [|eapply wp_ext; [|apply (mul_exact cap_pos Hs A B)]]; [|intros i; cbn; rewrite Et; reflexivity]. intros r [R1 R2].
      split; cbn [fst snd]; [apply (lv_pvec lin_shares); exact R1|]. split; [|intros i; rewrite R2; apply lmul_vec_state; [rewrite (pvec_len i A); exact La|rewrite (pvec_len i B); exact Lb]].
      exact (r_mul_synced Hs A B La Lb).
    - intros m k st t a x b y [Hs Et] [A La] [B Lb]. apply (lv_pvec lin_shares) in A, B. apply prel_wp.
      eapply wp_mono; [|eapply wp_ext; [|apply (mul_open_exact cap_pos Hs A B)]]; [|intros i; cbn; rewrite Et; reflexivity]. intros r [R1 R2].
      split; cbn [fst snd]; [intros i _; apply R1|]. split; [|intros i; rewrite R2; apply lmul_vec_state; [rewrite (pvec_len i A); exact La|rewrite (pvec_len i B); exact Lb]].
      exact (r_mul_synced Hs A B La Lb).
    - intros m k st t a x [Hs Et] [A La]. apply (lv_pvec lin_shares) in A. unfold PlonkGen.prel, id_inv.
      eapply wpo_mono; [|eapply wpo_ext; [|apply (inv_vec_exact cap_pos Hs A)]]; [|intros i; cbn; rewrite Et; reflexivity].
      intros o [(Ex & Ho)|(Ex & v & Ho & V1 & V2)]; cbn [fst snd r_inv]; rewrite Ex.
      + right. exists inv_err. split; [reflexivity|]. intros i _. apply Ho.
      + exists v. split; [intros i _; apply Ho|]. split; cbn [fst snd]; [apply (lv_pvec lin_shares); exact V1|]. split; [|exact V2].
        try subst m.
        destruct (rands_ok (G := F) (length x) Hs) as [Hr Hst']. refine (r_mul_synced Hst' A Hr eq_refl _).
        rewrite <- (pvec_len Rep3Net.P0 Hr). apply rands_length.
    - intros k st t a x _ A. apply (lv_pvec lin_shares) in A. apply prel_wp. eapply wp_mono; [|exact (open_vec_wp cap_pos A)]. intros r Hr i _. apply Hr.
    - intros k st t a x _ A. apply prel_wp. eapply wp_mono; [|exact (open_wp cap_pos A)]. intros r Hr i _. apply Hr.
    - intros k st t a x _ A. apply (lv_pvec (lin_shares_g (G := G1))) in A. apply prel_wp. eapply wp_mono; [|exact (open_vec_wp cap_pos A)]. intros r Hr i _. apply Hr.
  Qed.
  Theorem plonk_rep3_ok (H : list (F + G1) -> F) fuel (threads : pid -> nat) (seed : pid -> Seed) n :
    exists b r0 r1 ks, forall (zk : zkey F G1) pub (wit : pid -> list (share F)) (w : list F), domain_size zk = n -> shares_vec wit w ->
      exists o, all_end cap (fun i => plonk_rep3_prove (M := M) H fuel (threads i) zk i (seed i) pub (wit i)) (fun r => forall i, r i = o) /\
        (forall p, o = Done p -> plonk_plain_prove H fuel zk pub w b r0 r1 = Done p) /\
        (nonzero (r0 ++ r1 ++ ks) -> match o, plonk_plain_prove H fuel zk pub w b r0 r1 with
                                     | Done p, Done p' => p = p'
                                     | Failed e, Failed e' => masked_error inv_err e' e
                                     | _, _ => False
                                     end).
  Proof.
    destruct (new_state_wp (S := S) (M := M) cap_pos seed) as (st & Rst & Y & _).
    exists (tape_b r_rand st), (tape_0 r_rand r_mul r_fork n st), (tape_1 r_rand r_mul r_fork n st), (tape_masks r_rand r_inv r_mul r_mul r_fork n st).
    intros zk pub wit w <- W. exists (local (plonk_prove_inner (ideal_pdriver (G1 := G1) r_rand r_inv r_mul r_mul r_fork inv_err) H fuel zk pub w st)).
    split; [|split].
    - apply wpo_all_end. unfold plonk_rep3_prove. apply wpo_bind. exists st. split; [exact Rst|].
      apply (lv_pvec lin_shares) in W.
      pose proof (parties_ideal (fun e => eq_refl) wo_rep3 lin_shares (lin_shares_g (G := G1)) (rep3_ops threads) H fuel (zk := zk) pub (st := st) (t := st) W (conj Y (fun i => eq_refl))) as K.
      eapply wpo_mono; [|exact K]. intros o Ho. destruct (local _) as [p|e].
      + destruct Ho as (a & Ea & Eq). intros i. rewrite (Ea i I). f_equal. exact (Eq i I).
      + destruct Ho as [[]|(e' & -> & Ho)]. intros i. exact (Ho i I).
    - intros p. apply (ideal_done r_inv_length).
    - intros Hn. exact (ideal_agrees inv_err r_inv_length H fuel pub w Hn).
  Qed.
End Rep3.

Section Shamir.
  Context {F G1 Sg M : Type} {FF : Fld F} {AG1 : AbGrp G1} {MG1 : Mod F G1}.
  Context {DF : Draw Sg F} {EF : Enc M (list F)} {E1 : Enc M G1} {E1s : Enc M (list G1)}.
  Context {FT : Fft F} {Seed : Type} {SDS : Seeded Sg Seed} {DS : Draw Sg Seed} {ES : Enc M (list Seed)} (seed0 : Seed).
  Context (n t cap : nat).
  Notation dom := (fun i : nat => i < n).
  Notation sst := (sst (F := F) (Sg := Sg)).
  Notation T := (list (list F * list F)).
  Add Ring FringPS : (@cring_theory F _).
  (** ** The buffered double sharings as a function of the operations *)
  Definition secret (pq : list F * list F) : F := peval (fst pq) 0.
  Definition s_rand (L : T) : F * T := (secret (last L ([], [])), removelast L).
  Definition s_mul (m : nat) (L : T) : T := firstn (length L - m) L.
  Definition s_mo (m : nat) (L : T) : T := L.
  Definition s_inv (m : nat) (L : T) : list F * T := (resize m rone (map secret (firstn m (rev L))), firstn (length L - m) L).
  Definition s_fork (m : nat) (L : T) : T * T := (firstn m L, skipn m L).
  Definition QS (k : nat) (st : nat -> sst) (L : T) : Prop := k <= length L /\ exists gen, sm_wf n t gen L st.
  Lemma s_inv_length k L : length (fst (s_inv k L)) = k.
  Proof. cbn. apply resize_length. Qed.
  Definition s_err : err := Eyre "Cannot compute inverse of zero".
  Lemma wo_shamir : wo_rules dom (fun _ => False) (fun A => wpon (A := A) (M := M) n cap).
  Proof.
    constructor.
    - intros A B ps ks Q K. apply wpon_seq. exact K.
    - intros A ps qs Q E. apply wpon_ext. exact E.
    - intros A ps Q Q' K. apply wpon_mono. exact K.
    - intros A e Q K. apply wpon_fail with (e := e); [reflexivity|]. apply K. reflexivity.
    - intros A a Q K. apply wpn_wpon. apply wpn_ret. apply K. reflexivity.
    - intros e [].
  Qed.
  Notation prel := (prel dom (fun e e' => e = e') (fun _ => False) (fun A => wpon (A := A) (M := M) n cap)).
  Lemma prel_wpn {A B} (R : (nat -> A) -> B -> Prop) ps b : wpn (M := M) n cap ps (fun a => R a b) -> prel R ps (Ret b).
  Proof. intros K. unfold PlonkGen.prel. apply wpn_wpon. eapply wpn_mono; [|exact K]. intros a Ha. exists a. split; [reflexivity|exact Ha]. Qed.
  Hypothesis n2 : 2 <= n.
  Hypothesis nt : 2 * t + 1 <= n.
  Hypothesis hcap : cap_ok n t cap.
  Hypothesis inj : forall a b, a <= n -> b <= n -> fnat a = (fnat b : F) -> a = b.
  Lemma took_mul gen L pqs gen' L' m : took_many (F := F) t gen L pqs gen' L' -> length pqs = m -> m <= length L -> L' = s_mul m L /\ rev pqs = skipn (length L - m) L /\ length L' = (length L - m)%nat.
  Proof.
    intros T Em Hl. destruct (took_many_buffered n2 nt hcap T ltac:(lia)) as [-> _]. unfold s_mul. rewrite app_length, rev_length in *.
    replace (length L' + length pqs - m)%nat with (length L') by lia. rewrite firstn_app, firstn_all, Nat.sub_diag, skipn_app, skipn_all, Nat.sub_diag. cbn. rewrite app_nil_r. auto.
  Qed.
  Lemma sm_msm_eq (ps : list G1) (x : list F) : sm_msm_public_points ps x = msm ps x.
  Proof.
    unfold sm_msm_public_points. enough (K : forall a, fold_left (fun acc ps => acc + smul (snd ps) (fst ps)) (List.combine ps x) a = a + msm ps x) by (rewrite K; grp).
    clear. revert x. induction ps as [|p ps IH]; intros [|x xs] a; cbn; try grp. rewrite IH. grp.
  Qed.
  Lemma shamir_ops :
    ops s_rand s_inv s_mul s_mo s_fork s_err dom (fun e e' => e = e') (fun _ => False) (fun A => wpon (A := A) (M := M) n cap)
      (fun _ => shamir_pdriver (Seed := Seed) (G1 := G1) (M := M) (F := F) (Sg := Sg)) (fun _ a b st => o <- sm_mul_open_vec a b st ;; Ret (o, st)) (fun _ a st => sm_inv_vec a st)
      (sharing (G := F) n t) (sharing (G := G1) n t) QS.
  Proof.
    constructor.
    - reflexivity.
    - intros a x c A. exact (sharing_add A (sharing_const n t c)).
    - intros c. apply sharing_const.
    - intros ps a x V. rewrite <- sm_msm_eq. exact (sharing_msm ps V).
    - intros a x p V Hx. cbn. exists (fun i => peval (a i) p). split; [reflexivity|]. apply (lv_peval (lin_sharing n t)), V.
    - intros k k' st L Hk [Hl W]. split; [lia|exact W].
    - intros k st L [Hl (gen & W)]. apply prel_wpn. eapply wpn_mono; [|apply (sm_rand_wp n2 nt hcap inj W)].
      intros o (pq & gen' & L' & T & Hs & W'). inversion T as [g l p Ea Eb Ec Ed Ee|g l p E0 Ea Eb Ec Ed Ee]; subst; [|cbn in Hl; lia].
      split; cbn [fst snd s_rand]; [rewrite last_last; exact Hs|]. rewrite removelast_last. split; [rewrite app_length in Hl; cbn in Hl; lia|exists gen'; exact W'].
    - intros m k st L [Hl (gen & W)]. destruct (sm_fork_ok n2 nt hcap (Seed := Seed) (amount := m) W ltac:(lia)) as (c & p & Ef & Wc & Wp).
      exists (fun i => (c i, p i)). split; [exact Ef|]. split; cbn [fst snd s_fork].
      + split; [rewrite firstn_length; lia|exists gen; exact Wc].
      + split; [rewrite skipn_length; lia|exists gen; exact Wp].
    - intros m k st L a x b y [Hl (gen & W)] [A La] [B Lb]. apply prel_wpn. eapply wpn_mono; [|apply (sm_mul_vec_wp n2 nt hcap inj W (eq_trans La (eq_sym Lb)) A B)].
      intros o (Ho & pqs & gen' & L' & T & Ep & W'). split; cbn [fst snd]; [exact Ho|]. destruct (took_mul T (eq_trans Ep La) ltac:(lia)) as (<- & _ & E').
      split; [lia|exists gen'; exact W'].
    - intros m k st L a x b y [Hl (gen & W)] [A La] [B Lb]. apply prel_wpn. apply wpn_bind.
      eapply wpn_mono; [|apply (sm_mul_open_vec_wp n2 nt (cap1 n2 nt hcap) inj W (eq_trans La (eq_sym Lb)) A B)].
      intros o Ho. apply wpn_ret with (a := fun i => (o i, st i)). split; cbn [fst snd]; [intros i Hi; apply Ho; exact Hi|]. split; [exact Hl|exists gen; exact W].
    - intros m k st L a x [Hl (gen & W)] [A La]. unfold PlonkGen.prel, id_inv. eapply wpon_mono; [|apply (sm_inv_vec_wp n2 nt hcap inj W A)].
      intros o (pqs & gen' & L' & T & Ep & Bad & Good). destruct (took_mul T (eq_trans Ep La) ltac:(lia)) as (El & Er & E').
      assert (Em : fst (s_inv (length x) L) = map secret pqs).
      { cbn [fst s_inv]. rewrite La. rewrite firstn_rev, <- Er, rev_involutive. unfold resize. rewrite firstn_all2 by (rewrite map_length; lia).
        rewrite map_length. replace (m - length pqs)%nat with O by lia. cbn. apply app_nil_r. }
      assert (Es : snd (s_inv (length x) L) = L') by (cbn [snd s_inv]; rewrite La; symmetry; exact El).
      rewrite Em, Es. fold secret in Bad, Good.
      assert (Ex : existsb (fun y => feqb y 0) (map2 rmul x (map secret pqs)) = true <-> exists k, k < length x /\ rmul (nth k x 0) (nth k (map secret pqs) 0) = 0).
      { clear -Ep. revert Ep. revert x. induction pqs as [|pq pqs IH]; intros [|x xs] Ep; try discriminate; cbn in Ep |- *.
        - split; [discriminate|]. intros (k & Hk & _). lia.
        - rewrite Bool.orb_true_iff, IH by lia. split.
          + intros [E0|(k & Hk & E0)]; [exists O; split; [lia|]; apply feqb_spec; exact E0|exists (S k); split; [lia|exact E0]].
          + intros ([|k] & Hk & E0); [left; apply feqb_spec; exact E0|right; exists k; split; [lia|exact E0]]. }
      destruct (existsb _ _).
      + right. exists s_err. split; [reflexivity|]. intros i _. apply Bad. apply Ex. reflexivity.
      + destruct Good as (s & st' & Ho & Hs & W').
        { intros k0 Hk C. assert (false = true) by (apply Ex; exists k0; split; assumption). discriminate. }
        exists (fun i => (s i, st' i)). split; [exact Ho|]. split; cbn [fst snd]; [exact Hs|]. split; [lia|exists gen'; exact W'].
    - intros k st L a x [_ (gen & W)] A. apply prel_wpn. eapply wpn_mono; [|exact (sm_open_vec_wp n2 nt (cap1 n2 nt hcap) inj W A)]. intros r Hr i Hi. apply Hr, Hi.
    - intros k st L a x [_ (gen & W)] A. apply prel_wpn. eapply wpn_mono; [|exact (sm_open_wp n2 nt (cap1 n2 nt hcap) inj W A)]. intros r Hr i Hi. apply Hr, Hi.
    - intros k st L a x [_ (gen & W)] A. apply prel_wpn. eapply wpn_mono; [|exact (sm_open_vec_wp n2 nt (cap1 n2 nt hcap) inj W A)]. intros r Hr i Hi. apply Hr, Hi.
  Qed.
  Theorem plonk_shamir_ok (H : list (F + G1) -> F) fuel (seed : nat -> Seed) dn :
    exists b r0 r1 ks, forall (zk : zkey F G1) pub (wit : nat -> list F) (w : list F), domain_size zk = dn -> sharings n t wit w ->
      exists o, all_endn n cap (fun i => plonk_shamir_prove (M := M) (Sg := Sg) H seed0 fuel zk n t i (seed i) pub (wit i)) (fun r => forall i, i < n -> r i = o) /\
        (forall p, o = Done p -> plonk_plain_prove H fuel zk pub w b r0 r1 = Done p) /\
        (nonzero (r0 ++ r1 ++ ks) -> match o, plonk_plain_prove H fuel zk pub w b r0 r1 with
                                     | Done p, Done p' => p = p'
                                     | Failed e, Failed e' => masked_error s_err e' e
                                     | _, _ => False
                                     end).
  Proof.
    destruct (preprocessing_new_wp (F := F) (M := M) seed0 n2 nt hcap inj seed (dn * 222 + 15)) as (st & Rst & L & L3 & _ & W).
    exists (tape_b s_rand L), (tape_0 s_rand s_mul s_fork dn L), (tape_1 s_rand s_mul s_fork dn L), (tape_masks s_rand s_inv s_mul s_mo s_fork dn L).
    intros zk pub wit w Ed Hw. exists (local (plonk_prove_inner (ideal_pdriver (G1 := G1) s_rand s_inv s_mul s_mo s_fork s_err) H fuel zk pub w L)).
    split; [|split].
    - apply wpon_all_end. unfold plonk_shamir_prove. unfold plonk_pairs. rewrite Ed. apply wpon_bind. exists st. split; [exact Rst|].
      pose proof (parties_ideal (fun e => eq_refl) wo_shamir (lin_sharing n t) (lin_sharing n t) shamir_ops H fuel (zk := zk) pub (st := st) (t := L) Hw) as K.
      rewrite Ed in K. specialize (K (conj L3 (ex_intro _ _ W))).
      eapply wpon_mono; [|exact K]. intros o Ho. destruct (local _) as [p|e].
      + destruct Ho as (a & Ea & Eq). intros i Hi. rewrite (Ea i Hi). f_equal. exact (Eq i Hi).
      + destruct Ho as [[]|(e' & -> & Ho)]. exact Ho.
    - intros p. rewrite <- Ed. apply (ideal_done s_inv_length).
    - intros Hn. rewrite <- Ed in *. exact (ideal_agrees s_err s_inv_length H fuel pub w Hn).
  Qed.
End Shamir.
