(** * The Rep3 and the Shamir prover compute the plain proof *)
From Coq Require Import String List Arith Bool Lia.
From Verif Require Import Proc Alg Rep3Net NNet Rep3 Rep3Spec Rep3Proofs Rep3Wp.
From Verif Require Import ShamirPoly Shamir ShamirAlg ShamirSpec ShamirRng ShamirDeal ShamirWp ShamirRed ShamirOps ShamirSetup Dft Groth16 Groth16Gen.
Import ListNotations.
Set Implicit Arguments.
Local Open Scope grp_scope.
Local Open Scope list_scope.

Section Rep3.
  Context {F G1 G2 S M : Type} {FF : Fld F} {AG1 : AbGrp G1} {MG1 : Mod F G1} {AG2 : AbGrp G2} {MG2 : Mod F G2}.
  Context {DF : Draw S F} {D1 : Draw S G1} {E1 : Enc M (list G1)} {E2 : Enc M (list G2)} (drawv : nat -> S -> list F * S).
  Context {FT : Fft F} {Seed : Type} {SS : Seeded S Seed} {DS : Draw S Seed} {ES : Enc M (list Seed)} {ESS : Enc M (list (Seed * Seed))}.
  Context (cap : nat) (cap_pos : 1 <= cap) (Hlen : forall n s, length (fst (drawv n s)) = n).
  Notation all := (fun _ : pid => True).
  #[local] Existing Instance share_grp.
  #[local] Existing Instance share_mod.
  Lemma lin_shares : lin all (shares (G := F)).
  Proof.
    constructor.
    - intros a b x E. apply shares_ext. intros i. apply E. exact I.
    - split; [intros i; reflexivity|]. unfold additive. cbn. grp.
    - intros a b x y [A1 A2] [B1 B2]. split; [intros i; cbn; rewrite A1, B1; reflexivity|]. unfold additive in *. cbn. rewrite <- A2, <- B2. grp.
    - intros c a x [A1 A2]. split; [intros i; cbn; rewrite A1; reflexivity|]. unfold additive in *. rewrite <- A2, !smul_add_r. reflexivity.
  Qed.
  Lemma lin_additive {G} {AG : AbGrp G} {MG : Mod F G} : lin all (additive (G := G)).
  Proof.
    constructor.
    - unfold additive. intros a b x E. rewrite !E by exact I. auto.
    - unfold additive. grp.
    - unfold additive. intros a b x y <- <-. grp.
    - unfold additive. intros c a x <-. rewrite !smul_add_r. reflexivity.
  Qed.
  Lemma lv_pvec {A B} {AA : AbGrp A} {AB : AbGrp B} {MA : Mod F A} {MB : Mod F B} (R : (pid -> A) -> B -> Prop) (LR : lin all R) v x : pvec R v x <-> lv all R v x.
  Proof.
    split; intros [L K]; split; auto.
    - intros j Lj. destruct (K j (nth j x 0) (nth_error_nth' x 0 Lj)) as (a & Ea & Ha). eapply (lin_ext LR); [|exact Ha].
      intros i _. symmetry. apply nth_error_nth. apply Ea.
    - intros j y Ej. assert (Lj : j < length x) by (apply nth_error_Some; congruence). exists (fun i => nth j (v i) 0). split.
      + intros i. apply nth_error_nth'. rewrite L by exact I. exact Lj.
      + specialize (K j Lj). rewrite (nth_error_nth _ _ 0 Ej) in K. exact K.
  Qed.
  Definition adv_rep3 (n : nat) (st : rst S) : rst S := snd (masking_vec_bytes drawv n st).
  Notation D := (rep3_driver (G2 := G2) (M := M) drawv).

  Lemma rep3_inner_ok R fuel (threads : pid -> nat) threads0 m (st0 st1 : pid -> rst S) : synced st0 -> synced st1 ->
    exists r s, forall (pk : pkey G1 G2) pub (wit : pid -> list (share F)) (w : list F), shares_vec wit w ->
      wpo cap (fun i => prove_inner (D i) (witness_map R (D i) fuel (threads i)) pk m pub (wit i) (st0 i) (st1 i))
        (same_result all (plain_prove R fuel threads0 pk m pub w r s)).
  Proof.
    intros Y0 Y1.
    destruct (@prove_rel pid M F (share F) (rst S) G1 G2 _ _ _ _ _ _ _ _ all D fuel threads threads0
      (shares (G := F)) (additive (G := F)) (additive (G := G1)) (additive (G := G2)) (fun st => synced st) adv_rep3
      lin_shares lin_additive lin_additive lin_additive) with (WP := fun A => wp (A := A) (M := M) cap) (WO := fun A => wpo (A := A) (M := M) cap) (R := R) (m := m) (st0 := st0) (st1 := st1) as (r & s & K).
    - intros a x c [A1 A2]. split; [intros []; cbn; rewrite A1; reflexivity|]. unfold additive in *. cbn. rewrite <- A2. grp.
    - intros c. split; [intros []; reflexivity|]. unfold additive. cbn. grp.
    - intros a x [A1 A2]. exact A2.
    - unfold additive. cbn. intros a x c <-. grp.
    - unfold additive. cbn. intros a x c <-. grp.
    - unfold additive. cbn. intros a x c <-. grp.
    - unfold additive. intros a x p <-. rewrite !smul_add_l. reflexivity.
    - unfold additive. intros a x p <-. rewrite !smul_add_l. reflexivity.
    - intros st st' E. apply synced_ext. intros i. apply E. exact I.
    - intros k st Y. exact (proj2 (masking_vec_bytes_ok drawv Hlen k Y)).
    - intros st a b x y Y Va Vb Lxy. apply (lv_pvec lin_shares) in Va, Vb.
      destruct (local_mul_vec_ok drawv Hlen Y Va Vb Lxy) as (z & Ez & Hz & _). exists (fun i => fst (z i)). split.
      + intros i _. cbn [drv_local_mul_vec rep3_driver]. rewrite Ez. specialize (Ez i). unfold local_mul_vec in Ez. destruct (Nat.eqb _ _); [|discriminate].
        injection Ez as <-. cbn [fst]. unfold adv_rep3. rewrite (pvec_len i Va). reflexivity.
      + apply (lv_pvec lin_additive). exact Hz.
    - intros A B ps ks Q. apply wpo_bind.
    - intros A ps qs Q E. apply wpo_ext. intros i. apply E. exact I.
    - intros A e Q HQ. apply wpo_fail. exact HQ.
    - intros A a Q HQ. apply wp_wpo. apply wp_ret. exact HQ.
    - intros A ps Q Q' HQ. apply wp_mono. exact HQ.
    - intros st Y. pose proof (rand_ok (G := F) Y) as [Hr Hs]. eexists. exists (fun i => rand (st i)). split; [|split; [exact Hr|exact Hs]].
      apply wp_ret with (a := fun i => rand (st i)). auto.
    - intros st a x _ Ha. cbn [drv_open_1 rep3_driver]. apply wp_bind. eapply wp_mono; [|apply (open_half_wp cap_pos), Ha]. intros c Ec.
      apply wp_ret with (a := fun i => (c i, st i)). intros i _. rewrite Ec. reflexivity.
    - intros st a x _ Ha. cbn [drv_open_2 rep3_driver]. apply wp_bind. eapply wp_mono; [|apply (open_half_wp cap_pos), Ha]. intros c Ec.
      apply wp_ret with (a := fun i => (c i, st i)). intros i _. rewrite Ec. reflexivity.
    - intros st a x b y Y Ha Hb. cbn [drv_scalar_mul rep3_driver]. apply wp_bind. apply wp_reshare; [exact cap_pos|].
      apply wp_ret with (a := fun i => (lmul (b i) (mkShare (a i) (a (prev i))) + fst (masking (st i)), snd (masking (st i)))). cbn [fst snd].
      destruct (masking_ok (G := G1) Y) as [Hm Hs]. split; [|exact Hs].
      apply additive_masked; [|exact Hm]. exact (@lmul_additive F G1 G1 _ _ _ mod_bilin b _ y x Hb (additive_reshared Ha)).
    - exact Y0.
    - exact Y1.
    - exists r, s. intros pk pub wit w W. apply K. apply (lv_pvec lin_shares), W.
  Qed.
  Theorem rep3_prove_ok R fuel (threads : pid -> nat) threads0 m (seed : pid -> Seed) :
    exists r s, forall (pk : pkey G1 G2) pub (wit : pid -> list (share F)) (w : list F), shares_vec wit w ->
      all_end cap (fun i => rep3_prove (M := M) drawv R fuel (threads i) pk m i (seed i) pub (wit i))
        (fun o => forall i, o i = plain_prove R fuel threads0 pk m pub w r s).
  Proof.
    destruct (new_state_wp (S := S) (M := M) cap_pos seed) as (st & Rst & Y & _). destruct (fork_ok (Seed := Seed) Y) as [Yf Yr].
    destruct (rep3_inner_ok R fuel threads threads0 m Yr Yf) as (r & s & K). exists r, s. intros pk pub wit w W. apply wpo_all_end.
    unfold rep3_prove. apply wpo_bind. exists st. split; [exact Rst|]. apply wpo_seq. eapply wpo_mono; [|apply (K pk pub wit w W)]. intros o Ho.
    destruct (plain_prove R fuel threads0 pk m pub w r s) as [p|e].
    - eapply wpo_ext with (qs := fun i => Ret p).
      + intros i. destruct (Ho i I) as (x & ->). reflexivity.
      + apply wp_wpo. apply wp_ret with (a := fun _ => p). reflexivity.
    - eapply wpo_ext with (qs := fun i => Fail e).
      + intros i. rewrite (Ho i I). reflexivity.
      + apply wpo_fail. reflexivity.
  Qed.
End Rep3.

Section Shamir.
  Context {F G1 G2 Sg M : Type} {FF : Fld F} {AG1 : AbGrp G1} {MG1 : Mod F G1} {AG2 : AbGrp G2} {MG2 : Mod F G2}.
  Context {DF : Draw Sg F} {EF : Enc M (list F)} {E1 : Enc M G1} {E1s : Enc M (list G1)} {E2 : Enc M G2} (gen : G1).
  Context {FT : Fft F} {Seed : Type} {SDS : Seeded Sg Seed} {DS : Draw Sg Seed} {ES : Enc M (list Seed)} (seed0 : Seed).
  Context (n t cap : nat).
  Notation dom := (fun i : nat => i < n).
  Notation sst := (sst (F := F) (Sg := Sg)).
  Notation D := (shamir_driver (M := M) (G2 := G2) (Sg := Sg) gen).
  Lemma lin_sharing {G} {AG : AbGrp G} {MG : Mod F G} d : lin dom (sharing (G := G) n d).
  Proof.
    constructor.
    - intros a b x E. apply sharing_ext. intros i Hi. symmetry. apply E. exact Hi.
    - exists []. split; [cbn; lia|]. split; [reflexivity|]. intros. reflexivity.
    - intros a b x y. apply sharing_add.
    - intros c a x. apply sharing_smul.
  Qed.
  Lemma lv_sharings {G} {AG : AbGrp G} {MG : Mod F G} d v (x : list G) : sharings n d v x <-> lv dom (sharing n d) v x.
  Proof. reflexivity. Qed.
  Lemma lv_mul : forall x (a b : nat -> list F) y, lv dom (sharing n t) a x -> lv dom (sharing n t) b y ->
    lv dom (sharing n (2 * t)) (fun i => map2 (fun x y => sm_local_mul x y) (a i) (b i)) (map2 rmul x y).
  Proof.
    induction x as [|x xs IH]; intros a b y A B.
    - eapply (lv_ext (lin_sharing (2 * t))); [|exact (lv_nil dom (sharing n (2 * t)))]. intros i Hi. destruct A as [L _]. specialize (L i Hi). destruct (a i); [reflexivity|discriminate].
    - destruct (lv_cons_inv (lin_sharing t) A) as [A0 A1]. destruct y as [|y ys].
      + eapply (lv_ext (lin_sharing (2 * t))); [|exact (lv_nil dom (sharing n (2 * t)))]. intros i Hi. destruct B as [L _]. specialize (L i Hi).
        destruct (b i); [destruct (a i); reflexivity|discriminate].
      + destruct (lv_cons_inv (lin_sharing t) B) as [B0 B1]. replace (2 * t)%nat with (t + t)%nat in * by lia.
        pose proof (lv_cons (lin_sharing (t + t)) (sharing_mul A0 B0) (IH _ _ _ A1 B1)) as K. cbn [map2]. eapply (lv_ext (lin_sharing (t + t))); [|exact K].
        intros i Hi. cbn. destruct A as [LA _]. specialize (LA i Hi). destruct B as [LB _]. specialize (LB i Hi). destruct (a i); [discriminate|]. destruct (b i); [discriminate|]. reflexivity.
  Qed.
  Lemma sm_wf_ext g L (st st' : nat -> sst) : (forall i, i < n -> st i = st' i) -> sm_wf n t g L st -> sm_wf n t g L st'.
  Proof.
    intros E [W1 W2 W3 W4 W5 W6 W7 W8 W9 [V1 V2 V3 V4 V5 V6 V7 V8 V9 V10 V11]].
    constructor; [intros i Hi; rewrite <- E by exact Hi; exact (W1 i Hi)|intros i Hi; rewrite <- E by exact Hi; exact (W2 i Hi)|intros i Hi; rewrite <- E by exact Hi; exact (W3 i Hi)|intros i Hi; rewrite <- E by exact Hi; exact (W4 i Hi)|intros i Hi; rewrite <- E by exact Hi; exact (W5 i Hi)|intros i Hi; rewrite <- E by exact Hi; exact (W6 i Hi)|intros i Hi; rewrite <- E by exact Hi; exact (W7 i Hi)|intros i Hi; rewrite <- E by exact Hi; exact (W8 i Hi)|exact W9|].
    constructor; [intros i Hi; rewrite <- E by exact Hi; exact (V1 i Hi)|intros i Hi; rewrite <- E by exact Hi; exact (V2 i Hi)|intros i Hi; rewrite <- E by exact Hi; exact (V3 i Hi)|intros i Hi; rewrite <- E by exact Hi; exact (V4 i Hi)|intros i Hi; rewrite <- E by exact Hi; exact (V5 i Hi)|intros i Hi; rewrite <- E by exact Hi; exact (V6 i Hi)|intros i Hi; rewrite <- E by exact Hi; exact (V7 i Hi)|intros i j Hi Hj Hne; rewrite <- !E by assumption; exact (V8 i j Hi Hj Hne)|exact V9|intros i Hi; rewrite <- E by exact Hi; exact (V10 i Hi)|intros i Hi; rewrite <- E by exact Hi; exact (V11 i Hi)].
  Qed.

  Hypothesis n2 : 2 <= n.
  Hypothesis nt : 2 * t + 1 <= n.
  Hypothesis hcap : cap_ok n t cap.
  Hypothesis inj : forall a b, a <= n -> b <= n -> fnat a = (fnat b : F) -> a = b.
  Lemma shamir_inner_ok R fuel (threads : nat -> nat) threads0 m (st0 st1 : nat -> sst) : sm_synced n t st0 -> sm_synced n t st1 ->
    exists r s, forall (pk : pkey G1 G2) pub (wit : nat -> list F) (w : list F), sharings n t wit w ->
      wpon n cap (fun i => prove_inner D (witness_map R D fuel (threads i)) pk m pub (wit i) (st0 i) (st1 i))
        (same_result dom (plain_prove R fuel threads0 pk m pub w r s)).
  Proof.
    intros Y0 Y1.
    destruct (@prove_rel nat M F F sst G1 G2 _ _ _ _ _ _ _ _ dom (fun _ => D) fuel threads threads0
      (sharing n t) (sharing n (2 * t)) (sharing n (2 * t)) (sharing n (2 * t)) (sm_synced n t) (fun _ st => st)
      (lin_sharing t) (lin_sharing (2 * t)) (lin_sharing (2 * t)) (lin_sharing (2 * t)))
      with (WP := fun A => wpn (A := A) (M := M) n cap) (WO := fun A => wpon (A := A) (M := M) n cap) (R := R) (m := m) (st0 := st0) (st1 := st1) as (r & s & K).
    - intros a x c A. exact (sharing_add A (sharing_const n t c)).
    - intros c. apply sharing_const.
    - intros a x A. apply (sharing_mono (d := t)); [lia|exact A].
    - intros a x c A. exact (sharing_add A (sharing_const n (2 * t) c)).
    - intros a x c A. exact (sharing_add A (sharing_const n (2 * t) c)).
    - intros a x c A. exact (sharing_add A (sharing_const n (2 * t) c)).
    - intros a x p A. apply sharing_outer, A.
    - intros a x p A. apply sharing_outer, A.
    - intros st st' E (g & L & W). exists g, L. eapply sm_wf_ext; [exact E|exact W].
    - auto.
    - intros st a b x y _ A B Lxy. exists (fun i => map2 (fun x y => sm_local_mul x y) (a i) (b i)). split.
      + intros i Hi. cbn [drv_local_mul_vec shamir_driver]. destruct A as [LA _]. destruct B as [LB _]. rewrite (LA i Hi), (LB i Hi), Lxy, Nat.eqb_refl. reflexivity.
      + apply lv_mul; assumption.
    - intros A B ps ks Q. apply wpon_bind.
    - intros A ps qs Q E. apply wpon_ext. exact E.
    - intros A e Q HQ. apply wpon_fail with (e := e); [reflexivity|exact HQ].
    - intros A a Q HQ. apply wpn_wpon. apply wpn_ret. exact HQ.
    - intros A ps Q Q' HQ. apply wpn_mono. exact HQ.
    - intros st (g & L & W). destruct (sm_rand_wp n2 nt hcap inj W) as (a & Ra & pq & g' & L' & _ & Hs & W'). exists (peval (fst pq) 0), a. split; [|split].
      + exists a. split; [exact Ra|auto].
      + exact Hs.
      + exists g', L'. exact W'.
    - intros st a x (g & L & W) Ha. cbn [drv_open_1 shamir_driver]. apply wpn_bind. eapply wpn_mono; [|apply (sm_open_half_wp n2 nt (cap1 n2 nt hcap) inj W Ha)]. intros c Ec.
      apply wpn_ret with (a := fun i => (c i, st i)). intros i Hi. rewrite Ec by exact Hi. reflexivity.
    - intros st a x (g & L & W) Ha. cbn [drv_open_2 shamir_driver]. apply wpn_bind. eapply wpn_mono; [|apply (sm_open_half_wp n2 nt (cap1 n2 nt hcap) inj W Ha)]. intros c Ec.
      apply wpn_ret with (a := fun i => (c i, st i)). intros i Hi. rewrite Ec by exact Hi. reflexivity.
    - intros st a x b y (g & L & W) Ha Hb. cbn [drv_scalar_mul shamir_driver]. apply wpn_bind.
      eapply wpn_mono; [|apply (degree_reduce_point_wp n2 nt hcap inj gen W Ha)]. intros o (Ho & pq & g' & L' & _ & W').
      apply wpn_ret with (a := fun i => (sm_local_mul (b i) (fst (o i)), snd (o i))). cbn [fst snd]. split; [|exists g', L'; exact W'].
      replace (2 * t)%nat with (t + t)%nat by lia. exact (sharing_mul Hb Ho).
    - exact Y0.
    - exact Y1.
    - exists r, s. intros pk pub wit w W. apply K. exact W.
  Qed.
  Lemma shamir_prove_wpon R fuel (threads : nat -> nat) threads0 m (seed : nat -> Seed) :
    exists r s, forall (pk : pkey G1 G2) pub (wit : nat -> list F) (w : list F), sharings n t wit w ->
      wpon n cap (fun i => shamir_prove (M := M) (Sg := Sg) gen seed0 R fuel (threads i) pk m n t i (seed i) pub (wit i))
        (fun o => forall i, i < n -> o i = plain_prove R fuel threads0 pk m pub w r s).
  Proof.
    destruct (preprocessing_new_wp (F := F) (M := M) seed0 n2 nt hcap inj seed 3) as (st & Rst & L & L3 & _ & W).
    destruct (sm_fork_ok n2 nt hcap (Seed := Seed) (amount := 1) W ltac:(lia)) as (c & p & Ef & Wc & Wp).
    destruct (@shamir_inner_ok R fuel threads threads0 m p c) as (r & s & K); [eexists; eexists; exact Wp|eexists; eexists; exact Wc|].
    exists r, s. intros pk pub wit w Hw. unfold shamir_prove. apply wpon_bind. exists st. split; [exact Rst|].
    eapply wpon_ext with (qs := fun i => bind (prove_inner D (witness_map R D fuel (threads i)) pk m pub (wit i) (p i) (c i)) (fun q => Ret (fst q))).
    { intros i Hi. rewrite Ef by exact Hi. reflexivity. }
    apply wpon_seq. eapply wpon_mono; [|apply (K pk pub wit w Hw)]. intros o Ho.
    destruct (plain_prove R fuel threads0 pk m pub w r s) as [q|e].
    - eapply wpon_ext with (qs := fun i => Ret q).
      + intros i Hi. destruct (Ho i Hi) as (x & ->). reflexivity.
      + apply wpn_wpon. apply wpn_ret with (a := fun _ => q). reflexivity.
    - eapply wpon_fail with (e := e); [|reflexivity]. intros i Hi. rewrite (Ho i Hi). reflexivity.
  Qed.
  Theorem shamir_prove_ok R fuel (threads : nat -> nat) threads0 m (seed : nat -> Seed) :
    exists r s, forall (pk : pkey G1 G2) pub (wit : nat -> list F) (w : list F), sharings n t wit w ->
      all_endn n cap (fun i => shamir_prove (M := M) (Sg := Sg) gen seed0 R fuel (threads i) pk m n t i (seed i) pub (wit i))
        (fun o => forall i, i < n -> o i = plain_prove R fuel threads0 pk m pub w r s).
  Proof.
    destruct (@shamir_prove_wpon R fuel threads threads0 m seed) as (r & s & K). exists r, s. intros pk pub wit w Hw.
    apply wpon_all_end. exact (K pk pub wit w Hw).
  Qed.
End Shamir.
