(** * The co-circom MPC-VM: three parties running the driver compute what VmIdeal.v says *)
From Coq Require Import String List Arith NArith Lia Bool Ring.
From Verif Require Import Proc Alg Rep3Net Rep3 Rep3Spec Rep3Proofs Rep3Wp Uint Binary BinaryWp Conv ConvWp CmpWp
  Garble Circuits Garbled Yao YaoSpec YaoWp YaoOut YaoApi YaoStream VmDriver VmIdeal.
Import ListNotations.
Set Implicit Arguments.
Local Open Scope grp_scope.

Lemma power_of_two v : is_power_of_two v = true -> v = (2 ^ N.of_nat (ubit_len v - 1))%N.
Proof.
  unfold is_power_of_two. intros E. apply andb_prop in E as [E1 E2]. apply negb_true_iff, N.eqb_neq in E1. apply N.eqb_eq in E2.
  assert (El : N.of_nat (ubit_len v - 1) = N.log2 v).
  { unfold ubit_len. rewrite N.size_log2 by exact E1. lia. }
  rewrite El. destruct (N.log2_spec v) as [L1 L2]; [lia|]. rewrite N.pow_succ_r' in L2.
  destruct (N.eq_dec v (2 ^ N.log2 v)) as [K|K]; [exact K|]. exfalso.
  assert (K2 : N.log2 (v - 1) = N.log2 v) by (apply N.log2_unique; [lia|rewrite N.pow_succ_r'; lia]).
  assert (C : N.testbit (N.land v (v - 1)) (N.log2 v) = true).
  { rewrite N.land_spec, N.bit_log2 by exact E1. rewrite <- K2, N.bit_log2; [reflexivity|]. pose proof (N.pow_nonzero 2 (N.log2 v)). lia. }
  rewrite E2, N.bits_0 in C. discriminate.
Qed.

(** ** Related values *)
Section Rel.
  Context {F : Type} `{AG : AbGrp F}.
  (** the parties hold the value: all the same public value, or shares of the secret *)
  Definition rel (r : pid -> rv F) (a : tv F) : Prop :=
    match a with
    | Pub v => forall i, r i = RPub v
    | Sh v => exists s, (forall i, r i = RSh (s i)) /\ shares s v
    end.
End Rel.
Section Post.
  Context {S : Type}.
  Definition synced2 (d : pid -> dst (S := S)) : Prop := synced (fun i => fst (d i)) /\ synced (fun i => snd (d i)).
  (** the parties all return values related to the expected one and keep matching states; they may
      all abort with the same error where [may] says so; and they all abort with the same error if an
      error is expected *)
  Definition drv_post {A B} (R : (pid -> A) -> B -> Prop) (may : bool) (ideal : outcome B)
             (o : pid -> outcome (A * dst (S := S))) : Prop :=
    match ideal with
    | Done v => (exists r, (forall i, o i = Done (r i)) /\ R (fun i => fst (r i)) v /\ synced2 (fun i => snd (r i))) \/
                (may = true /\ exists e, forall i, o i = Failed e)
    | Failed _ => exists e, forall i, o i = Failed e
    end.
End Post.
(** a masked inversion fails when the mask is zero *)
Definition may_abort {F} (o : bop) (b : tv F) : bool := match o with ODiv => tshared b | _ => false end.
Definition may_abort_u {F} (o : uop) (a : tv F) : bool := match o with OSqrt => tshared a | _ => false end.

Section VmDriverWp.
  Context {F : Type} `{FU : FieldUint F} {S M : Type} (W : nat) (du : nat -> S -> N * S) {DF : Draw S F}.
  Context {Seed : Type} {SS : Seeded S Seed} {DS : Draw S Seed}.
  Context {EN : Enc M (list N)} {ENN : Enc M (list (N * N))}
          {EL : Enc M (list (list N))} {ELL : Enc M (list (list N * list N))} {EF : Enc M (list F)}.
  Variables (hash : N -> N -> N) (gtweak : N -> N) (otweak : N -> bool -> N).
  Context {Dg : Type} {ED : Enc M (list Dg)}.
  Variables (digest : list N -> Dg) (dg_eqb : Dg -> Dg -> bool).
  Variables (draw_label draw_delta : S -> N * S).
  Variable fsqrt : F -> option F.
  Variable rgof : pid -> rst S -> S.
  Variable t : a2b_type.
  Hypothesis dg_eqb_spec : forall x y, dg_eqb x y = true <-> x = y.
  Context (cap : nat) (cap_pos : (1 <= cap)%nat).
  Hypothesis p_odd : N.odd (fu_p (F := F)) = true.
  Notation B := (mbs F).
  Notation p := (fu_p (F := F)).
  Hypothesis width : (B + 2 <= W)%nat.
  Hypothesis delta_odd : forall s, color (fst (draw_delta s)) = true.
  (** the hash that decodes the output wires tells the two labels of a wire apart *)
  Hypothesis hash_sep : forall d z n, color d = true -> hash z (otweak n false) <> hash (N.lxor z d) (otweak n false).
  (** ark-ff: [sqrt] returns a root exactly when there is one *)
  Hypothesis fsqrt_root : forall z w, fsqrt z = Some w -> rmul w w = z.
  Hypothesis fsqrt_none : forall z, fsqrt z = None -> forall w, rmul w w <> z.
  Notation prog := (prog pid M).
  Notation dst := (dst (S := S)).
  Implicit Types (st : pid -> rst S) (d : pid -> dst).
  Add Ring Fr : (cring_theory (R := F)).
  Notation a2bs := (a2bs (Seed := Seed) W du hash gtweak digest dg_eqb draw_label draw_delta rgof t).
  Notation b2as := (b2as (F := F) (Seed := Seed) W du hash gtweak otweak digest dg_eqb draw_label draw_delta rgof t).
  Notation y_div_pow2 := (y_div_pow2 (Seed := Seed) W hash gtweak otweak digest dg_eqb draw_label draw_delta rgof).
  Notation y_div_public := (y_div_public (Seed := Seed) W hash gtweak otweak digest dg_eqb draw_label draw_delta rgof).
  Notation y_div_shared := (y_div_shared (Seed := Seed) W hash gtweak otweak digest dg_eqb draw_label draw_delta rgof).
  Notation y_div := (y_div (Seed := Seed) W hash gtweak otweak digest dg_eqb draw_label draw_delta rgof).
  Notation y_mod_pow2 := (y_mod_pow2 (Seed := Seed) W hash gtweak otweak digest dg_eqb draw_label draw_delta rgof).
  Notation rep3_bop := (rep3_bop (Seed := Seed) W du hash gtweak otweak digest dg_eqb draw_label draw_delta rgof t).
  Notation rep3_uop := (rep3_uop (Seed := Seed) W du hash gtweak digest dg_eqb draw_label draw_delta fsqrt rgof t).
  Definition shared_result (v : F) (r : pid -> share F * rst S) : Prop := shares (fun i => fst (r i)) v /\ synced (fun i => snd (r i)).

  Lemma run_sep (d : N) pg rng : color d = true -> run_separated hash gtweak otweak draw_label d pg rng.
  Proof. intros Hd g _ k z _. apply hash_sep. exact Hd. Qed.
  Lemma sep_all C n m st rg : separated_run (F := F) (Seed := Seed) hash gtweak otweak draw_label draw_delta C n m st rg.
  Proof. unfold separated_run. apply run_sep. apply delta_odd. Qed.
  Lemma drop_wp (q : pid -> prog (share F * (rst S * S))) v :
    wp cap q (fun r => shares (fun i => fst (r i)) v /\ synced (fun i => fst (snd (r i)))) ->
    wp cap (fun i => drop_rg (q i)) (shared_result v).
  Proof. intros Hq. unfold drop_rg. apply wp_bind. eapply wp_mono; [|exact Hq]. cbv beta. intros r Hr. apply wp_ret. exact Hr. Qed.

  Lemma a2bs_wp st a (x : F) : synced st -> shares a x ->
    wp cap (fun i => a2bs i (st i) (a i)) (fun r => shares (fun i => fst (r i)) (to_uint x) /\ synced (fun i => snd (r i))).
  Proof.
    intros Hs Ha. unfold VmDriver.a2bs. apply wp_bind.
    eapply wp_mono; [|exact (@a2b_selector_wp F _ _ S M W du Seed SS DS EN hash gtweak Dg ED digest dg_eqb draw_label draw_delta dg_eqb_spec cap cap_pos p_odd width delta_odd ENN t st (fun i => rgof i (st i)) a x Hs Ha)].
    cbv beta. intros r Hr. apply wp_ret. exact Hr.
  Qed.
  Lemma b2as_wp st a (u : N) : synced st -> shares a u -> (u < p)%N ->
    wp cap (fun i => b2as i (st i) (a i)) (shared_result (of_uint u)).
  Proof.
    intros Hs Ha Hu. unfold VmDriver.b2as. apply wp_bind.
    eapply wp_mono; [|exact (@b2a_selector_wp F _ _ S M W du DF Seed SS DS EN hash gtweak otweak Dg ED digest dg_eqb draw_label draw_delta dg_eqb_spec cap cap_pos p_odd width delta_odd ENN t st (fun i => rgof i (st i)) a u Hs Ha Hu ltac:(intros _; apply run_sep; apply delta_odd))].
    cbv beta. intros r Hr. apply wp_ret. exact Hr.
  Qed.
  Lemma vec1 (a : pid -> share F) x : shares a x -> shares_vec (fun i => [a i]) [x].
  Proof. intros Ha. apply (@pvec_cons _ _ _ a _ (fun _ => [])); [reflexivity|exact Ha|apply pvec_nil; reflexivity]. Qed.
  Lemma y_div_pow2_wp st a (x : F) bit : synced st -> shares a x ->
    wp cap (fun i => y_div_pow2 i (st i) (a i) bit) (shared_result (of_uint (to_uint x / 2 ^ N.of_nat bit))).
  Proof.
    intros Hs Ha. apply drop_wp. unfold field_int_div_power_2.
    apply (wp_first (cap := cap) (fun s => synced (fun i => fst (s i)))).
    apply (@int_div_power_2_all_wp F _ _ S M W DF Seed SS DS EN hash gtweak otweak Dg ED digest dg_eqb draw_label draw_delta dg_eqb_spec cap cap_pos p_odd width delta_odd st (fun i => rgof i (st i)) (fun i => [a i]) [x] bit Hs (vec1 Ha)).
    intros _. apply sep_all.
  Qed.
  Lemma y_div_public_wp st a (x y : F) : synced st -> shares a x -> y <> 0 ->
    wp cap (fun i => y_div_public i (st i) (a i) y) (shared_result (of_uint (to_uint x / to_uint y))).
  Proof.
    intros Hs Ha Hy. apply drop_wp. unfold field_int_div_by_public.
    apply (wp_first (cap := cap) (fun s => synced (fun i => fst (s i)))).
    apply (@int_div_by_public_wp F _ _ S M W DF Seed SS DS EN hash gtweak otweak Dg ED digest dg_eqb draw_label draw_delta dg_eqb_spec cap cap_pos p_odd width delta_odd st (fun i => rgof i (st i)) (fun i => [a i]) [x] [y] Hs (vec1 Ha) eq_refl ltac:(repeat constructor; exact Hy)).
    apply sep_all.
  Qed.
  Lemma y_div_shared_wp st b (x y : F) : synced st -> shares b y -> y <> 0 ->
    wp cap (fun i => y_div_shared i (st i) x (b i)) (shared_result (of_uint (to_uint x / to_uint y))).
  Proof.
    intros Hs Hb Hy. apply drop_wp. unfold field_int_div_by_shared.
    apply (wp_first (cap := cap) (fun s => synced (fun i => fst (s i)))).
    apply (@int_div_by_shared_wp F _ _ S M W DF Seed SS DS EN hash gtweak otweak Dg ED digest dg_eqb draw_label draw_delta dg_eqb_spec cap cap_pos p_odd width delta_odd st (fun i => rgof i (st i)) (fun i => [b i]) [y] [x] Hs (vec1 Hb) eq_refl ltac:(repeat constructor; exact Hy)).
    apply sep_all.
  Qed.
  Lemma y_div_wp st a b (x y : F) : synced st -> shares a x -> shares b y -> y <> 0 ->
    wp cap (fun i => y_div i (st i) (a i) (b i)) (shared_result (of_uint (to_uint x / to_uint y))).
  Proof.
    intros Hs Ha Hb Hy. apply drop_wp. unfold field_int_div.
    apply (wp_first (cap := cap) (fun s => synced (fun i => fst (s i)))).
    apply (@int_div_wp F _ _ S M W DF Seed SS DS EN hash gtweak otweak Dg ED digest dg_eqb draw_label draw_delta dg_eqb_spec cap cap_pos p_odd width delta_odd st (fun i => rgof i (st i)) (fun i => [a i]) (fun i => [b i]) [x] [y] Hs (vec1 Ha) (vec1 Hb) eq_refl ltac:(repeat constructor; exact Hy)).
    apply sep_all.
  Qed.
  Lemma y_mod_pow2_wp st a (x : F) bit : synced st -> shares a x -> (0 < bit)%nat ->
    wp cap (fun i => y_mod_pow2 i (st i) (a i) bit) (shared_result (of_uint (to_uint x mod 2 ^ N.of_nat bit))).
  Proof.
    intros Hs Ha Hb. apply drop_wp.
    apply (@mod_power_2_wp F _ _ S M W DF Seed SS DS EN hash gtweak otweak Dg ED digest dg_eqb draw_label draw_delta dg_eqb_spec cap cap_pos p_odd width delta_odd st (fun i => rgof i (st i)) a x bit Hs Ha Hb).
    apply sep_all.
  Qed.
  Lemma y_mod_pow2_0 st a : wpo cap (fun i => y_mod_pow2 i (st i) (a i) 0) (fun o => exists e, forall i, o i = Failed e).
  Proof.
    unfold VmDriver.y_mod_pow2, drop_rg, field_mod_power_2, decompose_arithmetic, decompose_arithmetic_many. cbn [Nat.eqb bind].
    apply wpo_fail. eexists. reflexivity.
  Qed.

  (** *** Shapes of results *)
  Lemma pub_post d (x : outcome F) may : synced2 d ->
    wpo cap (fun i => pub (M := M) (d i) x) (drv_post rel may (omap Pub x)).
  Proof.
    intros Hd. destruct x as [v|e]; cbn [pub omap obind].
    - apply wp_wpo, wp_ret. left. eexists. split; [reflexivity|]. split; [intros i; reflexivity|exact Hd].
    - apply wpo_fail. eexists. reflexivity.
  Qed.
  Lemma local_post d s (v : F) may : synced2 d -> shares s v ->
    wpo cap (fun i => local (M := M) (d i) (s i)) (drv_post rel may (Done (Sh v))).
  Proof.
    intros Hd Hs. apply wp_wpo, wp_ret. left. eexists. split; [reflexivity|]. split; [|exact Hd].
    exists s. split; [reflexivity|exact Hs].
  Qed.
  Lemma ret_pub_post d (v : F) may : synced2 d -> wpo cap (fun i => Ret (RPub v, d i) : prog (rv F * dst)) (drv_post rel may (Done (Pub v))).
  Proof. intros Hd. apply wp_wpo, wp_ret. left. eexists. split; [reflexivity|]. split; [intros i; reflexivity|exact Hd]. Qed.
  Lemma on0_post d (q : pid -> rst S -> prog (share F * rst S)) v may : synced2 d ->
    wp cap (fun i => q i (fst (d i))) (shared_result v) ->
    wpo cap (fun i => on0 (d i) (q i)) (drv_post rel may (Done (Sh v))).
  Proof.
    intros Hd Hq. unfold on0. apply wp_wpo, wp_bind. eapply wp_mono; [|exact Hq]. cbv beta. intros r [R1 R2].
    apply wp_ret. left. eexists. split; [reflexivity|]. cbn [fst snd]. split.
    - exists (fun i => fst (r i)). split; [reflexivity|exact R1].
    - split; [exact R2|exact (proj2 Hd)].
  Qed.
  Lemma on0_fail d (q : pid -> rst S -> prog (share F * rst S)) may e : 
    wpo cap (fun i => q i (fst (d i))) (fun o => exists e, forall i, o i = Failed e) ->
    wpo cap (fun i => on0 (d i) (q i)) (drv_post rel may (Failed e)).
  Proof.
    intros Hq. unfold on0. apply wpo_seq. eapply wpo_mono; [|exact Hq]. cbv beta. intros o [e' He].
    eapply wpo_ext with (qs := fun i => Fail e'); [intros i; rewrite He; reflexivity|]. apply wpo_fail. eexists. reflexivity.
  Qed.
  Lemma fail_post e d may (x : outcome (tv F)) : x = Failed e -> forall e', wpo cap (fun i : pid => Fail e' : prog (rv F * dst)) (drv_post rel may x).
  Proof. intros -> e'. apply wpo_fail. eexists. reflexivity. Qed.

  (** an inversion first *)
  Lemma inv_then_post d b (y : F) (k : pid -> share F * rst S -> prog (share F * rst S)) v : synced2 d -> shares b y -> y <> 0 ->
    (forall st c, synced st -> shares c (finv y) -> wp cap (fun i => k i (c i, st i)) (shared_result v)) ->
    wpo cap (fun i => on0 (d i) (fun st : rst S => r <- inv i st (b i) ;; k i r)) (drv_post rel true (Done (Sh v))).
  Proof.
    intros Hd Hb Hy Hk. unfold on0. apply wpo_seq, wpo_seq. eapply wpo_mono; [|exact (inv_ok cap_pos (proj1 Hd) Hb)].
    cbv beta. intros o [[E Ho]|[E (w & Ho & Hw & Hsw)]].
    - eapply wpo_ext; [intros i; rewrite (Ho i); reflexivity|]. cbn [leaf bind]. apply wpo_fail.
      eapply wpo_ext; [intros i; reflexivity|]. cbn [leaf bind]. apply wpo_fail. right. split; [reflexivity|]. eexists. reflexivity.
    - eapply wpo_ext; [intros i; rewrite (Ho i); reflexivity|]. cbn [leaf bind]. apply wp_wpo.
      eapply wp_mono; [|eapply wp_ext; [|exact (@Hk (fun i => snd (w i)) (fun i => fst (w i)) Hsw Hw)]].
      2:{ intros i. cbv beta. f_equal. apply surjective_pairing. }
      cbv beta. intros r [R1 R2]. eapply wpo_ext; [intros i; reflexivity|]. cbn [leaf bind]. apply wp_wpo, wp_ret.
      left. eexists. split; [reflexivity|]. cbn [fst snd]. split.
      + exists (fun i => fst (r i)). split; [reflexivity|exact R1].
      + split; [exact R2|exact (proj2 Hd)].
  Qed.
  Lemma inv_zero_post d b (y : F) (k : pid -> share F * rst S -> prog (share F * rst S)) may e : synced2 d -> shares b y -> y = 0 ->
    wpo cap (fun i => on0 (d i) (fun st : rst S => r <- inv i st (b i) ;; k i r)) (drv_post rel may (Failed e)).
  Proof.
    intros Hd Hb Hy. apply on0_fail. apply wpo_seq. eapply wpo_mono; [|exact (inv_ok cap_pos (proj1 Hd) Hb)].
    cbv beta. intros o [[E Ho]|[E _]].
    - eapply wpo_ext; [intros i; rewrite (Ho i); reflexivity|]. cbn [leaf bind]. apply wpo_fail. eexists. reflexivity.
    - exfalso. apply E. rewrite Hy. ring.
  Qed.

  Definition shape (x y : pid -> rv F) (a b : tv F) : Prop := rel x a /\ rel y b.
  Notation outcome_of o d x y may ideal := (wpo cap (fun i => rep3_bop o i (d i) (x i) (y i)) (drv_post rel may ideal)).

  Lemma sval_ok s (x : F) : shares s x -> shares (fun i => sval i (s i)) (val x).
  Proof. intros Hs. unfold sval, val. apply sub_shared_by_public_ok. exact Hs. Qed.
  Lemma boolF_bitval b : boolF b = bitval (R := F) b.
  Proof. destruct b; reflexivity. Qed.

  Lemma cmp_post o (f : pid -> rst S -> share F -> share F -> prog (share F * rst S))
        (fsp fps : pid -> rst S -> share F -> F -> prog (share F * rst S)) (r rps : N -> N -> bool) d x y a b :
    (forall st s s' u v, synced st -> shares s u -> shares s' v ->
       wp cap (fun i => f i (st i) (s i) (s' i)) (fun q => field_result q (r (to_uint u) (to_uint v)))) ->
    (forall st s u v, synced st -> shares s u ->
       wp cap (fun i => fsp i (st i) (s i) v) (fun q => field_result q (r (to_uint u) (to_uint v)))) ->
    (forall st s u v, synced st -> shares s u ->
       wp cap (fun i => fps i (st i) (s i) v) (fun q => field_result q (rps (to_uint v) (to_uint u)))) ->
    (forall u v, plain_bop o u v = Done (boolF (r (to_uint (val u)) (to_uint (val v))))) ->
    mixed_bop o a b = Done (Sh (boolF (if tshared a then r (to_uint (val (tval a))) (to_uint (val (tval b)))
                                       else rps (to_uint (val (tval a))) (to_uint (val (tval b)))))) ->
    synced2 d -> rel x a -> rel y b ->
    wpo cap (fun i => rep3_cmp o f fsp fps i (d i) (x i) (y i)) (drv_post rel false (ideal_bop o a b)).
  Proof.
    intros Hf Hsp Hps Hpl Hmx Hd Hx Hy.
    destruct a as [u|u], b as [v|v]; cbn [rel tshared tval ideal_bop] in *.
    - eapply wpo_ext; [intros i; rewrite (Hx i), (Hy i); reflexivity|]. apply pub_post. exact Hd.
    - destruct Hy as (s & Ey & Hs). eapply wpo_ext; [intros i; rewrite (Hx i), (Ey i); reflexivity|]. cbn [rep3_cmp].
      rewrite Hmx. apply (@on0_post d (fun i (st : rst S) => fps i st (sval i (s i)) (val u))); [exact Hd|].
      rewrite boolF_bitval. exact (Hps _ _ _ _ (proj1 Hd) (sval_ok Hs)).
    - destruct Hx as (s & Ex & Hs). eapply wpo_ext; [intros i; rewrite (Ex i), (Hy i); reflexivity|]. cbn [rep3_cmp].
      rewrite Hmx. apply (@on0_post d (fun i (st : rst S) => fsp i st (sval i (s i)) (val v))); [exact Hd|].
      rewrite boolF_bitval. exact (Hsp _ _ _ _ (proj1 Hd) (sval_ok Hs)).
    - destruct Hx as (s & Ex & Hs). destruct Hy as (s' & Ey & Hs').
      eapply wpo_ext; [intros i; rewrite (Ex i), (Ey i); reflexivity|]. cbn [rep3_cmp].
      rewrite Hmx. apply (@on0_post d (fun i (st : rst S) => f i st (sval i (s i)) (sval i (s' i)))); [exact Hd|].
      rewrite boolF_bitval. exact (Hf _ _ _ _ _ (proj1 Hd) (sval_ok Hs) (sval_ok Hs')).
  Qed.
  Lemma eq_post o (f : pid -> rst S -> share F -> share F -> prog (share F * rst S))
        (fp : pid -> rst S -> share F -> F -> prog (share F * rst S)) (r : F -> F -> bool) d x y a b :
    (forall u v, r u v = r v u) ->
    (forall st s s' u v, synced st -> shares s u -> shares s' v ->
       wp cap (fun i => f i (st i) (s i) (s' i)) (fun q => field_result q (r u v))) ->
    (forall st s u v, synced st -> shares s u -> wp cap (fun i => fp i (st i) (s i) v) (fun q => field_result q (r u v))) ->
    mixed_bop o a b = Done (Sh (boolF (r (tval a) (tval b)))) ->
    synced2 d -> rel x a -> rel y b ->
    wpo cap (fun i => rep3_eq o f fp i (d i) (x i) (y i)) (drv_post rel false (ideal_bop o a b)).
  Proof.
    intros Hc Hf Hp Hmx Hd Hx Hy.
    destruct a as [u|u], b as [v|v]; cbn [rel tshared tval ideal_bop] in *.
    - eapply wpo_ext; [intros i; rewrite (Hx i), (Hy i); reflexivity|]. apply pub_post. exact Hd.
    - destruct Hy as (s & Ey & Hs). eapply wpo_ext; [intros i; rewrite (Hx i), (Ey i); reflexivity|]. cbn [rep3_eq].
      rewrite Hmx. apply (@on0_post d (fun i (st : rst S) => fp i st (s i) u)); [exact Hd|].
      rewrite boolF_bitval, Hc. exact (Hp _ _ _ _ (proj1 Hd) Hs).
    - destruct Hx as (s & Ex & Hs). eapply wpo_ext; [intros i; rewrite (Ex i), (Hy i); reflexivity|]. cbn [rep3_eq].
      rewrite Hmx. apply (@on0_post d (fun i (st : rst S) => fp i st (s i) v)); [exact Hd|].
      rewrite boolF_bitval. exact (Hp _ _ _ _ (proj1 Hd) Hs).
    - destruct Hx as (s & Ex & Hs). destruct Hy as (s' & Ey & Hs').
      eapply wpo_ext; [intros i; rewrite (Ex i), (Ey i); reflexivity|]. cbn [rep3_eq].
      rewrite Hmx. apply (@on0_post d (fun i (st : rst S) => f i st (s i) (s' i))); [exact Hd|].
      rewrite boolF_bitval. exact (Hf _ _ _ _ _ (proj1 Hd) Hs Hs').
  Qed.
  Lemma bit_post o (fp : pid -> share N -> N -> share N) (f : pid -> rst S -> share N -> share N -> prog (share N * rst S)) (r : N -> N -> N) d x y a b :
    (forall u v, r u v = r v u) ->
    (forall s u c, shares s u -> shares (fun i => fp i (s i) c) (r u c)) ->
    (forall st s s' u v, synced st -> shares s u -> shares s' v ->
       wp cap (fun i => f i (st i) (s i) (s' i)) (fun q => shares (fun i => fst (q i)) (r u v) /\ synced (fun i => snd (q i)))) ->
    (r (to_uint (tval a)) (to_uint (tval b)) < p)%N ->
    mixed_bop o a b = Done (Sh (of_uint (r (to_uint (tval a)) (to_uint (tval b))))) ->
    synced2 d -> rel x a -> rel y b ->
    wpo cap (fun i => rep3_bit (Seed := Seed) W du hash gtweak otweak digest dg_eqb draw_label draw_delta rgof t o fp f i (d i) (x i) (y i))
      (drv_post rel false (ideal_bop o a b)).
  Proof.
    intros Hc Hfp Hf Hlt Hmx Hd Hx Hy.
    destruct a as [u|u], b as [v|v]; cbn [rel tshared tval ideal_bop] in *.
    - eapply wpo_ext; [intros i; rewrite (Hx i), (Hy i); reflexivity|]. apply pub_post. exact Hd.
    - destruct Hy as (s & Ey & Hs). eapply wpo_ext; [intros i; rewrite (Hx i), (Ey i); reflexivity|]. cbn [rep3_bit].
      rewrite Hmx. apply (@on0_post d (fun i (st : rst S) => bind (a2bs i st (s i)) (fun x => b2as i (snd x) (fp i (fst x) (to_uint u))))); [exact Hd|].
      apply wp_bind. eapply wp_mono; [|exact (a2bs_wp (proj1 Hd) Hs)]. cbv beta. intros q [Q1 Q2]. rewrite Hc.
      apply b2as_wp; [exact Q2|exact (Hfp _ _ _ Q1)|rewrite <- Hc; exact Hlt].
    - destruct Hx as (s & Ex & Hs). eapply wpo_ext; [intros i; rewrite (Ex i), (Hy i); reflexivity|]. cbn [rep3_bit].
      rewrite Hmx. apply (@on0_post d (fun i (st : rst S) => bind (a2bs i st (s i)) (fun x => b2as i (snd x) (fp i (fst x) (to_uint v))))); [exact Hd|].
      apply wp_bind. eapply wp_mono; [|exact (a2bs_wp (proj1 Hd) Hs)]. cbv beta. intros q [Q1 Q2].
      apply b2as_wp; [exact Q2|exact (Hfp _ _ _ Q1)|exact Hlt].
    - destruct Hx as (s & Ex & Hs). destruct Hy as (s' & Ey & Hs').
      eapply wpo_ext; [intros i; rewrite (Ex i), (Ey i); reflexivity|]. cbn [rep3_bit]. rewrite Hmx.
      apply wp_wpo. apply wp_bind. eapply wp_mono; [|exact (a2bs_wp (proj1 Hd) Hs)]. cbv beta. intros q [Q1 Q2].
      apply wp_bind. eapply wp_mono; [|exact (a2bs_wp (proj2 Hd) Hs')]. cbv beta. intros q' [Q1' Q2'].
      apply wp_bind. eapply wp_mono; [|exact (Hf _ _ _ _ _ Q2 Q1 Q1')]. cbv beta. intros z [Z1 Z2].
      apply wp_bind. eapply wp_mono; [|exact (b2as_wp Z2 Z1 Hlt)]. cbv beta. intros w [W1 W2].
      apply wp_ret. left. eexists. split; [reflexivity|]. cbn [fst snd]. split.
      + exists (fun i => fst (w i)). split; [reflexivity|exact W1].
      + split; [exact W2|exact Q2'].
  Qed.

  Ltac tags Hx Hy :=
    match goal with |- wpo _ _ (drv_post _ _ (ideal_bop _ ?a ?b)) =>
      destruct a as [u|u], b as [v|v]; cbn [rel tshared tval] in Hx, Hy;
      [ | destruct Hy as (s' & Hy & Hs') | destruct Hx as (s & Hx & Hs)
        | destruct Hx as (s & Hx & Hs); destruct Hy as (s' & Hy & Hs') ];
      (eapply wpo_ext; [intros i; rewrite (Hx i), (Hy i); reflexivity|])
    end.

  Lemma bop_wpo o d x y a b : synced2 d -> rel x a -> rel y b -> ideal_bop o a b <> Failed undef ->
    outcome_of o d x y (may_abort o b) (ideal_bop o a b).
  Proof.
    intros Hd Hx Hy Hu. destruct o; cbn [may_abort].
    - (* add *) unfold VmDriver.rep3_bop. tags Hx Hy; unfold rep3_add, ideal_bop.
      + apply pub_post. exact Hd.
      + cbn [mixed_bop tval]. replace (u + v) with (v + u) by ring. apply local_post; [exact Hd|]. apply add_public_ok. exact Hs'.
      + cbn [mixed_bop tval]. apply local_post; [exact Hd|]. apply add_public_ok. exact Hs.
      + cbn [mixed_bop tval]. apply local_post; [exact Hd|]. apply shadd_ok; assumption.
    - (* sub *) unfold VmDriver.rep3_bop. tags Hx Hy; unfold rep3_sub, ideal_bop.
      + apply pub_post. exact Hd.
      + cbn [mixed_bop tval]. apply local_post; [exact Hd|]. apply sub_public_by_shared_ok. exact Hs'.
      + cbn [mixed_bop tval]. apply local_post; [exact Hd|]. apply sub_shared_by_public_ok. exact Hs.
      + cbn [mixed_bop tval]. apply local_post; [exact Hd|]. apply shsub_ok; assumption.
    - (* mul *) unfold VmDriver.rep3_bop. tags Hx Hy; unfold rep3_mul, ideal_bop.
      + apply pub_post. exact Hd.
      + cbn [mixed_bop tval]. replace (rmul u v) with (rmul v u) by ring. apply local_post; [exact Hd|]. apply mul_public_ok. exact Hs'.
      + cbn [mixed_bop tval]. apply local_post; [exact Hd|]. apply mul_public_ok. exact Hs.
      + cbn [mixed_bop tval]. apply (@on0_post d (fun i (st : rst S) => mul i st (s i) (s' i))); [exact Hd|]. exact (mul_wp cap_pos (proj1 Hd) Hs Hs').
    - (* div *) unfold VmDriver.rep3_bop. tags Hx Hy; unfold rep3_div, ideal_bop.
      + apply pub_post. exact Hd.
      + cbn [mixed_bop tval tshared]. destruct (feqb v 0) eqn:E0.
        * apply feqb_spec in E0. apply (@inv_zero_post d s' v (fun i r => Ret (mul_public (fst r) u, snd r))); assumption.
        * apply feqb_false_neq in E0. replace (rmul u (finv v)) with (rmul (finv v) u) by ring.
          apply (@inv_then_post d s' v (fun i r => Ret (mul_public (fst r) u, snd r))); try assumption.
          intros st c K1 K2. apply wp_ret. split; [|exact K1]. cbn [fst snd]. apply mul_public_ok. exact K2.
      + cbn [mixed_bop tval tshared]. destruct (feqb v 0) eqn:E0; [apply wpo_fail; eexists; reflexivity|].
        apply local_post; [exact Hd|]. apply mul_public_ok. exact Hs.
      + cbn [mixed_bop tval tshared]. destruct (feqb v 0) eqn:E0.
        * apply feqb_spec in E0. apply (@inv_zero_post d s' v (fun i r => mul i (snd r) (s i) (fst r))); assumption.
        * apply feqb_false_neq in E0.
          apply (@inv_then_post d s' v (fun i r => mul i (snd r) (s i) (fst r))); try assumption.
          intros st c K1 K2. cbn [fst snd]. exact (mul_wp cap_pos K1 Hs K2).
    - (* int_div *) unfold VmDriver.rep3_bop. tags Hx Hy; unfold rep3_int_div, ideal_bop; unfold ideal_bop in Hu.
      + apply pub_post. exact Hd.
      + cbn [mixed_bop tval] in *. destruct (feqb v 0) eqn:E0; [contradiction|]. apply feqb_false_neq in E0.
        apply (@on0_post d (fun i (st : rst S) => y_div_shared i st u (s' i))); [exact Hd|]. apply y_div_shared_wp; [exact (proj1 Hd)|exact Hs'|exact E0].
      + cbn [mixed_bop tval] in *. destruct (feqb v 0) eqn:E0; [contradiction|]. apply feqb_false_neq in E0.
        destruct (is_power_of_two (to_uint v)) eqn:Ep.
        * rewrite (power_of_two _ Ep) at 1.
          apply (@on0_post d (fun i (st : rst S) => y_div_pow2 i st (s i) (ubit_len (to_uint v) - 1))); [exact Hd|]. apply y_div_pow2_wp; [exact (proj1 Hd)|exact Hs].
        * apply (@on0_post d (fun i (st : rst S) => y_div_public i st (s i) v)); [exact Hd|]. apply y_div_public_wp; [exact (proj1 Hd)|exact Hs|exact E0].
      + cbn [mixed_bop tval] in *. destruct (feqb v 0) eqn:E0; [contradiction|]. apply feqb_false_neq in E0.
        apply (@on0_post d (fun i (st : rst S) => y_div i st (s i) (s' i))); [exact Hd|]. apply y_div_wp; [exact (proj1 Hd)|exact Hs|exact Hs'|exact E0].
    - (* pow *) unfold VmDriver.rep3_bop. tags Hx Hy; unfold rep3_pow, ideal_bop.
      + apply pub_post. exact Hd.
      + apply wpo_fail. eexists. reflexivity.
      + cbn [mixed_bop tval]. destruct (feqb v 0) eqn:E0; [apply ret_pub_post; exact Hd|].
        apply (@on0_post d (fun i (st : rst S) => pow_public i st (s i) (to_uint v))); [exact Hd|]. exact (pow_public_wp cap_pos (to_uint v) (proj1 Hd) Hs).
      + apply wpo_fail. eexists. reflexivity.
    - (* mod *) unfold VmDriver.rep3_bop. tags Hx Hy; unfold rep3_mod, ideal_bop; unfold ideal_bop in Hu.
      + apply pub_post. exact Hd.
      + cbn [mixed_bop tval] in *. destruct (feqb v 0) eqn:E0; [contradiction|]. apply feqb_false_neq in E0.
        apply (@on0_post d (fun i (st : rst S) => q <- y_div_shared i st u (s' i) ;; m <- mul i (snd q) (fst q) (s' i) ;;
                                        Ret (sub_public_by_shared i u (fst m), snd m))); [exact Hd|].
        apply wp_bind. eapply wp_mono; [|exact (y_div_shared_wp u (proj1 Hd) Hs' E0)]. cbv beta. intros q [Q1 Q2].
        apply wp_bind. eapply wp_mono; [|exact (mul_wp cap_pos Q2 Q1 Hs')]. cbv beta. intros m [M1 M2].
        apply wp_ret. split; [|exact M2]. cbn [fst snd]. rewrite <- (div_mod_field u E0). apply sub_public_by_shared_ok. exact M1.
      + cbn [mixed_bop tval] in *. destruct (feqb v 0) eqn:E0; [contradiction|]. apply feqb_false_neq in E0.
        destruct (feqb v rone) eqn:E1.
        * apply feqb_spec in E1. subst v. rewrite to_uint_one. change (is_power_of_two 1) with true. change (ubit_len 1 - 1)%nat with 0%nat. cbv iota.
          apply (@on0_fail d (fun i (st : rst S) => y_mod_pow2 i st (s i) 0)). apply y_mod_pow2_0.
        * apply feqb_false_neq in E1. destruct (is_power_of_two (to_uint v)) eqn:Ep.
          -- pose proof (power_of_two _ Ep) as Ev. rewrite Ev at 1.
             apply (@on0_post d (fun i (st : rst S) => y_mod_pow2 i st (s i) (ubit_len (to_uint v) - 1))); [exact Hd|].
             apply y_mod_pow2_wp; [exact (proj1 Hd)|exact Hs|].
             destruct (ubit_len (to_uint v) - 1)%nat eqn:En; [|apply Nat.lt_0_succ]. exfalso. apply E1. apply to_uint_inj. rewrite Ev, to_uint_one. reflexivity.
          -- apply (@on0_post d (fun i (st : rst S) => q <- y_div_public i st (s i) v ;; Ret (shsub (s i) (mul_public (fst q) v), snd q))); [exact Hd|].
             apply wp_bind. eapply wp_mono; [|exact (y_div_public_wp (proj1 Hd) Hs E0)]. cbv beta. intros q [Q1 Q2].
             apply wp_ret. split; [|exact Q2]. cbn [fst snd]. rewrite <- (div_mod_field u E0). apply shsub_ok; [exact Hs|]. apply mul_public_ok. exact Q1.
      + cbn [mixed_bop tval] in *. destruct (feqb v 0) eqn:E0; [contradiction|]. apply feqb_false_neq in E0.
        apply (@on0_post d (fun i (st : rst S) => q <- y_div i st (s i) (s' i) ;; m <- mul i (snd q) (fst q) (s' i) ;;
                                        Ret (shsub (s i) (fst m), snd m))); [exact Hd|].
        apply wp_bind. eapply wp_mono; [|exact (y_div_wp (proj1 Hd) Hs Hs' E0)]. cbv beta. intros q [Q1 Q2].
        apply wp_bind. eapply wp_mono; [|exact (mul_wp cap_pos Q2 Q1 Hs')]. cbv beta. intros m [M1 M2].
        apply wp_ret. split; [|exact M2]. cbn [fst snd]. rewrite <- (div_mod_field u E0). apply shsub_ok; [exact Hs|exact M1].
    - (* lt *) apply (@cmp_post OLt _ _ _ (N.ltb) (N.leb)); try assumption; try reflexivity; intros;
        [eapply lt_wp|eapply lt_public_wp|eapply ge_public_wp]; try assumption; apply a2bs_wp.
    - (* le *) apply (@cmp_post OLe _ _ _ (N.leb) (N.ltb)); try assumption; try reflexivity; intros;
        [eapply le_wp|eapply le_public_wp|eapply gt_public_wp]; try assumption; apply a2bs_wp.
    - (* gt *) apply (@cmp_post OGt _ _ _ (fun u v => N.ltb v u) (fun u v => N.leb v u)); try assumption; try reflexivity; intros;
        [eapply gt_wp|eapply gt_public_wp|eapply le_public_wp]; try assumption; apply a2bs_wp.
    - (* ge *) apply (@cmp_post OGe _ _ _ (fun u v => N.leb v u) (fun u v => N.ltb v u)); try assumption; try reflexivity; intros;
        [eapply ge_wp|eapply ge_public_wp|eapply lt_public_wp]; try assumption; apply a2bs_wp.
    - (* eq *) apply (@eq_post OEq _ _ (feqb)); try assumption; try reflexivity; intros;
        [apply feqb_comm|eapply eq_wp|eapply eq_public_wp]; try assumption; apply a2bs_wp.
    - (* neq *) apply (@eq_post ONeq _ _ (fun u v => negb (feqb u v))); try assumption; try reflexivity; intros;
        [f_equal; apply feqb_comm|eapply neq_wp|eapply neq_public_wp]; try assumption; apply a2bs_wp.
    - (* shift_r *) unfold VmDriver.rep3_bop. tags Hx Hy; unfold rep3_shift_r, ideal_bop.
      + apply pub_post. exact Hd.
      + cbn [mixed_bop tval]. destruct (feqb u 0); [apply ret_pub_post; exact Hd|]. apply wpo_fail. eexists. reflexivity.
      + cbn [mixed_bop tval]. unfold shift_r_public. destruct (to_uint v <? 2 ^ 64)%N.
        * apply (@on0_post d (fun i (st : rst S) => x <- a2bs i st (s i) ;; b2as i (snd x) (shr (fst x) (N.to_nat (to_uint v))))); [exact Hd|].
          apply wp_bind. eapply wp_mono; [|exact (a2bs_wp (proj1 Hd) Hs)]. cbv beta. intros q [Q1 Q2].
          apply b2as_wp; [exact Q2|exact (shmap_ok (@lin3_shr _) Q1)|].
          eapply N.le_lt_trans; [|apply (to_uint_lt u)]. unfold ushr. rewrite N.shiftr_div_pow2. apply N.div_le_upper_bound; [apply N.pow_nonzero; discriminate|].
          pose proof (N.pow_nonzero 2 (N.of_nat (N.to_nat (to_uint v)))). nia.
        * apply (@on0_fail d (fun i (st : rst S) => x <- a2bs i st (s i) ;; Fail (Panic "shift_r_public"))).
          apply wpo_bind. eapply wp_mono; [|exact (a2bs_wp (proj1 Hd) Hs)]. cbv beta. intros q _. apply wpo_fail. eexists. reflexivity.
      + apply wpo_fail. eexists. reflexivity.
    - (* shift_l *) unfold VmDriver.rep3_bop. tags Hx Hy; unfold rep3_shift_l, ideal_bop.
      + apply pub_post. exact Hd.
      + cbn [mixed_bop tval]. destruct (feqb u 0); [apply ret_pub_post; exact Hd|].
        apply (@on0_post d (fun i (st : rst S) => x <- a2bs i st (s' i) ;; shift_l_public_by_shared b2as i (snd x) u (fst x))); [exact Hd|].
        apply wp_bind. eapply wp_mono; [|exact (a2bs_wp (proj1 Hd) Hs')]. cbv beta. intros q [Q1 Q2].
        eapply shift_l_wp; try eassumption. exact b2as_wp.
      + cbn [mixed_bop tval]. unfold pow_2_public. rewrite to_uint_eq0. destruct (feqb v 0) eqn:E0; cbn [orb].
        * apply feqb_spec in E0. subst v. rewrite to_uint_zero. cbn [N.to_nat rpow]. replace (rmul u rone) with u by ring. apply local_post; assumption.
        * destruct (to_uint v <? 2 ^ 32)%N; cbn [andb]; [|apply wpo_fail; eexists; reflexivity].
          destruct (to_uint v <? N.of_nat B)%N; [|apply wpo_fail; eexists; reflexivity].
          apply local_post; [exact Hd|]. apply mul_public_ok. exact Hs.
      + apply wpo_fail. eexists. reflexivity.
    - (* bool_or *) unfold VmDriver.rep3_bop. tags Hx Hy; unfold rep3_bool_or, ideal_bop.
      + apply pub_post. exact Hd.
      + cbn [mixed_bop tval]. replace (u + v - rmul u v) with (v + u - rmul v u) by ring. apply local_post; [exact Hd|].
        apply shsub_ok; [apply add_public_ok|apply mul_public_ok]; exact Hs'.
      + cbn [mixed_bop tval]. apply local_post; [exact Hd|]. apply shsub_ok; [apply add_public_ok|apply mul_public_ok]; exact Hs.
      + cbn [mixed_bop tval]. apply (@on0_post d (fun i (st : rst S) => m <- mul i st (s i) (s' i) ;; Ret (shsub (shadd (s i) (s' i)) (fst m), snd m))); [exact Hd|].
        apply wp_bind. eapply wp_mono; [|exact (mul_wp cap_pos (proj1 Hd) Hs Hs')]. cbv beta. intros m [M1 M2]. apply wp_ret. split; [|exact M2].
        cbn [fst snd]. apply shsub_ok; [apply shadd_ok; assumption|exact M1].
    - (* bool_and *) unfold VmDriver.rep3_bop. tags Hx Hy; unfold rep3_bool_and, rep3_mul, ideal_bop.
      + apply pub_post. exact Hd.
      + cbn [mixed_bop tval]. replace (rmul u v) with (rmul v u) by ring. apply local_post; [exact Hd|]. apply mul_public_ok. exact Hs'.
      + cbn [mixed_bop tval]. apply local_post; [exact Hd|]. apply mul_public_ok. exact Hs.
      + cbn [mixed_bop tval]. apply (@on0_post d (fun i (st : rst S) => mul i st (s i) (s' i))); [exact Hd|]. exact (mul_wp cap_pos (proj1 Hd) Hs Hs').
    - (* bit_or *) destruct (tshared a || tshared b) eqn:Et.
      + assert (Ei : ideal_bop OBitOr a b = mixed_bop OBitOr a b) by (destruct a, b; try reflexivity; discriminate Et).
        rewrite Ei in Hu. cbn [mixed_bop] in Hu. cbv zeta in Hu.
        destruct (N.lor (to_uint (tval a)) (to_uint (tval b)) <? p)%N eqn:EL2; [|contradiction].
        apply (@bit_post OBitOr _ _ N.lor); try assumption.
        * apply N.lor_comm.
        * intros. apply or_public_ok. assumption.
        * intros. apply bor_wp; assumption.
        * apply N.ltb_lt. exact EL2.
        * cbn [mixed_bop]. cbv zeta. rewrite EL2. reflexivity.
      + apply orb_false_elim in Et as [T1 T2]. unfold VmDriver.rep3_bop. tags Hx Hy; try discriminate. apply pub_post. exact Hd.
    - (* bit_and *) apply (@bit_post OBitAnd _ _ N.land); try assumption; try reflexivity.
      + apply N.land_comm.
      + intros s u c Hs. exact (shmap_ok (@lin3_land c) Hs).
      + intros. apply band_wp; assumption.
      + apply land_lt_p, to_uint_lt.
    - (* bit_xor *) destruct (tshared a || tshared b) eqn:Et.
      + assert (Ei : ideal_bop OBitXor a b = mixed_bop OBitXor a b) by (destruct a, b; try reflexivity; discriminate Et).
        rewrite Ei in Hu. cbn [mixed_bop] in Hu. cbv zeta in Hu.
        destruct (N.lxor (to_uint (tval a)) (to_uint (tval b)) <? p)%N eqn:EL2; [|contradiction].
        apply (@bit_post OBitXor _ _ N.lxor); try assumption.
        * apply N.lxor_comm.
        * intros s u c Hs. exact (add_public_ok (G := N) c Hs).
        * intros st s s' u v K1 K2 K3. apply wp_ret. split; [exact (shadd_ok (G := N) K2 K3)|exact K1].
        * apply N.ltb_lt. exact EL2.
        * cbn [mixed_bop]. cbv zeta. rewrite EL2. reflexivity.
      + apply orb_false_elim in Et as [T1 T2]. unfold VmDriver.rep3_bop. tags Hx Hy; try discriminate. apply pub_post. exact Hd.
  Qed.
  (** *** Operations with one operand, and the others *)
  Notation rep3_sqrt := (rep3_sqrt (Seed := Seed) W du hash gtweak digest dg_eqb draw_label draw_delta fsqrt rgof t).
  Lemma sqrt_wpo st a (x : F) : synced st -> shares a x ->
    wpo cap (fun i => rep3_sqrt i (st i) (a i))
      (fun o => (exists e, forall i, o i = Failed e) \/
                (exists r, (forall i, o i = Done (r i)) /\ exists w, fsqrt x = Some w /\ shared_result (nonneg w) r)).
  Proof.
    intros Hst Ha. unfold VmDriver.rep3_sqrt. apply wpo_seq. eapply wpo_mono; [|exact (sqrt_ok cap_pos _ fsqrt_root Hst Ha)].
    cbv beta. intros o [[[e He]|(w & y & Hw & Ey & Hy & Hsw)] _].
    - eapply wpo_ext; [intros i; rewrite (He i); reflexivity|]. cbn [leaf bind]. apply wpo_fail. left. exists e. reflexivity.
    - eapply wpo_ext; [intros i; rewrite (Hw i); reflexivity|]. cbn [leaf bind]. apply wp_wpo.
      apply wp_bind. eapply wp_mono; [|eapply ge_public_wp with (x := val y) (y := val 0); try assumption; [apply a2bs_wp|exact (sval_ok Hy)]].
      cbv beta. intros c [C1 C2]. rewrite val_ge in C1 by exact p_odd.
      apply wp_bind. eapply wp_mono; [|exact (mul_wp cap_pos C2 Hy C1)]. cbv beta. intros m [M1 M2].
      apply wp_ret. right. eexists. split; [reflexivity|].
      destruct (fsqrt x) as [w'|] eqn:Ew; [|exfalso; exact (@fsqrt_none _ Ew _ Ey)].
      exists w'. split; [reflexivity|]. split; [|exact M2]. cbn [fst snd].
      assert (En : nonneg w' = nonneg y) by (symmetry; apply (root_sign p_odd); rewrite Ey; symmetry; exact (@fsqrt_root _ _ Ew)).
      rewrite En. unfold nonneg.
      replace (if is_negative y then - y else y) with (rmul y (bitval (negb (is_negative y))) + rmul y (bitval (negb (is_negative y))) - y)
        by (destruct (is_negative y); cbn [negb bitval]; ring).
      apply shsub_ok; [apply shadd_ok; exact M1|exact Hy].
  Qed.
  Lemma uop_wpo o d x a : synced2 d -> rel x a ->
    wpo cap (fun i => rep3_uop o i (d i) (x i)) (drv_post rel (may_abort_u o a) (ideal_uop fsqrt o a)).
  Proof.
    intros Hd Hx. destruct a as [u|u]; cbn [rel] in Hx.
    - eapply wpo_ext; [intros i; rewrite (Hx i); reflexivity|]. cbn [VmDriver.rep3_uop ideal_uop]. apply pub_post. exact Hd.
    - destruct Hx as (s & Ex & Hs). eapply wpo_ext; [intros i; rewrite (Ex i); reflexivity|].
      destruct o; cbn [VmDriver.rep3_uop ideal_uop may_abort_u tshared].
      + apply local_post; [exact Hd|]. apply shneg_ok. exact Hs.
      + unfold on0. apply wpo_seq. eapply wpo_mono; [|exact (sqrt_wpo (proj1 Hd) Hs)].
        cbv beta. intros o [[e He]|(r & Hr & w & Ew & R1 & R2)].
        * eapply wpo_ext; [intros i; rewrite (He i); reflexivity|]. cbn [leaf bind]. apply wpo_fail.
          destruct (fsqrt u); cbn [drv_post]; [right; split; [reflexivity|]|]; exists e; reflexivity.
        * rewrite Ew. eapply wpo_ext; [intros i; rewrite (Hr i); reflexivity|]. cbn [leaf bind]. apply wp_wpo, wp_ret.
          left. eexists. split; [reflexivity|]. cbn [fst snd]. split; [|split; [exact R2|exact (proj2 Hd)]].
          exists (fun i => fst (r i)). split; [reflexivity|exact R1].
      + apply local_post; [exact Hd|]. replace (rone - u) with (- u + rone) by ring. apply add_public_ok, shneg_ok. exact Hs.
  Qed.
  (** an operation that cannot fail, then the rest *)
  Lemma post_then {A} (q : pid -> prog (rv F * dst)) v (k : pid -> rv F * dst -> prog A) Q :
    wpo cap q (drv_post rel false (Done v)) ->
    (forall r d, rel r v -> synced2 d -> wpo cap (fun i => k i (r i, d i)) Q) -> wpo cap (fun i => bind (q i) (k i)) Q.
  Proof.
    intros Hq Hk. apply wpo_seq. eapply wpo_mono; [|exact Hq]. cbv beta. intros o [(r & Hr & R1 & R2)|[C _]]; [|discriminate].
    eapply wpo_ext; [intros i; rewrite (Hr i); reflexivity|]. cbn [leaf bind].
    eapply wpo_ext; [intros i; rewrite (surjective_pairing (r i)); reflexivity|].
    exact (Hk (fun i => fst (r i)) (fun i => snd (r i)) R1 R2).
  Qed.
  Lemma done_not_undef {A} (v : A) : Done v <> Failed undef.
  Proof. discriminate. Qed.
  Lemma cmux_wpo d c x y tc a b : synced2 d -> rel c tc -> rel x a -> rel y b ->
    wpo cap (fun i => rep3_cmux i (d i) (c i) (x i) (y i)) (drv_post rel false (ideal_cmux tc a b)).
  Proof.
    intros Hd Hc Hx Hy. destruct tc as [v|v]; cbn [rel] in Hc.
    - eapply wpo_ext; [intros i; rewrite (Hc i); reflexivity|]. cbn [rep3_cmux ideal_cmux]. destruct (is01 v).
      + apply wp_wpo, wp_ret. left. eexists. split; [reflexivity|]. split; [|exact Hd]. cbn [fst]. destruct (feqb v rone); assumption.
      + apply wpo_fail. eexists. reflexivity.
    - pose proof Hc as (s & Ec & _). cbn [ideal_cmux].
      eapply wpo_ext; [intros i; rewrite (Ec i); reflexivity|]. cbn [rep3_cmux].
      assert (Es : exists w, ideal_bop OSub a b = Done w /\ tval w = tval a - tval b) by (destruct a, b; eexists; split; reflexivity).
      destruct Es as (w & Ew & Vw).
      eapply post_then.
      { pose proof (@bop_wpo OSub d x y a b Hd Hx Hy) as K. rewrite Ew in K. exact (K ltac:(discriminate)). }
      intros r d1 Hr Hd1. cbn [fst snd].
      assert (Em : ideal_bop OMul (Sh v) w = Done (Sh (rmul v (tval w)))) by reflexivity.
      eapply post_then.
      { pose proof (@bop_wpo OMul d1 c r (Sh v) w Hd1 Hc Hr) as K. rewrite Em in K.
        specialize (K ltac:(discriminate)). eapply wpo_ext; [|exact K]. intros i. cbv beta. cbn [VmDriver.rep3_bop]. rewrite <- (Ec i). reflexivity. }
      intros m d2 Hm Hd2. cbn [fst snd]. rewrite <- Vw.
      pose proof (@bop_wpo OAdd d2 y m b (Sh (rmul v (tval w))) Hd2 Hy Hm) as K.
      assert (Ea : ideal_bop OAdd b (Sh (rmul v (tval w))) = Done (Sh (tval b + rmul v (tval w)))) by (destruct b; reflexivity).
      rewrite Ea in K. exact (K ltac:(discriminate)).
  Qed.
  Definition same {A} (r : pid -> A) (v : A) : Prop := forall i, r i = v.
  Notation rep3_is_zero := (rep3_is_zero (Seed := Seed) W du hash gtweak digest dg_eqb draw_label draw_delta rgof t).
  Lemma is_zero_wpo d x a allow : synced2 d -> rel x a ->
    wpo cap (fun i => rep3_is_zero i (d i) (x i) allow) (drv_post same false (ideal_is_zero a allow)).
  Proof.
    intros Hd Hx. unfold VmDriver.rep3_is_zero, ideal_is_zero. destruct a as [u|u]; cbn [rel] in Hx.
    - eapply wpo_ext; [intros i; rewrite (Hx i); reflexivity|]. cbn [rep3_is_shared tshared]. rewrite andb_false_r.
      apply wp_wpo, wp_ret. left. eexists. split; [reflexivity|]. split; [intros i; reflexivity|exact Hd].
    - destruct Hx as (s & Ex & Hs). eapply wpo_ext; [intros i; rewrite (Ex i); reflexivity|]. cbn [rep3_is_shared tshared].
      destruct allow; cbn [negb andb].
      + apply wp_wpo, wp_bind. eapply wp_mono; [|eapply is_zero_wp; try eassumption; [apply a2bs_wp|exact (proj1 Hd)]].
        cbv beta. intros r [R1 R2]. apply wp_ret. left. eexists. split; [reflexivity|]. split; [exact R1|split; [exact R2|exact (proj2 Hd)]].
      + apply wpo_fail. eexists. reflexivity.
  Qed.
  Lemma to_index_wpo d x a : synced2 d -> rel x a ->
    wpo cap (fun i => rep3_to_index (M := M) i (d i) (x i)) (drv_post same false (ideal_to_index a)).
  Proof.
    intros Hd Hx. destruct a as [u|u]; cbn [rel] in Hx.
    - eapply wpo_ext; [intros i; rewrite (Hx i); reflexivity|]. cbn [rep3_to_index ideal_to_index]. destruct (to_usize u).
      + apply wp_wpo, wp_ret. left. eexists. split; [reflexivity|]. split; [intros i; reflexivity|exact Hd].
      + apply wpo_fail. eexists. reflexivity.
    - destruct Hx as (s & Ex & _). eapply wpo_ext; [intros i; rewrite (Ex i); reflexivity|]. apply wpo_fail. eexists. reflexivity.
  Qed.
  Lemma open_wpo d x a : synced2 d -> rel x a ->
    wpo cap (fun i => rep3_open i (d i) (x i)) (drv_post same false (Done (tval a))).
  Proof.
    intros Hd Hx. destruct a as [u|u]; cbn [rel] in Hx.
    - eapply wpo_ext; [intros i; rewrite (Hx i); reflexivity|].
      apply wp_wpo, wp_ret. left. eexists. split; [reflexivity|]. split; [intros i; reflexivity|exact Hd].
    - destruct Hx as (s & Ex & Hs). eapply wpo_ext; [intros i; rewrite (Ex i); reflexivity|]. cbn [rep3_open].
      apply wp_wpo, wp_bind. eapply wp_mono; [|exact (open_wp cap_pos Hs)]. cbv beta. intros r Hr.
      apply wp_ret. left. eexists. split; [reflexivity|]. split; [exact Hr|exact Hd].
  Qed.
  Lemma to_share_ok x a : rel x a -> shares (fun i => rep3_to_share i (x i)) (tval a).
  Proof.
    intros Hx. destruct a as [u|u]; cbn [rel tval] in *.
    - eapply shares_ext; [|exact (promote_ok u)]. intros i. rewrite (Hx i). reflexivity.
    - destruct Hx as (s & Ex & Hs). eapply shares_ext; [|exact Hs]. intros i. rewrite (Ex i). reflexivity.
  Qed.
  Lemma share_bits_ok s u n : shares s u ->
    shares_vec (fun i => share_bits (s i) n) (map (fun k => N.land (ushr u k) 1) (seq 0 n)).
  Proof.
    intros Hs. unfold share_bits. induction (seq 0 n) as [|k l IH]; cbn [map]; [apply pvec_nil; reflexivity|].
    eapply pvec_cons; [reflexivity| |exact IH]. apply (shmap_ok (@lin3_land 1)). exact (shmap_ok (@lin3_shr k) Hs).
  Qed.
  Lemma land1_lt u : (N.land u 1 < 2)%N.
  Proof. change 1%N with (N.ones 1). rewrite (N.land_ones u 1). apply N.mod_lt. discriminate. Qed.
  Lemma share_bits_small (x : share N) n : Forall (fun x => sa x < 2 /\ sb x < 2)%N (share_bits x n).
  Proof. unfold share_bits. induction (seq 0 n); constructor; [|assumption]. split; apply land1_lt. Qed.
  Lemma bits_values u n : map (fun v => bitval (R := F) (ubit v 0)) (map (fun k => N.land (ushr u k) 1) (seq 0 n)) = bits_of u n.
  Proof.
    unfold bits_of. rewrite map_map. apply map_ext. intros k. rewrite boolF_bitval. f_equal.
    unfold ubit, ushr. rewrite N.land_spec, N.shiftr_spec' , andb_true_r. reflexivity.
  Qed.
  Lemma bits_wp (d : pid -> dst) s (u : F) n : synced2 d -> shares s u ->
    wp cap (fun i => x <- a2bs i (fst (d i)) (s i) ;; bit_inject_many (R := F) i (snd x) (share_bits (fst x) n))
      (fun r => shares_vec (fun i => fst (r i)) (bits_of (to_uint u) n) /\ synced (fun i => snd (r i))).
  Proof.
    intros Hd Hs. apply wp_bind. eapply wp_mono; [|exact (a2bs_wp (proj1 Hd) Hs)]. cbv beta. intros q [Q1 Q2].
    rewrite <- bits_values. apply bit_inject_many_wp; [assumption|exact Q2|exact (share_bits_ok n Q1)|]. intros i. apply share_bits_small.
  Qed.
  Lemma rel_vec_sh (l : pid -> list (share F)) vs : shares_vec l vs -> pvec rel (fun i => map RSh (l i)) (map Sh vs).
  Proof. intros Hl. eapply pvec_map; [|exact Hl]. intros a x Ha. exists a. split; [reflexivity|exact Ha]. Qed.
  Lemma rel_vec_pub vs : pvec (rel (F := F)) (fun _ => map RPub vs) (map Pub vs).
  Proof. induction vs; cbn [map]; [apply pvec_nil; reflexivity|]. eapply pvec_cons; [reflexivity| |exact IHvs]. intros i. reflexivity. Qed.
  Notation rep3_num2bits := (rep3_num2bits (Seed := Seed) W du hash gtweak digest dg_eqb draw_label draw_delta rgof t).
  Lemma num2bits_wpo d x a bits : synced2 d -> rel x a ->
    wpo cap (fun i => rep3_num2bits i (d i) (x i) bits) (drv_post (pvec rel) false (Done (ideal_num2bits a bits))).
  Proof.
    intros Hd Hx. destruct a as [u|u]; cbn [rel] in Hx; unfold ideal_num2bits; cbn [tshared tval].
    - eapply wpo_ext; [intros i; rewrite (Hx i); reflexivity|].
      apply wp_wpo, wp_ret. left. eexists. split; [reflexivity|]. split; [apply rel_vec_pub|exact Hd].
    - destruct Hx as (s & Ex & Hs). eapply wpo_ext; [intros i; rewrite (Ex i); reflexivity|]. cbn [VmDriver.rep3_num2bits].
      apply wp_wpo. apply wp_bind. eapply wp_mono; [|exact (a2bs_wp (proj1 Hd) Hs)]. cbv beta. intros q [Q1 Q2].
      apply wp_bind. eapply wp_mono; [|apply bit_inject_many_wp; [assumption|exact Q2|exact (share_bits_ok bits Q1)|]].
      2:{ intros i. apply share_bits_small. }
      cbv beta. intros r [R1 R2]. rewrite bits_values in R1.
      apply wp_ret. left. eexists. split; [reflexivity|]. cbn [fst snd]. split; [exact (rel_vec_sh R1)|split; [exact R2|exact (proj2 Hd)]].
  Qed.
  Lemma hsum_ok l vs : pvec rel l vs -> forall acc v, shares acc v ->
    shares (fun i => fold_left (fun acc x => shadd (shadd acc acc) (rep3_to_share i x)) (l i) (acc i))
           (fold_left (fun acc x => acc + acc + x) (map tval vs) v).
  Proof.
    revert l. induction vs as [|x vs IH]; intros l Hl acc v Ha.
    - eapply shares_ext; [|exact Ha]. intros i. rewrite (pvec_nil_inv Hl i). reflexivity.
    - apply pvec_cons_inv in Hl as (h & tl & El & Hh & Ht). cbn [map fold_left].
      eapply shares_ext; [|apply (IH tl Ht (fun i => shadd (shadd (acc i) (acc i)) (rep3_to_share i (h i)))); apply shadd_ok; [apply shadd_ok; exact Ha|exact (to_share_ok _ _ Hh)]].
      intros i. cbv beta. rewrite (El i). reflexivity.
  Qed.
  Lemma pvec_rev {A A'} (R : (pid -> A) -> A' -> Prop) l xs : pvec R l xs -> pvec R (fun i => rev (l i)) (rev xs).
  Proof.
    revert l. induction xs as [|x xs IH]; intros l Hl.
    - apply pvec_nil. intros i. rewrite (pvec_nil_inv Hl i). reflexivity.
    - apply pvec_cons_inv in Hl as (h & tl & El & Hh & Ht). cbn [rev].
      eapply pvec_ext; [|apply (pvec_app (IH tl Ht) (l' := fun i => [h i]) (xs' := [x]))].
      + intros i. cbv beta. rewrite (El i). reflexivity.
      + eapply pvec_cons; [reflexivity|exact Hh|apply pvec_nil; reflexivity].
  Qed.
  Definition rel_bits (r : pid -> list (rv F) * rv F) (v : list (tv F) * tv F) : Prop :=
    pvec rel (fun i => fst (r i)) (fst v) /\ rel (fun i => snd (r i)) (snd v).
  Notation rep3_addbits := (rep3_addbits (Seed := Seed) W du hash gtweak digest dg_eqb draw_label draw_delta rgof t).
  Lemma addbits_wpo d x y a b : synced2 d -> pvec rel x a -> pvec rel y b ->
    wpo cap (fun i => rep3_addbits i (d i) (x i) (y i)) (drv_post rel_bits false (ideal_addbits a b)).
  Proof.
    intros Hd Hx Hy. unfold VmDriver.rep3_addbits, ideal_addbits, plain_addbits. rewrite !map_length.
    eapply wpo_ext; [intros i; rewrite (pvec_len i Hx), (pvec_len i Hy); reflexivity|].
    destruct (length a =? length b)%nat; [|apply wpo_fail; eexists; reflexivity].
    destruct (length a <? mbs F - 1)%nat; [|apply wpo_fail; eexists; reflexivity].
    cbn [omap obind fst snd]. cbv zeta. set (sum := horner_bits (map tval a) + horner_bits (map tval b)).
    assert (Hsum : shares (fun i => shadd (fold_left (fun acc x => shadd (shadd acc acc) (rep3_to_share i x)) (x i) zero_share)
                                          (fold_left (fun acc x => shadd (shadd acc acc) (rep3_to_share i x)) (y i) zero_share)) sum).
    { apply shadd_ok; [exact (hsum_ok Hx zero_share_ok)|exact (hsum_ok Hy zero_share_ok)]. }
    apply wp_wpo. apply wp_bind. eapply wp_mono; [|exact (a2bs_wp (proj1 Hd) Hsum)]. cbv beta. intros q [Q1 Q2].
    apply wp_bind. eapply wp_mono; [|apply bit_inject_many_wp; [assumption|exact Q2|exact (share_bits_ok (length a + 1) Q1)|]].
    2:{ intros i. apply share_bits_small. }
    cbv beta. intros r [R1 R2]. rewrite bits_values in R1.
    assert (Eb : rev (bits_of (F := F) (to_uint sum) (length a + 1)) = boolF (ubit (to_uint sum) (length a)) :: rev (bits_of (to_uint sum) (length a))).
    { unfold bits_of. rewrite seq_app, map_app, rev_app_distr. reflexivity. }
    apply pvec_rev in R1. rewrite Eb in R1. apply pvec_cons_inv in R1 as (c & l & El & Hc & Hl).
    eapply wp_ext; [intros i; rewrite (El i); reflexivity|].
    apply wp_ret. left. eexists. split; [reflexivity|]. cbn [fst snd]. split; [|split; [exact R2|exact (proj2 Hd)]].
    split; cbn [fst snd]; [exact (rel_vec_sh Hl)|]. exists c. split; [reflexivity|exact Hc].
  Qed.
  (** *** Compared with the driver on clear values *)
  (** public or shared, the parties hold [v] *)
  Definition holds (r : pid -> rv F) (v : F) : Prop := exists a, rel r a /\ tval a = v.
  Lemma post_holds may (x : outcome (tv F)) r (v : F) (ps : pid -> prog (rv F * dst)) : x = Done r -> tval r = v ->
    wpo cap ps (drv_post rel may x) -> wpo cap ps (drv_post holds may (Done v)).
  Proof.
    intros -> Er. apply wpo_mono. intros o [(q & Q1 & Q2 & Q3)|K]; [left|right; exact K].
    exists q. split; [exact Q1|]. split; [|exact Q3]. exists r. split; assumption.
  Qed.
  Lemma bop_clear o d x y a b v : synced2 d -> rel x a -> rel y b -> supported o a b -> faithful o a b ->
    plain_bop o (tval a) (tval b) = Done v ->
    wpo cap (fun i => rep3_bop o i (d i) (x i) (y i)) (drv_post holds (may_abort o b) (Done v)).
  Proof.
    intros Hd Hx Hy Hs Hf Hp. destruct (ideal_bop_ok Hs Hf Hp) as (r & Er & Vr).
    eapply post_holds; [exact Er|exact Vr|]. apply bop_wpo; try assumption. rewrite Er. discriminate.
  Qed.
  Lemma uop_clear o d x a v : synced2 d -> rel x a -> plain_uop fsqrt o (tval a) = Done v ->
    wpo cap (fun i => rep3_uop o i (d i) (x i)) (drv_post holds (may_abort_u o a) (Done v)).
  Proof.
    intros Hd Hx Hp.
    assert (Ei : exists r, ideal_uop fsqrt o a = Done r).
    { destruct a as [u|u]; cbn [ideal_uop tval] in *; [rewrite Hp; eexists; reflexivity|].
      destruct o; try (eexists; reflexivity). cbn [plain_uop] in Hp. destruct (fsqrt u); [eexists; reflexivity|discriminate]. }
    destruct Ei as [r Er]. eapply post_holds; [exact Er|exact (ideal_uop_agrees fsqrt _ _ Er Hp)|]. apply uop_wpo; assumption.
  Qed.
  Lemma cmux_clear d c x y tc a b v : synced2 d -> rel c tc -> rel x a -> rel y b -> plain_cmux (tval tc) (tval a) (tval b) = Done v ->
    wpo cap (fun i => rep3_cmux i (d i) (c i) (x i) (y i)) (drv_post holds false (Done v)).
  Proof.
    intros Hd Hc Hx Hy Hp. destruct (ideal_cmux_agrees _ _ _ Hp) as (r & Er & Vr).
    eapply post_holds; [exact Er|exact Vr|]. apply cmux_wpo; assumption.
  Qed.
End VmDriverWp.
