(** * Three parties running the coBrillig VM: their results open to those of the program *)
From Coq Require Import String List Arith NArith Lia Bool.
From Verif Require Import Proc Alg Rep3Net Rep3 Rep3Spec Rep3Proofs Rep3Wp Uint Binary Conv Ring2k
  VmDriver VmIdeal Brillig BrilligSpec BrilligSound BrilligTag BrilligDriver BrilligOps BrilligSim.
Import ListNotations.
Set Implicit Arguments.
Local Open Scope grp_scope.
Local Open Scope list_scope.

(** ** The VM on clear values *)
Section Clear.
  Context {F : Type} `{FU : FieldUint F}.
  Variables (P M : Type) (dbg : bool) (trng : nat -> bty -> bval F).
  (** what a run from a new VM returns *)
  Definition plain_run (code : list (bopc F)) (fuel : nat) (calldata : list (bval F)) : outcome (bres (bval F)) :=
    omap fst (pure_run (brun (plain_driver P M dbg trng) code fuel calldata (binit (plain_driver P M dbg trng) 0%nat))).
  Lemma Forall2_refl_eq {A} (l : list A) : Forall2 eq l l.
  Proof. induction l; constructor; auto. Qed.
  Lemma Forall2_eq {A} (l l' : list A) : Forall2 eq l l' -> l = l'.
  Proof. induction 1; congruence. Qed.
  Theorem plain_run_ok code fuel fuel' calldata r q : plain_run code fuel calldata = Done r -> srun code fuel' (sinit calldata) = Some q ->
    match q with SOk vs ps => r = BSuccess vs ps | STrap => r = BTrap end.
  Proof.
    unfold plain_run, brun. set (s0 := mkB _ _ _ _ _ _ _). intros E Eq.
    destruct (pure_run (run_inner (plain_driver P M dbg trng) code fuel s0)) as [w|] eqn:Ew; [|discriminate]. injection E as E.
    assert (R0 : srel (plain_driver P M dbg trng) eq s0 (sinit calldata)).
    { subst s0. constructor; cbn; try reflexivity; try discriminate.
      - intros a. destruct a; reflexivity.
      - constructor.
      - apply Forall2_refl_eq. }
    pose proof (run_sound (plain_sound P M dbg trng) code fuel fuel' R0 Ew Eq) as K. subst r. destruct q as [vs ps|]; cbn in K.
    - destruct K as (ws & ps' & E1 & E2 & E3). rewrite E1. f_equal; [exact (Forall2_eq E2)|].
      clear -E3. induction E3 as [|[a b] [c d] ? ? [A B] ? IH]; [reflexivity|]. cbn in A, B. apply Forall2_eq in B. subst. reflexivity.
    - exact (K eq_refl).
  Qed.
End Clear.

(** ** Three parties *)
Section Parties.
  Context {F : Type} `{FU : FieldUint F} {S Seed M : Type} (dbg strict : bool) (W : nat) (du : nat -> S -> N * S).
  Context {DF : Draw S F} {DS : Draw S Seed} {SD : Seeded S Seed}.
  Context {EN : Enc M (list N)} {ENN : Enc M (list (N * N))}
          {EL : Enc M (list (list N))} {ELL : Enc M (list (list N * list N))} {EF : Enc M (list F)}.
  Context {RT : isz -> Type} {RC : forall s, CRing (RT s)} {RI : forall s, @IntRing (RT s) (RC s)}
          {RD : forall s, Draw S (RT s)} {RE : forall s, Enc M (list (RT s))}.
  Context (HK : forall s, rK (RT s) = ibits s).
  Context (Y : yao (F := F) (S := S) (M := M) (RT := RT)) (trng : pid -> nat -> bty -> bval F).
  Context (cap : nat) (cap_pos : (1 <= cap)%nat) (width : (mbs F + 2 <= W)%nat) (HY : yao_ok Y cap).
  Notation V := (bv (F := F) (RT := RT)).
  Notation St := (drst (S := S)).
  Notation D i := (rep3_bdriver (Seed := Seed) (EN := EN) (ENN := ENN) (EF := EF) (RE := RE) dbg W du Y trng i).
  Notation T := (tagged_driver (F := F) pid M dbg strict).

  (** the parties hold [x]: all have it, or they have shares of it *)
  Definition held (v : pid -> V) (x : bval F) : Prop := vrel v false x \/ vrel v true x.
  (** the parties hold stored states *)
  Definition pss_held : (pid -> list (list N * list V)) -> list (list N * list (bval F)) -> Prop :=
    pvec (fun e e' => (forall i, fst (e i) = fst e') /\ pvec held (fun i => snd (e i)) (snd e')).
  Lemma lrel_pvec v z xs : lrel v z -> Forall2 tev z xs -> pvec held v xs.
  Proof.
    intros Hv Hz. revert v Hv. induction Hz as [|t x z xs Ht Hz IH]; intros v Hv.
    - split; [intros i; rewrite (lrel_nil_inv Hv i); reflexivity|]. intros [|n] y; discriminate.
    - destruct (lrel_cons_inv Hv) as (h & u & Hh & Hu & Ev). destruct (IH u Hu) as [L N]. split.
      + intros i. rewrite Ev. cbn. rewrite L. reflexivity.
      + intros [|n] y E; cbn in E.
        * injection E as <-. exists h. split; [intros i; rewrite Ev; reflexivity|]. destruct Ht as [->| ->]; [left|right]; exact Hh.
        * destruct (N n y E) as (a & A & B). exists a. split; [|exact B]. intros i. rewrite Ev. exact (A i).
  Qed.
  (** calldata, each value with whether it is shared *)
  Definition cd_held (v : pid -> list V) (cd : list (bool * bval F)) : Prop := pvec (fun w bx => vrel w (fst bx) (snd bx)) v cd.
  Definition cd_tags (cd : list (bool * bval F)) : list (tb F) := map (fun bx : bool * bval F => if fst bx then TShr (snd bx) else TPub (snd bx)) cd.
  Lemma cd_lrel v cd : cd_held v cd -> lrel v (cd_tags cd).
  Proof.
    intros [L N]. unfold cd_tags. split; [intros i; rewrite map_length; apply L|].
    intros k. destruct (nth_error cd k) as [bx|] eqn:E.
    - destruct (N k bx E) as (a & A & B). apply map_nth_error with (f := fun bx : bool * bval F => if fst bx then TShr (snd bx) else TPub (snd bx)) in E.
      apply nth_error_nth with (d := (TPub plain_default : tb F)) in E. rewrite E.
      assert (Ea : forall i, nth k (v i) (BPub plain_default) = a i) by (intros i; apply nth_error_nth; apply A).
      destruct bx as [[|] x]; cbn [fst snd] in *.
      + destruct B as (w & B1 & B2). exists w. split; [exact B1|]. intros i. rewrite Ea. apply B2.
      + intros i. rewrite Ea. apply B.
    - apply nth_error_None in E. rewrite nth_overflow by (rewrite map_length; exact E).
      intros i. apply nth_overflow. rewrite L. exact E.
  Qed.
  Lemma cd_tev (cd : list (bool * bval F)) : Forall2 tev (cd_tags cd) (map snd cd).
  Proof. unfold cd_tags. induction cd as [|[[|] x] cd IH]; cbn; constructor; try exact IH; [right|left]; reflexivity. Qed.

  (** the machine on tagged values: what is public, what is shared, and which operations there are *)
  Definition tagged_run (code : list (bopc F)) (fuel : nat) (cd : list (bool * bval F)) : outcome (bres (tb F)) :=
    omap fst (pure_run (brun T code fuel (cd_tags cd) (binit T tt))).
  (** party [i] *)
  Definition party_run (code : list (bopc F)) (fuel : nat) (v : list V) (st : St) (i : pid) : prog pid M (bres V * bst V St) :=
    brun (D i) code fuel v (binit (D i) st).

  Lemma init_rel v cd (st : pid -> St) : cd_held v cd -> synced (fun i => fst (st i)) ->
    brel (fun i => mkB [] (st i) None [] (v i) [] 0%nat) (mkB [] tt None [] (cd_tags cd) [] 0%nat).
  Proof.
    intros Hv Hs. constructor; cbn; try (intros i; reflexivity); try assumption.
    - apply lrel_nil.
    - apply prel_nil.
    - exact (cd_lrel Hv).
  Qed.
  Theorem parties_tagged code fuel v cd (st : pid -> St) : cd_held v cd -> synced (fun i => fst (st i)) -> tagged_run code fuel cd <> Failed undef ->
    wpo cap (fun i => party_run code fuel (v i) (st i) i) (xpost strict (fun r q => rsrel (fun i => fst (r i)) q /\ synced (fun i => fst (b_drv (snd (r i))))) (tagged_run code fuel cd)).
  Proof.
    intros Hv Hs Hd. unfold party_run, brun. cbn [b_mem b_drv b_ctx b_pss b_stack binit].
    pose proof (run_sim dbg strict du HK trng cap_pos width HY code fuel (init_rel st Hv Hs)) as K. unfold sim in K.
    unfold tagged_run, brun in *. cbn [b_mem b_drv b_ctx b_pss b_stack binit] in *.
    match type of K with ?x <> _ -> _ => set (X := x) in K end.
    match goal with |- context [omap fst ?x] => change x with X in Hd |- * end. clearbody X. destruct X as [q|e]; cbn [omap obind] in *.
    - eapply wpo_mono; [|apply K; discriminate]. intros o [(r & Er & HR)|Hf]; [|right; exact Hf]. left. exists r. split; [exact Er|].
      destruct HR as [H1 H2]. split; [exact H1|exact (br_drv H2)].
    - apply K. intros C. apply Hd. injection C as ->. reflexivity.
  Qed.

  (** all parties return and hold [vs] and the stored states [ps] *)
  Definition returned (vs : list (bval F)) (ps : list (list N * list (bval F))) (o : pid -> outcome (bres V * bst V St)) : Prop :=
    exists s ws pss, (forall i, o i = Done (BSuccess (ws i) (pss i), s i)) /\ pvec held ws vs /\ pss_held pss ps.
  Theorem parties_result code fuel fuel' v cd (st : pid -> St) q vs ps : cd_held v cd -> synced (fun i => fst (st i)) ->
    tagged_run code fuel cd = Done q -> srun code fuel' (sinit (map snd cd)) = Some (SOk vs ps) ->
    wpo cap (fun i => party_run code fuel (v i) (st i) i) (fun o => returned vs ps o \/ (strict = false /\ all_fail o)).
  Proof.
    intros Hv Hs Et Eq. eapply wpo_mono; [|apply (parties_tagged code fuel st Hv Hs); rewrite Et; discriminate].
    rewrite Et. intros o [(r & Er & HR & _)|Hf]; [|right; exact Hf]. left.
    unfold tagged_run, brun in Et. cbn [b_mem b_drv b_ctx b_pss b_stack binit] in Et. set (s0 := mkB [] _ _ _ _ _ _) in Et.
    destruct (pure_run (run_inner T code fuel s0)) as [w|] eqn:Ew; [|discriminate]. injection Et as Et.
    assert (R0 : srel T tev s0 (sinit (map snd cd))).
    { subst s0. constructor; cbn; try reflexivity; try discriminate.
      - intros a. left. destruct a; reflexivity.
      - constructor.
      - exact (cd_tev cd). }
    pose proof (run_sound (tagged_sound pid M dbg strict) code fuel fuel' R0 Ew Eq) as K. cbn in K. rewrite Et in K.
    destruct K as (ws & ps' & -> & E2 & E3). cbn [rsrel] in HR. destruct HR as (ws' & pss & H1 & H2 & H3).
    exists (fun i => snd (r i)), ws', pss. split; [intros i; rewrite Er, <- H3; destruct (r i); reflexivity|].
    split; [exact (lrel_pvec H1 E2)|]. clear -H2 E3.
    destruct H2 as [K Hn]. assert (L : length ps' = length ps) by (clear -E3; induction E3; cbn; congruence).
    assert (L' : forall i, length (pss i) = length ps') by (intros i; rewrite <- (map_length fst), K, map_length; reflexivity).
    split; [intros i; rewrite L', L; reflexivity|]. intros n y Ey.
    assert (X : exists x, nth_error ps' n = Some x /\ fst x = fst y /\ Forall2 tev (snd x) (snd y)).
    { clear -E3 Ey. revert n Ey. induction E3 as [|x z l l' [A B] E3 IH]; intros [|n] Ey; try discriminate.
      - injection Ey as <-. exists x. auto.
      - exact (IH n Ey). }
    destruct X as (x & Ex & X1 & X2). assert (Ln : (n < length ps')%nat) by (apply nth_error_Some; congruence).
    exists (fun i => nth n (pss i) ([], [])). split; [intros i; apply nth_error_nth'; rewrite L'; exact Ln|]. split.
    - intros i. rewrite <- X1, <- (map_nth fst (pss i) ([], []) n), K. apply nth_error_nth. apply map_nth_error. exact Ex.
    - specialize (Hn n). rewrite (nth_error_nth (map snd ps') n [] (map_nth_error snd n ps' Ex)) in Hn.
      eapply lrel_pvec; [|exact X2]. eapply lrel_ext; [|exact Hn]. intros i. exact (map_nth snd (pss i) ([], []) n).
  Qed.
End Parties.
