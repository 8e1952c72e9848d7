(** * A name that is already in the store of private shared state *)
From Coq Require Import String List Arith NArith Lia Bool Permutation.
From Verif Require Import Proc Alg Rep3Net Rep3 Rep3Spec Rep3Proofs Rep3Wp Uint Binary BinaryWp Conv ConvWp Ring2k Ring2kWp
  VmDriver VmIdeal Acvm AcvmRun AcvmParties Brillig BrilligSpec BrilligTag BrilligDriver BrilligOps BrilligSim BrilligParties AcvmBrillig AcvmBrilligWp.
Import ListNotations.
Set Implicit Arguments.
Local Open Scope grp_scope.
Local Open Scope list_scope.

Section Dup.
  Context {F : Type} `{FU : FieldUint F} {S M : Type} (dbg : bool) (W : nat) (du : nat -> S -> N * S).
  Context {DF : Draw S F} {EN : Enc M (list N)} {ENN : Enc M (list (N * N))} {EF : Enc M (list F)}.
  Context {RT : isz -> Type} {RC : forall s, CRing (RT s)} {RI : forall s, @IntRing (RT s) (RC s)}
          {RD : forall s, Draw S (RT s)} {RE : forall s, Enc M (list (RT s))}.
  Context (HK : forall s, rK (RT s) = ibits s).
  Context (cap : nat) (cap_pos : (1 <= cap)%nat) (width : (mbs F + 2 <= W)%nat).
  Notation add_entries := (add_entries (M := M) (RT := RT) dbg W du).
  Definition taken {A} (k : list N) (s : list (list N * A)) : bool := match assoc k s with Some _ => true | None => false end.
  Lemma taken_app {A} k (s : list (list N * A)) k' x : taken k (s ++ [(k', x)]) = (taken k s || mem_key k k')%bool.
  Proof. unfold taken. rewrite assoc_app. destruct (assoc k s); [reflexivity|]. cbn. destruct (mem_key k k'); reflexivity. Qed.

  (** a name is in the store, the same in the stores of all parties, or comes twice *)
  Lemma entries_dup ps : forall pp l st (s0 : pid -> list (list N * list (rv F))), pvec (erel (F := F) (RT := RT)) pp ps -> tpss ps = Done l ->
    (forall i k, taken k (s0 i) = taken k (s0 P0)) -> synced st ->
    (exists k, In k (map fst ps) /\ taken k (s0 P0) = true) \/ ~ NoDup (map fst ps) ->
    wpo cap (fun i => add_entries i (st i) (s0 i) (pp i)) all_fail.
  Proof.
    induction ps as [|[k z] ps IH]; intros pp l st s0 Hp E Hu Hs Hd; cbn [tpss] in E.
    - exfalso. destruct Hd as [(k & [] & _)|Hd]. apply Hd. constructor.
    - destruct (tparse z) as [x|] eqn:E1; [|discriminate]. destruct (tpss ps) as [l'|] eqn:E2; [|discriminate]. injection E as <-.
      destruct (pvec_cons_inv Hp) as (h & q & Eh & [Hk Hz] & Hq). cbn [map fst snd] in *.
      eapply wpo_ext with (qs := fun i => bind (parse dbg W du i (st i) (snd (h i))) (fun r => match assoc k (s0 i) with Some _ => Fail (Eyre "duplicate entry for shared state id") | None => add_entries i (snd r) (s0 i ++ [(k, fst r)]) (q i) end)).
      { intros i. rewrite Eh. destruct (h i) as [k' vs] eqn:Ei. specialize (Hk i). rewrite Ei in Hk. cbn in Hk. subst k'. reflexivity. }
      apply wpo_bind. eapply wp_mono; [|exact (parse_wp dbg du HK cap_pos width Hz E1 Hs)]. intros r [R1 R2].
      destruct (taken k (s0 P0)) eqn:Et.
      + eapply wpo_ext with (qs := fun i => Fail (Eyre "duplicate entry for shared state id")).
        { intros i. specialize (Hu i k). rewrite Et in Hu. unfold taken in Hu. destruct (assoc k (s0 i)); [reflexivity|discriminate]. }
        apply wpo_fail. intros i. eexists. reflexivity.
      + eapply wpo_ext with (qs := fun i => add_entries i (snd (r i)) (s0 i ++ [(k, fst (r i))]) (q i)).
        { intros i. specialize (Hu i k). rewrite Et in Hu. unfold taken in Hu. destruct (assoc k (s0 i)); [discriminate|reflexivity]. }
        apply (IH q l' (fun i => snd (r i)) (fun i => s0 i ++ [(k, fst (r i))]) Hq eq_refl).
        * intros i k'. rewrite !taken_app, Hu. reflexivity.
        * exact R2.
        * destruct Hd as [(k' & [<-|Hi] & Hk')|Hd].
          -- congruence.
          -- left. exists k'. split; [exact Hi|]. rewrite taken_app, Hk'. reflexivity.
          -- destruct (in_dec (list_eq_dec N.eq_dec) k (map fst ps)) as [I|I].
             ++ left. exists k. split; [exact I|]. rewrite taken_app. unfold mem_key. destruct (list_eq_dec N.eq_dec k k); [apply orb_true_r|contradiction].
             ++ right. intros ND. apply Hd. constructor; assumption.
  Qed.

  Variable order : pid -> list (list N) -> list nat.
  Context (order_perm : forall i ks, Permutation (order i ks) (seq 0 (length ks))).
  Theorem store_taken pp ps l st (s0 : pid -> list (list N * list (rv F))) k : pvec (erel (F := F) (RT := RT)) pp ps -> tpss ps = Done l ->
    (forall i, order i (map fst ps) = order P0 (map fst ps)) ->
    (forall i k, assoc k (s0 i) = None <-> assoc k (s0 P0) = None) -> In k (map fst ps) -> assoc k (s0 P0) <> None -> synced st ->
    wpo cap (fun i => add_from_brillig (M := M) (RT := RT) dbg W du order i (st i) (s0 i) (pp i)) all_fail.
  Proof.
    intros Hp E Ho Hu Hi Ht Hs. unfold add_from_brillig.
    assert (K : forall i, map fst (pp i) = map fst ps).
    { clear -Hp. revert pp Hp. induction ps as [|e ps IH]; intros pp Hp i; [rewrite (pvec_nil_inv Hp i); reflexivity|].
      destruct (pvec_cons_inv Hp) as (h & q & Eh & [Hk _] & Hq). rewrite Eh. cbn. rewrite Hk, (IH q Hq). reflexivity. }
    set (ix := order P0 (map fst ps)). eapply wpo_ext with (qs := fun i => add_entries i (st i) (s0 i) (reorder ix (pp i))); [intros i; rewrite K, Ho; reflexivity|].
    apply (@entries_dup (reorder ix ps) (fun i => reorder ix (pp i)) (reorder ix l) st s0).
    - apply pvec_reorder. exact Hp.
    - apply tpss_perm. exact E.
    - intros i k'. unfold taken. specialize (Hu i k'). destruct (assoc k' (s0 i)), (assoc k' (s0 P0)); try reflexivity; exfalso; intuition discriminate.
    - exact Hs.
    - left. exists k. split; [|unfold taken; destruct (assoc k (s0 P0)); [reflexivity|contradiction]].
      revert Hi. apply Permutation_in, Permutation_map, Permutation_sym, reorder_perm. rewrite <- (map_length fst ps). apply order_perm.
  Qed.
End Dup.
