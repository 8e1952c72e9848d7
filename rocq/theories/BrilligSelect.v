(** * The selection of the three parties *)
From Coq Require Import String List Arith NArith Lia Bool.
From Verif Require Import Proc Alg Rep3Net Rep3 Rep3Spec Rep3Proofs Rep3Wp Uint Binary Conv Ring2k
  VmDriver VmIdeal Brillig BrilligSpec BrilligSound BrilligTag BrilligDriver BrilligOps BrilligProgress.
Import ListNotations.
Set Implicit Arguments.
Local Open Scope grp_scope.

Section Select.
  Context {F : Type} `{FU : FieldUint F} {S M : Type} (dbg : bool) (W : nat) (du : nat -> S -> N * S).
  Context {DF : Draw S F}.
  Context {EN : Enc M (list N)} {ENN : Enc M (list (N * N))} {EF : Enc M (list F)}.
  Context {RT : isz -> Type} {RC : forall s, CRing (RT s)} {RI : forall s, @IntRing (RT s) (RC s)}
          {RD : forall s, Draw S (RT s)} {RE : forall s, Enc M (list (RT s))}.
  Context (HK : forall s, rK (RT s) = ibits s).
  Context (Y : yao (F := F) (S := S) (M := M) (RT := RT)).
  Context (cap : nat) (cap_pos : (1 <= cap)%nat) (width : (mbs F + 2 <= W)%nat) (HY : yao_ok Y cap).
  Definition tag (sh : bool) (x : bval F) : tb F := if sh then TShr x else TPub x.
  Lemma tag_rel (v : pid -> bv (F := F) (RT := RT)) sh x : vrel v sh x -> trel v (tag sh x).
  Proof. destruct sh; exact (fun h => h). Qed.
  Lemma cmux_parties ds c a b n sh sh' x y : synced (fun i => fst (ds i)) -> vrel c true (BI n U1) -> vrel a sh x -> vrel b sh' y ->
    bty_of x = bty_of y -> in_range x = true -> in_range y = true -> dbg = false \/ (sh || sh')%bool = true ->
    wpo cap (fun i => r_cmux dbg W du Y i (ds i) (c i) (a i) (b i))
      (fun o => exists r, (forall i, o i = Done (r i)) /\ vrel (fun i => fst (r i)) true (if (n =? 1)%N then x else y) /\ synced (fun i => fst (snd (r i)))).
  Proof.
    intros Hs Hc Ha Hb Ety Rx Ry Hdbg.
    assert (Hn : (n < 2)%N). { destruct Hc as (w & Hw & _). eapply svrel_range in Hw; [exact Hw|exact HK]. }
    assert (E : tcmux dbg (TShr (BI n U1)) (tag sh x) (tag sh' y) = Done (TShr (if (n =? 1)%N then x else y))).
    { cbn [tcmux]. replace (ty_eqb (tty (tag sh x)) (tty (tag sh' y))) with true.
      2:{ symmetry. apply ty_eqb_spec. destruct sh, sh'; exact Ety. }
      replace (tok (tag sh x) && tok (tag sh' y))%bool with true by (destruct sh, sh'; cbn; rewrite Rx, Ry; reflexivity).
      assert (D : (match tag sh x, tag sh' y with TPub x, TPub y => omap (fun _ => tt) (plain_bin dbg BSub x y) | _, _ => Done tt end) = Done tt).
      { destruct sh, sh'; cbn [tag]; try reflexivity. destruct Hdbg as [->|]; [|discriminate].
        assert (X : exists d, sbin BSub x y = Some d) by (destruct (cmux_val cap_pos width x y (n := n) Rx Ry Ety Hn) as (d & m & D1 & _); eauto). destruct X as (d & D1). rewrite (plain_bin_total _ _ _ D1). reflexivity. }
      rewrite D. cbn [obind]. destruct (N.eqb_spec n 1) as [->|N1]; [destruct sh; reflexivity|].
      destruct (N.eqb_spec n 0) as [->|N0]; [destruct sh'; reflexivity|]. lia. }
    pose proof (r_cmux_ok dbg true du HK cap_pos width HY ds c a b (TShr (BI n U1)) (tag sh x) (tag sh' y) Hs (tag_rel c true _ Hc) (tag_rel a sh _ Ha) (tag_rel b sh' _ Hb)) as K.
    rewrite E in K. eapply wpo_mono; [|apply K; discriminate]. intros o [(r & Er & H1 & H2)|[C _]]; [|discriminate]. exists r. auto.
  Qed.
End Select.
