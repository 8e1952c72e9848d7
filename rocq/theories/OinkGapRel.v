(** * The grand product satisfies its relations for any active ranges (C77_permutation_ranges) *)
From Coq Require Import String List Arith Lia Bool Ring.
From Verif Require Import Proc Alg NNet Rep3 ShamirPoly Shamir ShamirAlg Univariate Sumcheck SumcheckSpec HonkRelations HonkSpec HonkSkip Decider Oink OinkWiring OinkTrace OinkGrand OinkProofs OinkRelations OinkGap.
Import ListNotations.
Set Implicit Arguments.
Local Open Scope list_scope.

(** the next active row follows, or inactive rows lie between *)
Lemma next_row : forall ranges t, ordered ranges -> S t < length (active_idxs ranges) ->
  nth (S t) (active_idxs ranges) 0 = S (nth t (active_idxs ranges) 0) \/
  exists k, between ranges k (S (nth t (active_idxs ranges) 0)) /\ fst (nth (S k) ranges (0, 0)) = nth (S t) (active_idxs ranges) 0.
Proof.
  induction ranges as [|[s e] l IH]; intros t O Ht; [cbn in Ht; lia|]. pose proof O as O'. apply ordered_cons in O'. destruct O' as (Hse & Hl & O').
  assert (Ix : active_idxs ((s, e) :: l) = seq s (e - s) ++ active_idxs l) by reflexivity. rewrite Ix in *. rewrite app_length, seq_length in Ht.
  destruct (Nat.lt_ge_cases (S t) (e - s)) as [C|C].
  - left. rewrite !app_nth1, !seq_nth by (rewrite ?seq_length; lia). lia.
  - rewrite (app_nth2 _ _ _ (n := S t)) by (rewrite seq_length; lia). rewrite seq_length. destruct (Nat.eq_dec (S t) (e - s)) as [E|N].
    + rewrite app_nth1, seq_nth by (rewrite ?seq_length; lia). rewrite E, Nat.sub_diag. destruct l as [|[s' e'] l]; [cbn in Ht; lia|].
      destruct Hl as [Hl|Hl]; [discriminate|]. cbn [nth fst] in Hl. apply ordered_cons in O'. destruct O' as (H' & _).
      assert (F0 : nth 0 (active_idxs ((s', e') :: l)) 0 = s') by (unfold active_idxs; cbn [flat_map fst snd]; destruct (e' - s') eqn:W; [lia|reflexivity]). rewrite F0.
      destruct (Nat.eq_dec e s') as [<-|Ne]; [left; lia|]. right. exists 0. split; [|reflexivity]. unfold between. cbn [length nth fst snd]. lia.
    + rewrite app_nth2 by (rewrite seq_length; lia). rewrite seq_length. replace (S t - (e - s)) with (S (t - (e - s))) by lia.
      destruct (IH (t - (e - s)) O' ltac:(lia)) as [E|(k & B & E)]; [left; exact E|]. right. exists (S k). split; [|exact E].
      destruct B as (B0 & B1 & B2). split; [cbn [length]; lia|split; [exact B1|exact B2]].
Qed.
Lemma next_greater ranges t : ordered ranges -> S t < length (active_idxs ranges) -> nth t (active_idxs ranges) 0 < nth (S t) (active_idxs ranges) 0.
Proof. intros O Ht. destruct (next_row O Ht) as [E|(k & (_ & _ & B) & E)]; lia. Qed.
(** rows behind the first range that have an active row behind them are active or between two ranges *)
Lemma covered : forall ranges i j, ordered ranges -> fst (nth 0 ranges (0, 0)) <= i -> In j (active_idxs ranges) -> i <= j -> In i (active_idxs ranges) \/ exists k, between ranges k i.
Proof.
  induction ranges as [|[s e] l IH]; intros i j O Hi Hj Hij; [destruct Hj|]. pose proof O as O'. apply ordered_cons in O'. destruct O' as (Hse & Hl & O').
  assert (Ix : active_idxs ((s, e) :: l) = seq s (e - s) ++ active_idxs l) by reflexivity. rewrite Ix in *. cbn [nth fst] in Hi.
  destruct (Nat.lt_ge_cases i e) as [C|C]; [left; apply in_or_app; left; apply in_seq; lia|].
  apply in_app_or in Hj. destruct Hj as [Hj|Hj]; [apply in_seq in Hj; lia|]. destruct l as [|[s' e'] l]; [destruct Hj|].
  destruct Hl as [Hl|Hl]; [discriminate|]. cbn [nth fst] in Hl. destruct (Nat.lt_ge_cases i s') as [D|D].
  - right. exists 0. unfold between. cbn [length nth fst snd]. lia.
  - destruct (IH i j O' D Hj Hij) as [A|(k & B0 & B1 & B2)]; [left; apply in_or_app; right; exact A|]. right. exists (S k). split; [cbn [length] in *; lia|split; [exact B1|exact B2]].
Qed.

Local Open Scope grp_scope.
Section Rel.
  Context {F : Type} {FF : Fld F}.
  Add Ring FringGapRel : (@cring_theory F _).
  Infix "*" := rmul : grp_scope.
  Notation "1" := rone : grp_scope.

  Theorem grand_relations_ranges (P : rparams (F := F)) fs size : length fs = 36 -> forall ranges final z,
    let ix := active_idxs ranges in
    let num := gp_numerator fs (rp_beta P) (rp_gamma P) in
    let den := gp_denominator fs (rp_beta P) (rp_gamma P) in
    ordered ranges -> ranges <> [] -> fst (nth 0 ranges (0, 0)%nat) = 1%nat -> In final ix -> (forall i, In i ix -> i <= final) -> final < size ->
    (forall i, i < size -> cell fs 26 i = if (i =? 0)%nat then 1 else 0) -> (forall i, i < size -> cell fs 27 i = if (i =? final)%nat then 1 else 0) ->
    (forall k i, k < 4 -> i < final -> ~ In i ix -> cell fs (14 + k) i = cell fs (18 + k) i) ->
    (forall i, In i ix -> i <> final -> den i <> 0) ->
    prod (length ix) (fun t => num (nth t ix 0%nat)) = rp_delta P * prod (length ix) (fun t => den (nth t ix 0%nat)) ->
    compute_grand_product fs size final ranges ix (rp_beta P) (rp_gamma P) = Done z ->
    forall i, i < size -> perm0 P (row (all_entities (set_at 32 z fs)) i) = 0 /\ perm1 (row (all_entities (set_at 32 z fs)) i) = 0.
  Proof.
    intros L36 ranges final z ix num den O Ne H1 Hin Hf Hs Hfi Hla H0 Hd Hprod Hz i Hi.
    destruct (grand_ranges (rp_beta P) (rp_gamma P) fs O Ne H1 Hf Hs) as (z' & Ez & Lz & VA & VB & VO). fold ix in Ez, VA, VB, VO. rewrite Hz in Ez. injection Ez as <-.
    set (fs' := set_at 32 z fs).
    assert (L' : length fs' = 36) by (unfold fs'; rewrite set_length; exact L36).
    assert (EM : forall k, k < 36 -> k <> 32 -> ent k (row (all_entities fs') i) = cell fs k i) by (intros k Hk Nk; rewrite ent_main by lia; apply cell_other, Nk).
    assert (EZ : ent 32 (row (all_entities fs') i) = nth i z 0) by (rewrite ent_main by lia; apply cell_same; lia).
    assert (ES : ent 40 (row (all_entities fs') i) = nth (S i) z 0) by (transitivity (cell fs' 32 (S i)); [exact (@ent_shift F FF fs' i 4 L' ltac:(lia))|apply cell_same; lia]).
    assert (EN : perm_numerator P (row (all_entities fs') i) = num i) by (unfold num, perm_numerator, gp_numerator; rewrite !EM by lia; ring).
    assert (ED : perm_denominator P (row (all_entities fs') i) = den i) by (unfold den, perm_denominator, gp_denominator; rewrite !EM by lia; ring).
    unfold perm0, perm1. rewrite EN, ED, EZ, ES, !EM, Hfi, Hla by lia. clear EN ED EZ ES EM L' fs'.
    assert (Same : ~ In i ix -> i < final -> num i = den i).
    { intros A B. unfold num, den, gp_numerator, gp_denominator. pose proof (H0 0%nat i ltac:(lia) B A) as A0. pose proof (H0 1%nat i ltac:(lia) B A) as A1. pose proof (H0 2%nat i ltac:(lia) B A) as A2. pose proof (H0 3%nat i ltac:(lia) B A) as A3.
      cbn [Nat.add] in A0, A1, A2, A3. rewrite A0, A1, A2, A3. reflexivity. }
    assert (Low : forall j, In j ix -> 1 <= j).
    { intros j I. apply in_active in I. destruct I as (k & Lk & B). destruct (ordered_le O (j := 0) (k := k)) as [A _]; [lia|exact Lk|]. rewrite H1 in A. lia. }
    assert (LowB : forall j k, between ranges k j -> 1 <= j /\ j < final).
    { intros j k (B0 & B1 & B2). split.
      - pose proof O as [X _]. specialize (X k ltac:(lia)). destruct (ordered_le O (j := 0) (k := k)) as [A _]; [lia|lia|]. rewrite H1 in A. lia.
      - assert (Is : In (fst (nth (S k) ranges (0, 0)%nat)) ix) by (apply in_active; exists (S k); split; [exact B0|]; pose proof O as [X _]; specialize (X _ B0); lia). apply Hf in Is. lia. }
    assert (Beyond : forall j, final < j -> nth j z 0 = 0).
    { intros j Hj. apply VO; [intros I; apply Hf in I; lia|]. intros k B. apply LowB in B. lia. }
    assert (Len : 1 <= length ix) by (destruct ix; [destruct Hin|cbn; lia]).
    destruct (Nat.eqb_spec i 0) as [->|N0].
    - (* the row of zeros *)
      assert (Nz : ~ In 0%nat ix) by (intros I; apply Low in I; lia). destruct (Nat.eqb_spec 0 final) as [E|_]; [apply Low in Hin; lia|].
      assert (Z0 : nth 0 z 0 = 0) by (apply VO; [exact Nz|intros k B; apply LowB in B; lia]).
      assert (Z1 : nth 1 z 0 = 1).
      { pose proof (VA 0%nat ltac:(lia)) as V. assert (I0 : nth 0 ix 0%nat = 1%nat).
        { unfold ix, active_idxs. destruct ranges as [|[a e] l]; [contradiction|]. cbn [nth fst] in H1. subst a. pose proof O as [X _]. specialize (X 0%nat). cbn [length nth fst snd] in X. specialize (X ltac:(lia)).
          cbn [flat_map fst snd]. destruct (e - 1)%nat eqn:W; [lia|reflexivity]. }
        rewrite I0 in V. rewrite V. cbn [prod]. assert (X := inv0_nonzero f_1_neq_0). transitivity (inv0 1 * 1); [ring|exact X]. }
      rewrite Z0, Z1, (Same Nz) by (apply Low in Hin; lia). split; ring.
    - destruct (Nat.lt_ge_cases final i) as [B|B].
      + destruct (Nat.eqb_spec i final); [lia|]. rewrite !Beyond by lia. split; ring.
      + destruct (covered O (i := i) (j := final)) as [A|(k & Bt)]; [lia|exact Hin|exact B| |].
        * (* an active row *)
          apply (In_nth _ _ 0%nat) in A. destruct A as (t & Lt & Et). fold ix in Lt, Et.
          assert (V := VA t Lt). rewrite Et in V. fold num den in V.
          assert (Dn : forall u, S u < length ix -> den (nth u ix 0%nat) <> 0).
          { intros u Hu. apply Hd; [apply nth_In; lia|]. pose proof (next_greater O Hu) as G. fold ix in G. pose proof (Hf _ (nth_In ix 0%nat Hu)). lia. }
          assert (D1 : prod t (fun j => den (nth j ix 0%nat)) <> 0) by (apply (prod_nonzero fs L36); intros j Hj; apply Dn; lia).
          assert (I1 := inv0_nonzero D1). destruct (Nat.eq_dec (S t) (length ix)) as [El|Nl].
          -- assert (Ef : i = final).
             { apply (In_nth _ _ 0%nat) in Hin. destruct Hin as (u & Lu & Eu). destruct (Nat.eq_dec u t) as [->|Nu]; [congruence|]. exfalso.
               assert (Hu : S u < length ix) by lia. pose proof (next_greater O Hu) as G. fold ix in G. pose proof (Hf _ (nth_In ix 0%nat Hu)). lia. }
             rewrite (Beyond (S i)) by lia. destruct (Nat.eqb_spec i final); [|contradiction]. split; [|ring]. rewrite V.
             rewrite <- El in Hprod. cbn [prod] in Hprod. rewrite Et in Hprod.
             set (ip := inv0 (prod t (fun j => den (nth j ix 0%nat)))) in *. set (dp := prod t (fun j => den (nth j ix 0%nat))) in *. set (np := prod t (fun j => num (nth j ix 0%nat))) in *.
             transitivity (np * num i * ip - rp_delta P * den i); [ring|]. rewrite Hprod. transitivity (rp_delta P * den i * (ip * dp) - rp_delta P * den i); [ring|rewrite I1; ring].
          -- assert (Ht : S t < length ix) by lia. pose proof (next_greater O Ht) as G. fold ix in G. pose proof (Hf _ (nth_In ix 0%nat Ht)) as G'.
             destruct (Nat.eqb_spec i final); [lia|]. split; [|ring].
             assert (ZS : nth (S i) z 0 = nth (nth (S t) ix 0%nat) z 0).
             { destruct (next_row O Ht) as [E|(k & Bk & E)]; fold ix in E; rewrite Et in *; [rewrite E; reflexivity|]. fold ix in Bk. rewrite Et in Bk. rewrite (VB k (S i) Bk), E. reflexivity. }
             rewrite ZS, (VA (S t) Ht), V. fold num den. cbn [prod]. rewrite Et. pose proof (Dn t Ht) as Di. rewrite Et in Di.
             set (ip := inv0 (prod t (fun j => den (nth j ix 0%nat)))) in *. set (dp := prod t (fun j => den (nth j ix 0%nat))) in *. set (np := prod t (fun j => num (nth j ix 0%nat))) in *.
             assert (Dd : dp * den i <> 0). { intros E. apply Di. transitivity (ip * dp * den i); [rewrite I1; ring|]. transitivity (ip * (dp * den i)); [ring|rewrite E; ring]. }
             assert (I2 := inv0_nonzero Dd).
             transitivity (np * ip * num i * (inv0 (dp * den i) * (dp * den i)) - np * num i * inv0 (dp * den i) * den i * (ip * dp)); [rewrite I1, I2; ring|ring].
        * (* a row between two ranges *)
          destruct (LowB _ _ Bt) as [_ Bf]. destruct (Nat.eqb_spec i final); [lia|]. split; [|ring].
          assert (Na : ~ In i ix) by (intros A; exact (active_between O A Bt)).
          assert (ZS : nth (S i) z 0 = nth i z 0).
          { rewrite (VB k i Bt). destruct Bt as (B0 & B1 & B2). destruct (Nat.eq_dec (S i) (fst (nth (S k) ranges (0, 0)%nat))) as [E|E]; [rewrite E; reflexivity|].
            apply (VB k). split; [exact B0|split; lia]. }
          rewrite ZS, (Same Na Bf). ring.
  Qed.
End Rel.
