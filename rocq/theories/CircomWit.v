(** * Proofs for the front end of co-circom: witnesses *)
From Coq Require Import String List Arith NArith Lia Bool.
From Verif Require Import Proc Alg Rep3Net Rep3 Rep3Spec Rep3Proofs Rep3Wp NNet Shamir ShamirSpec ShamirPoly ShamirAlg ShamirDeal ShamirSetup ShamirWp ShamirOps PropsShamir Circom CircomSpec.
Import ListNotations.
Set Implicit Arguments.
Local Open Scope grp_scope.

Lemma split_slice_ok {A} n (v : list A) : n <= length v -> split_slice n v = Done (firstn n v, skipn n v).
Proof. intros L. unfold split_slice. now rewrite (proj2 (Nat.leb_le _ _) L). Qed.

Section Witness.
  Context {F : Type} {FF : Fld F} {S : Type} {DF : Draw S F} {Seed : Type} {SS : Seeded S Seed} {DS : Draw S Seed}.
  Lemma share_elements_additive_ok (vs : list F) : forall s : S, additive_vec (fst (share_elements_additive vs s)) vs.
  Proof.
    induction vs as [|v vs IH]; intros s; cbn [share_elements_additive]; [apply pvec_nil; reflexivity|]. cbv zeta. cbn [fst].
    eapply pvec_cons; [intros i; reflexivity|apply share_additive_ok|apply IH].
  Qed.
  Lemma additive_map_sa (l : pid -> list (share F)) xs : shares_vec l xs -> additive_vec (fun i => map (@sa F) (l i)) xs.
  Proof.
    intros [L H]. split; [intros i; rewrite map_length; apply L|]. intros n x E. destruct (H n x E) as (a & Ea & [_ Aa]). exists (fun i => sa (a i)).
    split; [intros i; rewrite nth_error_map, (Ea i); reflexivity|exact Aa].
  Qed.
  Lemma expand_rep_fst (x : seeded F Seed * seeded F Seed) l : expand_rep (S := S) x = Some l -> expand (S := S) (fst x) = map (@sa F) l.
  Proof.
    unfold expand_rep. destruct (Nat.eqb_spec (length (expand (fst x))) (length (expand (snd x)))) as [E|]; [|discriminate]. intros K. injection K as <-.
    revert E. generalize (expand (S := S) (fst x)) (expand (S := S) (snd x)). induction l; intros [|b k] E; try discriminate; [reflexivity|]. cbn. injection E as E. now rewrite <- (IHl k E).
  Qed.
  Lemma seeded_additive_ok (vs : list F) (s : S) : additive_vec (fun i => expand (S := S) (share_additive_seeded vs s i)) vs.
  Proof.
    destruct (share_seeded_ok (Seed := Seed) vs s) as (l & E & Sh). pose proof (additive_map_sa Sh) as K.
    split; [intros i; rewrite <- (proj1 K i), <- (expand_rep_fst _ (E i)); destruct i; reflexivity|].
    intros n x En. destruct (proj2 K n x En) as (a & Ea & Aa). exists a. split; [|exact Aa]. intros i. rewrite <- (Ea i), <- (expand_rep_fst _ (E i)). destruct i; reflexivity.
  Qed.
  (** the shares of a witness, in any form *)
  Lemma additive_witness_ok values k (s : S) c : k <= length values ->
    exists w, share_rep3 (Seed := Seed) values k s c = Done w /\
      (forall i, fst (additive_witness (S := S) (w i)) = firstn k values) /\ additive_vec (fun i => snd (additive_witness (S := S) (w i))) (skipn k values).
  Proof.
    intros L. unfold share_rep3. rewrite (split_slice_ok _ L). cbn [obind fst snd]. eexists. split; [reflexivity|]. split; [reflexivity|]. unfold additive_witness. cbn [fst snd].
    destruct c; cbn [snd].
    - apply additive_map_sa, Rep3Proofs.share_field_elements_ok.
    - apply share_elements_additive_ok.
    - destruct (share_seeded_ok (Seed := Seed) (skipn k values) s) as (l & E & Sh). pose proof (additive_map_sa Sh) as K.
      split; [intros i; rewrite (expand_rep_fst _ (E i)); apply K|]. intros n x En. destruct (proj2 K n x En) as (a & Ea & Aa). exists a. split; [|exact Aa].
      intros i. rewrite (expand_rep_fst _ (E i)). apply Ea.
    - apply seeded_additive_ok.
  Qed.
  Section Net.
    Context {M : Type} {EF : Enc M (list F)} (cap : nat) (cap_pos : 1 <= cap).
    Lemma uncompress_wp values k (s : S) c w : share_rep3 (Seed := Seed) values k s c = Done w ->
      wp cap (fun i => uncompress (M := M) (S := S) i (w i)) (fun r => (forall i, fst (r i) = firstn k values) /\ shares_vec (fun i => snd (r i)) (skipn k values)).
    Proof.
      unfold share_rep3. unfold split_slice. destruct (k <=? length values)%nat; [|discriminate]. cbn [obind fst snd]. intros E. injection E as <-.
      unfold uncompress. cbn [fst snd]. destruct c.
      - apply wp_ret. split; [reflexivity|]. cbn [snd]. apply Rep3Proofs.share_field_elements_ok.
      - apply wp_bind. eapply wp_mono; [|apply (reshare_vec_wp cap_pos), share_elements_additive_ok]. intros r Hr. apply wp_ret. split; [reflexivity|exact Hr].
      - destruct (share_seeded_ok (Seed := Seed) (skipn k values) s) as (l & E & Sh). eapply wp_ext; [intros i; unfold expand_or; rewrite (E i); cbn [bind]; reflexivity|].
        apply wp_ret. split; [reflexivity|exact Sh].
      - apply wp_bind. eapply wp_mono; [|apply (reshare_vec_wp cap_pos), seeded_additive_ok]. intros r Hr. apply wp_ret. split; [reflexivity|exact Hr].
    Qed.
  End Net.
  Section Translate.
    Context {M : Type} {EF : Enc M (list F)} {EF1 : Enc M F} {ES : Enc M (list Seed)} (seed0 : Seed) (cap : nat) (hcap : cap_ok 3 1 cap).
    Context (inj : forall a b, a <= 3 -> b <= 3 -> fnat a = (fnat b : F) -> a = b).
    Lemma additive_sum (v : pid -> list F) xs k : additive_vec v xs -> k < length xs -> nth k xs 0 = sumn 3 (fun i => nth k (v (pid_of i)) 0).
    Proof.
      intros [L H] Hk. destruct (nth_error xs k) as [x|] eqn:E; [|apply nth_error_None in E; lia]. rewrite (nth_error_nth _ _ _ E). destruct (H k x E) as (a & Ea & Aa).
      cbn [sumn pid_of]. rewrite (nth_error_nth _ _ _ (Ea Rep3Net.P0)), (nth_error_nth _ _ _ (Ea Rep3Net.P1)), (nth_error_nth _ _ _ (Ea Rep3Net.P2)). unfold additive in Aa. rewrite <- Aa. grp.
    Qed.
    Lemma translate_add_wp (v : pid -> list F) xs (seed : nat -> Seed) : additive_vec v xs ->
      wpn 3 cap (fun i => translate_add (M := M) (S := S) seed0 (v (pid_of i)) i (seed i)) (fun r => sharings 3 1 r xs).
    Proof.
      intros A. unfold translate_add. apply wpn_bind. eapply wpn_mono; [|apply wpn_ext with (qs := fun i => preprocessing_new (M := M) (F := F) (Sg := S) seed0 i (seed i) 3 1 (length xs)); [intros i Hi; now rewrite (proj1 A)|]].
      2: { apply preprocessing_new_wp; [lia|lia|exact hcap|exact inj]. }
      intros st (L & _ & _ & W). apply wpn_bind. eapply wpn_mono; [|eapply (translate_addshare_vec_wp (t := 1)); [lia|lia|exact hcap|exact inj|reflexivity|exact W|intros i Hi; apply (proj1 A)|intros k Hk; apply (additive_sum A Hk)]].
      intros r [Hr _]. apply wpn_ret. exact Hr.
    Qed.
    Lemma translate_rep_wp (l : pid -> list (share F)) xs : shares_vec l xs ->
      wpn 3 cap (fun i => translate_rep (M := M) (l (pid_of i)) i) (fun r => sharings 3 1 r xs).
    Proof.
      intros H. destruct (repshare_vec inj H) as (s & E & Hs). apply wpn_ret_ext with (a := s); [|exact Hs]. intros i Hi. unfold translate_rep.
      rewrite (proj2 (Nat.leb_gt _ _) Hi), (E i Hi). reflexivity.
    Qed.
    Lemma translate_witness_wp values k (s : S) c w (seed : nat -> Seed) : share_rep3 (Seed := Seed) values k s c = Done w ->
      wpn 3 cap (fun i => translate_witness (M := M) (S := S) seed0 i (seed i) (w (pid_of i)))
        (fun r => (forall i, i < 3 -> fst (r i) = firstn k values) /\ sharings 3 1 (fun i => snd (r i)) (skipn k values)).
    Proof.
      unfold share_rep3. unfold split_slice. destruct (k <=? length values)%nat; [|discriminate]. cbn [obind fst snd]. intros E. injection E as <-.
      unfold translate_witness. cbn [fst snd]. apply wpn_bind. eapply wpn_mono with (Q := fun r => sharings 3 1 r (skipn k values)).
      { intros r Hr. apply wpn_ret. split; [reflexivity|exact Hr]. }
      destruct c.
      - apply translate_rep_wp, Rep3Proofs.share_field_elements_ok.
      - apply translate_add_wp, share_elements_additive_ok.
      - destruct (share_seeded_ok (Seed := Seed) (skipn k values) s) as (l & E & Sh). apply wpn_ext with (qs := fun i => translate_rep (M := M) (l (pid_of i)) i); [intros i Hi; now rewrite E|].
        apply translate_rep_wp, Sh.
      - apply (translate_add_wp (v := fun i => expand (S := S) (share_additive_seeded (skipn k values) s i))), seeded_additive_ok.
    Qed.
  End Translate.
  Lemma share_shamir_ok values k t n (s : S) : k <= length values ->
    exists ws, share_shamir values k t n s = Done ws /\ length ws = n /\ (forall i, i < n -> fst (nth i ws ([], [])) = firstn k values) /\
      sharings n t (fun i => snd (nth i ws ([], []))) (skipn k values).
  Proof.
    intros L. unfold share_shamir. rewrite (split_slice_ok _ L). cbn [obind fst snd]. eexists. split; [reflexivity|].
    destruct (ShamirSetup.share_field_elements_ok n t (skipn k values) s) as [Ln Hs]. rewrite map_length. split; [exact Ln|].
    assert (E : forall i, i < n -> nth i (map (fun share => (firstn k values, share)) (fst (Shamir.share_field_elements (skipn k values) t n s))) ([], []) =
      (firstn k values, nth i (fst (Shamir.share_field_elements (skipn k values) t n s)) [])).
    { intros i Hi. rewrite nth_indep with (d' := (firstn k values, [])) by (rewrite map_length; lia).
      exact (map_nth (fun share => (firstn k values, share)) _ [] i). }
    split; [intros i Hi; now rewrite E|]. destruct Hs as [H1 H2]. split.
    - intros i Hi. rewrite (E i Hi). cbn [snd]. now apply H1.
    - intros j Hj. destruct (H2 j Hj) as (c & C1 & C2 & C3). exists c. split; [exact C1|]. split; [exact C2|]. intros i Hi. rewrite (E i Hi). cbn [snd]. now apply C3.
  Qed.
  Lemma share_rep3_panics values k (s : S) c : length values < k -> share_rep3 (Seed := Seed) values k s c = Failed (Panic "range end index out of range for slice").
  Proof. intros L. unfold share_rep3, split_slice. now rewrite (proj2 (Nat.leb_gt _ _) L). Qed.
End Witness.

(** ** Batches *)
Lemma push_rows_spec {A} n (rows : list (list A)) : forall acc, length acc = n ->
  match push_rows n rows acc with
  | Done r => Forall (fun x => length x = n) rows /\ length r = n /\
              forall k, k < n -> exists c, column k rows c /\ nth k r [] = nth k acc [] ++ c
  | Failed _ => ~ Forall (fun x => length x = n) rows
  end.
Proof.
  induction rows as [|r rows IH]; intros acc La; cbn [push_rows].
  - split; [constructor|]. split; [exact La|]. intros k Hk. exists []. split; [split; [reflexivity|intros [|m] x E; discriminate]|now rewrite app_nil_r].
  - destruct (Nat.eqb_spec (length r) n) as [Er|Nr]; [|intros K; inversion K; contradiction].
    assert (Lm : length (map2 (fun (a : list A) x => a ++ [x]) acc r) = n).
    { clear - La Er. revert acc r La Er. induction n as [|m IH]; intros [|a acc] [|x r] La Er; try discriminate; [reflexivity|]. cbn. f_equal. apply IH; cbn in *; lia. }
    specialize (IH _ Lm). destruct (push_rows n rows (map2 (fun (a : list A) x => a ++ [x]) acc r)) as [res|e].
    + destruct IH as (F1 & L1 & C1). split; [constructor; assumption|]. split; [exact L1|]. intros k Hk. destruct (C1 k Hk) as (c & [Lc Cc] & Ec).
      destruct (nth_error r k) as [x|] eqn:Ex; [|apply nth_error_None in Ex; lia]. exists (x :: c). split; [split; [cbn; now rewrite Lc|]|].
      * intros [|m] y Ey; cbn in Ey |- *; [injection Ey as <-; exact Ex|exact (Cc m y Ey)].
      * rewrite Ec. assert (E : nth k (map2 (fun (a : list A) x => a ++ [x]) acc r) [] = nth k acc [] ++ [x]).
        { clear - La Er Ex Hk. revert acc r k La Er Ex Hk. induction n as [|m IH]; intros [|a acc] [|y r] k La Er Ex Hk; try discriminate; [lia|].
          destruct k as [|k]; cbn in *; [injection Ex as ->; reflexivity|]. apply IH; try lia. exact Ex. }
        rewrite E, <- app_assoc. reflexivity.
    + intros K. apply IH. now inversion K.
Qed.
(** the k-th instance consists of the k-th columns *)
Lemma unbatch_spec {P Sh} (pubs : list (list P)) (wit : list (list Sh)) :
  match unbatch (pubs, wit) with
  | Done r => exists n, pubs <> [] /\ Forall (fun x => length x = n) pubs /\ Forall (fun x => length x = n) wit /\ length r = n /\
              forall k, k < n -> exists p w, nth_error r k = Some (p, w) /\ column k pubs p /\ column k wit w
  | Failed _ => pubs = [] \/ ~ (exists n, Forall (fun x => length x = n) pubs /\ Forall (fun x => length x = n) wit)
  end.
Proof.
  unfold unbatch. cbn [fst snd]. destruct pubs as [|r0 pubs]; [now left|]. cbv zeta. pose (n := length r0). fold n.
  assert (Lr : forall {A}, length (repeat (@nil A) n) = n) by (intros A; apply repeat_length).
  assert (Ne : forall A k, nth k (repeat (@nil A) n) [] = []) by (intros A k; clear; generalize n; intros m; revert k; induction m; intros [|k]; cbn; auto).
  pose proof (push_rows_spec (r0 :: pubs) _ (Lr P)) as K1. destruct (push_rows n (r0 :: pubs) (repeat [] n)) as [ps|e]; cbn [obind].
  - destruct K1 as (F1 & L1 & C1). pose proof (push_rows_spec wit _ (Lr Sh)) as K2. destruct (push_rows n wit (repeat [] n)) as [ws|e]; cbn [obind].
    + destruct K2 as (F2 & L2 & C2). exists n. split; [discriminate|]. split; [exact F1|]. split; [exact F2|]. split; [rewrite combine_length; lia|].
      intros k Hk. destruct (C1 k Hk) as (p & P1 & E1). destruct (C2 k Hk) as (w & W1 & E2). rewrite Ne in E1, E2. cbn in E1, E2. exists p, w. split; [|auto].
      rewrite <- E1, <- E2. clear - L1 L2 Hk. revert ps ws k L1 L2 Hk. induction n as [|m IH]; intros [|x ps] [|y ws] k L1 L2 Hk; try discriminate; [lia|].
      destruct k as [|k]; [reflexivity|]. cbn in *. apply IH; lia.
    + right. intros (m & F1' & F2'). apply K2. assert (m = n) by (inversion F1'; subst; reflexivity). now subst m.
  - right. intros (m & F1' & F2'). apply K1. assert (m = n) by (inversion F1'; subst; reflexivity). now subst m.
Qed.
Lemma public_inputs_ok {F Sh} (w : list F * list Sh) l : public_inputs_for_verify w = Done l <-> exists x, fst w = x :: l.
Proof.
  unfold public_inputs_for_verify. destruct (fst w) as [|x k]; split; try discriminate; [intros (x & E); discriminate E|..].
  - intros E. injection E as <-. now exists x.
  - intros (y & E). injection E as <- <-. reflexivity.
Qed.
