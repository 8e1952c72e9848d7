(** * Poseidon2 on replicated shares: all variants compute the permutation under every schedule *)
From Coq Require Import String List Arith NArith Lia Bool Ring.
From Verif Require Import Proc Alg Rep3Net Rep3 Rep3Spec Rep3Proofs Rep3Wp Poseidon2 Poseidon2Spec Poseidon2Mat Poseidon2Lin.
Import ListNotations.
Set Implicit Arguments.
Local Open Scope grp_scope.

Lemma ext_some {A} (z : A) add t l : valid_t t -> exists l', matmul_external z add t l = Some l'.
Proof.
  intros V. unfold valid_t in V. cbn [In] in V. destruct V as [<-|[<-|[<-|[<-|[<-|[<-|[<-|[<-|[]]]]]]]]]; eexists; reflexivity.
Qed.

Section PosWp.
  Context {F : Type} `{CRing F} {S M : Type} {DF : Draw S F} {EF : Enc M (list F)} (cap : nat) (cap_pos : (1 <= cap)%nat).
  Add Ring Fring1 : (@cring_theory F _).
  Variables (t : nat) (p : pparams F).
  Hypothesis W : wf_params t p.
  Notation sh := (share F).
  Notation T3 := (fun _ : pid => True).
  Notation SH := (gvec T3 (zero_share : sh) (0 : F) (@shares F _)).
  Notation AD := (gvec T3 (0 : F) (0 : F) (@additive F _)).
  Notation p5 := (power (F := F) 5).
  Notation prog := (prog pid M).

  Lemma sh_rext : rext T3 (@shares F _).
  Proof. intros a b x E. apply shares_ext. auto. Qed.
  Lemma ad_rext : rext T3 (@additive F _).
  Proof. intros a b x E. unfold additive. rewrite !E by exact I. auto. Qed.
  Lemma pvec_gvec {A B} (z : A) (z' : B) R (l : pid -> list A) xs : rext T3 R -> pvec R l xs -> gvec T3 z z' R l xs.
  Proof.
    intros Rx [L1 L2]. split; [auto|]. intros k Hk. destruct (nth_error xs k) as [x|] eqn:E; [|apply nth_error_None in E; lia].
    destruct (L2 k x E) as (a & Ha & Hr). rewrite (nth_error_nth xs k z' E). eapply Rx; [|exact Hr].
    intros i _. cbn. symmetry. apply nth_error_nth. apply Ha.
  Qed.
  Lemma gvec_pvec {A B} (z : A) (z' : B) R (l : pid -> list A) xs : gvec T3 z z' R l xs -> pvec R l xs.
  Proof.
    intros [L1 L2]. split; [auto|]. intros k x E. assert (Hk : (k < length xs)%nat) by (apply nth_error_Some; congruence).
    exists (fun i => nth k (l i) z). split.
    - intros i. apply nth_error_nth'. rewrite L1 by exact I. exact Hk.
    - rewrite <- (nth_error_nth xs k z' E). apply L2. exact Hk.
  Qed.
  Lemma sh_in l xs : shares_vec l xs -> SH l xs.
  Proof. apply pvec_gvec. exact sh_rext. Qed.
  Lemma sh_out l xs : SH l xs -> shares_vec l xs.
  Proof. apply gvec_pvec. Qed.
  Lemma ad_in l xs : additive_vec l xs -> AD l xs.
  Proof. apply pvec_gvec. exact ad_rext. Qed.
  Lemma ad_out l xs : AD l xs -> additive_vec l xs.
  Proof. apply gvec_pvec. Qed.
  Lemma additive_add a b (x y : F) : additive a x -> additive b y -> additive (fun i => a i + b i) (x + y).
  Proof. unfold additive. intros <- <-. grp. Qed.
  Lemma additive_scale a (x c : F) : additive a x -> additive (fun i => rmul (a i) c) (rmul x c).
  Proof. unfold additive. intros <-. ring. Qed.
  Lemma additive_zero : additive (fun _ => 0 : F) 0.
  Proof. unfold additive. grp. Qed.

  (** ** Linear layers *)
  Lemma Hv : valid_t t. Proof. apply W. Qed.
  Lemma t_pos : (0 < t)%nat.
  Proof. clear cap_pos. pose proof Hv as V. unfold valid_t in V. cbn in V. lia. Qed.
  Lemma pext_layer (xs : list F) : length xs = t -> pext t xs = ext_layer t xs.
  Proof. intros E. unfold pext. rewrite ext_p_spec by (exact Hv || exact E). reflexivity. Qed.
  Definition ext_S (l : list sh) : list sh := match ext_s t l with Some l' => l' | None => [] end.
  Definition ext_A (l : list F) : list F := match ext_p t l with Some l' => l' | None => [] end.
  Lemma ext_s_ok l xs : length xs = t -> SH l xs ->
    (forall i, ext_s t (l i) = Some (ext_S (l i))) /\ SH (fun i => ext_S (l i)) (ext_layer t xs).
  Proof.
    intros E G. destruct (@ext_ok pid T3 sh F _ zero_share shadd (@shares F _) sh_rext
      (fun a b x y Ha Hb => shadd_ok Ha Hb) t l xs Hv E G) as [E1 E2].
    rewrite pext_layer in E2 by exact E. split; [|exact E2].
    intros i. destruct (E1 i I) as [l' El]. unfold ext_S, ext_s. rewrite El. reflexivity.
  Qed.
  Lemma ext_a_ok l xs : length xs = t -> AD l xs ->
    (forall i, ext_p t (l i) = Some (ext_A (l i))) /\ AD (fun i => ext_A (l i)) (ext_layer t xs).
  Proof.
    intros E G. destruct (@ext_ok pid T3 F F _ 0 gadd (@additive F _) ad_rext additive_add t l xs Hv E G) as [E1 E2].
    rewrite pext_layer in E2 by exact E. split; [|exact E2].
    intros i. destruct (E1 i I) as [l' El]. unfold ext_A, ext_p. rewrite El. reflexivity.
  Qed.
  Lemma int_s_ok l xs : length xs = t -> SH l xs ->
    SH (fun i => int_s t (mat_internal_diag_m_1 p) (l i)) (int_layer (mat_internal_diag_m_1 p) xs).
  Proof.
    intros E G. pose proof W as (_ & Hd & _ & _ & _ & H2 & H3). rewrite <- (@int_p_spec F _ t) by (try assumption; exact Hv).
    apply (@int_ok pid T3 sh F _ zero_share shadd mul_public (sum_from_first zero_share shadd) (@shares F _) sh_rext).
    - intros a b x y Ha Hb. apply shadd_ok; assumption.
    - intros a x c Ha. apply mul_public_ok. exact Ha.
    - intros l0 xs0 E0 G0. apply (@sum_from_first_ok pid T3 sh F _ zero_share shadd (@shares F _) sh_rext); [|exact E0|exact G0].
      intros a b x y Ha Hb. apply shadd_ok; assumption.
    - exact Hv.
    - exact E.
    - exact Hd.
    - exact G.
  Qed.
  Lemma int_a_ok l xs : length xs = t -> AD l xs ->
    AD (fun i => int_p t (mat_internal_diag_m_1 p) (l i)) (int_layer (mat_internal_diag_m_1 p) xs).
  Proof.
    intros E G. pose proof W as (_ & Hd & _ & _ & _ & H2 & H3). rewrite <- (@int_p_spec F _ t) by (try assumption; exact Hv).
    apply (@int_ok pid T3 F F _ 0 gadd rmul (sum_from_zero 0 gadd) (@additive F _) ad_rext additive_add additive_scale).
    - intros l0 xs0 E0 G0. apply (@sum_from_zero_ok pid T3 F F _ 0 gadd (@additive F _) ad_rext additive_add); [|exact G0]. apply additive_zero.
    - exact Hv.
    - exact E.
    - exact Hd.
    - exact G.
  Qed.

  (** ** S-boxes *)
  Lemma map_tab {A B} (f : A -> B) l d : map f l = map (fun k => f (nth k l d)) (seq 0 (length l)).
  Proof.
    induction l as [|x l IH]; [reflexivity|]. cbn [map length seq nth]. f_equal. rewrite IH, <- seq_shift, map_map. reflexivity.
  Qed.
  Lemma post_ok y r r2 r3 r4 r5 (rho : F) : shares r rho -> shares r2 (rpow rho 2) -> shares r3 (rpow rho 3) -> shares r4 (rpow rho 4) -> shares r5 (rpow rho 5) ->
    shares (fun i => sbox_rep3_precomp_post i y (r i) (r2 i) (r3 i) (r4 i) (r5 i)) (p5 (y + rho)).
  Proof.
    intros R1 R2 R3 R4 R5.
    replace (p5 (y + rho)) with (rpow rho 5 + rmul (rpow rho 4) (rmul (fconst 5) y) + rmul (rpow rho 3) (rmul (fconst 10) (rmul y y)) +
      rmul (rpow rho 2) (rmul (fconst 10) (rmul (rmul y y) y)) + rmul rho (rmul (fconst 5) (rmul (rmul y y) (rmul y y))) + rmul (rmul (rmul y y) (rmul y y)) y).
    - eapply shares_ext; [|apply add_public_ok; apply shadd_ok; [apply shadd_ok; [apply shadd_ok; [apply shadd_ok; [exact R5|]|]|]|];
        apply mul_public_ok; [exact R4|exact R3|exact R2|exact R1]].
      intros i. unfold sbox_rep3_precomp_post, add_public. destruct i; reflexivity.
    - unfold power. cbn [N.to_nat Pos.to_nat Pos.iter_op Nat.add rpow fconst]. cbv [Pos.to_nat Pos.iter_op Nat.add rpow fconst]. ring.
  Qed.
  Lemma post_additive_ok y r r2 r3 r4 r5 (rho : F) : additive r rho -> additive r2 (rpow rho 2) -> additive r3 (rpow rho 3) -> additive r4 (rpow rho 4) -> additive r5 (rpow rho 5) ->
    additive (fun i => sbox_rep3_precomp_post_additive i y (r i) (r2 i) (r3 i) (r4 i) (r5 i)) (p5 (y + rho)).
  Proof.
    unfold additive. intros R1 R2 R3 R4 R5. unfold sbox_rep3_precomp_post_additive, power.
    cbv [N.to_nat Pos.to_nat Pos.iter_op Nat.add rpow fconst] in *.
    match goal with |- _ = ?rhs => transitivity ((r5 P0 + r5 P1 + r5 P2) + rmul (rmul y (r4 P0 + r4 P1 + r4 P2)) (fconst 5) + rmul (rmul (rmul y y) (r3 P0 + r3 P1 + r3 P2)) (fconst 10)
      + rmul (rmul (rmul (rmul y y) y) (r2 P0 + r2 P1 + r2 P2)) (fconst 10) + rmul (rmul (rmul (rmul y y) (rmul y y)) (r P0 + r P1 + r P2)) (fconst 5) + rmul (rmul (rmul y y) (rmul y y)) y) end.
    - cbv [fconst]. ring.
    - rewrite R1, R2, R3, R4, R5. cbv [fconst]. ring.
  Qed.
  Notation PCS := (pc_ok T3 (zero_share : sh) (@shares F _)).
  Notation PCA := (pc_ok T3 (0 : F) (@additive F _)).

  Lemma sbox_precomp_wp pc rs off inp xs : PCS pc rs -> SH inp xs -> (off + length xs <= length rs)%nat ->
    wp cap (fun i => sbox_rep3_precomp i (pc i) off (inp i)) (fun r => SH (fun i => fst (r i)) (map p5 xs) /\ forall i, snd (r i) = (off + length xs)%nat).
  Proof.
    intros PC G E. pose proof G as [L1 L2].
    eapply wp_ext with (qs := fun i => y <- open_vec i (map (fun k => shsub (nth k (inp i) zero_share) (nth (off + k) (pc_r (pc i)) zero_share)) (seq 0 (length xs))) ;; _).
    { intros i. unfold sbox_rep3_precomp. rewrite L1 by exact I. rewrite (@pc_ok_has pid T3 sh F _ zero_share _ pc rs off (length xs) i PC I E). reflexivity. }
    apply wp_bind. eapply wp_mono; [|apply open_vec_wp with (xs := map (fun k => nth k xs 0 - nth (off + k) rs 0) (seq 0 (length xs))); [exact cap_pos|]].
    - intros y Hy. apply wp_ret. split; [|reflexivity]. cbn [fst].
      rewrite (map_tab p5 xs 0).
      apply (@gvec_tab pid T3 sh F zero_share 0 _ sh_rext (length xs)).
      intros k Hk. destruct (@pc_ok_at pid T3 sh F _ zero_share _ pc rs (off + k) PC ltac:(lia)) as (A1 & A2 & A3 & A4 & A5).
      pose proof (post_ok (nth k xs 0 - nth (off + k) rs 0) A1 A2 A3 A4 A5) as P.
      replace (nth k xs 0 - nth (off + k) rs 0 + nth (off + k) rs 0) with (nth k xs 0) in P by grp.
      eapply shares_ext; [|exact P]. intros i. cbn beta. f_equal. rewrite Hy.
      rewrite (nth_map_lt _ (seq 0 (length xs)) O) by (rewrite seq_length; exact Hk). rewrite nth_seq0 by exact Hk. reflexivity.
    - apply sh_out. apply (@gvec_tab pid T3 sh F zero_share 0 _ sh_rext (length xs) (fun i k => shsub (nth k (inp i) zero_share) (nth (off + k) (pc_r (pc i)) zero_share))).
      intros k Hk. apply shsub_ok; [apply L2; exact Hk|]. destruct (@pc_ok_at pid T3 sh F _ zero_share _ pc rs (off + k) PC ltac:(lia)) as (A1 & _). exact A1.
  Qed.
  Lemma single_sbox_precomp_wp pc rs off inp x : PCS pc rs -> shares inp x -> (off + 1 <= length rs)%nat ->
    wp cap (fun i => single_sbox_rep3_precomp i (pc i) off (inp i)) (fun r => shares (fun i => fst (r i)) (p5 x) /\ forall i, snd (r i) = (off + 1)%nat).
  Proof.
    intros PC G E. destruct (@pc_ok_at pid T3 sh F _ zero_share _ pc rs off PC ltac:(lia)) as (A1 & A2 & A3 & A4 & A5).
    eapply wp_ext with (qs := fun i => y <- open i (shsub (inp i) (nth off (pc_r (pc i)) zero_share)) ;; _).
    { intros i. unfold single_sbox_rep3_precomp. rewrite (@pc_ok_has pid T3 sh F _ zero_share _ pc rs off 1 i PC I E). reflexivity. }
    apply wp_bind. eapply wp_mono; [|apply open_wp with (x := x - nth off rs 0); [exact cap_pos|apply shsub_ok; [exact G|exact A1]]].
    intros y Hy. apply wp_ret. split; [|reflexivity]. cbn [fst].
    pose proof (post_ok (x - nth off rs 0) A1 A2 A3 A4 A5) as P.
    replace (x - nth off rs 0 + nth off rs 0) with x in P by grp.
    eapply shares_ext; [|exact P]. intros i. cbn beta. rewrite Hy. reflexivity.
  Qed.
  Lemma firsts_map_p5 {A} (z : A) (g : A -> A) m l : length l = (m * t)%nat -> set_firsts t l (map g (firsts z t l)) = each t (on_first g) l.
  Proof. intros E. apply (@set_firsts_map A z t g l m); [exact t_pos|exact E]. Qed.
  Lemma single_sbox_packed_wp pc rs off inp xs m : PCS pc rs -> SH inp xs -> length xs = (m * t)%nat -> (off + m <= length rs)%nat ->
    wp cap (fun i => single_sbox_rep3_precomp_packed t i (pc i) off (inp i)) (fun r => SH (fun i => fst (r i)) (each t (on_first p5) xs) /\ forall i, snd (r i) = (off + m)%nat).
  Proof.
    intros PC G E Eo. unfold single_sbox_rep3_precomp_packed. apply wp_bind.
    pose proof (@firsts_length F 0 t xs m t_pos E) as Lf.
    eapply wp_mono; [|apply sbox_precomp_wp with (rs := rs) (xs := firsts 0 t xs); [exact PC| |rewrite Lf; exact Eo]].
    - intros r [G1 G2]. apply wp_ret. split; cbn [fst snd]; [|intros i; rewrite G2, Lf; reflexivity].
      rewrite <- (@firsts_map_p5 F 0 p5 m) by exact E.
      apply (@gvec_set_firsts pid T3 sh F zero_share 0 _ t m t_pos sh_rext); [exact E|rewrite map_length; exact Lf|exact G|exact G1].
    - apply (@gvec_firsts pid T3 sh F zero_share 0 _ t m); [exact t_pos|exact sh_rext|exact E|exact G].
  Qed.
  Lemma additive_bcast (z : pid -> F) x i : additive z x -> z (prev i) + (z (next i) + z i) = x.
  Proof. unfold additive. intros <-. destruct i; cbn; grp. Qed.
  Lemma sbox_precomp_additive_wp pc rs off inp xs : PCA pc rs -> AD inp xs -> (off + length xs <= length rs)%nat ->
    wp cap (fun i => sbox_rep3_precomp_additive i (pc i) off (inp i)) (fun r => AD (fun i => fst (r i)) (map p5 xs) /\ forall i, snd (r i) = (off + length xs)%nat).
  Proof.
    intros PC G E. pose proof G as [L1 L2].
    set (m := fun i => map (fun k => nth k (inp i) 0 - nth (off + k) (pc_r (pc i)) 0) (seq 0 (length xs))).
    assert (Hm : AD m (map (fun k => nth k xs 0 - nth (off + k) rs 0) (seq 0 (length xs)))).
    { apply (@gvec_tab pid T3 F F 0 0 _ ad_rext (length xs) (fun i k => nth k (inp i) 0 - nth (off + k) (pc_r (pc i)) 0)).
      intros k Hk. destruct (@pc_ok_at pid T3 F F _ 0 _ pc rs (off + k) PC ltac:(lia)) as (A1 & _). pose proof (L2 k Hk) as A0.
      unfold additive in *. rewrite <- A0, <- A1. grp. }
    eapply wp_ext with (qs := fun i => bc <- broadcast_many i (m i) ;; _).
    { intros i. unfold sbox_rep3_precomp_additive. rewrite L1 by exact I. rewrite (@pc_ok_has pid T3 F F _ 0 _ pc rs off (length xs) i PC I E). reflexivity. }
    apply wp_bind. apply wp_broadcast_many; [exact cap_pos|]. apply wp_ret. cbn [fst snd]. split; [|reflexivity].
    rewrite (map_tab p5 xs 0).
    apply (@gvec_tab pid T3 F F 0 0 _ ad_rext (length xs)).
    intros k Hk. destruct (@pc_ok_at pid T3 F F _ 0 _ pc rs (off + k) PC ltac:(lia)) as (A1 & A2 & A3 & A4 & A5).
    pose proof (post_additive_ok (nth k xs 0 - nth (off + k) rs 0) A1 A2 A3 A4 A5) as P.
    replace (nth k xs 0 - nth (off + k) rs 0 + nth (off + k) rs 0) with (nth k xs 0) in P by grp.
    eapply ad_rext; [|exact P]. intros i _. cbn beta. f_equal.
    destruct Hm as [M1 M2]. rewrite map_length, seq_length in M2. specialize (M2 k Hk).
    rewrite (nth_map_lt _ (seq 0 (length xs)) O) in M2 by (rewrite seq_length; exact Hk). rewrite nth_seq0 in M2 by exact Hk.
    assert (Lm : forall j, length (m j) = length xs) by (intros j; unfold m; rewrite map_length, seq_length; reflexivity).
    rewrite (@map2_nth _ _ _ _ (m (prev i)) (List.combine (m (next i)) (m i)) k 0 (0, 0)).
    - rewrite combine_nth by (rewrite !Lm; reflexivity). cbn [fst snd]. symmetry. apply (@additive_bcast (fun i => nth k (m i) 0) _ i). exact M2.
    - rewrite Lm. exact Hk.
    - rewrite combine_length, !Lm. lia.
  Qed.
  Lemma single_sbox_precomp_additive_wp pc rs off inp x : PCA pc rs -> additive inp x -> (off + 1 <= length rs)%nat ->
    wp cap (fun i => single_sbox_rep3_precomp_additive i (pc i) off (inp i)) (fun r => additive (fun i => fst (r i)) (p5 x) /\ forall i, snd (r i) = (off + 1)%nat).
  Proof.
    intros PC G E. destruct (@pc_ok_at pid T3 F F _ 0 _ pc rs off PC ltac:(lia)) as (A1 & A2 & A3 & A4 & A5).
    set (m := fun i => inp i - nth off (pc_r (pc i)) 0).
    assert (Hm : additive m (x - nth off rs 0)) by (unfold additive, m in *; rewrite <- G, <- A1; grp).
    eapply wp_ext with (qs := fun i => bc <- broadcast i (m i) ;; _).
    { intros i. unfold single_sbox_rep3_precomp_additive. rewrite (@pc_ok_has pid T3 F F _ 0 _ pc rs off 1 i PC I E). reflexivity. }
    apply wp_bind. apply wp_broadcast; [exact cap_pos|]. apply wp_ret. cbn [fst snd]. split; [|reflexivity].
    pose proof (post_additive_ok (x - nth off rs 0) A1 A2 A3 A4 A5) as P.
    replace (x - nth off rs 0 + nth off rs 0) with x in P by grp.
    eapply ad_rext; [|exact P]. intros i _. cbn beta. f_equal. symmetry. apply (@additive_bcast m _ i). exact Hm.
  Qed.
  Lemma mask_all_ok xs : forall (st : pid -> rst S) l, synced st -> AD l xs ->
    AD (fun i => fst (mask_all (st i) (l i))) xs /\ synced (fun i => snd (mask_all (st i) (l i))).
  Proof.
    induction xs as [|x xs IH]; intros st l Hs G.
    - assert (E : forall i, l i = []) by (intros i; destruct G as [G _]; specialize (G i I); destruct (l i); [reflexivity|discriminate]).
      split.
      + eapply gvec_ext; [exact ad_rext| |apply gvec_nil]. intros i _. cbv beta. rewrite E. reflexivity.
      + destruct Hs. constructor; intros; rewrite !E; cbn [mask_all snd]; auto.
    - assert (E : forall i, l i = nth 0 (l i) 0 :: skipn 1 (l i)) by (intros i; destruct G as [G _]; specialize (G i I); destruct (l i); [discriminate|reflexivity]).
      destruct (masking_ok (G := F) Hs) as [M1 M2].
      destruct (IH (fun i => snd (masking (G := F) (st i))) (fun i => skipn 1 (l i)) M2) as [I1 I2].
      { apply (@gvec_skipn pid T3 F F 0 0 _ ad_rext 1 l (x :: xs)). exact G. }
      split.
      + eapply gvec_ext with (l := fun i => (nth 0 (l i) 0 + fst (masking (G := F) (st i))) :: fst (mask_all (snd (masking (G := F) (st i))) (skipn 1 (l i)))); [exact ad_rext| |].
        * intros i _. rewrite (E i) at 3. reflexivity.
        * apply gvec_cons; [|exact I1]. apply additive_masked; [|exact M1]. apply (@gvec_first pid T3 F F 0 0 _ l (x :: xs)); [cbn; lia|exact G].
      + assert (Es : forall i, snd (mask_all (st i) (l i)) = snd (mask_all (snd (masking (G := F) (st i))) (skipn 1 (l i)))) by (intros i; rewrite (E i) at 1; reflexivity).
        destruct I2. constructor; intros; rewrite !Es; auto.
  Qed.
  Lemma reshare_state_wp (st : pid -> rst S) l xs : synced st -> AD l xs ->
    wp cap (fun i => reshare_state_rep3 i (st i) (l i)) (fun r => SH (fun i => fst (r i)) xs /\ synced (fun i => snd (r i))).
  Proof.
    intros Hs G. destruct (mask_all_ok Hs G) as [M1 M2]. unfold reshare_state_rep3. apply wp_bind.
    apply wp_reshare_many; [exact cap_pos|].
    eapply wp_ext with (qs := fun i => Ret (map2 mkShare (fst (mask_all (st i) (l i))) (fst (mask_all (st (prev i)) (l (prev i)))), snd (mask_all (st i) (l i)))).
    { intros i. destruct M1 as [M1 _]. rewrite !M1 by exact I. rewrite Nat.ltb_irrefl. reflexivity. }
    apply wp_ret. split; [|exact M2]. cbn [fst]. apply sh_in.
    apply (@additive_vec_reshared F _ (fun i => fst (mask_all (st i) (l i)))). apply ad_out. exact M1.
  Qed.
  Lemma p5_sq x : bmul (bmul (bmul x x) (bmul x x)) x = p5 x.
  Proof. unfold power. cbv [N.to_nat Pos.to_nat Pos.iter_op Nat.add rpow bmul ring_bilin]. ring. Qed.
  Lemma map_map2_self {A B} (f : A -> A -> B) l : map2 f l l = map (fun x => f x x) l.
  Proof. induction l as [|x l IH]; cbn; congruence. Qed.
  Lemma map2_map_l {A B C} (f : A -> B -> C) g l : map2 f (map g l) l = map (fun x => f (g x) x) l.
  Proof. induction l as [|x l IH]; cbn; congruence. Qed.
  Lemma sbox_first_wp (st : pid -> rst S) l xs : synced st -> SH l xs ->
    wp cap (fun i => sbox_rep3_first i (st i) (l i)) (fun r => AD (fun i => fst (r i)) (map p5 xs) /\ synced (fun i => snd (r i))).
  Proof.
    intros Hs G. unfold sbox_rep3_first. apply wp_bind. eapply wp_mono; [|apply mul_vec_wp with (xs := xs) (ys := xs); [exact cap_pos|exact Hs|apply sh_out; exact G..]].
    intros sq [G1 S1]. apply wp_bind. eapply wp_mono; [|apply mul_vec_wp; [exact cap_pos|exact S1|exact G1|exact G1]].
    intros qu [G2 S2]. apply wp_ret. cbn [fst snd]. split; [|exact S2].
    replace (map p5 xs) with (map2 bmul (map2 bmul (map2 bmul xs xs) (map2 bmul xs xs)) xs).
    - apply ad_in. apply (@pvec_map2 _ _ _ _ _ _ (@shares F _) (@shares F _) (@additive F _) (fun _ => lmul) bmul); [|exact G2|apply sh_out; exact G].
      intros. apply lmul_additive; assumption.
    - rewrite !map_map2_self, map_map. rewrite map2_map_l. apply map_ext. apply p5_sq.
  Qed.
  Lemma sbox_wp (st : pid -> rst S) l xs : synced st -> AD l xs ->
    wp cap (fun i => sbox_rep3 i (st i) (l i)) (fun r => AD (fun i => fst (r i)) (map p5 xs) /\ synced (fun i => snd (r i))).
  Proof.
    intros Hs G. unfold sbox_rep3. apply wp_bind. eapply wp_mono; [|apply reshare_state_wp; [exact Hs|exact G]].
    intros r [G1 S1]. apply sbox_first_wp; assumption.
  Qed.
  Lemma single_sbox_wp (st : pid -> rst S) inp x : synced st -> additive inp x ->
    wp cap (fun i => single_sbox_rep3 i (st i) (inp i)) (fun r => additive (fun i => fst (r i)) (p5 x) /\ synced (fun i => snd (r i))).
  Proof.
    intros Hs G. destruct (masking_ok (G := F) Hs) as [M1 M2]. pose proof (additive_masked G M1) as G'.
    unfold single_sbox_rep3. apply wp_bind. apply wp_reshare; [exact cap_pos|].
    set (a := fun i => inp i + fst (masking (G := F) (st i))) in *.
    assert (Ss : shares (fun i => mkShare (a i) (a (prev i))) x) by (apply additive_reshared; exact G').
    apply wp_bind. eapply wp_mono; [|apply mul_wp; [exact cap_pos|exact M2|exact Ss|exact Ss]].
    intros sq [G1 S1]. apply wp_bind. eapply wp_mono; [|apply mul_wp; [exact cap_pos|exact S1|exact G1|exact G1]].
    intros qu [G2 S2]. apply wp_ret. cbn [fst snd]. split; [|exact S2]. rewrite <- p5_sq. apply (lmul_additive G2 Ss).
  Qed.
  (** ** Rounds *)
  Lemma for_wp {X C} (f : pid -> nat -> X -> prog X) (g : list F -> C -> list F) (cs : list C) (Inv : nat -> (pid -> X) -> list F -> Prop) (s lim : nat) :
    (forall o r c a xs, nth_error cs r = Some c -> Inv o a xs -> (o + s <= lim)%nat -> wp cap (fun i => f i r (a i)) (fun a' => Inv (o + s)%nat a' (g xs c))) ->
    forall n k o a xs, (k + n <= length cs)%nat -> (o + n * s <= lim)%nat -> Inv o a xs ->
      wp cap (fun i => for_prog (seq k n) (f i) (a i)) (fun a' => Inv (o + n * s)%nat a' (fold_left g (firstn n (skipn k cs)) xs)).
  Proof.
    intros Hf. induction n as [|n IH]; intros k o a xs Hk Ho Ha; cbn [seq for_prog firstn fold_left].
    - apply wp_ret. rewrite Nat.add_0_r. exact Ha.
    - destruct (nth_error cs k) as [c|] eqn:Ek; [|apply nth_error_None in Ek; lia].
      assert (Es : skipn k cs = c :: skipn (Datatypes.S k) cs).
      { clear -Ek. revert cs Ek. induction k as [|k IH]; intros [|x cs] Ek; cbn in *; try discriminate; [congruence|]. apply IH. exact Ek. }
      rewrite Es. cbn [fold_left]. apply wp_bind. eapply wp_mono; [|apply (Hf o k c a xs Ek Ha); lia].
      intros a' Ha'. cbv beta. replace (o + Datatypes.S n * s)%nat with (o + s + n * s)%nat by lia. apply IH; [lia|lia|exact Ha'].
  Qed.
  Definition rounds_spec (g1 : list F -> list F -> list F) (g2 : list F -> F -> list F) (first : nat) (xs : list F) : list F :=
    fold_left g1 (firstn (rounds_f_end p) (skipn (rounds_f_beginning p) (round_constants_external p)))
      (fold_left g2 (firstn (rounds_p p) (round_constants_internal p))
        (fold_left g1 (firstn (rounds_f_beginning p - first) (skipn first (round_constants_external p))) xs)).
  Lemma rounds_wp {X} (ext int : pid -> nat -> X -> prog X) g1 g2 (Inv : nat -> (pid -> X) -> list F -> Prop) s1 s2 lim first :
    (forall o r c a xs, nth_error (round_constants_external p) r = Some c -> Inv o a xs -> (o + s1 <= lim)%nat -> wp cap (fun i => ext i r (a i)) (fun a' => Inv (o + s1)%nat a' (g1 xs c))) ->
    (forall o r c a xs, nth_error (round_constants_internal p) r = Some c -> Inv o a xs -> (o + s2 <= lim)%nat -> wp cap (fun i => int i r (a i)) (fun a' => Inv (o + s2)%nat a' (g2 xs c))) ->
    (first <= rounds_f_beginning p)%nat ->
    forall o a xs, (o + (rounds_f_beginning p - first + rounds_f_end p) * s1 + rounds_p p * s2 <= lim)%nat -> Inv o a xs ->
      wp cap (fun i => rounds p (ext i) (int i) first (a i))
        (fun a' => Inv (o + ((rounds_f_beginning p - first + rounds_f_end p) * s1 + rounds_p p * s2))%nat a' (rounds_spec g1 g2 first xs)).
  Proof.
    intros H1 H2 Hfirst o a xs Hlim Ha. pose proof W as (_ & _ & Hl & _ & Hi & _). unfold rounds, rounds_spec.
    rewrite Nat.mul_add_distr_r in *.
    apply wp_bind. eapply wp_mono; [|apply (@for_wp X (list F) ext g1 (round_constants_external p) Inv s1 lim H1); [lia| |exact Ha]; lia].
    intros a1 A1. apply wp_bind. eapply wp_mono; [|apply (@for_wp X F int g2 (round_constants_internal p) Inv s2 lim H2); [lia| |exact A1]; lia].
    intros a2 A2. rewrite skipn_O in A2. cbv beta. eapply wp_mono; [|apply (@for_wp X (list F) ext g1 (round_constants_external p) Inv s1 lim H1); [lia| |exact A2]; lia].
    intros a3 A3. cbv beta in A3. match goal with |- Inv ?n _ _ => match type of A3 with Inv ?m _ _ => replace n with m by lia end end. exact A3.
  Qed.
  Definition InvS (len : nat) (o : nat) (a : pid -> list sh * nat) (xs : list F) : Prop :=
    length xs = len /\ SH (fun i => fst (a i)) xs /\ forall i, snd (a i) = o.
  Definition InvA (o : nat) (a : pid -> list F * nat) (xs : list F) : Prop :=
    length xs = t /\ AD (fun i => fst (a i)) xs /\ forall i, snd (a i) = o.
  Definition InvO (o : nat) (a : pid -> list F * rst S) (xs : list F) : Prop :=
    length xs = t /\ AD (fun i => fst (a i)) xs /\ synced (fun i => snd (a i)).
  Lemma rc_len r rc : nth_error (round_constants_external p) r = Some rc -> length rc = t.
  Proof. intros E. pose proof W as (_ & _ & _ & Hrc & _). rewrite Forall_forall in Hrc. apply Hrc. eapply nth_error_In; eauto. Qed.
  Lemma len_add (xs rc : list F) : length xs = t -> length rc = t -> length (map2 gadd xs rc) = t.
  Proof. intros E1 E2. rewrite map2_length, E1, E2. apply Nat.min_id. Qed.
  (** public constants *)
  Lemma rc_ext01_wp r rc (g : pid -> (sh -> F -> sh) -> list F -> list sh) (l : pid -> list sh) :
    nth_error (round_constants_external p) r = Some rc ->
    (forall i, match i with P2 => l i | _ => g i (add_public i) rc end = g i (add_public i) rc) ->
    forall Q : (pid -> list sh) -> Prop, Q (fun i => g i (add_public i) rc) -> wp cap (fun i => rc_ext01 (M := M) p i r (g i) (l i)) Q.
  Proof.
    intros E El Q HQ. eapply wp_ext with (qs := fun i => Ret (g i (add_public i) rc)); [|apply wp_ret; exact HQ].
    intros i. rewrite <- El. unfold rc_ext01, rc_ext. rewrite E. destruct i; reflexivity.
  Qed.
  Lemma rc_int01_wp r c (g : pid -> (sh -> sh) -> list sh) (l : pid -> list sh) :
    nth_error (round_constants_internal p) r = Some c ->
    (forall i, match i with P2 => l i | _ => g i (fun x => add_public i x c) end = g i (fun x => add_public i x c)) ->
    forall Q : (pid -> list sh) -> Prop, Q (fun i => g i (fun x => add_public i x c)) -> wp cap (fun i => rc_int01 (M := M) p i r (g i) (l i)) Q.
  Proof.
    intros E El Q HQ. eapply wp_ext with (qs := fun i => Ret (g i (fun x => add_public i x c))); [|apply wp_ret; exact HQ].
    intros i. rewrite <- El. unfold rc_int01, rc_int. rewrite E. destruct i; reflexivity.
  Qed.
  Lemma map2_fst {A B} (l : list A) : forall (k : list B), length l = length k -> map2 (fun x _ => x) l k = l.
  Proof. induction l as [|x l IH]; intros [|y k] E; try discriminate; [reflexivity|]. cbn. f_equal. apply IH. cbn in E. lia. Qed.
  Lemma add_consts_ok l xs rc : length xs = length rc -> SH l xs -> SH (fun i => map2 (add_public i) (l i) rc) (map2 gadd xs rc).
  Proof.
    intros E G. apply (@gvec_map2_pub pid T3 sh F F zero_share 0 0 _ (fun i => add_public i) gadd); [exact sh_rext| |exact G].
    intros a x c Ha. apply add_public_ok. exact Ha.
  Qed.
  Lemma rc_ext0_wp r rc l xs : nth_error (round_constants_external p) r = Some rc -> length xs = t -> AD l xs ->
    wp cap (fun i => rc_ext0 (M := M) p i r (l i)) (fun l' => AD l' (map2 gadd xs rc)).
  Proof.
    intros E Ex G. pose proof (rc_len r E) as El. pose proof G as [L1 L2].
    eapply wp_ext with (qs := fun i => Ret (map2 (fun x c => match i with P0 => x + c | _ => x end) (l i) rc)).
    - intros i. unfold rc_ext0, rc_ext. rewrite E. destruct i; cbn [orp bind]; try reflexivity; rewrite map2_fst; try reflexivity; rewrite L1 by exact I; congruence.
    - apply wp_ret. apply (@gvec_map2_pub pid T3 F F F 0 0 0 _ (fun i x c => match i with P0 => x + c | _ => x end) gadd); [exact ad_rext| |exact G].
      intros a x c Ha. unfold additive in *. rewrite <- Ha. grp.
  Qed.
  Lemma rc_int0_wp r c l xs : nth_error (round_constants_internal p) r = Some c -> AD l xs ->
    wp cap (fun i => rc_int0 (M := M) p i r (l i)) (fun l' => AD l' (on_first (fun x => x + c) xs)).
  Proof.
    intros E G.
    eapply wp_ext with (qs := fun i => Ret (on_first (fun x => match i with P0 => x + c | _ => x end) (l i))).
    - intros i. unfold rc_int0, rc_int. rewrite E. destruct i; cbn [orp bind]; try reflexivity; destruct (l _); reflexivity.
    - apply wp_ret. apply (@gvec_on_first pid T3 F F 0 0 _ ad_rext (fun i x => match i with P0 => x + c | _ => x end)); [|exact G].
      intros a x Ha. unfold additive in *. rewrite <- Ha. grp.
  Qed.
  Lemma on_first_2 {A} (f g : A -> A) l : on_first f (on_first g l) = on_first (fun x => f (g x)) l.
  Proof. destruct l; reflexivity. Qed.
  Lemma on_first_const {A} (z : A) (f : A -> A) l : on_first (fun _ => f (nth 0 l z)) l = on_first f l.
  Proof. destruct l; reflexivity. Qed.
  Lemma on_first_id {A} (l : list A) : on_first (fun x => x) l = l.
  Proof. destruct l; reflexivity. Qed.
  Lemma int_round_eq xs c : int_round 5 (mat_internal_diag_m_1 p) xs c = int_layer (mat_internal_diag_m_1 p) (on_first p5 (on_first (fun x => x + c) xs)).
  Proof. unfold int_round. destruct xs; reflexivity. Qed.
  Lemma int_layer_len (xs : list F) : length xs = t -> length (int_layer (mat_internal_diag_m_1 p) xs) = t.
  Proof. intros E. pose proof W as (_ & Hd & _). rewrite int_layer_length; congruence. Qed.
  Lemma wp_snd {A B C} (a : pid -> A * B) (o : B) (f : pid -> A -> B -> prog C) Q : (forall i, snd (a i) = o) ->
    wp cap (fun i => f i (fst (a i)) o) Q -> wp cap (fun i => f i (fst (a i)) (snd (a i))) Q.
  Proof. intros E Hw. eapply wp_ext; [|exact Hw]. intros i. cbv beta. rewrite E. reflexivity. Qed.

  Section Precomp.
    Variables (pc : pid -> precomp sh) (rs : list F).
    Hypothesis PC : PCS pc rs.
    Lemma ext_round_precomp_wp o r rc a xs : nth_error (round_constants_external p) r = Some rc -> InvS t o a xs -> (o + t <= length rs)%nat ->
      wp cap (fun i => rep3_external_round_precomp t p i (pc i) r (a i)) (fun a' => InvS t (o + t) a' (ext_round t 5 xs rc)).
    Proof.
      intros E (Ex & G & Eo) Hl. unfold rep3_external_round_precomp. apply wp_bind. pose proof (rc_len r E) as El.
      apply (@rc_ext01_wp r rc (fun i add c => map2 add (fst (a i)) c) (fun i => fst (a i)) E).
      { intros i. destruct i; try reflexivity. cbn [add_public]. symmetry. apply map2_fst. destruct G as [G _]. rewrite G by exact I. congruence. }
      apply wp_bind. cbv beta.
      eapply wp_ext with (qs := fun i => sbox_rep3_precomp i (pc i) o (map2 (add_public i) (fst (a i)) rc)); [intros i; rewrite Eo; reflexivity|].
      eapply wp_mono; [|apply sbox_precomp_wp with (rs := rs) (xs := map2 gadd xs rc); [exact PC|apply add_consts_ok; [congruence|exact G]|rewrite len_add by congruence; exact Hl]].
      intros s [G1 S1]. rewrite len_add in S1 by congruence.
      assert (Em : length (map p5 (map2 gadd xs rc)) = t) by (rewrite map_length; apply len_add; congruence).
      destruct (ext_s_ok Em G1) as [X1 X2]. apply wp_bind. eapply wp_ext with (qs := fun i => Ret (ext_S (fst (s i)))); [intros i; rewrite X1; reflexivity|].
      apply wp_ret. apply wp_ret. split; [apply ext_layer_length|]. cbn [fst snd]. split; [exact X2|exact S1].
    Qed.
    Lemma int_round_precomp_wp o r c a xs : nth_error (round_constants_internal p) r = Some c -> InvS t o a xs -> (o + 1 <= length rs)%nat ->
      wp cap (fun i => rep3_internal_round_precomp t p i (pc i) r (a i)) (fun a' => InvS t (o + 1) a' (int_round 5 (mat_internal_diag_m_1 p) xs c)).
    Proof.
      intros E (Ex & G & Eo) Hl. unfold rep3_internal_round_precomp. apply wp_bind.
      apply (@rc_int01_wp r c (fun i add => on_first add (fst (a i))) (fun i => fst (a i)) E).
      { intros i. destruct i; try reflexivity. cbn [add_public]. symmetry. apply on_first_id. }
      apply wp_bind. cbv beta.
      assert (G' : SH (fun i => on_first (fun x => add_public i x c) (fst (a i))) (on_first (fun x => x + c) xs)).
      { apply (@gvec_on_first pid T3 sh F zero_share 0 _ sh_rext (fun i x => add_public i x c)); [|exact G]. intros b x Hb. apply add_public_ok. exact Hb. }
      eapply wp_ext with (qs := fun i => single_sbox_rep3_precomp i (pc i) o (nth 0 (on_first (fun x => add_public i x c) (fst (a i))) zero_share)); [intros i; rewrite Eo; reflexivity|].
      pose proof t_pos as Ht.
      eapply wp_mono; [|apply single_sbox_precomp_wp with (rs := rs) (x := nth 0 (on_first (fun x => x + c) xs) 0); [exact PC| |exact Hl]].
      - intros s [G1 S1]. apply wp_ret. split; [rewrite int_round_eq; apply int_layer_len; rewrite !on_first_length; exact Ex|].
        cbn [fst snd]. split; [|exact S1]. rewrite int_round_eq. rewrite <- (on_first_const 0).
        apply int_s_ok; [rewrite !on_first_length; exact Ex|].
        apply (@gvec_on_first' pid T3 sh F zero_share 0 _ sh_rext (fun i => fst (s i))); [exact G1|exact G'].
      - apply (@gvec_first pid T3 sh F zero_share 0 _ (fun i => on_first (fun x => add_public i x c) (fst (a i)))); [rewrite on_first_length; lia|exact G'].
    Qed.
    Lemma rep3_permutation_precomp_wp off l xs : SH l xs -> length xs = t -> (off + num_sbox p t <= length rs)%nat ->
      wp cap (fun i => rep3_permutation_precomp t 5 p i (pc i) off (l i))
        (fun r => SH (fun i => fst (r i)) (poseidon2 t 5 p xs) /\ forall i, snd (r i) = (off + num_sbox p t)%nat).
    Proof.
      intros G E Ho. unfold rep3_permutation_precomp. cbn [N.eqb Pos.eqb negb].
      destruct (ext_s_ok E G) as [X1 X2]. apply wp_bind. eapply wp_ext with (qs := fun i => Ret (ext_S (l i))); [intros i; rewrite X1; reflexivity|].
      apply wp_ret. unfold num_sbox in *.
      eapply wp_mono; [|apply (@rounds_wp (list sh * nat) (fun i => rep3_external_round_precomp t p i (pc i)) (fun i => rep3_internal_round_precomp t p i (pc i))
        (ext_round t 5) (int_round 5 (mat_internal_diag_m_1 p)) (InvS t) t 1 (length rs) 0) with (o := off) (xs := ext_layer t xs) (a := fun i => (ext_S (l i), off))].
      - intros r (R1 & R2 & R3). rewrite Nat.sub_0_r, Nat.mul_1_r in R3. split; [|exact R3].
        unfold poseidon2. unfold rounds_spec in R2. rewrite Nat.sub_0_r, skipn_O in R2. exact R2.
      - intros o r c a xs0 H1 H2 H3. apply ext_round_precomp_wp; assumption.
      - intros o r c a xs0 H1 H2 H3. apply int_round_precomp_wp; assumption.
      - lia.
      - lia.
      - split; [apply ext_layer_length|]. split; [exact X2|reflexivity].
    Qed.

    (** *** Packed *)
    Lemma each_sh_ok m (f : pid -> list sh -> list sh) (g : list F -> list F) : 
      (forall l xs, length xs = t -> SH l xs -> SH (fun i => f i (l i)) (g xs)) ->
      forall l xs, length xs = (m * t)%nat -> SH l xs -> SH (fun i => each t (f i) (l i)) (each t g xs).
    Proof. intros Hf l xs E G. apply (@gvec_each pid T3 sh F sh F zero_share 0 zero_share 0 _ _ t f g m t_pos sh_rext sh_rext Hf l xs E G). Qed.
    Lemma each_sh_opt m l xs : length xs = (m * t)%nat -> SH l xs ->
      (forall i, each_opt t (ext_s t) (l i) = Some (each t ext_S (l i))) /\ SH (fun i => each t ext_S (l i)) (each t (ext_layer t) xs).
    Proof.
      intros E G. split.
      - intros i. apply (@each_opt_some sh t (ext_s t) ext_S (l i) m); [exact t_pos|destruct G as [G _]; rewrite G by exact I; exact E|].
        intros c Hc. unfold ext_S, ext_s. destruct (@ext_some sh zero_share shadd t c Hv) as [l' ->]. reflexivity.
      - apply (@each_sh_ok m (fun _ => ext_S) (ext_layer t)); [|exact E|exact G].
        intros l0 xs0 E0 G0. apply ext_s_ok; assumption.
    Qed.

    Lemma ext_round_packed_wp m o r rc a xs : nth_error (round_constants_external p) r = Some rc -> InvS (m * t) o a xs -> (o + m * t <= length rs)%nat ->
      wp cap (fun i => rep3_external_round_precomp_packed t p i (pc i) r (a i)) (fun a' => InvS (m * t) (o + m * t) a' (each t (fun l => ext_round t 5 l rc) xs)).
    Proof.
      intros E (Ex & G & Eo) Hl. pose proof t_pos as Ht. unfold rep3_external_round_precomp_packed. apply wp_bind. pose proof (rc_len r E) as El.
      pose proof G as [L1 _].
      apply (@rc_ext01_wp r rc (fun i add c => each t (fun l => map2 add l c) (fst (a i))) (fun i => fst (a i)) E).
      { intros i. destruct i; try reflexivity. symmetry. rewrite <- (@each_id sh t (fst (a P2)) m) at 2; [|exact Ht|rewrite L1 by exact I; exact Ex].
        apply each_ext with (m := m); [exact Ht|rewrite L1 by exact I; exact Ex|]. intros c Hc. apply map2_fst. congruence. }
      assert (G' : SH (fun i => each t (fun l => map2 (add_public i) l rc) (fst (a i))) (each t (fun l => map2 gadd l rc) xs)).
      { apply (@each_sh_ok m (fun i l => map2 (add_public i) l rc) (fun l => map2 gadd l rc)); [|exact Ex|exact G].
        intros l0 xs0 E0 G0. apply add_consts_ok; [congruence|exact G0]. }
      assert (Ea : length (each t (fun l => map2 gadd l rc) xs) = (m * t)%nat).
      { apply each_length; [exact Ht|exact Ex|]. intros c Hc. apply len_add; assumption. }
      apply wp_bind. cbv beta.
      eapply wp_ext with (qs := fun i => sbox_rep3_precomp i (pc i) o (each t (fun l => map2 (add_public i) l rc) (fst (a i)))); [intros i; rewrite Eo; reflexivity|].
      eapply wp_mono; [|apply sbox_precomp_wp with (rs := rs) (xs := each t (fun l => map2 gadd l rc) xs); [exact PC|exact G'|rewrite Ea; exact Hl]].
      intros s [G1 S1]. rewrite Ea in S1.
      assert (Em : length (map p5 (each t (fun l => map2 gadd l rc) xs)) = (m * t)%nat) by (rewrite map_length; exact Ea).
      destruct (@each_sh_opt m (fun i => fst (s i)) _ Em G1) as [X1 X2].
      rewrite <- (@each_map F t p5 _ m) in X2 by (exact Ht || exact Ea).
      rewrite (@each_each F t (map p5) _ xs m) in X2 by (try exact Ht; try exact Ex; intros; apply len_add; assumption).
      rewrite (@each_each F t (ext_layer t) _ xs m) in X2 by (try exact Ht; try exact Ex; intros; rewrite map_length; apply len_add; assumption).
      apply wp_bind. eapply wp_ext with (qs := fun i => Ret (each t ext_S (fst (s i)))); [intros i; rewrite X1; reflexivity|].
      apply wp_ret. apply wp_ret. split; [|split; [exact X2|exact S1]].
      apply each_length; [exact Ht|exact Ex|]. intros. apply ext_layer_length.
    Qed.
    Lemma int_round_packed_wp m o r c a xs : nth_error (round_constants_internal p) r = Some c -> InvS (m * t) o a xs -> (o + m <= length rs)%nat ->
      wp cap (fun i => rep3_internal_round_precomp_packed t p i (pc i) r (a i)) (fun a' => InvS (m * t) (o + m) a' (each t (fun l => int_round 5 (mat_internal_diag_m_1 p) l c) xs)).
    Proof.
      intros E (Ex & G & Eo) Hl. pose proof t_pos as Ht. pose proof G as [L1 _]. unfold rep3_internal_round_precomp_packed. apply wp_bind.
      apply (@rc_int01_wp r c (fun i add => each t (on_first add) (fst (a i))) (fun i => fst (a i)) E).
      { intros i. destruct i; try reflexivity. symmetry. rewrite <- (@each_id sh t (fst (a P2)) m) at 2; [|exact Ht|rewrite L1 by exact I; exact Ex].
        apply each_ext with (m := m); [exact Ht|rewrite L1 by exact I; exact Ex|]. intros q Hq. apply on_first_id. }
      assert (G' : SH (fun i => each t (on_first (fun x => add_public i x c)) (fst (a i))) (each t (on_first (fun x => x + c)) xs)).
      { apply (@each_sh_ok m (fun i => on_first (fun x => add_public i x c)) (on_first (fun x => x + c))); [|exact Ex|exact G].
        intros l0 xs0 E0 G0. apply (@gvec_on_first pid T3 sh F zero_share 0 _ sh_rext (fun i x => add_public i x c)); [|exact G0]. intros b x Hb. apply add_public_ok. exact Hb. }
      assert (Ea : length (each t (on_first (fun x => x + c)) xs) = (m * t)%nat).
      { apply each_length; [exact Ht|exact Ex|]. intros q Hq. rewrite on_first_length. exact Hq. }
      apply wp_bind. cbv beta.
      eapply wp_ext with (qs := fun i => single_sbox_rep3_precomp_packed t i (pc i) o (each t (on_first (fun x => add_public i x c)) (fst (a i)))); [intros i; rewrite Eo; reflexivity|].
      eapply wp_mono; [|apply single_sbox_packed_wp with (rs := rs) (m := m); [exact PC|exact G'|exact Ea|exact Hl]].
      intros s [G1 S1]. cbv beta. apply wp_ret. cbn [fst snd]. split; [|split; [|exact S1]]; cbn [fst].
      - apply each_length; [exact Ht|exact Ex|]. intros q Hq. rewrite int_round_eq. apply int_layer_len. rewrite !on_first_length. exact Hq.
      - rewrite (@each_each F t (on_first p5) _ xs m) in G1 by (try exact Ht; try exact Ex; intros; rewrite on_first_length; assumption).
        replace (each t (fun l => int_round 5 (mat_internal_diag_m_1 p) l c) xs) with
          (each t (int_layer (mat_internal_diag_m_1 p)) (each t (fun q => on_first p5 (on_first (fun x => x + c) q)) xs)).
        + apply (@each_sh_ok m (fun _ => int_s t (mat_internal_diag_m_1 p)) (int_layer (mat_internal_diag_m_1 p))); [|apply each_length; [exact Ht|exact Ex|intros; rewrite !on_first_length; assumption]|exact G1].
          intros l0 xs0 E0 G0. apply int_s_ok; assumption.
        + rewrite (@each_each F t (int_layer (mat_internal_diag_m_1 p)) _ xs m) by (try exact Ht; try exact Ex; intros; rewrite !on_first_length; assumption).
          apply each_ext with (m := m); [exact Ht|exact Ex|]. intros q Hq. symmetry. apply int_round_eq.
    Qed.
    Lemma fold_each {C} (g : list F -> C -> list F) (cs : list C) m : (forall l c, In c cs -> length l = t -> length (g l c) = t) ->
      forall h xs, length xs = (m * t)%nat -> (forall l, length l = t -> length (h l) = t) ->
        fold_left (fun xs c => each t (fun l => g l c) xs) cs (each t h xs) = each t (fun l => fold_left g cs (h l)) xs /\
        (forall l, length l = t -> length (fold_left g cs (h l)) = t).
    Proof.
      intros Hg. induction cs as [|c cs IH]; intros h xs E Hh; cbn [fold_left]; [split; [reflexivity|exact Hh]|].
      rewrite (@each_each F t (fun l => g l c) h xs m) by (try exact t_pos; assumption).
      apply IH; [|exact E|].
      - intros l c' Hc. apply Hg. right. exact Hc.
      - intros l El. apply Hg; [left; reflexivity|]. apply Hh. exact El.
    Qed.
    Lemma in_firstn {A} n (l : list A) x : In x (firstn n l) -> In x l.
    Proof. intros Hx. rewrite <- (firstn_skipn n l). apply in_or_app. auto. Qed.
    Lemma in_skipn {A} n (l : list A) x : In x (skipn n l) -> In x l.
    Proof. intros Hx. rewrite <- (firstn_skipn n l). apply in_or_app. auto. Qed.
    Lemma rounds_spec_each m xs : length xs = (m * t)%nat ->
      rounds_spec (fun xs c => each t (fun l => ext_round t 5 l c) xs) (fun xs c => each t (fun l => int_round 5 (mat_internal_diag_m_1 p) l c) xs) 0 (each t (ext_layer t) xs)
      = each t (poseidon2 t 5 p) xs.
    Proof.
      intros E. unfold rounds_spec, poseidon2. rewrite Nat.sub_0_r, skipn_O.
      destruct (@fold_each (list F) (ext_round t 5) (firstn (rounds_f_beginning p) (round_constants_external p)) m (fun l c _ _ => ext_layer_length t _) (ext_layer t) xs E (fun l _ => ext_layer_length t l)) as [E1 L1].
      rewrite E1.
      destruct (@fold_each F (int_round 5 (mat_internal_diag_m_1 p)) (firstn (rounds_p p) (round_constants_internal p)) m) with (h := fun l => fold_left (ext_round t 5) (firstn (rounds_f_beginning p) (round_constants_external p)) (ext_layer t l)) (xs := xs) as [E2 L2].
      { intros l c _ El. rewrite int_round_eq. apply int_layer_len. rewrite !on_first_length. exact El. }
      { exact E. } { exact L1. }
      rewrite E2.
      apply (@fold_each (list F) (ext_round t 5) (firstn (rounds_f_end p) (skipn (rounds_f_beginning p) (round_constants_external p))) m); [intros; apply ext_layer_length|exact E|exact L2].
    Qed.
    Lemma rep3_permutation_packed_wp m off l xs : SH l xs -> length xs = (m * t)%nat -> (off + num_sbox p t * m <= length rs)%nat ->
      wp cap (fun i => rep3_permutation_packed t 5 p i (pc i) off (l i))
        (fun r => SH (fun i => fst (r i)) (each t (poseidon2 t 5 p) xs) /\ forall i, snd (r i) = (off + num_sbox p t * m)%nat).
    Proof.
      intros G E Ho. pose proof t_pos as Ht.
      destruct (@each_sh_opt m l xs E G) as [X1 X2].
      eapply wp_ext with (qs := fun i => rounds p (rep3_external_round_precomp_packed t p i (pc i)) (rep3_internal_round_precomp_packed t p i (pc i)) 0 (each t ext_S (l i), off)).
      { intros i. unfold rep3_permutation_packed. cbn [N.eqb Pos.eqb negb]. destruct G as [G _]. rewrite G by exact I. rewrite E.
        rewrite Nat.mod_mul by lia. cbn [Nat.eqb negb]. rewrite X1. reflexivity. }
      unfold num_sbox in *.
      eapply wp_mono; [|apply (@rounds_wp (list sh * nat) (fun i => rep3_external_round_precomp_packed t p i (pc i)) (fun i => rep3_internal_round_precomp_packed t p i (pc i))
        (fun xs c => each t (fun l => ext_round t 5 l c) xs) (fun xs c => each t (fun l => int_round 5 (mat_internal_diag_m_1 p) l c) xs) (InvS (m * t)) (m * t) m (length rs) 0) with (o := off) (xs := each t (ext_layer t) xs) (a := fun i => (each t ext_S (l i), off))].
      - intros r (R1 & R2 & R3). rewrite (rounds_spec_each m xs E) in R2. split; [exact R2|]. intros i. rewrite R3. rewrite Nat.sub_0_r. lia.
      - intros o r c a xs0 H1 H2 H3. apply ext_round_packed_wp; assumption.
      - intros o r c a xs0 H1 H2 H3. apply int_round_packed_wp; assumption.
      - lia.
      - rewrite Nat.sub_0_r. lia.
      - split; [apply each_length; [exact Ht|exact E|intros; apply ext_layer_length]|]. split; [exact X2|reflexivity].
    Qed.
  End Precomp.

  (** *** Additive state *)
  Section PrecompA.
    Variables (pc : pid -> precomp F) (rs : list F).
    Hypothesis PC : PCA pc rs.
    Lemma ext_round_additive_wp o r rc a xs : nth_error (round_constants_external p) r = Some rc -> InvA o a xs -> (o + t <= length rs)%nat ->
      wp cap (fun i => rep3_external_round_precomp_additive t p i (pc i) r (a i)) (fun a' => InvA (o + t) a' (ext_round t 5 xs rc)).
    Proof.
      intros E (Ex & G & Eo) Hl. unfold rep3_external_round_precomp_additive. apply wp_bind. pose proof (rc_len r E) as El.
      eapply wp_mono; [|apply (rc_ext0_wp r E Ex G)]. intros l Gl. apply wp_bind. cbv beta.
      eapply wp_ext with (qs := fun i => sbox_rep3_precomp_additive i (pc i) o (l i)); [intros i; rewrite Eo; reflexivity|].
      eapply wp_mono; [|apply sbox_precomp_additive_wp with (rs := rs) (xs := map2 gadd xs rc); [exact PC|exact Gl|rewrite len_add by congruence; exact Hl]].
      intros s [G1 S1]. rewrite len_add in S1 by congruence.
      assert (Em : length (map p5 (map2 gadd xs rc)) = t) by (rewrite map_length; apply len_add; congruence).
      destruct (ext_a_ok Em G1) as [X1 X2]. apply wp_bind. eapply wp_ext with (qs := fun i => Ret (ext_A (fst (s i)))); [intros i; rewrite X1; reflexivity|].
      apply wp_ret. apply wp_ret. split; [apply ext_layer_length|]. cbn [fst snd]. split; [exact X2|exact S1].
    Qed.
    Lemma int_round_additive_wp o r c a xs : nth_error (round_constants_internal p) r = Some c -> InvA o a xs -> (o + 1 <= length rs)%nat ->
      wp cap (fun i => rep3_internal_round_precomp_additive t p i (pc i) r (a i)) (fun a' => InvA (o + 1) a' (int_round 5 (mat_internal_diag_m_1 p) xs c)).
    Proof.
      intros E (Ex & G & Eo) Hl. pose proof t_pos as Ht. unfold rep3_internal_round_precomp_additive. apply wp_bind.
      eapply wp_mono; [|apply (rc_int0_wp r E G)]. intros l Gl. apply wp_bind. cbv beta.
      eapply wp_ext with (qs := fun i => single_sbox_rep3_precomp_additive i (pc i) o (nth 0 (l i) 0)); [intros i; rewrite Eo; reflexivity|].
      eapply wp_mono; [|apply single_sbox_precomp_additive_wp with (rs := rs) (x := nth 0 (on_first (fun x => x + c) xs) 0); [exact PC| |exact Hl]].
      - intros s [G1 S1]. apply wp_ret. split; [rewrite int_round_eq; apply int_layer_len; rewrite !on_first_length; exact Ex|].
        cbn [fst snd]. split; [|exact S1]. rewrite int_round_eq. rewrite <- (on_first_const 0).
        apply int_a_ok; [rewrite !on_first_length; exact Ex|].
        apply (@gvec_on_first' pid T3 F F 0 0 _ ad_rext (fun i => fst (s i))); [exact G1|exact Gl].
      - apply (@gvec_first pid T3 F F 0 0 _ l); [rewrite on_first_length; lia|exact Gl].
    Qed.
    Lemma sh_ad l xs : SH l xs -> AD (fun i => map sa (l i)) xs.
    Proof.
      intros G. rewrite <- (map_id xs). apply (@gvec_map pid T3 sh F F F zero_share 0 0 0 (@shares F _) (@additive F _) (fun _ => sa) (fun x => x)); [exact ad_rext| |exact G].
      intros a x [_ Ha]. exact Ha.
    Qed.
    Lemma rep3_permutation_additive_wp off (st : pid -> rst S) l xs : synced st -> SH l xs -> length xs = t -> (off + num_sbox p t <= length rs)%nat ->
      wp cap (fun i => rep3_permutation_additive_precomp t 5 p i (pc i) off (st i) (l i))
        (fun r => SH (fun i => fst (fst (r i))) (poseidon2 t 5 p xs) /\ (forall i, snd (fst (r i)) = (off + num_sbox p t)%nat) /\ synced (fun i => snd (r i))).
    Proof.
      intros Hs G E Ho. unfold rep3_permutation_additive_precomp. cbn [N.eqb Pos.eqb negb].
      destruct (ext_a_ok E (sh_ad G)) as [X1 X2]. apply wp_bind. eapply wp_ext with (qs := fun i => Ret (ext_A (map sa (l i)))); [intros i; rewrite X1; reflexivity|].
      apply wp_ret. unfold num_sbox in *. apply wp_bind.
      eapply wp_mono; [|apply (@rounds_wp (list F * nat) (fun i => rep3_external_round_precomp_additive t p i (pc i)) (fun i => rep3_internal_round_precomp_additive t p i (pc i))
        (ext_round t 5) (int_round 5 (mat_internal_diag_m_1 p)) InvA t 1 (length rs) 0) with (o := off) (xs := ext_layer t xs) (a := fun i => (ext_A (map sa (l i)), off))].
      - intros r (R1 & R2 & R3). rewrite Nat.sub_0_r, Nat.mul_1_r in R3.
        unfold rounds_spec in R2. rewrite Nat.sub_0_r, skipn_O in R2. apply wp_bind.
        eapply wp_mono; [|apply reshare_state_wp; [exact Hs|exact R2]]. intros q [Q1 Q2]. apply wp_ret. cbn [fst snd]. split; [exact Q1|]. split; [exact R3|exact Q2].
      - intros o r c a xs0 H1 H2 H3. apply ext_round_additive_wp; assumption.
      - intros o r c a xs0 H1 H2 H3. apply int_round_additive_wp; assumption.
      - lia.
      - lia.
      - split; [apply ext_layer_length|]. split; [exact X2|reflexivity].
    Qed.
  End PrecompA.

  (** *** Without preprocessing *)
  Lemma ext_round_wp o r rc a xs : nth_error (round_constants_external p) r = Some rc -> InvO o a xs ->
    wp cap (fun i => rep3_external_round t p i r (a i)) (fun a' => InvO (o + 0) a' (ext_round t 5 xs rc)).
  Proof.
    intros E (Ex & G & Hs). unfold rep3_external_round. apply wp_bind. pose proof (rc_len r E) as El.
    eapply wp_mono; [|apply (rc_ext0_wp r E Ex G)]. intros l Gl. apply wp_bind.
    eapply wp_mono; [|apply sbox_wp; [exact Hs|exact Gl]].
    intros s [G1 S1].
    assert (Em : length (map p5 (map2 gadd xs rc)) = t) by (rewrite map_length; apply len_add; congruence).
    destruct (ext_a_ok Em G1) as [X1 X2]. apply wp_bind. eapply wp_ext with (qs := fun i => Ret (ext_A (fst (s i)))); [intros i; rewrite X1; reflexivity|].
    apply wp_ret. apply wp_ret. split; [apply ext_layer_length|]. cbn [fst snd]. split; [exact X2|exact S1].
  Qed.
  Lemma int_round_wp o r c a xs : nth_error (round_constants_internal p) r = Some c -> InvO o a xs ->
    wp cap (fun i => rep3_internal_round t p i r (a i)) (fun a' => InvO (o + 0) a' (int_round 5 (mat_internal_diag_m_1 p) xs c)).
  Proof.
    intros E (Ex & G & Hs). pose proof t_pos as Ht. unfold rep3_internal_round. apply wp_bind.
    eapply wp_mono; [|apply (rc_int0_wp r E G)]. intros l Gl. apply wp_bind.
    eapply wp_mono; [|apply single_sbox_wp with (x := nth 0 (on_first (fun x => x + c) xs) 0); [exact Hs|]].
    - intros s [G1 S1]. apply wp_ret. split; [rewrite int_round_eq; apply int_layer_len; rewrite !on_first_length; exact Ex|].
      cbn [fst snd]. split; [|exact S1]. rewrite int_round_eq. rewrite <- (on_first_const 0).
      apply int_a_ok; [rewrite !on_first_length; exact Ex|].
      apply (@gvec_on_first' pid T3 F F 0 0 _ ad_rext (fun i => fst (s i))); [exact G1|exact Gl].
    - apply (@gvec_first pid T3 F F 0 0 _ l); [rewrite on_first_length; lia|exact Gl].
  Qed.
  Lemma rep3_permutation_wp (st : pid -> rst S) l xs : synced st -> SH l xs -> length xs = t -> (0 < rounds_f_beginning p)%nat ->
    wp cap (fun i => rep3_permutation t 5 p i (st i) (l i))
      (fun r => SH (fun i => fst (r i)) (poseidon2 t 5 p xs) /\ synced (fun i => snd (r i))).
  Proof.
    intros Hs G E Hb. pose proof W as (_ & _ & Hl & _). unfold rep3_permutation. cbn [N.eqb Pos.eqb negb].
    destruct (ext_s_ok E G) as [X1 X2]. apply wp_bind. eapply wp_ext with (qs := fun i => Ret (ext_S (l i))); [intros i; rewrite X1; reflexivity|].
    apply wp_ret.
    destruct (nth_error (round_constants_external p) 0) as [rc|] eqn:Er; [|apply nth_error_None in Er; lia].
    pose proof (rc_len 0 Er) as El. apply wp_bind.
    apply (@rc_ext01_wp 0 rc (fun i add c => map2 add (ext_S (l i)) c) (fun i => ext_S (l i)) Er).
    { intros i. destruct i; try reflexivity. cbn [add_public]. symmetry. apply map2_fst. destruct X2 as [X2 _]. rewrite X2 by exact I. rewrite ext_layer_length. congruence. }
    apply wp_bind.
    eapply wp_mono; [|apply sbox_first_wp with (xs := map2 gadd (ext_layer t xs) rc); [exact Hs|apply add_consts_ok; [rewrite ext_layer_length; congruence|exact X2]]].
    intros s [G1 S1].
    assert (Em : length (map p5 (map2 gadd (ext_layer t xs) rc)) = t) by (rewrite map_length; apply len_add; [apply ext_layer_length|congruence]).
    destruct (ext_a_ok Em G1) as [Y1 Y2]. apply wp_bind. eapply wp_ext with (qs := fun i => Ret (ext_A (fst (s i)))); [intros i; rewrite Y1; reflexivity|].
    apply wp_ret. apply wp_bind.
    eapply wp_mono; [|apply (@rounds_wp (list F * rst S) (fun i => rep3_external_round t p i) (fun i => rep3_internal_round t p i)
        (ext_round t 5) (int_round 5 (mat_internal_diag_m_1 p)) InvO 0 0 0 1) with (o := 0%nat) (xs := ext_round t 5 (ext_layer t xs) rc) (a := fun i => (ext_A (fst (s i)), snd (s i)))].
    - intros r (R1 & R2 & R3). eapply wp_mono; [|apply reshare_state_wp; [exact R3|exact R2]].
      intros q [Q1 Q2]. split; [|exact Q2].
      replace (poseidon2 t 5 p xs) with (rounds_spec (ext_round t 5) (int_round 5 (mat_internal_diag_m_1 p)) 1 (ext_round t 5 (ext_layer t xs) rc)); [exact Q1|].
      unfold rounds_spec, poseidon2. do 2 f_equal.
      destruct (rounds_f_beginning p) as [|n]; [lia|]. cbn [Nat.sub]. rewrite Nat.sub_0_r.
      destruct (round_constants_external p) as [|c0 cs]; [discriminate|]. cbn in Er. injection Er as ->. reflexivity.
    - intros o r c a xs0 H1 H2 _. apply ext_round_wp; assumption.
    - intros o r c a xs0 H1 H2 _. apply int_round_wp; assumption.
    - lia.
    - lia.
    - split; [apply ext_layer_length|]. split; [exact Y2|exact S1].
  Qed.

  (** ** Preprocessing *)
  Definition pc_rs (num : nat) (st : pid -> rst S) : list F :=
    map2 gadd (map2 gadd (fst (draws num (rng1 (st P0)))) (fst (draws num (rng1 (st P1))))) (fst (draws num (rng1 (st P2)))).
  Lemma map2_app2 {A B C} (f : A -> B -> C) a b : length a = length b -> forall a' b', map2 f (a ++ a') (b ++ b') = map2 f a b ++ map2 f a' b'.
  Proof. revert b. induction a as [|x a IH]; intros [|y b] E a' b'; try discriminate; [reflexivity|]. cbn in *. rewrite IH by congruence. reflexivity. Qed.
  Lemma map2_self_map {A B C} (f : A -> B -> C) g l : map2 f l (map g l) = map (fun x => f x (g x)) l.
  Proof. induction l as [|x l IH]; cbn; [reflexivity|]. rewrite IH. reflexivity. Qed.
  Lemma draws_length n : forall s : S, length (fst (draws (X := F) n s)) = n.
  Proof. induction n as [|n IH]; intros s; cbn; auto. Qed.
  Lemma pc_rs_length num st : length (pc_rs num st) = num.
  Proof. unfold pc_rs. rewrite !map2_length, !draws_length. lia. Qed.
  Lemma precompute_rep3_wp num (st : pid -> rst S) : synced st ->
    wp cap (fun i => precompute_rep3 t 5 p i num (st i)) (fun r => PCS (fun i => fst (r i)) (pc_rs (num_sbox p t * num) st) /\ synced (fun i => snd (r i))).
  Proof.
    intros Hs. unfold precompute_rep3. cbn [N.eqb Pos.eqb negb]. set (n := (num_sbox p t * num)%nat).
    destruct (@rands_ok S F _ _ n st Hs) as [R1 R2]. fold (pc_rs n st) in R1.
    set (rs := pc_rs n st) in *. assert (Ln : length rs = n) by apply pc_rs_length.
    apply wp_bind. eapply wp_mono; [|apply mul_vec_wp; [exact cap_pos|exact R2|exact R1|exact R1]].
    intros r2 [G2 S2]. apply wp_bind. eapply wp_mono; [|apply mul_vec_wp; [exact cap_pos|exact S2|exact G2|exact G2]].
    intros r4 [G4 S4]. apply wp_bind.
    eapply wp_mono; [|apply mul_vec_wp; [exact cap_pos|exact S4|apply pvec_app; [exact R1|exact R1]|apply pvec_app; [exact G2|exact G4]]].
    intros r35 [G35 S35]. rewrite !map_map2_self in *. rewrite map_map in *.
    assert (Eq : map2 bmul (rs ++ rs) (map (fun x => bmul x x) rs ++ map (fun x => bmul (bmul x x) (bmul x x)) rs) =
      map (fun x => rpow x 3) rs ++ map (fun x => rpow x 5) rs).
    { rewrite map2_app2 by (rewrite map_length; reflexivity). rewrite !map2_self_map. f_equal; apply map_ext; intros x; cbn; ring. }
    rewrite Eq in G35.
    assert (L35 : forall i, length (fst (r35 i)) = (n + n)%nat).
    { intros i. destruct G35 as [G35 _]. rewrite G35, app_length, !map_length, Ln. reflexivity. }
    eapply wp_ext with (qs := fun i => Ret (mkPC (fst (rands n (st i))) (fst (r2 i)) (firstn n (fst (r35 i))) (fst (r4 i)) (skipn n (fst (r35 i))), snd (r35 i))).
    { intros i. rewrite L35. replace (n + n <? n)%nat with false by (symmetry; apply Nat.ltb_ge; lia). reflexivity. }
    apply wp_ret. cbn [fst snd]. split; [|exact S35].
    apply sh_in in R1, G2, G4, G35. unfold pc_ok. cbn [pc_r pc_r2 pc_r3 pc_r4 pc_r5].
    split; [exact R1|]. split; [|split; [|split]].
    - replace (map (fun r => rpow r 2) rs) with (map (fun x => bmul x x) rs) by (apply map_ext; intros x; cbn; ring). exact G2.
    - pose proof (@gvec_firstn pid T3 sh F zero_share 0 _ sh_rext n _ _ G35) as X. rewrite firstn_app_len in X by (rewrite map_length; exact Ln). exact X.
    - replace (map (fun r => rpow r 4) rs) with (map (fun x => bmul (bmul x x) (bmul x x)) rs) by (apply map_ext; intros x; cbn; ring). exact G4.
    - pose proof (@gvec_skipn pid T3 sh F zero_share 0 _ sh_rext n _ _ G35) as X. rewrite skipn_app_len in X by (rewrite map_length; exact Ln). exact X.
  Qed.
  Lemma precompute_rep3_additive_wp num (st : pid -> rst S) : synced st ->
    wp cap (fun i => precompute_rep3_additive t 5 p i num (st i)) (fun r => PCA (fun i => fst (r i)) (pc_rs (num_sbox p t * num) st) /\ synced (fun i => snd (r i))).
  Proof.
    intros Hs. unfold precompute_rep3_additive. apply wp_bind. eapply wp_mono; [|apply precompute_rep3_wp; exact Hs].
    intros r [(A1 & A2 & A3 & A4 & A5) Sr]. apply wp_ret. cbn [fst snd]. split; [|exact Sr].
    unfold pc_ok, pc_map. cbn [pc_r pc_r2 pc_r3 pc_r4 pc_r5]. repeat (split; [apply sh_ad; assumption|]). apply sh_ad. assumption.
  Qed.
End PosWp.
