(** * Poseidon2 on Shamir shares: all variants compute the permutation under every schedule *)
From Coq Require Import String List Arith NArith Lia Bool Ring.
From Verif Require Import Proc Alg NNet Rep3 ShamirPoly Shamir ShamirAlg ShamirSpec ShamirRng ShamirDeal ShamirWp ShamirRed ShamirOps
  Poseidon2 Poseidon2Spec Poseidon2Mat Poseidon2Lin Poseidon2Wp.
Import ListNotations.
Set Implicit Arguments.
Local Open Scope grp_scope.

Section PosSh.
  Context {M : Type} {F : Type} {FF : Fld F} {Sg : Type} {DF : Draw Sg F} {EF1 : Enc M F} {EF : Enc M (list F)}.
  Notation sst := (sst (F := F) (Sg := Sg)).
  Add Ring FringP : (@cring_theory F _).
  Infix "*" := rmul : grp_scope.
  Variables (n th cap : nat).
  Hypothesis n2 : (2 <= n)%nat.
  Hypothesis nt : (2 * th + 1 <= n)%nat.
  Hypothesis hcap : cap_ok n th cap.
  Hypothesis inj : forall a b, (a <= n)%nat -> (b <= n)%nat -> fnat a = (fnat b : F) -> a = b.
  Lemma pos_c1 : (1 <= cap)%nat. Proof. clear inj. unfold cap_ok in hcap. lia. Qed.
  Hint Resolve pos_c1 : core.
  Variables (t : nat) (p : pparams F).
  Hypothesis W : wf_params t p.
  Notation mem := (fun i : nat => (i < n)%nat).
  Notation R := (sharing n th).
  Notation SH := (gvec mem (0 : F) (0 : F) (sharing n th)).
  Notation PCH := (pc_ok mem (0 : F) (sharing n th)).
  Notation p5 := (power (F := F) 5).
  Notation prog := (prog nat M).
  Notation synced st := (sm_synced n th st).

  Lemma s_rext : rext mem (R : (nat -> F) -> F -> Prop).
  Proof. intros a b x E Ha. eapply sharing_ext; [|exact Ha]. intros i Hi. symmetry. apply E. exact Hi. Qed.
  Lemma s_add a b (x y : F) : R a x -> R b y -> R (fun i => a i + b i) (x + y).
  Proof. intros Ha Hb. exact (sharing_add Ha Hb). Qed.
  Lemma s_scale a (x c : F) : R a x -> R (fun i => a i * c) (x * c).
  Proof.
    intros Ha. replace (x * c) with (smul c x) by (cbn; ring). eapply sharing_ext; [|exact (sharing_smul c Ha)]. intros i Hi. cbn. ring.
  Qed.
  Lemma s_zero : R (fun _ => 0 : F) 0.
  Proof. apply sharing_const. Qed.

  Lemma sext_ok l xs : length xs = t -> SH l xs ->
    (forall i, (i < n)%nat -> ext_p t (l i) = Some (ext_A t (l i))) /\ SH (fun i => ext_A t (l i)) (ext_layer t xs).
  Proof.
    intros E G. destruct (@ext_ok nat mem F F _ 0 gadd R s_rext s_add t l xs (Hv W) E G) as [E1 E2].
    rewrite (pext_layer W xs E) in E2. split; [|exact E2].
    intros i Hi. destruct (E1 i Hi) as [l' El]. unfold ext_A, ext_p. rewrite El. reflexivity.
  Qed.
  Lemma sint_ok l xs : length xs = t -> SH l xs ->
    SH (fun i => int_p t (mat_internal_diag_m_1 p) (l i)) (int_layer (mat_internal_diag_m_1 p) xs).
  Proof.
    intros E G. pose proof W as (_ & Hd & _ & _ & _ & H2 & H3). rewrite <- (@int_p_spec F _ t) by (try assumption; exact (Hv W)).
    apply (@int_ok nat mem F F _ 0 gadd rmul (sum_from_zero 0 gadd) R s_rext s_add s_scale).
    - intros l0 xs0 E0 G0. apply (@sum_from_zero_ok nat mem F F _ 0 gadd R s_rext s_add); [|exact G0]. apply s_zero.
    - exact (Hv W).
    - exact E.
    - exact Hd.
    - exact G.
  Qed.

  (** ** S-boxes *)
  Lemma s_post_ok y r r2 r3 r4 r5 (rho : F) : R r rho -> R r2 (rpow rho 2) -> R r3 (rpow rho 3) -> R r4 (rpow rho 4) -> R r5 (rpow rho 5) ->
    R (fun i => sbox_shamir_precomp_post y (r i) (r2 i) (r3 i) (r4 i) (r5 i)) (p5 (y + rho)).
  Proof.
    intros R1 R2 R3 R4 R5.
    replace (p5 (y + rho)) with (rpow rho 5 + rpow rho 4 * (fconst 5 * y) + rpow rho 3 * (fconst 10 * (y * y)) +
      rpow rho 2 * (fconst 10 * ((y * y) * y)) + rho * (fconst 5 * ((y * y) * (y * y))) + ((y * y) * (y * y)) * y).
    - eapply sharing_ext; [|apply s_add; [apply s_add; [apply s_add; [apply s_add; [apply s_add; [exact R5|]|]|]|]|apply sharing_const];
        apply s_scale; [exact R4|exact R3|exact R2|exact R1]].
      intros i Hi. unfold sbox_shamir_precomp_post. cbv zeta. ring.
    - unfold power. cbv [N.to_nat Pos.to_nat Pos.iter_op Nat.add rpow fconst]. ring.
  Qed.
  Section Pre.
    Variables (st : nat -> sst).
    Hypothesis Hst : synced st.
    Lemma sbox_shamir_precomp_wp pc rs off inp xs : PCH pc rs -> SH inp xs -> (off + length xs <= length rs)%nat ->
      wpn n cap (fun i => sbox_shamir_precomp (M := M) (pc i) (st i) off (inp i))
        (fun r => SH (fun i => fst (r i)) (map p5 xs) /\ forall i, (i < n)%nat -> snd (r i) = (off + length xs)%nat).
    Proof.
      intros PC G E. pose proof G as [L1 L2]. destruct Hst as (gen & L & Wf).
      eapply wpn_ext with (qs := fun i => y <- sm_open_vec (map (fun k => nth k (inp i) 0 - nth (off + k) (pc_r (pc i)) 0) (seq 0 (length xs))) (st i) ;; _).
      { intros i Hi. unfold sbox_shamir_precomp. rewrite L1 by exact Hi. rewrite (@pc_ok_has nat mem F F _ 0 _ pc rs off (length xs) i PC Hi E). reflexivity. }
      apply wpn_bind. eapply wpn_mono; [|eapply sm_open_vec_wp with (xs := map (fun k => nth k xs 0 - nth (off + k) rs 0) (seq 0 (length xs))); try eassumption; try apply pos_c1].
      - intros y Hy. apply wpn_ret. split; [|reflexivity]. cbn [fst].
        rewrite (map_tab p5 xs 0).
        apply (@gvec_tab nat mem F F 0 0 _ s_rext (length xs)).
        intros k Hk. destruct (@pc_ok_at nat mem F F _ 0 _ pc rs (off + k) PC ltac:(lia)) as (A1 & A2 & A3 & A4 & A5).
        pose proof (s_post_ok (nth k xs 0 - nth (off + k) rs 0) A1 A2 A3 A4 A5) as Po.
        replace (nth k xs 0 - nth (off + k) rs 0 + nth (off + k) rs 0) with (nth k xs 0) in Po by grp.
        eapply sharing_ext; [|exact Po]. intros i Hi. cbn beta. f_equal. rewrite Hy by exact Hi.
        rewrite (nth_map_lt _ (seq 0 (length xs)) O) by (rewrite seq_length; exact Hk). rewrite nth_seq0 by exact Hk. reflexivity.
      - apply (@gvec_tab nat mem F F 0 0 _ s_rext (length xs) (fun i k => nth k (inp i) 0 - nth (off + k) (pc_r (pc i)) 0)).
        intros k Hk. apply sharing_sub; [apply L2; exact Hk|]. destruct (@pc_ok_at nat mem F F _ 0 _ pc rs (off + k) PC ltac:(lia)) as (A1 & _). exact A1.
    Qed.
    Lemma single_sbox_shamir_precomp_wp pc rs off inp x : PCH pc rs -> R inp x -> (off + 1 <= length rs)%nat ->
      wpn n cap (fun i => single_sbox_shamir_precomp (M := M) (pc i) (st i) off (inp i))
        (fun r => R (fun i => fst (r i)) (p5 x) /\ forall i, (i < n)%nat -> snd (r i) = (off + 1)%nat).
    Proof.
      intros PC G E. destruct (@pc_ok_at nat mem F F _ 0 _ pc rs off PC ltac:(lia)) as (A1 & A2 & A3 & A4 & A5). destruct Hst as (gen & L & Wf).
      eapply wpn_ext with (qs := fun i => y <- sm_open (inp i - nth off (pc_r (pc i)) 0) (st i) ;; _).
      { intros i Hi. unfold single_sbox_shamir_precomp. rewrite (@pc_ok_has nat mem F F _ 0 _ pc rs off 1 i PC Hi E). reflexivity. }
      apply wpn_bind. eapply wpn_mono; [|eapply sm_open_wp with (x := x - nth off rs 0); try eassumption; try apply pos_c1; apply sharing_sub; [exact G|exact A1]].
      intros y Hy. apply wpn_ret. split; [|reflexivity]. cbn [fst].
      pose proof (s_post_ok (x - nth off rs 0) A1 A2 A3 A4 A5) as Po.
      replace (x - nth off rs 0 + nth off rs 0) with x in Po by grp.
      eapply sharing_ext; [|exact Po]. intros i Hi. cbn beta. rewrite Hy by exact Hi. reflexivity.
    Qed.
    Lemma single_sbox_shamir_packed_wp pc rs off inp xs m : PCH pc rs -> SH inp xs -> length xs = (m * t)%nat -> (off + m <= length rs)%nat ->
      wpn n cap (fun i => single_sbox_shamir_precomp_packed (M := M) t (pc i) (st i) off (inp i))
        (fun r => SH (fun i => fst (r i)) (each t (on_first p5) xs) /\ forall i, (i < n)%nat -> snd (r i) = (off + m)%nat).
    Proof.
      intros PC G E Eo. unfold single_sbox_shamir_precomp_packed. apply wpn_bind.
      pose proof (@firsts_length F 0 t xs m (t_pos W) E) as Lf.
      eapply wpn_mono; [|apply sbox_shamir_precomp_wp with (rs := rs) (xs := firsts 0 t xs); [exact PC| |rewrite Lf; exact Eo]].
      - intros r [G1 G2]. apply wpn_ret. split; cbn [fst snd]; [|intros i Hi; rewrite G2, Lf by exact Hi; reflexivity].
        rewrite <- (@firsts_map_p5 F _ t p W F 0 p5 m) by exact E.
        apply (@gvec_set_firsts nat mem F F 0 0 _ t m (t_pos W) s_rext); [exact E|rewrite map_length; exact Lf|exact G|exact G1].
      - apply (@gvec_firsts nat mem F F 0 0 _ t m); [exact (t_pos W)|exact s_rext|exact E|exact G].
    Qed.
  End Pre.
  Lemma sq_sharings (l : nat -> list F) xs : SH l xs -> sharings n (2 * th) (fun i => map (fun x => x * x) (l i)) (map (fun x => x * x) xs).
  Proof.
    intros G. replace (2 * th)%nat with (th + th)%nat by lia.
    refine (@sharings_map F FF F _ _ n F _ _ (th + th) th (fun x => x * x) l xs _ G). intros s x Hs. exact (sharing_mul Hs Hs).
  Qed.
  Lemma sbox_shamir_wp (st : nat -> sst) l xs : synced st -> SH l xs ->
    wpn n cap (fun i => sbox_shamir (M := M) (st i) (l i)) (fun r => SH (fun i => fst (r i)) (map p5 xs) /\ synced (fun i => snd (r i))).
  Proof.
    intros (gen & L & Wf) G. unfold sbox_shamir. apply wpn_bind.
    eapply wpn_mono; [|eapply degree_reduce_many_wp; try eassumption; try apply pos_c1; apply sq_sharings; exact G].
    intros q (G1 & _ & gen1 & L1 & _ & _ & W1). apply wpn_bind.
    eapply wpn_mono; [|eapply degree_reduce_many_wp with (inp := fun i => map (fun x => x * x) (fst (q i))); try eassumption; try apply pos_c1; apply sq_sharings; exact G1].
    intros q2 (G2 & _ & gen2 & L2 & _ & _ & W2). cbv beta.
    eapply wpn_mono; [|eapply degree_reduce_many_wp with (inp := fun i => map2 rmul (fst (q2 i)) (l i)) (xs := map p5 xs); try eassumption; try apply pos_c1].
    - intros q3 (G3 & _ & gen3 & L3 & _ & _ & W3). split; [exact G3|]. exists gen3, L3. exact W3.
    - replace (2 * th)%nat with (th + th)%nat by lia.
      replace (map p5 xs) with (map2 rmul (map (fun x => x * x) (map (fun x => x * x) xs)) xs).
      + refine (@sharings_map2 F FF F _ _ n F _ _ F _ _ (th + th) th th rmul _ l _ xs _ _ G2 G); [|rewrite !map_length; reflexivity].
        intros s s' x y Hs Hs'. exact (sharing_mul Hs Hs').
      + rewrite map_map, map2_map_l. apply map_ext. intros x. apply p5_sq.
  Qed.
  Lemma single_sbox_shamir_wp (st : nat -> sst) inp x : synced st -> R inp x ->
    wpn n cap (fun i => single_sbox_shamir (M := M) (st i) (inp i)) (fun r => R (fun i => fst (r i)) (p5 x) /\ synced (fun i => snd (r i))).
  Proof.
    intros (gen & L & Wf) G. unfold single_sbox_shamir.
    assert (E2 : (2 * th = th + th)%nat) by lia.
    apply wpn_bind. eapply wpn_mono; [|eapply degree_reduce_wp with (x := x * x); try eassumption; try apply pos_c1; rewrite E2; exact (sharing_mul G G)].
    intros q (G1 & _ & gen1 & L1 & _ & W1). apply wpn_bind.
    eapply wpn_mono; [|eapply degree_reduce_wp with (inp := fun i => fst (q i) * fst (q i)) (x := (x * x) * (x * x)); try eassumption; try apply pos_c1; rewrite E2; exact (sharing_mul G1 G1)].
    intros q2 (G2 & _ & gen2 & L2 & _ & W2). cbv beta.
    eapply wpn_mono; [|eapply degree_reduce_wp with (inp := fun i => fst (q2 i) * inp i) (x := ((x * x) * (x * x)) * x); try eassumption; try apply pos_c1; rewrite E2; exact (sharing_mul G2 G)].
    intros q3 (G3 & _ & gen3 & L3 & _ & W3). split; [|exists gen3, L3; exact W3]. rewrite <- p5_sq. exact G3.
  Qed.

  (** ** Rounds *)
  Lemma s_for_wp {X C} (f : nat -> nat -> X -> prog X) (g : list F -> C -> list F) (cs : list C) (Inv : nat -> (nat -> X) -> list F -> Prop) (s lim : nat) :
    (forall o r c a xs, nth_error cs r = Some c -> Inv o a xs -> (o + s <= lim)%nat -> wpn n cap (fun i => f i r (a i)) (fun a' => Inv (o + s)%nat a' (g xs c))) ->
    forall m k o a xs, (k + m <= length cs)%nat -> (o + m * s <= lim)%nat -> Inv o a xs ->
      wpn n cap (fun i => for_prog (seq k m) (f i) (a i)) (fun a' => Inv (o + m * s)%nat a' (fold_left g (firstn m (skipn k cs)) xs)).
  Proof.
    intros Hf. induction m as [|m IH]; intros k o a xs Hk Ho Ha; cbn [seq for_prog firstn fold_left].
    - apply wpn_ret. rewrite Nat.add_0_r. exact Ha.
    - destruct (nth_error cs k) as [c|] eqn:Ek; [|apply nth_error_None in Ek; lia].
      assert (Es : skipn k cs = c :: skipn (Datatypes.S k) cs).
      { clear -Ek. revert cs Ek. induction k as [|k IH]; intros [|x cs] Ek; cbn in *; try discriminate; [congruence|]. apply IH. exact Ek. }
      rewrite Es. cbn [fold_left]. apply wpn_bind. eapply wpn_mono; [|apply (Hf o k c a xs Ek Ha); lia].
      intros a' Ha'. cbv beta. replace (o + Datatypes.S m * s)%nat with (o + s + m * s)%nat by lia. apply IH; [lia|lia|exact Ha'].
  Qed.
  Lemma s_rounds_wp {X} (ext int : nat -> nat -> X -> prog X) g1 g2 (Inv : nat -> (nat -> X) -> list F -> Prop) s1 s2 lim :
    (forall o r c a xs, nth_error (round_constants_external p) r = Some c -> Inv o a xs -> (o + s1 <= lim)%nat -> wpn n cap (fun i => ext i r (a i)) (fun a' => Inv (o + s1)%nat a' (g1 xs c))) ->
    (forall o r c a xs, nth_error (round_constants_internal p) r = Some c -> Inv o a xs -> (o + s2 <= lim)%nat -> wpn n cap (fun i => int i r (a i)) (fun a' => Inv (o + s2)%nat a' (g2 xs c))) ->
    forall o a xs, (o + (rounds_f_beginning p + rounds_f_end p) * s1 + rounds_p p * s2 <= lim)%nat -> Inv o a xs ->
      wpn n cap (fun i => sm_rounds p (ext i) (int i) (a i))
        (fun a' => Inv (o + ((rounds_f_beginning p + rounds_f_end p) * s1 + rounds_p p * s2))%nat a' (rounds_spec p g1 g2 0 xs)).
  Proof.
    intros H1 H2 o a xs Hlim Ha. pose proof W as (_ & _ & Hl & _ & Hi & _). unfold sm_rounds, rounds_spec. rewrite Nat.sub_0_r.
    rewrite Nat.mul_add_distr_r in *.
    apply wpn_bind. eapply wpn_mono; [|apply (@s_for_wp X (list F) ext g1 (round_constants_external p) Inv s1 lim H1); [lia| |exact Ha]; lia].
    intros a1 A1. apply wpn_bind. eapply wpn_mono; [|apply (@s_for_wp X F int g2 (round_constants_internal p) Inv s2 lim H2); [lia| |exact A1]; lia].
    intros a2 A2. rewrite skipn_O in A2. cbv beta. eapply wpn_mono; [|apply (@s_for_wp X (list F) ext g1 (round_constants_external p) Inv s1 lim H1); [lia| |exact A2]; lia].
    intros a3 A3. cbv beta in A3. match goal with |- Inv ?n _ _ => match type of A3 with Inv ?m _ _ => replace n with m by lia end end. exact A3.
  Qed.
  Definition InvH (len : nat) (o : nat) (a : nat -> list F * nat) (xs : list F) : Prop :=
    length xs = len /\ SH (fun i => fst (a i)) xs /\ forall i, (i < n)%nat -> snd (a i) = o.
  Definition InvHO (o : nat) (a : nat -> list F * sst) (xs : list F) : Prop :=
    length xs = t /\ SH (fun i => fst (a i)) xs /\ synced (fun i => snd (a i)).
  Lemma s_consts_ok l xs rc : length xs = length rc -> SH l xs -> SH (fun i => map2 gadd (l i) rc) (map2 gadd xs rc).
  Proof.
    intros E G. apply (@gvec_map2_pub nat mem F F F 0 0 0 R (fun _ => gadd) gadd); [exact s_rext| |exact G].
    intros a x c Ha. apply s_add; [exact Ha|]. apply sharing_const.
  Qed.
  Lemma s_const1_ok l xs c : SH l xs -> SH (fun i => on_first (fun x => x + c) (l i)) (on_first (fun x => x + c) xs).
  Proof.
    intros G. apply (@gvec_on_first nat mem F F 0 0 _ s_rext (fun _ x => x + c)); [|exact G]. intros a x Ha. apply s_add; [exact Ha|apply sharing_const].
  Qed.
  Lemma s_each_ok m (f : nat -> list F -> list F) (g : list F -> list F) :
    (forall l xs, length xs = t -> SH l xs -> SH (fun i => f i (l i)) (g xs)) ->
    forall l xs, length xs = (m * t)%nat -> SH l xs -> SH (fun i => each t (f i) (l i)) (each t g xs).
  Proof. intros Hf l xs E G. apply (@gvec_each nat mem F F F F 0 0 0 0 _ _ t f g m (t_pos W) s_rext s_rext Hf l xs E G). Qed.
  Lemma s_each_opt m l xs : length xs = (m * t)%nat -> SH l xs ->
    (forall i, (i < n)%nat -> each_opt t (ext_p t) (l i) = Some (each t (ext_A t) (l i))) /\ SH (fun i => each t (ext_A t) (l i)) (each t (ext_layer t) xs).
  Proof.
    intros E G. split.
    - intros i Hi. apply (@each_opt_some F t (ext_p t) (ext_A t) (l i) m); [exact (t_pos W)|destruct G as [G _]; rewrite G by exact Hi; exact E|].
      intros c Hc. unfold ext_A, ext_p. destruct (@ext_some F 0 gadd t c (Hv W)) as [l' ->]. reflexivity.
    - apply (@s_each_ok m (fun _ => ext_A t) (ext_layer t)); [|exact E|exact G].
      intros l0 xs0 E0 G0. apply sext_ok; assumption.
  Qed.

  Section Precomp.
    Variables (st : nat -> sst) (pc : nat -> precomp F) (rs : list F).
    Hypothesis Hst : synced st.
    Hypothesis PC : PCH pc rs.
    Lemma shamir_ext_round_precomp_wp o r rc a xs : nth_error (round_constants_external p) r = Some rc -> InvH t o a xs -> (o + t <= length rs)%nat ->
      wpn n cap (fun i => shamir_external_round_precomp (M := M) t p (pc i) (st i) r (a i)) (fun a' => InvH t (o + t) a' (ext_round t 5 xs rc)).
    Proof.
      intros E (Ex & G & Eo) Hl. pose proof (rc_len W r E) as El.
      eapply wpn_ext with (qs := fun i => s <- sbox_shamir_precomp (pc i) (st i) o (map2 gadd (fst (a i)) rc) ;; _).
      { intros i Hi. unfold shamir_external_round_precomp, sm_rc_ext, add_rc_external. rewrite E, Eo by exact Hi. reflexivity. }
      apply wpn_bind. eapply wpn_mono; [|apply sbox_shamir_precomp_wp with (rs := rs) (xs := map2 gadd xs rc); [exact Hst|exact PC|apply s_consts_ok; [congruence|exact G]|rewrite (len_add (t := t)) by congruence; exact Hl]].
      intros s [G1 S1]. rewrite (len_add (t := t)) in S1 by congruence.
      assert (Em : length (map p5 (map2 gadd xs rc)) = t) by (rewrite map_length; apply len_add; congruence).
      destruct (sext_ok Em G1) as [X1 X2]. eapply wpn_ret_ext with (a := fun i => (ext_A t (fst (s i)), snd (s i))); [intros i Hi; rewrite X1 by exact Hi; reflexivity|].
      split; [apply ext_layer_length|]. cbn [fst snd]. split; [exact X2|exact S1].
    Qed.
    Lemma shamir_int_round_precomp_wp o r c a xs : nth_error (round_constants_internal p) r = Some c -> InvH t o a xs -> (o + 1 <= length rs)%nat ->
      wpn n cap (fun i => shamir_internal_round_precomp (M := M) t p (pc i) (st i) r (a i)) (fun a' => InvH t (o + 1) a' (int_round 5 (mat_internal_diag_m_1 p) xs c)).
    Proof.
      intros E (Ex & G & Eo) Hl. pose proof (t_pos W) as Ht. pose proof (s_const1_ok c G) as Gl.
      eapply wpn_ext with (qs := fun i => s <- single_sbox_shamir_precomp (pc i) (st i) o (nth 0 (on_first (fun x => x + c) (fst (a i))) 0) ;; _).
      { intros i Hi. unfold shamir_internal_round_precomp, sm_rc_int, add_rc_internal. rewrite E, Eo by exact Hi. reflexivity. }
      apply wpn_bind.
      eapply wpn_mono; [|apply single_sbox_shamir_precomp_wp with (rs := rs) (x := nth 0 (on_first (fun x => x + c) xs) 0); [exact Hst|exact PC| |exact Hl]].
      - intros s [G1 S1]. apply wpn_ret. split; [rewrite int_round_eq; apply (int_layer_len W); rewrite !on_first_length; exact Ex|].
        cbn [fst snd]. split; [|exact S1]. rewrite int_round_eq. rewrite <- (on_first_const 0).
        apply sint_ok; [rewrite !on_first_length; exact Ex|].
        apply (@gvec_on_first' nat mem F F 0 0 _ s_rext (fun i => fst (s i))); [exact G1|exact Gl].
      - apply (@gvec_first nat mem F F 0 0 _ (fun i => on_first (fun x => x + c) (fst (a i)))); [rewrite on_first_length; lia|exact Gl].
    Qed.
    Lemma shamir_permutation_precomp_wp off l xs : SH l xs -> length xs = t -> (off + num_sbox p t <= length rs)%nat ->
      wpn n cap (fun i => shamir_permutation_precomp (M := M) t 5 p (pc i) (st i) off (l i))
        (fun r => SH (fun i => fst (r i)) (poseidon2 t 5 p xs) /\ forall i, (i < n)%nat -> snd (r i) = (off + num_sbox p t)%nat).
    Proof.
      intros G E Ho. destruct (sext_ok E G) as [X1 X2].
      eapply wpn_ext with (qs := fun i => sm_rounds p (shamir_external_round_precomp t p (pc i) (st i)) (shamir_internal_round_precomp t p (pc i) (st i)) (ext_A t (l i), off)).
      { intros i Hi. unfold shamir_permutation_precomp. cbn [N.eqb Pos.eqb negb]. rewrite X1 by exact Hi. reflexivity. }
      unfold num_sbox in *.
      eapply wpn_mono; [|apply (@s_rounds_wp (list F * nat) (fun i => shamir_external_round_precomp t p (pc i) (st i)) (fun i => shamir_internal_round_precomp t p (pc i) (st i))
        (ext_round t 5) (int_round 5 (mat_internal_diag_m_1 p)) (InvH t) t 1 (length rs)) with (o := off) (xs := ext_layer t xs) (a := fun i => (ext_A t (l i), off))].
      - intros r (R1 & R2 & R3). rewrite Nat.mul_1_r in R3.
        unfold rounds_spec in R2. rewrite Nat.sub_0_r, skipn_O in R2. split; [exact R2|exact R3].
      - intros o r c a xs0 H1 H2 H3. apply shamir_ext_round_precomp_wp; assumption.
      - intros o r c a xs0 H1 H2 H3. apply shamir_int_round_precomp_wp; assumption.
      - lia.
      - split; [apply ext_layer_length|]. split; [exact X2|reflexivity].
    Qed.
    Lemma shamir_ext_round_packed_wp m o r rc a xs : nth_error (round_constants_external p) r = Some rc -> InvH (m * t) o a xs -> (o + m * t <= length rs)%nat ->
      wpn n cap (fun i => shamir_external_round_precomp_packed (M := M) t p (pc i) (st i) r (a i)) (fun a' => InvH (m * t) (o + m * t) a' (each t (fun l => ext_round t 5 l rc) xs)).
    Proof.
      intros E (Ex & G & Eo) Hl. pose proof (t_pos W) as Ht. pose proof (rc_len W r E) as El. pose proof G as [L1 _].
      assert (G' : SH (fun i => each t (fun l => map2 gadd l rc) (fst (a i))) (each t (fun l => map2 gadd l rc) xs)).
      { apply (@s_each_ok m (fun i l => map2 gadd l rc) (fun l => map2 gadd l rc)); [|exact Ex|exact G].
        intros l0 xs0 E0 G0. apply s_consts_ok; [congruence|exact G0]. }
      assert (Ea : length (each t (fun l => map2 gadd l rc) xs) = (m * t)%nat).
      { apply each_length; [exact Ht|exact Ex|]. intros c Hc. apply len_add; assumption. }
      eapply wpn_ext with (qs := fun i => s <- sbox_shamir_precomp (pc i) (st i) o (each t (fun l => map2 gadd l rc) (fst (a i))) ;; _).
      { intros i Hi. unfold shamir_external_round_precomp_packed.
        rewrite (@each_opt_some F t (fun l => add_rc_external p l r) (fun l => map2 gadd l rc) (fst (a i)) m); [|exact Ht|rewrite L1 by exact Hi; exact Ex|].
        - rewrite Eo by exact Hi. reflexivity.
        - intros c Hc. unfold add_rc_external. rewrite E. reflexivity. }
      apply wpn_bind. eapply wpn_mono; [|apply sbox_shamir_precomp_wp with (rs := rs) (xs := each t (fun l => map2 gadd l rc) xs); [exact Hst|exact PC|exact G'|rewrite Ea; exact Hl]].
      intros s [G1 S1]. rewrite Ea in S1.
      assert (Em : length (map p5 (each t (fun l => map2 gadd l rc) xs)) = (m * t)%nat) by (rewrite map_length; exact Ea).
      destruct (@s_each_opt m (fun i => fst (s i)) _ Em G1) as [X1 X2].
      rewrite <- (@each_map F t p5 _ m) in X2 by (exact Ht || exact Ea).
      rewrite (@each_each F t (map p5) _ xs m) in X2 by (try exact Ht; try exact Ex; intros; apply len_add; assumption).
      rewrite (@each_each F t (ext_layer t) _ xs m) in X2 by (try exact Ht; try exact Ex; intros; rewrite map_length; apply len_add; assumption).
      eapply wpn_ret_ext with (a := fun i => (each t (ext_A t) (fst (s i)), snd (s i))); [intros i Hi; rewrite X1 by exact Hi; reflexivity|].
      split; [|split; [exact X2|exact S1]].
      apply each_length; [exact Ht|exact Ex|]. intros. apply ext_layer_length.
    Qed.
    Lemma shamir_int_round_packed_wp m o r c a xs : nth_error (round_constants_internal p) r = Some c -> InvH (m * t) o a xs -> (o + m <= length rs)%nat ->
      wpn n cap (fun i => shamir_internal_round_precomp_packed (M := M) t p (pc i) (st i) r (a i)) (fun a' => InvH (m * t) (o + m) a' (each t (fun l => int_round 5 (mat_internal_diag_m_1 p) l c) xs)).
    Proof.
      intros E (Ex & G & Eo) Hl. pose proof (t_pos W) as Ht. pose proof G as [L1 _].
      assert (G' : SH (fun i => each t (on_first (fun x => x + c)) (fst (a i))) (each t (on_first (fun x => x + c)) xs)).
      { apply (@s_each_ok m (fun i => on_first (fun x => x + c)) (on_first (fun x => x + c))); [|exact Ex|exact G].
        intros l0 xs0 E0 G0. apply s_const1_ok. exact G0. }
      assert (Ea : length (each t (on_first (fun x => x + c)) xs) = (m * t)%nat).
      { apply each_length; [exact Ht|exact Ex|]. intros q Hq. rewrite on_first_length. exact Hq. }
      eapply wpn_ext with (qs := fun i => s <- single_sbox_shamir_precomp_packed t (pc i) (st i) o (each t (on_first (fun x => x + c)) (fst (a i))) ;; _).
      { intros i Hi. unfold shamir_internal_round_precomp_packed.
        rewrite (@each_opt_some F t (fun l => add_rc_internal p l r) (on_first (fun x => x + c)) (fst (a i)) m); [|exact Ht|rewrite L1 by exact Hi; exact Ex|].
        - rewrite Eo by exact Hi. reflexivity.
        - intros q Hq. unfold add_rc_internal. rewrite E. reflexivity. }
      apply wpn_bind. eapply wpn_mono; [|apply single_sbox_shamir_packed_wp with (rs := rs) (m := m); [exact Hst|exact PC|exact G'|exact Ea|exact Hl]].
      intros s [G1 S1]. cbv beta. apply wpn_ret. cbn [fst snd]. split; [|split; [|exact S1]]; cbn [fst].
      - apply each_length; [exact Ht|exact Ex|]. intros q Hq. rewrite int_round_eq. apply (int_layer_len W). rewrite !on_first_length. exact Hq.
      - rewrite (@each_each F t (on_first p5) _ xs m) in G1 by (try exact Ht; try exact Ex; intros; rewrite on_first_length; assumption).
        replace (each t (fun l => int_round 5 (mat_internal_diag_m_1 p) l c) xs) with
          (each t (int_layer (mat_internal_diag_m_1 p)) (each t (fun q => on_first p5 (on_first (fun x => x + c) q)) xs)).
        + apply (@s_each_ok m (fun _ => int_p t (mat_internal_diag_m_1 p)) (int_layer (mat_internal_diag_m_1 p))); [|apply each_length; [exact Ht|exact Ex|intros; rewrite !on_first_length; assumption]|exact G1].
          intros l0 xs0 E0 G0. apply sint_ok; assumption.
        + rewrite (@each_each F t (int_layer (mat_internal_diag_m_1 p)) _ xs m) by (try exact Ht; try exact Ex; intros; rewrite !on_first_length; assumption).
          apply each_ext with (m := m); [exact Ht|exact Ex|]. intros q Hq. symmetry. apply int_round_eq.
    Qed.
    Lemma shamir_permutation_packed_wp m off l xs : SH l xs -> length xs = (m * t)%nat -> (off + num_sbox p t * m <= length rs)%nat ->
      wpn n cap (fun i => shamir_permutation_packed (M := M) t 5 p (pc i) (st i) off (l i))
        (fun r => SH (fun i => fst (r i)) (each t (poseidon2 t 5 p) xs) /\ forall i, (i < n)%nat -> snd (r i) = (off + num_sbox p t * m)%nat).
    Proof.
      intros G E Ho. pose proof (t_pos W) as Ht.
      destruct (@s_each_opt m l xs E G) as [X1 X2].
      eapply wpn_ext with (qs := fun i => sm_rounds p (shamir_external_round_precomp_packed t p (pc i) (st i)) (shamir_internal_round_precomp_packed t p (pc i) (st i)) (each t (ext_A t) (l i), off)).
      { intros i Hi. unfold shamir_permutation_packed. cbn [N.eqb Pos.eqb negb]. destruct G as [G _]. rewrite G by exact Hi. rewrite E.
        rewrite Nat.mod_mul by lia. cbn [Nat.eqb negb]. rewrite X1 by exact Hi. reflexivity. }
      unfold num_sbox in *.
      eapply wpn_mono; [|apply (@s_rounds_wp (list F * nat) (fun i => shamir_external_round_precomp_packed t p (pc i) (st i)) (fun i => shamir_internal_round_precomp_packed t p (pc i) (st i))
        (fun xs c => each t (fun l => ext_round t 5 l c) xs) (fun xs c => each t (fun l => int_round 5 (mat_internal_diag_m_1 p) l c) xs) (InvH (m * t)) (m * t) m (length rs)) with (o := off) (xs := each t (ext_layer t) xs) (a := fun i => (each t (ext_A t) (l i), off))].
      - intros r (R1 & R2 & R3). rewrite (rounds_spec_each W m xs E) in R2. split; [exact R2|]. intros i Hi. rewrite R3 by exact Hi. lia.
      - intros o r c a xs0 H1 H2 H3. apply shamir_ext_round_packed_wp; assumption.
      - intros o r c a xs0 H1 H2 H3. apply shamir_int_round_packed_wp; assumption.
      - lia.
      - split; [apply each_length; [exact Ht|exact E|intros; apply ext_layer_length]|]. split; [exact X2|reflexivity].
    Qed.
  End Precomp.

  (** ** Without preprocessing *)
  Lemma shamir_ext_round_wp o r rc a xs : nth_error (round_constants_external p) r = Some rc -> InvHO o a xs ->
    wpn n cap (fun i => shamir_external_round (M := M) t p r (a i)) (fun a' => InvHO (o + 0) a' (ext_round t 5 xs rc)).
  Proof.
    intros E (Ex & G & Hs). pose proof (rc_len W r E) as El.
    eapply wpn_ext with (qs := fun i => s <- sbox_shamir (snd (a i)) (map2 gadd (fst (a i)) rc) ;; _).
    { intros i Hi. unfold shamir_external_round, sm_rc_ext, add_rc_external. rewrite E. reflexivity. }
    apply wpn_bind. eapply wpn_mono; [|apply sbox_shamir_wp with (xs := map2 gadd xs rc); [exact Hs|apply s_consts_ok; [congruence|exact G]]].
    intros s [G1 S1].
    assert (Em : length (map p5 (map2 gadd xs rc)) = t) by (rewrite map_length; apply len_add; congruence).
    destruct (sext_ok Em G1) as [X1 X2]. eapply wpn_ret_ext with (a := fun i => (ext_A t (fst (s i)), snd (s i))); [intros i Hi; rewrite X1 by exact Hi; reflexivity|].
    split; [apply ext_layer_length|]. cbn [fst snd]. split; [exact X2|exact S1].
  Qed.
  Lemma shamir_int_round_wp o r c a xs : nth_error (round_constants_internal p) r = Some c -> InvHO o a xs ->
    wpn n cap (fun i => shamir_internal_round (M := M) t p r (a i)) (fun a' => InvHO (o + 0) a' (int_round 5 (mat_internal_diag_m_1 p) xs c)).
  Proof.
    intros E (Ex & G & Hs). pose proof (t_pos W) as Ht. pose proof (s_const1_ok c G) as Gl.
    eapply wpn_ext with (qs := fun i => s <- single_sbox_shamir (snd (a i)) (nth 0 (on_first (fun x => x + c) (fst (a i))) 0) ;; _).
    { intros i Hi. unfold shamir_internal_round, sm_rc_int, add_rc_internal. rewrite E. reflexivity. }
    apply wpn_bind.
    eapply wpn_mono; [|apply single_sbox_shamir_wp with (x := nth 0 (on_first (fun x => x + c) xs) 0); [exact Hs|]].
    - intros s [G1 S1]. apply wpn_ret. split; [rewrite int_round_eq; apply (int_layer_len W); rewrite !on_first_length; exact Ex|].
      cbn [fst snd]. split; [|exact S1]. rewrite int_round_eq. rewrite <- (on_first_const 0).
      apply sint_ok; [rewrite !on_first_length; exact Ex|].
      apply (@gvec_on_first' nat mem F F 0 0 _ s_rext (fun i => fst (s i))); [exact G1|exact Gl].
    - apply (@gvec_first nat mem F F 0 0 _ (fun i => on_first (fun x => x + c) (fst (a i)))); [rewrite on_first_length; lia|exact Gl].
  Qed.
  Lemma shamir_permutation_wp (st : nat -> sst) l xs : synced st -> SH l xs -> length xs = t ->
    wpn n cap (fun i => shamir_permutation (M := M) t 5 p (st i) (l i))
      (fun r => SH (fun i => fst (r i)) (poseidon2 t 5 p xs) /\ synced (fun i => snd (r i))).
  Proof.
    intros Hs G E. destruct (sext_ok E G) as [X1 X2].
    eapply wpn_ext with (qs := fun i => sm_rounds p (shamir_external_round t p) (shamir_internal_round t p) (ext_A t (l i), st i)).
    { intros i Hi. unfold shamir_permutation. cbn [N.eqb Pos.eqb negb]. rewrite X1 by exact Hi. reflexivity. }
    eapply wpn_mono; [|apply (@s_rounds_wp (list F * sst) (fun i => shamir_external_round t p) (fun i => shamir_internal_round t p)
        (ext_round t 5) (int_round 5 (mat_internal_diag_m_1 p)) InvHO 0 0 0) with (o := 0%nat) (xs := ext_layer t xs) (a := fun i => (ext_A t (l i), st i))].
    - intros r (R1 & R2 & R3). unfold rounds_spec in R2. rewrite Nat.sub_0_r, skipn_O in R2. split; [exact R2|exact R3].
    - intros o r c a xs0 H1 H2 _. apply shamir_ext_round_wp; assumption.
    - intros o r c a xs0 H1 H2 _. apply shamir_int_round_wp; assumption.
    - lia.
    - split; [apply ext_layer_length|]. split; [exact X2|exact Hs].
  Qed.

  (** ** Preprocessing *)
  Lemma sm_rands_wp k : forall gen L (st : nat -> sst), sm_wf n th gen L st ->
    wpn n cap (fun i => sm_rands (M := M) k (st i)) (fun o => exists pqs gen' L', took_many th gen L pqs gen' L' /\ length pqs = k /\
      SH (fun i => fst (o i)) (map (fun pq => peval (fst pq) 0) pqs) /\ sm_wf n th gen' L' (fun i => snd (o i))).
  Proof.
    induction k as [|k IH]; intros gen L st Wf; cbn [sm_rands].
    - apply wpn_ret. exists [], gen, L. split; [constructor|]. split; [reflexivity|]. split; [apply gvec_nil|exact Wf].
    - apply wpn_bind. eapply wpn_mono; [|eapply sm_rand_wp; eassumption]. intros o (pq & gen1 & L1 & T1 & G1 & W1).
      apply wpn_bind. eapply wpn_mono; [|apply (IH _ _ _ W1)]. intros q (pqs & gen2 & L2 & T2 & E2 & G2 & W2). apply wpn_ret. cbn [fst snd].
      exists (pq :: pqs), gen2, L2. split; [econstructor; eassumption|]. split; [cbn; congruence|]. split; [|exact W2].
      cbn [map]. apply (@gvec_cons nat mem F F 0 0 _ (fun i => fst (o i)) (fun i => fst (q i))); [exact G1|exact G2].
  Qed.
  Lemma precompute_shamir_wp num (st : nat -> sst) : synced st ->
    wpn n cap (fun i => precompute_shamir (M := M) t 5 p num (st i))
      (fun r => exists rs, length rs = (num_sbox p t * num)%nat /\ PCH (fun i => fst (r i)) rs /\ synced (fun i => snd (r i))).
  Proof.
    intros (gen & L & Wf). unfold precompute_shamir. cbn [N.eqb Pos.eqb negb]. set (k := (num_sbox p t * num)%nat).
    apply wpn_bind. eapply wpn_mono; [|apply sm_rands_wp; exact Wf]. intros r (pqs & gen0 & L0 & _ & Ek & G & W0).
    set (rs := map (fun pq => peval (fst pq) 0) pqs) in *. assert (Ln : length rs = k) by (unfold rs; rewrite map_length; exact Ek). clearbody rs.
    apply wpn_bind. eapply wpn_mono; [|eapply sm_mul_vec_wp with (xs := rs) (ys := rs); try eassumption; try apply pos_c1; reflexivity].
    intros r2 (G2 & _ & gen2 & L2 & _ & _ & W2).
    apply wpn_bind. eapply wpn_mono; [|eapply sm_mul_vec_wp; try eassumption; try apply pos_c1; reflexivity].
    intros r4 (G4 & _ & gen4 & L4 & _ & _ & W4).
    rewrite !map_map2_self in *. rewrite map_map in *.
    pose proof (@gvec_app nat mem F F 0 0 _ s_rext _ _ _ _ G G) as GG. pose proof (@gvec_app nat mem F F 0 0 _ s_rext _ _ _ _ G2 G4) as G24.
    apply wpn_bind. eapply wpn_mono; [|eapply sm_mul_vec_wp; try eassumption; try apply pos_c1; rewrite !app_length, !map_length; reflexivity].
    intros r35 (G35 & _ & gen35 & L35 & _ & _ & W35).
    assert (Eq : map2 rmul (rs ++ rs) (map (fun x => x * x) rs ++ map (fun x => (x * x) * (x * x)) rs) = map (fun x => rpow x 3) rs ++ map (fun x => rpow x 5) rs).
    { rewrite map2_app2 by (rewrite map_length; reflexivity). rewrite !map2_self_map. f_equal; apply map_ext; intros x; cbn [rpow]; ring. }
    change (sharings n th (fun i => fst (r35 i)) (map2 rmul (rs ++ rs) (map (fun x => x * x) rs ++ map (fun x => (x * x) * (x * x)) rs))) in G35.
    rewrite Eq in G35.
    apply wpn_ret_ext with (a := fun i => (mkPC (fst (r i)) (fst (r2 i)) (firstn k (fst (r35 i))) (fst (r4 i)) (skipn k (fst (r35 i))), snd (r35 i))).
    { intros i Hi. destruct G35 as [G35 _]. rewrite G35 by exact Hi. rewrite app_length, !map_length, Ln.
      replace (k + k <? k)%nat with false by (symmetry; apply Nat.ltb_ge; lia). reflexivity. }
    exists rs. split; [exact Ln|]. cbn [fst snd]. split; [|exists gen35, L35; exact W35]. unfold pc_ok. cbn [pc_r pc_r2 pc_r3 pc_r4 pc_r5].
    split; [exact G|]. split; [|split; [|split]].
    - replace (map (fun r => rpow r 2) rs) with (map (fun x => x * x) rs) by (apply map_ext; intros x; cbn [rpow]; ring). exact G2.
    - pose proof (@gvec_firstn nat mem F F 0 0 _ s_rext k _ _ G35) as X. rewrite firstn_app_len in X by (rewrite map_length; exact Ln). exact X.
    - replace (map (fun r => rpow r 4) rs) with (map (fun x => (x * x) * (x * x)) rs) by (apply map_ext; intros x; cbn [rpow]; ring). exact G4.
    - pose proof (@gvec_skipn nat mem F F 0 0 _ s_rext k _ _ G35) as X. rewrite skipn_app_len in X by (rewrite map_length; exact Ln). exact X.
  Qed.
End PosSh.
