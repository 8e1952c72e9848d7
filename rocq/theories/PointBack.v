(** * Coordinate shares to point shares: correctness under every schedule *)
From Coq Require Import String List Arith NArith Lia Bool Ring.
From Verif Require Import Proc Alg Rep3Net Rep3 Rep3Spec Rep3Proofs Rep3Wp Uint Binary BinaryWp Conv ConvWp CmpWp Exec Point PointWp.
Import ListNotations.
Set Implicit Arguments.
Local Open Scope grp_scope.

Lemma pvec_tab {A B X} (R : (pid -> A) -> B -> Prop) (f : pid -> X -> A) (g : X -> B) (l : list X) :
  Forall (fun x => R (fun i => f i x) (g x)) l -> pvec R (fun i => map (f i) l) (map g l).
Proof.
  induction 1 as [|x l Hx _ IH]; [apply pvec_nil; reflexivity|].
  exact (pvec_cons (fun i => f i x) (g x) _ (fun i => eq_refl) Hx IH).
Qed.
Lemma firstn_len {A} (l m : list A) n : length l = n -> firstn n (l ++ m) = l.
Proof. intros <-. rewrite firstn_app, Nat.sub_diag, firstn_all, firstn_O, app_nil_r. reflexivity. Qed.
Lemma skipn_len {A} (l m : list A) n : length l = n -> skipn n (l ++ m) = m.
Proof. intros <-. rewrite skipn_app, Nat.sub_diag, skipn_all. reflexivity. Qed.

Section PointBack.
  Context {F : Type} `{FU : FieldUint F} {C : Type} {AC : AbGrp C} {CV : Curve F C}.
  Context {S M : Type} (W : nat) (du : nat -> S -> N * S) {DF : Draw S F} {DC : Draw S C}.
  Context {EN : Enc M (list N)} {ENN : Enc M (list (N * N))}
          {EL : Enc M (list (list N))} {ELL : Enc M (list (list N * list N))} {EF : Enc M (list F)}
          {ELF : Enc M (list (list F))}
          (cap : nat) (cap_pos : (1 <= cap)%nat).
  Notation B := (mbs F).
  Context (width : (B + 2 <= W)%nat).
  Context (a2b : pid -> rst S -> share F -> prog pid M (share N * rst S)).
  Context (a2b_ok : forall st a x, synced st -> shares a x ->
    wp cap (fun i => a2b i (st i) (a i))
      (fun r => shares (fun i => fst (r i)) (to_uint x) /\ synced (fun i => snd (r i)))).
  Context (drawv : nat -> S -> list F * S) (drawv_len : forall n s, length (fst (drawv n s)) = n).
  Implicit Types (st : pid -> rst S).
  Add Ring Rf2 : (cring_theory (R := F)).

  (** The random point added before the coordinates are revealed: the sum of one draw from each of the
      six generators held by party 2. *)
  Definition bc_sum (b : bcomp S) : C := match three_keys (X := C) b with Some k => ckey_sum (fst k) | None => 0 end.
  Definition bc_next (b : bcomp S) : bcomp S := match three_keys (X := C) b with Some k => snd k | None => b end.
  Definition mask_point st : C := bc_sum (bc1 (st P2)) + bc_sum (bc2 (st P2)).
  Fixpoint mask_points (n : nat) (b1 b2 : bcomp S) : list C :=
    match n with
    | O => []
    | Datatypes.S n => (bc_sum b1 + bc_sum b2) :: mask_points n (bc_next b1) (bc_next b2)
    end.
  Definition key_share (i : pid) (k : C * C) : share C :=
    match i with P0 => mkShare 0 (- snd k) | P1 => mkShare (- fst k) 0 | P2 => mkShare (- snd k) (- fst k) end.
  Definition key_coord (i : pid) (k : C * C) : F * F := match i with P2 => coords (fst k + snd k) | _ => (0, 0) end.
  Lemma f2p_keys_wp st : synced st -> wp (M := M) cap (fun i => f2p_keys i (st i))
    (fun r => exists k, fst k + snd k = mask_point st /\
       (forall i, fst (r i) = (key_share i k, key_coord i k)) /\
       bc1 (snd (r P2)) = bc_next (bc1 (st P2)) /\ bc2 (snd (r P2)) = bc_next (bc2 (st P2)) /\
       synced (fun i => snd (r i))).
  Proof.
    intros Hs.
    destruct (three_keys_bc1 (X := C) Hs) as (x0 & x1 & x2 & b1 & b2 & E1 & E2 & K1).
    set (st1 := fun i => match i with P0 => st P0 | P1 => set_bc1 (st P1) b1 | P2 => set_bc1 (st P2) b2 end).
    assert (Hs1 : synced st1) by (apply K1; try reflexivity; intros []; reflexivity).
    destruct (three_keys_bc2 (X := C) Hs1) as (y0 & y1 & y2 & c0 & c2 & G0 & G2 & K2).
    set (st2 := fun i => match i with P0 => set_bc2 (st1 P0) c0 | P1 => st1 P1 | P2 => set_bc2 (st1 P2) c2 end).
    assert (Hs2 : synced st2) by (apply K2; try reflexivity; intros []; reflexivity).
    cbn in G0, G2.
    exists (fun i => match i with
      | P0 => ((mkShare 0 (- ckey_sum (y0, y1, y2)), (0, 0)), st2 P0)
      | P1 => ((mkShare (- ckey_sum (x1, x2, x0)) 0, (0, 0)), st2 P1)
      | P2 => ((mkShare (- ckey_sum (y2, y0, y1)) (- ckey_sum (x2, x0, x1)), coords (ckey_sum (x2, x0, x1) + ckey_sum (y2, y0, y1))), st2 P2) end).
    split.
    - apply runs_comp3. unfold f2p_keys. rewrite E1, E2, G0, G2.
      apply comp3_ret_eq; reflexivity.
    - exists (x0 + x1 + x2, y0 + y1 + y2). cbn [fst snd].
      split; [|split; [|split; [|split; [|eapply synced_ext; [|exact Hs2]; intros []; reflexivity]]]].
      + unfold mask_point, bc_sum. rewrite E2, G2. unfold ckey_sum. cbn [fst snd]. grp.
      + unfold ckey_sum. cbn [fst snd].
        replace (x1 + x2 + x0) with (x0 + x1 + x2) by grp. replace (x2 + x0 + x1) with (x0 + x1 + x2) by grp.
        replace (y2 + y0 + y1) with (y0 + y1 + y2) by grp. intros []; reflexivity.
      + cbn. unfold bc_next. rewrite E2. reflexivity.
      + cbn. unfold bc_next. rewrite G2. reflexivity.
  Qed.
  Lemma f2p_keys_many_wp n : forall st, synced st -> wp (M := M) cap (fun i => f2p_keys_many n i (st i))
    (fun r => exists l : list (C * C), map (fun k => fst k + snd k) l = mask_points n (bc1 (st P2)) (bc2 (st P2)) /\
       (forall i, fst (r i) = map (fun k => (key_share i k, key_coord i k)) l) /\ synced (fun i => snd (r i))).
  Proof.
    induction n as [|n IH]; intros st Hs; cbn [f2p_keys_many].
    - apply wp_ret. exists []. cbn. auto.
    - apply wp_bind. eapply wp_mono; [|apply (f2p_keys_wp Hs)]. intros k (kk & K0 & K1 & K2 & K3 & K4).
      apply wp_bind. eapply wp_mono; [|apply (IH _ K4)]. intros r (l & L0 & L1 & L2).
      apply wp_ret. exists (kk :: l). cbn [fst snd map mask_points]. split; [|split; [|exact L2]].
      + rewrite L0, K2, K3, K0. reflexivity.
      + intros i. rewrite L1, K1. reflexivity.
  Qed.

  (** ** Opening the masked point *)
  Lemma point_from_xy_ok (x y : F) (p : C) : xy p = Some (x, y) -> point_from_xy (M := M) x y 0 = Ret p.
  Proof.
    intros Hp. unfold point_from_xy. rewrite to_uint_zero. cbn.
    destruct (feqb 0 rone) eqn:E; [apply feqb_spec in E; symmetry in E; contradiction (f_1_neq_0 E)|].
    apply of_xy_spec in Hp. rewrite Hp. reflexivity.
  Qed.
  Definition opened_share (i : pid) (k : C * C) (q : C) : share C :=
    match i with P0 => mkShare q (- snd k) | P1 => mkShare (- fst k) q | P2 => mkShare (- snd k) (- fst k) end.
  Lemma opened_shares k p : shares (fun i => opened_share i k (p + (fst k + snd k))) p.
  Proof. eapply shares_intro; try reflexivity. grp. Qed.
  Lemma f2p_open_wp k zx zy zi x y q : shares zx x -> shares zy y -> shares zi 0 -> xy q = Some (x, y) ->
    wp (M := M) cap (fun i => f2p_open i (key_share i k) (zx i) (zy i) (zi i)) (fun r => forall i, r i = opened_share i k q).
  Proof.
    intros (a0 & a1 & a2 & -> & Ea0 & Ea1 & Ea2)%shares_elim (b0 & b1 & b2 & -> & Eb0 & Eb1 & Eb2)%shares_elim
      (c0 & c1 & c2 & Ec & Ec0 & Ec1 & Ec2)%shares_elim Hq.
    exists (fun i => opened_share i k q). split; [|intros i; reflexivity].
    apply runs_comp3. unfold f2p_open, send_next_many, recv_prev_many, send_many, recv_many.
    rewrite Ea0, Ea1, Ea2, Eb0, Eb1, Eb2, Ec0, Ec1, Ec2. cbn [bind next prev sa sb]. repeat step3 cap_pos.
    replace (a0 + a2 + a1) with (a0 + a1 + a2) by grp. replace (b0 + b2 + b1) with (b0 + b1 + b2) by grp. replace (c0 + c2 + c1) with (c0 + c1 + c2) by grp.
    replace (a1 + a0 + a2) with (a0 + a1 + a2) by grp. replace (b1 + b0 + b2) with (b0 + b1 + b2) by grp. replace (c1 + c0 + c2) with (c0 + c1 + c2) by grp.
    rewrite <- Ec. rewrite !(point_from_xy_ok _ Hq). cbn [bind]. apply comp3_ret_eq; reflexivity.
  Qed.

  (** the point that is revealed *)
  Definition shown (c : F * F * bool) (m : F * F) : F * F :=
    (pa_x (fst c) m + rmul (bitval (snd c)) (fst m - pa_x (fst c) m), pa_y (fst c) m + rmul (bitval (snd c)) (snd m - pa_y (fst c) m)).
  Lemma shown_ok (p m : C) c : coord_of p c -> m <> 0 -> fst (coords m) <> fst (fst c) -> xy (p + m) = Some (shown c (coords m)).
  Proof.
    unfold coord_of, shown. destruct c as [c b]. cbn [fst snd]. intros Hc Hm Hx. destruct b; cbn [bitval].
    - apply xy_none in Hc. subst p. replace (0 + m) with m by grp. rewrite (coords_xy Hm). f_equal.
      rewrite (surjective_pairing (coords m)) at 1. f_equal; ring.
    - rewrite (xy_chord _ _ Hc (coords_xy Hm)) by congruence. rewrite <- pa_chord by congruence. f_equal. f_equal; ring.
  Qed.
  Lemma not_same c (m : F * F) : fst m <> fst c -> same_x c m = false.
  Proof. intros Hn. unfold same_x. destruct (feqb (fst c) (fst m)) eqn:E; [|reflexivity]. apply feqb_spec in E. congruence. Qed.

  Lemma f2p_ok st x y inf c p : synced st -> shares x (fst (fst c)) -> shares y (snd (fst c)) -> shares inf (bitval (snd c)) ->
    coord_of p c -> mask_point st <> 0 -> fst (coords (mask_point st)) <> fst (fst c) ->
    wpf cap inv_err (fun i => fieldshares_to_pointshare W du a2b i (st i) (x i) (y i) (inf i))
      (fun r => shares (fun i => fst (r i)) p /\ synced (fun i => snd (r i))).
  Proof.
    intros Hs Hx Hy Hi Hp Hm Hd. unfold fieldshares_to_pointshare. cbv zeta.
    destruct (masking_ok (G := F) Hs) as [Mx Hs1]. destruct (masking_ok (G := F) Hs1) as [My Hs2].
    apply wpf_bind. eapply wp_mono; [|exact (f2p_keys_wp Hs2)]. intros k (kk & K0 & K1 & _ & _ & K4).
    change (mask_point (fun i => snd (masking (G := F) (snd (masking (G := F) (st i)))))) with (mask_point st) in K0.
    set (rx := fun i => fst (masking (G := F) (st i))) in *. set (ry := fun i => fst (masking (G := F) (snd (masking (G := F) (st i))))) in *.
    set (ax := fun i => fst (key_coord i kk) + rx i). set (ay := fun i => snd (key_coord i kk) + ry i).
    eapply wpf_ext; [intros i; rewrite K1; cbn [fst snd]; change (fst (masking (G := F) (st i))) with (rx i);
      change (fst (masking (G := F) (snd (masking (G := F) (st i))))) with (ry i); fold (ax i) (ay i); reflexivity|].
    assert (Ax : additive ax (fst (coords (mask_point st)))).
    { unfold additive, ax in *. cbn. rewrite K0.
      replace (0 + rx P0 + (0 + rx P1) + (fst (coords (mask_point st)) + rx P2)) with (fst (coords (mask_point st)) + (rx P0 + rx P1 + rx P2)) by grp.
      rewrite Mx. grp. }
    assert (Ay : additive ay (snd (coords (mask_point st)))).
    { unfold additive, ay in *. cbn. rewrite K0.
      replace (0 + ry P0 + (0 + ry P1) + (snd (coords (mask_point st)) + ry P2)) with (snd (coords (mask_point st)) + (ry P0 + ry P1 + ry P2)) by grp.
      rewrite My. grp. }
    apply wpf_bind. apply wp_reshare_many with (x := fun i => [ax i; ay i]); [exact cap_pos|].
    pose proof (additive_reshared Ax) as Yx. pose proof (additive_reshared Ay) as Yy.
    apply wpf_seq. eapply wpf_mono; [|exact (point_addition_ok W du cap_pos a2b a2b_ok (fst c) (coords (mask_point st)) K4 Hx Hy Yx Yy)].
    intros z (Z1 & Z2 & Z3 & Z4). rewrite not_same in Z3 by exact Hd. cbn [bitval] in Z3.
    apply wpf_wp. apply wp_bind.
    assert (V1 : shares_vec (fun i => [mkShare (ax i) (ax (prev i)); mkShare (ay i) (ay (prev i))]) [fst (coords (mask_point st)); snd (coords (mask_point st))]).
    { refine (pvec_cons _ _ _ (fun i => eq_refl) Yx (pvec_cons _ _ _ (fun i => eq_refl) Yy _)). apply pvec_nil. reflexivity. }
    assert (V2 : shares_vec (fun i => [fst (fst (fst (z i))); snd (fst (fst (z i)))]) [pa_x (fst c) (coords (mask_point st)); pa_y (fst c) (coords (mask_point st))]).
    { refine (pvec_cons _ _ _ (fun i => eq_refl) Z1 (pvec_cons _ _ _ (fun i => eq_refl) Z2 _)). apply pvec_nil. reflexivity. }
    eapply wp_mono; [|exact (cmux_vec_wp cap_pos Z4 Hi V1 V2)]. intros q [Q1 Q2]. cbn [map2] in Q1.
    destruct (pvec_cons_inv Q1) as (cx & q1 & Eq & Cx & Q1').
    destruct (pvec_cons_inv Q1') as (cy & q2 & Eq' & Cy & Q1''). pose proof (pvec_nil_inv Q1'') as En.
    eapply wp_ext; [intros i; rewrite (Eq i), (Eq' i), (En i); reflexivity|]. cbv iota beta.
    apply wp_bind. eapply wp_mono; [|refine (f2p_open_wp kk _ Cx Cy Z3 _); exact (shown_ok Hp Hm Hd)].
    intros r Hr. apply wp_ret. cbn [fst snd]. split; [|exact Q2].
    eapply shares_ext; [|exact (opened_shares kk p)]. intros i. rewrite Hr, K0. reflexivity.
  Qed.

  (** ** Batches *)
  (** one element: the point, its coordinates and flag, and the two parts of the mask *)
  Notation item := (C * (F * F * bool) * (C * C))%type.
  Definition itp (t : item) : C := fst (fst t).
  Definition itc (t : item) : F * F * bool := snd (fst t).
  Definition itk (t : item) : C * C := snd t.
  Definition itm (t : item) : C := fst (itk t) + snd (itk t).
  Definition good (t : item) : Prop := coord_of (itp t) (itc t) /\ itm t <> 0 /\ fst (coords (itm t)) <> fst (fst (itc t)).
  Lemma items ps cs l : Forall2 coord_of ps cs ->
    Forall2 (fun c m => m <> 0 /\ fst (coords m) <> fst (fst c)) cs (map (fun k : C * C => fst k + snd k) l) ->
    exists ts : list item, ps = map itp ts /\ cs = map itc ts /\ l = map itk ts /\ Forall good ts.
  Proof.
    intros Hp. revert l. induction Hp as [|p c ps cs Hpc Hp IH]; intros l Hl; inversion Hl as [|c' m cs' ms Hm Hl' E1 E2]; subst.
    - destruct l; [|discriminate]. exists []. cbn. auto.
    - destruct l as [|k l]; [discriminate|]. cbn in E2. injection E2 as -> ->.
      destruct (IH l Hl') as (ts & -> & -> & -> & Hg). exists ((p, c, k) :: ts). cbn. repeat split; try reflexivity.
      constructor; [|exact Hg]. split; [exact Hpc|]. exact Hm.
  Qed.
  Lemma mask_additive (f : F * F -> F) (Hf : f (0, 0) = 0) : forall (ts : list item) (m : pid -> list F), additive_vec m (repeat 0 (length ts)) ->
    additive_vec (fun i => map2 (fun k r => f (snd k) + r) (map (fun k => (key_share i k, key_coord i k)) (map itk ts)) (m i))
      (map (fun t => f (coords (itm t))) ts).
  Proof.
    induction ts as [|t ts IH]; intros m Hm.
    - apply pvec_nil. intros i. reflexivity.
    - destruct (pvec_cons_inv Hm) as (h & q & E & Hh & Hq).
      refine (pvec_cons (fun i => f (key_coord i (itk t)) + h i) _ _ _ _ (IH q Hq)).
      + intros i. rewrite E. reflexivity.
      + unfold additive in *. cbn. rewrite Hf.
        replace (0 + h P0 + (0 + h P1) + (f (coords (fst (itk t) + snd (itk t))) + h P2)) with (f (coords (fst (itk t) + snd (itk t))) + (h P0 + h P1 + h P2)) by grp.
        rewrite Hh. unfold itm. grp.
  Qed.
  Lemma opened_sum (z : pid -> list (share F)) vs : shares_vec z vs ->
    forall i, map2 gadd (map2 gadd (map sa (z i)) (map sb (z i))) (map sb (z (prev i))) = vs.
  Proof.
    revert z. induction vs as [|v vs IH]; intros z Hz i.
    - rewrite !(pvec_nil_inv Hz). reflexivity.
    - destruct (pvec_cons_inv Hz) as (h & t & E & Hh & Ht). rewrite !E. cbn [map map2]. rewrite (IH t Ht). apply f_equal2; [|reflexivity].
      destruct (shares_elim Hh) as (a0 & a1 & a2 & -> & E0 & E1 & E2). destruct i; cbn; rewrite ?E0, ?E1, ?E2; cbn; grp.
  Qed.
  Lemma f2p_points_ok (ts : list item) : Forall good ts ->
    f2p_points (M := M) (map (fun t => (fst (shown (itc t) (coords (itm t))), (snd (shown (itc t) (coords (itm t))), 0))) ts)
      = Ret (map (fun t => itp t + itm t) ts).
  Proof.
    induction 1 as [|t ts (G1 & G2 & G3) _ IH]; cbn [map f2p_points]; [reflexivity|].
    pose proof (shown_ok G1 G2 G3) as E. rewrite (surjective_pairing (shown _ _)) in E.
    rewrite (point_from_xy_ok _ E). cbn [bind]. rewrite IH. reflexivity.
  Qed.
  Lemma f2p_open_many_wp (ts : list item) zx zy zi : Forall good ts ->
    shares_vec zx (map (fun t => fst (shown (itc t) (coords (itm t)))) ts) ->
    shares_vec zy (map (fun t => snd (shown (itc t) (coords (itm t)))) ts) ->
    shares_vec zi (map (fun _ => 0) ts) ->
    wp (M := M) cap (fun i => f2p_open_many (length ts) i (map (fun t => key_share i (itk t)) ts) (zx i) (zy i) (zi i))
      (fun r => forall i, r i = map (fun t => opened_share i (itk t) (itp t + itm t)) ts).
  Proof.
    intros Hg Hx Hy Hi. exists (fun i => map (fun t => opened_share i (itk t) (itp t + itm t)) ts). split; [|reflexivity].
    pose proof (pvec_app Hx (pvec_app Hy Hi)) as Hz. pose proof (opened_sum Hz) as O. pose proof (fun i => pvec_len i Hz) as Lz.
    rewrite !app_length, !map_length in Lz.
    apply runs_comp3. unfold f2p_open_many, send_next_many, recv_prev_many, send_many, recv_many. cbn [bind next prev].
    repeat step3 cap_pos. rewrite <- !map_app, !map_length, !Lz.
    replace (length ts + (length ts + length ts) =? 3 * length ts)%nat with true by (symmetry; apply Nat.eqb_eq; lia).
    pose proof (O P0) as O0. pose proof (O P1) as O1. cbn [prev] in O0, O1. rewrite O0, O1.
    rewrite !firstn_len, !skipn_len, !firstn_len by (rewrite map_length; reflexivity).
    rewrite !map2_tab, !(f2p_points_ok Hg). cbn [bind]. rewrite !map2_tab. apply comp3_ret_eq; reflexivity.
  Qed.
  Lemma f2p_many_ok st x y inf cs ps : synced st ->
    shares_vec x (map (fun c => fst (fst c)) cs) -> shares_vec y (map (fun c => snd (fst c)) cs) -> shares_vec inf (map (fun c => bitval (snd c)) cs) ->
    Forall2 coord_of ps cs ->
    Forall2 (fun c m => m <> 0 /\ fst (coords m) <> fst (fst c)) cs (mask_points (length cs) (bc1 (st P2)) (bc2 (st P2))) ->
    wpf cap inv_err (fun i => fieldshares_to_pointshare_many W du drawv i (st i) (x i) (y i) (inf i))
      (fun r => shares_vec (fun i => fst (r i)) ps /\ synced (fun i => snd (r i))).
  Proof.
    intros Hs Hx Hy Hi Hp Hm. unfold fieldshares_to_pointshare_many.
    eapply wpf_ext; [intros i; rewrite (pvec_len i Hx), (pvec_len i Hi), !map_length; reflexivity|]. cbv zeta.
    destruct (masking_vec_bytes_ok drawv drawv_len (length cs) Hs) as [Mx Hs1].
    destruct (masking_vec_bytes_ok drawv drawv_len (length cs) Hs1) as [My Hs2].
    apply wpf_bind. eapply wp_mono; [|exact (f2p_keys_many_wp (length cs) Hs2)]. intros k (l & K0 & K1 & K4).
    cbn [bc1 bc2 snd masking_vec_bytes set_rand] in K0. rewrite <- K0 in Hm.
    destruct (@items ps cs l Hp Hm) as (ts & -> & Ec & -> & Hg). subst cs. rewrite map_length in *. rewrite map_map in Hx, Hy, Hi. clear Hm Hp K0.
    set (rx := fun i => fst (masking_vec_bytes drawv (length ts) (st i))) in *.
    set (ry := fun i => fst (masking_vec_bytes drawv (length ts) (snd (masking_vec_bytes drawv (length ts) (st i))))) in *.
    pose proof (@mask_additive fst eq_refl ts rx Mx) as Ax. pose proof (@mask_additive snd eq_refl ts ry My) as Ay.
    set (ax := fun i => map2 (fun k r => fst (snd k) + r) (map (fun k => (key_share i k, key_coord i k)) (map itk ts)) (rx i)) in *.
    set (ay := fun i => map2 (fun k r => snd (snd k) + r) (map (fun k => (key_share i k, key_coord i k)) (map itk ts)) (ry i)) in *.
    eapply wpf_ext; [intros i; rewrite K1; cbn [fst snd]; change (fst (masking_vec_bytes drawv (length ts) (st i))) with (rx i);
      change (fst (masking_vec_bytes drawv (length ts) (snd (masking_vec_bytes drawv (length ts) (st i))))) with (ry i); fold (ax i) (ay i);
      rewrite !map_map; cbn [fst]; reflexivity|].
    apply wpf_bind. apply wp_reshare_many with (x := fun i => [ax i; ay i]); [exact cap_pos|].
    eapply wpf_ext; [intros i; rewrite (pvec_len (prev i) Ax), (pvec_len (prev i) Ay), !map_length, !Nat.ltb_irrefl; reflexivity|]. cbn [orb].
    pose proof (additive_vec_reshared Ax) as Yx. pose proof (additive_vec_reshared Ay) as Yy.
    set (zs := map (fun t : item => (fst (itc t), coords (itm t))) ts).
    apply wpf_seq. eapply wpf_mono; [|refine (point_addition_many_ok du cap_pos width zs K4 _ _ _ _); unfold zs; rewrite map_map; [exact Hx|exact Hy|exact Yx|exact Yy]].
    intros z (Z1 & Z2 & Z3 & Z4). unfold zs in Z1, Z2, Z3. rewrite map_map in Z1, Z2, Z3. cbn [fst snd] in Z1, Z2, Z3.
    assert (Z3' : shares_vec (fun i => snd (fst (z i))) (map (fun _ : item => (0 : F)) ts)).
    { replace (map (fun _ : item => (0 : F)) ts) with (map (fun x : item => bitval (R := F) (same_x (fst (itc x)) (coords (itm x)))) ts); [exact Z3|].
      clear - Hg. induction Hg as [|t ts (G1 & G2 & G3) _ IH]; [reflexivity|]. cbn [map]. rewrite IH, not_same by exact G3. reflexivity. }
    clear Z3. apply wpf_wp. apply wp_bind.
    pose proof (vsub_ok _ _ _ Yx Z1) as D1. pose proof (vsub_ok _ _ _ Yy Z2) as D2.
    eapply wp_mono; [|exact (mul_vec_wp cap_pos Z4 (pvec_app Hi Hi) (pvec_app D1 D2))]. intros q [Q1 Q2].
    assert (E2 : forall A (a b c d : list A) (f : A -> A -> A), length a = length b -> map2 f (a ++ c) (b ++ d) = map2 f a b ++ map2 f c d).
    { clear. intros A. induction a as [|u a IH]; intros [|v b] c d f E; try discriminate; [reflexivity|]. cbn. rewrite IH by (cbn in E; lia). reflexivity. }
    rewrite E2, !map2_tab in Q1 by (rewrite !map_length; reflexivity).
    pose proof (pvec_firstn (length ts) Q1) as F1. rewrite firstn_len in F1 by (rewrite map_length; reflexivity).
    pose proof (pvec_skipn (length ts) Q1) as F2. rewrite skipn_len in F2 by (rewrite map_length; reflexivity).
    pose proof (vadd_ok _ _ _ F1 Z1) as G1. pose proof (vadd_ok _ _ _ F2 Z2) as G2.
    apply wp_bind. eapply wp_mono; [|refine (f2p_open_many_wp Hg _ _ Z3')].
    - intros r Hr. apply wp_ret. cbn [fst snd]. split; [|exact Q2]. eapply pvec_ext; [intros i; symmetry; exact (Hr i)|].
      apply pvec_tab. apply Forall_forall. intros t _. exact (opened_shares (itk t) (itp t)).
    - match type of G1 with shares_vec _ ?v => replace (map (fun t : item => fst (shown (itc t) (coords (itm t)))) ts) with v; [exact G1|] end.
      apply map_ext. intros t. unfold shown. cbn [fst]. change (@bmul F F F _ _ _ _) with (@rmul F _). ring.
    - match type of G2 with shares_vec _ ?v => replace (map (fun t : item => snd (shown (itc t) (coords (itm t)))) ts) with v; [exact G2|] end.
      apply map_ext. intros t. unfold shown. cbn [snd]. change (@bmul F F F _ _ _ _) with (@rmul F _). ring.
  Qed.
End PointBack.
