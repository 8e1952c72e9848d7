(** * Secrecy of dealt sharings: the view of a replicated party and of t Shamir parties *)
From Coq Require Import String List Arith Lia Bool Ring.
From Verif Require Import Proc Alg Rep3Net Rep3 Rep3Spec Rep3Proofs Secrecy ShamirPoly Shamir ShamirAlg.
Import ListNotations.
Set Implicit Arguments.
Local Open Scope grp_scope.

(** ** Replicated dealing (rep3.rs:281-292, 375-389) *)
Section Rep3View.
  Context {G : Type} {AG : AbGrp G}.
  Lemma share_elem_view (x : G) i (v : share G) : exists a b, share_elem x a b i = v /\
    forall a' b', share_elem x a' b' i = v -> a' = a /\ b' = b.
  Proof.
    destruct v as [p q]. destruct i.
    - exists p, (x - p - q). split; [cbn; f_equal; grp|]. intros a' b' E. cbn in E. injection E as <- E.
      split; [reflexivity|]. rewrite <- E. grp.
    - exists q, p. split; [reflexivity|]. intros a' b' E. cbn in E. injection E as <- <-. split; reflexivity.
    - exists (x - p - q), q. split; [cbn; f_equal; grp|]. intros a' b' E. cbn in E. injection E as E <-.
      split; [|reflexivity]. rewrite <- E. grp.
  Qed.
  Lemma share_view (x : G) i v : exists! r : tape G, length r = 2 /\ fst (Rep3.share_field_element x r) i = v.
  Proof.
    destruct (share_elem_view x i v) as (a & b & E & U). exists [a; b]. split; [split; [reflexivity|exact E]|].
    intros [|a' [|b' [|? ?]]] [L E']; try discriminate L. cbn in E'. destruct (U a' b' E') as [-> ->]. reflexivity.
  Qed.
  Lemma shares_view (xs : list G) i : forall vs, length vs = length xs ->
    exists! r : tape G, length r = (2 * length xs)%nat /\ fst (Rep3.share_field_elements xs r) i = vs.
  Proof.
    induction xs as [|x xs IH]; intros [|v vs] L; cbn [length] in L; try lia.
    - exists []. split; [split; reflexivity|]. intros [|? ?] [L' _]; [reflexivity|discriminate].
    - destruct (IH vs) as (r & [Lr Er] & Ur); [lia|].
      destruct (share_elem_view x i v) as (a & b & E & U). exists (a :: b :: r). split.
      + split; [cbn [length]; lia|]. cbn [Rep3.share_field_elements fst]. f_equal; [exact E|exact Er].
      + intros [|a' [|b' r']] [L' E']; cbn [length] in L'; try lia.
        cbn [Rep3.share_field_elements fst] in E'. injection E' as E1 E2. destruct (U a' b' E1) as [-> ->].
        rewrite (Ur r'); [reflexivity|]. split; [lia|exact E2].
  Qed.
End Rep3View.

(** ** Shamir dealing (shamir.rs:359-376, 227-246) *)
Section ShamirView.
  Context {F : Type} {FF : Fld F}.
  Add Ring FringV : (@cring_theory F _).
  Context {G : Type} {AG : AbGrp G} {MD : Mod F G}.

  Lemma draws_tape (h t : tape G) : draws (length h) (h ++ t) = (h, t).
  Proof. induction h as [|x h IH]; [reflexivity|]. cbn [length draws draw tape_draw app hd tl fst snd]. rewrite IH. reflexivity. Qed.
  Lemma draws_tape_all (r : tape G) n : length r = n -> draws n r = (r, []).
  Proof. intros <-. rewrite <- (app_nil_r r) at 2. apply draws_tape. Qed.

  (** what the parties with (zero-based) numbers [ids] hold *)
  Definition held (ids : list nat) (shares : list G) : list G := map (fun k => nth k shares 0) ids.
  Lemma held_share x n t (r : tape G) ids : length r = t -> (forall k, In k ids -> k < n) ->
    held ids (fst (sm_share x n t r)) = map (fun k => peval (x :: r) (fnat (S k) : F)) ids.
  Proof.
    intros L Hk. unfold held, sm_share. rewrite (draws_tape_all _ L). cbn [fst]. apply map_ext_in. intros k Hi.
    rewrite nth_indep with (d' := evaluate_poly (x :: r) (fnat O : F)) by (rewrite map_length, seq_length; auto).
    rewrite (map_nth (fun i => evaluate_poly (x :: r) (fnat i : F))).
    rewrite seq_nth by auto. apply evaluate_poly_ok.
  Qed.

  (** *** a translation of the coefficients that changes the secret and keeps the shares *)
  Lemma mask_poly (ids : list nat) t (d : G) : length ids <= t -> (forall k, In k ids -> fnat (S k) <> (0 : F)) ->
    exists c, length c = t /\ forall k, In k ids -> peval (d :: c) (fnat (S k) : F) = 0.
  Proof.
    intros L Hk.
    destruct (@zero_points_ok F _ (map S ids)) as (z & _ & Lz & Z0 & Zk).
    { intros j Hj. apply in_map_iff in Hj. destruct Hj as (k & <- & Hk'). auto. }
    rewrite map_length in Lz. destruct z as [|z0 z]; [discriminate|].
    cbn [length] in Lz. rewrite peval_0 in Z0. cbn in Z0. subst z0.
    exists (map (fun a => smul a d) z ++ repeat 0 (t - length ids)). split.
    { rewrite app_length, map_length, repeat_length. lia. }
    intros k Hi. pose proof (Zk (S k) (in_map S _ _ Hi)) as Ek.
    change (d :: map (fun a => smul a d) z ++ repeat 0 (t - length ids)) with ((d :: map (fun a => smul a d) z) ++ repeat 0 (t - length ids)).
    rewrite peval_pad. pose proof (peval_pouter (rone :: z) d (fnat (S k))) as E. unfold pouter in E. cbn [map] in E.
    rewrite smul_1 in E. rewrite E, Ek. apply smul_0_l.
  Qed.
  Lemma peval_shift (a b : list G) (x : F) : length a = length b -> peval (map2 gadd a b) x = peval a x + peval b x.
  Proof.
    revert b. induction a as [|p a IH]; intros [|q b] L; cbn [length] in L; try lia.
    - cbn. grp.
    - cbn [map2 peval]. rewrite IH by lia. rewrite smul_add_r. grp.
  Qed.
  Lemma map2_shift_inv (r c : list G) : length r = length c -> map2 gadd (map2 gadd r c) (map gneg c) = r.
  Proof.
    revert c. induction r as [|x r IH]; intros [|y c] L; cbn [length] in L; try lia; [reflexivity|].
    cbn [map2 map]. f_equal; [grp|apply IH; lia].
  Qed.
  Lemma map2_shift_inv' (r c : list G) : length r = length c -> map2 gadd (map2 gadd r (map gneg c)) c = r.
  Proof.
    revert c. induction r as [|x r IH]; intros [|y c] L; cbn [length] in L; try lia; [reflexivity|].
    cbn [map2 map]. f_equal; [grp|apply IH; lia].
  Qed.

  (** The view of at most [t] parties: a bijection of the random coefficients turns the secret
      [x] into [x'] and leaves the view as it is. *)
  Lemma sm_view x x' n t ids : length ids <= t -> (forall k, In k ids -> k < n /\ fnat (S k) <> (0 : F)) ->
    exists f g : tape G -> tape G, forall r, length r = t ->
      length (f r) = t /\ length (g r) = t /\ g (f r) = r /\ f (g r) = r /\
      held ids (fst (sm_share x n t r)) = held ids (fst (sm_share x' n t (f r))).
  Proof.
    intros L Hk. destruct (@mask_poly ids t (x' - x) L) as (c & Lc & Hc); [intros k Hi; apply Hk; exact Hi|].
    exists (fun r => map2 gadd r c), (fun r => map2 gadd r (map gneg c)). intros r Lr.
    assert (L1 : length (map2 gadd r c) = t) by (rewrite map2_length; lia).
    assert (L2 : length (map2 gadd r (map gneg c)) = t) by (rewrite map2_length, map_length; lia).
    split; [exact L1|]. split; [exact L2|]. split; [apply map2_shift_inv; lia|]. split; [apply map2_shift_inv'; lia|].
    rewrite !held_share by (try assumption; intros k Hi; apply Hk; exact Hi).
    apply map_ext_in. intros k Hi.
    replace (x' :: map2 gadd r c) with (map2 gadd (x :: r) ((x' - x) :: c)) by (cbn [map2]; f_equal; grp).
    rewrite peval_shift by (cbn [length]; lia). rewrite (Hc k Hi). grp.
  Qed.
  (** the same for a vector of secrets *)
  Definition held_vec (ids : list nat) (shares : list (list G)) : list (list G) := map (fun k => nth k shares []) ids.
  Lemma held_vec_each xs n t (r : tape G) ids : (forall k, In k ids -> k < n) ->
    held_vec ids (fst (share_field_elements xs t n r)) = map (fun k => map (fun s => nth k s 0) (fst (share_each xs t n r))) ids.
  Proof.
    intros Hk. unfold held_vec, share_field_elements. cbn [fst]. apply map_ext_in. intros k Hi.
    rewrite nth_indep with (d' := map (fun s => nth O s 0) (fst (share_each xs t n r))) by (rewrite map_length, seq_length; auto).
    rewrite (map_nth (fun i => map (fun s => nth i s 0) (fst (share_each xs t n r)))).
    rewrite seq_nth by auto. reflexivity.
  Qed.
  Lemma sm_share_app x n t (h r : tape G) : length h = t -> sm_share x n t (h ++ r) = (fst (sm_share x n t h), r).
  Proof. intros <-. unfold sm_share. rewrite draws_tape, (draws_tape_all h eq_refl). reflexivity. Qed.
  Lemma sm_view_vec xs n t ids : length ids <= t -> (forall k, In k ids -> k < n /\ fnat (S k) <> (0 : F)) ->
    forall xs', length xs' = length xs ->
    exists f g : tape G -> tape G, forall r, length r = (length xs * t)%nat ->
      length (f r) = (length xs * t)%nat /\ length (g r) = (length xs * t)%nat /\ g (f r) = r /\ f (g r) = r /\
      held_vec ids (fst (share_field_elements xs t n r)) = held_vec ids (fst (share_field_elements xs' t n (f r))).
  Proof.
    intros L Hk.
    induction xs as [|x xs IH]; intros [|x' xs'] Lx; cbn [length] in Lx; try lia.
    - exists (fun r => r), (fun r => r). intros r Lr. repeat split; exact Lr.
    - destruct (IH xs') as (f & g & Hfg); [lia|]. clear IH.
      destruct (@sm_view x x' n t ids L Hk) as (f1 & g1 & H1).
      exists (fun r => f1 (firstn t r) ++ f (skipn t r)), (fun r => g1 (firstn t r) ++ g (skipn t r)).
      intros r Lr. cbn [length] in Lr. cbv beta.
      assert (Lh : length (firstn t r) = t) by (rewrite firstn_length; lia).
      assert (Lt : length (skipn t r) = (length xs * t)%nat) by (rewrite skipn_length; lia).
      assert (Er : r = firstn t r ++ skipn t r) by (symmetry; apply firstn_skipn).
      set (h := firstn t r) in *. set (q := skipn t r) in *. clearbody h q. clear Lr. subst r.
      destruct (H1 h Lh) as (A1 & A2 & A3 & A4 & A5). destruct (Hfg q Lt) as (B1 & B2 & B3 & B4 & B5).
      assert (T : forall (p s : tape G), length p = t -> firstn t (p ++ s) = p /\ skipn t (p ++ s) = s).
      { intros p s <-. rewrite firstn_app, skipn_app, firstn_all, skipn_all, Nat.sub_diag. cbn. rewrite app_nil_r. split; reflexivity. }
      split; [rewrite app_length; cbn [length]; lia|]. split; [rewrite app_length; cbn [length]; lia|].
      split; [destruct (T (f1 h) (f q) A1) as [-> ->]; rewrite A3, B3; reflexivity|].
      split; [destruct (T (g1 h) (g q) A2) as [-> ->]; rewrite A4, B4; reflexivity|].
      assert (Hn : forall k, In k ids -> k < n) by (intros k Hi; apply Hk; exact Hi).
      rewrite !held_vec_each in * by exact Hn. cbn [share_each fst].
      rewrite !sm_share_app by assumption. cbn [fst snd].
      unfold held in A5. clear - A5 B5. revert A5 B5. 
      induction ids as [|k ids IH]; [reflexivity|]. cbn [map]. intros A5 B5.
      injection A5 as Ea A5. injection B5 as Eb B5. f_equal; [f_equal; assumption|apply IH; assumption].
  Qed.

  (** *** exactly [t] distinct parties: every view occurs for exactly one choice of coefficients *)
  Definition zeros (c : list G) : Prop := forall a, In a c -> a = 0.
  Lemma pquot_tl (c : list G) (a : F) : forall x, tl (pquot (x :: c) a) = pquot c a.
  Proof.
    induction c as [|y c IH]; intros x; [reflexivity|].
    cbn [pquot]. specialize (IH y). cbn [pquot] in IH. destruct c as [|z c]; [reflexivity|].
    remember (pquot (z :: c) a) as q eqn:Eq. cbn [pquot] in Eq.
    destruct (padd (z :: c) (map (smul a) q)) as [|p0 p] eqn:Ep.
    { assert (X := length_padd (z :: c) (map (smul a) q)). rewrite Ep in X. cbn [length] in X. lia. }
    cbn [tl] in IH. subst p. cbn [map]. change (padd (z :: c) (map (smul a) q) = p0 :: q). exact Ep.
  Qed.
  Lemma zeros_padd (c q : list G) : length q <= length c -> zeros (padd c q) -> zeros q -> zeros c.
  Proof.
    revert q. induction c as [|x c IH]; intros [|y q] L Hp Hq; cbn [length] in L; try lia; try exact Hp.
    cbn [padd] in Hp. intros a [<-|Ha].
    - specialize (Hp _ (or_introl eq_refl)). rewrite (Hq y (or_introl eq_refl)) in Hp. rewrite gadd_0_r in Hp. exact Hp.
    - refine (IH q _ _ _ a Ha); [lia|intros b Hb; apply Hp; right; exact Hb|intros b Hb; apply Hq; right; exact Hb].
  Qed.
  Lemma zeros_quot (c : list G) (a : F) : zeros (pquot c a) -> zeros (tl c).
  Proof.
    induction c as [|x c IH]; [intros _ b []|]. intros Hz. cbn [tl].
    assert (Hq : zeros (pquot c a)).
    { rewrite <- (pquot_tl c a x). intros b Hb. apply Hz. destruct (pquot (x :: c) a); [destruct Hb|right; exact Hb]. }
    cbn [pquot] in Hz. refine (zeros_padd _ _ Hz _).
    - rewrite map_length, length_pquot. lia.
    - intros b Hb. apply in_map_iff in Hb. destruct Hb as (b' & <- & Hb'). rewrite (Hq b' Hb'). apply smul_0_r.
  Qed.
  Lemma roots_zeros (xs : list F) : forall c : list G, NoDup xs -> length c <= length xs ->
    (forall a, In a xs -> peval c a = 0) -> zeros c.
  Proof.
    induction xs as [|a xs IH]; intros c Hn Hl Hr; cbn [length] in Hl.
    - destruct c; [intros b []|cbn in Hl; lia].
    - inversion Hn as [|? ? Hni Hn']; subst.
      assert (Hq : zeros (pquot c a)).
      { apply IH; [exact Hn'|rewrite length_pquot; lia|]. intros b Hb.
        assert (Hne : b <> a) by (intros ->; contradiction).
        apply (@finv_smul F G _ _ _ (b - a)); [apply fsub_neq; exact Hne|].
        pose proof (peval_pquot c a b) as E. rewrite (Hr b (or_intror Hb)), (Hr a (or_introl eq_refl)), gadd_0_r in E. symmetry. exact E. }
      apply zeros_quot in Hq. destruct c as [|c0 c]; [intros b []|]. cbn [tl] in Hq.
      intros b [<-|Hb]; [|exact (Hq b Hb)].
      pose proof (Hr a (or_introl eq_refl)) as E. cbn [peval] in E.
      assert (Z : peval c a = 0).
      { clear - Hq. induction c as [|y c IH]; [reflexivity|]. cbn [peval]. rewrite (Hq y (or_introl eq_refl)), IH, smul_0_r, gadd_0; [reflexivity|].
        intros b Hb. apply Hq. right. exact Hb. }
      rewrite Z, smul_0_r, gadd_0_r in E. exact E.
  Qed.
  Lemma coeffs_unique (xs : list F) (c d : list G) : NoDup xs -> length c = length xs -> length d = length xs ->
    (forall a, In a xs -> peval c a = peval d a) -> c = d.
  Proof.
    intros Hn Lc Ld Hr.
    assert (Z : zeros (map2 gadd c (map gneg d))).
    { apply (@roots_zeros xs _ Hn); [rewrite map2_length, map_length; lia|]. intros a Ha.
      rewrite peval_shift by (rewrite map_length; lia). rewrite peval_map_neg, (Hr a Ha). grp. }
    assert (L : length c = length d) by lia. clear - Z L. revert d L Z.
    induction c as [|x c IH]; intros [|y d] L Z; cbn [length] in L; try lia; [reflexivity|].
    cbn [map map2] in Z. f_equal.
    - pose proof (Z _ (or_introl eq_refl)) as E. replace x with (x + - y + y) by grp. rewrite E. grp.
    - apply IH; [lia|]. intros b Hb. apply Z. right. exact Hb.
  Qed.
  Lemma sm_view_unique x n t ids (v : list G) : length ids = t -> length v = t ->
    NoDup (map fnat (O :: map S ids) : list F) -> (forall k, In k ids -> k < n) ->
    exists! r : tape G, length r = t /\ held ids (fst (sm_share x n t r)) = v.
  Proof.
    intros Li Lv Hn Hk. set (ps := (O :: map S ids)%list) in *.
    assert (Lp : length (map (fnat (F := F)) ps) = S t) by (unfold ps; cbn [map length]; rewrite !map_length; lia).
    pose proof (lag_basis Hn) as B.
    set (vals := x :: v).
    set (c := psum (S t) (fun k => pouter (lag_poly (F := F) ps (nth k ps O)) (nth k vals 0))).
    assert (Ec : forall j, j < S t -> peval c (nth j (map fnat ps) 0 : F) = nth j vals 0).
    { intros j Hj. unfold c. rewrite peval_psum.
      transitivity (sumn (length (map (fnat (F := F)) ps)) (fun k => smul (peval (lag_poly (F := F) ps (nth k ps O)) (nth j (map fnat ps) 0)) (nth k vals 0))).
      - rewrite Lp. apply sumn_ext. intros k Hk'. apply peval_pouter.
      - apply (interp_points (fun k => nth k vals 0) B). lia. }
    assert (Lc : length c <= S t).
    { unfold c. apply length_psum. intros k Hk'. unfold pouter. rewrite map_length. rewrite <- Lp. apply B. lia. }
    set (c' := (c ++ repeat 0 (S t - length c))%list).
    assert (Lc' : length c' = S t) by (unfold c'; rewrite app_length, repeat_length; lia).
    assert (Ec' : forall j, j < S t -> peval c' (nth j (map fnat ps) 0 : F) = nth j vals 0).
    { intros j Hj. unfold c'. rewrite peval_pad. apply Ec. exact Hj. }
    clearbody c'. clear c Ec Lc.
    destruct c' as [|c0 r]; [discriminate|]. cbn [length] in Lc'.
    assert (E0 : c0 = x).
    { pose proof (Ec' O ltac:(lia)) as E. cbn [ps map nth vals] in E. cbn [fnat] in E. rewrite peval_0 in E. exact E. }
    subst c0.
    assert (Hh : forall r' : tape G, length r' = t -> (held ids (fst (sm_share x n t r')) = v <-> r' = r)).
    { intros r' Lr'. rewrite (@held_share x n t r' ids Lr' Hk). split.
      - intros Ev. assert (Ex : x :: r' = x :: r); [|congruence].
        apply (@coeffs_unique (map (fnat (F := F)) ps) _ _ Hn); [cbn [length]; lia|cbn [length]; lia|].
        intros a Ha. apply In_nth with (d := 0) in Ha. destruct Ha as (j & Hj & <-).
        rewrite Ec' by lia. destruct j as [|j].
        + cbn [ps map nth fnat vals]. rewrite peval_0. reflexivity.
        + cbn [vals nth]. rewrite <- Ev. cbn [ps map nth]. rewrite map_map.
          assert (Hj' : j < length ids) by lia.
          rewrite nth_indep with (d' := fnat (S O) : F) by (rewrite map_length; exact Hj').
          rewrite (map_nth (fun k => fnat (S k) : F)).
          rewrite nth_indep with (d' := peval (x :: r') (fnat (S O) : F)) by (rewrite map_length; exact Hj').
          rewrite (map_nth (fun k => peval (x :: r') (fnat (S k) : F))). reflexivity.
      - intros ->. apply nth_ext with (d := 0) (d' := 0); [rewrite map_length; lia|]. intros j Hj. rewrite map_length in Hj.
        pose proof (Ec' (S j) ltac:(lia)) as E. cbn [vals nth] in E. rewrite <- E. cbn [ps map nth]. rewrite map_map.
        rewrite nth_indep with (d' := peval (x :: r) (fnat (S O) : F)) by (rewrite map_length; exact Hj).
        rewrite (map_nth (fun k => peval (x :: r) (fnat (S k) : F))).
        rewrite (nth_indep (map (fun x0 => fnat (S x0)) ids) 0 (fnat (S O) : F)) by (rewrite map_length; exact Hj).
        rewrite (map_nth (fun k => fnat (S k) : F)). reflexivity. }
    exists r. split; [split; [lia|apply Hh; [lia|reflexivity]]|].
    intros r' [Lr' Er']. symmetry. apply (Hh r' Lr'). exact Er'.
  Qed.
End ShamirView.
