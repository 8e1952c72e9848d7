(** * Plonk: the run of the plain prover, and the verification of its proof *)
From Coq Require Import String List Arith Bool Lia Ring Permutation.
From Verif Require Import Proc Alg Rep3Net Rep3 ShamirPoly Shamir ShamirAlg Dft Groth16 Groth16Gen Groth16Complete Plonk PlonkPoly PlonkComplete PlonkQuot.
Import ListNotations.
Set Implicit Arguments.
Unset Strict Implicit.
Local Open Scope grp_scope.
Local Open Scope list_scope.

Section Mon.
  Lemma local_bind {A B} (p : prog Empty_set Empty_set A) (k : A -> prog Empty_set Empty_set B) : local (bind p k) = obd (local p) (fun a => local (k a)).
  Proof. destruct p as [a|e|[]|[]]; reflexivity. Qed.
  Lemma done_inj {A} (x y : A) : Done x = Done y -> x = y.
  Proof. congruence. Qed.
  Lemma local_leaf {A} (o : outcome A) : local (leaf o) = o.
  Proof. destruct o; reflexivity. Qed.
  Lemma obd_done {A B} (o : outcome A) (k : A -> outcome B) r : obd o k = Done r -> exists a, o = Done a /\ k a = Done r.
  Proof. destruct o as [a|e]; [|discriminate]. intros E. exists a. split; [reflexivity|exact E]. Qed.
  Lemma need_done {A} k (l : list A) u : need k l = Done u -> k <= length l.
  Proof. unfold need. destruct (Nat.leb_spec k (length l)); [auto|discriminate]. Qed.
  Lemma traverse_inv {A B} (f : A -> outcome B) : forall l r, traverse f l = Done r -> length r = length l /\ forall i a, nth_error l i = Some a -> exists b, nth_error r i = Some b /\ f a = Done b.
  Proof.
    induction l as [|a l IH]; intros r E; cbn in E; [injection E as <-; split; [reflexivity|intros [|i] x X; discriminate X]|].
    apply obd_done in E. destruct E as (b & Eb & E). apply obd_done in E. destruct E as (bs & Ebs & E). injection E as <-. destruct (IH _ Ebs) as (L & K).
    split; [cbn; lia|]. intros [|i] x X; cbn in *; [injection X as <-; eauto|]. apply K. exact X.
  Qed.
End Mon.
(** next step of a local program that ends well *)
Ltac lstep H a E := rewrite local_bind in H; apply obd_done in H; destruct H as (a & E & H); try rewrite local_leaf in E.
Ltac ostep H a E := apply obd_done in H; destruct H as (a & E & H).

Section Run.
  Context {F : Type} {FF : Fld F} {FT : Fft F}.
  Add Ring FringPR : (@cring_theory F _).
  Infix "*" := rmul : grp_scope.
  Notation "1" := rone : grp_scope.
  Context {G1 : Type} {AG1 : AbGrp G1} {MG1 : Mod F G1}.
  Notation D := (plain_pdriver (F := F) (G1 := G1)).
  Notation st0 := (list F * list (list F))%type.

  Lemma peval_resize n (c : list F) x : length c <= n -> peval (resize n 0 c) x = peval c x.
  Proof. intros L. unfold resize. rewrite firstn_all2 by exact L. apply peval_pad. Qed.
  Lemma rand_many_plain k : forall (st : st0) r, local (rand_many D k st) = Done r -> length (fst r) = k /\ snd (snd r) = snd st.
  Proof.
    induction k as [|k IH]; intros st r E; cbn [rand_many] in E; [injection E as <-; split; reflexivity|].
    lstep E x Ex. lstep E y Ey. injection E as <-. cbn [fst snd]. destruct (IH _ _ Ey) as (L & K). cbn [pd_rand D] in Ex. unfold plain_rand in Ex.
    cbn [plain_pdriver pd_rand] in Ex. rewrite local_leaf in Ex. destruct (fst st) as [|v l]; [discriminate|]. injection Ex as <-. cbn in *. split; [lia|exact K].
  Qed.

  Context (dm : domains F) (zk : zkey F G1) (gen1 : G1) (tau : F).
  Context (KO : key_ok dm gen1 tau zk) (DO : domain_ok dm (domain_size zk)) (full : list F).
  Let n := domain_size zk.
  Let w := dm_w dm.
  (** ** The values of the signals *)
  Section Signals.
    Context (pub wit : list F) (AS : assignment zk pub wit full) (pub0 : list F) (Hp : witness_new pub = Done pub0).
    (* round1.rs:194-224, additions: what has been computed so far agrees with the full assignment *)
    Definition partial_add (acc : list F) : Prop := forall j, j < length acc -> nth j acc 0 = nth (n_vars zk - n_additions zk + j) full 0.
    Lemma get_witness_ok acc idx x : partial_add acc -> get_witness D zk pub0 wit acc idx = Done x -> x = nth idx full 0.
    Proof.
      intros P E. unfold get_witness in E. destruct (Nat.leb_spec idx (n_public zk)) as [L|L].
      - destruct (nth_error pub0 idx) as [y|] eqn:Ey; [|discriminate]. injection E as <-. cbn. unfold witness_new in Hp. destruct pub as [|u p]; [discriminate|].
        injection Hp as <-. destruct idx as [|j]; [injection Ey as <-; symmetry; exact (as_zero AS)|].
        rewrite (as_pub AS) by lia. cbn in *. symmetry. apply nth_error_nth. exact Ey.
      - destruct (Nat.ltb_spec (n_vars zk) (n_additions zk)) as [|Lv]; [discriminate|].
        destruct (Nat.ltb_spec idx (n_vars zk - n_additions zk)) as [Li|Li].
        + destruct (nth_error wit (idx - n_public zk - 1)) as [y|] eqn:Ey; [|discriminate]. injection E as <-.
          pose proof (as_wit AS (j := (idx - n_public zk - 1)%nat) ltac:(lia)) as K. replace (n_public zk + 1 + (idx - n_public zk - 1))%nat with idx in K by lia.
          rewrite K. symmetry. apply nth_error_nth. exact Ey.
        + destruct (Nat.ltb_spec idx (n_vars zk)); [|discriminate]. destruct (nth_error acc _) as [y|] eqn:Ey; [|discriminate]. injection E as <-.
          assert (La : idx + n_additions zk - n_vars zk < length acc) by (apply nth_error_Some; congruence).
          rewrite <- (nth_error_nth _ _ 0 Ey), (P _ La). f_equal. lia.
    Qed.
    Lemma additions_ok : forall adds acc r, calculate_additions D zk pub0 wit adds acc = Done r -> partial_add acc ->
      (forall j ad, nth_error adds j = Some ad -> nth_error (additions zk) (length acc + j) = Some ad) -> partial_add r.
    Proof.
      induction adds as [|ad adds IH]; intros acc r E P K; cbn [calculate_additions] in E; [injection E as <-; exact P|].
      ostep E w1 E1. ostep E w2 E2. apply IH in E; [exact E| |].
      - intros j Lj. rewrite app_length in Lj. cbn in Lj. destruct (Nat.eq_dec j (length acc)) as [->|Nj].
        + rewrite app_nth2, Nat.sub_diag by lia. cbn [nth]. rewrite (get_witness_ok P E1), (get_witness_ok P E2).
          pose proof (K O ad eq_refl) as K0. rewrite Nat.add_0_r in K0. rewrite (as_add AS K0). reflexivity.
        + rewrite app_nth1 by lia. apply P. lia.
      - intros j a Ha. rewrite app_length. cbn. replace (length acc + 1 + j)%nat with (length acc + S j)%nat by lia. apply K. exact Ha.
    Qed.
    (** round1.rs:109-134 *)
    Lemma wire_ok add blind m buf pe : partial_add add -> compute_single_wire_poly D zk dm pub0 wit add blind m = Done (buf, pe) -> length m <= n ->
      exists p, length p = n /\ (forall i, i < n -> peval p (fpow w i) = cell_value full m i) /\ length buf = n /\ (forall i, i < n -> nth i buf 0 = cell_value full m i) /\
        pe_poly pe = blind_coefficients p blind /\ pe_eval pe = map (fun i => peval p (fpow (dm_w4 dm) i)) (seq 0 (n * 4)).
    Proof.
      intros P E Lm. unfold compute_single_wire_poly in E. ostep E ws Ew. injection E as <- <-. apply traverse_inv in Ew. destruct Ew as (Lw & Kw).
      fold n. rewrite (do_n DO). fold n w. set (buf := resize n 0 ws).
      assert (Lb : length buf = n) by apply resize_length.
      assert (Vb : forall i, i < n -> nth i buf 0 = cell_value full m i).
      { intros i Li. unfold buf. rewrite nth_resize by exact Li. unfold cell_value. destruct (nth_error m i) as [s|] eqn:Es.
        - destruct (Kw i s Es) as (x & Ex & Gx). rewrite (nth_error_nth _ _ 0 Ex). apply (get_witness_ok P Gx).
        - apply nth_overflow. rewrite Lw. apply nth_error_None. exact Es. }
      exists (idft w n (resize n 0 buf)). split; [apply idft_length|]. split.
      { intros i Li. rewrite idft_points by (try exact (do_w DO); try exact Li; apply resize_length). rewrite nth_resize by exact Li. apply Vb. exact Li. }
      split; [exact Lb|]. split; [exact Vb|]. cbn [pe_poly pe_eval]. split; [reflexivity|].
      unfold fft_dom, dft. apply map_ext_in. intros i _. unfold ifft_dom. rewrite peval_resize by (rewrite idft_length; lia). reflexivity.
    Qed.
  End Signals.

  (** ** The permutation *)
  Definition value (cell : nat) : F := cell_value full (nth (cell / n) (columns zk) []) (cell mod n).
  Lemma cell_div c i : i < n -> ((c * n + i) / n = c)%nat.
  Proof. intros L. rewrite Nat.add_comm, Nat.div_add by lia. rewrite Nat.div_small by exact L. reflexivity. Qed.
  Lemma cell_mod c i : i < n -> ((c * n + i) mod n = i)%nat.
  Proof. intros L. rewrite Nat.add_comm, Nat.mod_add by lia. apply Nat.mod_small. exact L. Qed.
  Context (FZ : nth 0 full 0 = 0) (beta gamma : F).
  Lemma cell_value_nth m i : cell_value full m i = nth (nth i m O) full 0.
  Proof. unfold cell_value. destruct (nth_error m i) as [s|] eqn:E; [rewrite (nth_error_nth _ _ O E); reflexivity|]. apply nth_error_None in E. rewrite (nth_overflow m) by exact E. symmetry. exact FZ. Qed.
  (* one factor of the product of round2.rs:96-180 *)
  Definition factor (cell : nat) : F := value cell + (beta * cell_label zk w cell + gamma).
  Lemma prodn_cells (f : nat -> F) : prodn n (fun i => f i * f (n + i)%nat * f (n + n + i)%nat) = lprod (map f (seq 0 (3 * n))).
  Proof. rewrite lprod_seq. replace (3 * n)%nat with (n + n + n)%nat by lia. rewrite !prodn_app, <- !prodn_mul. apply prodn_ext. intros k _. ring. Qed.
  Notation a_ i := (cell_value full (map_a zk) i).
  Notation b_ i := (cell_value full (map_b zk) i).
  Notation c_ i := (cell_value full (map_c zk) i).
  Notation num_ i := (num3 zk beta gamma (a_ i) (b_ i) (c_ i) (fpow w i)).
  Notation den_ i := (den3 zk beta gamma (a_ i) (b_ i) (c_ i) (fpow w i)).
  Lemma grand_product : prodn n (fun i => num_ i) = prodn n (fun i => den_ i).
  Proof.
    destruct (ko_perm KO) as (sigma & Pm & Ps & Pl). fold n in Pm, Ps, Pl. fold w in Pl.
    transitivity (lprod (map factor (seq 0 (3 * n)))).
    - rewrite <- prodn_cells. apply prodn_ext. intros i Li. unfold factor, value, cell_label, num3. fold n.
      pose proof (cell_div 0 Li) as D0. pose proof (cell_mod 0 Li) as M0. pose proof (cell_div 1 Li) as D1. pose proof (cell_mod 1 Li) as M1.
      pose proof (cell_div 2 Li) as D2. pose proof (cell_mod 2 Li) as M2. cbn [Nat.mul Nat.add] in D0, M0, D1, M1, D2, M2. rewrite Nat.add_0_r in D1, M1, D2, M2.
      rewrite D0, M0, D1, M1, D2, M2. cbn [nth columns]. ring.
    - transitivity (lprod (map (fun c => factor (sigma c)) (seq 0 (3 * n)))).
      + rewrite <- (map_map sigma factor). apply lprod_perm. apply Permutation_map. apply Permutation_sym. exact Pm.
      + rewrite <- prodn_cells. apply prodn_ext. intros i Li.
        assert (K : forall c, c < 3 -> factor (sigma (c * n + i)%nat) = cell_value full (nth c (columns zk) []) i + (beta * q (nth c [s1_poly zk; s2_poly zk; s3_poly zk] (mkPoly [] [])) (fpow w i) + gamma)).
        { intros c Lc. unfold factor. rewrite <- (Pl c i Lc Li). f_equal. assert (Lcell : c * n + i < 3 * n) by nia.
          pose proof (Ps _ Lcell) as S. unfold cell_signal in S. fold n in S. unfold value. rewrite !cell_value_nth, S, (cell_div c Li), (cell_mod c Li). reflexivity. }
        pose proof (K 0%nat ltac:(lia)) as K0. pose proof (K 1%nat ltac:(lia)) as K1. pose proof (K 2%nat ltac:(lia)) as K2.
        cbn [Nat.mul Nat.add] in K0, K1, K2. rewrite Nat.add_0_r in K1, K2. rewrite K0, K1, K2. cbn [nth columns]. unfold den3. ring.
  Qed.
  (** ** The product argument (round2.rs:96-193) *)
  Lemma nth_rotate (l : list F) : l <> [] -> nth 0 (rotate_right 0 l) 0 = nth (length l - 1) l 0 /\ forall i, S i < length l -> nth (S i) (rotate_right 0 l) 0 = nth i l 0.
  Proof.
    intros N. pose proof (app_removelast_last 0 N) as E. assert (L : length l = S (length (removelast l))) by (rewrite E at 1; rewrite app_length; cbn; lia).
    destruct l as [|x l]; [congruence|]. set (l' := x :: l) in *. unfold rotate_right. change (match l' with [] => [] | _ :: _ => last l' 0 :: removelast l' end) with (last l' 0 :: removelast l').
    cbn [nth]. split.
    - rewrite E at 3. rewrite L. rewrite app_nth2 by lia. replace (S (length (removelast l')) - 1 - length (removelast l'))%nat with O by lia. reflexivity.
    - intros i Li. rewrite E at 2. rewrite app_nth1 by lia. reflexivity.
  Qed.
  Lemma rotate_length (l : list F) : length (rotate_right 0 l) = length l.
  Proof.
    destruct l as [|x l]; [reflexivity|]. assert (N : x :: l <> []) by discriminate. pose proof (f_equal (@length F) (app_removelast_last 0 N)) as E.
    rewrite app_length in E. cbn [length] in *. unfold rotate_right. cbn [length]. lia.
  Qed.
  Lemma finv_prod (a b : F) : a * b <> 0 -> finv (a * b) * b = finv a.
  Proof.
    intros N. assert (Na : a <> 0) by (intro E; apply N; rewrite E; ring). apply (@fcancel F _ _ _ a Na). rewrite finv_l by exact Na.
    transitivity (finv (a * b) * (a * b)); [ring|]. apply finv_l. exact N.
  Qed.
  Lemma z_values (nm dn : list F) : length nm = n -> length dn = n -> 0 < n ->
    (forall i, i < n -> nth i nm 0 = prodn (S i) (fun i => num_ i)) ->
    (forall i, i < n -> prodn (S i) (fun i => den_ i) <> 0 /\ nth i dn 0 = finv (prodn (S i) (fun i => den_ i))) ->
    let z := rotate_right 0 (map2 rmul nm dn) in
    nth 0 z 0 = 1 /\ forall i, i < n -> nth (S i mod n) z 0 * den_ i = nth i z 0 * num_ i.
  Proof.
    intros Ln Ld Pn En Ed. cbv zeta. set (l := map2 rmul nm dn). assert (Ll : length l = n) by (unfold l; rewrite map2_length; lia).
    assert (Vl : forall i, i < n -> nth i l 0 = prodn (S i) (fun i => num_ i) * finv (prodn (S i) (fun i => den_ i))).
    { intros i Li. unfold l. rewrite (@nth_map2 _ _ _ rmul nm dn i 0 0 0) by lia. rewrite En, (proj2 (Ed i Li)) by exact Li. reflexivity. }
    destruct (@nth_rotate l) as (R0 & RS); [intro E; rewrite E in Ll; cbn in Ll; lia|]. rewrite Ll in R0, RS.
    assert (Z0 : nth 0 (rotate_right 0 l) 0 = 1).
    { rewrite R0, Vl by lia. replace (S (n - 1)) with n by lia. rewrite grand_product. apply finv_r. pose proof (proj1 (Ed (n - 1)%nat ltac:(lia))) as K. replace (S (n - 1)) with n in K by lia. exact K. }
    set (zi k := prodn k (fun i => num_ i) * finv (prodn k (fun i => den_ i))).
    assert (F1 : finv (1 : F) = 1). { apply (@fcancel F _ _ _ 1 f_1_neq_0). rewrite finv_l by apply f_1_neq_0. ring. }
    assert (Zi : forall i, i < n -> nth i (rotate_right 0 l) 0 = zi i).
    { intros [|i] Li; [rewrite Z0; unfold zi; cbn; rewrite F1; ring|]. rewrite RS, Vl by lia. reflexivity. }
    assert (Zn : zi n = 1).
    { unfold zi. rewrite grand_product. apply finv_r. pose proof (proj1 (Ed (n - 1)%nat ltac:(lia))) as K. replace (S (n - 1)) with n in K by lia. exact K. }
    split; [exact Z0|]. intros i Li. rewrite (Zi i Li). assert (Zs : nth (S i mod n) (rotate_right 0 l) 0 = zi (S i)).
    { destruct (Nat.eq_dec (S i) n) as [E|E].
      - rewrite E, Nat.mod_same by lia. rewrite Z0, Zn. reflexivity.
      - rewrite Nat.mod_small by lia. apply Zi. lia. }
    rewrite Zs. unfold zi. pose proof (proj1 (Ed i Li)) as Nd. cbn [prodn] in *.
    transitivity (prodn i (fun i => num_ i) * num_ i * (finv (prodn i (fun i => den_ i) * den_ i) * den_ i)); [ring|]. rewrite finv_prod by exact Nd. ring.
  Qed.
  Lemma w_next i : fpow w i * w = fpow w (S i mod n).
  Proof.
    pose proof (root_pos (do_w DO)) as Lp. fold n in Lp. transitivity (fpow w (S i)); [cbn; ring|]. rewrite (Nat.div_mod (S i) n) at 1 by lia.
    rewrite fpow_add, (fpow_mul w n). pose proof (root_n (do_w DO)) as E. fold n w in E. rewrite E, fpow_1. ring.
  Qed.
  Notation tab f := (map f (seq 0 (n * 4))).
  Notation w4 := (dm_w4 dm).
  Lemma compute_z_ok bs W l r0 r1 pe st : local (compute_z D zk dm bs beta gamma W (l, [r0; r1])) = Done (pe, st) ->
    (forall i, i < n -> nth i (buffer_a W) 0 = a_ i) -> (forall i, i < n -> nth i (buffer_b W) 0 = b_ i) -> (forall i, i < n -> nth i (buffer_c W) 0 = c_ i) ->
    exists p, length p = n /\ peval p 1 = 1 /\
      (forall i, i < n -> peval p (fpow w i * w) * den_ i = peval p (fpow w i) * num_ i) /\
      pe_poly pe = blind_coefficients p (firstn 3 (skipn 6 bs)) /\ pe_eval pe = tab (fun i => peval p (fpow w4 i)) /\ st = (l, []).
  Proof.
    intros E Va Vb Vc. unfold compute_z in E. fold n in E. cbv zeta in E.
    lstep E u1 N1. lstep E u2 N2. lstep E u3 N3. lstep E f0 Ef0. cbn [pd_fork plain_pdriver snd fst] in Ef0. injection Ef0 as <-. cbn [fst snd] in E.
    lstep E f1 Ef1. cbn [pd_fork plain_pdriver snd fst] in Ef1. injection Ef1 as <-. cbn [fst snd] in E.
    lstep E nm En. lstep E dn Ed. lstep E bz Eb. cbn [pd_array_prod_mul pd_mul_vec plain_pdriver] in *. rewrite local_leaf in En, Ed. injection Eb as <-. cbn [fst snd] in E.
    destruct (_ <? _)%nat; [discriminate|]. injection E as <- <-. rewrite (do_n DO). fold n w.
    apply plain_array_prod_ok in En; [|rewrite !map_length; reflexivity..]. apply plain_array_prod_ok in Ed; [|rewrite !map_length; reflexivity..].
    rewrite map_length, seq_length in En, Ed. destruct En as (Ln & Vn). destruct Ed as (Ld & Vd).
    assert (Pn : 0 < n) by exact (root_pos (do_w DO)).
    pose proof (ko_polys KO) as KP. rewrite Forall_forall in KP.
    assert (Es : forall p i, In p [s1_poly zk; s2_poly zk; s3_poly zk] -> i < n -> nth (i * 4) (evaluations p) 0 = q p (fpow w i)).
    { intros p i Ip Li. destruct (KP p) as (_ & _ & K); [cbn in *; tauto|]. rewrite K by (fold n; lia). unfold w. rewrite (w_pow DO). reflexivity. }
    set (z := rotate_right 0 (map2 rmul nm dn)).
    destruct (@z_values nm dn Ln Ld Pn) as (Z0 & ZS).
    { intros i Li. rewrite Vn by exact Li. apply prodn_ext. intros j Lj. rewrite !nth_map_seq by lia. cbn [pd_add_public plain_pdriver]. rewrite Va, Vb, Vc by lia. unfold num3. fold w. ring. }
    { intros i Li. destruct (Vd i Li) as (D1 & D2).
      match type of D1 with prodn _ ?f <> 0 => assert (ED : prodn (S i) f = prodn (S i) (fun i => den_ i)) end.
      { apply prodn_ext. intros j Lj. rewrite !nth_map_seq by lia. cbn [pd_add_public plain_pdriver]. rewrite Va, Vb, Vc by lia.
        rewrite !Es by (cbn; tauto || lia). unfold den3. ring. }
      rewrite ED in D1, D2. split; assumption. }
    fold z in Z0, ZS. assert (Lz : length z = n) by (unfold z; rewrite rotate_length, map2_length; lia).
    set (p := idft w n (resize n 0 z)). assert (Lp : length p = n) by apply idft_length.
    assert (Vp : forall i, i < n -> peval p (fpow w i) = nth i z 0).
    { intros i Li. unfold p. rewrite idft_points by (try exact (do_w DO); try exact Li; apply resize_length). apply nth_resize. exact Li. }
    exists p. split; [exact Lp|]. split; [exact (eq_trans (Vp O Pn) Z0)|]. split.
    { intros i Li. rewrite w_next, !Vp; [apply ZS; exact Li|exact Li|apply Nat.mod_upper_bound; lia]. }
    split; [reflexivity|]. split; [|reflexivity]. cbn [pe_eval]. unfold fft_dom, dft. apply map_ext_in. intros i _. unfold ifft_dom. fold z.
    rewrite peval_resize by (rewrite idft_length; lia). reflexivity.
  Qed.

  (** ** The quotient (round3.rs:246-502) *)
  Definition M4 (a b c d ap bp cp dp : list F) : list (list F) :=
    let a_b := map2 rmul a b in let a_bp := map2 rmul a bp in let ap_b := map2 rmul ap b in let ap_bp := map2 rmul ap bp in
    let c_d := map2 rmul c d in let c_dp := map2 rmul c dp in let cp_d := map2 rmul cp d in let cp_dp := map2 rmul cp dp in
    let plus x y acc := map2 gadd (map2 rmul x y) acc in
    [map2 rmul a_b c_d;
     plus a_b c_dp (plus a_b cp_d (plus a_bp c_d (map2 rmul ap_b c_d)));
     plus a_b cp_dp (plus a_bp c_dp (plus a_bp cp_d (plus ap_b c_dp (plus ap_b cp_d (map2 rmul ap_bp c_d)))));
     plus ap_bp cp_d (plus ap_bp c_dp (plus ap_b cp_dp (map2 rmul a_bp cp_dp)));
     map2 rmul ap_bp cp_dp].
  Lemma mul4vec_plain a b c d ap bp cp dp len l : local (mul4vec D a b c d ap bp cp dp len (l, [])) = Done (M4 a b c d ap bp cp dp, (l, [])).
  Proof. reflexivity. Qed.
  Lemma map2_tab {A B C} (f : A -> B -> C) (g : nat -> A) (h : nat -> B) l : map2 f (map g l) (map h l) = map (fun i => f (g i) (h i)) l.
  Proof. induction l as [|x l IH]; cbn; [reflexivity|]. rewrite IH. reflexivity. Qed.
  (** the products of four vectors given by functions *)
  Lemma M4_tab (a b c d a' b' c' d' : nat -> F) i : i < n * 4 ->
    let es := M4 (tab a) (tab b) (tab c) (tab d) (tab a') (tab b') (tab c') (tab d') in
    nth i (nth 0 es []) 0 = a i * b i * (c i * d i) /\
    mul4vec_post es i (dm_i dm) = quad4 (a i) (b i) (c i) (d i) (a' i) (b' i) (c' i) (d' i) (fpow (fpow w4 i) n - 1).
  Proof.
    intros Li. unfold M4. cbv zeta. rewrite !map2_tab. split; [cbn [nth]; rewrite nth_map_seq by exact Li; reflexivity|].
    unfold mul4vec_post. cbv zeta. cbn [nth]. rewrite !nth_map_seq by exact Li.
    pose proof (z1_ok DO i) as E1. pose proof (z2_ok DO i) as E2. pose proof (z3_ok DO i) as E3. cbv zeta in E2, E3. fold n in E1, E2, E3.
    destruct (Nat.eqb_spec (i mod 4) 0) as [Z|Z].
    - rewrite Z in E1. cbn [nth get_z1] in E1. unfold quad4. rewrite <- E1. ring.
    - rewrite E1, E2, E3. rewrite !smulF. unfold quad4. ring.
  Qed.
  Section Quotient.
    Context (GO : gates_ok zk (dm_w dm) full) (NP : 1 <= n_public zk).
    Context (alpha : F) (bs pA pB pC pZ : list F) (W : wires F) (z : poly_eval F).
    Context (LA : length pA = n) (LB : length pB = n) (LC : length pC = n) (LZ : length pZ = n) (Lbuf : length (buffer_a W) = n).
    Context (VA : forall i, i < n -> peval pA (fpow w i) = a_ i) (VB : forall i, i < n -> peval pB (fpow w i) = b_ i) (VC : forall i, i < n -> peval pC (fpow w i) = c_ i).
    Context (Vbuf : forall i, i < n -> nth i (buffer_a W) 0 = a_ i).
    Context (VZ0 : peval pZ 1 = 1) (VZ : forall i, i < n -> peval pZ (fpow w i * w) * den_ i = peval pZ (fpow w i) * num_ i).
    Context (EA : pe_eval (wire_a W) = tab (fun i => peval pA (fpow w4 i))) (EB : pe_eval (wire_b W) = tab (fun i => peval pB (fpow w4 i))).
    Context (EC : pe_eval (wire_c W) = tab (fun i => peval pC (fpow w4 i))) (EZ : pe_eval z = tab (fun i => peval pZ (fpow w4 i))).
    Let bb k := nth k bs 0.
    Lemma compute_t_ok l t : local (compute_t D zk dm bs beta gamma alpha W z (l, [])) = Done t ->
      let s := fst t in
      length (fst (fst s)) = S n /\ length (snd (fst s)) = S n /\ length (snd s) = (n + 6)%nat /\ snd t = (l, []) /\
      forall x, (fpow x n - 1) * (peval (fst (fst s)) x + fpow x n * peval (snd (fst s)) x + fpow x n * fpow x n * peval (snd s) x)
        = NB dm zk pA pB pC pZ (buffer_a W) beta gamma alpha bb x.
    Proof.
      intros E. unfold compute_t in E. fold n in E. cbv zeta in E. rewrite EA, EB, EC, EZ in E.
      lstep E f0 Ef. cbn [pd_fork plain_pdriver snd fst] in Ef. injection Ef as <-. cbn [fst snd] in E.
      lstep E f1 Ef. cbn [pd_fork plain_pdriver snd fst] in Ef. injection Ef as <-. cbn [fst snd] in E.
      lstep E f2 Ef. cbn [pd_fork plain_pdriver snd fst] in Ef. injection Ef as <-. cbn [fst snd] in E.
      lstep E f3 Ef. cbn [pd_fork plain_pdriver snd fst] in Ef. injection Ef as <-. cbn [fst snd] in E.
      lstep E v1 Ev. cbn [mul_leg bind pd_mul_vec plain_pdriver local] in Ev. injection Ev as <-.
      lstep E v2 Ev. cbn [mul_leg bind pd_mul_vec plain_pdriver local] in Ev. injection Ev as <-.
      lstep E v3 Ev. cbn [mul_leg bind pd_mul_vec plain_pdriver local] in Ev. injection Ev as <-.
      lstep E v4 Ev. cbn [mul_leg bind pd_mul_vec plain_pdriver local] in Ev. injection Ev as <-.
      cbn [fst snd] in E. rewrite !map2_tab in E.
      lstep E u1 N1. lstep E u2 N2. lstep E u3 N3.
      rewrite local_bind, mul4vec_plain in E. cbn [obd fst snd] in E. rewrite local_bind, mul4vec_plain in E. cbn [obd fst snd] in E.
      lstep E u4 N4. apply done_inj in E. subst t. cbn [fst snd]. rewrite (do_n DO). fold n.
      assert (L8 : 8 <= n) by exact (n8 KO). unfold ifft_dom.
      pose proof (ko_polys KO) as KP. rewrite Forall_forall in KP. fold n in KP.
      assert (Ev : forall p i, In p ([qm_poly zk; ql_poly zk; qr_poly zk; qo_poly zk; qc_poly zk; s1_poly zk; s2_poly zk; s3_poly zk] ++ lagrange zk) -> i < n * 4 ->
                nth i (evaluations p) 0 = q p (fpow w4 i)).
      { intros p i Ip Li. destruct (KP p Ip) as (_ & _ & K). exact (K i Li). }
      assert (EvL : forall i, i < n * 4 -> nth i (evaluations (nth 0 (lagrange zk) (mkPoly [] []))) 0 = q (lag zk O) (fpow w4 i)).
      { intros i Li. apply Ev; [|exact Li]. apply in_or_app. right. apply nth_In. rewrite (ko_lagrange KO). lia. }
      assert (EPI : forall i, i < n * 4 -> fold_left (fun acc xl => acc - smul (nth i (evaluations (snd xl)) 0) (fst xl)) (List.combine (buffer_a W) (lagrange zk)) 0 = PI zk (buffer_a W) (fpow w4 i)).
      { intros i Li. unfold PI. assert (KL : forall p, In p (lagrange zk) -> nth i (evaluations p) 0 = q p (fpow w4 i)) by (intros p Ip; apply Ev; [apply in_or_app; right; exact Ip|exact Li]).
        assert (G : forall (l : list (zpoly F)) (v : list F) acc, (forall p, In p l -> nth i (evaluations p) 0 = q p (fpow w4 i)) ->
          fold_left (fun acc xl => acc - smul (nth i (evaluations (snd xl)) 0) (fst xl)) (List.combine v l) acc = fold_left (fun acc xl => acc - q (snd xl) (fpow w4 i) * fst xl) (List.combine v l) acc).
        { clear. intros l. induction l as [|p l IH]; intros [|y v] acc K; try reflexivity.
          cbn [List.combine fold_left fst snd]. rewrite smulF, (K p) by (left; reflexivity). apply IH. intros p' Ip. apply K. right. exact Ip. }
        apply G. exact KL. }
      assert (VZ' : forall i, i < n -> let x := fpow w i in
        peval pZ (x * w) * den3 zk beta gamma (peval pA x) (peval pB x) (peval pC x) x = peval pZ x * num3 zk beta gamma (peval pA x) (peval pB x) (peval pC x) x).
      { intros j Lj. cbv zeta. rewrite VA, VB, VC by exact Lj. apply VZ. exact Lj. }
      match goal with |- context [split_t n (map2 gadd (div_by_zh n (idft w4 (n * 4) (resize (n * 4) 0 (map ?f _)))) (idft w4 (n * 4) (resize (n * 4) 0 (map ?g _)))) ?x ?y] =>
        set (ft := f); set (ftz := g) end.
      destruct (@t_exact F _ n w w4 (PT dm zk pA pB pC pZ (buffer_a W) beta gamma alpha) (TZ dm zk pA pB pC pZ beta gamma alpha bb)
                  (resize (n * 4) 0 (tab ft)) (resize (n * 4) 0 (tab ftz)) (bb 9%nat) (bb 10%nat)) as (A1 & A2 & A3 & A4).
      - lia.
      - exact (do_w DO).
      - exact (do_w4 DO).
      - exact (isp_PT KO NP LA LB LC LZ Lbuf VA VB VC Vbuf alpha bb VZ').
      - exact (isp_TZ KO NP LA LB LC LZ Lbuf VA VB VC Vbuf alpha bb VZ').
      - intros i Li. eapply (PT_roots KO GO NP); eassumption.
      - apply resize_length.
      - apply resize_length.
      - intros i Li. rewrite nth_resize, nth_map_seq by exact Li. unfold ft. rewrite !nth_map_seq by (exact Li || apply Nat.mod_upper_bound; lia).
        rewrite !(proj1 (M4_tab _ _ _ _ _ _ _ _ Li)).
        cbn [pd_add_public plain_pdriver]. rewrite EPI, EvL by exact Li. rewrite !Ev by (exact Li || (apply in_or_app; left; cbn; tauto)). rewrite ?smulF.
        rewrite !nth_map_seq by (exact Li || apply Nat.mod_upper_bound; lia).
        pose proof (w4_wrap DO) as WW. fold n in WW. rewrite WW. unfold PT. cbv zeta. fold w. ring.
      - intros i Li. rewrite nth_resize, nth_map_seq by exact Li. unfold ftz. rewrite !nth_map_seq by (exact Li || apply Nat.mod_upper_bound; lia).
        rewrite !(proj2 (M4_tab _ _ _ _ _ _ _ _ Li)).
        cbn [pd_add_public plain_pdriver]. rewrite EvL by exact Li. rewrite !Ev by (exact Li || (apply in_or_app; left; cbn; tauto)). rewrite ?smulF.
        rewrite !nth_map_seq by (exact Li || apply Nat.mod_upper_bound; lia).
        pose proof (w4_wrap DO) as WW. fold n in WW. rewrite WW.
        pose proof (z1_ok DO i) as Z1. fold n in Z1. unfold TZ, A', B', C', Z', zh. fold n w. unfold bb.
        destruct (Nat.eqb_spec (i mod 4) 0) as [Z|Z].
        + rewrite Z in Z1. cbn [nth get_z1] in Z1. apply eq_sym in Z1. rewrite Z1. ring.
        + rewrite <- Z1. ring.
      - cbv zeta in A1, A2, A3, A4. split; [exact A1|]. split; [exact A2|]. split; [exact A3|]. split; [reflexivity|]. intros x. rewrite A4. symmetry. apply NB_split.
    Qed.
  End Quotient.
End Run.
