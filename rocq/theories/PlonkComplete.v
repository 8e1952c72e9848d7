(** * Plonk: keys, satisfied circuits, completeness of the plain prover *)
From Coq Require Import String List Arith Bool Lia Ring Permutation.
From Verif Require Import Proc Alg Rep3Net Rep3 ShamirPoly Shamir ShamirAlg Dft Groth16 Groth16Gen Groth16Complete Plonk PlonkPoly.
Import ListNotations.
Set Implicit Arguments.
Unset Strict Implicit.
Local Open Scope grp_scope.
Local Open Scope list_scope.

(** ** Specification: the domain, the key of a circuit, satisfying assignments *)
Section Spec.
  Context {F : Type} {FF : Fld F}.
  Infix "*" := rmul : grp_scope.
  Notation "1" := rone : grp_scope.
  (** [n] points generated by [dm_w], [4 n] points generated by [dm_w4] *)
  Record domain_ok (dm : domains F) (n : nat) : Prop := {
    do_n : dm_n dm = n;
    do_w : root (dm_w dm) n;
    do_w4 : root (dm_w4 dm) (n * 4);
    do_4 : fpow (dm_w4 dm) 4 = dm_w dm;
    do_i : fpow (dm_w4 dm) n = dm_i dm;
    do_ii : dm_i dm * dm_i dm = - (1) }.
  Context {G1 G2 : Type} {AG1 : AbGrp G1} {MG1 : Mod F G1} {AG2 : AbGrp G2} {MG2 : Mod F G2}.
  (** a polynomial of the key: its coefficients and its values on the extended domain *)
  Definition poly_ok (dm : domains F) (n : nat) (p : zpoly F) : Prop :=
    length (coeffs p) <= n /\ length (evaluations p) = (n * 4)%nat /\
    forall i, i < n * 4 -> nth i (evaluations p) 0 = peval (coeffs p) (fpow (dm_w4 dm) i).
  (** the signal of a cell: cell [c * n + i] is row [i] of column [c]; the rows after the constraints hold signal 0 *)
  Definition columns (zk : zkey F G1) : list (list nat) := [map_a zk; map_b zk; map_c zk].
  (* the signal on a cell: maps of the key, read in round1.rs:109-192; rows beyond the map hold signal 0 *)
  Definition cell_signal (zk : zkey F G1) (cell : nat) : nat :=
    nth (cell mod domain_size zk) (nth (cell / domain_size zk) (columns zk) []) O.
  (** the label of a cell *)
  Definition cell_label (zk : zkey F G1) (w : F) (cell : nat) : F :=
    nth (cell / domain_size zk) [1; vk_k1 (verifying_key zk); vk_k2 (verifying_key zk)] 0 * fpow w (cell mod domain_size zk).
  (** The key that snarkjs makes for a circuit, with secret point [tau]: the polynomials [s1], [s2], [s3]
      hold the labels of the cells permuted by some permutation that keeps the signals *)
  Record key_ok (dm : domains F) (gen1 : G1) (tau : F) (zk : zkey F G1) : Prop := {
    ko_size : domain_size zk = (2 ^ zk_pow zk)%nat;
    ko_pow : 3 <= zk_pow zk;
    ko_polys : Forall (poly_ok dm (domain_size zk))
      ([qm_poly zk; ql_poly zk; qr_poly zk; qo_poly zk; qc_poly zk; s1_poly zk; s2_poly zk; s3_poly zk] ++ lagrange zk);
    ko_lagrange : length (lagrange zk) = n_public zk;
    ko_delta : forall j i, j < n_public zk -> i < domain_size zk ->
      peval (coeffs (nth j (lagrange zk) (mkPoly [] []))) (fpow (dm_w dm) i) = if (i =? j)%nat then 1 else 0;
    ko_maps : Forall (fun m => length m <= domain_size zk) (columns zk);
    ko_public : forall j, j < n_public zk -> nth_error (map_a zk) j = Some (S j);
    ko_perm : exists sigma : nat -> nat,
      Permutation (map sigma (seq 0 (3 * domain_size zk))) (seq 0 (3 * domain_size zk)) /\
      (forall cell, cell < 3 * domain_size zk -> cell_signal zk (sigma cell) = cell_signal zk cell) /\
      (forall c i, c < 3 -> i < domain_size zk ->
         peval (coeffs (nth c [s1_poly zk; s2_poly zk; s3_poly zk] (mkPoly [] []))) (fpow (dm_w dm) i)
         = cell_label zk (dm_w dm) (sigma (c * domain_size zk + i)%nat));
    ko_tau : p_tau zk = map (fun i => smul (fpow tau i) gen1) (seq 0 (length (p_tau zk)));
    ko_vk : let com p := smul (peval (coeffs p) tau) gen1 in let vk := verifying_key zk in
      vk_qm vk = com (qm_poly zk) /\ vk_ql vk = com (ql_poly zk) /\ vk_qr vk = com (qr_poly zk) /\ vk_qo vk = com (qo_poly zk) /\
      vk_qc vk = com (qc_poly zk) /\ vk_s1 vk = com (s1_poly zk) /\ vk_s2 vk = com (s2_poly zk) /\ vk_s3 vk = com (s3_poly zk) }.
  (** the key of the verifier that belongs to it *)
  Definition verifier_key (gen2 : G2) (tau : F) (zk : zkey F G1) : json_vk F G1 G2 :=
    mkJvk (n_public zk) (zk_pow zk) (verifying_key zk) (smul tau gen2).

  (** the key with other Lagrange polynomials *)
  Definition with_lagrange (zk : zkey F G1) (ls : list (zpoly F)) : zkey F G1 :=
    mkZk (n_vars zk) (n_public zk) (domain_size zk) (zk_pow zk) (n_additions zk) (additions zk) (map_a zk) (map_b zk) (map_c zk)
      (qm_poly zk) (ql_poly zk) (qr_poly zk) (qo_poly zk) (qc_poly zk) (s1_poly zk) (s2_poly zk) (s3_poly zk) ls (p_tau zk) (verifying_key zk).

  (** [full] lists the values of all signals: zero (the constant signal), the public inputs, the witness, the additions *)
  Record assignment (zk : zkey F G1) (pub wit full : list F) : Prop := {
    as_public : length pub = S (n_public zk);
    as_zero : nth 0 full 0 = 0;
    as_pub : forall j, j < n_public zk -> nth (S j) full 0 = nth (S j) pub 0;
    as_wit : forall j, n_public zk + 1 + j < n_vars zk - n_additions zk -> nth (n_public zk + 1 + j) full 0 = nth j wit 0;
    as_add : forall j ad, nth_error (additions zk) j = Some ad ->
      nth (n_vars zk - n_additions zk + j) full 0 = factor1 ad * nth (signal_id1 ad) full 0 + factor2 ad * nth (signal_id2 ad) full 0 }.
  (* round1.rs:109-192, the value put in row i of a wire buffer *)
  Definition cell_value (full : list F) (m : list nat) (i : nat) : F := match nth_error m i with Some s => nth s full 0 | None => 0 end.
  (** every row satisfies its gate; the first rows hold the public inputs *)
  Definition gates_ok (zk : zkey F G1) (w : F) (full : list F) : Prop := forall i, i < domain_size zk ->
    let x := fpow w i in let q p := peval (coeffs p) x in
    let a := cell_value full (map_a zk) i in let b := cell_value full (map_b zk) i in let c := cell_value full (map_c zk) i in
    q (qm_poly zk) * (a * b) + q (ql_poly zk) * a + q (qr_poly zk) * b + q (qo_poly zk) * c + q (qc_poly zk)
    = if (i <? n_public zk)%nat then a else 0.
End Spec.

(** ** The domains *)
Section Domains.
  Context {F : Type} {FF : Fld F} {FT : Fft F}.
  Add Ring FringPD : (@cring_theory F _).
  Infix "*" := rmul : grp_scope.
  Notation "1" := rone : grp_scope.
  Lemma domains_ok fuel n dm : fft_ok (F := F) -> domains_new fuel n = Done dm -> domain_ok dm n.
  Proof.
    intros [Eu C Ad] E. unfold domains_new in E. set (k := Nat.log2 n) in *.
    destruct (Nat.eqb_spec n (2 ^ k)) as [En|]; [|discriminate]. destruct (Nat.eqb_spec n 0) as [|Nn]; [discriminate|]. cbn [negb orb] in E.
    destruct (Nat.ltb_spec two_adicity k); [discriminate|]. destruct (Nat.ltb_spec two_adicity (k + 2)) as [|Lk]; [discriminate|].
    unfold roots_of_unity in E. destruct (find_nonresidue fuel 1) as [q|] eqn:Fq; [|discriminate].
    pose proof (Eu q (find_nonresidue_spec Fq)) as Em. rewrite fpow_mul in Em. set (z := fpow q trace) in *.
    assert (Nr : forall i, i <= two_adicity -> nth_error (rev (squares two_adicity z)) i = Some (fpow z (2 ^ (two_adicity - i)))).
    { intros i L. rewrite nth_error_rev by (rewrite squares_length; lia). rewrite squares_length, squares_nth by lia. reflexivity. }
    assert (Rt : forall i, i <= two_adicity -> root (fpow z (2 ^ (two_adicity - i))) (2 ^ i)).
    { intros [|i] L.
      - rewrite Nat.sub_0_r. replace (2 ^ two_adicity)%nat with (2 ^ (two_adicity - 1) * 2)%nat.
        + rewrite fpow_mul, Em. replace (fpow (- (1)) 2) with (1 : F) by (cbn; ring). exact root_1.
        + replace two_adicity with (S (two_adicity - 1)) at 2 by lia. cbn. lia.
      - apply root_of_minus; [exact C|]. rewrite <- fpow_mul, <- Nat.pow_add_r. rewrite <- Em. f_equal. replace (two_adicity - S i + i)%nat with (two_adicity - 1)%nat by lia. reflexivity. }
    rewrite !Nr in E by lia. injection E as <-. constructor; cbn [dm_n dm_w dm_w4 dm_i].
    - reflexivity.
    - rewrite En at 1. apply Rt. lia.
    - replace (n * 4)%nat with (2 ^ (k + 2))%nat by (rewrite Nat.pow_add_r, <- En; reflexivity). apply Rt. exact Lk.
    - rewrite <- fpow_mul. f_equal. change 4%nat with (2 ^ 2)%nat. rewrite <- Nat.pow_add_r. f_equal. lia.
    - rewrite <- fpow_mul. f_equal. rewrite En at 1. rewrite <- Nat.pow_add_r. f_equal. lia.
    - rewrite <- Em, <- fpow_add. f_equal. replace (two_adicity - 1)%nat with (S (two_adicity - 2)) by lia. cbn. lia.
  Qed.

  Context (dm : domains F) (n : nat) (DO : domain_ok dm n).
  Lemma pow4 : fpow (dm_i dm) 4 = 1.
  Proof. cbn [fpow]. transitivity ((dm_i dm * dm_i dm) * (dm_i dm * dm_i dm)); [ring|]. rewrite (do_ii DO). ring. Qed.
  Lemma pow_mod i : fpow (fpow (dm_w4 dm) i) n = fpow (dm_i dm) (i mod 4).
  Proof.
    rewrite <- fpow_mul, Nat.mul_comm, fpow_mul, (do_i DO). rewrite (Nat.div_mod i 4) at 1 by discriminate. rewrite fpow_add, fpow_mul, pow4, fpow_1. ring.
  Qed.
  (** round3.rs:212-242: the tables hold the powers of the vanishing polynomial *)
  Lemma z1_ok i : nth (i mod 4) (get_z1 (dm_i dm)) 0 = fpow (fpow (dm_w4 dm) i) n - 1.
  Proof.
    rewrite pow_mod. pose proof (Nat.mod_upper_bound i 4 ltac:(discriminate)) as L. pose proof (do_ii DO) as II.
    destruct (i mod 4) as [|[|[|[|j]]]]; [| | | |lia]; cbn [nth get_z1 fpow]; try ring.
    - transitivity (- (1) - 1 : F); [ring|]. rewrite <- II at 1. ring.
    - transitivity (- (1) * dm_i dm - 1); [ring|]. rewrite <- II at 1. ring.
  Qed.
  Lemma z2_ok i : let z := fpow (fpow (dm_w4 dm) i) n - 1 in nth (i mod 4) (get_z2 (dm_i dm)) 0 = z * z.
  Proof.
    cbn zeta. rewrite <- z1_ok. pose proof (Nat.mod_upper_bound i 4 ltac:(discriminate)) as L. pose proof (do_ii DO) as II.
    destruct (i mod 4) as [|[|[|[|j]]]]; [| | | |lia]; cbn [nth get_z1 get_z2 fpow]; unfold two; try ring.
    - transitivity (- (1) + 1 + (0 - (1 + 1)) * dm_i dm); [ring|]. rewrite <- II at 1. ring.
    - transitivity (- (1) + 1 + (1 + 1) * dm_i dm); [ring|]. rewrite <- II at 1. ring.
  Qed.
  Lemma z3_ok i : let z := fpow (fpow (dm_w4 dm) i) n - 1 in nth (i mod 4) (get_z3 (dm_i dm)) 0 = z * z * z.
  Proof.
    cbn zeta. rewrite <- z2_ok, <- z1_ok. pose proof (Nat.mod_upper_bound i 4 ltac:(discriminate)) as L. pose proof (do_ii DO) as II.
    destruct (i mod 4) as [|[|[|[|j]]]]; [| | | |lia]; cbn [nth get_z1 get_z2 get_z3 fpow]; unfold two; try ring.
    - transitivity ((0 - (1 + 1)) * (- (1)) + (1 + 1) * dm_i dm); [ring|]. rewrite <- II at 1. ring.
    - transitivity ((0 - (1 + 1)) * (- (1)) - (1 + 1) * dm_i dm); [ring|]. rewrite <- II at 1. ring.
  Qed.
  Lemma w_pow i : fpow (dm_w dm) i = fpow (dm_w4 dm) (i * 4).
  Proof. rewrite <- (do_4 DO), <- fpow_mul. f_equal. lia. Qed.
  Lemma w_n x : fpow (x * dm_w dm) n = fpow x n.
  Proof. rewrite fpow_mul_l, (root_n (do_w DO)). ring. Qed.
  Lemma w4_wrap i : fpow (dm_w4 dm) ((n * 4 + 4 + i) mod (n * 4)) = fpow (dm_w4 dm) i * dm_w dm.
  Proof.
    pose proof (root_pos (do_w4 DO)) as Lp.
    transitivity (fpow (dm_w4 dm) (n * 4 + 4 + i)).
    - rewrite (Nat.div_mod (n * 4 + 4 + i) (n * 4)) at 2 by lia. rewrite fpow_add, (fpow_mul (dm_w4 dm)), (root_n (do_w4 DO)), fpow_1. ring.
    - rewrite !fpow_add, (root_n (do_w4 DO)), (do_4 DO). ring.
  Qed.
End Domains.

(** ** Lagrange polynomials *)
Section Lagrange.
  Context {F : Type} {FF : Fld F}.
  Add Ring FringPL : (@cring_theory F _).
  Infix "*" := rmul : grp_scope.
  Notation "1" := rone : grp_scope.
  Lemma square_times_ok k : forall x : F, square_times k x = fpow x (2 ^ k).
  Proof.
    induction k as [|k IH]; intros x; [cbn; ring|]. cbn [square_times]. rewrite IH. rewrite Nat.pow_succ_r', fpow_mul. f_equal. cbn. ring.
  Qed.
  Lemma lagrange_value w n (c : list F) j x : root w n -> j < n -> length c <= n ->
    (forall i, i < n -> peval c (fpow w i) = if (i =? j)%nat then 1 else 0) ->
    fnat n * (x - fpow w j) * peval c x = fpow w j * (fpow x n - 1).
  Proof.
    intros R Lj Lc D. pose proof (root_neq R) as Nw.
    assert (E : peval c x = Groth16Complete.lagrange w n x j).
    { rewrite <- (@lagrange_ok F _ w n n x R (le_n n) c Lc). rewrite (@sumn_delta F _ n _ j Lj).
      - rewrite D, Nat.eqb_refl by exact Lj. ring.
      - intros k Lk Nk. rewrite D by exact Lk. destruct (Nat.eqb_spec k j); [congruence|]. ring. }
    rewrite E. unfold Groth16Complete.lagrange. set (y := x * fpow (finv w) j).
    assert (Ey : sumn n (fun k => fpow x k * fpow (finv w) (j * k)) = sumn n (fun k => fpow y k)).
    { apply sumn_ext. intros k _. unfold y. rewrite fpow_mul_l, <- fpow_mul. reflexivity. }
    rewrite Ey. pose proof (geometric y n) as G. assert (Yn : fpow y n = fpow x n).
    { unfold y. rewrite fpow_mul_l, <- fpow_mul, Nat.mul_comm, fpow_mul. assert (W1 : fpow (finv w) n = 1).
      { transitivity (fpow (finv w) n * fpow w n); [rewrite (root_n R); ring|apply fpow_inv; exact Nw]. }
      rewrite W1, fpow_1. ring. }
    rewrite Yn in G. rewrite <- G.
    transitivity ((fnat n * finv (fnat n)) * ((x - fpow w j) * sumn n (fun k => fpow y k))); [ring|]. rewrite finv_r by exact (root_inv R).
    unfold y at 2. transitivity ((x * (fpow (finv w) j * fpow w j) - fpow w j) * sumn n (fun k => fpow y k)); [rewrite fpow_inv by exact Nw; ring|ring].
  Qed.
  Lemma lagrange_loop_ok zh m xi w : forall k w0 l, lagrange_loop k zh m xi w w0 = Done l ->
    length l = k /\ forall j, j < k -> m * (xi - w0 * fpow w j) <> 0 /\ nth j l 0 * (m * (xi - w0 * fpow w j)) = w0 * fpow w j * zh.
  Proof.
    induction k as [|k IH]; intros w0 l E; cbn [lagrange_loop] in E; [injection E as <-; split; [reflexivity|lia]|].
    destruct (feqb (m * (xi - w0)) 0) eqn:Z; [discriminate|]. destruct (lagrange_loop k zh m xi w (w0 * w)) as [l'|] eqn:El; [|discriminate].
    cbn [obd] in E. injection E as <-. destruct (IH _ _ El) as (Ll & Kl). split; [cbn; lia|].
    assert (Nz : m * (xi - w0) <> 0) by (intro X; rewrite X in Z; rewrite (proj2 (feqb_spec 0 0) eq_refl) in Z; discriminate).
    intros [|j] Lj.
    - cbn [nth fpow]. replace (w0 * 1) with w0 by ring. split; [exact Nz|]. transitivity (w0 * zh * (finv (m * (xi - w0)) * (m * (xi - w0)))); [ring|]. rewrite finv_l by exact Nz. ring.
    - cbn [nth]. destruct (Kl j ltac:(lia)) as (N1 & N2). replace (w0 * fpow w (S j)) with (w0 * w * fpow w j) by (cbn; ring). split; assumption.
  Qed.
  Lemma fcancel (a b c : F) : c <> 0 -> a * c = b * c -> a = b.
  Proof.
    intros N E. transitivity (a * c * finv c); [transitivity (a * (c * finv c)); [rewrite finv_r by exact N; ring|ring]|]. rewrite E.
    transitivity (b * (c * finv c)); [ring|rewrite finv_r by exact N; ring].
  Qed.
  (** lib.rs:205-214 *)
  Lemma calculate_pi_ok (pub l : list F) : length pub <= length l ->
    calculate_pi pub l = - sumn (length pub) (fun j => nth j l 0 * nth j pub 0).
  Proof.
    unfold calculate_pi. assert (K : forall (l pub : list F) acc, length pub <= length l ->
      fold_left (fun pi vl => pi - snd vl * fst vl) (List.combine pub l) acc = acc - sumn (length pub) (fun j => nth j l 0 * nth j pub 0)).
    { clear. intros l. induction l as [|x l IH]; intros [|y pub] acc L; cbn [List.combine fold_left length] in *; try (cbn; ring); try lia.
      rewrite IH by lia. rewrite sumn_first. cbn [nth fst snd]. ring. }
    intros L. rewrite K by exact L. ring.
  Qed.
End Lagrange.
