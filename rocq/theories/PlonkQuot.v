(** * Plonk: the numerator of the quotient polynomial *)
From Coq Require Import String List Arith Bool Lia Ring Permutation.
From Verif Require Import Proc Alg Rep3Net Rep3 ShamirPoly Shamir ShamirAlg Dft Groth16 Groth16Gen Groth16Complete Plonk PlonkPoly PlonkComplete.
Import ListNotations.
Set Implicit Arguments.
Unset Strict Implicit.
Local Open Scope grp_scope.
Local Open Scope list_scope.

Section Core.
  Context {F : Type} {FF : Fld F}.
  Add Ring FringPC : (@cring_theory F _).
  Infix "*" := rmul : grp_scope.
  Notation "1" := rone : grp_scope.
  (** the part of a product of four blinded factors that the vanishing polynomial divides *)
  Definition quad4 (a b c d a' b' c' d' z : F) : F :=
    (a' * b * (c * d) + a * b' * (c * d) + a * b * (c' * d) + a * b * (c * d'))
    + z * (a' * b' * (c * d) + a' * b * (c' * d) + a' * b * (c * d') + a * b' * (c' * d) + a * b' * (c * d') + a * b * (c' * d'))
    + z * z * (a * b' * (c' * d') + a' * b * (c' * d') + a' * b' * (c * d') + a' * b' * (c' * d))
    + z * z * z * (a' * b' * (c' * d')).
  Lemma quad4_ok a b c d a' b' c' d' z :
    (a + z * a') * (b + z * b') * ((c + z * c') * (d + z * d')) = a * b * (c * d) + z * quad4 a b c d a' b' c' d' z.
  Proof. unfold quad4. ring. Qed.

  Lemma isp_mul' a b d (f g : F -> F) : isp a f -> isp b g -> 0 < a -> 0 < b -> a + b <= S d -> isp d (fun x => f x * g x).
  Proof. intros A B La Lb L. destruct a as [|a]; [lia|]. destruct b as [|b]; [lia|]. eapply isp_le; [|apply isp_mul; eassumption]. lia. Qed.
  Lemma isp_quad4 n a b c d a' b' c' d' : 6 <= n -> isp n a -> isp n b -> isp n c -> isp n d -> isp 2 a' -> isp 2 b' -> isp 2 c' -> isp 3 d' ->
    isp (3 * n + 6) (fun x => quad4 (a x) (b x) (c x) (d x) (a' x) (b' x) (c' x) (d' x) (fpow x n - 1)).
  Proof.
    intros L A B C D A' B' C' D'. pose proof (isp_zh (F := F) n) as Z. unfold quad4.
    assert (Z2 : isp (2 * n + 1) (fun x : F => (fpow x n - 1) * (fpow x n - 1))) by (apply (isp_mul' Z Z); lia).
    assert (Z3 : isp (3 * n + 1) (fun x : F => (fpow x n - 1) * (fpow x n - 1) * (fpow x n - 1))) by (apply (isp_mul' Z2 Z); lia).
    assert (M : forall k1 k2 k3 k4 f1 f2 f3 f4, isp k1 f1 -> isp k2 f2 -> isp k3 f3 -> isp k4 f4 -> 0 < k1 -> 0 < k2 -> 0 < k3 -> 0 < k4 ->
              isp (k1 + k2 + k3 + k4 - 3) (fun x => f1 x * f2 x * (f3 x * f4 x))).
    { intros k1 k2 k3 k4 f1 f2 f3 f4 H1 H2 H3 H4 L1 L2 L3 L4.
      apply (@isp_mul' (k1 + k2 - 1) (k3 + k4 - 1)); try lia; [apply (isp_mul' H1 H2); lia|apply (isp_mul' H3 H4); lia]. }
    repeat apply isp_add.
    1-4: match goal with |- isp _ (fun x => _ x * _ x * (_ x * _ x)) => eapply isp_le; [|eapply M; eassumption || lia]; lia end.
    - apply (@isp_mul' (S n) (2 * n + 4)); try lia; [exact Z|]. repeat apply isp_add; (eapply isp_le; [|eapply M; eassumption || lia]; lia).
    - apply (@isp_mul' (2 * n + 1) (n + 4)); try lia; [exact Z2|]. repeat apply isp_add; (eapply isp_le; [|eapply M; eassumption || lia]; lia).
    - apply (@isp_mul' (3 * n + 1) 6); try lia; [exact Z3|]. eapply isp_le; [|eapply M; eassumption || lia]; lia.
  Qed.

  Context {G1 : Type} {AG1 : AbGrp G1} {MG1 : Mod F G1} (dm : domains F) (zk : zkey F G1) (gen1 : G1) (tau : F).
  Context (KO : key_ok dm gen1 tau zk) (DO : domain_ok dm (domain_size zk)) (full : list F) (GO : gates_ok zk (dm_w dm) full) (NP : 1 <= n_public zk).
  Let n := domain_size zk.
  Let w := dm_w dm.
  Context (pA pB pC pZ bufa : list F).
  Context (LA : length pA = n) (LB : length pB = n) (LC : length pC = n) (LZ : length pZ = n) (Lbuf : length bufa = n).
  Context (VA : forall i, i < n -> peval pA (fpow w i) = cell_value full (map_a zk) i).
  Context (VB : forall i, i < n -> peval pB (fpow w i) = cell_value full (map_b zk) i).
  Context (VC : forall i, i < n -> peval pC (fpow w i) = cell_value full (map_c zk) i).
  Context (Vbuf : forall i, i < n -> nth i bufa 0 = cell_value full (map_a zk) i).
  Context (beta gamma alpha : F) (bb : nat -> F).
  Let k1 := vk_k1 (verifying_key zk).
  Let k2 := vk_k2 (verifying_key zk).
  (* evaluation of a key polynomial from its coefficients (round4.rs, plonk.rs) *)
  Definition q (p : zpoly F) (x : F) : F := peval (coeffs p) x.
  (* numerator of the product argument, round3.rs and round2.rs *)
  Definition num3 (a b c x : F) : F := (a + (beta * x + gamma)) * (b + (beta * x * k1 + gamma)) * (c + (beta * x * k2 + gamma)).
  (* denominator of the product argument, round3.rs and round2.rs *)
  Definition den3 (a b c x : F) : F := (a + (q (s1_poly zk) x * beta + gamma)) * (b + (q (s2_poly zk) x * beta + gamma)) * (c + (q (s3_poly zk) x * beta + gamma)).
  Context (VZ0 : peval pZ 1 = 1).
  Context (VZ : forall i, i < n -> let x := fpow w i in
    peval pZ (x * w) * den3 (peval pA x) (peval pB x) (peval pC x) x = peval pZ x * num3 (peval pA x) (peval pB x) (peval pC x) x).
  (* round3.rs:378-381, the j-th Lagrange polynomial of the key *)
  Definition lag (j : nat) : zpoly F := nth j (lagrange zk) (mkPoly [] []).
  (* round3.rs:376-381, public input polynomial *)
  Definition PI (x : F) : F := fold_left (fun acc xl => acc - q (snd xl) x * fst xl) (List.combine bufa (lagrange zk)) 0.
  (* vanishing polynomial of the domain (lib.rs:179, calculate_lagrange_evaluations) *)
  Definition zh (x : F) : F := fpow x n - 1.
  (* blinding polynomial of wire a, lib.rs:162-176, round1.rs:132 *)
  Definition A' (x : F) : F := bb 1%nat + x * bb O.
  (* blinding polynomial of wire b, round1.rs:132 *)
  Definition B' (x : F) : F := bb 3%nat + x * bb 2%nat.
  (* blinding polynomial of wire c, round1.rs:132 *)
  Definition C' (x : F) : F := bb 5%nat + x * bb 4%nat.
  (* blinding polynomial of the product, round2.rs:181 *)
  Definition Z' (x : F) : F := bb 8%nat + (x * x * bb 6%nat + x * bb 7%nat).
  (** unblinded numerator *)
  Definition PT (x : F) : F :=
    let a := peval pA x in let b := peval pB x in let c := peval pC x in
    q (qm_poly zk) x * (a * b) + q (ql_poly zk) x * a + q (qr_poly zk) x * b + q (qo_poly zk) x * c + PI x + q (qc_poly zk) x
    + alpha * ((a + (beta * x + gamma)) * (b + (beta * x * k1 + gamma)) * ((c + (beta * x * k2 + gamma)) * peval pZ x))
    - alpha * ((a + (q (s1_poly zk) x * beta + gamma)) * (b + (q (s2_poly zk) x * beta + gamma)) * ((c + (q (s3_poly zk) x * beta + gamma)) * peval pZ (x * w)))
    + alpha * alpha * (q (lag O) x * (peval pZ x + - (1))).
  (** the blinding part, divided by the vanishing polynomial *)
  Definition TZ (x : F) : F :=
    let a := peval pA x in let b := peval pB x in let c := peval pC x in
    q (qm_poly zk) x * (a * B' x + b * A' x + zh x * (A' x * B' x)) + q (ql_poly zk) x * A' x + q (qr_poly zk) x * B' x + q (qo_poly zk) x * C' x
    + alpha * quad4 (a + (beta * x + gamma)) (b + (beta * x * k1 + gamma)) (c + (beta * x * k2 + gamma)) (peval pZ x) (A' x) (B' x) (C' x) (Z' x) (zh x)
    - alpha * quad4 (a + (q (s1_poly zk) x * beta + gamma)) (b + (q (s2_poly zk) x * beta + gamma)) (c + (q (s3_poly zk) x * beta + gamma)) (peval pZ (x * w))
                    (A' x) (B' x) (C' x) (Z' (x * w)) (zh x)
    + alpha * alpha * (q (lag O) x * Z' x).
  (** the numerator with blinded polynomials *)
  Definition NB (x : F) : F :=
    let a := peval pA x + zh x * A' x in let b := peval pB x + zh x * B' x in let c := peval pC x + zh x * C' x in
    let z := peval pZ x + zh x * Z' x in let zw := peval pZ (x * w) + zh x * Z' (x * w) in
    q (qm_poly zk) x * (a * b) + q (ql_poly zk) x * a + q (qr_poly zk) x * b + q (qo_poly zk) x * c + PI x + q (qc_poly zk) x
    + alpha * (num3 a b c x * z) - alpha * (den3 a b c x * zw) + alpha * alpha * (q (lag O) x * (z - 1)).
  Lemma NB_split x : NB x = PT x + zh x * TZ x.
  Proof. unfold NB, PT, TZ, num3, den3, quad4. ring. Qed.

  Lemma n8 : 8 <= n.
  Proof.
    unfold n. rewrite (ko_size KO). change 8%nat with (2 ^ 3)%nat. apply Nat.pow_le_mono_r; [discriminate|exact (ko_pow KO)].
  Qed.
  Lemma np_le : n_public zk <= n.
  Proof.
    pose proof (ko_maps KO) as M. inversion M as [|m l Lm _]; subst. destruct (n_public zk) as [|k] eqn:E; [lia|].
    pose proof (ko_public KO (j := k) ltac:(lia)) as K. assert (k < length (map_a zk)) by (apply nth_error_Some; congruence). fold n in Lm. lia.
  Qed.
  Lemma isp_q p : In p ([qm_poly zk; ql_poly zk; qr_poly zk; qo_poly zk; qc_poly zk; s1_poly zk; s2_poly zk; s3_poly zk] ++ lagrange zk) -> isp n (q p).
  Proof. intros I. apply isp_list. apply (proj1 (Forall_forall _ _) (ko_polys KO) p I). Qed.
  Lemma isp_lag j : j < n_public zk -> isp n (q (lag j)).
  Proof. intros L. apply isp_q. apply in_or_app. right. apply nth_In. rewrite (ko_lagrange KO). exact L. Qed.
  Lemma PI_sum x : PI x = - sumn (n_public zk) (fun j => q (lag j) x * nth j bufa 0).
  Proof.
    assert (K : forall (l : list (zpoly F)) (v : list F) acc, length l <= length v ->
      fold_left (fun acc xl => acc - q (snd xl) x * fst xl) (List.combine v l) acc = acc - sumn (length l) (fun j => q (nth j l (mkPoly [] [])) x * nth j v 0)).
    { clear. intros l. induction l as [|p l IH]; intros [|y v] acc L; cbn [List.combine fold_left length] in *; try (cbn; ring); try lia.
      rewrite IH by lia. rewrite sumn_first. cbn [nth fst snd]. ring. }
    unfold PI. rewrite K by (rewrite (ko_lagrange KO), Lbuf; exact np_le). rewrite (ko_lagrange KO). unfold lag. ring.
  Qed.
  Lemma isp_PI : isp n PI.
  Proof.
    apply (@isp_ext _ _ _ (fun x => 0 - sumn (n_public zk) (fun j => q (lag j) x * nth j bufa 0))); [intros x; rewrite PI_sum; ring|].
    pose proof n8. apply isp_sub; [destruct n; [lia|apply isp_const]|].
    assert (K : forall m, m <= n_public zk -> isp n (fun x => sumn m (fun j => q (lag j) x * nth j bufa 0))); [|apply K; lia].
    induction m as [|m IH]; intros L; cbn [sumn]; [destruct n; [lia|apply isp_const]|]. apply isp_add; [apply IH; lia|].
    apply (@isp_ext _ _ _ (fun x => nth m bufa 0 * q (lag m) x)); [intros; ring|]. apply isp_scale. apply isp_lag. lia.
  Qed.
  Lemma isp_lin m u v : 2 <= m -> isp m (fun x : F => u + x * v).
  Proof. intros L. apply (isp_le L). apply isp_add; [apply isp_const|]. apply (@isp_ext _ _ _ (fun x => v * x)); [intros; ring|]. apply isp_scale. apply isp_id. Qed.
  Lemma isp_A' : isp 2 A'.  Proof. apply isp_lin. lia. Qed.
  Lemma isp_B' : isp 2 B'.  Proof. apply isp_lin. lia. Qed.
  Lemma isp_C' : isp 2 C'.  Proof. apply isp_lin. lia. Qed.
  Lemma isp_Z' : isp 3 Z'.
  Proof.
    exists [bb 8%nat; bb 7%nat; bb 6%nat]. split; [cbn; lia|]. intros x. cbn. unfold Z'. rewrite ?smulF. ring.
  Qed.
  Lemma isp_A : isp n (peval pA).  Proof. apply isp_list. lia. Qed.
  Lemma isp_B : isp n (peval pB).  Proof. apply isp_list. lia. Qed.
  Lemma isp_C : isp n (peval pC).  Proof. apply isp_list. lia. Qed.
  Lemma isp_Z : isp n (peval pZ).  Proof. apply isp_list. lia. Qed.
  Lemma isp_Zw : isp n (fun x => peval pZ (x * w)).  Proof. exact (isp_shift w isp_Z). Qed.
  Lemma isp_plus f k : isp n f -> isp n (fun x => f x + (beta * x * k + gamma)).
  Proof.
    intros I. pose proof n8. apply isp_add; [exact I|]. apply (@isp_ext _ _ _ (fun x => gamma + x * (beta * k))); [intros; ring|]. apply isp_lin. lia.
  Qed.
  Lemma isp_plus1 f : isp n f -> isp n (fun x => f x + (beta * x + gamma)).
  Proof. intros I. apply (@isp_ext _ _ _ (fun x => f x + (beta * x * 1 + gamma))); [intros; ring|]. apply isp_plus. exact I. Qed.
  Lemma isp_plus_s f p : In p [s1_poly zk; s2_poly zk; s3_poly zk] -> isp n f -> isp n (fun x => f x + (q p x * beta + gamma)).
  Proof.
    intros Ip I. pose proof n8. apply isp_add; [exact I|]. apply isp_add; [|destruct n; [lia|apply isp_const]].
    apply (@isp_ext _ _ _ (fun x => beta * q p x)); [intros; ring|]. apply isp_scale. apply isp_q. cbn in *. intuition.
  Qed.
  Ltac inq := apply isp_q; cbn; tauto.
  Ltac lo := pose proof n8; lia.
  Lemma isp_PT : isp (n * 4) PT.
  Proof.
    unfold PT. cbv zeta. apply isp_add; [apply isp_sub|].
    - repeat apply isp_add.
      + apply (@isp_mul' n (2 * n)); [inq|apply (isp_mul' isp_A isp_B); lo|lo..].
      + apply (@isp_mul' n n); [inq|exact isp_A|lo..].
      + apply (@isp_mul' n n); [inq|exact isp_B|lo..].
      + apply (@isp_mul' n n); [inq|exact isp_C|lo..].
      + eapply isp_le; [|exact isp_PI]. lo.
      + eapply isp_le; [|inq]. lo.
      + apply isp_scale. apply (@isp_mul' (2 * n) (2 * n)); [| |lo..].
        * apply (isp_mul' (isp_plus1 isp_A) (isp_plus k1 isp_B)); lo.
        * apply (isp_mul' (isp_plus k2 isp_C) isp_Z); lo.
    - apply isp_scale. apply (@isp_mul' (2 * n) (2 * n)); [| |lo..].
      + apply (@isp_mul' n n); [apply isp_plus_s; [cbn; tauto|exact isp_A]|apply isp_plus_s; [cbn; tauto|exact isp_B]|lo..].
      + apply (@isp_mul' n n); [apply isp_plus_s; [cbn; tauto|exact isp_C]|exact isp_Zw|lo..].
    - apply isp_scale. apply (@isp_mul' n n); [apply isp_lag; lia| |lo..]. apply isp_add; [exact isp_Z|]. pose proof n8. destruct n; [lia|apply isp_const].
  Qed.
  Lemma isp_TZ : isp (3 * n + 6) TZ.
  Proof.
    unfold TZ. cbv zeta. pose proof isp_A'. pose proof isp_B'. pose proof isp_C'. pose proof isp_Z'. apply isp_add; [apply isp_sub|].
    - repeat apply isp_add.
      + apply (@isp_mul' n (n + 4)); [inq| |lo..]. repeat apply isp_add.
        * apply (@isp_mul' n 2); [exact isp_A|assumption|lo..].
        * apply (@isp_mul' n 2); [exact isp_B|assumption|lo..].
        * apply (@isp_mul' (S n) 3); [apply isp_zh| |lo..]. apply (@isp_mul' 2 2); [assumption..|lia|lia|lia].
      + apply (@isp_mul' n 2); [inq|assumption|lo..].
      + apply (@isp_mul' n 2); [inq|assumption|lo..].
      + apply (@isp_mul' n 2); [inq|assumption|lo..].
      + apply isp_scale. unfold zh.
        apply (@isp_quad4 n (fun x => peval pA x + (beta * x + gamma)) (fun x => peval pB x + (beta * x * k1 + gamma)) (fun x => peval pC x + (beta * x * k2 + gamma)) (peval pZ) A' B' C' Z'); try assumption; [lo|exact (isp_plus1 isp_A)|exact (isp_plus k1 isp_B)|exact (isp_plus k2 isp_C)|exact isp_Z].
    - apply isp_scale. unfold zh.
      apply (@isp_quad4 n (fun x => peval pA x + (q (s1_poly zk) x * beta + gamma)) (fun x => peval pB x + (q (s2_poly zk) x * beta + gamma)) (fun x => peval pC x + (q (s3_poly zk) x * beta + gamma)) (fun x => peval pZ (x * w)) A' B' C' (fun x => Z' (x * w))); try assumption; [lo|apply isp_plus_s; [cbn; tauto|exact isp_A]|apply isp_plus_s; [cbn; tauto|exact isp_B]|apply isp_plus_s; [cbn; tauto|exact isp_C]|exact isp_Zw|exact (isp_shift w isp_Z')].
    - apply isp_scale. apply (@isp_mul' n 3); [apply isp_lag; lia|assumption|lo..].
  Qed.
  (** the gates and the product argument make the numerator vanish on the domain *)
  Lemma PT_roots i : i < n -> PT (fpow w i) = 0.
  Proof.
    intros Li. set (x := fpow w i). pose proof (GO Li) as G. cbv zeta in G. fold w x in G. rewrite <- VA, <- VB, <- VC in G by exact Li. fold x in G.
    assert (EP : PI x = - (if (i <? n_public zk)%nat then peval pA x else 0)).
    { rewrite PI_sum. f_equal. unfold x. destruct (Nat.ltb_spec i (n_public zk)) as [L|L].
      - rewrite (@sumn_delta F _ _ _ i L).
        + unfold q, lag, w. rewrite (ko_delta KO L Li), Nat.eqb_refl. fold w. rewrite Vbuf, VA by exact Li. ring.
        + intros j Lj Nj. unfold q, lag, w. rewrite (ko_delta KO Lj Li). destruct (Nat.eqb_spec i j); [congruence|ring].
      - apply sumn_0. intros j Lj. unfold q, lag, w. rewrite (ko_delta KO Lj Li). destruct (Nat.eqb_spec i j); [lia|ring]. }
    assert (EZ : q (lag O) x * (peval pZ x + - (1)) = 0).
    { unfold x, q, lag, w. rewrite (ko_delta KO (j := O) ltac:(lia) Li). destruct (Nat.eqb_spec i O) as [->|Ni]; [|ring]. cbn [fpow]. rewrite VZ0. ring. }
    pose proof (VZ Li) as V. cbv zeta in V. fold x in V. unfold PT. cbv zeta. rewrite EZ, EP. unfold num3, den3 in V.
    set (a := peval pA x) in *. set (b := peval pB x) in *. set (c := peval pC x) in *. set (z := peval pZ x) in *. set (zw := peval pZ (x * w)) in *.
    fold (q (qm_poly zk) x) (q (ql_poly zk) x) (q (qr_poly zk) x) (q (qo_poly zk) x) (q (qc_poly zk) x) in G.
    set (pub := if (i <? n_public zk)%nat then a else 0) in *.
    transitivity ((q (qm_poly zk) x * (a * b) + q (ql_poly zk) x * a + q (qr_poly zk) x * b + q (qo_poly zk) x * c + q (qc_poly zk) x - pub)
      + alpha * (z * ((a + (beta * x + gamma)) * (b + (beta * x * k1 + gamma)) * (c + (beta * x * k2 + gamma)))
                 - zw * ((a + (q (s1_poly zk) x * beta + gamma)) * (b + (q (s2_poly zk) x * beta + gamma)) * (c + (q (s3_poly zk) x * beta + gamma))))); [ring|].
    rewrite <- V, G. ring.
  Qed.
End Core.
