(** * Polynomial arithmetic of the Plonk prover: blinding, sums, exact divisions, commitments *)
From Coq Require Import String List Arith Bool Lia Ring Permutation.
From Verif Require Import Proc Alg Rep3Net Rep3 ShamirPoly Shamir ShamirAlg Dft Groth16 Groth16Gen Groth16Complete Plonk.
Import ListNotations.
Set Implicit Arguments.
Unset Strict Implicit.
Local Open Scope grp_scope.
Local Open Scope list_scope.

Section Poly.
  Context {F : Type} {FF : Fld F}.
  Add Ring FringPP : (@cring_theory F _).
  Infix "*" := rmul : grp_scope.
  Notation "1" := rone : grp_scope.

  Lemma smulF (a b : F) : smul a b = a * b.
  Proof. reflexivity. Qed.
  Lemma zip_into_length {A B} (f : A -> B -> A) : forall l m, length (zip_into f l m) = length l.
  Proof. induction l as [|x l IH]; intros [|y m]; cbn; auto. Qed.
  Lemma on_head_length {A} (f : A -> A) l : length (on_head f l) = length l.
  Proof. destruct l; reflexivity. Qed.

  (** ** Sums of vectors *)
  Lemma peval_zip_add (f : F -> F -> F) (k : F) : (forall x y, f x y = x + k * y) -> forall l m x, length m <= length l ->
    peval (zip_into f l m) x = peval l x + k * peval m x.
  Proof.
    intros E. induction l as [|a l IH]; intros [|b m] x L; cbn [zip_into peval length] in *; rewrite ?smulF; try lia; try ring.
    rewrite IH, E by lia. ring.
  Qed.
  Lemma peval_zip_set (f : F -> F -> F) (k : F) : (forall x y, f x y = k * y) -> forall n m x, length m <= n ->
    peval (zip_into f (repeat 0 n) m) x = k * peval m x.
  Proof.
    intros E. induction n as [|n IH]; intros [|b m] x L; cbn [zip_into peval length repeat] in *; rewrite ?smulF; try lia; try ring.
    - change (0 :: repeat 0 n) with (repeat (0 : F) (S n)). rewrite peval_zeros. ring.
    - rewrite IH, E by lia. ring.
  Qed.
  Lemma peval_on_head (f : F -> F) (k : F) : (forall x, f x = x + k) -> forall c x, c <> [] -> peval (on_head f c) x = peval c x + k.
  Proof. intros E [|a c] x N; [congruence|]. cbn. rewrite E. ring. Qed.
  Lemma peval_map_mul (k : F) c x : peval (map (fun a => a * k) c) x = k * peval c x.
  Proof. induction c as [|a c IH]; cbn; rewrite ?smulF; [ring|]. rewrite IH. ring. Qed.
  Lemma peval_add_factor a b (k x : F) : peval (add_factor_poly a b k) x = peval a x + k * peval b x.
  Proof.
    unfold add_factor_poly. rewrite (@peval_zip_add _ k) by (intros; try ring; rewrite app_length, repeat_length; lia). rewrite peval_pad. reflexivity.
  Qed.
  Lemma length_add_factor a b (k : F) : length (add_factor_poly a b k) = Nat.max (length a) (length b).
  Proof. unfold add_factor_poly. rewrite zip_into_length, app_length, repeat_length. lia. Qed.
  Lemma peval_add_poly a b (x : F) : peval (add_poly a b) x = peval a x + peval b x.
  Proof.
    unfold add_poly. rewrite (@peval_zip_add _ 1) by (intros; try ring; rewrite app_length, repeat_length; lia). rewrite peval_pad. ring.
  Qed.
  Lemma length_add_poly (a b : list F) : length (add_poly a b) = Nat.max (length a) (length b).
  Proof. unfold add_poly. rewrite zip_into_length, app_length, repeat_length. lia. Qed.
  Lemma peval_app_shift (c d : list F) x : peval (c ++ d) x = peval c x + fpow x (length c) * peval d x.
  Proof. rewrite peval_app, peval_shift. reflexivity. Qed.
  (** lib.rs:162-177: the blinding is a multiple of the vanishing polynomial *)
  Lemma peval_blind (p b : list F) x : length b <= length p ->
    peval (blind_coefficients p b) x = peval p x + (fpow x (length p) - 1) * peval (rev b) x.
  Proof.
    intros L. unfold blind_coefficients. rewrite peval_app_shift, zip_into_length.
    rewrite (@peval_zip_add _ (- (1))) by (intros; try ring; rewrite rev_length; exact L). ring.
  Qed.
  Lemma length_blind (p b : list F) : length (blind_coefficients p b) = (length p + length b)%nat.
  Proof. unfold blind_coefficients. rewrite app_length, zip_into_length, rev_length. reflexivity. Qed.

  (** ** Coefficients from values *)
  Lemma zero_coeffs (xs : list F) : forall c : list F, NoDup xs -> length c <= length xs -> (forall a, In a xs -> peval c a = 0) -> forall i, nth i c 0 = 0.
  Proof.
    intros c ND. induction c as [|a c IH] using rev_ind; intros L Z i; [destruct i; reflexivity|].
    rewrite app_length in L. cbn in L.
    assert (A0 : a = 0).
    { assert (T := @top_zero F F _ _ _ (firstn (S (length c)) xs) (c ++ [a]) (length c)).
      rewrite app_nth2, Nat.sub_diag in T by lia. apply T.
      - rewrite <- (firstn_skipn (S (length c)) xs) in ND. revert ND. generalize (firstn (S (length c)) xs) (skipn (S (length c)) xs). clear.
        induction l as [|x l IH]; intros m H; [constructor|]. inversion H; subst. constructor; [|eapply IH; eassumption].
        intro I. apply H2. apply in_app_iff. left. exact I.
      - rewrite firstn_length. lia.
      - rewrite app_length. cbn. lia.
      - intros b Hb. apply Z. rewrite <- (firstn_skipn (S (length c)) xs). apply in_app_iff. left. exact Hb. }
    subst a. assert (Zc : forall i, nth i c 0 = 0).
    { apply IH; [lia|]. intros b Hb. rewrite <- (Z b Hb). symmetry. exact (peval_pad c 1 b). }
    destruct (Nat.lt_ge_cases i (length c)) as [Li|Li]; [rewrite app_nth1 by exact Li; apply Zc|].
    rewrite app_nth2 by exact Li. destruct (i - length c)%nat as [|[|k]]; reflexivity.
  Qed.
  (* the elements of a domain in order (ark-poly elements) *)
  Definition points (g : F) (n : nat) : list F := map (fun i => 1 * fpow g i) (seq 0 n).
  Lemma points_nodup g n : root g n -> NoDup (points g n).
  Proof. intros R. apply nodup_powers; [exact R|apply f_1_neq_0]. Qed.
  Lemma points_length g n : length (points g n) = n.
  Proof. unfold points. rewrite map_length, seq_length. reflexivity. Qed.
  Lemma points_in g n a : In a (points g n) -> exists i, i < n /\ a = fpow g i.
  Proof. intros I. apply in_map_iff in I. destruct I as (i & <- & I). apply in_seq in I. exists i. split; [lia|ring]. Qed.
  (** a polynomial with fewer than [n] coefficients is found from its values *)
  Lemma idft_coeffs g n (v c : list F) : root g n -> length v = n -> length c <= n -> (forall i, i < n -> nth i v 0 = peval c (fpow g i)) ->
    forall i, nth i (idft g n v) 0 = nth i c 0.
  Proof.
    intros R Lv Lc E i.
    assert (Z : nth i (padd (idft g n v) (map gneg c)) 0 = 0).
    { apply (@zero_coeffs (points g n)); [apply points_nodup; exact R|rewrite length_padd, idft_length, map_length, points_length; lia|].
      intros a Ha. apply points_in in Ha. destruct Ha as (j & Lj & ->). rewrite peval_padd, peval_map_neg, idft_points by assumption.
      rewrite E by exact Lj. ring. }
    rewrite nth_padd in Z. replace (nth i (map gneg c) 0) with (- nth i c 0) in Z.
    - transitivity (nth i (idft g n v) 0 + - nth i c 0 + nth i c 0); [ring|rewrite Z; ring].
    - replace (0 : F) with (- (0 : F)) at 2 by ring. rewrite map_nth. reflexivity.
  Qed.
  Lemma peval_coeffs (c d : list F) x : (forall i, nth i c 0 = nth i d 0) -> peval c x = peval d x.
  Proof.
    intros E. transitivity (peval (c ++ repeat 0 (length d)) x); [symmetry; apply peval_pad|].
    transitivity (peval (d ++ repeat 0 (length c)) x); [|apply peval_pad]. apply peval_ext; [rewrite !app_length, !repeat_length; lia|].
    assert (P : forall (a : list F) k j, nth j (a ++ repeat 0 k) 0 = nth j a 0).
    { clear. intros a k j. destruct (Nat.lt_ge_cases j (length a)) as [L|L]; [apply app_nth1; exact L|]. rewrite app_nth2, (nth_overflow a) by exact L.
      generalize (j - length a)%nat. intros i. revert i. induction k; intros [|i]; cbn; auto. }
    intros j _. rewrite !P. apply E.
  Qed.
  Lemma idft_peval g n (v c : list F) x : root g n -> length v = n -> length c <= n -> (forall i, i < n -> nth i v 0 = peval c (fpow g i)) ->
    peval (idft g n v) x = peval c x.
  Proof. intros R Lv Lc E. apply peval_coeffs. apply idft_coeffs; assumption. Qed.

  (** ** Polynomial functions with at most [d] coefficients *)
  Definition isp (d : nat) (f : F -> F) : Prop := exists c, length c <= d /\ forall x, peval c x = f x.
  Lemma isp_list c d : length c <= d -> isp d (peval c).
  Proof. intros L. exists c. split; [exact L|reflexivity]. Qed.
  Lemma isp_ext d f g : (forall x, f x = g x) -> isp d f -> isp d g.
  Proof. intros E (c & L & K). exists c. split; [exact L|]. intros x. rewrite K. apply E. Qed.
  Lemma isp_le d d' f : d <= d' -> isp d f -> isp d' f.
  Proof. intros L (c & Lc & K). exists c. split; [lia|exact K]. Qed.
  Lemma isp_add d f g : isp d f -> isp d g -> isp d (fun x => f x + g x).
  Proof. intros (c & Lc & Kc) (e & Le & Ke). exists (padd c e). split; [rewrite length_padd; lia|]. intros x. rewrite peval_padd, Kc, Ke. reflexivity. Qed.
  Lemma isp_mul a b f g : isp (S a) f -> isp (S b) g -> isp (S (a + b)) (fun x => f x * g x).
  Proof. intros (c & Lc & Kc) (e & Le & Ke). exists (pmul c e). split; [apply length_pmul; assumption|]. intros x. rewrite peval_pmul, Kc, Ke. reflexivity. Qed.
  Lemma isp_const d k : isp (S d) (fun _ => k).
  Proof. exists [k]. split; [cbn; lia|]. intros x. cbn. rewrite ?smulF. ring. Qed.
  Lemma isp_scale d k f : isp d f -> isp d (fun x => k * f x).
  Proof. intros (c & Lc & Kc). exists (map (smul k) c). split; [rewrite map_length; exact Lc|]. intros x. rewrite peval_map_smul, Kc. reflexivity. Qed.
  Lemma isp_sub d f g : isp d f -> isp d g -> isp d (fun x => f x - g x).
  Proof. intros A B. apply (@isp_ext _ (fun x => f x + (- (1)) * g x)); [intros; ring|]. apply isp_add; [exact A|apply isp_scale; exact B]. Qed.
  Lemma isp_id : isp 2 (fun x => x).
  Proof. exists [0; 1]. split; [cbn; lia|]. intros x. cbn. rewrite ?smulF. ring. Qed.
  Lemma isp_zh n : isp (S n) (fun x => fpow x n - 1).
  Proof.
    apply isp_sub; [|apply isp_const]. exists (repeat 0 n ++ [1]). split; [rewrite app_length, repeat_length; cbn; lia|].
    intros x. rewrite peval_shift. cbn. rewrite ?smulF. ring.
  Qed.
  Lemma isp_shift d f s : isp d f -> isp d (fun x => f (x * s)).
  Proof.
    intros (c & Lc & Kc). exists (map2 (fun a p => smul p a) c (map (fpow s) (seq 0 (length c)))). split.
    - rewrite map2_length, map_length, seq_length. lia.
    - intros x. rewrite peval_scale by reflexivity. rewrite Kc. f_equal. ring.
  Qed.

  (** ** Vectors filled from the left *)
  Lemma fold_fill (f : list F -> nat -> F) m : let q := fold_left (fun q i => q ++ [f q i]) (seq 0 m) [] in
    length q = m /\ forall i, i < m -> nth i q 0 = f (firstn i q) i.
  Proof.
    induction m as [|m IH]; [cbn; split; [reflexivity|lia]|]. cbn zeta in *. rewrite seq_S, fold_left_app. cbn [fold_left Nat.add].
    set (q := fold_left _ _ _) in *. destruct IH as (L & K). split; [rewrite app_length, L; cbn; lia|].
    intros i Li. destruct (Nat.eq_dec i m) as [->|N].
    - rewrite app_nth2, L, Nat.sub_diag by lia. cbn [nth]. rewrite <- L at 2. rewrite firstn_app, Nat.sub_diag, firstn_all. cbn [firstn]. rewrite app_nil_r. reflexivity.
    - rewrite app_nth1 by lia. rewrite K by lia. f_equal. rewrite firstn_app. replace (i - length q)%nat with O by lia. cbn [firstn]. rewrite app_nil_r. reflexivity.
  Qed.

  (** ** Division by [X^k - beta] *)
  Lemma nth_map_smul (k : F) c j : nth j (map (smul k) c) 0 = k * nth j c 0.
  Proof. revert j. induction c as [|a c IH]; intros [|j]; cbn; rewrite ?smulF; try ring; try reflexivity. apply IH. Qed.
  (* specification of the division loops of round3.rs and round5.rs *)
  Definition quotient (c q : list F) (k : nat) (beta : F) : Prop :=
    length q = length c /\ forall i, i < length c -> nth i c 0 = (if (i <? k)%nat then 0 else nth (i - k) q 0) - beta * nth i q 0.
  Lemma quotient_peval c q k beta x : quotient c q k beta -> k <= length c ->
    peval c x = fpow x k * peval (firstn (length c - k) q) x - beta * peval q x.
  Proof.
    intros (L & E) Lk. transitivity (peval (padd (repeat 0 k ++ firstn (length c - k) q) (map (smul (- beta)) q)) x).
    - apply peval_ext; [rewrite length_padd, app_length, repeat_length, firstn_length, map_length; lia|]. intros j Lj. rewrite E by exact Lj.
      rewrite nth_padd, nth_map_smul.
      replace (nth j (repeat 0 k ++ firstn (length c - k) q) 0) with (if (j <? k)%nat then 0 else nth (j - k) q 0); [ring|].
      destruct (Nat.ltb_spec j k) as [Lt|Ge].
      + rewrite app_nth1 by (rewrite repeat_length; exact Lt). clear. revert j. induction k as [|k IH]; intros [|j]; cbn; auto.
      + rewrite app_nth2 by (rewrite repeat_length; exact Ge). rewrite repeat_length, nth_firstn by lia. reflexivity.
    - rewrite peval_padd, peval_shift, peval_map_smul, smulF. ring.
  Qed.
  Lemma quotient_exact c q k beta (xs : list F) : quotient c q k beta -> 0 < k -> k <= length c -> beta <> 0 ->
    NoDup xs -> length xs = k -> (forall a, In a xs -> fpow a k = beta /\ peval c a = 0) ->
    (forall i, length c - k <= i -> nth i q 0 = 0) /\ forall x, peval c x = (fpow x k - beta) * peval q x.
  Proof.
    intros Q Pk Lk Nb ND Lx Z. destruct Q as (L & E). assert (Q : quotient c q k beta) by (split; assumption).
    set (m := (length c - k)%nat). assert (Lf : length (firstn m q) = m) by (rewrite firstn_length; unfold m; lia).
    assert (Sq : forall x, peval q x = peval (firstn m q) x + fpow x m * peval (skipn m q) x).
    { intros x. rewrite <- (firstn_skipn m q) at 1. rewrite peval_app_shift, Lf. reflexivity. }
    assert (Zs : forall i, nth i (skipn m q) 0 = 0).
    { apply (@zero_coeffs xs); [exact ND|rewrite skipn_length, Lx; unfold m; lia|]. intros a Ia. destruct (Z a Ia) as (Pa & Za).
      rewrite (quotient_peval a Q Lk) in Za. fold m in Za. rewrite Pa, Sq in Za.
      assert (Na : a <> 0). { intro A0. apply Nb. rewrite <- Pa, A0. destruct k; [lia|]. cbn. ring. }
      apply (@finv_smul F F _ _ _ (beta * fpow a m)).
      - apply fmul_neq; [exact Nb|apply fpow_neq; exact Na].
      - rewrite smulF. transitivity (- (beta * peval (firstn m q) a - beta * (peval (firstn m q) a + fpow a m * peval (skipn m q) a))); [ring|]. rewrite Za. ring. }
    split.
    - intros i Li. pose proof (Zs (i - m)%nat) as Zi. rewrite nth_skipn in Zi. replace (m + (i - m))%nat with i in Zi by (unfold m; lia). exact Zi.
    - intros x. rewrite (quotient_peval x Q Lk). fold m. assert (Zx : peval (skipn m q) x = 0).
      { transitivity (peval ([] : list F) x); [|reflexivity]. apply peval_coeffs. intros i. rewrite Zs. destruct i; reflexivity. }
      rewrite Sq, Zx. ring.
  Qed.
  (** round3.rs:468-478 *)
  Lemma div_by_zh_quotient n (c : list F) : 0 < n -> quotient c (div_by_zh n c) n 1.
  Proof.
    intros Pn. unfold div_by_zh.
    destruct (fold_fill (fun q i => if (i <? n)%nat then - nth i c 0 else nth (i - n) q 0 - nth i c 0) (length c)) as (L & K).
    set (q := fold_left _ _ _) in *. split; [exact L|]. intros i Li. rewrite (K i Li). destruct (Nat.ltb_spec i n) as [Lt|Ge]; [ring|].
    rewrite nth_firstn by lia. ring.
  Qed.
  (** round5.rs:78-91: the last element of the vector that is filled is cut off *)
  Lemma div_by_zerofier_ok (c : list F) (beta : F) q : div_by_zerofier c beta = Done q -> c <> [] -> peval c beta = 0 ->
    length q = (length c - 1)%nat /\ forall x, peval c x = (x - beta) * peval q x.
  Proof.
    unfold div_by_zerofier. destruct (feqb beta 0) eqn:B; [discriminate|]. intros E Nc Zb. injection E as <-.
    assert (Nb : beta <> 0) by (intro X; rewrite X in B; rewrite (proj2 (feqb_spec 0 0) eq_refl) in B; discriminate).
    destruct (fold_fill (fun q i => if (i <? 1)%nat then smul (- finv beta) (nth i c 0) else smul (finv beta) (nth (i - 1) q 0 - nth i c 0)) (length c)) as (L & K).
    set (q := fold_left _ _ _) in *. assert (Lc : 1 <= length c) by (destruct c; [congruence|cbn; lia]).
    assert (Q : quotient c q 1 beta).
    { split; [exact L|]. intros i Li. rewrite (K i Li). destruct (Nat.ltb_spec i 1) as [Lt|Ge].
      - rewrite smulF. transitivity ((beta * finv beta) * nth i c 0); [rewrite finv_r by exact Nb; ring|ring].
      - rewrite smulF, nth_firstn by lia. transitivity (nth (i - 1) q 0 - (beta * finv beta) * (nth (i - 1) q 0 - nth i c 0)); [rewrite finv_r by exact Nb; ring|ring]. }
    split; [rewrite firstn_length; lia|]. intros x.
    destruct (@quotient_exact c q 1 beta [beta] Q ltac:(lia) Lc Nb) as (Zt & Ex).
    - constructor; [intros []|constructor].
    - reflexivity.
    - intros a [<-|[]]. split; [cbn; ring|exact Zb].
    - rewrite Ex. replace (fpow x 1) with x by (cbn; ring). f_equal. transitivity (peval (firstn (length c - 1) q ++ skipn (length c - 1) q) x).
      + rewrite firstn_skipn. reflexivity.
      + rewrite peval_app_shift. assert (Zx : peval (skipn (length c - 1) q) x = 0); [|rewrite Zx; ring].
        transitivity (peval ([] : list F) x); [|reflexivity]. apply peval_coeffs. intros i. rewrite nth_skipn, Zt by lia. destruct i; reflexivity.
  Qed.

  (** ** The quotient polynomial and its three parts *)
  Lemma skipn_add {A} a b (l : list A) : skipn a (skipn b l) = skipn (b + a) l.
  Proof. revert l. induction b as [|b IH]; intros l; [reflexivity|]. destruct l as [|x l]; [rewrite !skipn_nil; reflexivity|]. apply IH. Qed.
  Lemma split_parts n (t : list F) (b9 b10 : F) : 6 <= n -> length t = (4 * n)%nat -> (forall i, 3 * n + 6 <= i -> nth i t 0 = 0) ->
    let s := split_t n t b9 b10 in
    length (fst (fst s)) = S n /\ length (snd (fst s)) = S n /\ length (snd s) = (n + 6)%nat /\
    forall x, peval (fst (fst s)) x + fpow x n * peval (snd (fst s)) x + fpow x n * fpow x n * peval (snd s) x = peval t x.
  Proof.
    intros Ln Lt Z. cbn. unfold split_t. cbn [fst snd].
    assert (L1 : length (firstn n t) = n) by (rewrite firstn_length; lia).
    assert (L2 : length (firstn n (skipn n t)) = n) by (rewrite firstn_length, skipn_length; lia).
    assert (L3 : length (firstn (n + 6) (skipn (n + n) t)) = (n + 6)%nat) by (rewrite firstn_length, skipn_length; lia).
    split; [rewrite app_length, L1; cbn; lia|]. split; [rewrite app_length, on_head_length, L2; cbn; lia|].
    split; [rewrite on_head_length; exact L3|]. intros x.
    assert (Et : peval t x = peval (firstn n t) x + fpow x n * peval (firstn n (skipn n t)) x + fpow x n * fpow x n * peval (firstn (n + 6) (skipn (n + n) t)) x).
    { rewrite <- (firstn_skipn n t) at 1. rewrite peval_app_shift, L1. rewrite <- (firstn_skipn n (skipn n t)) at 1. rewrite peval_app_shift, L2.
      rewrite <- (firstn_skipn (n + 6) (skipn n (skipn n t))) at 1. rewrite peval_app_shift.
      rewrite skipn_add.
      assert (Zx : peval (skipn (n + 6) (skipn (n + n) t)) x = 0); [|rewrite Zx; ring].
      transitivity (peval ([] : list F) x); [|reflexivity]. apply peval_coeffs. intros i. rewrite !nth_skipn, Z by lia. destruct i; reflexivity. }
    rewrite Et, !peval_app_shift, on_head_length, L1, L2.
    rewrite (@peval_on_head _ (- b9)), (@peval_on_head _ (- b10)) by (try (intros; ring); intro E; (rewrite E in L2 || rewrite E in L3); cbn in *; lia).
    cbn [peval]. rewrite !smulF. ring.
  Qed.

  Lemma isp_idft g n (v : list F) f d x : root g n -> length v = n -> d <= n -> isp d f -> (forall i, i < n -> nth i v 0 = f (fpow g i)) ->
    peval (idft g n v) x = f x /\ forall i, d <= i -> nth i (idft g n v) 0 = 0.
  Proof.
    intros R Lv Ld (c & Lc & Kc) E. assert (E' : forall i, i < n -> nth i v 0 = peval c (fpow g i)) by (intros; rewrite Kc; auto). split.
    - rewrite <- Kc. apply idft_peval; try assumption. lia.
    - intros i Li. rewrite (@idft_coeffs g n v c) by (assumption || lia). apply nth_overflow. lia.
  Qed.
  Lemma peval_map2_add : forall (a b : list F) x, length a = length b -> peval (map2 gadd a b) x = peval a x + peval b x.
  Proof. induction a as [|u a IH]; intros [|v b] x L; cbn [map2 peval] in *; try discriminate; rewrite ?smulF; [ring|]. rewrite IH by (cbn in L; lia). ring. Qed.
  Lemma t_exact n w w4 (PT TZ : F -> F) (ptv tzv : list F) (b9 b10 : F) : 6 <= n -> root w n -> root w4 (n * 4) -> isp (n * 4) PT -> isp (3 * n + 6) TZ ->
    (forall i, i < n -> PT (fpow w i) = 0) -> length ptv = (n * 4)%nat -> length tzv = (n * 4)%nat ->
    (forall i, i < n * 4 -> nth i ptv 0 = PT (fpow w4 i)) -> (forall i, i < n * 4 -> nth i tzv 0 = TZ (fpow w4 i)) ->
    let s := split_t n (map2 gadd (div_by_zh n (idft w4 (n * 4) ptv)) (idft w4 (n * 4) tzv)) b9 b10 in
    length (fst (fst s)) = S n /\ length (snd (fst s)) = S n /\ length (snd s) = (n + 6)%nat /\
    forall x, (fpow x n - 1) * (peval (fst (fst s)) x + fpow x n * peval (snd (fst s)) x + fpow x n * fpow x n * peval (snd s) x)
              = PT x + (fpow x n - 1) * TZ x.
  Proof.
    intros Ln R R4 IP IT Z Lp Lt Ep Et. set (c := idft w4 (n * 4) ptv). set (q := div_by_zh n c). set (tz := idft w4 (n * 4) tzv).
    assert (Lc : length c = (n * 4)%nat) by apply idft_length.
    assert (Q : quotient c q n 1) by (apply div_by_zh_quotient; lia).
    assert (Lq : length q = (n * 4)%nat) by (destruct Q as (-> & _); exact Lc).
    assert (Ltz : length tz = (n * 4)%nat) by apply idft_length.
    assert (Pc : forall x, peval c x = PT x) by (intros x; apply (@isp_idft w4 (n * 4) ptv PT (n * 4) x); auto).
    assert (Pz : forall x, peval tz x = TZ x) by (intros x; apply (@isp_idft w4 (n * 4) tzv TZ (3 * n + 6) x); auto; lia).
    assert (Zz : forall i, 3 * n + 6 <= i -> nth i tz 0 = 0) by (apply (@isp_idft w4 (n * 4) tzv TZ (3 * n + 6) 0); auto; lia).
    destruct (@quotient_exact c q n 1 (points w n) Q) as (Zq & Eq); try lia; [apply f_1_neq_0|apply points_nodup; exact R|apply points_length| |].
    { intros a Ha. apply points_in in Ha. destruct Ha as (i & Li & ->). split; [|rewrite Pc; apply Z; exact Li].
      rewrite <- fpow_mul, Nat.mul_comm, fpow_mul, (root_n R), fpow_1. reflexivity. }
    destruct (@split_parts n (map2 gadd q tz) b9 b10 Ln) as (A1 & A2 & A3 & A4).
    - rewrite map2_length, Lq, Ltz. lia.
    - intros i Li. destruct (Nat.lt_ge_cases i (n * 4)) as [L|L].
      + rewrite (@nth_map2 _ _ _ gadd q tz i 0 0 0) by lia. rewrite Zq by lia. rewrite Zz by lia. ring.
      + apply nth_overflow. rewrite map2_length. lia.
    - cbn zeta. split; [exact A1|]. split; [exact A2|]. split; [exact A3|]. intros x. rewrite A4, peval_map2_add by lia. rewrite Pz, <- Pc, Eq. ring.
  Qed.

  (** ** Commitments *)
  Lemma msm_powers {G} {AG : AbGrp G} {MG : Mod F G} (tau : F) (g : G) : forall (c : list F) k m, length c <= m ->
    msm (firstn (length c) (map (fun i => smul (fpow tau i) g) (seq k m))) c = smul (fpow tau k * peval c tau) g.
  Proof.
    induction c as [|a c IH]; intros k m L; cbn [length firstn msm peval].
    - replace (fpow tau k * 0) with (0 : F) by ring. symmetry. apply smul_0_l.
    - destruct m as [|m]; [cbn in L; lia|]. cbn [seq map firstn msm]. rewrite IH by (cbn in L; lia). rewrite <- smul_mul, <- smul_add_l. f_equal. rewrite smulF. cbn [fpow]. ring.
  Qed.
End Poly.

(** ** The product argument *)
Section Products.
  Context {F : Type} {FF : Fld F}.
  Add Ring FringPQ : (@cring_theory F _).
  Infix "*" := rmul : grp_scope.
  Notation "1" := rone : grp_scope.
  (* product of a sequence (specification of the running product of round2.rs) *)
  Fixpoint prodn (n : nat) (f : nat -> F) : F := match n with O => 1 | S n => prodn n f * f n end.
  Lemma prodn_ext n f g : (forall k, k < n -> f k = g k) -> prodn n f = prodn n g.
  Proof. induction n as [|n IH]; intros E; cbn; [reflexivity|]. rewrite IH, E by (intros; try apply E; lia). reflexivity. Qed.
  Lemma prodn_mul n f g : prodn n (fun k => f k * g k) = prodn n f * prodn n g.
  Proof. induction n as [|n IH]; cbn; [ring|]. rewrite IH. ring. Qed.
  Lemma prodn_first n f : prodn (S n) f = f O * prodn n (fun k => f (S k)).
  Proof. induction n as [|n IH]; [cbn; ring|]. cbn [prodn] in *. rewrite IH. ring. Qed.
  Lemma prodn_app n k f : prodn (n + k) f = prodn n f * prodn k (fun i => f (n + i)%nat).
  Proof. induction k as [|k IH]; [rewrite Nat.add_0_r; cbn; ring|]. rewrite Nat.add_succ_r. cbn. rewrite IH. ring. Qed.
  (* product of a list *)
  Definition lprod (l : list F) : F := fold_right rmul 1 l.
  Lemma lprod_perm l m : Permutation l m -> lprod l = lprod m.
  Proof. induction 1 as [|x l m _ IH|x y l|l m k _ IH1 _ IH2]; [reflexivity| | |congruence]; cbn; fold (lprod l); [fold (lprod m); rewrite IH; reflexivity|ring]. Qed.
  Lemma lprod_app l m : lprod (l ++ m) = lprod l * lprod m.
  Proof. induction l as [|x l IH]; [cbn [app]; change (lprod []) with (1 : F); ring|]. change (lprod ((x :: l) ++ m)) with (x * lprod (l ++ m)). change (lprod (x :: l)) with (x * lprod l). rewrite IH. ring. Qed.
  Lemma lprod_seq f n : lprod (map f (seq 0 n)) = prodn n f.
  Proof. induction n as [|n IH]; [reflexivity|]. rewrite seq_S, map_app, lprod_app, IH. cbn. ring. Qed.

  Lemma nth_run_products (l : list F) : forall acc i, i < length l -> nth i (run_products acc l) 0 = acc * prodn (S i) (fun j => nth j l 0).
  Proof.
    induction l as [|x l IH]; intros acc i L; [cbn in L; lia|]. cbn [run_products]. destruct i as [|i]; [cbn; ring|]. cbn [nth]. rewrite IH by (cbn in L; lia).
    rewrite (prodn_first (S i)). cbn [nth]. ring.
  Qed.
  Lemma run_products_length (l : list F) : forall acc, length (run_products acc l) = length l.
  Proof. induction l as [|x l IH]; intros acc; cbn; auto. Qed.
  Lemma prefix_length (l : list F) : length (prefix_products l) = length l.
  Proof. destruct l; cbn; rewrite ?run_products_length; reflexivity. Qed.
  Lemma nth_prefix (l : list F) i : i < length l -> nth i (prefix_products l) 0 = prodn (S i) (fun j => nth j l 0).
  Proof.
    destruct l as [|x l]; intros L; [cbn in L; lia|]. cbn [prefix_products]. destruct i as [|i]; [cbn; ring|]. cbn [nth]. rewrite nth_run_products by (cbn in L; lia).
    rewrite (prodn_first (S i)). reflexivity.
  Qed.
  Lemma nth_zip_into {A B} (f : A -> B -> A) da db : forall l m i, length l <= length m -> i < length l -> nth i (zip_into f l m) da = f (nth i l da) (nth i m db).
  Proof. induction l as [|x l IH]; intros [|y m] i L Li; cbn in *; try lia. destruct i; [reflexivity|]. apply IH; lia. Qed.
  Lemma plain_rands_length k : forall (st : plain_st (F := F)) r, plain_rands k st = Done r -> length (fst r) = k.
  Proof.
    induction k as [|k IH]; intros st r E; cbn in E; [injection E as <-; reflexivity|]. destruct (plain_rand st) as [x|]; [|discriminate]. cbn in E.
    destruct (plain_rands k (snd x)) as [y|] eqn:Ey; [|discriminate]. cbn in E. injection E as <-. cbn. rewrite (IH _ _ Ey). reflexivity.
  Qed.
  Lemma plain_inv_done e (l m : list F) : plain_inv_vec e l = Done m -> m = map finv l /\ forall x, In x l -> x <> 0.
  Proof.
    unfold plain_inv_vec. destruct (existsb _ l) eqn:X; [discriminate|]. intros E. injection E as <-. split; [reflexivity|]. intros x Ix Zx.
    assert (T : existsb (fun x => feqb x 0) l = true) by (apply existsb_exists; exists x; split; [exact Ix|apply feqb_spec; exact Zx]). congruence.
  Qed.
  (** mpc/plain.rs:195-247: the masks cancel *)
  Lemma plain_array_prod_ok inv (a b c : list F) st l : plain_array_prod_mul inv a b c st = Done l -> length a = length b -> length b = length c ->
    let f k := nth k a 0 * nth k b 0 * nth k c 0 in
    length l = length a /\ forall i, i < length a ->
      if inv then prodn (S i) f <> 0 /\ nth i l 0 = finv (prodn (S i) f) else nth i l 0 = prodn (S i) f.
  Proof.
    intros E Lab Lbc f. unfold plain_array_prod_mul in E. set (arr := map2 rmul (map2 rmul a b) c) in *. set (n := length a).
    assert (La : length arr = n) by (unfold arr; rewrite !map2_length; unfold n; lia). rewrite La in E.
    destruct (plain_rands (S n) st) as [[r st']|] eqn:Er; [|discriminate]. cbn [obd fst] in E. pose proof (plain_rands_length Er) as Lr. cbn [fst] in Lr.
    destruct (plain_inv_vec _ r) as [ri|] eqn:Ei; [|discriminate]. cbn [obd] in E. apply plain_inv_done in Ei. destruct Ei as (-> & Nr).
    destruct r as [|r0 r]; [discriminate|]. cbn in Lr. injection Lr as Lr. cbn [map skipn] in E.
    set (rr := r0 :: r) in *. set (op := map2 rmul (map2 rmul (firstn n rr) arr) (map finv r)) in *.
    assert (Lf : length (firstn n rr) = n) by (rewrite firstn_length; cbn; lia).
    assert (Lm : length (map2 rmul (firstn n rr) arr) = n) by (rewrite map2_length; lia).
    assert (Lo : length op = n) by (unfold op; rewrite map2_length, map_length; lia).
    set (un := map2 rmul (repeat (finv r0) n) r) in *. assert (Lu : length un = n) by (unfold un; rewrite map2_length, repeat_length; lia).
    set (res := zip_into rmul un (prefix_products op)) in *. assert (Lres : length res = n) by (unfold res; rewrite zip_into_length; exact Lu).
    assert (Nz : forall k, k <= n -> nth k rr 0 <> 0) by (intros k Lk; apply Nr; apply nth_In; cbn; lia).
    assert (Nop : forall k, k < n -> nth k op 0 = nth k rr 0 * f k * finv (nth (S k) rr 0)).
    { intros k Lk. unfold op. rewrite (@nth_map2 _ _ _ rmul _ _ k 0 0 0) by (rewrite ?map_length; lia). rewrite (@nth_map2 _ _ _ rmul (firstn n rr) arr k 0 0 0) by lia.
      rewrite nth_firstn by exact Lk. unfold arr. rewrite (@nth_map2 _ _ _ rmul (map2 rmul a b) c k 0 0 0) by (rewrite ?map2_length; fold n; lia).
      rewrite (@nth_map2 _ _ _ rmul a b k 0 0 0) by (fold n; lia). f_equal. rewrite (nth_indep _ 0 (finv 0)) by (rewrite map_length; lia). rewrite map_nth. reflexivity. }
    assert (Tel : forall k, k < n -> prodn (S k) (fun j => nth j op 0) = r0 * prodn (S k) f * finv (nth (S k) rr 0)).
    { induction k as [|k IH]; intros Lk.
      - cbn [prodn]. rewrite Nop by exact Lk. cbn [nth rr]. ring.
      - change (prodn (S (S k)) (fun j => nth j op 0)) with (prodn (S k) (fun j => nth j op 0) * nth (S k) op 0).
        change (prodn (S (S k)) f) with (prodn (S k) f * f (S k)). rewrite IH, Nop by lia.
        transitivity (r0 * prodn (S k) f * (finv (nth (S k) rr 0) * nth (S k) rr 0) * f (S k) * finv (nth (S (S k)) rr 0)); [ring|].
        rewrite finv_l by (apply Nz; lia). ring. }
    assert (Res : forall k, k < n -> nth k res 0 = prodn (S k) f).
    { intros k Lk. unfold res. rewrite (@nth_zip_into _ _ rmul 0 0) by (rewrite ?prefix_length; lia). rewrite nth_prefix by lia. rewrite Tel by exact Lk.
      unfold un. rewrite (@nth_map2 _ _ _ rmul _ _ k 0 0 0) by (rewrite repeat_length; lia).
      replace (nth k (repeat (finv r0) n) 0) with (finv r0) by (clear -Lk; revert k Lk; induction n; intros [|k] L; cbn; auto; try lia; apply IHn; lia).
      change (nth (S k) rr 0) with (nth k r 0).
      transitivity ((finv r0 * r0) * prodn (S k) f * (finv (nth k r 0) * nth k r 0)); [ring|].
      rewrite !finv_l; [ring|exact (Nz (S k) ltac:(lia))|exact (Nz O ltac:(lia))]. }
    destruct inv.
    - apply plain_inv_done in E. destruct E as (-> & Nres). split; [rewrite map_length; exact Lres|]. intros i Li. rewrite <- (Res i Li). split.
      + apply Nres. apply nth_In. lia.
      + rewrite (nth_indep _ 0 (finv 0)) by (rewrite map_length; lia). apply map_nth.
    - injection E as <-. split; [exact Lres|]. exact Res.
  Qed.
End Products.
