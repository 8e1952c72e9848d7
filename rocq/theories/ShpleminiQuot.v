(** * The quotients of Shplonk and KZG (C74)

    Specification ([divides], [terms]) and proof; no code of /repo is modelled here. *)
From Coq Require Import String List Arith Lia Bool Ring.
From Verif Require Import Proc Alg NNet Rep3 ShamirPoly Shamir ShamirAlg Univariate Sumcheck SumcheckSpec SumcheckSound Shplemini ShpleminiFold ShpleminiPoly.
Import ListNotations.
Set Implicit Arguments.
Local Open Scope grp_scope.
Local Open Scope list_scope.

Section Quot.
  Context {F : Type} {FF : Fld F}.
  Add Ring FringGQ : (@cring_theory F _).
  Infix "*" := rmul : grp_scope.
  Notation "1" := rone : grp_scope.
  Notation opening := (list F * F * F)%type.

  (** the polynomial, point and value of an opening, and an opening to the true value *)
  Definition op_poly (o : opening) : list F := fst (fst o).
  Definition op_point (o : opening) : F := snd (fst o).
  Definition op_value (o : opening) : F := snd o.
  Definition op_true (o : opening) : Prop := peval (op_poly o) (op_point o) = op_value o.
  (** [t] is the quotient of the opening *)
  Definition divides (o : opening) (t : list F) : Prop := forall y, peval (op_poly o) y - op_value o = (y - op_point o) * peval t y.
  (** what is subtracted for the openings, at [y] *)
  Definition terms (z y : F) (os : list opening) : list F :=
    map (fun o => inv0 (z - op_point o) * (peval (op_poly o) y - op_value o)) os.

  Lemma factor_loop_ok r cs : r <> 0 -> forall temp, cs <> [] ->
    exists e, forall x, (x - r) * peval (removelast (factor_loop cs (finv (- r)) temp)) x = peval cs x - temp + e * fold_right rmul 1 (repeat x (pred (length cs))).
  Proof.
    intros Nr. assert (Nr' : - r <> 0) by (intros E; apply Nr; replace r with (- - r) by ring; rewrite E; ring).
    induction cs as [|c cs IH]; intros temp N; [congruence|]. destruct cs as [|c2 cs].
    - exists (- (c - temp)). intros x. cbn [factor_loop removelast peval length pred repeat fold_right]. rewrite smulU. ring.
    - set (t := (c - temp) * finv (- r)). destruct (IH t) as [e He]; [discriminate|]. exists e. intros x.
      assert (Et : (c - temp) = - r * t). { unfold t. transitivity ((c - temp) * (finv (- r) * (- r))); [rewrite finv_l by exact Nr'; ring|ring]. }
      change (removelast (factor_loop (c :: c2 :: cs) (finv (- r)) temp)) with (t :: removelast (factor_loop (c2 :: cs) (finv (- r)) t)).
      change (peval (t :: ?l) x) with (t + smul x (peval l x)).
      change (peval (c :: c2 :: cs) x) with (c + smul x (peval (c2 :: cs) x)). rewrite !smulU.
      change (pred (length (c :: c2 :: cs))) with (S (pred (length (c2 :: cs)))). cbn [repeat fold_right].
      match goal with |- (x - r) * (t + x * ?P) = _ => transitivity ((x - r) * t + x * ((x - r) * P)); [ring|] end.
      rewrite He. transitivity (- r * t + x * (peval (c2 :: cs) x + e * fold_right rmul 1 (repeat x (pred (length (c2 :: cs)))))); [ring|].
      rewrite <- Et. ring.
  Qed.
  Lemma fmul_zero (x y : F) : x <> 0 -> x * y = 0 -> y = 0.
  Proof. intros N E. transitivity (finv x * x * y); [rewrite finv_l by exact N; ring|]. transitivity (finv x * (x * y)); [ring|]. rewrite E. ring. Qed.
  Lemma prod_neq (x : F) n : x <> 0 -> fold_right rmul 1 (repeat x n) <> 0.
  Proof.
    intros N. induction n as [|n IH]; cbn [repeat fold_right].
    - intros E. apply N. transitivity (x * 1); [ring|]. rewrite E. ring.
    - intros E. apply IH. exact (@fmul_zero _ _ N E).
  Qed.
  Lemma length_factor_loop cs : forall ri t, length (factor_loop cs ri t) = length cs.
  Proof. induction cs as [|c cs IH]; intros ri t; [reflexivity|]. cbn. f_equal. apply IH. Qed.
  Lemma length_removelast (l : list F) : length (removelast l) = pred (length l).
  Proof. induction l as [|a [|b l] IH]; [reflexivity|reflexivity|]. change (removelast (a :: b :: l)) with (a :: removelast (b :: l)). cbn [length] in *. rewrite IH. reflexivity. Qed.
  Lemma factor_ok cs root : cs <> [] -> peval cs root = 0 ->
    exists q, factor_roots cs root = Done q /\ length q = pred (length cs) /\ forall x, peval cs x = (x - root) * peval q x.
  Proof.
    intros N E. unfold factor_roots. destruct (feqb root 0) eqn:Er.
    - apply feqb_spec in Er. subst root. destruct cs as [|c cs]; [congruence|]. exists cs. split; [reflexivity|split; [reflexivity|]].
      cbn [peval] in E. rewrite smulU in E. assert (c = 0) as -> by (rewrite <- E; ring). intros x. cbn [peval]. rewrite smulU. ring.
    - assert (Nr : root <> 0) by (intros ->; rewrite (proj2 (feqb_spec 0 0) eq_refl) in Er; discriminate).
      destruct (@factor_loop_ok root cs Nr 0 N) as [e He]. eexists. split; [reflexivity|]. split; [rewrite length_removelast, length_factor_loop; reflexivity|].
      assert (e = 0) as ->.
      { specialize (He root). rewrite E in He. apply (@fmul_zero _ e (@prod_neq root (pred (length cs)) Nr)).
        transitivity (0 - 0 + e * fold_right rmul 1 (repeat root (pred (length cs)))); [ring|]. rewrite <- He. ring. }
      intros x. rewrite He. ring.
  Qed.
  Lemma minus_ok p v : p <> [] -> exists t, minus_first p v = Done t /\ length t = length p /\ t <> [] /\ forall x, peval t x = peval p x - v.
  Proof.
    intros N. destruct p as [|c p]; [congruence|]. exists (c - v :: p). split; [reflexivity|split; [reflexivity|split; [discriminate|]]].
    intros x. cbn [peval]. grp.
  Qed.

  Lemma add_quotients_ok os : forall nu s q, Forall (fun o => op_poly o <> [] /\ length (op_poly o) <= length q /\ op_true o) os ->
    exists q' ts, add_quotients os nu s q = Done q' /\ length q' = length q /\ Forall2 divides os ts /\
      forall y, peval q' y = peval q y + lin nu s (map (fun t => peval t y) ts).
  Proof.
    induction os as [|[[p x] v] os IH]; intros nu s q H.
    - exists q, []. split; [reflexivity|split; [reflexivity|split; [constructor|]]]. intros y. cbn. ring.
    - inversion H as [|o l [N [L T]] H']; subst. unfold op_true, op_poly, op_point, op_value in N, L, T. cbn [fst snd] in N, L, T.
      cbn [add_quotients]. destruct (@minus_ok p v N) as (t & Et & Lt & Nt & Ht). rewrite Et. cbn [obind].
      destruct (@factor_ok t x Nt) as (w & Ew & Lw & Hw); [rewrite Ht, T; ring|]. rewrite Ew. cbn [obind].
      destruct (IH nu (s * nu) (add_scaled q w s)) as (q' & ts & Eq & Lq & Hts & Hq).
      { rewrite length_add_scaled. exact H'. }
      exists q', (w :: ts). split; [exact Eq|]. rewrite length_add_scaled in Lq. split; [exact Lq|]. split.
      + constructor; [|exact Hts]. intros y. unfold op_poly, op_point, op_value. cbn [fst snd]. rewrite <- Ht. apply Hw.
      + intros y. rewrite Hq. cbn [map lin]. rewrite (proj1 (linear_peval y)) by lia. ring.
  Qed.
  Lemma sub_claims_ok os : forall nu z s g, Forall (fun o => op_poly o <> [] /\ length (op_poly o) <= length g) os ->
    exists g', sub_claims os nu z s g = Done g' /\ length g' = length g /\ forall y, peval g' y = peval g y - lin nu s (terms z y os).
  Proof.
    induction os as [|[[p x] v] os IH]; intros nu z s g H.
    - exists g. split; [reflexivity|split; [reflexivity|]]. intros y. cbn. ring.
    - inversion H as [|o l [N L] H']; subst. unfold op_poly in N, L. cbn [fst snd] in N, L.
      cbn [sub_claims]. destruct (@minus_ok p v N) as (t & Et & Lt & Nt & Ht). rewrite Et. cbn [obind].
      destruct (IH nu z (s * nu) (add_scaled g t (- (s * inv0 (z - x))))) as (g' & Eg & Lg & Hg).
      { rewrite length_add_scaled. exact H'. }
      exists g'. split; [exact Eg|]. rewrite length_add_scaled in Lg. split; [exact Lg|].
      intros y. rewrite Hg. unfold terms. cbn [map lin]. rewrite (proj1 (linear_peval y)) by lia. rewrite Ht. unfold op_point, op_poly, op_value. cbn [fst snd]. ring.
  Qed.
  Lemma terms_quotients z os : forall ts, Forall2 divides os ts -> Forall (fun o => z <> op_point o) os ->
    forall nu s, lin nu s (terms z z os) = lin nu s (map (fun t => peval t z) ts).
  Proof.
    induction os as [|o os IH]; intros ts H D nu s; inversion H as [|? t ? ts' H1 H2]; subst; [reflexivity|].
    inversion D; subst. cbn [terms map lin]. unfold terms in IH. rewrite (IH ts') by assumption. f_equal. f_equal. rewrite (H1 z).
    assert (N : z - op_point o <> 0) by (apply fsub_neq; assumption).
    unfold inv0. destruct (feqb (z - op_point o) 0) eqn:E; [apply feqb_spec in E; contradiction|].
    transitivity (finv (z - op_point o) * (z - op_point o) * peval t z); [ring|]. rewrite finv_l by exact N. ring.
  Qed.

  (** ** The claims *)
  Lemma map_combine_ext A B C (f : A -> B -> C) : forall (l : list A) (m : list B) k, length l <= k -> map (fun q => f (fst q) (snd q)) (List.combine l (firstn k m)) = map (fun q => f (fst q) (snd q)) (List.combine l m).
  Proof. induction l as [|a l IH]; intros [|b m] [|k] H; cbn [length] in H; try reflexivity; try lia. cbn. f_equal. apply IH. lia. Qed.
  (** the openings of the folds [bs] at p and -p, p² and -p², ... *)
  Fixpoint fold_ops (bs : list (list F)) (p : F) : list opening :=
    match bs with [] => [] | b :: bs => (b, p, peval b p) :: (b, - p, peval b (- p)) :: fold_ops bs (p * p) end.
  Lemma openings_ok n pos neg ps r : length (firstn n ps) = n ->
    openings (opening_claims (S n) pos neg ps r) = (pos, r, peval pos r) :: (neg, - r, peval neg (- r)) :: fold_ops (firstn n ps) (r * r).
  Proof.
    intros L. unfold opening_claims. rewrite powers_sq. cbn [sq skipn].
    rewrite <- (@map_combine_ext F (list F) claim (fun x b => mk_claim b (- x) true) (sq (r * r) n) ps n) by (rewrite length_sq; lia).
    unfold openings. cbn [flat_map mk_claim cl_fold cl_poly cl_point cl_eval app]. do 2 f_equal.
    revert L. generalize (firstn n ps) as bs. generalize (r * r) as p. induction n as [|n IH]; intros p bs L.
    - destruct bs; [reflexivity|cbn in L; lia].
    - destruct bs as [|b bs]; [cbn in L; lia|]. cbn [sq List.combine map flat_map mk_claim cl_fold cl_poly cl_point cl_eval fst snd app fold_ops].
      replace (- - p) with p by ring. do 2 f_equal. apply IH. cbn in L. lia.
  Qed.
  Lemma claim_evals_ok n pos neg ps r : length (firstn n ps) = n ->
    map cl_eval (firstn (S n) (skipn 1 (opening_claims (S n) pos neg ps r))) = peval neg (- r) :: evals gneg (firstn n ps) (r * r).
  Proof.
    intros L. unfold opening_claims. rewrite powers_sq. cbn [sq skipn firstn].
    rewrite <- (@map_combine_ext F (list F) claim (fun x b => mk_claim b (- x) true) (sq (r * r) n) ps n) by (rewrite length_sq; lia).
    cbn [map mk_claim cl_eval]. f_equal.
    rewrite firstn_all2 by (rewrite map_length, combine_length, length_sq; lia). rewrite map_map.
    revert L. generalize (firstn n ps) as bs. generalize (r * r) as p. induction n as [|n IH]; intros p bs L.
    - destruct bs; [reflexivity|cbn in L; lia].
    - destruct bs as [|b bs]; [cbn in L; lia|]. rewrite evals_cons. cbn [sq List.combine map fst snd mk_claim cl_eval]. f_equal. apply IH. cbn in L. lia.
  Qed.
  Lemma claim_size_ok n N pos neg ps r : length (firstn n ps) = n -> length pos = (2 ^ N)%nat -> length neg = (2 ^ N)%nat -> Forall (fun b => 1 <= length b <= 2 ^ N) (firstn n ps) ->
    fold_left (fun m c => Nat.max m (length (cl_poly c))) (opening_claims (S n) pos neg ps r) O = (2 ^ N)%nat.
  Proof.
    intros L Lp Ln Hb. unfold opening_claims. rewrite powers_sq. cbn [sq skipn].
    rewrite <- (@map_combine_ext F (list F) claim (fun x b => mk_claim b (- x) true) (sq (r * r) n) ps n) by (rewrite length_sq; lia).
    cbn [fold_left mk_claim cl_poly]. rewrite Lp, Ln. replace (Nat.max (Nat.max 0 (2 ^ N)) (2 ^ N)) with (2 ^ N)%nat by lia.
    revert Hb L. generalize (firstn n ps) as bs. generalize (r * r) as p. induction n as [|n IH]; intros p bs Hb L.
    - destruct bs; [reflexivity|cbn in L; lia].
    - destruct bs as [|b bs]; [cbn in L; lia|]. inversion Hb; subst. cbn [sq List.combine map fst snd mk_claim fold_left cl_poly].
      replace (Nat.max (2 ^ N) (length b)) with (2 ^ N)%nat by lia. apply IH; [assumption|cbn in L; lia].
  Qed.
  Lemma fold_ops_true bs : forall p m, Forall (fun b => 1 <= length b <= m) bs -> Forall (fun o => op_poly o <> [] /\ length (op_poly o) <= m /\ op_true o) (fold_ops bs p).
  Proof.
    induction bs as [|b bs IH]; intros p m H; [constructor|]. inversion H; subst. cbn [fold_ops].
    assert (b <> []) by (intros ->; cbn in *; lia). repeat constructor; cbn; try assumption; try lia. apply IH. assumption.
  Qed.
End Quot.
