(** * Properties of Shamir sharing (C17-C21, C37) *)
From Coq Require Import Permutation String List Arith ZArith Lia Bool.
From Verif Require Import Proc Alg Zp Rep3Net NNet Rep3 Rep3Spec Rep3Proofs ShamirPoly Shamir ShamirAlg ShamirSpec ShamirRng ShamirDeal ShamirWp ShamirRed ShamirOps ShamirSetup Concrete ConcreteS.
From Verif Require Import Rep3Net.
Import ListNotations.
Set Implicit Arguments.
Local Open Scope grp_scope.

(** ** C17: sharing and combining *)
Section C17.
  Context {F : Type} {FF : Fld F} {Sg : Type} {G : Type} {AG : AbGrp G} {MD : Mod F G} {DG : Draw Sg G}.
  Theorem C17_share_is_sharing (x : G) n t (s : Sg) : length (fst (sm_share x n t s)) = n /\
    sharing n t (fun i => nth i (fst (sm_share x n t s)) 0) x.
  Proof. exact (sm_share_sharing x n t s). Qed.
  Theorem C17_shares_are_sharings (xs : list G) n t (s : Sg) : length (fst (share_field_elements xs t n s)) = n /\
    sharings n t (fun i => nth i (fst (share_field_elements xs t n s)) []) xs.
  Proof. exact (share_field_elements_ok n t xs s). Qed.
  (** any [t+1] (or more) distinct parties, in any order; [ids] are zero-based party numbers *)
  Theorem C17_combine (x : G) n t (s : nat -> G) ids :
    (forall a b, a <= n -> b <= n -> fnat a = (fnat b : F) -> a = b) -> sharing n t s x ->
    NoDup ids -> (forall i, In i ids -> i < n) -> t < length ids ->
    combine_field_element (map s ids) (map S ids) t = Done x.
  Proof. exact (@combine_sharing F FF G AG MD n t s x ids). Qed.
  Theorem C17_combine_vec (xs : list G) n t (s : nat -> list G) ids :
    (forall a b, a <= n -> b <= n -> fnat a = (fnat b : F) -> a = b) -> sharings n t s xs ->
    NoDup ids -> (forall i, In i ids -> i < n) -> t < length ids ->
    combine_field_elements (map s ids) (map S ids) t = Done xs.
  Proof. exact (@combine_sharings F FF G AG MD n t s xs ids). Qed.
  Lemma roundtrip (x : G) n t (s : Sg) ids :
    (forall a b, a <= n -> b <= n -> fnat a = (fnat b : F) -> a = b) -> NoDup ids -> (forall i, In i ids -> i < n) -> t < length ids ->
    combine_field_element (map (fun i => nth i (fst (sm_share x n t s)) 0) ids) (map S ids) t = Done x.
  Proof. intros inj. apply combine_sharing; [exact inj|apply sm_share_sharing]. Qed.
  Theorem C17_roundtrip (x : G) n t (s : Sg) ids :
    (forall a b, a <= n -> b <= n -> fnat a = (fnat b : F) -> a = b) -> NoDup ids -> (forall i, In i ids -> i < n) -> t < length ids ->
    combine_field_element (map (fun i => nth i (fst (sm_share x n t s)) 0) ids) (map S ids) t = Done x.
  Proof. exact (@roundtrip x n t s ids). Qed.
  Lemma too_few (shares : list G) coeffs t : length shares = length coeffs -> length shares <= t ->
    combine_field_element shares coeffs t = Failed (Eyre "Not enough shares to reconstruct the secret.").
  Proof. intros E Hl. unfold combine_field_element. rewrite E, Nat.eqb_refl. cbn [negb]. rewrite <- E, (proj2 (Nat.leb_le _ _) Hl). reflexivity. Qed.
  Theorem C17_too_few_shares (shares : list G) coeffs t : length shares = length coeffs -> length shares <= t ->
    combine_field_element shares coeffs t = Failed (Eyre "Not enough shares to reconstruct the secret.").
  Proof. exact (@too_few shares coeffs t). Qed.
  Lemma mismatch (shares : list G) coeffs t : length shares <> length coeffs ->
    combine_field_element shares coeffs t = Failed (Eyre "Number of shares does not match number of party indices").
  Proof. intros E. unfold combine_field_element. rewrite (proj2 (Nat.eqb_neq _ _) E). reflexivity. Qed.
  Theorem C17_length_mismatch (shares : list G) coeffs t : length shares <> length coeffs ->
    combine_field_element shares coeffs t = Failed (Eyre "Number of shares does not match number of party indices").
  Proof. exact (@mismatch shares coeffs t). Qed.
End C17.
(** [combine_field_element] does not check that the indices are distinct: with a repeated index it
    returns a wrong value instead of an error. *)
Lemma duplicate_indices : exists (x : F13) (s : nat -> F13), sharing 3 1 s x /\
  exists y, combine_field_element (map s [0; 0]%nat) (map S [0; 0]%nat) 1 = Done y /\ y <> x.
Proof.
  exists (f13 5), (ss13 5 3). split.
  - exists [f13 5; f13 3]. split; [cbn; lia|]. split; [apply Zmod_eq; reflexivity|]. intros [|[|[|i]]] Hi; try lia; apply Zmod_eq; reflexivity.
  - eexists. split; [vm_compute; reflexivity|]. intros E. apply (f_equal val) in E. discriminate E.
Qed.
Theorem C17_duplicate_indices_refuted : exists (x : F13) (s : nat -> F13), sharing 3 1 s x /\
  exists y, combine_field_element (map s [0; 0]%nat) (map S [0; 0]%nat) 1 = Done y /\ y <> x.
Proof. exact duplicate_indices. Qed.

(** ** C18-C21, C37 *)
Section Net.
  Context {M : Type} {F : Type} {FF : Fld F} {Sg : Type} {DF : Draw Sg F} {EF : Enc M (list F)} {EF1 : Enc M F}.
  Notation sst := (sst (F := F) (Sg := Sg)).
  Infix "*" := rmul : grp_scope.
  Context (n t cap : nat) (n2 : 2 <= n) (nt : (2 * t + 1 <= n)%nat) (hcap : cap_ok n t cap)
          (inj : forall a b, a <= n -> b <= n -> fnat a = (fnat b : F) -> a = b).
  Notation c1 := (cap1 n2 nt hcap).

  (** ** broadcast: every party gets the values of all parties in the order of the parties *)
  Theorem C18_broadcast {X : Type} {EX : Enc M X} (x : nat -> X) :
    all_okn n cap (fun i => Shamir.broadcast (M := M) i n (x i)) (fun o => forall i, i < n -> o i = map x (seq 0 n)).
  Proof. exact (wpn_all_ok (@broadcast_wp M n t cap n2 nt c1 X EX x)). Qed.
  (** ** the matrix of the randomness extraction: powers of the points 1, .., n *)
  Theorem C20_vandermonde row col : row <= t -> col < n ->
    nth col (nth row (create_vandermonde_matrix (F := F) n t) []) 0 = fpow (fnat (S col)) row.
  Proof. exact (@vander_entry F FF n t n2 nt row col). Qed.

  (** ** C18: linear operations and opening (also C37: points are the case of a general module) *)
  Section C18.
    Context {G : Type} {AG : AbGrp G} {MD : Mod F G} {EG : Enc M G} {EGs : Enc M (list G)}.
    Implicit Types (a b : nat -> G) (x y : G) (u : nat -> F) (v : F).
    Theorem C18_add a b x y : sharing n t a x -> sharing n t b y -> sharing n t (fun i => sm_add (a i) (b i)) (x + y).
    Proof. exact (@sharing_add F FF G AG MD n t a b x y). Qed.
    Theorem C18_sub a b x y : sharing n t a x -> sharing n t b y -> sharing n t (fun i => sm_sub (a i) (b i)) (x - y).
    Proof. exact (@sharing_sub F FF G AG MD n t a b x y). Qed.
    Theorem C18_neg a x : sharing n t a x -> sharing n t (fun i => sm_neg (a i)) (- x).
    Proof. exact (@sharing_neg F FF G AG MD n t a x). Qed.
    Theorem C18_add_public a x y : sharing n t a x -> sharing n t (fun i => sm_add_public (a i) y) (x + y).
    Proof. exact (fun H => sharing_add H (sharing_const n t y)). Qed.
    Theorem C18_sub_public a x y : sharing n t a x -> sharing n t (fun i => sm_sub_public (a i) y) (x - y).
    Proof. exact (fun H => sharing_sub H (sharing_const n t y)). Qed.
    Theorem C18_mul_public a x v : sharing n t a x -> sharing n t (fun i => sm_mul_public (a i) v) (smul v x).
    Proof. exact (sharing_smul v). Qed.
    Theorem C18_promote x : sharing n t (fun _ => sm_promote x) x.
    Proof. exact (sharing_const n t x). Qed.
    Lemma div_public a x v : sharing n t a x ->
      (v = 0 -> forall i, sm_div_shared_by_public (a i) v = Failed (Eyre "Cannot invert zero")) /\
      (v <> 0 -> exists s, (forall i, sm_div_shared_by_public (a i) v = Done (s i)) /\ sharing n t s (smul (finv v) x)).
    Proof.
      intros H. split; intros Hv.
      - intros i. unfold sm_div_shared_by_public. rewrite (proj2 (feqb_spec v 0) Hv). reflexivity.
      - exists (fun i => sm_mul_public (a i) (finv v)). split; [|exact (sharing_smul _ H)].
        intros i. unfold sm_div_shared_by_public. destruct (feqb v 0) eqn:E; [apply feqb_spec in E; contradiction|reflexivity].
    Qed.
    Theorem C18_div_shared_by_public a x v : sharing n t a x ->
      (v = 0 -> forall i, sm_div_shared_by_public (a i) v = Failed (Eyre "Cannot invert zero")) /\
      (v <> 0 -> exists s, (forall i, sm_div_shared_by_public (a i) v = Done (s i)) /\ sharing n t s (smul (finv v) x)).
    Proof. exact (@div_public a x v). Qed.
    Lemma zip_map2 (f : G -> G -> G) : forall xs ys, length xs = length ys -> sm_zip_assign f xs ys = map2 f xs ys.
    Proof. induction xs as [|x xs IH]; intros [|y ys] E; try discriminate; cbn; [reflexivity|]. rewrite IH by (cbn in E; lia). reflexivity. Qed.
    Lemma add_vec (a b : nat -> list G) xs ys : length xs = length ys -> sharings n t a xs -> sharings n t b ys ->
      sharings n t (fun i => sm_add_vec_assign (a i) (b i)) (map2 gadd xs ys : list G).
    Proof. intros E H K. rewrite <- zip_map2 by exact E. exact (sharings_zip _ (@sharing_add F FF G AG MD n t) H K). Qed.
    Theorem C18_add_vec (a b : nat -> list G) xs ys : length xs = length ys -> sharings n t a xs -> sharings n t b ys ->
      sharings n t (fun i => sm_add_vec_assign (a i) (b i)) (map2 gadd xs ys : list G).
    Proof. exact (@add_vec a b xs ys). Qed.
    Lemma sub_vec (a b : nat -> list G) xs ys : length xs = length ys -> sharings n t a xs -> sharings n t b ys ->
      sharings n t (fun i => sm_sub_vec_assign (a i) (b i)) (map2 (fun x y => x - y) xs ys : list G).
    Proof. intros E H K. rewrite <- zip_map2 by exact E. exact (sharings_zip _ (@sharing_sub F FF G AG MD n t) H K). Qed.
    Theorem C18_sub_vec (a b : nat -> list G) xs ys : length xs = length ys -> sharings n t a xs -> sharings n t b ys ->
      sharings n t (fun i => sm_sub_vec_assign (a i) (b i)) (map2 (fun x y => x - y) xs ys : list G).
    Proof. exact (@sub_vec a b xs ys). Qed.
    (** the product of two shares is a sharing of the product of degree 2t *)
    Lemma local_mul u v a x : sharing n t u v -> sharing n t a x -> sharing n (2 * t) (fun i => sm_local_mul (u i) (a i)) (smul v x).
    Proof. intros H K. replace (2 * t)%nat with (t + t)%nat by lia. exact (sharing_mul H K). Qed.
    Theorem C18_local_mul u v a x : sharing n t u v -> sharing n t a x -> sharing n (2 * t) (fun i => sm_local_mul (u i) (a i)) (smul v x).
    Proof. exact (@local_mul u v a x). Qed.
    Theorem C18_secret_determined a x y : sharing n t a x -> sharing n t a y -> x = y.
    Proof. exact (@sharing_unique F FF G AG MD n t a x y inj ltac:(lia)). Qed.
    Theorem C18_open gen L (st : nat -> sst) a x : sm_wf n t gen L st -> sharing n t a x ->
      all_okn n cap (fun i => sm_open (M := M) (a i) (st i)) (fun o => forall i, i < n -> o i = x).
    Proof. exact (fun W H => wpn_all_ok (sm_open_wp n2 nt c1 inj W H)). Qed.
    Theorem C18_open_half gen L (st : nat -> sst) a x : sm_wf n t gen L st -> sharing n (2 * t) a x ->
      all_okn n cap (fun i => sm_open_half (M := M) (a i) (st i)) (fun o => forall i, i < n -> o i = x).
    Proof. exact (fun W H => wpn_all_ok (sm_open_half_wp n2 nt c1 inj W H)). Qed.
    Theorem C18_open_vec gen L (st : nat -> sst) (a : nat -> list G) xs : sm_wf n t gen L st -> sharings n t a xs ->
      all_okn n cap (fun i => sm_open_vec (M := M) (a i) (st i)) (fun o => forall i, i < n -> o i = xs).
    Proof. exact (fun W H => wpn_all_ok (sm_open_vec_wp n2 nt c1 inj W H)). Qed.
    Theorem C18_mul_open gen L (st : nat -> sst) u v a x : sm_wf n t gen L st -> sharing n t u v -> sharing n t a x ->
      all_okn n cap (fun i => sm_mul_open (M := M) (u i) (a i) (st i)) (fun o => forall i, i < n -> o i = smul v x).
    Proof. exact (fun W Hu H => wpn_all_ok (sm_mul_open_wp n2 nt c1 inj W Hu H)). Qed.
    Theorem C18_mul_open_vec gen L (st : nat -> sst) (u : nat -> list F) vs (a : nat -> list G) xs : sm_wf n t gen L st ->
      length vs = length xs -> sharings n t u vs -> sharings n t a xs ->
      all_okn n cap (fun i => sm_mul_open_vec (M := M) (u i) (a i) (st i)) (fun o => forall i, i < n -> o i = map2 smul vs xs).
    Proof. exact (fun W El Hu H => wpn_all_ok (sm_mul_open_vec_wp n2 nt c1 inj W El Hu H)). Qed.
    (** C37: point operations special to points *)
    Theorem C37_shamir_public_point u v (p : G) : sharing n t u v -> sharing n t (fun i => sm_scalar_mul_public_point (u i) p) (smul v p).
    Proof. exact (@sharing_outer F FF G AG MD n t u v p). Qed.
    Lemma msm_sum : forall (ps : list G) vs, sm_msm_public_points ps vs = fold_right gadd 0 (map2 (fun p v => smul v p) ps vs).
    Proof.
      unfold sm_msm_public_points. enough (H : forall (ps : list G) vs acc, fold_left (fun acc q => acc + smul (snd q) (fst q)) (List.combine ps vs) acc =
        acc + fold_right gadd 0 (map2 (fun p v => smul v p) ps vs)) by (intros ps vs; rewrite H; apply gadd_0).
      induction ps as [|p ps IH]; intros [|v vs] acc; cbn [List.combine fold_left map2 fold_right fst snd]; try (symmetry; apply gadd_0_r).
      rewrite IH. symmetry. apply gadd_assoc.
    Qed.
    Lemma shamir_msm (ps : list G) (u : nat -> list F) vs : sharings n t u vs ->
      sharing n t (fun i => sm_msm_public_points ps (u i)) (fold_right gadd 0 (map2 (fun p v => smul v p) ps vs)).
    Proof. intros H. rewrite <- msm_sum. exact (sharing_msm ps H). Qed.
    Theorem C37_shamir_msm (ps : list G) (u : nat -> list F) vs : sharings n t u vs ->
      sharing n t (fun i => sm_msm_public_points ps (u i)) (fold_right gadd 0 (map2 (fun p v => smul v p) ps vs)).
    Proof. exact (@shamir_msm ps u vs). Qed.
    Theorem C37_shamir_open_point_and_field {EGF : Enc M (G * F)} gen L (st : nat -> sst) a x u v : sm_wf n t gen L st -> sharing n t a x -> sharing n t u v ->
      all_okn n cap (fun i => sm_open_point_and_field (M := M) (a i) (u i) (st i)) (fun o => forall i, i < n -> o i = (x, v)).
    Proof. exact (fun W H Hu => wpn_all_ok (sm_open_point_and_field_wp n2 nt c1 inj W H Hu)). Qed.
    Theorem C37_shamir_open_point_and_field_many {EGF : Enc M (list G * list F)} gen L (st : nat -> sst) (a : nat -> list G) xs (u : nat -> list F) vs :
      sm_wf n t gen L st -> sharings n t a xs -> sharings n t u vs ->
      all_okn n cap (fun i => sm_open_point_and_field_many (M := M) (a i) (u i) (st i)) (fun o => forall i, i < n -> o i = (xs, vs)).
    Proof. exact (fun W H Hu => wpn_all_ok (sm_open_point_and_field_many_wp n2 nt c1 inj W H Hu)). Qed.
    (** [g] is the generator constant of the group *)
    Theorem C37_shamir_scalar_mul (g : G) gen L (st : nat -> sst) a x u v : sm_wf n t gen L st -> sharing n t a x -> sharing n t u v ->
      all_okn n cap (fun i => sm_scalar_mul (M := M) g (a i) (u i) (st i)) (fun o => sharing n t (fun i => fst (o i)) (smul v x) /\
        exists pq gen' L', took t gen L pq gen' L' /\ sm_wf n t gen' L' (fun i => snd (o i))).
    Proof. exact (fun W H Hu => wpn_all_ok (sm_scalar_mul_wp n2 nt hcap inj g W H Hu)). Qed.
  End C18.
  Theorem C18_eval_poly threads (cs : list F) x : cs <> [] -> sm_eval_poly threads cs x = Some (peval cs x).
  Proof. exact (@sm_eval_poly_ok F FF threads cs x). Qed.

  (** ** C19: multiplication, inversion, division. [took t gen L pq gen' L']: the pair [pq] was the last of [L],
      or [L] was empty and [pq] is the last of [gen * (t+1)] new ones. *)
  Section C19.
    Implicit Types (st : nat -> sst) (a b : nat -> F) (x y : F).
    Theorem C19_mul gen L st a b x y : sm_wf n t gen L st -> sharing n t a x -> sharing n t b y ->
      all_okn n cap (fun i => sm_mul (M := M) (a i) (b i) (st i)) (fun o => sharing n t (fun i => fst (o i)) (x * y) /\
        exists pq gen' L', took t gen L pq gen' L' /\ sm_wf n t gen' L' (fun i => snd (o i))).
    Proof. exact (fun W H K => wpn_all_ok (sm_mul_wp n2 nt hcap inj W H K)). Qed.
    Theorem C19_mul_vec gen L st (a b : nat -> list F) xs ys : sm_wf n t gen L st -> length xs = length ys ->
      sharings n t a xs -> sharings n t b ys ->
      all_okn n cap (fun i => sm_mul_vec (M := M) (a i) (b i) (st i)) (fun o => sharings n t (fun i => fst (o i)) (map2 rmul xs ys) /\
        exists pqs gen' L', took_many t gen L pqs gen' L' /\ length pqs = length xs /\ sm_wf n t gen' L' (fun i => snd (o i))).
    Proof. exact (fun W El H K => wpn_all_ok (sm_mul_vec_wp n2 nt hcap inj W El H K)). Qed.
    Theorem C19_degree_reduce gen L st a x : sm_wf n t gen L st -> sharing n (2 * t) a x ->
      all_okn n cap (fun i => degree_reduce (M := M) (a i) (st i)) (fun o => sharing n t (fun i => fst (o i)) x /\
        exists pq gen' L', took t gen L pq gen' L' /\ sm_wf n t gen' L' (fun i => snd (o i))).
    Proof. exact (fun W H => wpn_all_ok (degree_reduce_wp n2 nt hcap inj W H)). Qed.
    (** inversion: all parties fail together exactly when the masked value is zero *)
    Theorem C19_inv gen L st a x : sm_wf n t gen L st -> sharing n t a x ->
      all_endn n cap (fun i => sm_inv (M := M) (a i) (st i)) (fun o => exists pq gen' L', took t gen L pq gen' L' /\
        (x * peval (fst pq) 0 = 0 -> forall i, o i = Failed (Eyre "Cannot compute inverse of zero")) /\
        (x * peval (fst pq) 0 <> 0 -> exists s st', (forall i, i < n -> o i = Done (s i, st' i)) /\ sharing n t s (finv x) /\ sm_wf n t gen' L' st')).
    Proof. exact (fun W H => wpon_all_end (sm_inv_wp n2 nt hcap inj W H)). Qed.
    Theorem C19_inv_vec gen L st (a : nat -> list F) xs : sm_wf n t gen L st -> sharings n t a xs ->
      all_endn n cap (fun i => sm_inv_vec (M := M) (a i) (st i)) (fun o => exists pqs gen' L', took_many t gen L pqs gen' L' /\ length pqs = length xs /\
        ((exists k, k < length xs /\ nth k xs 0 * nth k (map (fun pq => peval (fst pq) 0) pqs) 0 = 0) ->
           forall i, o i = Failed (Eyre "Cannot compute inverse of zero")) /\
        ((forall k, k < length xs -> nth k xs 0 * nth k (map (fun pq => peval (fst pq) 0) pqs) 0 <> 0) ->
           exists s st', (forall i, i < n -> o i = Done (s i, st' i)) /\ sharings n t s (map finv xs) /\ sm_wf n t gen' L' st')).
    Proof. exact (fun W H => wpon_all_end (sm_inv_vec_wp n2 nt hcap inj W H)). Qed.
    Theorem C19_div gen L st a b x y : sm_wf n t gen L st -> sharing n t a x -> sharing n t b y ->
      all_endn n cap (fun i => sm_div (M := M) (a i) (b i) (st i)) (fun o => exists pq gen' L', took t gen L pq gen' L' /\
        (y * peval (fst pq) 0 = 0 -> forall i, i < n -> o i = Failed (Eyre "Cannot compute inverse of zero")) /\
        (y * peval (fst pq) 0 <> 0 -> exists s st', (forall i, i < n -> o i = Done (s i, st' i)) /\ sharing n t s (x * finv y) /\ exists g l, sm_wf n t g l st')).
    Proof. exact (fun W H K => wpon_all_end (sm_div_wp n2 nt hcap inj W H K)). Qed.
    Theorem C19_div_public_by_shared gen L st b x y : sm_wf n t gen L st -> sharing n t b y ->
      all_endn n cap (fun i => sm_div_public_by_shared (M := M) x (b i) (st i)) (fun o => exists pq gen' L', took t gen L pq gen' L' /\
        (y * peval (fst pq) 0 = 0 -> forall i, i < n -> o i = Failed (Eyre "Cannot compute inverse of zero")) /\
        (y * peval (fst pq) 0 <> 0 -> exists s st', (forall i, i < n -> o i = Done (s i, st' i)) /\ sharing n t s (x * finv y) /\ exists g l, sm_wf n t g l st')).
    Proof. exact (fun W K => wpon_all_end (sm_div_public_by_shared_wp n2 nt hcap inj x W K)). Qed.
  End C19.

  (** ** C20: preprocessing *)
  Section C20.
    Context {Seed : Type} {SDS : Seeded Sg Seed} {DS : Draw Sg Seed} {ES : Enc M (list Seed)} (seed0 : Seed).
    Implicit Types st : nat -> sst.
    Theorem C20_preprocessing_new (seed : nat -> Seed) amount :
      all_okn n cap (fun i => preprocessing_new (M := M) (F := F) seed0 i (seed i) n t amount) (fun st =>
        exists L, amount <= length L /\ length L < amount + S t /\ sm_wf n t 1024 L st)%nat.
    Proof. exact (wpn_all_ok (preprocessing_new_wp seed0 n2 nt hcap inj seed amount)). Qed.
    Theorem C20_get_pair gen L st : sm_wf n t gen L st ->
      all_okn n cap (fun i => get_pair (M := M) (st i)) (fun o => exists pq gen' L', took t gen L pq gen' L' /\ dpair t pq /\
        (forall i, i < n -> fst (o i) = evals i pq) /\ sm_wf n t gen' L' (fun i => snd (o i))).
    Proof. exact (fun W => wpn_all_ok (get_pair_wp n2 nt hcap inj W)). Qed.
    (** what a well-formed pair means in terms of sharings *)
    Lemma pair_sharings (pq : list F * list F) : dpair t pq -> exists r, sharing n t (fun i => fst (evals i pq)) r /\ sharing n (2 * t) (fun i => snd (evals i pq)) r.
    Proof.
      intros (D1 & D2 & D3). exists (peval (fst pq) 0). split; [exact (sharing_poly n (d := t) (fst pq) D1)|].
      rewrite D3. exact (sharing_poly n (d := 2 * t) (snd pq) D2).
    Qed.
    Theorem C20_pair_sharings (pq : list F * list F) : dpair t pq ->
      exists r, sharing n t (fun i => fst (evals i pq)) r /\ sharing n (2 * t) (fun i => snd (evals i pq)) r.
    Proof. exact (@pair_sharings pq). Qed.
    Theorem C20_buffer_triples num gen L st : sm_wf n t gen L st ->
      all_okn n cap (fun i => sm_buffer_triples (M := M) num (st i)) (fun st' => exists L', num <= length (L ++ L') /\
        (num <= length L -> L' = []) /\ sm_wf n t gen (L ++ L') st').
    Proof. exact (fun W => wpn_all_ok (sm_buffer_triples_wp n2 nt hcap inj num W)). Qed.
    Theorem C20_fork amount gen L st : sm_wf n t gen L st -> amount <= length L ->
      exists c p, (forall i, i < n -> sm_fork (Seed := Seed) amount (st i) = Done (c i, p i)) /\
        sm_wf n t gen (firstn amount L) c /\ sm_wf n t gen (skipn amount L) p.
    Proof. exact (@sm_fork_ok F FF Sg n t cap n2 nt hcap Seed SDS DS amount gen L st). Qed.
    Theorem C20_fork_panics amount gen L st : sm_wf n t gen L st -> length L < amount ->
      forall i, i < n -> sm_fork (Seed := Seed) amount (st i) = Failed (Panic "not enough corr rand pairs").
    Proof. exact (@sm_fork_fail F FF Sg n t Seed SDS DS amount gen L st). Qed.
    (** Every history: a script of get_pair/buffer_triples/fork calls over the growing list of states,
        the same at all parties.  Either all parties panic in the same way, or the pairs handed out are the same
        double sharings at all parties, in the same order, and together with those still buffered in the final
        states they are exactly (as a multiset) the initial ones and the freshly generated ones. *)
    Lemma history (ops : list sop) gen L st : sm_wf n t gen L st ->
      all_endn n cap (fun i => run_script (M := M) (Seed := Seed) ops [st i]) (fun o =>
        (exists e, forall i, i < n -> o i = Failed e) \/
        exists handed fresh Ls' fs', (forall i, i < n -> o i = Done (map (evals i) handed, at_party i fs')) /\ all_wf n t Ls' fs' /\
          Forall (dpair t) handed /\ Permutation (L ++ fresh) (handed ++ concat Ls')).
    Proof.
      intros W. eapply wpon_all_end, wpon_mono; [|apply (run_script_wp (Seed := Seed) n2 nt hcap inj ops (Ls := [L]) (fs := [st]))].
      - intros o [H|(handed & fresh & Ls' & fs' & H1 & H2 & H3 & H4)]; [left; exact H|right]. exists handed, fresh, Ls', fs'.
        cbn [concat] in H4. rewrite app_nil_r in H4. auto.
      - constructor; [exists gen; exact W|constructor].
    Qed.
    Theorem C20_history (ops : list sop) gen L st : sm_wf n t gen L st ->
      all_endn n cap (fun i => run_script (M := M) (Seed := Seed) ops [st i]) (fun o =>
        (exists e, forall i, i < n -> o i = Failed e) \/
        exists handed fresh Ls' fs', (forall i, i < n -> o i = Done (map (evals i) handed, at_party i fs')) /\ all_wf n t Ls' fs' /\
          Forall (dpair t) handed /\ Permutation (L ++ fresh) (handed ++ concat Ls')).
    Proof. exact (@history ops gen L st). Qed.
    (** the whole protocol: set up, share, multiply, open *)
    Lemma setup_mul_open (seed : nat -> Seed) amount (a b : nat -> F) x y : sharing n t a x -> sharing n t b y ->
      wpn n cap (fun i => st <- preprocessing_new (M := M) seed0 i (seed i) n t amount ;; m <- sm_mul (a i) (b i) st ;; sm_open (fst m) (snd m))
        (fun o => forall i, i < n -> o i = x * y).
    Proof.
      intros Ha Hb. apply wpn_bind. eapply wpn_mono; [|apply (preprocessing_new_wp seed0 n2 nt hcap inj seed amount)]. intros st (L & _ & _ & W).
      apply wpn_bind. eapply wpn_mono; [|apply (sm_mul_wp n2 nt hcap inj W Ha Hb)]. intros o (So & pq & gen' & L' & _ & W').
      apply (sm_open_wp n2 nt c1 inj W' So).
    Qed.
    Theorem C20_setup_mul_open (seed : nat -> Seed) amount (a b : nat -> F) x y : sharing n t a x -> sharing n t b y ->
      all_okn n cap (fun i => st <- preprocessing_new (M := M) seed0 i (seed i) n t amount ;; m <- sm_mul (a i) (b i) st ;; sm_open (fst m) (snd m))
        (fun o => forall i, i < n -> o i = x * y).
    Proof. exact (fun Ha Hb => wpn_all_ok (setup_mul_open seed amount Ha Hb)). Qed.
    (** too large a threshold is an error at every party *)
    Lemma threshold_error m u i (seed : Seed) amount : (m < 2 * u + 1)%nat ->
      preprocessing_new (M := M) (F := F) seed0 i seed m u amount = Fail (Eyre "Threshold too large for number of parties").
    Proof. intros H. unfold preprocessing_new. rewrite (proj2 (Nat.ltb_lt _ _) H). reflexivity. Qed.
    Theorem C20_threshold_error m u i (seed : Seed) amount : (m < 2 * u + 1)%nat ->
      preprocessing_new (M := M) (F := F) seed0 i seed m u amount = Fail (Eyre "Threshold too large for number of parties").
    Proof. exact (@threshold_error m u i seed amount). Qed.
  End C20.

  (** ** C21: bridges *)
  Section C21.
    (** [translate_primefield_addshare]: additive shares among all n = 2t+1 parties *)
    Theorem C21_addshare gen L (st : nat -> sst) (x : nat -> F) : n = (2 * t + 1)%nat -> sm_wf n t gen L st ->
      all_okn n cap (fun i => translate_addshare (M := M) (x i) (st i)) (fun o => sharing n t (fun i => fst (o i)) (sumn n x) /\
        exists pq gen' L', took t gen L pq gen' L' /\ sm_wf n t gen' L' (fun i => snd (o i))).
    Proof. exact (fun En W => wpn_all_ok (translate_addshare_wp n2 nt hcap inj x En W)). Qed.
    Theorem C21_addshare_vec gen L (st : nat -> sst) (v : nat -> list F) xs : n = (2 * t + 1)%nat -> sm_wf n t gen L st ->
      (forall i, i < n -> length (v i) = length xs) -> (forall k, k < length xs -> nth k xs 0 = sumn n (fun i => nth k (v i) 0)) ->
      all_okn n cap (fun i => translate_addshare_vec (M := M) (v i) (st i)) (fun o => sharings n t (fun i => fst (o i)) xs /\
        exists pqs gen' L', took_many t gen L pqs gen' L' /\ length pqs = length xs /\ sm_wf n t gen' L' (fun i => snd (o i))).
    Proof. exact (fun En W El Hx => wpn_all_ok (translate_addshare_vec_wp n2 nt hcap inj v xs En W El Hx)). Qed.
  End C21.
End Net.

(** replicated (point) shares to Shamir shares: [G] is the field itself or a group *)
Section Rep3Bridge.
  Context {F : Type} {FF : Fld F} {G : Type} {AG : AbGrp G} {MD : Mod F G}.
  Hypothesis inj : forall a b, a <= 3 -> b <= 3 -> fnat a = (fnat b : F) -> a = b.
  Definition pid_of (i : nat) : pid := match i with 0 => P0 | 1 => P1 | _ => P2 end.
  Lemma repshare (a : pid -> share G) x : shares a x ->
    exists s, (forall i, i < 3 -> translate_repshare (F := F) (sa (a (pid_of i))) (sb (a (pid_of i))) i = Some (s i)) /\ sharing 3 1 s x.
  Proof.
    intros [R A]. destruct (@translate_repshare_ok F FF G AG MD inj (sa (a P0)) (sa (a P1)) (sa (a P2))) as (s & S0 & S1 & S2 & Hs). exists s. split.
    - intros [|[|[|i]]] Hi; try lia; cbn [pid_of]; rewrite R; assumption.
    - unfold additive in A. rewrite <- A. exact Hs.
  Qed.
  Theorem C21_repshare (a : pid -> share G) x : shares a x ->
    exists s, (forall i, i < 3 -> translate_repshare (F := F) (sa (a (pid_of i))) (sb (a (pid_of i))) i = Some (s i)) /\ sharing 3 1 s x.
  Proof. exact (@repshare a x). Qed.
  Lemma repshare_vec (a : pid -> list (share G)) xs : shares_vec a xs ->
    exists s, (forall i, i < 3 -> translate_repshare_vec (F := F) (map (fun h => (sa h, sb h)) (a (pid_of i))) i = Some (s i)) /\ sharings 3 1 s xs.
  Proof.
    intros H. assert (K : exists x, (forall i, i < 3 -> map (fun h => (sa h, sb h)) (a (pid_of i)) = map (fun q => match i with
        | 0 => (fst (fst q), snd q) | 1 => (snd (fst q), fst (fst q)) | _ => (snd q, snd (fst q)) end) x) /\ xs = map (fun q => fst (fst q) + snd (fst q) + snd q : G) x).
    { revert a H. induction xs as [|x xs IH]; intros a H.
      - exists []. split; [|reflexivity]. intros i Hi. rewrite (pvec_nil_inv H). reflexivity.
      - destruct (pvec_cons_inv H) as (h & tl & Ea & [R A] & Ht). destruct (IH tl Ht) as (q & Q1 & Q2).
        exists ((sa (h P0), sa (h P1), sa (h P2)) :: q). split.
        + intros i Hi. rewrite Ea. cbn [map]. rewrite Q1 by exact Hi. f_equal. destruct i as [|[|[|i]]]; try lia; cbn [pid_of fst snd]; rewrite R; reflexivity.
        + cbn [map fst snd]. unfold additive in A. rewrite A, <- Q2. reflexivity. }
    destruct K as (x & K1 & ->). pose proof (@translate_repshare_vec_ok F FF G AG MD inj (fun i => map (fun h => (sa h, sb h)) (a (pid_of i))) x) as T.
    apply T; [apply (K1 0%nat)|apply (K1 1%nat)|apply (K1 2%nat)]; lia.
  Qed.
  Theorem C21_repshare_vec (a : pid -> list (share G)) xs : shares_vec a xs ->
    exists s, (forall i, i < 3 -> translate_repshare_vec (F := F) (map (fun h => (sa h, sb h)) (a (pid_of i))) i = Some (s i)) /\ sharings 3 1 s xs.
  Proof. exact (@repshare_vec a xs). Qed.
End Rep3Bridge.

(** ** Findings *)
(** With channels of capacity 1 the preprocessing of 4 parties with threshold 1 deadlocks: both batches of
    shares are sent before any is received (rngs.rs:355-417). *)
Definition seeds13 (i : nat) : Z := (Z.of_nat i * 1000000007 + 1234567)%Z.
Lemma capacity_one : exists n t : nat, 2 <= n /\ (2 * t + 1 <= n)%nat /\ (forall a b, a <= n -> b <= n -> fnat a = (fnat b : F13) -> a = b) /\
  forall Q, ~ all_endn n 1 (fun i => preprocessing_new (M := smsg) (F := F13) 0%Z i (seeds13 i) n t 1) Q.
Proof.
  exists 4, 1. split; [lia|]. split; [lia|]. split; [apply inj13; lia|]. intros Q. apply (@deadlock smsg _ 4 1 (round_robin 4 30) _ 0).
  vm_compute. auto.
Qed.
Theorem C20_capacity_one_refuted : exists n t : nat, 2 <= n /\ (2 * t + 1 <= n)%nat /\ (forall a b, a <= n -> b <= n -> fnat a = (fnat b : F13) -> a = b) /\
  forall Q, ~ all_endn n 1 (fun i => preprocessing_new (M := smsg) (F := F13) 0%Z i (seeds13 i) n t 1) Q.
Proof. exact capacity_one. Qed.
(** A single party with threshold 0 passes the threshold check and then panics. *)
Lemma single_party : preprocessing_new (M := smsg) (F := F13) 0%Z 0 5%Z 1 0 1 = Fail (Panic "attempt to subtract with overflow").
Proof. vm_compute. reflexivity. Qed.
Theorem C20_single_party_refuted : preprocessing_new (M := smsg) (F := F13) 0%Z 0 5%Z 1 0 1 = Fail (Panic "attempt to subtract with overflow").
Proof. exact single_party. Qed.
(** [translate_primefield_addshare] is wrong when there are more than 2t+1 parties: the value opened is not the sum. *)
Definition outs {A} (n : nat) (c : config (P := nat) (M := smsg) A) : list (option A) :=
  map (fun i => match pr c i with Ret a => Some a | _ => None end) (seq 0 n).
Definition run_all {A} (n cap rounds : nat) (ps : nat -> prog nat smsg A) : list (option A) := outs n (exec_all n cap (round_robin n rounds) (init ps)).

(** ** Examples *)
Definition ex_prog (n t : nat) (a b : nat -> F13) (i : nat) : prog nat smsg F13 :=
  st <- preprocessing_new (M := smsg) 0%Z i (seeds13 i) n t 3 ;; m <- sm_mul (a i) (b i) st ;; sm_open (fst m) (snd m).
(** the protocol run by the executable scheduler: (8 + 3X)(9 + 5X) opens to 72 mod 13 = 7 at all parties *)
Example ex_run : map (option_map val) (run_all 3 1 100 (ex_prog 3 1 (ss13 8 3) (ss13 9 5))) = repeat (Some 7%Z) 3.
Proof. vm_compute. reflexivity. Qed.
Example ex_run_5 : map (option_map val) (run_all 5 2 200 (ex_prog 5 2 (fun i => ss13 8 3 i + rmul (fnat 7) (rmul (fnat (S i)) (fnat (S i)))) (ss13 9 5))) = repeat (Some 7%Z) 5.
Proof. vm_compute. reflexivity. Qed.
Lemma ss13_sharing n v a : sharing n 1 (ss13 v a) (f13 v).
Proof.
  exists [f13 v; f13 a]. assert (V : forall k, fnat k = f13 (Z.of_nat k)).
  { induction k as [|k IH]; [reflexivity|]. cbn [fnat]. rewrite IH. rewrite Nat2Z.inj_succ. unfold Z.succ. rewrite ofZ_add.
    change (rone : F13) with (f13 1). grp. }
  split; [cbn; lia|]. split.
  - cbn [peval]. rewrite smul_0_l. apply gadd_0_r.
  - intros i Hi. unfold ss13. cbn [peval]. rewrite smul_0_r, gadd_0_r, V. change (smul (f13 (Z.of_nat (S i))) (f13 a)) with (rmul (f13 (Z.of_nat (S i))) (f13 a)).
    rewrite <- ofZ_mul, <- ofZ_add. f_equal. lia.
Qed.
Lemma cap_ok_31 : cap_ok 3 1 1.
Proof. right. cbn. lia. Qed.
Lemma ex_state : exists L st, 3 <= length L /\ sm_wf (Sg := Z) (F := F13) 3 1 1024 L st.
Proof.
  destruct (@preprocessing_new_wp smsg F13 _ Z draw13 _ Z _ _ _ 0%Z 3 1 1 ltac:(lia) ltac:(lia) cap_ok_31 (@inj13 3 ltac:(lia)) seeds13 3) as (st & _ & L & H1 & _ & H2).
  exists L, st. auto.
Qed.
Example ex_C17 : combine_field_element (map (fun i => nth i (fst (sm_share (Sg := Z) (f13 8) 5 2 42%Z)) 0) [4; 0; 2]%nat) (map S [4; 0; 2]%nat) 2 = Done (f13 8).
Proof. apply C17_roundtrip; [apply inj13; lia|repeat constructor; cbn; intuition lia|cbn; intuition lia|cbn; lia]. Qed.
Example ex_C18 : exists L (st : nat -> sst (Sg := Z)), sm_wf 3 1 1024 L st /\
  all_okn 3 1 (fun i => sm_open (M := smsg) (sm_add (ss13 8 3 i) (ss13 9 5 i)) (st i)) (fun o => forall i, i < 3 -> o i = f13 8 + f13 9).
Proof.
  destruct ex_state as (L & st & _ & W). exists L, st. split; [exact W|].
  exact (C18_open (n := 3) (t := 1) ltac:(lia) ltac:(lia) cap_ok_31 (@inj13 3 ltac:(lia)) W (C18_add (ss13_sharing 3 8 3) (ss13_sharing 3 9 5))).
Qed.
Example ex_C19 : exists L (st : nat -> sst (Sg := Z)), sm_wf 3 1 1024 L st /\
  all_okn 3 1 (fun i => sm_mul (M := smsg) (ss13 8 3 i) (ss13 9 5 i) (st i)) (fun o => sharing 3 1 (fun i => fst (o i)) (rmul (f13 8) (f13 9)) /\
    exists pq gen' L', took 1 1024 L pq gen' L' /\ sm_wf 3 1 gen' L' (fun i => snd (o i))).
Proof.
  destruct ex_state as (L & st & _ & W). exists L, st. split; [exact W|].
  exact (C19_mul (n := 3) (t := 1) ltac:(lia) ltac:(lia) cap_ok_31 (@inj13 3 ltac:(lia)) W (ss13_sharing 3 8 3) (ss13_sharing 3 9 5)).
Qed.
(** a script with a refill, a fork, and pairs taken from both; nobody panics *)
Definition ex_script : list sop := [OGet 0; OBuffer 0 5; OFork 0 2; OGet 1; OGet 0; OGet 1].
Example ex_C20_vandermonde : map (map val) (create_vandermonde_matrix (F := F13) 5 2) = [[1; 1; 1; 1; 1]; [1; 2; 3; 4; 5]; [1; 4; 9; 3; 12]]%Z.
Proof. vm_compute. reflexivity. Qed.
Example ex_C20_script : map (option_map (fun r => (length (fst r), length (snd r)))) (run_all 3 1 300 (fun i =>
  st <- preprocessing_new (M := smsg) (F := F13) 0%Z i (seeds13 i) 3 1 3 ;; run_script (Seed := Z) ex_script [st])) = repeat (Some (4, 2)%nat) 3.
Proof. vm_compute. reflexivity. Qed.
Example ex_C21 : exists s : nat -> F13, (forall i, i < 3 -> translate_repshare (sa (sh13 8 3 4 (pid_of i))) (sb (sh13 8 3 4 (pid_of i))) i = Some (s i)) /\ sharing 3 1 s (f13 8).
Proof. exact (C21_repshare (@inj13 3 ltac:(lia)) (sh13_shares 8 3 4)). Qed.
(** four additive shares among n = 4 parties with t = 1 (n <> 2t+1): the translated shares do not open to the sum *)
Lemma addshare_n : exists n t : nat, (2 * t + 1 < n)%nat /\ exists x : nat -> F13,
  map (option_map val) (run_all n 2 200 (fun i => st <- preprocessing_new (M := smsg) (F := F13) 0%Z i (seeds13 i) n t 3 ;;
    m <- translate_addshare (x i) st ;; sm_open (fst m) (snd m))) <> repeat (Some (val (sumn n x))) n.
Proof. exists 4, 1. split; [lia|]. exists (fun i => f13 (Z.of_nat i + 1)). vm_compute. discriminate. Qed.
Theorem C21_addshare_more_parties_refuted : exists n t : nat, (2 * t + 1 < n)%nat /\ exists x : nat -> F13,
  map (option_map val) (run_all n 2 200 (fun i => st <- preprocessing_new (M := smsg) (F := F13) 0%Z i (seeds13 i) n t 3 ;;
    m <- translate_addshare (x i) st ;; sm_open (fst m) (snd m))) <> repeat (Some (val (sumn n x))) n.
Proof. exact addshare_n. Qed.

Print Assumptions C17_share_is_sharing.
Print Assumptions C17_shares_are_sharings.
Print Assumptions C17_combine.
Print Assumptions C17_combine_vec.
Print Assumptions C17_roundtrip.
Print Assumptions C17_too_few_shares.
Print Assumptions C17_length_mismatch.
Print Assumptions C17_duplicate_indices_refuted.
Print Assumptions C18_add.
Print Assumptions C18_sub.
Print Assumptions C18_neg.
Print Assumptions C18_add_public.
Print Assumptions C18_sub_public.
Print Assumptions C18_mul_public.
Print Assumptions C18_promote.
Print Assumptions C18_div_shared_by_public.
Print Assumptions C18_add_vec.
Print Assumptions C18_sub_vec.
Print Assumptions C18_local_mul.
Print Assumptions C18_secret_determined.
Print Assumptions C18_open.
Print Assumptions C18_open_half.
Print Assumptions C18_open_vec.
Print Assumptions C18_mul_open.
Print Assumptions C18_mul_open_vec.
Print Assumptions C37_shamir_public_point.
Print Assumptions C37_shamir_msm.
Print Assumptions C37_shamir_open_point_and_field.
Print Assumptions C37_shamir_open_point_and_field_many.
Print Assumptions C37_shamir_scalar_mul.
Print Assumptions C18_eval_poly.
Print Assumptions C18_broadcast.
Print Assumptions C20_vandermonde.
Print Assumptions C19_mul.
Print Assumptions C19_mul_vec.
Print Assumptions C19_degree_reduce.
Print Assumptions C19_inv.
Print Assumptions C19_inv_vec.
Print Assumptions C19_div.
Print Assumptions C19_div_public_by_shared.
Print Assumptions C20_preprocessing_new.
Print Assumptions C20_get_pair.
Print Assumptions C20_pair_sharings.
Print Assumptions C20_buffer_triples.
Print Assumptions C20_fork.
Print Assumptions C20_fork_panics.
Print Assumptions C20_history.
Print Assumptions C20_setup_mul_open.
Print Assumptions C20_threshold_error.
Print Assumptions C21_addshare.
Print Assumptions C21_addshare_vec.
Print Assumptions C21_repshare.
Print Assumptions C21_repshare_vec.
Print Assumptions C20_capacity_one_refuted.
Print Assumptions C20_single_party_refuted.
Print Assumptions C21_addshare_more_parties_refuted.
