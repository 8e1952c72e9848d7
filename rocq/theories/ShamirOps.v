(** * Shamir protocol: degree reduction, multiplication, inversion, bridge from replicated shares *)
From Coq Require Import FinFun Permutation String List Arith Lia Bool Ring.
From Verif Require Import Proc Alg NNet Rep3 Rep3Proofs ShamirPoly Shamir ShamirAlg ShamirSpec ShamirRng ShamirDeal ShamirWp ShamirRed.
Import ListNotations.
Set Implicit Arguments.
Local Open Scope grp_scope.

Lemma map2_map_r {A B B' C} (f : A -> B -> C) (g : B' -> B) : forall l m, map2 f l (map g m) = map2 (fun a b => f a (g b)) l m.
Proof. induction l as [|a l IH]; intros [|b m]; cbn; try reflexivity. rewrite IH. reflexivity. Qed.

Section OpsWp.
  Context {M : Type} {F : Type} {FF : Fld F} {Sg : Type} {DF : Draw Sg F} {EF : Enc M (list F)}.
  Notation sst := (sst (F := F) (Sg := Sg)).
  Add Ring FringP : (@cring_theory F _).
  Infix "*" := rmul : grp_scope.
  Notation "1" := rone : grp_scope.
  Variables (n t cap : nat).
  Hypothesis n2 : 2 <= n.
  Hypothesis nt : (2 * t + 1 <= n)%nat.
  Hypothesis hcap : cap_ok n t cap.
  Hypothesis inj : forall a b, a <= n -> b <= n -> fnat a = (fnat b : F) -> a = b.
  Let c1 : 1 <= cap. Proof. unfold cap_ok in hcap. lia. Qed.

  Lemma sharings_fst pqs : Forall (dpair t) pqs -> sharings n t (fun i => map fst (map (evals i) pqs)) (map (fun pq => peval (fst pq) 0) pqs).
  Proof.
    intros D. eapply sharings_ext; [|pose proof (@sharings_polys F FF F _ _ n t (map fst pqs)) as P; rewrite map_map in P; apply P].
    - intros i Hi. rewrite !map_map. reflexivity.
    - rewrite Forall_map. eapply Forall_impl; [|exact D]. intros pq Hp. apply Hp.
  Qed.
  Lemma sharings_snd pqs : Forall (dpair t) pqs -> sharings n (2 * t) (fun i => map snd (map (evals i) pqs)) (map (fun pq => peval (fst pq) 0) pqs).
  Proof.
    intros D. replace (map (fun pq => peval (fst pq) 0) pqs) with (map (fun c => peval c 0) (map snd pqs)).
    - eapply sharings_ext; [|apply sharings_polys].
      + intros i Hi. cbv beta. rewrite !map_map. reflexivity.
      + rewrite Forall_map. eapply Forall_impl; [|exact D]. intros pq Hp. apply Hp.
    - rewrite map_map. apply map_ext_in. intros pq Hp. rewrite Forall_forall in D. symmetry. apply (D pq Hp).
  Qed.
  Lemma degree_reduce_many_wp gen L (st : nat -> sst) (inp : nat -> list F) xs : sm_wf n t gen L st -> sharings n (2 * t) inp xs ->
    wpn n cap (fun i => degree_reduce_many (M := M) (inp i) (st i)) (fun o => sharings n t (fun i => fst (o i)) xs /\
      exists pqs gen' L', took_many t gen L pqs gen' L' /\ length pqs = length xs /\ sm_wf n t gen' L' (fun i => snd (o i))).
  Proof.
    intros W H. unfold degree_reduce_many. apply wpn_bind.
    apply wpn_ext with (qs := fun i => get_pairs (length xs) (st i)); [intros i Hi; rewrite (proj1 H i Hi); reflexivity|].
    eapply wpn_mono; [|apply (get_pairs_wp n2 nt hcap inj (length xs) W)].
    intros o (pqs & gen' & L' & T & El & D & E & W'). apply wpn_bind.
    set (rs := map (fun pq => peval (fst pq) 0) pqs).
    assert (Er : length rs = length xs) by (unfold rs; rewrite map_length; exact El).
    assert (HS : sharings n (2 * t) (fun i => map2 (fun i0 r => i0 + snd r) (inp i) (fst (o i))) (map2 gadd xs rs)).
    { eapply sharings_ext; [|refine (@sharings_map2 F FF F _ _ n F _ _ F _ _ (2 * t) (2 * t) (2 * t) gadd inp (fun i => map snd (map (evals i) pqs)) xs rs _ (eq_sym Er) H (sharings_snd D))].
      - intros i Hi. cbv beta. rewrite E by exact Hi. symmetry. apply (map2_map_r gadd snd).
      - intros. apply sharing_add; assumption. }
    eapply wpn_mono; [|apply (reduce_core_wp n2 nt hcap inj W' HS)].
    intros sh Hsh. apply wpn_ret. cbn [fst snd]. split; [|exists pqs, gen', L'; repeat (split; [assumption|]); exact W'].
    assert (Ex : map2 gsub (map2 gadd xs rs) rs = xs).
    { revert Er. generalize rs. clear. induction xs as [|x xs IH]; intros [|r rs] E; cbn in *; try lia; [reflexivity|]. rewrite IH by lia. f_equal. grp. }
    rewrite <- Ex. assert (El2 : length (map2 gadd xs rs) = length rs) by (rewrite length_map2_min; symmetry; exact Er || (symmetry; exact Er)).
    eapply sharings_ext; [|refine (@sharings_map2 F FF F _ _ n F _ _ F _ _ t t t gsub sh (fun i => map fst (map (evals i) pqs)) _ rs _ El2 Hsh (sharings_fst D))].
    - intros i Hi. cbv beta. rewrite E by exact Hi. symmetry. apply (map2_map_r gsub fst).
    - intros. apply sharing_sub; assumption.
  Qed.
  Lemma took_many_1 gen L pqs gen' L' : took_many (F := F) t gen L pqs gen' L' -> length pqs = 1%nat -> exists pq, took t gen L pq gen' L'.
  Proof.
    intros T E. destruct pqs as [|pq [|? ?]]; try discriminate. inversion T as [|? ? ? ? ? ? ? ? T1 T2]; subst. inversion T2; subst. exists pq. exact T1.
  Qed.
  Lemma degree_reduce_wp gen L (st : nat -> sst) (inp : nat -> F) x : sm_wf n t gen L st -> sharing n (2 * t) inp x ->
    wpn n cap (fun i => degree_reduce (M := M) (inp i) (st i)) (fun o => sharing n t (fun i => fst (o i)) x /\
      exists pq gen' L', took t gen L pq gen' L' /\ sm_wf n t gen' L' (fun i => snd (o i))).
  Proof.
    intros W H. unfold degree_reduce. apply wpn_bind. eapply wpn_mono; [|apply (degree_reduce_many_wp (inp := fun i => [inp i]) (xs := [x]) W)].
    - intros o (S1 & pqs & gen' & L' & T & El & W'). destruct (took_many_1 T El) as (pq & T').
      apply wpn_ret_ext with (a := fun i => (nth 0 (fst (o i)) 0, snd (o i))).
      + intros i Hi. pose proof (proj1 S1 i Hi) as E. cbv beta in E. destruct (fst (o i)) as [|y [|? ?]]; try discriminate. reflexivity.
      + cbn [fst snd]. split; [exact (proj2 S1 O (Nat.lt_0_succ 0))|]. exists pq, gen', L'. split; assumption.
    - apply sharings_1. exact H.
  Qed.
  Lemma degree_reduce_point_wp {G} {AG : AbGrp G} {MD : Mod F G} {EG : Enc M (list G)} (g : G) gen L (st : nat -> sst) (inp : nat -> G) x :
    sm_wf n t gen L st -> sharing n (2 * t) inp x ->
    wpn n cap (fun i => degree_reduce_point (M := M) g (inp i) (st i)) (fun o => sharing n t (fun i => fst (o i)) x /\
      exists pq gen' L', took t gen L pq gen' L' /\ sm_wf n t gen' L' (fun i => snd (o i))).
  Proof.
    intros W H. unfold degree_reduce_point. apply wpn_bind. eapply wpn_mono; [|apply (get_pair_wp n2 nt hcap inj W)].
    intros o (pq & gen' & L' & T & D & E & W'). apply wpn_bind.
    assert (S1 : sharing n t (fun i => fst (fst (o i))) (peval (fst pq) 0)).
    { eapply sharing_ext; [|apply (sharing_poly n (d := t) (fst pq)); apply D]. intros i Hi. cbn. rewrite E by exact Hi. reflexivity. }
    assert (S2 : sharing n (2 * t) (fun i => snd (fst (o i))) (peval (fst pq) 0)).
    { destruct D as (_ & D2 & D3). rewrite D3. eapply sharing_ext; [|apply (sharing_poly n (snd pq) D2)]. intros i Hi. cbn. rewrite E by exact Hi. reflexivity. }
    eapply wpn_mono; [|apply (reduce_core_wp n2 nt hcap inj (inp := fun i => [inp i + smul (snd (fst (o i))) g]) (xs := [x + smul (peval (fst pq) 0) g]) W')].
    - intros sh Hsh. apply wpn_ret_ext with (a := fun i => (nth 0 (sh i) 0 - smul (fst (fst (o i))) g, snd (o i))).
      + intros i Hi. pose proof (proj1 Hsh i Hi) as El. destruct (sh i) as [|y [|? ?]]; try discriminate. reflexivity.
      + cbn [fst snd]. split; [|exists pq, gen', L'; split; assumption].
        eapply sharing_val; [|apply (sharing_sub (proj2 Hsh O (Nat.lt_0_succ 0)) (sharing_outer g S1))]. cbn [nth]. grp.
    - apply (proj1 (sharings_1 n (2 * t) (fun i => inp i + smul (snd (fst (o i))) g) (x + smul (peval (fst pq) 0) g))). apply sharing_add; [exact H|]. exact (sharing_outer g S2).
  Qed.

  (** ** Multiplication *)
  Lemma sm_mul_wp gen L (st : nat -> sst) (a b : nat -> F) x y : sm_wf n t gen L st -> sharing n t a x -> sharing n t b y ->
    wpn n cap (fun i => sm_mul (M := M) (a i) (b i) (st i)) (fun o => sharing n t (fun i => fst (o i)) (x * y) /\
      exists pq gen' L', took t gen L pq gen' L' /\ sm_wf n t gen' L' (fun i => snd (o i))).
  Proof.
    intros W Ha Hb. unfold sm_mul. apply (degree_reduce_wp (inp := fun i => a i * b i) (x := x * y) W).
    replace (2 * t)%nat with (t + t)%nat by lia. exact (sharing_mul Ha Hb).
  Qed.
  Lemma sm_mul_vec_wp gen L (st : nat -> sst) (a b : nat -> list F) xs ys : sm_wf n t gen L st -> length xs = length ys ->
    sharings n t a xs -> sharings n t b ys ->
    wpn n cap (fun i => sm_mul_vec (M := M) (a i) (b i) (st i)) (fun o => sharings n t (fun i => fst (o i)) (map2 rmul xs ys) /\
      exists pqs gen' L', took_many t gen L pqs gen' L' /\ length pqs = length xs /\ sm_wf n t gen' L' (fun i => snd (o i))).
  Proof.
    intros W El Ha Hb. unfold sm_mul_vec. rewrite <- (length_map2_min rmul xs ys El).
    apply (degree_reduce_many_wp (inp := fun i => map2 rmul (a i) (b i)) (xs := map2 rmul xs ys) W).
    replace (2 * t)%nat with (t + t)%nat by lia.
    refine (@sharings_map2 F FF F _ _ n F _ _ F _ _ (t + t) t t rmul a b xs ys _ El Ha Hb).
    intros s s' x y Hs Hs'. exact (sharing_mul Hs Hs').
  Qed.
  Lemma sm_scalar_mul_wp {G} {AG : AbGrp G} {MD : Mod F G} {EG : Enc M (list G)} (g : G) gen L (st : nat -> sst) (a : nat -> G) (b : nat -> F) x y :
    sm_wf n t gen L st -> sharing n t a x -> sharing n t b y ->
    wpn n cap (fun i => sm_scalar_mul (M := M) g (a i) (b i) (st i)) (fun o => sharing n t (fun i => fst (o i)) (smul y x) /\
      exists pq gen' L', took t gen L pq gen' L' /\ sm_wf n t gen' L' (fun i => snd (o i))).
  Proof.
    intros W Ha Hb. unfold sm_scalar_mul. apply (degree_reduce_point_wp g (inp := fun i => smul (b i) (a i)) (x := smul y x) W).
    replace (2 * t)%nat with (t + t)%nat by lia. exact (sharing_mul Hb Ha).
  Qed.

  (** ** Inversion and division *)
  Context {EF1 : Enc M F}.
  Lemma sm_inv_wp gen L (st : nat -> sst) (a : nat -> F) x : sm_wf n t gen L st -> sharing n t a x ->
    wpon n cap (fun i => sm_inv (M := M) (a i) (st i)) (fun o => exists pq gen' L', took t gen L pq gen' L' /\
      (x * peval (fst pq) 0 = 0 -> forall i, o i = Failed (Eyre "Cannot compute inverse of zero")) /\
      (x * peval (fst pq) 0 <> 0 -> exists s st', (forall i, i < n -> o i = Done (s i, st' i)) /\ sharing n t s (finv x) /\ sm_wf n t gen' L' st')).
  Proof.
    intros W Ha. unfold sm_inv. apply wpon_bind. eapply wpn_mono; [|apply (sm_rand_wp n2 nt hcap inj W)].
    intros o (pq & gen' & L' & T & Hr & W'). set (r := peval (fst pq) 0) in *. apply wpon_bind.
    eapply wpn_mono; [|apply (sm_mul_open_wp n2 nt c1 inj W' Ha Hr)].
    intros y Hy. change (smul x r) with (x * r) in Hy. destruct (feqb (x * r) 0) eqn:Ez.
    - apply wpon_fail with (e := Eyre "Cannot compute inverse of zero").
      + intros i Hi. rewrite Hy by exact Hi. rewrite Ez. reflexivity.
      + exists pq, gen', L'. split; [exact T|]. split; [reflexivity|]. intros Hn. apply feqb_spec in Ez. contradiction.
    - assert (Hnz : x * r <> 0) by (intros E; apply feqb_spec in E; congruence).
      apply wpn_wpon. apply wpn_ret_ext with (a := fun i => (fst (o i) * finv (y i), snd (o i))).
      + intros i Hi. rewrite Hy by exact Hi. rewrite Ez. reflexivity.
      + exists pq, gen', L'. split; [exact T|]. split; [intros E; contradiction|]. intros _.
        exists (fun i => fst (o i) * finv (y i)), (fun i => snd (o i)). split; [reflexivity|]. split; [|exact W'].
        eapply sharing_val; [|eapply sharing_ext; [|apply (sharing_smul (finv (x * r)) Hr)]].
        * change (finv (x * r) * r = finv x).
          assert (Hx : x <> 0) by (intros ->; apply Hnz; ring).
          transitivity (finv (x * r) * (x * r) * finv x); [|rewrite finv_l by exact Hnz; ring].
          replace (finv (x * r) * (x * r) * finv x) with (finv (x * r) * r * (x * finv x)) by ring. rewrite finv_r by exact Hx. ring.
        * intros i Hi. cbv beta. rewrite Hy by exact Hi. apply rmul_comm.
  Qed.
  Lemma sm_inv_vec_wp gen L (st : nat -> sst) (a : nat -> list F) xs : sm_wf n t gen L st -> sharings n t a xs ->
    wpon n cap (fun i => sm_inv_vec (M := M) (a i) (st i)) (fun o => exists pqs gen' L', took_many t gen L pqs gen' L' /\ length pqs = length xs /\
      ((exists k, k < length xs /\ nth k xs 0 * nth k (map (fun pq => peval (fst pq) 0) pqs) 0 = 0) ->
         forall i, o i = Failed (Eyre "Cannot compute inverse of zero")) /\
      ((forall k, k < length xs -> nth k xs 0 * nth k (map (fun pq => peval (fst pq) 0) pqs) 0 <> 0) ->
         exists s st', (forall i, i < n -> o i = Done (s i, st' i)) /\ sharings n t s (map finv xs) /\ sm_wf n t gen' L' st')).
  Proof.
    intros W Ha. unfold sm_inv_vec. apply wpon_bind.
    apply wpn_ext with (qs := fun i => get_pairs (length xs) (st i)); [intros i Hi; rewrite (proj1 Ha i Hi); reflexivity|].
    eapply wpn_mono; [|apply (get_pairs_wp n2 nt hcap inj (length xs) W)].
    intros o (pqs & gen' & L' & T & El & D & E & W'). set (rs := map (fun pq => peval (fst pq) 0) pqs).
    assert (Er : length xs = length rs) by (unfold rs; rewrite map_length; auto).
    assert (Hr : sharings n t (fun i => map fst (fst (o i))) rs).
    { eapply sharings_ext; [|apply (sharings_fst D)]. intros i Hi. cbv beta. rewrite E by exact Hi. reflexivity. }
    apply wpon_bind. eapply wpn_mono; [|apply (sm_mul_open_vec_wp n2 nt c1 inj W' Er Ha Hr)].
    intros y Hy. change (@smul F F _ _ _) with (@rmul F _) in Hy.
    assert (Ly : length (map2 rmul xs rs) = length xs) by (apply length_map2_min; exact Er).
    assert (Ny : forall k, k < length xs -> nth k (map2 rmul xs rs) 0 = nth k xs 0 * nth k rs 0) by (intros k Hk; apply nth_map2_in; assumption).
    destruct (existsb (fun y => feqb y 0) (map2 rmul xs rs)) eqn:Ez.
    - apply wpon_fail with (e := Eyre "Cannot compute inverse of zero").
      + intros i Hi. rewrite Hy by exact Hi. rewrite Ez. reflexivity.
      + exists pqs, gen', L'. split; [exact T|]. split; [exact El|]. split; [reflexivity|]. intros Hn. exfalso.
        apply existsb_exists in Ez. destruct Ez as (z & Hz & Ez). apply feqb_spec in Ez. apply (In_nth _ _ 0) in Hz. destruct Hz as (k & Hk & Ek).
        rewrite Ly in Hk. apply (Hn k Hk). rewrite <- Ny by exact Hk. congruence.
    - assert (Hnz : forall k, k < length xs -> nth k xs 0 * nth k rs 0 <> 0).
      { intros k Hk E0. rewrite <- Ny in E0 by exact Hk.
        assert (X : existsb (fun y => feqb y 0) (map2 rmul xs rs) = true); [|congruence].
        apply existsb_exists. exists (nth k (map2 rmul xs rs) 0). split; [apply nth_In; lia|]. apply feqb_spec. exact E0. }
      apply wpn_wpon. apply wpn_ret_ext with (a := fun i => (map2 (fun r y => r * finv y) (map fst (fst (o i))) (map2 rmul xs rs), snd (o i))).
      + intros i Hi. rewrite Hy by exact Hi. rewrite Ez. reflexivity.
      + exists pqs, gen', L'. split; [exact T|]. split; [exact El|]. split; [intros (k & Hk & E0); exfalso; exact (Hnz k Hk E0)|]. intros _.
        exists (fun i => map2 (fun r y => r * finv y) (map fst (fst (o i))) (map2 rmul xs rs)), (fun i => snd (o i)).
        split; [reflexivity|]. split; [|exact W'].
        assert (Lo : forall i, i < n -> length (map fst (fst (o i))) = length (map2 rmul xs rs)) by (intros i Hi; rewrite (proj1 Hr i Hi); lia).
        split.
        * intros i Hi. rewrite length_map2_min by (apply Lo; exact Hi). rewrite Lo, map_length by exact Hi. exact Ly.
        * intros k Hk. rewrite map_length in Hk. rewrite (nth_map_in finv _ 0) by exact Hk. assert (Hk' : k < length rs) by lia.
          eapply sharing_val; [|eapply sharing_ext; [|apply (sharing_smul (finv (nth k xs 0 * nth k rs 0)) (proj2 Hr k Hk'))]].
          -- set (x := nth k xs 0). set (r := nth k rs 0). assert (Hxr : x * r <> 0) by (apply Hnz; exact Hk). change (finv (x * r) * r = finv x).
             assert (Hx : x <> 0) by (intros E0; apply Hxr; rewrite E0; ring).
             transitivity (finv (x * r) * (x * r) * finv x); [|rewrite finv_l by exact Hxr; ring].
             replace (finv (x * r) * (x * r) * finv x) with (finv (x * r) * r * (x * finv x)) by ring. rewrite finv_r by exact Hx. ring.
          -- intros i Hi. cbv beta. rewrite (nth_map2_in (fun r y => r * finv y) 0 0) by (rewrite ?Lo; (exact Hi || lia || reflexivity)).
             rewrite Ny by exact Hk. apply rmul_comm.
  Qed.
  (** [inv] followed by a step that cannot fail *)
  Lemma sm_inv_then gen L (st : nat -> sst) (a : nat -> F) x (k : nat -> F * sst -> prog nat M (F * sst)) z : sm_wf n t gen L st -> sharing n t a x ->
    (forall gen' L' s st', sharing n t s (finv x) -> sm_wf n t gen' L' st' ->
      wpn n cap (fun i => k i (s i, st' i)) (fun o => sharing n t (fun i => fst (o i)) z /\ exists g l, sm_wf n t g l (fun i => snd (o i)))) ->
    wpon n cap (fun i => i0 <- sm_inv (M := M) (a i) (st i) ;; k i i0) (fun o => exists pq gen' L', took t gen L pq gen' L' /\
      (x * peval (fst pq) 0 = 0 -> forall i, i < n -> o i = Failed (Eyre "Cannot compute inverse of zero")) /\
      (x * peval (fst pq) 0 <> 0 -> exists s st', (forall i, i < n -> o i = Done (s i, st' i)) /\ sharing n t s z /\ exists g l, sm_wf n t g l st')).
  Proof.
    intros W Ha Hk. apply wpon_seq. eapply wpon_mono; [|apply (sm_inv_wp W Ha)].
    intros o (pq & gen' & L' & T & O1 & O2). destruct (feqb (x * peval (fst pq) 0) 0) eqn:Ez.
    - apply feqb_spec in Ez. specialize (O1 Ez). apply wpon_fail with (e := Eyre "Cannot compute inverse of zero").
      + intros i Hi. rewrite O1. reflexivity.
      + exists pq, gen', L'. split; [exact T|]. split; [reflexivity|]. intros E. contradiction.
    - assert (Hnz : x * peval (fst pq) 0 <> 0) by (intros E; apply feqb_spec in E; congruence).
      destruct (O2 Hnz) as (s & st' & E & Hs & W'). apply wpon_ext with (qs := fun i => k i (s i, st' i)).
      + intros i Hi. rewrite E by exact Hi. reflexivity.
      + apply wpn_wpon. eapply wpn_mono; [|apply (Hk _ _ _ _ Hs W')]. intros r (R1 & g & l & R2).
        exists pq, gen', L'. split; [exact T|]. split; [intros; contradiction|]. intros _.
        exists (fun i => fst (r i)), (fun i => snd (r i)). split; [intros i _; destruct (r i); reflexivity|]. split; [exact R1|]. exists g, l. exact R2.
  Qed.
  Lemma sm_div_wp gen L (st : nat -> sst) (a b : nat -> F) x y : sm_wf n t gen L st -> sharing n t a x -> sharing n t b y ->
    wpon n cap (fun i => sm_div (M := M) (a i) (b i) (st i)) (fun o => exists pq gen' L', took t gen L pq gen' L' /\
      (y * peval (fst pq) 0 = 0 -> forall i, i < n -> o i = Failed (Eyre "Cannot compute inverse of zero")) /\
      (y * peval (fst pq) 0 <> 0 -> exists s st', (forall i, i < n -> o i = Done (s i, st' i)) /\ sharing n t s (x * finv y) /\ exists g l, sm_wf n t g l st')).
  Proof.
    intros W Ha Hb. unfold sm_div. apply sm_inv_then with (k := fun i i0 => sm_mul (M := M) (a i) (fst i0) (snd i0)); [exact W|exact Hb|].
    intros gen' L' s st' Hs W'. cbn [fst snd]. eapply wpn_mono; [|apply (sm_mul_wp W' Ha Hs)].
    intros o (S1 & pq & g & l & _ & S2). split; [exact S1|]. exists g, l. exact S2.
  Qed.
  Lemma sm_div_public_by_shared_wp gen L (st : nat -> sst) (b : nat -> F) x y : sm_wf n t gen L st -> sharing n t b y ->
    wpon n cap (fun i => sm_div_public_by_shared (M := M) x (b i) (st i)) (fun o => exists pq gen' L', took t gen L pq gen' L' /\
      (y * peval (fst pq) 0 = 0 -> forall i, i < n -> o i = Failed (Eyre "Cannot compute inverse of zero")) /\
      (y * peval (fst pq) 0 <> 0 -> exists s st', (forall i, i < n -> o i = Done (s i, st' i)) /\ sharing n t s (x * finv y) /\ exists g l, sm_wf n t g l st')).
  Proof.
    intros W Hb. unfold sm_div_public_by_shared.
    apply sm_inv_then with (k := fun _ i0 => Ret (sm_mul_public (fst i0) x, snd i0)); [exact W|exact Hb|].
    intros gen' L' s st' Hs W'. cbn [fst snd]. apply wpn_ret. cbn [fst snd]. split; [|exists gen', L'; exact W'].
    exact (sharing_smul x Hs).
  Qed.

  (** ** Additive shares to Shamir shares *)
  Lemma lag_coeff_neq coeffs i : points (F := F) coeffs -> In i coeffs -> (forall j, In j coeffs -> fnat j <> (0 : F)) ->
    peval (lag_poly (F := F) coeffs i) 0 <> 0.
  Proof.
    intros P Hi Hz. destruct (precompute_one_ok i P Hi) as (_ & _ & D & V). rewrite V.
    apply fmul_neq.
    - apply fprod_neq. intros j Hj _ E. apply (Hz j Hj). transitivity (0 - (0 - fnat j) : F); [grp|]. rewrite E. grp.
    - intros E. pose proof (finv_l _ D) as E1. rewrite E in E1. apply f_1_neq_0. rewrite <- E1. ring.
  Qed.
  Lemma fprod_perm i (f : nat -> F) l l' : Permutation l l' -> fprod i f l = fprod i f l'.
  Proof.
    induction 1 as [|a l l' H IH|a b l|l l1 l2 H1 I1 H2 I2]; cbn [fprod].
    - reflexivity.
    - rewrite IH. reflexivity.
    - destruct (i =? a)%nat, (i =? b)%nat; try reflexivity. ring.
    - congruence.
  Qed.
  Lemma lag_perm l l' i x : points (F := F) l -> points (F := F) l' -> Permutation l l' -> In i l ->
    peval (lag_poly (F := F) l i) x = peval (lag_poly (F := F) l' i) x.
  Proof.
    intros P P' HP Hi. destruct (precompute_one_ok i P Hi) as (_ & _ & _ & V).
    destruct (precompute_one_ok i P' (Permutation_in i HP Hi)) as (_ & _ & _ & V').
    rewrite V, V', !(fprod_perm i _ HP). reflexivity.
  Qed.
  Definition lam (i : nat) : F := peval (lag_poly (F := F) (seq 1 n) (Datatypes.S i)) 0.
  Lemma seq_points : points (F := F) (seq 1 n).
  Proof. apply (points_le inj); [apply seq_NoDup|]. intros a Ha. apply in_seq in Ha. lia. Qed.
  Lemma lam_neq i : i < n -> lam i <> 0.
  Proof.
    intros Hi. apply lag_coeff_neq; [exact seq_points|apply in_seq; lia|]. intros j Hj E. apply in_seq in Hj.
    change (0 : F) with (fnat (F := F) 0) in E. apply inj in E; lia.
  Qed.
  Lemma my_lagrange_inv_ok gen L (st : nat -> sst) i : n = (2 * t + 1)%nat -> sm_wf n t gen L st -> i < n ->
    my_lagrange_inv (st i) = Some (finv (lam i)).
  Proof.
    intros En W Hi. pose proof (sw_open_2t W Hi) as E. rewrite <- En in E.
    assert (P : points (F := F) (open_points i n n)) by (apply (open_points_ok t n2 nt c1 inj); lia).
    rewrite (lagrange_ok P) in E. injection E as E. unfold my_lagrange_inv. rewrite <- E.
    assert (Eh : open_points i n n = Datatypes.S i :: tl (open_points i n n)).
    { unfold open_points. destruct n as [|m]; [lia|]. cbn [seq map tl]. f_equal.
      replace (i + S m - 0)%nat with (i + 1 * S m)%nat by lia. rewrite Nat.mod_add by lia. rewrite Nat.mod_small by exact Hi. lia. }
    set (f := fun i0 => peval (lag_poly (F := F) (open_points i n n) i0) 0). rewrite Eh. cbn [map]. unfold f.
    assert (HP : Permutation (open_points i n n) (seq 1 n)).
    { apply NoDup_Permutation_bis; [exact (points_nodup P)|unfold open_points; rewrite map_length, !seq_length; lia|].
      intros a Ha. apply in_map_iff in Ha. destruct Ha as (k & <- & _). apply in_seq. pose proof (Nat.mod_upper_bound (i + n - k) n). lia. }
    rewrite (@lag_perm _ _ (Datatypes.S i) 0 P seq_points HP) by (rewrite Eh; left; reflexivity). fold (lam i).
    rewrite feqb_0 by (apply lam_neq; exact Hi). reflexivity.
  Qed.
  Lemma sharing_additive (x : nat -> F) : n = (2 * t + 1)%nat -> sharing n (2 * t) (fun i => x i * finv (lam i)) (sumn n x).
  Proof.
    intros En. destruct (@sharing_any F FF F _ _ n (2 * t) (fun i => x i * finv (lam i)) inj) as (z & H); [lia|].
    eapply sharing_val; [|exact H]. destruct H as (c & C1 & C2 & C3).
    destruct (@reconstruct_poly F FF F _ _ (seq 1 n) _ c seq_points ltac:(rewrite seq_length; lia) (lagrange_ok seq_points)) as (R1 & R2).
    rewrite <- C2, <- R2. rewrite reconstruct_ok by (rewrite !map_length; reflexivity). rewrite map_length, seq_length.
    apply sumn_ext. intros k Hk. rewrite !nth_map_seq by exact Hk. change (1 + k)%nat with (Datatypes.S k). rewrite <- C3 by exact Hk. fold (lam k).
    change (lam k * (x k * finv (lam k)) = x k). transitivity (x k * (lam k * finv (lam k))); [ring|].
    rewrite finv_r by (apply lam_neq; exact Hk). ring.
  Qed.
  Lemma translate_addshare_wp gen L (st : nat -> sst) (x : nat -> F) : n = (2 * t + 1)%nat -> sm_wf n t gen L st ->
    wpn n cap (fun i => translate_addshare (M := M) (x i) (st i)) (fun o => sharing n t (fun i => fst (o i)) (sumn n x) /\
      exists pq gen' L', took t gen L pq gen' L' /\ sm_wf n t gen' L' (fun i => snd (o i))).
  Proof.
    intros En W. unfold translate_addshare. apply wpn_ext with (qs := fun i => degree_reduce (x i * finv (lam i)) (st i)).
    - intros i Hi. rewrite (my_lagrange_inv_ok En W Hi). reflexivity.
    - apply (degree_reduce_wp (inp := fun i => x i * finv (lam i)) W). apply sharing_additive. exact En.
  Qed.
  Lemma translate_addshare_vec_wp gen L (st : nat -> sst) (v : nat -> list F) xs : n = (2 * t + 1)%nat -> sm_wf n t gen L st ->
    (forall i, i < n -> length (v i) = length xs) -> (forall k, k < length xs -> nth k xs 0 = sumn n (fun i => nth k (v i) 0)) ->
    wpn n cap (fun i => translate_addshare_vec (M := M) (v i) (st i)) (fun o => sharings n t (fun i => fst (o i)) xs /\
      exists pqs gen' L', took_many t gen L pqs gen' L' /\ length pqs = length xs /\ sm_wf n t gen' L' (fun i => snd (o i))).
  Proof.
    intros En W El Hx. unfold translate_addshare_vec. apply wpn_ext with (qs := fun i => degree_reduce_many (map (fun s => s * finv (lam i)) (v i)) (st i)).
    - intros i Hi. rewrite (my_lagrange_inv_ok En W Hi). reflexivity.
    - apply (degree_reduce_many_wp (inp := fun i => map (fun s => s * finv (lam i)) (v i)) W). split.
      + intros i Hi. rewrite map_length. auto.
      + intros k Hk. rewrite Hx by exact Hk. eapply sharing_ext; [|apply (sharing_additive (fun i => nth k (v i) 0) En)].
        intros i Hi. cbv beta. apply (nth_map_in (fun s => s * finv (lam i))). rewrite El; assumption.
  Qed.
End OpsWp.

(** ** Replicated shares to Shamir shares (three parties) *)
Section BridgeProofs.
  Context {F : Type} {FF : Fld F} {G : Type} {AG : AbGrp G} {MD : Mod F G}.
  Add Ring FringB : (@cring_theory F _).
  Infix "*" := rmul : grp_scope.
  Notation "1" := rone : grp_scope.
  Hypothesis inj : forall a b, a <= 3 -> b <= 3 -> fnat a = (fnat b : F) -> a = b.
  (** the polynomial of degree 1 with value 1 at 0 and 0 at [p] *)
  Lemma one_zero p : 0 < p <= 3 -> exists z, interpolate_poly_from_secret_and_zeros (1 : F) [p] = Some z /\ length z <= 2 /\
    peval z (0 : F) = 1 /\ peval z (fnat p) = (0 : F).
  Proof.
    intros Hp. unfold interpolate_poly_from_secret_and_zeros.
    destruct (@zero_points_ok F FF [p]) as (z & Z1 & Z2 & Z3 & Z4).
    { intros j [<-|[]] E. change (0 : F) with (fnat (F := F) 0) in E. apply inj in E; lia. }
    rewrite Z1. cbn [option_map]. eexists. split; [reflexivity|]. split; [|split].
    - unfold poly_with_zeros_from_precomputed. rewrite map_length. cbn in Z2. lia.
    - rewrite peval_with_zeros, Z3. change (1 * 1 = (1 : F)). ring.
    - rewrite peval_with_zeros, Z4 by (left; reflexivity). change (0 * 1 = (0 : F)). ring.
  Qed.
  (** the component held by parties [j] and [j+1] is multiplied by the polynomial vanishing at the
      point of party [j+2] *)
  Definition zpt (j : nat) : nat := if (j =? 0)%nat then 3 else j.
  Definition zpoly (j : nat) : list F := match interpolate_poly_from_secret_and_zeros (1 : F) [zpt j] with Some z => z | None => [] end.
  Lemma zpoly_ok j : j < 3 -> interpolate_poly_from_secret_and_zeros (1 : F) [zpt j] = Some (zpoly j) /\ length (zpoly j) <= 2 /\
    peval (zpoly j) (0 : F) = 1 /\ peval (zpoly j) (fnat (zpt j)) = (0 : F).
  Proof.
    intros Hj. unfold zpoly. destruct (@one_zero (zpt j)) as (z & -> & H); [unfold zpt; destruct (Nat.eqb_spec j 0); lia|]. split; [reflexivity|exact H].
  Qed.
  Lemma translation_points_ok i : i < 3 ->
    get_translation_points (F := F) i = Some (peval (zpoly i) (fnat (S i)), peval (zpoly ((i + 2) mod 3)) (fnat (S i))).
  Proof.
    intros Hi. destruct i as [|[|[|]]]; try lia; unfold get_translation_points; cbn [Nat.eqb Nat.add].
    - change 3 with (zpt 0). rewrite (proj1 (@zpoly_ok 0 ltac:(lia))). change 2 with (zpt 2). rewrite (proj1 (@zpoly_ok 2 ltac:(lia))).
      rewrite !evaluate_poly_ok. reflexivity.
    - change [1%nat] with [zpt 1]. rewrite (proj1 (@zpoly_ok 1 ltac:(lia))). change [3%nat] with [zpt 0]. rewrite (proj1 (@zpoly_ok 0 ltac:(lia))).
      rewrite !evaluate_poly_ok. reflexivity.
    - change [1%nat] with [zpt 1]. change [2%nat] with [zpt 2]. rewrite (proj1 (@zpoly_ok 2 ltac:(lia))). rewrite (proj1 (@zpoly_ok 1 ltac:(lia))).
      rewrite !evaluate_poly_ok. reflexivity.
  Qed.
  Lemma translate_repshare_ok (x0 x1 x2 : G) :
    exists s, translate_repshare (F := F) x0 x2 0 = Some (s 0%nat) /\ translate_repshare (F := F) x1 x0 1 = Some (s 1%nat) /\
      translate_repshare (F := F) x2 x1 2 = Some (s 2%nat) /\ sharing 3 1 s (x0 + x1 + x2).
  Proof.
    set (c := padd (padd (pouter (zpoly 0) x0) (pouter (zpoly 1) x1)) (pouter (zpoly 2) x2)).
    destruct (@zpoly_ok 0 ltac:(lia)) as (_ & A1 & A2 & A3), (@zpoly_ok 1 ltac:(lia)) as (_ & B1 & B2 & B3), (@zpoly_ok 2 ltac:(lia)) as (_ & C1 & C2 & C3).
    assert (Ec : forall x, peval c x = smul (peval (zpoly 0) x) x0 + smul (peval (zpoly 1) x) x1 + smul (peval (zpoly 2) x) x2).
    { intros x. unfold c. rewrite !peval_padd, !peval_pouter. reflexivity. }
    exists (fun i => peval c (fnat (S i))). unfold translate_repshare. rewrite !translation_points_ok by lia. cbn [option_map fst snd].
    split; [|split; [|split]].
    - f_equal. rewrite Ec. change (fnat (F := F) 1) with (fnat (F := F) (zpt 1)). rewrite B3, smul_0_l. change ((0 + 2) mod 3) with 2%nat. grp.
    - f_equal. rewrite Ec. change (fnat (F := F) 2) with (fnat (F := F) (zpt 2)). rewrite C3, smul_0_l. change ((1 + 2) mod 3) with 0%nat. grp.
    - f_equal. rewrite Ec. change (fnat (F := F) 3) with (fnat (F := F) (zpt 0)). rewrite A3, smul_0_l. change ((2 + 2) mod 3) with 1%nat. grp.
    - exists c. split; [|split; [|reflexivity]].
      + unfold c. rewrite !length_padd. unfold pouter. rewrite !map_length. lia.
      + rewrite Ec, A2, B2, C2, !smul_1. reflexivity.
  Qed.
  Lemma translate_repshare_vec_ok (v : nat -> list (G * G)) (x : list (G * G * G)) :
    v 0%nat = map (fun t => (fst (fst t), snd t)) x -> v 1%nat = map (fun t => (snd (fst t), fst (fst t))) x -> v 2%nat = map (fun t => (snd t, snd (fst t))) x ->
    exists s, (forall i, i < 3 -> translate_repshare_vec (F := F) (v i) i = Some (s i)) /\ sharings 3 1 s (map (fun t => fst (fst t) + snd (fst t) + snd t) x).
  Proof.
    intros E0 E1 E2.
    exists (fun i => map (fun ab => smul (peval (zpoly i) (fnat (S i))) (fst ab) + smul (peval (zpoly ((i + 2) mod 3)) (fnat (S i))) (snd ab)) (v i)).
    split; [intros i Hi; unfold translate_repshare_vec; rewrite translation_points_ok by exact Hi; reflexivity|]. split.
    - intros i Hi. rewrite !map_length. destruct i as [|[|[|]]]; [rewrite E0|rewrite E1|rewrite E2|lia]; rewrite map_length; reflexivity.
    - intros k Hk. rewrite map_length in Hk. rewrite (nth_map_in _ _ (0, 0, 0)) by exact Hk.
      destruct (nth k x (0, 0, 0)) as [[x0 x1] x2] eqn:Ek. cbn [fst snd].
      destruct (translate_repshare_ok x0 x1 x2) as (s & S0 & S1 & S2 & S3). eapply sharing_ext; [|exact S3].
      unfold translate_repshare in S0, S1, S2. rewrite translation_points_ok in S0, S1, S2 by lia. cbn [option_map fst snd] in S0, S1, S2.
      injection S0 as S0. injection S1 as S1. injection S2 as S2.
      intros i Hi. destruct i as [|[|[|]]]; [rewrite E0|rewrite E1|rewrite E2|lia]; rewrite map_map, (nth_map_in _ _ (0, 0, 0)) by exact Hk; rewrite Ek; cbn [fst snd]; assumption.
  Qed.
End BridgeProofs.
