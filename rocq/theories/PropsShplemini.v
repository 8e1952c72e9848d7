(** * Properties C73 and C74: the opening of multilinear polynomials in UltraHonk (Gemini, Shplonk, KZG) *)
From Coq Require Import String List Arith ZArith Lia Bool.
From Verif Require Import Proc Alg Zp NNet Rep3 ShamirPoly Shamir ShamirAlg Univariate Sumcheck SumcheckSpec SumcheckSound Shplemini ShpleminiFold ShpleminiPoly ShpleminiQuot ShpleminiVerify ShpleminiComplete ShpleminiSound ShpleminiFew Concrete ConcreteP ConcreteH.
From Verif Require Groth16Complete.
Import ListNotations.
Local Open Scope string_scope.
Local Open Scope list_scope.

(** ** C73: the proof that the multilinear extensions of the columns, and of the shifted columns, have their values
    at the point of the sumcheck is accepted *)
Theorem C73_complete : forall {F : Type} {FF : Fld F} {G : Type} {AG : AbGrp G} {MG : Mod F G} {H : Type} {AH : AbGrp H} {MH : Mod F H} {GT : Type} {AT : AbGrp GT} {MT : Mod F GT}
    (e : G -> H -> GT) (tau : F) (gen : G) (h : H) (N : nat), Groth16Complete.pairing e ->
  forall (log_n : nat) (us : list F) (fs gs : list (list F)) (rho r nu z : F) (fcoms gcoms : list G),
  2 <= log_n <= length us -> 2 ^ log_n <= N ->
  Forall (fun p => length p <= 2 ^ log_n) fs -> Forall (fun p => length p <= 2 ^ log_n) gs -> Forall (fun p => nth 0 p gzero = gzero) gs ->
  omapM (commit (srs tau gen N)) fs = Done fcoms -> omapM (commit (srs tau gen N)) gs = Done gcoms ->
  r <> gzero -> dens_ok us r -> Forall (fun p => z <> p /\ z <> gneg p) (sq r (length us)) ->
  exists pr, shplemini_prove (srs tau gen N) log_n us fs gs rho r nu z = Done pr /\
    shplemini_verify e gen (smul tau h) h fcoms gcoms (map (mle us) fs) (map (fun g => mle us (tl g)) gs) us rho r nu z pr = Done gzero.
Proof. exact @shplemini_complete. Qed.
Print Assumptions C73_complete.

(** what the verifier recovers from the values at -r, -r², ... are the values of the folds at r, r², ... *)
Theorem C73_recovered : forall {F : Type} {FF : Fld F} (us : list F) (As : list (list F)) (v p : F), gchain us As v -> dens_ok us p ->
  fold_pos_evaluations (repeat rone (length us)) us (sq p (length us)) (evals gneg As p) v = Done (peval (hd [v] As) p, evals (fun x => x) As p).
Proof. exact @fold_pos_ok. Qed.
Print Assumptions C73_recovered.

(** three columns of four rows, one of them also shifted, three rounds (one of them virtual) *)
Definition sfs97 : list (list F97) := map (map n97) [[3; 1; 4; 1]; [5; 9; 2; 6]; [0; 5; 3; 5]].
Definition sgs97 : list (list F97) := map (map n97) [[0; 5; 3; 5]].
Definition sus97 : list F97 := map n97 [30; 31; 32].
Definition crs97 : list F97 := srs (G := F97) tau97 (f97 1) 5.
Definition coms97 (l : list (list F97)) : list F97 := match omapM (commit crs97) l with Done c => c | _ => [] end.
Definition sproof97 : outcome (opening_proof (F := F97) (G := F97)) := shplemini_prove crs97 2 sus97 sfs97 sgs97 (n97 40) (n97 6) (n97 50) (n97 60).
(** the verdict with evaluations [fevs] *)
Definition sverdict97 (fevs : list F97) : Z :=
  match sproof97 with
  | Done pr =>
      match shplemini_verify e97 (f97 1) (rmul tau97 (f97 1)) (f97 1) (coms97 sfs97) (coms97 sgs97) fevs (map (fun g => mle sus97 (tl g)) sgs97)
              sus97 (n97 40) (n97 6) (n97 50) (n97 60) pr with Done v => val v | _ => (-1)%Z end
  | _ => (-2)%Z
  end.
Lemma spair97 : Groth16Complete.pairing e97.
Proof.
  split. intros a b x y. unfold e97. change (rmul (rmul a x) (rmul b y) = rmul (rmul a b) (rmul x y)).
  rewrite <- !rmul_assoc. f_equal. rewrite !rmul_assoc. f_equal. apply rmul_comm.
Qed.
Example ex_C73 : exists pr, sproof97 = Done pr /\
  shplemini_verify e97 (f97 1) (rmul tau97 (f97 1)) (f97 1) (coms97 sfs97) (coms97 sgs97) (map (mle sus97) sfs97) (map (fun g => mle sus97 (tl g)) sgs97)
    sus97 (n97 40) (n97 6) (n97 50) (n97 60) pr = Done gzero.
Proof.
  apply (@C73_complete F97 _ F97 _ _ F97 _ _ F97 _ _ e97 tau97 (f97 1) (f97 1) 5 spair97).
  - cbn; lia.
  - cbn; lia.
  - repeat constructor.
  - repeat constructor.
  - repeat constructor; apply eq97; vm_compute; reflexivity.
  - reflexivity.
  - reflexivity.
  - apply neq97; vm_compute; discriminate.
  - cbn [dens_ok sus97 map]. repeat split; apply neq97; vm_compute; discriminate.
  - cbn [sq sus97 map length]. repeat constructor; apply neq97; vm_compute; discriminate.
Qed.
(** accepted, and rejected with another value of the second column *)
Example ex_C73_verdicts :
  sverdict97 (map (mle sus97) sfs97) = 0%Z /\ sverdict97 [mle sus97 (nth 0 sfs97 []); n97 1; mle sus97 (nth 2 sfs97 [])] <> 0%Z.
Proof. split; [vm_compute; reflexivity|vm_compute; discriminate]. Qed.

(** the hypothesis 2 <= log_n is needed: on columns of two rows the prover panics *)
Theorem C73_two_rows : forall {F : Type} {FF : Fld F} (us a : list F), compute_fold_polynomials 1 us a = Failed (Panic "attempt to subtract with overflow").
Proof. reflexivity. Qed.
Print Assumptions C73_two_rows.
Theorem C73_two_rows_refuted : exists (us : list F97) (fs : list (list F97)) (rho r nu z : F97) (fcoms : list F97),
  1 <= 1 <= length us /\ 2 ^ 1 <= 5 /\ Forall (fun p => length p <= 2 ^ 1) fs /\ omapM (commit crs97) fs = Done fcoms /\
  r <> gzero /\ dens_ok us r /\ Forall (fun p => z <> p /\ z <> gneg p) (sq r (length us)) /\
  shplemini_prove crs97 1 us fs [] rho r nu z = Failed (Panic "attempt to subtract with overflow").
Proof.
  exists sus97, [map n97 [3; 1]], (n97 40), (n97 6), (n97 50), (n97 60), (coms97 [map n97 [3; 1]]).
  split; [cbn; lia|]. split; [cbn; lia|]. split; [repeat constructor|]. split; [reflexivity|].
  split; [apply neq97; vm_compute; discriminate|]. split; [cbn [dens_ok sus97 map]; repeat split; apply neq97; vm_compute; discriminate|].
  split; [cbn [sq sus97 map length]; repeat constructor; apply neq97; vm_compute; discriminate|]. vm_compute. reflexivity.
Qed.
Print Assumptions C73_two_rows_refuted.
(** so is that the shifted columns begin with zero: the honest proof is rejected otherwise *)
Theorem C73_first_refuted : exists (gs : list (list F97)) (pr : opening_proof (F := F97) (G := F97)),
  Forall (fun p => length p = 4) gs /\ shplemini_prove crs97 2 sus97 [] gs (n97 40) (n97 6) (n97 50) (n97 60) = Done pr /\
  exists v, v <> gzero /\ shplemini_verify e97 (f97 1) (rmul tau97 (f97 1)) (f97 1) [] (coms97 gs) [] (map (fun g => mle sus97 (tl g)) gs)
    sus97 (n97 40) (n97 6) (n97 50) (n97 60) pr = Done v.
Proof.
  exists [map n97 [7; 5; 3; 5]].
  destruct (shplemini_prove crs97 2 sus97 [] [map n97 [7; 5; 3; 5]] (n97 40) (n97 6) (n97 50) (n97 60)) as [pr|] eqn:E; [|vm_compute in E; discriminate].
  exists pr. split; [repeat constructor|]. split; [reflexivity|].
  destruct (shplemini_verify e97 (f97 1) (rmul tau97 (f97 1)) (f97 1) [] (coms97 [map n97 [7; 5; 3; 5]]) [] (map (fun g => mle sus97 (tl g)) [map n97 [7; 5; 3; 5]])
    sus97 (n97 40) (n97 6) (n97 50) (n97 60) pr) as [v|] eqn:E2; [exists v; split; [|reflexivity]|].
  - vm_compute in E. injection E as <-. vm_compute in E2. injection E2 as <-. apply neq97. vm_compute. discriminate.
  - exfalso. vm_compute in E. injection E as <-. vm_compute in E2. discriminate.
Qed.
Print Assumptions C73_first_refuted.

(** ** C74: if the verifier accepts, whatever polynomials the prover committed to and whatever values it sent, then the
    evaluations are those of the multilinear extensions and the batched column to be shifted begins with zero (unless
    [u] is zero); or one of the challenges [rho], [r], [z], or the secret [tau]
    of the reference string, is among few exceptions *)
Theorem C74_sound : forall {F : Type} {FF : Fld F} {G : Type} {AG : AbGrp G} {MG : Mod F G} {H : Type} {AH : AbGrp H} {MH : Mod F H} {GT : Type} {AT : AbGrp GT} {MT : Mod F GT}
    (e : G -> H -> GT) (tau : F) (gen : G) (h : H), Groth16Complete.pairing e -> (forall a, smul a (e gen h) = gzero -> a = gzero) ->
  forall (u : F) (us : list F) (fs gs bs : list (list F)) (q w : list F) (fevs gevs : list F) (n0 : F) (negs : list F) (rho r nu z : F),
  gadd rone rone <> (gzero : F) -> length fevs = length fs -> length gevs = length gs -> length bs = length us -> length negs = length us ->
  nu <> gzero -> NoDup (points r (S (length us))) -> ~ In z (points r (S (length us))) ->
  shplemini_verify e gen (smul tau h) h (map (fun p => smul (peval p tau) gen) fs) (map (fun p => smul (peval p tau) gen) gs) fevs gevs (u :: us) rho r nu z
    {| op_folds := map (fun b => smul (peval b tau) gen) bs; op_negs := n0 :: negs; op_q := smul (peval q tau) gen; op_w := smul (peval w tau) gen |} = Done gzero ->
  let bf := comb rho rone fs in
  let bg := comb rho (spow rho rone (length fs)) gs in
  let v := lin rho rone (fevs ++ gevs) in
  (fevs = map (mle (u :: us)) fs /\ gevs = map (fun p => mle (u :: us) (tl p)) gs /\ rmul u (nth 0 bg gzero) = gzero) \/
  lucky_rho (fevs ++ gevs) (map (mle (u :: us)) fs ++ map (fun p => mle (u :: us) (tl p)) gs) rho \/
  lucky_first u (padd bf (tl bg)) (nth 0 bg gzero) (hd [v] bs) r \/ lucky_fold us bs v (rmul r r) \/
  exists p0 poss, fold_pos_evaluations (repeat rone (S (length us))) (u :: us) (sq r (S (length us))) (n0 :: negs) v = Done (p0, p0 :: poss) /\
    (lucky_z q (all_ops bf bg bs r p0 n0 poss negs) nu z \/ lucky_tau q w (all_ops bf bg bs r p0 n0 poss negs) nu z tau).
Proof. exact @shplemini_sound. Qed.
Print Assumptions C74_sound.

(** the exceptions are few, where everything sent before the challenge is fixed *)
Theorem C74_few_rho : forall {F : Type} {FF : Fld F} (l m rhos : list F), NoDup rhos -> Forall (lucky_rho l m) rhos -> length rhos < length l \/ rhos = [].
Proof. exact @few_rho. Qed.
Print Assumptions C74_few_rho.
Theorem C74_few_first : forall {F : Type} {FF : Fld F} (n : nat) (u : F) (a : list F) (g : F) (b rs : list F),
  length a < n -> length b < n -> NoDup rs -> Forall (lucky_first u a g b) rs -> length rs < 2 * n.
Proof. exact @few_first. Qed.
Print Assumptions C74_few_first.
Theorem C74_few_fold : forall {F : Type} {FF : Fld F} (n : nat) (us : list F) (As : list (list F)) (v : F) (rs : list F),
  1 <= n -> Forall (fun a => length a <= n) As -> NoDup rs -> Forall (fun r => lucky_fold us As v (rmul r r)) rs -> length rs <= 2 ^ (length us + 2) * n.
Proof. exact @few_fold. Qed.
Print Assumptions C74_few_fold.
Theorem C74_few_z : forall {F : Type} {FF : Fld F} (n : nat) (q : list F) (os : list (list F * F * F)) (nu : F) (zs : list F),
  1 <= n -> length q <= n -> Forall (fun o => length (op_poly o) <= n) os -> NoDup zs -> Forall (lucky_z q os nu) zs -> length zs < n + length os.
Proof. exact @few_z. Qed.
Print Assumptions C74_few_z.
Theorem C74_few_tau : forall {F : Type} {FF : Fld F} (n : nat) (q w : list F) (os : list (list F * F * F)) (nu z : F) (taus : list F),
  1 <= n -> length q <= n -> length w < n -> Forall (fun o => length (op_poly o) <= n) os ->
  NoDup taus -> Forall (lucky_tau q w os nu z) taus -> length taus < n.
Proof. exact @few_tau. Qed.
Print Assumptions C74_few_tau.
(** the hypotheses about the challenges hold in the example *)
Example ex_C74 : (forall a : F97, rmul a (e97 (f97 1) (f97 1)) = gzero -> a = gzero) /\ gadd rone rone <> (gzero : F97) /\
  NoDup (points (n97 6) 3) /\ ~ In (n97 60) (points (n97 6) 3).
Proof.
  split; [|split; [apply neq97; vm_compute; discriminate|split; [apply distinct_nodup; vm_compute; reflexivity|]]].
  - intros a E. transitivity (rmul a (e97 (f97 1) (f97 1))); [|exact E]. replace (e97 (f97 1) (f97 1)) with (rone : F97) by (apply eq97; vm_compute; reflexivity).
    rewrite rmul_comm. symmetry. apply rmul_1.
  - intros I. assert (N : existsb (feqb (n97 60)) (points (n97 6) 3) = false) by (vm_compute; reflexivity).
    rewrite <- not_true_iff_false in N. apply N. apply existsb_exists. eexists. split; [exact I|]. apply feqb_spec. reflexivity.
Qed.
(** lucky challenges exist: [2; 3] and [9; 4] have the same combination with rho = -7, and no two challenges have that *)
Example ex_C74_lucky : lucky_rho (map n97 [2; 3]) (map n97 [9; 4]) (f97 (-7)) /\ Forall (lucky_rho (map n97 [2; 3]) (map n97 [9; 4])) [f97 (-7)].
Proof.
  assert (L : lucky_rho (map n97 [2; 3]) (map n97 [9; 4]) (f97 (-7))).
  { split; [|split; [reflexivity|apply eq97; vm_compute; reflexivity]]. intros E. apply (f_equal (map val)) in E. vm_compute in E. discriminate. }
  split; [exact L|]. repeat constructor; apply L.
Qed.
