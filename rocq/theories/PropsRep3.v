(** * Properties of replicated sharing (C01-C08, C37-C39) *)
From Coq Require Import String List Arith NArith ZArith Znumtheory Lia Bool.
From Verif Require Import Proc Alg Zp Rep3Net Rep3 Rep3Spec Rep3Proofs Rep3Wp Concrete.
Import ListNotations.
Set Implicit Arguments.
Local Open Scope grp_scope.

Section Statements.
  Context {S M : Type} (cap : nat) (cap_pos : (1 <= cap)%nat).

  (** ** C01 *)
  Theorem C01_share_combine {G} `{AbGrp G} `{Draw S G} (v : G) (g : S) :
    let s := fst (share_field_element v g) in
    replicated s /\ combine (s P0) (s P1) (s P2) = v.
  Proof. exact (let K := share_elem_ok v _ _ in conj (proj1 K) (combine_ok K)). Qed.
  Theorem C01_share_combine_vec {G} `{AbGrp G} `{Draw S G} (vs : list G) (g : S) :
    let s := fst (share_field_elements vs g) in
    shares_vec s vs /\ combine_vec (s P0) (s P1) (s P2) = Some vs.
  Proof. exact (let K := share_field_elements_ok vs g in conj K (combine_vec_ok K)). Qed.
  Theorem C01_share_additive {G} `{AbGrp G} (v a b : G) : additive (share_additive v a b) v.
  Proof. exact (share_additive_ok v a b). Qed.
  Theorem C01_share_maybe {G} `{AbGrp G} `{Draw S G} (vs : list (option G)) (g : S) :
    pvec maybe_shares (fst (share_maybe vs g)) vs.
  Proof. exact (share_maybe_ok vs g). Qed.
  (** Compressed (seeded) sharings expand to a valid sharing at every party. *)
  Theorem C01_share_seeded {Seed G} `{AbGrp G} `{Draw S G} `{Seeded S Seed} `{Draw S Seed} (vs : list G) (g : S) :
    exists l, (forall i, expand_rep (share_seeded vs g i) = Some (l i)) /\ shares_vec l vs.
  Proof. exact (share_seeded_ok vs g). Qed.
  (** The converse checks: combining rejects vectors of different lengths. *)
  Theorem C01_combine_lengths {G} `{AbGrp G} (l1 l2 l3 : list (share G)) r :
    combine_vec l1 l2 l3 = Some r -> length l1 = length l2 /\ length l2 = length l3.
  Proof. exact (combine_vec_len l1 l2 l3 (r := r)). Qed.

  (** ** C02 *)
  Section C02.
    Context {G : Type} `{AbGrp G} (a b : pid -> share G) (x y c : G).
    Theorem C02_add : shares a x -> shares b y -> shares (fun i => shadd (a i) (b i)) (x + y).
    Proof. exact (@shadd_ok G _ a b x y). Qed.
    Theorem C02_sub : shares a x -> shares b y -> shares (fun i => shsub (a i) (b i)) (x - y).
    Proof. exact (@shsub_ok G _ a b x y). Qed.
    Theorem C02_neg : shares a x -> shares (fun i => shneg (a i)) (- x).
    Proof. exact (@shneg_ok G _ a x). Qed.
    Theorem C02_add_public : shares a x -> shares (fun i => add_public i (a i) c) (x + c).
    Proof. exact (@add_public_ok G _ a x c). Qed.
    Theorem C02_sub_shared_by_public : shares a x -> shares (fun i => sub_shared_by_public i (a i) c) (x - c).
    Proof. exact (@sub_shared_by_public_ok G _ a x c). Qed.
    Theorem C02_sub_public_by_shared : shares a x -> shares (fun i => sub_public_by_shared i c (a i)) (c - x).
    Proof. exact (@sub_public_by_shared_ok G _ a x c). Qed.
    Theorem C02_promote : shares (fun i => promote i c) c.
    Proof. exact (promote_ok c). Qed.
    Theorem C02_promote_with_scalar (k : G) : shares (fun i => promote_with_scalar i c k) c.
    Proof. exact (promote_with_scalar_ok c k). Qed.
  End C02.
  Theorem C02_mul_public {R} `{CRing R} a (x c : R) : shares a x -> shares (fun i => mul_public (a i) c) (rmul x c).
  Proof. exact (@mul_public_ok R _ a x c). Qed.
  Theorem C02_add_mul_public {R} `{CRing R} a b (x y c : R) : shares a x -> shares b y ->
    shares (fun i => add_mul_public (a i) (b i) c) (x + rmul y c).
  Proof. exact (@add_mul_public_ok R _ a b x y c). Qed.

  (** ** C03: multiplication, every schedule *)
  Section C03.
    Context {A B C : Type} `{BL : Bilin A B C} {DC : Draw S C} {EC : Enc M (list C)}.
    Theorem C03_mul (st : pid -> rst S) a b (x : A) (y : B) : synced st -> shares a x -> shares b y ->
      all_ok cap (fun i => mul i (st i) (a i) (b i))
        (fun r => shares (fun i => fst (r i)) (bmul x y) /\ synced (fun i => snd (r i))).
    Proof. exact (fun Hs Ha Hb => wp_all_ok (mul_wp cap_pos Hs Ha Hb)). Qed.
    Theorem C03_mul_vec (st : pid -> rst S) a b (xs : list A) (ys : list B) :
      synced st -> shares_vec a xs -> shares_vec b ys ->
      all_ok cap (fun i => mul_vec i (st i) (a i) (b i))
        (fun r => shares_vec (fun i => fst (r i)) (map2 bmul xs ys) /\ synced (fun i => snd (r i))).
    Proof. exact (fun Hs Ha Hb => wp_all_ok (mul_vec_wp cap_pos Hs Ha Hb)). Qed.
    Theorem C03_local_mul_vec (drawv : nat -> S -> list C * S) (Hlen : forall n s, length (fst (drawv n s)) = n)
            (st : pid -> rst S) a b (xs : list A) (ys : list B) :
      synced st -> shares_vec a xs -> shares_vec b ys -> length xs = length ys ->
      exists z, (forall i, local_mul_vec drawv (st i) (a i) (b i) = Some (z i)) /\
        additive_vec (fun i => fst (z i)) (map2 bmul xs ys) /\ synced (fun i => snd (z i)).
    Proof. exact (@local_mul_vec_ok A B C _ _ _ BL S drawv Hlen st a b xs ys). Qed.
    Theorem C03_reshare_vec (z : pid -> list C) xs : additive_vec z xs ->
      all_ok cap (fun i => reshare_vec i (z i)) (fun r => shares_vec r xs).
    Proof. exact (fun Hz => wp_all_ok (reshare_vec_wp cap_pos Hz)). Qed.

    (** ** C04: opening *)
    Theorem C04_mul_open (st : pid -> rst S) a b (x : A) (y : B) : synced st -> shares a x -> shares b y ->
      all_ok cap (fun i => mul_open i (st i) (a i) (b i))
        (fun r => (forall i, fst (r i) = bmul x y) /\ synced (fun i => snd (r i))).
    Proof. exact (fun Hs Ha Hb => wp_all_ok (mul_open_wp cap_pos Hs Ha Hb)). Qed.
    Theorem C04_mul_open_vec (st : pid -> rst S) a b (xs : list A) (ys : list B) :
      synced st -> shares_vec a xs -> shares_vec b ys ->
      all_ok cap (fun i => mul_open_vec i (st i) (a i) (b i))
        (fun r => (forall i, fst (r i) = map2 bmul xs ys) /\ synced (fun i => snd (r i))).
    Proof. exact (fun Hs Ha Hb => wp_all_ok (mul_open_vec_wp cap_pos Hs Ha Hb)). Qed.
    Theorem C04_open a (x : C) : shares a x -> all_ok cap (fun i => open i (a i)) (fun r => forall i, r i = x).
    Proof. exact (fun Ha => wp_all_ok (open_wp cap_pos Ha)). Qed.
    Theorem C04_open_vec a (xs : list C) : shares_vec a xs ->
      all_ok cap (fun i => open_vec i (a i)) (fun r => forall i, r i = xs).
    Proof. exact (fun Ha => wp_all_ok (open_vec_wp cap_pos Ha)). Qed.
    Theorem C04_open_half (z : pid -> C) x : additive z x ->
      all_ok cap (fun i => open_half i (z i)) (fun r => forall i, r i = x).
    Proof. exact (fun Ha => wp_all_ok (open_half_wp cap_pos Ha)). Qed.
  End C03.

  (** ** C05: inversion, division, square root *)
  Section C05.
    Context {F : Type} `{Fld F} {DF : Draw S F} {EF : Enc M (list F)}.
    (** [fresh st] is the jointly sampled mask [r]; [inv_post]: all parties fail iff [x*r = 0],
        otherwise all succeed with a sharing of the inverse. *)
    Theorem C05_inv (st : pid -> rst S) a (x : F) : synced st -> shares a x ->
      all_end cap (fun i => inv i (st i) (a i)) (inv_post x (fresh st)).
    Proof. exact (fun Hs Ha => wpo_all_end (inv_ok cap_pos Hs Ha)). Qed.
    Theorem C05_inv_vec (st : pid -> rst S) a (xs : list F) : synced st -> shares_vec a xs ->
      all_end cap (fun i => inv_vec i (st i) (a i)) (inv_vec_post xs (fresh_vec (length xs) st)).
    Proof. exact (fun Hs Ha => wpo_all_end (inv_vec_ok cap_pos Hs Ha)). Qed.
    Theorem C05_div (st : pid -> rst S) a b (x y : F) : synced st -> shares a x -> shares b y ->
      all_end cap (fun i => div i (st i) (a i) (b i)) (div_post x y (fresh st)).
    Proof. exact (fun Hs Ha Hb => wpo_all_end (div_ok cap_pos Hs Ha Hb)). Qed.
    Theorem C05_div_public_by_shared (st : pid -> rst S) (k : F) a x : synced st -> shares a x ->
      all_end cap (fun i => div_public_by_shared i (st i) k (a i)) (div_post k x (fresh st)).
    Proof. exact (fun Hs Ha => wpo_all_end (div_public_by_shared_ok cap_pos k Hs Ha)). Qed.
    Theorem C05_div_shared_by_public a (x k : F) : shares a x -> k <> 0 ->
      exists r, (forall i, div_shared_by_public (a i) k = Some (r i)) /\ shares r (rmul x (finv k)).
    Proof. exact (@div_shared_by_public_ok F _ a x k). Qed.
    (** Square root: all parties agree on success; on success the result squares to [x]; it
        succeeds whenever [x r^2] has a root and both masks are non-zero. *)
    Theorem C05_sqrt fsqrt (st : pid -> rst S) a (x : F) :
      (forall z w, fsqrt z = Some w -> rmul w w = z) -> synced st -> shares a x ->
      all_end cap (fun i => sqrt fsqrt i (st i) (a i))
        (fun o => sqrt_post x o /\
          (forall w, fsqrt (rmul (rmul (fresh st) (fresh st)) x) = Some w ->
             rmul (fresh st) (fresh (snd_rand st)) <> 0 -> exists v, forall i, o i = Done (v i))).
    Proof. exact (fun Hq Hs Ha => wpo_all_end (sqrt_ok cap_pos fsqrt Hq Hs Ha)). Qed.
  End C05.

  (** ** C06 *)
  Section C06.
    Context {R : Type} `{CRing R} {DR : Draw S R} {ER : Enc M (list R)}.
    Theorem C06_cmux (st : pid -> rst S) c t f (b : bool) (x y : R) :
      synced st -> shares c (if b then rone else 0) -> shares t x -> shares f y ->
      all_ok cap (fun i => cmux i (st i) (c i) (t i) (f i))
        (fun r => shares (fun i => fst (r i)) (if b then x else y) /\ synced (fun i => snd (r i))).
    Proof. exact (fun Hs Hc Ht Hf => wp_all_ok (cmux_bit_wp cap_pos b Hs Hc Ht Hf)). Qed.
    Theorem C06_cmux_vec (st : pid -> rst S) c t f (b : bool) (xs ys : list R) :
      synced st -> shares c (if b then rone else 0) -> shares_vec t xs -> shares_vec f ys -> length xs = length ys ->
      all_ok cap (fun i => cmux_vec i (st i) (c i) (t i) (f i))
        (fun r => shares_vec (fun i => fst (r i)) (if b then xs else ys) /\ synced (fun i => snd (r i))).
    Proof. exact (fun Hs Hc Ht Hf Hl => wp_all_ok (cmux_vec_bit_wp cap_pos b Hs Hc Ht Hf Hl)). Qed.
    Theorem C06_pow_public (st : pid -> rst S) a (x : R) e : synced st -> shares a x ->
      all_ok cap (fun i => pow_public i (st i) (a i) e)
        (fun r => shares (fun i => fst (r i)) (rpow x (N.to_nat e)) /\ synced (fun i => snd (r i))).
    Proof. exact (fun Hs Ha => wp_all_ok (pow_public_wp cap_pos e Hs Ha)). Qed.
    Theorem C06_arithmetic_xor (st : pid -> rst S) a b (x y : bool) :
      synced st -> shares a (if x then rone else 0 : R) -> shares b (if y then rone else 0) ->
      all_ok cap (fun i => arithmetic_xor i (st i) (a i) (b i))
        (fun r => shares (fun i => fst (r i)) (if xorb x y then rone else 0) /\ synced (fun i => snd (r i))).
    Proof. exact (fun Hs Ha Hb => wp_all_ok (arithmetic_xor_bit_wp cap_pos x y Hs Ha Hb)). Qed.
    Theorem C06_arithmetic_xor_many (st : pid -> rst S) a b (xs ys : list bool) :
      synced st -> shares_vec a (map (fun x : bool => if x then rone else 0 : R) xs) ->
      shares_vec b (map (fun x : bool => if x then rone else 0) ys) ->
      all_ok cap (fun i => arithmetic_xor_many i (st i) (a i) (b i))
        (fun r => shares_vec (fun i => fst (r i)) (map2 (fun x y => if xorb x y then rone else 0) xs ys)
                  /\ synced (fun i => snd (r i))).
    Proof. exact (fun Hs Ha Hb => wp_all_ok (arithmetic_xor_many_bit_wp cap_pos xs ys Hs Ha Hb)). Qed.
    Theorem C06_add_mul (st : pid -> rst S) a b c (x y z : R) :
      synced st -> shares a x -> shares b y -> shares c z ->
      all_ok cap (fun i => add_mul i (st i) (a i) (b i) (c i))
        (fun r => shares (fun i => fst (r i)) (x + rmul y z) /\ synced (fun i => snd (r i))).
    Proof. exact (fun Hs Ha Hb Hc => wp_all_ok (add_mul_wp cap_pos Hs Ha Hb Hc)). Qed.

    (** ** C38: polynomials with shared coefficients at a public point *)
    Theorem C38_eval_poly threads is0 a (cs : list R) x :
      (1 <= threads)%nat -> (forall z, is0 z = true <-> z = 0) -> shares_vec a cs -> cs <> [] ->
      exists r, (forall i, eval_poly threads is0 (a i) x = Some (r i)) /\ shares r (poly_eval cs x 0).
    Proof. exact (@eval_poly_ok R _ threads is0 a cs x). Qed.
    Theorem C38_horner a (cs : list R) x : shares_vec a cs ->
      shares (fun i => horner (a i) x) (poly_eval cs x 0).
    Proof. exact (@horner_ok R _ cs x a). Qed.
    (** The empty coefficient list is not handled uniformly: at 0 the code indexes
        [coeffs\[0\]] and panics, at any other point it returns a sharing of 0. *)
    Theorem C38_eval_poly_empty_refuted threads is0 (x : R) :
      eval_poly (R := R) threads is0 [] x = if is0 x then None else Some zero_share.
    Proof. exact (eval_poly_empty threads is0 x). Qed.
  End C06.

  (** ** C39 *)
  Theorem C39_reshare_2_to_3 {F} `{Fld F} {DF : Draw S F} {EF : Enc M (list F)}
          rec (st : pid -> rst S) a (xs : list F) len inp :
    synced st -> shares_vec a xs -> len = length xs ->
    inp (next rec) = Some (a (next rec)) -> inp (prev rec) = Some (a (prev rec)) ->
    all_ok cap (fun i => reshare_2_to_3 rec i (st i) (inp i) len)
      (fun r => shares_vec (fun i => fst (r i)) xs /\ synced (fun i => snd (r i))).
  Proof. exact (fun Hs Ha Hl H1 H2 => wp_all_ok (r23_wp cap_pos rec inp Hs Ha Hl H1 H2)). Qed.

  (** ** C37: replicated point shares *)
  Section C37.
    Context {F G : Type} `{MO : Mod F G}.
    Theorem C37_public_point (p : G) a (x : F) : shares a x ->
      shares (fun i => scalar_mul_public_point p (a i)) (smul x p).
    Proof. exact (@scalar_mul_public_point_ok F G _ _ MO p a x). Qed.
    Theorem C37_public_scalar (k : F) a (p : G) : shares a p ->
      shares (fun i => scalar_mul_public_scalar (a i) k) (smul k p).
    Proof. exact (@scalar_mul_public_scalar_ok F G _ _ MO k a p). Qed.
    Theorem C37_scalar_mul {DG : Draw S G} {EG : Enc M (list G)} (st : pid -> rst S) a b (x : F) (p : G) :
      synced st -> shares a x -> shares b p ->
      all_ok cap (fun i => mul i (st i) (a i) (b i))
        (fun r => shares (fun i => fst (r i)) (smul x p) /\ synced (fun i => snd (r i))).
    Proof. exact (fun Hs Ha Hb => wp_all_ok (mul_wp cap_pos Hs Ha Hb)). Qed.
    Theorem C37_promote g is0 (p : G) : (forall z, is0 z = true -> z = 0) ->
      shares (fun i => promote_point g is0 i p) p.
    Proof. exact (@promote_point_ok G _ g is0 p). Qed.
    Theorem C37_msm ps a (xs : list F) : shares_vec a xs ->
      shares (fun i => msm_public_points ps (a i)) (fold_right gadd 0 (map2 (fun p x => smul x p) ps xs) : G).
    Proof. exact (@msm_fold_ok F G _ _ MO ps a xs). Qed.
    Theorem C37_open_point_and_field {E1 : Enc M (list (G * F))} a (p : G) b (x : F) :
      shares a p -> shares b x ->
      all_ok cap (fun i => open_point_and_field i (a i) (b i)) (fun r => forall i, r i = (p, x)).
    Proof. exact (fun Ha Hb => wp_all_ok (open_point_and_field_wp cap_pos Ha Hb)). Qed.
    Theorem C37_open_point_and_field_many {E1 : Enc M (list (list G * list F))} a (ps : list G) b (xs : list F) :
      shares_vec a ps -> shares_vec b xs ->
      all_ok cap (fun i => open_point_and_field_many i (a i) (b i)) (fun r => forall i, r i = (ps, xs)).
    Proof. exact (fun Ha Hb => wp_all_ok (open_point_and_field_many_wp cap_pos Ha Hb)). Qed.
    Theorem C37_open_point_many {E1 : Enc M (list (list G))} a (ps : list G) : shares_vec a ps ->
      all_ok cap (fun i => open_point_many i (a i)) (fun r => forall i, r i = ps).
    Proof. exact (fun Ha => wp_all_ok (open_point_many_wp cap_pos Ha)). Qed.
  End C37.

  (** ** C07, C08: generators *)
  Section C07.
    Context {Seed : Type} {HS : Seeded S Seed} {HD : Draw S Seed} {ES : Enc M (list Seed)} {ESS : Enc M (list (Seed * Seed))}.
    (** Whatever seeds the parties draw, set-up synchronises the generators. *)
    Theorem C07_setup (seed : pid -> Seed) :
      all_ok cap (fun i => new_state (S := S) i (seed i)) (fun st => synced st /\ bc1_agree st).
    Proof. exact (wp_all_ok (new_state_wp cap_pos seed)). Qed.
    Theorem C07_script {X} {DX : Draw S X} (ops : list (rng_op X)) (st : pid -> rst S) : synced st ->
      synced (fun i => run_ops ops i (st i)).
    Proof. exact (run_ops_synced ops (st := st)). Qed.
  End C07.
  Theorem C07_masks {G} `{AbGrp G} `{Draw S G} (st : pid -> rst S) : synced st ->
    additive (fun i => fst (masking (st i))) 0 /\ synced (fun i => snd (masking (st i))).
  Proof. exact (@masking_ok S G _ _ st). Qed.
  Theorem C07_mask_vec {G} `{AbGrp G} `{Draw S G} n (st : pid -> rst S) : synced st ->
    additive_vec (fun i => fst (masking_vec n (st i))) (repeat 0 n) /\ synced (fun i => snd (masking_vec n (st i))).
  Proof. exact (@masking_vec_ok S G _ _ n st). Qed.
  Theorem C07_random_shares {G} `{AbGrp G} `{Draw S G} (st : pid -> rst S) : synced st ->
    (exists r, shares (fun i => fst (rand (G := G) (st i))) r) /\ synced (fun i => snd (rand (G := G) (st i))).
  Proof. exact (fun Hs => let K := rand_ok (G := G) Hs in conj (ex_intro _ _ (proj1 K)) (proj2 K)). Qed.
  Theorem C08_generate_shared_partial {X} `{Draw S X} (st : pid -> rst S) : bc1_agree st ->
    (forall i, fst (generate_shared (X := X) i (st i)) = fst (draw (k2 (bc1 (st P0))))) /\
    bc1_agree (fun i => snd (generate_shared (X := X) i (st i))).
  Proof. exact (@generate_shared_ok S X _ st). Qed.
End Statements.

Lemma generate_shared_desync :
  exists (st : pid -> rst Z), synced st /\ bc1_agree st /\
    fst (generate_shared (X := Z) P0 (run_ops [OpBC1] P0 (st P0))) <>
    fst (generate_shared (X := Z) P1 (run_ops [OpBC1] P1 (st P1))).
Proof.
  exists st13. split; [exact st13_synced|]. split; [split; reflexivity|]. vm_compute. discriminate.
Qed.
(** The full C08 is false: a draw from the three-key generator (as in [b2a], which parties 1
    and 2 make and party 0 does not) leaves the generators [synced], but [generate_shared]
    then returns different values at party 0 and party 1. *)
Theorem C08_generate_shared_refuted :
  exists (st : pid -> rst Z), synced st /\ bc1_agree st /\
    fst (generate_shared (X := Z) P0 (run_ops [OpBC1] P0 (st P0))) <>
    fst (generate_shared (X := Z) P1 (run_ops [OpBC1] P1 (st P1))).
Proof. exact generate_shared_desync. Qed.

(** ** Non-vacuity: concrete instances of the hypotheses and computed results *)
Example ex_C01 : let s := fst (share_field_element (f13 5) 99999999%Z) P0 in
  (val (sa s), val (sb s)) = (4, 1)%Z.
Proof. vm_compute. reflexivity. Qed.
Example ex_C03 : synced st13 /\ shares (sh13 3 7 11) (f13 3) /\ shares (sh13 5 2 6) (f13 5)
                 /\ rmul (f13 3) (f13 5) = f13 2.
Proof. repeat split; try apply st13_synced; try apply sh13_shares; try (apply Zmod_eq; reflexivity); intros []; reflexivity. Qed.
Example ex_C05 : fresh (F := F13) st13 = f13 2 /\ rmul (f13 3) (fresh st13) <> 0
                 /\ finv (f13 3) = f13 9.
Proof. split; [apply Zmod_eq; reflexivity|]. split; [intros C; apply (f_equal val) in C; discriminate C|apply Zmod_eq; vm_compute; reflexivity]. Qed.
Example ex_C06 : shares (sh13 1 7 11) (if true then rone else 0 : F13) /\ shares (sh13 0 2 6) (if false then rone else 0 : F13).
Proof. split; apply sh13_shares. Qed.
Example ex_C38 : poly_eval [f13 1; f13 2; f13 3] (f13 2) 0 = f13 4.
Proof. apply Zmod_eq. reflexivity. Qed.
Example ex_C39 : shares_vec (fun i => [sh13 3 7 11 i; sh13 5 2 6 i]) [f13 3; f13 5].
Proof. eapply pvec_cons; [reflexivity|apply sh13_shares|]. eapply pvec_cons; [reflexivity|apply sh13_shares|]. apply pvec_nil. reflexivity. Qed.

Print Assumptions C01_share_combine_vec.
Print Assumptions C01_share_seeded.
Print Assumptions C02_sub_public_by_shared.
Print Assumptions C03_mul.
Print Assumptions C03_mul_vec.
Print Assumptions C04_open_vec.
Print Assumptions C05_inv_vec.
Print Assumptions C05_sqrt.
Print Assumptions C06_pow_public.
Print Assumptions C38_eval_poly.
Print Assumptions C39_reshare_2_to_3.
Print Assumptions C37_open_point_and_field_many.
Print Assumptions C07_setup.
Print Assumptions C07_script.
Print Assumptions C08_generate_shared_refuted.
