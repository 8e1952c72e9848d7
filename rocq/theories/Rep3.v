(** * Replicated three-party sharing: model

    Models mpc-core/src/protocols/rep3.rs, rep3/rngs.rs, rep3/arithmetic.rs,
    rep3/arithmetic/ops.rs, rep3/pointshare.rs, rep3/pointshare/ops.rs, rep3/poly.rs and
    the arithmetic part of rep3_ring (same formulas over Z/2^k).

    Carriers are arbitrary ([AbGrp], [CRing], [Fld], [Mod], see Alg.v): the Rust code
    is generic in the field / ring / curve in the same way.  [usize] overflow and
    rayon parallelism (which only splits pure maps) are not modelled. *)
From Coq Require Import String List Arith NArith Lia.
From Verif Require Import Proc Alg Rep3Net.
Import ListNotations.
Set Implicit Arguments.
Local Open Scope grp_scope.

(** ** Shares (rep3/arithmetic/types.rs:21-28, pointshare/types.rs) *)
Record share (G : Type) := mkShare { sa : G; sb : G }.
Arguments mkShare {G}.
Arguments sa {G}.
Arguments sb {G}.

(** ** Generators

    [S] is the state of a generator (ChaCha12, mpc-core/src/lib.rs [RngType]); drawing a
    value of type [X] ([F::rand(&mut rng)], [rng.gen()], [C::rand]) is an arbitrary
    deterministic function. *)
Class Draw (S X : Type) := draw : S -> X * S.
(** [RngType::from_seed] *)
Class Seeded (S Seed : Type) := from_seed : Seed -> S.

(** rngs.rs:251-255 [Rep3RandBitComp] *)
Record bcomp (S : Type) := mkBC { k1 : S; k2 : S; k3 : option S }.
(** rngs.rs:18-23, 83-86 [Rep3CorrelatedRng], [Rep3Rand] (the part of [Rep3State],
    rep3.rs:43-52, that carries generators; the party id is passed separately). *)
Record rst (S : Type) := mkRst { rng1 : S; rng2 : S; bc1 : bcomp S; bc2 : bcomp S }.
Definition set_rand {S} (st : rst S) (a b : S) : rst S := mkRst a b (bc1 st) (bc2 st).

Section Rng.
  Context {S : Type}.
  (** rngs.rs:109-113 [random_fes], 126-133 [random_elements], 183-187 [random_ecs] *)
  Definition random_pair {X} `{Draw S X} (st : rst S) : (X * X) * rst S :=
    let a := draw (rng1 st) in
    let b := draw (rng2 st) in
    ((fst a, fst b), set_rand st (snd a) (snd b)).
  (** rngs.rs:103-106 [masking_field_element], 116-123 [masking_element],
      177-180 [masking_ec_element] *)
  Definition masking {G} `{AbGrp G} `{Draw S G} (st : rst S) : G * rst S :=
    let r := random_pair st in
    (fst (fst r) - snd (fst r), snd r).
  (** [n] successive draws from one generator. *)
  Fixpoint draws {X} `{Draw S X} (n : nat) (s : S) : list X * S :=
    match n with
    | O => ([], s)
    | Datatypes.S n => let x := draw s in let r := draws n (snd x) in (fst x :: fst r, snd r)
    end.
  (** rngs.rs:160-174 [masking_elements_vec]: all draws of generator 1 and all draws of
      generator 2 (possibly in parallel), subtracted point-wise. *)
  Definition masking_vec {G} `{AbGrp G} `{Draw S G} (n : nat) (st : rst S) : list G * rst S :=
    let a := draws n (rng1 st) in
    let b := draws n (rng2 st) in
    (map2 gsub (fst a) (fst b), set_rand st (snd a) (snd b)).
  (** rngs.rs:137-156 [masking_field_elements_vec]: as above, but the elements are
      produced by one [fill_bytes] call ([drawv n]); only the length is known. *)
  Definition masking_vec_bytes {G} `{AbGrp G} (drawv : nat -> S -> list G * S) (n : nat) (st : rst S)
    : list G * rst S :=
    let a := drawv n (rng1 st) in
    let b := drawv n (rng2 st) in
    (map2 gsub (fst a) (fst b), set_rand st (snd a) (snd b)).
  (** rngs.rs:207-230 [random_field_element_rng1/2], [random_element_rng1/2] *)
  Definition random_rng1 {X} `{Draw S X} (st : rst S) : X * rst S :=
    let a := draw (rng1 st) in (fst a, set_rand st (snd a) (rng2 st)).
  Definition random_rng2 {X} `{Draw S X} (st : rst S) : X * rst S :=
    let a := draw (rng2 st) in (fst a, set_rand st (rng1 st) (snd a)).

  (** rngs.rs:281-317 [random_fes_3keys] / [random_elements_3keys] /
      [random_curves_3keys]; [None] = [unreachable!()] panic. *)
  Definition three_keys {X} `{Draw S X} (bc : bcomp S) : option ((X * X * X) * bcomp S) :=
    let a := draw (k1 bc) in
    let b := draw (k2 bc) in
    match k3 bc with
    | Some s => let c := draw s in
                Some ((fst a, fst b, fst c), mkBC (snd a) (snd b) (Some (snd c)))
    | None => None
    end.

  Context {Seed : Type} `{Seeded S Seed} `{Draw S Seed}.
  (** rngs.rs:233-237 [random_seeds] *)
  Definition random_seeds (st : rst S) : (Seed * Seed) * rst S := random_pair st.
  (** rngs.rs:97-100 [Rep3Rand::fork] together with 320-328 [Rep3RandBitComp::fork] and
      36-45 [Rep3CorrelatedRng::fork]: returns (forked, remaining). *)
  Definition fork_bc (bc : bcomp S) : bcomp S * bcomp S :=
    let a := draw (k1 bc) in
    let b := draw (k2 bc) in
    let c := option_map (fun s => draw (X := Seed) s) (k3 bc) in
    (mkBC (from_seed (fst a)) (from_seed (fst b)) (option_map (fun x => from_seed (fst x)) c),
     mkBC (snd a) (snd b) (option_map snd c)).
  Definition fork (st : rst S) : rst S * rst S :=
    let r := random_pair (X := Seed) st in
    let f1 := fork_bc (bc1 st) in
    let f2 := fork_bc (bc2 st) in
    (mkRst (from_seed (fst (fst r))) (from_seed (snd (fst r))) (fst f1) (fst f2),
     mkRst (rng1 (snd r)) (rng2 (snd r)) (snd f1) (snd f2)).

  (** rngs.rs:48-57 [generate_shared] *)
  Definition generate_shared {X} `{Draw S X} (i : pid) (st : rst S) : X * rst S :=
    match i with
    | P0 | P1 =>
        let x := draw (k2 (bc1 st)) in
        (fst x, mkRst (rng1 st) (rng2 st) (mkBC (k1 (bc1 st)) (snd x) (k3 (bc1 st))) (bc2 st))
    | P2 =>
        let x := draw (k1 (bc1 st)) in
        (fst x, mkRst (rng1 st) (rng2 st) (mkBC (snd x) (k2 (bc1 st)) (k3 (bc1 st))) (bc2 st))
    end.

  (** rngs.rs:60-69 [generate_garbler_randomness] ([None]: panic) *)
  Definition garbler_randomness {X} `{Draw S X} (i : pid) (st : rst S) : option (X * rst S) :=
    match i with
    | P0 => None
    | P1 => Some (random_rng1 st)
    | P2 => Some (random_rng2 st)
    end.

  (** ** Set-up of the correlated randomness (rep3.rs:71-110)

      [seed] is drawn by each party from its own entropy (rep3.rs:58,72). *)
  Context {M : Type} {ES : Enc M (list Seed)} {ESS : Enc M (list (Seed * Seed))}.
  (** rep3.rs:71-76 [setup_prf] *)
  Definition setup_prf (i : pid) (seed1 : Seed) : prog pid M (S * S) :=
    seed2 <- reshare i seed1 ;;
    Ret (from_seed seed1, from_seed seed2).
  (** rep3.rs:78-110 [setup_bitcomp] *)
  Definition setup_bitcomp (i : pid) (r1 r2 : S) : prog pid M (rst S) :=
    let a := draw (X := Seed) r1 in let c := draw (X := Seed) r2 in
    let a' := draw (X := Seed) (snd a) in let c' := draw (X := Seed) (snd c) in
    let k1a := fst a in let k1c := fst c in
    let k2a := fst a' in let k2c := fst c' in
    let r1' := snd a' in let r2' := snd c' in
    match i with
    | P0 =>
        k2b <- send_and_recv P1 k1c P2 ;;
        Ret (mkRst r1' r2' (mkBC (from_seed k1a) (from_seed k1c) None)
                   (mkBC (from_seed k2a) (from_seed k2b) (Some (from_seed k2c))))
    | P1 =>
        _ <- send_next i (k1c, k2c) ;;
        k1b <- recv_prev i ;;
        Ret (mkRst r1' r2' (mkBC (from_seed k1a) (from_seed k1b) (Some (from_seed k1c)))
                   (mkBC (from_seed k2a) (from_seed k2c) None))
    | P2 =>
        _ <- send_next i k2c ;;
        kk <- recv_prev i ;;
        Ret (mkRst r1' r2' (mkBC (from_seed k1a) (from_seed (fst kk)) (Some (from_seed k1c)))
                   (mkBC (from_seed k2a) (from_seed (snd kk)) (Some (from_seed k2c))))
    end.
  (** rep3.rs:56-69 [Rep3State::new] *)
  Definition new_state (i : pid) (seed1 : Seed) : prog pid M (rst S) :=
    rr <- setup_prf i seed1 ;; setup_bitcomp i (fst rr) (snd rr).
End Rng.

(** ** Sharing and reconstruction *)
Section Sharing.
  Context {G : Type} `{AbGrp G}.
  Definition zero_share : share G := mkShare 0 0.   (* arithmetic/types.rs:43-48 *)
  Definition shadd (x y : share G) : share G := mkShare (sa x + sa y) (sb x + sb y).  (* ops.rs:5-14; arithmetic.rs:31 *)
  Definition shsub (x y : share G) : share G := mkShare (sa x - sa y) (sb x - sb y).  (* ops.rs:40-49; arithmetic.rs:68 *)
  Definition shneg (x : share G) : share G := mkShare (- sa x) (- sb x).               (* ops.rs:116-125; arithmetic.rs:211 *)
  (** arithmetic.rs:41-49 [add_public]; pointshare.rs:47-53 *)
  Definition add_public (i : pid) (x : share G) (c : G) : share G :=
    match i with
    | P0 => mkShare (sa x + c) (sb x)
    | P1 => mkShare (sa x) (sb x + c)
    | P2 => x
    end.
  (** pointshare.rs:56-62 [sub_assign_public] *)
  Definition sub_assign_public (i : pid) (x : share G) (c : G) : share G :=
    match i with
    | P0 => mkShare (sa x - c) (sb x)
    | P1 => mkShare (sa x) (sb x - c)
    | P2 => x
    end.
  (** arithmetic.rs:85-91 *)
  Definition sub_shared_by_public (i : pid) (x : share G) (c : G) := add_public i x (- c).
  (** arithmetic.rs:94-100 *)
  Definition sub_public_by_shared (i : pid) (c : G) (x : share G) := add_public i (shneg x) c.
  (** arithmetic.rs:321-327 *)
  Definition promote (i : pid) (c : G) : share G :=
    match i with P0 => mkShare c 0 | P1 => mkShare 0 c | P2 => zero_share end.
  (** arithmetic/types.rs:75-82 [promote_from_trivial_with_scalar] *)
  Definition promote_with_scalar (i : pid) (c s : G) : share G :=
    match i with P0 => mkShare c (- s) | P1 => mkShare s c | P2 => mkShare (- s) s end.

  (** rep3.rs:281-292 [share_field_element] (552-563 for points, 536-549 for binary);
      the two draws are arguments. *)
  Definition share_elem (v a b : G) (i : pid) : share G :=
    let c := v - a - b in
    match i with P0 => mkShare a c | P1 => mkShare b a | P2 => mkShare c b end.
  (** rep3.rs:295-303 *)
  Definition share_additive (v a b : G) (i : pid) : G :=
    match i with P0 => a | P1 => b | P2 => v - a - b end.
  (** rep3.rs:583-589 [combine_field_element] *)
  Definition combine (s1 s2 s3 : share G) : G := sa s1 + sa s2 + sa s3.
  (** rep3.rs:594-605 [combine_field_elements]; [None] = failed assertion *)
  Definition combine_vec (l1 l2 l3 : list (share G)) : option (list G) :=
    if (Nat.eqb (length l1) (length l2) && Nat.eqb (length l2) (length l3))%bool
    then Some (map2 (fun p s3 => sa (fst p) + sa (snd p) + sa s3) (List.combine l1 l2) l3)
    else None.

  Context {S : Type} {DG : Draw S G}.
  (** rep3.rs:281-292 with the generator *)
  Definition share_field_element (v : G) (s : S) : (pid -> share G) * S :=
    let a := draw s in let b := draw (snd a) in (share_elem v (fst a) (fst b), snd b).
  (** rep3.rs:375-389 [share_field_elements] *)
  Fixpoint share_field_elements (vs : list G) (s : S) : (pid -> list (share G)) * S :=
    match vs with
    | [] => (fun _ => [], s)
    | v :: vs =>
        let x := share_field_element v s in
        let r := share_field_elements vs (snd x) in
        (fun i => fst x i :: fst r i, snd r)
    end.
  (** rep3.rs:392-412 [share_maybe_field_elements] *)
  Fixpoint share_maybe (vs : list (option G)) (s : S) : (pid -> list (option (share G))) * S :=
    match vs with
    | [] => (fun _ => [], s)
    | Some v :: vs =>
        let x := share_field_element v s in
        let r := share_maybe vs (snd x) in
        (fun i => Some (fst x i) :: fst r i, snd r)
    | None :: vs =>
        let r := share_maybe vs s in
        (fun i => None :: fst r i, snd r)
    end.

  (** Compressed shares: rep3.rs:155-165 [SeededType], 228-238 [ReplicatedSeedType] *)
  Context {Seed : Type} `{Seeded S Seed} `{Draw S Seed}.
  Inductive seeded := Shares (l : list G) | SeedOf (s : Seed) (len : nat).
  (** rep3.rs:185-197 [expand_vec] *)
  Definition expand (x : seeded) : list G :=
    match x with Shares l => l | SeedOf s n => fst (draws n (from_seed s)) end.
  (** rep3.rs:200-205 [length] *)
  Definition seeded_length (x : seeded) : nat :=
    match x with Shares l => length l | SeedOf _ n => n end.
  (** rep3.rs:257-267 [expand_vec] of a replicated seeded share; [None] = error *)
  Definition expand_rep (x : seeded * seeded) : option (list (share G)) :=
    let a := expand (fst x) in let b := expand (snd x) in
    if Nat.eqb (length a) (length b) then Some (map2 mkShare a b) else None.
  (** the loop at rep3.rs:478-483 *)
  Fixpoint seeded_rest (vs : list G) (sb sc : S) : list G :=
    match vs with
    | [] => []
    | v :: vs => let b := draw sb in let c := draw sc in
                 (v - fst b - fst c) :: seeded_rest vs (snd b) (snd c)
    end.
  (** rep3.rs:455-497 [share_field_elements_seeded] *)
  Definition share_seeded (vs : list G) (s : S) (i : pid) : seeded * seeded :=
    let seed_b := draw (X := Seed) s in
    let seed_c := draw (X := Seed) (snd seed_b) in
    let b := SeedOf (fst seed_b) (length vs) in
    let c := SeedOf (fst seed_c) (length vs) in
    let a := Shares (seeded_rest vs (from_seed (fst seed_b)) (from_seed (fst seed_c))) in
    match i with P0 => (a, c) | P1 => (b, a) | P2 => (c, b) end.
End Sharing.
Arguments seeded : clear implicits.

(** ** Local products and interactive multiplication *)
Section Mul.
  Context {A B C : Type} `{BL : Bilin A B C}.
  (** arithmetic/ops.rs:69-76 (field), pointshare/ops.rs:95-102 (scalar * point, up to
      commutativity of addition), binary/ops.rs (and) *)
  Definition lmul (x : share A) (y : share B) : C :=
    bmul (sa x) (sa y) + bmul (sa x) (sb y) + bmul (sb x) (sa y).

  Context {S M : Type} {DC : Draw S C} {EC : Enc M (list C)}.
  (** arithmetic.rs:103-115 [mul]; pointshare.rs:84-96 [scalar_mul] *)
  Definition mul (i : pid) (st : rst S) (x : share A) (y : share B) : prog pid M (share C * rst S) :=
    let m := masking st in
    let z := lmul x y + fst m in
    c <- reshare i z ;;
    Ret (mkShare z c, snd m).
  (** the map at arithmetic.rs:172-174: one mask per element *)
  Fixpoint lmul_vec (st : rst S) (xs : list (share A)) (ys : list (share B)) : list C * rst S :=
    match xs, ys with
    | x :: xs, y :: ys =>
        let m := masking st in
        let r := lmul_vec (snd m) xs ys in
        ((lmul x y + fst m) :: fst r, snd r)
    | _, _ => ([], st)
    end.
  (** arithmetic.rs:132-146 [local_mul_vec]; [zip_eq] panics on different lengths *)
  Definition local_mul_vec (drawv : nat -> S -> list C * S) (st : rst S)
             (xs : list (share A)) (ys : list (share B)) : option (list C * rst S) :=
    if Nat.eqb (length xs) (length ys) then
      let m := masking_vec_bytes drawv (length xs) st in
      Some (map2 gadd (map2 lmul xs ys) (fst m), snd m)
    else None.
  (** arithmetic.rs:149-160 [reshare_vec] *)
  Definition reshare_vec (i : pid) (z : list C) : prog pid M (list (share C)) :=
    c <- reshare_many i z ;;
    if Nat.eqb (length c) (length z) then Ret (map2 mkShare z c)
    else Fail (Eyre "During execution of mul_vec in MPC: Invalid number of elements received").
  (** arithmetic.rs:165-176 [mul_vec] (pointshare.rs:99-116 [scalar_mul_many] is the same
      without the length check) *)
  Definition mul_vec (i : pid) (st : rst S) (xs : list (share A)) (ys : list (share B))
    : prog pid M (list (share C) * rst S) :=
    let z := lmul_vec st xs ys in
    r <- reshare_vec i (fst z) ;;
    Ret (r, snd z).
  (** arithmetic.rs:330-339 [mul_open] *)
  Definition mul_open (i : pid) (st : rst S) (x : share A) (y : share B) : prog pid M (C * rst S) :=
    let m := masking st in
    let a := lmul x y + fst m in
    bc <- broadcast i a ;;
    Ret (a + fst bc + snd bc, snd m).
  (** arithmetic.rs:342-354 [mul_open_vec] *)
  Definition mul_open_vec (i : pid) (st : rst S) (xs : list (share A)) (ys : list (share B))
    : prog pid M (list C * rst S) :=
    let z := lmul_vec st xs ys in
    bc <- broadcast_many i (fst z) ;;
    Ret (map2 gadd (fst z) (map2 gadd (fst bc) (snd bc)), snd z).
End Mul.

Section Open.
  Context {G : Type} `{AbGrp G} {M : Type} {EG : Enc M (list G)}.
  (** arithmetic.rs:249-252 [open]; 255-258 [open_bit]; pointshare.rs:146-149 *)
  Definition open (i : pid) (x : share G) : prog pid M G :=
    c <- reshare i (sb x) ;; Ret (sa x + sb x + c).
  (** arithmetic.rs:261-271 [open_vec] *)
  Definition open_vec (i : pid) (xs : list (share G)) : prog pid M (list G) :=
    c <- reshare_many i (map sb xs) ;;
    Ret (map2 gadd (map2 gadd (map sa xs) (map sb xs)) c).
  (** pointshare.rs:152-155 [open_half_point] *)
  Definition open_half (i : pid) (x : G) : prog pid M G :=
    bc <- broadcast i x ;; Ret (x + fst bc + snd bc).
End Open.

Section Rand.
  Context {G : Type} {S : Type} {DG : Draw S G}.
  (** arithmetic.rs:357-360 [rand] *)
  Definition rand (st : rst S) : share G * rst S :=
    let r := random_pair st in (mkShare (fst (fst r)) (snd (fst r)), snd r).
  Fixpoint rands (n : nat) (st : rst S) : list (share G) * rst S :=
    match n with
    | O => ([], st)
    | Datatypes.S n => let r := rand st in let q := rands n (snd r) in (fst r :: fst q, snd q)
    end.
End Rand.

Section RingOps.
  Context {R : Type} `{CRing R} {S M : Type} {DR : Draw S R} {ER : Enc M (list R)}.
  (** ops.rs:78-87; arithmetic.rs:118-120 [mul_public] *)
  Definition mul_public (x : share R) (c : R) : share R := mkShare (rmul (sa x) c) (rmul (sb x) c).
  (** arithmetic.rs:304-306 *)
  Definition add_mul_public (a b : share R) (c : R) : share R := shadd a (mul_public b c).
  (** arithmetic.rs:309-318 *)
  Definition add_mul (i : pid) (st : rst S) (a b c : share R) : prog pid M (share R * rst S) :=
    m <- mul i st c b ;; Ret (shadd a (fst m), snd m).
  (** arithmetic.rs:274-284 [cmux] *)
  Definition cmux (i : pid) (st : rst S) (cond t f : share R) : prog pid M (share R * rst S) :=
    d <- mul i st cond (shsub t f) ;; Ret (shadd f (fst d), snd d).
  (** arithmetic.rs:287-301 [cmux_vec] *)
  Fixpoint cmux_local (cond : share R) (st : rst S) (ts fs : list (share R)) : list R * rst S :=
    match ts, fs with
    | t :: ts, f :: fs =>
        let m := masking st in
        let r := cmux_local cond (snd m) ts fs in
        ((lmul (shsub t f) cond + sa f + fst m) :: fst r, snd r)
    | _, _ => ([], st)
    end.
  Definition cmux_vec (i : pid) (st : rst S) (cond : share R) (ts fs : list (share R))
    : prog pid M (list (share R) * rst S) :=
    let z := cmux_local cond st ts fs in
    r <- reshare_vec i (fst z) ;; Ret (r, snd z).
  (** arithmetic.rs:744-757 [arithmetic_xor] *)
  Definition xor_local (x y : share R) (m : R) : R :=
    let d := lmul x y + m in sa x + sa y - (d + d).
  Definition arithmetic_xor (i : pid) (st : rst S) (x y : share R) : prog pid M (share R * rst S) :=
    let m := masking st in
    let z := xor_local x y (fst m) in
    c <- reshare i z ;; Ret (mkShare z c, snd m).
  (** arithmetic.rs:760-784 [arithmetic_xor_many] *)
  Fixpoint xor_local_vec (st : rst S) (xs ys : list (share R)) : list R * rst S :=
    match xs, ys with
    | x :: xs, y :: ys =>
        let m := masking st in
        let r := xor_local_vec (snd m) xs ys in
        (xor_local x y (fst m) :: fst r, snd r)
    | _, _ => ([], st)
    end.
  Definition arithmetic_xor_many (i : pid) (st : rst S) (xs ys : list (share R))
    : prog pid M (list (share R) * rst S) :=
    let z := xor_local_vec st xs ys in
    c <- reshare_many i (fst z) ;; Ret (map2 mkShare (fst z) c, snd z).

  (** arithmetic.rs:406-424 [pow_public]: the loop
      [while !public.is_zero() { if public.bit(0) {..}; shared = shared^2; public >>= 1 }]
      by recursion on the binary representation of the exponent. *)
  Fixpoint pow_loop (i : pid) (e : positive) (st : rst S) (res base : share R)
    : prog pid M (share R * rst S) :=
    match e with
    | xH =>
        r <- mul i st res base ;;
        b <- mul i (snd r) base base ;;
        Ret (fst r, snd b)
    | xO e =>
        b <- mul i st base base ;; pow_loop i e (snd b) res (fst b)
    | xI e =>
        r <- mul i st res base ;;
        b <- mul i (snd r) base base ;;
        pow_loop i e (snd b) (fst r) (fst b)
    end.
  Definition pow_public (i : pid) (st : rst S) (x : share R) (e : N) : prog pid M (share R * rst S) :=
    let res := promote i rone in
    match e with
    | N0 => Ret (res, st)
    | Npos p => pow_loop i p st res x
    end.

  (** poly.rs:28-34 [horner_evaluate] *)
  Definition horner (cs : list (share R)) (x : R) : share R :=
    fold_right (fun c acc => shadd (mul_public acc x) c) zero_share cs.
  Fixpoint rpow (x : R) (n : nat) : R :=
    match n with O => rone | Datatypes.S n => rmul x (rpow x n) end.
  (** [par_chunks(k)]: consecutive chunks of [k] elements; fuel = list length *)
  Fixpoint chunks_ {X} (fuel k : nat) (l : list X) : list (list X) :=
    match fuel with
    | O => []
    | Datatypes.S fuel =>
        match l with [] => [] | _ => firstn k l :: chunks_ fuel k (skipn k l) end
    end.
  Definition chunks {X} (k : nat) (l : list X) : list (list X) := chunks_ (length l) k l.
  (** poly.rs:39-68 [eval_poly] with [threads] = [rayon::current_num_threads()];
      [is0] is [point.is_zero()]; [None] = index panic on [coeffs\[0\]]. *)
  Fixpoint eval_chunks (k : nat) (x : R) (idx : nat) (cs : list (list (share R))) : share R :=
    match cs with
    | [] => zero_share
    | c :: cs => shadd (mul_public (horner c x) (rpow x (idx * k))) (eval_chunks k x (Datatypes.S idx) cs)
    end.
  Definition eval_poly (threads : nat) (is0 : R -> bool) (cs : list (share R)) (x : R) : option (share R) :=
    if is0 x then nth_error cs 0
    else
      let k := Nat.max (length cs / threads) 16 in
      Some (eval_chunks k x 0 (chunks k cs)).
End RingOps.

Section FieldOps.
  Context {F : Type} `{Fld F} {S M : Type} {DR : Draw S F} {ER : Enc M (list F)}.
  Definition inv_err : err := Eyre "During execution of inverse in MPC: cannot compute inverse of zero".
  (** arithmetic.rs:216-230 [inv] *)
  Definition inv (i : pid) (st : rst S) (a : share F) : prog pid M (share F * rst S) :=
    let r := rand st in
    y <- mul_open i (snd r) a (fst r) ;;
    if feqb (fst y) 0 then Fail inv_err
    else Ret (mul_public (fst r) (finv (fst y)), snd y).
  (** arithmetic.rs:233-246 [inv_vec] *)
  Definition inv_vec (i : pid) (st : rst S) (a : list (share F)) : prog pid M (list (share F) * rst S) :=
    let r := rands (length a) st in
    y <- mul_open_vec i (snd r) a (fst r) ;;
    if existsb (fun y => feqb y 0) (fst y) then Fail inv_err
    else Ret (map2 (fun r y => mul_public r (finv y)) (fst r) (fst y), snd y).
  (** arithmetic.rs:179-186 [div] *)
  Definition div (i : pid) (st : rst S) (a b : share F) : prog pid M (share F * rst S) :=
    bi <- inv i st b ;; mul i (snd bi) a (fst bi).
  (** arithmetic.rs:189-198 [div_shared_by_public] ([None]: error) *)
  Definition div_shared_by_public (a : share F) (c : F) : option (share F) :=
    if feqb c 0 then None else Some (mul_public a (finv c)).
  (** arithmetic.rs:201-208 [div_public_by_shared] *)
  Definition div_public_by_shared (i : pid) (st : rst S) (c : F) (a : share F) : prog pid M (share F * rst S) :=
    ai <- inv i st a ;; Ret (mul_public (fst ai) c, snd ai).
  (** arithmetic.rs:363-403 [sqrt]; [fsqrt] is ark-ff's [Field::sqrt] *)
  Definition sqrt (fsqrt : F -> option F) (i : pid) (st : rst S) (x : share F) : prog pid M (share F * rst S) :=
    let r_squ := rand st in
    let r_inv := rand (snd r_squ) in
    rr <- mul i (snd r_inv) (fst r_squ) (fst r_squ) ;;
    m <- mul_vec i (snd rr) [fst rr; fst r_squ] [x; fst r_inv] ;;
    c <- reshare_many i (map sb (fst m)) ;;
    match c, fst m with
    | [c0; c1], [m0; m1] =>
        let y_inv := sa m1 + sb m1 + c1 in
        match fsqrt (sa m0 + sb m0 + c0) with
        | None => Fail (Eyre "During execution of square root in MPC: cannot compute square root")
        | Some y =>
            if feqb y_inv 0
            then Fail (Eyre "During execution of square root in MPC: cannot compute inverse of zero")
            else Ret (mul_public (mul_public (fst r_inv) (finv y_inv)) y, snd m)
        end
    | _, _ => Fail (Eyre "During execution of square root in MPC: invalid number of elements received")
    end.

  (** arithmetic.rs:788-845 [reshare_from_2_to_3_parties] *)
  Fixpoint r23_next (st : rst S) (xs : list (share F)) : (list F * list (share F)) * rst S :=
    match xs with
    | [] => (([], []), st)
    | x :: xs =>
        let b := random_rng2 st in
        let r := sa x + sb x - fst b in
        let q := r23_next (snd b) xs in
        ((r :: fst (fst q), mkShare r (fst b) :: snd (fst q)), snd q)
    end.
  Fixpoint r23_prev (st : rst S) (xs : list (share F)) : (list F * list (share F)) * rst S :=
    match xs with
    | [] => (([], []), st)
    | x :: xs =>
        let a := random_rng1 st in
        let r := sa x - fst a in
        let q := r23_prev (snd a) xs in
        ((r :: fst (fst q), mkShare (fst a) r :: snd (fst q)), snd q)
    end.
  Definition reshare_2_to_3 (recipient i : pid) (st : rst S) (input : option (list (share F))) (len : nat)
    : prog pid M (list (share F) * rst S) :=
    if pid_eq i recipient then Ret (rands len st)
    else
      match input with
      | None => Fail (Eyre "During execution of reshare_from_2_to_3_parties in MPC: input is None")
      | Some xs =>
          if negb (Nat.eqb (length xs) len)
          then Fail (Eyre "During execution of reshare_from_2_to_3_parties in MPC: input length does not match")
          else if pid_eq i (next recipient) then
            let q := r23_next st xs in
            rcv <- send_and_recv_many (next i) (fst (fst q)) (next i) ;;
            Ret (map2 (fun s r => mkShare (sa s + r) (sb s)) (snd (fst q)) rcv, snd q)
          else
            let q := r23_prev st xs in
            rcv <- send_and_recv_many (prev i) (fst (fst q)) (prev i) ;;
            Ret (map2 (fun s r => mkShare (sa s) (sb s + r)) (snd (fst q)) rcv, snd q)
      end.
End FieldOps.

(** ** Point shares *)
Section Points.
  Context {F G : Type} `{MO : Mod F G}.
  (** pointshare.rs:65-73 *)
  Definition scalar_mul_public_point (p : G) (x : share F) : share G :=
    mkShare (smul (sa x) p) (smul (sb x) p).
  (** pointshare.rs:76-81, pointshare/ops.rs:84-93 *)
  Definition scalar_mul_public_scalar (p : share G) (c : F) : share G :=
    mkShare (smul c (sa p)) (smul c (sb p)).
  (** pointshare.rs:129-143 [promote_to_trivial_share]; [g] is the curve generator *)
  Definition promote_point (g : G) (is0 : G -> bool) (i : pid) (p : G) : share G :=
    if is0 p then
      match i with
      | P0 => mkShare g g
      | P1 => mkShare (- g - g) g
      | P2 => mkShare g (- g - g)
      end
    else
      match i with
      | P0 => mkShare p g
      | P1 => mkShare (- g) p
      | P2 => mkShare g (- g)
      end.
  (** pointshare.rs:201-222 [msm_public_points]: [msm_bigint] is the sum of the products
      (external crate); scalars go through their canonical integers, which is the identity here. *)
  Fixpoint msm (ps : list G) (xs : list F) : G :=
    match ps, xs with
    | p :: ps, x :: xs => smul x p + msm ps xs
    | _, _ => 0
    end.
  Definition msm_public_points (ps : list G) (xs : list (share F)) : share G :=
    mkShare (msm ps (map sa xs)) (msm ps (map sb xs)).
  Context {M : Type} {EGF : Enc M (list (G * F))} {ELL : Enc M (list (list G * list F))} {EL : Enc M (list (list G))}.
  (** pointshare.rs:191-198 *)
  Definition open_point_and_field (i : pid) (p : share G) (x : share F) : prog pid M (G * F) :=
    c <- reshare i (sb p, sb x) ;;
    Ret (sa p + sb p + fst c, sa x + sb x + snd c).
  (** pointshare.rs:168-188 *)
  Definition open_point_and_field_many (i : pid) (ps : list (share G)) (xs : list (share F))
    : prog pid M (list G * list F) :=
    c <- reshare i (map sb ps, map sb xs) ;;
    Ret (map2 (fun x c => sa x + sb x + c) ps (fst c), map2 (fun y c => sa y + sb y + c) xs (snd c)).
  (** pointshare.rs:158-165 *)
  Definition open_point_many (i : pid) (ps : list (share G)) : prog pid M (list G) :=
    c <- reshare i (map sb ps) ;;
    Ret (map2 (fun x c => sa x + sb x + c) ps c).
End Points.
