(** * Oblivious shuffling and radix sort: model
    Models mpc-core/src/protocols/rep3_ring/gadgets/sort.rs.
    - [T] is [PermRing] (u32 in the code; any [IntRing], [u32::MAX] is [2^K - 1]).
    - A random shared permutation (rngs.rs:240-246 [random_perm] of [0..len]) is a pair of lists of
      indices; [dperm n] is [(0..n).shuffle(rng)], an arbitrary deterministic function of the
      generator state (the theorems assume that it returns a permutation).
    - [mpc_net::join] of two sub-protocols on two networks is modelled by running the first, then
      the second, on one network (Join.v proves that this gives the result of every interleaving).
    - [rep3::conversion::a2b_selector] is the parameter [a2b].
    - [shuffle] (ring elements) and [shuffle_field] (field elements) are one definition: the texts
      are the same up to the type and the public inputs, which [shuffle_field] does not have.
    Simplifications: vectors received from peers have the length sent by honest peers; the
    permutations and the shuffled vectors have the same length (a [debug_assert] in the code). *)
From Coq Require Import String List Arith NArith Lia Bool.
From Verif Require Import Proc Alg Rep3Net Rep3 Uint Binary Conv Ring2k Shamir Poseidon2 Merkle.
From Verif Require Import Rep3Net Rep3.
Import ListNotations.
Set Implicit Arguments.
Local Open Scope grp_scope.

(** [v\[k\]] for all [k] in [p]; [None]: index panic *)
Definition pick {G} (v : list G) (p : list nat) : option (list G) := map_opt (nth_error v) p.
(** [for (pi, alpha) in p.zip(alphas) { out.push(f(v\[pi\], alpha)) }] *)
Definition pickw {G} (f : G -> G -> G) (v : list G) (p : list nat) (al : list G) : option (list G) :=
  option_map (fun l => map2 f l al) (pick v p).
(** [for (pi, x) in p.zip(xs) { out\[pi\] = x }] *)
Definition scatter {G} (out : list G) (p : list nat) (xs : list G) : option (list G) :=
  fold_opt (fun out px => set_at out (fst px) (snd px)) (List.combine p xs) out.
(** [p - 1] of a [usize] *)
Definition pred_opt (k : nat) : option nat := match k with O => None | Datatypes.S k => Some k end.
(** the running values [s = f(s, x); out.push(s)], and the last one *)
Fixpoint scan {A B} (f : A -> B -> A) (s : A) (l : list B) : list A * A :=
  match l with
  | [] => ([], s)
  | x :: l => let s := f s x in let r := scan f s l in (s :: fst r, snd r)
  end.

(** ** Shuffling (sort.rs:413-857) *)
Section Shuffle.
  Context {G : Type} `{AbGrp G} {S M : Type} {DG : Draw S G} {EG : Enc M (list G)}.
  Notation prog := (prog pid M).
  Notation drw := (draws (S := S) (X := G)).

  (** sort.rs:413-548 [shuffle], 550-668 [shuffle_field] ([pub := \[\]]); [pa], [pb] are the components of
      the shared permutation *)
  Definition shuffle (i : pid) (st : rst S) (pa pb : list nat) (priv : list (share G)) (pub : list G)
    : prog (list (share G) * rst S) :=
    let len := length pa in
    let n := (length priv + length pub)%nat in
    match i with
    | P0 =>
        let a1 := drw n (rng1 st) in
        let a3 := drw n (rng2 st) in
        let beta := map (fun x => sa x + sb x) priv ++ pub in
        s1 <- orp oob (pickw gsub beta pa (fst a1)) ;;
        s3 <- orp oob (pickw gsub s1 pb (fst a3)) ;;
        _ <- send_next_many i s3 ;;
        let ra := drw len (snd a1) in
        let rb := drw len (snd a3) in
        Ret (map2 mkShare (fst ra) (fst rb), set_rand st (snd ra) (snd rb))
    | P1 =>
        let a1 := drw n (rng2 st) in
        let beta := map sa priv ++ map (fun _ => 0) pub in
        s1 <- orp oob (pickw gadd beta pb (fst a1)) ;;
        delta <- reshare_many i s1 ;;
        b <- orp oob (pick delta pa) ;;
        let rb := drw (length b) (snd a1) in
        let rand := map2 gsub b (fst rb) in
        rcv <- send_and_recv_many P2 rand P2 ;;
        Ret (map2 mkShare (map2 gadd rcv rand) (fst rb), set_rand st (rng1 st) (snd rb))
    | P2 =>
        let a3 := drw len (rng1 st) in
        gamma <- recv_prev_many i ;;
        s1 <- orp oob (pickw gadd gamma pa (fst a3)) ;;
        b <- orp oob (pick s1 pb) ;;
        let ra := drw (length b) (snd a3) in
        let rand := map2 gsub b (fst ra) in
        rcv <- send_and_recv_many P1 rand P1 ;;
        Ret (map2 mkShare (fst ra) (map2 gadd rcv rand), set_rand st (snd ra) (rng2 st))
    end.

  (** sort.rs:670-734 [shuffle_reveal] *)
  Definition shuffle_reveal (i : pid) (st : rst S) (pa pb : list nat) (input : list (share G))
    : prog (list G * rst S) :=
    let n := length input in
    match i with
    | P0 =>
        let a1 := drw n (rng1 st) in
        s <- orp oob (pickw gsub (map (fun x => sa x + sb x) input) pa (fst a1)) ;;
        r <- send_and_recv_many P2 s P2 ;;
        Ret (r, set_rand st (snd a1) (rng2 st))
    | P1 =>
        let a1 := drw n (rng2 st) in
        s <- orp oob (pickw gadd (map sa input) pb (fst a1)) ;;
        r <- send_and_recv_many P2 s P2 ;;
        Ret (r, set_rand st (rng1 st) (snd a1))
    | P2 =>
        delta <- recv_many P0 ;;
        gamma <- recv_many P1 ;;
        idx <- orp oob (pick pa pb) ;;
        g <- orp oob (pick gamma idx) ;;
        d <- orp oob (pick delta idx) ;;
        let s := map2 gadd g d in
        _ <- send_both_many i s ;;
        Ret (s, st)
    end.

  (** sort.rs:736-857 [unshuffle] *)
  Definition unshuffle (i : pid) (st : rst S) (pa pb : list nat) (input : list (share G))
    : prog (list (share G) * rst S) :=
    let len := length pa in
    let n := length input in
    let zeros := repeat (0 : G) len in
    match i with
    | P0 =>
        let a3 := drw len (rng2 st) in
        gamma <- recv_many P1 ;;
        s3 <- orp oob (scatter zeros pb (map2 gadd gamma (fst a3))) ;;
        beta <- orp oob (scatter (fst a3) pa s3) ;;
        let rb := drw (length beta) (snd a3) in
        let rand := map2 gsub beta (fst rb) in
        rcv <- send_and_recv_many P1 rand P1 ;;
        Ret (map2 mkShare (map2 gadd rcv rand) (fst rb), set_rand st (rng1 st) (snd rb))
    | P1 =>
        let a2 := drw n (rng1 st) in
        s3 <- orp oob (scatter zeros pa (map2 gadd (fst a2) (map sb input))) ;;
        delta <- send_and_recv_many P0 s3 P2 ;;
        beta <- orp oob (scatter (map sb input) pb delta) ;;
        let ra := drw (length beta) (snd a2) in
        let rand := map2 gsub beta (fst ra) in
        rcv <- send_and_recv_many P0 rand P0 ;;
        Ret (map2 mkShare (fst ra) (map2 gadd rcv rand), set_rand st (snd ra) (rng2 st))
    | P2 =>
        let a3 := drw n (rng1 st) in
        let a2 := drw n (rng2 st) in
        s3 <- orp oob (scatter zeros pb (map2 gsub (map (fun x => sa x + sb x) input) (fst a2))) ;;
        s2 <- orp oob (scatter (fst a2) pa (map2 gsub s3 (fst a3))) ;;
        _ <- send_many P1 s2 ;;
        let ra := drw len (snd a3) in
        let rb := drw len (snd a2) in
        Ret (map2 mkShare (fst ra) (fst rb), set_rand st (snd ra) (snd rb))
    end.
End Shuffle.

(** ** Permutations as shared ranks, and the sorting protocol *)
Section Sort.
  Context {T : Type} `{IR : IntRing T} {F : Type} `{FU : FieldUint F} {S M : Type}.
  Context {DT : Draw S T} {DF : Draw S F} {ET : Enc M (list T)} {EF : Enc M (list F)} {EN : Enc M (list N)}.
  (** [W] = [F::Uint::BITS] *)
  Context (W : nat) (dperm : nat -> S -> list nat * S).
  Context (a2b : pid -> rst S -> share F -> prog pid M (share N * rst S)).
  Notation prog := (prog pid M).

  (** rngs.rs:240-246 [random_perm] of [0..len] *)
  Definition random_perm (n : nat) (st : rst S) : (list nat * list nat) * rst S :=
    let a := dperm n (rng1 st) in
    let b := dperm n (rng2 st) in
    ((fst a, fst b), set_rand st (snd a) (snd b)).
  (** [p.0 as usize - 1] of the opened values *)
  Definition to_index (p : list T) : option (list nat) := map_opt (fun x => pred_opt (N.to_nat (rto x))) p.

  (** sort.rs:324-356 [apply_inv] (ring elements), 358-386 [apply_inv_field] ([pub := \[\]]) *)
  Definition apply_inv {G} `{AbGrp G} {DG : Draw S G} {EG : Enc M (list G)} (i : pid) (st0 st1 : rst S)
      (rho : list (share T)) (priv : list (share G)) (pub : list G) : prog (list (share G) * (rst S * rst S)) :=
    let len := length rho in
    let pi := random_perm len st0 in
    opened <- shuffle_reveal i (snd pi) (fst (fst pi)) (snd (fst pi)) rho ;;
    bits <- shuffle i st1 (fst (fst pi)) (snd (fst pi)) priv pub ;;
    idx <- orp oob (to_index (fst opened)) ;;
    r <- orp oob (scatter (repeat zero_share len) idx (fst bits)) ;;
    Ret (r, (snd opened, snd bits)).
  (** sort.rs:388-411 [compose] *)
  Definition compose (i : pid) (st : rst S) (sigma phi : list (share T)) : prog (list (share T) * rst S) :=
    let pi := random_perm (length sigma) st in
    opened <- shuffle_reveal i (snd pi) (fst (fst pi)) (snd (fst pi)) sigma ;;
    idx <- orp oob (to_index (fst opened)) ;;
    shuffled <- orp oob (pick phi idx) ;;
    unshuffle i (snd opened) (fst (fst pi)) (snd (fst pi)) shuffled.

  (** sort.rs:255-322 [gen_bit_perm] *)
  Definition gen_bit_perm (i : pid) (st : rst S) (priv : list (share T)) (pub : list T) : prog (list (share T) * rst S) :=
    let priv_f0 := map (fun x => add_public i (shneg x) rone) priv in
    let priv_f1 := priv in
    let pub_f0 := map (fun x => rone - x) pub in
    let pub_f1 := pub in
    let c0 := scan shadd zero_share priv_f0 in
    let d0 := scan (add_public i) (snd c0) pub_f0 in
    let c1 := scan shadd (snd d0) priv_f1 in
    let d1 := scan (add_public i) (snd c1) pub_f1 in
    m1 <- orp oob (local_mul_vec (draws (X := T)) st priv_f0 (fst c0)) ;;
    m2 <- orp oob (local_mul_vec (draws (X := T)) (snd m1) priv_f1 (fst c1)) ;;
    perm <- reshare_vec i (map2 gadd (fst m1) (fst m2)) ;;
    let q0 := map2 mul_public (fst d0) pub_f0 in
    let q1 := map2 mul_public (fst d1) pub_f1 in
    Ret (perm ++ map2 shadd q0 q1, snd m2).

  (** sort.rs:229-237 [inject_public_bit] *)
  Definition inject_public_bit (inputs : list F) (k : nat) : list T :=
    map (fun x => if ubit (to_uint x) k then rone else 0) inputs.
  (** sort.rs:239-253 [inject_bit] *)
  Definition inject_bit (i : pid) (st : rst S) (inputs : list (share N)) (k : nat) : prog (list (share T) * rst S) :=
    rbit_inject_many i st (map (fun x => rget_bit x k) inputs).

  (** sort.rs:112-122, 124-134: one of the two loops *)
  Fixpoint a2b_loop (i : pid) (st : rst S) (mask : N) (xs : list (share F)) : prog (list (share N) * rst S) :=
    match xs with
    | [] => Ret ([], st)
    | x :: xs => r <- a2b i st x ;; q <- a2b_loop i (snd r) mask xs ;; Ret (and_mask (fst r) mask :: fst q, snd q)
    end.
  (** sort.rs:96-146 [decompose] *)
  Definition decompose (i : pid) (st0 st1 : rst S) (xs : list (share F)) (bitsize : nat) : prog (list (share N) * (rst S * rst S)) :=
    mask <- orp oob (umask_checked W bitsize) ;;
    let h := (length xs / 2)%nat in
    r0 <- a2b_loop i st0 mask (firstn h xs) ;;
    r1 <- a2b_loop i st1 mask (skipn h xs) ;;
    Ret (fst r0 ++ fst r1, (snd r0, snd r1)).

  (** sort.rs:164-170, 216-223: the bits [1..bitsize]; [bits k] are the private and public bits of round [k] *)
  Fixpoint radix_loop (i : pid) (ks : list nat) (bits : rst S -> nat -> prog ((list (share T) * list T) * rst S))
      (st0 st1 : rst S) (perm : list (share T)) : prog (list (share T) * (rst S * rst S)) :=
    match ks with
    | [] => Ret (perm, (st0, st1))
    | k :: ks =>
        b <- bits st0 k ;;
        bit_i <- apply_inv i (snd b) st1 perm (fst (fst b)) (snd (fst b)) ;;
        perm_i <- gen_bit_perm i (fst (snd bit_i)) (fst bit_i) [] ;;
        perm' <- compose i (snd perm_i) perm (fst perm_i) ;;
        radix_loop i ks bits (snd perm') (snd (snd bit_i)) (fst perm')
    end.
  (** sort.rs:148-173 [gen_perm] *)
  Definition perm_bits (i : pid) (bits : list (share N)) (pub : list F) (st : rst S) (k : nat)
    : prog ((list (share T) * list T) * rst S) :=
    b <- inject_bit i st bits k ;; Ret ((fst b, inject_public_bit pub k), snd b).
  Definition gen_perm (i : pid) (st0 st1 : rst S) (priv : list (share F)) (pub : list F) (bitsize : nat)
    : prog (list (share T) * (rst S * rst S)) :=
    d <- decompose i st0 st1 priv bitsize ;;
    b <- perm_bits i (fst d) pub (fst (snd d)) 0 ;;
    perm <- gen_bit_perm i (snd b) (fst (fst b)) (snd (fst b)) ;;
    radix_loop i (seq 1 (bitsize - 1)) (perm_bits i (fst d) pub) (snd perm) (snd (snd d)) (fst perm).

  (** sort.rs:183-195: the loop of [order_and_promote_inputs] *)
  Fixpoint merge_order {A B} (f : B -> A) (order : list bool) (priv : list A) (pub : list B) : option (list A) :=
    match order, priv, pub with
    | [], _, _ => Some []
    | true :: order, x :: priv, _ => option_map (cons x) (merge_order f order priv pub)
    | false :: order, _, x :: pub => option_map (cons (f x)) (merge_order f order priv pub)
    | _, _, _ => None
    end.
  (** sort.rs:175-196 [order_and_promote_inputs] *)
  Definition order_and_promote (i : pid) (order : list bool) (priv : list (share T)) (pub : list T) : option (list (share T)) :=
    if negb (length priv =? length (filter (fun b => b) order))%nat then None
    else if negb (length pub =? length (filter negb order))%nat then None
    else merge_order (promote i) order priv pub.
  (** sort.rs:199-227 [gen_perm_ordered] *)
  Definition ordered_bits (i : pid) (order : list bool) (bits : list (share N)) (pub : list F) (st : rst S) (k : nat)
    : prog ((list (share T) * list T) * rst S) :=
    b <- inject_bit i st bits k ;;
    o <- orp bad_d (order_and_promote i order (fst b) (inject_public_bit pub k)) ;;
    Ret ((o, []), snd b).
  Definition gen_perm_ordered (i : pid) (st0 st1 : rst S) (priv : list (share F)) (pub : list F) (order : list bool) (bitsize : nat)
    : prog (list (share T) * (rst S * rst S)) :=
    d <- decompose i st0 st1 priv bitsize ;;
    b <- ordered_bits i order (fst d) pub (fst (snd d)) 0 ;;
    perm <- gen_bit_perm i (snd b) (fst (fst b)) (snd (fst b)) ;;
    radix_loop i (seq 1 (bitsize - 1)) (ordered_bits i order (fst d) pub) (snd perm) (snd (snd d)) (fst perm).

  (** sort.rs:38-44, 79-85 *)
  Definition too_many (len : nat) : bool := (2 ^ N.of_nat (rK T) - 1 <? N.of_nat len)%N.
  Definition too_many_err : err := Eyre "Too many inputs for radix sort. Use a larger PermRing.".
  (** sort.rs:27-62 [radix_sort_fields] *)
  Definition radix_sort_fields (i : pid) (st0 st1 : rst S) (priv : list (share F)) (pub : list F) (bitsize : nat)
    : prog (list (share F) * (rst S * rst S)) :=
    if too_many (length priv + length pub) then Fail too_many_err else
    perm <- gen_perm i st0 st1 priv pub bitsize ;;
    apply_inv i (fst (snd perm)) (snd (snd perm)) (fst perm) (priv ++ map (promote i) pub) [].
  (** sort.rs:90-92 *)
  Fixpoint apply_all (i : pid) (st0 st1 : rst S) (perm : list (share T)) (inputs : list (list (share F)))
    : prog (list (list (share F)) * (rst S * rst S)) :=
    match inputs with
    | [] => Ret ([], (st0, st1))
    | inp :: inputs =>
        r <- apply_inv i st0 st1 perm inp [] ;;
        q <- apply_all i (fst (snd r)) (snd (snd r)) perm inputs ;;
        Ret (fst r :: fst q, snd q)
    end.
  (** sort.rs:67-94 [radix_sort_fields_vec_by] *)
  Definition radix_sort_fields_vec_by (i : pid) (st0 st1 : rst S) (priv : list (share F)) (pub : list F) (order : list bool)
      (inputs : list (list (share F))) (bitsize : nat) : prog (list (list (share F)) * (rst S * rst S)) :=
    if too_many (length priv + length pub) then Fail too_many_err else
    perm <- gen_perm_ordered i st0 st1 priv pub order bitsize ;;
    apply_all i (fst (snd perm)) (snd (snd perm)) (fst perm) inputs.
End Sort.
