(** * Poseidon2: model of mpc-core/src/gadgets/poseidon2 (poseidon2_params.rs,
    poseidon2_permutation.rs, mod.rs, rep3.rs, shamir.rs)

    - A state [\[X; T\]] is a list of length [t]; [&mut] arguments are passed and returned.
    - The linear layers for field elements, for replicated shares and for Shamir shares (which are
      transmuted to field elements, shamir.rs:9-12, 28-32) are one definition in the addition and the
      multiplication by a constant of the carrier: the three texts in the code are the same.
    - An index out of bounds is an explicit panic.  [debug_assert]s are not checked (release build).
    - Where the code zips with a vector received from a peer, a peer that sends a vector of the wrong
      length is not modelled (the missing values are read as 0).
    - [assert_eq!(D, 5)], made in the code by the first S-box and before any message, is made at the
      entry of the protocol. *)
From Coq Require Import String List Arith NArith Lia Bool.
From Verif Require Import Proc Alg Rep3Net NNet Rep3 Shamir.
From Verif Require Import Rep3Net.
Import ListNotations.
Set Implicit Arguments.

(** poseidon2_params.rs:5-18 [Poseidon2Params] *)
Record pparams (F : Type) := mkPP {
  rounds_f_beginning : nat; rounds_f_end : nat; rounds_p : nat;
  mat_internal_diag_m_1 : list F; round_constants_external : list (list F); round_constants_internal : list F }.
(** poseidon2_params.rs:21-44 [Poseidon2Params::new]; [None] is a failed assertion *)
Definition params_new {F} (t : nat) (d : N) (rounds_f rounds_p : nat) (diag : list F) (rce : list (list F)) (rci : list F) : option (pparams F) :=
  if ((t =? 2) || (t =? 3) || ((t <=? 24) && (t mod 4 =? 0)))%nat && (d mod 2 =? 1)%N && (rounds_f mod 2 =? 0)%nat &&
     (length rce =? rounds_f)%nat && (length rci =? rounds_p)%nat
  then Some (mkPP (rounds_f / 2) (rounds_f / 2) rounds_p diag rce rci) else None.
(** poseidon2_permutation.rs:25-27 [num_sbox] *)
Definition num_sbox {F} (p : pparams F) (t : nat) : nat := (rounds_f_beginning p + rounds_f_end p) * t + rounds_p p.

(** ** Linear layers *)
Section Layers.
  Context {A F : Type} (z : A) (add : A -> A -> A) (scale : A -> F -> A).
  Definition dbl (x : A) : A := add x x.
  (** poseidon2_permutation.rs:67-80 [matmul_m4], rep3.rs:82-95 [matmul_m4_rep3] *)
  Definition matmul_m4 (l : list A) : list A :=
    let inp k := nth k l z in
    let t_0 := add (inp 0) (inp 1) in
    let t_1 := add (inp 2) (inp 3) in
    let t_2 := add (dbl (inp 1)) t_1 in
    let t_3 := add (dbl (inp 3)) t_0 in
    let t_4 := add (dbl (dbl t_1)) t_3 in
    let t_5 := add (dbl (dbl t_0)) t_2 in
    let t_6 := add t_3 t_5 in
    let t_7 := add t_2 t_4 in
    [t_6; t_5; t_7; t_4].
  (** poseidon2_permutation.rs:101-118, rep3.rs:116-133: the state sizes 8, 12, 16, 20, 24 *)
  Definition matmul_blocks (t : nat) (l : list A) : list A :=
    let input := concat (map matmul_m4 (chunks 4 l)) in
    let stored k := fold_left (fun acc j => add acc (nth (4 * j + k) input z)) (seq 1 (t / 4 - 1)) (nth k input z) in
    map (fun i => add (nth i input z) (stored (i mod 4))) (seq 0 t).
  Definition block_size (t : nat) : bool := existsb (Nat.eqb t) [8; 12; 16; 20; 24].
  (** poseidon2_permutation.rs:83-123 [matmul_external], rep3.rs:98-138 [matmul_external_rep3];
      [None] is the panic "Invalid Statesize" *)
  Definition matmul_external (t : nat) (l : list A) : option (list A) :=
    let inp k := nth k l z in
    match t with
    | 2 => let sum := add (inp 0) (inp 1) in Some [add (inp 0) sum; add (inp 1) sum]
    | 3 => let sum := add (add (inp 0) (inp 1)) (inp 2) in Some [add (inp 0) sum; add (inp 1) sum; add (inp 2) sum]
    | 4 => Some (matmul_m4 l)
    | _ => if block_size t then Some (matmul_blocks t l) else None
    end.
  (** poseidon2_permutation.rs:126-162 [matmul_internal] with [sum := input.iter().sum()], rep3.rs:141-180
      [matmul_internal_rep3] with [sum] starting from [input\[0\]] *)
  Definition matmul_internal (sum : list A -> A) (t : nat) (diag : list F) (l : list A) : list A :=
    let inp k := nth k l z in
    match t with
    | 2 => let sum := add (inp 0) (inp 1) in [add (inp 0) sum; add (dbl (inp 1)) sum]
    | 3 => let sum := add (add (inp 0) (inp 1)) (inp 2) in [add (inp 0) sum; add (inp 1) sum; add (dbl (inp 2)) sum]
    | _ => let sum := sum l in map2 (fun s m => add (scale s m) sum) l diag
    end.
  Definition sum_from_zero (l : list A) : A := fold_left add l z.
  Definition sum_from_first (l : list A) : A := fold_left add (skipn 1 l) (nth 0 l z).
End Layers.

(** [f] applied to the first element *)
Definition on_first {A} (f : A -> A) (l : list A) : list A := match l with [] => [] | x :: l => f x :: l end.
(** one list element from each chunk of [t] ([step_by(T)]), and writing them back *)
Definition firsts {A} (z : A) (t : nat) (l : list A) : list A := map (fun c => nth 0 c z) (chunks t l).
Definition set_firsts {A} (t : nat) (l vec : list A) : list A :=
  concat (map2 (fun c r => on_first (fun _ => r) c) (chunks t l) vec).
(** a function on states applied to the chunks of a packed vector *)
Definition each {A} (t : nat) (f : list A -> list A) (l : list A) : list A := concat (map f (chunks t l)).
Definition each_opt {A} (t : nat) (f : list A -> option (list A)) (l : list A) : option (list A) :=
  option_map (@concat A) (map_opt f (chunks t l)).

Local Open Scope grp_scope.

(** ** Plain permutation *)
Section Plain.
  Context {F : Type} `{CRing F}.
  Infix "*" := rmul : grp_scope.
  (** poseidon2_permutation.rs:33-54 [single_sbox] *)
  Definition single_sbox (d : N) (x : F) : F :=
    match d with
    | 3%N => x * (x * x)
    | 5%N => let x2 := x * x in let x4 := x2 * x2 in x * x4
    | 7%N => let x2 := x * x in let x4 := x2 * x2 in x * x4 * x2
    | _ => rpow x (N.to_nat d)
    end.
  Definition ext_p := matmul_external (gzero : F) gadd.
  Definition int_p := matmul_internal (gzero : F) gadd rmul (sum_from_zero (gzero : F) gadd).
  (** poseidon2_permutation.rs:165-172 [add_rc_external] *)
  Definition add_rc_external (p : pparams F) (l : list F) (r : nat) : option (list F) :=
    option_map (map2 gadd l) (nth_error (round_constants_external p) r).
  (** poseidon2_permutation.rs:175-177 [add_rc_internal] *)
  Definition add_rc_internal (p : pparams F) (l : list F) (r : nat) : option (list F) :=
    option_map (fun c => on_first (fun x => x + c) l) (nth_error (round_constants_internal p) r).
  Definition obind {A B} (o : option A) (f : A -> option B) : option B := match o with Some a => f a | None => None end.
  (** poseidon2_permutation.rs:180-184 [external_round] *)
  Definition external_round (t : nat) (d : N) (p : pparams F) (l : list F) (r : nat) : option (list F) :=
    obind (add_rc_external p l r) (fun l => ext_p t (map (single_sbox d) l)).
  (** poseidon2_permutation.rs:187-191 [internal_round] *)
  Definition internal_round (t : nat) (d : N) (p : pparams F) (l : list F) (r : nat) : option (list F) :=
    obind (add_rc_internal p l r) (fun l => Some (int_p t (mat_internal_diag_m_1 p) (on_first (single_sbox d) l))).
  Fixpoint fold_opt {A B} (f : A -> B -> option A) (l : list B) (a : A) : option A :=
    match l with [] => Some a | b :: l => obind (f a b) (fold_opt f l) end.
  (** poseidon2_permutation.rs:194-214 [permutation_in_place], 217-221 [permutation] *)
  Definition permutation (t : nat) (d : N) (p : pparams F) (l : list F) : option (list F) :=
    obind (ext_p t l) (fun l =>
    obind (fold_opt (external_round t d p) (seq 0 (rounds_f_beginning p)) l) (fun l =>
    obind (fold_opt (internal_round t d p) (seq 0 (rounds_p p)) l) (fun l =>
    fold_opt (external_round t d p) (seq (rounds_f_beginning p) (rounds_f_end p)) l))).
End Plain.

(** mod.rs:27-34 [Poseidon2Precomputations]; the offset is passed separately *)
Record precomp (X : Type) := mkPC { pc_r : list X; pc_r2 : list X; pc_r3 : list X; pc_r4 : list X; pc_r5 : list X }.
(** the accesses [precomp.r\[offset + i\]], .. for [i < len] do not panic (mod.rs:38-46 [get]) *)
Definition pc_has {X} (pc : precomp X) (off len : nat) : bool :=
  ((off + len <=? length (pc_r pc)) && (off + len <=? length (pc_r2 pc)) && (off + len <=? length (pc_r3 pc)) &&
   (off + len <=? length (pc_r4 pc)) && (off + len <=? length (pc_r5 pc)))%nat.
Definition pc_map {X Y} (f : X -> Y) (pc : precomp X) : precomp Y :=
  mkPC (map f (pc_r pc)) (map f (pc_r2 pc)) (map f (pc_r3 pc)) (map f (pc_r4 pc)) (map f (pc_r5 pc)).

(** A loop over a range. *)
Fixpoint for_prog {P M A : Type} (l : list nat) (f : nat -> A -> prog P M A) (a : A) : prog P M A :=
  match l with [] => Ret a | r :: l => a <- f r a ;; for_prog l f a end.
(** a value that may panic *)
Definition orp {P M A : Type} (msg : string) (o : option A) : prog P M A := match o with Some a => Ret a | None => Fail (Panic msg) end.
Definition oob : string := "index out of bounds".
Definition bad_size : string := "Invalid Statesize".
Definition bad_d : string := "assertion `left == right` failed".

(** ** Replicated shares (rep3.rs) *)
Section Rep3.
  Context {F : Type} `{CRing F} {S M : Type} {DF : Draw S F} {EF : Enc M (list F)}.
  Infix "*" := rmul : grp_scope.
  Notation prog := (prog pid M).
  Notation sh := (share F).
  Variables (t : nat) (d : N) (p : pparams F).
  (** [F::from(k)] *)
  Fixpoint fconst (k : nat) : F := match k with O => 0 | Datatypes.S k => rone + fconst k end.
  Definition ext_s := matmul_external (zero_share : sh) shadd.
  Definition int_s := matmul_internal (zero_share : sh) shadd mul_public (sum_from_first (zero_share : sh) shadd).

  (** rep3.rs:12-51 [precompute_rep3] *)
  Definition precompute_rep3 (i : pid) (num_poseidon : nat) (st : rst S) : prog (precomp sh * rst S) :=
    if negb (N.eqb d 5) then Fail (Panic bad_d) else
    let num := (num_sbox p t * num_poseidon)%nat in
    let r := rands num st in
    r2 <- mul_vec i (snd r) (fst r) (fst r) ;;
    r4 <- mul_vec i (snd r2) (fst r2) (fst r2) ;;
    r35 <- mul_vec i (snd r4) (fst r ++ fst r) (fst r2 ++ fst r4) ;;
    if (length (fst r35) <? num)%nat then Fail (Panic "`at` split index should be <= len") else
    Ret (mkPC (fst r) (fst r2) (firstn num (fst r35)) (fst r4) (skipn num (fst r35)), snd r35).
  (** rep3.rs:54-69 [precompute_rep3_additive] *)
  Definition precompute_rep3_additive (i : pid) (num_poseidon : nat) (st : rst S) : prog (precomp F * rst S) :=
    res <- precompute_rep3 i num_poseidon st ;; Ret (pc_map sa (fst res), snd res).
  (** rep3.rs:183-204 [add_rc_external_rep3] *)
  Definition add_rc_external_rep3 (i : pid) (rc : list F) (l : list sh) : list sh := map2 (add_public i) l rc.
  (** rep3.rs:206-218 [reshare_state_rep3] *)
  Fixpoint mask_all (st : rst S) (l : list F) : list F * rst S :=
    match l with
    | [] => ([], st)
    | x :: l => let m := masking st in let r := mask_all (snd m) l in ((x + fst m) :: fst r, snd r)
    end.
  Definition reshare_state_rep3 (i : pid) (st : rst S) (l : list F) : prog (list sh * rst S) :=
    let m := mask_all st l in
    b <- reshare_many i (fst m) ;;
    if (length b <? length (fst m))%nat then Fail (Panic oob)
    else Ret (map2 mkShare (fst m) b, snd m).
  (** rep3.rs:358-388 [sbox_rep3_precomp_post] *)
  Definition sbox_rep3_precomp_post (i : pid) (y : F) (r r2 r3 r4 r5 : sh) : sh :=
    let y2 := y * y in let y3 := y2 * y in let y4 := y2 * y2 in
    let res := shadd (shadd (shadd (shadd r5 (mul_public r4 (fconst 5 * y))) (mul_public r3 (fconst 10 * y2)))
                       (mul_public r2 (fconst 10 * y3))) (mul_public r (fconst 5 * y4)) in
    match i with
    | P0 => mkShare (sa res + y4 * y) (sb res)
    | P1 => mkShare (sa res) (sb res + y4 * y)
    | P2 => res
    end.
  (** rep3.rs:390-417 [sbox_rep3_precomp_post_additive] *)
  Definition sbox_rep3_precomp_post_additive (i : pid) (y r r2 r3 r4 r5 : F) : F :=
    let y2 := y * y in let y3 := y2 * y in let y4 := y2 * y2 in
    let res := r5 + y * r4 * fconst 5 + y2 * r3 * fconst 10 + y3 * r2 * fconst 10 + y4 * r * fconst 5 in
    match i with P0 => res + y4 * y | _ => res end.
  (** rep3.rs:220-243 [sbox_rep3_precomp]; the bounds of the five vectors are checked together *)
  Definition sbox_rep3_precomp (i : pid) (pc : precomp sh) (off : nat) (inp : list sh) : prog (list sh * nat) :=
    let n := length inp in
    if negb (pc_has pc off n) then Fail (Panic oob) else
    let at_ (v : list sh) k := nth (off + k) v zero_share in
    y <- open_vec i (map (fun k => shsub (nth k inp zero_share) (at_ (pc_r pc) k)) (seq 0 n)) ;;
    Ret (map (fun k => sbox_rep3_precomp_post i (nth k y 0) (at_ (pc_r pc) k) (at_ (pc_r2 pc) k) (at_ (pc_r3 pc) k) (at_ (pc_r4 pc) k) (at_ (pc_r5 pc) k)) (seq 0 n),
         (off + n)%nat).
  (** rep3.rs:245-273 [sbox_rep3_precomp_additive] *)
  Definition sbox_rep3_precomp_additive (i : pid) (pc : precomp F) (off : nat) (inp : list F) : prog (list F * nat) :=
    let n := length inp in
    if negb (pc_has pc off n) then Fail (Panic oob) else
    let at_ (v : list F) k := nth (off + k) v 0 in
    let m := map (fun k => nth k inp 0 - at_ (pc_r pc) k) (seq 0 n) in
    bc <- broadcast_many i m ;;
    let y := map2 (fun b ci => b + (fst ci + snd ci)) (fst bc) (List.combine (snd bc) m) in
    Ret (map (fun k => sbox_rep3_precomp_post_additive i (nth k y 0) (at_ (pc_r pc) k) (at_ (pc_r2 pc) k) (at_ (pc_r3 pc) k) (at_ (pc_r4 pc) k) (at_ (pc_r5 pc) k)) (seq 0 n),
         (off + n)%nat).
  (** rep3.rs:275-294 [single_sbox_rep3_precomp] *)
  Definition single_sbox_rep3_precomp (i : pid) (pc : precomp sh) (off : nat) (inp : sh) : prog (sh * nat) :=
    if negb (pc_has pc off 1) then Fail (Panic oob) else
    let at_ (v : list sh) := nth off v zero_share in
    y <- open i (shsub inp (at_ (pc_r pc))) ;;
    Ret (sbox_rep3_precomp_post i y (at_ (pc_r pc)) (at_ (pc_r2 pc)) (at_ (pc_r3 pc)) (at_ (pc_r4 pc)) (at_ (pc_r5 pc)), (off + 1)%nat).
  (** rep3.rs:296-310 [single_sbox_rep3_precomp_packed] *)
  Definition single_sbox_rep3_precomp_packed (i : pid) (pc : precomp sh) (off : nat) (inp : list sh) : prog (list sh * nat) :=
    v <- sbox_rep3_precomp i pc off (firsts zero_share t inp) ;; Ret (set_firsts t inp (fst v), snd v).
  (** rep3.rs:312-333 [single_sbox_rep3] *)
  Definition single_sbox_rep3 (i : pid) (st : rst S) (inp : F) : prog (F * rst S) :=
    let m := masking st in
    let a := inp + fst m in
    b <- reshare i a ;;
    let s := mkShare a b in
    sq <- mul i (snd m) s s ;;
    qu <- mul i (snd sq) (fst sq) (fst sq) ;;
    Ret (lmul (fst qu) s, snd qu).
  (** rep3.rs:335-356 [single_sbox_rep3_precomp_additive] *)
  Definition single_sbox_rep3_precomp_additive (i : pid) (pc : precomp F) (off : nat) (inp : F) : prog (F * nat) :=
    if negb (pc_has pc off 1) then Fail (Panic oob) else
    let at_ (v : list F) := nth off v 0 in
    let m := inp - at_ (pc_r pc) in
    bc <- broadcast i m ;;
    let y := fst bc + (snd bc + m) in
    Ret (sbox_rep3_precomp_post_additive i y (at_ (pc_r pc)) (at_ (pc_r2 pc)) (at_ (pc_r3 pc)) (at_ (pc_r4 pc)) (at_ (pc_r5 pc)), (off + 1)%nat).
  (** rep3.rs:430-445 [sbox_rep3_first] *)
  Definition sbox_rep3_first (i : pid) (st : rst S) (inp : list sh) : prog (list F * rst S) :=
    sq <- mul_vec i st inp inp ;;
    qu <- mul_vec i (snd sq) (fst sq) (fst sq) ;;
    Ret (map2 lmul (fst qu) inp, snd qu).
  (** rep3.rs:419-428 [sbox_rep3] *)
  Definition sbox_rep3 (i : pid) (st : rst S) (inp : list F) : prog (list F * rst S) :=
    shs <- reshare_state_rep3 i st inp ;; sbox_rep3_first i (snd shs) (fst shs).

  (** the round constants of a round *)
  Definition rc_ext (r : nat) : prog (list F) := orp oob (nth_error (round_constants_external p) r).
  Definition rc_int (r : nat) : prog F := orp oob (nth_error (round_constants_internal p) r).
  (** [add_rc_external], [add_rc_internal] made by party 0 only (rep3.rs:456-458, 473-475, 586-588, 603-605) *)
  Definition rc_ext0 (i : pid) (r : nat) (l : list F) : prog (list F) :=
    match i with P0 => c <- rc_ext r ;; Ret (map2 gadd l c) | _ => Ret l end.
  Definition rc_int0 (i : pid) (r : nat) (l : list F) : prog (list F) :=
    match i with P0 => c <- rc_int r ;; Ret (on_first (fun x => x + c) l) | _ => Ret l end.
  (** the constants are read by the parties 0 and 1 only (rep3.rs:189-203, 505-509, 525-543, 561-569) *)
  Definition rc_ext01 (i : pid) (r : nat) (f : (sh -> F -> sh) -> list F -> list sh) (l : list sh) : prog (list sh) :=
    match i with P2 => Ret l | _ => c <- rc_ext r ;; Ret (f (add_public i) c) end.
  Definition rc_int01 (i : pid) (r : nat) (f : (sh -> sh) -> list sh) (l : list sh) : prog (list sh) :=
    match i with P2 => Ret l | _ => c <- rc_int r ;; Ret (f (fun x => add_public i x c)) end.

  (** rep3.rs:448-462 [rep3_external_round_precomp_additive] *)
  Definition rep3_external_round_precomp_additive (i : pid) (pc : precomp F) (r : nat) (so : list F * nat) : prog (list F * nat) :=
    l <- rc_ext0 i r (fst so) ;;
    s <- sbox_rep3_precomp_additive i pc (snd so) l ;;
    l <- orp bad_size (ext_p t (fst s)) ;; Ret (l, snd s).
  (** rep3.rs:465-479 [rep3_internal_round_precomp_additive] *)
  Definition rep3_internal_round_precomp_additive (i : pid) (pc : precomp F) (r : nat) (so : list F * nat) : prog (list F * nat) :=
    l <- rc_int0 i r (fst so) ;;
    s <- single_sbox_rep3_precomp_additive i pc (snd so) (nth 0 l 0) ;;
    Ret (int_p t (mat_internal_diag_m_1 p) (on_first (fun _ => fst s) l), snd s).
  (** rep3.rs:482-494 [rep3_external_round_precomp] *)
  Definition rep3_external_round_precomp (i : pid) (pc : precomp sh) (r : nat) (so : list sh * nat) : prog (list sh * nat) :=
    l <- rc_ext01 i r (fun add c => map2 add (fst so) c) (fst so) ;;
    s <- sbox_rep3_precomp i pc (snd so) l ;;
    l <- orp bad_size (ext_s t (fst s)) ;; Ret (l, snd s).
  (** rep3.rs:497-513 [rep3_internal_round_precomp] *)
  Definition rep3_internal_round_precomp (i : pid) (pc : precomp sh) (r : nat) (so : list sh * nat) : prog (list sh * nat) :=
    l <- rc_int01 i r (fun add => on_first add (fst so)) (fst so) ;;
    s <- single_sbox_rep3_precomp i pc (snd so) (nth 0 l zero_share) ;;
    Ret (int_s t (mat_internal_diag_m_1 p) (on_first (fun _ => fst s) l), snd s).
  (** rep3.rs:516-549 [rep3_external_round_precomp_packed] *)
  Definition rep3_external_round_precomp_packed (i : pid) (pc : precomp sh) (r : nat) (so : list sh * nat) : prog (list sh * nat) :=
    l <- rc_ext01 i r (fun add c => each t (fun l => map2 add l c) (fst so)) (fst so) ;;
    s <- sbox_rep3_precomp i pc (snd so) l ;;
    l <- orp bad_size (each_opt t (ext_s t) (fst s)) ;; Ret (l, snd s).
  (** rep3.rs:552-575 [rep3_internal_round_precomp_packed] *)
  Definition rep3_internal_round_precomp_packed (i : pid) (pc : precomp sh) (r : nat) (so : list sh * nat) : prog (list sh * nat) :=
    l <- rc_int01 i r (fun add => each t (on_first add) (fst so)) (fst so) ;;
    s <- single_sbox_rep3_precomp_packed i pc (snd so) l ;;
    Ret (each t (int_s t (mat_internal_diag_m_1 p)) (fst s), snd s).
  (** rep3.rs:578-592 [rep3_external_round] *)
  Definition rep3_external_round (i : pid) (r : nat) (ss : list F * rst S) : prog (list F * rst S) :=
    l <- rc_ext0 i r (fst ss) ;;
    s <- sbox_rep3 i (snd ss) l ;;
    l <- orp bad_size (ext_p t (fst s)) ;; Ret (l, snd s).
  (** rep3.rs:595-609 [rep3_internal_round] *)
  Definition rep3_internal_round (i : pid) (r : nat) (ss : list F * rst S) : prog (list F * rst S) :=
    l <- rc_int0 i r (fst ss) ;;
    s <- single_sbox_rep3 i (snd ss) (nth 0 l 0) ;;
    Ret (int_p t (mat_internal_diag_m_1 p) (on_first (fun _ => fst s) l), snd s).

  (** the three loops of a permutation (rep3.rs:629-644, 663-678, 701-716, 741-756) *)
  Definition rounds {X} (ext int : nat -> X -> prog X) (first : nat) (x : X) : prog X :=
    x <- for_prog (seq first (rounds_f_beginning p - first)) ext x ;;
    x <- for_prog (seq 0 (rounds_p p)) int x ;;
    for_prog (seq (rounds_f_beginning p) (rounds_f_end p)) ext x.
  (** rep3.rs:612-648 [rep3_permutation_in_place_with_precomputation_packed], 789-799 *)
  Definition rep3_permutation_packed (i : pid) (pc : precomp sh) (off : nat) (l : list sh) : prog (list sh * nat) :=
    if negb (N.eqb d 5) then Fail (Panic bad_d) else
    if negb (length l mod t =? 0)%nat then Fail (Panic bad_d) else
    l <- orp bad_size (each_opt t (ext_s t) l) ;;
    rounds (rep3_external_round_precomp_packed i pc) (rep3_internal_round_precomp_packed i pc) 0 (l, off).
  (** rep3.rs:651-682 [rep3_permutation_in_place_with_precomputation], 776-786 *)
  Definition rep3_permutation_precomp (i : pid) (pc : precomp sh) (off : nat) (l : list sh) : prog (list sh * nat) :=
    if negb (N.eqb d 5) then Fail (Panic bad_d) else
    l <- orp bad_size (ext_s t l) ;;
    rounds (rep3_external_round_precomp i pc) (rep3_internal_round_precomp i pc) 0 (l, off).
  (** rep3.rs:685-722 [rep3_permutation_additive_in_place_with_precomputation], 802-815 *)
  Definition rep3_permutation_additive_precomp (i : pid) (pc : precomp F) (off : nat) (st : rst S) (l : list sh) : prog (list sh * nat * rst S) :=
    if negb (N.eqb d 5) then Fail (Panic bad_d) else
    l <- orp bad_size (ext_p t (map sa l)) ;;
    so <- rounds (rep3_external_round_precomp_additive i pc) (rep3_internal_round_precomp_additive i pc) 0 (l, off) ;;
    r <- reshare_state_rep3 i st (fst so) ;; Ret (fst r, snd so, snd r).
  (** rep3.rs:725-761 [rep3_permutation_in_place], 764-773 [rep3_permutation] *)
  Definition rep3_permutation (i : pid) (st : rst S) (l : list sh) : prog (list sh * rst S) :=
    if negb (N.eqb d 5) then Fail (Panic bad_d) else
    l <- orp bad_size (ext_s t l) ;;
    l <- rc_ext01 i 0 (fun add c => map2 add l c) l ;;
    s <- sbox_rep3_first i st l ;;
    l <- orp bad_size (ext_p t (fst s)) ;;
    ss <- rounds (rep3_external_round i) (rep3_internal_round i) 1 (l, snd s) ;;
    reshare_state_rep3 i (snd ss) (fst ss).
End Rep3.

(** ** Shamir shares (shamir.rs) *)
Section ShamirP.
  Context {F : Type} {FF : Fld F} {Sg M : Type} {DF : Draw Sg F} {EF : Enc M (list F)} {EF1 : Enc M F}.
  Infix "*" := rmul : grp_scope.
  Notation prog := (prog nat M).
  Notation sst := (sst (F := F) (Sg := Sg)).
  Variables (t : nat) (d : N) (p : pparams F).
  (** shamir.rs:15-25 [rand_required] *)
  Definition rand_required (num_poseidon : nat) (precomputation : bool) : nat :=
    (num_sbox p t * (if precomputation then 5 else 3) * num_poseidon)%nat.
  (** shamir.rs:44-47 *)
  Fixpoint sm_rands (k : nat) (st : sst) : prog (list F * sst) :=
    match k with
    | O => Ret ([], st)
    | Datatypes.S k => r <- sm_rand st ;; rs <- sm_rands k (snd r) ;; Ret (fst r :: fst rs, snd rs)
    end.
  (** shamir.rs:35-73 [precompute_shamir] *)
  Definition precompute_shamir (num_poseidon : nat) (st : sst) : prog (precomp F * sst) :=
    if negb (N.eqb d 5) then Fail (Panic bad_d) else
    let num := (num_sbox p t * num_poseidon)%nat in
    r <- sm_rands num st ;;
    r2 <- sm_mul_vec (fst r) (fst r) (snd r) ;;
    r4 <- sm_mul_vec (fst r2) (fst r2) (snd r2) ;;
    r35 <- sm_mul_vec (fst r ++ fst r) (fst r2 ++ fst r4) (snd r4) ;;
    if (length (fst r35) <? num)%nat then Fail (Panic "`at` split index should be <= len") else
    Ret (mkPC (fst r) (fst r2) (firstn num (fst r35)) (fst r4) (skipn num (fst r35)), snd r35).
  (** shamir.rs:137-153 [sbox_shamir_precomp_post] *)
  Definition sbox_shamir_precomp_post (y r r2 r3 r4 r5 : F) : F :=
    let y2 := y * y in let y3 := y2 * y in let y4 := y2 * y2 in let y5 := y4 * y in
    y5 + y4 * r * fconst 5 + y3 * r2 * fconst 10 + y2 * r3 * fconst 10 + y * r4 * fconst 5 + r5.
  (** shamir.rs:75-101 [sbox_shamir_precomp] *)
  Definition sbox_shamir_precomp (pc : precomp F) (st : sst) (off : nat) (inp : list F) : prog (list F * nat) :=
    let n := length inp in
    if negb (pc_has pc off n) then Fail (Panic oob) else
    let at_ (v : list F) k := nth (off + k) v 0 in
    y <- sm_open_vec (map (fun k => nth k inp 0 - at_ (pc_r pc) k) (seq 0 n)) st ;;
    Ret (map (fun k => sbox_shamir_precomp_post (nth k y 0) (at_ (pc_r pc) k) (at_ (pc_r2 pc) k) (at_ (pc_r3 pc) k) (at_ (pc_r4 pc) k) (at_ (pc_r5 pc) k)) (seq 0 n),
         (off + n)%nat).
  (** shamir.rs:103-118 [single_sbox_shamir_precomp] *)
  Definition single_sbox_shamir_precomp (pc : precomp F) (st : sst) (off : nat) (inp : F) : prog (F * nat) :=
    if negb (pc_has pc off 1) then Fail (Panic oob) else
    let at_ (v : list F) := nth off v 0 in
    y <- sm_open (inp - at_ (pc_r pc)) st ;;
    Ret (sbox_shamir_precomp_post y (at_ (pc_r pc)) (at_ (pc_r2 pc)) (at_ (pc_r3 pc)) (at_ (pc_r4 pc)) (at_ (pc_r5 pc)), (off + 1)%nat).
  (** shamir.rs:120-135 [single_sbox_shamir_precomp_packed] *)
  Definition single_sbox_shamir_precomp_packed (pc : precomp F) (st : sst) (off : nat) (inp : list F) : prog (list F * nat) :=
    v <- sbox_shamir_precomp pc st off (firsts 0 t inp) ;; Ret (set_firsts t inp (fst v), snd v).
  (** shamir.rs:155-177 [sbox_shamir] *)
  Definition sbox_shamir (st : sst) (inp : list F) : prog (list F * sst) :=
    sq <- degree_reduce_many (map (fun x => x * x) inp) st ;;
    qu <- degree_reduce_many (map (fun x => x * x) (fst sq)) (snd sq) ;;
    degree_reduce_many (map2 rmul (fst qu) inp) (snd qu).
  (** shamir.rs:179-197 [single_sbox_shamir] *)
  Definition single_sbox_shamir (st : sst) (inp : F) : prog (F * sst) :=
    sq <- degree_reduce (inp * inp) st ;;
    qu <- degree_reduce (fst sq * fst sq) (snd sq) ;;
    degree_reduce (fst qu * inp) (snd qu).
  Definition sm_rc_ext (r : nat) (l : list F) : prog (list F) := orp oob (add_rc_external p l r).
  Definition sm_rc_int (r : nat) (l : list F) : prog (list F) := orp oob (add_rc_internal p l r).
  (** shamir.rs:201-226 [shamir_external_round_precomp] *)
  Definition shamir_external_round_precomp (pc : precomp F) (st : sst) (r : nat) (so : list F * nat) : prog (list F * nat) :=
    l <- sm_rc_ext r (fst so) ;;
    s <- sbox_shamir_precomp pc st (snd so) l ;;
    l <- orp bad_size (ext_p t (fst s)) ;; Ret (l, snd s).
  (** shamir.rs:230-255 [shamir_internal_round_precomp] *)
  Definition shamir_internal_round_precomp (pc : precomp F) (st : sst) (r : nat) (so : list F * nat) : prog (list F * nat) :=
    l <- sm_rc_int r (fst so) ;;
    s <- single_sbox_shamir_precomp pc st (snd so) (nth 0 l 0) ;;
    Ret (int_p t (mat_internal_diag_m_1 p) (on_first (fun _ => fst s) l), snd s).
  (** shamir.rs:258-275 [shamir_external_round_precomp_inner_packed] *)
  Definition shamir_external_round_precomp_packed (pc : precomp F) (st : sst) (r : nat) (so : list F * nat) : prog (list F * nat) :=
    l <- orp oob (each_opt t (fun l => add_rc_external p l r) (fst so)) ;;
    s <- sbox_shamir_precomp pc st (snd so) l ;;
    l <- orp bad_size (each_opt t (ext_p t) (fst s)) ;; Ret (l, snd s).
  (** shamir.rs:278-295 [shamir_internal_round_precomp_inner_packed] *)
  Definition shamir_internal_round_precomp_packed (pc : precomp F) (st : sst) (r : nat) (so : list F * nat) : prog (list F * nat) :=
    l <- orp oob (each_opt t (fun l => add_rc_internal p l r) (fst so)) ;;
    s <- single_sbox_shamir_precomp_packed pc st (snd so) l ;;
    Ret (each t (int_p t (mat_internal_diag_m_1 p)) (fst s), snd s).
  (** shamir.rs:298-309 [shamir_external_round] *)
  Definition shamir_external_round (r : nat) (ss : list F * sst) : prog (list F * sst) :=
    l <- sm_rc_ext r (fst ss) ;;
    s <- sbox_shamir (snd ss) l ;;
    l <- orp bad_size (ext_p t (fst s)) ;; Ret (l, snd s).
  (** shamir.rs:312-323 [shamir_internal_round] *)
  Definition shamir_internal_round (r : nat) (ss : list F * sst) : prog (list F * sst) :=
    l <- sm_rc_int r (fst ss) ;;
    s <- single_sbox_shamir (snd ss) (nth 0 l 0) ;;
    Ret (int_p t (mat_internal_diag_m_1 p) (on_first (fun _ => fst s) l), snd s).
  (** the three loops (shamir.rs:345-360, 380-395, 411-426) *)
  Definition sm_rounds {X} (ext int : nat -> X -> prog X) (x : X) : prog X :=
    x <- for_prog (seq 0 (rounds_f_beginning p)) ext x ;;
    x <- for_prog (seq 0 (rounds_p p)) int x ;;
    for_prog (seq (rounds_f_beginning p) (rounds_f_end p)) ext x.
  (** shamir.rs:326-364 [shamir_permutation_in_place_with_precomputation_packed], 462-477 *)
  Definition shamir_permutation_packed (pc : precomp F) (st : sst) (off : nat) (l : list F) : prog (list F * nat) :=
    if negb (N.eqb d 5) then Fail (Panic bad_d) else
    if negb (length l mod t =? 0)%nat then Fail (Panic bad_d) else
    l <- orp bad_size (each_opt t (ext_p t) l) ;;
    sm_rounds (shamir_external_round_precomp_packed pc st) (shamir_internal_round_precomp_packed pc st) (l, off).
  (** shamir.rs:367-399 [shamir_permutation_in_place_with_precomputation], 444-459 *)
  Definition shamir_permutation_precomp (pc : precomp F) (st : sst) (off : nat) (l : list F) : prog (list F * nat) :=
    if negb (N.eqb d 5) then Fail (Panic bad_d) else
    l <- orp bad_size (ext_p t l) ;;
    sm_rounds (shamir_external_round_precomp pc st) (shamir_internal_round_precomp pc st) (l, off).
  (** shamir.rs:402-441 [shamir_permutation_in_place], [shamir_permutation] *)
  Definition shamir_permutation (st : sst) (l : list F) : prog (list F * sst) :=
    if negb (N.eqb d 5) then Fail (Panic bad_d) else
    l <- orp bad_size (ext_p t l) ;;
    sm_rounds shamir_external_round shamir_internal_round (l, st).
End ShamirP.
