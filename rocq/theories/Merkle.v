(** * Merkle trees with Poseidon2

    Model of mpc-core/src/gadgets/merkle_tree/plain.rs, rep3.rs and shamir.rs.
    - The vector is updated in place as in the code: reads and writes at explicit indices, [None] = panic
      (index out of bounds, failed assertion, invalid state size of the permutation).
    - [debug_assert]s are checked (debug builds); indices are natural numbers (no overflow of [usize]).
    - The const generics [T] and [ARITY] are the parameters [t] and [a]. *)
From Coq Require Import String List Arith NArith Bool.
From Verif Require Import Proc Alg Rep3Net NNet Rep3 Shamir Poseidon2.
Import ListNotations.
Set Implicit Arguments.
Local Open Scope nat_scope.

(** [usize::ilog]: panics for base < 2 and for 0 *)
Fixpoint ilog_ (fuel base n : nat) : nat :=
  match fuel with O => 0 | Datatypes.S f => if n <? base then 0 else Datatypes.S (ilog_ f base (n / base)) end.
Definition ilog (base n : nat) : option nat := if (base <? 2) || (n =? 0) then None else Some (ilog_ n base n).
(** the assertion [len == ARITY.pow(len.ilog(ARITY))] (plain.rs:17-18, rep3.rs:18-19, shamir.rs:18-19) *)
Definition is_power (a len : nat) : bool := match ilog a len with Some k => len =? a ^ k | None => false end.

Section Mem.
  Context {A : Type} (z : A).
  (** [v\[k\] = x] *)
  Definition set_at (l : list A) (k : nat) (x : A) : option (list A) :=
    if k <? length l then Some (firstn k l ++ x :: skipn (Datatypes.S k) l) else None.
  (** [v\[to\] = v\[from\]] *)
  Definition copy_at (l : list A) (to from : nat) : option (list A) := obind (nth_error l from) (set_at l to).
  (** [chunks_exact] *)
  Definition chunks_exact (k : nat) (l : list A) : list (list A) := firstn (length l / k) (chunks k l).
  (** plain.rs:21-30, 64-73 (sponge), rep3.rs:24-33, shamir.rs:25-34 *)
  Definition padded (t a : nat) (l : list A) : list A :=
    concat (map (fun c => c ++ repeat z (t - length c)) (chunks_exact a l)).
  (** plain.rs:119-133, 169-183, rep3.rs:73-87, shamir.rs:76-90 (compression) *)
  Definition padded_compression (t a : nat) (l : list A) : list A := if t =? a then l else padded t a l.
  (** plain.rs:39-47, 98-106, 144-152, 210-218, rep3.rs:44-52, 103-111, shamir.rs:46-54, 107-115 *)
  Definition compact (t a m : nat) (l : list A) : option (list A) :=
    fold_opt (fun l i =>
      obind (fold_opt (fun l j => copy_at l (t * i + j) (t * a * i + j * t)) (seq 0 a) l) (fun l =>
      fold_opt (fun l j => set_at l (t * i + j) z) (seq a (t - a)) l)) (seq 0 m) l.
  (** [for inp in input.chunks_exact_mut(T).take(len)] *)
  Definition on_blocks (t len : nat) (f : list A -> option (list A)) (l : list A) : option (list A) :=
    let k := t * Nat.min len (length l / t) in
    option_map (fun b => b ++ skipn k l) (each_opt t f (firstn k l)).
End Mem.

Local Open Scope grp_scope.
Section PlainTree.
  Context {F : Type} `{CRing F} {FE : F -> F -> bool}.
  Variables (t : nat) (d : N) (p : pparams F).
  (** plain.rs:6-11 [MerkleWitnessElement] *)
  Record wit := mkWit { other : list F; position : nat }.
  (** one block: sponge (plain.rs:35-38, 94-97), compression (plain.rs:138-143, 204-209) *)
  Definition block (compress : bool) (l : list F) : option (list F) :=
    if compress then
      obind (nth_error l 0) (fun ff => option_map (on_first (fun x => x + ff)) (permutation t d p l))
    else permutation t d p l.
  (** the loops plain.rs:32-49, 135-154 *)
  Fixpoint tree_loop (fuel : nat) (compress : bool) (a len : nat) (l : list F) : option F :=
    if (len <=? 1)%nat then nth_error l 0 else
    match fuel with
    | O => None
    | Datatypes.S fuel =>
        if negb (len mod a =? 0)%nat then None else
        obind (on_blocks t (len / a) (block compress) l) (fun l =>
        obind (compact 0 t a (len / a / a) l) (tree_loop fuel compress a (len / a)))
    end.
  (** plain.rs:15-49 [merkle_tree_sponge] *)
  Definition merkle_tree_sponge (a : nat) (input : list F) : option F :=
    let len := length input in
    if (t <=? a)%nat || negb (is_power a len) then None else tree_loop len false a len (padded 0 t a input).
  (** plain.rs:113-154 [merkle_tree_compression] *)
  Definition merkle_tree_compression (a : nat) (input : list F) : option F :=
    let len := length input in
    if (t <? a)%nat || negb (is_power a len) then None else tree_loop len true a len (padded_compression 0 t a input).
  (** the loops plain.rs:75-109, 185-221 with the witness for index [i] *)
  Definition witness_element (a i : nat) (l : list F) : wit :=
    let group := firstn a (skipn (i / a * t) l) in
    mkWit (map snd (filter (fun jx => negb (fst jx =? i mod a)%nat) (List.combine (seq 0 (length group)) group))) (i mod a).
  Fixpoint witness_loop (fuel : nat) (compress : bool) (a len i : nat) (l : list F) : option (F * list wit) :=
    if (len <=? 1)%nat then
      if negb (i =? 0)%nat then None else option_map (fun x => (x, [])) (nth_error l 0)
    else
    match fuel with
    | O => None
    | Datatypes.S fuel =>
        if negb (len mod a =? 0)%nat then None else
        obind (on_blocks t (len / a) (block compress) l) (fun l' =>
        obind (compact 0 t a (len / a / a) l') (fun l' =>
        option_map (fun r => (fst r, witness_element a i l :: snd r)) (witness_loop fuel compress a (len / a) (i / a) l')))
    end.
  (** plain.rs:52-110 [merkle_tree_sponge_with_witness] *)
  Definition merkle_tree_sponge_with_witness (a : nat) (input : list F) (i : nat) : option (F * list wit) :=
    let len := length input in
    if (t <=? a)%nat || negb (is_power a len) then None else witness_loop len false a len i (padded 0 t a input).
  (** plain.rs:157-222 [merkle_tree_compression_with_witness] *)
  Definition merkle_tree_compression_with_witness (a : nat) (input : list F) (i : nat) : option (F * list wit) :=
    let len := length input in
    if (t <? a)%nat || negb (is_power a len) then None else witness_loop len true a len i (padded_compression 0 t a input).
  (** plain.rs:242-249, 276-283: the state for one step *)
  Definition path_state (arity : nat) (leaf : F) (w : wit) : list F :=
    map (fun i => if (i <? arity)%nat then
      match (i ?= position w)%nat with Lt => nth i (other w) 0 | Eq => leaf | Gt => nth (i - 1) (other w) 0 end else 0) (seq 0 t).
  Fixpoint verify_loop (compress : bool) (arity : nat) (root leaf : F) (ws : list wit) : option bool :=
    match ws with
    | [] => Some (FE root leaf)
    | w :: ws =>
        if negb (length (other w) =? arity - 1)%nat then Some false else
        if (arity <=? position w)%nat then Some false else
        obind (block compress (path_state arity leaf w)) (fun s =>
        obind (nth_error s 0) (fun leaf => verify_loop compress arity root leaf ws))
    end.
  (** plain.rs:225-256 [verify_merkle_path_sponge] *)
  Definition verify_merkle_path_sponge (root leaf : F) (ws : list wit) : option bool :=
    obind (nth_error ws 0) (fun w0 =>
    let arity := (length (other w0) + 1)%nat in
    if (t <=? arity)%nat then None else verify_loop false arity root leaf ws).
  (** plain.rs:259-291 [verify_merkle_path_compression] *)
  Definition verify_merkle_path_compression (root leaf : F) (ws : list wit) : option bool :=
    obind (nth_error ws 0) (fun w0 =>
    let arity := (length (other w0) + 1)%nat in
    if (t <? arity)%nat then None else verify_loop true arity root leaf ws).
End PlainTree.

(** ** Replicated shares (rep3.rs) *)
Section Rep3Tree.
  Context {F : Type} `{CRing F} {S M : Type} {DF : Draw S F} {EF : Enc M (list F)}.
  Variables (t : nat) (d : N) (p : pparams F).
  Notation sh := (share F).
  Notation prog := (prog pid M).
  Definition size_err : string := "assertion failed: T > ARITY".
  (** rep3.rs:98-100, shamir.rs:103-105: feed forward *)
  Definition feed_forward {X} (add : X -> X -> X) (len : nat) (ff l : list X) : option (list X) :=
    fold_opt (fun l i => obind (nth_error l (t * i)) (fun x => obind (nth_error ff (t * i)) (fun y => set_at l (t * i) (add x y)))) (seq 0 len) l.
  (** rep3.rs:35-55, 89-114; the slice [&mut input\[..T * len\]] panics when too long *)
  Fixpoint rep3_tree_loop (fuel : nat) (compress : bool) (i : pid) (pc : precomp sh) (a len off : nat) (l : list sh) : prog sh :=
    if (len <=? 1)%nat then
      if negb (off =? length (pc_r pc))%nat then Fail (Panic bad_d) else orp oob (nth_error l 0)
    else
    match fuel with
    | O => Fail (Panic oob)
    | Datatypes.S fuel =>
        if negb (len mod a =? 0)%nat then Fail (Panic bad_d) else
        let len' := (len / a)%nat in
        if (length l <? t * len')%nat then Fail (Panic oob) else
        r <- rep3_permutation_packed t d p i pc off (firstn (t * len') l) ;;
        let l' := fst r ++ skipn (t * len') l in
        l' <- orp oob (if compress then feed_forward shadd len' l l' else Some l') ;;
        l' <- orp oob (compact zero_share t a (len' / a) l') ;;
        rep3_tree_loop fuel compress i pc a len' (snd r) l'
    end.
  (** rep3.rs:10-56 [merkle_tree_sponge_rep3]; [len - 1] and [ARITY - 1] do not underflow after the checks *)
  Definition merkle_tree_sponge_rep3 (a : nat) (i : pid) (input : list sh) (st : rst S) : prog (sh * rst S) :=
    let len := length input in
    if (t <=? a)%nat || negb (is_power a len) then Fail (Panic size_err) else
    pc <- precompute_rep3 t d p i ((len - 1) / (a - 1)) st ;;
    r <- rep3_tree_loop len false i (fst pc) a len 0 (padded zero_share t a input) ;;
    Ret (r, snd pc).
  (** rep3.rs:59-115 [merkle_tree_compression_rep3] *)
  Definition merkle_tree_compression_rep3 (a : nat) (i : pid) (input : list sh) (st : rst S) : prog (sh * rst S) :=
    let len := length input in
    if (t <? a)%nat || negb (is_power a len) then Fail (Panic size_err) else
    pc <- precompute_rep3 t d p i ((len - 1) / (a - 1)) st ;;
    r <- rep3_tree_loop len true i (fst pc) a len 0 (padded_compression zero_share t a input) ;;
    Ret (r, snd pc).
End Rep3Tree.

(** ** Shamir shares (shamir.rs) *)
Section ShamirTree.
  Context {M : Type} {F : Type} {FF : Fld F} {Sg : Type} {DF : Draw Sg F} {EF1 : Enc M F} {EF : Enc M (list F)}.
  Notation sst := (sst (F := F) (Sg := Sg)).
  Notation prog := (prog nat M).
  Variables (t : nat) (d : N) (p : pparams F).
  (** shamir.rs:36-57, 91-118 *)
  Fixpoint shamir_tree_loop (fuel : nat) (compress : bool) (pc : precomp F) (st : sst) (a len off : nat) (l : list F) : prog F :=
    if (len <=? 1)%nat then
      if negb (off =? length (pc_r pc))%nat then Fail (Panic bad_d) else orp oob (nth_error l 0)
    else
    match fuel with
    | O => Fail (Panic oob)
    | Datatypes.S fuel =>
        if negb (len mod a =? 0)%nat then Fail (Panic bad_d) else
        let len' := (len / a)%nat in
        if (length l <? t * len')%nat then Fail (Panic oob) else
        r <- shamir_permutation_packed t d p pc st off (firstn (t * len') l) ;;
        let l' := fst r ++ skipn (t * len') l in
        l' <- orp oob (if compress then feed_forward t gadd len' l l' else Some l') ;;
        l' <- orp oob (compact 0 t a (len' / a) l') ;;
        shamir_tree_loop fuel compress pc st a len' (snd r) l'
    end.
  (** shamir.rs:10-58 [merkle_tree_sponge_shamir] *)
  Definition merkle_tree_sponge_shamir (a : nat) (input : list F) (st : sst) : prog (F * sst) :=
    let len := length input in
    if (t <=? a)%nat || negb (is_power a len) then Fail (Panic size_err) else
    let num := ((len - 1) / (a - 1))%nat in
    st <- sm_buffer_triples (rand_required t p num true) st ;;
    pc <- precompute_shamir t d p num st ;;
    r <- shamir_tree_loop len false (fst pc) (snd pc) a len 0 (padded 0 t a input) ;;
    Ret (r, snd pc).
  (** shamir.rs:61-119 [merkle_tree_compression_shamir] *)
  Definition merkle_tree_compression_shamir (a : nat) (input : list F) (st : sst) : prog (F * sst) :=
    let len := length input in
    if (t <? a)%nat || negb (is_power a len) then Fail (Panic size_err) else
    let num := ((len - 1) / (a - 1))%nat in
    st <- sm_buffer_triples (rand_required t p num true) st ;;
    pc <- precompute_shamir t d p num st ;;
    r <- shamir_tree_loop len true (fst pc) (snd pc) a len 0 (padded_compression 0 t a input) ;;
    Ret (r, snd pc).
End ShamirTree.
