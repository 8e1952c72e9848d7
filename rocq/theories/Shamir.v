(** * Model of the Shamir protocol (mpc-core/src/protocols/shamir.rs, shamir/*.rs)

    Carriers: [F] a field ([ark_ff::PrimeField]), [G] a module over [F] (the field itself or a
    curve group: the field and the point variants of a function are one definition here),
    [Sg] the state of a generator ([RngType]), [M] messages of the network.
    [usize] arithmetic is on [nat]: no wrap-around; subtractions that can underflow are
    explicit panics. *)
From Coq Require Import String List Arith Bool.
From Verif Require Import Proc Alg NNet Rep3.
Import ListNotations.
Set Implicit Arguments.
Local Open Scope grp_scope.

Section Poly.
  Context {F : Type} {FF : Fld F}.
  Infix "*" := rmul : grp_scope.
  Notation "1" := rone : grp_scope.

  (** [F::from(k as u64)] (ark-ff). *)
  Fixpoint fnat (k : nat) : F := match k with O => 0 | S k => 1 + fnat k end.
  (** [F::pow] (ark-ff). *)
  Fixpoint fpow (x : F) (k : nat) : F := match k with O => 1 | S k => x * fpow x k end.

  (** shamir.rs:335-344 [evaluate_poly] and 347-356 [evaluate_poly_point]. The empty
      polynomial panics in the code ([unwrap] on [None]); here it evaluates to 0. Every caller
      passes a polynomial with a constant term. *)
  Definition evaluate_poly {G} {AG : AbGrp G} {MD : Mod F G} (poly : list G) (x : F) : G :=
    match rev poly with
    | [] => 0
    | top :: iter => fold_left (fun eval coeff => smul x eval + coeff) iter top
    end.

  (** shamir.rs:442-460 [lagrange_from_coeff]: one coefficient; [None] is the panic of
      [den.inverse().unwrap()]. *)
  Definition lagrange_one (coeffs : list nat) (i : nat) : option F :=
    let nd := fold_left (fun nd j => if (i =? j)%nat then nd
                                     else (fst nd * fnat j, snd nd * (fnat j - fnat i))) coeffs (1, 1) in
    if feqb (snd nd) 0 then None else Some (fst nd * finv (snd nd)).
  (** collecting a loop body that may panic *)
  Fixpoint map_opt {A B} (f : A -> option B) (l : list A) : option (list B) :=
    match l with
    | [] => Some []
    | a :: l => match f a, map_opt f l with Some b, Some bs => Some (b :: bs) | _, _ => None end
    end.
  Definition lagrange_from_coeff (coeffs : list nat) : option (list F) := map_opt (lagrange_one coeffs) coeffs.

  (** shamir.rs:483-491 [reconstruct] and 601-609 [reconstruct_point]. *)
  Definition reconstruct {G} {AG : AbGrp G} {MD : Mod F G} (shares : list G) (lagrange : list F) : G :=
    fold_left (fun res sl => res + smul (snd sl) (fst sl)) (List.combine shares lagrange) 0.

  (** shamir.rs:493-500 [poly_times_root_inplace]: after [insert(0, 0)], every entry but the
      last is decreased by [root] times its successor. *)
  Fixpoint sub_next (root : F) (poly : list F) : list F :=
    match poly with
    | [] => []
    | a :: rest => match rest with [] => [a] | b :: _ => (a - b * root) :: sub_next root rest end
    end.
  Definition poly_times_root (poly : list F) (root : F) : list F := sub_next root (0 :: poly).

  (** shamir.rs:503-525 [precompute_interpolation_polys]: one polynomial; [None] is the panic
      of [expect("Inverse in lagrange should work")]. *)
  Definition precompute_one (coeffs : list nat) (i : nat) : option (list F) :=
    let nd := fold_left (fun nd j => if (i =? j)%nat then nd
                                     else (poly_times_root (fst nd) (fnat j), snd nd * (fnat i - fnat j))) coeffs ([1], 1) in
    if feqb (snd nd) 0 then None else Some (map (fun r => r * finv (snd nd)) (fst nd)).
  Definition precompute_interpolation_polys (coeffs : list nat) : option (list (list F)) :=
    map_opt (precompute_one coeffs) coeffs.

  (** shamir.rs:528-542 [interpolate_poly_from_precomputed] ([zip] leaves the entries of
      [res] beyond the precomputed polynomial unchanged). *)
  Fixpoint add_scaled (res i : list F) (p : F) : list F :=
    match res, i with r :: res, n :: i => (r + n * p) :: add_scaled res i p | _, _ => res end.
  Definition interpolate_poly_from_precomputed (shares : list F) (precomputed : list (list F)) : list F :=
    fold_left (fun res ip => add_scaled res (fst ip) (snd ip)) (List.combine precomputed shares) (repeat 0 (length shares)).

  (** shamir.rs:571-589 [interpolation_poly_from_zero_points]; [None] is the panic of [expect]. *)
  Definition interpolation_poly_from_zero_points (zero_points : list nat) : option (list F) :=
    let nd := fold_left (fun nd j => (poly_times_root (fst nd) (fnat j), snd nd * - fnat j)) zero_points ([1], 1) in
    if feqb (snd nd) 0 then None else Some (map (fun r => r * finv (snd nd)) (fst nd)).

  (** shamir.rs:399-406 [poly_with_zeros_from_precomputed] and 410-419
      [poly_with_zeros_from_precomputed_point]. *)
  Definition poly_with_zeros_from_precomputed {G} {AG : AbGrp G} {MD : Mod F G} (secret : G) (precomp : list F) : list G :=
    map (fun r => smul r secret) precomp.
  (** shamir.rs:592-598 [interpolate_poly_from_secret_and_zeros] *)
  Definition interpolate_poly_from_secret_and_zeros (secret : F) (zero_points : list nat) : option (list F) :=
    option_map (poly_with_zeros_from_precomputed secret) (interpolation_poly_from_zero_points zero_points).
  (** shamir.rs:380-395 [share_with_zeros] *)
  Definition share_with_zeros (secret : F) (zero_points share_points : list nat) : option (list F) :=
    option_map (fun poly => map (fun x => evaluate_poly poly (fnat x)) share_points)
      (interpolate_poly_from_secret_and_zeros secret zero_points).

  (** ** Sharing and combining *)
  Context {Sg : Type}.
  Section Share.
  Context {G : Type} {AG : AbGrp G} {MD : Mod F G} {DG : Draw Sg G}.
  (** shamir.rs:359-376 [share] and 422-439 [share_point]; [share_field_element] (189-197) and
      [share_curve_point] (296-304) are wrappers with the arguments swapped. *)
  Definition sm_share (secret : G) (num_shares degree : nat) (s : Sg) : list G * Sg :=
    let d := draws degree s in
    (map (fun i => evaluate_poly (secret :: fst d) (fnat i)) (seq 1 num_shares), snd d).
  Definition share_field_element (val : G) (degree num_parties : nat) (s : Sg) : list G * Sg := sm_share val num_parties degree s.
  (** shamir.rs:227-246 [share_field_elements]: the result is indexed by party, then value. *)
  Fixpoint share_each (vals : list G) (degree num_parties : nat) (s : Sg) : list (list G) * Sg :=
    match vals with
    | [] => ([], s)
    | v :: vals => let r := sm_share v num_parties degree s in
                   let rs := share_each vals degree num_parties (snd r) in (fst r :: fst rs, snd rs)
    end.
  Definition share_field_elements (vals : list G) (degree num_parties : nat) (s : Sg) : list (list G) * Sg :=
    let r := share_each vals degree num_parties s in
    (map (fun i => map (fun shares => nth i shares 0) (fst r)) (seq 0 num_parties), snd r).
  (** shamir.rs:200-224 [combine_field_element] and 307-332 [combine_curve_point] *)
  Definition combine_field_element (shares : list G) (coeffs : list nat) (degree : nat) : outcome G :=
    if negb (length shares =? length coeffs)%nat then Failed (Eyre "Number of shares does not match number of party indices")
    else if (length shares <=? degree)%nat then Failed (Eyre "Not enough shares to reconstruct the secret.")
    else match lagrange_from_coeff (firstn (degree + 1) coeffs) with
         | None => Failed (Panic "called `Option::unwrap()` on a `None` value")
         | Some lagrange => Done (reconstruct (firstn (degree + 1) shares) lagrange)
         end.
  (** shamir.rs:249-293 [combine_field_elements] *)
  Definition combine_field_elements (shares : list (list G)) (coeffs : list nat) (degree : nat) : outcome (list G) :=
    if negb (length shares =? length coeffs)%nat then Failed (Eyre "Number of shares does not match number of party indices")
    else if (length shares <=? degree)%nat then Failed (Eyre "Not enough shares to reconstruct the secret.")
    else let num_vals := length (hd [] shares) in
    if negb (forallb (fun s => length s =? num_vals)%nat (tl shares)) then Failed (Eyre "Number of shares does not match number of shares in first party")
    else match lagrange_from_coeff (firstn (degree + 1) coeffs) with
         | None => Failed (Panic "called `Option::unwrap()` on a `None` value")
         | Some lagrange =>
             Done (map (fun i => reconstruct (map (fun s => nth i s 0) (firstn (degree + 1) shares)) lagrange) (seq 0 num_vals))
         end.
  End Share.

  (** ** Polynomials with shared coefficients *)
  (** shamir/poly.rs:28-34 [horner_evaluate] *)
  Definition sm_horner (cs : list F) (x : F) : F := fold_right (fun coeff result => result * x + coeff) 0 cs.
  (** shamir/poly.rs:39-67 [eval_poly] with [threads] = [rayon::current_num_threads()];
      [None] is the index panic on an empty slice at point 0. *)
  Fixpoint sm_chunks (k : nat) (cs : list F) (fuel : nat) : list (list F) :=
    match fuel, cs with
    | S fuel, _ :: _ => firstn k cs :: sm_chunks k (skipn k cs) fuel
    | _, _ => []
    end.
  Fixpoint sm_eval_chunks (k : nat) (x : F) (idx : nat) (cs : list (list F)) : F :=
    match cs with [] => 0 | c :: cs => sm_horner c x * fpow x (idx * k)%nat + sm_eval_chunks k x (S idx) cs end.
  Definition sm_eval_poly (threads : nat) (cs : list F) (x : F) : option F :=
    if feqb x 0 then match cs with c :: _ => Some c | [] => None end
    else let k := Nat.max (length cs / threads) 16 in Some (sm_eval_chunks k x 0 (sm_chunks k cs (length cs))).
End Poly.

(** Replacing an element of a vector. *)
Fixpoint set_nth {A} (i : nat) (x : A) (l : list A) : list A :=
  match l, i with [], _ => [] | _ :: l, O => x :: l | a :: l, S i => a :: set_nth i x l end.
Fixpoint set_nths {A} (is : list nat) (xs : list A) (l : list A) : list A :=
  match is, xs with i :: is, x :: xs => set_nths is xs (set_nth i x l) | _, _ => l end.

Section Net.
  Context {M : Type}.
  Notation prog := (prog nat M).

  (** shamir/network.rs:29-35 [send_many] *)
  Definition n_send_many {X} `{Enc M (list X)} (to : nat) (data : list X) : prog unit := Send to (enc data) (Ret tt).
  (** receiving and deserialising ([recv] then [deserialize_uncompressed_unchecked]) *)
  Definition n_recv {X} `{Enc M X} (from : nat) : prog X :=
    Recv from (fun m => match dec m with Some x => Ret x | None => Fail (Eyre "deserialize") end).
  (** shamir/network.rs:50-56 [recv_many] *)
  Definition n_recv_many {X} `{Enc M (list X)} (from : nat) : prog (list X) := n_recv from.
  (** loop of receives *)
  Fixpoint n_recv_each {X} `{Enc M X} (froms : list nat) : prog (list X) :=
    match froms with
    | [] => Ret []
    | j :: froms => x <- n_recv j ;; xs <- n_recv_each froms ;; Ret (x :: xs)
    end.
  (** shamir/network.rs:96-126 [broadcast_next] *)
  Definition broadcast_next {X} `{Enc M X} (id num_parties num : nat) (data : X) : prog (list X) :=
    _ <- send_list (map (fun s => (((id + s) mod num_parties)%nat, enc data)) (seq 1 (num - 1))) (Ret tt) ;;
    rcv <- n_recv_each (map (fun r => ((id + num_parties - r) mod num_parties)%nat) (seq 1 (num - 1))) ;;
    Ret (data :: rcv).
  (** shamir/network.rs:60-92 [broadcast] *)
  Fixpoint recv_others {X} `{Enc M X} (id : nat) (data : X) (others : list nat) : prog (list X) :=
    match others with
    | [] => Ret []
    | j :: others => x <- (if (j =? id)%nat then Ret data else n_recv j) ;; xs <- recv_others id data others ;; Ret (x :: xs)
    end.
  Definition broadcast {X} `{Enc M X} (id num_parties : nat) (data : X) : prog (list X) :=
    _ <- send_list (map (fun j => (j, enc data)) (filter (fun j => negb (j =? id)%nat) (seq 0 num_parties))) (Ret tt) ;;
    recv_others id data (seq 0 num_parties).

  Context {F : Type} {FF : Fld F} {Sg : Type} {DF : Draw Sg F}.
  Infix "*" := rmul : grp_scope.
  Notation "1" := rone : grp_scope.

  (** ** Correlated randomness *)
  (** shamir/rngs.rs:12-23 [ShamirRng] *)
  Record srng := mkSrng {
    sr_id : nat; sr_rng : Sg; sr_t : nat; sr_n : nat;
    sr_pre_t : list (list F); sr_pre_2t : list (list F);
    sr_shared : list Sg; sr_matrix : list (list F);
    sr_rt : list F; sr_r2t : list F }.
  Definition sr_with (r : srng) (own : Sg) (shared : list Sg) : srng :=
    mkSrng (sr_id r) own (sr_t r) (sr_n r) (sr_pre_t r) (sr_pre_2t r) shared (sr_matrix r) (sr_rt r) (sr_r2t r).
  Definition sr_with_pairs (r : srng) (rt r2t : list F) : srng :=
    mkSrng (sr_id r) (sr_rng r) (sr_t r) (sr_n r) (sr_pre_t r) (sr_pre_2t r) (sr_shared r) (sr_matrix r) rt r2t.
  (** rngs.rs:205-211 [get_rng_mut]: reading and writing through the reference. An index
      outside [shared_rngs] panics in the code; all callers pass ids below the number of
      parties. *)
  Definition get_rng (r : srng) (other : nat) : Sg :=
    if (other <? sr_id r)%nat then nth other (sr_shared r) (sr_rng r)
    else if (sr_id r <? other)%nat then nth (other - 1) (sr_shared r) (sr_rng r)
    else sr_rng r.
  Definition set_rng (r : srng) (other : nat) (s : Sg) : srng :=
    if (other <? sr_id r)%nat then sr_with r (sr_rng r) (set_nth other s (sr_shared r))
    else if (sr_id r <? other)%nat then sr_with r (sr_rng r) (set_nth (other - 1) s (sr_shared r))
    else sr_with r s (sr_shared r).
  (** [amount] draws from the generator shared with each of the parties [ps], in this order:
      the body shared by the loops of rngs.rs:214-223, 227-236, 262-268 and 350-356. *)
  Fixpoint draw_from (amount : nat) (ps : list nat) (r : srng) : list (list F) * srng :=
    match ps with
    | [] => ([], r)
    | p :: ps => let d := draws (X := F) amount (get_rng r p) in
                 let rest := draw_from amount ps (set_rng r p (snd d)) in (fst d :: fst rest, snd rest)
    end.
  Definition prev_ids (r : srng) (degree : nat) : list nat :=
    map (fun i => (sr_id r + sr_n r - i) mod sr_n r)%nat (seq 1 degree).
  Definition next_ids (r : srng) (degree : nat) : list nat :=
    map (fun i => (sr_id r + i) mod sr_n r)%nat (seq 1 degree).
  (** rngs.rs:213-224 [receive_seeded_prev] and 226-237 [receive_seeded_next]. The matrix
      [output] of the code ([amount] rows, one column per sender) is kept by columns; a column
      shorter than [amount] stands for one padded with [F::default()] (0). *)
  Definition receive_seeded_prev (amount degree : nat) (r : srng) (output : list (list F)) : list (list F) * srng :=
    let ps := filter (fun send_id => negb (sr_id r <? send_id)%nat) (prev_ids r degree) in
    let d := draw_from amount ps r in (set_nths ps (fst d) output, snd d).
  Definition receive_seeded_next (amount degree : nat) (r : srng) (output : list (list F)) : list (list F) * srng :=
    let ps := filter (fun send_id => negb (send_id <? sr_id r)%nat) (prev_ids r degree) in
    let d := draw_from amount ps r in (set_nths ps (fst d) output, snd d).
  (** the [amount] rows of a matrix kept by columns *)
  Definition rows_of (amount : nat) (cols : list (list F)) : list (list F) :=
    map (fun k => map (fun c => nth k c 0) cols) (seq 0 amount).
  (** rngs.rs:291-311 [send_share_of_randomness] *)
  Context {EF : Enc M (list F)}.
  Definition send_share_of_randomness (r : srng) (seeded : nat) (polys : list (list F)) : prog unit :=
    if (sr_n r <? seeded + 1)%nat then Fail (Panic "attempt to subtract with overflow")
    else send_list (map (fun rcv_id => (rcv_id, enc (map (fun p => evaluate_poly p (fnat (rcv_id + 1))) polys)))
                        (map (fun i => (sr_id r + i + seeded) mod sr_n r)%nat (seq 1 (sr_n r - seeded - 1)))) (Ret tt).
  (** rngs.rs:313-331 [receive_share_of_randomness] *)
  Definition receive_share_of_randomness (r : srng) (seeded : nat) (output : list (list F)) : prog (list (list F)) :=
    if (sr_n r <? seeded + 1)%nat then Fail (Panic "attempt to subtract with overflow")
    else let ps := map (fun i => (sr_id r + sr_n r - seeded - i) mod sr_n r)%nat (seq 1 (sr_n r - seeded - 1)) in
         cols <- n_recv_each ps ;; Ret (set_nths ps cols output).
  (** rngs.rs:334-395 [random_double_share] (with 249-282
      [get_interpolation_polys_from_precomputed] and 284-289 [set_my_share] inlined): local part,
      giving the matrices so far, the polynomials dealt and the new state. *)
  Definition rds_local (amount : nat) (r : srng) : (list (list F) * list (list F)) * (list (list F) * list (list F)) * srng :=
    let t := sr_t r in let id := sr_id r in
    let a := receive_seeded_next amount (t + 1) r (repeat [] (sr_n r)) in
    let d := draw_from amount (next_ids (snd a) (t + 1)) (snd a) in
    let b := receive_seeded_prev amount (t + 1) (snd d) (fst a) in
    let polys_t := map (fun s => interpolate_poly_from_precomputed s (sr_pre_t r)) (rows_of amount (fst d)) in
    let rcv_t := set_nth id (map (fun p => evaluate_poly p (fnat (id + 1))) polys_t) (fst b) in
    let rands := map (fun p => nth 0 p 0) polys_t in
    let a2 := receive_seeded_next amount (2 * t) (snd b) (repeat [] (sr_n r)) in
    let d2 := draw_from amount (next_ids (snd a2) (2 * t)) (snd a2) in
    let polys_2t := map (fun s => interpolate_poly_from_precomputed s (sr_pre_2t r)) (rows_of amount (rands :: fst d2)) in
    let b2 := receive_seeded_prev amount (2 * t) (snd d2) (fst a2) in
    let rcv_2t := set_nth id (map (fun p => evaluate_poly p (fnat (id + 1))) polys_2t) (fst b2) in
    ((rcv_t, rcv_2t), (polys_t, polys_2t), snd b2).
  Definition random_double_share (amount : nat) (r : srng) : prog (list (list F) * list (list F) * srng) :=
    let l := rds_local amount r in
    let r' := snd l in
    _ <- send_share_of_randomness r' (sr_t r + 1) (fst (snd (fst l))) ;;
    _ <- send_share_of_randomness r' (2 * sr_t r) (snd (snd (fst l))) ;;
    rcv_t <- receive_share_of_randomness r' (sr_t r + 1) (fst (fst (fst l))) ;;
    rcv_2t <- receive_share_of_randomness r' (2 * sr_t r) (snd (fst (fst l))) ;;
    Ret (rows_of amount rcv_t, rows_of amount rcv_2t, r').
  (** rngs.rs:147-158 [create_vandermonde_matrix] *)
  Definition create_vandermonde_matrix (num_parties threshold : nat) : list (list F) :=
    repeat 1 num_parties :: map (fun row => map (fun col => fpow (fnat col) row) (seq 1 num_parties)) (seq 1 threshold).
  (** rngs.rs:194-202 [matmul] (on a zeroed output) *)
  Definition matmul (mat : list (list F)) (inp : list F) : list F :=
    map (fun row => fold_left (fun res vc => res + fst vc * snd vc) (List.combine inp row) 0) mat.
  (** rngs.rs:401-428 [ShamirRng::buffer_triples] *)
  Definition rng_buffer_triples (amount : nat) (r : srng) : prog srng :=
    d <- random_double_share amount r ;;
    let r' := snd d in
    Ret (sr_with_pairs r' (sr_rt r' ++ concat (map (matmul (sr_matrix r')) (fst (fst d))))
                          (sr_r2t r' ++ concat (map (matmul (sr_matrix r')) (snd (fst d))))).
  (** rngs.rs:69-71 [get_size_per_batch] *)
  Definition size_per_batch (r : srng) : nat := length (sr_matrix r).

  Section Setup.
    Context {Seed : Type} {SDS : Seeded Sg Seed} {DS : Draw Sg Seed} {ES : Enc M (list Seed)} (seed0 : Seed).
    (** network.rs:39-46 [recv_from] *)
    Definition n_recv_from {X} `{Enc M (list X)} (from : nat) : prog X :=
      res <- n_recv_many from ;;
      match res with [x] => Ret x | _ => Fail (Eyre "Expected 1 element, got more") end.
    Fixpoint n_recv_from_each {X} `{Enc M (list X)} (froms : list nat) : prog (list X) :=
      match froms with
      | [] => Ret []
      | j :: froms => x <- n_recv_from j ;; xs <- n_recv_from_each froms ;; Ret (x :: xs)
      end.
    (** rngs.rs:98-139 [get_shared_rngs]; [seed0] is [SeedType::default()]. The [debug_assert]s
        that no seed is all-zero (true except with negligible probability) are left out. *)
    Definition seeds_sent (id num_parties : nat) : nat :=
      let to_interact := (num_parties - 1)%nat in
      (to_interact / 2 + (if Nat.odd to_interact && (id <? num_parties / 2) then 1 else 0))%nat.
    Definition get_shared_rngs (id num_parties : nat) (rng : Sg) : prog (list Sg * Sg) :=
      if (num_parties =? 0)%nat then Fail (Panic "attempt to subtract with overflow") else
      let send := seeds_sent id num_parties in
      let receive := (num_parties - 1 - send)%nat in
      let to := map (fun off => (id + off) mod num_parties)%nat (seq 1 send) in
      let from := map (fun off => (id + num_parties - off) mod num_parties)%nat (seq 1 receive) in
      let d := draws (X := Seed) send rng in
      _ <- send_list (map2 (fun j s => (j, enc [s])) to (fst d)) (Ret tt) ;;
      rcv <- n_recv_from_each from ;;
      let seeds := set_nths from rcv (set_nths to (fst d) (repeat seed0 num_parties)) in
      Ret (map from_seed (firstn id seeds ++ tl (skipn id seeds)), snd d).
    (** a computation that may panic *)
    Definition or_panic {A} (msg : string) (o : option A) : prog A :=
      match o with Some a => Ret a | None => Fail (Panic msg) end.
    (** rngs.rs:26-66 [ShamirRng::new] (with 239-247 [Self::precompute_interpolation_polys]) *)
    Definition srng_new (id : nat) (seed : Seed) (num_parties threshold : nat) : prog srng :=
      sr <- get_shared_rngs id num_parties (from_seed seed) ;;
      pre_t <- or_panic "Inverse in lagrange should work"
                 (precompute_interpolation_polys (map (fun i => (id + i) mod num_parties + 1)%nat (seq 1 (threshold + 1)))) ;;
      pre_2t <- or_panic "Inverse in lagrange should work"
                 (precompute_interpolation_polys (0%nat :: map (fun i => (id + i) mod num_parties + 1)%nat (seq 1 (threshold * 2)))) ;;
      Ret (mkSrng id (snd sr) threshold num_parties pre_t pre_2t (fst sr) (create_vandermonde_matrix num_parties threshold) [] []).
    (** rngs.rs:74-96 [fork_with_pairs]: child and updated parent. *)
    Definition reseed (s : Sg) : Sg := from_seed (fst (draw (X := Seed) s)).
    Definition advance (s : Sg) : Sg := snd (draw (X := Seed) s).
    Definition fork_with_pairs (amount : nat) (r : srng) : outcome (srng * srng) :=
      if (length (sr_rt r) <? amount)%nat then Failed (Panic "not enough corr rand pairs")
      else if (length (sr_r2t r) <? amount)%nat then Failed (Panic "range end index out of range")
      else Done (sr_with_pairs (sr_with r (reseed (sr_rng r)) (map reseed (sr_shared r))) (firstn amount (sr_rt r)) (firstn amount (sr_r2t r)),
                 sr_with_pairs (sr_with r (advance (sr_rng r)) (map advance (sr_shared r))) (skipn amount (sr_rt r)) (skipn amount (sr_r2t r))).
  End Setup.

  (** ** Protocol state *)
  (** shamir.rs:106-120 [ShamirState] *)
  Record sst := mkSst {
    ss_id : nat; ss_n : nat; ss_t : nat;
    ss_open_t : list F; ss_open_2t : list F; ss_mul_2t : list F; ss_zeros : list F;
    ss_rng : srng; ss_gen : nat }.
  Definition ss_with (st : sst) (r : srng) (gen : nat) : sst :=
    mkSst (ss_id st) (ss_n st) (ss_t st) (ss_open_t st) (ss_open_2t st) (ss_mul_2t st) (ss_zeros st) r gen.
  (** shamir.rs:66-103 [From<ShamirPreprocessing> for ShamirState] *)
  Definition DEFAULT_PAIR_GEN_AMOUNT : nat := 1024.
  Definition open_points (id n num : nat) : list nat := map (fun i => (id + n - i) mod n + 1)%nat (seq 0 num).
  Definition sst_from (id n t : nat) (r : srng) : prog sst :=
    open_t <- or_panic "unwrap" (lagrange_from_coeff (open_points id n (t + 1))) ;;
    open_2t <- or_panic "unwrap" (lagrange_from_coeff (open_points id n (2 * t + 1))) ;;
    mul_2t <- or_panic "unwrap" (lagrange_from_coeff (seq 1 (2 * t + 1))) ;;
    zeros <- or_panic "Inverse in lagrange should work" (interpolation_poly_from_zero_points (seq (n - t + 1) t)) ;;
    Ret (mkSst id n t open_t open_2t mul_2t zeros r DEFAULT_PAIR_GEN_AMOUNT).
  (** shamir.rs:35-63 [ShamirPreprocessing::new] followed by the conversion to [ShamirState];
      [seed] comes from the entropy source of the party. *)
  Section Setup2.
    Context {Seed : Type} {SDS : Seeded Sg Seed} {DS : Draw Sg Seed} {ES : Enc M (list Seed)} (seed0 : Seed).
    (** [usize::div_ceil] *)
    Definition div_ceil (a b : nat) : nat := ((a + b - 1) / b)%nat.
    Definition preprocessing_new (id : nat) (seed : Seed) (num_parties threshold amount : nat) : prog sst :=
      if (num_parties <? 2 * threshold + 1)%nat then Fail (Eyre "Threshold too large for number of parties")
      else
        r <- srng_new seed0 id seed num_parties threshold ;;
        r' <- rng_buffer_triples (div_ceil amount (size_per_batch r)) r ;;
        sst_from id num_parties threshold r'.
    (** shamir.rs:173-185 [fork] *)
    Definition sm_fork (amount : nat) (st : sst) : outcome (sst * sst) :=
      match fork_with_pairs amount (ss_rng st) with
      | Failed e => Failed e
      | Done (c, p) => Done (ss_with st c (ss_gen st), ss_with st p (ss_gen st))
      end.
  End Setup2.
  (** last element and the rest ([Vec::pop]) *)
  Definition pop_pair (st : sst) (gen : nat) : option (F * F * sst) :=
    let r := ss_rng st in
    match rev (sr_rt r), rev (sr_r2t r) with
    | a :: rt, b :: r2t => Some ((a, b), ss_with st (sr_with_pairs r (rev rt) (rev r2t)) gen)
    | _, _ => None
    end.
  (** shamir.rs:127-143 [get_pair]. [generation_amount *= 2] is on [nat] (no overflow). *)
  Definition get_pair (st : sst) : prog (F * F * sst) :=
    st' <- (match sr_rt (ss_rng st) with
            | [] => r <- rng_buffer_triples (ss_gen st) (ss_rng st) ;; Ret (ss_with st r (2 * ss_gen st))
            | _ => Ret st
            end) ;;
    or_panic "called `Option::unwrap()` on a `None` value" (pop_pair st' (ss_gen st')).
  (** shamir.rs:146-157 [buffer_triples] *)
  Definition sm_buffer_triples (num_triples : nat) (st : sst) : prog sst :=
    let present := length (sr_rt (ss_rng st)) in
    if (num_triples <=? present)%nat then Ret st
    else r <- rng_buffer_triples (div_ceil (num_triples - present) (size_per_batch (ss_rng st))) (ss_rng st) ;;
         Ret (ss_with st r (ss_gen st)).
  (** shamir.rs:160-163 [rand] *)
  Definition sm_rand (st : sst) : prog (F * sst) := p <- get_pair st ;; Ret (fst (fst p), snd p).
  (** one pair for each element of a list *)
  Fixpoint get_pairs (k : nat) (st : sst) : prog (list (F * F) * sst) :=
    match k with
    | O => Ret ([], st)
    | S k => p <- get_pair st ;; ps <- get_pairs k (snd p) ;; Ret (fst p :: fst ps, snd ps)
    end.

  (** ** Degree reduction *)
  Definition KING_ID : nat := 0.
  Section Reduce.
    Context {G : Type} {AG : AbGrp G} {MD : Mod F G} {EG : Enc M (list G)}.
    (** network.rs:173-190 (and 267-275): the king accumulates the weighted shares of the
        parties [other], [other]+1, ... *)
    Definition recv_len (len : nat) (from : nat) : prog (list G) :=
      r <- n_recv_many from ;;
      if (length r =? len)%nat then Ret r else Fail (Eyre "Invalid number of elements received").
    Fixpoint king_acc (len other : nat) (lagrange : list F) (inputs acc : list G) : prog (list G) :=
      match lagrange with
      | [] => Ret acc
      | l :: lagrange =>
          r <- (if (other =? KING_ID)%nat then Ret inputs else recv_len len other) ;;
          king_acc len (S other) lagrange inputs (map2 (fun a m => a + smul l m) acc r)
      end.
    (** network.rs:197-219 (and 282-295): the king deals the polynomials with zeros. *)
    Definition king_vals (st : sst) (acc : list G) (id : nat) : list G :=
      map (fun a => evaluate_poly (poly_with_zeros_from_precomputed a (ss_zeros st)) (fnat (id + 1))) acc.
    Definition king_deal (st : sst) (num_non_zero : nat) (acc : list G) : prog (list G) :=
      send_list (map (fun id => (id, enc (king_vals st acc id))) (filter (fun id => negb (id =? ss_id st)%nat) (seq 0 num_non_zero)))
        (Ret (if (ss_id st <? num_non_zero)%nat then king_vals st acc (ss_id st) else [])).
    (** network.rs:150-242 [degree_reduce_many] between the masking and the unmasking, also
        246-309 [degree_reduce_point] with one-element vectors ([send_to] and [recv_from] are
        [send_many] and [recv_many] with a length check). The two branches of the
        [if my_id == KING_ID] are written as four steps, each trivial in one of the branches. *)
    Definition reduce_core (st : sst) (inputs : list G) : prog (list G) :=
      let len := length inputs in
      let num_non_zero := (ss_n st - ss_t st)%nat in
      let king := (ss_id st =? KING_ID)%nat in
      _ <- (if king then Ret tt else if (ss_id st <=? ss_t st * 2)%nat then n_send_many KING_ID inputs else Ret tt) ;;
      acc <- (if king then king_acc len 0 (ss_mul_2t st) inputs (repeat 0 len) else Ret []) ;;
      my <- (if king then king_deal st num_non_zero acc else Ret []) ;;
      (if king then Ret my else if (ss_id st <? num_non_zero)%nat then recv_len len KING_ID else Ret (repeat 0 len)).
  End Reduce.
  (** network.rs:150-242 [degree_reduce_many] *)
  Definition degree_reduce_many (inputs : list F) (st : sst) : prog (list F * sst) :=
    p <- get_pairs (length inputs) st ;;
    sh <- reduce_core (snd p) (map2 (fun i r => i + snd r) inputs (fst p)) ;;
    Ret (map2 (fun s r => s - fst r) sh (fst p), snd p).
  (** network.rs:130-146 [degree_reduce] *)
  Definition degree_reduce (input : F) (st : sst) : prog (F * sst) :=
    r <- degree_reduce_many [input] st ;;
    match fst r with [x] => Ret (x, snd r) | _ => Fail (Eyre "Expected 1 element, got more") end.
  (** network.rs:246-309 [degree_reduce_point]; [gen] is [C::generator()] *)
  Definition degree_reduce_point {G} {AG : AbGrp G} {MD : Mod F G} {EG : Enc M (list G)} (gen : G) (input : G) (st : sst) : prog (G * sst) :=
    p <- get_pair st ;;
    sh <- reduce_core (snd p) [input + smul (snd (fst p)) gen] ;;
    match sh with
    | [x] => Ret (x - smul (fst (fst p)) gen, snd p)
    | _ => Fail (Eyre "Expected 1 element, got more")
    end.

  (** ** Arithmetic (shamir/arithmetic.rs, shamir/pointshare.rs) *)
  Section Ops.
    Context {G : Type} {AG : AbGrp G} {MD : Mod F G}.
    (** arithmetic.rs:18-59, 175-177, pointshare.rs:22-65 (the [assign] and [affine] variants
        compute the same values; ops.rs) *)
    Definition sm_add (a b : G) : G := a + b.
    Definition sm_sub (a b : G) : G := a - b.
    Definition sm_neg (a : G) : G := - a.
    Definition sm_add_public (shared public : G) : G := shared + public.
    Definition sm_sub_public (shared public : G) : G := shared - public.
    (** arithmetic.rs:38-42 and 55-59: [izip] leaves the entries beyond the shorter vector *)
    Fixpoint sm_zip_assign (f : G -> G -> G) (lhs rhs : list G) : list G :=
      match lhs, rhs with a :: lhs, b :: rhs => f a b :: sm_zip_assign f lhs rhs | _, _ => lhs end.
    Definition sm_add_vec_assign := sm_zip_assign (fun a b => a + b).
    Definition sm_sub_vec_assign := sm_zip_assign (fun a b => a - b).
    (** arithmetic.rs:100-107, pointshare.rs:78-83 *)
    Definition sm_mul_public (shared : G) (public : F) : G := smul public shared.
    (** pointshare.rs:68-75 [scalar_mul_public_point] *)
    Definition sm_scalar_mul_public_point (shared : F) (public : G) : G := smul shared public.
    (** arithmetic.rs:224-231, pointshare.rs:113-115 *)
    Definition sm_promote (public : G) : G := public.
    (** arithmetic.rs:73-79 [local_mul_vec], pointshare.rs:97-99 [scalar_mul_local] *)
    Definition sm_local_mul (a : F) (b : G) : G := smul a b.
    (** arithmetic.rs:120-129 [div_shared_by_public] *)
    Definition sm_div_shared_by_public (shared : G) (public : F) : outcome G :=
      if feqb public 0 then Failed (Eyre "Cannot invert zero") else Done (sm_mul_public shared (finv public)).
    (** pointshare.rs:207-225 [msm_public_points] ([msm_unchecked] stops at the shorter input) *)
    Definition sm_msm_public_points (points : list G) (scalars : list F) : G :=
      fold_left (fun acc ps => acc + smul (snd ps) (fst ps)) (List.combine points scalars) 0.

    Context {EG : Enc M G} {EGs : Enc M (list G)}.
    (** arithmetic.rs:180-188 [open], pointshare.rs:118-126 [open_point] *)
    Definition sm_open (a : G) (st : sst) : prog G :=
      rcv <- broadcast_next (ss_id st) (ss_n st) (ss_t st + 1) a ;; Ret (reconstruct rcv (ss_open_t st)).
    (** pointshare.rs:102-110 [open_half_point] *)
    Definition sm_open_half (a : G) (st : sst) : prog G :=
      rcv <- broadcast_next (ss_id st) (ss_n st) (ss_t st * 2 + 1) a ;; Ret (reconstruct rcv (ss_open_2t st)).
    (** the transposition of arithmetic.rs:200-206, 277-283, pointshare.rs:138-144: an element
        beyond [len] is an index panic, a missing one is 0 *)
    Definition transposed {X} {AX : AbGrp X} {MX : Mod F X} (len : nat) (lagrange : list F) (rcv : list (list X)) : option (list X) :=
      if existsb (fun r => len <? length r)%nat rcv then None
      else Some (map (fun i => reconstruct (map (fun r => nth i r 0) rcv) lagrange) (seq 0 len)).
    (** arithmetic.rs:191-213 [open_vec], pointshare.rs:129-151 [open_point_many] *)
    Definition sm_open_vec (a : list G) (st : sst) : prog (list G) :=
      rcv <- broadcast_next (ss_id st) (ss_n st) (ss_t st + 1) a ;;
      or_panic "index out of bounds" (transposed (length a) (ss_open_t st) rcv).
    (** arithmetic.rs:250-259 [mul_open] *)
    Definition sm_mul_open (a : F) (b : G) (st : sst) : prog G :=
      rcv <- broadcast_next (ss_id st) (ss_n st) (2 * ss_t st + 1) (smul a b) ;; Ret (reconstruct rcv (ss_open_2t st)).
    (** arithmetic.rs:262-290 [mul_open_vec] *)
    Definition sm_mul_open_vec (a : list F) (b : list G) (st : sst) : prog (list G) :=
      rcv <- broadcast_next (ss_id st) (ss_n st) (2 * ss_t st + 1) (map2 smul a b) ;;
      or_panic "index out of bounds" (transposed (length a) (ss_open_2t st) rcv).
    (** pointshare.rs:86-94 [scalar_mul] *)
    Definition sm_scalar_mul (gen : G) (a : G) (b : F) (st : sst) : prog (G * sst) := degree_reduce_point gen (smul b a) st.
    Context {EGF : Enc M (G * F)} {EGFs : Enc M (list G * list F)}.
    (** pointshare.rs:154-165 [open_point_and_field] *)
    Definition sm_open_point_and_field (a : G) (b : F) (st : sst) : prog (G * F) :=
      rcv <- broadcast_next (ss_id st) (ss_n st) (ss_t st + 1) (a, b) ;;
      Ret (reconstruct (map fst rcv) (ss_open_t st), reconstruct (map snd rcv) (ss_open_t st)).
    (** pointshare.rs:168-204 [open_point_and_field_many]; the [debug_assert] on the lengths is
        left out *)
    Definition sm_open_point_and_field_many (a : list G) (b : list F) (st : sst) : prog (list G * list F) :=
      rcv <- broadcast_next (ss_id st) (ss_n st) (ss_t st + 1) (a, b) ;;
      match transposed (length a) (ss_open_t st) (map fst rcv), transposed (length b) (ss_open_t st) (map snd rcv) with
      | Some ps, Some fs => Ret (ps, fs)
      | _, _ => Fail (Panic "index out of bounds")
      end.
  End Ops.
  Context {EF1 : Enc M F}.
  (** arithmetic.rs:62-70 [mul] *)
  Definition sm_mul (a b : F) (st : sst) : prog (F * sst) := degree_reduce (a * b) st.
  (** arithmetic.rs:82-97 [mul_vec] *)
  Definition sm_mul_vec (a b : list F) (st : sst) : prog (list F * sst) := degree_reduce_many (map2 rmul a b) st.
  (** arithmetic.rs:142-154 [inv] *)
  Definition sm_inv (a : F) (st : sst) : prog (F * sst) :=
    r <- sm_rand st ;;
    y <- sm_mul_open a (fst r) (snd r) ;;
    if feqb y 0 then Fail (Eyre "Cannot compute inverse of zero") else Ret (fst r * finv y, snd r).
  (** arithmetic.rs:157-172 [inv_vec] *)
  Definition sm_inv_vec (a : list F) (st : sst) : prog (list F * sst) :=
    p <- get_pairs (length a) st ;;
    let r := map fst (fst p) in
    y <- sm_mul_open_vec a r (snd p) ;;
    if existsb (fun y => feqb y 0) y then Fail (Eyre "Cannot compute inverse of zero")
    else Ret (map2 (fun r y => r * finv y) r y, snd p).
  (** arithmetic.rs:110-117 [div] *)
  Definition sm_div (a b : F) (st : sst) : prog (F * sst) := i <- sm_inv b st ;; sm_mul a (fst i) (snd i).
  (** arithmetic.rs:132-139 [div_public_by_shared] *)
  Definition sm_div_public_by_shared (public shared : F) (st : sst) : prog (F * sst) :=
    i <- sm_inv shared st ;; Ret (sm_mul_public (fst i) public, snd i).

  (** ** Bridge from replicated to Shamir shares (bridges/rep3_to_shamir.rs) *)
  (** rep3_to_shamir.rs:14-28 [get_translation_points]; [None]: panic of [expect] *)
  Definition get_translation_points (id : nat) : option (F * F) :=
    let poly1_x := if (id =? 0)%nat then 3 else id in
    let poly2_x := if (id =? 2)%nat then 1%nat else (id + 2)%nat in
    match interpolate_poly_from_secret_and_zeros 1 [poly1_x], interpolate_poly_from_secret_and_zeros 1 [poly2_x] with
    | Some f1, Some f2 => Some (evaluate_poly f1 (fnat (id + 1)), evaluate_poly f2 (fnat (id + 1)))
    | _, _ => None
    end.
  Section Bridge.
    Context {G : Type} {AG : AbGrp G} {MD : Mod F G}.
    (** rep3_to_shamir.rs:31-40 [translate_primefield_repshare], 98-107 [translate_point_repshare];
        [a], [b] are the two components of the replicated share *)
    Definition translate_repshare (a b : G) (id : nat) : option G :=
      option_map (fun xy => smul (fst xy) a + smul (snd xy) b) (get_translation_points id).
    (** rep3_to_shamir.rs:43-62 [translate_primefield_repshare_vec] (the parallel branch computes
        the same list) *)
    Definition translate_repshare_vec (input : list (G * G)) (id : nat) : option (list G) :=
      option_map (fun xy => map (fun ab => smul (fst xy) (fst ab) + smul (snd xy) (snd ab)) input) (get_translation_points id).
  End Bridge.
  (** rep3_to_shamir.rs:65-76 [translate_primefield_addshare] *)
  Definition my_lagrange_inv (st : sst) : option F :=
    match ss_open_2t st with [] => None | l :: _ => if feqb l 0 then None else Some (finv l) end.
  Definition translate_addshare (input : F) (st : sst) : prog (F * sst) :=
    match my_lagrange_inv st with
    | None => Fail (Panic "lagrange coeff must be invertible")
    | Some c => degree_reduce (input * c) st
    end.
  (** rep3_to_shamir.rs:79-95 [translate_primefield_addshare_vec] *)
  Definition translate_addshare_vec (input : list F) (st : sst) : prog (list F * sst) :=
    match my_lagrange_inv st with
    | None => Fail (Panic "lagrange coeff must be invertible")
    | Some c => degree_reduce_many (map (fun s => s * c) input) st
    end.
End Net.
