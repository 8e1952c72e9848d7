(** * The collaborative Groth16 prover

    Models co-circom/co-groth16/src/groth16.rs, groth16/reduction.rs and the drivers mpc/plain.rs,
    mpc/rep3.rs, mpc/shamir.rs.  [F] is the scalar field, [G1] and [G2] the groups of the pairing
    (modules over [F]).

    Simplifications: affine and projective points are the same; [rayon::join], parallel maps and
    [mpc_net::join] run their parts one after the other (the two legs of [mpc_net::join] use
    networks and states of their own, see [C22_join]); the transforms and [msm_unchecked] of the
    crate taceo-ark-algebra are specified in Dft.v and Rep3.v ([msm] stops at the shorter input). *)
From Coq Require Import String List Arith Bool.
From Verif Require Import Proc Alg Rep3Net Rep3 ShamirPoly Shamir Dft.
Import ListNotations.
Set Implicit Arguments.
Local Open Scope grp_scope.
Local Open Scope string_scope.
Local Open Scope list_scope.

(** [?] on a local result, or unwinding of a panic *)
Definition obd {A B} (o : outcome A) (f : A -> outcome B) : outcome B :=
  match o with Done a => f a | Failed e => Failed e end.
Fixpoint traverse {A B} (f : A -> outcome B) (l : list A) : outcome (list B) :=
  match l with
  | [] => Done []
  | a :: l => obd (f a) (fun b => obd (traverse f l) (fun bs => Done (b :: bs)))
  end.
(** [Vec::resize] *)
Definition resize {A} (n : nat) (d : A) (l : list A) : list A := firstn n l ++ repeat d (n - length l).

(** taceo_groth16 [ConstraintMatrices] (the fields that are used) *)
Record matrices (F : Type) := mkMats {
  num_instance_variables : nat; num_witness_variables : nat; num_constraints : nat;
  mat_a : list (list (F * nat)); mat_b : list (list (F * nat)); mat_c : list (list (F * nat)) }.
(** ark_groth16 [ProvingKey] with its [VerifyingKey] *)
Record pkey (G1 G2 : Type) := mkPk {
  alpha_g1 : G1; beta_g1 : G1; beta_g2 : G2; gamma_g2 : G2; delta_g1 : G1; delta_g2 : G2;
  gamma_abc_g1 : list G1; a_query : list G1; b_g1_query : list G1; b_g2_query : list G2;
  h_query : list G1; l_query : list G1 }.
(** ark_groth16 [Proof] *)
Record proof (G1 G2 : Type) := mkProof { pf_a : G1; pf_b : G2; pf_c : G1 }.

(** ark_ff [FftField] constants: [F::TWO_ADICITY], [F::TRACE], [F::GENERATOR], whether
    [legendre] is [QuadraticNonResidue], and the generator that ark's domain of size [2^k] uses *)
Class Fft (F : Type) := {
  two_adicity : nat; trace : nat; fgenerator : F; nonresidue : F -> bool; ark_root : nat -> F }.

Section Roots.
  Context {F : Type} {FF : Fld F} {FT : Fft F}.
  (** groth16.rs:62-65: the [while] loop, at most [fuel] times *)
  Fixpoint find_nonresidue (fuel : nat) (q : F) : option F :=
    if nonresidue q then Some q else match fuel with O => None | S fuel => find_nonresidue fuel (q + rone) end.
  (** groth16.rs:68-70 *)
  Fixpoint squares (n : nat) (z : F) : list F := match n with O => [z] | S n => z :: squares n (rmul z z) end.
  (** groth16.rs:60-73 [roots_of_unity] *)
  Definition roots_of_unity (fuel : nat) : option (F * list F) :=
    match find_nonresidue fuel rone with
    | Some q => Some (q, rev (squares two_adicity (fpow q trace)))
    | None => None
    end.
  (** groth16.rs:91-100 [groth16_roots_of_unity]; [None]: the loop does not end, or the index
      [roots\[pow\]] is out of bounds *)
  Definition groth16_roots_of_unity (fuel pow : nat) : option (F * F) :=
    match roots_of_unity fuel with
    | Some (q, roots) =>
        match nth_error roots pow with
        | Some g => if (two_adicity =? pow)%nat then Some (g, rmul q q)
                    else option_map (fun s => (g, s)) (nth_error roots (pow + 1))
        | None => None
        end
    | None => None
    end.

  (** ** The table of powers *)
  (** [value = current; current *= shift] (reduction.rs:53-56, 335-339) *)
  Fixpoint run_powers (cur s : F) (len : nat) : list F :=
    match len with O => [] | S len => cur :: run_powers (rmul cur s) s len end.
  (** [par_chunks_mut] of a vector of length [size], with the power of its first index in each chunk
      (reduction.rs:46-57, 331-341); [threads] is [rayon::current_num_threads()] *)
  Definition chunk_size (threads size : nat) : nat := Nat.max ((size + threads - 1) / threads) 1.
  Definition chunked_powers (threads size : nat) (s : F) : list F :=
    let cs := chunk_size threads size in
    concat (map (fun ci => run_powers (fpow s (ci * cs)) s (Nat.min cs (size - ci * cs))) (seq 0 ((size + cs - 1) / cs))).
  (** reduction.rs:45-60 [bit_reversed_coset_table] *)
  Definition bit_reversed_coset_table (threads : nat) (s : F) (k : nat) : list F :=
    bit_reverse 0 k (chunked_powers threads (2 ^ k) s).
End Roots.

(** ** Drivers (mpc.rs:25-138, trait [CircomGroth16Prover])

    [AS] is [ArithmeticShare] (a module over [F]: [DomainCoeff]); half shares are field elements and
    points in all three drivers. One value of this type is the driver of one party: [drv_adds] says
    whether it adds public half shares and points. *)
Record driver (P M F AS St G1 G2 : Type) := mkDrv {
  drv_rand : St -> prog P M (AS * St);
  drv_add_public : AS -> F -> AS;
  drv_promote : F -> AS;
  drv_local_mul_vec : list AS -> list AS -> St -> outcome (list F * St);
  drv_to_half_share : AS -> F;
  drv_adds : bool;
  drv_open_1 : G1 -> St -> prog P M (G1 * St);
  drv_open_2 : G2 -> St -> prog P M (G2 * St);
  drv_scalar_mul : G1 -> AS -> St -> prog P M (G1 * St) }.

Section Prover.
  Context {P M F AS St G1 G2 : Type} {FF : Fld F} {FT : Fft F} {AA : AbGrp AS} {MA : Mod F AS}.
  Context {AG1 : AbGrp G1} {MG1 : Mod F G1} {AG2 : AbGrp G2} {MG2 : Mod F G2}.
  Context (D : driver P M F AS St G1 G2) (fuel threads : nat).
  Infix "*" := rmul : grp_scope.
  Notation "1" := rone : grp_scope.

  (** rep3.rs:31-49, plain.rs:28-43, shamir.rs:29-47 [evaluate_constraint] *)
  Fixpoint evaluate_constraint (public_inputs : list F) (private_witness : list AS) (lhs : list (F * nat)) (acc : AS) : outcome AS :=
    match lhs with
    | [] => Done acc
    | (coeff, index) :: lhs =>
        match nth_error public_inputs index with
        | Some val => evaluate_constraint public_inputs private_witness lhs (drv_add_public D acc (val * coeff))
        | None => match nth_error private_witness (index - length public_inputs) with
                  | Some w => evaluate_constraint public_inputs private_witness lhs (acc + smul coeff w)
                  | None => Failed (Panic "index out of bounds")
                  end
        end
    end.
  (** rep3.rs:51-74, plain.rs:45-60, shamir.rs:49-68 [evaluate_constraint_half_share] *)
  Fixpoint evaluate_constraint_half (public_inputs : list F) (private_witness : list AS) (lhs : list (F * nat)) (acc : F) : outcome F :=
    match lhs with
    | [] => Done acc
    | (coeff, index) :: lhs =>
        match nth_error public_inputs index with
        | Some val => evaluate_constraint_half public_inputs private_witness lhs (if drv_adds D then acc + val * coeff else acc)
        | None => match nth_error private_witness (index - length public_inputs) with
                  | Some w => evaluate_constraint_half public_inputs private_witness lhs (acc + drv_to_half_share D w * coeff)
                  | None => Failed (Panic "index out of bounds")
                  end
        end
    end.
  (** reduction.rs:196-210 and 212-226: all rows, resized to the domain *)
  Definition evaluate_rows (size : nat) (rows : list (list (F * nat))) (pub : list F) (wit : list AS) : outcome (list AS) :=
    obd (traverse (fun row => evaluate_constraint pub wit row 0) rows) (fun r => Done (resize size 0 r)).
  Definition evaluate_rows_half (size : nat) (rows : list (list (F * nat))) (pub : list F) (wit : list AS) : outcome (list F) :=
    obd (traverse (fun row => evaluate_constraint_half pub wit row 0) rows) (fun r => Done (resize size 0 r)).
  (** reduction.rs:113-115, 268-270: the public inputs behind the rows *)
  Definition with_public (nc ni : nat) (a : list AS) (pub : list F) : list AS :=
    firstn nc a ++ map (drv_promote D) pub ++ skipn (nc + ni) a.
  (** rep3.rs:95-106, plain.rs:91-98, shamir.rs:85-96 [distribute_powers_and_mul_by_const]
      ([zip_eq]: the lengths are those of the domain) *)
  Definition distribute {V} {AV : AbGrp V} {MV : Mod F V} (coeffs : list V) (roots : list F) : list V :=
    map2 (fun c p => smul p c) coeffs roots.
  (** [ifft_in_to_out], shift, [fft_out_to_in] (reduction.rs:136-141, 144-151, 158-176, 271-273, ...) *)
  Definition shifted {V} {AV : AbGrp V} {MV : Mod F V} (g : F) (k : nat) (table : list F) (v : list V) : list V :=
    fft_out_to_in g k (distribute (ifft_in_to_out g k v) table).

  Definition degree_error : err := Eyre "Polynomial Degree too large".
  (** reduction.rs:77-193 [CircomReduction::witness_map_from_matrices] ([next_power_of_two] is
      [2 ^ log2_up]; [Domain::with_group_gen] accepts the generator of a domain of that size) *)
  Definition circom_witness_map (m : matrices F) (pub : list F) (wit : list AS) (st : St) : outcome (list F * St) :=
    let nc := num_constraints m in let ni := num_instance_variables m in
    let k := Nat.log2_up (nc + ni) in
    if (two_adicity <? k)%nat then Failed degree_error
    else match groth16_roots_of_unity fuel k with
         | None => Failed (Panic "no root of unity")
         | Some (g, shift) =>
             let table := bit_reversed_coset_table threads shift k in
             obd (evaluate_rows (2 ^ k) (mat_a m) pub wit) (fun a0 =>
             let a := with_public nc ni a0 pub in
             obd (evaluate_rows (2 ^ k) (mat_b m) pub wit) (fun b =>
             obd (drv_local_mul_vec D a b st) (fun c0 =>
             let c := shifted g k table (fst c0) in
             obd (drv_local_mul_vec D (shifted g k table a) (shifted g k table b) (snd c0)) (fun ab =>
             Done (map2 gsub (fst ab) c, snd ab)))))
         end.
  (** reduction.rs:241-343 [LibSnarkReduction::witness_map_from_matrices] *)
  Definition libsnark_witness_map (m : matrices F) (pub : list F) (wit : list AS) (st : St) : outcome (list F * St) :=
    let nc := num_constraints m in let ni := num_instance_variables m in
    let k := Nat.log2_up (nc + ni) in
    if (two_adicity <? k)%nat then Failed degree_error
    else
      let g := ark_root k in
      let table := bit_reversed_coset_table threads fgenerator k in
      obd (evaluate_rows (2 ^ k) (mat_a m) pub wit) (fun a0 =>
      let a := with_public nc ni a0 pub in
      obd (evaluate_rows (2 ^ k) (mat_b m) pub wit) (fun b =>
      obd (drv_local_mul_vec D (shifted g k table a) (shifted g k table b) st) (fun ab =>
      obd (evaluate_rows_half (2 ^ k) (mat_c m) pub wit) (fun c0 =>
      let c := shifted g k table c0 in
      let v := fpow fgenerator (2 ^ k) - 1 in
      if feqb v 0 || feqb fgenerator 0 then Failed (Panic "called `Option::unwrap()` on a `None` value")
      else
        let q := map2 (fun x y => (x - y) * finv v) (fst ab) c in
        let h := bit_reverse 0 k (ifft_in_to_out g k q) in
        Done (map2 rmul h (chunked_powers threads (2 ^ k) (finv fgenerator)), snd ab))))).

  (** groth16.rs:179-204 [calculate_coeff]; slices out of range panic *)
  Definition calculate_coeff {G} {AG : AbGrp G} {MG : Mod F G} (initial : G) (query : list G) (vk_param : G) (input : list F) (aux : list F) : outcome G :=
    match query with
    | q0 :: query' =>
        let pub_len := length input in
        if (length query' <? pub_len)%nat then Failed (Panic "range end index out of range")
        else
          let priv_acc := msm (skipn pub_len query') aux in
          let pub_acc := msm (firstn pub_len query') input in
          let add x y := if drv_adds D then x + y else x in
          Done (add (add (add initial q0) vk_param) pub_acc + priv_acc)
    | [] => Failed (Panic "range start index out of range")
    end.

  (** groth16.rs:207-338 [create_proof_with_assignment] *)
  Definition create_proof (pk : pkey G1 G2) (r s : AS) (h : list F) (pub aux : list F) (st0 st1 : St) : prog P M (proof G1 G2 * (St * St)) :=
    match pub with
    | [] => Fail (Panic "range start index 1 out of range")
    | _ :: input =>
        let rh := drv_to_half_share D r in
        let sh := drv_to_half_share D s in
        g_a <- leaf (calculate_coeff (smul rh (delta_g1 pk)) (a_query pk) (alpha_g1 pk) input aux) ;;
        g1_b <- leaf (calculate_coeff (smul sh (delta_g1 pk)) (b_g1_query pk) (beta_g1 pk) input aux) ;;
        g2_b <- leaf (calculate_coeff (smul sh (delta_g2 pk)) (b_g2_query pk) (beta_g2 pk) input aux) ;;
        let l_acc := msm (l_query pk) aux in
        let h_acc := msm (h_query pk) h in
        rs <- leaf (drv_local_mul_vec D [r] [s] st0) ;;
        match fst rs with
        | [rs1] =>
            let r_s_delta := smul rs1 (delta_g1 pk) in
            a_open <- drv_open_1 D g_a (snd rs) ;;
            r_g1_b <- drv_scalar_mul D g1_b r st1 ;;
            let g_c := smul sh (fst a_open) + fst r_g1_b - r_s_delta + l_acc + h_acc in
            c_open <- drv_open_1 D g_c (snd a_open) ;;
            b_open <- drv_open_2 D g2_b (snd r_g1_b) ;;
            Ret (mkProof (fst a_open) (fst b_open) (fst c_open), (snd c_open, snd b_open))
        | _ => Fail (Panic "called `Option::unwrap()` on a `None` value")
        end
    end.

  (** groth16.rs:125-177 [prove_inner]; [R] is the witness map *)
  Definition prove_inner (R : matrices F -> list F -> list AS -> St -> outcome (list F * St))
             (pk : pkey G1 G2) (m : matrices F) (pub : list F) (wit : list AS) (st0 st1 : St) : prog P M (proof G1 G2 * (St * St)) :=
    if negb (length pub =? num_instance_variables m)%nat then
      Fail (Eyre "amount of public inputs does not match with provided constraint system!")
    else if negb (length wit =? num_witness_variables m)%nat then
      Fail (Eyre "amount of private witness variables does not match with provided constraint system!")
    else
      h <- leaf (R m pub wit st0) ;;
      r <- drv_rand D (snd h) ;;
      s <- drv_rand D (snd r) ;;
      create_proof pk (fst r) (fst s) (fst h) pub (map (drv_to_half_share D) wit) (snd s) st1.
End Prover.
(** the two implementations of the trait [R1CSToQAP] (reduction.rs:27-36) *)
Inductive reduction := CircomReduction | LibSnarkReduction.
Section Reduction.
  Context {P M F AS St G1 G2 : Type} {FF : Fld F} {FT : Fft F} {AA : AbGrp AS} {MA : Mod F AS}.
  Definition witness_map (R : reduction) (D : driver P M F AS St G1 G2) (fuel threads : nat) :=
    match R with CircomReduction => circom_witness_map D fuel threads | LibSnarkReduction => libsnark_witness_map D threads end.
End Reduction.

(** ** The plain driver (mpc/plain.rs)

    Nothing is sent: the network type is empty.  The state is the list of the values that
    [thread_rng] delivers. *)
Section Plain.
  Context {F G1 G2 : Type} {FF : Fld F} {AG1 : AbGrp G1} {MG1 : Mod F G1}.
  Definition pop (st : list F) : prog Empty_set Empty_set (F * list F) :=
    match st with x :: st => Ret (x, st) | [] => Fail (Panic "no randomness") end.
  Definition plain_driver : driver Empty_set Empty_set F F (list F) G1 G2 :=
    mkDrv pop (fun acc c => acc + c) (fun x => x) (fun a b st => Done (map2 rmul a b, st)) (fun a => a) true
      (fun a st => Ret (a, st)) (fun a st => Ret (a, st)) (fun a b st => Ret (smul b a, st)).
  (** the outcome of a program that cannot communicate *)
  Fixpoint local {A} (p : prog Empty_set Empty_set A) : outcome A :=
    match p with Ret a => Done a | Fail e => Failed e | Send j _ _ => match j with end | Recv j _ => match j with end end.
  Context {FT : Fft F} {AG2 : AbGrp G2} {MG2 : Mod F G2}.
  (** groth16.rs:484-490 [Groth16::plain_prove], with the values [r] and [s] that [rand] returns *)
  Definition plain_prove (R : reduction) (fuel threads : nat) (pk : pkey G1 G2) (m : matrices F) (pub wit : list F) (r s : F) : outcome (proof G1 G2) :=
    obd (local (prove_inner plain_driver (witness_map R plain_driver fuel threads) pk m pub wit [r; s] [])) (fun x => Done (fst x)).
End Plain.

(** ** The three-party driver (mpc/rep3.rs) *)
Section Rep3Driver.
  Context {F G1 G2 S M : Type} {FF : Fld F} {AG1 : AbGrp G1} {MG1 : Mod F G1} {AG2 : AbGrp G2} {MG2 : Mod F G2}.
  Context {DF : Draw S F} {D1 : Draw S G1} {E1 : Enc M (list G1)} {E2 : Enc M (list G2)} (drawv : nat -> S -> list F * S).
  (** [DomainCoeff] of [Rep3PrimeFieldShare] (arithmetic/ops.rs, arithmetic/types.rs): both components *)
  #[local] Instance share_grp {G} {AG : AbGrp G} : AbGrp (share G).
  Proof.
    refine {| gzero := zero_share; gadd := shadd; gneg := shneg |}.
    - intros [] [] []. unfold shadd. cbn. f_equal; apply gadd_assoc.
    - intros [] []. unfold shadd. cbn. f_equal; apply gadd_comm.
    - intros []. unfold shadd. cbn. f_equal; apply gadd_0.
    - intros []. unfold shadd. cbn. unfold zero_share. f_equal; apply gadd_neg.
  Defined.
  #[local] Instance share_mod {G} {AG : AbGrp G} {MG : Mod F G} : Mod F (share G).
  Proof.
    refine {| smul := fun c x => mkShare (smul c (sa x)) (smul c (sb x)) |}.
    - intros r s []. cbn. unfold shadd. cbn. f_equal; apply smul_add_l.
    - intros r [] []. cbn. unfold shadd. cbn. f_equal; apply smul_add_r.
    - intros r s []. cbn. f_equal; apply smul_mul.
    - intros []. cbn. f_equal; apply smul_1.
  Defined.
  Definition rep3_driver (i : pid) : driver pid M F (share F) (rst S) G1 G2 :=
    mkDrv (fun st => Ret (rand st))
      (add_public i)
      (promote i)
      (fun a b st => match local_mul_vec drawv st a b with Some r => Done r | None => Failed (Panic "zip_eq") end)
      sa
      (match i with P0 => true | _ => false end)
      (fun a st => c <- open_half i a ;; Ret (c, st))
      (fun a st => c <- open_half i a ;; Ret (c, st))
      (* rep3.rs:152-161 [scalar_mul] *)
      (fun a b st => a_hs <- reshare i a ;;
                     let m := masking st in
                     Ret (lmul b (mkShare a a_hs) + fst m, snd m)).
  Context {FT : Fft F} {Seed : Type} {SS : Seeded S Seed} {DS : Draw S Seed} {ES : Enc M (list Seed)} {ESS : Enc M (list (Seed * Seed))}.
  (** groth16.rs:360-379 [Rep3CoGroth16::prove]; [seed] comes from the entropy source of the party *)
  Definition rep3_prove (R : reduction) (fuel threads : nat) (pk : pkey G1 G2) (m : matrices F) (i : pid) (seed : Seed) (pub : list F) (wit : list (share F))
    : prog pid M (proof G1 G2) :=
    st <- new_state i seed ;;
    let f := fork (Seed := Seed) st in
    p <- prove_inner (rep3_driver i) (witness_map R (rep3_driver i) fuel threads) pk m pub wit (snd f) (fst f) ;;
    Ret (fst p).
End Rep3Driver.

(** ** The Shamir driver (mpc/shamir.rs) *)
Section ShamirDriver.
  Context {F G1 G2 Sg M : Type} {FF : Fld F} {AG1 : AbGrp G1} {MG1 : Mod F G1} {AG2 : AbGrp G2} {MG2 : Mod F G2}.
  Context {DF : Draw Sg F} {EF : Enc M (list F)} {E1 : Enc M G1} {E1s : Enc M (list G1)} {E2 : Enc M G2} (gen : G1).
  Definition shamir_driver : driver nat M F F (sst (F := F) (Sg := Sg)) G1 G2 :=
    mkDrv (fun st => sm_rand st)
      (fun acc c => sm_add_public acc c)
      (fun c => sm_promote c)
      (fun a b st => if (length a =? length b)%nat then Done (map2 (fun x y => sm_local_mul x y) a b, st) else Failed (Panic "zip_eq"))
      (fun a => a)
      true
      (fun a st => c <- sm_open_half a st ;; Ret (c, st))
      (fun a st => c <- sm_open_half a st ;; Ret (c, st))
      (* shamir.rs:139-147 [scalar_mul] *)
      (fun a b st => x <- degree_reduce_point gen a st ;; Ret (sm_local_mul b (fst x), snd x)).
  Context {FT : Fft F} {Seed : Type} {SDS : Seeded Sg Seed} {DS : Draw Sg Seed} {ES : Enc M (list Seed)} (seed0 : Seed).
  (** groth16.rs:439-463 [ShamirCoGroth16::prove] *)
  Definition shamir_prove (R : reduction) (fuel threads : nat) (pk : pkey G1 G2) (m : matrices F) (num_parties threshold id : nat) (seed : Seed)
             (pub wit : list F) : prog nat M (proof G1 G2) :=
    st <- preprocessing_new seed0 id seed num_parties threshold 3 ;;
    f <- leaf (sm_fork 1 st) ;;
    p <- prove_inner shamir_driver (witness_map R shamir_driver fuel threads) pk m pub wit (snd f) (fst f) ;;
    Ret (fst p).
  (** groth16.rs:394-417 [Rep3CoGroth16::prove_with_shamir_bridge]; [id] is the id of the network *)
  Definition bridge_prove (R : reduction) (fuel threads : nat) (pk : pkey G1 G2) (m : matrices F) (id : nat) (seed : Seed)
             (pub : list F) (wit : list (share F)) : prog nat M (proof G1 G2) :=
    match translate_repshare_vec (F := F) (map (fun h => (sa h, sb h)) wit) id with
    | None => Fail (Eyre "not a valid party id")
    | Some translated_witness => shamir_prove R fuel threads pk m 3 1 id seed pub translated_witness
    end.
End ShamirDriver.
