(** * Calls of the coBrillig VM by the co-noir ACVM, and the store of private shared state

    Models co-noir/co-acvm/src/solver/brillig_call_solver.rs (the call and the conversion of its results),
    co-noir/co-acvm/src/mpc/rep3.rs:318-386 and co-noir/co-acvm/src/pss_store.rs.

    Simplifications: the state of the driver of the VM is forked from that of the solver at each call, where
    the code forks once when the solver is made (rep3.rs:373-376) and keeps the VM; calls start with an empty
    call stack and with the beginning of [thread_rng]; in [brillig_call] the store of a call starts empty, where
    the code keeps one store (so that names used by two calls are not refused here); errors of a call are not
    distinguished. *)
From Coq Require Import String List Arith NArith Lia Bool Permutation.
From Verif Require Import Proc Alg Rep3Net Rep3 Rep3Spec Rep3Proofs Rep3Wp Uint Binary Conv Ring2k Ring2kWp
  VmDriver VmIdeal VmDriverWp Acvm AcvmSpec AcvmRun AcvmSim AcvmRef AcvmParties
  Brillig BrilligSpec BrilligSound BrilligTag BrilligDriver BrilligOps BrilligSim BrilligParties.
Import ListNotations.
Set Implicit Arguments.
Local Open Scope grp_scope.
Local Open Scope string_scope.
Local Open Scope list_scope.

(** ** A program with one error for all *)
(** brillig_call_solver.rs:110, 117: every error of the call ends the run; which one is left out *)
Fixpoint merr {P M A} (e : err) (q : prog P M A) : prog P M A :=
  match q with
  | Ret a => Ret a
  | Fail _ => Fail e
  | Send j m k => Send j m (merr e k)
  | Recv j k => Recv j (fun m => merr e (k m))
  end.
(** the outcome of such a program *)
Definition oerr {A} (e : err) (o : outcome A) : outcome A := match o with Done a => Done a | Failed _ => Failed e end.
Section Merr.
  Context {M A : Type} (cap : nat) (e : err).
  Let mc (c : config A) : config A := mkConfig (P := pid) (M := M) (fun i => merr e (pr c i)) (ch c).
  Lemma steps_merr n (c c' : config A) : Proc.steps all3 cap n c c' -> Proc.steps all3 cap n (mc c) (mc c').
  Proof.
    induction 1 as [c c' H1 H2|n i c c' c'' Hs Hss IH].
    - constructor; cbn; intros; [rewrite H1|rewrite H2]; reflexivity.
    - econstructor; [|exact IH]. destruct Hs as (Hm & Ho & Hs). split; [exact Hm|]. split; cbn.
      + intros j Hj. rewrite Ho by exact Hj. reflexivity.
      + destruct (pr c i) as [a|er|j m k|j k]; try contradiction; cbn.
        * destruct Hs as (H1 & H2 & H3 & H4). rewrite H2. auto.
        * destruct Hs as (m & H1 & H2 & H3). exists m. rewrite H2. auto.
  Qed.
  Lemma wpo_merr (ps : pid -> prog pid M A) Q : wpo cap ps (fun o => Q (fun i => oerr e (o i))) -> wpo cap (fun i => merr e (ps i)) Q.
  Proof.
    intros (o & (n & c & Hs & Hp & Hc) & HQ). exists (fun i => oerr e (o i)). split; [|exact HQ]. exists n, (mc c).
    split; [exact (steps_merr Hs)|]. split; [|exact Hc]. intros i Hi. cbn. rewrite (Hp i Hi). destruct (o i); reflexivity.
  Qed.
End Merr.

(** ** The code *)
(** the entries of a list at the indices [ix] *)
Definition reorder {A} (ix : list nat) (l : list A) : list A :=
  flat_map (fun k => match nth_error l k with Some x => [x] | None => [] end) ix.
(** [HashMap::get] *)
Fixpoint assoc {A} (k : list N) (l : list (list N * A)) : option A :=
  match l with [] => None | (k', x) :: l => if mem_key k k' then Some x else assoc k l end.
Section Code.
  Context {F : Type} `{FU : FieldUint F} {S Seed M : Type} (dbg : bool) (W : nat) (du : nat -> S -> N * S).
  Context {DF : Draw S F} {DS : Draw S Seed} {SD : Seeded S Seed}.
  Context {EN : Enc M (list N)} {ENN : Enc M (list (N * N))} {EF : Enc M (list F)}.
  Context {RT : isz -> Type} {RC : forall s, CRing (RT s)} {RI : forall s, @IntRing (RT s) (RC s)}
          {RD : forall s, Draw S (RT s)} {RE : forall s, Enc M (list (RT s))}.
  Notation prog := (prog pid M).
  Notation V := (bv (F := F) (RT := RT)).
  Notation p := (fu_p (F := F)).

  (** co-brillig/src/mpc/plain.rs:54-59 [into_field] *)
  Definition into_field (x : bval F) : F := match x with BF f => f | BI n _ => of_uint (n mod p) end.
  (** co-acvm/src/mpc/rep3.rs:318-328: a value of the solver as one of the VM *)
  Definition to_brillig (x : rv F) : V := match x with RPub c => BPub (BF c) | RSh s => BShr (SF s) end.
  (** co-acvm/src/mpc/rep3.rs:331-346 [from_brillig_type], co-brillig/src/mpc/rep3.rs:83-110 [into_arithmetic_share] *)
  Definition from_brillig (i : pid) (st : rst S) (v : V) : prog (rv F * rst S) :=
    match v with
    | BPub x => Ret (RPub (into_field x), st)
    | BShr (SF s) => Ret (RSh s, st)
    | BShr (@SI _ _ s x) => r <- ring_to_field (T := RT s) dbg W du i st x ;; Ret (RSh (fst r), snd r)
    end.
  (** co-acvm/src/mpc/rep3.rs:378-386 [parse_brillig_result] *)
  Fixpoint parse (i : pid) (st : rst S) (l : list V) : prog (list (rv F) * rst S) :=
    match l with
    | [] => Ret ([], st)
    | v :: l => x <- from_brillig i st v ;; xs <- parse i (snd x) l ;; Ret (fst x :: fst xs, snd xs)
    end.
  (** pss_store.rs:38-47: the entries in the order in which the loop meets them *)
  Fixpoint add_entries (i : pid) (st : rst S) (store : list (list N * list (rv F))) (l : list (list N * list V)) :
    prog (list (list N * list (rv F)) * rst S) :=
    match l with
    | [] => Ret (store, st)
    | (k, vs) :: l =>
        r <- parse i st vs ;;
        match assoc k store with
        | Some _ => Fail (Eyre "duplicate entry for shared state id")
        | None => add_entries i (snd r) (store ++ [(k, fst r)]) l
        end
    end.
  (** the order in which party [i] iterates over the entries of its [HashMap] with these keys: std's
      hash maps are seeded at random by each process *)
  Variable order : pid -> list (list N) -> list nat.
  (** pss_store.rs:32-48 [add_from_brillig] *)
  Definition add_from_brillig (i : pid) (st : rst S) (store : list (list N * list (rv F))) (l : list (list N * list V)) :=
    add_entries i st store (reorder (order i (map fst l)) l).

  Context (Y : yao (F := F) (S := S) (M := M) (RT := RT)) (trng : pid -> nat -> bty -> bval F).
  Variables (code : nat -> list (bopc F)) (fuel : nat).
  (** brillig_call_solver.rs:110, 117: the error of a failed call *)
  Definition vm_failed : err := Eyre "BrilligVmFailed".
  (** brillig_call_solver.rs:108-134: the function [n] on its calldata; rep3.rs:373-376 [init_brillig_driver] *)
  Definition brillig_call (n : nat) (i : pid) (d : dst (S := S)) (l : list (rv F)) : prog (list (rv F) * dst (S := S)) :=
    let f := fork (Seed := Seed) (fst d) in
    merr vm_failed (
      r <- party_run dbg W du Y trng (code n) fuel (map to_brillig l) (fst f, 0%nat) i ;;
      match fst r with
      | BTrap => Fail vm_failed
      | BSuccess ws ps =>
          s <- add_from_brillig i (snd f) [] ps ;;
          v <- parse i (snd s) ws ;;
          Ret (fst v, (snd v, snd d))
      end).
  (** what a call computes on clear values: the specification of Brillig programs (BrilligSpec.v) *)
  Definition clear_call (fuel' : nat) (n : nat) (l : list F) : outcome (list F) :=
    match srun (code n) fuel' (sinit (map BF l)) with
    | Some (SOk vs _) => Done (map into_field vs)
    | _ => Failed vm_failed
    end.

  (** ** The machine on tagged values *)
  Definition tparse1 (t : tb F) : outcome (tv F) :=
    match t with
    | TPub x => Done (Pub (into_field x))
    | TShr (BF x) => Done (Sh x)
    | TShr (BI n _) => if (n <? p)%N then Done (Sh (of_uint n)) else Failed undef
    | TUnk _ => Failed undef
    end.
  (** the results of a call *)
  Fixpoint tparse (l : list (tb F)) : outcome (list (tv F)) :=
    match l with [] => Done [] | t :: l => obind (tparse1 t) (fun x => omap (cons x) (tparse l)) end.
  (** the stored states *)
  Fixpoint tpss (l : list (list N * list (tb F))) : outcome (list (list N * list (tv F))) :=
    match l with [] => Done [] | (k, z) :: l => obind (tparse z) (fun x => omap (cons (k, x)) (tpss l)) end.
  (** converted without communication *)
  Definition quiet (t : tb F) : bool := match t with TShr (BI _ _) => false | _ => true end.
  (** states converted in the same way in every order *)
  Definition quiet_pss (l : list (list N * list (tb F))) : bool := forallb (fun e => forallb quiet (snd e)) l.
  Variable strict : bool.
  (** a call; [undef] where nothing is said about it: operations that [tagged_run] leaves out, integers that do
      not fit the field, and two or more stored states with shared integers *)
  Definition tcall (n : nat) (l : list (tv F)) : outcome (list (tv F)) :=
    match tagged_run (M := M) dbg strict (code n) fuel (map (fun x => match x with Pub c => (false, BF c) | Sh c => (true, BF c) end) l) with
    | Failed e => Failed e
    | Done BTrap => Failed vm_failed
    | Done (BSuccess ws ps) =>
        if negb (quiet_pss ps || (length ps <=? 1)%nat) then Failed undef
        else if negb (if list_eq_dec (list_eq_dec N.eq_dec) (nodup (list_eq_dec N.eq_dec) (map fst ps)) (map fst ps) then true else false) then Failed undef
        else obind (tpss ps) (fun _ => tparse ws)
    end.
End Code.
