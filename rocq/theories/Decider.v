(** * The decider of UltraHonk: sumcheck, then the opening of the columns (without zero knowledge)

    Models co-noir/ultrahonk/src/decider/decider_prover.rs:61-160, decider_verifier.rs:66-149 and
    decider/types.rs:122-180. Simplifications: as in Sumcheck.v (transcript a function of the univariates sent) and
    Shplemini.v (its challenges are arguments); commitments to the columns are arguments of the verifier; the result of
    the pairing check is the element that is compared with the unit. *)
From Coq Require Import String List Arith Lia Bool Ring.
From Verif Require Import Proc Alg NNet Rep3 ShamirPoly Shamir ShamirAlg Univariate Sumcheck Shplemini.
Import ListNotations.
Set Implicit Arguments.
Local Open Scope grp_scope.
Local Open Scope list_scope.

Section Decider.
  Context {F : Type} {FF : Fld F} {G : Type} {GG : AbGrp G} {MG : Mod F G}.

  (** entities.rs:661-663 [to_be_shifted]: the witness polynomials W_L..=Z_PERM, which follow the 28 precomputed ones *)
  Definition to_be_shifted {A} (fs : list A) : list A := firstn 5 (skipn 28 fs).
  (** polynomial.rs:72-79 [ShiftedPoly::to_vec] of 170-176 [shifted] (which panics on an empty polynomial) *)
  Definition shift_column (g : list F) : list F := tl g ++ [0].
  (** decider/types.rs:141-170 [from_memory_and_polynomials]: precomputed and witness columns, and the shifted ones *)
  Definition all_entities (fs : list (list F)) : list (list F) := fs ++ map shift_column (to_be_shifted fs).

  Variables (subs : list (sub (F := F))) (MAX SIZE : nat) (chal : list (list F) -> F).
  (** decider_prover.rs:139-160 [prove] with 64-95 [execute_relation_check_rounds] and 103-137 [execute_pcs_rounds]:
      the univariates, the evaluations and the opening proof *)
  Definition decider_prove (crs : list G) (log_n virtual_log_n : nat) (betas alphas : list F) (fs : list (list F)) (rho r nu z : F)
    : outcome (list (list F) * list F * opening_proof (F := F) (G := G)) :=
    obind (sumcheck_prove subs MAX SIZE chal log_n virtual_log_n betas alphas (all_entities fs)) (fun '(sent, evals, us) =>
    obind (shplemini_prove crs log_n us fs (to_be_shifted fs) rho r nu z) (fun pr => Done (sent, evals, pr))).

  Context {G2 : Type} {GG2 : AbGrp G2} {MG2 : Mod F G2} {GT : Type} {GGT : AbGrp GT} {MGT : Mod F GT}.
  (** decider_verifier.rs:66-149 [verify]: [None] if the sumcheck fails, otherwise what the pairing check compares with
      the unit; shplemini_verifier.rs:29-58: which commitments and evaluations go into the opening *)
  Definition decider_verify (e : G -> G2 -> GT) (gen : G) (g2_x g2_gen : G2) (virtual_log_n : nat) (betas alphas : list F) (fcoms : list G)
      (sent : list (list F)) (evals : list F) (rho r nu z : F) (pr : opening_proof (F := F) (G := G)) : outcome (option GT) :=
    obind (sumcheck_verify subs SIZE chal (repeat rone virtual_log_n) betas alphas sent evals) (fun '(ok, us) =>
    if ok then
      obind (shplemini_verify e gen g2_x g2_gen fcoms (to_be_shifted fcoms) (firstn (length fcoms) evals) (skipn (length fcoms) evals) us rho r nu z pr) (fun v =>
      Done (Some v))
    else Done None).
End Decider.
