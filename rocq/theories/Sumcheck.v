(** * The sumcheck of UltraHonk, without zero knowledge

    Models co-noir/ultrahonk/src/decider/sumcheck/ (sumcheck_prover.rs, sumcheck_round_prover.rs,
    sumcheck_verifier.rs, sumcheck_round_verifier.rs) and [GateSeparatorPolynomial] of
    co-noir/ultrahonk/src/decider/types.rs.

    Simplifications: the relations are parameters ([sub], one record for each subrelation, in the order of
    relations/mod.rs [scale]); an accumulator of a relation is computed point by point, as all operations on
    univariates in relations/*.rs are; [AllEntities] is a list of columns; the transcript is an arbitrary function
    from the univariates sent so far to the challenge of the round, the same for prover and verifier. *)
From Coq Require Import String List Arith Lia Bool Ring.
From Verif Require Import Proc Alg NNet Rep3 ShamirPoly Shamir ShamirAlg Univariate.
Import ListNotations.
Set Implicit Arguments.
Local Open Scope grp_scope.
Local Open Scope string_scope.
Local Open Scope list_scope.

(** sequencing of results, and of a function on the elements of a list *)
Definition obind {A B} (x : outcome A) (f : A -> outcome B) : outcome B := match x with Done a => f a | Failed e => Failed e end.
Fixpoint omapM {A B} (f : A -> outcome B) (l : list A) : outcome (list B) :=
  match l with [] => Done [] | a :: l => obind (f a) (fun b => obind (omapM f l) (fun bs => Done (b :: bs))) end.
(** indexing of a vector *)
Definition at_index {A} (l : list A) (i : nat) : outcome A :=
  match nth_error l i with Some x => Done x | None => Failed (Panic "index") end.

Section Sumcheck.
  Context {F : Type} {FF : Fld F}.
  Infix "*" := rmul : grp_scope.
  Notation "1" := rone : grp_scope.

  (** relations/mod.rs:44-67: a subrelation. [sb_len]: the number of values of its accumulator;
      [sb_indep]: whether it holds in every row, and not only in the sum over all rows (the flag of
      univariate.rs:215-230); [sb_skip]: [SKIPPABLE && skip] of its relation; [sb_prover], [sb_verify]: its value on
      the entities, as computed by [accumulate] and by [verify_accumulate], before scaling. *)
  Record sub := { sb_len : nat; sb_indep : bool; sb_skip : list (list F) -> bool; sb_prover : list F -> F; sb_verify : list F -> F }.

  Variables (subs : list sub) (MAX SIZE : nat).

  (** ** types.rs: the gate separator *)
  (** types.rs:43-49 *)
  Record gates := { gs_betas : list F; gs_products : list F; gs_result : F; gs_idx : nat; gs_period : nat }.
  (** types.rs:58-68: the products, one challenge after the other; the first 2^i are there *)
  Fixpoint beta_products (betas : list F) (have : list F) : list F :=
    match betas with
    | [] => have
    | beta :: betas => beta_products betas (have ++ beta :: map (fun x => x * beta) (tl have))
    end.
  (** types.rs:53-76 [new]; the vector has 2^d entries, ones where no challenge is left *)
  Definition gates_new (betas : list F) (d : nat) : gates :=
    let products := beta_products (firstn d betas) [1] in
    {| gs_betas := betas; gs_products := products ++ repeat 1 (2 ^ d - length products); gs_result := 1; gs_idx := 0; gs_period := 2 |}.
  (** types.rs:78-90 [new_without_products] *)
  Definition gates_bare (betas : list F) : gates := {| gs_betas := betas; gs_products := []; gs_result := 1; gs_idx := 0; gs_period := 2 |}.
  (** types.rs:92-94 [current_element] *)
  Definition current_element (g : gates) : outcome F := at_index (gs_betas g) (gs_idx g).
  (** types.rs:96-102 [partially_evaluate] *)
  Definition gates_evaluate (g : gates) (u : F) : outcome gates :=
    obind (current_element g) (fun beta =>
    Done {| gs_betas := gs_betas g; gs_products := gs_products g; gs_result := gs_result g * (1 + u * (beta - 1));
            gs_idx := S (gs_idx g); gs_period := 2 * gs_period g |}).
  (** types.rs:104-112 [partially_evaluate_with_padding] *)
  Definition gates_evaluate_padded (g : gates) (u indicator : F) : outcome gates :=
    obind (current_element g) (fun beta =>
    Done {| gs_betas := gs_betas g; gs_products := gs_products g;
            gs_result := (1 - indicator) * gs_result g + indicator * gs_result g * (1 + u * (beta - 1));
            gs_idx := S (gs_idx g); gs_period := 2 * gs_period g |}).
  (** types.rs:114-120 [construct_virtual_separator] *)
  Fixpoint gates_evaluate_all (g : gates) (us : list F) : outcome gates :=
    match us with [] => Done g | u :: us => obind (gates_evaluate g u) (fun g => gates_evaluate_all g us) end.

  (** ** The prover *)
  (** sumcheck_round_prover.rs:51-61 [extend_edges] *)
  Definition extend_edges (cols : list (list F)) (e : nat) : outcome (list (list F)) :=
    omapM (fun col => obind (at_index col e) (fun a => obind (at_index col (S e)) (fun b => extend_from MAX [a; b]))) cols.
  (** univariate.rs:10-12: the values of the entities at the point [k] *)
  Definition at_point (edges : list (list F)) (k : nat) : list F := map (fun u => nth k u 0) edges.
  (** sumcheck_round_prover.rs:124-140 [accumulate_one_relation_univariates], for one subrelation *)
  Definition accumulate_sub (edges : list (list F)) (scale : F) (s : sub) (acc : list F) : list F :=
    if sb_skip s edges then acc else
    map (fun k => nth k acc 0 + (if sb_indep s then sb_prover s (at_point edges k) * scale else sb_prover s (at_point edges k))) (seq 0 (sb_len s)).
  (** sumcheck_round_prover.rs:160-222 [accumulate_relation_univariates] *)
  Fixpoint accumulate (ss : list sub) (edges : list (list F)) (scale : F) (accs : list (list F)) : list (list F) :=
    match ss, accs with s :: ss, a :: accs => accumulate_sub edges scale s a :: accumulate ss edges scale accs | _, _ => [] end.
  (** univariate.rs:215-230 [extend_and_batch_univariates], one subrelation after the other, scaled before
      (relations/mod.rs:134-145 [scale], 147-199; sumcheck_round_prover.rs:76-91, 109-122) *)
  Fixpoint batch (ss : list sub) (accs : list (list F)) (scalars : list F) (random : list F) (c : F) (result : list F) : outcome (list F) :=
    match ss, accs, scalars with
    | s :: ss, a :: accs, x :: scalars =>
        obind (extend_from SIZE (map (fun v => v * x) a)) (fun extended =>
        batch ss accs scalars random c
          (map (fun k => nth k result 0 + (if sb_indep s then nth k extended 0 * nth k random 0 * c else nth k extended 0)) (seq 0 SIZE)))
    | _, _, _ => Done result
    end.
  (** sumcheck_round_prover.rs:109-122 [batch_over_relations_univariates] *)
  Definition batch_over_relations (accs : list (list F)) (alphas : list F) (g : gates) : outcome (list F) :=
    if (S (length alphas) =? length subs)%nat then
      obind (current_element g) (fun beta =>
      obind (extend_from SIZE [1; beta]) (fun random => batch subs accs (1 :: alphas) random (gs_result g) (repeat 0 SIZE)))
    else Failed (Panic "elements.len() == NUM_SUBRELATIONS - 1").
  (** sumcheck_round_prover.rs:236: the accumulators at the start *)
  Definition zero_accs : list (list F) := map (fun s => repeat 0 (sb_len s)) subs.
  (** sumcheck_round_prover.rs:239-252: the loop over the edges *)
  Fixpoint over_edges (edges : list nat) (cols : list (list F)) (g : gates) (accs : list (list F)) : outcome (list (list F)) :=
    match edges with
    | [] => Done accs
    | l :: edges =>
        obind (extend_edges cols (2 * l)) (fun ext => obind (at_index (gs_products g) (l * gs_period g)) (fun scale =>
        over_edges edges cols g (accumulate subs ext scale accs)))
    end.
  (** sumcheck_round_prover.rs:224-255 [compute_univariate_inner]; [half] is half of the size of the round *)
  Definition compute_univariate (half : nat) (g : gates) (alphas : list F) (cols : list (list F)) : outcome (list F) :=
    obind (over_edges (seq 0 half) cols g zero_accs) (fun accs => batch_over_relations accs alphas g).
  (** sumcheck_round_prover.rs:388-421 [compute_virtual_contribution] *)
  Definition compute_virtual (g : gates) (alphas : list F) (cols : list (list F)) : outcome (list F) :=
    obind (extend_edges cols 0) (fun ext => batch_over_relations (accumulate subs ext 1 zero_accs) alphas g).

  (** sumcheck_prover.rs:20-34 [partially_evaluate_init], a column; [half] entries *)
  Definition evaluate_init (half : nat) (u : F) (col : list F) : outcome (list F) :=
    omapM (fun i => obind (at_index col (2 * i)) (fun a => obind (at_index col (S (2 * i))) (fun b => Done (a + (b - a) * u)))) (seq 0 half).
  (** sumcheck_prover.rs:44-50: the loop of [partially_evaluate_inplace]; what it reads it has not yet written *)
  Fixpoint evaluate_pairs (u : F) (col : list F) : outcome (list F) :=
    match col with
    | [] => Done []
    | [_] => Failed (Panic "index")
    | a :: b :: col => obind (evaluate_pairs u col) (fun r => Done (a + (b - a) * u :: r))
    end.
  (** sumcheck_prover.rs:36-54 [partially_evaluate_inplace], a column *)
  Definition evaluate_inplace (u : F) (col : list F) : outcome (list F) :=
    obind (evaluate_pairs u col) (fun r => Done (if (length r <? 2)%nat then r ++ [0] else r)).

  (** the transcript: the challenge after the univariates sent so far *)
  Variable chal : list (list F) -> F.
  (** the state of the prover: univariates sent, challenges, columns, gate separators *)
  Record pstate := { ps_sent : list (list F); ps_us : list F; ps_cols : list (list F); ps_gates : gates }.
  (** sumcheck_prover.rs:116-140, 145-170: a round; [next] evaluates the columns at the challenge *)
  Definition round (half : nat) (alphas : list F) (next : F -> list F -> outcome (list F)) (s : pstate) : outcome pstate :=
    obind (compute_univariate half (ps_gates s) alphas (ps_cols s)) (fun un =>
    let sent := ps_sent s ++ [un] in
    let u := chal sent in
    obind (omapM (next u) (ps_cols s)) (fun cols =>
    obind (gates_evaluate (ps_gates s) u) (fun g =>
    Done {| ps_sent := sent; ps_us := ps_us s ++ [u]; ps_cols := cols; ps_gates := g |}))).
  (** sumcheck_prover.rs:145-170: the rounds after the first; [half] of the first of them *)
  Fixpoint rounds (n : nat) (half : nat) (alphas : list F) (s : pstate) : outcome pstate :=
    match n with O => Done s | S n => obind (round half alphas evaluate_inplace s) (fun s => rounds n (half / 2) alphas s) end.
  (** sumcheck_prover.rs:177-207: a round of the extension by zero *)
  Definition virtual_round (alphas : list F) (s : pstate) : outcome pstate :=
    obind (compute_virtual (ps_gates s) alphas (ps_cols s)) (fun un =>
    let sent := ps_sent s ++ [un] in
    let u := chal sent in
    obind (gates_evaluate (ps_gates s) u) (fun g =>
    Done {| ps_sent := sent; ps_us := ps_us s ++ [u];
            ps_cols := map (fun col => match col with [] => [] | a :: t => a * (1 - u) :: t end) (ps_cols s); ps_gates := g |})).
  (** sumcheck_prover.rs:177-207: all of them *)
  Fixpoint virtual_rounds (n : nat) (alphas : list F) (s : pstate) : outcome pstate :=
    match n with O => Done s | S n => obind (virtual_round alphas s) (virtual_rounds n alphas) end.
  (** sumcheck_prover.rs:94-215 [sumcheck_prove] for a circuit of size 2^d: what is sent (univariates and
      evaluations), and the challenges *)
  Definition sumcheck_prove (d virtual_log_n : nat) (betas alphas : list F) (cols : list (list F)) : outcome (list (list F) * list F * list F) :=
    let s := {| ps_sent := []; ps_us := []; ps_cols := cols; ps_gates := gates_new betas d |} in
    obind (round (2 ^ d / 2) alphas (evaluate_init (2 ^ d / 2)) s) (fun s =>
    obind (rounds (d - 1) (2 ^ d / 2 / 2) alphas s) (fun s =>
    obind (gates_evaluate_all (gates_bare betas) (ps_us s)) (fun g =>
    obind (virtual_rounds (virtual_log_n - d) alphas {| ps_sent := ps_sent s; ps_us := ps_us s; ps_cols := ps_cols s; ps_gates := g |}) (fun s =>
    obind (omapM (fun col => at_index col 0) (ps_cols s)) (fun evals =>
    Done (ps_sent s, evals, ps_us s)))))).

  (** ** The verifier *)
  (** sumcheck_round_verifier.rs:52-65 [check_sum]: the sum that is compared with the target *)
  Definition total_sum (target : F) (un : list F) (indicator : F) : outcome F :=
    obind (at_index un 0) (fun a => obind (at_index un 1) (fun b => Done ((1 - indicator) * target + indicator * a + b))).
  (** sumcheck_verifier.rs:57-86: the rounds; [sent]: the univariates read before, [rest]: those to come *)
  Fixpoint verify_rounds (padding : list F) (sent rest : list (list F)) (target : F) (ok : bool) (g : gates) (us : list F)
    : outcome (F * bool * gates * list F) :=
    match padding with
    | [] => Done (target, ok, g, us)
    | ind :: padding =>
        match rest with
        | [] => Failed (Eyre "transcript")
        | un :: rest =>
            let u := chal (sent ++ [un]) in
            if (length un =? SIZE)%nat then
              obind (total_sum target un ind) (fun t =>
              obind (evaluate un u) (fun v =>
              obind (gates_evaluate_padded g u ind) (fun g =>
              verify_rounds padding (sent ++ [un]) rest ((1 - ind) * target + ind * v) (ok && feqb target t)%bool g (us ++ [u]))))
            else Failed (Eyre "transcript")
        end
    end.
  (** relations/mod.rs:107-131 [scale_and_batch_elements] after sumcheck_round_verifier.rs:95-152 *)
  Fixpoint batch_evaluations (ss : list sub) (scalars : list F) (row : list F) (c output : F) : F :=
    match ss, scalars with
    | s :: ss, x :: scalars => batch_evaluations ss scalars row c (output + (if sb_indep s then sb_verify s row * c else sb_verify s row) * x)
    | _, _ => output
    end.
  (** sumcheck_verifier.rs:28-134 [sumcheck_verify] without zero knowledge: whether it accepts, and the challenges *)
  Definition sumcheck_verify (padding betas alphas : list F) (univariates : list (list F)) (evals : list F) : outcome (bool * list F) :=
    obind (verify_rounds padding [] univariates 0 true (gates_bare betas) []) (fun '(target, ok, g, us) =>
    if (S (length alphas) =? length subs)%nat then
      Done ((ok && feqb (batch_evaluations subs (1 :: alphas) evals (gs_result g) 0) target)%bool, us)
    else Failed (Panic "elements.len() == NUM_SUBRELATIONS - 1")).
End Sumcheck.
