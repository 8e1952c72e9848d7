(** * A lookup of zeros in the table with number 0 is accepted whatever the table holds (finding F60)

    The first table of a circuit has number 0 (co-builder/src/ultra_builder.rs:4321-4339 [get_table]: the number of tables
    so far), and the rows of the table columns behind the tables are zero (co-builder/src/keys/plain_proving_key.rs:342-373
    [construct_lookup_table_polynomials]). So these rows are entries (0, 0, 0) of the table with number 0. *)
From Coq Require Import String List Arith Lia Bool Ring.
From Verif Require Import Proc Alg NNet Rep3 ShamirPoly Shamir ShamirAlg Univariate Sumcheck SumcheckSpec HonkRelations HonkSpec HonkProofs HonkSkip Decider Oink OinkProofs OinkLookup.
Import ListNotations.
Set Implicit Arguments.
Local Open Scope grp_scope.
Local Open Scope list_scope.

Section Zero.
  Context {F : Type} {FF : Fld F}.
  Add Ring FringZero : (@cring_theory F _).
  Infix "*" := rmul : grp_scope.
  Notation "1" := rone : grp_scope.
  (** plain_proving_key.rs:360-372: one table, number 0, with the only entry (0, [a], [b]); row 1 looks up zeros in it. No other gates *)
  Definition zero_lookup (P : rparams (F := F)) (a b : F) : list (list F) :=
    repeat [0; 0] 6 ++ [[0; 1]] ++ repeat [0; 0] 16 ++ [[a; 0]; [b; 0]] ++ repeat [0; 0] 8 ++ [[0; finv (rp_gamma P * rp_gamma P)]; [0; 1]; [0; 1]].

  Theorem zero_accepted (P : rparams (F := F)) (a b : F) : rp_gamma P <> 0 -> satisfied (honk_relations P) 1 (all_entities (zero_lookup P a b)).
  Proof.
    intros N. assert (N2 : rp_gamma P * rp_gamma P <> 0).
    { intros E. apply f_1_neq_0. transitivity (finv (rp_gamma P) * rp_gamma P * (finv (rp_gamma P) * rp_gamma P)); [rewrite (finv_l _ N); ring|].
      transitivity (finv (rp_gamma P) * finv (rp_gamma P) * (rp_gamma P * rp_gamma P)); [ring|rewrite E; ring]. }
    pose proof (finv_l _ N2) as I. unfold zero_lookup. set (v := finv (rp_gamma P * rp_gamma P)) in *.
    apply honk_satisfied. split.
    - intros f If i Hi. unfold in_rows in If. cbn [In] in If. destruct i as [|[|i]]; [| |cbn in Hi; lia].
      + set (r := row _ 0). assert (R : r = repeat 0 23 ++ [a; b] ++ repeat 0 16) by reflexivity. clearbody r. subst r.
        repeat (destruct If as [<-|If]; [cbv -[cr_grp fld_ring gsub gadd gneg rmul gzero rone finv rp_gamma rp_beta rp_delta rp_eta1 rp_eta2 rp_eta3 rp_curve_b rp_limb rp_sublimb rp_d0 rp_d1 rp_d2 rp_d3]; ring|]). destruct If.
      + set (r := row _ 1). assert (R : r = repeat 0 6 ++ [1] ++ repeat 0 26 ++ [v; 1; 1] ++ repeat 0 5) by reflexivity. clearbody r. subst r.
        repeat (destruct If as [<-|If]; [cbv -[cr_grp fld_ring gsub gadd gneg rmul gzero rone finv rp_gamma rp_beta rp_delta rp_eta1 rp_eta2 rp_eta3 rp_curve_b rp_limb rp_sublimb rp_d0 rp_d1 rp_d2 rp_d3 v];
          first [ring|transitivity (v * (rp_gamma P * rp_gamma P) - 1); [ring|rewrite I; ring]]|]). destruct If.
    - change (2 ^ 1)%nat with 2. cbn [sumn].
      set (r := row _ 0). assert (R : r = repeat 0 23 ++ [a; b] ++ repeat 0 16) by reflexivity. clearbody r. subst r.
      set (r := row _ 1). assert (R : r = repeat 0 6 ++ [1] ++ repeat 0 26 ++ [v; 1; 1] ++ repeat 0 5) by reflexivity. clearbody r. subst r.
      cbv -[cr_grp fld_ring gsub gadd gneg rmul gzero rone finv rp_gamma rp_beta v]. ring.
  Qed.
  (** one row of tables, everything behind it is zero; zeros are looked up, which are not in the table *)
  Theorem zero_refuted (P : rparams (F := F)) (a b : F) : rp_gamma P <> 0 -> a <> 0 -> exists fs,
    length fs = 36 /\ (forall i, i < 2 -> cell fs 6 i = 0 \/ cell fs 6 i = 1) /\ satisfied (honk_relations P) 1 (all_entities fs) /\
    table_tuple fs 0 = [0; a; b; 0] /\ table_tuple fs 1 = [0; 0; 0; 0] /\ cell fs 6 1 = 1 /\ read_tuple fs 1 <> table_tuple fs 0.
  Proof.
    intros N Na. exists (zero_lookup P a b). split; [reflexivity|]. split; [intros i Hi; destruct i as [|[|i]]; [left; reflexivity|right; reflexivity|lia]|].
    split; [apply zero_accepted; exact N|]. do 3 (split; [reflexivity|]). intros E. injection E as _ E _. apply Na. transitivity (cell (zero_lookup P a b) 23 0); [reflexivity|]. rewrite <- E. unfold cell. cbn. ring.
  Qed.
End Zero.
