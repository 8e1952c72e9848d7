(** * A circuit of UltraHonk over the field with 97 elements, for the examples; no code of /repo is modelled here *)
From Coq Require Import String List Arith ZArith Lia Bool.
From Verif Require Import Proc Alg Zp NNet Rep3 Rep3Wp ShamirPoly Shamir ShamirAlg Univariate Sumcheck SumcheckSpec HonkRelations HonkProofs Concrete ConcreteP.
Import ListNotations.
Local Open Scope grp_scope.
Local Open Scope list_scope.

(** a small number *)
Definition n97 (i : nat) : F97 := f97 (Z.of_nat i).
(** a column of eight rows; [v] in the rows [l] *)
Definition col_ (f : nat -> F97) : list F97 := map f (seq 0 8).
Definition on (l : list nat) (v : F97) (i : nat) : F97 := if existsb (Nat.eqb i) l then v else 0.
(** a gate in row 5: w1 + w2 - w3 = 0 with 2 + 3 = 5; in row 2 the first two wires hold the same value *)
Definition W1 i := on [2] (n97 5) i + on [5] (n97 2) i.
Definition W2 i := on [2] (n97 5) i + on [5] (n97 3) i.
Definition W3 i := on [5] (n97 5) i.
(** nothing; positions of wires *)
Definition no (i : nat) : F97 := 0.
Definition posn (k : nat) (i : nat) : F97 := n97 (8 * k + i).
(** the permutation: in row 2 the first two wires are swapped *)
Definition SG1 i := if Nat.eqb i 2 then posn 1 i else posn 0 i.
Definition SG2 i := if Nat.eqb i 2 then posn 0 i else posn 1 i.
(** the grand product *)
Definition Z0 i := if Nat.eqb i 0 then (0 : F97) else if Nat.ltb i 8 then n97 1 else 0.
(** the columns of the 41 entities, eight rows *)
Definition cols97 : list (list F97) := map col_
  [no; no; on [5] (n97 1); on [5] (n97 1); on [5] (f97 (-1)); no; no; on [5] (n97 1); no; no; no; no; no; no;
   SG1; SG2; posn 2; posn 3; posn 0; posn 1; posn 2; posn 3; no; no; no; no; on [0%nat] (n97 1); on [7] (n97 1);
   W1; W2; W3; no; Z0; no; no; no;
   (fun i => W1 (S i)); (fun i => W2 (S i)); (fun i => W3 (S i)); no; (fun i => Z0 (S i))].
(** parameters and challenges *)
Definition P97 : rparams (F := F97) := {| rp_eta1 := n97 3; rp_eta2 := n97 4; rp_eta3 := n97 5; rp_beta := n97 11; rp_gamma := n97 13; rp_delta := n97 1;
  rp_curve_b := n97 2; rp_d0 := n97 5; rp_d1 := n97 6; rp_d2 := n97 7; rp_d3 := n97 8; rp_limb := n97 16; rp_sublimb := n97 4 |}.
Definition al97 := map (fun i => n97 (20 + i)) (seq 0 27).
Definition be97 := [n97 21; n97 22; n97 23].
Definition ch97 (l : list (list F97)) : F97 := nth (length l) [n97 0; n97 30; n97 31; n97 32] 0.

(** ** Its properties *)
Fixpoint distinct (l : list F97) : bool := match l with [] => true | a :: l => negb (existsb (feqb a) l) && distinct l end.
Lemma distinct_nodup l : distinct l = true -> NoDup l.
Proof.
  induction l as [|a l IH]; cbn [distinct]; intros H; [constructor|]. apply andb_prop in H as [A B]. constructor; [|exact (IH B)].
  intros I. apply negb_true_iff in A. rewrite <- not_true_iff_false in A. apply A. apply existsb_exists. exists a. split; [exact I|]. apply feqb_spec. reflexivity.
Qed.
Lemma wide97 : wide (F := F97) 8.
Proof. apply distinct_nodup. vm_compute. reflexivity. Qed.
(** the columns satisfy the relations in every row *)
Definition row_ok (subs : list (sub (F := F97))) (cols : list (list F97)) (n : nat) : bool :=
  forallb (fun s => if sb_indep s then forallb (fun i => feqb (sb_prover s (row cols i)) 0) (seq 0 n)
                    else feqb (sumn n (fun i => sb_prover s (row cols i))) 0) subs.
Lemma row_ok_satisfied subs m cols : row_ok subs cols (2 ^ m) = true -> satisfied subs m cols.
Proof.
  unfold row_ok, satisfied. rewrite forallb_forall, Forall_forall. intros H s I. specialize (H s I). destruct (sb_indep s).
  - rewrite forallb_forall in H. intros i Li. apply feqb_spec. apply H. apply in_seq. lia.
  - apply feqb_spec. exact H.
Qed.
Lemma cols97_satisfied : satisfied (honk_relations P97) 3 cols97 /\ satisfied (honk_relations_full P97) 3 cols97.
Proof. split; apply row_ok_satisfied; vm_compute; reflexivity. Qed.
Lemma cols97_lengths : length cols97 = 41 /\ Forall (fun col => length col = 2 ^ 3) cols97.
Proof. split; [reflexivity|]. repeat constructor. Qed.
(** prover and verifier with these challenges: whether it accepts, and the challenges it drew *)
Definition run97 (s : list (sub (F := F97))) : option (bool * list Z) :=
  match sumcheck_prove s 7 8 ch97 3 3 be97 al97 cols97 with
  | Done (sent, evals, us) =>
      match sumcheck_verify s 8 ch97 (repeat (rone : F97) 3) be97 al97 sent evals with Done (b, us') => Some (b, map val us') | _ => None end
  | _ => None
  end.
