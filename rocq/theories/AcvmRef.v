(** * The co-noir ACVM: the run on the secrets computes what the plain driver computes *)
From Coq Require Import String List Arith NArith Lia Bool Ring.
From Verif Require Import Proc Alg Rep3Net Rep3 Uint Conv Ring2k Lut LutWp LutProv
  VmDriver VmIdeal VmRun Acvm AcvmSpec AcvmRun.
Import ListNotations.
Local Open Scope grp_scope.
Local Open Scope string_scope.
Local Open Scope list_scope.
Local Open Scope acvm_scope.

Lemma nth_error_ext_acvm {X} (l : list X) : forall k, (forall i, nth_error l i = nth_error k i) -> l = k.
Proof.
  induction l as [|x l IH]; intros [|y k] E; [reflexivity|specialize (E 0%nat); discriminate|specialize (E 0%nat); discriminate|].
  pose proof (E 0%nat) as E0. cbn in E0. injection E0 as ->. f_equal. apply IH. intros i. exact (E (Datatypes.S i)).
Qed.
Lemma nth_error_firstn_acvm {X} (l : list X) : forall k j, (k < j)%nat -> nth_error (firstn j l) k = nth_error l k.
Proof. induction l as [|x l IH]; intros [|k] [|j] L; try lia; cbn; [reflexivity|reflexivity|reflexivity|apply IH; lia]. Qed.
Lemma nth_error_skipn_acvm {X} (l : list X) : forall j k, nth_error (skipn j l) k = nth_error l (j + k).
Proof. induction l as [|x l IH]; intros [|j] k; cbn; [reflexivity|now destruct k|reflexivity|apply IH]. Qed.

Lemma le_of_N (a b : nat) : (N.of_nat a <= N.of_nat b)%N -> (a <= b)%nat.
Proof. lia. Qed.
Section Ref.
  Context {F : Type} `{FU : FieldUint F}.
  Notation p := (fu_p (F := F)).
  Add Ring Fr : (cring_theory (R := F)).
  Notation tv := (tv F).
  Notation tl := (tl F).
  Variable brillig : nat -> list F -> outcome (list F).
  Variable tbrillig : nat -> list tv -> outcome (list tv).
  Notation RP := (run_plain_ac brillig).
  Notation RI := (run_ideal_ac tbrillig).

  (** every call runs unconditionally, or never *)
  Definition plain_calls (ops : list (aopc F)) : Prop :=
    forall id ins outs e, In (OBrillig id ins outs e) ops -> e_mul e = [] /\ e_lin e = [].
  (** bitwise operations below the width of the field *)
  Definition narrow (ops : list (aopc F)) : Prop := forall is_and x y bits out, In (OLogic is_and x y bits out) ops -> (bits < mbs F)%nat.
  (** how the parties can fail although the plain driver does not: a table that cannot be accessed at a
      shared index, or a call whose condition is shared *)
  Variables strict tables : bool.
  Definition bad (e : err) : Prop := (tables = false /\ e = table_err) \/ (strict = false /\ e <> undef).
  (** blocks of at least three entries, with indices of at most 32 bits *)
  Definition sized (ops : list (aopc F)) : Prop :=
    forall b init, In (OMemInit b init) ops -> (3 <= length init)%nat /\ (N.of_nat (length init) <= 2 ^ 32)%N.
  Definition fine (t : tl) : Prop := tables = true -> (3 <= length (tlist t))%nat /\ (N.of_nat (length (tlist t)) <= 2 ^ 32)%N.

  Definition oref {A B} (R : A -> B -> Prop) (i : outcome A) (q : outcome B) : Prop :=
    forall v, q = Done v -> (exists vt, i = Done vt /\ R vt v) \/ (exists e, i = Failed e /\ bad e).
  Notation eqt := (fun (vt : tv) (v : F) => v = tval vt).
  Notation eqts := (fun (vt : list tv) (v : list F) => v = map tval vt).
  (** calls refine: a result on the values is the result on the tagged values *)
  Hypothesis brillig_ref : forall id l, oref eqts (tbrillig id l) (brillig id (map tval l)).
  Hypothesis brillig_def : forall id l, tbrillig id l <> Failed undef.

  Lemma ri_bind {A B} (q : acp F tv tl A) (f : A -> acp F tv tl B) : RI (abind q f) = obind (RI q) (fun v => RI (f v)).
  Proof.
    induction q as [x|e|o k IH|l k IH|x t k IH|x y t k IH|l k IH|n k IH|n l k IH]; cbn [abind run_ideal_ac obind]; auto.
    - destruct (ideal_aop o); cbn [obind]; auto.
    - destruct (ideal_read x t); cbn [obind]; auto.
    - destruct (ideal_write x y t); cbn [obind]; auto.
    - destruct (tbrillig n l); cbn [obind]; auto.
  Qed.
  Lemma oref_bind {A B C D} (R : A -> B -> Prop) (R' : C -> D -> Prop) i q (f : A -> outcome C) (g : B -> outcome D) : oref R i q ->
    (forall vt v, R vt v -> oref R' (f vt) (g v)) -> oref R' (obind i f) (obind q g).
  Proof.
    intros HH K v E. destruct q as [b|e]; cbn [obind] in E; [|discriminate]. destruct (HH b eq_refl) as [(vt & Ei & Rv)|(e & Ei & B')].
    - rewrite Ei. cbn [obind]. exact (K vt b Rv v E).
    - rewrite Ei. right. exists e. split; [reflexivity|exact B'].
  Qed.
  Lemma ref_bind {A B C D} (R : A -> B -> Prop) (R' : C -> D -> Prop) qt q f g : oref R (RI qt) (RP q) ->
    (forall vt v, R vt v -> oref R' (RI (f vt)) (RP (g v))) -> oref R' (RI (abind qt f)) (RP (abind q g)).
  Proof. intros HH K. rewrite ri_bind, run_bind. exact (oref_bind R R' _ _ _ _ HH K). Qed.
  Lemma ref_ret {A B} (R : A -> B -> Prop) a b : R a b -> oref R (RI (ARet a)) (RP (ARet b)).
  Proof. intros HH v E. apply done_eq in E. subst v. left. exists a. split; [reflexivity|exact HH]. Qed.
  Lemma ref_done {A B} (R : A -> B -> Prop) a b : R a b -> oref R (Done a) (Done b).
  Proof. intros HH v E. apply done_eq in E. subst v. left. exists a. split; [reflexivity|exact HH]. Qed.
  Lemma ref_failed {A B} (R : A -> B -> Prop) i e : oref R i (Failed e : outcome B).
  Proof. intros v E. discriminate. Qed.
  Lemma ref_fail {A B} (R : A -> B -> Prop) i e : oref R i (RP (AFail e : acp F F (list F) B)).
  Proof. intros v E. discriminate. Qed.
  Lemma tval_tag2 (a b : tv) v : tval (tag2 a b v) = v.
  Proof. unfold tag2. now destruct (tshared a || tshared b). Qed.

  Definition emap (o : aop F tv) : aop F F :=
    match o with
    | SolveMul c a b => SolveMul c (tval a) (tval b)
    | MulPub c a => MulPub c (tval a)
    | AddTo a b => AddTo (tval a) (tval b)
    | SolveLin q w acc => SolveLin q (tval w) (tval acc)
    | AddPub c a => AddPub c (tval a)
    | SolveEq q c => SolveEq (tval q) (tval c)
    | CmuxA c a b => CmuxA (tval c) (tval a) (tval b)
    | BitA is_and a b bits => BitA is_and (tval a) (tval b) bits
    end.
  Lemma mbs_le n : (n < mbs F)%nat -> (2 ^ N.of_nat n <= p)%N.
  Proof. intros L. destruct (N.lt_ge_cases p (2 ^ N.of_nat n)) as [C|C]; [|exact C]. apply ubit_len_le in C. unfold mbs in L. lia. Qed.
  Lemma is01_true (c : F) : is01 c = true -> c = rone \/ c = 0.
  Proof. unfold is01. intros E. apply orb_prop in E as [E|E]; [left|right]; apply feqb_spec; exact E. Qed.
  Lemma aop_ref (o : aop F tv) : match o with BitA _ _ _ bits => (bits < mbs F)%nat | _ => True end ->
    oref eqt (ideal_aop o) (plain_aop (emap o)).
  Proof.
    destruct o as [c a b|c a|a b|q w acc|c a|q c|c a b|is_and a b bits]; cbn [emap ideal_aop plain_aop]; intros Hb;
      try (apply ref_done; rewrite tval_tag2; ring).
    - unfold ideal_solve_eq, plain_solve_eq. destruct (feqb (tval q) 0); [apply ref_failed|]. apply ref_done. now rewrite tval_tag2.
    - unfold ideal_acmux, plain_cmux. destruct (is01 (tval c)) eqn:E; [|apply ref_failed]. destruct c as [c|c]; cbn [tval] in *.
      + rewrite E. apply ref_done. now destruct (feqb c rone).
      + apply ref_done. cbn [tval]. destruct (is01_true c E) as [->| ->].
        * rewrite (proj2 (feqb_spec rone rone) eq_refl). ring.
        * destruct (feqb 0 rone) eqn:E1; [|ring]. apply feqb_spec in E1. symmetry in E1. destruct (f_1_neq_0 E1).
    - unfold plain_bits.
      assert (L : (bits_and is_and (to_uint (tval a)) (to_uint (tval b)) bits < p)%N).
      { unfold bits_and. rewrite N.land_ones. eapply N.lt_le_trans; [apply N.mod_lt, N.pow_nonzero; lia|].
        apply mbs_le. exact Hb. }
      unfold ideal_bits. apply N.ltb_lt in L. destruct a as [a|a], b as [b|b]; cbn [tval] in *; try rewrite L;
        apply ref_done; cbn [tval]; try reflexivity; apply reduced_small; apply N.ltb_lt; exact L.
  Qed.
  Lemma op_ref {C D} (R' : C -> D -> Prop) (o : aop F tv) o' f g : match o with BitA _ _ _ bits => (bits < mbs F)%nat | _ => True end ->
    o' = emap o -> (forall vt, oref R' (RI (f vt)) (RP (g (tval vt)))) -> oref R' (RI (abind (aop1 o) f)) (RP (abind (aop1 o') g)).
  Proof.
    intros Hb -> K. apply ref_bind with (R := eqt); [|intros vt v ->; apply K]. cbn [aop1 run_ideal_ac run_plain_ac].
    intros v E. destruct (plain_aop (emap o)) as [u|e] eqn:E1; cbn [obind] in E; [|discriminate]. apply done_eq in E. subst u.
    destruct (aop_ref o Hb v E1) as [(vt & -> & ->)|(e & -> & B)]; [left; exists vt; now split|right; exists e; now split].
  Qed.

  (** ** Expressions *)
  Definition wref (wt : wmap tv) (w : wmap F) : Prop := forall k, wget k w = option_map tval (wget k wt).
  Definition mref (mt : wmap tl) (m : wmap (list F)) : Prop :=
    (forall k, wget k m = option_map tlist (wget k mt)) /\ forall k t, wget k mt = Some t -> fine t.
  Lemma wget_put_same {X} k (v : X) w : wget k (wput k v w) = Some v.
  Proof. rewrite wget_wput. now rewrite Nat.eqb_refl. Qed.
  Lemma wref_put wt w k v : wref wt w -> wref (wput k v wt) (wput k (tval v) w).
  Proof. intros HH j. rewrite !wget_wput. destruct (_ =? _)%nat; [reflexivity|apply HH]. Qed.
  Lemma mref_put mt m k v : mref mt m -> fine v -> mref (wput k v mt) (wput k (tlist v) m).
  Proof.
    intros [HH Hf] Hv. split; [intros j; rewrite !wget_wput; destruct (_ =? _)%nat; [reflexivity|apply HH]|].
    intros j t. rewrite wget_wput. destruct (_ =? _)%nat; [intros E; injection E as <-; exact Hv|apply Hf].
  Qed.
  Definition eacc (vt : list (tv * nat) * tv) : list (F * nat) * F := (map (fun e => (tval (fst e), snd e)) (fst vt), tval (snd vt)).
  Notation eqacc := (fun vt v => v = eacc vt).
  Lemma eacc_snoc l v j c : eacc (l ++ [(v, j)], c) = (fst (eacc (l, c)) ++ [(tval v, j)], tval c).
  Proof. unfold eacc. cbn [fst snd]. now rewrite map_app. Qed.
  Lemma mul_terms_ref wt w (Hw : wref wt w) l : forall acc,
    oref eqacc (RI (evaluate_mul_terms (L := tl) wt l acc)) (RP (evaluate_mul_terms (L := list F) w l (eacc acc))).
  Proof.
    induction l as [|[[c k] j] l IH]; intros acc; cbn [evaluate_mul_terms]; [apply ref_ret; reflexivity|].
    destruct (feqb c 0); [apply IH|]. rewrite (Hw k), (Hw j). destruct (wget k wt) as [x|], (wget j wt) as [y|]; cbn [option_map].
    - apply op_ref; [exact I|reflexivity|]. intros s. apply op_ref; [exact I|reflexivity|]. intros r. apply (IH (fst acc, r)).
    - apply op_ref; [exact I|reflexivity|]. intros s. change (fst (eacc acc)) with (fst (eacc (fst acc, snd acc))). rewrite <- eacc_snoc with (c := snd acc). apply IH.
    - apply op_ref; [exact I|reflexivity|]. intros s. change (fst (eacc acc)) with (fst (eacc (fst acc, snd acc))). rewrite <- eacc_snoc with (c := snd acc). apply IH.
    - apply ref_fail.
  Qed.
  Lemma linear_terms_ref wt w (Hw : wref wt w) l : forall acc,
    oref eqacc (RI (evaluate_linear_terms (L := tl) (@Pub F) wt l acc)) (RP (evaluate_linear_terms (L := list F) (fun x => x) w l (eacc acc))).
  Proof.
    induction l as [|[q k] l IH]; intros acc; cbn [evaluate_linear_terms]; [apply ref_ret; reflexivity|].
    rewrite (Hw k). destruct (wget k wt) as [x|]; cbn [option_map].
    - apply op_ref; [exact I|reflexivity|]. intros r. apply (IH (fst acc, r)).
    - change (fst (eacc acc)) with (fst (eacc (fst acc, snd acc))). change q with (tval (Pub q)) at 2. rewrite <- eacc_snoc with (c := snd acc). apply IH.
  Qed.
  Lemma simplify_ref wt w e : wref wt w ->
    oref eqacc (RI (simplify_expression (L := tl) (@Pub F) wt e)) (RP (simplify_expression (L := list F) (fun x => x) w e)).
  Proof.
    intros Hw. unfold simplify_expression. eapply ref_bind; [apply (mul_terms_ref wt w Hw (e_mul e) ([], Pub 0))|]. intros a _ ->.
    eapply ref_bind; [apply (linear_terms_ref wt w Hw)|]. intros b _ ->. apply op_ref; [exact I|reflexivity|]. intros c. apply ref_ret. reflexivity.
  Qed.
  Lemma assert_ref wt w e : wref wt w ->
    oref wref (RI (solve_assert_zero (L := tl) (@Pub F) wt e)) (RP (solve_assert_zero (L := list F) (fun x => x) w e)).
  Proof.
    intros Hw. unfold solve_assert_zero. eapply ref_bind; [apply simplify_ref; exact Hw|]. intros [l c] _ ->. unfold eacc. cbn [fst snd].
    destruct l as [|[q k] [|x l]]; cbn [map fst snd].
    - apply ref_ret. exact Hw.
    - apply op_ref; [exact I|reflexivity|]. intros v. apply ref_ret. apply wref_put. exact Hw.
    - apply ref_fail.
  Qed.
  Lemma evaluate_ref wt w e : wref wt w ->
    oref eqt (RI (evaluate_expression (L := tl) (@Pub F) wt e)) (RP (evaluate_expression (L := list F) (fun x => x) w e)).
  Proof.
    intros Hw. unfold evaluate_expression. eapply ref_bind; [apply simplify_ref; exact Hw|]. intros [l c] _ ->. unfold eacc. cbn [fst snd].
    destruct l as [|x l]; cbn [map]; [apply ref_ret; reflexivity|apply ref_fail].
  Qed.

  (** ** Memory *)
  Definition sref (st : acst tv tl) (s : acst F (list F)) : Prop := wref (a_w st) (a_w s) /\ mref (a_mem st) (a_mem s).
  Lemma value_ref wt w k : wref wt w -> oref eqt (RI (witness_to_value (F := F) (L := tl) wt k)) (RP (witness_to_value (F := F) (L := list F) w k)).
  Proof.
    intros Hw. unfold witness_to_value. rewrite (Hw k). destruct (wget k wt); cbn [option_map aopt]; [apply ref_ret; reflexivity|apply ref_fail].
  Qed.
  Notation eqtab := (fun (vt : tl) v => v = tlist vt /\ fine vt).
  Lemma block_ref e mt m k : mref mt m -> oref eqtab (RI (aopt e (wget k mt))) (RP (aopt e (wget k m))).
  Proof.
    intros [Hm Hf]. rewrite (Hm k). destruct (wget k mt) as [t|] eqn:E; cbn [option_map aopt]; [apply ref_ret; split; [reflexivity|exact (Hf k t E)]|apply ref_fail].
  Qed.
  Lemma all_ref wt w init : wref wt w ->
    fold_right (fun i o => match wget i w, o with Some v, Some l => Some (v :: l) | _, _ => None end) (Some []) init =
    option_map (map tval) (fold_right (fun i o => match wget i wt, o with Some v, Some l => Some (v :: l) | _, _ => None end) (Some []) init).
  Proof.
    intros Hw. induction init as [|k init IH]; cbn [fold_right]; [reflexivity|]. rewrite IH, (Hw k). clear IH.
    destruct (wget k wt); cbn [option_map]; [|reflexivity].
    match goal with |- context [option_map (map tval) ?z] => destruct z end; reflexivity.
  Qed.
  Lemma all_length (wt : wmap tv) init : forall vs,
    fold_right (fun i o => match wget i wt, o with Some v, Some l => Some (v :: l) | _, _ => None end) (Some []) init = Some vs -> length vs = length init.
  Proof.
    induction init as [|k init IH]; cbn [fold_right]; intros vs E; [injection E as <-; reflexivity|].
    destruct (wget k wt); [|discriminate]. destruct (fold_right _ (Some []) init) as [l|]; [|discriminate]. injection E as <-. cbn [length]. now rewrite (IH l eq_refl).
  Qed.
  Lemma init_ref st s b init : sref st s -> (tables = true -> (3 <= length init)%nat /\ (N.of_nat (length init) <= 2 ^ 32)%N) ->
    oref sref (RI (solve_memory_init_block (F := F) st b init)) (RP (solve_memory_init_block (F := F) s b init)).
  Proof.
    intros [Hw Hm] Hl. unfold solve_memory_init_block. rewrite (proj1 Hm b). destruct (wget b (a_mem st)); cbn [option_map]; [apply ref_fail|].
    rewrite (all_ref _ _ init Hw). pose proof (all_length (a_w st) init) as Ln. destruct (fold_right _ (Some []) init) as [vs|]; cbn [option_map aopt abind]; [|apply ref_fail].
    cbn [run_ideal_ac run_plain_ac]. apply ref_done. split; [exact Hw|]. cbn [a_mem].
    assert (Et : tlist (ideal_init vs) = map tval vs) by (unfold ideal_init; now destruct (existsb tshared vs)).
    rewrite <- Et. apply mref_put; [exact Hm|]. unfold fine. rewrite Et, map_length, (Ln vs eq_refl). exact Hl.
  Qed.
  Lemma in_range (x : F) j n k : field_to_usize x = Some j -> (j < n)%nat -> (lut_bits n <= k)%nat -> N.to_nat (to_uint x mod 2 ^ N.of_nat k) = j.
  Proof.
    unfold field_to_usize. intros E Hj Hk. destruct (to_uint x <? 2 ^ 64)%N; [|discriminate]. injection E as E.
    rewrite N.mod_small; [exact E|]. pose proof (lut_bits_ge n) as G.
    assert (Hp : (2 ^ lut_bits n <= 2 ^ k)%nat) by (apply Nat.pow_le_mono_r; lia).
    assert (Hq : N.of_nat (2 ^ k) = (2 ^ N.of_nat k)%N) by (rewrite Nat2N.inj_pow; reflexivity). lia.
  Qed.
  Lemma make_even_ge k : (k <= make_even k)%nat.
  Proof. unfold make_even. destruct (Nat.odd k); lia. Qed.
  Lemma nth_error_nth' {X} (l : list X) j v d : nth_error l j = Some v -> nth j l d = v.
  Proof. revert j. induction l as [|x l IH]; intros [|j] E; try discriminate; cbn in *; [congruence|now apply IH]. Qed.
  Lemma small_bits n k : (N.of_nat n <= 2 ^ N.of_nat k)%N -> (lut_bits n <= k)%nat.
  Proof. intros L. apply lut_bits_le. apply le_of_N. rewrite Nat2N.inj_pow. exact L. Qed.
  (** only then a table cannot be accessed at a shared index *)
  Lemma fine_tab (t : tl) n : fine t -> (n <= 2)%nat -> (length (tlist t) <=? n)%nat || (32 <? lut_bits (length (tlist t)))%nat = true -> tables = false.
  Proof.
    intros Hf Hn E. apply not_true_is_false. intros Et. destruct (Hf Et) as [H1 H2]. pose proof (small_bits _ 32 H2) as H3.
    apply orb_prop in E. rewrite Nat.leb_le, Nat.ltb_lt in E. lia.
  Qed.
  Lemma read_ref a (t : tl) : fine t -> oref eqt (ideal_read a t) (plain_get (tval a) (tlist t)).
  Proof.
    intros Hfine v E. unfold plain_get in E. destruct (field_to_usize (tval a)) as [j|] eqn:Ej; [|discriminate]. destruct (nth_error (tlist t) j) as [u|] eqn:En; [|discriminate].
    apply done_eq in E. subst u. assert (Hj : (j < length (tlist t))%nat) by (apply nth_error_Some; congruence).
    destruct a as [x|x], t as [l|l]; cbn [tval tlist ideal_read] in *; unfold plain_get; rewrite ?Ej, ?En; cbn [omap obind].
    - left. eexists. split; reflexivity.
    - left. eexists. split; reflexivity.
    - destruct (_ || _) eqn:Eb; [right; eexists; split; [reflexivity|left; split; [exact (fine_tab (TPub l) 2 Hfine (le_n 2) Eb)|reflexivity]]|]. left. eexists. split; [reflexivity|]. cbn [tval].
      rewrite (in_range x j (length l)); [symmetry; now apply nth_error_nth'|exact Ej|exact Hj|apply make_even_ge].
    - destruct (_ || _) eqn:Eb; [right; eexists; split; [reflexivity|left; split; [exact (fine_tab (TSh l) 1 Hfine (le_S _ _ (le_n 1)) Eb)|reflexivity]]|]. left. eexists. split; [reflexivity|]. cbn [tval].
      rewrite (in_range x j (length l)); [symmetry; now apply nth_error_nth'|exact Ej|exact Hj|lia].
  Qed.
  Lemma lupd_eq (v : F) l : forall j, (j < length l)%nat -> lupd j v l = firstn j l ++ v :: skipn (Datatypes.S j) l.
  Proof.
    intros j Hj. apply nth_error_ext_acvm. intros k. rewrite lupd_nth. destruct (Nat.lt_trichotomy k j) as [C|[C|C]].
    - rewrite nth_error_app1 by (rewrite firstn_length; lia). rewrite nth_error_firstn_acvm by exact C. destruct (nth_error l k); [|reflexivity].
      rewrite (proj2 (Nat.eqb_neq k j)) by lia. reflexivity.
    - subst k. rewrite nth_error_app2 by (rewrite firstn_length; lia). rewrite firstn_length. replace (j - Nat.min j (length l))%nat with 0%nat by lia.
      rewrite Nat.eqb_refl. destruct (nth_error l j) eqn:E; [reflexivity|]. apply nth_error_None in E. lia.
    - rewrite nth_error_app2 by (rewrite firstn_length; lia). rewrite firstn_length. replace (k - Nat.min j (length l))%nat with (Datatypes.S (k - Datatypes.S j)) by lia.
      cbn [nth_error]. rewrite nth_error_skipn_acvm. replace (Datatypes.S j + (k - Datatypes.S j))%nat with k by lia.
      rewrite (proj2 (Nat.eqb_neq k j)) by lia. now destruct (nth_error l k).
  Qed.
  Lemma write_length j (v : F) l : (j < length l)%nat -> length (firstn j l ++ v :: skipn (Datatypes.S j) l) = length l.
  Proof. intros L. rewrite app_length. cbn [length]. rewrite firstn_length, skipn_length. lia. Qed.
  Lemma write_ref a b (t : tl) : fine t -> oref eqtab (ideal_write a b t) (plain_write (tval a) (tval b) (tlist t)).
  Proof.
    intros Hfine v E. unfold plain_write in E. destruct (field_to_usize (tval a)) as [j|] eqn:Ej; [|discriminate]. destruct (Nat.ltb_spec j (length (tlist t))) as [C|C]; [|discriminate].
    apply done_eq in E. subst v. destruct a as [x|x]; cbn [tval ideal_write] in *.
    - unfold plain_write. rewrite Ej. pose proof (write_length j (tval b) (tlist t) C) as Lw. apply Nat.ltb_lt in C. rewrite C. cbn [omap obind]. left. eexists. split; [reflexivity|].
      unfold fine in *. destruct b, t; cbn [tlist tval] in *; rewrite Lw; (split; [reflexivity|exact Hfine]).
    - destruct (_ || _) eqn:Eb; [right; eexists; split; [reflexivity|left; split; [exact (fine_tab t 1 Hfine (le_S _ _ (le_n 1)) Eb)|reflexivity]]|]. left. eexists. split; [reflexivity|].
      rewrite (in_range x j (length (tlist t))); [|exact Ej|exact C|lia]. rewrite lupd_eq by exact C. split; [reflexivity|].
      unfold fine in *. cbn [tlist]. rewrite write_length by exact C. exact Hfine.
  Qed.
  Lemma memop_ref st s b write index value : sref st s ->
    oref sref (RI (solve_memory_op (F := F) st b write index value)) (RP (solve_memory_op (F := F) s b write index value)).
  Proof.
    intros [Hw Hm]. unfold solve_memory_op. eapply ref_bind; [apply value_ref; exact Hw|]. intros x _ ->. destruct write.
    - eapply ref_bind; [apply value_ref; exact Hw|]. intros y _ ->. eapply ref_bind; [apply block_ref; exact Hm|]. intros t _ [-> Hfine]. cbn [run_ideal_ac run_plain_ac].
      eapply oref_bind; [apply write_ref; exact Hfine|]. intros t' _ [-> Hfine']. apply ref_done. split; [exact Hw|]. apply mref_put; [exact Hm|exact Hfine'].
    - eapply ref_bind; [apply block_ref; exact Hm|]. intros t _ [-> Hfine]. cbn [run_ideal_ac run_plain_ac].
      eapply oref_bind; [apply read_ref; exact Hfine|]. intros v _ ->. apply ref_done. split; [|exact Hm]. apply wref_put. exact Hw.
  Qed.

  (** ** Black boxes *)
  Lemma input_ref wt w x : wref wt w -> oref eqt (RI (input_to_value (L := tl) (@Pub F) wt x)) (RP (input_to_value (L := list F) (fun x => x) w x)).
  Proof. intros Hw. destruct x as [k|c]; cbn [input_to_value]; [apply value_ref; exact Hw|apply ref_ret; reflexivity]. Qed.
  Lemma insert_ref wt w k v : wref wt w -> oref wref (RI (insert_value (L := tl) (@tpub F) k v wt)) (RP (insert_value (L := list F) (@Some F) k (tval v) w)).
  Proof.
    intros Hw. unfold insert_value. rewrite (Hw k). destruct (wget k wt) as [x|]; cbn [option_map]; [|apply ref_ret, wref_put; exact Hw].
    destruct (feqb (tval x) (tval v)) eqn:E; [|apply ref_fail]. destruct x as [x|x], v as [v|v]; cbn [tpub tval] in *; try rewrite E; apply ref_ret, (wref_put _ _ _ (Pub v)) || apply ref_ret, (wref_put _ _ _ (Sh v)); exact Hw.
  Qed.
  Lemma check_ref e v bits : oref (fun _ _ : unit => True) (RI (check_bits (L := tl) (@tpub F) e v bits)) (RP (check_bits (L := list F) (@Some F) e (tval v) bits)).
  Proof.
    unfold check_bits. destruct (num_bits (tval v) <=? bits)%nat eqn:E; [|apply ref_fail]. destruct v as [v|v]; cbn [tpub tval] in *; rewrite ?E; apply ref_ret; exact I.
  Qed.
  Lemma logic_ref is_and wt w x y bits out : (bits < mbs F)%nat -> wref wt w ->
    oref wref (RI (solve_logic (L := tl) (@Pub F) (@tpub F) is_and wt x y bits out)) (RP (solve_logic (L := list F) (fun x => x) (@Some F) is_and w x y bits out)).
  Proof.
    intros Hb Hw. unfold solve_logic. eapply ref_bind; [apply input_ref; exact Hw|]. intros a _ ->. eapply ref_bind; [apply input_ref; exact Hw|]. intros b _ ->.
    eapply ref_bind; [apply check_ref|]. intros _ _ _. eapply ref_bind; [apply check_ref|]. intros _ _ _.
    apply op_ref; [exact Hb|reflexivity|]. intros v. apply insert_ref. exact Hw.
  Qed.

  (** ** Calls *)
  Lemma eval_all_ref wt w l : wref wt w -> oref eqts (RI (eval_all (L := tl) (@Pub F) wt l)) (RP (eval_all (L := list F) (fun x => x) w l)).
  Proof.
    intros Hw. induction l as [|e l IH]; cbn [eval_all]; [apply ref_ret; reflexivity|].
    eapply ref_bind; [apply evaluate_ref; exact Hw|]. intros a _ ->. eapply ref_bind; [exact IH|]. intros b _ ->. apply ref_ret. reflexivity.
  Qed.
  Lemma calldata_ref wt w l : wref wt w -> oref eqts (RI (calldata (L := tl) (@Pub F) wt l)) (RP (calldata (L := list F) (fun x => x) w l)).
  Proof.
    intros Hw. induction l as [|[es|] l IH]; cbn [calldata]; [apply ref_ret; reflexivity| |apply ref_fail].
    eapply ref_bind; [apply eval_all_ref; exact Hw|]. intros a _ ->. eapply ref_bind; [exact IH|]. intros b _ ->. apply ref_ret. now rewrite map_app.
  Qed.
  Lemma fill_ref outs : forall rt wt w, wref wt w ->
    oref wref (RI (fill_output (F := F) (L := tl) rt outs wt)) (RP (fill_output (F := F) (L := list F) (map tval rt) outs w)).
  Proof.
    intros rt. revert outs. induction rt as [|v rt IH]; intros [|k outs] wt w Hw; cbn [fill_output map].
    - apply ref_ret. exact Hw.
    - apply ref_fail.
    - apply ref_ret. exact Hw.
    - apply IH. apply wref_put. exact Hw.
  Qed.
  Lemma mask_all_ref c l : oref eqts (RI (mask_all (F := F) (L := tl) c l)) (RP (mask_all (F := F) (L := list F) (tval c) (map (fun e => (tval (fst e), tval (snd e))) l))).
  Proof.
    induction l as [|[x z] l IH]; cbn [mask_all map fst snd]; [apply ref_ret; reflexivity|].
    apply op_ref; [exact I|reflexivity|]. intros v. eapply ref_bind; [exact IH|]. intros vs _ ->. apply ref_ret. reflexivity.
  Qed.
  (** a shared condition *)
  Lemma mask_shared c (res : list tv) : exists l, RI (mask_brillig_result (F := F) (L := tl) (Sh c) res) = Done l /\ map tval l = map (fun v => rmul c (tval v)) res.
  Proof.
    unfold mask_brillig_result. cbn [run_ideal_ac].
    induction res as [|v res IH]; [exists []; split; reflexivity|]. destruct IH as (l & E & El).
    cbn [length repeat List.combine mask_all]. eexists. split.
    - rewrite ri_bind. cbn [aop1 run_ideal_ac ideal_aop ideal_acmux obind]. rewrite ri_bind, E. cbn [obind run_ideal_ac]. reflexivity.
    - cbn [map tval]. rewrite El. f_equal. ring.
  Qed.
  (** nothing unspecified in the evaluation of expressions *)
  Lemma nu_bind {A B} (q : acp F tv tl A) (f : A -> acp F tv tl B) : RI q <> Failed undef -> (forall v, RI (f v) <> Failed undef) -> RI (abind q f) <> Failed undef.
  Proof. intros HH K. rewrite ri_bind. destruct (RI q) as [v|e]; cbn [obind]; [apply K|]. intros C. apply HH. congruence. Qed.
  Lemma nu_op {B} (o : aop F tv) (f : tv -> acp F tv tl B) : match o with BitA _ _ _ _ => False | _ => True end ->
    (forall v, RI (f v) <> Failed undef) -> RI (abind (aop1 o) f) <> Failed undef.
  Proof.
    intros Ho K. apply nu_bind; [|exact K]. cbn [aop1 run_ideal_ac]. destruct o; try contradiction; cbn [ideal_aop obind]; try discriminate.
    - unfold ideal_solve_eq. destruct (feqb _ 0); cbn [obind]; discriminate.
    - unfold ideal_acmux. destruct c; [destruct (is01 _)|]; cbn [obind]; discriminate.
  Qed.
  Lemma nu_mul wt l : forall acc, RI (evaluate_mul_terms (L := tl) wt l acc) <> Failed undef.
  Proof.
    induction l as [|[[c k] j] l IH]; intros acc; cbn [evaluate_mul_terms]; [discriminate|]. destruct (feqb c 0); [apply IH|].
    destruct (wget k wt), (wget j wt); try discriminate; repeat (apply nu_op; [exact I|intros ?]); apply IH.
  Qed.
  Lemma nu_lin wt l : forall acc, RI (evaluate_linear_terms (L := tl) (@Pub F) wt l acc) <> Failed undef.
  Proof.
    induction l as [|[q k] l IH]; intros acc; cbn [evaluate_linear_terms]; [discriminate|]. destruct (wget k wt); [apply nu_op; [exact I|intros ?]|]; apply IH.
  Qed.
  Lemma nu_eval wt e : RI (evaluate_expression (L := tl) (@Pub F) wt e) <> Failed undef.
  Proof.
    unfold evaluate_expression, simplify_expression. apply nu_bind; [apply nu_bind; [apply nu_mul|intros a; apply nu_bind; [apply nu_lin|intros b; apply nu_op; [exact I|intros c; discriminate]]]|].
    intros [[|? ?] c]; discriminate.
  Qed.
  Lemma nu_eval_all wt l : RI (eval_all (L := tl) (@Pub F) wt l) <> Failed undef.
  Proof. induction l as [|e l IH]; cbn [eval_all]; [discriminate|]. apply nu_bind; [apply nu_eval|intros a]. apply nu_bind; [exact IH|intros b; discriminate]. Qed.
  Lemma nu_calldata wt l : RI (calldata (L := tl) (@Pub F) wt l) <> Failed undef.
  Proof.
    induction l as [|[es|] l IH]; cbn [calldata]; [discriminate| |discriminate]. apply nu_bind; [apply nu_eval_all|intros a]. apply nu_bind; [exact IH|intros b; discriminate].
  Qed.
  (** outputs of a call that was not taken *)
  Lemma fill_zero outs : forall rt wt w, Forall (fun v => tval v = 0) rt -> wref wt w -> strict = false ->
    oref wref (RI (fill_output (F := F) (L := tl) rt outs wt)) (RP (fill_output (F := F) (L := list F) (map (fun _ => 0) outs) outs w)).
  Proof.
    intros rt wt w Hz Hw Hs. revert outs wt w Hw. induction rt as [|v rt IH]; intros [|k outs] wt w Hw; cbn [fill_output map].
    - apply ref_ret. exact Hw.
    - intros u E. right. eexists. split; [reflexivity|]. right. split; [exact Hs|discriminate].
    - apply ref_ret. exact Hw.
    - apply Forall_inv in Hz as Hv. apply Forall_inv_tail in Hz. rewrite <- Hv at 1. apply (IH Hz). apply wref_put. exact Hw.
  Qed.
  Lemma brillig_call_ref wt w id ins outs e : (strict = true -> e_mul e = [] /\ e_lin e = []) -> wref wt w ->
    oref wref (RI (brillig_call (L := tl) (@Pub F) (@tpub F) wt id ins outs e)) (RP (brillig_call (L := list F) (fun x => x) (@Some F) w id ins outs e)).
  Proof.
    intros Hs Hw. unfold brillig_call. cbv zeta.
    assert (Hp : strict = true -> forall c, RI (evaluate_expression (L := tl) (@Pub F) wt e) = Done c -> exists y, c = Pub y).
    { intros Es c Ec. destruct (Hs Es) as [E1 E2]. unfold evaluate_expression, simplify_expression in Ec. rewrite E1, E2 in Ec.
      cbn [evaluate_mul_terms evaluate_linear_terms abind aop1 run_ideal_ac ideal_aop obind fst snd] in Ec. apply done_eq in Ec. subst c. eexists. reflexivity. }
    intros v Ev. rewrite run_bind in Ev. rewrite ri_bind. destruct (RP (evaluate_expression (fun x => x) w e)) as [cp|] eqn:Ec; [|discriminate].
    destruct (evaluate_ref wt w e Hw cp Ec) as [(c & Ei & ->)|(e0 & Ei & B)]; rewrite Ei; cbn [obind] in *; [|right; exists e0; split; [reflexivity|exact B]].
    specialize (Hp). revert v Ev.
    match goal with |- forall v, ?P = Done v -> (exists vt, ?I = Done vt /\ wref vt v) \/ _ => change (oref wref I P) end.
    destruct c as [y|y]; cbn [tpub tval].
    - destruct (feqb y 0).
      + pose proof (fill_ref outs (map (fun _ : nat => Pub 0) outs) wt w Hw) as Z. rewrite map_map in Z. exact Z.
      + eapply ref_bind; [apply calldata_ref; exact Hw|]. intros args _ ->. cbn [run_ideal_ac run_plain_ac].
        eapply oref_bind; [apply brillig_ref|]. intros res _ ->.
        eapply ref_bind with (R := eqts); [|intros r _ ->; apply fill_ref; exact Hw].
        destruct (feqb y rone); [apply ref_ret; reflexivity|]. unfold mask_brillig_result. cbn [run_ideal_ac run_plain_ac].
        pose proof (mask_all_ref (Pub y) (List.combine res (repeat (Sh 0) (length res)))) as M.
        replace (List.combine (map tval res) (repeat 0 (length (map tval res)))) with (map (fun e : tv * tv => (tval (fst e), tval (snd e))) (List.combine res (repeat (Sh 0) (length res)))); [exact M|].
        clear. induction res as [|v res IH]; cbn [length repeat List.combine map fst snd tval]; [reflexivity|]. rewrite IH. reflexivity.
    - assert (Hn : strict = false) by (destruct strict; [destruct (Hp eq_refl _ Ei) as [z Ez]; discriminate|reflexivity]).
      destruct (feqb y 0) eqn:E0.
      + apply feqb_spec in E0. subst y. intros v Ev. rewrite ri_bind. destruct (RI (calldata (@Pub F) wt ins)) as [args|e1] eqn:Ea; cbn [obind run_ideal_ac].
        2:{ right. exists e1. split; [reflexivity|]. right. split; [exact Hn|]. intros C. apply (nu_calldata wt ins). congruence. }
        destruct (tbrillig id args) as [res|e1] eqn:Eb; cbn [obind].
        2:{ right. exists e1. split; [reflexivity|]. right. split; [exact Hn|]. intros C. apply (brillig_def id args). congruence. }
        rewrite ri_bind. destruct (mask_shared 0 res) as (l & -> & El). cbn [obind].
        refine (fill_zero outs l wt w _ Hw Hn v Ev). apply Forall_forall. intros x Hx. apply (in_map tval) in Hx. rewrite El in Hx.
        apply in_map_iff in Hx as (z & <- & _). ring.
      + eapply ref_bind; [apply calldata_ref; exact Hw|]. intros args _ ->. cbn [run_ideal_ac run_plain_ac].
        eapply oref_bind; [apply brillig_ref|]. intros res _ ->.
        eapply ref_bind with (R := eqts); [|intros r _ ->; apply fill_ref; exact Hw].
        destruct (feqb y rone) eqn:E1.
        * apply feqb_spec in E1. subst y. destruct (mask_shared rone res) as (l & -> & El). apply ref_done. rewrite El. apply map_ext. intros x. ring.
        * unfold mask_brillig_result. cbn [run_ideal_ac run_plain_ac].
          pose proof (mask_all_ref (Sh y) (List.combine res (repeat (Sh 0) (length res)))) as M.
          replace (List.combine (map tval res) (repeat 0 (length (map tval res)))) with (map (fun e : tv * tv => (tval (fst e), tval (snd e))) (List.combine res (repeat (Sh 0) (length res)))); [exact M|].
          clear. induction res as [|v res IH]; cbn [length repeat List.combine map fst snd tval]; [reflexivity|]. rewrite IH. reflexivity.
  Qed.

  (** ** The solver *)
  Lemma guard_ref wt w xs : wref wt w -> oref (fun _ _ : unit => True) (RI (guard (F := F) (L := tl) wt xs)) (RP (guard (F := F) (L := list F) w xs)).
  Proof.
    intros Hw. unfold guard. replace (forallb (assigned w) xs) with (forallb (assigned (F := F) wt) xs).
    - destruct (forallb _ xs); [apply ref_ret; exact I|apply ref_fail].
    - induction xs as [|[k|c] xs IH]; cbn [forallb assigned]; [reflexivity| |exact IH]. rewrite IH, (Hw k). now destruct (wget k wt).
  Qed.
  Lemma step_ref st s o : sref st s -> narrow [o] -> (strict = true -> plain_calls [o]) -> (tables = true -> sized [o]) ->
    oref sref (RI (step (@Pub F) (@tpub F) st o)) (RP (step (fun x => x) (@Some F) s o)).
  Proof.
    intros Hs Hn Hc Ht. pose proof Hs as [Hw Hm].
    assert (Keep : forall qt q, oref wref (RI qt) (RP q) -> oref sref (RI (w <~ qt; ARet (mkA w (a_mem st)))) (RP (w <~ q; ARet (mkA w (a_mem s))))).
    { intros qt q Hq. eapply ref_bind; [exact Hq|]. intros a b Hab. apply ref_ret. split; [exact Hab|exact Hm]. }
    destruct o as [e|b init|b write index value|x bits|is_and x y bits out|id inputs outs predicate|xs|]; cbn [step].
    - apply Keep, assert_ref; exact Hw.
    - apply init_ref; [exact Hs|]. intros E. apply (Ht E b init). now left.
    - apply memop_ref; exact Hs.
    - eapply ref_bind; [apply guard_ref; exact Hw|]. intros _ _ _. eapply ref_bind with (R := fun _ _ => True); [|intros _ _ _; apply ref_ret; exact Hs].
      unfold solve_range. eapply ref_bind; [apply input_ref; exact Hw|]. intros a _ ->. apply check_ref.
    - eapply ref_bind; [apply guard_ref; exact Hw|]. intros _ _ _. apply Keep, logic_ref; [apply (Hn is_and x y bits out); now left|exact Hw].
    - apply Keep, brillig_call_ref; [|exact Hw]. intros E. apply (Hc E id inputs outs predicate). now left.
    - eapply ref_bind; [apply guard_ref; exact Hw|]. intros _ _ _. apply ref_ret. exact Hs.
    - apply ref_fail.
  Qed.
  Lemma steps_ref ops : forall st s, sref st s -> narrow ops -> (strict = true -> plain_calls ops) -> (tables = true -> sized ops) ->
    oref sref (RI (steps (@Pub F) (@tpub F) st ops)) (RP (steps (fun x => x) (@Some F) s ops)).
  Proof.
    induction ops as [|o ops IH]; intros st s Hs Hn Hc Ht; cbn [steps]; [apply ref_ret; exact Hs|].
    eapply ref_bind; [apply step_ref; [exact Hs| | |]|].
    - intros is_and x y bits out Hi. apply (Hn is_and x y bits out). destruct Hi as [Hi|[]]. now left.
    - intros E id ins outs e Hi. apply (Hc E id ins outs e). destruct Hi as [Hi|[]]. now left.
    - intros E b init Hi. apply (Ht E b init). destruct Hi as [Hi|[]]. now left.
    - intros a b Hab. apply IH; [exact Hab| | |].
      + intros is_and x y bits out Hi. apply (Hn is_and x y bits out). now right.
      + intros E id ins outs e Hi. apply (Hc E id ins outs e). now right.
      + intros E b' init Hi. apply (Ht E b' init). now right.
  Qed.
  Lemma filter_rev' {X} (f : X -> bool) l : filter f (rev l) = rev (filter f l).
  Proof.
    induction l as [|x l IH]; [reflexivity|]. cbn [rev filter]. rewrite filter_app, IH. cbn [filter]. destruct (f x); cbn [rev]; [reflexivity|apply app_nil_r].
  Qed.
  Notation sh := (shv (@tpub F)).
  Lemma gather_ideal wt rets f : (forall i, In i rets -> wget i wt = Some (f i)) ->
    RI (gather (F := F) (L := tl) (@tpub F) wt rets) = Done (filter sh (map f rets)).
  Proof.
    induction rets as [|k rets IH]; intros HH; cbn [gather map filter]; [reflexivity|]. rewrite (HH k) by now left. cbn [aopt abind].
    rewrite ri_bind, IH by (intros i Hi; apply HH; now right). cbn [obind run_ideal_ac]. now destruct (sh (f k)).
  Qed.
  Lemma take_ideal rets f : forall wt w res, NoDup rets -> (forall i, In i rets -> wget i wt = Some (f i)) -> wref wt w ->
    exists wt', RI (take_opened (L := tl) (@Pub F) (@tpub F) wt rets (map tval (filter sh (map f rets))) res) = Done (wt', res ++ map (fun i => Pub (tval (f i))) rets) /\ wref wt' w.
  Proof.
    induction rets as [|k rets IH]; intros wt w res ND HH Hw; cbn [take_opened map filter].
    - exists wt. rewrite app_nil_r. split; [reflexivity|exact Hw].
    - apply NoDup_cons_iff in ND as [Nk ND]. pose proof (HH k (or_introl eq_refl)) as Ek. rewrite Ek. cbn [aopt abind].
      destruct (sh (f k)) eqn:Es; cbn [map].
      + destruct (IH (wput k (Pub (tval (f k))) wt) w (res ++ [Pub (tval (f k))]) ND) as (wt' & E & Hw').
        * intros i Hi. rewrite wget_wput. destruct (Nat.eqb_spec i k) as [->|C]; [contradiction|]. apply HH. now right.
        * intros j. rewrite wget_wput. destruct (Nat.eqb_spec j k) as [->|C]; [|apply Hw]. rewrite (Hw k), Ek. reflexivity.
        * exists wt'. rewrite E. split; [|exact Hw']. rewrite <- app_assoc. reflexivity.
      + destruct (IH wt w (res ++ [f k]) ND) as (wt' & E & Hw'); [intros i Hi; apply HH; now right|exact Hw|].
        exists wt'. rewrite E. split; [|exact Hw']. rewrite <- app_assoc. cbn [app]. destruct (f k); [reflexivity|discriminate].
  Qed.
  (** the witnesses and the output of the run on the secrets *)
  Definition oeq (rt : wmap tv * list tv) (r : wmap F * list F) : Prop := wref (fst rt) (fst r) /\ snd rt = map Pub (snd r).
  Theorem solve_ref wt w ops rets : wref wt w -> narrow ops -> (strict = true -> plain_calls ops) -> (tables = true -> sized ops) -> NoDup rets ->
    oref oeq (RI (solve (L := tl) (@Pub F) (@tpub F) wt ops rets)) (plain_solve brillig w ops rets).
  Proof.
    intros Hw Hn Hc Ht ND. unfold plain_solve, solve.
    eapply ref_bind; [apply (steps_ref ops (mkA wt []) (mkA w [])); [split; [exact Hw|split; [intros k; reflexivity|intros k t E; discriminate]]|exact Hn|exact Hc|exact Ht]|].
    intros st s [Hs _] r E. destruct (open_run _ _ _ _ E) as [E1 E2]. left.
    set (f := fun i => value_or (Pub 0) (wget i (a_w st))).
    assert (Hf : forall i, In i (rev rets) -> wget i (a_w st) = Some (f i)).
    { intros i Hi. unfold f. assert (Some_ : wget i (a_w s) <> None).
      { intros C. apply (in_map (fun i => wget i (a_w s))) in Hi. rewrite <- E2 in Hi. apply in_map_iff in Hi as (z & Ez & _). congruence. }
      rewrite (Hs i) in Some_. destruct (wget i (a_w st)); [reflexivity|now cbn in Some_]. }
    unfold open_results. rewrite ri_bind, (gather_ideal (a_w st) rets f) by (intros i Hi; apply Hf; now apply in_rev in Hi). cbn [obind run_ideal_ac].
    rewrite <- map_rev, <- filter_rev', <- map_rev.
    destruct (take_ideal (rev rets) f (a_w st) (a_w s) [] (NoDup_rev ND) Hf Hs) as (wt' & -> & Hw').
    eexists. split; [reflexivity|]. split; cbn [fst snd app]; [rewrite E1; exact Hw'|].
    clear -E2 Hf Hs. revert E2 Hf. generalize (rev rets) (snd r). intros ks l. revert l. induction ks as [|k ks IH]; intros [|v l] E2 Hf; try discriminate; [reflexivity|].
    cbn [map] in *. injection E2 as Ev E2. rewrite (Hs k), (Hf k (or_introl eq_refl)) in Ev. cbn in Ev. injection Ev as ->. f_equal. apply IH; [exact E2|intros i Hi; apply Hf; now right].
  Qed.
End Ref.
