(** * From the copy cycles to the grand product (C78) *)
From Coq Require Import String List Arith Lia Bool Ring Permutation.
From Verif Require Import Proc Alg NNet Rep3 ShamirPoly Shamir ShamirAlg Univariate Sumcheck HonkSpec Oink OinkWiring.
Import ListNotations.
Set Implicit Arguments.
Local Open Scope grp_scope.
Local Open Scope list_scope.

Section Trace.
  Context {F : Type} {FF : Fld F}.
  Add Ring FringOT : (@cring_theory F _).
  Infix "*" := rmul : grp_scope.
  Notation "1" := rone : grp_scope.
  Variable sep : nat.
  Notation value := (elem_value (F := F) sep).
  Notation position := (position (F := F) sep).
  Notation tag_value := (tag_value (F := F) sep).

  (** ** All cycles together *)
  Variables (tags tau : nat -> nat) (beta gamma : F) (cs : list (nat * node)) (nv : nat) (w : node -> F) (vals : nat -> F).
  (** the variables that occur *)
  Definition used : list nat := filter (fun v => match copy_cycles cs v with [] => false | _ => true end) (seq 0 nv).
  Hypothesis Hnv : forall c, In c cs -> fst c < nv.
  Hypothesis Hnd : NoDup (map snd cs).
  Hypothesis Hw : forall v p, In (v, p) cs -> w p = vals v.
  Hypothesis Htags : Permutation (map (fun v => (vals v, tau (tags v))) used) (map (fun v => (vals v, tags v)) used).
  Notation maps := (fold_left (map_cycle tags tau (copy_cycles cs)) (seq 0 nv) (new_mapping, new_mapping)).

  Lemma in_cycle v p : In p (copy_cycles cs v) <-> In (v, p) cs.
  Proof.
    rewrite copy_cycles_filter, in_map_iff. split.
    - intros [[u q] [E I]]. cbn [snd] in E. subst q. apply filter_In in I. destruct I as [I E]. apply Nat.eqb_eq in E. cbn [fst] in E. subst u. exact I.
    - intros I. exists (v, p). split; [reflexivity|]. apply filter_In. split; [exact I|]. apply Nat.eqb_refl.
  Qed.
  Lemma nodup_inj u v p : In (u, p) cs -> In (v, p) cs -> u = v.
  Proof.
    revert Hnd. clear. induction cs as [|[a q] l IH]; intros ND I J; [destruct I|]. cbn [map snd] in ND. inversion ND as [|? ? N ND']; subst.
    destruct I as [I|I], J as [J|J].
    - congruence.
    - exfalso. apply N. injection I as -> ->. apply (in_map snd) in J. exact J.
    - exfalso. apply N. injection J as -> ->. apply (in_map snd) in I. exact I.
    - exact (IH ND' I J).
  Qed.
  Lemma cycle_nodup v : NoDup (copy_cycles cs v).
  Proof.
    rewrite copy_cycles_filter. revert Hnd. clear. induction cs as [|c l IH]; intros ND; [constructor|]. cbn [map] in ND. inversion ND as [|? ? N ND']; subst.
    cbn [filter]. destruct (v =? fst c)%nat; [|exact (IH ND')]. cbn [map]. constructor; [|exact (IH ND')].
    intros I. apply N. apply in_map_iff in I. destruct I as [d [E I]]. apply filter_In in I. apply in_map_iff. exists d. split; [exact E|exact (proj1 I)].
  Qed.
  Lemma cycle_images v : v < nv ->
    map (fun p => value (fst maps p)) (copy_cycles cs v) = match copy_cycles cs v with [] => [] | _ :: c => map position c ++ [tag_value (tau (tags v))] end /\
    map (fun p => value (snd maps p)) (copy_cycles cs v) = match copy_cycles cs v with [] => [] | _ :: c => tag_value (tags v) :: map position c end.
  Proof.
    intros Hv. apply fold_own.
    - apply in_seq. lia.
    - apply seq_NoDup.
    - apply cycle_nodup.
    - intros p _. split; reflexivity.
    - intros u _ N p I J. apply N. apply in_cycle in I. apply in_cycle in J. exact (nodup_inj _ _ p J I).
  Qed.
  (** a factor *)
  Definition factor (x i : F) : F := x + i * beta + gamma.
  Lemma cycle_factors (m : mapping) v :
    prodl (fun c : nat * node => factor (w (snd c)) (value (m (snd c)))) (filter (fun c => (v =? fst c)%nat) cs) =
    prodl (factor (vals v)) (map (fun p => value (m p)) (copy_cycles cs v)).
  Proof.
    rewrite copy_cycles_filter, map_map, prodl_map. apply prodl_ext. intros [u p] I. cbn [snd]. apply filter_In in I. destruct I as [I E]. apply Nat.eqb_eq in E. cbn [fst] in E.
    subst u. rewrite (@Hw v p I). reflexivity.
  Qed.
  Lemma prodl_filter (b : nat -> bool) (f : nat -> F) l : prodl (fun v => if b v then f v else 1) l = prodl f (filter b l).
  Proof. induction l as [|v l IH]; [reflexivity|]. cbn [prodl filter]. rewrite IH. destruct (b v); cbn [prodl]; ring. Qed.
  Lemma cycles_products :
    prodl (fun p => factor (w p) (value (snd maps p))) (map snd cs) = prodl (fun p => factor (w p) (value (fst maps p))) (map snd cs).
  Proof.
    rewrite !prodl_map. rewrite (@prodl_group _ _ (fun c => factor (w (snd c)) (value (snd maps (snd c)))) nv cs Hnv).
    rewrite (@prodl_group _ _ (fun c => factor (w (snd c)) (value (fst maps (snd c)))) nv cs Hnv).
    set (T := fun t v => if match copy_cycles cs v with [] => false | _ => true end then factor (vals v) (tag_value (t v)) else 1).
    set (R := fun v => prodl (factor (vals v)) (map position (tl (copy_cycles cs v)))).
    transitivity (prodl (fun v => T tags v * R v) (seq 0 nv)).
    - apply prodl_ext. intros v Iv. apply in_seq in Iv. rewrite cycle_factors. destruct (@cycle_images v ltac:(lia)) as [_ E]. rewrite E. unfold T, R.
      destruct (copy_cycles cs v) as [|a c]; cbn [tl map prodl]; ring.
    - transitivity (prodl (fun v => T (fun v => tau (tags v)) v * R v) (seq 0 nv)).
      + rewrite !prodl_mul. f_equal. unfold T. rewrite !prodl_filter. fold used.
        transitivity (prodl (fun q => factor (fst q) (tag_value (snd q))) (map (fun v => (vals v, tags v)) used)); [rewrite prodl_map; reflexivity|].
        rewrite <- (prodl_perm _ Htags). rewrite prodl_map. reflexivity.
      + apply prodl_ext. intros v Iv. apply in_seq in Iv. rewrite cycle_factors. destruct (@cycle_images v ltac:(lia)) as [E _]. rewrite E. unfold T, R.
        destruct (copy_cycles cs v) as [|a c]; cbn [tl map prodl]; [ring|]. rewrite prodl_app. cbn [prodl]. ring.
  Qed.

  (** ** The public inputs *)
  Lemma next_image (g : node -> F) t x y B : forall A, nth_error (map g (tl (A ++ x :: y :: B)) ++ [t]) (length A) = Some (g y).
  Proof.
    intros [|a A]; [reflexivity|]. cbn [app tl length]. rewrite map_app, <- app_assoc, nth_error_app2 by (rewrite map_length; lia).
    rewrite map_length. replace (S (length A) - length A)%nat with 1%nat by lia. reflexivity.
  Qed.
  Lemma next_cell v p q A B : cs = A ++ (v, p) :: (v, q) :: B -> value (fst maps p) = position q.
  Proof.
    intros E. assert (I : In (v, p) cs) by (rewrite E; apply in_or_app; right; left; reflexivity).
    destruct (@cycle_images v (Hnv _ I)) as [X _].
    assert (C : exists A' B', copy_cycles cs v = A' ++ p :: q :: B').
    { exists (map snd (filter (fun c => (v =? fst c)%nat) A)), (map snd (filter (fun c => (v =? fst c)%nat) B)). rewrite copy_cycles_filter, E, filter_app, map_app. cbn [filter fst]. rewrite Nat.eqb_refl. reflexivity. }
    destruct C as (A' & B' & C).
    assert (Y : nth_error (map (fun p => value (fst maps p)) (copy_cycles cs v)) (length A') = Some (value (fst maps p))).
    { rewrite C at 1. rewrite map_app, nth_error_app2 by (rewrite map_length; lia). rewrite map_length, Nat.sub_diag. reflexivity. }
    rewrite X in Y. destruct (copy_cycles cs v) as [|a c] eqn:Ec; [destruct A'; discriminate C|].
    pose proof (@next_image position (tag_value (tau (tags v))) p q B' A') as Z. rewrite <- C in Z. cbn [tl] in Z. rewrite Z in Y. injection Y as Y. symmetry. exact Y.
  Qed.
  (** the marks of all public inputs *)
  Definition marks offset n (m : mapping) : mapping := fold_left (mark_public offset) (seq 0 n) m.
  Lemma marks_S offset n m : marks offset (S n) m = mark_public offset (marks offset n m) n.
  Proof. unfold marks. rewrite seq_S, fold_left_app. reflexivity. Qed.
  Lemma marks_other offset n m p : (forall j, j < n -> p <> (0%nat, (j + offset)%nat)) -> marks offset n m p = m p.
  Proof.
    induction n as [|n IH]; intros H; [reflexivity|]. rewrite marks_S. unfold mark_public. rewrite set_other by (intros X; apply (H n); [lia|congruence]).
    apply IH. intros j Hj. apply H. lia.
  Qed.
  Lemma public_products offset m n : (forall j, j < n -> In (0%nat, (j + offset)%nat) (map snd cs)) ->
    prodl (fun p => factor (w p) (value (marks offset n m p))) (map snd cs) * prod n (fun j => factor (w (0%nat, (j + offset)%nat)) (value (m (0%nat, (j + offset)%nat)))) =
    prodl (fun p => factor (w p) (value (m p))) (map snd cs) * prod n (fun j => factor (w (0%nat, (j + offset)%nat)) (- fnat (j + offset + 1))).
  Proof.
    induction n as [|n IH]; intros H; [reflexivity|]. specialize (IH (fun j Hj => H j (Nat.lt_lt_succ_r _ _ Hj))). cbn [prod].
    set (a := (0%nat, (n + offset)%nat)) in *.
    assert (C := @prodl_change _ _ _ (fun p => factor (w p) (value (marks offset n m p))) (fun p => factor (w p) (value (marks offset (S n) m p))) a (map snd cs) Hnd (H n (Nat.lt_succ_diag_r n))).
    cbv beta in C. specialize (C (fun q Nq => ltac:(rewrite marks_S; unfold mark_public; rewrite set_other by (unfold a in Nq; congruence); reflexivity))).
    rewrite (@marks_other offset n m a) in C by (intros j Hj X; unfold a in X; injection X as X; lia).
    assert (V : value (marks offset (S n) m a) = - fnat (n + offset + 1)).
    { rewrite marks_S. unfold mark_public, a. rewrite set_same. unfold elem_value. cbn [el_pub el_row el_col]. do 2 f_equal. lia. }
    rewrite V in C.
    transitivity (prodl (fun p => factor (w p) (value (marks offset (S n) m p))) (map snd cs) * factor (w a) (value (m a)) *
      prod n (fun j => factor (w (0%nat, (j + offset)%nat)) (value (m (0%nat, (j + offset)%nat))))); [ring|]. rewrite C.
    transitivity (prodl (fun p => factor (w p) (value (marks offset n m p))) (map snd cs) *
      prod n (fun j => factor (w (0%nat, (j + offset)%nat)) (value (m (0%nat, (j + offset)%nat)))) * factor (w a) (- fnat (n + offset + 1))); [ring|]. rewrite IH. ring.
  Qed.
End Trace.

Section Delta.
  Context {F : Type} {FF : Fld F}.
  Add Ring FringOD : (@cring_theory F _).
  Infix "*" := rmul : grp_scope.
  Notation "1" := rone : grp_scope.
  Lemma prod_head (f : nat -> F) n : prod (S n) f = f 0%nat * prod n (fun i => f (S i)).
  Proof. induction n as [|n IH]; [cbn [prod]; ring|]. change (prod (S (S n)) f) with (prod (S n) f * f (S n)). rewrite IH. cbn [prod]. ring. Qed.
  Lemma prod_ext n (f g : nat -> F) : (forall i, i < n -> f i = g i) -> prod n f = prod n g.
  Proof. induction n as [|n IH]; intros H; [reflexivity|]. cbn [prod]. rewrite IH, (H n) by (try lia; intros; apply H; lia). reflexivity. Qed.
  Lemma fnat_S n : fnat (F := F) (S n) = fnat n + 1.
  Proof. cbn [fnat]. ring. Qed.
  Lemma delta_loop_prod beta : forall xs num denom na da, delta_loop beta xs num denom na da =
    (num * prod (length xs) (fun j => na + fnat j * beta + nth j xs 0), denom * prod (length xs) (fun j => da - fnat j * beta + nth j xs 0)).
  Proof.
    induction xs as [|x xs IH]; intros num denom na da; cbn [delta_loop length].
    - cbn [prod]. f_equal; ring.
    - rewrite IH, !prod_head. cbn [nth]. f_equal.
      + rewrite (@prod_ext (length xs) (fun j => na + beta + fnat j * beta + nth j xs 0) (fun i => na + fnat (S i) * beta + nth i xs 0)).
        * cbn [fnat]. ring.
        * intros i _. rewrite fnat_S. ring.
      + rewrite (@prod_ext (length xs) (fun j => da - beta - fnat j * beta + nth j xs 0) (fun i => da - fnat (S i) * beta + nth i xs 0)).
        * cbn [fnat]. ring.
        * intros i _. rewrite fnat_S. ring.
  Qed.
  Lemma fnat_add n m : fnat (F := F) (n + m) = fnat n + fnat m.
  Proof. induction n as [|n IH]; cbn [Nat.add]; [cbn [fnat]; ring|]. rewrite !fnat_S, IH. ring. Qed.
  Lemma public_delta sep beta gamma xs offset d : compute_public_input_delta sep beta gamma xs offset = Done d ->
    prod (length xs) (fun j => nth j xs 0 + (- fnat (j + offset + 1)) * beta + gamma) <> 0 /\
    d * prod (length xs) (fun j => nth j xs 0 + (- fnat (j + offset + 1)) * beta + gamma) = prod (length xs) (fun j => nth j xs 0 + fnat (j + offset + sep) * beta + gamma).
  Proof.
    unfold compute_public_input_delta. rewrite delta_loop_prod.
    rewrite (@prod_ext (length xs) (fun j => gamma + (fnat sep + fnat offset) * beta + fnat j * beta + nth j xs 0) (fun j => nth j xs 0 + fnat (j + offset + sep) * beta + gamma)) by (intros i _; rewrite !fnat_add; ring).
    rewrite (@prod_ext (length xs) (fun j => gamma - fnat (1 + offset) * beta - fnat j * beta + nth j xs 0) (fun j => nth j xs 0 + (- fnat (j + offset + 1)) * beta + gamma)).
    2: { intros i _. rewrite (Nat.add_comm (i + offset) 1). replace (1 + (i + offset))%nat with (i + (1 + offset))%nat by lia. rewrite (fnat_add i). ring. }
    set (D := prod (length xs) (fun j => nth j xs 0 + (- fnat (j + offset + 1)) * beta + gamma)). set (N := prod (length xs) _).
    destruct (feqb (1 * D) 0) eqn:E; [discriminate|]. intros X. injection X as <-.
    assert (ND : D <> 0). { intros X. rewrite <- not_true_iff_false in E. apply E. apply feqb_spec. rewrite X. ring. }
    split; [exact ND|]. replace (1 * D) with D by ring. replace (1 * N) with N by ring.
    transitivity (N * (finv D * D)); [ring|]. rewrite (finv_l _ ND). ring.
  Qed.
End Delta.
