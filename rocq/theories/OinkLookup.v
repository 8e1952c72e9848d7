(** * The lookup relations imply that everything looked up is in the tables, but for few challenges (C81); no code of /repo
      is modelled here *)
From Coq Require Import String List Arith Lia Bool Ring Permutation.
From Verif Require Import Proc Alg NNet Rep3 ShamirPoly Shamir ShamirAlg Univariate Sumcheck SumcheckSpec HonkRelations HonkSpec HonkProofs HonkSkip ShpleminiSound ShpleminiFew Decider Oink OinkWiring OinkProofs OinkRelations OinkSound.
Import ListNotations.
Set Implicit Arguments.
Local Open Scope grp_scope.
Local Open Scope list_scope.

Section Fractions.
  Context {F : Type} {FF : Fld F}.
  Add Ring FringFrac : (@cring_theory F _).
  Infix "*" := rmul : grp_scope.
  Notation "1" := rone : grp_scope.
  (** the sum of fractions, coefficients with poles *)
  Fixpoint fracs (l : list (F * F)) (g : F) : F := match l with [] => 0 | (c, a) :: l => c * finv (a + g) + fracs l g end.
  (** its numerator over the product of all denominators *)
  Fixpoint numer (l : list (F * F)) : list F :=
    match l with [] => [] | (c, a) :: l => padd (map (rmul c) (mono (map snd l))) (padd (map (rmul a) (numer l)) (0 :: numer l)) end.
  Lemma fracs_app l l' g : fracs (l ++ l') g = fracs l g + fracs l' g.
  Proof. induction l as [|[c a] l IH]; cbn [app fracs]; [ring|]. rewrite IH. ring. Qed.
  Lemma numer_length l : length (numer l) <= length l.
  Proof.
    induction l as [|[c a] l IH]; [cbn; lia|]. cbn [numer length]. rewrite !length_padd, !map_length, mono_length, map_length. cbn [length]. lia.
  Qed.
  Lemma eval_scale c l x : peval (map (rmul c) l) x = c * peval l x.
  Proof.
    induction l as [|a l IH]; cbn [map peval]; [ring|]. rewrite IH. change (c * a + x * (c * peval l x) = c * (a + x * peval l x)). ring.
  Qed.
  Lemma numer_cons c a l x : peval (numer ((c, a) :: l)) x = c * prodl (fun b => b + x) (map snd l) + (a + x) * peval (numer l) x.
  Proof.
    cbn [numer]. rewrite !peval_padd, !eval_scale, mono_eval. cbn [peval]. change (smul x (peval (numer l) x)) with (x * peval (numer l) x). ring.
  Qed.
  Lemma numer_fracs l g : (forall a, In a (map snd l) -> a + g <> 0) -> peval (numer l) g = fracs l g * prodl (fun a => a + g) (map snd l).
  Proof.
    induction l as [|[c a] l IH]; intros H; [cbn [numer fracs peval]; ring|]. rewrite numer_cons, IH by (intros b I; apply H; right; exact I). cbn [fracs map snd prodl].
    assert (N : a + g <> 0) by (apply H; left; reflexivity).
    transitivity (c * (finv (a + g) * (a + g)) * prodl (fun b => b + g) (map snd l) + fracs l g * ((a + g) * prodl (fun a => a + g) (map snd l))); [rewrite (finv_l _ N)|]; ring.
  Qed.

  (** some value is read that is not in the table, but the sums agree *)
  Definition lucky_sum (us : list F) (cts : list (F * F)) (g : F) : Prop :=
    (exists u, In u us /\ ~ In u (map snd cts)) /\ (forall a, In a us \/ In a (map snd cts) -> a + g <> 0) /\ fracs (map (fun u => (1, u)) us) g = fracs cts g.
  Lemma group_reads u g us : fracs (map (fun u => (1, u)) us) g =
    fnat (length (filter (feqb u) us)) * finv (u + g) + fracs (map (fun u => (1, u)) (filter (fun y => negb (feqb u y)) us)) g.
  Proof.
    induction us as [|a us IH]; cbn [map fracs filter]; [cbn [length fnat]; ring|]. rewrite IH. destruct (feqb u a) eqn:E; cbn [negb].
    - apply feqb_spec in E. subst a. cbn [length fnat]. ring.
    - cbn [map fracs]. ring.
  Qed.
  Lemma fracs_neg cts g : fracs (map (fun ct => (- fst ct, snd ct)) cts) g = - fracs cts g.
  Proof. induction cts as [|[c t] l IH]; cbn [map fracs fst snd]; [ring|]. rewrite IH. ring. Qed.
  Lemma split_length (f : F -> bool) us : length us = (length (filter f us) + length (filter (fun y => negb (f y)) us))%nat.
  Proof. induction us as [|a us IH]; [reflexivity|]. cbn [filter]. destruct (f a); cbn [negb length]; lia. Qed.
  Theorem few_sums us cts gs : (forall k, 1 <= k <= length us -> fnat k <> (0 : F)) -> NoDup gs -> Forall (lucky_sum us cts) gs -> length gs < length us + length cts \/ gs = [].
  Proof.
    intros Hk ND H. destruct gs as [|g0 gs0]; [right; reflexivity|left]. set (gs := g0 :: gs0) in *. rewrite Forall_forall in H.
    destruct (Nat.lt_ge_cases (length gs) (length us + length cts)) as [X|X]; [exact X|]. exfalso.
    destruct (H g0 (or_introl eq_refl)) as [(u & Iu & Nu) _].
    assert (K : 1 <= length (filter (feqb u) us)).
    { assert (I : In u (filter (feqb u) us)) by (apply filter_In; split; [exact Iu|apply feqb_spec; reflexivity]). destruct (filter (feqb u) us); [destruct I|cbn; lia]. }
    pose proof (split_length (feqb u) us) as SL.
    set (rest := map (fun u => (1, u)) (filter (fun y => negb (feqb u y)) us) ++ map (fun ct => (- fst ct, snd ct)) cts).
    set (l := (fnat (length (filter (feqb u) us)), u) :: rest).
    assert (Ir : forall a, In a (map snd rest) -> (In a us \/ In a (map snd cts)) /\ a <> u).
    { intros a I. unfold rest in I. rewrite map_app, !map_map in I. cbn [snd] in I. rewrite map_id in I. apply in_app_or in I. destruct I as [I|I].
      - apply filter_In in I. destruct I as [I N]. split; [left; exact I|]. intros ->. apply negb_true_iff in N. rewrite <- not_true_iff_false in N. apply N. apply feqb_spec. reflexivity.
      - split; [right; exact I|]. intros ->. exact (Nu I). }
    assert (Z : forall g, In g gs -> peval (numer l) g = 0).
    { intros g I. destruct (H g I) as (_ & A & B). rewrite numer_fracs.
      - replace (fracs l g) with (0 : F); [ring|]. unfold l, rest. cbn [fracs]. rewrite fracs_app, fracs_neg, <- B, (group_reads u g us). ring.
      - intros a Ia. cbn [l map snd In] in Ia. destruct Ia as [<-|Ia]; [apply A; left; exact Iu|apply A, Ir, Ia]. }
    assert (Y : peval (numer l) (- u) = 0).
    { rewrite (@peval_unique F F _ _ _ gs (numer l) [] ND); [reflexivity| |cbn; lia|intros a I; rewrite (Z a I); reflexivity].
      pose proof (numer_length l) as NL. unfold l, rest in NL |- *. cbn [length] in NL. rewrite app_length, !map_length in NL. lia. }
    unfold l in Y. rewrite numer_cons in Y.
    assert (W : prodl (fun b => b + - u) (map snd rest) = 0).
    { apply (@mul_cancel F FF (fnat (length (filter (feqb u) us)))); [apply Hk; lia|].
      transitivity (fnat (length (filter (feqb u) us)) * prodl (fun b => b + - u) (map snd rest) + (u + - u) * peval (numer rest) (- u)); [ring|]. rewrite Y. ring. }
    apply prodl_zero in W. destruct W as (a & Ia & E). apply (proj2 (Ir a Ia)). transitivity (a + - u + u); [ring|rewrite E; ring].
  Qed.

  (** ** Collisions of tuples *)
  (** two different tuples give the same value *)
  Definition lucky_tuples (l l' : list (list F)) (beta : F) : Prop := exists p q, In p l /\ In q l' /\ lucky_rho p q beta.
  Lemma union_bound A (f : A -> F -> bool) k : forall l bs, NoDup bs -> (forall a, In a l -> length (filter (f a) bs) <= k) ->
    (forall b, In b bs -> exists a, In a l /\ f a b = true) -> length bs <= length l * k.
  Proof.
    induction l as [|a l IH]; intros bs ND Hk H.
    - destruct bs as [|b bs]; [cbn; lia|]. destruct (H b (or_introl eq_refl)) as (a & [] & _).
    - rewrite (split_length (f a) bs). cbn [length]. specialize (IH (filter (fun y => negb (f a y)) bs)).
      assert (X : length (filter (f a) bs) <= k) by (apply Hk; left; reflexivity).
      enough (length (filter (fun y => negb (f a y)) bs) <= length l * k) by lia. apply IH.
      + apply NoDup_filter. exact ND.
      + intros b I. transitivity (length (filter (f b) bs)); [|apply Hk; right; exact I]. apply NoDup_incl_length; [apply NoDup_filter, NoDup_filter; exact ND|].
        intros x J. apply filter_In in J. destruct J as [J1 J2]. apply filter_In in J1. apply filter_In. split; [apply J1|exact J2].
      + intros b I. apply filter_In in I. destruct I as [I N]. destruct (H b I) as (a' & [<-|I'] & E); [rewrite E in N; discriminate N|]. exists a'. split; assumption.
  Qed.
  Theorem few_tuples l l' bs n : (forall p, In p l -> length p <= S n) -> NoDup bs -> Forall (lucky_tuples l l') bs -> length bs <= length l * length l' * n.
  Proof.
    intros Hn ND H. rewrite <- prod_length. rewrite Forall_forall in H.
    apply (@union_bound _ (fun pq b => if list_eq_dec fdec (fst pq) (snd pq) then false else (length (fst pq) =? length (snd pq)) && feqb (peval (fst pq) b) (peval (snd pq) b))); [exact ND| |].
    - intros [p q] I. apply in_prod_iff in I. destruct I as [Ip Iq]. cbn [fst snd]. destruct (list_eq_dec fdec p q) as [E|N].
      + assert (X : filter (fun _ : F => false) bs = []) by (clear; induction bs; auto). rewrite X. cbn. lia.
      + destruct (@few_rho F FF p q (filter (fun b => (length p =? length q) && feqb (peval p b) (peval q b)) bs)) as [X|X].
        * apply NoDup_filter. exact ND.
        * apply Forall_forall. intros b I. apply filter_In in I. destruct I as [_ E]. apply andb_true_iff in E. destruct E as [E1 E2]. apply Nat.eqb_eq in E1. apply feqb_spec in E2. repeat split; assumption.
        * specialize (Hn p Ip). lia.
        * rewrite X. cbn. lia.
    - intros b I. destruct (H b I) as (p & q & Ip & Iq & N & L & E). exists (p, q). split; [apply in_prod; assumption|]. cbn [fst snd].
      destruct (list_eq_dec fdec p q) as [X|_]; [contradiction|]. rewrite L, Nat.eqb_refl. apply feqb_spec. exact E.
  Qed.
End Fractions.

Section Lookup.
  Context {F : Type} {FF : Fld F}.
  Add Ring FringLook : (@cring_theory F _).
  Infix "*" := rmul : grp_scope.
  Notation "1" := rone : grp_scope.
  (** what row [i] looks up: three wires, with steps from the next row, and the number of the table *)
  Definition read_tuple (fs : list (list F)) (i : nat) : list F :=
    [cell fs 28 i + cell fs 3 i * cell fs 28 (S i); cell fs 29 i + cell fs 0 i * cell fs 29 (S i); cell fs 30 i + cell fs 1 i * cell fs 30 (S i); cell fs 4 i].
  (** what is in the tables at row [i] *)
  Definition table_tuple (fs : list (list F)) (i : nat) : list F := [cell fs 22 i; cell fs 23 i; cell fs 24 i; cell fs 25 i].
  (** the rows that look something up *)
  Definition lookers (fs : list (list F)) (size : nat) : list nat := filter (fun i => feqb (cell fs 6 i) 1) (seq 0 size).
  (** all tuples of the columns, read or in tables *)
  Definition all_tuples (fs : list (list F)) (size : nat) : list (list F) := map (read_tuple fs) (seq 0 size) ++ map (table_tuple fs) (seq 0 size).
  (** what the tables contribute: a coefficient from the counts, the tags and the selector, and the mixed entry *)
  Definition table_terms (fs : list (list F)) (size : nat) (beta : F) : list (F * F) :=
    map (fun i => ((cell fs 35 i + cell fs 6 i - cell fs 35 i * cell fs 6 i) * cell fs 34 i, peval (table_tuple fs i) beta)) (seq 0 size).
  (** the challenge gamma is the negative of one of the values *)
  Definition lucky_pole (l : list F) (gamma : F) : Prop := exists a, In a l /\ a + gamma = 0.
  Theorem few_poles l gs : NoDup gs -> Forall (lucky_pole l) gs -> length gs <= length l.
  Proof.
    intros ND H. rewrite <- (map_length gneg l). apply NoDup_incl_length; [exact ND|]. intros g I. rewrite Forall_forall in H. destruct (H g I) as (a & Ia & E).
    apply in_map_iff. exists a. split; [|exact Ia]. transitivity (a + g - a); [rewrite E; ring|ring].
  Qed.

  Variables (P : rparams (F := F)) (size : nat) (fs : list (list F)).
  Hypothesis L36 : length fs = 36.
  Hypothesis Hq : forall i, i < size -> cell fs 6 i = 0 \/ cell fs 6 i = 1.
  Notation beta := (rp_beta P).
  Notation gamma := (rp_gamma P).
  Notation reads := (map (fun i => peval (read_tuple fs i) beta) (lookers fs size)).

  Lemma row_terms i : read_term P (row (all_entities fs) i) = peval (read_tuple fs i) beta + gamma /\ write_term P (row (all_entities fs) i) = peval (table_tuple fs i) beta + gamma.
  Proof.
    assert (EM : forall k, k < 36 -> ent k (row (all_entities fs) i) = cell fs k i) by (intros k Hk; apply ent_main; lia).
    pose proof (@ent_shift F FF fs i 0 L36 ltac:(lia) : ent 36 (row (all_entities fs) i) = cell fs 28 (S i)) as S0.
    pose proof (@ent_shift F FF fs i 1 L36 ltac:(lia) : ent 37 (row (all_entities fs) i) = cell fs 29 (S i)) as S1.
    pose proof (@ent_shift F FF fs i 2 L36 ltac:(lia) : ent 38 (row (all_entities fs) i) = cell fs 30 (S i)) as S2.
    unfold read_term, write_term, read_tuple, table_tuple. rewrite S0, S1, S2, !EM by lia. cbn [peval]. rewrite !smulU. split; ring.
  Qed.
  Lemma row_fraction i : i < size -> peval (read_tuple fs i) beta + gamma <> 0 -> peval (table_tuple fs i) beta + gamma <> 0 -> lookup0 P (row (all_entities fs) i) = 0 ->
    lookup1 P (row (all_entities fs) i) = (if feqb (cell fs 6 i) 1 then finv (peval (read_tuple fs i) beta + gamma) else 0) -
      (cell fs 35 i + cell fs 6 i - cell fs 35 i * cell fs 6 i) * cell fs 34 i * finv (peval (table_tuple fs i) beta + gamma).
  Proof.
    intros Hi Nr Nw H0. unfold lookup0, inverse_exists in H0. unfold lookup1. destruct (row_terms i) as [Er Ew]. rewrite Er, Ew in *.
    assert (EM : forall k, k < 36 -> ent k (row (all_entities fs) i) = cell fs k i) by (intros k Hk; apply ent_main; lia).
    rewrite !EM in * by lia. set (R := peval (read_tuple fs i) beta + gamma) in *. set (W := peval (table_tuple fs i) beta + gamma) in *.
    set (E := cell fs 35 i + cell fs 6 i - cell fs 35 i * cell fs 6 i).
    assert (X : R * W * cell fs 33 i = E). { unfold E. transitivity (R * W * cell fs 33 i - (- (cell fs 35 i * cell fs 6 i) + cell fs 35 i + cell fs 6 i) + (- (cell fs 35 i * cell fs 6 i) + cell fs 35 i + cell fs 6 i)); [ring|rewrite H0; ring]. }
    pose proof (finv_l _ Nr) as IR. pose proof (finv_l _ Nw) as IW.
    assert (A : W * cell fs 33 i = E * finv R). { rewrite <- X. transitivity ((finv R * R) * (W * cell fs 33 i)); [rewrite IR; ring|ring]. }
    assert (B : R * cell fs 33 i = E * finv W). { rewrite <- X. transitivity ((finv W * W) * (R * cell fs 33 i)); [rewrite IW; ring|ring]. }
    rewrite A, B. replace (E * finv R * cell fs 6 i) with (if feqb (cell fs 6 i) 1 then finv R else 0); [ring|].
    unfold E. destruct (feqb (cell fs 6 i) 1) eqn:Eq.
    - apply feqb_spec in Eq. rewrite Eq. ring.
    - destruct (Hq Hi) as [Z|Z]; [rewrite Z; ring|]. apply feqb_spec in Z. congruence.
  Qed.

  Theorem lookup_sound : (forall i, i < size -> lookup0 P (row (all_entities fs) i) = 0) -> sumn size (fun i => lookup1 P (row (all_entities fs) i)) = 0 ->
    (forall i, i < size -> cell fs 6 i = 1 -> exists j, j < size /\ read_tuple fs i = table_tuple fs j) \/
    lucky_tuples (map (read_tuple fs) (lookers fs size)) (map (table_tuple fs) (seq 0 size)) beta \/
    lucky_pole (map (fun t => peval t beta) (all_tuples fs size)) gamma \/
    lucky_sum reads (table_terms fs size beta) gamma.
  Proof.
    intros H0 H1.
    destruct (Forall_Exists_dec (fun a => a + gamma <> 0) (fun a => match fdec (a + gamma) 0 with left e => right (fun n => n e) | right n => left n end) (map (fun t => peval t beta) (all_tuples fs size))) as [NP|NP].
    2: { right. right. left. apply Exists_exists in NP. destruct NP as (a & I & N). exists a. split; [exact I|]. destruct (fdec (a + gamma) 0) as [e|n]; [exact e|contradiction]. }
    rewrite Forall_forall in NP. unfold all_tuples in NP. rewrite map_app, !map_map in NP.
    assert (Nr : forall i, i < size -> peval (read_tuple fs i) beta + gamma <> 0).
    { intros i Hi. apply NP, in_or_app. left. apply in_map_iff. exists i. split; [reflexivity|apply in_seq; lia]. }
    assert (Nw : forall i, i < size -> peval (table_tuple fs i) beta + gamma <> 0).
    { intros i Hi. apply NP, in_or_app. right. apply in_map_iff. exists i. split; [reflexivity|apply in_seq; lia]. }
    destruct (Forall_Exists_dec (fun i => In (read_tuple fs i) (map (table_tuple fs) (seq 0 size))) (fun i => in_dec (list_eq_dec fdec) _ _) (lookers fs size)) as [A|A].
    { left. intros i Hi Q. rewrite Forall_forall in A. specialize (A i). rewrite in_map_iff in A. destruct A as (j & E & I).
      - apply filter_In. split; [apply in_seq; lia|apply feqb_spec; exact Q].
      - exists j. apply in_seq in I. split; [lia|symmetry; exact E]. }
    right. apply Exists_exists in A. destruct A as (i & Ii & N).
    destruct (in_dec fdec (peval (read_tuple fs i) beta) (map snd (table_terms fs size beta))) as [J|J].
    - left. unfold table_terms in J. rewrite map_map in J. cbn [snd] in J. apply in_map_iff in J. destruct J as (j & E & Ij).
      exists (read_tuple fs i), (table_tuple fs j). split; [apply in_map; exact Ii|]. split; [apply in_map; exact Ij|]. split; [|split; [reflexivity|symmetry; exact E]].
      intros X. apply N. rewrite X. apply in_map. exact Ij.
    - right. right. split; [|split].
      + exists (peval (read_tuple fs i) beta). split; [|exact J]. apply in_map_iff. exists i. split; [reflexivity|exact Ii].
      + intros a [I|I].
        * apply in_map_iff in I. destruct I as (k & <- & I). apply filter_In in I. destruct I as [I _]. apply in_seq in I. apply Nr. lia.
        * unfold table_terms in I. rewrite map_map in I. cbn [snd] in I. apply in_map_iff in I. destruct I as (k & <- & I). apply in_seq in I. apply Nw. lia.
      + assert (S : forall k, k <= size -> sumn k (fun i => lookup1 P (row (all_entities fs) i)) =
          fracs (map (fun u => (1, u)) (map (fun i => peval (read_tuple fs i) beta) (lookers fs k))) gamma - fracs (table_terms fs k beta) gamma).
        { induction k as [|k IH]; intros Hk; [cbn; ring|]. cbn [sumn]. rewrite IH by lia. unfold lookers, table_terms. rewrite seq_S, filter_app, !map_app, !fracs_app. cbn [Nat.add map filter].
          rewrite row_fraction by (auto; lia). destruct (feqb (cell fs 6 k) 1); cbn [map fracs]; ring. }
        specialize (S size (Nat.le_refl _)). rewrite H1 in S.
        transitivity (fracs (map (fun u => (1, u)) reads) gamma - fracs (table_terms fs size beta) gamma + fracs (table_terms fs size beta) gamma); [ring|rewrite <- S; ring].
  Qed.
End Lookup.

Section LookupSatisfied.
  Context {F : Type} {FF : Fld F}.
  (** the same for columns that satisfy the relations of UltraHonk *)
  Theorem satisfied_lookups (P : rparams (F := F)) m fs : length fs = 36 -> (forall i, i < 2 ^ m -> cell fs 6 i = 0 \/ cell fs 6 i = rone) -> satisfied (honk_relations P) m (all_entities fs) ->
    (forall i, i < 2 ^ m -> cell fs 6 i = rone -> exists j, j < 2 ^ m /\ read_tuple fs i = table_tuple fs j) \/
    lucky_tuples (map (read_tuple fs) (lookers fs (2 ^ m))) (map (table_tuple fs) (seq 0 (2 ^ m))) (rp_beta P) \/
    lucky_pole (map (fun t => peval t (rp_beta P)) (all_tuples fs (2 ^ m))) (rp_gamma P) \/
    lucky_sum (map (fun i => peval (read_tuple fs i) (rp_beta P)) (lookers fs (2 ^ m))) (table_terms fs (2 ^ m) (rp_beta P)) (rp_gamma P).
  Proof.
    intros L Hq S. apply honk_satisfied in S. destruct S as [S S1]. apply lookup_sound; try assumption. intros i Hi. apply S; [|exact Hi]. unfold in_rows. cbn [In]. tauto.
  Qed.
End LookupSatisfied.
