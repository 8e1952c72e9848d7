(** * Calls of the coBrillig VM by the co-noir ACVM: three parties *)
From Coq Require Import String List Arith NArith Lia Bool Permutation.
From Verif Require Import Proc Alg Rep3Net Rep3 Rep3Spec Rep3Proofs Rep3Wp Uint Binary Conv Lut Garble Circuits Garbled Yao Ring2k Ring2kWp
  VmDriver VmIdeal VmDriverWp Acvm AcvmSpec AcvmRun AcvmSim AcvmRef AcvmMay AcvmParties
  Brillig BrilligSpec BrilligSound BrilligTag BrilligDriver BrilligOps BrilligSim BrilligParties AcvmBrillig.
Import ListNotations.
Set Implicit Arguments.
Local Open Scope grp_scope.
Local Open Scope list_scope.

(** ** Lists *)
Section Lists.
  Lemma pvec_reorder {A B} (R : (pid -> A) -> B -> Prop) ix p ps : pvec R p ps -> pvec R (fun i => reorder ix (p i)) (reorder ix ps).
  Proof.
    intros [L Hn]. induction ix as [|k ix IH]; [apply pvec_nil; reflexivity|]. unfold reorder in *. cbn [flat_map].
    destruct (nth_error ps k) as [x|] eqn:E.
    - destruct (Hn k x E) as (a & Ha & HR). cbn [app]. apply pvec_cons with (h := a) (t := fun i => reorder ix (p i)); [|exact HR|exact IH].
      intros i. rewrite Ha. reflexivity.
    - apply nth_error_None in E. assert (E' : forall i, nth_error (p i) k = None) by (intros i; apply nth_error_None; rewrite L; exact E).
      cbn [app]. destruct IH as [IH1 IH2]. split.
      + intros i. rewrite E'. exact (IH1 i).
      + intros n y Ey. destruct (IH2 n y Ey) as (a & Ha & HR). exists a. split; [|exact HR]. intros i. rewrite E'. exact (Ha i).
  Qed.
  Lemma reorder_perm {A} ix (l : list A) : Permutation ix (seq 0 (length l)) -> Permutation (reorder ix l) l.
  Proof.
    intros Hp. transitivity (reorder (seq 0 (length l)) l).
    - unfold reorder. induction Hp; cbn; try reflexivity.
      + now apply Permutation_app_head.
      + rewrite !app_assoc. apply Permutation_app_tail, Permutation_app_comm.
      + etransitivity; eassumption.
    - clear Hp. assert (E : forall q, reorder (seq (length q) (length l)) (q ++ l) = l).
      { induction l as [|x l IH]; intros q; [reflexivity|]. cbn [length seq reorder flat_map]. rewrite nth_error_app2, Nat.sub_diag by lia. cbn [nth_error app]. f_equal.
        specialize (IH (q ++ [x])). rewrite app_length in IH. cbn in IH. rewrite Nat.add_1_r, <- app_assoc in IH. exact IH. }
      exact (eq_ind_r (fun z => Permutation z l) (Permutation_refl l) (E [])).
  Qed.
  Lemma mem_key_refl k : mem_key k k = true.
  Proof. unfold mem_key. destruct (list_eq_dec _ _ _); congruence. Qed.
  Lemma mem_key_neq k k' : k <> k' -> mem_key k k' = false.
  Proof. unfold mem_key. destruct (list_eq_dec _ _ _); congruence. Qed.
  Lemma assoc_in {A} k (x : A) l : NoDup (map fst l) -> In (k, x) l -> assoc k l = Some x.
  Proof.
    induction l as [|[k' y] l IH]; cbn; [contradiction|]. intros ND [E|Hi]; inversion ND as [|? ? Hn ND']; subst.
    - injection E as -> ->. rewrite mem_key_refl. reflexivity.
    - rewrite mem_key_neq; [apply IH; assumption|]. intros ->. apply Hn. exact (in_map fst _ _ Hi).
  Qed.
  Lemma assoc_none {A} k (l : list (list N * A)) : ~ In k (map fst l) -> assoc k l = None.
  Proof. induction l as [|[k' y] l IH]; cbn; [reflexivity|]. intros Hn. rewrite mem_key_neq by (intros ->; tauto). apply IH. tauto. Qed.
  Lemma assoc_some {A} k (l : list (list N * A)) x : assoc k l = Some x -> In k (map fst l).
  Proof. intros E. destruct (in_dec (list_eq_dec N.eq_dec) k (map fst l)) as [I|I]; [exact I|]. rewrite (assoc_none _ _ I) in E. discriminate. Qed.
  Lemma assoc_app {A} k (l l' : list (list N * A)) : assoc k (l ++ l') = match assoc k l with Some x => Some x | None => assoc k l' end.
  Proof. induction l as [|[k' y] l IH]; cbn; [reflexivity|]. destruct (mem_key k k'); auto. Qed.
End Lists.

(** ** Conversions *)
Section Wp.
  Context {F : Type} `{FU : FieldUint F} {S Seed M : Type} (dbg : bool) (W : nat) (du : nat -> S -> N * S).
  Context {DF : Draw S F} {DS : Draw S Seed} {SD : Seeded S Seed}.
  Context {EN : Enc M (list N)} {ENN : Enc M (list (N * N))}
          {EL : Enc M (list (list N))} {ELL : Enc M (list (list N * list N))} {EF : Enc M (list F)}.
  Context {RT : isz -> Type} {RC : forall s, CRing (RT s)} {RI : forall s, @IntRing (RT s) (RC s)}
          {RD : forall s, Draw S (RT s)} {RE : forall s, Enc M (list (RT s))}.
  Context (HK : forall s, rK (RT s) = ibits s).
  Context (cap : nat) (cap_pos : (1 <= cap)%nat) (width : (mbs F + 2 <= W)%nat).
  Notation V := (bv (F := F) (RT := RT)).
  Notation p := (fu_p (F := F)).
  Notation from := (from_brillig (M := M) (RT := RT) dbg W du).
  Notation parse := (parse (M := M) (RT := RT) dbg W du).
  Notation add_entries := (add_entries (M := M) (RT := RT) dbg W du).

  Lemma from_wp v t x st : trel v t -> tparse1 t = Done x -> synced st ->
    wp cap (fun i => from i (st i) (v i)) (fun r => rel (fun i => fst (r i)) x /\ synced (fun i => snd (r i))).
  Proof.
    intros Hv E Hs. destruct t as [y|[y|n s]|]; cbn [tparse1] in E; [| | |discriminate].
    - injection E as <-. cbn in Hv. eapply wp_ext with (qs := fun i => Ret (RPub (into_field y), st i)); [intros i; rewrite Hv; reflexivity|].
      apply wp_ret. split; [intros i; reflexivity|exact Hs].
    - injection E as <-. destruct Hv as (w & (u & Hu & Eu) & Ew). eapply wp_ext with (qs := fun i => Ret (RSh (u i), st i)); [intros i; rewrite Ew, Eu; reflexivity|].
      apply wp_ret. split; [|exact Hs]. exists u. auto.
    - destruct (N.ltb_spec n p) as [L|]; [|discriminate]. injection E as <-. destruct Hv as (w & (u & y & Hu & <- & Eu) & Ew).
      eapply wp_ext with (qs := fun i => bind (ring_to_field (T := RT s) dbg W du i (st i) (u i)) (fun r => Ret (RSh (fst r), snd r))); [intros i; rewrite Ew, Eu; reflexivity|].
      apply wp_bind. eapply wp_mono; [|exact (ring_to_field_wp dbg du cap_pos width (is_pow2_size HK s) L Hs Hu)].
      intros r [R1 R2]. apply wp_ret. cbn. split; [|exact R2]. eexists. split; [reflexivity|exact R1].
  Qed.
  Lemma parse_wp z : forall v xs st, lrel v z -> tparse z = Done xs -> synced st ->
    wp cap (fun i => parse i (st i) (v i)) (fun r => pvec rel (fun i => fst (r i)) xs /\ synced (fun i => snd (r i))).
  Proof.
    induction z as [|t z IH]; intros v xs st Hv E Hs; cbn [tparse] in E.
    - injection E as <-. eapply wp_ext with (qs := fun i => Ret ([], st i)); [intros i; rewrite (lrel_nil_inv Hv i); reflexivity|].
      apply wp_ret. split; [apply pvec_nil; reflexivity|exact Hs].
    - destruct (tparse1 t) as [x|] eqn:E1; [|discriminate]. destruct (tparse z) as [l|] eqn:E2; [|discriminate]. injection E as <-.
      destruct (lrel_cons_inv Hv) as (h & u & Hh & Hu & Ev).
      eapply wp_ext; [intros i; rewrite Ev; cbn [AcvmBrillig.parse]; reflexivity|]. apply wp_bind. eapply wp_mono; [|exact (@from_wp h t x st Hh E1 Hs)].
      intros r [R1 R2]. apply wp_bind. eapply wp_mono; [|exact (IH u l _ Hu eq_refl R2)].
      intros r' [R3 R4]. apply wp_ret. cbn [fst snd]. split; [|exact R4].
      apply pvec_cons with (h := fun i => fst (r i)) (t := fun i => fst (r' i)); [reflexivity|exact R1|exact R3].
  Qed.

  (** the stored states of the parties *)
  Definition erel (e : pid -> list N * list V) (z : list N * list (tb F)) : Prop :=
    (forall i, fst (e i) = fst z) /\ lrel (fun i => snd (e i)) (snd z).
  (** the stored states after conversion *)
  Definition storel (e : pid -> list N * list (rv F)) (z : list N * list (tv F)) : Prop :=
    (forall i, fst (e i) = fst z) /\ pvec rel (fun i => snd (e i)) (snd z).
  Lemma prel_pvec pp ps : prel pp ps -> pvec erel pp ps.
  Proof.
    intros [K Hn]. assert (L : forall i, length (pp i) = length ps) by (intros i; rewrite <- (map_length fst), K, map_length; reflexivity).
    split; [exact L|]. intros n y Ey. assert (Ln : (n < length ps)%nat) by (apply nth_error_Some; congruence).
    exists (fun i => nth n (pp i) ([], [])). split; [intros i; apply List.nth_error_nth'; rewrite L; exact Ln|]. split.
    - intros i. rewrite <- (map_nth fst (pp i) ([], []) n), K. apply List.nth_error_nth. apply map_nth_error. exact Ey.
    - specialize (Hn n). rewrite (List.nth_error_nth (map snd ps) n [] (map_nth_error snd n ps Ey)) in Hn.
      eapply lrel_ext; [|exact Hn]. intros i. exact (map_nth snd (pp i) ([], []) n).
  Qed.
  Lemma tpss_keys ps : forall l, tpss ps = Done l -> map fst l = map fst ps.
  Proof.
    induction ps as [|[k z] ps IH]; intros l; cbn [tpss]; [intros E; injection E as <-; reflexivity|].
    destruct (tparse z); [|discriminate]. destruct (tpss ps) as [l'|]; [|discriminate]. cbn. intros E. injection E as <-. cbn. f_equal. apply IH. reflexivity.
  Qed.
  (** the entries in one order *)
  Lemma entries_wp ps : forall pp l st s0, pvec erel pp ps -> tpss ps = Done l -> NoDup (map fst ps) ->
    (forall i k, In k (map fst ps) -> assoc k (s0 i) = None) -> synced st ->
    wp cap (fun i => add_entries i (st i) (s0 i) (pp i))
      (fun r => (exists nw, (forall i, fst (r i) = s0 i ++ nw i) /\ pvec storel nw l) /\ synced (fun i => snd (r i))).
  Proof.
    induction ps as [|[k z] ps IH]; intros pp l st s0 Hp E ND Hd Hs; cbn [tpss] in E.
    - injection E as <-. eapply wp_ext with (qs := fun i => Ret (s0 i, st i)); [intros i; rewrite (pvec_nil_inv Hp i); reflexivity|].
      apply wp_ret. split; [|exact Hs]. exists (fun _ => []). split; [intros i; rewrite app_nil_r; reflexivity|apply pvec_nil; reflexivity].
    - destruct (tparse z) as [x|] eqn:E1; [|discriminate]. destruct (tpss ps) as [l'|] eqn:E2; [|discriminate]. injection E as <-.
      destruct (pvec_cons_inv Hp) as (h & q & Eh & [Hk Hz] & Hq). cbn [map fst snd] in *. inversion ND as [|? ? Hn ND']; subst.
      eapply wp_ext with (qs := fun i => bind (parse i (st i) (snd (h i))) (fun r => match assoc k (s0 i) with Some _ => _ | None => add_entries i (snd r) (s0 i ++ [(k, fst r)]) (q i) end)).
      { intros i. rewrite Eh. destruct (h i) as [k' vs] eqn:Ei. specialize (Hk i). rewrite Ei in Hk. cbn in Hk. subst k'. reflexivity. }
      apply wp_bind. eapply wp_mono; [|exact (parse_wp Hz E1 Hs)]. intros r [R1 R2].
      eapply wp_ext with (qs := fun i => add_entries i (snd (r i)) (s0 i ++ [(k, fst (r i))]) (q i)); [intros i; rewrite (Hd i k) by (left; reflexivity); reflexivity|].
      eapply wp_mono; [|apply (IH q l' (fun i => snd (r i)) (fun i => s0 i ++ [(k, fst (r i))]) Hq eq_refl ND'); [|exact R2]].
      + intros w [(nw & Enw & Hnw) Hsw]. split; [|exact Hsw]. exists (fun i => (k, fst (r i)) :: nw i). split; [intros i; rewrite Enw, <- app_assoc; reflexivity|].
        apply pvec_cons with (h := fun i => (k, fst (r i))) (t := nw); [reflexivity| |exact Hnw]. split; [reflexivity|exact R1].
      + intros i k' Hi. rewrite assoc_app, (Hd i k') by (right; exact Hi). cbn. rewrite mem_key_neq; [reflexivity|]. intros ->. contradiction.
  Qed.

  (** values converted without communication *)
  Definition conv (v : V) : rv F := match v with BPub x => RPub (into_field x) | BShr (SF s) => RSh s | BShr (SI _ _) => RPub 0 end.
  Definition quietv (v : V) : bool := match v with BShr (SI _ _) => false | _ => true end.
  Lemma parse_quiet i st l : forallb quietv l = true -> parse i st l = Ret (map conv l, st).
  Proof.
    induction l as [|v l IH]; [reflexivity|]. cbn [forallb]. intros [Hv Hl]%andb_prop. cbn [AcvmBrillig.parse map].
    destruct v as [x|[s|s y]]; [| |discriminate]; cbn [AcvmBrillig.from_brillig bind fst snd]; rewrite (IH Hl); reflexivity.
  Qed.
  Lemma entries_quiet i st l : forall s0, forallb (fun e => forallb quietv (snd e)) l = true -> NoDup (map fst l) ->
    (forall k, In k (map fst l) -> assoc k s0 = None) ->
    add_entries i st s0 l = Ret (s0 ++ map (fun e => (fst e, map conv (snd e))) l, st).
  Proof.
    induction l as [|[k vs] l IH]; intros s0 Hq ND Hd; cbn [AcvmBrillig.add_entries map]; [rewrite app_nil_r; reflexivity|].
    cbn [forallb map fst snd] in *. apply andb_prop in Hq as [Hv Hl]. inversion ND as [|? ? Hn ND']; subst.
    rewrite (parse_quiet i st vs Hv). cbn [bind fst snd]. rewrite (Hd k) by (left; reflexivity). rewrite IH; [rewrite <- app_assoc; reflexivity|exact Hl|exact ND'|].
    intros k' Hi. rewrite assoc_app, (Hd k') by (right; exact Hi). cbn. rewrite mem_key_neq; [reflexivity|]. intros ->. contradiction.
  Qed.
  Lemma quiet_trel v t x : trel v t -> quiet t = true -> tparse1 t = Done x -> rel (fun i => conv (v i)) x /\ forall i, quietv (v i) = true.
  Proof.
    intros Hv Hq E. destruct t as [y|[y|n s]|]; cbn [tparse1] in E; [| |discriminate Hq|discriminate].
    - injection E as <-. cbn in Hv. split; intros i; rewrite Hv; reflexivity.
    - injection E as <-. destruct Hv as (w & (u & Hu & Eu) & Ew). split; [|intros i; rewrite Ew, Eu; reflexivity].
      exists u. split; [|exact Hu]. intros i. rewrite Ew, Eu. reflexivity.
  Qed.
  Lemma quiet_lrel z : forall v xs, lrel v z -> forallb quiet z = true -> tparse z = Done xs ->
    pvec rel (fun i => map conv (v i)) xs /\ forall i, forallb quietv (v i) = true.
  Proof.
    induction z as [|t z IH]; intros v xs Hv Hq E; cbn [tparse forallb] in *.
    - injection E as <-. split; [apply pvec_nil|]; intros i; rewrite (lrel_nil_inv Hv i); reflexivity.
    - apply andb_prop in Hq as [Hq1 Hq2]. destruct (tparse1 t) as [x|] eqn:E1; [|discriminate]. destruct (tparse z) as [l|] eqn:E2; [|discriminate]. injection E as <-.
      destruct (lrel_cons_inv Hv) as (h & u & Hh & Hu & Ev). destruct (@quiet_trel h t x Hh Hq1 E1) as [A1 A2]. destruct (IH u l Hu Hq2 eq_refl) as [B1 B2]. split.
      + apply pvec_cons with (h := fun i => conv (h i)) (t := fun i => map conv (u i)); [intros i; rewrite Ev; reflexivity|exact A1|exact B1].
      + intros i. rewrite Ev. cbn. rewrite A2, B2. reflexivity.
  Qed.
  Lemma quiet_entries ps : forall pp l, pvec erel pp ps -> quiet_pss ps = true -> tpss ps = Done l ->
    pvec storel (fun i => map (fun e => (fst e, map conv (snd e))) (pp i)) l /\ forall i, forallb (fun e => forallb quietv (snd e)) (pp i) = true.
  Proof.
    induction ps as [|[k z] ps IH]; intros pp l Hp Hq E; cbn [tpss quiet_pss forallb snd] in *.
    - injection E as <-. split; [apply pvec_nil|]; intros i; rewrite (pvec_nil_inv Hp i); reflexivity.
    - apply andb_prop in Hq as [Hq1 Hq2]. destruct (tparse z) as [x|] eqn:E1; [|discriminate]. destruct (tpss ps) as [l'|] eqn:E2; [|discriminate]. injection E as <-.
      destruct (pvec_cons_inv Hp) as (h & q & Eh & [Hk Hz] & Hr). destruct (quiet_lrel Hz Hq1 E1) as [A1 A2]. destruct (IH q l' Hr Hq2 eq_refl) as [B1 B2]. split.
      + apply pvec_cons with (h := fun i => (fst (h i), map conv (snd (h i)))) (t := fun i => map (fun e => (fst e, map conv (snd e))) (q i));
          [intros i; rewrite Eh; reflexivity|split; [exact Hk|exact A1]|exact B1].
      + intros i. rewrite Eh. cbn [forallb]. rewrite A2, B2. reflexivity.
  Qed.

  (** ** The store *)
  (** the parties have stored [l], and nothing else, in whatever order *)
  Definition stored (s : pid -> list (list N * list (rv F))) (l : list (list N * list (tv F))) : Prop :=
    (forall k xs, In (k, xs) l -> exists v, (forall i, assoc k (s i) = Some (v i)) /\ pvec rel v xs) /\
    forall i k, In k (map fst (s i)) <-> In k (map fst l).
  Lemma pvec_keys s l : pvec storel s l -> forall i, map fst (s i) = map fst l.
  Proof.
    revert s. induction l as [|e l IH]; intros s Hs i; [rewrite (pvec_nil_inv Hs i); reflexivity|].
    destruct (pvec_cons_inv Hs) as (h & q & Eh & [Hk _] & Hq). rewrite Eh. cbn. rewrite Hk, (IH q Hq). reflexivity.
  Qed.
  Lemma pvec_stored s s' l : pvec storel s l -> NoDup (map fst l) -> (forall i, Permutation (s' i) (s i)) -> stored s' l.
  Proof.
    intros Hs ND Hp. split.
    - intros k xs Hi. apply In_nth_error in Hi as [n En]. destruct Hs as [L Hn]. destruct (Hn n _ En) as (e & He & [K1 K2]).
      exists (fun i => snd (e i)). split; [|exact K2]. intros i. apply assoc_in.
      + apply (Permutation_NoDup (Permutation_map fst (Permutation_sym (Hp i)))). rewrite (@pvec_keys s l (conj L Hn) i). exact ND.
      + apply (Permutation_in _ (Permutation_sym (Hp i))). apply (nth_error_In _ n). rewrite He. specialize (K1 i). cbn in K1. rewrite <- K1. destruct (e i); reflexivity.
    - intros i k. rewrite <- (pvec_keys Hs i). split; apply Permutation_in; [|apply Permutation_sym]; apply Permutation_map, Hp.
  Qed.
  Variable order : pid -> list (list N) -> list nat.
  Context (order_perm : forall i ks, Permutation (order i ks) (seq 0 (length ks))).
  Notation add := (add_from_brillig (M := M) (RT := RT) dbg W du order).
  Lemma tpss_perm ix ps : forall l, tpss ps = Done l -> tpss (reorder ix ps) = Done (reorder ix l).
  Proof.
    intros l E. assert (Hn : forall k, match nth_error ps k with
        | Some (kk, z) => exists x, tparse z = Done x /\ nth_error l k = Some (kk, x) | None => nth_error l k = None end).
    { revert l E. induction ps as [|[k z] ps IH]; intros l E; cbn [tpss] in E.
      - injection E as <-. intros [|k]; reflexivity.
      - destruct (tparse z) as [x|] eqn:E1; [|discriminate]. destruct (tpss ps) as [l'|] eqn:E2; [|discriminate]. injection E as <-.
        intros [|n]; [exists x; split; [exact E1|reflexivity]|]. exact (IH l' eq_refl n). }
    clear E. induction ix as [|k ix IH]; [reflexivity|]. unfold reorder in *. cbn [flat_map]. specialize (Hn k).
    destruct (nth_error ps k) as [[kk z]|]; [|rewrite Hn; exact IH]. destruct Hn as (x & E1 & E2). rewrite E2. cbn [app tpss]. rewrite E1. cbn [obind]. rewrite IH. reflexivity.
  Qed.
  (** the parties iterate in one order, or convert without communication *)
  Theorem store_wp pp ps l st s0 : pvec erel pp ps -> tpss ps = Done l -> NoDup (map fst ps) ->
    (forall i, order i (map fst ps) = order P0 (map fst ps)) \/ quiet_pss ps = true ->
    (forall i k, In k (map fst ps) -> assoc k (s0 i) = None) -> synced st ->
    wp cap (fun i => add i (st i) (s0 i) (pp i))
      (fun r => (exists nw, (forall i, fst (r i) = s0 i ++ nw i) /\ stored nw l) /\ synced (fun i => snd (r i))).
  Proof.
    intros Hp E ND Ho Hd Hs. unfold add_from_brillig.
    assert (K : forall i, map fst (pp i) = map fst ps).
    { clear -Hp. revert pp Hp. induction ps as [|e ps IH]; intros pp Hp i; [rewrite (pvec_nil_inv Hp i); reflexivity|].
      destruct (pvec_cons_inv Hp) as (h & q & Eh & [Hk _] & Hq). rewrite Eh. cbn. rewrite Hk, (IH q Hq). reflexivity. }
    assert (Pm : forall i X (q : list X), length q = length ps -> Permutation (reorder (order i (map fst ps)) q) q).
    { intros i X q Lq. apply reorder_perm. rewrite Lq, <- (map_length fst ps). apply order_perm. }
    assert (NDl : NoDup (map fst l)) by (rewrite (tpss_keys ps E); exact ND).
    assert (Ll : length l = length ps) by (rewrite <- (map_length fst l), (tpss_keys ps E); apply map_length).
    destruct Ho as [Ho|Hq].
    - set (ix := order P0 (map fst ps)). eapply wp_ext with (qs := fun i => add_entries i (st i) (s0 i) (reorder ix (pp i))); [intros i; rewrite K, Ho; reflexivity|].
      eapply wp_mono; [|apply (@entries_wp (reorder ix ps) (fun i => reorder ix (pp i)) (reorder ix l) st s0)].
      + intros r [(nw & Enw & Hnw) Hsr]. split; [|exact Hsr]. exists nw. split; [exact Enw|].
        assert (G : stored nw (reorder ix l)).
        { apply (@pvec_stored nw nw (reorder ix l) Hnw); [|intros i; reflexivity]. apply (Permutation_NoDup (Permutation_map fst (Permutation_sym (Pm P0 _ l Ll)))). exact NDl. }
        destruct G as [G1 G2]. split.
        * intros k xs Hi. apply G1. apply (Permutation_in _ (Permutation_sym (Pm P0 _ l Ll))). exact Hi.
        * intros i k. rewrite G2. split; apply Permutation_in; [|apply Permutation_sym]; apply Permutation_map; exact (Pm P0 _ l Ll).
      + apply pvec_reorder. exact Hp.
      + apply tpss_perm. exact E.
      + apply (Permutation_NoDup (Permutation_map fst (Permutation_sym (Pm P0 _ ps eq_refl)))). exact ND.
      + intros i k Hi. apply Hd. revert Hi. apply Permutation_in. apply Permutation_map. exact (Pm P0 _ ps eq_refl).
      + exact Hs.
    - destruct (quiet_entries Hp Hq E) as [Q1 Q2].
      set (nw := fun i => map (fun e => (fst e, map conv (snd e))) (reorder (order i (map fst ps)) (pp i))).
      assert (Lp : forall i, length (pp i) = length ps) by (intros i; rewrite <- (map_length fst (pp i)), K; apply map_length).
      eapply wp_ext with (qs := fun i => Ret (s0 i ++ nw i, st i)).
      { intros i. rewrite K. subst nw. cbv beta. pose proof (Pm i _ (pp i) (Lp i)) as P. apply entries_quiet.
        - apply forallb_forall. intros e Hi. specialize (Q2 i). rewrite forallb_forall in Q2. apply Q2. exact (Permutation_in _ P Hi).
        - apply (Permutation_NoDup (Permutation_map fst (Permutation_sym P))). rewrite K. exact ND.
        - intros k Hi. apply Hd. rewrite <- (K i). exact (Permutation_in _ (Permutation_map fst P) Hi). }
      apply wp_ret. split; [|exact Hs]. exists nw. split; [reflexivity|].
      apply (@pvec_stored _ nw l Q1 NDl). intros i. subst nw. cbv beta. apply Permutation_map. exact (Pm i _ (pp i) (Lp i)).
  Qed.
End Wp.
