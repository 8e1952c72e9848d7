(** * Replicated sharing over Z/2^K: correctness under every schedule *)
From Coq Require Import String List Arith NArith Lia Bool Ring.
From Verif Require Import Proc Alg Rep3Net Rep3 Rep3Spec Rep3Proofs Rep3Wp Uint Binary BinaryWp Conv ConvWp CmpWp Ring2k.
Import ListNotations.
Set Implicit Arguments.
Local Open Scope grp_scope.

(** ** The prefix network on plain integers *)
Section RVal.
  Local Open Scope N_scope.
  Variable K : nat.
  Fixpoint rks_vals (k j : nat) (p g : N) : N :=
    match k with
    | O => g
    | S k => let s := (2 ^ j)%nat in
             rks_vals k (S j) (N.land p (ushl K p s)) (N.lxor g (N.land (ushl K g s) p))
    end.
  Definition rks_g (p g : N) : N := rks_vals (Nat.log2 K) 0 p g.
  Definition rks_sum (p g : N) : N := N.lxor (ushl K (rks_g p g) 1) p.

  Variables (p g : N).
  Definition rks_inv (s : nat) (p' g' : N) : Prop :=
    (forall j, (j < K)%nat -> ubit g' j = gen p g s j) /\ (forall j, (j < K)%nat -> ubit p' j = prop p s j).
  Lemma rks_vals_inv k : forall j p' g', rks_inv (2 ^ j) p' g' ->
    forall i, (i < K)%nat -> ubit (rks_vals k j p' g') i = gen p g (2 ^ (j + k)) i.
  Proof.
    induction k as [|k IH]; intros j p' g' [Ig Ip] i Hi; cbn [rks_vals].
    - rewrite Nat.add_0_r. apply Ig. exact Hi.
    - rewrite Nat.add_succ_r, <- Nat.add_succ_l. apply IH; [|exact Hi]. clear i Hi.
      assert (Hs : (1 <= 2 ^ j)%nat) by (clear; induction j; cbn; lia).
      replace (2 ^ S j)%nat with (2 ^ j + 2 ^ j)%nat by (cbn; lia). set (s := (2 ^ j)%nat) in *. split; intros i Hi.
      + rewrite ubit_lxor, ubit_land, ubit_shl, gen_split, Ig, Ip by exact Hi.
        destruct (Nat.ltb_spec i K); [|lia]. cbn [andb]. destruct (Nat.leb_spec s i) as [C|C].
        * rewrite Ig by lia. cbn [andb]. rewrite andb_comm. reflexivity.
        * cbn. rewrite andb_false_r. reflexivity.
      + rewrite ubit_land, ubit_shl, prop_split, Ip by assumption.
        destruct (Nat.ltb_spec i K); [|lia]. cbn [andb]. destruct (Nat.leb_spec s i) as [C|C]; [|reflexivity].
        rewrite Ip by lia. reflexivity.
  Qed.
  Lemma rks_g_bits : is_pow2 K = true -> forall i, (i < K)%nat -> ubit (rks_g p g) i = gen p g (S i) i.
  Proof.
    intros E i Hi. apply Nat.eqb_eq in E. unfold rks_g. rewrite rks_vals_inv; [|split|exact Hi].
    - rewrite Nat.add_0_l, E. apply gen_full. exact Hi.
    - intros j _. destruct j; [|cbn]; rewrite ?andb_false_r, ?xorb_false_r; cbn; rewrite ?andb_false_r, ?xorb_false_r; reflexivity.
    - intros j _. destruct j; cbn; rewrite andb_true_r; reflexivity.
  Qed.
End RVal.

Section RValAdd.
  Local Open Scope N_scope.
  Variable K : nat.
  Hypothesis pw : is_pow2 K = true.
  Lemma pow2_pos : (1 <= K)%nat.
  Proof.
    destruct K; [|lia]. discriminate pw.
  Qed.
  Lemma testbit_top s : s < 2 * 2 ^ N.of_nat K -> ubit s K = (2 ^ N.of_nat K <=? s).
  Proof.
    intros L. unfold ubit. assert (2 ^ N.of_nat K <> 0) by (apply N.pow_nonzero; discriminate). destruct (N.leb_spec (2 ^ N.of_nat K) s) as [C|C].
    - apply N.testbit_true. replace s with ((s - 2 ^ N.of_nat K) + 1 * 2 ^ N.of_nat K)%N by lia.
      rewrite N.div_add by lia. rewrite N.div_small by lia. reflexivity.
    - apply N.testbit_false. rewrite N.div_small by lia. reflexivity.
  Qed.
  (** Both outputs of the adder with carry-in. *)
  Lemma rks_val_add x y (c0 : bool) : x < 2 ^ N.of_nat K -> y < 2 ^ N.of_nat K ->
    let p := N.lxor x y in let g := N.lxor (N.land x y) (if c0 then N.land (N.lxor x y) 1 else 0) in
    N.lxor (rks_sum K p g) (N.b2n c0) = (x + y + N.b2n c0) mod 2 ^ N.of_nat K /\
    ubit (rks_g K p g) (K - 1) = (2 ^ N.of_nat K <=? x + y + N.b2n c0).
  Proof.
    intros Hx Hy p g. pose proof pow2_pos as HK. destruct (carry_exists x y c0) as (c & E1 & Hc & H0).
    pose proof (gen_carry _ _ _ Hc H0) as Hgen. fold p in Hgen. fold g in Hgen.
    assert (HL : x + y + N.b2n c0 < 2 * 2 ^ N.of_nat K) by (destruct c0; cbn [N.b2n]; lia).
    split.
    - rewrite <- land_mask, E1. apply ubit_ext. intros j. rewrite ubit_land, ubit_mask, !ubit_lxor. unfold rks_sum.
      rewrite ubit_lxor, ubit_shl.
      assert (Bj : ubit (N.b2n c0) j = (c0 && (j =? 0)%nat)%bool) by (destruct c0, j; reflexivity). rewrite Bj.
      destruct (Nat.ltb_spec j K) as [L|L]; cbn [andb].
      + rewrite andb_true_r. destruct j as [|j].
        * cbn. rewrite andb_true_r. unfold p. rewrite ubit_lxor, H0.
          destruct (ubit x 0), (ubit y 0), c0; reflexivity.
        * cbn [Nat.leb Nat.eqb andb]. rewrite andb_false_r, xorb_false_r.
          replace (S j - 1)%nat with j by lia. rewrite (rks_g_bits p g pw) by lia. rewrite Hgen. unfold p. rewrite ubit_lxor.
          destruct (ubit c (S j)), (ubit x (S j)), (ubit y (S j)); reflexivity.
      + rewrite andb_false_r. unfold p. rewrite ubit_lxor, (ubit_high Hx L), (ubit_high Hy L).
        destruct (Nat.eqb_spec j 0); [lia|]. rewrite andb_false_r. reflexivity.
    - rewrite (rks_g_bits p g pw) by lia. rewrite Hgen. replace (S (K - 1)) with K by lia.
      rewrite <- (testbit_top HL), E1, !ubit_lxor, (ubit_high Hx (Nat.le_refl K)), (ubit_high Hy (Nat.le_refl K)).
      destruct (ubit c K); reflexivity.
  Qed.
  Lemma rks_val_plain x y : x < 2 ^ N.of_nat K -> y < 2 ^ N.of_nat K ->
    rks_sum K (N.lxor x y) (N.land x y) = (x + y) mod 2 ^ N.of_nat K /\
    ubit (rks_g K (N.lxor x y) (N.land x y)) (K - 1) = (2 ^ N.of_nat K <=? x + y).
  Proof.
    intros Hx Hy. pose proof (@rks_val_add x y false Hx Hy) as [E1 E2]. cbn [N.b2n] in *.
    rewrite !N.lxor_0_r, N.add_0_r in *. auto.
  Qed.
  Lemma rks_val_carry x y : x < 2 ^ N.of_nat K -> y < 2 ^ N.of_nat K ->
    N.lxor (rks_sum K (N.lxor x y) (N.lxor (N.land x y) (N.land (N.lxor x y) 1))) 1 = (x + y + 1) mod 2 ^ N.of_nat K /\
    ubit (rks_g K (N.lxor x y) (N.lxor (N.land x y) (N.land (N.lxor x y) 1))) (K - 1) = (2 ^ N.of_nat K <=? x + y + 1).
  Proof. exact (@rks_val_add x y true). Qed.
End RValAdd.

Section RBinWp.
  Context {S M : Type} (dbg : bool) (K : nat) (dn : S -> N * S).
  Context {EN : Enc M (list N)} {ENN : Enc M (list (N * N))}
          {EL : Enc M (list (list N))} {ELL : Enc M (list (list N * list N))}
          (cap : nat) (cap_pos : (1 <= cap)%nat).
  Implicit Types (st : pid -> rst S).
  Notation du := (rdu dn).
  Notation bit_result := (@bit_result S).

  Lemma rks_rounds_wp k : forall j st p g x y, synced st -> shares p x -> shares g y ->
    wp cap (fun i => rks_rounds K dn i k j (st i) (p i) (g i))
      (fun r => shares (fun i => fst (r i)) (rks_vals K k j x y) /\ synced (fun i => snd (r i))).
  Proof.
    induction k as [|k IH]; intros j st p g x y Hs Hp Hg; cbn [rks_rounds rks_vals].
    - apply wp_ret. cbn [fst snd]. auto.
    - cbv zeta. set (s := (2 ^ j)%nat). apply wp_bind.
      eapply wp_mono; [|eapply and_twice_wp; [exact cap_pos|exact Hs|exact Hp|exact (shmap_ok (@lin3_shl K s) Hg)|exact (shmap_ok (@lin3_shl K s) Hp)]].
      intros r (R1 & R2 & R3). eapply wp_mono; [|apply IH; [exact R3|exact R2|exact (shadd_ok Hg R1)]].
      intros q Q. exact Q.
  Qed.
  (** the debug assertion passes *)
  Context (ok : (dbg && negb (is_pow2 K))%bool = false).
  Lemma pow2_assert_ok {A} (p : prog pid M A) : pow2_assert dbg K p = p.
  Proof. unfold pow2_assert. rewrite ok. reflexivity. Qed.
  (** whatever [K]: what the adders compute *)
  Lemma rks_inner_carry_wp st p g x y : synced st -> shares p x -> shares g y ->
    wp cap (fun i => rks_inner_carry dbg K dn i (st i) (p i) (g i))
      (fun r => shares (fun i => fst (fst (r i))) (rks_sum K x y) /\
                shares (fun i => snd (fst (r i))) (N.b2n (ubit (rks_g K x y) (K - 1))) /\
                narrow 1 (fun i => snd (fst (r i))) /\ synced (fun i => snd (r i))).
  Proof.
    intros Hs Hp Hg. unfold rks_inner_carry, rks_loop. apply wp_bind. eapply wp_ext; [intros i; apply pow2_assert_ok|].
    eapply wp_mono; [|apply (rks_rounds_wp _ _ Hs Hp Hg)]. intros r [R1 R2]. apply wp_ret. cbn [fst snd].
    split; [exact (shadd_ok (shmap_ok (@lin3_shl K 1) R1) Hp)|]. split; [|split; [apply narrow_mask1|exact R2]].
    replace (N.b2n _) with (N.land (ushr (rks_g K x y) (K - 1)) 1).
    - exact (shmap_ok (@lin3_land 1) (shmap_ok (@lin3_shr (K - 1)) R1)).
    - rewrite land1, ubit_shr. reflexivity.
  Qed.
  Lemma rks_inner_wp st p g x y : synced st -> shares p x -> shares g y ->
    wp cap (fun i => rks_inner dbg K dn i (st i) (p i) (g i))
      (fun r => shares (fun i => fst (r i)) (rks_sum K x y) /\ synced (fun i => snd (r i))).
  Proof.
    intros Hs Hp Hg. unfold rks_inner, rks_loop. apply wp_bind. eapply wp_ext; [intros i; apply pow2_assert_ok|].
    eapply wp_mono; [|apply (rks_rounds_wp _ _ Hs Hp Hg)]. intros r [R1 R2]. apply wp_ret. cbn [fst snd].
    split; [exact (shadd_ok (shmap_ok (@lin3_shl K 1) R1) Hp)|exact R2].
  Qed.
  Lemma rks_add_any_wp st a b x y : synced st -> shares a x -> shares b y ->
    wp cap (fun i => rks_add dbg K dn i (st i) (a i) (b i))
      (fun r => shares (fun i => fst (r i)) (rks_sum K (N.lxor x y) (N.land x y)) /\ synced (fun i => snd (r i))).
  Proof.
    intros Hs Ha Hb. unfold rks_add. apply wp_bind. eapply wp_mono; [|apply (band_wp K du cap_pos Hs Ha Hb)].
    intros r [R1 R2]. exact (rks_inner_wp R2 (shadd_ok Ha Hb) R1).
  Qed.
  Lemma rks_rounds_many_wp {X} (l : list X) k : forall j st p g (f h : X -> N), synced st ->
    shares_vec p (map f l) -> shares_vec g (map h l) ->
    wp cap (fun i => rks_rounds_many K dn i k j (st i) (p i) (g i))
      (fun r => shares_vec (fun i => fst (r i)) (map (fun x => rks_vals K k j (f x) (h x)) l) /\ synced (fun i => snd (r i))).
  Proof.
    induction k as [|k IH]; intros j st p g f h Hs Hp Hg; cbn [rks_rounds_many rks_vals].
    - apply wp_ret. cbn [fst snd]. auto.
    - cbv zeta. set (s := (2 ^ j)%nat). apply wp_bind.
      eapply wp_mono; [|eapply and_twice_many_wp; [exact cap_pos|exact Hs|exact Hp|exact (shmap_vec_ok (@lin3_shl K s) Hg)|exact (shmap_vec_ok (@lin3_shl K s) Hp)]].
      intros r (R1 & R2 & R3). eapply wp_mono; [|eapply IH; [exact R3|exact R2|exact (shadd_vec_ok _ _ _ Hg R1)]].
      intros q Q. exact Q.
  Qed.
  Lemma rks_add_many_any_wp {X} (l : list X) st a b (f g : X -> N) : synced st -> shares_vec a (map f l) -> shares_vec b (map g l) ->
    wp cap (fun i => rks_add_many dbg K dn i (st i) (a i) (b i))
      (fun r => shares_vec (fun i => fst (r i)) (map (fun x => rks_sum K (N.lxor (f x) (g x)) (N.land (f x) (g x))) l) /\ synced (fun i => snd (r i))).
  Proof.
    intros Hs Ha Hb. unfold rks_add_many. apply wp_bind. eapply wp_mono; [|apply (band_vec_wp K du cap_pos Hs Ha Hb)].
    intros r0 [R01 R02]. rewrite combine_map2_map in R01. unfold rks_inner_many.
    eapply wp_ext; [intros i; apply pow2_assert_ok|]. apply wp_bind.
    eapply wp_mono; [|eapply rks_rounds_many_wp; [exact R02|exact (shadd_vec_ok _ _ _ Ha Hb)|exact R01]].
    intros r [R1 R2]. apply wp_ret. cbn [fst snd]. split; [|exact R2].
    eapply pvec_ext; [|exact (shadd_vec_ok _ _ _ (shmap_vec_ok (@lin3_shl K 1) R1) (shadd_vec_ok _ _ _ Ha Hb))].
    intros i. apply map2_map_l.
  Qed.

  Context (pw : is_pow2 K = true).
  Lemma rks_add_wp st a b x y : (x < 2 ^ N.of_nat K)%N -> (y < 2 ^ N.of_nat K)%N -> synced st -> shares a x -> shares b y ->
    wp cap (fun i => rks_add dbg K dn i (st i) (a i) (b i))
      (fun r => shares (fun i => fst (r i)) ((x + y) mod 2 ^ N.of_nat K)%N /\ synced (fun i => snd (r i))).
  Proof.
    intros Hx Hy Hs Ha Hb. eapply wp_mono; [|apply (rks_add_any_wp Hs Ha Hb)]. intros r [R1 R2]. split; [|exact R2].
    rewrite <- (proj1 (rks_val_plain K pw Hx Hy)). exact R1.
  Qed.
  Lemma rks_add_many_wp {X} (l : list X) st a b (f g : X -> N) : (forall x, In x l -> f x < 2 ^ N.of_nat K /\ g x < 2 ^ N.of_nat K)%N ->
    synced st -> shares_vec a (map f l) -> shares_vec b (map g l) ->
    wp cap (fun i => rks_add_many dbg K dn i (st i) (a i) (b i))
      (fun r => shares_vec (fun i => fst (r i)) (map (fun x => (f x + g x) mod 2 ^ N.of_nat K)%N l) /\ synced (fun i => snd (r i))).
  Proof.
    intros Hfg Hs Ha Hb. eapply wp_mono; [|apply (rks_add_many_any_wp l _ _ Hs Ha Hb)]. intros r [R1 R2]. split; [|exact R2].
    erewrite map_ext_in; [exact R1|]. intros x Hin. destruct (Hfg x Hin) as [Hx Hy]. symmetry. exact (proj1 (rks_val_plain K pw Hx Hy)).
  Qed.

  Lemma compl_val' x : (x < 2 ^ N.of_nat K)%N -> N.lxor x (umask K) = (2 ^ N.of_nat K - 1 - x)%N.
  Proof. exact (@compl_val cap cap_pos K x). Qed.
  (** difference and comparison *)
  Definition sub_result (r : pid -> (share N * share N) * rst S) (x y : N) : Prop :=
    shares (fun i => fst (fst (r i))) ((2 ^ N.of_nat K + x - y) mod 2 ^ N.of_nat K)%N /\
    shares (fun i => snd (fst (r i))) (N.b2n (y <=? x)%N) /\
    narrow 1 (fun i => snd (fst (r i))) /\ synced (fun i => snd (r i)).
  Lemma rks_sub_wp st a b x y : (x < 2 ^ N.of_nat K)%N -> (y < 2 ^ N.of_nat K)%N -> synced st -> shares a x -> shares b y ->
    wp cap (fun i => rks_sub dbg K dn i (st i) (a i) (b i)) (fun r => sub_result r x y).
  Proof.
    intros Hx Hy Hs Ha Hb. unfold rks_sub. cbv zeta.
    pose proof (shmap_ok (@lin3_lxor (umask K)) Hb) as Hb'. pose proof (shadd_ok Ha Hb') as Hp.
    apply wp_bind. eapply wp_mono; [|apply (band_wp K du cap_pos Hs Ha Hb')]. intros r [R1 R2]. apply wp_bind.
    eapply wp_mono; [|apply (rks_inner_carry_wp R2 Hp (shadd_ok R1 (shmap_ok (@lin3_land 1) Hp)))].
    intros q (Q1 & Q2 & Q3 & Q4). apply wp_ret. cbn [fst snd].
    pose proof (compl_val' Hy) as Ec. assert (Lc : (N.lxor y (umask K) < 2 ^ N.of_nat K)%N) by (rewrite Ec; lia).
    destruct (rks_val_carry K pw Hx Lc) as [V1 V2].
    split; [|split; [|split; [exact Q3|exact Q4]]].
    - replace (2 ^ N.of_nat K + x - y)%N with (x + N.lxor y (umask K) + 1)%N by (rewrite Ec; lia).
      rewrite <- V1. exact (add_public_ok 1%N Q1).
    - replace (y <=? x)%N with (2 ^ N.of_nat K <=? x + N.lxor y (umask K) + 1)%N; [rewrite <- V2; exact Q2|].
      rewrite Ec. destruct (N.leb_spec y x), (N.leb_spec (2 ^ N.of_nat K) (x + (2 ^ N.of_nat K - 1 - y) + 1)); try reflexivity; lia.
  Qed.
  Lemma rks_sub_from_const_wp st b x y : (x < 2 ^ N.of_nat K)%N -> (y < 2 ^ N.of_nat K)%N -> synced st -> shares b y ->
    wp cap (fun i => rks_sub_from_const dbg K dn i (st i) x (b i)) (fun r => sub_result r x y).
  Proof.
    intros Hx Hy Hs Hb. unfold rks_sub_from_const. cbv zeta.
    pose proof (shmap_ok (@lin3_lxor (umask K)) Hb) as Hb'. cbv beta in Hb'.
    pose proof (add_public_ok x Hb') as Hp. pose proof (shmap_ok (@lin3_land x) Hb') as Hg.
    apply wp_bind. eapply wp_mono; [|apply (rks_inner_carry_wp Hs Hp (shadd_ok Hg (shmap_ok (@lin3_land 1) Hp)))].
    intros q (Q1 & Q2 & Q3 & Q4). apply wp_ret. cbn [fst snd].
    pose proof (compl_val' Hy) as Ec. assert (Lc : (N.lxor y (umask K) < 2 ^ N.of_nat K)%N) by (rewrite Ec; lia).
    destruct (rks_val_carry K pw Lc Hx) as [V1 V2].
    split; [|split; [|split; [exact Q3|exact Q4]]].
    - replace (2 ^ N.of_nat K + x - y)%N with (N.lxor y (umask K) + x + 1)%N by (rewrite Ec; lia).
      rewrite <- V1. exact (add_public_ok 1%N Q1).
    - replace (y <=? x)%N with (2 ^ N.of_nat K <=? N.lxor y (umask K) + x + 1)%N; [rewrite <- V2; exact Q2|].
      rewrite Ec. destruct (N.leb_spec y x), (N.leb_spec (2 ^ N.of_nat K) (2 ^ N.of_nat K - 1 - y + x + 1)); try reflexivity; lia.
  Qed.
  Lemma bnot_ok s (b : bool) : shares s (N.b2n b) -> narrow 1 s ->
    shares (fun i => bnot (s i)) (N.b2n (negb b)) /\ narrow 1 (fun i => bnot (s i)).
  Proof.
    intros Hs Hn. split.
    - replace (N.b2n (negb b)) with (N.lxor (N.b2n b) 1) by (destruct b; reflexivity). exact (shmap_ok (@lin3_lxor 1) Hs).
    - intros i. destruct (Hn i) as [A B]. cbn. change (2 ^ N.of_nat 1)%N with 2%N in *.
      split.
      + destruct (sa (s i)) as [|[| |]]; cbn; try lia; cbn in A; lia.
      + destruct (sb (s i)) as [|[| |]]; cbn; try lia; cbn in B; lia.
  Qed.
  Lemma rks_sub_by_const_wp st a x y : (x < 2 ^ N.of_nat K)%N -> (y < 2 ^ N.of_nat K)%N -> synced st -> shares a x ->
    wp cap (fun i => rks_sub_by_const dbg K dn i (st i) (a i) y) (fun r => sub_result r x y).
  Proof.
    intros Hx Hy Hs Ha. unfold rks_sub_by_const. cbv zeta.
    set (c := ((N.lxor y (umask K) + 1) mod 2 ^ N.of_nat K)%N).
    assert (Lc : (c < 2 ^ N.of_nat K)%N) by (apply N.mod_lt; lia).
    assert (Ec : (if (y =? 0)%N then c = 0 else c = 2 ^ N.of_nat K - y)%N).
    { unfold c. rewrite (compl_val' Hy). destruct (N.eqb_spec y 0).
      - subst y. replace (2 ^ N.of_nat K - 1 - 0 + 1)%N with (2 ^ N.of_nat K)%N by lia. apply N.mod_same. lia.
      - rewrite N.mod_small; lia. }
    apply wp_bind. eapply wp_mono; [|apply (rks_inner_carry_wp Hs (add_public_ok c Ha) (shmap_ok (@lin3_land c) Ha))].
    intros q (Q1 & Q2 & Q3 & Q4). apply wp_ret.
    destruct (rks_val_plain K pw Hx Lc) as [V1 V2]. cbn [gadd xor_grp] in Q1, Q2. rewrite V1 in Q1. rewrite V2 in Q2.
    destruct (N.eqb_spec y 0) as [->|Hn].
    - rewrite Ec, N.add_0_r in *.
      destruct (N.leb_spec (2 ^ N.of_nat K) x) as [L|L]; [lia|]. destruct (bnot_ok false Q2 Q3) as [B1 B2].
      split; [|split; [|split; [exact B2|exact Q4]]]; cbn [fst snd].
      + replace (2 ^ N.of_nat K + x - 0)%N with (x + 1 * 2 ^ N.of_nat K)%N by lia. rewrite N.mod_add by lia. exact Q1.
      + replace (0 <=? x)%N with true; [exact B1|]. destruct (N.leb_spec 0 x); [reflexivity|lia].
    - split; [|split; [|split; [exact Q3|exact Q4]]]; cbn [fst snd].
      + replace (2 ^ N.of_nat K + x - y)%N with (x + c)%N by lia. exact Q1.
      + replace (y <=? x)%N with (2 ^ N.of_nat K <=? x + c)%N; [exact Q2|].
        destruct (N.leb_spec y x), (N.leb_spec (2 ^ N.of_nat K) (x + c)); try reflexivity; lia.
  Qed.

  (** zero test *)
  Lemma ris_zero_loop_wp fuel : forall st e len a x, len = (2 ^ e)%nat -> (e <= fuel)%nat -> synced st -> shares a x ->
    wp cap (fun i => ris_zero_loop K dn fuel i (st i) len (a i))
      (fun r => (exists v, shares (fun i => fst (r i)) v /\ ubit v 0 = all_set len x) /\ synced (fun i => snd (r i))).
  Proof.
    induction fuel as [|fuel IH]; intros st e len a x He Hf Hs Ha; cbn [ris_zero_loop].
    - assert (e = 0)%nat by lia. subst e. cbn in He. subst len. apply wp_ret. split; [|exact Hs]. exists x.
      split; [exact Ha|]. cbn. rewrite andb_true_r. reflexivity.
    - destruct e as [|e].
      + cbn in He. subst len. cbn. apply wp_ret. split; [|exact Hs]. exists x. split; [exact Ha|]. cbn. rewrite andb_true_r. reflexivity.
      + assert (Hp : (1 <= 2 ^ e)%nat) by (clear; induction e; cbn; lia).
        assert (El : len = (2 ^ e + 2 ^ e)%nat) by (rewrite He; cbn; lia).
        assert (Eh : (len / 2)%nat = (2 ^ e)%nat).
        { rewrite El. replace (2 ^ e + 2 ^ e)%nat with (2 ^ e * 2)%nat by lia. apply Nat.div_mul. discriminate. }
        destruct (Nat.ltb_spec 1 len); [|lia]. cbv zeta. rewrite Eh. set (h := (2 ^ e)%nat) in *.
        apply wp_bind. eapply wp_mono; [|apply (band_wp K du cap_pos Hs (shmap_ok (@lin3_land (umask h)) Ha)
          (shmap_ok (@lin3_land (umask h)) (shmap_ok (@lin3_shr h) Ha)))].
        intros r [R1 R2]. eapply wp_mono; [|apply (IH _ e h _ _ eq_refl ltac:(lia) R2 R1)].
        intros q [(v & Q1 & Q2) Q3]. split; [|exact Q3]. exists v. split; [exact Q1|]. rewrite Q2.
        apply (all_set_ext cap_pos). split; intros A j Hj.
        * destruct (Nat.lt_ge_cases j h) as [L|L].
          -- specialize (A j L). rewrite !ubit_land in A. destruct (ubit x j); [reflexivity|discriminate A].
          -- specialize (A (j - h)%nat ltac:(lia)). rewrite !ubit_land, ubit_shr in A.
             replace (j - h + h)%nat with j in A by lia. destruct (ubit x j); [reflexivity|]. rewrite ?andb_false_r, ?andb_false_l in A. discriminate A.
        * rewrite !ubit_land, ubit_shr, ubit_mask. destruct (Nat.ltb_spec j h); [|lia].
          rewrite !A by lia. reflexivity.
  Qed.
  Lemma ris_zero_wp st a x : (x < 2 ^ N.of_nat K)%N -> synced st -> shares a x ->
    wp cap (fun i => ris_zero dbg K dn i (st i) (a i)) (fun r => bit_result r (x =? 0)%N).
  Proof.
    intros Hx Hs Ha. unfold ris_zero. eapply wp_ext; [intros i; apply pow2_assert_ok|]. apply wp_bind.
    pose proof (proj1 (Nat.eqb_eq _ _) pw) as Ek. symmetry in Ek.
    eapply wp_mono; [|eapply (@ris_zero_loop_wp K st (Nat.log2 K) K (fun i => rnot K (a i)) (N.lxor x (umask K)) Ek)]; [|apply Nat.log2_le_lin; lia|exact Hs|exact (shmap_ok (@lin3_lxor (umask K)) Ha)].
    intros r [(v & R1 & R2) R3]. apply wp_ret. split; [|split; [apply narrow_mask1|exact R3]]. cbn [fst].
    rewrite (all_set_neg cap_pos), N.mod_small in R2 by exact Hx. rewrite <- R2, <- land1. exact (shmap_ok (@lin3_land 1) R1).
  Qed.
End RBinWp.

(** ** Ring facts *)
Section RingFacts.
  Context {T : Type} `{IR : IntRing T}.
  Notation K := (rK T).
  Notation q := (2 ^ N.of_nat (rK T))%N.
  Add Ring RrT : (cring_theory (R := T)).
  Lemma q_pos : (q <> 0)%N.
  Proof. apply N.pow_nonzero. discriminate. Qed.
  Lemma rto_small x : (rto x mod q = rto x)%N.
  Proof. apply N.mod_small, rto_lt. Qed.
  Lemma rto_inj (x y : T) : rto x = rto y -> x = y.
  Proof. intros E. rewrite <- (rof_rto x), E. apply rof_rto. Qed.
  Lemma rto_zero : rto (T := T) 0 = 0%N.
  Proof.
    pose proof (rto_add (T := T) 0 0) as E. rewrite gadd_0 in E.
    pose proof (rto_lt (T := T) 0) as L. set (u := rto 0) in *. destruct (N.lt_ge_cases (u + u) q) as [C|C].
    - rewrite N.mod_small in E by exact C. lia.
    - replace (u + u)%N with ((u + u - q) + 1 * q)%N in E by lia.
      rewrite N.mod_add in E by apply q_pos. rewrite N.mod_small in E by lia. lia.
  Qed.
  Lemma rK_pos : (1 <= K)%nat.
  Proof.
    pose proof (rto_lt (T := T) rone) as L. rewrite rto_one in L. destruct K; [cbn in L; lia|lia].
  Qed.
  Lemma rto_sub (x y : T) : rto (x - y) = ((q + rto x - rto y) mod q)%N.
  Proof.
    assert (E : x = x - y + y) by grp. pose proof (rto_add (x - y) y) as A. rewrite <- E in A.
    pose proof (rto_lt x). pose proof (rto_lt y). pose proof (rto_lt (x - y)). set (d := rto (x - y)) in *.
    destruct (N.lt_ge_cases (d + rto y) q) as [C|C].
    - rewrite N.mod_small in A by exact C. rewrite A. replace (q + (d + rto y) - rto y)%N with (d + 1 * q)%N by lia.
      rewrite N.mod_add by apply q_pos. symmetry. apply N.mod_small. assumption.
    - replace (d + rto y)%N with ((d + rto y - q) + 1 * q)%N in A by lia.
      rewrite N.mod_add in A by apply q_pos. rewrite N.mod_small in A by lia. rewrite A.
      replace (q + (d + rto y - q) - rto y)%N with d by lia. symmetry. apply N.mod_small. assumption.
  Qed.
  Lemma rto_neg (x : T) : rto (- x) = ((q - rto x) mod q)%N.
  Proof.
    assert (E : - x = 0 - x) by grp. rewrite E, rto_sub, rto_zero, N.add_0_r. reflexivity.
  Qed.
  Lemma rof_shift u (k : T) : rof ((u + rto k) mod q) = rof u + k.
  Proof.
    apply rto_inj. rewrite rto_add, !rto_rof, N.mod_mod by apply q_pos.
    rewrite N.add_mod_idemp_l by apply q_pos. reflexivity.
  Qed.
  Lemma rof_mod u : rof (u mod q) = rof (T := T) u.
  Proof. apply rto_inj. rewrite !rto_rof. apply N.mod_mod, q_pos. Qed.
  Lemma rof_double (d : T) : rof (ushl K (rto d) 1) = d + d.
  Proof.
    apply rto_inj. rewrite rto_rof, rto_add. unfold ushl. rewrite N.mod_mod by apply q_pos. f_equal.
    rewrite N.shiftl_mul_pow2. change (2 ^ N.of_nat 1)%N with 2%N. lia.
  Qed.
  Lemma rto_rpow (x : T) n : rto (rpow x n) = ((rto x ^ N.of_nat n) mod q)%N.
  Proof.
    induction n as [|n IH].
    - cbn [rpow]. rewrite rto_one, N.pow_0_r. symmetry. apply N.mod_small. rewrite <- (rto_one (T := T)). apply rto_lt.
    - cbn [rpow]. rewrite rto_mul, IH, N.mul_mod_idemp_r by apply q_pos.
      rewrite Nat2N.inj_succ, N.pow_succ_r'. reflexivity.
  Qed.
  Lemma rof_bit (b : bool) : rof (T := T) (N.b2n b) = bitval b.
  Proof.
    apply rto_inj. rewrite rto_rof. destruct b; cbn [bitval N.b2n].
    - rewrite rto_one. apply N.mod_small. rewrite <- (rto_one (T := T)). apply rto_lt.
    - rewrite rto_zero. apply N.mod_0_l, q_pos.
  Qed.
End RingFacts.

Section RArithWp.
  Context {T : Type} `{IR : IntRing T} {S M : Type} {DT : Draw S T} {ET : Enc M (list T)} (cap : nat) (cap_pos : (1 <= cap)%nat).
  Implicit Types (st : pid -> rst S).
  Add Ring RrA : (cring_theory (R := T)).
  Lemma rpow_loop_wp fuel : forall st e s res x y, (e < 2 ^ N.of_nat fuel)%N -> synced st -> shares s x -> shares res y ->
    wp cap (fun i => rpow_loop fuel i (st i) e (s i) (res i))
      (fun r => shares (fun i => fst (r i)) (rmul y (rpow x (N.to_nat e))) /\ synced (fun i => snd (r i))).
  Proof.
    induction fuel as [|fuel IH]; intros st e s res x y He Hs Hx Hy; cbn [rpow_loop].
    - assert (e = 0%N) by (cbn in He; lia). subst e. apply wp_ret. cbn [fst snd N.to_nat rpow].
      split; [|exact Hs]. rewrite rmul_comm, rmul_1. exact Hy.
    - destruct (N.eqb_spec e 0) as [->|Hn].
      + apply wp_ret. cbn [fst snd N.to_nat rpow]. split; [|exact Hs]. rewrite rmul_comm, rmul_1. exact Hy.
      + assert (Ed : N.div2 (if N.odd e then N.pred e else e) = N.div2 e) by (destruct e as [|[e|e|]]; reflexivity).
        rewrite Ed.
        assert (Ee : (e = 2 * N.div2 e + N.b2n (N.odd e))%N) by apply N.div2_odd.
        assert (Hl : (N.div2 e < 2 ^ N.of_nat fuel)%N).
        { rewrite Nat2N.inj_succ, N.pow_succ_r' in He. lia. }
        apply wp_bind.
        assert (K1 : wp cap (fun i => if N.odd e then mul (DC := DT) i (st i) (res i) (s i) else Ret (res i, st i))
          (fun r => shares (fun i => fst (r i)) (if N.odd e then rmul y x else y) /\ synced (fun i => snd (r i)))).
        { destruct (N.odd e); [exact (rmul_wp cap_pos Hs Hy Hx)|apply wp_ret; cbn; auto]. }
        eapply wp_mono; [|exact K1]. intros r [R1 R2]. apply wp_bind.
        eapply wp_mono; [|apply (rmul_wp cap_pos R2 Hx Hx)]. intros r2 [R3 R4].
        eapply wp_mono; [|apply (IH _ _ _ _ _ _ Hl R4 R3 R1)]. intros z [Z1 Z2]. split; [|exact Z2].
        assert (En : N.to_nat e = (N.to_nat (N.div2 e) + N.to_nat (N.div2 e) + (if N.odd e then 1 else 0))%nat).
        { rewrite Ee at 1. destruct (N.odd e); cbn [N.b2n]; lia. }
        rewrite En, Rep3Wp.rpow_add, <- rpow_sq. destruct (N.odd e); cbn [rpow].
        * replace (rmul y (rmul (rpow (rmul x x) (N.to_nat (N.div2 e))) (rmul x rone)))
            with (rmul (rmul y x) (rpow (rmul x x) (N.to_nat (N.div2 e)))) by ring. exact Z1.
        * replace (rmul y (rmul (rpow (rmul x x) (N.to_nat (N.div2 e))) rone))
            with (rmul y (rpow (rmul x x) (N.to_nat (N.div2 e)))) by ring. exact Z1.
  Qed.
  Lemma rpow_public_wp st a x e : synced st -> shares a x ->
    wp cap (fun i => rpow_public i (st i) (a i) e)
      (fun r => shares (fun i => fst (r i)) (rpow x (N.to_nat (rto e))) /\ synced (fun i => snd (r i))).
  Proof.
    intros Hs Ha. unfold rpow_public. eapply wp_mono; [|eapply rpow_loop_wp; [|exact Hs|exact Ha|exact (promote_ok rone)]].
    - intros r [R1 R2]. split; [|exact R2]. rewrite rmul_1 in R1. exact R1.
    - pose proof (rto_lt e). rewrite Nat2N.inj_succ, N.pow_succ_r'. lia.
  Qed.
  Lemma rpow_2_public_ok s x c r : shares s x ->
    (forall i, rpow_2_public (s i) c = Some (r i)) -> shares r (rmul x (rof (2 ^ rto c)%N)).
  Proof.
    intros Hs Hr. unfold rpow_2_public in Hr. destruct (N.eqb_spec (rto c) 0) as [E|E].
    - rewrite E, N.pow_0_r. change 1%N with (N.b2n true). rewrite rof_bit. cbn [bitval].
      rewrite rmul_comm, rmul_1. eapply shares_ext; [|exact Hs]. intros i. specialize (Hr i). congruence.
    - destruct (rto c <? 2 ^ 64)%N; [|specialize (Hr P0); discriminate].
      destruct (N.of_nat (rK T) <=? rto c)%N; [specialize (Hr P0); discriminate|].
      unfold ushl in Hr. rewrite rof_mod, N.shiftl_1_l, N2Nat.id in Hr.
      eapply shares_ext; [|exact (mul_public_ok _ Hs)]. intros i. specialize (Hr i). congruence.
  Qed.
  (** exactly the shifts of at least the bit size are rejected *)
  Lemma rpow_2_public_defined (s : share T) c : (N.of_nat (rK T) <= 2 ^ 64)%N ->
    rpow_2_public s c = None <-> (N.of_nat (rK T) <= rto c)%N.
  Proof.
    intros HK. pose proof (rK_pos (T := T)). unfold rpow_2_public. destruct (N.eqb_spec (rto c) 0) as [E|E].
    - split; [discriminate|lia].
    - destruct (N.ltb_spec (rto c) (2 ^ 64)); [|split; [lia|reflexivity]].
      destruct (N.leb_spec (N.of_nat (rK T)) (rto c)); split; intros; try reflexivity; try discriminate; lia.
  Qed.
  Lemma rxor_local_eq (x y : share T) m : rxor_local x y m = xor_local x y m.
  Proof. unfold rxor_local, xor_local. cbv zeta. rewrite rof_double. reflexivity. Qed.
  Lemma rarith_xor_wp st a b x y : synced st -> shares a x -> shares b y ->
    wp cap (fun i => rarith_xor i (st i) (a i) (b i))
      (fun r => shares (fun i => fst (r i)) (x + y - (rmul x y + rmul x y)) /\ synced (fun i => snd (r i))).
  Proof.
    intros Hs Ha Hb. eapply wp_ext; [|exact (arithmetic_xor_wp cap_pos Hs Ha Hb)]. intros i.
    unfold rarith_xor. cbv zeta. rewrite rxor_local_eq. reflexivity.
  Qed.
  Lemma rxor_local_many_eq (st : rst S) (x y : list (share T)) : rxor_local_many st x y = xor_local_vec st x y.
  Proof.
    revert st y. induction x as [|a x IH]; intros st [|b y]; cbn; try reflexivity. rewrite IH, rxor_local_eq. reflexivity.
  Qed.
  Lemma rarith_xor_many_wp dbg st a b xs ys : synced st -> shares_vec a xs -> shares_vec b ys -> length xs = length ys ->
    wp cap (fun i => rarith_xor_many dbg i (st i) (a i) (b i))
      (fun r => shares_vec (fun i => fst (r i)) (map2 (fun x y => x + y - (rmul x y + rmul x y)) xs ys) /\ synced (fun i => snd (r i))).
  Proof.
    intros Hs Ha Hb L. eapply wp_ext; [|exact (arithmetic_xor_many_wp cap_pos Hs Ha Hb)]. intros i.
    unfold rarith_xor_many. rewrite (pvec_len i Ha), (pvec_len i Hb), L, Nat.eqb_refl, andb_false_r. cbv zeta.
    rewrite rxor_local_many_eq. reflexivity.
  Qed.
End RArithWp.

(** ** Conversions *)
Section RConvWp.
  Context {T : Type} `{IR : IntRing T} {S M : Type} (dbg : bool) {DT : Draw S T}.
  Context {EN : Enc M (list N)} {ENN : Enc M (list (N * N))}
          {EL : Enc M (list (list N))} {ELL : Enc M (list (list N * list N))} {ET : Enc M (list T)}
          (cap : nat) (cap_pos : (1 <= cap)%nat).
  Notation K := (rK T).
  Notation p := (2 ^ N.of_nat (rK T))%N.
  Context (pw : is_pow2 K = true).
  Implicit Types (st : pid -> rst S).
  Lemma ok : (dbg && negb (is_pow2 K))%bool = false.
  Proof. rewrite pw. apply andb_false_r. Qed.
  Lemma ra2b_x2_ok a (x : T) : shares a x -> shares (fun i => ra2b_x2 i (a i)) (rto (sa (a P2))).
  Proof.
    intros (x0 & x1 & x2 & -> & E0 & E1 & E2)%shares_elim.
    eapply shares_intro; rewrite ?E0, ?E1, ?E2; reflexivity.
  Qed.
  Lemma ra2b_x01_ok a (x : T) (m : pid -> N) : shares a x -> additive m 0 ->
    additive (fun i => ra2b_x01 i (a i) (m i)) (rto (sa (a P1) + sb (a P1))).
  Proof.
    intros _ Hm. unfold additive in *. cbn in *. rewrite (N.lxor_comm (rto _)).
    rewrite <- !N.lxor_assoc, (N.lxor_assoc _ (rto _)), (N.lxor_comm (rto _)), <- !N.lxor_assoc, Hm. apply N.lxor_0_l.
  Qed.
  Lemma ra2b_sum a (x : T) : shares a x ->
    ((rto (sa (a P1) + sb (a P1))%grp + rto (sa (a P2))) mod p)%N = rto x.
  Proof.
    intros (x0 & x1 & x2 & -> & E0 & E1 & E2)%shares_elim. rewrite <- rto_add. f_equal. rewrite E1, E2. cbn. grp.
  Qed.
  Lemma ra2b_wp st a x : synced st -> shares a x ->
    wp cap (fun i => ra2b dbg i (st i) (a i))
      (fun r => shares (fun i => fst (r i)) (rto x) /\ synced (fun i => snd (r i))).
  Proof.
    intros Hs Ha. unfold ra2b. destruct (masking_ok (H0 := rdraw) Hs) as [Hm Hs']. cbv zeta.
    apply wp_bind. apply wp_reshare; [exact cap_pos|].
    rewrite <- (ra2b_sum Ha).
    exact (rks_add_wp dbg K rdraw cap_pos ok pw (rto_lt _) (rto_lt _) Hs' (additive_reshared (ra2b_x01_ok Ha Hm)) (ra2b_x2_ok Ha)).
  Qed.

  Lemma rmasks_length n : forall s : rst S, length (fst (rmasks (T := T) n s)) = n.
  Proof. induction n as [|n IH]; intros s; cbn; [reflexivity|]. rewrite IH. reflexivity. Qed.
  Lemma ra2b_local_ok xs : forall st a, synced st -> shares_vec a xs ->
    exists l : list (N * N), map (fun uv => (fst uv + snd uv) mod p)%N l = map rto xs /\
      (forall uv, In uv l -> fst uv < p /\ snd uv < p)%N /\
      additive_vec (fun i => map2 (ra2b_x01 i) (a i) (fst (rmasks (T := T) (length (a i)) (st i)))) (map fst l) /\
      shares_vec (fun i => map (ra2b_x2 i) (a i)) (map snd l) /\
      synced (fun i => snd (rmasks (T := T) (length (a i)) (st i))).
  Proof.
    induction xs as [|x xs IH]; intros st a Hs Ha.
    - exists []. split; [reflexivity|]. split; [intros uv []|]. split; [|split].
      + apply pvec_nil. intros i. rewrite (pvec_nil_inv Ha). reflexivity.
      + apply pvec_nil. intros i. rewrite (pvec_nil_inv Ha). reflexivity.
      + eapply synced_ext; [|exact Hs]. intros i. rewrite (pvec_nil_inv Ha). reflexivity.
    - destruct (pvec_cons_inv Ha) as (ha & ta & Ea & Hha & Hta).
      destruct (masking_ok (H0 := rdraw) Hs) as [Hm Hs'].
      destruct (IH _ ta Hs' Hta) as (l & L1 & L2 & L3 & L4 & L5).
      exists ((rto (sa (ha P1) + sb (ha P1)), rto (sa (ha P2))) :: l). split; [|split; [|split; [|split]]].
      + cbn [map fst snd]. rewrite L1, (ra2b_sum Hha). reflexivity.
      + intros uv [<-|Hin]; [split; apply rto_lt|auto].
      + eapply pvec_cons; [intros i; rewrite Ea; reflexivity|exact (ra2b_x01_ok Hha Hm)|exact L3].
      + eapply pvec_cons; [intros i; rewrite Ea; reflexivity|exact (ra2b_x2_ok Hha)|exact L4].
      + eapply synced_ext; [|exact L5]. intros i. rewrite Ea. reflexivity.
  Qed.
  Lemma ra2b_many_wp st a xs : synced st -> shares_vec a xs ->
    wp cap (fun i => ra2b_many dbg i (st i) (a i))
      (fun r => shares_vec (fun i => fst (r i)) (map rto xs) /\ synced (fun i => snd (r i))).
  Proof.
    intros Hs Ha. destruct (ra2b_local_ok Hs Ha) as (l & L1 & L2 & L3 & L4 & L5).
    unfold ra2b_many. cbv zeta. apply wp_bind. apply wp_reshare_many; [exact cap_pos|].
    rewrite <- L1. exact (rks_add_many_wp dbg K rdraw cap_pos ok pw _ _ _ L2 L5 (additive_vec_reshared L3) L4).
  Qed.

  (** ** rb2a *)
  Lemma rb2a_keys_wp st : synced st -> wp (M := M) cap (fun i => rb2a_keys i (st i))
    (fun r => exists k2 k3, (forall i, fst (fst (r i)) = match i with P0 => mkShare 0 (- k3) | P1 => mkShare (- k2) 0 | P2 => mkShare (- k3) (- k2) end) /\
       (forall i, snd (fst (r i)) = match i with P2 => rto (k2 + k3) | _ => 0%N end) /\ synced (fun i => snd (r i))).
  Proof.
    intros Hs.
    destruct (three_keys_bc1 (X := T) Hs) as (x0 & x1 & x2 & b1 & b2 & E1 & E2 & K1).
    set (st1 := fun i => match i with P0 => st P0 | P1 => set_bc1 (st P1) b1 | P2 => set_bc1 (st P2) b2 end).
    assert (Hs1 : synced st1) by (apply K1; try reflexivity; intros []; reflexivity).
    destruct (three_keys_bc2 (X := T) Hs1) as (y0 & y1 & y2 & c0 & c2 & G0 & G2 & K2).
    set (st2 := fun i => match i with P0 => set_bc2 (st1 P0) c0 | P1 => st1 P1 | P2 => set_bc2 (st1 P2) c2 end).
    assert (Hs2 : synced st2) by (apply K2; try reflexivity; intros []; reflexivity).
    cbn in G0, G2.
    exists (fun i => match i with
      | P0 => ((mkShare 0 (- rkey_sum (y0, y1, y2)), 0%N), st2 P0)
      | P1 => ((mkShare (- rkey_sum (x1, x2, x0)) 0, 0%N), st2 P1)
      | P2 => ((mkShare (- rkey_sum (y2, y0, y1)) (- rkey_sum (x2, x0, x1)), rto (rkey_sum (x2, x0, x1) + rkey_sum (y2, y0, y1))), st2 P2) end).
    split.
    - apply runs_comp3. unfold rb2a_keys. rewrite E1, E2, G0, G2.
      apply comp3_ret_eq; reflexivity.
    - exists (x0 + x1 + x2), (y0 + y1 + y2). split; [|split; [|eapply synced_ext; [|exact Hs2]; intros []; reflexivity]].
      + intros []; cbn; unfold rkey_sum; cbn; f_equal; grp.
      + intros []; cbn; try reflexivity. unfold rkey_sum; cbn. f_equal. grp.
  Qed.
  Lemma rb2a_open_wp res z v : shares z v ->
    wp cap (fun i => rb2a_open i (res i) (z i))
      (fun r => forall i, r i = match i with P0 => mkShare (rof v) (sb (res P0)) | P1 => mkShare (sa (res P1)) (rof v) | P2 => res P2 end).
  Proof.
    intros (z0 & z1 & z2 & -> & E0 & E1 & E2)%shares_elim.
    exists (fun i => match i with P0 => mkShare (rof (z0 + z1 + z2)%grp) (sb (res P0)) | P1 => mkShare (sa (res P1)) (rof (z0 + z1 + z2)%grp) | P2 => res P2 end).
    split; [|intros i; reflexivity].
    apply runs_comp3. unfold rb2a_open, reshare, reshare_many, send_and_recv_many, send_many, recv_many, recv_prev, send_next, send_to, recv_from, recv_many, send_many.
    rewrite E0, E1, E2. cbn [bind next prev sa sb]. repeat step3 cap_pos.
    assert (Ea : N.lxor (N.lxor z0 z2) z1 = N.lxor (N.lxor z0 z1) z2) by (rewrite !N.lxor_assoc; f_equal; apply N.lxor_comm).
    assert (Eb : N.lxor (N.lxor z1 z0) z2 = N.lxor (N.lxor z0 z1) z2) by (f_equal; apply N.lxor_comm).
    rewrite Ea, Eb. cbn [gadd xor_grp].
    apply comp3_ret_eq; reflexivity.
  Qed.
  Lemma rb2a_result k2 k3 u (res : pid -> share T) :
    (forall i, res i = match i with P0 => mkShare 0 (- k3) | P1 => mkShare (- k2) 0 | P2 => mkShare (- k3) (- k2) end) ->
    forall r, (forall i, r i = match i with P0 => mkShare (rof ((u + rto (k2 + k3)%grp) mod p)%N) (sb (res P0))
       | P1 => mkShare (sa (res P1)) (rof ((u + rto (k2 + k3)%grp) mod p)%N) | P2 => res P2 end) ->
    shares r (rof u).
  Proof.
    intros Hres r Hr. rewrite rof_shift in Hr.
    eapply shares_intro; try (rewrite Hr, ?Hres; cbn; reflexivity). cbn. grp.
  Qed.
  Lemma rb2a_wp st a u : synced st -> shares a u -> (u < p)%N ->
    wp cap (fun i => rb2a dbg i (st i) (a i))
      (fun r => shares (fun i => fst (r i)) (rof u) /\ synced (fun i => snd (r i))).
  Proof.
    intros Hs Ha Hu. unfold rb2a. destruct (masking_ok (H0 := rdraw) Hs) as [Hm Hs']. cbv zeta.
    apply wp_bind. eapply wp_mono; [|apply (rb2a_keys_wp Hs')]. intros k (k2 & k3 & K1 & K2 & K3).
    apply wp_bind. apply wp_reshare; [exact cap_pos|]. apply wp_bind.
    eapply wp_mono; [|apply (rks_add_wp dbg K rdraw cap_pos ok pw Hu (rto_lt (k2 + k3)) K3 Ha (additive_reshared (y_additive _ _ Hm K2)))].
    intros z [Z1 Z2]. apply wp_bind. eapply wp_mono; [|eapply rb2a_open_wp; exact Z1].
    intros r Hr. apply wp_ret. cbn [fst snd]. split; [|exact Z2].
    exact (@rb2a_result k2 k3 u _ K1 _ Hr).
  Qed.

  (** batched *)
  Lemma rb2a_keys_many_wp n : forall st, synced st -> wp (M := M) cap (fun i => rb2a_keys_many n i (st i))
    (fun r => exists l : list (T * T), length l = n /\
       (forall i, map fst (fst (r i)) = map (fun k => match i with P0 => mkShare 0 (- snd k) | P1 => mkShare (- fst k) 0 | P2 => mkShare (- snd k) (- fst k) end) l) /\
       (forall i, map snd (fst (r i)) = map (fun k => match i with P2 => rto (fst k + snd k) | _ => 0%N end) l) /\
       synced (fun i => snd (r i))).
  Proof.
    induction n as [|n IH]; intros st Hs; cbn [rb2a_keys_many].
    - apply wp_ret. exists []. cbn. auto.
    - apply wp_bind. eapply wp_mono; [|apply (rb2a_keys_wp Hs)]. intros k (k2 & k3 & K1 & K2 & K3).
      apply wp_bind. eapply wp_mono; [|apply (IH _ K3)]. intros r (l & L0 & L1 & L2 & L3).
      apply wp_ret. exists ((k2, k3) :: l). cbn [fst snd map length]. split; [congruence|]. split; [|split; [|exact L3]].
      + intros i. rewrite L1, K1. reflexivity.
      + intros i. rewrite L2, K2. reflexivity.
  Qed.
  Lemma rmasks_additive n : forall st, synced st ->
    additive_vec (fun i => fst (rmasks (T := T) n (st i))) (repeat 0%N n) /\ synced (fun i => snd (rmasks (T := T) n (st i))).
  Proof.
    induction n as [|n IH]; intros st Hs; cbn [masks repeat fst snd].
    - split; [apply pvec_nil; reflexivity|exact Hs].
    - destruct (masking_ok (H0 := rdraw) Hs) as [Hm Hs']. destruct (IH _ Hs') as [K1 K2]. split; [|exact K2].
      eapply pvec_cons; [intros i; reflexivity|exact Hm|exact K1].
  Qed.
  Lemma ry_additive_many (ks : list (T * T)) : forall (m kk : pid -> list N), additive_vec m (repeat 0%N (length ks)) ->
    (forall i, kk i = map (fun k => match i with P2 => rto (fst k + snd k) | _ => 0%N end) ks) ->
    additive_vec (fun i => map2 N.lxor (kk i) (m i)) (map (fun k => rto (fst k + snd k)) ks).
  Proof.
    induction ks as [|k ks IH]; intros m kk Hm Hk; cbn [length repeat map] in *.
    - apply pvec_nil. intros i. rewrite Hk. reflexivity.
    - destruct (pvec_cons_inv Hm) as (h & t & E & Hh & Ht).
      eapply pvec_cons with (h := fun i => N.lxor (match i with P2 => rto (fst k + snd k) | _ => 0%N end) (h i)).
      + intros i. rewrite Hk, E. cbn [map2]. reflexivity.
      + apply y_additive; [exact Hh|]. intros i. reflexivity.
      + apply IH; [exact Ht|]. intros i. reflexivity.
  Qed.
  Lemma rb2a_open_many_wp res z vs : shares_vec z vs ->
    wp cap (fun i => rb2a_open_many i (res i) (z i))
      (fun r => forall i, r i = match i with
         | P0 => map2 (fun r a => mkShare a (sb r)) (res P0) (map rof vs)
         | P1 => map2 (fun r b => mkShare (sa r) b) (res P1) (map rof vs) | P2 => res P2 end).
  Proof.
    intros Hz. eexists. split; [|intros i; reflexivity].
    apply runs_comp3. unfold rb2a_open_many, send_next_many, recv_prev_many, send_many, recv_many.
    cbn [bind next prev]. repeat step3 cap_pos.
    destruct (shares_vec_open Hz) as [-> ->].
    apply comp3_ret_eq; reflexivity.
  Qed.
  Lemma rb2a_result_many us : forall (ks : list (T * T)) (res : pid -> list (share T)), length ks = length us ->
    (forall i, res i = map (fun k => match i with P0 => mkShare 0 (- snd k) | P1 => mkShare (- fst k) 0 | P2 => mkShare (- snd k) (- fst k) end) ks) ->
    forall r, (forall i, r i = match i with
       | P0 => map2 (fun r a => mkShare a (sb r)) (res P0) (map rof (map (fun uk => (fst uk + rto (fst (snd uk) + snd (snd uk))%grp) mod p)%N (List.combine us ks)))
       | P1 => map2 (fun r b => mkShare (sa r) b) (res P1) (map rof (map (fun uk => (fst uk + rto (fst (snd uk) + snd (snd uk))%grp) mod p)%N (List.combine us ks)))
       | P2 => res P2 end) ->
    shares_vec r (map rof us).
  Proof.
    induction us as [|u us IH]; intros [|k ks] res L Hres r Hr; try discriminate L.
    - apply pvec_nil. intros i. rewrite Hr, !Hres. destruct i; reflexivity.
    - cbn [map List.combine] in *.
      set (vs := map rof (map (fun uk => (fst uk + rto (fst (snd uk) + snd (snd uk))%grp) mod p)%N (List.combine us ks))) in *.
      set (res' := fun i => map (fun k => match i with P0 => mkShare 0 (- snd k) | P1 => mkShare (- fst k) 0 | P2 => mkShare (- snd k) (- fst k) end) ks).
      apply pvec_cons with (h := fun i => match i with
         | P0 => mkShare (rof ((u + rto (fst k + snd k)%grp) mod p)%N) (- snd k)
         | P1 => mkShare (- fst k) (rof ((u + rto (fst k + snd k)%grp) mod p)%N)
         | P2 => mkShare (- snd k) (- fst k) end)
        (t := fun i => match i with
         | P0 => map2 (fun r a => mkShare a (sb r)) (res' P0) vs
         | P1 => map2 (fun r b => mkShare (sa r) b) (res' P1) vs
         | P2 => res' P2 end); [| |apply (IH ks res')].
      + intros i. rewrite Hr, !Hres. destruct i; reflexivity.
      + eapply (@rb2a_result (fst k) (snd k) u (fun i => match i with P0 => mkShare 0 (- snd k) | P1 => mkShare (- fst k) 0 | P2 => mkShare (- snd k) (- fst k) end)).
        * intros i. reflexivity.
        * intros []; reflexivity.
      + cbn in L; congruence.
      + intros i. reflexivity.
      + intros i. destruct i; reflexivity.
  Qed.
  Lemma rb2a_many_wp st a us : synced st -> shares_vec a us -> (forall u, In u us -> u < p)%N ->
    wp cap (fun i => rb2a_many dbg i (st i) (a i))
      (fun r => shares_vec (fun i => fst (r i)) (map rof us) /\ synced (fun i => snd (r i))).
  Proof.
    intros Hs Ha Hu. destruct (rmasks_additive (length us) Hs) as [Hm Hs'].
    unfold rb2a_many. cbv zeta.
    eapply wp_ext; [intros i; rewrite (pvec_len i Ha); reflexivity|].
    apply wp_bind. eapply wp_mono; [|apply (rb2a_keys_many_wp (length us) Hs')]. intros k (l & L0 & L1 & L2 & L3).
    apply wp_bind. apply wp_reshare_many; [exact cap_pos|]. apply wp_bind.
    rewrite <- L0 in Hm |- *.
    pose proof (additive_vec_reshared (@ry_additive_many l _ _ Hm L2)) as Hy.
    pose proof (combine_map_fst us l L0) as C1. pose proof (combine_map_snd us l L0) as C2.
    rewrite <- C1 in Ha.
    assert (El : map (fun k => rto (fst k + snd k)) l = map (fun x => rto (fst (snd x) + snd (snd x))) (List.combine us l)).
    { rewrite <- C2 at 1. apply map_map. }
    rewrite El in Hy.
    assert (Hu' : forall x, In x (List.combine us l) -> (fst x < p)%N).
    { intros [u k'] Hin. apply in_combine_l in Hin. apply Hu. exact Hin. }
    eapply wp_mono; [|eapply (rks_add_many_wp dbg K rdraw cap_pos ok pw (List.combine us l)); [|exact L3|exact Ha|exact Hy]].
    - intros z [Z1 Z2]. apply wp_bind. eapply wp_mono; [|eapply rb2a_open_many_wp; exact Z1].
      intros r Hr. apply wp_ret. cbn [fst snd]. split; [|exact Z2].
      exact (@rb2a_result_many us l _ L0 L1 _ Hr).
    - intros x Hx. split; [apply Hu'; exact Hx|apply rto_lt].
  Qed.
End RConvWp.

(** What [a2b] computes whatever [K] (the power-of-two assertion absent or satisfied), and the
    assertion's panic. *)
Section RConvAny.
  Context {T : Type} `{IR : IntRing T} {S M : Type} (dbg : bool) {DT : Draw S T}.
  Context {EN : Enc M (list N)} {ENN : Enc M (list (N * N))} (cap : nat) (cap_pos : (1 <= cap)%nat).
  Notation K := (rK T).
  Implicit Types (st : pid -> rst S).
  Lemma ra2b_any_wp st a (x : T) : (dbg && negb (is_pow2 K))%bool = false -> synced st -> shares a x ->
    wp cap (fun i => ra2b dbg i (st i) (a i))
      (fun r => shares (fun i => fst (r i))
         (let u := rto (sa (a P1) + sb (a P1)) in let v := rto (sa (a P2)) in rks_sum K (N.lxor u v) (N.land u v)) /\
         synced (fun i => snd (r i))).
  Proof.
    intros Hok Hs Ha. unfold ra2b. destruct (masking_ok (H0 := rdraw) Hs) as [Hm Hs']. cbv zeta.
    apply wp_bind. apply wp_reshare; [exact cap_pos|].
    exact (rks_add_any_wp dbg K rdraw cap_pos Hok Hs' (additive_reshared (ra2b_x01_ok Ha Hm)) (ra2b_x2_ok Ha)).
  Qed.
  Lemma ra2b_debug_wpo st a (x : T) : dbg = true -> is_pow2 K = false -> synced st -> shares a x ->
    wpo cap (fun i => ra2b dbg i (st i) (a i))
      (fun o => forall i, o i = Failed (Panic "assertion failed: bitlen.is_power_of_two()")).
  Proof.
    intros Hd Hp Hs Ha. unfold ra2b. destruct (masking_ok (H0 := rdraw) Hs) as [Hm Hs']. cbv zeta.
    apply wpo_bind. apply wp_reshare; [exact cap_pos|]. unfold rks_add. apply wpo_bind.
    eapply wp_mono; [|apply (band_wp K (rdu rdraw) cap_pos Hs' (additive_reshared (ra2b_x01_ok Ha Hm)) (ra2b_x2_ok Ha))].
    intros r _. unfold rks_inner, rks_loop, pow2_assert. rewrite Hd, Hp. cbn [andb negb bind]. apply wpo_fail. reflexivity.
  Qed.
End RConvAny.

(** ** Bit injection *)
Section RInjWp.
  Context {T : Type} `{CR : CRing T} {S M : Type} {DT : Draw S T} {ET : Enc M (list T)} (cap : nat) (cap_pos : (1 <= cap)%nat).
  Implicit Types (st : pid -> rst S).
  Lemma rbit_inject_from_bit_wp st s v : synced st -> shares s v ->
    wp cap (fun i => rbit_inject_from_bit (T := T) i (st i) (s i))
      (fun r => shares (fun i => fst (r i)) (bitval (ubit v 0)) /\ synced (fun i => snd (r i))).
  Proof. intros Hs Hv. exact (bit_inject_from_bits_wp cap_pos Hs (shares_bits Hv)). Qed.
  Lemma rbit_inject_from_bits_many_wp st s vs : synced st -> shares_vec s vs ->
    wp cap (fun i => rbit_inject_from_bits_many (T := T) i (st i) (s i))
      (fun r => shares_vec (fun i => fst (r i)) (map (fun v => bitval (ubit v 0)) vs) /\ synced (fun i => snd (r i))).
  Proof.
    intros Hs Hv. unfold rbit_inject_from_bits_many.
    assert (Hv' : shares_vec (fun i => map (fun x => and_mask x 1) (s i)) (map (fun v => N.land v 1) vs)).
    { rewrite <- (map_id vs) in Hv. pose proof (shmap_vec_ok (@lin3_land 1) Hv) as K. exact K. }
    eapply wp_mono; [|apply (bit_inject_many_wp cap_pos Hs Hv')].
    - intros r [R1 R2]. split; [|exact R2]. rewrite map_map in R1. erewrite map_ext; [exact R1|].
      intros v. cbv beta. f_equal. rewrite ubit_land. change (ubit 1 0) with true. rewrite andb_true_r. reflexivity.
    - intros i. apply Forall_forall. intros x Hx. apply in_map_iff in Hx. destruct Hx as (y & <- & _). cbn.
      split; apply land1_lt.
  Qed.
End RInjWp.

(** ** Comparisons *)
Section RCmpWp.
  Context {T : Type} `{IR : IntRing T} {S M : Type} (dbg : bool) {DT : Draw S T}.
  Context {EN : Enc M (list N)} {ENN : Enc M (list (N * N))}
          {EL : Enc M (list (list N))} {ELL : Enc M (list (list N * list N))} {ET : Enc M (list T)}
          (cap : nat) (cap_pos : (1 <= cap)%nat).
  Notation K := (rK T).
  Context (pw : is_pow2 K = true).
  Context (a2b : pid -> rst S -> share T -> prog pid M (share N * rst S)).
  Context (a2b_ok : forall st a x, synced st -> shares a x ->
    wp cap (fun i => a2b i (st i) (a i))
      (fun r => shares (fun i => fst (r i)) (rto x) /\ synced (fun i => snd (r i)))).
  Implicit Types (st : pid -> rst S).
  Notation bit_result := (@bit_result S).

  Lemma rge_wp st a b x y : synced st -> shares a x -> shares b y ->
    wp cap (fun i => rge dbg a2b i (st i) (a i) (b i)) (fun r => bit_result r (rto y <=? rto x)%N).
  Proof.
    intros Hs Ha Hb. unfold rge. apply wp_bind. eapply wp_mono; [|apply (a2b_ok Hs Ha)]. intros r [R1 R2].
    apply wp_bind. eapply wp_mono; [|apply (a2b_ok R2 Hb)]. intros q [Q1 Q2].
    apply wp_bind. eapply wp_mono; [|apply (rks_sub_wp dbg K rdraw cap_pos (ok dbg pw) pw (rto_lt x) (rto_lt y) Q2 R1 Q1)].
    intros d (D1 & D2 & D3 & D4). apply wp_ret. split; [exact D2|split; [exact D3|exact D4]].
  Qed.
  Lemma rge_const_lhs_wp st b x y : synced st -> shares b y ->
    wp cap (fun i => rge_const_lhs dbg a2b i (st i) x (b i)) (fun r => bit_result r (rto y <=? rto x)%N).
  Proof.
    intros Hs Hb. unfold rge_const_lhs. apply wp_bind. eapply wp_mono; [|apply (a2b_ok Hs Hb)]. intros q [Q1 Q2].
    apply wp_bind. eapply wp_mono; [|apply (rks_sub_from_const_wp dbg K rdraw cap_pos (ok dbg pw) pw (rto_lt x) (rto_lt y) Q2 Q1)].
    intros d (D1 & D2 & D3 & D4). apply wp_ret. split; [exact D2|split; [exact D3|exact D4]].
  Qed.
  Lemma rge_public_wp st a x y : synced st -> shares a x ->
    wp cap (fun i => rge_public dbg a2b i (st i) (a i) y) (fun r => bit_result r (rto y <=? rto x)%N).
  Proof.
    intros Hs Ha. unfold rge_public. apply wp_bind. eapply wp_mono; [|apply (a2b_ok Hs Ha)]. intros q [Q1 Q2].
    apply wp_bind. eapply wp_mono; [|apply (rks_sub_by_const_wp dbg K rdraw cap_pos (ok dbg pw) pw (rto_lt x) (rto_lt y) Q2 Q1)].
    intros d (D1 & D2 & D3 & D4). apply wp_ret. split; [exact D2|split; [exact D3|exact D4]].
  Qed.
  Lemma rcompl_wp (ps : pid -> prog pid M (share N * rst S)) b : wp cap ps (fun r => bit_result r b) ->
    wp cap (fun i => rcompl (ps i)) (fun r => bit_result r (negb b)).
  Proof.
    intros Hp. unfold rcompl. apply wp_bind. eapply wp_mono; [|exact Hp]. intros r (R1 & R2 & R3).
    apply wp_ret. destruct (bnot_ok cap_pos b R1 R2) as [B1 B2]. split; [exact B1|split; [exact B2|exact R3]].
  Qed.
  Lemma rlt_wp st a b x y : synced st -> shares a x -> shares b y ->
    wp cap (fun i => rlt dbg a2b i (st i) (a i) (b i)) (fun r => bit_result r (rto x <? rto y)%N).
  Proof.
    intros Hs Ha Hb. unfold rlt. apply wp_bind. eapply wp_mono; [|apply (rge_wp Hs Ha Hb)]. intros r (R1 & R2 & R3).
    apply wp_ret. rewrite N.ltb_antisym. split; [|split; [|exact R3]]; cbn [fst].
    - replace (N.b2n (negb _)) with (N.lxor 1 (N.b2n (rto y <=? rto x)%N)) by (destruct (rto y <=? rto x)%N; reflexivity).
      exact (sub_public_by_shared_ok 1%N R1).
    - intros i. destruct (R2 i) as [A B]. change (2 ^ N.of_nat 1)%N with 2%N in *.
      assert (X : forall u, (u < 2)%N -> (N.lxor u 1 < 2)%N).
      { intros u Hu. destruct u as [|[| |]]; cbn; try lia. }
      destruct i; cbn; split; try assumption; apply X; assumption.
  Qed.
  Lemma rlt_public_wp st a x y : synced st -> shares a x ->
    wp cap (fun i => rlt_public dbg a2b i (st i) (a i) y) (fun r => bit_result r (rto x <? rto y)%N).
  Proof. intros Hs Ha. rewrite N.ltb_antisym. apply rcompl_wp. exact (rge_public_wp y Hs Ha). Qed.
  Lemma rle_wp st a b x y : synced st -> shares a x -> shares b y ->
    wp cap (fun i => rle dbg a2b i (st i) (a i) (b i)) (fun r => bit_result r (rto x <=? rto y)%N).
  Proof. intros Hs Ha Hb. exact (rge_wp Hs Hb Ha). Qed.
  Lemma rle_public_wp st a x y : synced st -> shares a x ->
    wp cap (fun i => rle_public dbg a2b i (st i) (a i) y) (fun r => bit_result r (rto x <=? rto y)%N).
  Proof. intros Hs Ha. exact (rge_const_lhs_wp y Hs Ha). Qed.
  Lemma rgt_wp st a b x y : synced st -> shares a x -> shares b y ->
    wp cap (fun i => rgt dbg a2b i (st i) (a i) (b i)) (fun r => bit_result r (rto y <? rto x)%N).
  Proof. intros Hs Ha Hb. rewrite N.ltb_antisym. apply rcompl_wp. exact (rle_wp Hs Ha Hb). Qed.
  Lemma rgt_public_wp st a x y : synced st -> shares a x ->
    wp cap (fun i => rgt_public dbg a2b i (st i) (a i) y) (fun r => bit_result r (rto y <? rto x)%N).
  Proof. intros Hs Ha. rewrite N.ltb_antisym. apply rcompl_wp. exact (rle_public_wp y Hs Ha). Qed.
  Lemma rdiff_zero (x y : T) : (rto (x - y)%grp =? 0)%N = (rto x =? rto y)%N.
  Proof.
    apply eq_true_iff_eq. rewrite !N.eqb_eq. split.
    - intros E. rewrite <- rto_zero in E. apply rto_inj in E. f_equal.
      apply (gcancel_l (- y)). transitivity (x - y); [grp|]. rewrite E. grp.
    - intros E. apply rto_inj in E. subst y. rewrite <- rto_zero. f_equal. grp.
  Qed.
  Lemma req_wp st a b x y : synced st -> shares a x -> shares b y ->
    wp cap (fun i => req dbg a2b i (st i) (a i) (b i)) (fun r => bit_result r (rto x =? rto y)%N).
  Proof.
    intros Hs Ha Hb. unfold req. apply wp_bind. eapply wp_mono; [|apply (a2b_ok Hs (shsub_ok Ha Hb))]. intros r [R1 R2].
    eapply wp_mono; [|apply (ris_zero_wp dbg K rdraw cap_pos (ok dbg pw) pw (rto_lt _) R2 R1)].
    intros q Q. rewrite rdiff_zero in Q. exact Q.
  Qed.
  Lemma req_public_wp st a x y : synced st -> shares a x ->
    wp cap (fun i => req_public dbg a2b i (st i) (a i) y) (fun r => bit_result r (rto x =? rto y)%N).
  Proof. intros Hs Ha. exact (req_wp Hs Ha (promote_ok y)). Qed.
  Lemma rneq_wp st a b x y : synced st -> shares a x -> shares b y ->
    wp cap (fun i => rneq dbg a2b i (st i) (a i) (b i)) (fun r => bit_result r (negb (rto x =? rto y)%N)).
  Proof. intros Hs Ha Hb. apply rcompl_wp. exact (req_wp Hs Ha Hb). Qed.
  Lemma rneq_public_wp st a x y : synced st -> shares a x ->
    wp cap (fun i => rneq_public dbg a2b i (st i) (a i) y) (fun r => bit_result r (negb (rto x =? rto y)%N)).
  Proof. intros Hs Ha. exact (rneq_wp Hs Ha (promote_ok y)). Qed.
  Lemma ris_zero_open_wp st a x : synced st -> shares a x ->
    wp cap (fun i => ris_zero_open dbg a2b i (st i) (a i))
      (fun r => (forall i, fst (r i) = (rto x =? 0)%N) /\ synced (fun i => snd (r i))).
  Proof.
    intros Hs Ha. unfold ris_zero_open. apply wp_bind. eapply wp_mono; [|apply (req_wp Hs zero_share_ok Ha)].
    intros r (R1 & R2 & R3). apply wp_bind. eapply wp_mono; [|apply (open_wp cap_pos R1)]. intros v Hv.
    apply wp_ret. cbn [fst snd]. split; [|exact R3]. intros i. rewrite Hv, rto_zero, (N.eqb_sym 0).
    destruct (rto x =? 0)%N; reflexivity.
  Qed.
End RCmpWp.

(** ** Casts *)
Section CastWp.
  Context {T U : Type} `{IT : IntRing T} `{IU : IntRing U} {S M : Type} (dbg : bool) {DT : Draw S T} {DU : Draw S U}.
  Context {EN : Enc M (list N)} {ENN : Enc M (list (N * N))}
          {EL : Enc M (list (list N))} {ELL : Enc M (list (list N * list N))} {ET : Enc M (list T)} {EU : Enc M (list U)}
          (cap : nat) (cap_pos : (1 <= cap)%nat).
  Implicit Types (st : pid -> rst S).
  Notation KT := (rK T).
  Notation KU := (rK U).
  Lemma pow_mod_mod u (m n : nat) : (m <= n)%nat -> ((u mod 2 ^ N.of_nat n) mod 2 ^ N.of_nat m = u mod 2 ^ N.of_nat m)%N.
  Proof.
    intros L. rewrite <- !land_mask. apply ubit_ext. intros j. rewrite !ubit_land, !ubit_mask.
    destruct (Nat.ltb_spec j n), (Nat.ltb_spec j m); try lia; rewrite ?andb_true_r, ?andb_false_r; reflexivity.
  Qed.
  Lemma as_add (x y : T) : (KU <= KT)%nat -> rof (T := U) (rto (x + y)) = rof (rto x) + rof (rto y).
  Proof.
    intros L. apply rto_inj. rewrite rto_rof, !rto_add, !rto_rof, pow_mod_mod by exact L. apply N.add_mod. apply q_pos.
  Qed.
  Lemma downcast_ok a (x : T) : (KU <= KT)%nat -> shares a x ->
    exists r : pid -> share U, (forall i, downcast (a i) = Some (r i)) /\ shares r (rof (rto x)).
  Proof.
    intros L (x0 & x1 & x2 & -> & E0 & E1 & E2)%shares_elim.
    exists (fun i => mkShare (rof (rto (sa (a i)))) (rof (rto (sb (a i))))). split.
    - intros i. unfold downcast. destruct (Nat.leb_spec KU KT); [reflexivity|lia].
    - eapply shares_intro; cbv beta; rewrite ?E0, ?E1, ?E2; try reflexivity. rewrite !as_add by exact L. reflexivity.
  Qed.
  Lemma bit_ring_shares a (x : T) : KT = 1%nat -> shares a x -> shares (fun i => mkShare (rto (sa (a i))) (rto (sb (a i)))) (rto x).
  Proof.
    intros E1 (x0 & x1 & x2 & -> & F0 & F1 & F2)%shares_elim. eapply shares_intro; rewrite ?F0, ?F1, ?F2; try reflexivity.
    assert (X : forall u v : T, rto (u + v) = N.lxor (rto u) (rto v)).
    { intros u v. rewrite rto_add. pose proof (rto_lt u) as Lu. pose proof (rto_lt v) as Lv. rewrite E1 in *.
      change (2 ^ N.of_nat 1)%N with 2%N in *.
      destruct (rto u) as [|[| |]], (rto v) as [|[| |]]; try reflexivity; cbn in Lu, Lv; lia. }
    rewrite !X. reflexivity.
  Qed.
  Lemma bit_of_ring (x : T) : KT = 1%nat -> N.b2n (ubit (rto x) 0) = rto x.
  Proof.
    intros E1. pose proof (rto_lt x) as L. rewrite E1 in L. change (2 ^ N.of_nat 1)%N with 2%N in L.
    destruct (rto x) as [|[| |]]; try reflexivity; cbn in L; lia.
  Qed.
  Lemma upcast_a2b_wp st a x : is_pow2 KT = true -> is_pow2 KU = true -> (KT < KU)%nat -> synced st -> shares a x ->
    wp cap (fun i => upcast_a2b (T := T) (U := U) dbg i (st i) (a i))
      (fun r => shares (fun i => fst (r i)) (rof (rto x)) /\ synced (fun i => snd (r i))).
  Proof.
    intros pT pU L Hs Ha. unfold upcast_a2b. destruct (Nat.ltb_spec KT KU); [|lia]. destruct (Nat.eqb_spec KT 1) as [E|E].
    - eapply wp_mono; [|apply (rbit_inject_from_bit_wp (T := U) cap_pos Hs (bit_ring_shares E Ha))].
      intros r [R1 R2]. split; [|exact R2]. rewrite <- rof_bit, (bit_of_ring x E) in R1. exact R1.
    - apply wp_bind. eapply wp_mono; [|apply (ra2b_wp dbg cap_pos pT Hs Ha)]. intros r [R1 R2].
      eapply wp_mono; [|eapply (rb2a_wp (T := U) dbg cap_pos pU R2 R1)]; [auto|].
      eapply N.lt_le_trans; [apply rto_lt|]. apply N.pow_le_mono_r; lia.
  Qed.
  Lemma upcast_small_wpo st a : (KU <= KT)%nat ->
    wpo cap (fun i => upcast_a2b (T := T) (U := U) dbg i (st i) (a i)) (fun o => forall i, o i = Failed (Panic "assertion failed: T::K < U::K")).
  Proof.
    intros L. unfold upcast_a2b. destruct (Nat.ltb_spec KT KU); [lia|]. apply wpo_fail. reflexivity.
  Qed.
  Lemma cast_a2b_wp st a x : is_pow2 KT = true -> is_pow2 KU = true -> synced st -> shares a x ->
    wp cap (fun i => cast_a2b (T := T) (U := U) dbg i (st i) (a i))
      (fun r => shares (fun i => fst (r i)) (rof (rto x)) /\ synced (fun i => snd (r i))).
  Proof.
    intros pT pU Hs Ha. unfold cast_a2b. destruct (Nat.leb_spec KU KT) as [L|L].
    - destruct (downcast_ok L Ha) as (r & E & Hr). eapply wp_ext; [intros i; rewrite E; reflexivity|].
      apply wp_ret. cbn [fst snd]. auto.
    - exact (upcast_a2b_wp pT pU L Hs Ha).
  Qed.
End CastWp.

Section CastFieldWp.
  Context {T F : Type} `{IT : IntRing T} `{FU : FieldUint F} {S M : Type} (dbg : bool) (W : nat) (du : nat -> S -> N * S)
          {DT : Draw S T} {DF : Draw S F}.
  Context {EN : Enc M (list N)} {ENN : Enc M (list (N * N))}
          {EL : Enc M (list (list N))} {ELL : Enc M (list (list N * list N))} {ET : Enc M (list T)} {EF : Enc M (list F)}
          (cap : nat) (cap_pos : (1 <= cap)%nat).
  Notation B := (mbs F).
  Notation K := (rK T).
  Notation p := (fu_p (F := F)).
  Notation q := (2 ^ N.of_nat (rK T))%N.
  Context (width : (B + 2 <= W)%nat) (pw : is_pow2 K = true).
  Implicit Types (st : pid -> rst S).
  Lemma to_ring_ok s v : shares s v -> shares (fun i => to_ring (T := T) (s i)) (v mod q)%N.
  Proof. intros Hv. rewrite <- land_mask. exact (shmap_ok (@lin3_land (umask K)) Hv). Qed.
  Lemma field_to_ring_wp st a (x : F) : synced st -> shares a x ->
    wp cap (fun i => field_to_ring (T := T) dbg W du i (st i) (a i))
      (fun r => shares (fun i => fst (r i)) (rof (to_uint x)) /\ synced (fun i => snd (r i))).
  Proof.
    intros Hs Ha. unfold field_to_ring. apply wp_bind. eapply wp_mono; [|apply (a2b_wp du cap_pos width Hs Ha)]. intros r [R1 R2].
    eapply wp_mono; [|eapply (rb2a_wp (T := T) dbg cap_pos pw R2 (to_ring_ok R1))].
    - intros z [Z1 Z2]. split; [|exact Z2]. rewrite rof_mod in Z1. exact Z1.
    - apply N.mod_lt, q_pos.
  Qed.
  Lemma field_to_ring_many_wp st a (xs : list F) : synced st -> shares_vec a xs ->
    wp cap (fun i => field_to_ring_many (T := T) dbg W du i (st i) (a i))
      (fun r => shares_vec (fun i => fst (r i)) (map (fun x => rof (to_uint x)) xs) /\ synced (fun i => snd (r i))).
  Proof.
    intros Hs Ha. unfold field_to_ring_many. apply wp_bind. eapply wp_mono; [|apply (a2b_many_wp du cap_pos width Hs Ha)]. intros r [R1 R2].
    pose proof (shmap_vec_ok (@lin3_land (umask K)) R1) as R3. cbv beta in R3.
    eapply wp_mono; [|eapply (rb2a_many_wp (T := T) dbg cap_pos pw R2 R3)].
    - intros z [Z1 Z2]. split; [|exact Z2]. rewrite map_map in Z1. erewrite map_ext; [exact Z1|].
      intros x. cbv beta. rewrite land_mask, rof_mod. reflexivity.
    - intros u Hu. apply in_map_iff in Hu. destruct Hu as (x & <- & _). rewrite land_mask. apply N.mod_lt, q_pos.
  Qed.
  Lemma wide_id v : (v < p)%N -> N.land v (umask W) = v.
  Proof.
    intros L. rewrite land_mask. apply N.mod_small. pose proof (fu_p_mbs (F := F)).
    eapply N.lt_trans; [exact L|]. eapply N.lt_le_trans; [exact H1|]. apply N.pow_le_mono_r; lia.
  Qed.
  Lemma ring_to_field_wp st a (x : T) : (rto x < p)%N -> synced st -> shares a x ->
    wp cap (fun i => ring_to_field (F := F) dbg W du i (st i) (a i))
      (fun r => shares (fun i => fst (r i)) (of_uint (rto x)) /\ synced (fun i => snd (r i))).
  Proof.
    intros Hx Hs Ha. unfold ring_to_field. destruct (Nat.eqb_spec K 1) as [E|E].
    - eapply wp_mono; [|apply (bit_inject_wp cap_pos Hs (bit_ring_shares cap_pos E Ha))].
      + intros r [R1 R2]. split; [|exact R2]. rewrite <- of_uint_bit, (bit_of_ring cap_pos x E) in R1. exact R1.
      + intros i. cbn [sa sb]. change (2 ^ N.of_nat 1)%N with 2%N.
        pose proof (rto_lt (sa (a i))) as A. pose proof (rto_lt (sb (a i))) as C. rewrite E in A, C. split; assumption.
    - apply wp_bind. eapply wp_mono; [|apply (ra2b_wp dbg cap_pos pw Hs Ha)]. intros r [R1 R2].
      pose proof (shmap_ok (@lin3_land (umask W)) R1) as R3. cbv beta in R3. rewrite (wide_id Hx) in R3.
      exact (b2a_wp du cap_pos width R2 R3 Hx).
  Qed.
  Lemma bit_ring_shares_vec xs : forall a : pid -> list (share T), K = 1%nat -> shares_vec a xs ->
    shares_vec (fun i => map (fun x => mkShare (rto (sa x)) (rto (sb x))) (a i)) (map rto xs).
  Proof.
    induction xs as [|x xs IH]; intros a E Ha.
    - apply pvec_nil. intros i. rewrite (pvec_nil_inv Ha). reflexivity.
    - destruct (pvec_cons_inv Ha) as (h & t & Ea & Hh & Ht).
      eapply pvec_cons; [intros i; rewrite Ea; reflexivity|exact (bit_ring_shares cap_pos E Hh)|exact (IH t E Ht)].
  Qed.
  Lemma ring_to_field_many_wp st a (xs : list T) : (forall x, In x xs -> rto x < p)%N -> synced st -> shares_vec a xs ->
    wp cap (fun i => ring_to_field_many (F := F) dbg W du i (st i) (a i))
      (fun r => shares_vec (fun i => fst (r i)) (map (fun x => of_uint (rto x)) xs) /\ synced (fun i => snd (r i))).
  Proof.
    intros Hx Hs Ha. unfold ring_to_field_many. destruct (Nat.eqb_spec K 1) as [E|E].
    - eapply wp_mono; [|eapply (bit_inject_many_wp cap_pos Hs (bit_ring_shares_vec E Ha))].
      + intros r [R1 R2]. split; [|exact R2]. rewrite map_map in R1. erewrite map_ext; [exact R1|].
        intros x. cbv beta. rewrite <- of_uint_bit, (bit_of_ring cap_pos x E). reflexivity.
      + intros i. apply Forall_forall. intros y Hy. apply in_map_iff in Hy. destruct Hy as (z & <- & _). cbn [sa sb].
        pose proof (rto_lt (sa z)) as A. pose proof (rto_lt (sb z)) as C. rewrite E in A, C. split; assumption.
    - apply wp_bind. eapply wp_mono; [|apply (ra2b_many_wp dbg cap_pos pw Hs Ha)]. intros r [R1 R2].
      pose proof (shmap_vec_ok (@lin3_land (umask W)) R1) as R3. cbv beta in R3.
      rewrite (map_ext_in _ rto xs (fun x Hin => wide_id (Hx x Hin))) in R3.
      eapply wp_mono; [|eapply (b2a_many_wp du cap_pos width R2 R3)].
      + intros z [Z1 Z2]. rewrite map_map in Z1. auto.
      + intros u Hu. apply in_map_iff in Hu. destruct Hu as (x & <- & Hin). apply Hx. exact Hin.
  Qed.
  (** rings larger than the field *)
  Lemma big_mask v : (B < K)%nat -> N.land v (N.land (umask B) (umask K)) = (v mod 2 ^ N.of_nat B)%N.
  Proof using FU.
    clear. intros L. rewrite <- land_mask. apply ubit_ext. intros j. rewrite !ubit_land, !ubit_mask.
    destruct (Nat.ltb_spec j B), (Nat.ltb_spec j K); try lia; rewrite ?andb_true_r, ?andb_false_r; reflexivity.
  Qed.
  Lemma ring_to_field_big_wp st a (x : T) : (B < K)%nat -> (rto x mod 2 ^ N.of_nat B < p)%N -> synced st -> shares a x ->
    wp cap (fun i => ring_to_field_big (F := F) dbg W du i (st i) (a i))
      (fun r => shares (fun i => fst (r i)) (of_uint (rto x mod 2 ^ N.of_nat B)%N) /\ synced (fun i => snd (r i))).
  Proof.
    intros L Hx Hs Ha. unfold ring_to_field_big. destruct (Nat.leb_spec K B); [lia|]. rewrite andb_false_r.
    apply wp_bind. eapply wp_mono; [|apply (ra2b_wp dbg cap_pos pw Hs Ha)]. intros r [R1 R2].
    pose proof (shmap_ok (@lin3_land (umask W)) (shmap_ok (@lin3_land (N.land (umask B) (umask K))) R1)) as R3.
    cbv beta in R3. rewrite (big_mask _ L), (wide_id Hx) in R3. exact (b2a_wp du cap_pos width R2 R3 Hx).
  Qed.
  Lemma ring_to_field_big_many_wp st a (xs : list T) : (B < K)%nat -> (forall x, In x xs -> rto x mod 2 ^ N.of_nat B < p)%N ->
    synced st -> shares_vec a xs ->
    wp cap (fun i => ring_to_field_big_many (F := F) dbg W du i (st i) (a i))
      (fun r => shares_vec (fun i => fst (r i)) (map (fun x => of_uint (rto x mod 2 ^ N.of_nat B)%N) xs) /\ synced (fun i => snd (r i))).
  Proof.
    intros L Hx Hs Ha. unfold ring_to_field_big_many. destruct (Nat.leb_spec K B); [lia|]. rewrite andb_false_r.
    apply wp_bind. eapply wp_mono; [|apply (ra2b_many_wp dbg cap_pos pw Hs Ha)]. intros r [R1 R2].
    assert (R3 : shares_vec (fun i => map (fun x => to_wide W (and_mask x (N.land (umask B) (umask K)))) (fst (r i)))
      (map (fun x => rto x mod 2 ^ N.of_nat B)%N xs)).
    { pose proof (shmap_vec_ok (@lin3_land (umask W)) (shmap_vec_ok (@lin3_land (N.land (umask B) (umask K))) R1)) as R3.
      erewrite map_ext_in; [eapply pvec_ext; [|exact R3]|].
      - intros i. cbv beta. rewrite map_map. reflexivity.
      - intros x Hin. cbv beta. rewrite (big_mask _ L). symmetry. apply wide_id. apply Hx. exact Hin. }
    eapply wp_mono; [|eapply (b2a_many_wp du cap_pos width R2 R3)].
    - intros z [Z1 Z2]. rewrite map_map in Z1. auto.
    - intros u Hu. apply in_map_iff in Hu. destruct Hu as (x & <- & Hin). apply Hx. exact Hin.
  Qed.
End CastFieldWp.

(** ** Public shifts *)
Lemma shares_zero : shares (fun _ : pid => mkShare 0%N 0%N) 0%N.
Proof. split; [intros []; reflexivity|reflexivity]. Qed.
Lemma rshift_r_ok K a u c : shares a u -> (u < 2 ^ N.of_nat K)%N -> (c < 2 ^ 64)%N ->
  exists r : pid -> share N, (forall i, rshift_r_public K (a i) c = Some (r i)) /\ shares r (u / 2 ^ c)%N.
Proof.
  intros Ha Hu Hc. unfold rshift_r_public. destruct (N.eqb_spec c 0) as [->|H0].
  - exists a. split; [reflexivity|]. rewrite N.pow_0_r, N.div_1_r. exact Ha.
  - rewrite (proj2 (N.ltb_lt c (2 ^ 64)) Hc). destruct (N.ltb_spec c (N.of_nat K)) as [Hk|Hk].
    + eexists. split; [reflexivity|]. rewrite <- N.shiftr_div_pow2.
      replace (N.shiftr u c) with (ushr u (N.to_nat c)) by (unfold ushr; rewrite N2Nat.id; reflexivity).
      exact (shmap_ok (@lin3_shr (N.to_nat c)) Ha).
    + exists (fun _ => mkShare 0%N 0%N). split; [reflexivity|]. rewrite N.div_small; [apply shares_zero|].
      eapply N.lt_le_trans; [exact Hu|]. apply N.pow_le_mono_r; [discriminate|exact Hk].
Qed.
Lemma rshift_l_ok K a u c : shares a u -> (u < 2 ^ N.of_nat K)%N -> (c < 2 ^ 64)%N ->
  exists r : pid -> share N, (forall i, rshift_l_public K (a i) c = Some (r i)) /\ shares r (u * 2 ^ c mod 2 ^ N.of_nat K)%N.
Proof.
  intros Ha Hu Hc. unfold rshift_l_public. destruct (N.eqb_spec c 0) as [->|H0].
  - exists a. split; [reflexivity|]. rewrite N.pow_0_r, N.mul_1_r, N.mod_small by exact Hu. exact Ha.
  - rewrite (proj2 (N.ltb_lt c (2 ^ 64)) Hc). destruct (N.ltb_spec c (N.of_nat K)) as [Hk|Hk].
    + eexists. split; [reflexivity|].
      replace (u * 2 ^ c mod 2 ^ N.of_nat K)%N with (ushl K u (N.to_nat c))
        by (unfold ushl; rewrite N2Nat.id, N.shiftl_mul_pow2; reflexivity).
      exact (shmap_ok (@lin3_shl K (N.to_nat c)) Ha).
    + exists (fun _ => mkShare 0%N 0%N). split; [reflexivity|].
      replace c with ((c - N.of_nat K) + N.of_nat K)%N by lia. rewrite N.pow_add_r, N.mul_assoc, N.mod_mul; [apply shares_zero|].
      apply N.pow_nonzero. discriminate.
Qed.
Lemma rshift_none K (x : share N) c : (2 ^ 64 <= c)%N -> rshift_r_public K x c = None /\ rshift_l_public K x c = None.
Proof.
  intros Hc. unfold rshift_r_public, rshift_l_public. destruct (N.eqb_spec c 0) as [->|_]; [cbn in Hc; lia|].
  rewrite (proj2 (N.ltb_ge c (2 ^ 64)) Hc). auto.
Qed.
