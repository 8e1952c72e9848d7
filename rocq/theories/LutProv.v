(** * The table provider: correctness under every schedule *)
From Coq Require Import String List Arith NArith Lia Bool Ring.
From Verif Require Import Proc Alg Rep3Net Rep3 Rep3Spec Rep3Proofs Rep3Wp Uint Binary BinaryWp Conv ConvWp CmpWp Ring2k Lut LutWp.
Import ListNotations.
Set Implicit Arguments.
Local Open Scope grp_scope.

Lemma lut_width_big k : (2 <= k <= 32)%nat -> exists K, lut_width k = Some K /\ (make_even k <= K <= 32)%nat.
Proof.
  intros H. unfold lut_width. replace (k =? 1)%nat with false by (symmetry; apply Nat.eqb_neq; lia).
  assert (Hev : forall K, Nat.even K = true -> (k <= K)%nat -> (make_even k <= K)%nat).
  { intros K HK Hle. unfold make_even. destruct (Nat.odd k) eqn:O; [|exact Hle].
    assert (k <> K) by (intros ->; rewrite <- Nat.negb_even, HK in O; discriminate). lia. }
  destruct (Nat.leb_spec k 8); [exists 8%nat; split; [reflexivity|split; [apply Hev; auto|lia]]|].
  destruct (Nat.leb_spec k 16); [exists 16%nat; split; [reflexivity|split; [apply Hev; auto|lia]]|].
  destruct (Nat.leb_spec k 32); [exists 32%nat; split; [reflexivity|split; [apply Hev; auto|lia]]|lia].
Qed.
Lemma lut_width_any k : (k <= 32)%nat -> exists K, lut_width k = Some K /\ (k <= K <= 32)%nat.
Proof.
  intros H. unfold lut_width.
  destruct (Nat.eqb_spec k 1); [exists 1%nat; split; [reflexivity|lia]|].
  destruct (Nat.leb_spec k 8); [exists 8%nat; split; [reflexivity|lia]|].
  destruct (Nat.leb_spec k 16); [exists 16%nat; split; [reflexivity|lia]|].
  destruct (Nat.leb_spec k 32); [exists 32%nat; split; [reflexivity|lia]|lia].
Qed.
Lemma lut_width_none k : (32 < k)%nat -> lut_width k = None.
Proof.
  intros H. unfold lut_width. replace (k =? 1)%nat with false by (symmetry; apply Nat.eqb_neq; lia).
  destruct (Nat.leb_spec k 8); [lia|]. destruct (Nat.leb_spec k 16); [lia|]. destruct (Nat.leb_spec k 32); [lia|reflexivity].
Qed.
Lemma lut_bits_ge3 n : (3 <= n)%nat -> (2 <= lut_bits n)%nat.
Proof. intros H. rewrite lut_bits_eq. apply (Nat.log2_up_le_mono 3 n) in H. exact H. Qed.
Lemma lut_bits_le n b : (n <= 2 ^ b)%nat -> (lut_bits n <= b)%nat.
Proof. intros H. rewrite lut_bits_eq. apply Nat.log2_up_le_mono in H. rewrite Nat.log2_up_pow2 in H; [exact H|lia]. Qed.
Lemma mod_mod_pow x k K : (k <= K)%nat -> ((x mod 2 ^ N.of_nat K) mod 2 ^ N.of_nat k = x mod 2 ^ N.of_nat k)%N.
Proof.
  intros H. apply ubit_ext. intros j. rewrite <- !land_mask. rewrite !ubit_land, !ubit_mask.
  destruct (Nat.ltb_spec j k); [|rewrite !andb_false_r; reflexivity].
  replace (j <? K)%nat with true by (symmetry; apply Nat.ltb_lt; lia). rewrite !andb_true_r. reflexivity.
Qed.

Section LutProv.
  Context {F : Type} `{FU : FieldUint F} {S M : Type} (dbg : bool)
          (du dw : nat -> S -> N * S) {DF : Draw S F}.
  Context {EN : Enc M (list N)} {EL : Enc M (list (list N))} {EF : Enc M (list F)} (cap : nat) (cap_pos : (1 <= cap)%nat).
  Context (dw_lt : forall K s, (fst (dw K s) < 2 ^ N.of_nat K)%N).
  Context (a2b : pid -> rst S -> share F -> prog pid M (share N * rst S))
          (b2a : pid -> rst S -> share N -> prog pid M (share F * rst S)).
  Implicit Types (st : pid -> rst S).
  (** what the conversions guarantee (proved in ConvWp.v for the conversions of the code) *)
  Context (a2b_ok : forall st a x, synced st -> shares a x ->
             wp cap (fun i => a2b i (st i) (a i)) (fun r => shares (fun i => fst (r i)) (to_uint x) /\ synced (fun i => snd (r i))))
          (b2a_ok : forall st a u, synced st -> shares a u -> (u < fu_p (F := F))%N ->
             wp cap (fun i => b2a i (st i) (a i)) (fun r => shares (fun i => fst (r i)) (of_uint u) /\ synced (fun i => snd (r i)))).

  Lemma lcast_ok K s x : shares s x -> shares (fun i => lcast K (s i)) (x mod 2 ^ N.of_nat K)%N.
  Proof. intros Hx. rewrite <- land_mask. exact (shmap_ok (lin3_land _) Hx). Qed.
  Lemma cast_lt K x : (K <= 32)%nat -> (x mod 2 ^ N.of_nat K < 2 ^ 64)%N.
  Proof.
    intros HK. eapply N.lt_le_trans; [apply N.mod_lt, N.pow_nonzero; lia|]. apply N.pow_le_mono_r; lia.
  Qed.
  Lemma p_pos : (0 < fu_p (F := F))%N.
  Proof. pose proof (to_uint_lt (F := F) 0). lia. Qed.
  Lemma of_uint_0 : of_uint (F := F) 0%N = 0.
  Proof.
    rewrite <- (of_to_uint (F := F) 0). f_equal. pose proof (to_uint_add (F := F) 0 0) as A.
    rewrite gadd_0 in A. pose proof (to_uint_lt (F := F) 0) as L. set (z := to_uint (F := F) 0) in *.
    pose proof p_pos. destruct (N.lt_ge_cases (z + z) (fu_p (F := F))) as [C|C].
    - rewrite N.mod_small in A by exact C. lia.
    - assert (E : ((z + z) mod fu_p (F := F) = z + z - fu_p (F := F))%N).
      { symmetry. apply N.mod_unique with 1%N; lia. }
      lia.
  Qed.
  Lemma entry_lt (l : list F) j : (entry l j < fu_p (F := F))%N.
  Proof. unfold entry. destruct (nth_error l j); [apply to_uint_lt|apply p_pos]. Qed.
  Lemma entry_nth (l : list F) j : of_uint (entry l j) = nth j l 0.
  Proof.
    unfold entry. destruct (nth_error l j) eqn:E.
    - rewrite of_to_uint. symmetry. apply nth_error_nth. exact E.
    - rewrite of_uint_0. symmetry. apply nth_overflow. apply nth_error_None. exact E.
  Qed.
  Lemma reshare_lut z y : additive z y -> wp (M := M) cap (fun i => b <- reshare i (z i) ;; Ret (mkShare (z i) b)) (fun r => shares r y).
  Proof. intros Hz. apply wp_bind. apply (wp_reshare cap cap_pos). apply wp_ret. apply additive_reshared. exact Hz. Qed.

  (** ** reading *)
  Theorem get_from_lut_public_wp st0 st1 index x (l : list F) : (3 <= length l)%nat -> (lut_bits (length l) <= 32)%nat ->
    synced st0 -> synced st1 -> shares index x ->
    wp cap (fun i => get_from_lut dbg du dw a2b b2a (index i) (Public l) i (st0 i) (st1 i))
      (fun r => shares (fun i => fst (r i)) (nth (N.to_nat (to_uint x mod 2 ^ N.of_nat (make_even (lut_bits (length l))))) l 0) /\
                synced (fun i => fst (snd (r i))) /\ synced (fun i => snd (snd (r i)))).
  Proof.
    intros Hn Hb Hs0 Hs1 Hi. destruct (@lut_width_big (lut_bits (length l))) as (K & EK & HK); [split; [apply lut_bits_ge3; exact Hn|exact Hb]|].
    unfold get_from_lut. cbn [pplen]. rewrite EK. apply wp_bind. eapply wp_mono; [|apply (a2b_ok Hs0 Hi)].
    intros bits [B1 B2]. cbn [get_from_lut_internal]. apply wp_bind.
    eapply wp_mono; [|apply (@read_ld_wp _ _ _ _ _ dbg du dw _ _ _ cap_pos dw_lt K l _ st1 _ _ ltac:(lia) ltac:(lia)
      (cast_lt _ (proj2 HK)) B2 Hs1 (lcast_ok K B1))].
    intros a (A1 & A2 & A3). rewrite mod_mod_pow in A1 by exact (proj1 HK).
    apply wp_bind. apply (wp_reshare cap cap_pos). apply wp_bind.
    eapply wp_mono; [|apply (b2a_ok A2 (additive_reshared A1)); apply entry_lt].
    intros r [R1 R2]. apply wp_ret. cbn [fst snd]. rewrite entry_nth in R1. exact (conj R1 (conj R2 A3)).
  Qed.
  Theorem get_from_lut_shared_wp st0 st1 index x lut (l : list F) : (2 <= length l)%nat -> (lut_bits (length l) <= 32)%nat ->
    synced st0 -> synced st1 -> shares index x -> shares_vec lut l ->
    wp cap (fun i => get_from_lut dbg du dw a2b b2a (index i) (Shared (lut i)) i (st0 i) (st1 i))
      (fun r => shares (fun i => fst (r i)) (nth (N.to_nat (to_uint x mod 2 ^ N.of_nat (lut_bits (length l)))) l 0) /\
                synced (fun i => fst (snd (r i))) /\ synced (fun i => snd (snd (r i)))).
  Proof.
    intros Hn Hb Hs0 Hs1 Hi Hl. destruct (@lut_width_any (lut_bits (length l)) Hb) as (K & EK & HK).
    eapply wp_ext. { intros i. unfold get_from_lut. cbn [pplen]. rewrite (pvec_len i Hl), EK. reflexivity. }
    apply wp_bind. eapply wp_mono; [|apply (a2b_ok Hs0 Hi)].
    intros bits [B1 B2]. cbn [get_from_lut_internal]. apply wp_bind.
    eapply wp_mono; [|apply (@read_shared_lut_wp _ _ _ _ dbg dw _ _ _ _ _ cap_pos K lut l _ _ _ Hn (proj1 HK) B2 Hl (lcast_ok K B1))].
    intros a (A1 & A2). rewrite mod_mod_pow in A1 by exact (proj1 HK).
    apply wp_bind. apply (wp_reshare cap cap_pos). apply wp_ret. cbn [fst snd].
    exact (conj (additive_reshared A1) (conj A2 Hs1)).
  Qed.
  Lemma b2a_seq_wp us : forall st xs, synced st -> shares_vec xs us -> Forall (fun u => u < fu_p (F := F))%N us ->
    wp cap (fun i => b2a_seq b2a i (st i) (xs i)) (fun r => shares_vec (fun i => fst (r i)) (map of_uint us) /\ synced (fun i => snd (r i))).
  Proof.
    induction us as [|u us IH]; intros st xs Hs Hx Hu.
    - pose proof (pvec_nil_inv Hx) as E. eapply wp_ext; [intros i; rewrite E; reflexivity|]. apply wp_ret. split; [apply pvec_nil; reflexivity|exact Hs].
    - destruct (pvec_cons_inv Hx) as (h & q & E & Hh & Hq). inversion Hu as [|? ? U1 U2]; subst.
      eapply wp_ext; [intros i; rewrite E; reflexivity|]. cbn [b2a_seq]. apply wp_bind.
      eapply wp_mono; [|apply (b2a_ok Hs Hh U1)]. intros r [R1 R2]. apply wp_bind.
      eapply wp_mono; [|apply (IH _ _ R2 Hq U2)]. intros t [T1 T2]. apply wp_ret. cbn [fst snd map].
      split; [|exact T2]. eapply pvec_cons; [reflexivity|exact R1|exact T1].
  Qed.
  Theorem get_from_public_luts_wp st0 st1 index x n (luts : list (list F)) : luts <> [] -> Forall (fun l => length l = n) luts ->
    (3 <= n)%nat -> (lut_bits n <= 32)%nat -> synced st0 -> synced st1 -> shares index x ->
    wp cap (fun i => get_from_public_luts dbg du dw a2b b2a (index i) luts i (st0 i) (st1 i))
      (fun r => shares_vec (fun i => fst (r i))
                  (map (fun l => nth (N.to_nat (to_uint x mod 2 ^ N.of_nat (make_even (lut_bits n)))) l 0) luts) /\
                synced (fun i => fst (snd (r i))) /\ synced (fun i => snd (snd (r i)))).
  Proof.
    intros Hne HL Hn Hb Hs0 Hs1 Hi. destruct (@lut_width_big (lut_bits n)) as (K & EK & HK); [split; [apply lut_bits_ge3; exact Hn|exact Hb]|].
    unfold get_from_public_luts. rewrite (list_max_const Hne HL), EK. destruct luts as [|l0 luts0] eqn:El; [congruence|]. rewrite <- El in *.
    apply wp_bind. eapply wp_mono; [|apply (a2b_ok Hs0 Hi)].
    intros bits [B1 B2]. unfold get_from_public_luts_internal. apply wp_bind.
    eapply wp_mono; [|apply (@read_multiple_wp _ _ _ _ _ dbg du dw _ _ _ cap_pos dw_lt K n luts _ st1 _ _ ltac:(congruence) HL ltac:(lia) ltac:(lia)
      (cast_lt _ (proj2 HK)) B2 Hs1 (lcast_ok K B1))].
    intros a (A1 & A2 & A3). rewrite mod_mod_pow in A1 by exact (proj1 HK).
    apply wp_bind. apply (wp_reshare_many cap cap_pos). apply wp_bind.
    eapply wp_mono; [|apply (b2a_seq_wp A2 (additive_vec_reshared A1)); apply Forall_map, Forall_forall; intros y _; apply entry_lt].
    intros r [R1 R2]. apply wp_ret. cbn [fst snd]. split; [|exact (conj R2 A3)].
    rewrite map_map in R1. erewrite map_ext in R1; [exact R1|]. intros y. apply entry_nth.
  Qed.
  Theorem get_no_b2a_wp K st0 st1 index x (l : list F) : (2 <= length l)%nat -> (make_even (lut_bits (length l)) <= K <= 32)%nat ->
    synced st0 -> synced st1 -> shares index x ->
    wp cap (fun i => get_from_public_lut_no_b2a dbg du dw K (index i) (Public l) i (st0 i) (st1 i))
      (fun r => shares (fun i => fst (r i)) (entry l (N.to_nat (x mod 2 ^ N.of_nat (make_even (lut_bits (length l)))))) /\
                synced (fun i => fst (snd (r i))) /\ synced (fun i => snd (snd (r i)))).
  Proof.
    intros Hn HK Hs0 Hs1 Hi. cbn [get_from_public_lut_no_b2a]. apply wp_bind.
    eapply wp_mono; [|apply (@read_ld_wp _ _ _ _ _ dbg du dw _ _ _ cap_pos dw_lt K l _ st1 _ _ Hn ltac:(lia)
      (cast_lt _ (proj2 HK)) Hs0 Hs1 (lcast_ok K Hi))].
    intros a (A1 & A2 & A3). rewrite mod_mod_pow in A1 by exact (proj1 HK).
    apply wp_bind. apply (wp_reshare cap cap_pos). apply wp_ret. cbn [fst snd].
    exact (conj (additive_reshared A1) (conj A2 A3)).
  Qed.

  (** ** writing *)
  (** what a table of the provider holds *)
  Definition holds (t : pid -> pplut F) (l : list F) : Prop :=
    (forall i, t i = Public l) \/ exists s, (forall i, t i = Shared (s i)) /\ shares_vec s l.
  Lemma promote_list_ok (l : list F) : shares_vec (fun i => map (promote i) l) l.
  Proof. exact (promote_vec_ok l). Qed.
  Theorem write_to_lut_wp st0 st1 index x value w t (l : list F) : (2 <= length l)%nat -> (lut_bits (length l) <= 32)%nat ->
    synced st0 -> synced st1 -> shares index x -> shares value w -> holds t l ->
    wp cap (fun i => write_to_lut dbg dw a2b (index i) (value i) (t i) i (st0 i) (st1 i))
      (fun r => (exists s, (forall i, fst (r i) = Shared (s i)) /\ shares_vec s (lupd (N.to_nat (to_uint x mod 2 ^ N.of_nat (lut_bits (length l)))) w l)) /\
                synced (fun i => fst (snd (r i))) /\ synced (fun i => snd (snd (r i)))).
  Proof.
    intros Hn Hb Hs0 Hs1 Hi Hw Ht. destruct (@lut_width_any (lut_bits (length l)) Hb) as (K & EK & HK).
    assert (exists s, shares_vec s l /\ forall i, match t i with Public l => map (promote i) l | Shared l => l end = s i) as (s & Hl & Es).
    { destruct Ht as [E|(s & E & Hs)].
      - exists (fun i => map (promote i) l). split; [apply promote_list_ok|]. intros i. rewrite E. reflexivity.
      - exists s. split; [exact Hs|]. intros i. rewrite E. reflexivity. }
    assert (Len : forall i, pplen (t i) = length l).
    { intros i. destruct Ht as [E|(s' & E & Hs')]; rewrite E; cbn [pplen]; [reflexivity|apply (pvec_len i Hs')]. }
    eapply wp_ext. { intros i. unfold write_to_lut. rewrite (Len i), EK. unfold write_to_lut_internal. rewrite (Es i). reflexivity. }
    apply wp_bind. eapply wp_mono; [|apply (a2b_ok Hs0 Hi)].
    intros bits [B1 B2]. apply wp_bind.
    eapply wp_mono; [|apply (@write_lut_wp _ _ _ _ dbg dw _ _ _ _ _ cap_pos K value w s l _ _ _ Hn (proj1 HK) B2 Hw Hl (lcast_ok K B1))].
    intros a (A1 & A2). rewrite mod_mod_pow in A1 by exact (proj1 HK).
    apply wp_ret. cbn [fst snd]. split; [|exact (conj A2 Hs1)]. exists (fun i => fst (a i)). exact (conj (fun _ => eq_refl) A1).
  Qed.
  Theorem ohv_from_index_wp st index x n : (2 <= n)%nat -> (lut_bits n <= 32)%nat -> synced st -> shares index x ->
    wp cap (fun i => ohv_from_index dbg dw a2b (index i) n i (st i))
      (fun r => shares_vec (fun i => fst (r i)) (injv (F := F) (lut_bits n) (N.to_nat (to_uint x mod 2 ^ N.of_nat (lut_bits n)))) /\
                synced (fun i => snd (r i))).
  Proof.
    intros Hn Hb Hs Hi. destruct (@lut_width_any (lut_bits n) Hb) as (K & EK & HK).
    unfold ohv_from_index. cbv zeta. rewrite EK. apply wp_bind. eapply wp_mono; [|apply (a2b_ok Hs Hi)].
    intros bits [B1 B2]. apply wp_bind.
    eapply wp_mono; [|apply (@ohv_wp _ _ dbg dw _ _ _ cap_pos K (lut_bits n) _ _ _ (conj (lut_bits_pos Hn) (proj1 HK)) B2 (lcast_ok K B1))].
    intros e [E1 E2]. rewrite mod_mod_pow in E1 by exact (proj1 HK). apply (bit_inject_wide_wp cap_pos E2 E1).
  Qed.

  (** ** tables the provider cannot handle *)
  Theorem get_public_two_panics st0 st1 index x (l : list F) : length l = 2%nat -> synced st0 -> shares index x ->
    wpo cap (fun i => get_from_lut dbg du dw a2b b2a (index i) (Public l) i (st0 i) (st1 i))
      (fun o => forall i, o i = Failed (Panic "assertion failed: k <= T::K")).
  Proof.
    intros Hn Hs0 Hi. unfold get_from_lut. cbn [pplen]. rewrite Hn. cbn [lut_bits next_pow2]. change (lut_width (lut_bits 2)) with (Some 1%nat).
    apply wpo_bind. eapply wp_mono; [|apply (a2b_ok Hs0 Hi)]. intros bits _. cbn [get_from_lut_internal].
    unfold read_public_lut_low_depth, ld_setup. rewrite Hn. cbn. apply wpo_fail. reflexivity.
  Qed.
  Definition is_panic {A} (o : outcome A) : Prop := exists m, o = Failed (Panic m).
  Theorem get_tiny_panics st0 st1 index x (t : pid -> pplut F) n : (n <= 1)%nat -> (forall i, pplen (t i) = n) ->
    (forall i, match t i with Public _ => True | Shared _ => False end) \/ (forall i, match t i with Public _ => False | Shared _ => True end) ->
    synced st0 -> shares index x ->
    wpo cap (fun i => get_from_lut dbg du dw a2b b2a (index i) (t i) i (st0 i) (st1 i)) (fun o => forall i, is_panic (o i)).
  Proof.
    intros Hn Hlen Hkind Hs0 Hi. assert (E0 : lut_bits n = 0%nat) by (destruct n as [|[|n]]; [reflexivity|reflexivity|lia]).
    eapply wpo_ext with (qs := fun i => bits <- a2b i (st0 i) (index i) ;; get_from_lut_internal dbg du dw b2a 8 (fst bits) (t i) i (snd bits) (st1 i)).
    { intros i. unfold get_from_lut. rewrite Hlen, E0. reflexivity. }
    apply wpo_bind. eapply wp_mono; [|apply (a2b_ok Hs0 Hi)]. intros bits _.
    destruct Hkind as [Hk|Hk].
    - eapply wpo_ext with (qs := fun i => Fail (if dbg then Panic "assertion failed: k >= 1" else Panic "attempt to subtract with overflow")).
      2:{ apply wpo_fail. intros i. destruct dbg; eexists; reflexivity. }
      intros i. specialize (Hk i). pose proof (Hlen i) as Hl. destruct (t i) as [l|l]; [|contradiction]. cbn [pplen] in Hl. cbn [get_from_lut_internal].
      unfold read_public_lut_low_depth, ld_setup. rewrite Hl, E0. destruct dbg; reflexivity.
    - eapply wpo_ext with (qs := fun i => Fail (Panic "attempt to subtract with overflow")); [|apply wpo_fail; intros i; eexists; reflexivity].
      intros i. specialize (Hk i). pose proof (Hlen i) as Hl. destruct (t i) as [l|l]; [contradiction|]. cbn [pplen] in Hl. cbn [get_from_lut_internal].
      unfold read_shared_lut. rewrite Hl, E0. reflexivity.
  Qed.
  Theorem write_tiny_panics st0 st1 index x value (t : pid -> pplut F) n : (n <= 1)%nat -> (forall i, pplen (t i) = n) ->
    synced st0 -> shares index x ->
    wpo cap (fun i => write_to_lut dbg dw a2b (index i) (value i) (t i) i (st0 i) (st1 i)) (fun o => forall i, is_panic (o i)).
  Proof.
    intros Hn Hlen Hs0 Hi. assert (E0 : lut_bits n = 0%nat) by (destruct n as [|[|n]]; [reflexivity|reflexivity|lia]).
    eapply wpo_ext with (qs := fun i => bits <- a2b i (st0 i) (index i) ;; Fail (Panic "attempt to subtract with overflow")).
    { intros i. unfold write_to_lut. rewrite Hlen, E0. f_equal. unfold write_to_lut_internal, write_lut.
      assert (El : length (match t i with Public l => map (promote i) l | Shared l => l end) = n).
      { rewrite <- (Hlen i). destruct (t i); cbn [pplen]; rewrite ?map_length; reflexivity. }
      rewrite El, E0. reflexivity. }
    apply wpo_bind. eapply wp_mono; [|apply (a2b_ok Hs0 Hi)]. intros bits _.
    apply wpo_fail. intros i. eexists; reflexivity.
  Qed.
  Theorem get_public_luts_uneven_panics st0 st1 index x lut (luts : list (list F)) : In lut luts ->
    let n := list_max (map (@length F) luts) in
    (length lut < n)%nat -> (3 <= n)%nat -> (lut_bits n <= 32)%nat -> synced st0 -> synced st1 -> shares index x ->
    wpo cap (fun i => get_from_public_luts dbg du dw a2b b2a (index i) luts i (st0 i) (st1 i))
      (fun o => forall i, o i = Failed (Panic "index out of bounds")).
  Proof.
    intros Hin n Hl Hn Hb Hs0 Hs1 Hi. destruct (@lut_width_big (lut_bits n)) as (K & EK & HK); [split; [apply lut_bits_ge3; exact Hn|exact Hb]|].
    unfold get_from_public_luts. fold n. rewrite EK. destruct luts as [|l0 luts0]; [destruct Hin|]. set (luts := l0 :: luts0) in *.
    apply wpo_bind. eapply wp_mono; [|apply (a2b_ok Hs0 Hi)]. intros bits [B1 B2]. unfold get_from_public_luts_internal.
    apply wpo_seq. eapply wpo_mono; [|apply (@read_multiple_short_wpo _ _ _ _ _ dbg du dw _ _ _ cap_pos dw_lt K luts lut _ st1 _ _ Hin Hl ltac:(lia) ltac:(fold n; lia)
      (cast_lt _ (proj2 HK)) B2 Hs1 (lcast_ok K B1))].
    intros o Ho. eapply wpo_ext; [intros i; rewrite (Ho i); reflexivity|]. apply wpo_fail. reflexivity.
  Qed.
  Theorem get_too_large_panics st0 st1 index x t n : (32 < lut_bits n)%nat -> (forall i, pplen (t i) = n) -> synced st0 -> shares index x ->
    wpo cap (fun i => get_from_lut dbg du dw a2b b2a (index i) (t i) i (st0 i) (st1 i))
      (fun o => forall i, o i = Failed (Panic "Table is too large")).
  Proof.
    intros Hn Hlen Hs0 Hi. eapply wpo_ext.
    { intros i. unfold get_from_lut. rewrite Hlen, (lut_width_none Hn). reflexivity. }
    apply wpo_bind. eapply wp_mono; [|apply (a2b_ok Hs0 Hi)]. intros bits _. apply wpo_fail. reflexivity.
  Qed.
End LutProv.

(** ** The plain provider *)
Section PlainProofs.
  Context {F X : Type} `{FU : FieldUint F}.
  Lemma plain_get_ok (x : F) (l : list X) d : (to_uint x < N.of_nat (length l))%N -> (N.of_nat (length l) <= 2 ^ 64)%N ->
    plain_get x l = Done (nth (N.to_nat (to_uint x)) l d).
  Proof.
    intros H1 H2. unfold plain_get, field_to_usize. replace (to_uint x <? 2 ^ 64)%N with true by (symmetry; apply N.ltb_lt; lia).
    rewrite (nth_error_nth' l d) by lia. reflexivity.
  Qed.
  Lemma plain_get_oob (x : F) (l : list X) : (N.of_nat (length l) <= to_uint x)%N -> exists e, plain_get x l = Failed e.
  Proof.
    intros H1. unfold plain_get, field_to_usize. destruct (to_uint x <? 2 ^ 64)%N; [|eexists; reflexivity].
    rewrite (proj2 (nth_error_None l _)) by lia. eexists; reflexivity.
  Qed.
  Lemma plain_write_ok (x : F) v (l : list X) : (to_uint x < N.of_nat (length l))%N -> (N.of_nat (length l) <= 2 ^ 64)%N ->
    exists l', plain_write x v l = Done l' /\ length l' = length l /\
      forall j, nth_error l' j = if (j =? N.to_nat (to_uint x))%nat then Some v else nth_error l j.
  Proof.
    intros H1 H2. unfold plain_write, field_to_usize. replace (to_uint x <? 2 ^ 64)%N with true by (symmetry; apply N.ltb_lt; lia).
    set (j0 := N.to_nat (to_uint x)). assert (Hj : (j0 < length l)%nat) by lia. rewrite (proj2 (Nat.ltb_lt _ _) Hj).
    eexists. split; [reflexivity|]. split.
    - rewrite app_length. cbn [length]. rewrite firstn_length, skipn_length. lia.
    - clearbody j0. clear H1 H2. revert l Hj. induction j0 as [|j0 IH]; intros l Hj j; destruct l as [|y l]; cbn in Hj; try lia.
      + destruct j; reflexivity.
      + destruct j as [|j]; [reflexivity|]. cbn [firstn skipn app nth_error Nat.eqb]. apply (IH l); lia.
  Qed.
  Lemma plain_write_oob (x : F) v (l : list X) : (N.of_nat (length l) <= to_uint x)%N -> exists e, plain_write x v l = Failed e.
  Proof.
    intros H1. unfold plain_write, field_to_usize. destruct (to_uint x <? 2 ^ 64)%N; [|eexists; reflexivity].
    replace (N.to_nat (to_uint x) <? length l)%nat with false by (symmetry; apply Nat.ltb_ge; lia). eexists; reflexivity.
  Qed.
End PlainProofs.
