(** * Conversions and comparisons: correctness under every schedule *)
From Coq Require Import String List Arith NArith Lia Bool Ring.
From Verif Require Import Proc Alg Rep3Net Rep3 Rep3Spec Rep3Proofs Rep3Wp Uint Binary BinaryWp Conv.
Import ListNotations.
Set Implicit Arguments.
Local Open Scope grp_scope.

Section FieldFacts.
  Context {F : Type} `{FU : FieldUint F}.
  Lemma fu_p_pos : (1 < fu_p (F := F))%N.
  Proof. rewrite <- (to_uint_one (F := F)). apply to_uint_lt. Qed.
  Lemma to_uint_zero : to_uint (F := F) 0 = 0%N.
  Proof.
    pose proof (to_uint_add (F := F) 0 0) as E. rewrite gadd_0 in E.
    pose proof (to_uint_lt (F := F) 0) as L. pose proof fu_p_pos.
    set (u := to_uint 0) in *. destruct (N.lt_ge_cases (u + u) (fu_p (F := F))) as [C|C].
    - rewrite N.mod_small in E by exact C. lia.
    - replace (u + u)%N with ((u + u - fu_p (F := F)) + 1 * fu_p (F := F))%N in E by lia.
      rewrite N.mod_add in E by lia. rewrite N.mod_small in E by lia. lia.
  Qed.
  Lemma to_uint_inj (x y : F) : to_uint x = to_uint y -> x = y.
  Proof. intros E. rewrite <- (of_to_uint x), E. apply of_to_uint. Qed.
  Lemma mbs_pos : (1 <= mbs F)%nat.
  Proof.
    unfold mbs. destruct (Nat.le_gt_cases (ubit_len (fu_p (F := F))) 0) as [C|C]; [|lia].
    apply ubit_len_le in C. pose proof fu_p_pos. cbn in C. lia.
  Qed.
  Lemma fu_p_mbs : (fu_p (F := F) < 2 ^ N.of_nat (mbs F))%N.
  Proof. apply ubit_len_le. reflexivity. Qed.
  Lemma to_uint_mbs (x : F) : (to_uint x < 2 ^ N.of_nat (mbs F))%N.
  Proof. pose proof fu_p_mbs. pose proof (to_uint_lt x). lia. Qed.
  Lemma of_uint_shift u (k : F) : (u < fu_p (F := F))%N -> of_uint ((u + to_uint k) mod fu_p (F := F)) = of_uint u + k.
  Proof.
    intros L. apply to_uint_inj. rewrite to_uint_add, (to_of_uint L). apply to_of_uint.
    apply N.mod_lt. lia.
  Qed.
End FieldFacts.

Section ConvWp.
  Context {F : Type} `{FU : FieldUint F} {S M : Type} (W : nat) (du : nat -> S -> N * S) {DF : Draw S F}.
  Context {EN : Enc M (list N)} {ENN : Enc M (list (N * N))}
          {EL : Enc M (list (list N))} {ELL : Enc M (list (list N * list N))} {EF : Enc M (list F)}
          (cap : nat) (cap_pos : (1 <= cap)%nat).
  Notation B := (mbs F).
  Notation p := (fu_p (F := F)).
  (** field_uint.rs:9-14, 56-58: the width contract *)
  Context (width : (B + 2 <= W)%nat).
  Implicit Types (st : pid -> rst S).

  Lemma a2b_x2_ok a (x : F) : shares a x -> shares (fun i => a2b_x2 i (a i)) (to_uint (sa (a P2))).
  Proof.
    intros (x0 & x1 & x2 & -> & E0 & E1 & E2)%shares_elim.
    eapply shares_intro; rewrite ?E0, ?E1, ?E2; reflexivity.
  Qed.
  Lemma a2b_x01_ok a (x : F) (m : pid -> N) : shares a x -> additive m 0 ->
    additive (fun i => a2b_x01 i (a i) (m i)) (to_uint (sa (a P1) + sb (a P1))).
  Proof.
    intros _ Hm. unfold additive in *. cbn in *. rewrite (N.lxor_comm (to_uint _)).
    rewrite <- !N.lxor_assoc, (N.lxor_assoc _ (to_uint _)), (N.lxor_comm (to_uint _)), <- !N.lxor_assoc, Hm. apply N.lxor_0_l.
  Qed.
  Lemma a2b_sum a (x : F) : shares a x ->
    ((to_uint (sa (a P1) + sb (a P1))%grp + to_uint (sa (a P2))) mod p)%N = to_uint x.
  Proof.
    intros (x0 & x1 & x2 & -> & E0 & E1 & E2)%shares_elim. rewrite <- to_uint_add. f_equal. rewrite E1, E2. cbn. grp.
  Qed.
  Lemma a2b_wp st a x : synced st -> shares a x ->
    wp cap (fun i => a2b W du i (st i) (a i))
      (fun r => shares (fun i => fst (r i)) (to_uint x) /\ synced (fun i => snd (r i))).
  Proof.
    intros Hs Ha. unfold a2b. destruct (masking_ok (H0 := du B) Hs) as [Hm Hs']. cbv zeta.
    apply wp_bind. apply wp_reshare; [exact cap_pos|].
    rewrite <- (a2b_sum Ha). apply add_mod_p_wp; try exact cap_pos.
    - apply mbs_pos.
    - lia.
    - pose proof fu_p_pos (F := F). pose proof (fu_p_mbs (F := F)). lia.
    - apply to_uint_lt.
    - apply to_uint_lt.
    - exact Hs'.
    - exact (additive_reshared (a2b_x01_ok Ha Hm)).
    - apply (a2b_x2_ok Ha).
  Qed.

  Lemma masks_length n : forall s : rst S, length (fst (masks (F := F) du n s)) = n.
  Proof. induction n as [|n IH]; intros s; cbn; [reflexivity|]. rewrite IH. reflexivity. Qed.
  Lemma a2b_local_ok xs : forall st a, synced st -> shares_vec a xs ->
    exists l : list (N * N), map (fun uv => (fst uv + snd uv) mod p)%N l = map to_uint xs /\
      (forall uv, In uv l -> fst uv < p /\ snd uv < p)%N /\
      additive_vec (fun i => map2 (a2b_x01 i) (a i) (fst (masks (F := F) du (length (a i)) (st i)))) (map fst l) /\
      shares_vec (fun i => map (a2b_x2 i) (a i)) (map snd l) /\
      synced (fun i => snd (masks (F := F) du (length (a i)) (st i))).
  Proof.
    induction xs as [|x xs IH]; intros st a Hs Ha.
    - exists []. split; [reflexivity|]. split; [intros uv []|]. split; [|split].
      + apply pvec_nil. intros i. rewrite (pvec_nil_inv Ha). reflexivity.
      + apply pvec_nil. intros i. rewrite (pvec_nil_inv Ha). reflexivity.
      + eapply synced_ext; [|exact Hs]. intros i. rewrite (pvec_nil_inv Ha). reflexivity.
    - destruct (pvec_cons_inv Ha) as (ha & ta & Ea & Hha & Hta).
      destruct (masking_ok (H0 := du B) Hs) as [Hm Hs'].
      destruct (IH _ ta Hs' Hta) as (l & L1 & L2 & L3 & L4 & L5).
      exists ((to_uint (sa (ha P1) + sb (ha P1)), to_uint (sa (ha P2))) :: l). split; [|split; [|split; [|split]]].
      + cbn [map fst snd]. rewrite L1, (a2b_sum Hha). reflexivity.
      + intros uv [<-|Hin]; [split; apply to_uint_lt|auto].
      + eapply pvec_cons; [intros i; rewrite Ea; reflexivity|exact (a2b_x01_ok Hha Hm)|exact L3].
      + eapply pvec_cons; [intros i; rewrite Ea; reflexivity|exact (a2b_x2_ok Hha)|exact L4].
      + eapply synced_ext; [|exact L5]. intros i. rewrite Ea. reflexivity.
  Qed.
  Lemma a2b_many_wp st a xs : synced st -> shares_vec a xs ->
    wp cap (fun i => a2b_many W du i (st i) (a i))
      (fun r => shares_vec (fun i => fst (r i)) (map to_uint xs) /\ synced (fun i => snd (r i))).
  Proof.
    intros Hs Ha. destruct (a2b_local_ok Hs Ha) as (l & L1 & L2 & L3 & L4 & L5).
    unfold a2b_many. cbv zeta. apply wp_bind. apply wp_reshare_many; [exact cap_pos|].
    rewrite <- L1. apply add_mod_p_many_wp; try exact cap_pos.
    - apply mbs_pos.
    - lia.
    - pose proof fu_p_pos (F := F). pose proof (fu_p_mbs (F := F)). lia.
    - exact L2.
    - exact L5.
    - exact (additive_vec_reshared L3).
    - exact L4.
  Qed.

  (** ** b2a *)
  Lemma b2a_keys_wp st : synced st -> wp (M := M) cap (fun i => b2a_keys i (st i))
    (fun r => exists k2 k3, (forall i, fst (fst (r i)) = match i with P0 => mkShare 0 (- k3) | P1 => mkShare (- k2) 0 | P2 => mkShare (- k3) (- k2) end) /\
       (forall i, snd (fst (r i)) = match i with P2 => to_uint (k2 + k3) | _ => 0%N end) /\ synced (fun i => snd (r i))).
  Proof.
    intros Hs.
    destruct (three_keys_bc1 (X := F) Hs) as (x0 & x1 & x2 & b1 & b2 & E1 & E2 & K1).
    set (st1 := fun i => match i with P0 => st P0 | P1 => set_bc1 (st P1) b1 | P2 => set_bc1 (st P2) b2 end).
    assert (Hs1 : synced st1) by (apply K1; try reflexivity; intros []; reflexivity).
    destruct (three_keys_bc2 (X := F) Hs1) as (y0 & y1 & y2 & c0 & c2 & G0 & G2 & K2).
    set (st2 := fun i => match i with P0 => set_bc2 (st1 P0) c0 | P1 => st1 P1 | P2 => set_bc2 (st1 P2) c2 end).
    assert (Hs2 : synced st2) by (apply K2; try reflexivity; intros []; reflexivity).
    cbn in G0, G2.
    exists (fun i => match i with
      | P0 => ((mkShare 0 (- key_sum (y0, y1, y2)), 0%N), st2 P0)
      | P1 => ((mkShare (- key_sum (x1, x2, x0)) 0, 0%N), st2 P1)
      | P2 => ((mkShare (- key_sum (y2, y0, y1)) (- key_sum (x2, x0, x1)), to_uint (key_sum (x2, x0, x1) + key_sum (y2, y0, y1))), st2 P2) end).
    split.
    - apply runs_comp3. unfold b2a_keys. rewrite E1, E2, G0, G2.
      apply comp3_ret_eq; reflexivity.
    - exists (x0 + x1 + x2), (y0 + y1 + y2). split; [|split; [|eapply synced_ext; [|exact Hs2]; intros []; reflexivity]].
      + intros []; cbn; unfold key_sum; cbn; f_equal; grp.
      + intros []; cbn; try reflexivity. unfold key_sum; cbn. f_equal. grp.
  Qed.
  Lemma b2a_open_wp res z v : shares z v -> (v < p)%N ->
    wp cap (fun i => b2a_open i (res i) (z i))
      (fun r => forall i, r i = match i with P0 => mkShare (of_uint v) (sb (res P0)) | P1 => mkShare (sa (res P1)) (of_uint v) | P2 => res P2 end).
  Proof.
    intros (z0 & z1 & z2 & -> & E0 & E1 & E2)%shares_elim Hv. cbn in Hv.
    exists (fun i => match i with P0 => mkShare (of_uint (z0 + z1 + z2)%grp) (sb (res P0)) | P1 => mkShare (sa (res P1)) (of_uint (z0 + z1 + z2)%grp) | P2 => res P2 end).
    split; [|intros i; reflexivity].
    apply runs_comp3. unfold b2a_open, reshare, reshare_many, send_and_recv_many, send_many, recv_many, recv_prev, send_next, send_to, recv_from, recv_many, send_many.
    rewrite E0, E1, E2. cbn [bind next prev sa sb]. repeat step3 cap_pos.
    assert (Ea : N.lxor (N.lxor z0 z2) z1 = N.lxor (N.lxor z0 z1) z2) by (rewrite !N.lxor_assoc; f_equal; apply N.lxor_comm).
    assert (Eb : N.lxor (N.lxor z1 z0) z2 = N.lxor (N.lxor z0 z1) z2) by (f_equal; apply N.lxor_comm).
    unfold from_unchecked. rewrite Ea, Eb. cbn [gadd xor_grp]. apply N.ltb_lt in Hv. rewrite Hv. cbn [bind].
    apply comp3_ret_eq; reflexivity.
  Qed.
  Lemma b2a_result k2 k3 u (res : pid -> share F) : (u < p)%N ->
    (forall i, res i = match i with P0 => mkShare 0 (- k3) | P1 => mkShare (- k2) 0 | P2 => mkShare (- k3) (- k2) end) ->
    forall r, (forall i, r i = match i with P0 => mkShare (of_uint ((u + to_uint (k2 + k3)%grp) mod p)%N) (sb (res P0))
       | P1 => mkShare (sa (res P1)) (of_uint ((u + to_uint (k2 + k3)%grp) mod p)%N) | P2 => res P2 end) ->
    shares r (of_uint u).
  Proof.
    intros Hu Hres r Hr. rewrite of_uint_shift in Hr by exact Hu.
    eapply shares_intro; try (rewrite Hr, ?Hres; cbn; reflexivity). cbn. grp.
  Qed.
  Lemma y_additive (m : pid -> N) (k : pid -> N) u : additive m 0 -> (forall i, k i = match i with P2 => u | _ => 0%N end) ->
    additive (fun i => N.lxor (k i) (m i)) u.
  Proof.
    unfold additive. cbn. intros Hm Hk. rewrite !Hk, !N.lxor_0_l, (N.lxor_comm u), <- N.lxor_assoc, Hm. apply N.lxor_0_l.
  Qed.
  Lemma b2a_wp st a u : synced st -> shares a u -> (u < p)%N ->
    wp cap (fun i => b2a W du i (st i) (a i))
      (fun r => shares (fun i => fst (r i)) (of_uint u) /\ synced (fun i => snd (r i))).
  Proof.
    intros Hs Ha Hu. unfold b2a. destruct (masking_ok (H0 := du B) Hs) as [Hm Hs']. cbv zeta.
    apply wp_bind. eapply wp_mono; [|apply (b2a_keys_wp Hs')]. intros k (k2 & k3 & K1 & K2 & K3).
    apply wp_bind. apply wp_reshare; [exact cap_pos|]. apply wp_bind.
    eapply wp_mono; [|apply (@add_mod_p_wp S M W du _ _ cap cap_pos p _ _ _ u (to_uint (k2 + k3)) B)].
    - intros z [Z1 Z2]. apply wp_bind. eapply wp_mono; [|eapply b2a_open_wp; [exact Z1|]].
      + intros r Hr. apply wp_ret. cbn [fst snd]. split; [|exact Z2].
        exact (@b2a_result k2 k3 u _ Hu K1 _ Hr).
      + apply N.mod_lt. lia.
    - apply mbs_pos.
    - lia.
    - pose proof fu_p_pos (F := F). pose proof (fu_p_mbs (F := F)). lia.
    - exact Hu.
    - apply to_uint_lt.
    - exact K3.
    - exact Ha.
    - exact (additive_reshared (@y_additive _ _ _ Hm K2)).
  Qed.

  (** batched *)
  Lemma b2a_keys_many_wp n : forall st, synced st -> wp (M := M) cap (fun i => b2a_keys_many n i (st i))
    (fun r => exists l : list (F * F), length l = n /\
       (forall i, map fst (fst (r i)) = map (fun k => match i with P0 => mkShare 0 (- snd k) | P1 => mkShare (- fst k) 0 | P2 => mkShare (- snd k) (- fst k) end) l) /\
       (forall i, map snd (fst (r i)) = map (fun k => match i with P2 => to_uint (fst k + snd k) | _ => 0%N end) l) /\
       synced (fun i => snd (r i))).
  Proof.
    induction n as [|n IH]; intros st Hs; cbn [b2a_keys_many].
    - apply wp_ret. exists []. cbn. auto.
    - apply wp_bind. eapply wp_mono; [|apply (b2a_keys_wp Hs)]. intros k (k2 & k3 & K1 & K2 & K3).
      apply wp_bind. eapply wp_mono; [|apply (IH _ K3)]. intros r (l & L0 & L1 & L2 & L3).
      apply wp_ret. exists ((k2, k3) :: l). cbn [fst snd map length]. split; [congruence|]. split; [|split; [|exact L3]].
      + intros i. rewrite L1, K1. reflexivity.
      + intros i. rewrite L2, K2. reflexivity.
  Qed.
  Lemma masks_additive n : forall st, synced st ->
    additive_vec (fun i => fst (masks (F := F) du n (st i))) (repeat 0%N n) /\ synced (fun i => snd (masks (F := F) du n (st i))).
  Proof.
    induction n as [|n IH]; intros st Hs; cbn [masks repeat fst snd].
    - split; [apply pvec_nil; reflexivity|exact Hs].
    - destruct (masking_ok (H0 := du B) Hs) as [Hm Hs']. destruct (IH _ Hs') as [K1 K2]. split; [|exact K2].
      eapply pvec_cons; [intros i; reflexivity|exact Hm|exact K1].
  Qed.
  Lemma y_additive_many (ks : list (F * F)) : forall (m kk : pid -> list N), additive_vec m (repeat 0%N (length ks)) ->
    (forall i, kk i = map (fun k => match i with P2 => to_uint (fst k + snd k) | _ => 0%N end) ks) ->
    additive_vec (fun i => map2 N.lxor (kk i) (m i)) (map (fun k => to_uint (fst k + snd k)) ks).
  Proof.
    induction ks as [|k ks IH]; intros m kk Hm Hk; cbn [length repeat map] in *.
    - apply pvec_nil. intros i. rewrite Hk. reflexivity.
    - destruct (pvec_cons_inv Hm) as (h & t & E & Hh & Ht).
      eapply pvec_cons with (h := fun i => N.lxor (match i with P2 => to_uint (fst k + snd k) | _ => 0%N end) (h i)).
      + intros i. rewrite Hk, E. cbn [map2]. reflexivity.
      + apply y_additive; [exact Hh|]. intros i. reflexivity.
      + apply IH; [exact Ht|]. intros i. reflexivity.
  Qed.
  Lemma from_unchecked_many_ok us : (forall u, In u us -> u < p)%N ->
    from_unchecked_many (M := M) us = Ret (map of_uint us).
  Proof.
    induction us as [|u us IH]; intros L; cbn [from_unchecked_many map]; [reflexivity|].
    unfold from_unchecked. assert (Hu : (u < p)%N) by (apply L; left; reflexivity). apply N.ltb_lt in Hu. rewrite Hu. cbn [bind].
    rewrite IH by (intros v Hv; apply L; right; exact Hv). reflexivity.
  Qed.
  Lemma shares_vec_open vs : forall (z : pid -> list (share N)), shares_vec z vs ->
    map2 (fun z c => N.lxor (N.lxor (sa z) (sb z)) c) (z P0) (map sb (z P2)) = vs /\
    map2 (fun z c => N.lxor (N.lxor (sa z) (sb z)) c) (z P1) (map sb (z P0)) = vs.
  Proof.
    induction vs as [|v vs IH]; intros z Hz.
    - rewrite !(pvec_nil_inv Hz). split; reflexivity.
    - destruct (pvec_cons_inv Hz) as (h & t & E & Hh & Ht). rewrite !E. cbn [map2 map].
      destruct (IH t Ht) as [-> ->]. destruct (shares_elim Hh) as (z0 & z1 & z2 & -> & E0 & E1 & E2).
      rewrite E0, E1, E2. cbn. split; f_equal; [|f_equal; apply N.lxor_comm].
      rewrite !N.lxor_assoc. f_equal. apply N.lxor_comm.
  Qed.
  Lemma b2a_open_many_wp res z vs : shares_vec z vs -> (forall v, In v vs -> v < p)%N ->
    wp cap (fun i => b2a_open_many i (res i) (z i))
      (fun r => forall i, r i = match i with
         | P0 => map2 (fun r a => mkShare a (sb r)) (res P0) (map of_uint vs)
         | P1 => map2 (fun r b => mkShare (sa r) b) (res P1) (map of_uint vs) | P2 => res P2 end).
  Proof.
    intros Hz Hv. eexists. split; [|intros i; reflexivity].
    apply runs_comp3. unfold b2a_open_many, send_next_many, recv_prev_many, send_many, recv_many.
    cbn [bind next prev]. repeat step3 cap_pos.
    destruct (shares_vec_open Hz) as [-> ->]. rewrite (from_unchecked_many_ok _ Hv). cbn [bind].
    apply comp3_ret_eq; reflexivity.
  Qed.
  Lemma b2a_result_many us : forall (ks : list (F * F)) (res : pid -> list (share F)), length ks = length us -> (forall u, In u us -> u < p)%N ->
    (forall i, res i = map (fun k => match i with P0 => mkShare 0 (- snd k) | P1 => mkShare (- fst k) 0 | P2 => mkShare (- snd k) (- fst k) end) ks) ->
    forall r, (forall i, r i = match i with
       | P0 => map2 (fun r a => mkShare a (sb r)) (res P0) (map of_uint (map (fun uk => (fst uk + to_uint (fst (snd uk) + snd (snd uk))%grp) mod p)%N (List.combine us ks)))
       | P1 => map2 (fun r b => mkShare (sa r) b) (res P1) (map of_uint (map (fun uk => (fst uk + to_uint (fst (snd uk) + snd (snd uk))%grp) mod p)%N (List.combine us ks)))
       | P2 => res P2 end) ->
    shares_vec r (map of_uint us).
  Proof.
    induction us as [|u us IH]; intros [|k ks] res L Hu Hres r Hr; try discriminate L.
    - apply pvec_nil. intros i. rewrite Hr, !Hres. destruct i; reflexivity.
    - cbn [map List.combine] in *.
      set (vs := map of_uint (map (fun uk => (fst uk + to_uint (fst (snd uk) + snd (snd uk))%grp) mod p)%N (List.combine us ks))) in *.
      set (res' := fun i => map (fun k => match i with P0 => mkShare 0 (- snd k) | P1 => mkShare (- fst k) 0 | P2 => mkShare (- snd k) (- fst k) end) ks).
      apply pvec_cons with (h := fun i => match i with
         | P0 => mkShare (of_uint ((u + to_uint (fst k + snd k)%grp) mod p)%N) (- snd k)
         | P1 => mkShare (- fst k) (of_uint ((u + to_uint (fst k + snd k)%grp) mod p)%N)
         | P2 => mkShare (- snd k) (- fst k) end)
        (t := fun i => match i with
         | P0 => map2 (fun r a => mkShare a (sb r)) (res' P0) vs
         | P1 => map2 (fun r b => mkShare (sa r) b) (res' P1) vs
         | P2 => res' P2 end); [| |apply (IH ks res')].
      + intros i. rewrite Hr, !Hres. destruct i; reflexivity.
      + eapply (@b2a_result (fst k) (snd k) u (fun i => match i with P0 => mkShare 0 (- snd k) | P1 => mkShare (- fst k) 0 | P2 => mkShare (- snd k) (- fst k) end)).
        * apply Hu. left. reflexivity.
        * intros i. reflexivity.
        * intros []; reflexivity.
      + cbn in L; congruence.
      + intros v Hv. apply Hu. right. exact Hv.
      + intros i. reflexivity.
      + intros i. destruct i; reflexivity.
  Qed.
  Lemma combine_map_fst {X Y} : forall (l : list X) (k : list Y), length k = length l -> map fst (List.combine l k) = l.
  Proof. induction l as [|x l IH]; intros [|y k] E; try discriminate; cbn; [reflexivity|]. rewrite IH by (cbn in E; congruence). reflexivity. Qed.
  Lemma combine_map_snd {X Y} : forall (l : list X) (k : list Y), length k = length l -> map snd (List.combine l k) = k.
  Proof. induction l as [|x l IH]; intros [|y k] E; try discriminate; cbn; [reflexivity|]. rewrite IH by (cbn in E; congruence). reflexivity. Qed.
  Lemma b2a_many_wp st a us : synced st -> shares_vec a us -> (forall u, In u us -> u < p)%N ->
    wp cap (fun i => b2a_many W du i (st i) (a i))
      (fun r => shares_vec (fun i => fst (r i)) (map of_uint us) /\ synced (fun i => snd (r i))).
  Proof.
    intros Hs Ha Hu. destruct (masks_additive (length us) Hs) as [Hm Hs'].
    unfold b2a_many. cbv zeta.
    eapply wp_ext; [intros i; rewrite (pvec_len i Ha); reflexivity|].
    apply wp_bind. eapply wp_mono; [|apply (b2a_keys_many_wp (length us) Hs')]. intros k (l & L0 & L1 & L2 & L3).
    apply wp_bind. apply wp_reshare_many; [exact cap_pos|]. apply wp_bind.
    rewrite <- L0 in Hm |- *.
    pose proof (additive_vec_reshared (@y_additive_many l _ _ Hm L2)) as Hy.
    pose proof (combine_map_fst us l L0) as C1. pose proof (combine_map_snd us l L0) as C2.
    rewrite <- C1 in Ha.
    assert (El : map (fun k => to_uint (fst k + snd k)) l = map (fun x => to_uint (fst (snd x) + snd (snd x))) (List.combine us l)).
    { rewrite <- C2 at 1. apply map_map. }
    rewrite El in Hy.
    assert (Hu' : forall x, In x (List.combine us l) -> (fst x < p)%N).
    { intros [u k'] Hin. apply in_combine_l in Hin. apply Hu. exact Hin. }
    eapply wp_mono; [|eapply add_mod_p_many_wp with (l := List.combine us l)].
    - intros z [Z1 Z2]. apply wp_bind. eapply wp_mono; [|eapply b2a_open_many_wp; [exact Z1|]].
      + intros r Hr. apply wp_ret. cbn [fst snd]. split; [|exact Z2].
        exact (@b2a_result_many us l _ L0 Hu L1 _ Hr).
      + intros v Hv. apply in_map_iff in Hv. destruct Hv as (x & <- & _). apply N.mod_lt. pose proof (fu_p_pos (F := F)). lia.
    - exact cap_pos.
    - apply mbs_pos.
    - lia.
    - pose proof fu_p_pos (F := F). pose proof (fu_p_mbs (F := F)). lia.
    - intros x Hx. split; [apply Hu'; exact Hx|apply to_uint_lt].
    - exact L3.
    - exact Ha.
    - exact Hy.
  Qed.
End ConvWp.
