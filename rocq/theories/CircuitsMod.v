(** * What the circuits of yao/circuits.rs compute: arithmetic modulo p, casts, divisions of shares *)
From Coq Require Import String List Arith NArith Lia Bool.
From Verif Require Import Proc Alg Uint Rep3 Conv Garble Circuits CircuitsOk CircuitsArith.
Import ListNotations.
Set Implicit Arguments.
Local Open Scope N_scope.

Lemma p2_eq n : p2 n = 2 ^ N.of_nat n.
Proof. Transparent p2. reflexivity. Opaque p2. Qed.

Lemma neg_p_ok U n p : (S n <= U)%nat -> 0 < p -> p <= p2 (S n) ->
  uwsub U (ushl U 1 (S n)) p mod p2 (S n) = (p2 (S n) - p) mod p2 (S n).
Proof.
  intros L Hp Hle. unfold uwsub, ushl. rewrite N.shiftl_1_l, <- !p2_eq.
  pose proof (p2_pos (S n)). pose proof (p2_pos U). pose proof (p2_le L) as HU.
  destruct (Nat.eq_dec (S n) U) as [E|E].
  - rewrite <- E, N.mod_same by lia. rewrite N.add_0_l, N.mod_mod by lia. reflexivity.
  - assert (Hlt : p2 (S n) < p2 U).
    { pose proof (@p2_le (S (S n)) U ltac:(lia)). rewrite (p2_S (S n)) in *. lia. }
    rewrite (N.mod_small (p2 (S n))) by lia.
    replace (p2 (S n) + p2 U - p) with (p2 (S n) - p + 1 * p2 U) by lia.
    rewrite N.mod_add by lia. rewrite (N.mod_small (p2 (S n) - p)) by lia. reflexivity.
Qed.
Lemma odd_p2_sub n p : N.odd p = true -> p <= p2 (S n) -> N.odd (p2 (S n) - p) = true.
Proof.
  intros O L. rewrite N.odd_sub by exact L. rewrite p2_S, N.odd_mul, O. reflexivity.
Qed.
Lemma uint_bits_length_last x n d : uint_to_bits x (S n) <> [] /\ length (uint_to_bits x (S n)) = S n /\
  last (uint_to_bits x (S n)) d = last (uint_to_bits x (S n)) false.
Proof.
  pose proof (uint_to_bits_length x (S n)) as L. split; [|split; [exact L|]].
  - intros E. rewrite E in L. discriminate.
  - destruct (uint_to_bits x (S n)) as [|b l]; [discriminate|]. clear. revert b.
    induction l as [|c l IH]; intros b; [reflexivity|]. apply IH.
Qed.

Section ModP.
  Variables (U : nat) (p : N).
  Hypothesis p_odd : N.odd p = true.
  Lemma p_pos : 0 < p. Proof. destruct p; [discriminate|lia]. Qed.

  Lemma sub_p_ok wires carry (n := length wires) (v := bval wires + p2 n * N.b2n carry) :
    wires <> [] -> (S n <= U)%nat -> p <= p2 n -> v < 2 * p ->
    pok (sub_p U p wires carry)
        (fun r => length (fst r) = n /\ snd r = (v <? p) /\ (p <= v -> bval (fst r) = v - p)).
  Proof.
    intros Hne HU Hp Hv. subst n v. destruct wires as [|w0 ws]; [congruence|]. clear Hne. set (n := length (w0 :: ws)) in *.
    pose proof p_pos as Hp0.
    assert (Hp1 : p <= p2 (S n)) by (rewrite p2_S; pose proof (p2_pos n); lia).
    unfold sub_p. fold n. cbv zeta.
    set (bits := uint_to_bits (uwsub U (ushl U 1 (S n)) p) (S n)).
    assert (Vb : bval bits = p2 (S n) - p).
    { unfold bits. rewrite bval_uint_to_bits, neg_p_ok by assumption. apply N.mod_small. lia. }
    destruct (uint_bits_length_last (uwsub U (ushl U 1 (S n)) p) n false) as (Hb & Lb & _). fold bits in Hb, Lb.
    pose proof (@bval_last bits false Hb) as Hl. rewrite Lb in Hl. cbn [pred] in Hl. rewrite removelast_firstn_len, Lb in Hl.
    cbn [pred] in Hl.
    destruct bits as [|b0 pt]; [congruence|]. cbn [length] in Lb. injection Lb as Lb.
    assert (Eb : b0 = true).
    { pose proof (@odd_p2_sub n p p_odd Hp1) as O. rewrite <- Vb in O. cbn [bval] in O.
      rewrite N.odd_add_mul_2 in O. destruct b0; [reflexivity|discriminate]. }
    subst b0. set (pl := last (true :: pt) false) in *.
    eapply pok_step; [reflexivity|]. cbn [tl].
    eapply pok_bind; [apply (ripple_ok (fun x => x) (fun y => y)); [apply full_adder_const_ok|]|].
    { rewrite Lb. unfold n. cbn. lia. }
    intros t Ht. rewrite !map_id in Ht.
    assert (Ha : adds w0 true false (negb w0, w0)) by (destruct w0; reflexivity).
    pose proof (@sums_cons _ _ _ _ _ _ t Ha Ht) as Hs.
    eapply (@pok_step _ _ _ (xorb carry pl)); [destruct pl, carry; reflexivity|].
    eapply pok_step; [reflexivity|]. apply pok_ret. cbn [fst snd] in *.
    destruct (adds_xor carry pl (snd t)) as (c' & Hc).
    pose proof (sums_snoc Hs Hc) as (Lf & Vf). cbn [fst snd] in *.
    rewrite app_length, bval_app in *. cbn [length bval] in *.
    change (S (length ws)) with n in Lf, Vf.
    replace (firstn n (true :: pt)) with (true :: firstn (length ws) pt) in Hl by reflexivity.
    cbn [bval] in Hl.
    set (s := negb w0 :: fst t) in *.
    assert (Ls : length s = n) by (cbn; lia).
    change (S (length (fst t))) with (length s) in Vf. rewrite Ls in Vf.
    change (N.b2n (negb w0) + 2 * bval (fst t)) with (bval s) in Vf.
    set (ov := xorb (xorb carry pl) (snd t)) in *. set (v := N.b2n w0 + 2 * bval ws + p2 n * N.b2n carry) in *.
    rewrite p2_S in *.
    assert (EV : bval s + p2 n * N.b2n ov + 2 * p2 n * N.b2n c' = v + 2 * p2 n - p).
    { rewrite <- N.add_sub_assoc by lia. rewrite <- Vb, Hl. unfold v. rewrite N.mul_0_r, N.add_0_r in Vf.
      rewrite Vf. cbn [N.b2n]. lia. }
    change (N.b2n (negb w0) + 2 * bval (fst t)) with (bval s).
    pose proof (bval_lt s) as Hs2. rewrite Ls in Hs2.
    split; [exact Ls|]. destruct (N.ltb_spec v p) as [Hlt|Hge].
    - split; [|lia]. destruct ov, c'; cbn [N.b2n] in EV; try reflexivity; lia.
    - destruct ov, c'; cbn [N.b2n] in EV; try (split; [reflexivity|intros _; lia]); exfalso; lia.
  Qed.

  Lemma mux_list_plain b (x y : list bool) : length x = length y -> forall k,
    plain (gmapM (fun sa => gmux b (fst sa) (snd sa)) (firstn k (List.combine x y)))
    = Done (firstn k (if b then y else x)).
  Proof.
    intros L k. rewrite (gmapM_plain _ (fun sa => if b then snd sa else fst sa)) by (intros; apply gmux_plain).
    f_equal. rewrite <- firstn_map. f_equal. destruct b; [apply map_snd_combine|apply map_fst_combine]; lia.
  Qed.
  Lemma mux_list_plain_skip b (x y : list bool) : length x = length y -> forall k,
    plain (gmapM (fun sa => gmux b (fst sa) (snd sa)) (skipn k (List.combine x y)))
    = Done (skipn k (if b then y else x)).
  Proof.
    intros L k. rewrite (gmapM_plain _ (fun sa => if b then snd sa else fst sa)) by (intros; apply gmux_plain).
    f_equal. rewrite <- skipn_map. f_equal. destruct b; [apply map_snd_combine|apply map_fst_combine]; lia.
  Qed.

  (** the sum or the reduced sum, as chosen by the multiplexer *)
  Lemma reduced wires carry r (n := length wires) (v := bval wires + p2 n * N.b2n carry) :
    p <= p2 n -> v < 2 * p ->
    length (fst r) = n /\ snd r = (v <? p) /\ (p <= v -> bval (fst r) = v - p) ->
    length (if snd r then wires else fst r) = n /\ bval (if snd r then wires else fst r) = v mod p.
  Proof.
    intros Hp Hv (L & -> & V). destruct (N.ltb_spec v p) as [Hlt|Hge].
    - split; [reflexivity|]. rewrite N.mod_small by exact Hlt. unfold v in *.
      destruct carry; cbn [N.b2n] in *; lia.
    - split; [exact L|]. rewrite V by exact Hge. pose proof p_pos.
      replace v with (v - p + 1 * p) at 2 by lia. rewrite N.mod_add by lia. symmetry. apply N.mod_small. lia.
  Qed.

  Lemma sub_p_and_mux_ok wires carry outlen (n := length wires) (v := bval wires + p2 n * N.b2n carry) :
    wires <> [] -> (S n <= U)%nat -> p <= p2 n -> v < 2 * p ->
    pok (sub_p_and_mux U p wires carry outlen)
        (fun r => length r = Nat.min outlen n /\ bval r = v mod p mod p2 outlen).
  Proof.
    intros Hne HU Hp Hv. unfold sub_p_and_mux. eapply pok_bind; [apply sub_p_ok; assumption|].
    intros r Hr. destruct (reduced wires carry r Hp Hv Hr) as (L & V).
    eapply pok_eq; [apply mux_list_plain; apply Hr|].
    rewrite firstn_length, L, bval_firstn, V. auto.
  Qed.

  Lemma adder_mod_p_out_ok a b outlen (n := length a) : a <> [] -> length b = n -> (S n <= U)%nat -> p <= p2 n ->
    bval a < p -> bval b < p ->
    pok (adder_mod_p_out U p a b outlen)
        (fun r => length r = Nat.min outlen n /\ bval r = (bval a + bval b) mod p mod p2 outlen).
  Proof.
    intros Ha L HU Hp Va Vb. unfold adder_mod_p_out.
    eapply pok_bind; [apply bin_addition_ok; assumption|]. intros r (Lr & Vr). fold n in Lr, Vr.
    rewrite <- Vr. rewrite <- Lr in *. apply sub_p_and_mux_ok; try assumption; [|lia].
    destruct a; [congruence|]. destruct (fst r); [|congruence]. discriminate.
  Qed.
  (** all bits *)
  Lemma adder_mod_p_ok a b : a <> [] -> length b = length a -> (S (length a) <= U)%nat -> p <= p2 (length a) ->
    bval a < p -> bval b < p ->
    pok (adder_mod_p U p a b) (fun r => length r = length a /\ bval r = (bval a + bval b) mod p).
  Proof.
    intros. eapply pok_mono; [apply adder_mod_p_out_ok; assumption|]. cbn beta. intros r (L & V).
    rewrite Nat.min_id in L. split; [exact L|]. rewrite V. apply N.mod_small.
    pose proof (N.mod_lt (bval a + bval b) p ltac:(pose proof p_pos; lia)). lia.
  Qed.

  Lemma adder_y0_ok y c : pok (full_adder_const y false c) (adds false y c).
  Proof. eapply pok_mono; [apply full_adder_const_ok|]. intros. apply adds_comm. assumption. Qed.

  (** addition of a shorter number *)
  Lemma ext_sums x y xs ys r t u (n := length xs) : (n <= length ys)%nat ->
    adds x y false r -> sums n (bval xs + bval (firstn n ys) + N.b2n (snd r)) t ->
    sums (length (skipn n ys)) (bval (skipn n ys) + N.b2n (snd t)) u ->
    sums (S (length ys)) (bval (x :: xs) + bval (y :: ys)) (fst r :: fst t ++ fst u, snd u).
  Proof.
    intros L Hr Ht Hu. pose proof (sums_join _ Ht Hu) as Hj. rewrite skipn_length in Hj.
    replace (n + (length ys - n))%nat with (length ys) in Hj by lia.
    cbn [bval]. replace (N.b2n x + 2 * bval xs + (N.b2n y + 2 * bval ys)) with
      (N.b2n x + N.b2n y + N.b2n false + 2 * (bval xs + bval ys)) by (cbn [N.b2n]; lia).
    apply (@sums_cons _ _ _ _ (bval xs + bval ys) _ (fst t ++ fst u, snd u) Hr).
    replace (bval ys) with (bval (firstn n ys) + p2 n * bval (skipn n ys)).
    2:{ rewrite <- (firstn_skipn n ys) at 3. rewrite bval_app, firstn_length_le by lia. reflexivity. }
    match type of Hj with sums _ ?v _ => match goal with |- sums _ ?w _ => replace w with v by lia end end.
    exact Hj.
  Qed.

  Lemma compose_field_element_ok xs ys (n := ubit_len p) :
    length ys = n -> (length xs <= n)%nat -> (S n <= U)%nat -> bval xs < p -> bval ys < p ->
    pok (compose_field_element U p xs ys) (fun r => length r = n /\ bval r = (bval xs + bval ys) mod p).
  Proof.
    intros Ly Lx HU Vx Vy. destruct xs as [|x xs].
    - cbn [compose_field_element bval]. apply pok_ret. split; [exact Ly|]. rewrite N.mod_small; lia.
    - destruct ys as [|y ys]; [cbn in *; lia|]. cbn [compose_field_element].
      eapply pok_bind; [apply half_adder_ok|]. intros r Hr.
      eapply pok_bind; [apply (ripple_ok (fun x => x) (fun y => y)); [apply full_adder_ok|cbn in *; lia]|].
      intros t Ht. rewrite !map_id in Ht.
      eapply pok_bind; [apply (ripple1_ok (fun y => y)); apply adder_y0_ok|]. intros u Hu. rewrite map_id in Hu.
      cbn [length skipn] in Hu.
      assert (Lxy : (length xs <= length ys)%nat) by (cbn in *; lia).
      pose proof (@ext_sums x y xs ys r t u Lxy Hr Ht Hu) as (Ls & Vs). cbn [fst snd] in Ls, Vs.
      change (S (length ys)) with (length (y :: ys)) in Ls, Vs. rewrite Ly in Ls, Vs.
      assert (Hpn : p < p2 n) by (rewrite p2_eq; apply ubit_len_le; unfold n; lia).
      set (w := fst r :: fst t ++ fst u) in *.
      pose proof (@sub_p_and_mux_ok w (snd u) n) as Hm. cbv zeta in Hm. rewrite Ls, Vs in Hm.
      eapply pok_mono; [apply Hm; try lia; unfold w; congruence|].
      cbn beta. intros q (Lq & Vq). rewrite Nat.min_id in Lq. split; [exact Lq|].
      rewrite Vq. apply N.mod_small.
      match goal with |- ?a mod _ < _ => pose proof (N.mod_lt a p ltac:(lia)) end. lia.
  Qed.
End ModP.

(** ** Additions modulo 2^k of a shorter number *)

Lemma add_shorter_ok xs ys : xs <> [] -> (length xs < length ys)%nat ->
  pok (add_shorter xs ys) (modsum (length ys) (bval xs + bval ys)).
Proof.
  destruct xs as [|x xs], ys as [|y ys]; cbn [length]; try congruence; try lia. intros _ L.
  cbn [add_shorter]. eapply pok_bind; [apply half_adder_ok|]. intros r Hr.
  eapply pok_bind; [apply (ripple_ok (fun x => x) (fun y => y)); [apply full_adder_ok|lia]|].
  intros t Ht. rewrite !map_id in Ht.
  eapply pok_bind; [apply (ripple1_ok (fun y => y)); apply adder_y0_ok|]. intros u Hu. rewrite map_id in Hu.
  eapply pok_step; [reflexivity|]. apply pok_ret.
  assert (Hne : ys <> []) by (intros ->; cbn in L; lia).
  assert (Er : removelast (y :: ys) = y :: removelast ys) by (destruct ys; [congruence|reflexivity]).
  rewrite Er in Hu. cbn [length skipn] in Hu.
  assert (Lr : length (removelast ys) = pred (length ys)) by apply removelast_length.
  replace (firstn (length xs) ys) with (firstn (length xs) (removelast ys)) in Ht.
  2:{ rewrite removelast_firstn_len, firstn_firstn. f_equal. lia. }
  pose proof (@ext_sums _ _ xs (removelast ys) r t u ltac:(lia) Hr Ht Hu) as Hs. rewrite Lr in Hs.
  replace (S (pred (length ys))) with (length ys) in Hs by lia.
  destruct (adds_xor false (last ys y) (snd u)) as (c' & Hc). rewrite xorb_false_l in Hc.
  pose proof (sums_snoc Hs Hc) as Hf. cbn [fst snd] in Hf. apply sums_modsum in Hf. cbn [fst app] in Hf.
  match type of Hf with modsum _ ?a (?h :: ?b) => replace (h :: (fst t ++ fst u ++ [xorb (last ys y) (snd u)])) with (h :: b)
      by (cbn; rewrite <- app_assoc; reflexivity);
    replace (bval (x :: xs) + bval (y :: ys)) with a end; [exact Hf|].
  cbn [bval]. rewrite (@bval_last ys y Hne). replace (length ys) with (S (pred (length ys))) at 1 by lia.
  rewrite p2_S. cbn [N.b2n]. lia.
Qed.

Lemma ripple_min_ok f xs : (forall x y c, pok (f x y c) (adds x y c)) -> forall ys c (m := Nat.min (length xs) (length ys)),
  pok (ripple f xs ys c) (sums m (bval (firstn m xs) + bval (firstn m ys) + N.b2n c)).
Proof.
  intros Hf. induction xs as [|x xs IH]; intros [|y ys] c; cbn [ripple length Nat.min firstn bval];
    try (apply pok_ret, sums_0).
  eapply pok_bind; [apply Hf|]. intros r Hr. eapply pok_bind; [apply IH|]. intros t Ht. apply pok_ret.
  set (m := Nat.min _ _) in *.
  replace (N.b2n x + 2 * bval (firstn m xs) + (N.b2n y + 2 * bval (firstn m ys)) + N.b2n c)
    with (N.b2n x + N.b2n y + N.b2n c + 2 * (bval (firstn m xs) + bval (firstn m ys))) by lia.
  eapply sums_cons; eassumption.
Qed.

Lemma compose_ring_element_ok xs ys : xs <> [] -> (length xs <= length ys)%nat ->
  pok (compose_ring_element xs ys) (modsum (length ys) (bval xs + bval ys)).
Proof.
  destruct xs as [|x xs], ys as [|y ys]; cbn [length]; try congruence; try lia. intros _ L.
  cbn [compose_ring_element length]. eapply pok_bind; [apply half_adder_ok|]. intros r Hr.
  destruct (Nat.eqb_spec (S (length ys)) 1) as [E1|E1].
  { destruct ys; [|discriminate]. destruct xs; [|cbn in L; lia]. apply pok_ret. split; [reflexivity|].
    cbn [length bval]. rewrite p2_S, p2_0. destruct x, y, r as [[] []]; cbn in Hr; try discriminate; reflexivity. }
  assert (Hne : ys <> []) by (intros ->; apply E1; reflexivity).
  assert (Er : removelast (y :: ys) = y :: removelast ys) by (destruct ys; [congruence|reflexivity]).
  assert (Lr : length (removelast ys) = pred (length ys)) by apply removelast_length.
  assert (Ly : length ys = S (pred (length ys))) by (destruct ys; [congruence|reflexivity]).
  rewrite Er. change (skipn (S (length xs)) (y :: removelast ys)) with (skipn (length xs) (removelast ys)).
  destruct (Nat.eqb_spec (S (length xs)) (S (length ys))) as [E|E].
  - injection E as E. assert (Hnx : xs <> []) by (intros ->; cbn in E; lia).
    eapply pok_bind; [apply ripple_min_ok; apply full_adder_ok|]. intros t Ht.
    rewrite Lr, E in Ht. replace (Nat.min (length ys) (pred (length ys))) with (pred (length ys)) in Ht by lia.
    rewrite skipn_all2 by lia. eapply pok_step; [reflexivity|]. cbn [fst snd].
    eapply (@pok_step _ _ _ (xorb (xorb (last xs x) (last ys y)) (snd t))); [reflexivity|].
    apply pok_ret. cbn [app].
    destruct (adds_xor (last xs x) (last ys y) (snd t)) as (c' & Hc).
    pose proof (sums_snoc Ht Hc) as Hs. cbn [fst snd] in Hs.
    pose proof (@sums_cons _ _ _ _ _ _ (_, c') Hr
       (eq_ind _ (fun v => sums _ v _) Hs (bval xs + bval ys + N.b2n (snd r)) ltac:(
         rewrite (@bval_last xs x Hnx), (@bval_last ys y Hne), E;
         rewrite (removelast_firstn_len xs), E;
         rewrite (firstn_all2 (removelast ys)) by lia; lia))) as Hf.
    rewrite <- Ly in Hf. apply sums_modsum in Hf. cbn [fst] in Hf.
    match type of Hf with modsum _ ?a _ => replace (bval (x :: xs) + bval (y :: ys)) with a by (cbn [bval N.b2n]; lia) end.
    exact Hf.
  - eapply pok_bind; [apply (ripple_ok (fun x => x) (fun y => y)); [apply full_adder_ok|lia]|].
    intros t Ht. rewrite !map_id in Ht.
    eapply pok_bind; [apply (ripple1_ok (fun y => y)); apply adder_y0_ok|]. intros u Hu. rewrite map_id in Hu.
    eapply pok_step; [reflexivity|]. apply pok_ret.
    pose proof (@ext_sums _ _ xs (removelast ys) r t u ltac:(lia) Hr Ht Hu) as Hs. rewrite Lr in Hs. rewrite <- Ly in Hs.
    destruct (adds_xor false (last ys y) (snd u)) as (c' & Hc). rewrite xorb_false_l in Hc.
    pose proof (sums_snoc Hs Hc) as Hf. cbn [fst snd] in Hf. apply sums_modsum in Hf. cbn [fst app] in Hf.
    match type of Hf with modsum _ ?a (?h :: ?b) => replace (h :: (fst t ++ fst u ++ [xorb (last ys y) (snd u)])) with (h :: b)
        by (cbn; rewrite <- app_assoc; reflexivity);
      replace (bval (x :: xs) + bval (y :: ys)) with a end; [exact Hf|].
    cbn [bval]. rewrite (@bval_last ys y Hne). rewrite Ly at 1.
    rewrite p2_S. cbn [N.b2n]. lia.
Qed.

Lemma add_quotient_ok xs ys : xs <> [] -> length xs = length ys ->
  pok (add_quotient xs ys) (modsum (length ys) (bval xs + bval ys)).
Proof.
  destruct xs as [|x xs], ys as [|y ys]; cbn [length]; try congruence; try lia. intros _ L. injection L as L.
  cbn [add_quotient]. eapply pok_bind; [apply half_adder_ok|]. intros r Hr.
  eapply pok_bind; [apply (ripple_ok (fun x => x) (fun y => y)); [apply full_adder_ok|lia]|].
  intros t Ht. rewrite !map_id in Ht. rewrite skipn_all2 by (rewrite removelast_length; cbn; lia).
  eapply pok_step; [reflexivity|]. apply pok_ret. cbn [fst snd]. rewrite app_nil_r.
  rewrite L, firstn_all in Ht. pose proof (@sums_cons _ _ _ _ _ _ t Hr Ht) as Hf. apply sums_modsum in Hf. cbn [fst] in Hf.
  match type of Hf with modsum _ ?a _ => replace (bval (x :: xs) + bval (y :: ys)) with a by (cbn [bval N.b2n]; lia) end.
  exact Hf.
Qed.

(** ** Chunks *)
Section Chunks.
  Context {X : Type}.
  Lemma skipn_skipn_ a b (l : list X) : skipn a (skipn b l) = skipn (a + b) l.
  Proof.
    rewrite Nat.add_comm. revert l. induction b as [|b IH]; intros l; [reflexivity|].
    destruct l as [|x l]; [destruct a; reflexivity|]. apply IH.
  Qed.
  Lemma chunks__concat k (ls : list (list X)) : (0 < k)%nat -> Forall (fun l => length l = k) ls ->
    forall fuel, (length (concat ls) <= fuel)%nat -> chunks_ fuel k (concat ls) = ls.
  Proof.
    intros Hk HF. induction HF as [|l ls Hl HF IH]; intros fuel Hf; cbn [concat] in *; [destruct fuel; reflexivity|].
    rewrite app_length in Hf. destruct fuel as [|fuel]; [lia|]. destruct l as [|x l]; [cbn in Hl; lia|].
    cbn [chunks_ app]. f_equal.
    - change (x :: l ++ concat ls) with ((x :: l) ++ concat ls). rewrite <- Hl, firstn_app, firstn_all, Nat.sub_diag. cbn [firstn]. apply app_nil_r.
    - change (x :: l ++ concat ls) with ((x :: l) ++ concat ls). rewrite <- Hl, skipn_app, skipn_all, Nat.sub_diag. cbn [skipn app].
      rewrite Hl. apply IH. cbn in Hf. lia.
  Qed.
  Lemma chunks_concat k (ls : list (list X)) : (0 < k)%nat -> Forall (fun l => length l = k) ls -> chunks k (concat ls) = ls.
  Proof. intros. apply chunks__concat; auto. Qed.
  Lemma chunks__nth k : (0 < k)%nat -> forall i fuel (l : list X), (length l <= fuel)%nat ->
    nth_error (chunks_ fuel k l) i = if (i * k <? length l)%nat then Some (firstn k (skipn (i * k) l)) else None.
  Proof.
    intros Hk. induction i as [|i IH]; intros [|fuel] [|x l] Hf; cbn [length] in Hf; try lia; try reflexivity.
    cbn [chunks_ nth_error]. rewrite IH by (rewrite skipn_length; cbn [length]; lia).
      rewrite skipn_length, skipn_skipn_. cbn [Nat.mul]. rewrite (Nat.add_comm (i * k) k). cbn [length].
      destruct (Nat.ltb_spec (i * k) (S (length l) - k)), (Nat.ltb_spec (k + i * k) (S (length l))); try lia; reflexivity.
  Qed.
  Lemma chunks_nth k i (l : list X) : (0 < k)%nat ->
    nth_error (chunks k l) i = if (i * k <? length l)%nat then Some (firstn k (skipn (i * k) l)) else None.
  Proof. intros. apply chunks__nth; auto. Qed.
End Chunks.
Lemma nth_error_combine {X Y} (a : list X) : forall (b : list Y) i,
  nth_error (List.combine a b) i =
  match nth_error a i, nth_error b i with Some x, Some y => Some (x, y) | _, _ => None end.
Proof.
  induction a as [|x a IH]; intros [|y b] [|i]; cbn; try reflexivity.
  - destruct (nth_error a i); reflexivity.
  - apply IH.
Qed.

(** ** Circuits over several elements *)
Lemma gflatM_ok {A} (f : A -> gprog bool (list bool)) (R : A -> list bool -> Prop) l :
  (forall a, In a l -> pok (f a) (R a)) -> pok (gflatM f l) (fun r => exists rs, r = concat rs /\ Forall2 R l rs).
Proof.
  intros Hf. unfold gflatM. eapply pok_bind; [apply (gmapM_pok f (fun a => a) R); exact Hf|].
  intros rs Hr. rewrite map_id in Hr. apply pok_ret. eauto.
Qed.
Lemma Forall2_nth {A B} (R : A -> B -> Prop) l r : Forall2 R l r -> forall i a, nth_error l i = Some a ->
  exists b, nth_error r i = Some b /\ R a b.
Proof.
  induction 1 as [|a b l r Hab HF IH]; intros [|i] c E; cbn in *; try discriminate.
  - injection E as <-. eauto.
  - apply IH. exact E.
Qed.
Lemma Forall2_length_eq {A B} (R : A -> B -> Prop) l r : Forall2 R l r -> length l = length r.
Proof. induction 1; cbn; congruence. Qed.

Lemma many3_ok na nc f was wbs wcs (R : list bool -> list bool -> list bool -> list bool -> Prop) :
  (0 < na)%nat -> (0 < nc)%nat ->
  Forall (fun l => length l = na) was -> Forall (fun l => length l = na) wbs -> Forall (fun l => length l = nc) wcs ->
  (forall a b c, In (a, b, c) (zip3 was wbs wcs) -> pok (f a b c) (R a b c)) ->
  pok (many3 na nc f (concat was) (concat wbs) (concat wcs))
      (fun r => exists rs, r = concat rs /\
         Forall2 (fun t => R (fst (fst t)) (snd (fst t)) (snd t)) (zip3 was wbs wcs) rs).
Proof.
  intros Ha Hc Fa Fb Fc Hf. unfold many3. rewrite !chunks_concat by assumption.
  apply (gflatM_ok (fun t => f (fst (fst t)) (snd (fst t)) (snd t))). intros [[a b] c] Hin. apply Hf. exact Hin.
Qed.
Lemma many3p_ok na f was wbs wcs pubs (R : list bool -> list bool -> list bool -> list bool -> list bool -> Prop) :
  (0 < na)%nat ->
  Forall (fun l => length l = na) was -> Forall (fun l => length l = na) wbs -> Forall (fun l => length l = na) wcs ->
  Forall (fun l => length l = na) pubs ->
  (forall a b c d, In (a, b, c, d) (List.combine (zip3 was wbs wcs) pubs) -> pok (f a b d c) (R a b d c)) ->
  pok (many3p na f (concat was) (concat wbs) (concat wcs) (concat pubs))
      (fun r => exists rs, r = concat rs /\
         Forall2 (fun t => R (fst (fst (fst t))) (snd (fst (fst t))) (snd t) (snd (fst t)))
                 (List.combine (zip3 was wbs wcs) pubs) rs).
Proof.
  intros Ha Fa Fb Fc Fd Hf. unfold many3p. rewrite !chunks_concat by assumption.
  apply (gflatM_ok (fun t => f (fst (fst (fst t))) (snd (fst (fst t))) (snd t) (snd (fst t)))).
  intros [[[a b] c] d] Hin. apply Hf. exact Hin.
Qed.
Lemma concat_length_all {X} k (ls : list (list X)) : Forall (fun l => length l = k) ls -> length (concat ls) = (length ls * k)%nat.
Proof. induction 1 as [|l ls Hl HF IH]; cbn [concat length]; [reflexivity|]. rewrite app_length, IH, Hl. lia. Qed.
Lemma many5_ok n f xa xb ya yb wcs (R : list bool -> list bool -> list bool -> list bool -> list bool -> list bool -> Prop) :
  (0 < n)%nat -> length xa = length ya -> length xb = length yb -> length xb = length xa ->
  Forall (fun l => length l = n) xa -> Forall (fun l => length l = n) xb ->
  Forall (fun l => length l = n) ya -> Forall (fun l => length l = n) yb -> Forall (fun l => length l = n) wcs ->
  let l := List.combine (List.combine (List.combine xa xb) (List.combine ya yb)) wcs in
  (forall a b c d e, In (a, b, (c, d), e) l -> pok (f a b c d e) (R a b c d e)) ->
  pok (many5 n f (concat (xa ++ ya)) (concat (xb ++ yb)) (concat wcs))
      (fun r => exists rs, r = concat rs /\
         Forall2 (fun t => R (fst (fst (fst t))) (snd (fst (fst t))) (fst (snd (fst t))) (snd (snd (fst t))) (snd t)) l rs).
Proof.
  intros Hn Lx Lb Lab Fxa Fxb Fya Fyb Fc l Hf. unfold many5.
  assert (Eh : (length (concat (xa ++ ya)) / 2 = length xa * n)%nat).
  { rewrite (@concat_length_all _ n) by (apply Forall_app; auto). rewrite app_length, <- Lx.
    replace ((length xa + length xa) * n)%nat with ((length xa * n) * 2)%nat by lia. apply Nat.div_mul. lia. }
  rewrite Eh, !concat_app.
  assert (La : length (concat xa) = (length xa * n)%nat) by (apply concat_length_all; exact Fxa).
  assert (Lc : length (concat xb) = (length xa * n)%nat) by (rewrite <- Lab; apply concat_length_all; exact Fxb).
  rewrite !firstn_app, !skipn_app, La, Lc, Nat.sub_diag. cbn [firstn skipn]. rewrite !app_nil_r.
  rewrite !firstn_all2, !skipn_all2 by lia. cbn [app].
  rewrite !chunks_concat by assumption.
  apply (gflatM_ok (fun t => f (fst (fst (fst t))) (snd (fst (fst t))) (fst (snd (fst t))) (snd (snd (fst t))) (snd t))).
  intros [[[a b] [c d]] e] Hin. apply Hf. exact Hin.
Qed.
