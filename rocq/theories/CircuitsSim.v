(** * The circuits cannot look into wires
    Every circuit of Circuits.v, run on translated wires, makes the translated sequence of gate
    calls: the lemma [X_sim] for the circuit [X].  With the translations of [Garble.lockstep] this
    gives the correctness of garbling for each circuit. *)
From Coq Require Import String List Arith NArith Lia Bool.
From Verif Require Import Proc Alg Uint Rep3 Conv Garble Circuits.
Import ListNotations.
Set Implicit Arguments.
Local Open Scope gp_scope.

Section Lists.
  Context {A B : Type} (f : A -> B).
  Lemma map_removelast (l : list A) : removelast (map f l) = map f (removelast l).
  Proof. induction l as [|a [|b l] IH]; [reflexivity..|]. cbn in *. rewrite IH. reflexivity. Qed.
  Lemma map_last (l : list A) d : last (map f l) (f d) = f (last l d).
  Proof. induction l as [|a [|b l] IH]; [reflexivity..|]. cbn in *. exact IH. Qed.
  Lemma map_chunks_ fuel k (l : list A) : chunks_ fuel k (map f l) = map (map f) (chunks_ fuel k l).
  Proof.
    revert l. induction fuel as [|n IH]; intros l; [reflexivity|].
    destruct l as [|a l]; [reflexivity|]. cbn [chunks_ map].
    change (f a :: map f l) with (map f (a :: l)).
    rewrite firstn_map, skipn_map, IH. reflexivity.
  Qed.
  Lemma map_chunks k (l : list A) : chunks k (map f l) = map (map f) (chunks k l).
  Proof. unfold chunks. rewrite map_length. apply map_chunks_. Qed.
  Lemma map_repeat_ (a : A) n : map f (repeat a n) = repeat (f a) n.
  Proof. induction n; cbn; congruence. Qed.
  Lemma nth_error_map_ (l : list A) n : nth_error (map f l) n = option_map f (nth_error l n).
  Proof. apply nth_error_map. Qed.
  Lemma map_upd (l : list A) i x : upd (map f l) i (f x) = map f (upd l i x).
  Proof. revert i. induction l; intros [|i]; cbn; congruence. Qed.
End Lists.
Lemma combine_map {A B C D} (f : A -> C) (g : B -> D) l m :
  List.combine (map f l) (map g m) = map (fun ab => (f (fst ab), g (snd ab))) (List.combine l m).
Proof. revert m. induction l as [|a l IH]; intros [|b m]; cbn; [reflexivity..|]. rewrite IH. reflexivity. Qed.
Lemma combine_map_l {A B C} (f : A -> C) l (m : list B) :
  List.combine (map f l) m = map (fun ab => (f (fst ab), snd ab)) (List.combine l m).
Proof. revert m. induction l as [|a l IH]; intros [|b m]; cbn; [reflexivity..|]. rewrite IH. reflexivity. Qed.
Lemma combine_map_r {A B D} (g : B -> D) (l : list A) m :
  List.combine l (map g m) = map (fun ab => (fst ab, g (snd ab))) (List.combine l m).
Proof. revert m. induction l as [|a l IH]; intros [|b m]; cbn; [reflexivity..|]. rewrite IH. reflexivity. Qed.

Section Sim.
  Context {W1 W2 : Type} (f : W1 -> W2).

  Definition gsimf {A B} (phi : A -> B) (p : gprog W1 A) (q : gprog W2 B) : Prop :=
    gsim f (fun a b => b = phi a) p q.

  Definition w2 (a : W1 * W1) : W2 * W2 := (f (fst a), f (snd a)).
  Definition l2 (a : list W1 * list W1) := (map f (fst a), map f (snd a)).
  Definition lw (a : list W1 * W1) : list W2 * W2 := (map f (fst a), f (snd a)).

  Lemma sim_bind {A B A' B'} (phi : A -> A') (psi : B -> B') p q k k' :
    gsimf phi p q -> (forall a, gsimf psi (k a) (k' (phi a))) -> gsimf psi (gbind p k) (gbind q k').
  Proof. intros Hp Hk. eapply gsim_bind; [exact Hp|]. intros a b ->. apply Hk. Qed.
  Lemma sim_ret_ {A B} (phi : A -> B) a b : b = phi a -> gsimf phi (GRet a) (GRet b).
  Proof. intros. constructor. assumption. Qed.
  Lemma sim_err_ {A B} (phi : A -> B) e : gsimf phi (GErr e) (GErr e).
  Proof. constructor. Qed.
  Lemma sim_ix {A B} (phi : A -> B) : gsimf phi ix ix.
  Proof. constructor. Qed.
  Lemma sim_weaken {A B} (phi psi : A -> B) p q : (forall a, phi a = psi a) -> gsimf phi p q -> gsimf psi p q.
  Proof. intros E. apply gsim_mono. intros a b ->. apply E. Qed.

  Lemma gxor_sim x y : gsimf f (gxor x y) (gxor (f x) (f y)).
  Proof. apply sim_xor. intros. constructor. reflexivity. Qed.
  Lemma gand_sim x y : gsimf f (gand x y) (gand (f x) (f y)).
  Proof. apply sim_and. intros. constructor. reflexivity. Qed.
  Lemma gneg_sim x : gsimf f (gneg x) (gneg (f x)).
  Proof. apply sim_neg. intros. constructor. reflexivity. Qed.
  Lemma gzero_sim : gsimf f gzero gzero.
  Proof. apply sim_zero. intros. constructor. reflexivity. Qed.
  Lemma gone_sim : gsimf f gone gone.
  Proof. apply sim_one. intros. constructor. reflexivity. Qed.

  Create HintDb gs.
  Hint Resolve gxor_sim gand_sim gneg_sim gzero_sim gone_sim sim_ix sim_err_ : gs.

  Ltac ret_tac := apply sim_ret_; unfold w2, lw; cbn [w2 lw fst snd map]; rewrite ?map_app, ?map_rev; cbn [map fst snd]; try reflexivity.
  Ltac gs1 := first [ solve [eauto with gs] | ret_tac; fail
                    | eapply sim_bind; [solve [eauto with gs]|]; intros ? ].
  Ltac gs := cbn [w2 lw l2 fst snd]; repeat (gs1; cbn [w2 lw l2 fst snd]).

  Lemma gor_sim x y : gsimf f (gor x y) (gor (f x) (f y)).
  Proof. unfold gor. gs. Qed.
  Lemma gmux_sim b x y : gsimf f (gmux b x y) (gmux (f b) (f x) (f y)).
  Proof. unfold gmux. gs. Qed.
  Hint Resolve gor_sim gmux_sim : gs.

  Lemma gmapM_sim {A B A' B'} (phi : A -> A') (psi : B -> B') (g : A -> gprog W1 B) (g' : A' -> gprog W2 B') l :
    (forall a, gsimf psi (g a) (g' (phi a))) -> gsimf (map psi) (gmapM g l) (gmapM g' (map phi l)).
  Proof.
    intros Hg. induction l as [|a l IH]; cbn [gmapM map]; [ret_tac|].
    eapply sim_bind; [apply Hg|]. intros b. eapply sim_bind; [apply IH|]. intros r. ret_tac.
  Qed.
  Lemma gmapM_sim_id {A B B'} (psi : B -> B') (g : A -> gprog W1 B) (g' : A -> gprog W2 B') l :
    (forall a, gsimf psi (g a) (g' a)) -> gsimf (map psi) (gmapM g l) (gmapM g' l).
  Proof. intros Hg. rewrite <- (map_id l) at 2. apply gmapM_sim. exact Hg. Qed.
  Lemma gflatM_sim {A A'} (phi : A -> A') (g : A -> gprog W1 (list W1)) (g' : A' -> gprog W2 (list W2)) l :
    (forall a, gsimf (map f) (g a) (g' (phi a))) -> gsimf (map f) (gflatM g l) (gflatM g' (map phi l)).
  Proof.
    intros Hg. unfold gflatM. eapply sim_bind; [apply (@gmapM_sim _ _ _ _ phi (map f)); exact Hg|]. intros r.
    apply sim_ret_. rewrite concat_map. reflexivity.
  Qed.

  Lemma constant_bundle_sim c n : gsimf (map f) (constant_bundle c n) (constant_bundle c n).
  Proof. unfold constant_bundle. apply gmapM_sim_id. intros []; gs. Qed.

  Lemma full_adder_const_sim a b c : gsimf w2 (full_adder_const a b c) (full_adder_const (f a) b (f c)).
  Proof. unfold full_adder_const. destruct b; gs. Qed.
  Lemma half_adder_sim a b : gsimf w2 (half_adder a b) (half_adder (f a) (f b)).
  Proof. unfold half_adder. gs. Qed.
  Lemma half_adder_const_sim a b : gsimf w2 (half_adder_const a b) (half_adder_const (f a) b).
  Proof. unfold half_adder_const. destruct b; gs. Qed.
  Lemma full_adder_carry_sim a b c : gsimf f (full_adder_carry a b c) (full_adder_carry (f a) (f b) (f c)).
  Proof. unfold full_adder_carry. gs. Qed.
  Lemma full_adder_sim a b c : gsimf w2 (full_adder a b c) (full_adder (f a) (f b) (f c)).
  Proof. unfold full_adder. gs. Qed.
  Lemma full_adder_cin_set_sim a b : gsimf w2 (full_adder_cin_set a b) (full_adder_cin_set (f a) (f b)).
  Proof. unfold full_adder_cin_set. gs. Qed.
  Lemma full_adder_const_cin_set_sim a b : gsimf w2 (full_adder_const_cin_set a b) (full_adder_const_cin_set (f a) b).
  Proof. unfold full_adder_const_cin_set. destruct b; gs. Qed.
  Lemma full_adder_carry_cin_set_sim a b : gsimf f (full_adder_carry_cin_set a b) (full_adder_carry_cin_set (f a) (f b)).
  Proof. unfold full_adder_carry_cin_set. gs. Qed.
  Hint Resolve full_adder_const_sim half_adder_sim half_adder_const_sim full_adder_carry_sim full_adder_sim
       full_adder_cin_set_sim full_adder_const_cin_set_sim full_adder_carry_cin_set_sim : gs.

  Lemma ripple_sim {X Y X' Y'} (phi : X -> X') (psi : Y -> Y') g g' xs ys c :
    (forall x y c, gsimf w2 (g x y c) (g' (phi x) (psi y) (f c))) ->
    gsimf lw (ripple g xs ys c) (ripple g' (map phi xs) (map psi ys) (f c)).
  Proof.
    intros Hg. revert ys c. induction xs as [|x xs IH]; intros [|y ys] c; cbn [ripple map]; try ret_tac.
    eapply sim_bind; [apply Hg|]. intros r. eapply sim_bind; [apply IH|]. intros t. ret_tac.
  Qed.
  Lemma ripple_sim_l {X Y X'} (phi : X -> X') g g' xs (ys : list Y) c :
    (forall x y c, gsimf w2 (g x y c) (g' (phi x) y (f c))) ->
    gsimf lw (ripple g xs ys c) (ripple g' (map phi xs) ys (f c)).
  Proof. intros Hg. rewrite <- (map_id ys) at 2. apply (@ripple_sim _ _ _ _ phi (fun y => y)). exact Hg. Qed.
  Lemma ripple_sim_r {X Y Y'} (psi : Y -> Y') g g' (xs : list X) ys c :
    (forall x y c, gsimf w2 (g x y c) (g' x (psi y) (f c))) ->
    gsimf lw (ripple g xs ys c) (ripple g' xs (map psi ys) (f c)).
  Proof. intros Hg. rewrite <- (map_id xs) at 2. apply (@ripple_sim _ _ _ _ (fun x => x) psi). exact Hg. Qed.
  Lemma ripple1_sim {Y Y'} (psi : Y -> Y') g g' ys c :
    (forall y c, gsimf w2 (g y c) (g' (psi y) (f c))) ->
    gsimf lw (ripple1 g ys c) (ripple1 g' (map psi ys) (f c)).
  Proof.
    intros Hg. revert c. induction ys as [|y ys IH]; intros c; cbn [ripple1 map]; try ret_tac.
    eapply sim_bind; [apply Hg|]. intros r. eapply sim_bind; [apply IH|]. intros t. ret_tac.
  Qed.
  Lemma ripple1_sim_id {Y} g g' (ys : list Y) c :
    (forall y c, gsimf w2 (g y c) (g' y (f c))) ->
    gsimf lw (ripple1 g ys c) (ripple1 g' ys (f c)).
  Proof. intros Hg. rewrite <- (map_id ys) at 2. apply (@ripple1_sim _ _ (fun y => y)). exact Hg. Qed.

  Lemma ripple_full_sim xs ys c : gsimf lw (ripple full_adder xs ys c) (ripple full_adder (map f xs) (map f ys) (f c)).
  Proof. apply ripple_sim. eauto with gs. Qed.
  Lemma ripple_const_sim xs ys c : gsimf lw (ripple full_adder_const xs ys c) (ripple full_adder_const (map f xs) ys (f c)).
  Proof. apply ripple_sim_l. eauto with gs. Qed.
  Lemma ripple_y0_sim ys c : gsimf lw (ripple1 (fun y c => full_adder_const y false c) ys c)
                                   (ripple1 (fun y c => full_adder_const y false c) (map f ys) (f c)).
  Proof. apply ripple1_sim. eauto with gs. Qed.
  Hint Resolve ripple_full_sim ripple_const_sim ripple_y0_sim : gs.

  Lemma bin_addition_sim xs ys : gsimf lw (bin_addition xs ys) (bin_addition (map f xs) (map f ys)).
  Proof. destruct xs, ys; cbn [bin_addition map]; gs. Qed.

  Ltac norm := rewrite ?map_removelast, ?map_last, ?firstn_map, ?skipn_map, ?map_length, ?map_chunks.

  Lemma bin_addition_no_carry_sim xs ys :
    gsimf (map f) (bin_addition_no_carry xs ys) (bin_addition_no_carry (map f xs) (map f ys)).
  Proof.
    destruct xs as [|x [|x' xs]], ys as [|y ys]; cbn [bin_addition_no_carry map]; gs.
    change (f x' :: map f xs) with (map f (x' :: xs)). norm. gs. all: norm; gs.
  Qed.
  Lemma bin_addition_constant_no_carry_sim xs ys :
    gsimf (map f) (bin_addition_constant_no_carry xs ys) (bin_addition_constant_no_carry (map f xs) ys).
  Proof.
    destruct xs as [|x [|x' xs]], ys as [|y ys]; cbn [bin_addition_constant_no_carry map]; gs.
    - destruct y; gs.
    - change (f x' :: map f xs) with (map f (x' :: xs)). norm. gs.
      eapply (sim_bind (phi := f)); [destruct (last ys y); gs|]. intros. gs.
  Qed.
  Lemma neg_adder_sim a b c : gsimf w2 (neg_adder a b c) (neg_adder (f a) (f b) (f c)).
  Proof. unfold neg_adder. gs. Qed.
  Lemma neg_adder_x0_sim b c : gsimf w2 (neg_adder_x0 b c) (neg_adder_x0 (f b) (f c)).
  Proof. unfold neg_adder_x0. gs. Qed.
  Lemma neg_const_x0_sim b c : gsimf w2 (neg_const_x0 b c) (neg_const_x0 b (f c)).
  Proof. unfold neg_const_x0. destruct b; gs. Qed.
  Lemma ripple_neg_sim xs ys c : gsimf lw (ripple neg_adder xs ys c) (ripple neg_adder (map f xs) (map f ys) (f c)).
  Proof. apply ripple_sim. apply neg_adder_sim. Qed.
  Lemma ripple_negx0_sim ys c : gsimf lw (ripple1 neg_adder_x0 ys c) (ripple1 neg_adder_x0 (map f ys) (f c)).
  Proof. apply ripple1_sim. apply neg_adder_x0_sim. Qed.
  Lemma ripple_negc0_sim ys c : gsimf lw (ripple1 neg_const_x0 ys c) (ripple1 neg_const_x0 ys (f c)).
  Proof. apply ripple1_sim_id. apply neg_const_x0_sim. Qed.
  Lemma tail_from_sim n ys : gsimf (map f) (tail_from n ys) (tail_from n (map f ys)).
  Proof. unfold tail_from. norm. destruct (n <=? length ys)%nat; gs. Qed.
  Lemma tail_from_sim_id {Y} n (ys : list Y) : gsimf (fun y => y) (tail_from n ys) (tail_from n ys).
  Proof. unfold tail_from. destruct (n <=? length ys)%nat; gs. Qed.
  Hint Resolve bin_addition_sim bin_addition_no_carry_sim bin_addition_constant_no_carry_sim
       ripple_neg_sim ripple_negx0_sim ripple_negc0_sim tail_from_sim tail_from_sim_id : gs.

  Lemma bin_subtraction_sim xs ys : gsimf lw (bin_subtraction xs ys) (bin_subtraction (map f xs) (map f ys)).
  Proof. destruct xs, ys; cbn [bin_subtraction map]; gs. Qed.
  Lemma bin_subtraction_partial_sim xs ys :
    gsimf lw (bin_subtraction_partial xs ys) (bin_subtraction_partial (map f xs) (map f ys)).
  Proof.
    destruct xs as [|x xs], ys as [|y ys]; cbn [bin_subtraction_partial map]; gs.
    change (f y :: map f ys) with (map f (y :: ys)). cbn [length]. norm. gs.
  Qed.
  Lemma bin_subtraction_partial_by_constant_sim xs ys :
    gsimf lw (bin_subtraction_partial_by_constant xs ys) (bin_subtraction_partial_by_constant (map f xs) ys).
  Proof.
    destruct xs as [|x xs], ys as [|y ys]; cbn [bin_subtraction_partial_by_constant map]; gs.
    eapply sim_bind. { apply ripple_sim_l. eauto with gs. } intros.
    cbn [length]. norm.
    eapply (sim_bind (phi := fun y => y)); [apply tail_from_sim_id|]. intros. gs.
  Qed.
  Lemma bin_subtraction_partial_from_constant_sim xs ys :
    gsimf lw (bin_subtraction_partial_from_constant xs ys) (bin_subtraction_partial_from_constant xs (map f ys)).
  Proof.
    destruct xs as [|x xs], ys as [|y ys]; cbn [bin_subtraction_partial_from_constant map]; gs.
    eapply sim_bind. { apply ripple_sim_r. intros. gs. } intros.
    change (f y :: map f ys) with (map f (y :: ys)). norm. gs.
  Qed.
  Lemma ripple_carry_sim xs ys c : gsimf f (ripple_carry xs ys c) (ripple_carry (map f xs) (map f ys) (f c)).
  Proof. revert ys c. induction xs as [|x xs IH]; intros [|y ys] c; cbn [ripple_carry map]; gs. Qed.
  Hint Resolve bin_subtraction_sim bin_subtraction_partial_sim bin_subtraction_partial_by_constant_sim
       bin_subtraction_partial_from_constant_sim ripple_carry_sim : gs.
  Lemma bin_subtraction_get_carry_only_sim xs ys :
    gsimf f (bin_subtraction_get_carry_only xs ys) (bin_subtraction_get_carry_only (map f xs) (map f ys)).
  Proof. destruct xs, ys; cbn [bin_subtraction_get_carry_only map]; gs. Qed.

  Lemma mul_loop_sim z lhs i rhs sum :
    gsimf (map f) (mul_loop z lhs i rhs sum) (mul_loop (f z) (map f lhs) i rhs (map f sum)).
  Proof.
    revert i sum. induction rhs as [|r rhs IH]; intros i sum; cbn [mul_loop]; [gs|].
    replace (repeat (f z) i ++ (if r then map f lhs else repeat (f z) (length (map f lhs))))
      with (map f (repeat z i ++ (if r then lhs else repeat z (length lhs))))
      by (rewrite map_app, map_repeat_, map_length; destruct r; rewrite ?map_repeat_; reflexivity).
    gs. cbn [lw fst snd].
    replace (map f (fst a) ++ [f (snd a)]) with (map f (fst a ++ [snd a])) by (rewrite map_app; reflexivity).
    apply IH.
  Qed.
  Lemma bin_mul_with_public_sim lhs rhs :
    gsimf (map f) (bin_mul_with_public lhs rhs) (bin_mul_with_public (map f lhs) rhs).
  Proof.
    unfold bin_mul_with_public. gs. destruct rhs as [|r rhs]; [gs|].
    replace ((if r then map f lhs else repeat (f a) (length (map f lhs))) ++ [f a])
      with (map f ((if r then lhs else repeat a (length lhs)) ++ [a]))
      by (rewrite map_app, map_length; destruct r; rewrite ?map_repeat_; reflexivity).
    apply mul_loop_sim.
  Qed.

  Lemma bin_multiplex_sim b x y : gsimf (map f) (bin_multiplex b x y) (bin_multiplex (f b) (map f x) (map f y)).
  Proof.
    unfold bin_multiplex. rewrite combine_map. apply (@gmapM_sim _ _ _ _ w2 f). intros a. apply gmux_sim.
  Qed.
  Lemma mux_const_sim b x y : gsimf f (mux_const b x y) (mux_const (f b) x (f y)).
  Proof. unfold mux_const. destruct x; gs. Qed.
  Lemma bin_multiplex_const_sim b x y : gsimf (map f) (bin_multiplex_const b x y) (bin_multiplex_const (f b) x (map f y)).
  Proof.
    unfold bin_multiplex_const. rewrite combine_map_r.
    apply (@gmapM_sim _ _ _ _ (fun ab : bool * W1 => (fst ab, f (snd ab))) f). intros a. apply mux_const_sim.
  Qed.
  Hint Resolve bin_subtraction_get_carry_only_sim bin_mul_with_public_sim bin_multiplex_sim mux_const_sim bin_multiplex_const_sim : gs.

  Lemma div_loop_sim sub sub' n xs acc :
    (forall a, gsimf lw (sub a) (sub' (map f a))) ->
    gsimf (map f) (div_loop sub n xs acc) (div_loop sub' n (map f xs) (map f acc)).
  Proof.
    intros Hs. revert acc. induction xs as [|x xs IH]; intros acc; cbn [div_loop map]; [gs|].
    norm. replace (f x :: (if (length acc =? n)%nat then map f (removelast acc) else map f acc))
      with (map f (x :: if (length acc =? n)%nat then removelast acc else acc))
      by (destruct (length acc =? n)%nat; reflexivity).
    eapply sim_bind; [apply Hs|]. intros r. gs.
  Qed.
  Lemma bin_div_sim xs ys : gsimf (map f) (bin_div xs ys) (bin_div (map f xs) (map f ys)).
  Proof.
    unfold bin_div. rewrite <- map_rev. norm. change (@nil W2) with (map f []).
    eapply sim_bind; [apply div_loop_sim; intros; gs|]. intros. ret_tac.
  Qed.
  Lemma bin_div_by_public_sim xs ys : gsimf (map f) (bin_div_by_public xs ys) (bin_div_by_public (map f xs) ys).
  Proof.
    unfold bin_div_by_public. rewrite <- map_rev. norm. change (@nil W2) with (map f []).
    eapply sim_bind; [apply div_loop_sim; intros; gs|]. intros. ret_tac.
  Qed.
  Lemma div_shared_loop_sim ds xs acc :
    gsimf (map f) (div_shared_loop ds xs acc) (div_shared_loop (map f ds) xs (map f acc)).
  Proof.
    revert acc. induction xs as [|x xs IH]; intros acc; cbn [div_shared_loop]; [gs|].
    eapply (sim_bind (phi := f)); [destruct x; gs|]. intros b. norm.
    replace (if (length acc =? length ds)%nat then map f (removelast acc) else map f acc)
      with (map f (if (length acc =? length ds)%nat then removelast acc else acc))
      by (destruct (length acc =? length ds)%nat; reflexivity).
    match goal with |- context [f b :: map f ?l] => change (f b :: map f l) with (map f (b :: l)) end.
    gs. cbn [lw fst snd]. destruct (fst a) as [|r0 res]; cbn [map]; [gs|].
    gs. match goal with |- context [f ?a :: map f ?l] => change (f a :: map f l) with (map f (a :: l)) end.
    eapply sim_bind; [apply IH|]. intros. gs.
  Qed.
  Lemma bin_div_by_shared_sim xs ds : gsimf (map f) (bin_div_by_shared xs ds) (bin_div_by_shared xs (map f ds)).
  Proof.
    unfold bin_div_by_shared. destruct (rev xs) as [|x r]; [gs|]. destruct ds as [|d ds]; [cbn [map]; gs|].
    cbn [map]. norm. change (f d :: map f ds) with (map f (d :: ds)). gs.
    eapply sim_bind; [apply div_shared_loop_sim|]. intros. apply sim_ret_.
    cbn [lw snd]. rewrite map_rev. reflexivity.
  Qed.
  Hint Resolve bin_div_sim bin_div_by_public_sim bin_div_by_shared_sim : gs.

  Section ModP.
    Variables (U : nat) (p : N).
    Lemma sub_p_sim ws c : gsimf lw (sub_p U p ws c) (sub_p U p (map f ws) (f c)).
    Proof.
      unfold sub_p. norm. destruct ws as [|w ws]; cbn [map]; gs.
      eapply (sim_bind (phi := f)); [destruct (last _ _); gs|]. intros. gs.
    Qed.
    Lemma mux_sim b l : gsimf (map f) (gmapM (fun sa => gmux b (fst sa) (snd sa)) l)
                              (gmapM (fun sa => gmux (f b) (fst sa) (snd sa)) (map w2 l)).
    Proof. apply (@gmapM_sim _ _ _ _ w2 f). intros. apply gmux_sim. Qed.
    Lemma sub_p_and_mux_sim ws c n : gsimf (map f) (sub_p_and_mux U p ws c n) (sub_p_and_mux U p (map f ws) (f c) n).
    Proof.
      unfold sub_p_and_mux. eapply sim_bind; [apply sub_p_sim|]. intros r. cbn [lw fst snd].
      rewrite combine_map, firstn_map. apply mux_sim.
    Qed.
    Hint Resolve sub_p_sim sub_p_and_mux_sim : gs.
    Lemma adder_mod_p_out_sim wa wb n :
      gsimf (map f) (adder_mod_p_out U p wa wb n) (adder_mod_p_out U p (map f wa) (map f wb) n).
    Proof. unfold adder_mod_p_out. gs. Qed.
    Lemma adder_mod_p_sim wa wb : gsimf (map f) (adder_mod_p U p wa wb) (adder_mod_p U p (map f wa) (map f wb)).
    Proof. unfold adder_mod_p. norm. apply adder_mod_p_out_sim. Qed.
    Lemma adder_mod_p_many_sim wa wb :
      gsimf (map (map f)) (adder_mod_p_many U p wa wb) (adder_mod_p_many U p (map f wa) (map f wb)).
    Proof.
      unfold adder_mod_p_many. norm. rewrite combine_map.
      apply (@gmapM_sim _ _ _ _ (fun ab => (map f (fst ab), map f (snd ab))) (map f)). intros a. apply adder_mod_p_out_sim.
    Qed.
    Lemma compose_field_element_sim xs ys :
      gsimf (map f) (compose_field_element U p xs ys) (compose_field_element U p (map f xs) (map f ys)).
    Proof.
      destruct xs as [|x xs], ys as [|y ys]; cbn [compose_field_element map]; gs.
      change (f y :: map f ys) with (map f (y :: ys)). cbn [length]. norm.
      eapply sim_bind; [apply ripple_y0_sim|]. intros u. cbn [w2 lw fst snd].
      match goal with |- gsimf _ (sub_p_and_mux _ _ ?l _ _) (sub_p_and_mux _ _ ?l' _ _) =>
        replace l' with (map f l) by (cbn [map]; rewrite map_app; reflexivity) end.
      apply sub_p_and_mux_sim.
    Qed.
  End ModP.
  Hint Resolve sub_p_sim sub_p_and_mux_sim adder_mod_p_out_sim adder_mod_p_sim adder_mod_p_many_sim
       compose_field_element_sim : gs.

  Lemma xor_many_sim a b : gsimf (map f) (xor_many a b) (xor_many (map f a) (map f b)).
  Proof. unfold xor_many. rewrite combine_map. apply (@gmapM_sim _ _ _ _ w2 f). intros. gs. Qed.
  Lemma adder_mod_2k_sim a b : gsimf (map f) (adder_mod_2k a b) (adder_mod_2k (map f a) (map f b)).
  Proof. unfold adder_mod_2k. gs. Qed.

  Lemma compose_ring_element_sim xs ys :
    gsimf (map f) (compose_ring_element xs ys) (compose_ring_element (map f xs) (map f ys)).
  Proof.
    destruct xs as [|x xs], ys as [|y ys]; cbn [compose_ring_element map]; gs.
    change (f y :: map f ys) with (map f (y :: ys)). cbn [length]. norm. cbn [length].
    destruct (length ys) as [|n]; cbn [Nat.eqb]; [gs|]. gs.
    eapply (sim_bind (phi := f)); [|intros; apply sim_ret_; cbn [map w2 lw fst snd]; rewrite !map_app; reflexivity].
    destruct (length xs =? Datatypes.S n)%nat; gs.
  Qed.
  Hint Resolve xor_many_sim adder_mod_2k_sim compose_ring_element_sim : gs.

  Lemma decompose_field_element_to_rings_sim U p wa wb wc nd dbl obl :
    gsimf (map f) (decompose_field_element_to_rings U p wa wb wc nd dbl obl)
          (decompose_field_element_to_rings U p (map f wa) (map f wb) (map f wc) nd dbl obl).
  Proof.
    unfold decompose_field_element_to_rings. gs. norm. rewrite combine_map.
    apply (@gflatM_sim _ _ l2). intros. gs.
  Qed.
  Lemma decompose_field_element_to_sim U V p q wa wb wc dbl t :
    gsimf (map f) (decompose_field_element_to U V p q wa wb wc dbl t)
          (decompose_field_element_to U V p q (map f wa) (map f wb) (map f wc) dbl t).
  Proof.
    unfold decompose_field_element_to. gs. norm. rewrite combine_map.
    apply (@gflatM_sim _ _ l2). intros. gs.
  Qed.
  Lemma slice_field_element_sim U p wa wb wc lo mid bs :
    gsimf (map f) (slice_field_element U p wa wb wc lo mid bs)
          (slice_field_element U p (map f wa) (map f wb) (map f wc) lo mid bs).
  Proof.
    unfold slice_field_element. gs. norm. destruct ((lo <=? mid) && (mid <=? length a))%nat; [|gs].
    destruct (chunks (length wa) wc) as [|r1 [|r2 r]]; cbn [map]; gs.
  Qed.
  Lemma unsigned_ge_sim a b : gsimf f (unsigned_ge a b) (unsigned_ge (map f a) (map f b)).
  Proof. unfold unsigned_ge. gs. Qed.
  Hint Resolve unsigned_ge_sim : gs.
  Lemma unsigned_lt_sim a b : gsimf f (unsigned_lt a b) (unsigned_lt (map f a) (map f b)).
  Proof. unfold unsigned_lt. gs. Qed.
  Lemma unsigned_le_sim a b : gsimf f (unsigned_le a b) (unsigned_le (map f a) (map f b)).
  Proof. unfold unsigned_le. gs. Qed.
  Lemma unsigned_gt_sim a b : gsimf f (unsigned_gt a b) (unsigned_gt (map f a) (map f b)).
  Proof. unfold unsigned_gt. apply unsigned_lt_sim. Qed.
  Lemma field_to_ring_sim U p wa wb wc :
    gsimf (map f) (field_to_ring U p wa wb wc) (field_to_ring U p (map f wa) (map f wb) (map f wc)).
  Proof. unfold field_to_ring. norm. gs. Qed.
  Lemma ring_to_field_sim U p wa wb wc :
    gsimf (map f) (ring_to_field U p wa wb wc) (ring_to_field U p (map f wa) (map f wb) (map f wc)).
  Proof. unfold ring_to_field. gs. Qed.
  Lemma add_shorter_sim xs ys : gsimf (map f) (add_shorter xs ys) (add_shorter (map f xs) (map f ys)).
  Proof.
    destruct xs as [|x xs], ys as [|y ys]; cbn [add_shorter map]; gs.
    change (f y :: map f ys) with (map f (y :: ys)). cbn [length]. norm. gs.
  Qed.
  Lemma add_quotient_sim xs ys : gsimf (map f) (add_quotient xs ys) (add_quotient (map f xs) (map f ys)).
  Proof.
    destruct xs as [|x xs], ys as [|y ys]; cbn [add_quotient map]; gs.
    change (f y :: map f ys) with (map f (y :: ys)). cbn [length]. norm. gs.
  Qed.
  Hint Resolve add_shorter_sim add_quotient_sim unsigned_lt_sim unsigned_gt_sim : gs.
  Lemma ring_to_ring_upcast_sim wa wb wc :
    gsimf (map f) (ring_to_ring_upcast wa wb wc) (ring_to_ring_upcast (map f wa) (map f wb) (map f wc)).
  Proof. unfold ring_to_ring_upcast. gs. Qed.
  Lemma ring_div_power_2_sim wa wb wc k :
    gsimf (map f) (ring_div_power_2 wa wb wc k) (ring_div_power_2 (map f wa) (map f wb) (map f wc) k).
  Proof. unfold ring_div_power_2. gs. Qed.
  Lemma field_int_div_power_2_sim U p wa wb wc k :
    gsimf (map f) (field_int_div_power_2 U p wa wb wc k) (field_int_div_power_2 U p (map f wa) (map f wb) (map f wc) k).
  Proof.
    unfold field_int_div_power_2. norm. destruct (length wa =? ubit_len p)%nat; gs.
    cbn [lw fst snd]. rewrite combine_map, skipn_map. eapply sim_bind; [apply mux_sim|]. intros. gs.
  Qed.
  Lemma ring_div_sim a b c d e :
    gsimf (map f) (ring_div a b c d e) (ring_div (map f a) (map f b) (map f c) (map f d) (map f e)).
  Proof. unfold ring_div. gs. Qed.
  Lemma ring_div_by_public_sim a b c e :
    gsimf (map f) (ring_div_by_public a b c e) (ring_div_by_public (map f a) (map f b) c (map f e)).
  Proof. unfold ring_div_by_public. gs. Qed.
  Lemma ring_div_by_shared_sim a b c e :
    gsimf (map f) (ring_div_by_shared a b c e) (ring_div_by_shared (map f a) (map f b) c (map f e)).
  Proof. unfold ring_div_by_shared. gs. Qed.
  Lemma assert_bits_sim p n : gsimf (fun u => u) (assert_bits p n) (assert_bits p n).
  Proof. unfold assert_bits. destruct (n =? ubit_len p)%nat; gs. Qed.
  Lemma field_int_div_sim U p a b c d e n :
    gsimf (map f) (field_int_div U p a b c d e n) (field_int_div U p (map f a) (map f b) (map f c) (map f d) (map f e) n).
  Proof. unfold field_int_div. norm. eapply sim_bind; [apply assert_bits_sim|]. intros. gs. Qed.
  Lemma field_int_div_by_public_sim U p a b c e n :
    gsimf (map f) (field_int_div_by_public U p a b c e n) (field_int_div_by_public U p (map f a) (map f b) c (map f e) n).
  Proof. unfold field_int_div_by_public. norm. eapply sim_bind; [apply assert_bits_sim|]. intros. gs. Qed.
  Lemma field_int_div_by_shared_sim U p a b c e n :
    gsimf (map f) (field_int_div_by_shared U p a b c e n) (field_int_div_by_shared U p (map f a) (map f b) c (map f e) n).
  Proof. unfold field_int_div_by_shared. norm. eapply sim_bind; [apply assert_bits_sim|]. intros. gs. Qed.

  (** many *)
  Lemma zip3_map {A B C A' B' C'} (g : A -> A') (h : B -> B') (i : C -> C') a b c :
    zip3 (map g a) (map h b) (map i c) = map (fun t => (g (fst (fst t)), h (snd (fst t)), i (snd t))) (zip3 a b c).
  Proof. revert b c. induction a as [|x a IH]; intros [|y b] [|z c]; cbn; [reflexivity..|]. rewrite IH. reflexivity. Qed.
  Lemma many3_sim na nc g g' wa wb wc :
    (forall a b c, gsimf (map f) (g a b c) (g' (map f a) (map f b) (map f c))) ->
    gsimf (map f) (many3 na nc g wa wb wc) (many3 na nc g' (map f wa) (map f wb) (map f wc)).
  Proof.
    intros Hg. unfold many3. norm. rewrite zip3_map.
    apply (@gflatM_sim _ _ (fun t => (map f (fst (fst t)), map f (snd (fst t)), map f (snd t)))).
    intros a. apply Hg.
  Qed.
  Lemma many3p_sim na g g' wa wb wc pub :
    (forall a b d c, gsimf (map f) (g a b d c) (g' (map f a) (map f b) d (map f c))) ->
    gsimf (map f) (many3p na g wa wb wc pub) (many3p na g' (map f wa) (map f wb) (map f wc) pub).
  Proof.
    intros Hg. unfold many3p. norm. rewrite zip3_map, combine_map_l.
    refine (@gflatM_sim _ _ (fun t => ((map f (fst (fst (fst t))), map f (snd (fst (fst t))), map f (snd (fst t))), snd t))
              _ _ _ _).
    intros a. apply Hg.
  Qed.
  Lemma many5_sim n g g' wa wb wc :
    (forall a b c d e, gsimf (map f) (g a b c d e) (g' (map f a) (map f b) (map f c) (map f d) (map f e))) ->
    gsimf (map f) (many5 n g wa wb wc) (many5 n g' (map f wa) (map f wb) (map f wc)).
  Proof.
    intros Hg. unfold many5. norm. rewrite !combine_map.
    refine (@gflatM_sim _ _ (fun t => (((map f (fst (fst (fst t))), map f (snd (fst (fst t)))),
              (map f (fst (snd (fst t))), map f (snd (snd (fst t))))), map f (snd t))) _ _ _ _).
    intros a. apply Hg.
  Qed.

  Lemma decompose_field_element_to_rings_many_sim U p wa wb wc nd dbl obl :
    gsimf (map f) (decompose_field_element_to_rings_many U p wa wb wc nd dbl obl)
          (decompose_field_element_to_rings_many U p (map f wa) (map f wb) (map f wc) nd dbl obl).
  Proof. apply many3_sim. intros. apply decompose_field_element_to_rings_sim. Qed.
  Lemma decompose_field_element_to_many_sim U V p q wa wb wc dbl t :
    gsimf (map f) (decompose_field_element_to_many U V p q wa wb wc dbl t)
          (decompose_field_element_to_many U V p q (map f wa) (map f wb) (map f wc) dbl t).
  Proof. apply many3_sim. intros. apply decompose_field_element_to_sim. Qed.
  Lemma slice_field_element_many_sim U p wa wb wc lo mid bs :
    gsimf (map f) (slice_field_element_many U p wa wb wc lo mid bs)
          (slice_field_element_many U p (map f wa) (map f wb) (map f wc) lo mid bs).
  Proof. apply many3_sim. intros. apply slice_field_element_sim. Qed.
  Lemma field_to_ring_many_sim U p wa wb wc obl :
    gsimf (map f) (field_to_ring_many U p wa wb wc obl) (field_to_ring_many U p (map f wa) (map f wb) (map f wc) obl).
  Proof. apply many3_sim. intros. apply field_to_ring_sim. Qed.
  Lemma ring_to_field_many_sim U p wa wb wc ibl :
    gsimf (map f) (ring_to_field_many U p wa wb wc ibl) (ring_to_field_many U p (map f wa) (map f wb) (map f wc) ibl).
  Proof. apply many3_sim. intros. apply ring_to_field_sim. Qed.
  Lemma ring_to_ring_upcast_many_sim wa wb wc ibl obl :
    gsimf (map f) (ring_to_ring_upcast_many wa wb wc ibl obl)
          (ring_to_ring_upcast_many (map f wa) (map f wb) (map f wc) ibl obl).
  Proof. apply many3_sim. intros. apply ring_to_ring_upcast_sim. Qed.
  Lemma ring_div_power_2_many_sim wa wb wc ibl k :
    gsimf (map f) (ring_div_power_2_many wa wb wc ibl k) (ring_div_power_2_many (map f wa) (map f wb) (map f wc) ibl k).
  Proof. apply many3_sim. intros. apply ring_div_power_2_sim. Qed.
  Lemma field_int_div_power_2_many_sim U p wa wb wc k :
    gsimf (map f) (field_int_div_power_2_many U p wa wb wc k)
          (field_int_div_power_2_many U p (map f wa) (map f wb) (map f wc) k).
  Proof. apply many3_sim. intros. apply field_int_div_power_2_sim. Qed.
  Lemma ring_div_many_sim wa wb wc ibl :
    gsimf (map f) (ring_div_many wa wb wc ibl) (ring_div_many (map f wa) (map f wb) (map f wc) ibl).
  Proof. apply many5_sim. intros. apply ring_div_sim. Qed.
  Lemma ring_div_by_public_many_sim wa wb wc ibl d :
    gsimf (map f) (ring_div_by_public_many wa wb wc ibl d)
          (ring_div_by_public_many (map f wa) (map f wb) (map f wc) ibl d).
  Proof. apply many3p_sim. intros. apply ring_div_by_public_sim. Qed.
  Lemma ring_div_by_shared_many_sim wa wb wc ibl d :
    gsimf (map f) (ring_div_by_shared_many wa wb wc ibl d)
          (ring_div_by_shared_many (map f wa) (map f wb) (map f wc) ibl d).
  Proof. apply many3p_sim. intros. apply ring_div_by_shared_sim. Qed.
  Lemma field_int_div_many_sim U p wa wb wc :
    gsimf (map f) (field_int_div_many U p wa wb wc) (field_int_div_many U p (map f wa) (map f wb) (map f wc)).
  Proof. apply many5_sim. intros. apply field_int_div_sim. Qed.
  Lemma field_int_div_by_public_many_sim U p wa wb wc d :
    gsimf (map f) (field_int_div_by_public_many U p wa wb wc d)
          (field_int_div_by_public_many U p (map f wa) (map f wb) (map f wc) d).
  Proof. apply many3p_sim. intros. apply field_int_div_by_public_sim. Qed.
  Lemma field_int_div_by_shared_many_sim U p wa wb wc d :
    gsimf (map f) (field_int_div_by_shared_many U p wa wb wc d)
          (field_int_div_by_shared_many U p (map f wa) (map f wb) (map f wc) d).
  Proof. apply many3p_sim. intros. apply field_int_div_by_shared_sim. Qed.

  Lemma compare_swap_sim a b : gsimf l2 (compare_swap a b) (compare_swap (map f a) (map f b)).
  Proof.
    unfold compare_swap. eapply sim_bind; [apply unsigned_gt_sim|]. intros c. rewrite combine_map.
    eapply sim_bind. { apply (@gmapM_sim _ _ _ _ w2 w2). intros. gs. }
    intros r. apply sim_ret_. unfold l2. cbn [fst snd]. rewrite !map_map. reflexivity.
  Qed.
  Lemma sort_network_sim ps ins :
    gsimf (map (map f)) (sort_network ps ins) (sort_network ps (map (map f) ins)).
  Proof.
    revert ins. induction ps as [|[i j] ps IH]; intros ins; cbn [sort_network]; [gs|].
    rewrite !nth_error_map. destruct (nth_error ins i) as [l|], (nth_error ins j) as [r|]; cbn [option_map]; gs.
    eapply sim_bind; [apply compare_swap_sim|]. intros t. cbn [l2 fst snd]. rewrite !map_upd. apply IH.
  Qed.
  Lemma batcher_sort_inner_sim ins : gsimf (map (map f)) (batcher_sort_inner ins) (batcher_sort_inner (map (map f) ins)).
  Proof.
    destruct ins as [|a ins]; cbn [batcher_sort_inner map]; [gs|].
    change (map f a :: map (map f) ins) with (map (map f) (a :: ins)). rewrite map_length. apply sort_network_sim.
  Qed.
  Lemma batcher_odd_even_merge_sort_sim U p wa wb wc n :
    gsimf (map f) (batcher_odd_even_merge_sort U p wa wb wc n)
          (batcher_odd_even_merge_sort U p (map f wa) (map f wb) (map f wc) n).
  Proof.
    unfold batcher_odd_even_merge_sort. norm. rewrite combine_map.
    eapply sim_bind. { apply (@gmapM_sim _ _ _ _ l2 (map f)). intros. apply adder_mod_p_out_sim. }
    intros ins. eapply sim_bind; [apply batcher_sort_inner_sim|]. intros s. rewrite combine_map.
    apply (@gflatM_sim _ _ l2). intros. apply compose_field_element_sim.
  Qed.
End Sim.
