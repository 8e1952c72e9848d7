(** * The wiring is sound: if the products agree, the copy constraints hold, but for few challenges (C80); no code of /repo
      is modelled here *)
From Coq Require Import String List Arith Lia Bool Ring Permutation.
From Verif Require Import Proc Alg NNet Rep3 ShamirPoly Shamir ShamirAlg Univariate Sumcheck HonkSpec Oink OinkWiring OinkTrace OinkGrand.
Import ListNotations.
Set Implicit Arguments.
Local Open Scope grp_scope.
Local Open Scope list_scope.

(** ** Lists *)
(** the images of two lists are a permutation: so are the lists, or two different elements have the same image *)
Lemma map_perm (A B : Type) (dec : forall a b : A, {a = b} + {a <> b}) (f : A -> B) : forall l l', Permutation (map f l) (map f l') ->
  Permutation l l' \/ exists a b, In a l /\ In b l' /\ a <> b /\ f a = f b.
Proof.
  induction l as [|a l IH]; intros l' H.
  - apply Permutation_nil in H. destruct l' as [|b l']; [left; constructor|discriminate H].
  - cbn [map] in H. assert (I : In (f a) (map f l')) by (eapply Permutation_in; [exact H|left; reflexivity]).
    apply in_map_iff in I. destruct I as (b & E & I). destruct (dec a b) as [<-|N].
    + apply in_split in I. destruct I as (l1 & l2 & ->). rewrite map_app in H. cbn [map] in H. apply Permutation_cons_app_inv in H. rewrite <- map_app in H.
      destruct (IH _ H) as [P|(x & y & Ix & Iy & N & X)].
      * left. apply Permutation_cons_app. exact P.
      * right. exists x, y. split; [right; exact Ix|]. split; [apply in_app_or in Iy; apply in_or_app; destruct Iy; [left|right; right]; assumption|]. split; assumption.
    + right. exists a, b. split; [left; reflexivity|]. split; [exact I|]. split; [exact N|symmetry; exact E].
Qed.
(** whether two lists are a permutation *)
Lemma perm_or (A : Type) (dec : forall a b : A, {a = b} + {a <> b}) : forall l l' : list A, Permutation l l' \/ ~ Permutation l l'.
Proof.
  induction l as [|a l IH]; intros l'.
  - destruct l' as [|b l']; [left; constructor|]. right. intros H. apply Permutation_nil in H. discriminate H.
  - destruct (in_dec dec a l') as [I|N].
    + apply in_split in I. destruct I as (l1 & l2 & ->). destruct (IH (l1 ++ l2)) as [P|P]; [left; apply Permutation_cons_app; exact P|].
      right. intros H. apply P. exact (Permutation_cons_app_inv _ _ H).
    + right. intros H. apply N. eapply Permutation_in; [exact H|left; reflexivity].
Qed.

Section Multiset.
  Context {F : Type} {FF : Fld F}.
  Add Ring FringOM : (@cring_theory F _).
  Infix "*" := rmul : grp_scope.
  Notation "1" := rone : grp_scope.
  Lemma fdec (a b : F) : {a = b} + {a <> b}.
  Proof. destruct (feqb a b) eqn:E; [left; apply feqb_spec; exact E|right]. intros X. apply feqb_spec in X. congruence. Qed.
  Lemma pdec (a b : F * F) : {a = b} + {a <> b}.
  Proof. destruct a as [x y], b as [z t]. destruct (fdec x z) as [->|N]; [destruct (fdec y t) as [->|N]|]; [left; reflexivity|right; congruence|right; congruence]. Qed.

  (** ** The challenge gamma *)
  Fixpoint mono (us : list F) : list F := match us with [] => [1] | u :: us => padd (map (rmul u) (mono us)) (0 :: mono us) end.
  Lemma mono_length us : length (mono us) = S (length us).
  Proof. induction us as [|u us IH]; [reflexivity|]. cbn [mono length]. rewrite length_padd, map_length. cbn [length]. rewrite IH. lia. Qed.
  Lemma mono_eval us x : peval (mono us) x = prodl (fun u => u + x) us.
  Proof.
    induction us as [|u us IH]; cbn [mono prodl]; [cbn [peval]; cbn; ring|]. rewrite peval_padd. cbn [peval].
    assert (E : peval (map (rmul u) (mono us)) x = u * peval (mono us) x).
    { generalize (mono us). intros c. induction c as [|a c IHc]; cbn [map peval]; [ring|]. rewrite IHc.
      change (u * a + x * (u * peval c x) = u * (a + x * peval c x)). ring. }
    rewrite E, IH. change (smul x (prodl (fun u => u + x) us)) with (x * prodl (fun u => u + x) us). ring.
  Qed.
  Lemma prodl_zero A (f : A -> F) : forall l, prodl f l = 0 -> exists a, In a l /\ f a = 0.
  Proof.
    induction l as [|a l IH]; cbn [prodl]; intros H; [exfalso; exact (f_1_neq_0 H)|].
    destruct (fdec (f a) 0) as [E|N]; [exists a; split; [left; reflexivity|exact E]|].
    destruct IH as (b & I & E); [|exists b; split; [right; exact I|exact E]].
    transitivity (finv (f a) * f a * prodl f l); [rewrite (finv_l _ N); ring|]. transitivity (finv (f a) * (f a * prodl f l)); [ring|]. rewrite H. ring.
  Qed.
  Lemma mul_cancel (a b c : F) : a <> 0 -> a * b = a * c -> b = c.
  Proof.
    intros N E. transitivity (finv a * a * b); [rewrite (finv_l _ N); ring|]. transitivity (finv a * (a * b)); [ring|]. rewrite E.
    transitivity (finv a * a * c); [ring|]. rewrite (finv_l _ N). ring.
  Qed.
  Lemma remove_all (x : F) : forall l, ~ In x l -> filter (fun y => negb (feqb y x)) l = l.
  Proof.
    induction l as [|a l IH]; intros N; [reflexivity|]. cbn [filter]. destruct (feqb a x) eqn:E.
    - apply feqb_spec in E. subst a. exfalso. apply N. left. reflexivity.
    - cbn [negb]. f_equal. apply IH. intros I. apply N. right. exact I.
  Qed.
  Lemma remove_length (x : F) : forall l, NoDup l -> length l <= S (length (filter (fun y => negb (feqb y x)) l)).
  Proof.
    induction l as [|a l IH]; intros ND; [cbn; lia|]. inversion ND as [|? ? N ND']; subst. cbn [filter length]. destruct (feqb a x) eqn:E; cbn [negb length].
    - apply feqb_spec in E. subst a. rewrite (remove_all x l N). lia.
    - specialize (IH ND'). lia.
  Qed.
  Theorem many_gammas : forall (us vs gs : list F), length us = length vs -> NoDup gs -> length us < length gs ->
    (forall g, In g gs -> prodl (fun u => u + g) us = prodl (fun u => u + g) vs) -> Permutation us vs.
  Proof.
    induction us as [|u us IH]; intros vs gs L ND Lg H; [destruct vs; [constructor|discriminate L]|].
    assert (Z : peval (mono vs) (- u) = 0).
    { rewrite <- (@peval_unique F F _ _ _ gs (mono (u :: us)) (mono vs) ND).
      - rewrite mono_eval. cbn [prodl]. ring.
      - rewrite mono_length. lia.
      - rewrite mono_length, <- L. lia.
      - intros a I. rewrite !mono_eval. exact (H a I). }
    rewrite mono_eval in Z. apply prodl_zero in Z. destruct Z as (v & I & E).
    assert (X : v = u) by (transitivity (v + - u + u); [ring|rewrite E; ring]). subst v. apply in_split in I. destruct I as (v1 & v2 & ->).
    apply Permutation_cons_app. apply (IH (v1 ++ v2) (filter (fun y => negb (feqb y (- u))) gs)).
    - rewrite app_length in *. cbn [length] in L. lia.
    - apply NoDup_filter. exact ND.
    - pose proof (@remove_length (- u) gs ND). cbn [length] in Lg. lia.
    - intros g I. apply filter_In in I. destruct I as [I N]. apply (@mul_cancel (u + g)).
      + intros X. apply negb_true_iff in N. rewrite <- not_true_iff_false in N. apply N. apply feqb_spec. transitivity (u + g - u); [ring|rewrite X; ring].
      + specialize (H g I). rewrite prodl_app in H. cbn [prodl] in H. rewrite H, prodl_app. ring.
  Qed.
  (** the products agree, but not as multisets *)
  Definition lucky_gamma (us vs : list F) (gamma : F) : Prop := ~ Permutation us vs /\ prodl (fun u => u + gamma) us = prodl (fun u => u + gamma) vs.
  Theorem few_gamma us vs gs : length us = length vs -> NoDup gs -> Forall (lucky_gamma us vs) gs -> length gs <= length us.
  Proof.
    intros L ND H. destruct (Nat.le_gt_cases (length gs) (length us)) as [X|X]; [exact X|]. exfalso.
    destruct gs as [|g gs]; [cbn in X; lia|]. rewrite Forall_forall in H. apply (proj1 (H g (or_introl eq_refl))).
    apply (@many_gammas us vs (g :: gs) L ND X). intros x I. exact (proj2 (H x I)).
  Qed.

  (** ** The challenge beta *)
  Definition mix (beta : F) (p : F * F) : F := fst p + snd p * beta.
  (** two different pairs are mixed to the same *)
  Definition lucky_mix (l l' : list (F * F)) (beta : F) : Prop := exists p q, In p l /\ In q l' /\ p <> q /\ mix beta p = mix beta q.
  Theorem few_mix l l' bs : NoDup bs -> Forall (lucky_mix l l') bs -> length bs <= length l * length l'.
  Proof.
    intros ND H. rewrite <- prod_length, <- (map_length (fun pq => (fst (snd pq) - fst (fst pq)) * finv (snd (fst pq) - snd (snd pq)))). apply NoDup_incl_length; [exact ND|].
    intros b I. rewrite Forall_forall in H. destruct (H b I) as ([x a] & [y c] & Ip & Iq & N & E). unfold mix in E. cbn [fst snd] in E.
    assert (D : a - c <> 0).
    { intros D. assert (a = c) by (transitivity (a - c + c); [ring|rewrite D; ring]). subst c. apply N. f_equal. transitivity (x + a * b - a * b); [ring|]. rewrite E. ring. }
    apply in_map_iff. exists ((x, a), (y, c)). split; [|apply in_prod; assumption]. cbn [fst snd].
    transitivity ((y + c * b - c * b - (x + a * b - a * b)) * finv (a - c)); [f_equal; ring|]. rewrite <- E.
    transitivity ((a - c) * b * finv (a - c)); [f_equal; ring|]. transitivity (finv (a - c) * (a - c) * b); [ring|]. rewrite (finv_l _ D). ring.
  Qed.
  (** both together *)
  Theorem pairs_agree (l l' : list (F * F)) beta gamma : prodl (fun p => mix beta p + gamma) l = prodl (fun p => mix beta p + gamma) l' ->
    Permutation l l' \/ lucky_mix l l' beta \/ lucky_gamma (map (mix beta) l) (map (mix beta) l') gamma.
  Proof.
    intros E. destruct (perm_or fdec (map (mix beta) l) (map (mix beta) l')) as [P|N].
    - destruct (map_perm pdec (mix beta) _ _ P) as [Q|Q]; [left; exact Q|right; left; exact Q].
    - right. right. split; [exact N|]. rewrite !prodl_map. exact E.
  Qed.
End Multiset.
