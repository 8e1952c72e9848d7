(** * The product protocol of Plonk on values, and the plain prover

    The ideal driver computes on the shared values with the randomness of the parties.  It stands
    between the parties (which compute the same values on shares) and the plain prover (which uses
    other randomness for the inversions, and none for the multiplications). *)
From Coq Require Import String List Arith Bool Lia.
From Verif Require Import Proc Alg Rep3Net Rep3 ShamirPoly Shamir ShamirAlg Dft Groth16 Groth16Gen Plonk PlonkGen.
Import ListNotations.
Set Implicit Arguments.
Unset Strict Implicit.
Local Open Scope grp_scope.
Local Open Scope list_scope.

Section Ideal.
  Context {F G1 T : Type} {FF : Fld F} {AG1 : AbGrp G1} {MG1 : Mod F G1}.
  (** the randomness: a drawn value, the masks of an inversion, and the states after the operations *)
  Context (t_rand : T -> F * T) (t_inv : nat -> T -> list F * T) (t_mul t_mo : nat -> T -> T) (t_fork : nat -> T -> T * T) (ierr : err).
  Definition id_mul (a b : list F) (t : T) : prog Empty_set Empty_set (list F * T) := Ret (map2 rmul a b, t_mul (length a) t).
  Definition id_mulo (a b : list F) (t : T) : prog Empty_set Empty_set (list F * T) := Ret (map2 rmul a b, t_mo (length a) t).
  Definition id_inv (a : list F) (t : T) : prog Empty_set Empty_set (list F * T) :=
    if existsb (fun y => feqb y 0) (map2 rmul a (fst (t_inv (length a) t))) then Fail ierr else Ret (map finv a, snd (t_inv (length a) t)).
  Definition ideal_pdriver : pdriver Empty_set Empty_set F F G1 G1 T :=
    mkPD (fun t => Ret (t_rand t)) (fun x c => x + c) (fun c => c) id_mul (fun a _ => Ret a) (fun p _ => Ret p) (fun p _ => Ret p)
      (fun ps xs => msm ps xs) (fun cs x => Done (peval cs x)) (fun m t => Done (t_fork m t))
      (mpc_array_prod_mul (fun t => Ret (t_rand t)) id_mul id_mulo id_inv).
  Fixpoint t_draws (k : nat) (t : T) : list F * T :=
    match k with O => ([], t) | S k => let x := t_rand t in let r := t_draws k (snd x) in (fst x :: fst r, snd r) end.
  Lemma t_draws_length k : forall t, length (fst (t_draws k t)) = k.
  Proof. induction k as [|k IH]; intros t; cbn; [reflexivity|]. rewrite IH. reflexivity. Qed.
  Lemma rnds_draws k : forall t, rnds (P := Empty_set) (M := Empty_set) (fun t => Ret (t_rand t)) k t = Ret (t_draws k t).
  Proof. induction k as [|k IH]; intros t; cbn; [reflexivity|]. rewrite IH. reflexivity. Qed.

  (** ** The parties against the ideal driver *)
  Section Parties.
    Context {I P M AS PS St : Type} {FT : Fft F} {AA : AbGrp AS} {MA : Mod F AS} {AP : AbGrp PS} {MP : Mod F PS}.
    Context (dom : I -> Prop) (E : err -> err -> Prop) (bad : err -> Prop) (Erefl : forall e, E e e).
    Context (WO : forall A, (I -> prog P M A) -> ((I -> outcome A) -> Prop) -> Prop) (WR : wo_rules dom bad WO).
    Context (D : I -> pdriver P M F AS PS G1 St).
    Context (mulo : I -> list AS -> list AS -> St -> prog P M (list F * St)) (invv : I -> list AS -> St -> prog P M (list AS * St)).
    Context (RA : (I -> AS) -> F -> Prop) (RP : (I -> PS) -> G1 -> Prop) (LA : lin dom RA) (LP : lin dom RP).
    Context (Q : nat -> (I -> St) -> T -> Prop).
    Notation lvA := (lv dom RA).
    Notation lvn := (lvn dom RA).
    Notation orl := (orl dom E bad).
    Notation prel := (prel dom E bad WO).
    Notation eqr := (eqr dom).
    Record ops : Prop := {
      o_arr : forall i inv a b c st, pd_array_prod_mul (D i) inv a b c st = mpc_array_prod_mul (pd_rand (D i)) (pd_mul_vec (D i)) (mulo i) (invv i) inv a b c st;
      o_pub : forall a x c, RA a x -> RA (fun i => pd_add_public (D i) (a i) c) (x + c);
      o_prom : forall c, RA (fun i => pd_promote (D i) c) c;
      o_msm : forall ps a x, lvA a x -> RP (fun i => pd_msm (D i) ps (a i)) (msm ps x);
      o_eval : forall a x p, lvA a x -> x <> [] -> orl RA (fun i => pd_eval_poly (D i) (a i) p) (Done (peval x p));
      o_mono : forall k k' st t, k' <= k -> Q k st t -> Q k' st t;
      o_rand : forall k st t, Q (S k) st t -> prel (pr RA (Q k)) (fun i => pd_rand (D i) (st i)) (Ret (t_rand t));
      o_fork : forall m k st t, Q (m + k) st t -> orl (pr (Q m) (Q k)) (fun i => pd_fork (D i) m (st i)) (Done (t_fork m t));
      o_mul : forall m k st t a x b y, Q (m + k) st t -> lvn m a x -> lvn m b y ->
        prel (pr lvA (Q k)) (fun i => pd_mul_vec (D i) (a i) (b i) (st i)) (Ret (map2 rmul x y, t_mul m t));
      o_mulo : forall m k st t a x b y, Q k st t -> lvn m a x -> lvn m b y ->
        prel (pr eqr (Q k)) (fun i => mulo i (a i) (b i) (st i)) (Ret (map2 rmul x y, t_mo m t));
      o_inv : forall m k st t a x, Q (m + k) st t -> lvn m a x ->
        prel (pr lvA (Q k)) (fun i => invv i (a i) (st i)) (id_inv x t);
      o_open_vec : forall k st t a x, Q k st t -> lvA a x -> prel eqr (fun i => pd_open_vec (D i) (a i) (st i)) (Ret x);
      o_open_point : forall k st t a x, Q k st t -> RP a x -> prel eqr (fun i => pd_open_point (D i) (a i) (st i)) (Ret x);
      o_open_points : forall k st t a x, Q k st t -> lv dom RP a x -> prel eqr (fun i => pd_open_points (D i) (a i) (st i)) (Ret x) }.
    Context (HO : ops).

    Lemma rmul_length (x y : list F) m : length x = m -> length y = m -> length (map2 rmul x y) = m.
    Proof. revert x y. induction m as [|m IH]; intros [|a x] [|b y] Hx Hy; cbn in *; try lia. f_equal. apply IH; lia. Qed.
    Lemma mul_rel m k st t a x b y : Q (m + k) st t -> lvn m a x -> lvn m b y ->
      prel (pr (lvn m) (Q k)) (fun i => pd_mul_vec (D i) (a i) (b i) (st i)) (id_mul x y t).
    Proof.
      intros Y A B. unfold id_mul. rewrite (proj2 A). eapply (prel_ext WR); [reflexivity|].
      pose proof (o_mul HO Y A B) as K. revert K. apply (wo_mono WR). intros o (r & Er & R1 & R2). exists r. split; [exact Er|]. split; [|exact R2].
      split; [exact R1|]. cbn [fst]. apply rmul_length; [apply A|apply B].
    Qed.
    Lemma mulo_rel m k st t a x b y : Q k st t -> lvn m a x -> lvn m b y ->
      prel (pr eqr (Q k)) (fun i => mulo i (a i) (b i) (st i)) (id_mulo x y t).
    Proof. intros Y A B. unfold id_mulo. rewrite (proj2 A). apply (o_mulo HO Y A B). Qed.
    Lemma inv_rel m k st t a x : Q (m + k) st t -> lvn m a x ->
      prel (pr (lvn m) (Q k)) (fun i => invv i (a i) (st i)) (id_inv x t).
    Proof.
      intros Y A. pose proof (o_inv HO Y A) as K. revert K. apply (wo_mono WR). intros o. unfold id_inv. destruct (existsb _ _); [auto|].
      intros (r & Er & R1 & R2). exists r. split; [exact Er|]. split; [|exact R2]. split; [exact R1|]. cbn [fst]. rewrite map_length. apply A.
    Qed.
    Lemma rnds_rel m : forall k st t, Q (m + k) st t ->
      prel (pr (lvn m) (Q k)) (fun i => rnds (pd_rand (D i)) m (st i)) (rnds (fun t => Ret (t_rand t)) m t).
    Proof.
      induction m as [|m IH]; intros k st t Y; cbn [rnds].
      - apply (prel_ret WR (R := pr (lvn 0) (Q k)) (a := fun i => ([], st i))). split; [split; [apply lv_nil|reflexivity]|exact Y].
      - eapply (prel_bind WR); [apply (o_rand HO), Y|]. intros x y [X Y1] _. cbn beta. eapply (prel_bind WR); [apply (IH k _ _ Y1)|]. intros r rs [[R1 R2] Y2] _. cbn beta.
        apply (prel_ret WR (R := pr (lvn (S m)) (Q k)) (a := fun i => (fst (x i) :: fst (r i), snd (r i)))). split; cbn [fst snd]; [|exact Y2].
        split; [apply (lv_cons LA); assumption|cbn; f_equal; exact R2].
    Qed.
    Lemma array_rel (inv : bool) m st t a x b y c z : Q (m * 6 + 2 + (if inv then m else O))%nat st t -> lvn m a x -> lvn m b y -> lvn m c z ->
      prel (lvn m) (fun i => pd_array_prod_mul (D i) inv (a i) (b i) (c i) (st i)) (pd_array_prod_mul ideal_pdriver inv x y z t).
    Proof.
      intros Y A B C. cbn [pd_array_prod_mul ideal_pdriver]. eapply (prel_ext WR); [intros i _; apply (o_arr HO)|].
      set (e := if inv then m else O) in *. unfold mpc_array_prod_mul.
      eapply (prel_bind WR); [apply (mul_rel (m := m) (k := m * 5 + 2 + e)%nat); [eapply (o_mono HO); [|exact Y]; lia|exact A|exact B]|]. intros p q [P1 Y1] _. cbn beta.
      eapply (prel_bind WR); [apply (mul_rel (m := m) (k := m * 4 + 2 + e)%nat); [eapply (o_mono HO); [|exact Y1]; lia|exact P1|exact C]|]. intros ar ar' [P2 Y2] _. cbn beta zeta.
      rewrite (proj2 P2).
      eapply (prel_ext WR) with (qs := fun i => r <- rnds (pd_rand (D i)) (S m) (snd (ar i)) ;; ri <- invv i (fst r) (snd r) ;; match fst ri with [] => Fail oob | ri0 :: ris => _ end).
      { intros i Di. rewrite (proj1 (proj1 P2) i Di), (proj2 P2). reflexivity. }
      eapply (prel_bind WR); [apply (rnds_rel (m := S m) (k := m * 3 + 1 + e)%nat); eapply (o_mono HO); [|exact Y2]; lia|]. intros r r' [P3 Y3] _. cbn beta.
      eapply (prel_bind WR); [apply (inv_rel (m := S m) (k := m * 2 + e)%nat); [eapply (o_mono HO); [|exact Y3]; lia|exact P3]|]. intros ri ri' [[P4 L4] Y4] _. cbn beta.
      destruct (fst ri') as [|i0 is] eqn:Ei; [discriminate|]. destruct (lv_uncons LA P4) as (i1 & is1 & Ei1 & Hi0 & His).
      eapply (prel_ext WR) with (qs := fun i => u <- pd_mul_vec (D i) (repeat (i1 i) m) (skipn 1 (fst (r i))) (snd (ri i)) ;; m0 <- pd_mul_vec (D i) (firstn m (fst (r i))) (fst (ar i)) (snd u) ;;
        o <- mulo i (fst m0) (is1 i) (snd m0) ;; if inv then res <- invv i (zip_into (fun u o => smul o u) (fst u) (prefix_products (fst o))) (snd o) ;; Ret (fst res) else Ret (zip_into (fun u o => smul o u) (fst u) (prefix_products (fst o)))).
      { intros i Di. rewrite (Ei1 i Di). reflexivity. }
      cbn in L4.
      eapply (prel_bind WR).
      { apply (mul_rel (m := m) (k := m + e)%nat) with (a := fun i => repeat (i1 i) m) (b := fun i => skipn 1 (fst (r i))); [eapply (o_mono HO); [|exact Y4]; lia| |].
        - split; [apply (lv_repeat LA), Hi0|apply repeat_length].
        - split; [apply (lv_skipn LA), P3|]. rewrite skipn_length, (proj2 P3). lia. }
      intros u u' [P5 Y5] _. cbn beta.
      eapply (prel_bind WR).
      { apply (mul_rel (m := m) (k := e)%nat) with (a := fun i => firstn m (fst (r i))) (b := fun i => fst (ar i)); [eapply (o_mono HO); [|exact Y5]; lia| |exact P2].
        split; [apply (lv_firstn LA), P3|]. rewrite firstn_length, (proj2 P3). lia. }
      intros mm mm' [P6 Y6] _. cbn beta.
      eapply (prel_bind WR).
      { apply (mulo_rel (m := m) (k := e)%nat) with (b := is1); [exact Y6|exact P6|]. split; [exact His|lia]. }
      intros o o' [P7 Y7] _. cbn beta.
      assert (V : lvn m (fun i => zip_into (fun u o => smul o u) (fst (u i)) (prefix_products (fst o'))) (zip_into (fun u o => smul o u) (fst u') (prefix_products (fst o')))).
      { split; [|rewrite zip_into_length; apply P5].
        apply (lv_zip_pub LA (f := fun _ u o => smul o u)); [intros; apply (lin_smul LA); assumption|apply P5]. }
      destruct inv.
      - eapply (prel_ext WR) with (qs := fun i => res <- invv i (zip_into (fun u o => smul o u) (fst (u i)) (prefix_products (fst o'))) (snd (o i)) ;; Ret (fst res)).
        { intros i Di. rewrite (P7 i Di). reflexivity. }
        eapply (prel_bind WR); [apply (inv_rel (m := m) (k := 0)) with (a := fun i => zip_into (fun u o => smul o u) (fst (u i)) (prefix_products (fst o'))); [eapply (o_mono HO); [|exact Y7]; unfold e; lia|exact V]|].
        intros res res' [P8 _] _. cbn beta. apply (prel_ret WR (R := lvn m) (a := fun i => fst (res i))). exact P8.
      - eapply (prel_ext WR) with (qs := fun i => Ret (zip_into (fun u o => smul o u) (fst (u i)) (prefix_products (fst o')))).
        { intros i Di. rewrite (P7 i Di). reflexivity. }
        apply (prel_ret WR (R := lvn m)). exact V.
    Qed.

    Context (H : list (F + G1) -> F) (fuel : nat) (zk : zkey F G1).
    Notation n := (domain_size zk).
    Definition after0 : nat := n * 6 + 2 + (n * 7 + 2 + budget2 zk).
    Lemma sim_of_ops : sim dom E bad WO D ideal_pdriver zk RA RP (fun k => Q (k + after0)) (Q (n * 7 + 2 + budget2 zk)) (Q (n * 6 + 2)) (Q (n * 7 + 2)) Q.
    Proof.
      constructor.
      - intros. apply (o_pub HO); assumption.
      - intros. apply (o_prom HO).
      - intros. apply (o_msm HO); assumption.
      - intros. apply (o_eval HO); assumption.
      - intros k st t Y. apply (o_rand HO). exact Y.
      - intros st t Y. apply (o_fork HO). exact Y.
      - intros st t Y. apply (o_fork HO). exact Y.
      - intros m k st t Y. apply (o_fork HO). exact Y.
      - intros. apply mul_rel; assumption.
      - intros. apply (array_rel (inv := false)); try assumption. eapply (o_mono HO); [|eassumption]. lia.
      - intros. apply (array_rel (inv := true)); try assumption. eapply (o_mono HO); [|eassumption]. lia.
      - intros st t a x [Y|[k Y]] A; eapply (o_open_vec HO); eassumption.
      - intros st t a x [Y|[k Y]] A; eapply (o_open_point HO); eassumption.
      - intros st t a x [Y|[k Y]] A; eapply (o_open_points HO); eassumption.
    Qed.
    Theorem parties_ideal pub wit w st t : lvA wit w -> Q (n * 222 + 15) st t ->
      prel eqr (fun i => plonk_prove_inner (D i) H fuel zk pub (wit i) (st i)) (plonk_prove_inner ideal_pdriver H fuel zk pub w t).
    Proof.
      intros W Y. apply (plonk_sim Erefl WR H fuel LA LP sim_of_ops pub W). eapply (o_mono HO); [|exact Y]. unfold after0, budget2. lia.
    Qed.
  End Parties.

  (** ** The plain prover against the ideal driver *)
  Section PlainIdeal.
    Context {FT : Fft F}.
    Context (E : err -> err -> Prop) (bad : err -> Prop) (Erefl : forall e, E e e).
    Notation all := (fun _ : unit => True).
    Definition WOp A (ps : unit -> prog Empty_set Empty_set A) (Q : (unit -> outcome A) -> Prop) : Prop := forall o, o tt = local (ps tt) -> Q o.
    Lemma wo_plain : wo_rules all bad WOp.
    Proof.
      constructor; unfold WOp.
      - intros A B ps ks Q HQ o Ho. apply (HQ (fun i => local (ps i)) eq_refl). rewrite Ho, !local_bind, local_leaf. reflexivity.
      - intros A ps qs Q E1 HQ o Ho. apply HQ. rewrite Ho, E1 by exact I. reflexivity.
      - intros A ps Q Q' K HQ o Ho. apply K, HQ, Ho.
      - intros A e Q K o Ho. apply K. intros [] _. exact Ho.
      - intros A a Q K o Ho. apply K. intros [] _. exact Ho.
      - intros e _ A ps Q K o _. apply K.
    Qed.
    Definition eqv {A} (a : unit -> A) (x : A) : Prop := a tt = x.
    Lemma lin_eqv {A} {AA : AbGrp A} {MA : Mod F A} : lin all (eqv (A := A)).
    Proof.
      unfold eqv. constructor.
      - intros a b x E1 <-. symmetry. apply E1. exact I.
      - reflexivity.
      - intros a b x y <- <-. reflexivity.
      - intros c a x <-. reflexivity.
    Qed.
    Lemma lv_eqv {A} {AA : AbGrp A} {MA : Mod F A} a (x : list A) : lv all eqv a x <-> a tt = x.
    Proof.
      split.
      - intros [L K]. pose proof (L tt I) as L0. apply nth_ext with (d := 0) (d' := 0); [exact L0|]. intros j Lj. rewrite L0 in Lj. exact (K j Lj).
      - intros <-. split; [intros [] _; reflexivity|]. intros j _. reflexivity.
    Qed.
    (** the random values of one product argument: [r], and the masks of the inversions *)
    Definition tape (n : nat) (t : T) : list F := fst (t_draws (S n) (t_mul n (t_mul n t))).
    Definition masks1 (n : nat) (t : T) : list F := fst (t_inv (S n) (snd (t_draws (S n) (t_mul n (t_mul n t))))).
    Definition masks2 (n : nat) (t : T) : list F :=
      fst (t_inv n (t_mo n (t_mul n (t_mul n (snd (t_inv (S n) (snd (t_draws (S n) (t_mul n (t_mul n t))))))))) ).
    Definition nonzero (l : list F) : Prop := ~ In 0 l.
    Definition good (inv : bool) (n : nat) (t : T) : Prop := nonzero (tape n t) /\ nonzero (masks1 n t) /\ (inv = true -> nonzero (masks2 n t)).
    Definition ok (inv : bool) (n : nat) (t : T) : Prop := bad ierr \/ (E plain_inv_error ierr /\ good inv n t).
    Context (inv_length : forall k t, length (fst (t_inv k t)) = k).
    Add Ring FringI : (@cring_theory F _).

    Lemma zero_prod (x y : F) : feqb (rmul x y) 0 = feqb x 0 || feqb y 0.
    Proof.
      destruct (feqb x 0) eqn:Ex.
      - apply feqb_spec in Ex. subst. apply feqb_spec. ring.
      - destruct (feqb y 0) eqn:Ey.
        + apply feqb_spec in Ey. subst. apply feqb_spec. ring.
        + destruct (feqb (rmul x y) 0) eqn:Exy; [|reflexivity]. apply feqb_spec in Exy.
          assert (Hx : x <> 0) by (intros H; apply feqb_spec in H; congruence). exfalso.
          assert (y = 0); [|apply feqb_spec in H; congruence].
          transitivity (rmul (finv x) (rmul x y)); [|rewrite Exy; ring]. rewrite rmul_assoc, finv_l by exact Hx. ring.
    Qed.
    Lemma zeros_prod (x y : list F) : length x = length y ->
      existsb (fun y => feqb y 0) (map2 rmul x y) = existsb (fun y => feqb y 0) x || existsb (fun y => feqb y 0) y.
    Proof.
      revert y. induction x as [|a x IH]; intros [|b y] L; cbn in *; try discriminate; [reflexivity|]. rewrite zero_prod, IH by lia.
      destruct (feqb a 0), (feqb b 0); cbn; rewrite ?orb_true_r; reflexivity.
    Qed.
    Lemma nonzero_spec l : nonzero l <-> existsb (fun y => feqb y 0) l = false.
    Proof.
      unfold nonzero. split.
      - intros Hn. destruct (existsb _ l) eqn:Ex; [|reflexivity]. exfalso. apply existsb_exists in Ex. destruct Ex as (x & Hx & E0). apply feqb_spec in E0. subst. exact (Hn Hx).
      - intros Ex Hi. assert (existsb (fun y => feqb y 0) l = true); [|congruence]. apply existsb_exists. exists 0. split; [exact Hi|]. apply feqb_spec. reflexivity.
    Qed.
    Lemma plain_rands_tape k : forall (l : list F) q, length l = k -> plain_rands k (l, q) = Done (l, ([], q)).
    Proof. induction k as [|k IH]; intros [|x l] q L; cbn in *; try discriminate; [reflexivity|]. rewrite IH by lia. reflexivity. Qed.

    Notation plain := (plain_pdriver (F := F) (G1 := G1)).
    Notation prel := (prel all E bad WOp).
    Notation orl := (orl all E bad).
    Notation lvn := (lvn all (eqv (A := F))).
    Lemma prel_plain {A B} (R : (unit -> A) -> B -> Prop) ps q : (forall o, o tt = local (ps tt) -> orl R o (local q)) -> prel R ps q.
    Proof. intros K o Ho. apply K, Ho. Qed.
    Lemma array_plain inv m st t a x b y c z : ok inv m t -> st tt = (tape m t, []) -> lvn m a x -> lvn m b y -> lvn m c z ->
      prel (lvn m) (fun i => pd_array_prod_mul plain inv (a i) (b i) (c i) (st i)) (pd_array_prod_mul ideal_pdriver inv x y z t).
    Proof.
      intros Ok Est [A La] [B Lb] [C Lc]. apply lv_eqv in A, B, C. apply prel_plain. intros o Ho.
      cbn [pd_array_prod_mul plain_pdriver ideal_pdriver] in *. rewrite local_leaf, A, B, C, Est in Ho.
      pose proof (rmul_length La Lb) as Lxy. pose proof (rmul_length Lxy Lc) as Lar.
      unfold plain_array_prod_mul in Ho. unfold mpc_array_prod_mul. cbv zeta in *. unfold id_mul at 1 2. cbn [bind fst snd].
      set (ar := map2 rmul (map2 rmul x y) z) in *. rewrite La, Lxy, Lar in *. rewrite rnds_draws. cbn [bind].
      pose proof (t_draws_length (S m) (t_mul m (t_mul m t))) as Lr. fold (tape m t) in Lr |- *.
      rewrite (plain_rands_tape _ Lr) in Ho. cbn [obd fst snd] in Ho. unfold id_inv at 1. rewrite Lr.
      set (t3 := snd (t_draws (S m) (t_mul m (t_mul m t)))) in *.
      rewrite zeros_prod by (rewrite inv_length; exact Lr). set (r := tape m t) in *. unfold plain_inv_vec in Ho at 1.
      destruct (existsb (fun y0 => feqb y0 0) r) eqn:Er.
      { cbn [orb bind local orl]. destruct Ok as [Bd|(_ & Hr & _)]; [left; exact Bd|]. apply nonzero_spec in Hr. fold r in Hr. congruence. }
      destruct (existsb (fun y0 => feqb y0 0) (fst (t_inv (S m) t3))) eqn:Em.
      { cbn [orb bind local orl]. destruct Ok as [Bd|(_ & _ & Hm & _)]; [left; exact Bd|]. apply nonzero_spec in Hm. unfold masks1 in Hm. fold t3 in Hm. congruence. }
      cbn [orb bind fst snd]. cbn [obd] in Ho.
      assert (Li : length (map finv r) = S m) by (rewrite map_length; exact Lr).
      destruct (map finv r) as [|ri0 ris]; [discriminate|]. cbn in Li. injection Li as Li.
      assert (Lrep : length (repeat ri0 m) = m) by apply repeat_length.
      assert (Lsk : length (skipn 1 r) = m) by (rewrite skipn_length; lia).
      assert (Lfi : length (firstn m r) = m) by (rewrite firstn_length; lia).
      pose proof (rmul_length Lrep Lsk) as Lu. pose proof (rmul_length Lfi Lar) as Lm.
      unfold id_mul at 1. cbn [bind fst snd]. unfold id_mul at 1. cbn [bind fst snd]. unfold id_mulo at 1. cbn [bind fst snd]. rewrite Lrep, Lfi, Lm.
      assert (Ez : forall (l : list F) k, zip_into (fun u o0 => smul o0 u) l k = zip_into rmul l k).
      { clear. induction l as [|e l IH]; intros [|f k]; cbn; try reflexivity. rewrite IH. f_equal. apply rmul_comm. }
      rewrite Ez. set (ub := zip_into rmul (map2 rmul (repeat ri0 m) (skipn 1 r)) (prefix_products (map2 rmul (map2 rmul (firstn m r) ar) ris))) in *.
      assert (Lub : length ub = m) by (unfold ub; rewrite zip_into_length; exact Lu).
      destruct inv.
      - unfold id_inv. rewrite Lub. rewrite zeros_prod by (rewrite inv_length; exact Lub). unfold plain_inv_vec in Ho.
        destruct (existsb (fun y0 => feqb y0 0) ub) eqn:Eu.
        { cbn [orb bind local orl]. destruct Ok as [Bd|(He & _)]; [left; exact Bd|]. right. exists plain_inv_error. split; [exact He|]. intros [] _. exact Ho. }
        match goal with |- context[existsb ?f ?l] => destruct (existsb f l) eqn:Em2 end.
        { cbn [orb bind local orl]. destruct Ok as [Bd|(_ & _ & _ & Hm)]; [left; exact Bd|]. specialize (Hm eq_refl). apply nonzero_spec in Hm. unfold masks2 in Hm. fold t3 in Hm. congruence. }
        cbn [orb bind local orl fst]. exists (fun _ => map finv ub). split; [intros [] _; exact Ho|]. split; [apply lv_eqv; reflexivity|rewrite map_length; exact Lub].
      - cbn [local orl]. exists (fun _ => ub). split; [intros [] _; exact Ho|]. split; [apply lv_eqv; reflexivity|exact Lub].
    Qed.

    Context (H : list (F + G1) -> F) (fuel : nat) (zk : zkey F G1).
    Notation n := (domain_size zk).
    Definition forkD (n : nat) (t : T) : T := fst (t_fork (n * 7 + 2) t).
    Definition forkN (n : nat) (t : T) : T := fst (t_fork (n * 6 + 2) t).
    Definition restN (n : nat) (t : T) : T := snd (t_fork (n * 6 + 2) t).
    Definition P1 (st : unit -> plain_st (F := F)) (t : T) : Prop := snd (st tt) = [tape n (forkD n t)] /\ ok true n (forkD n t).
    Definition P0 (k : nat) (st : unit -> plain_st (F := F)) (t : T) : Prop :=
      let t' := snd (t_draws k t) in
      st tt = (fst (t_draws k t), [tape n (forkN n t'); tape n (forkD n (restN n t'))]) /\ ok false n (forkN n t') /\ ok true n (forkD n (restN n t')).
    Definition Pt (inv : bool) (st : unit -> plain_st (F := F)) (t : T) : Prop := st tt = (tape n t, []) /\ ok inv n t.
    Lemma sim_plain : sim all E bad WOp (fun _ => plain) ideal_pdriver zk eqv eqv P0 P1 (Pt false) (Pt true) (fun _ _ _ => True).
    Proof.
      constructor.
      - intros a x c Ha. unfold eqv in *. cbn. congruence.
      - intros c. reflexivity.
      - intros ps a x V. apply lv_eqv in V. unfold eqv. cbn. congruence.
      - intros a x p V _. apply lv_eqv in V. cbn. exists (fun _ => peval x p). split; [intros [] _; rewrite V; reflexivity|reflexivity].
      - intros k st t (Es & O1 & O2). cbv zeta in *. cbn [t_draws fst snd] in *. apply prel_plain. intros o Ho. cbn in Ho |- *. rewrite Es in Ho. cbn in Ho.
        eexists (fun _ => _). split; [intros [] _; exact Ho|]. split; cbn [fst snd]; [reflexivity|]. split; [reflexivity|]. split; assumption.
      - intros st t (Es & O1 & O2). cbv zeta in *. cbn [t_draws fst snd] in *. cbn. eexists (fun _ => _). split; [intros [] _; rewrite Es; reflexivity|].
        split; cbn [fst snd]; split; [reflexivity|exact O1|reflexivity|exact O2].
      - intros st t (Es & O2). cbn. eexists (fun _ => _). split; [intros [] _; rewrite Es; reflexivity|].
        split; cbn [fst snd]; [|exact I]. split; [reflexivity|exact O2].
      - intros m k st t _. cbn. exists (fun i => match snd (st i) with t :: ts => ((t, []), (fst (st i), ts)) | [] => (([], []), st i) end). split; [|split; exact I].
        intros i _. destruct (snd (st i)); reflexivity.
      - intros m k st t a x b y _ [A La] [B Lb]. apply lv_eqv in A, B. apply prel_plain. intros o Ho. cbn in Ho |- *. eexists (fun _ => _). split; [intros [] _; exact Ho|].
        split; cbn [fst snd]; [|exact I]. split; [apply lv_eqv; congruence|apply rmul_length; assumption].
      - intros st t a x b y c z (Es & O1) A B C. apply array_plain; assumption.
      - intros st t a x b y c z (Es & O1) A B C. apply array_plain; assumption.
      - intros st t a x _ A. apply lv_eqv in A. apply prel_plain. intros o Ho. cbn in Ho |- *. eexists (fun _ => _). split; [intros [] _; exact Ho|]. intros [] _. exact A.
      - intros st t a x _ A. apply prel_plain. intros o Ho. cbn in Ho |- *. eexists (fun _ => _). split; [intros [] _; exact Ho|]. intros [] _. exact A.
      - intros st t a x _ A. apply lv_eqv in A. apply prel_plain. intros o Ho. cbn in Ho |- *. eexists (fun _ => _). split; [intros [] _; exact Ho|]. intros [] _. exact A.
    Qed.
    Lemma plain_ideal pub w t b r0 r1 : P0 11 (fun _ => (b, [r0; r1])) t ->
      orl (eqr all) (fun _ => plonk_plain_prove H fuel zk pub w b r0 r1) (local (plonk_prove_inner ideal_pdriver H fuel zk pub w t)).
    Proof.
      intros Y. apply (plonk_sim Erefl wo_plain H fuel lin_eqv lin_eqv sim_plain pub (wit := fun _ => w) (w := w) (proj2 (lv_eqv _ _) eq_refl) Y).
      reflexivity.
    Qed.
  End PlainIdeal.

  (** ** The two conclusions *)
  Section Conclude.
    Context {FT : Fft F} (inv_length : forall k t, length (fst (t_inv k t)) = k).
    Context (H : list (F + G1) -> F) (fuel : nat) (zk : zkey F G1).
    Notation n := (domain_size zk).
    (** the tapes of the plain prover, and the masks of the inversions *)
    Definition tape_b (t : T) : list F := fst (t_draws 11 t).
    Definition tape_0 (n : nat) (t : T) : list F := tape n (forkN n (snd (t_draws 11 t))).
    Definition tape_1 (n : nat) (t : T) : list F := tape n (forkD n (restN n (snd (t_draws 11 t)))).
    Definition tape_masks (n : nat) (t : T) : list F :=
      let t0 := snd (t_draws 11 t) in masks1 n (forkN n t0) ++ masks1 n (forkD n (restN n t0)) ++ masks2 n (forkD n (restN n t0)).
    Theorem ideal_done pub w t p : local (plonk_prove_inner ideal_pdriver H fuel zk pub w t) = Done p ->
      plonk_plain_prove H fuel zk pub w (tape_b t) (tape_0 n t) (tape_1 n t) = Done p.
    Proof.
      intros Ep. pose proof (@plain_ideal FT (fun e e' => e = e') (fun e => e = ierr) (fun e => eq_refl) inv_length H fuel zk pub w t (tape_b t) (tape_0 n t) (tape_1 n t)) as K.
      rewrite Ep in K. destruct K as (a & Ea & Eq).
      - split; [reflexivity|]. split; left; reflexivity.
      - rewrite (Ea tt I). f_equal. exact (Eq tt I).
    Qed.
    Definition masked_error (e' e : err) : Prop := e' = e \/ (e' = plain_inv_error /\ e = ierr).
    Theorem ideal_agrees pub w t : nonzero (tape_0 n t ++ tape_1 n t ++ tape_masks n t) ->
      match local (plonk_prove_inner ideal_pdriver H fuel zk pub w t), plonk_plain_prove H fuel zk pub w (tape_b t) (tape_0 n t) (tape_1 n t) with
      | Done p, Done p' => p = p'
      | Failed e, Failed e' => masked_error e' e
      | _, _ => False
      end.
    Proof.
      intros Hn. unfold nonzero, tape_masks in Hn. cbv zeta in Hn. rewrite !in_app_iff in Hn.
      pose proof (@plain_ideal FT masked_error (fun e => False) (fun e => or_introl eq_refl) inv_length H fuel zk pub w t (tape_b t) (tape_0 n t) (tape_1 n t)) as K.
      assert (Y : P0 masked_error (fun _ => False) zk 11 (fun _ => (tape_b t, [tape_0 n t; tape_1 n t])) t).
      { split; [reflexivity|]. split; right; (split; [right; split; reflexivity|]); unfold good, nonzero, tape_0, tape_1 in *; (split; [tauto|split; [tauto|]]); [discriminate|intros _; tauto]. }
      specialize (K Y). clear Y. set (b := tape_b t) in *. set (r0 := tape_0 n t) in *. set (r1 := tape_1 n t) in *. clearbody b r0 r1. destruct (local _) as [p|e]; cbn in K.
      - destruct K as (a & Ea & Eq). rewrite (Ea tt I). symmetry. exact (Eq tt I).
      - destruct K as [[]|(e' & Ee & K)]. rewrite (K tt I). exact Ee.
    Qed.
  End Conclude.
End Ideal.
