(** * The operations of the replicated driver of the coBrillig VM compute what BrilligSpec.v says *)
From Coq Require Import String List Arith NArith Lia Bool Ring.
From Verif Require Import Proc Alg Rep3Net Rep3 Rep3Spec Rep3Proofs Rep3Wp Uint Binary BinaryWp Conv ConvWp CmpWp Ring2k Ring2kWp
  VmDriver VmIdeal Brillig BrilligSpec BrilligSound BrilligTag BrilligDriver.
Import ListNotations.
Set Implicit Arguments.
Local Open Scope grp_scope.

Lemma wpo_leaf {M A} cap (o : pid -> outcome A) (Q : (pid -> outcome A) -> Prop) : Q o -> wpo (M := M) cap (fun i => leaf (o i)) Q.
Proof. intros HQ. exists o. split; [apply runs_ret|exact HQ]. Qed.
Definition all_fail {A} (o : pid -> outcome A) : Prop := forall i, exists e, o i = Failed e.
Lemma wpo_leaf_fail {M A B} cap (o : pid -> outcome A) (ks : pid -> A -> prog pid M B) (Q : (pid -> outcome B) -> Prop) :
  all_fail o -> (forall o', all_fail o' -> Q o') -> wpo cap (fun i => bind (leaf (o i)) (ks i)) Q.
Proof.
  intros Ho HQ. exists (fun i => match o i with Done _ => Failed undef | Failed e => Failed e end). split.
  - eapply runs_ext; [|exact (runs_ret all3 cap (fun i => match o i with Done _ => Failed undef | Failed e => Failed e end))].
    intros i. destruct (Ho i) as [e ->]. reflexivity.
  - apply HQ. intros i. destruct (Ho i) as [e ->]. eauto.
Qed.

Section Ops.
  Context {F : Type} `{FU : FieldUint F} {S Seed M : Type} (dbg strict : bool) (W : nat) (du : nat -> S -> N * S).
  Context {DF : Draw S F} {DS : Draw S Seed} {SD : Seeded S Seed}.
  Context {EN : Enc M (list N)} {ENN : Enc M (list (N * N))}
          {EL : Enc M (list (list N))} {ELL : Enc M (list (list N * list N))} {EF : Enc M (list F)}.
  Context {RT : isz -> Type} {RC : forall s, CRing (RT s)} {RI : forall s, @IntRing (RT s) (RC s)}
          {RD : forall s, Draw S (RT s)} {RE : forall s, Enc M (list (RT s))}.
  Context (HK : forall s, rK (RT s) = ibits s).
  Context (Y : yao (F := F) (S := S) (M := M) (RT := RT)) (trng : pid -> nat -> bty -> bval F).
  Context (cap : nat) (cap_pos : (1 <= cap)%nat) (width : (mbs F + 2 <= W)%nat).
  Notation p := (fu_p (F := F)).
  Notation shv := (shv (F := F) (RT := RT)).
  Notation bv := (bv (F := F) (RT := RT)).
  Implicit Types (st : pid -> rst S).
  Add Ring Fring : (@cring_theory F _).

  (** what the garbled circuits compute *)
  Definition sres_ok {G} `{AbGrp G} (v : G) (r : pid -> share G * rst S) : Prop :=
    shares (fun i => fst (r i)) v /\ synced (fun i => snd (r i)).
  Record yao_ok : Prop := mkYaoOk {
    yo_fpow2 : forall st a x k, synced st -> shares a x -> (2 ^ N.of_nat k < p)%N ->
      wp cap (fun i => y_fpow2 Y i (st i) (a i) k) (sres_ok (of_uint (to_uint x / 2 ^ N.of_nat k)));
    yo_fpub : forall st a x c, synced st -> shares a x -> c <> 0 ->
      wp cap (fun i => y_fpub Y i (st i) (a i) c) (sres_ok (of_uint (to_uint x / to_uint c)));
    yo_fby : forall st a x c, synced st -> shares a x -> x <> 0 ->
      wp cap (fun i => y_fby Y i (st i) c (a i)) (sres_ok (of_uint (to_uint c / to_uint x)));
    yo_fdiv : forall st a b x y, synced st -> shares a x -> shares b y -> y <> 0 ->
      wp cap (fun i => y_fdiv Y i (st i) (a i) (b i)) (sres_ok (of_uint (to_uint x / to_uint y)));
    yo_rpow2 : forall s st (a : pid -> share (RT s)) x k, synced st -> shares a x -> (k < ibits s)%nat ->
      wp cap (fun i => y_rpow2 Y s i (st i) (a i) k) (sres_ok (rof (rto x / 2 ^ N.of_nat k)));
    yo_rpub : forall s st (a : pid -> share (RT s)) x c, synced st -> shares a x -> rto c <> 0%N ->
      wp cap (fun i => y_rpub Y s i (st i) (a i) c) (sres_ok (rof (rto x / rto c)));
    yo_rby : forall s st (a : pid -> share (RT s)) x c, synced st -> shares a x -> rto x <> 0%N ->
      wp cap (fun i => y_rby Y s i (st i) c (a i)) (sres_ok (rof (rto c / rto x)));
    yo_rdiv : forall s st (a b : pid -> share (RT s)) x y, synced st -> shares a x -> shares b y -> rto y <> 0%N ->
      wp cap (fun i => y_rdiv Y s i (st i) (a i) (b i)) (sres_ok (rof (rto x / rto y))) }.
  Context (HY : yao_ok).

  (** ** Relations *)
  (** shares of a field element or of an integer *)
  Definition svrel (v : pid -> shv) (x : bval F) : Prop :=
    match x with
    | BF x => exists s, shares s x /\ forall i, v i = SF (s i)
    | BI n z => exists (s : pid -> share (RT z)) y, shares s y /\ rto y = n /\ forall i, v i = SI z (s i)
    end.
  Definition vrel (v : pid -> bv) (sh : bool) (x : bval F) : Prop :=
    if sh then exists w, svrel w x /\ forall i, v i = BShr (w i) else forall i, v i = BPub x.
  Definition trel (v : pid -> bv) (t : tb F) : Prop :=
    match t with
    | TPub x => vrel v false x
    | TShr x => vrel v true x
    | TUnk ty => exists x, bty_of x = ty /\ vrel v true x
    end.
  Definition spost (z : bval F) (o : pid -> outcome (shv * rst S)) : Prop :=
    (exists r, (forall i, o i = Done (r i)) /\ svrel (fun i => fst (r i)) z /\ synced (fun i => snd (r i))) \/ (strict = false /\ all_fail o).

  Lemma svrel_range v n s : svrel v (BI n s) -> (n < imod s)%N.
  Proof. intros (z & y & _ & <- & _). unfold imod. rewrite <- HK. apply rto_lt. Qed.
  Lemma is_pow2_size s : is_pow2 (rK (RT s)) = true.
  Proof. rewrite HK. destruct s; reflexivity. Qed.
  Lemma imod_rK s : imod s = (2 ^ N.of_nat (rK (RT s)))%N.
  Proof. rewrite HK. reflexivity. Qed.
  Lemma as_size_same s (y : share (RT s)) : as_size s s y = Some y.
  Proof. unfold as_size. destruct s; reflexivity. Qed.
  Lemma isz_eqb_spec a b : isz_eqb a b = true <-> a = b.
  Proof. unfold isz_eqb. destruct (isz_dec a b); split; congruence. Qed.

  (** *** bits *)
  Lemma rof_lxor a b : rof (T := RT U1) (N.lxor a b) = rof a + rof b.
  Proof.
    apply rto_inj. rewrite rto_add, !rto_rof, !HK. cbn [ibits]. change (2 ^ N.of_nat 1)%N with 2%N.
    rewrite <- !N.bit0_mod, N.lxor_spec. destruct (N.testbit a 0), (N.testbit b 0); reflexivity.
  Qed.
  Lemma to_bit_ok s v : shares s v -> shares (fun i => to_bit (RT := RT) (s i)) (rof v).
  Proof.
    intros [R A]. split.
    - intros i. unfold to_bit. cbn [sa Rep3.sb]. rewrite R. reflexivity.
    - unfold additive, to_bit in *. cbn [sa]. rewrite <- A. cbn. rewrite <- !rof_lxor. reflexivity.
  Qed.
  Lemma rto_bit (b : bool) : rto (T := RT U1) (rof (N.b2n b)) = (if b then 1 else 0)%N.
  Proof. rewrite rto_rof, HK. destruct b; reflexivity. Qed.
  Lemma bnot_shares s (b : bool) : shares s (N.b2n b) -> shares (fun i => bnot (s i)) (N.b2n (negb b)).
  Proof. intros Hs. replace (N.b2n (negb b)) with (N.lxor (N.b2n b) 1) by (destruct b; reflexivity). exact (shmap_ok (@lin3_lxor 1) Hs). Qed.

  (** *** results *)
  Lemma ret_post st (v : pid -> shv) z : synced st -> svrel v z -> wpo (M := M) cap (fun i => ret (st i) (v i)) (spost z).
  Proof. intros Hs Hv. apply wp_wpo, wp_ret. left. eexists. split; [reflexivity|]. auto. Qed.
  Lemma sfld_post (q : pid -> prog pid M (share F * rst S)) v : wp cap q (sres_ok v) -> wpo cap (fun i => sfld (RT := RT) (q i)) (spost (BF v)).
  Proof.
    intros Hq. apply wpo_bind. eapply wp_mono; [|exact Hq]. intros r [R1 R2]. apply wp_wpo, wp_ret. left. eexists. split; [reflexivity|].
    split; [|exact R2]. eexists. split; [exact R1|reflexivity].
  Qed.
  Lemma sring_post s (q : pid -> prog pid M (share (RT s) * rst S)) v n : wp cap q (sres_ok v) -> rto v = n ->
    wpo cap (fun i => sring (F := F) s (q i)) (spost (BI n s)).
  Proof.
    intros Hq E. apply wpo_bind. eapply wp_mono; [|exact Hq]. intros r [R1 R2]. apply wp_wpo, wp_ret. left. eexists. split; [reflexivity|].
    split; [|exact R2]. do 2 eexists. split; [exact R1|]. split; [exact E|reflexivity].
  Qed.
  Lemma sbit_post (q : pid -> prog pid M (share N * rst S)) b : wp cap q (fun r => bit_result r b) ->
    wpo cap (fun i => sbit (F := F) (RT := RT) (q i)) (spost (bit_of b)).
  Proof.
    intros Hq. apply wpo_bind. eapply wp_mono; [|exact Hq]. intros r (R1 & _ & R2). apply wp_wpo, wp_ret. left. eexists. split; [reflexivity|].
    split; [|exact R2]. do 2 eexists. split; [exact (to_bit_ok R1)|]. split; [apply rto_bit|reflexivity].
  Qed.
  Lemma snbit_post (q : pid -> prog pid M (share N * rst S)) b : wp cap q (fun r => bit_result r (negb b)) ->
    wpo cap (fun i => snbit (F := F) (RT := RT) (q i)) (spost (bit_of b)).
  Proof.
    intros Hq. apply wpo_bind. eapply wp_mono; [|exact Hq]. intros r (R1 & _ & R2). apply wp_wpo, wp_ret. left. eexists. split; [reflexivity|].
    split; [|exact R2]. do 2 eexists. split; [exact (to_bit_ok (bnot_shares _ R1))|]. rewrite negb_involutive. split; [apply rto_bit|reflexivity].
  Qed.
  Lemma div_post_post (q : pid -> prog pid M (share F * rst S)) x y r : strict = false -> wpo cap q (div_post x y r) ->
    wpo cap (fun i => sfld (RT := RT) (q i)) (spost (BF (rmul x (finv y)))).
  Proof.
    intros Hst Hq. apply wpo_seq. eapply wpo_mono; [|exact Hq]. intros o [[_ Ho]|(_ & v & Ho & H1 & H2)].
    - apply wpo_leaf_fail; [intros i; rewrite Ho; eauto|]. intros o' Ho'. right. auto.
    - eapply wpo_ext with (qs := fun i => Ret (SF (fst (v i)), snd (v i))); [intros i; rewrite Ho; reflexivity|].
      apply wp_wpo, wp_ret. left. eexists. split; [reflexivity|]. split; [|exact H2]. eexists. split; [exact H1|reflexivity].
  Qed.
  Lemma f_post st (s : pid -> share F) x : synced st -> shares s x -> wpo (M := M) cap (fun i => ret (RT := RT) (st i) (SF (s i))) (spost (BF x)).
  Proof. intros Hs Hx. apply ret_post; [exact Hs|]. exists s. auto. Qed.
  Lemma r_post z st (s : pid -> share (RT z)) x n : synced st -> shares s x -> rto x = n ->
    wpo (M := M) cap (fun i => ret (F := F) (st i) (SI z (s i))) (spost (BI n z)).
  Proof. intros Hs Hx E. apply ret_post; [exact Hs|]. exists s, x. auto. Qed.

  Lemma feqb_false (x y : F) : feqb x y = false -> x <> y.
  Proof. intros E C. apply feqb_spec in C. congruence. Qed.
  Lemma pow2_log n : npow2 n = true -> (2 ^ N.of_nat (N.to_nat (N.log2 n)) = n)%N.
  Proof. unfold npow2. intros E. apply N.eqb_eq in E. rewrite N2Nat.id. exact E. Qed.
  Notation FAO := (fun st a x => a2b_wp du cap_pos width (st := st) (a := a) (x := x)).

  Ltac some E := injection E as E; rewrite <- E; clear E.
  Lemma field_ss_ok st o a b x y z : synced st -> shares a x -> shares b y -> excluded strict o (BF x) true = false ->
    sfield o x y = Some z -> wpo cap (fun i => field_ss W du Y i (st i) o (a i) (b i)) (spost z).
  Proof.
    intros Hs Ha Hb Hex E. destruct o; cbn [field_ss]; cbn [sfield] in E.
    - some E. apply f_post; [exact Hs|exact (shadd_ok Ha Hb)].
    - some E. apply f_post; [exact Hs|exact (shsub_ok Ha Hb)].
    - some E. apply sfld_post. exact (rmul_wp cap_pos Hs Ha Hb).
    - cbn in Hex. rewrite andb_true_r in Hex. destruct (feqb y 0); [discriminate|]. some E.
      eapply div_post_post; [exact Hex|]. exact (div_ok cap_pos Hs Ha Hb).
    - destruct (feqb y 0) eqn:Ey; [discriminate|]. some E. apply sfld_post. exact (yo_fdiv HY Hs Ha Hb (feqb_false Ey)).
    - some E. apply sbit_post. exact (eq_bit_wp W du cap_pos _ FAO Hs Ha Hb).
    - some E. apply snbit_post. rewrite <- N.leb_antisym. exact (unsigned_ge_wp du cap_pos width _ FAO Hs Ha Hb).
    - some E. apply sbit_post. exact (unsigned_ge_wp du cap_pos width _ FAO Hs Hb Ha).
  Qed.
  Lemma field_sp_ok st o a x c z : synced st -> shares a x ->
    sfield o x c = Some z -> wpo cap (fun i => field_sp W du Y i (st i) o (a i) c) (spost z).
  Proof.
    intros Hs Ha E. destruct o; cbn [field_sp]; cbn [sfield] in E.
    - some E. apply f_post; [exact Hs|exact (add_public_ok _ Ha)].
    - some E. apply f_post; [exact Hs|exact (sub_shared_by_public_ok _ Ha)].
    - some E. apply f_post; [exact Hs|exact (mul_public_ok _ Ha)].
    - destruct (feqb c 0) eqn:Ec; [discriminate|]. some E.
      destruct (div_shared_by_public_ok Ha (feqb_false Ec)) as (r & E1 & E2).
      eapply wpo_ext with (qs := fun i => ret (st i) (SF (r i))); [intros i; rewrite E1; reflexivity|]. apply f_post; assumption.
    - destruct (feqb c 0) eqn:Ec; [discriminate|]. some E. destruct (npow2 (to_uint c)) eqn:E2.
      + pose proof (pow2_log _ E2) as E3. apply sfld_post. replace (to_uint x / to_uint c)%N with (to_uint x / 2 ^ N.of_nat (N.to_nat (N.log2 (to_uint c))))%N by (rewrite E3; reflexivity). apply (yo_fpow2 HY _ Hs Ha). rewrite E3. apply to_uint_lt.
      + apply sfld_post. exact (yo_fpub HY Hs Ha (feqb_false Ec)).
    - some E. apply sbit_post. exact (eq_bit_public_wp W du cap_pos _ FAO c Hs Ha).
    - some E. apply snbit_post. rewrite <- N.leb_antisym. exact (ge_const_rhs_wp du cap_pos width _ FAO c Hs Ha).
    - some E. apply sbit_post. exact (ge_const_lhs_wp du cap_pos width _ FAO c Hs Ha).
  Qed.
  Lemma feqb_sym (x y : F) : feqb x y = feqb y x.
  Proof.
    destruct (feqb x y) eqn:A, (feqb y x) eqn:B; try reflexivity.
    - apply feqb_spec in A. apply feqb_false in B. congruence.
    - apply feqb_spec in B. apply feqb_false in A. congruence.
  Qed.
  Lemma field_ps_ok st o a x c z : synced st -> shares a x -> excluded strict o (BF c) true = false ->
    sfield o c x = Some z -> wpo cap (fun i => field_ps W du Y i (st i) o c (a i)) (spost z).
  Proof.
    intros Hs Ha Hex E. destruct o; cbn [field_ps]; cbn [sfield] in E.
    - some E. apply f_post; [exact Hs|]. rewrite gadd_comm. exact (add_public_ok _ Ha).
    - some E. apply f_post; [exact Hs|exact (sub_public_by_shared_ok _ Ha)].
    - some E. apply f_post; [exact Hs|]. rewrite rmul_comm. exact (mul_public_ok _ Ha).
    - cbn in Hex. rewrite andb_true_r in Hex. destruct (feqb x 0); [discriminate|]. some E.
      eapply div_post_post; [exact Hex|]. exact (div_public_by_shared_ok cap_pos c Hs Ha).
    - destruct (feqb x 0) eqn:Ec; [discriminate|]. some E. apply sfld_post. exact (yo_fby HY c Hs Ha (feqb_false Ec)).
    - some E. apply sbit_post. rewrite feqb_sym. exact (eq_bit_public_wp W du cap_pos _ FAO c Hs Ha).
    - some E. apply snbit_post. rewrite <- N.leb_antisym. exact (ge_const_lhs_wp du cap_pos width _ FAO c Hs Ha).
    - some E. apply sbit_post. exact (ge_const_rhs_wp du cap_pos width _ FAO c Hs Ha).
  Qed.
  (** *** integers *)
  Lemma sint_range o l r s z : sint (F := F) o l r s = Some z -> (l < imod s)%N /\ (r < imod s)%N.
  Proof.
    unfold sint. fold (imod s). destruct (_ && _)%bool eqn:B; [|discriminate]. intros _. apply andb_true_iff in B. rewrite !N.ltb_lt in B. exact B.
  Qed.
  Lemma sint_val o l r s : (l < imod s)%N -> (r < imod s)%N -> sint (F := F) o l r s =
      match o with
      | BAdd => Some (BI ((l + r) mod imod s) s)
      | BSub => Some (BI (if (r <=? l)%N then l - r else l + imod s - r) s)%N
      | BMul => Some (BI ((l * r) mod imod s) s)
      | BDiv => if (r =? 0)%N then None else Some (BI (l / r) s)
      | BIntDiv => None
      | BEq => Some (bit_of (l =? r)%N)
      | BLt => Some (bit_of (l <? r)%N)
      | BLe => Some (bit_of (l <=? r)%N)
      end.
  Proof. intros A B. unfold sint. fold (imod s). apply N.ltb_lt in A. apply N.ltb_lt in B. rewrite A, B. reflexivity. Qed.
  Lemma rto_range s (x : RT s) : (rto x < imod s)%N.
  Proof. rewrite imod_rK. apply rto_lt. Qed.
  Lemma rto_of s n : (n < imod s)%N -> rto (T := RT s) (rof n) = n.
  Proof. intros L. rewrite rto_rof, <- imod_rK. apply N.mod_small. exact L. Qed.
  Lemma rto_sub_spec s (x y : RT s) : rto (x - y) = (if rto y <=? rto x then rto x - rto y else rto x + imod s - rto y)%N.
  Proof.
    rewrite rto_sub, <- imod_rK. pose proof (rto_range x). pose proof (rto_range y). pose proof (imod_pos s). destruct (N.leb_spec (rto y) (rto x)).
    - replace (imod s + rto x - rto y)%N with (rto x - rto y + 1 * imod s)%N by lia. rewrite N.mod_add by lia. apply N.mod_small. lia.
    - replace (imod s + rto x - rto y)%N with (rto x + imod s - rto y)%N by lia. apply N.mod_small. lia.
  Qed.
  Lemma div_range l r s : (l < imod s)%N -> (l / r < imod s)%N.
  Proof. intros L. destruct (N.eqb_spec r 0) as [->|]; [destruct l; pose proof (imod_pos s); cbn; lia|]. pose proof (N.div_le_upper_bound l r l). nia. Qed.
  Notation RAO s := (fun st a x => ra2b_wp (T := RT s) dbg cap_pos (is_pow2_size s) (st := st) (a := a) (x := x)).
  Lemma ring_ss_ok s st o (a b : pid -> share (RT s)) x y z : synced st -> shares a x -> shares b y -> excluded strict o (BI (F := F) (rto x) s) true = false ->
    sint o (rto x) (rto y) s = Some z -> wpo cap (fun i => ring_ss dbg Y i (st i) o s (a i) (b i)) (spost z).
  Proof.
    intros Hs Ha Hb Hex E. rewrite sint_val in E by apply rto_range. destruct o; cbn [ring_ss].
    - some E. eapply r_post; [exact Hs|exact (shadd_ok Ha Hb)|]. rewrite rto_add, imod_rK. reflexivity.
    - some E. eapply r_post; [exact Hs|exact (shsub_ok Ha Hb)|]. apply rto_sub_spec.
    - some E. eapply sring_post; [exact (rmul_wp cap_pos Hs Ha Hb)|]. rewrite rto_mul, imod_rK. reflexivity.
    - destruct (N.eqb_spec (rto y) 0) as [|Ny]; [discriminate|]. some E.
      replace (isz_eqb s U1) with false by (destruct s; [discriminate Hex|reflexivity..]).
      eapply sring_post; [exact (yo_rdiv HY Hs Ha Hb Ny)|]. apply rto_of, div_range, rto_range.
    - discriminate.
    - some E. apply sbit_post. exact (req_wp dbg cap_pos (is_pow2_size s) _ (RAO s) Hs Ha Hb).
    - some E. apply sbit_post. exact (rlt_wp dbg cap_pos (is_pow2_size s) _ (RAO s) Hs Ha Hb).
    - some E. apply sbit_post. exact (rle_wp dbg cap_pos (is_pow2_size s) _ (RAO s) Hs Ha Hb).
  Qed.
  Lemma log2_lt c s : (c < imod s)%N -> c <> 0%N -> (N.to_nat (N.log2 c) < ibits s)%nat.
  Proof. intros L N0. unfold imod in L. apply N.log2_lt_pow2 in L; lia. Qed.
  Lemma npow2_nz c : npow2 c = true -> c <> 0%N.
  Proof. intros E ->. discriminate. Qed.
  Lemma ring_sp_ok s st o (a : pid -> share (RT s)) x c z : synced st -> shares a x -> excluded strict o (BI (F := F) (rto x) s) false = false ->
    sint o (rto x) c s = Some z -> wpo cap (fun i => ring_sp dbg Y i (st i) o s (a i) c) (spost z).
  Proof.
    intros Hs Ha Hex E. pose proof (proj2 (sint_range _ _ _ _ E)) as Lc. rewrite sint_val in E by (try apply rto_range; exact Lc).
    assert (Fit : forall B (k : pid -> RT s -> prog pid M B) Q, wpo cap (fun i => k i (rof c)) Q -> wpo cap (fun i => fits (RT := RT) (s := s) c (k i)) Q).
    { intros B k Q. unfold fits. rewrite (proj2 (N.ltb_lt _ _) Lc). auto. }
    pose proof (rto_of s Lc) as Ec.
    destruct o; cbn [ring_sp].
    - some E. apply Fit. eapply r_post; [exact Hs|exact (add_public_ok _ Ha)|]. rewrite rto_add, imod_rK, Ec. reflexivity.
    - some E. apply Fit. eapply r_post; [exact Hs|exact (sub_shared_by_public_ok _ Ha)|]. rewrite rto_sub_spec, Ec. reflexivity.
    - some E. apply Fit. eapply r_post; [exact Hs|exact (mul_public_ok _ Ha)|]. rewrite rto_mul, imod_rK, Ec. reflexivity.
    - destruct (N.eqb_spec c 0) as [|Nc]; [discriminate|]. some E.
      destruct (npow2 c) eqn:E2.
      + eapply sring_post; [exact (yo_rpow2 HY Hs Ha (log2_lt _ Lc Nc))|]. rewrite (pow2_log _ E2). apply rto_of, div_range, rto_range.
      + replace (isz_eqb s U1) with false by (destruct s; [discriminate Hex|reflexivity..]). apply Fit.
        eapply sring_post; [apply (yo_rpub HY _ Hs Ha); rewrite Ec; exact Nc|]. rewrite Ec. apply rto_of, div_range, rto_range.
    - discriminate.
    - rewrite <- Ec in E. some E. apply Fit. apply sbit_post. exact (req_public_wp dbg cap_pos (is_pow2_size s) _ (RAO s) (rof c) Hs Ha).
    - rewrite <- Ec in E. some E. apply Fit. apply sbit_post. exact (rlt_public_wp dbg cap_pos (is_pow2_size s) _ (RAO s) (rof c) Hs Ha).
    - rewrite <- Ec in E. some E. apply Fit. apply sbit_post. exact (rle_public_wp dbg cap_pos (is_pow2_size s) _ (RAO s) (rof c) Hs Ha).
  Qed.
  Lemma ring_ps_ok s st o (a : pid -> share (RT s)) x c z : synced st -> shares a x -> excluded strict o (BI (F := F) c s) true = false ->
    sint o c (rto x) s = Some z -> wpo cap (fun i => ring_ps dbg Y i (st i) o s c (a i)) (spost z).
  Proof.
    intros Hs Ha Hex E. pose proof (proj1 (sint_range _ _ _ _ E)) as Lc. rewrite sint_val in E by (try apply rto_range; exact Lc).
    assert (Fit : forall B (k : pid -> RT s -> prog pid M B) Q, wpo cap (fun i => k i (rof c)) Q -> wpo cap (fun i => fits (RT := RT) (s := s) c (k i)) Q).
    { intros B k Q. unfold fits. rewrite (proj2 (N.ltb_lt _ _) Lc). auto. }
    pose proof (rto_of s Lc) as Ec.
    destruct o; cbn [ring_ps].
    - some E. apply Fit. eapply r_post; [exact Hs|exact (add_public_ok _ Ha)|]. rewrite rto_add, imod_rK, Ec, N.add_comm. reflexivity.
    - some E. apply Fit. eapply r_post; [exact Hs|exact (sub_public_by_shared_ok _ Ha)|]. rewrite rto_sub_spec, Ec. reflexivity.
    - some E. apply Fit. eapply r_post; [exact Hs|exact (mul_public_ok _ Ha)|]. rewrite rto_mul, imod_rK, Ec, N.mul_comm. reflexivity.
    - destruct (N.eqb_spec (rto x) 0) as [|Nc]; [discriminate|]. some E.
      replace (isz_eqb s U1) with false by (destruct s; [discriminate Hex|reflexivity..]). apply Fit.
      eapply sring_post; [exact (yo_rby HY (rof c) Hs Ha Nc)|]. rewrite Ec. apply rto_of, div_range, Lc.
    - discriminate.
    - rewrite N.eqb_sym, <- Ec in E. some E. apply Fit. apply sbit_post. exact (req_public_wp dbg cap_pos (is_pow2_size s) _ (RAO s) (rof c) Hs Ha).
    - rewrite <- Ec in E. some E. apply Fit. apply sbit_post. exact (rgt_public_wp dbg cap_pos (is_pow2_size s) _ (RAO s) (rof c) Hs Ha).
    - rewrite <- Ec in E. some E. apply Fit. apply sbit_post. exact (rge_public_wp dbg cap_pos (is_pow2_size s) _ (RAO s) (rof c) Hs Ha).
  Qed.

  (** *** any values *)
  Lemma bin_ss_ok st o a b x y z : synced st -> svrel a x -> svrel b y -> excluded strict o x true = false -> sbin o x y = Some z ->
    wpo cap (fun i => bin_ss dbg W du Y i (st i) o (a i) (b i)) (spost z).
  Proof.
    intros Hs Ha Hb Hex E. destruct x as [x|n s], y as [y|m s']; cbn [sbin] in E; try discriminate.
    - destruct Ha as (u & Hu & Eu), Hb as (v & Hv & Ev).
      eapply wpo_ext; [intros i; rewrite Eu, Ev; reflexivity|]. eapply field_ss_ok; eassumption.
    - destruct (isz_eqb s s') eqn:Es; [|discriminate]. apply isz_eqb_spec in Es. subst s'.
      destruct Ha as (u & x & Hu & <- & Eu), Hb as (v & y & Hv & <- & Ev).
      eapply wpo_ext; [intros i; rewrite Eu, Ev; cbn [bin_ss]; rewrite as_size_same; reflexivity|]. eapply ring_ss_ok; eassumption.
  Qed.
  Lemma bin_sp_ok st o a x c z : synced st -> svrel a x -> excluded strict o x false = false -> sbin o x c = Some z ->
    wpo cap (fun i => bin_sp dbg W du Y i (st i) o (a i) c) (spost z).
  Proof.
    intros Hs Ha Hex E. destruct x as [x|n s], c as [y|m s']; cbn [sbin] in E; try discriminate.
    - destruct Ha as (u & Hu & Eu).
      eapply wpo_ext; [intros i; rewrite Eu; reflexivity|]. eapply field_sp_ok; eassumption.
    - destruct (isz_eqb s s') eqn:Es; [|discriminate]. pose proof Es as Es'. apply isz_eqb_spec in Es'. subst s'.
      destruct Ha as (u & x & Hu & <- & Eu).
      eapply wpo_ext; [intros i; rewrite Eu; cbn [bin_sp]; rewrite Es; reflexivity|]. eapply ring_sp_ok; eassumption.
  Qed.
  Lemma bin_ps_ok st o a x c z : synced st -> svrel a x -> excluded strict o c true = false -> sbin o c x = Some z ->
    wpo cap (fun i => bin_ps dbg W du Y i (st i) o c (a i)) (spost z).
  Proof.
    intros Hs Ha Hex E. destruct x as [x|n s], c as [y|m s']; cbn [sbin] in E; try discriminate.
    - destruct Ha as (u & Hu & Eu).
      eapply wpo_ext; [intros i; rewrite Eu; reflexivity|]. eapply field_ps_ok; eassumption.
    - destruct (isz_eqb s' s) eqn:Es; [|discriminate]. apply isz_eqb_spec in Es. subst s'.
      destruct Ha as (u & x & Hu & <- & Eu).
      eapply wpo_ext; [intros i; rewrite Eu; cbn [bin_ps]; rewrite (proj2 (isz_eqb_spec s s) eq_refl); reflexivity|]. eapply ring_ps_ok; eassumption.
  Qed.
  (** ** The operations of the driver *)
  Notation drst := (drst (S := S)).
  Implicit Types (ds : pid -> drst).
  Notation dsync ds := (synced (fun i => fst (ds i))).
  (** the parties end with related values, or they all fail, where that is allowed *)
  Definition dpost {A} (R : (pid -> A) -> Prop) (o : pid -> outcome (A * drst)) : Prop :=
    (exists r, (forall i, o i = Done (r i)) /\ R (fun i => fst (r i)) /\ dsync (fun i => snd (r i))) \/ (strict = false /\ all_fail o).

  Lemma lift_post (n : pid -> nat) (q : pid -> prog pid M (shv * rst S)) z : wpo cap q (spost z) ->
    wpo cap (fun i => lift (n i) (q i)) (dpost (fun v => vrel v true z)).
  Proof.
    intros Hq. apply wpo_seq. eapply wpo_mono; [|exact Hq]. intros o [(r & Ho & H1 & H2)|[Hs Ho]].
    - eapply wpo_ext with (qs := fun i => Ret (BShr (fst (r i)), (snd (r i), n i))); [intros i; rewrite Ho; reflexivity|].
      apply wp_wpo, wp_ret. left. eexists. split; [reflexivity|]. split; [|exact H2]. eexists. split; [exact H1|reflexivity].
    - apply wpo_leaf_fail; [exact Ho|]. intros o' Ho'. right. auto.
  Qed.
  Lemma r_bin_shared ds o a b sa' sb' x y z : dsync ds -> vrel a sa' x -> vrel b sb' y -> (sa' || sb')%bool = true ->
    excluded strict o x sb' = false -> sbin o x y = Some z ->
    wpo cap (fun i => r_bin dbg W du Y i (ds i) o (a i) (b i)) (dpost (fun v => vrel v true z)).
  Proof.
    intros Hs Ha Hb Hsh Hex E. destruct sa', sb'; cbn [vrel] in Ha, Hb; try discriminate.
    - destruct Ha as (u & Hu & Eu), Hb as (v & Hv & Ev). eapply wpo_ext; [intros i; rewrite Eu, Ev; reflexivity|].
      apply lift_post. eapply bin_ss_ok; eassumption.
    - destruct Ha as (u & Hu & Eu). eapply wpo_ext; [intros i; rewrite Eu, Hb; reflexivity|].
      apply lift_post. eapply bin_sp_ok; eassumption.
    - destruct Hb as (v & Hv & Ev). eapply wpo_ext; [intros i; rewrite Ha, Ev; reflexivity|].
      apply lift_post. eapply bin_ps_ok; eassumption.
  Qed.
  Lemma vrel_pub (x : bval F) : vrel (fun _ => BPub x) false x.
  Proof. intros i. reflexivity. Qed.
  Lemma leaf_post {A} (R : (pid -> A) -> Prop) (o : outcome A) ds v : dsync ds -> o = Done v -> R (fun _ => v) ->
    wpo (M := M) cap (fun i => leaf (omap (fun v => (v, ds i)) o)) (dpost R).
  Proof. intros Hs -> HR. apply wp_wpo, wp_ret. left. eexists. split; [reflexivity|]. auto. Qed.

  (** what the tagged machine computes *)
  Definition tpost {A B} (R : (pid -> A) -> B -> Prop) (t : outcome B) (o : pid -> outcome (A * drst)) : Prop :=
    match t with Done b => dpost (fun v => R v b) o | Failed _ => all_fail o end.
  Lemma r_bin_ok ds o a b x y : dsync ds -> trel a x -> trel b y -> tbin dbg strict o x y <> Failed undef ->
    wpo cap (fun i => r_bin dbg W du Y i (ds i) o (a i) (b i)) (tpost trel (tbin dbg strict o x y)).
  Proof.
    intros Hs Ha Hb Hd.
    assert (Mx : forall x y sa' sb', tmixed strict o x y sb' <> Failed undef -> vrel a sa' x -> vrel b sb' y -> (sa' || sb')%bool = true ->
      wpo cap (fun i => r_bin dbg W du Y i (ds i) o (a i) (b i)) (tpost trel (tmixed strict o x y sb'))).
    { clear -HK HY cap_pos width Hs. intros x y sa' sb' Hd Ha Hb Hsh. unfold tmixed in *. destruct (excluded strict o x sb') eqn:Ex; [congruence|].
      destruct (sbin o x y) as [z|] eqn:Ez; [|congruence]. eapply r_bin_shared; eassumption. }
    destruct x as [x|x|], y as [y|y|]; cbn [tbin] in *; try congruence.
    - cbn in Ha, Hb. destruct (plain_bin dbg o x y) as [z|e] eqn:Ep; cbn [omap tpost].
      + eapply wpo_ext; [intros i; rewrite Ha, Hb; cbn [r_bin]; rewrite Ep; reflexivity|].
        apply wp_wpo, wp_ret. left. eexists. split; [reflexivity|]. split; [exact (vrel_pub z)|exact Hs].
      + eapply wpo_ext; [intros i; rewrite Ha, Hb; cbn [r_bin]; rewrite Ep; reflexivity|]. apply wpo_fail. intros i. eauto.
    - exact (Mx x y false true Hd Ha Hb eq_refl).
    - exact (Mx x y true false Hd Ha Hb eq_refl).
    - exact (Mx x y true true Hd Ha Hb eq_refl).
  Qed.
  Definition opost {A B} (R : (pid -> A) -> B -> Prop) (t : outcome B) (o : pid -> outcome A) : Prop :=
    match t with
    | Done b => exists r, (forall i, o i = Done (r i)) /\ R r b
    | Failed _ => all_fail o
    end.

  (** *** [not] *)
  Lemma lxor_mask s n : (n < imod s)%N -> N.lxor n (umask (ibits s)) = (imod s - 1 - n)%N.
  Proof. exact (@compl_val cap cap_pos (ibits s) n). Qed.
  Definition rcompl s (x : RT s) : RT s := rof (N.lxor (rto x) (umask (ibits s))).
  Lemma rcompl_val s (x : RT s) : rto (rcompl x) = (imod s - 1 - rto x)%N.
  Proof. unfold rcompl. rewrite lxor_mask by apply rto_range. apply rto_of. pose proof (imod_pos s). lia. Qed.
  Lemma rto_one' s : rto (T := RT s) rone = 1%N.
  Proof. apply rto_one. Qed.
  Lemma two_imod s : (2 <= imod s)%N.
  Proof. destruct s; vm_compute; discriminate. Qed.
  Lemma rcompl_neg s (x : RT s) : rcompl x = - x - rone.
  Proof.
    assert (E : rcompl x + x + rone = 0).
    { apply rto_inj. rewrite !rto_add, rcompl_val, rto_one, rto_zero, <- imod_rK. pose proof (rto_range x). pose proof (two_imod s).
      replace (imod s - 1 - rto x + rto x)%N with (imod s - 1)%N by lia. rewrite (N.mod_small (imod s - 1)) by lia.
      replace (imod s - 1 + 1)%N with (imod s) by lia. apply N.mod_same. lia. }
    assert (E2 : rcompl x = (rcompl x + x + rone) - x - rone) by grp.
    rewrite E2, E. grp.
  Qed.
  Lemma ring_not_shares s (a : pid -> share (RT s)) x : shares a x -> shares (fun i => ring_not s (a i)) (rcompl x - rone - rone).
  Proof.
    intros [R A]. split.
    - intros i. unfold ring_not. cbn [sa Rep3.sb]. rewrite R. reflexivity.
    - unfold additive, ring_not in *. cbn [sa]. fold (rcompl (sa (a P0))) (rcompl (sa (a P1))) (rcompl (sa (a P2))).
      rewrite !rcompl_neg, <- A. grp.
  Qed.
  Lemma rof_two s : rof (T := RT s) 2 = rone + rone.
  Proof. apply rto_inj. rewrite rto_rof, rto_add, rto_one. reflexivity. Qed.
  Lemma not_shared a n s : vrel a true (BI n s) ->
    exists r, (forall i, r_not i (a i) = Done (r i)) /\ vrel r true (BI (imod s - 1 - n) s)%N.
  Proof.
    intros (w & (u & x & Hu & <- & Eu) & Ew).
    assert (Hd : s = U1 \/ s <> U1) by (destruct s; [left; reflexivity|right; discriminate..]).
    destruct Hd as [->|Ns].
    - exists (fun i => BShr (SI U1 (ring_not U1 (u i)))). split; [intros i; rewrite Ew, Eu; reflexivity|].
      eexists. split; [|reflexivity]. do 2 eexists. split; [exact (ring_not_shares Hu)|]. split; [|reflexivity].
      assert (E0 : rone + rone = (0 : RT U1)).
      { rewrite <- rof_two. apply rto_inj. rewrite rto_rof, rto_zero, HK. reflexivity. }
      replace (rcompl x - rone - rone) with (rcompl x); [apply rcompl_val|].
      replace (rcompl x - rone - rone) with (rcompl x - (rone + rone)) by grp. rewrite E0. grp.
    - exists (fun i => BShr (SI s (add_public i (ring_not s (u i)) (rof 2)))). split; [intros i; rewrite Ew, Eu; destruct s; [congruence|reflexivity..]|].
      eexists. split; [|reflexivity]. do 2 eexists. split; [exact (add_public_ok (rof 2) (ring_not_shares Hu))|]. split; [|reflexivity].
      rewrite rof_two. replace (rcompl x - rone - rone + (rone + rone)) with (rcompl x) by grp. apply rcompl_val.
  Qed.
  Lemma r_not_ok a x : trel a x -> tnot x <> Failed undef -> opost trel (tnot x) (fun i => r_not i (a i)).
  Proof.
    intros Ha Hd. destruct x as [x|x|t]; cbn [tnot] in *.
    - cbn in Ha. destruct (plain_not x) as [y|e] eqn:E; cbn [omap opost].
      + exists (fun _ => BPub y). split; [intros i; rewrite Ha; cbn [r_not]; rewrite E; reflexivity|]. intros i. reflexivity.
      + intros i. rewrite Ha. cbn [r_not]. rewrite E. cbn. eauto.
    - destruct x as [x|n s].
      + destruct Ha as (w & (u & _ & Eu) & Ew). intros i. rewrite Ew, Eu. cbn. eauto.
      + pose proof Ha as (w & Hw & _). apply svrel_range in Hw. cbn [snot] in *. fold (imod s) in *.
        rewrite (proj2 (N.ltb_lt _ _) Hw) in *. exact (not_shared Ha).
    - destruct t as [|s]; destruct Ha as (x & Ex & Ha); destruct x as [x|n s']; try discriminate.
      + destruct Ha as (w & (u & _ & Eu) & Ew). intros i. rewrite Ew, Eu. cbn. eauto.
      + injection Ex as ->. destruct (not_shared Ha) as (r & H1 & H2). exists r. split; [exact H1|]. eexists. split; [|exact H2]. reflexivity.
  Qed.

  (** *** [cast] *)
  Lemma cast_shared ds a n s t : dsync ds -> vrel a true (BI n s) ->
    match t with TField => (n < p)%N | _ => True end ->
    wpo cap (fun i => r_cast dbg W du i (ds i) (a i) t) (dpost (fun v => vrel v true
      (match t with TField => BF (of_uint n) | TInt s' => BI (n mod imod s') s' end))).
  Proof.
    intros Hs (w & (u & x & Hu & <- & Eu) & Ew) Hp. destruct t as [|s'].
    - eapply wpo_ext; [intros i; rewrite Ew, Eu; reflexivity|]. apply lift_post, sfld_post.
      exact (ring_to_field_wp dbg du cap_pos width (is_pow2_size s) Hp Hs Hu).
    - eapply wpo_ext; [intros i; rewrite Ew, Eu; reflexivity|]. apply lift_post. eapply sring_post.
      + exact (cast_a2b_wp dbg cap_pos (is_pow2_size s) (is_pow2_size s') Hs Hu).
      + rewrite rto_rof, <- imod_rK. reflexivity.
  Qed.
  Lemma dret_post {A} (R : (pid -> A) -> Prop) v ds : R v -> dsync ds -> wpo (M := M) cap (fun i => Ret (v i, ds i)) (dpost R).
  Proof. intros HR Hs. apply wp_wpo, wp_ret. left. exists (fun i => (v i, ds i)). auto. Qed.
  Lemma r_cast_ok ds a x t : dsync ds -> trel a x -> tcast x t <> Failed undef ->
    wpo cap (fun i => r_cast dbg W du i (ds i) (a i) t) (tpost trel (tcast x t)).
  Proof.
    intros Hs Ha Hd. destruct x as [x|x|]; cbn [tcast] in *; [| |congruence].
    - cbn in Ha. eapply wpo_ext; [intros i; rewrite Ha; reflexivity|]. apply (@dret_post _ _ (fun _ => BPub (plain_cast x t)) ds); [|exact Hs]. intros i. reflexivity.
    - destruct x as [x|n s].
      + destruct Ha as (w & (u & Hu & Eu) & Ew). destruct t as [|s]; cbn [scast tpost].
        * eapply wpo_ext; [intros i; rewrite Ew, Eu; reflexivity|]. apply (@dret_post _ _ (fun i => BShr (SF (u i))) ds); [|exact Hs].
          eexists. split; [|reflexivity]. exists u. auto.
        * eapply wpo_ext; [intros i; rewrite Ew, Eu; reflexivity|]. apply lift_post. eapply sring_post.
          { exact (field_to_ring_wp dbg du cap_pos width (is_pow2_size s) Hs Hu). }
          { rewrite rto_rof, <- imod_rK. reflexivity. }
      + pose proof Ha as (w & Hw & _). apply svrel_range in Hw. cbn [scast] in *. fold (imod s) in *. rewrite (proj2 (N.ltb_lt _ _) Hw) in *.
        destruct t as [|s'].
        * destruct (N.ltb_spec n p) as [L|]; [|congruence]. cbn [tpost trel]. rewrite N.mod_small by exact L. exact (cast_shared ds TField Hs Ha L).
        * exact (cast_shared ds (TInt s') Hs Ha I).
  Qed.

  (** *** [cmux] *)
  Lemma dpost_bind {A B} (R : (pid -> A) -> Prop) (R' : (pid -> B) -> Prop) (q : pid -> prog pid M (A * drst)) ks :
    wpo cap q (dpost R) -> (forall v ds, R v -> dsync ds -> wpo cap (fun i => ks i (v i, ds i)) (dpost R')) ->
    wpo cap (fun i => bind (q i) (ks i)) (dpost R').
  Proof.
    intros Hq Hk. apply wpo_seq. eapply wpo_mono; [|exact Hq]. intros o [(r & Ho & H1 & H2)|[E Ho]].
    - eapply wpo_ext with (qs := fun i => ks i (fst (r i), snd (r i))); [intros i; rewrite Ho; destruct (r i); reflexivity|]. apply Hk; assumption.
    - apply wpo_leaf_fail; [exact Ho|]. intros o' Ho'. right. auto.
  Qed.
  (** the condition with the type [t] *)
  Definition cval (n : N) (t : bty) : bval F := match t with TField => BF (of_uint n) | TInt s => BI n s end.
  Lemma vrel_ty a sh x : vrel a sh x -> forall i, bv_ty (a i) = bty_of x.
  Proof.
    destruct sh; cbn [vrel].
    - intros (w & Hw & Ew) i. rewrite Ew. destruct x; destruct Hw as (u & Hu); [destruct Hu as [_ Eu]|destruct Hu as (? & _ & _ & Eu)]; rewrite Eu; reflexivity.
    - intros Ha i. rewrite Ha. reflexivity.
  Qed.
  Lemma cast_cond_ok ds a n t : dsync ds -> svrel a (BI n U1) -> exists c, (forall i, a i = SI U1 (c i)) /\
    wpo cap (fun i => cast_cond dbg W du i (ds i) (c i) t) (dpost (fun v => vrel v true (cval n t))).
  Proof.
    intros Hs Ha. pose proof (svrel_range Ha) as L. change (imod U1) with 2%N in L. destruct Ha as (u & x & Hu & <- & Eu).
    exists u. split; [exact Eu|].
    assert (V : vrel (fun i => BShr (SI U1 (u i))) true (BI (rto x) U1)).
    { eexists. split; [|reflexivity]. exists u, x. auto. }
    destruct t as [|s].
    - apply (cast_shared ds TField Hs V). pose proof (fu_p_pos (F := F)). lia.
    - assert (Hd : s = U1 \/ s <> U1) by (destruct s; [left; reflexivity|right; discriminate..]). destruct Hd as [->|Ns].
      + exact (@dret_post _ _ (fun i => BShr (SI U1 (u i))) ds V Hs).
      + pose proof (two_imod s). pose proof (cast_shared ds (TInt s) Hs V I) as C. cbn iota in C. rewrite N.mod_small in C by lia.
        eapply wpo_ext; [|exact C]. intros i. destruct s; [congruence|reflexivity..].
  Qed.
  Lemma of_uint_bit (n : N) : (n < 2)%N -> of_uint (F := F) n = if (n =? 1)%N then rone else 0.
  Proof.
    intros L. pose proof (fu_p_pos (F := F)). apply to_uint_inj. rewrite to_of_uint by lia.
    destruct (N.eqb_spec n 1) as [->|]; [rewrite to_uint_one; reflexivity|rewrite to_uint_zero; lia].
  Qed.
  Lemma cmux_val x y n : in_range x = true -> in_range y = true -> bty_of x = bty_of y -> (n < 2)%N ->
    exists d m, sbin BSub x y = Some d /\ sbin BMul (cval n (bty_of x)) d = Some m /\ sbin BAdd m y = Some (if (n =? 1)%N then x else y) /\
      bty_of d = bty_of x.
  Proof.
    intros Rx Ry Et Ln. destruct x as [x|l s], y as [y|r s']; try discriminate.
    - do 2 eexists. split; [reflexivity|]. split; [reflexivity|]. split; [|reflexivity]. cbn [sbin sfield]. f_equal. rewrite (of_uint_bit Ln).
      destruct (n =? 1)%N; f_equal; [ring|ring].
    - injection Et as <-. cbn [in_range] in Rx, Ry. apply N.ltb_lt in Rx. apply N.ltb_lt in Ry. cbn [sbin bty_of cval].
      assert (Es : isz_eqb s s = true) by (apply isz_eqb_spec; reflexivity). rewrite Es, (@sint_val BSub l r s Rx Ry).
      set (d := (if (r <=? l)%N then l - r else l + imod s - r)%N).
      assert (Ld : (d < imod s)%N) by (unfold d; destruct (N.leb_spec r l); lia).
      pose proof (two_imod s).
      do 2 eexists. split; [reflexivity|]. cbn [sbin]. rewrite Es, (@sint_val BMul n d s) by (try assumption; lia). split; [reflexivity|]. split; [|reflexivity].
      cbn [sbin]. rewrite Es. rewrite sint_val by (try assumption; apply N.mod_lt; lia). f_equal.
      destruct (N.eqb_spec n 1) as [->|].
      + f_equal. rewrite N.mul_1_l, (N.mod_small d) by exact Ld. unfold d. destruct (N.leb_spec r l).
        * rewrite N.mod_small; lia.
        * replace (l + imod s - r + r)%N with (l + 1 * imod s)%N by lia. rewrite N.mod_add by lia. apply N.mod_small. exact Rx.
      + replace n with 0%N by lia. f_equal. rewrite N.mul_0_l, N.mod_0_l, N.add_0_l by lia. apply N.mod_small. exact Ry.
  Qed.
  Lemma trel_vrel a t : trel a t -> exists sh x, vrel a sh x /\ bty_of x = tty t /\
    ((sh = false /\ t = TPub x) \/ (sh = true /\ (t = TShr x \/ t = TUnk (bty_of x)))).
  Proof.
    destruct t as [x|x|ty]; cbn [trel tty]; [exists false, x; auto|exists true, x; auto 6|]. intros (x & <- & Ha). exists true, x. auto 6.
  Qed.
  Lemma vrel_in_range a t sh x : vrel a sh x -> tok t = true -> (sh = false /\ t = TPub x) \/ (sh = true /\ (t = TShr x \/ t = TUnk (bty_of x))) -> in_range x = true.
  Proof.
    intros Ha Ht [[-> ->]|[-> [->| ->]]]; [exact Ht|exact Ht|]. destruct x as [x|n s]; [reflexivity|]. destruct Ha as (w & Hw & _).
    apply svrel_range in Hw. apply N.ltb_lt. exact Hw.
  Qed.
  Lemma tsel_rel a t sh x : (sh = false /\ t = TPub x) \/ (sh = true /\ (t = TShr x \/ t = TUnk (bty_of x))) ->
    vrel a true x -> exists r, tsel t = Done r /\ trel a r.
  Proof. intros [[-> ->]|[-> [->| ->]]] Ha; eexists; (split; [reflexivity|]); [exact Ha|exact Ha|]. exists x. auto. Qed.
  Lemma ty_eqb_spec a b : ty_eqb a b = true <-> a = b.
  Proof.
    destruct a as [|s], b as [|s']; cbn; split; try reflexivity; try discriminate.
    - intros E. apply isz_eqb_spec in E. congruence.
    - intros E. apply isz_eqb_spec. congruence.
  Qed.
  Lemma isz_eqb_false a b : isz_eqb a b = false <-> a <> b.
  Proof. unfold isz_eqb. destruct (isz_dec a b); split; congruence. Qed.
  (** values of different types are not combined *)
  Lemma r_bin_mismatch ds o a b sh sh' x y : vrel a sh x -> vrel b sh' y -> bty_of x <> bty_of y ->
    exists e, forall i, r_bin dbg W du Y i (ds i) o (a i) (b i) = Fail e.
  Proof.
    intros Ha Hb Hn.
    assert (E : forall w, svrel w x -> forall v, svrel v y -> forall i, bin_ss dbg W du Y i (fst (ds i)) o (w i) (v i) = Fail (mixed_err o)).
    { intros w Hw v Hv i. destruct x as [x|n s], y as [y|m s']; destruct Hw as (u & Hu), Hv as (u' & Hu').
      - destruct Hn; reflexivity.
      - destruct Hu as [_ Eu], Hu' as (? & _ & _ & Eu'). rewrite Eu, Eu'. reflexivity.
      - destruct Hu as (? & _ & _ & Eu), Hu' as [_ Eu']. rewrite Eu, Eu'. reflexivity.
      - destruct Hu as (? & _ & _ & Eu), Hu' as (? & _ & _ & Eu'). rewrite Eu, Eu'. cbn [bin_ss]. unfold as_size.
        destruct (isz_dec s' s); [|reflexivity]. cbn [bty_of] in Hn. congruence. }
    destruct sh, sh'; cbn [vrel] in Ha, Hb.
    - destruct Ha as (w & Hw & Ew), Hb as (v & Hv & Ev). exists (mixed_err o). intros i. rewrite Ew, Ev. cbn [r_bin]. rewrite (E w Hw v Hv). reflexivity.
    - destruct Ha as (w & Hw & Ew). exists (mixed_err o). intros i. rewrite Ew, Hb. cbn [r_bin].
      destruct x as [x|n s], y as [y|m s']; destruct Hw as (u & Hu).
      + destruct Hn; reflexivity.
      + destruct Hu as [_ Eu]. rewrite Eu. reflexivity.
      + destruct Hu as (? & _ & _ & Eu). rewrite Eu. reflexivity.
      + destruct Hu as (? & _ & _ & Eu). rewrite Eu. cbn [bin_sp]. rewrite (proj2 (isz_eqb_false s s')) by (cbn [bty_of] in Hn; congruence). reflexivity.
    - destruct Hb as (w & Hw & Ew). exists (mixed_err o). intros i. rewrite Ew, Ha. cbn [r_bin].
      destruct x as [x|n s], y as [y|m s']; destruct Hw as (u & Hu).
      + destruct Hn; reflexivity.
      + destruct Hu as (? & _ & _ & Eu). rewrite Eu. reflexivity.
      + destruct Hu as [_ Eu]. rewrite Eu. reflexivity.
      + destruct Hu as (? & _ & _ & Eu). rewrite Eu. cbn [bin_ps]. rewrite (proj2 (isz_eqb_false s' s)) by (cbn [bty_of] in Hn; congruence). reflexivity.
    - destruct x as [x|n s], y as [y|m s']; cbn [bty_of] in Hn.
      + destruct Hn; reflexivity.
      + eexists. intros i. rewrite Ha, Hb. reflexivity.
      + eexists. intros i. rewrite Ha, Hb. reflexivity.
      + eexists. intros i. rewrite Ha, Hb. cbn [r_bin plain_bin]. rewrite (proj2 (isz_eqb_false s s')) by congruence. reflexivity.
  Qed.
  Lemma all_fail_seq {A B} (q : pid -> prog pid M A) (ks : pid -> A -> prog pid M B) (Q : (pid -> A) -> Prop) :
    wpo cap q (fun o => (exists r, (forall i, o i = Done (r i)) /\ Q r) \/ all_fail o) ->
    (forall r, Q r -> exists e, forall i, ks i (r i) = Fail e) ->
    wpo cap (fun i => bind (q i) (ks i)) all_fail.
  Proof.
    intros Hq Hk. apply wpo_seq. eapply wpo_mono; [|exact Hq]. intros o [(r & Ho & H1)|Ho].
    - destruct (Hk r H1) as (e & He). eapply wpo_ext with (qs := fun i => Fail e); [intros i; rewrite Ho; exact (He i)|].
      apply wpo_fail. intros i. eauto.
    - apply wpo_leaf_fail; [exact Ho|]. auto.
  Qed.
  Lemma r_cmux_ok ds c a b t x y : dsync ds -> trel c t -> trel a x -> trel b y -> tcmux dbg t x y <> Failed undef ->
    wpo cap (fun i => r_cmux dbg W du Y i (ds i) (c i) (a i) (b i)) (tpost trel (tcmux dbg t x y)).
  Proof.
    intros Hs Hc Ha Hb Hd.
    assert (Bad : forall e, (forall i, r_cmux dbg W du Y i (ds i) (c i) (a i) (b i) = Fail e) ->
              wpo cap (fun i => r_cmux dbg W du Y i (ds i) (c i) (a i) (b i)) all_fail).
    { intros e He. eapply wpo_ext with (qs := fun i => Fail e); [intros i; apply He|]. apply wpo_fail. intros i. eauto. }
    destruct t as [c0|c0|ty]; cbn [tcmux] in *; [| |congruence].
    - cbn in Hc. destruct c0 as [f|n s]; [eapply Bad; intros i; rewrite Hc; reflexivity|].
      destruct s; try (eapply Bad; intros i; rewrite Hc; reflexivity). cbn [tpost].
      eapply wpo_ext; [intros i; rewrite Hc; reflexivity|].
      apply (@dret_post _ _ (fun i => if (n =? 1)%N then a i else b i) ds); [|exact Hs]. destruct (n =? 1)%N; assumption.
    - destruct Hc as (w & Hw & Ew). destruct c0 as [f|n s].
      { destruct Hw as (u & _ & Eu). eapply Bad; intros i; rewrite Ew, Eu; reflexivity. }
      assert (Hz : s = U1 \/ s <> U1) by (destruct s; [left; reflexivity|right; discriminate..]).
      destruct Hz as [->|Hz].
      2:{ destruct Hw as (u & z & _ & _ & Eu).
          assert (C : forall i, r_cmux dbg W du Y i (ds i) (c i) (a i) (b i) = Fail (Eyre "cmux where cond is a non bool value")).
          { intros i. rewrite Ew, Eu. destruct s; [congruence|reflexivity..]. }
          replace (match s with U1 => _ | _ => _ end) with (Failed (A := tb F) terr) by (destruct s; [congruence|reflexivity..]).
          exact (Bad _ C). }
      pose proof (svrel_range Hw) as Ln. change (imod U1) with 2%N in Ln.
      destruct (@trel_vrel a x Ha) as (sh & vx & Vx & Tx & Kx). destruct (@trel_vrel b y Hb) as (sh' & vy & Vy & Ty & Ky).
      destruct (@cast_cond_ok ds w n (bty_of vx) Hs Hw) as (u & Eu & Hcc).
      assert (EP : forall i, r_cmux dbg W du Y i (ds i) (c i) (a i) (b i) =
        (cc <- cast_cond dbg W du i (ds i) (u i) (bty_of vx) ;;
         d <- r_bin dbg W du Y i (snd cc) BSub (a i) (b i) ;;
         m <- r_bin dbg W du Y i (snd d) BMul (fst cc) (fst d) ;;
         r_bin dbg W du Y i (snd m) BAdd (fst m) (b i))).
      { intros i. rewrite Ew, Eu. cbn [r_cmux]. rewrite (@vrel_ty a sh vx Vx). reflexivity. }
      eapply wpo_ext; [intros i; rewrite EP; reflexivity|]. clear EP Bad.
      destruct (ty_eqb (tty x) (tty y)) eqn:Et.
      2:{ cbn [tpost]. eapply all_fail_seq with (Q := fun _ => True).
          - eapply wpo_mono; [|exact Hcc]. intros o [(r & Ho & _)|[_ Ho]]; [left; exists r; auto|right; exact Ho].
          - intros r _. destruct (@r_bin_mismatch (fun i => snd (r i)) BSub a b sh sh' vx vy Vx Vy) as (e & He).
            { rewrite Tx, Ty. intros C. apply ty_eqb_spec in C. congruence. }
            exists e. intros i. rewrite He. reflexivity. }
      apply ty_eqb_spec in Et. destruct (tok x && tok y)%bool eqn:Ek; [|congruence]. apply andb_true_iff in Ek. destruct Ek as [K1 K2].
      pose proof (@vrel_in_range a x sh vx Vx K1 Kx) as R1. pose proof (@vrel_in_range b y sh' vy Vy K2 Ky) as R2.
      destruct (@cmux_val vx vy n R1 R2 (eq_trans Tx (eq_trans Et (eq_sym Ty))) Ln) as (d & m & E1 & E2 & E3 & E4).
      assert (HD : (sh || sh' = false /\ (obind (match x, y with TPub x, TPub y => omap (fun _ => tt) (plain_bin dbg BSub x y) | _, _ => Done tt end) (fun _ : unit => Done tt) = Done tt -> plain_bin dbg BSub vx vy = Done d))%bool \/ (sh || sh' = true)%bool).
      { destruct Kx as [[-> ->]|[-> _]]; [|right; reflexivity]. destruct Ky as [[-> ->]|[-> _]]; [|right; reflexivity]. left. split; [reflexivity|].
        destruct (plain_bin dbg BSub vx vy) as [d'|] eqn:Ed; cbn; [|discriminate]. intros _. f_equal. exact (plain_bin_spec _ _ _ _ Ed E1). }
      destruct (match x, y with TPub x, TPub y => omap (fun _ => tt) (plain_bin dbg BSub x y) | _, _ => Done tt end) as [[]|e] eqn:Eg.
      + (* the difference is defined *)
        cbn [obind] in *.
        assert (Sel : exists r, (if (n =? 1)%N then tsel x else if (n =? 0)%N then tsel y else Failed undef) = Done r /\
                      forall v, vrel v true (if (n =? 1)%N then vx else vy) -> trel v r).
        { destruct (N.eqb_spec n 1) as [->|N1].
          - destruct Kx as [[-> ->]|[-> [->| ->]]]; eexists; (split; [reflexivity|]); intros v Hv; [exact Hv|exact Hv|]. exists vx. auto.
          - replace n with 0%N in * by lia. cbn [N.eqb].
            destruct Ky as [[-> ->]|[-> [->| ->]]]; eexists; (split; [reflexivity|]); intros v Hv; [exact Hv|exact Hv|]. exists vy. auto. }
        destruct Sel as (r & Er & Hr). rewrite Er. cbn [tpost].
        eapply dpost_bind; [exact Hcc|]. cbv beta. intros vc ds1 V1 S1.
        eapply dpost_bind with (R := fun v => exists shd, vrel v shd d).
        { destruct HD as [[E0 Hp]|E0].
          - apply orb_false_iff in E0. destruct E0 as [-> ->]. cbn in Vx, Vy. cbn [snd].
            eapply wpo_ext; [intros i; rewrite Vx, Vy; cbn [r_bin]; rewrite (Hp eq_refl); reflexivity|].
            apply (@dret_post _ _ (fun _ => BPub d) ds1); [|exact S1]. exists false. intros i. reflexivity.
          - eapply wpo_mono; [|apply (@r_bin_shared ds1 BSub a b sh sh' vx vy d S1 Vx Vy E0 eq_refl E1)].
            intros o [(q & Ho & H1 & H2)|Ho]; [left; exists q; eauto|right; exact Ho]. }
        intros vd ds2 [shd Vd] S2.
        eapply dpost_bind; [apply (@r_bin_shared ds2 BMul vc vd true shd _ d m S2 V1 Vd eq_refl); [destruct (cval n (bty_of vx)); reflexivity|exact E2]|].
        intros vm ds3 Vm S3.
        eapply wpo_mono; [|apply (@r_bin_shared ds3 BAdd vm b true sh' m vy (if (n =? 1)%N then vx else vy) S3 Vm Vy eq_refl); [destruct m; reflexivity|exact E3]].
        intros o [(q & Ho & H1 & H2)|Ho]; [left; exists q; eauto|right; exact Ho].
      + (* a debug build panics in the difference *)
        cbn [obind tpost]. eapply all_fail_seq with (Q := fun _ => True).
        * eapply wpo_mono; [|exact Hcc]. intros o [(r & Ho & _)|[_ Ho]]; [left; exists r; auto|right; exact Ho].
        * intros r _.
          destruct Kx as [[-> ->]|[-> Kx]]; [|destruct Kx as [->| ->]; discriminate].
          destruct Ky as [[-> ->]|[-> Ky]]; [|destruct Ky as [->| ->]; discriminate].
          destruct (plain_bin dbg BSub vx vy) as [d'|e'] eqn:Ed; [discriminate|]. exists e'. intros i. cbn in Vx, Vy. rewrite Vx, Vy. cbn [r_bin]. rewrite Ed. reflexivity.
  Qed.

  (** *** the rest *)
  Lemma r_random_ok ds a x : dsync ds -> trel a x -> trandom x <> Failed undef ->
    wpo (M := M) cap (fun i => r_random trng i (ds i) (a i)) (tpost trel (trandom x)).
  Proof.
    intros Hs Ha Hd.
    assert (E : forall v, vrel a true v -> wpo (M := M) cap (fun i => r_random trng i (ds i) (a i)) (dpost (fun w => trel w (TUnk (bty_of v))))).
    { intros v (w & Hw & Ew). destruct v as [v|n s]; cbn [svrel] in Hw.
      - destruct Hw as (u & _ & Eu). destruct (rand_ok (G := F) Hs) as [R1 R2].
        eapply wpo_ext; [intros i; rewrite Ew, Eu; reflexivity|]. cbn [r_random].
        apply (@dret_post _ _ (fun i => BShr (SF (fst (rand (G := F) (fst (ds i)))))) (fun i => (snd (rand (G := F) (fst (ds i))), snd (ds i)))).
        + match type of R1 with shares _ ?v0 => exists (BF v0) end. split; [reflexivity|]. eexists. split; [|reflexivity]. eexists. split; [exact R1|reflexivity].
        + exact R2.
      - destruct Hw as (u & z & _ & _ & Eu). destruct (rand_ok (G := RT s) Hs) as [R1 R2].
        eapply wpo_ext; [intros i; rewrite Ew, Eu; reflexivity|]. cbn [r_random].
        apply (@dret_post _ _ (fun i => BShr (SI s (fst (rand (G := RT s) (fst (ds i)))))) (fun i => (snd (rand (G := RT s) (fst (ds i))), snd (ds i)))).
        + match type of R1 with shares _ ?v0 => exists (BI (rto v0) s) end. split; [reflexivity|]. eexists. split; [|reflexivity]. do 2 eexists. split; [exact R1|]. split; reflexivity.
        + exact R2. }
    destruct x as [x|x|t]; cbn [trandom] in *; [congruence|exact (E x Ha)|]. destruct Ha as (v & <- & Hv). exact (E v Hv).
  Qed.
  Lemma r_int_ok a x s : trel a x -> opost trel (tint_of x s) (fun i => r_int_of (a i) s).
  Proof.
    intros Ha. unfold tint_of. pose proof Ha as (sh & v & Vv & Tv & Kv)%trel_vrel. rewrite <- Tv. destruct sh; cbn [vrel] in Vv.
    - destruct Vv as (w & Hw & Ew). destruct v as [v|n z]; cbn [bty_of ty_eqb svrel] in *.
      + destruct Hw as (u & _ & Eu). intros i. rewrite Ew, Eu. cbn. eauto.
      + destruct Hw as (u & y & _ & _ & Eu). destruct (isz_eqb z s) eqn:E; cbn [opost].
        * exists a. split; [|exact Ha]. intros i. rewrite Ew, Eu. cbn [r_int_of]. rewrite E. reflexivity.
        * intros i. rewrite Ew, Eu. cbn [r_int_of]. rewrite E. eauto.
    - destruct v as [v|n z]; cbn [bty_of ty_eqb].
      + intros i. rewrite Vv. cbn. eauto.
      + destruct (isz_eqb z s) eqn:E; cbn [opost].
        * exists a. split; [|exact Ha]. intros i. rewrite Vv. cbn [r_int_of plain_int_of]. rewrite E. reflexivity.
        * intros i. rewrite Vv. cbn [r_int_of plain_int_of]. rewrite E. cbn. eauto.
  Qed.
  Lemma r_field_ok a x : trel a x -> opost trel (tfield_of x) (fun i => r_field_of (a i)).
  Proof.
    intros Ha. unfold tfield_of. pose proof Ha as (sh & v & Vv & Tv & Kv)%trel_vrel. rewrite <- Tv. destruct sh; cbn [vrel] in Vv.
    - destruct Vv as (w & Hw & Ew). destruct v as [v|n z]; cbn [bty_of ty_eqb svrel] in *.
      + destruct Hw as (u & _ & Eu). exists a. split; [|exact Ha]. intros i. rewrite Ew, Eu. reflexivity.
      + destruct Hw as (u & y & _ & _ & Eu). intros i. rewrite Ew, Eu. cbn. eauto.
    - destruct v as [v|n z]; cbn [bty_of ty_eqb].
      + exists a. split; [|exact Ha]. intros i. rewrite Vv. reflexivity.
      + intros i. rewrite Vv. cbn. eauto.
  Qed.
  Lemma r_usize_ok a x i : trel a x -> match tusize x with Done n => r_usize (a i) = Done n | Failed _ => exists e, r_usize (a i) = Failed e end.
  Proof.
    intros Ha. pose proof Ha as (sh & v & Vv & Tv & Kv)%trel_vrel. destruct Kv as [[-> ->]|[-> Kv]].
    - cbn in Vv. rewrite Vv. cbn [r_usize tusize]. destruct (plain_usize v); eauto.
    - destruct Vv as (w & _ & Ew). rewrite Ew. destruct Kv as [->| ->]; cbn; eauto.
  Qed.
  Lemma r_char_ok a x i : trel a x -> match tchar x with Done n => r_char (a i) = Done n | Failed _ => exists e, r_char (a i) = Failed e end.
  Proof.
    intros Ha. pose proof Ha as (sh & v & Vv & Tv & Kv)%trel_vrel. destruct Kv as [[-> ->]|[-> Kv]].
    - cbn in Vv. rewrite Vv. cbn [r_char tchar]. destruct (plain_char v); eauto.
    - destruct Vv as (w & _ & Ew). rewrite Ew. destruct Kv as [->| ->]; cbn; eauto.
  Qed.
  Lemma r_bool_ok a x i : trel a x -> r_bool (a i) = tbool x.
  Proof.
    intros Ha. pose proof Ha as (sh & v & Vv & Tv & Kv)%trel_vrel. destruct Kv as [[-> ->]|[-> Kv]].
    - cbn in Vv. rewrite Vv. reflexivity.
    - destruct Vv as (w & _ & Ew). rewrite Ew. destruct Kv as [->| ->]; reflexivity.
  Qed.
  Lemma r_radix_ok ds a r x y n b : dsync ds -> trel a x -> trel r y -> tradix x y n b <> Failed undef ->
    wpo cap (fun i => r_radix dbg Y i (ds i) (a i) (r i) n b)
      (tpost (fun (v : pid -> list bv) l => exists l', l = map TPub l' /\ forall i, v i = map BPub l') (tradix x y n b)).
  Proof.
    intros Hs Ha Hr Hd. destruct x as [x| |]; cbn [tradix] in *; try congruence. destruct y as [y| |]; try congruence.
    cbn in Ha, Hr. destruct (plain_radix x y n b) as [l|e] eqn:El; cbn [omap tpost].
    - eapply wpo_ext; [intros i; rewrite Ha, Hr; cbn [r_radix]; rewrite El; reflexivity|].
      apply (@dret_post _ _ (fun _ => map BPub l) ds); [|exact Hs]. exists l. auto.
    - eapply wpo_ext; [intros i; rewrite Ha, Hr; cbn [r_radix]; rewrite El; reflexivity|]. apply wpo_fail. intros i. eauto.
  Qed.
  Lemma r_fork_ok ds : dsync ds -> dsync (fun i => fst (fst (r_fork (Seed := Seed) (ds i)))) /\ dsync (fun i => snd (fst (r_fork (Seed := Seed) (ds i)))) /\
    dsync (fun i => snd (r_fork (Seed := Seed) (ds i))).
  Proof.
    intros Hs. destruct (fork_ok (Seed := Seed) Hs) as [A B]. destruct (fork_ok (Seed := Seed) B) as [C D]. unfold r_fork. cbn [fst snd]. auto.
  Qed.
End Ops.
