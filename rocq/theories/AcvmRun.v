(** * The co-noir ACVM: what three parties compute on the values behind their shares

    [ideal_aop] and its companions say what co-noir/co-acvm/src/mpc/rep3.rs returns on values with a
    tag (public or shared) and the secret in place of the shares; three parties running the driver
    compute exactly this under every schedule, and three parties running the solver end with the
    values of the run on the secrets. *)
From Coq Require Import String List Arith NArith Lia Bool Ring.
From Verif Require Import Proc Alg Rep3Net Rep3 Rep3Spec Rep3Proofs Rep3Wp Uint Binary BinaryWp Conv ConvWp Ring2k Lut LutWp LutProv
  Garble Circuits Yao VmDriver VmIdeal VmDriverWp VmRun Acvm.
Import ListNotations.
Set Implicit Arguments.
Local Open Scope grp_scope.
Local Open Scope string_scope.
Local Open Scope list_scope.

(** ** The ideal driver *)
(** lut_field.rs [PublicPrivateLut] with the secrets in place of the shares *)
Inductive tl (F : Type) : Type := TPub (l : list F) | TSh (l : list F).
Arguments TPub {F}. Arguments TSh {F}.
Definition tlist {F} (t : tl F) : list F := match t with TPub l | TSh l => l end.
Definition tpub {F} (v : tv F) : option F := match v with Pub x => Some x | Sh _ => None end.
(** a table that cannot be read or written at a shared index *)
Definition table_err : err := Panic "table".
Section IdealAc.
  Context {F : Type} `{FU : FieldUint F}.
  Notation p := (fu_p (F := F)).
  (** shared if an operand is *)
  Definition tag2 (a b : tv F) (v : F) : tv F := if tshared a || tshared b then Sh v else Pub v.
  Definition ideal_solve_eq (q c : tv F) : outcome (tv F) :=
    if feqb (tval q) 0 then Failed inv_err else Done (tag2 q c (rmul (- tval c) (finv (tval q)))).
  Definition ideal_bits (is_and : bool) (a b : tv F) (bits : nat) : outcome (tv F) :=
    let u := bits_and is_and (to_uint (tval a)) (to_uint (tval b)) bits in
    match a, b with
    | Pub _, Pub _ => Done (Pub (reduced u))
    | _, _ => if (u <? p)%N then Done (Sh (of_uint u)) else Failed undef
    end.
  Definition ideal_acmux (c a b : tv F) : outcome (tv F) :=
    match c with
    | Pub c => if is01 c then Done (if feqb c rone then a else b) else Failed inv_err
    | Sh c => Done (Sh (tval b + rmul c (tval a - tval b)))
    end.
  Definition ideal_aop (o : aop F (tv F)) : outcome (tv F) :=
    match o with
    | SolveMul c a b => Done (tag2 a b (rmul (rmul (tval a) (tval b)) c))
    | MulPub c a => Done (tag2 a a (rmul (tval a) c))
    | AddTo a b => Done (tag2 a b (tval a + tval b))
    | SolveLin q w acc => Done (tag2 w acc (rmul q (tval w) + tval acc))
    | AddPub c a => Done (tag2 a a (c + tval a))
    | SolveEq q c => ideal_solve_eq q c
    | CmuxA c a b => ideal_acmux c a b
    | BitA is_and a b bits => ideal_bits is_and a b bits
    end.
  (** a masked inversion fails when the mask is zero *)
  Definition may_aop (o : aop F (tv F)) : bool := match o with SolveEq q _ => tshared q | _ => false end.
  Definition ideal_init (l : list (tv F)) : tl F := if existsb tshared l then TSh (map tval l) else TPub (map tval l).
  (** the lower bits of a shared index select the entry, as in LutProv.v *)
  Definition ideal_read (a : tv F) (t : tl F) : outcome (tv F) :=
    let n := length (tlist t) in
    match a, t with
    | Pub x, TPub l => omap Pub (plain_get x l)
    | Pub x, TSh l => omap Sh (plain_get x l)
    | Sh x, TPub l => if (n <=? 2)%nat || (32 <? lut_bits n)%nat then Failed table_err
                      else Done (Sh (nth (N.to_nat (to_uint x mod 2 ^ N.of_nat (make_even (lut_bits n)))) l 0))
    | Sh x, TSh l => if (n <=? 1)%nat || (32 <? lut_bits n)%nat then Failed table_err
                     else Done (Sh (nth (N.to_nat (to_uint x mod 2 ^ N.of_nat (lut_bits n))) l 0))
    end.
  Definition ideal_write (a v : tv F) (t : tl F) : outcome (tl F) :=
    let n := length (tlist t) in
    match a with
    | Pub x => omap (match v, t with Pub _, TPub _ => TPub | _, _ => TSh end) (plain_write x (tval v) (tlist t))
    | Sh x => if (n <=? 1)%nat || (32 <? lut_bits n)%nat then Failed table_err
              else Done (TSh (lupd (N.to_nat (to_uint x mod 2 ^ N.of_nat (lut_bits n))) (tval v) (tlist t)))
    end.
  Variables (tbrillig : nat -> list (tv F) -> outcome (list (tv F))) (bmay : nat -> list (tv F) -> bool).
  Fixpoint run_ideal_ac {A} (q : acp F (tv F) (tl F) A) : outcome A :=
    match q with
    | ARet a => Done a
    | AFail e => Failed e
    | AOp o k => obind (ideal_aop o) (fun v => run_ideal_ac (k v))
    | AInit l k => run_ideal_ac (k (ideal_init l))
    | ARead x t k => obind (ideal_read x t) (fun v => run_ideal_ac (k v))
    | AWrite x y t k => obind (ideal_write x y t) (fun v => run_ideal_ac (k v))
    | AOpen l k => run_ideal_ac (k (map tval l))
    | AZeros n k => run_ideal_ac (k (repeat (Sh 0) n))
    | ABrillig n l k => obind (tbrillig n l) (fun v => run_ideal_ac (k v))
    end.
  (** the run solves for a witness with a shared coefficient, or a call may abort *)
  Fixpoint run_may_ac {A} (q : acp F (tv F) (tl F) A) : bool :=
    match q with
    | ARet _ | AFail _ => false
    | AOp o k => may_aop o || after (ideal_aop o) (fun v => run_may_ac (k v))
    | AInit l k => run_may_ac (k (ideal_init l))
    | ARead x t k => after (ideal_read x t) (fun v => run_may_ac (k v))
    | AWrite x y t k => after (ideal_write x y t) (fun v => run_may_ac (k v))
    | AOpen l k => run_may_ac (k (map tval l))
    | AZeros n k => run_may_ac (k (repeat (Sh 0) n))
    | ABrillig n l k => bmay n l || after (tbrillig n l) (fun v => run_may_ac (k v))
    end.
End IdealAc.

(** ** Related values *)
Section Lrel.
  Context {F : Type} `{AG : AbGrp F}.
  Definition lrel (t : pid -> pplut F) (u : tl F) : Prop :=
    match u with
    | TPub l => forall i, t i = Public l
    | TSh l => exists s, (forall i, t i = Shared (s i)) /\ shares_vec s l
    end.
  Inductive orel : (pid -> aop F (rv F)) -> aop F (tv F) -> Prop :=
  | R_mul o c x y a b : (forall i, o i = SolveMul c (x i) (y i)) -> rel x a -> rel y b -> orel o (SolveMul c a b)
  | R_mulpub o c x a : (forall i, o i = MulPub c (x i)) -> rel x a -> orel o (MulPub c a)
  | R_add o x y a b : (forall i, o i = AddTo (x i) (y i)) -> rel x a -> rel y b -> orel o (AddTo a b)
  | R_lin o q x y a b : (forall i, o i = SolveLin q (x i) (y i)) -> rel x a -> rel y b -> orel o (SolveLin q a b)
  | R_addpub o c x a : (forall i, o i = AddPub c (x i)) -> rel x a -> orel o (AddPub c a)
  | R_eq o x y a b : (forall i, o i = SolveEq (x i) (y i)) -> rel x a -> rel y b -> orel o (SolveEq a b)
  | R_cmux o c x y e a b : (forall i, o i = CmuxA (c i) (x i) (y i)) -> rel c e -> rel x a -> rel y b -> orel o (CmuxA e a b)
  | R_bit o n x y m a b : (forall i, o i = BitA n (x i) (y i) m) -> rel x a -> rel y b -> orel o (BitA n a b m).
End Lrel.

(** ** Three parties running the driver *)
Section AcvmWp.
  Context {F : Type} `{FU : FieldUint F} {S M : Type} (dbg : bool) (W : nat) (du dw : nat -> S -> N * S) {DF : Draw S F}.
  Context {Seed : Type} {SS : Seeded S Seed} {DS : Draw S Seed}.
  Context {EN : Enc M (list N)} {ENN : Enc M (list (N * N))}
          {EL : Enc M (list (list N))} {ELL : Enc M (list (list N * list N))} {EF : Enc M (list F)}.
  Variables (hash : N -> N -> N) (gtweak : N -> N) (otweak : N -> bool -> N).
  Context {Dg : Type} {ED : Enc M (list Dg)}.
  Variables (digest : list N -> Dg) (dg_eqb : Dg -> Dg -> bool).
  Variables (draw_label draw_delta : S -> N * S).
  Variable rgof : pid -> rst S -> S.
  Variable t : a2b_type.
  Hypothesis dg_eqb_spec : forall x y, dg_eqb x y = true <-> x = y.
  Context (cap : nat) (cap_pos : (1 <= cap)%nat).
  Hypothesis p_odd : N.odd (fu_p (F := F)) = true.
  Notation p := (fu_p (F := F)).
  Hypothesis width : (mbs F + 2 <= W)%nat.
  Hypothesis delta_odd : forall s, color (fst (draw_delta s)) = true.
  Hypothesis hash_sep : forall d z n, color d = true -> hash z (otweak n false) <> hash (N.lxor z d) (otweak n false).
  Hypothesis dw_lt : forall K s, (fst (dw K s) < 2 ^ N.of_nat K)%N.
  Notation prog := (prog pid M).
  Notation dst := (dst (S := S)).
  Implicit Types (st : pid -> rst S) (d : pid -> dst).
  Add Ring Fr : (cring_theory (R := F)).
  Notation a2bs := (a2bs (M := M) (Seed := Seed) W du hash gtweak digest dg_eqb draw_label draw_delta rgof t).
  Notation b2as := (b2as (F := F) (M := M) (Seed := Seed) W du hash gtweak otweak digest dg_eqb draw_label draw_delta rgof t).
  Notation rep3_aop := (rep3_aop (M := M) (Seed := Seed) W du hash gtweak otweak digest dg_eqb draw_label draw_delta rgof t).
  Notation ac_bits := (ac_bits (M := M) (Seed := Seed) W du hash gtweak otweak digest dg_eqb draw_label draw_delta rgof t).
  Notation ac_read := (ac_read (M := M) (Seed := Seed) dbg W du dw hash gtweak otweak digest dg_eqb draw_label draw_delta rgof t).
  Notation ac_write := (ac_write (M := M) (Seed := Seed) dbg W du dw hash gtweak digest dg_eqb draw_label draw_delta rgof t).

  Lemma a2b_ok st a (x : F) : synced st -> shares a x ->
    wp cap (fun i => a2bs i (st i) (a i)) (fun r => shares (fun i => fst (r i)) (to_uint x) /\ synced (fun i => snd (r i))).
  Proof. exact (@a2bs_wp F _ _ S M W du Seed SS DS EN ENN hash gtweak Dg ED digest dg_eqb draw_label draw_delta rgof t dg_eqb_spec cap cap_pos p_odd width delta_odd st a x). Qed.
  Lemma b2a_ok st a (u : N) : synced st -> shares a u -> (u < p)%N ->
    wp cap (fun i => b2as i (st i) (a i)) (fun r => shares (fun i => fst (r i)) (of_uint u) /\ synced (fun i => snd (r i))).
  Proof. apply (b2as_wp du hash gtweak otweak digest dg_eqb draw_label draw_delta rgof t dg_eqb_spec cap_pos p_odd width delta_odd hash_sep). Qed.

  Ltac two Hx Hy a b :=
    destruct a as [u|u], b as [v|v]; cbn [rel] in Hx, Hy;
    [ | destruct Hy as (s' & Hy & Hs') | destruct Hx as (s & Hx & Hs)
      | destruct Hx as (s & Hx & Hs); destruct Hy as (s' & Hy & Hs') ].
  Ltac lcl := apply wp_wpo, wp_ret; left; eexists; split; [reflexivity|]; split; [|assumption].
  Ltac shr s := cbn [fst snd]; exists s; split; [reflexivity|].

  (** local operations *)
  Lemma add_rel x y a b : rel x a -> rel y b -> rel (fun i => ac_add i (x i) (y i)) (tag2 a b (tval a + tval b)).
  Proof.
    intros Hx Hy. two Hx Hy a b; unfold tag2; cbn [tshared orb tval rel].
    - intros i. now rewrite Hx, Hy.
    - exists (fun i => add_public i (s' i) u). split; [intros i; now rewrite Hx, Hy|]. replace (u + v) with (v + u) by ring. now apply add_public_ok.
    - exists (fun i => add_public i (s i) v). split; [intros i; now rewrite Hx, Hy|]. now apply add_public_ok.
    - exists (fun i => shadd (s i) (s' i)). split; [intros i; now rewrite Hx, Hy|]. now apply shadd_ok.
  Qed.
  Lemma sub_rel x y a b : rel x a -> rel y b -> rel (fun i => ac_sub i (x i) (y i)) (tag2 a b (tval a - tval b)).
  Proof.
    intros Hx Hy. two Hx Hy a b; unfold tag2; cbn [tshared orb tval rel].
    - intros i. now rewrite Hx, Hy.
    - exists (fun i => sub_public_by_shared i u (s' i)). split; [intros i; now rewrite Hx, Hy|]. now apply sub_public_by_shared_ok.
    - exists (fun i => sub_shared_by_public i (s i) v). split; [intros i; now rewrite Hx, Hy|]. now apply sub_shared_by_public_ok.
    - exists (fun i => shsub (s i) (s' i)). split; [intros i; now rewrite Hx, Hy|]. now apply shsub_ok.
  Qed.
  Lemma lin_rel q x y a b : rel x a -> rel y b -> rel (fun i => ac_solve_lin i q (x i) (y i)) (tag2 a b (rmul q (tval a) + tval b)).
  Proof.
    intros Hx Hy. two Hx Hy a b; unfold tag2; cbn [tshared orb tval rel].
    - intros i. now rewrite Hx, Hy.
    - exists (fun i => add_public i (s' i) (rmul q u)). split; [intros i; now rewrite Hx, Hy|]. replace (rmul q u + v) with (v + rmul q u) by ring. now apply add_public_ok.
    - exists (fun i => add_public i (mul_public (s i) q) v). split; [intros i; now rewrite Hx, Hy|]. replace (rmul q u) with (rmul u q) by ring. apply add_public_ok. now apply mul_public_ok.
    - exists (fun i => shadd (mul_public (s i) q) (s' i)). split; [intros i; now rewrite Hx, Hy|]. replace (rmul q u) with (rmul u q) by ring. apply shadd_ok; [now apply mul_public_ok|assumption].
  Qed.
  Lemma mulpub_rel c x a : rel x a -> rel (fun i => ac_mul_public c (x i)) (tag2 a a (rmul (tval a) c)).
  Proof.
    intros Hx. destruct a as [u|u]; cbn [rel] in Hx; unfold tag2; cbn [tshared orb tval rel].
    - intros i. rewrite Hx. cbn. f_equal. ring.
    - destruct Hx as (s & Hx & Hs). exists (fun i => mul_public (s i) c). split; [intros i; now rewrite Hx|]. now apply mul_public_ok.
  Qed.
  Lemma addpub_rel c x a : rel x a -> rel (fun i => ac_add_public i c (x i)) (tag2 a a (c + tval a)).
  Proof.
    intros Hx. destruct a as [u|u]; cbn [rel] in Hx; unfold tag2; cbn [tshared orb tval rel].
    - intros i. now rewrite Hx.
    - destruct Hx as (s & Hx & Hs). exists (fun i => add_public i (s i) c). split; [intros i; now rewrite Hx|]. replace (c + u) with (u + c) by ring. now apply add_public_ok.
  Qed.
  Lemma ret_post d (r : pid -> rv F) (a : tv F) may : synced2 d -> rel r a ->
    wpo cap (fun i => Ret (r i, d i) : prog (rv F * dst)) (drv_post rel may (Done a)).
  Proof. intros Hd Hr. apply wp_wpo, wp_ret. left. eexists. split; [reflexivity|]. split; [exact Hr|exact Hd]. Qed.
  Lemma mul_rel d x y a b : synced2 d -> rel x a -> rel y b ->
    wpo cap (fun i => ac_mul i (d i) (x i) (y i)) (drv_post rel false (Done (tag2 a b (rmul (tval a) (tval b))))).
  Proof.
    intros Hd Hx Hy. two Hx Hy a b; (eapply wpo_ext; [intros i; rewrite (Hx i), (Hy i); reflexivity|]); unfold tag2; cbn [tshared orb tval ac_mul].
    - apply ret_pub_post. exact Hd.
    - replace (rmul u v) with (rmul v u) by ring. apply local_post; [exact Hd|]. now apply mul_public_ok.
    - apply local_post; [exact Hd|]. now apply mul_public_ok.
    - apply (@on0_post F _ S M cap d (fun i (st : rst S) => mul i st (s i) (s' i))); [exact Hd|]. exact (mul_wp cap_pos (proj1 Hd) Hs Hs').
  Qed.
  Lemma solve_mul_rel d c x y a b : synced2 d -> rel x a -> rel y b ->
    wpo cap (fun i => ac_solve_mul i (d i) c (x i) (y i)) (drv_post rel false (Done (tag2 a b (rmul (rmul (tval a) (tval b)) c)))).
  Proof.
    intros Hd Hx Hy. two Hx Hy a b; (eapply wpo_ext; [intros i; rewrite (Hx i), (Hy i); reflexivity|]); unfold tag2; cbn [tshared orb tval ac_solve_mul].
    - apply ret_pub_post. exact Hd.
    - replace (rmul u v) with (rmul v u) by ring. apply local_post; [exact Hd|]. apply mul_public_ok. now apply mul_public_ok.
    - apply local_post; [exact Hd|]. apply mul_public_ok. now apply mul_public_ok.
    - apply (@on0_post F _ S M cap d (fun i (st : rst S) => bind (mul i st (s i) (s' i)) (fun r => Ret (mul_public (fst r) c, snd r)))); [exact Hd|].
      apply wp_bind. eapply wp_mono; [|exact (mul_wp cap_pos (proj1 Hd) Hs Hs')]. cbv beta. intros m [M1 M2]. apply wp_ret. split; [|exact M2].
      cbn [fst snd]. now apply mul_public_ok.
  Qed.
  Lemma solve_eq_rel d x y a b : synced2 d -> rel x a -> rel y b ->
    wpo cap (fun i => ac_solve_eq i (d i) (x i) (y i)) (drv_post rel (tshared a) (ideal_solve_eq a b)).
  Proof.
    intros Hd Hx Hy. unfold ideal_solve_eq. two Hx Hy a b; (eapply wpo_ext; [intros i; rewrite (Hx i), (Hy i); reflexivity|]); unfold tag2; cbn [tshared orb tval ac_solve_eq].
    - unfold plain_solve_eq. destruct (feqb u 0); [apply wpo_fail; eexists; reflexivity|]. apply ret_pub_post. exact Hd.
    - unfold div_shared_by_public. destruct (feqb u 0); [apply wpo_fail; eexists; reflexivity|]. apply local_post; [exact Hd|].
      apply mul_public_ok. now apply shneg_ok.
    - destruct (feqb u 0) eqn:E0.
      + apply feqb_spec in E0. unfold div_public_by_shared. apply (@inv_zero_post F _ S M DF EF cap cap_pos d s u (fun i r => Ret (mul_public (fst r) (- v), snd r))); assumption.
      + apply feqb_false_neq in E0. unfold div_public_by_shared. replace (rmul (- v) (finv u)) with (rmul (finv u) (- v)) by ring.
        apply (@inv_then_post F _ S M DF EF cap cap_pos d s u (fun i r => Ret (mul_public (fst r) (- v), snd r))); try assumption.
        intros st c K1 K2. apply wp_ret. split; [|exact K1]. cbn [fst snd]. now apply mul_public_ok.
    - destruct (feqb u 0) eqn:E0.
      + apply feqb_spec in E0. unfold div. apply (@inv_zero_post F _ S M DF EF cap cap_pos d s u (fun i r => mul i (snd r) (shneg (s' i)) (fst r))); assumption.
      + apply feqb_false_neq in E0. unfold div.
        apply (@inv_then_post F _ S M DF EF cap cap_pos d s u (fun i r => mul i (snd r) (shneg (s' i)) (fst r))); try assumption.
        intros st c K1 K2. cbn [fst snd]. exact (mul_wp cap_pos K1 (shneg_ok Hs') K2).
  Qed.
  Lemma cmux_rel d c x y e a b : synced2 d -> rel c e -> rel x a -> rel y b ->
    wpo cap (fun i => ac_cmux i (d i) (c i) (x i) (y i)) (drv_post rel false (ideal_acmux e a b)).
  Proof.
    intros Hd Hc Hx Hy. destruct e as [k|k]; cbn [rel ideal_acmux] in *.
    - eapply wpo_ext; [intros i; rewrite (Hc i); reflexivity|]. cbn [ac_cmux]. destruct (is01 k); [|apply wpo_fail; eexists; reflexivity].
      destruct (feqb k rone); apply ret_post; assumption.
    - destruct Hc as (s & Ec & Hs). eapply wpo_ext; [intros i; rewrite (Ec i); reflexivity|]. cbn [ac_cmux].
      apply wpo_seq. eapply wpo_mono; [|exact (@mul_rel d (fun i => RSh (s i)) (fun i => ac_sub i (x i) (y i)) (Sh k) _ Hd (ex_intro _ s (conj (fun _ => eq_refl) Hs)) (@sub_rel x y a b Hx Hy))].
      intros o [(r & Er & Rr & Hd')|(C & _)]; [|discriminate].
      eapply wpo_ext; [intros i; rewrite (Er i); cbn; reflexivity|].
      apply (@ret_post (fun i => snd (r i)) (fun i => ac_add i (y i) (fst (r i)))); [exact Hd'|].
      pose proof (@add_rel y (fun i => fst (r i)) b _ Hy Rr) as K. unfold tag2 in K. cbn [tshared orb tval] in K. rewrite orb_true_r in K.
      destruct (tshared a || tshared b); cbn [tval] in K; exact K.
  Qed.
  Lemma and_mask_ok s u m : shares s u -> shares (fun i => and_mask (s i) m) (N.land u m).
  Proof. intros Hs. exact (shmap_ok (lin3_land m) Hs). Qed.
  Lemma bits_rel d is_and x y a b bits : synced2 d -> rel x a -> rel y b -> ideal_bits is_and a b bits <> Failed undef ->
    wpo cap (fun i => ac_bits i (d i) is_and (x i) (y i) bits) (drv_post rel false (ideal_bits is_and a b bits)).
  Proof.
    intros Hd Hx Hy Hu. unfold ideal_bits in *. set (m := N.ones (N.of_nat bits)) in *.
    assert (One : forall s v c, shares s v -> (bits_and is_and (to_uint v) (to_uint c) bits < p)%N ->
      wp cap (fun i => bind (a2bs i (fst (d i)) (s i)) (fun x => b2as i (snd x) (if is_and then and_mask (fst x) (N.land (to_uint c) m)
                                         else and_mask (add_public i (fst x) (to_uint c)) m)))
        (shared_result (of_uint (bits_and is_and (to_uint v) (to_uint c) bits)))).
    { intros s v c Hs Hl. apply wp_bind. eapply wp_mono; [|exact (a2b_ok (proj1 Hd) Hs)]. cbv beta. intros q [Q1 Q2].
      apply b2a_ok; [exact Q2| |exact Hl]. unfold bits_and. fold m. destruct is_and.
      - rewrite <- N.land_assoc. exact (and_mask_ok _ Q1).
      - exact (and_mask_ok m (add_public_ok (G := N) (to_uint c) Q1)). }
    assert (Comm : forall u v : F, bits_and is_and (to_uint u) (to_uint v) bits = bits_and is_and (to_uint v) (to_uint u) bits).
    { intros u v. unfold bits_and. destruct is_and; f_equal; [apply N.land_comm|apply N.lxor_comm]. }
    two Hx Hy a b; (eapply wpo_ext; [intros i; rewrite (Hx i), (Hy i); reflexivity|]); cbn [tval ac_bits] in *.
    - apply ret_pub_post. exact Hd.
    - destruct (N.ltb_spec (bits_and is_and (to_uint u) (to_uint v) bits) p) as [L|L]; [|contradiction].
      rewrite Comm in *. apply (@on0_post F _ S M cap d (fun i (st : rst S) => bind (a2bs i st (s' i)) (fun x => b2as i (snd x) (if is_and then and_mask (fst x) (N.land (to_uint u) m) else and_mask (add_public i (fst x) (to_uint u)) m)))); [exact Hd|].
      apply One; assumption.
    - destruct (N.ltb_spec (bits_and is_and (to_uint u) (to_uint v) bits) p) as [L|L]; [|contradiction].
      apply (@on0_post F _ S M cap d (fun i (st : rst S) => bind (a2bs i st (s i)) (fun x => b2as i (snd x) (if is_and then and_mask (fst x) (N.land (to_uint v) m) else and_mask (add_public i (fst x) (to_uint v)) m)))); [exact Hd|].
      apply One; assumption.
    - destruct (N.ltb_spec (bits_and is_and (to_uint u) (to_uint v) bits) p) as [L|L]; [|contradiction].
      apply wp_wpo. apply wp_bind. eapply wp_mono; [|exact (a2b_ok (proj1 Hd) Hs)]. cbv beta. intros q [Q1 Q2].
      apply wp_bind. eapply wp_mono; [|exact (a2b_ok (proj2 Hd) Hs')]. cbv beta. intros q' [Q1' Q2'].
      apply wp_bind. eapply wp_mono with (Q := fun z => shares (fun i => fst (z i)) (if is_and then N.land (to_uint u) (to_uint v) else N.lxor (to_uint u) (to_uint v)) /\ synced (fun i => snd (z i))).
      2:{ destruct is_and; [eapply band_wp; eassumption|]. apply wp_ret. split; [exact (shadd_ok (G := N) Q1 Q1')|exact Q2]. }
      cbv beta. intros z [Z1 Z2].
      apply wp_bind. eapply wp_mono; [|exact (b2a_ok Z2 (and_mask_ok m Z1) L)]. cbv beta. intros w [W1 W2].
      apply wp_ret. left. eexists. split; [reflexivity|]. cbn [fst snd]. split.
      + exists (fun i => fst (w i)). split; [reflexivity|exact W1].
      + split; [exact W2|exact Q2'].
  Qed.
  Lemma aop_wpo o ot d : synced2 d -> orel o ot -> ideal_aop ot <> Failed undef ->
    wpo cap (fun i => rep3_aop i (d i) (o i)) (drv_post rel (may_aop ot) (ideal_aop ot)).
  Proof.
    intros Hd Ho Hu. destruct Ho as [o c x y a b E Hx Hy|o c x a E Hx|o x y a b E Hx Hy|o q x y a b E Hx Hy|o c x a E Hx|o x y a b E Hx Hy|o c x y e a b E Hc Hx Hy|o n x y m a b E Hx Hy];
      (eapply wpo_ext; [intros i; rewrite (E i); cbn [Acvm.rep3_aop]; reflexivity|]); cbn [ideal_aop may_aop] in *.
    - apply solve_mul_rel; assumption.
    - apply ret_post; [assumption|]. apply mulpub_rel. assumption.
    - apply (@ret_post d (fun i => ac_add i (x i) (y i))); [assumption|]. apply add_rel; assumption.
    - apply (@ret_post d (fun i => ac_solve_lin i q (x i) (y i))); [assumption|]. apply lin_rel; assumption.
    - apply (@ret_post d (fun i => ac_add_public i c (x i))); [assumption|]. apply addpub_rel; assumption.
    - apply solve_eq_rel; assumption.
    - apply cmux_rel; assumption.
    - apply bits_rel; assumption.
  Qed.

  (** tables *)
  Lemma share_rel x a : rel x a -> shares (fun i => ac_share i (x i)) (tval a).
  Proof.
    destruct a as [u|u]; cbn [rel tval]; intros Hx.
    - eapply (@shares_ext F _ (fun i => promote i u)); [intros i; now rewrite Hx|apply promote_ok].
    - destruct Hx as (s & Hx & Hs). eapply (@shares_ext F _ s); [intros i; now rewrite Hx|exact Hs].
  Qed.
  Lemma rel_shared x a i : rel x a -> shv (@rpub F) (x i) = tshared a.
  Proof. destruct a as [u|u]; cbn [rel tshared]; [intros ->; reflexivity|intros (s & -> & _); reflexivity]. Qed.
  Lemma existsb_rel l ls i : pvec rel l ls -> existsb (shv (@rpub F)) (l i) = existsb (@tshared F) ls.
  Proof.
    revert l. induction ls as [|v ls IH]; intros l Hl; [now rewrite (pvec_nil_inv Hl)|].
    destruct (pvec_cons_inv Hl) as (h & k & E & Hh & Hk). rewrite E. cbn [existsb]. now rewrite (@rel_shared h v i Hh), (IH k Hk).
  Qed.
  Lemma init_rel l ls : pvec rel l ls -> lrel (fun i => ac_init i (l i)) (ideal_init ls).
  Proof.
    intros Hl. unfold ideal_init. destruct (existsb (@tshared F) ls) eqn:E; cbn [lrel].
    - exists (fun i => map (ac_share i) (l i)). split; [intros i; unfold ac_init; now rewrite (@existsb_rel l _ i Hl), E|].
      eapply pvec_map; [|exact Hl]. intros a x Ha. exact (@share_rel a x Ha).
    - intros i. unfold ac_init. rewrite (@existsb_rel l _ i Hl), E. f_equal. revert l Hl E. induction ls as [|v ls IH]; intros l Hl E; [now rewrite (pvec_nil_inv Hl)|].
      destruct (pvec_cons_inv Hl) as (h & k & El & Hh & Hk). rewrite El. cbn [existsb] in E. apply orb_false_elim in E as [E1 E2]. destruct v as [v|v]; [|discriminate].
      cbn [map tval]. cbn [rel] in Hh. rewrite (Hh i). f_equal. apply IH; assumption.
  Qed.
  (** tables that are too small or too large for a shared index: all parties stop with the same error *)
  Lemma get_tiny_fails st0 st1 index (x : F) (tb : pid -> pplut F) n : (n <= 1)%nat -> (forall i, pplen (tb i) = n) ->
    (forall i, match tb i with Public _ => True | Shared _ => False end) \/ (forall i, match tb i with Public _ => False | Shared _ => True end) ->
    synced st0 -> shares index x ->
    wpo cap (fun i => get_from_lut dbg du dw a2bs b2as (index i) (tb i) i (st0 i) (st1 i)) (fun o => exists e, forall i, o i = Failed e).
  Proof.
    intros Hn Hlen Hkind Hs0 Hi. assert (E0 : lut_bits n = 0%nat) by (destruct n as [|[|n]]; [reflexivity|reflexivity|lia]).
    eapply wpo_ext with (qs := fun i => bits <- a2bs i (st0 i) (index i) ;; get_from_lut_internal dbg du dw b2as 8 (fst bits) (tb i) i (snd bits) (st1 i)).
    { intros i. unfold get_from_lut. rewrite Hlen, E0. reflexivity. }
    apply wpo_bind. eapply wp_mono; [|apply (a2b_ok Hs0 Hi)]. intros bits _.
    destruct Hkind as [Hk|Hk].
    - eapply wpo_ext with (qs := fun i => Fail (if dbg then Panic "assertion failed: k >= 1" else Panic "attempt to subtract with overflow")).
      2:{ apply wpo_fail. eexists. reflexivity. }
      intros i. specialize (Hk i). pose proof (Hlen i) as Hl. destruct (tb i) as [l|l]; [|contradiction]. cbn [pplen] in Hl. cbn [get_from_lut_internal].
      unfold read_public_lut_low_depth, ld_setup. rewrite Hl, E0. destruct dbg; reflexivity.
    - eapply wpo_ext with (qs := fun i => Fail (Panic "attempt to subtract with overflow")); [|apply wpo_fail; eexists; reflexivity].
      intros i. specialize (Hk i). pose proof (Hlen i) as Hl. destruct (tb i) as [l|l]; [contradiction|]. cbn [pplen] in Hl. cbn [get_from_lut_internal].
      unfold read_shared_lut. rewrite Hl, E0. reflexivity.
  Qed.
  Lemma write_bad_fails st0 st1 index (x : F) value (tb : pid -> pplut F) n : (n <= 1)%nat \/ (32 < lut_bits n)%nat -> (forall i, pplen (tb i) = n) ->
    synced st0 -> shares index x ->
    wpo cap (fun i => write_to_lut dbg dw a2bs (index i) (value i) (tb i) i (st0 i) (st1 i)) (fun o => exists e, forall i, o i = Failed e).
  Proof.
    intros [Hn|Hn] Hlen Hs0 Hi.
    - assert (E0 : lut_bits n = 0%nat) by (destruct n as [|[|n]]; [reflexivity|reflexivity|lia]).
      eapply wpo_ext with (qs := fun i => bits <- a2bs i (st0 i) (index i) ;; Fail (Panic "attempt to subtract with overflow")).
      { intros i. unfold write_to_lut. rewrite Hlen, E0. f_equal. unfold write_to_lut_internal, write_lut.
        assert (El : length (match tb i with Public l => map (promote i) l | Shared l => l end) = n).
        { rewrite <- (Hlen i). destruct (tb i); cbn [pplen]; rewrite ?map_length; reflexivity. }
        rewrite El, E0. reflexivity. }
      apply wpo_bind. eapply wp_mono; [|apply (a2b_ok Hs0 Hi)]. intros bits _. apply wpo_fail. eexists; reflexivity.
    - eapply wpo_ext. { intros i. unfold write_to_lut. rewrite Hlen, (lut_width_none Hn). reflexivity. }
      apply wpo_bind. eapply wp_mono; [|apply (a2b_ok Hs0 Hi)]. intros bits _. apply wpo_fail. eexists; reflexivity.
  Qed.
  Lemma read_wpo x a tb u d : synced2 d -> rel x a -> lrel tb u ->
    wpo cap (fun i => ac_read i (d i) (x i) (tb i)) (drv_post rel false (ideal_read a u)).
  Proof.
    intros Hd Hx Ht. destruct a as [v|v]; cbn [rel] in Hx.
    - eapply wpo_ext; [intros i; rewrite (Hx i); cbn [Acvm.ac_read]; reflexivity|]. unfold ideal_read, plain_get.
      destruct u as [l|l]; cbn [lrel] in Ht; (destruct (field_to_usize v) as [j|]; [|apply wpo_fail; eexists; reflexivity]).
      + eapply wpo_ext; [intros i; rewrite (Ht i); reflexivity|]. destruct (nth_error l j); [apply ret_pub_post; exact Hd|apply wpo_fail; eexists; reflexivity].
      + destruct Ht as (s & Ht & Hs). eapply wpo_ext; [intros i; rewrite (Ht i); reflexivity|]. destruct (nth_error l j) as [w|] eqn:E.
        * destruct (proj2 Hs j w E) as (q & Eq & Hq). eapply wpo_ext; [intros i; rewrite (Eq i); reflexivity|].
          apply (@ret_post d (fun i => RSh (q i))); [exact Hd|]. exists q. split; [reflexivity|exact Hq].
        * eapply wpo_ext; [intros i; rewrite (proj2 (nth_error_None (s i) j)); [reflexivity|]|apply wpo_fail; eexists; reflexivity].
          rewrite (pvec_len i Hs). now apply nth_error_None.
    - destruct Hx as (s & Ex & Hs). eapply wpo_ext; [intros i; rewrite (Ex i); cbn [Acvm.ac_read]; reflexivity|].
      assert (Fin : forall z, wp cap (fun i => get_from_lut dbg du dw a2bs b2as (s i) (tb i) i (fst (d i)) (snd (d i)))
          (fun r => shares (fun i => fst (r i)) z /\ synced (fun i => fst (snd (r i))) /\ synced (fun i => snd (snd (r i)))) ->
        wpo cap (fun i => bind (get_from_lut dbg du dw a2bs b2as (s i) (tb i) i (fst (d i)) (snd (d i))) (fun r => Ret (RSh (fst r), snd r)))
          (drv_post rel false (Done (Sh z)))).
      { intros z Hz. apply wp_wpo, wp_bind. eapply wp_mono; [|exact Hz]. cbv beta. intros r (R1 & R2 & R3). apply wp_ret. left. eexists. split; [reflexivity|]. cbn [fst snd].
        split; [exists (fun i => fst (r i)); split; [reflexivity|exact R1]|]. split; assumption. }
      assert (Bad : wpo cap (fun i => get_from_lut dbg du dw a2bs b2as (s i) (tb i) i (fst (d i)) (snd (d i))) (fun o => exists e, forall i, o i = Failed e) ->
        wpo cap (fun i => bind (get_from_lut dbg du dw a2bs b2as (s i) (tb i) i (fst (d i)) (snd (d i))) (fun r => Ret (RSh (fst r), snd r)))
          (drv_post rel false (Failed table_err))).
      { intros Hz. apply wpo_seq. eapply wpo_mono; [|exact Hz]. cbv beta. intros o [e He]. eapply wpo_ext; [intros i; rewrite (He i); reflexivity|]. apply wpo_fail. eexists. reflexivity. }
      assert (Len : forall i, pplen (tb i) = length (tlist u)).
      { intros i. destruct u as [l|l]; cbn [lrel tlist] in *; [now rewrite Ht|]. destruct Ht as (q & Eq & Hq). rewrite Eq. exact (pvec_len i Hq). }
      destruct (32 <? lut_bits (length (tlist u)))%nat eqn:Big.
      { apply Nat.ltb_lt in Big. unfold ideal_read. cbv zeta. rewrite (proj2 (Nat.ltb_lt _ _) Big), !orb_true_r.
        assert (K := Bad ltac:(eapply wpo_mono; [|exact (@get_too_large_panics F _ _ S M dbg du dw DF EN EL EF cap a2bs b2as a2b_ok _ _ _ _ _ _ Big Len (proj1 Hd) Hs)]; intros o Ho; eexists; exact Ho)).
        destruct u; exact K. }
      apply Nat.ltb_ge in Big. unfold ideal_read. cbv zeta. destruct u as [l|l]; cbn [tlist lrel] in *; rewrite (proj2 (Nat.ltb_ge _ _) Big), orb_false_r.
      + destruct (Nat.leb_spec (length l) 2) as [C|C].
        * apply Bad. destruct (Nat.eq_dec (length l) 2) as [E2|E2].
          -- eapply wpo_mono; [|eapply wpo_ext; [|exact (@get_public_two_panics F _ _ S M dbg du dw DF EN EL EF cap a2bs b2as a2b_ok _ (fun i => snd (d i)) _ _ l E2 (proj1 Hd) Hs)]].
             ++ intros o Ho. eexists. exact Ho.
             ++ intros i. cbv beta. now rewrite Ht.
          -- apply get_tiny_fails with (x := v) (n := length l); [lia|exact Len|left; intros i; now rewrite Ht|exact (proj1 Hd)|exact Hs].
        * apply Fin. eapply wp_ext; [|exact (@get_from_lut_public_wp F _ _ S M dbg du dw DF EN EL EF cap cap_pos dw_lt a2bs b2as a2b_ok b2a_ok _ _ _ _ l ltac:(lia) Big (proj1 Hd) (proj2 Hd) Hs)].
          intros i. cbv beta. now rewrite Ht.
      + destruct Ht as (q & Eq & Hq). destruct (Nat.leb_spec (length l) 1) as [C|C].
        * apply Bad. apply get_tiny_fails with (x := v) (n := length l); [lia|exact Len|right; intros i; now rewrite Eq|exact (proj1 Hd)|exact Hs].
        * apply Fin. eapply wp_ext; [|exact (@get_from_lut_shared_wp F _ _ S M dbg du dw DF EN EL EF cap cap_pos a2bs b2as a2b_ok _ _ _ _ q l ltac:(lia) Big (proj1 Hd) (proj2 Hd) Hs Hq)].
          intros i. cbv beta. now rewrite Eq.
  Qed.
  Lemma holds_rel tb u : lrel tb u -> LutProv.holds tb (tlist u).
  Proof. destruct u as [l|l]; cbn [lrel tlist]; intros Ht; [left|right]; exact Ht. Qed.
  Lemma set_nth_vec j (s : pid -> list (share F)) l (v : pid -> share F) w : shares_vec s l -> shares v w -> (j < length l)%nat ->
    shares_vec (fun i => firstn j (s i) ++ v i :: skipn (Datatypes.S j) (s i)) (firstn j l ++ w :: skipn (Datatypes.S j) l).
  Proof.
    intros Hs Hv Hj. apply pvec_app; [apply pvec_firstn; exact Hs|]. eapply pvec_cons; [reflexivity|exact Hv|]. apply pvec_skipn. exact Hs.
  Qed.
  Lemma write_wpo x a y b tb u d : synced2 d -> rel x a -> rel y b -> lrel tb u ->
    wpo cap (fun i => ac_write i (d i) (x i) (y i) (tb i)) (drv_post lrel false (ideal_write a b u)).
  Proof.
    intros Hd Hx Hy Ht. destruct a as [v|v]; cbn [rel] in Hx.
    - eapply wpo_ext; [intros i; rewrite (Hx i); cbn [Acvm.ac_write]; reflexivity|]. unfold ideal_write, plain_write.
      destruct (field_to_usize v) as [j|]; [|apply wpo_fail; eexists; reflexivity].
      assert (Rt : forall r z, lrel r z -> wpo cap (fun i => Ret (r i, d i) : prog (pplut F * dst)) (drv_post lrel false (Done z))).
      { intros r z Hr. apply wp_wpo, wp_ret. left. eexists. split; [reflexivity|]. split; [exact Hr|exact Hd]. }
      destruct b as [w|w], u as [l|l]; cbn [rel lrel tlist tval] in *.
      + eapply wpo_ext; [intros i; rewrite (Hy i), (Ht i); reflexivity|]. unfold set_nth. destruct (j <? length l)%nat; [|apply wpo_fail; eexists; reflexivity].
        apply Rt. intros i. reflexivity.
      + destruct Ht as (q & Eq & Hq). eapply wpo_ext; [intros i; rewrite (Hy i), (Eq i); unfold set_nth; rewrite (pvec_len i Hq); reflexivity|].
        destruct (Nat.ltb_spec j (length l)) as [C|C]; [|apply wpo_fail; eexists; reflexivity].
        apply (Rt (fun i => Shared _)). eexists. split; [reflexivity|]. apply (set_nth_vec (v := fun i => promote i w)); [exact Hq|apply promote_ok|exact C].
      + destruct Hy as (sy & Ey & Hsy). eapply wpo_ext; [intros i; rewrite (Ey i), (Ht i); unfold set_nth; rewrite map_length; reflexivity|].
        destruct (Nat.ltb_spec j (length l)) as [C|C]; [|apply wpo_fail; eexists; reflexivity].
        apply (Rt (fun i => Shared _)). eexists. split; [reflexivity|]. apply (set_nth_vec (s := fun i => map (promote i) l)); [apply promote_list_ok|exact Hsy|exact C].
      + destruct Hy as (sy & Ey & Hsy). destruct Ht as (q & Eq & Hq). eapply wpo_ext; [intros i; rewrite (Ey i), (Eq i); unfold set_nth; rewrite (pvec_len i Hq); reflexivity|].
        destruct (Nat.ltb_spec j (length l)) as [C|C]; [|apply wpo_fail; eexists; reflexivity].
        apply (Rt (fun i => Shared _)). eexists. split; [reflexivity|]. apply set_nth_vec; [exact Hq|exact Hsy|exact C].
    - destruct Hx as (s & Ex & Hs). eapply wpo_ext; [intros i; rewrite (Ex i); cbn [Acvm.ac_write]; reflexivity|].
      assert (Len : forall i, pplen (tb i) = length (tlist u)).
      { intros i. destruct u as [l|l]; cbn [lrel tlist] in *; [now rewrite Ht|]. destruct Ht as (q & Eq & Hq). rewrite Eq. exact (pvec_len i Hq). }
      unfold ideal_write. cbv zeta. destruct ((length (tlist u) <=? 1)%nat || (32 <? lut_bits (length (tlist u)))%nat) eqn:E.
      + apply orb_prop in E. rewrite Nat.leb_le, Nat.ltb_lt in E. cbn [drv_post].
        exact (@write_bad_fails (fun i => fst (d i)) (fun i => snd (d i)) s v (fun i => ac_share i (y i)) tb _ E Len (proj1 Hd) Hs).
      + apply orb_false_elim in E as [E1 E2]. apply Nat.leb_gt in E1. apply Nat.ltb_ge in E2. apply wp_wpo.
        eapply wp_mono; [|exact (@write_to_lut_wp F _ _ S M dbg dw _ EN EL EF cap cap_pos a2bs a2b_ok (fun i => fst (d i)) (fun i => snd (d i)) s v (fun i => ac_share i (y i)) _ tb (tlist u) ltac:(lia) E2 (proj1 Hd) (proj2 Hd) Hs (@share_rel y b Hy) (@holds_rel tb u Ht))].
        cbv beta. intros r (R1 & R2 & R3). left. exists r. split; [reflexivity|]. split; [exact R1|]. split; assumption.
  Qed.
  Lemma open_wpo l ls d : synced2 d -> pvec rel l ls ->
    wpo cap (fun i => ac_open (M := M) i (d i) (l i)) (drv_post (fun r v => forall i, r i = v) false (Done (map tval ls))).
  Proof.
    intros Hd Hl. apply wp_wpo. unfold ac_open. apply wp_bind. eapply wp_mono; [|apply (open_vec_wp cap_pos (a := fun i => map (ac_share i) (l i)) (xs := map tval ls))].
    - cbv beta. intros r Hr. apply wp_ret. left. eexists. split; [reflexivity|]. cbn [fst snd]. split; [exact Hr|exact Hd].
    - eapply pvec_map; [|exact Hl]. intros a x Ha. exact (@share_rel a x Ha).
  Qed.
  Lemma maskings_ok n : forall st, synced st -> additive_vec (fun i => fst (maskings n (st i))) (repeat (0 : F) n) /\ synced (fun i => snd (maskings (F := F) n (st i))).
  Proof.
    induction n as [|n IH]; intros st Hs; cbn [maskings repeat fst snd]; [split; [apply pvec_nil; reflexivity|exact Hs]|].
    destruct (masking_ok (G := F) Hs) as [H1 H2]. destruct (IH _ H2) as [H3 H4]. split; [|exact H4]. eapply pvec_cons; [reflexivity|exact H1|exact H3].
  Qed.
  Lemma zeros_rel n : forall z : pid -> list F, additive_vec z (repeat (0 : F) n) ->
    pvec rel (fun i => map (fun ab => RSh (mkShare (fst ab) (snd ab))) (List.combine (z i) (z (prev i)))) (repeat (Sh 0) n).
  Proof.
    induction n as [|n IH]; intros z Hz; cbn [repeat] in *.
    - apply pvec_nil. intros i. now rewrite (pvec_nil_inv Hz).
    - destruct (pvec_cons_inv Hz) as (h & k & E & Hh & Hk).
      eapply (@pvec_cons _ _ _ (fun i => RSh (mkShare (h i) (h (prev i)))) _ (fun i => map (fun ab => RSh (mkShare (fst ab) (snd ab))) (List.combine (k i) (k (prev i))))).
      + intros i. rewrite !E. reflexivity.
      + exists (fun i => mkShare (h i) (h (prev i))). split; [reflexivity|]. apply additive_reshared. exact Hh.
      + apply IH. exact Hk.
  Qed.
  Lemma zeros_wpo n d : synced2 d ->
    wpo cap (fun i => ac_zeros (M := M) i (d i) n) (drv_post (pvec rel) false (Done (repeat (Sh 0) n))).
  Proof.
    intros Hd. apply wp_wpo. unfold ac_zeros. cbv zeta. apply wp_bind. apply (wp_reshare_many cap cap_pos). apply wp_ret.
    destruct (maskings_ok n (proj1 Hd)) as [H1 H2]. left. eexists. split; [reflexivity|]. cbn [fst snd]. split; [|split; [exact H2|exact (proj2 Hd)]].
    exact (zeros_rel n H1).
  Qed.

  (** ** Related programs *)
  Inductive asim {AP AT : Type} (R : (pid -> AP) -> AT -> Prop) : (pid -> acp F (rv F) (pplut F) AP) -> acp F (tv F) (tl F) AT -> Prop :=
  | S_ret q a v : (forall i, q i = ARet (a i)) -> R a v -> asim R q (ARet v)
  | S_fail q e : (forall i, q i = AFail e) -> asim R q (AFail e)
  | S_op q o ot k kt : (forall i, q i = AOp (o i) (k i)) -> orel o ot ->
      (forall r v, rel r v -> asim R (fun i => k i (r i)) (kt v)) -> asim R q (AOp ot kt)
  | S_init q l lt k kt : (forall i, q i = AInit (l i) (k i)) -> pvec rel l lt ->
      (forall r v, lrel r v -> asim R (fun i => k i (r i)) (kt v)) -> asim R q (AInit lt kt)
  | S_read q x a u v k kt : (forall i, q i = ARead (x i) (u i) (k i)) -> rel x a -> lrel u v ->
      (forall r v, rel r v -> asim R (fun i => k i (r i)) (kt v)) -> asim R q (ARead a v kt)
  | S_write q x y a b u v k kt : (forall i, q i = AWrite (x i) (y i) (u i) (k i)) -> rel x a -> rel y b -> lrel u v ->
      (forall r v, lrel r v -> asim R (fun i => k i (r i)) (kt v)) -> asim R q (AWrite a b v kt)
  | S_open q l lt k kt : (forall i, q i = AOpen (l i) (k i)) -> pvec rel l lt ->
      (forall r v, (forall i, r i = v) -> asim R (fun i => k i (r i)) (kt v)) -> asim R q (AOpen lt kt)
  | S_zeros q n k kt : (forall i, q i = AZeros n (k i)) ->
      (forall r v, pvec rel r v -> asim R (fun i => k i (r i)) (kt v)) -> asim R q (AZeros n kt)
  | S_brillig q n l lt k kt : (forall i, q i = ABrillig n (l i) (k i)) -> pvec rel l lt ->
      (forall r v, pvec rel r v -> asim R (fun i => k i (r i)) (kt v)) -> asim R q (ABrillig n lt kt).
  Lemma asim_bind {AP AT BP BT} (R : (pid -> AP) -> AT -> Prop) (R' : (pid -> BP) -> BT -> Prop) q qt : asim R q qt -> forall k kt,
    (forall a v, R a v -> asim R' (fun i => k i (a i)) (kt v)) -> asim R' (fun i => abind (q i) (k i)) (abind qt kt).
  Proof.
    induction 1 as [q a v E Ra|q e E|q o ot k1 kt1 E Ho _ IH|q l lt k1 kt1 E Hl _ IH|q x a u v k1 kt1 E Hx Hu _ IH|q x y a b u v k1 kt1 E Hx Hy Hu _ IH|q l lt k1 kt1 E Hl _ IH|q n k1 kt1 E _ IH|q n l lt k1 kt1 E Hl _ IH];
      intros k kt K; cbn [abind].
    - specialize (K _ _ Ra). revert K. generalize (kt v). intros z K. assert (G : forall q' z, asim R' q' z -> forall q'', (forall i, q'' i = q' i) -> asim R' q'' z).
      { clear. intros q' z Hz. destruct Hz; intros q'' E.
        - eapply S_ret; [intros i; rewrite E; eauto|eassumption].
        - eapply S_fail; intros i; rewrite E; eauto.
        - eapply S_op; [intros i; rewrite E; eauto|eassumption|eassumption].
        - eapply S_init; [intros i; rewrite E; eauto|eassumption|eassumption].
        - eapply S_read; [intros i; rewrite E; eauto|eassumption|eassumption|eassumption].
        - eapply S_write; [intros i; rewrite E; eauto|eassumption|eassumption|eassumption|eassumption].
        - eapply S_open; [intros i; rewrite E; eauto|eassumption|eassumption].
        - eapply S_zeros; [intros i; rewrite E; eauto|eassumption].
        - eapply S_brillig; [intros i; rewrite E; eauto|eassumption|eassumption]. }
      eapply G; [exact K|]. intros i. rewrite E. reflexivity.
    - eapply S_fail; intros i; rewrite E; reflexivity.
    - eapply S_op with (k := fun i v => abind (k1 i v) (k i)); [intros i; rewrite E; reflexivity|exact Ho|]. intros r v Hr. exact (IH r v Hr k kt K).
    - eapply S_init with (k := fun i v => abind (k1 i v) (k i)); [intros i; rewrite E; reflexivity|exact Hl|]. intros r v Hr. exact (IH r v Hr k kt K).
    - eapply S_read with (k := fun i v => abind (k1 i v) (k i)); [intros i; rewrite E; reflexivity|exact Hx|exact Hu|]. intros r w Hr. exact (IH r w Hr k kt K).
    - eapply S_write with (k := fun i v => abind (k1 i v) (k i)); [intros i; rewrite E; reflexivity|exact Hx|exact Hy|exact Hu|]. intros r w Hr. exact (IH r w Hr k kt K).
    - eapply S_open with (k := fun i v => abind (k1 i v) (k i)); [intros i; rewrite E; reflexivity|exact Hl|]. intros r v Hr. exact (IH r v Hr k kt K).
    - eapply S_zeros with (k := fun i v => abind (k1 i v) (k i)); [intros i; rewrite E; reflexivity|]. intros r v Hr. exact (IH r v Hr k kt K).
    - eapply S_brillig with (k := fun i v => abind (k1 i v) (k i)); [intros i; rewrite E; reflexivity|exact Hl|]. intros r v Hr. exact (IH r v Hr k kt K).
  Qed.

  (** ** Runs *)
  Variables (tbrillig : nat -> list (tv F) -> outcome (list (tv F))) (bmay : nat -> list (tv F) -> bool).
  Variable brilligp : nat -> pid -> dst -> list (rv F) -> prog (list (rv F) * dst).
  (** the calls of unconstrained code compute on the secrets *)
  Hypothesis brillig_wpo : forall n l lt d, synced2 d -> pvec rel l lt -> tbrillig n lt <> Failed undef ->
    wpo cap (fun i => brilligp n i (d i) (l i)) (drv_post (pvec rel) (bmay n lt) (tbrillig n lt)).
  Notation run_rep3_ac := (run_rep3_ac (M := M) (Seed := Seed) dbg W du dw hash gtweak otweak digest dg_eqb draw_label draw_delta rgof t brilligp).
  Theorem run_ac_wpo {AP AT} (R : (pid -> AP) -> AT -> Prop) q qt : asim R q qt -> forall d, synced2 d -> run_ideal_ac tbrillig qt <> Failed undef ->
    wpo cap (fun i => run_rep3_ac i (q i) (d i)) (drv_post R (run_may_ac tbrillig bmay qt) (run_ideal_ac tbrillig qt)).
  Proof.
    induction 1 as [q a v E Ra|q e E|q o ot k1 kt1 E Ho _ IH|q l lt k1 kt1 E Hl _ IH|q x a u v k1 kt1 E Hx Hu _ IH|q x y a b u v k1 kt1 E Hx Hy Hu _ IH|q l lt k1 kt1 E Hl _ IH|q n k1 kt1 E _ IH|q n l lt k1 kt1 E Hl _ IH];
      intros d Hd U; (eapply wpo_ext; [intros i; rewrite (E i); cbn [Acvm.run_rep3_ac]; reflexivity|]); cbn [run_ideal_ac run_may_ac] in *.
    - apply wp_wpo, wp_ret. left. exists (fun i => (a i, d i)). split; [reflexivity|]. split; [exact Ra|exact Hd].
    - apply wpo_fail. now exists e.
    - eapply post_bind with (k := fun i r => run_rep3_ac i (k1 i (fst r)) (snd r)); [apply (aop_wpo Hd Ho); intros C; rewrite C in U; now apply U|exact U|].
      intros r v d' Rr Hd' U'. exact (IH r v Rr d' Hd' U').
    - apply (IH (fun i => ac_init i (l i)) (ideal_init lt)); [apply init_rel; exact Hl|exact Hd|exact U].
    - eapply post_bind with (may := false) (k := fun i r => run_rep3_ac i (k1 i (fst r)) (snd r)); [exact (@read_wpo x a u v d Hd Hx Hu)|exact U|].
      intros r w d' Rr Hd' U'. exact (IH r w Rr d' Hd' U').
    - eapply post_bind with (may := false) (k := fun i r => run_rep3_ac i (k1 i (fst r)) (snd r)); [exact (@write_wpo x a y b u v d Hd Hx Hy Hu)|exact U|].
      intros r w d' Rr Hd' U'. exact (IH r w Rr d' Hd' U').
    - eapply post_bind with (may := false) (ideal := Done (map tval lt)) (k := fun i r => run_rep3_ac i (k1 i (fst r)) (snd r)) (kt := fun v => run_ideal_ac tbrillig (kt1 v)) (mt := fun v => run_may_ac tbrillig bmay (kt1 v)); [exact (open_wpo Hd Hl)|exact U|].
      intros r w d' Rr Hd' U'. exact (IH r w Rr d' Hd' U').
    - eapply post_bind with (may := false) (ideal := Done (repeat (Sh 0) n)) (k := fun i r => run_rep3_ac i (k1 i (fst r)) (snd r)) (kt := fun v => run_ideal_ac tbrillig (kt1 v)) (mt := fun v => run_may_ac tbrillig bmay (kt1 v)); [exact (zeros_wpo n Hd)|exact U|].
      intros r w d' Rr Hd' U'. exact (IH r w Rr d' Hd' U').
    - eapply post_bind with (k := fun i r => run_rep3_ac i (k1 i (fst r)) (snd r)); [apply (@brillig_wpo n l lt d Hd Hl); intros C; rewrite C in U; now apply U|exact U|].
      intros r w d' Rr Hd' U'. exact (IH r w Rr d' Hd' U').
  Qed.
End AcvmWp.
