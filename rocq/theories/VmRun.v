(** * The co-circom MPC-VM: runs of the interpreter with the drivers

    [run_plain]: with the driver on clear values; [run_rep3]: one of three parties; [run_ideal]: on
    the values behind the shares.  The three parties end with the values of the ideal run. *)
From Coq Require Import String List Arith NArith Lia Bool.
From Verif Require Import Proc Alg Rep3Net Rep3 Rep3Spec Rep3Proofs Rep3Wp Uint Binary Conv Garble Circuits Garbled Yao
  VmDriver VmIdeal VmDriverWp Vm VmSim.
Import ListNotations.
Set Implicit Arguments.
Local Open Scope grp_scope.
Local Open Scope string_scope.

(** ** Runs *)
Section Clear.
  Context {F : Type} `{FU : FieldUint F}.
  Variable fsqrt : F -> option F.
  (** plain.rs; [is_zero] 227-229, [is_shared] 231-233, [to_index] 235-237, [open] 239-241 *)
  Fixpoint run_plain {A} (q : vmp F F A) : outcome A :=
    match q with
    | VRet a => Done a
    | VFail e => Failed e
    | VBop o x y k => obind (plain_bop o x y) (fun v => run_plain (k v))
    | VUop o x k => obind (plain_uop fsqrt o x) (fun v => run_plain (k v))
    | VCmux c x y k => obind (plain_cmux c x y) (fun v => run_plain (k v))
    | VIsZero x _ k => run_plain (k (feqb x 0))
    | VToIndex x k => obind (to_usize x) (fun v => run_plain (k v))
    | VNum2Bits x n k => run_plain (k (plain_num2bits x n))
    | VAddBits x y k => obind (plain_addbits x y) (fun v => run_plain (k v))
    | VOpen x k => run_plain (k x)
    end.
  (** on the values behind the shares: rep3.rs as specified in VmIdeal.v *)
  Fixpoint run_ideal {A} (q : vmp F (tv F) A) : outcome A :=
    match q with
    | VRet a => Done a
    | VFail e => Failed e
    | VBop o x y k => obind (ideal_bop o x y) (fun v => run_ideal (k v))
    | VUop o x k => obind (ideal_uop fsqrt o x) (fun v => run_ideal (k v))
    | VCmux c x y k => obind (ideal_cmux c x y) (fun v => run_ideal (k v))
    | VIsZero x allow k => obind (ideal_is_zero x allow) (fun v => run_ideal (k v))
    | VToIndex x k => obind (ideal_to_index x) (fun v => run_ideal (k v))
    | VNum2Bits x n k => run_ideal (k (ideal_num2bits x n))
    | VAddBits x y k => obind (ideal_addbits x y) (fun v => run_ideal (k v))
    | VOpen x k => run_ideal (k (tval x))
    end.
  (** the run divides by a shared value or takes the root of one *)
  Definition after {A} (o : outcome A) (f : A -> bool) : bool := match o with Done v => f v | Failed _ => false end.
  Fixpoint run_may {A} (q : vmp F (tv F) A) : bool :=
    match q with
    | VRet _ | VFail _ => false
    | VBop o x y k => may_abort o y || after (ideal_bop o x y) (fun v => run_may (k v))
    | VUop o x k => may_abort_u o x || after (ideal_uop fsqrt o x) (fun v => run_may (k v))
    | VCmux c x y k => after (ideal_cmux c x y) (fun v => run_may (k v))
    | VIsZero x allow k => after (ideal_is_zero x allow) (fun v => run_may (k v))
    | VToIndex x k => after (ideal_to_index x) (fun v => run_may (k v))
    | VNum2Bits x n k => run_may (k (ideal_num2bits x n))
    | VAddBits x y k => after (ideal_addbits x y) (fun v => run_may (k v))
    | VOpen x k => run_may (k (tval x))
    end.
End Clear.

Section Rep3Run.
  Context {F : Type} `{FU : FieldUint F} {S M : Type} (W : nat) (du : nat -> S -> N * S) {DF : Draw S F}.
  Context {Seed : Type} {SS : Seeded S Seed} {DS : Draw S Seed}.
  Context {EN : Enc M (list N)} {ENN : Enc M (list (N * N))}
          {EL : Enc M (list (list N))} {ELL : Enc M (list (list N * list N))} {EF : Enc M (list F)}.
  Variables (hash : N -> N -> N) (gtweak : N -> N) (otweak : N -> bool -> N).
  Context {Dg : Type} {ED : Enc M (list Dg)}.
  Variables (digest : list N -> Dg) (dg_eqb : Dg -> Dg -> bool).
  Variables (draw_label draw_delta : S -> N * S).
  Variable fsqrt : F -> option F.
  Variable rgof : pid -> rst S -> S.
  Variable t : a2b_type.
  Notation dst := (dst (S := S)).
  Notation prog := (prog pid M).
  Notation rep3_bop := (rep3_bop (M := M) (Seed := Seed) W du hash gtweak otweak digest dg_eqb draw_label draw_delta rgof t).
  Notation rep3_uop := (rep3_uop (M := M) (Seed := Seed) W du hash gtweak digest dg_eqb draw_label draw_delta fsqrt rgof t).
  Notation rep3_is_zero := (rep3_is_zero (M := M) (Seed := Seed) W du hash gtweak digest dg_eqb draw_label draw_delta rgof t).
  Notation rep3_num2bits := (rep3_num2bits (M := M) (Seed := Seed) W du hash gtweak digest dg_eqb draw_label draw_delta rgof t).
  Notation rep3_addbits := (rep3_addbits (M := M) (Seed := Seed) W du hash gtweak digest dg_eqb draw_label draw_delta rgof t).
  (** rep3.rs *)
  Fixpoint run_rep3 {A} (i : pid) (q : vmp F (rv F) A) (d : dst) : prog (A * dst) :=
    match q with
    | VRet a => Ret (a, d)
    | VFail e => Fail e
    | VBop o x y k => bind (rep3_bop o i d x y) (fun r => run_rep3 i (k (fst r)) (snd r))
    | VUop o x k => bind (rep3_uop o i d x) (fun r => run_rep3 i (k (fst r)) (snd r))
    | VCmux c x y k => bind (rep3_cmux i d c x y) (fun r => run_rep3 i (k (fst r)) (snd r))
    | VIsZero x allow k => bind (rep3_is_zero i d x allow) (fun r => run_rep3 i (k (fst r)) (snd r))
    | VToIndex x k => bind (rep3_to_index i d x) (fun r => run_rep3 i (k (fst r)) (snd r))
    | VNum2Bits x n k => bind (rep3_num2bits i d x n) (fun r => run_rep3 i (k (fst r)) (snd r))
    | VAddBits x y k => bind (rep3_addbits i d x y) (fun r => run_rep3 i (k (fst r)) (snd r))
    | VOpen x k => bind (rep3_open i d x) (fun r => run_rep3 i (k (fst r)) (snd r))
    end.
  (** mpc_vm.rs:1030-1039, 1062-1069 with the last step of 912-935: the rest of the witness is shared
      out *)
  Definition finish (i : pid) (r : (list F * list (rv F)) * dst) : prog ((list F * list (share F)) * dst) :=
    Ret ((fst (fst r), map (rep3_to_share i) (snd (fst r))), snd r).
  Definition rep3_run (ps : parsed F) (fuel public_inputs : nat) (i : pid) (d : dst) (ins : list (string * rv F)) :
    prog ((list F * list (share F)) * dst) :=
    bind (run_rep3 i (vm_run RPub (@rep3_is_shared F) ps fuel public_inputs ins) d) (finish i).
  Definition rep3_run_flat (ps : parsed F) (fuel public_inputs : nat) (i : pid) (d : dst) (ins : list (rv F)) :
    prog ((list F * list (share F)) * dst) :=
    bind (run_rep3 i (vm_run_flat RPub (@rep3_is_shared F) ps fuel public_inputs ins) d) (finish i).
  (** rep3.rs:587-596 *)
  Definition compare_vm_config {C} `{Enc M (list C)} (eqb : C -> C -> bool) (i : pid) (c : C) : prog unit :=
    x <- reshare i c ;;
    if eqb c x then Ret tt else Fail (Eyre "VM Config does not match").

  (** ** Three parties *)
  Hypothesis dg_eqb_spec : forall x y, dg_eqb x y = true <-> x = y.
  Context (cap : nat) (cap_pos : (1 <= cap)%nat).
  Hypothesis p_odd : N.odd (fu_p (F := F)) = true.
  Hypothesis width : (mbs F + 2 <= W)%nat.
  Hypothesis delta_odd : forall s, color (fst (draw_delta s)) = true.
  Hypothesis hash_sep : forall d z n, color d = true -> hash z (otweak n false) <> hash (N.lxor z d) (otweak n false).
  Hypothesis fsqrt_root : forall z w, fsqrt z = Some w -> rmul w w = z.
  Hypothesis fsqrt_none : forall z, fsqrt z = None -> forall w, rmul w w <> z.

  (** the values of the parties with the value behind them *)
  Definition joint : Type := { r : (pid -> rv F) * tv F | rel (fst r) (snd r) }.
  Definition jp (i : pid) (w : joint) : rv F := fst (proj1_sig w) i.
  Definition jt (w : joint) : tv F := snd (proj1_sig w).
  Lemma j_rel w : rel (fun i => jp i w) (jt w). Proof. exact (proj2_sig w). Qed.
  Definition jmk (r : pid -> rv F) (a : tv F) (H : rel r a) : joint := exist _ (r, a) H.
  Definition jpub (x : F) : joint := @jmk (fun _ => RPub x) (Pub x) (fun _ => eq_refl).
  Definition jsh (w : joint) : bool := tshared (jt w).
  Lemma jp_sh i w : rep3_is_shared (jp i w) = jsh w.
  Proof. destruct w as [[r a] Hr]. unfold jp, jsh, jt. cbn in *. destruct a; cbn in *; [now rewrite Hr|destruct Hr as (s & -> & _); reflexivity]. Qed.

  Lemma pvec_joint (l : pid -> list (rv F)) a : pvec rel l a -> exists ws, (forall i, l i = map (jp i) ws) /\ a = map jt ws.
  Proof.
    revert l. induction a as [|v a IH]; intros l Hl.
    - exists []. split; [|reflexivity]. intros i. destruct Hl as [Hn _]. specialize (Hn i). now destruct (l i).
    - pose proof (proj2 Hl 0%nat v eq_refl) as (h & Eh & Rh).
      destruct (IH (fun i => tl (l i))) as (ws & E1 & E2).
      + split; [intros i; destruct (l i) eqn:E; pose proof (proj1 Hl i) as K; rewrite E in K; cbn in *; lia|].
        intros n x Ex. destruct (proj2 Hl (Datatypes.S n) x Ex) as (b & Eb & Rb). exists b. split; [|exact Rb]. intros i. specialize (Eb i). destruct (l i); [discriminate|exact Eb].
      + exists (@jmk h v Rh :: ws). split; [|cbn; now rewrite E2]. intros i. specialize (E1 i). specialize (Eh i). destruct (l i); [discriminate|]. cbn in *. congruence.
  Qed.
  Lemma joint_pvec ws : pvec rel (fun i => map (jp i) ws) (map jt ws).
  Proof.
    split; [intros i; now rewrite !map_length|]. intros n x E. rewrite nth_error_map' in E. destruct (nth_error ws n) as [w|] eqn:En; [|discriminate].
    injection E as <-. exists (fun i => jp i w). split; [|apply j_rel]. intros i. now rewrite nth_error_map', En.
  Qed.

  Definition joined {A AP AT} (gp : pid -> A -> AP) (gt : A -> AT) (r : pid -> AP) (v : AT) : Prop := exists a, (forall i, r i = gp i a) /\ v = gt a.
  Lemma post_bind {B C E G} (R : (pid -> B) -> C -> Prop) (RA : (pid -> E) -> G -> Prop) may ideal (ps : pid -> prog (B * dst)) (k : pid -> B * dst -> prog (E * dst)) (kt : C -> outcome G) (mt : C -> bool) :
    wpo cap ps (drv_post R may ideal) -> obind ideal kt <> Failed undef ->
    (forall r v d, R r v -> synced2 d -> kt v <> Failed undef -> wpo cap (fun i => k i (r i, d i)) (drv_post RA (mt v) (kt v))) ->
    wpo cap (fun i => bind (ps i) (k i)) (drv_post RA (may || after ideal mt) (obind ideal kt)).
  Proof.
    intros K U C1. apply wpo_seq. eapply wpo_mono; [|exact K]. intros o Ho. destruct ideal as [v|e]; cbn [drv_post obind after] in *.
    - destruct Ho as [(r & Er & Rr & Hd)|(Em & e & Ee)].
      + specialize (C1 _ v _ Rr Hd U). eapply wpo_ext; [intros i; rewrite (Er i); cbn; reflexivity|].
        eapply wpo_mono; [|eapply wpo_ext; [|exact C1]].
        * intros o' P. destruct (kt v) as [g|e']; cbn [drv_post] in *; [|exact P]. destruct P as [P|(Em & P)]; [left; exact P|right]. split; [rewrite Em; apply orb_true_r|exact P].
        * intros i. cbn. now rewrite <- surjective_pairing.
      + eapply wpo_ext; [intros i; rewrite (Ee i); cbn; reflexivity|]. apply wpo_fail. destruct (kt v); cbn [drv_post].
        * right. rewrite Em. split; [reflexivity|]. now exists e.
        * now exists e.
    - destruct Ho as (e' & Ee). eapply wpo_ext; [intros i; rewrite (Ee i); cbn; reflexivity|]. apply wpo_fail. cbn [drv_post]. now exists e'.
  Qed.

  Arguments post_bind {B C E G R RA may ideal ps k kt mt}.

  Lemma run_wpo {A AP AT} (gp : pid -> A -> AP) (gt : A -> AT) (q : vmp F joint A) : forall (qp : pid -> vmp F (rv F) AP) (qt : vmp F (tv F) AT) d,
    (forall i, vsim (jp i) (gp i) q (qp i)) -> vsim jt gt q qt -> synced2 d -> run_ideal fsqrt qt <> Failed undef ->
    wpo cap (fun i => run_rep3 i (qp i) (d i)) (drv_post (joined gp gt) (run_may fsqrt qt) (run_ideal fsqrt qt)).
  Proof.
    induction q as [a|e|o x y k1 IH|o x k1 IH|c x y k1 IH|x al k1 IH|x k1 IH|x n k1 IH|x y k1 IH|x k1 IH]; intros qp qt d Sp St Hd U;
      destruct qt; cbn [vsim] in St; try contradiction.
    - subst. cbn [run_ideal drv_post run_may].
      eapply wpo_ext; [intros i; specialize (Sp i); destruct (qp i); cbn [vsim] in Sp; try contradiction; subst; cbn [run_rep3]; reflexivity|].
      apply wp_wpo, wp_ret. left. exists (fun i => (gp i a, d i)). repeat split; try apply Hd. exists a. auto.
    - subst. cbn [run_ideal drv_post run_may].
      eapply wpo_ext; [intros i; specialize (Sp i); destruct (qp i); cbn [vsim] in Sp; try contradiction; subst; cbn [run_rep3]; reflexivity|].
      apply wpo_fail. now exists e.
    - destruct St as (-> & -> & -> & St).
      set (kk := fun i => match qp i with VBop _ _ _ k => k | _ => fun _ => VFail oob end).
      assert (E : forall i, qp i = VBop o (jp i x) (jp i y) (kk i) /\ forall w, vsim (jp i) (gp i) (k1 w) (kk i (jp i w))).
      { intros i. specialize (Sp i). unfold kk. destruct (qp i); cbn [vsim] in Sp; try contradiction. repeat match goal with X : _ /\ _ |- _ => destruct X end; subst; auto. }
      eapply wpo_ext; [intros i; rewrite (proj1 (E i)); cbn [run_rep3]; reflexivity|]. cbn [run_ideal run_may] in *.
      eapply (post_bind (k := fun i r => run_rep3 i (kk i (fst r)) (snd r))); [apply (bop_wpo du hash gtweak otweak digest dg_eqb draw_label draw_delta rgof t dg_eqb_spec cap_pos p_odd width delta_odd hash_sep o _ _ (jt x) (jt y) Hd (j_rel x) (j_rel y)); intros U'; rewrite U' in U; now apply U|exact U|].
      intros r u d' Rr Hd' U'. apply (IH (jmk r u Rr) (fun i => kk i (r i))); [intros i; exact (proj2 (E i) (jmk r u Rr))|exact (St (jmk r u Rr))|exact Hd'|exact U'].
    - destruct St as (-> & -> & St).
      set (kk := fun i => match qp i with VUop _ _ k => k | _ => fun _ => VFail oob end).
      assert (E : forall i, qp i = VUop o (jp i x) (kk i) /\ forall w, vsim (jp i) (gp i) (k1 w) (kk i (jp i w))).
      { intros i. specialize (Sp i). unfold kk. destruct (qp i); cbn [vsim] in Sp; try contradiction. repeat match goal with X : _ /\ _ |- _ => destruct X end; subst; auto. }
      eapply wpo_ext; [intros i; rewrite (proj1 (E i)); cbn [run_rep3]; reflexivity|]. cbn [run_ideal run_may] in *.
      eapply (post_bind (k := fun i r => run_rep3 i (kk i (fst r)) (snd r))); [apply (uop_wpo du hash gtweak digest dg_eqb draw_label draw_delta fsqrt rgof t dg_eqb_spec cap_pos p_odd width delta_odd fsqrt_root fsqrt_none o _ (jt x) Hd (j_rel x))|exact U|].
      intros r u d' Rr Hd' U'. apply (IH (jmk r u Rr) (fun i => kk i (r i))); [intros i; exact (proj2 (E i) (jmk r u Rr))|exact (St (jmk r u Rr))|exact Hd'|exact U'].
    - destruct St as (-> & -> & -> & St).
      set (kk := fun i => match qp i with VCmux _ _ _ k => k | _ => fun _ => VFail oob end).
      assert (E : forall i, qp i = VCmux (jp i c) (jp i x) (jp i y) (kk i) /\ forall w, vsim (jp i) (gp i) (k1 w) (kk i (jp i w))).
      { intros i. specialize (Sp i). unfold kk. destruct (qp i); cbn [vsim] in Sp; try contradiction. repeat match goal with X : _ /\ _ |- _ => destruct X end; subst; auto. }
      eapply wpo_ext; [intros i; rewrite (proj1 (E i)); cbn [run_rep3]; reflexivity|]. cbn [run_ideal run_may] in *.
      eapply (post_bind (may := false) (k := fun i r => run_rep3 i (kk i (fst r)) (snd r))); [apply (cmux_wpo du hash gtweak otweak digest dg_eqb draw_label draw_delta rgof t dg_eqb_spec cap_pos p_odd width delta_odd hash_sep _ _ _ (jt c) (jt x) (jt y) Hd (j_rel c) (j_rel x) (j_rel y))|exact U|].
      intros r u d' Rr Hd' U'. apply (IH (jmk r u Rr) (fun i => kk i (r i))); [intros i; exact (proj2 (E i) (jmk r u Rr))|exact (St (jmk r u Rr))|exact Hd'|exact U'].
    - destruct St as (-> & -> & St).
      set (kk := fun i => match qp i with VIsZero _ _ k => k | _ => fun _ => VFail oob end).
      assert (E : forall i, qp i = VIsZero (jp i x) al (kk i) /\ forall w, vsim (jp i) (gp i) (k1 w) (kk i w)).
      { intros i. specialize (Sp i). unfold kk. destruct (qp i); cbn [vsim] in Sp; try contradiction. repeat match goal with X : _ /\ _ |- _ => destruct X end; subst; auto. }
      eapply wpo_ext; [intros i; rewrite (proj1 (E i)); cbn [run_rep3]; reflexivity|]. cbn [run_ideal run_may] in *.
      eapply (post_bind (may := false) (k := fun i r => run_rep3 i (kk i (fst r)) (snd r))); [apply (is_zero_wpo du hash gtweak digest dg_eqb draw_label draw_delta rgof t dg_eqb_spec cap_pos p_odd width delta_odd _ (jt x) al Hd (j_rel x))|exact U|].
      intros r u d' Rr Hd' U'. apply (IH u (fun i => kk i (r i))); [intros i; rewrite (Rr i); exact (proj2 (E i) u)|exact (St u)|exact Hd'|exact U'].
    - destruct St as (-> & St).
      set (kk := fun i => match qp i with VToIndex _ k => k | _ => fun _ => VFail oob end).
      assert (E : forall i, qp i = VToIndex (jp i x) (kk i) /\ forall w, vsim (jp i) (gp i) (k1 w) (kk i w)).
      { intros i. specialize (Sp i). unfold kk. destruct (qp i); cbn [vsim] in Sp; try contradiction. repeat match goal with X : _ /\ _ |- _ => destruct X end; subst; auto. }
      eapply wpo_ext; [intros i; rewrite (proj1 (E i)); cbn [run_rep3]; reflexivity|]. cbn [run_ideal run_may] in *.
      eapply (post_bind (may := false) (k := fun i r => run_rep3 i (kk i (fst r)) (snd r))); [apply (to_index_wpo (M := M) cap _ (jt x) Hd (j_rel x))|exact U|].
      intros r u d' Rr Hd' U'. apply (IH u (fun i => kk i (r i))); [intros i; rewrite (Rr i); exact (proj2 (E i) u)|exact (St u)|exact Hd'|exact U'].
    - destruct St as (-> & -> & St).
      set (kk := fun i => match qp i with VNum2Bits _ _ k => k | _ => fun _ => VFail oob end).
      assert (E : forall i, qp i = VNum2Bits (jp i x) n (kk i) /\ forall w, vsim (jp i) (gp i) (k1 w) (kk i (map (jp i) w))).
      { intros i. specialize (Sp i). unfold kk. destruct (qp i); cbn [vsim] in Sp; try contradiction. repeat match goal with X : _ /\ _ |- _ => destruct X end; subst; auto. }
      eapply wpo_ext; [intros i; rewrite (proj1 (E i)); cbn [run_rep3]; reflexivity|]. cbn [run_ideal run_may] in *.
      eapply (post_bind (may := false) (ideal := Done (ideal_num2bits (jt x) n)) (kt := fun u => run_ideal fsqrt (v u)) (mt := fun u => run_may fsqrt (v u)) (k := fun i r => run_rep3 i (kk i (fst r)) (snd r))); [apply (num2bits_wpo du hash gtweak digest dg_eqb draw_label draw_delta rgof t dg_eqb_spec cap_pos p_odd width delta_odd _ (jt x) n Hd (j_rel x))|exact U|].
      intros r u d' Rr Hd' U'. destruct (pvec_joint Rr) as (ws & Ew & ->).
      apply (IH ws (fun i => kk i (r i))); [intros i; rewrite (Ew i); exact (proj2 (E i) ws)|exact (St ws)|exact Hd'|exact U'].
    - destruct St as (-> & -> & St).
      set (kk := fun i => match qp i with VAddBits _ _ k => k | _ => fun _ => VFail oob end).
      assert (E : forall i, qp i = VAddBits (map (jp i) x) (map (jp i) y) (kk i) /\ forall w z, vsim (jp i) (gp i) (k1 (w, z)) (kk i (map (jp i) w, jp i z))).
      { intros i. specialize (Sp i). unfold kk. destruct (qp i); cbn [vsim] in Sp; try contradiction. repeat match goal with X : _ /\ _ |- _ => destruct X end; subst; auto. }
      eapply wpo_ext; [intros i; rewrite (proj1 (E i)); cbn [run_rep3]; reflexivity|]. cbn [run_ideal run_may] in *.
      eapply (post_bind (may := false) (k := fun i r => run_rep3 i (kk i (fst r)) (snd r))); [apply (addbits_wpo du hash gtweak digest dg_eqb draw_label draw_delta rgof t dg_eqb_spec cap_pos p_odd width delta_odd Hd (joint_pvec x) (joint_pvec y))|exact U|].
      intros r [u1 u2] d' [Rr1 Rr2] Hd' U'. cbn [fst snd] in *. destruct (pvec_joint Rr1) as (ws & Ew & ->).
      apply (IH (ws, jmk (fun i => snd (r i)) u2 Rr2) (fun i => kk i (r i))); [|exact (St ws (jmk (fun i => snd (r i)) u2 Rr2))|exact Hd'|exact U'].
      intros i. rewrite (surjective_pairing (r i)), (Ew i). exact (proj2 (E i) ws (jmk (fun i => snd (r i)) u2 Rr2)).
    - destruct St as (-> & St).
      set (kk := fun i => match qp i with VOpen _ k => k | _ => fun _ => VFail oob end).
      assert (E : forall i, qp i = VOpen (jp i x) (kk i) /\ forall w, vsim (jp i) (gp i) (k1 w) (kk i w)).
      { intros i. specialize (Sp i). unfold kk. destruct (qp i); cbn [vsim] in Sp; try contradiction. repeat match goal with X : _ /\ _ |- _ => destruct X end; subst; auto. }
      eapply wpo_ext; [intros i; rewrite (proj1 (E i)); cbn [run_rep3]; reflexivity|]. cbn [run_ideal run_may] in *.
      eapply (post_bind (may := false) (ideal := Done (tval (jt x))) (kt := fun u => run_ideal fsqrt (v u)) (mt := fun u => run_may fsqrt (v u)) (k := fun i r => run_rep3 i (kk i (fst r)) (snd r))); [apply (open_wpo cap_pos _ (jt x) Hd (j_rel x))|exact U|].
      intros r u d' Rr Hd' U'. apply (IH u (fun i => kk i (r i))); [intros i; rewrite (Rr i); exact (proj2 (E i) u)|exact (St u)|exact Hd'|exact U'].
  Qed.

  (** *** Whole runs *)
  Definition ideal_run (ps : parsed F) (fuel public_inputs : nat) (ins : list (string * tv F)) := vm_run Pub (@tshared F) ps fuel public_inputs ins.
  Definition ideal_run_flat (ps : parsed F) (fuel public_inputs : nat) (ins : list (tv F)) := vm_run_flat Pub (@tshared F) ps fuel public_inputs ins.
  (** a named input of the parties *)
  Definition rel_in (r : pid -> string * rv F) (v : string * tv F) : Prop := (forall i, fst (r i) = fst v) /\ rel (fun i => snd (r i)) (snd v).
  (** the public part of the witness is the same everywhere, the rest is shared *)
  Definition witness_of (r : pid -> list F * list (share F)) (v : list F * list (tv F)) : Prop :=
    (forall i, fst (r i) = fst v) /\ shares_vec (fun i => snd (r i)) (map tval (snd v)).
  Lemma named_joint (l : pid -> list (string * rv F)) a : pvec rel_in l a ->
    exists ws, (forall i, l i = map (fun x => (fst x, jp i (snd x))) ws) /\ a = map (fun x => (fst x, jt (snd x))) ws.
  Proof.
    revert l. induction a as [|v a IH]; intros l Hl.
    - exists []. split; [|reflexivity]. intros i. destruct Hl as [Hn _]. specialize (Hn i). now destruct (l i).
    - pose proof (proj2 Hl 0%nat v eq_refl) as (h & Eh & Rh).
      destruct (IH (fun i => tl (l i))) as (ws & E1 & E2).
      + split; [intros i; destruct (l i) eqn:E; pose proof (proj1 Hl i) as K; rewrite E in K; cbn in *; lia|].
        intros n x Ex. destruct (proj2 Hl (Datatypes.S n) x Ex) as (b & Eb & Rb). exists b. split; [|exact Rb]. intros i. specialize (Eb i). destruct (l i); [discriminate|exact Eb].
      + exists ((fst v, jmk (fun i => snd (h i)) (snd v) (proj2 Rh)) :: ws). split; [|cbn; rewrite E2; now destruct v].
        intros i. specialize (E1 i). specialize (Eh i). pose proof (proj1 Rh i) as Ef. destruct (l i) as [|b l0]; [discriminate|]. cbn in *.
        injection Eh as ->. rewrite E1, <- Ef. now destruct (h i).
  Qed.
  Lemma finish_wpo (qp : pid -> vmp F (rv F) (list F * list (rv F))) may ideal d :
    wpo cap (fun i => run_rep3 i (qp i) (d i))
      (drv_post (joined (fun i (r : list F * list joint) => (fst r, map (jp i) (snd r))) (fun r => (fst r, map jt (snd r)))) may ideal) ->
    wpo cap (fun i => bind (run_rep3 i (qp i) (d i)) (finish i)) (drv_post witness_of may ideal).
  Proof.
    intros K. apply wpo_seq. eapply wpo_mono; [|exact K]. intros o Ho. destruct ideal as [v|e]; cbn [drv_post] in *.
    - destruct Ho as [(r & Er & ((pubs & ws) & Rr & ->) & Hd)|(Em & e & Ee)].
      + eapply wpo_ext; [intros i; rewrite (Er i); cbn; reflexivity|]. apply wp_wpo. unfold finish. apply wp_ret. left.
        eexists. split; [reflexivity|]. cbn [fst snd]. split; [|exact Hd]. split; cbn [fst snd] in *; [intros i; now rewrite Rr|].
        split; [intros i; rewrite (Rr i); cbn [snd]; now rewrite !map_length|]. intros n x E. rewrite !nth_error_map' in E.
        destruct (nth_error ws n) as [w|] eqn:En; [|discriminate]. injection E as <-. exists (fun i => rep3_to_share i (jp i w)).
        split; [intros i; rewrite (Rr i); cbn [snd]; now rewrite !nth_error_map', En|]. apply to_share_ok, j_rel.
      + eapply wpo_ext; [intros i; rewrite (Ee i); cbn; reflexivity|]. apply wpo_fail. right. split; [exact Em|]. now exists e.
    - destruct Ho as (e' & Ee). eapply wpo_ext; [intros i; rewrite (Ee i); cbn; reflexivity|]. apply wpo_fail. now exists e'.
  Qed.
  Lemma rep3_run_wpo ps fuel k d (ins : pid -> list (string * rv F)) ins' : synced2 d -> pvec rel_in ins ins' ->
    run_ideal fsqrt (ideal_run ps fuel k ins') <> Failed undef ->
    wpo cap (fun i => rep3_run ps fuel k i (d i) (ins i))
      (drv_post witness_of (run_may fsqrt (ideal_run ps fuel k ins')) (run_ideal fsqrt (ideal_run ps fuel k ins'))).
  Proof.
    intros Hd Hi U. destruct (named_joint Hi) as (ws & Ew & ->). unfold rep3_run. apply finish_wpo.
    apply (@run_wpo _ _ _ _ _ (vm_run jpub jsh ps fuel k ws)); [|apply vm_run_sim; reflexivity|exact Hd|exact U].
    intros i. rewrite (Ew i). apply vm_run_sim; [reflexivity|apply jp_sh].
  Qed.
  Lemma rep3_run_flat_wpo ps fuel k d (ins : pid -> list (rv F)) ins' : synced2 d -> pvec rel ins ins' ->
    run_ideal fsqrt (ideal_run_flat ps fuel k ins') <> Failed undef ->
    wpo cap (fun i => rep3_run_flat ps fuel k i (d i) (ins i))
      (drv_post witness_of (run_may fsqrt (ideal_run_flat ps fuel k ins')) (run_ideal fsqrt (ideal_run_flat ps fuel k ins'))).
  Proof.
    intros Hd Hi U. destruct (pvec_joint Hi) as (ws & Ew & ->). unfold rep3_run_flat. apply finish_wpo.
    apply (@run_wpo _ _ _ _ _ (vm_run_flat jpub jsh ps fuel k ws)); [|apply vm_run_flat_sim; reflexivity|exact Hd|exact U].
    intros i. rewrite (Ew i). apply vm_run_flat_sim; [reflexivity|apply jp_sh].
  Qed.
  Lemma compare_config_wpo {C} {EC : Enc M (list C)} (eqb : C -> C -> bool) (c : pid -> C) : (forall x y, eqb x y = true <-> x = y) ->
    wpo cap (fun i => compare_vm_config eqb i (c i))
      (fun o => forall i, (c i = c (prev i) -> o i = Done tt) /\ (c i <> c (prev i) -> exists s, o i = Failed (Eyre s))).
  Proof.
    intros Es. unfold compare_vm_config. apply wpo_bind. apply wp_reshare; [exact cap_pos|].
    exists (fun i => if eqb (c i) (c (prev i)) then Done tt else Failed (Eyre "VM Config does not match")). split.
    - eapply runs_ext; [|exact (runs_ret all3 cap (fun i => if eqb (c i) (c (prev i)) then Done tt else Failed (Eyre "VM Config does not match")))].
      intros i. cbn. destruct (eqb _ _); reflexivity.
    - intros i. split; intros E.
      + now rewrite (proj2 (Es _ _) E).
      + destruct (eqb (c i) (c (prev i))) eqn:K; [apply Es in K; congruence|]. now eexists.
  Qed.
End Rep3Run.
