(** * Properties of the drivers of the co-circom MPC-VM (C46) *)
From Coq Require Import String List Arith NArith ZArith Lia Bool.
From Verif Require Import Proc Alg Zp Rep3Net Rep3 Rep3Spec Rep3Proofs Rep3Wp Uint Binary Conv Exec Garble Circuits Garbled Yao
  VmDriver VmIdeal VmDriverWp Concrete ConcreteU ConcreteY ConcreteV.
Import ListNotations.
Local Open Scope grp_scope.

(** [rel r a]: the three parties hold the value [a] (all the same public value, or shares of the
    secret).  [holds r v]: public or shared, the parties hold [v].  [drv_post R may x o]: if [x] is
    a value, all parties return values related to it by [R] and their generators stay matched, or,
    only if [may] is true, all abort with the same error; if [x] is an error all abort with the same
    error.  The hash of the garbled circuits is arbitrary as long as it never maps the two labels
    of an output wire to one value. *)
Section C46.
  Context {F : Type} `{FU : FieldUint F} {S M : Type} (W : nat) (du : nat -> S -> N * S) {DF : Draw S F}.
  Context {Seed : Type} {SS : Seeded S Seed} {DS : Draw S Seed}.
  Context {EN : Enc M (list N)} {ENN : Enc M (list (N * N))}
          {EL : Enc M (list (list N))} {ELL : Enc M (list (list N * list N))} {EF : Enc M (list F)}.
  Context (hash : N -> N -> N) (gtweak : N -> N) (otweak : N -> bool -> N).
  Context {Dg : Type} {ED : Enc M (list Dg)} (digest : list N -> Dg) (dg_eqb : Dg -> Dg -> bool).
  Context (draw_label draw_delta : S -> N * S) (fsqrt : F -> option F) (rgof : pid -> rst S -> S) (t : a2b_type).
  Context (dg_eqb_spec : forall x y, dg_eqb x y = true <-> x = y).
  Context (cap : nat) (cap_pos : (1 <= cap)%nat) (p_odd : N.odd (fu_p (F := F)) = true) (width : (mbs F + 2 <= W)%nat).
  Context (delta_odd : forall s, color (fst (draw_delta s)) = true).
  Context (hash_sep : forall d z n, color d = true -> hash z (otweak n false) <> hash (N.lxor z d) (otweak n false)).
  Context (fsqrt_root : forall z w, fsqrt z = Some w -> rmul w w = z).
  Context (fsqrt_none : forall z, fsqrt z = None -> forall w, rmul w w <> z).
  Context (d : pid -> dst (S := S)) (Hd : synced2 d).

  (** what each operation computes on the values behind the shares, errors included *)
  Theorem C46_binary o x y (a b : tv F) : rel x a -> rel y b -> ideal_bop o a b <> Failed undef ->
    all_end cap (fun i => rep3_bop (M := M) (Seed := Seed) W du hash gtweak otweak digest dg_eqb draw_label draw_delta rgof t o i (d i) (x i) (y i))
      (drv_post rel (may_abort o b) (ideal_bop o a b)).
  Proof. exact (fun Hx Hy Hu => wpo_all_end (bop_wpo du hash gtweak otweak digest dg_eqb draw_label draw_delta rgof t dg_eqb_spec cap_pos p_odd width delta_odd hash_sep o x y a b Hd Hx Hy Hu)). Qed.
  Theorem C46_unary o x (a : tv F) : rel x a ->
    all_end cap (fun i => rep3_uop (M := M) (Seed := Seed) W du hash gtweak digest dg_eqb draw_label draw_delta fsqrt rgof t o i (d i) (x i))
      (drv_post rel (may_abort_u o a) (ideal_uop fsqrt o a)).
  Proof. exact (fun Hx => wpo_all_end (uop_wpo du hash gtweak digest dg_eqb draw_label draw_delta fsqrt rgof t dg_eqb_spec cap_pos p_odd width delta_odd fsqrt_root fsqrt_none o x a Hd Hx)). Qed.
  Theorem C46_cmux c x y (tc a b : tv F) : rel c tc -> rel x a -> rel y b ->
    all_end cap (fun i => rep3_cmux (M := M) i (d i) (c i) (x i) (y i)) (drv_post rel false (ideal_cmux tc a b)).
  Proof. exact (fun Hc Hx Hy => wpo_all_end (cmux_wpo du hash gtweak otweak digest dg_eqb draw_label draw_delta rgof t dg_eqb_spec cap_pos p_odd width delta_odd hash_sep c x y tc a b Hd Hc Hx Hy)). Qed.
  Theorem C46_is_zero x (a : tv F) allow : rel x a ->
    all_end cap (fun i => rep3_is_zero (M := M) (Seed := Seed) W du hash gtweak digest dg_eqb draw_label draw_delta rgof t i (d i) (x i) allow)
      (drv_post same false (ideal_is_zero a allow)).
  Proof. exact (fun Hx => wpo_all_end (is_zero_wpo du hash gtweak digest dg_eqb draw_label draw_delta rgof t dg_eqb_spec cap_pos p_odd width delta_odd x a allow Hd Hx)). Qed.
  Theorem C46_to_index x (a : tv F) : rel x a ->
    all_end cap (fun i => rep3_to_index (M := M) i (d i) (x i)) (drv_post same false (ideal_to_index a)).
  Proof. exact (fun Hx => wpo_all_end (to_index_wpo (M := M) cap x a Hd Hx)). Qed.
  Theorem C46_open x (a : tv F) : rel x a ->
    all_end cap (fun i => rep3_open (M := M) i (d i) (x i)) (drv_post same false (Done (tval a))).
  Proof. exact (fun Hx => wpo_all_end (open_wpo cap_pos x a Hd Hx)). Qed.
  Theorem C46_to_share x (a : tv F) : rel x a -> shares (fun i => rep3_to_share i (x i)) (tval a).
  Proof. exact (to_share_ok x a). Qed.
  Theorem C46_num2bits x (a : tv F) bits : rel x a ->
    all_end cap (fun i => rep3_num2bits (M := M) (Seed := Seed) W du hash gtweak digest dg_eqb draw_label draw_delta rgof t i (d i) (x i) bits)
      (drv_post (pvec rel) false (Done (ideal_num2bits a bits))).
  Proof. exact (fun Hx => wpo_all_end (num2bits_wpo du hash gtweak digest dg_eqb draw_label draw_delta rgof t dg_eqb_spec cap_pos p_odd width delta_odd x a bits Hd Hx)). Qed.
  Theorem C46_addbits x y (a b : list (tv F)) : pvec rel x a -> pvec rel y b ->
    all_end cap (fun i => rep3_addbits (M := M) (Seed := Seed) W du hash gtweak digest dg_eqb draw_label draw_delta rgof t i (d i) (x i) (y i))
      (drv_post rel_bits false (ideal_addbits a b)).
  Proof. exact (fun Hx Hy => wpo_all_end (addbits_wpo du hash gtweak digest dg_eqb draw_label draw_delta rgof t dg_eqb_spec cap_pos p_odd width delta_odd Hd Hx Hy)). Qed.

  (** The parties compute what the driver on clear values computes.  The conditions exclude exactly
      the operations and operands for which they do not: [supported] those where the parties abort,
      [faithful] those where the result differs (the refutations below). *)
  Theorem C46_binary_clear o x y (a b : tv F) v : rel x a -> rel y b -> supported o a b -> faithful o a b ->
    plain_bop o (tval a) (tval b) = Done v ->
    all_end cap (fun i => rep3_bop (M := M) (Seed := Seed) W du hash gtweak otweak digest dg_eqb draw_label draw_delta rgof t o i (d i) (x i) (y i))
      (drv_post holds (may_abort o b) (Done v)).
  Proof. exact (fun Hx Hy Hs Hf Hp => wpo_all_end (bop_clear du hash gtweak otweak digest dg_eqb draw_label draw_delta rgof t dg_eqb_spec cap_pos p_odd width delta_odd hash_sep x y Hd Hx Hy Hs Hf Hp)). Qed.
  Theorem C46_unary_clear o x (a : tv F) v : rel x a -> plain_uop fsqrt o (tval a) = Done v ->
    all_end cap (fun i => rep3_uop (M := M) (Seed := Seed) W du hash gtweak digest dg_eqb draw_label draw_delta fsqrt rgof t o i (d i) (x i))
      (drv_post holds (may_abort_u o a) (Done v)).
  Proof. exact (fun Hx Hp => wpo_all_end (uop_clear du hash gtweak digest dg_eqb draw_label draw_delta fsqrt rgof t dg_eqb_spec cap_pos p_odd width delta_odd fsqrt_root fsqrt_none o x a Hd Hx Hp)). Qed.
  Theorem C46_cmux_clear c x y (tc a b : tv F) v : rel c tc -> rel x a -> rel y b -> plain_cmux (tval tc) (tval a) (tval b) = Done v ->
    all_end cap (fun i => rep3_cmux (M := M) i (d i) (c i) (x i) (y i)) (drv_post holds false (Done v)).
  Proof. exact (fun Hc Hx Hy Hp => wpo_all_end (cmux_clear du hash gtweak otweak digest dg_eqb draw_label draw_delta rgof t dg_eqb_spec cap_pos p_odd width delta_odd hash_sep c x y tc a b Hd Hc Hx Hy Hp)). Qed.
End C46.
Print Assumptions C46_binary.
Print Assumptions C46_unary.
Print Assumptions C46_cmux.
Print Assumptions C46_is_zero.
Print Assumptions C46_to_index.
Print Assumptions C46_open.
Print Assumptions C46_to_share.
Print Assumptions C46_num2bits.
Print Assumptions C46_addbits.
Print Assumptions C46_binary_clear.
Print Assumptions C46_unary_clear.
Print Assumptions C46_cmux_clear.

(** ** Concrete cases: the field with 13 elements, direct conversions and conversions by garbled circuits *)
Notation bop13 t o x y i := (rep3_bop (M := msg) (Seed := Z) 64 du13 hash_v gtweak_t otweak_t digest_t eqb_t label_t delta_t rgof13 t o i (d13 i) (x i) (y i)).
Notation uop13 t o x i := (rep3_uop (M := msg) (Seed := Z) 64 du13 hash_v gtweak_t digest_t eqb_t label_t delta_t fsqrt13 rgof13 t o i (d13 i) (x i)).
Definition bop13_ok t o x y (a b : tv F13) := fun Hx Hy Hu => @C46_binary F13 _ _ Z msg 64 du13 _ Z _ _ _ _ _ hash_v gtweak_t otweak_t _ _ digest_t eqb_t label_t delta_t rgof13 t
  (fun x y => eqb_t_spec x y) 1 (le_n 1) p13_odd w13y delta_t_odd hash_v_sep d13 d13_synced o x y a b Hx Hy Hu.
Definition clear13_ok t o x y (a b : tv F13) v := fun Hx Hy Hs Hf Hp => @C46_binary_clear F13 _ _ Z msg 64 du13 _ Z _ _ _ _ _ hash_v gtweak_t otweak_t _ _ digest_t eqb_t label_t delta_t rgof13 t
  (fun x y => eqb_t_spec x y) 1 (le_n 1) p13_odd w13y delta_t_odd hash_v_sep d13 d13_synced o x y a b v Hx Hy Hs Hf Hp.
(** 11 \ 3 with a shared dividend and divisor: 3 *)
Example ex_C46_int_div : all_end 1 (fun i => bop13 Yao OIntDiv (sv 11 4 7) (sv 3 2 9) i) (drv_post holds false (Done (f13 3))).
Proof. refine (clear13_ok Yao OIntDiv _ _ (Sh (f13 11)) (Sh (f13 3)) (f13 3) (sv_rel _ _ _) (sv_rel _ _ _) _ _ _); vm_compute; auto. Qed.
(** 11 < 2 as signed numbers: 11 stands for -2 *)
Example ex_C46_lt : all_end 1 (fun i => bop13 Direct OLt (sv 11 4 7) (pv 2) i) (drv_post holds false (Done (f13 1))).
Proof. refine (clear13_ok Direct OLt _ _ (Sh (f13 11)) (Pub (f13 2)) (f13 1) (sv_rel _ _ _) (pv_rel _) _ _ _); vm_compute; auto. Qed.
(** 7 & 5 *)
Example ex_C46_and : all_end 1 (fun i => bop13 Yao OBitAnd (sv 7 4 7) (sv 5 2 9) i) (drv_post holds false (Done (f13 5))).
Proof. refine (clear13_ok Yao OBitAnd _ _ (Sh (f13 7)) (Sh (f13 5)) (f13 5) (sv_rel _ _ _) (sv_rel _ _ _) _ _ _); vm_compute; auto. Qed.
(** the root of 3 that is not negative is 4 *)
Example ex_C46_sqrt : all_end 1 (fun i => uop13 Direct OSqrt (sv 3 4 7) i) (drv_post holds true (Done (f13 4))).
Proof.
  refine (@C46_unary_clear F13 _ _ Z msg 64 du13 _ Z _ _ _ _ _ hash_v gtweak_t _ _ digest_t eqb_t label_t delta_t fsqrt13 rgof13 Direct
    (fun x y => eqb_t_spec x y) 1 (le_n 1) p13_odd w13y delta_t_odd fsqrt13_root fsqrt13_none d13 d13_synced OSqrt _ (Sh (f13 3)) (f13 4) (sv_rel _ _ _) _).
  vm_compute. reflexivity.
Qed.
Example ex_C46_cmux : all_end 1 (fun i => rep3_cmux (M := msg) i (d13 i) (sv 1 5 6 i) (sv 9 2 3 i) (pv 4 i)) (drv_post holds false (Done (f13 9))).
Proof.
  refine (@C46_cmux_clear F13 _ _ Z msg 64 du13 _ Z _ _ _ _ _ hash_v gtweak_t otweak_t _ _ digest_t eqb_t label_t delta_t rgof13 Direct
    (fun x y => eqb_t_spec x y) 1 (le_n 1) p13_odd w13y delta_t_odd hash_v_sep d13 d13_synced _ _ _ (Sh (f13 1)) (Sh (f13 9)) (Pub (f13 4)) (f13 9) (sv_rel _ _ _) (sv_rel _ _ _) (pv_rel _) _).
  vm_compute. reflexivity.
Qed.
(** runs: 11 \ 3, and the bits of 11 and their sum with the bits of 6 (all on 4 bits: 11 + 6 = 17 = 4 mod 13) *)
Definition opens1 {B} (o : option (pid -> outcome (rv F13 * B))) : option Z :=
  match o with
  | Some o => match o P0, o P1, o P2 with
              | Done (RSh a, _), Done (RSh b, _), Done (RSh c, _) => Some (Zp.val (sa a + sa b + sa c))
              | _, _, _ => None
              end
  | None => None
  end.
Lemma exec_end {M A X} cap n (ps : pid -> prog pid M A) (f : option (pid -> outcome A) -> option X) v :
  f None = None -> f (exec cap n ps) = Some v -> all_end cap ps (fun o => f (Some o) = Some v).
Proof.
  intros N0 E. destruct (exec cap n ps) as [o|] eqn:X0; [|congruence].
  destruct (exec_every _ _ _ X0) as (o1 & m & -> & K). exists o, m. split; [exact E|exact K].
Qed.
Example ex_C46_run : all_end 1 (fun i => bop13 Yao OIntDiv (sv 11 4 7) (sv 3 2 9) i) (fun o => opens1 (Some o) = Some 3%Z).
Proof. apply (exec_end 1 3000 _ opens1); [reflexivity|vm_compute; reflexivity]. Qed.

(** ** Where the driver of three parties differs from the one on clear values *)
(** 5 < 5, 5 > 5 with a public left operand and a shared right one give 1; 5 <= 5, 5 >= 5 give 0 *)
Theorem C46_compare_refuted : exists (x y : pid -> rv F13) (a b : tv F13), rel x a /\ rel y b /\
  forall o v w, In (o, (v, w)) [(OLt, (0, 1)); (OGt, (0, 1)); (OLe, (1, 0)); (OGe, (1, 0))]%Z ->
    plain_bop o (tval a) (tval b) = Done (f13 v) /\
    all_end 1 (fun i => bop13 Direct o x y i) (fun o => exists r, (forall i, o i = Done (r i)) /\ rel (fun i => fst (r i)) (Sh (f13 w))).
Proof.
  exists (pv 5), (sv 5 4 7), (Pub (f13 5)), (Sh (f13 5)). split; [apply pv_rel|]. split; [apply sv_rel|].
  assert (K : forall o w, may_abort o (Sh (f13 5)) = false -> ideal_bop o (Pub (f13 5)) (Sh (f13 5)) = Done (Sh (f13 w)) ->
    all_end 1 (fun i => bop13 Direct o (pv 5) (sv 5 4 7) i) (fun o => exists r, (forall i, o i = Done (r i)) /\ rel (fun i => fst (r i)) (Sh (f13 w)))).
  { intros o w Hm E. pose proof (bop13_ok Direct o _ _ (Pub (f13 5)) (Sh (f13 5)) (pv_rel 5) (sv_rel 5 4 7)) as K. rewrite E, Hm in K.
    specialize (K ltac:(discriminate)). destruct K as (o' & m & K1 & K2). exists o', m. split; [|exact K2].
    destruct K1 as [(r & R1 & R2 & _)|[C _]]; [exists r; split; assumption|discriminate]. }
  intros o v w Hin. cbn [In] in Hin.
  destruct Hin as [E|[E|[E|[E|[]]]]]; injection E as <- <- <-; (split; [vm_compute; reflexivity|apply K; vm_compute; reflexivity]).
Qed.
Print Assumptions C46_compare_refuted.
(** x % 1 and x << 4 with a shared x abort *)
Theorem C46_abort_refuted : exists (x : pid -> rv F13) (a : tv F13), rel x a /\
  forall o y v, In (o, (y, v)) [(OMod, (1, 0)); (OShiftL, (4, 10))]%Z ->
    plain_bop o (tval a) (f13 y) = Done (f13 v) /\
    all_end 1 (fun i => bop13 Direct o x (pv y) i) (fun o => exists e, forall i, o i = Failed e).
Proof.
  exists (sv 12 4 7), (Sh (f13 12)). split; [apply sv_rel|].
  assert (K : forall o y e, ideal_bop o (Sh (f13 12)) (Pub (f13 y)) = Failed e -> e <> undef ->
    all_end 1 (fun i => bop13 Direct o (sv 12 4 7) (pv y) i) (fun o => exists e, forall i, o i = Failed e)).
  { intros o y e E Hu. pose proof (bop13_ok Direct o _ _ (Sh (f13 12)) (Pub (f13 y)) (sv_rel 12 4 7) (pv_rel y)) as K. rewrite E in K.
    exact (K ltac:(congruence)). }
  intros o y v Hin. cbn [In] in Hin.
  destruct Hin as [E|[E|[]]]; injection E as <- <- <-; (split; [apply done13; vm_compute; reflexivity|eapply K; [vm_compute; reflexivity|discriminate]]).
Qed.
Print Assumptions C46_abort_refuted.
(** 12 ^ 3 = 15: the clear driver returns 15 mod 13; the conversion back masks 15 with a random [r] and
    reduces once, so with [r = 11] parties 0 and 1 panic on the value 13 and party 2 returns *)
Definition stx : pid -> rst Z := fun i =>
  match i with
  | P0 => mkRst 11111111 33333333 (mkBC 720896 3 None) (mkBC 4 5 (Some 6))
  | P1 => mkRst 22222222 11111111 (mkBC 2 3 (Some 720896)) (mkBC 5 4 None)
  | P2 => mkRst 33333333 22222222 (mkBC 3 720896 (Some 2)) (mkBC 6 4 (Some 5))
  end%Z.
Definition stops {A} (o : option (pid -> outcome A)) : option (list bool) :=
  match o with
  | Some o => Some (map (fun i => match o i with Done _ => false | Failed _ => true end) [P0; P1; P2])
  | None => None
  end.
Theorem C46_xor_refuted : exists d (x y : pid -> rv F13) (a b : tv F13), synced2 d /\ rel x a /\ rel y b /\
  plain_bop OBitXor (tval a) (tval b) = Done (f13 2) /\
  all_end 1 (fun i => rep3_bop (M := msg) (Seed := Z) 64 du13 hash_v gtweak_t otweak_t digest_t eqb_t label_t delta_t rgof13 Direct OBitXor i (d i) (x i) (y i))
    (fun o => stops (Some o) = Some [true; true; false]).
Proof.
  exists (fun i => (stx i, stx i)), (sv 12 4 7), (sv 3 2 9), (Sh (f13 12)), (Sh (f13 3)).
  assert (Hs : synced stx) by (constructor; [intros []; reflexivity|do 3 eexists; split; reflexivity|do 3 eexists; split; reflexivity]).
  split; [split; exact Hs|]. split; [apply sv_rel|]. split; [apply sv_rel|].
  split; [apply done13; vm_compute; reflexivity|]. apply (exec_end 1 3000 _ stops); [reflexivity|vm_compute; reflexivity].
Qed.
Print Assumptions C46_xor_refuted.
