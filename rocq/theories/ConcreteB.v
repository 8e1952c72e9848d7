(** * Concrete carriers for the examples on the coBrillig VM *)
From Coq Require Import String List Arith NArith ZArith Lia Bool.
From Verif Require Import Proc Alg Zp Rep3Net Rep3 Rep3Spec Rep3Proofs Rep3Wp Uint Binary Conv ConvWp Ring2k
  VmDriver VmIdeal Concrete ConcreteU ConcreteR Brillig BrilligSpec BrilligTag BrilligDriver BrilligOps.
Import ListNotations.
Local Open Scope grp_scope.

(** the rings [Bit], [u8], ..., [u128] *)
Definition ipos (s : isz) : positive := match s with U1 => 1 | U8 => 8 | U16 => 16 | U32 => 32 | U64 => 64 | U128 => 128 end.
Notation RTb s := (R2 (ipos s)).
Lemma rK_b (s : isz) : rK (RTb s) = ibits s.
Proof. destruct s; reflexivity. Qed.
(** messages *)
Inductive bmsg : Type := BMb (m : msg) | BMr (s : isz) (l : list (RTb s)).
#[export] Instance benc_b {A} {E : Enc msg A} : Enc bmsg A.
Proof. refine {| enc := fun x => BMb (enc x); dec := fun m => match m with BMb b => dec b | _ => None end |}. intros x. apply dec_enc. Defined.
#[export] Instance benc_r (s : isz) : Enc bmsg (list (RTb s)).
Proof.
  refine {| enc := BMr s; dec := fun m => match m with
    | BMr s' l => match isz_dec s' s with left e => Some (eq_rect s' (fun z => list (RTb z)) l s e) | right _ => None end | _ => None end |}.
  intros l. destruct s; reflexivity.
Defined.
(** each party's own generator *)
Definition trng_b (i : pid) (n : nat) (t : bty) : bval F13 :=
  let k := (7 + match i with P0 => 0 | P1 => 1 | P2 => 3 end + Z.of_nat n)%Z in
  match t with TField => BF (f13 k) | TInt s => BI (Z.to_N k mod imod s) s end.

(** stand-ins for the garbled circuits: the inputs are opened and the result is shared *)
Definition via1 {G H} `{AbGrp G} `{AbGrp H} {EG : Enc bmsg (list G)} (f : G -> H) (i : pid) (st : rst Z) (x : share G) : prog pid bmsg (share H * rst Z) :=
  v <- open i x ;; Ret (promote i (f v), st).
Definition via2 {G} `{AbGrp G} {EG : Enc bmsg (list G)} (f : G -> G -> G) (i : pid) (st : rst Z) (x y : share G) : prog pid bmsg (share G * rst Z) :=
  v <- open i x ;; w <- open i y ;; Ret (promote i (f v w), st).
Definition fquot (x y : F13) : F13 := of_uint (to_uint x / to_uint y).
Definition rquot s (x y : RTb s) : RTb s := rof (rto x / rto y).
Definition yao_b : yao (F := F13) (S := Z) (M := bmsg) (RT := fun s => RTb s) :=
  @mkYao F13 Z bmsg (fun s => RTb s)
    (fun i st x k => via1 (fun v => of_uint (to_uint v / 2 ^ N.of_nat k)) i st x)
    (fun i st x c => via1 (fun v => fquot v c) i st x)
    (fun i st c x => via1 (fun v => fquot c v) i st x)
    (fun i st x y => via2 fquot i st x y)
    (fun s i st x k => via1 (fun v => rof (rto v / 2 ^ N.of_nat k)) i st x)
    (fun s i st x c => via1 (fun v => rquot s v c) i st x)
    (fun s i st c x => via1 (fun v => rquot s c v) i st x)
    (fun s i st x y => via2 (rquot s) i st x y)
    (fun i st x n k => v <- open i x ;;
       Ret (map (fun j => promote i (rof ((to_uint v / 2 ^ N.of_nat (k * j)) mod 2 ^ N.of_nat k))) (seq 0 n), st))
    (fun i st x => via1 (fun v : F13 => rof (to_uint v)) i st x)
    (fun i st x => via1 (fun v : RTb U32 => of_uint (rto v mod 13)) i st x).
Lemma via1_ok {G H} `{AbGrp G} `{AbGrp H} {EG : Enc bmsg (list G)} (f : G -> H) cap (st : pid -> rst Z) a x : (1 <= cap)%nat -> synced st -> shares a x ->
  wp cap (fun i => via1 f i (st i) (a i)) (sres_ok (f x)).
Proof.
  intros C Hs Ha. apply wp_bind. eapply wp_mono; [|apply (open_wp C Ha)]. intros r Er. apply wp_ret. split; [|exact Hs].
  cbn [fst]. pose proof (promote_ok (f x)) as [R A]. split; [intros i; cbn; rewrite !Er; apply R|unfold additive in *; cbn; rewrite !Er; exact A].
Qed.
Lemma via2_ok {G} `{AbGrp G} {EG : Enc bmsg (list G)} (f : G -> G -> G) cap (st : pid -> rst Z) a b x y : (1 <= cap)%nat -> synced st -> shares a x -> shares b y ->
  wp cap (fun i => via2 f i (st i) (a i) (b i)) (sres_ok (f x y)).
Proof.
  intros C Hs Ha Hb. apply wp_bind. eapply wp_mono; [|apply (open_wp C Ha)]. intros r Er.
  apply wp_bind. eapply wp_mono; [|apply (open_wp C Hb)]. intros r' Er'. apply wp_ret. split; [|exact Hs].
  cbn [fst]. pose proof (promote_ok (f x y)) as [R A].
  split; [intros i; cbn; rewrite !Er, !Er'; apply R|unfold additive in *; cbn; rewrite !Er, !Er'; exact A].
Qed.
Lemma yao_b_ok cap : (1 <= cap)%nat -> yao_ok yao_b cap.
Proof.
  intros C. constructor; intros; cbn [y_fpow2 y_fpub y_fby y_fdiv y_rpow2 y_rpub y_rby y_rdiv yao_b].
  - exact (via1_ok (fun v => of_uint (to_uint v / 2 ^ N.of_nat k)) cap st a x C H H0).
  - exact (via1_ok (fun v => fquot v c) cap st a x C H H0).
  - exact (via1_ok (fun v => fquot c v) cap st a x C H H0).
  - exact (via2_ok fquot cap st a b x y C H H0 H1).
  - exact (via1_ok (fun v : RTb s => rof (rto v / 2 ^ N.of_nat k)) cap st a x C H H0).
  - exact (via1_ok (fun v => rquot s v c) cap st a x C H H0).
  - exact (via1_ok (fun v => rquot s c v) cap st a x C H H0).
  - exact (via2_ok (rquot s) cap st a b x y C H H0 H1).
Qed.

(** values of the parties *)
Notation Vb := (bv (F := F13) (RT := fun s => RTb s)).
Definition bpv (x : bval F13) : pid -> Vb := fun _ => BPub x.
Definition bsf (v a b : Z) : pid -> Vb := fun i => BShr (SF (sh13 v a b i)).
Definition bsi (s : isz) (v a b : Z) : pid -> Vb := fun i => BShr (SI (RT := fun s => RTb s) s (rsh (ipos s) v a b i)).
Lemma bpv_rel x : vrel (bpv x) false x.
Proof. intros i. reflexivity. Qed.
Lemma bsf_rel v a b : vrel (bsf v a b) true (BF (f13 v)).
Proof. eexists. split; [|reflexivity]. exists (sh13 v a b). split; [apply sh13_shares|reflexivity]. Qed.
Lemma bsi_rel s v a b : (0 <= v < 2 ^ Z.of_nat (ibits s))%Z -> vrel (bsi s v a b) true (BI (Z.to_N v) s).
Proof.
  intros R. eexists. split; [|reflexivity]. exists (rsh (ipos s) v a b), (ofZ v). split; [apply rsh_shares|]. split; [|reflexivity].
  change (Z.to_N (Zp.val (ofZ (n := 2 ^ ipos s) v)) = Z.to_N v). rewrite val_ofZ_small; [reflexivity|].
  rewrite Pos2Z.inj_pow. replace (Z.pos (ipos s)) with (Z.of_nat (ibits s)) by (destruct s; reflexivity). exact R.
Qed.
(** the states *)
Definition sb13 : pid -> drst (S := Z) := fun i => (st13 i, 0%nat).
Lemma sb13_synced : synced (fun i => fst (sb13 i)).
Proof. exact st13_synced. Qed.
