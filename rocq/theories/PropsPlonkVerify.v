(** * Properties of Plonk proofs: C54 *)
From Coq Require Import String List Arith ZArith Lia Bool Permutation.
From Verif Require Import Proc Alg Zp Rep3Net NNet Rep3 Rep3Spec ShamirPoly Shamir ShamirSpec ShamirDeal.
From Verif Require Import Exec ConcreteS Concrete PropsShamir Dft Groth16 Groth16Complete Plonk PlonkGen PlonkIdeal PlonkInst ConcreteP PropsPlonk.
From Verif Require Import PlonkPoly PlonkComplete PlonkQuot PlonkVerify PlonkFinal.
Import ListNotations.
Local Open Scope nat_scope.

Section Props.
  Context {F G1 G2 GT : Type} {FF : Fld F} {AG1 : AbGrp G1} {MG1 : Mod F G1} {AG2 : AbGrp G2} {MG2 : Mod F G2} {AGT : AbGrp GT} {MGT : Mod F GT}.
  Context {FT : Fft F}.
  (** C54: a key of a circuit with public inputs, an assignment of its signals that satisfies the gates: every proof that
      the prover returns is accepted by the verifier, whatever the blinding factors, the masks and the transcript hash *)
  Theorem C54_complete (H : list (F + G1) -> F) (e : G1 -> G2 -> GT) (gen1 : G1) (gen2 : G2) (tau : F) fuel (zk : zkey F G1) dm
      (pub wit full b r0 r1 : list F) (p : plonk_proof F G1) :
    fft_ok (F := F) -> pairing e -> domains_new fuel (domain_size zk) = Done dm -> key_ok dm gen1 tau zk -> 1 <= n_public zk ->
    assignment zk pub wit full -> gates_ok zk (dm_w dm) full -> plonk_plain_prove H fuel zk pub wit b r0 r1 = Done p ->
    exists V, plonk_verify e gen1 gen2 H fuel (verifier_key gen2 tau zk) p (tl pub) = Done V /\ V.
  Proof. exact (@plain_complete F _ _ G1 G2 GT _ _ _ _ _ _ H e gen1 gen2 tau fuel zk dm pub wit full b r0 r1 p). Qed.

  (** a key without Lagrange polynomials cannot be used at all *)
  Theorem C54_no_lagrange (H : list (F + G1) -> F) fuel (zk : zkey F G1) (pub wit b r0 r1 : list F) p :
    lagrange zk = [] -> plonk_plain_prove H fuel zk pub wit b r0 r1 <> Done p.
  Proof. exact (@no_lagrange F _ _ G1 _ _ H fuel zk pub wit b r0 r1 p). Qed.

  (** ** Three parties *)
  Section Rep3.
    Context {S M : Type} {DF : Draw S F} {EF : Enc M (list F)} {E1 : Enc M (list G1)}.
    Context {Seed : Type} {SS : Seeded S Seed} {DS : Draw S Seed} {ES : Enc M (list Seed)} {ESS : Enc M (list (Seed * Seed))}.
    Context (cap : nat) (cap_pos : 1 <= cap).
    Theorem C54_rep3_complete (H : list (F + G1) -> F) (e : G1 -> G2 -> GT) (gen1 : G1) (gen2 : G2) (tau : F) fuel (zk : zkey F G1) dm
        (threads : pid -> nat) (seed : pid -> Seed) (pub full w : list F) (wit : pid -> list (share F)) :
      fft_ok (F := F) -> pairing e -> domains_new fuel (domain_size zk) = Done dm -> key_ok dm gen1 tau zk -> 1 <= n_public zk ->
      shares_vec wit w -> assignment zk pub w full -> gates_ok zk (dm_w dm) full ->
      exists o, all_end cap (fun i => plonk_rep3_prove (M := M) H fuel (threads i) zk i (seed i) pub (wit i)) (fun r => forall i, r i = o) /\
        forall p, o = Done p -> exists V, plonk_verify e gen1 gen2 H fuel (verifier_key gen2 tau zk) p (tl pub) = Done V /\ V.
    Proof.
      intros FO PR ED KO NP SH A GO. destruct (C52_rep3_prove (M := M) cap cap_pos H fuel threads seed (domain_size zk)) as (b & r0 & r1 & ks & K).
      destruct (K zk pub wit w eq_refl SH) as (o & K1 & K2 & _). exists o. split; [exact K1|]. intros p Ep.
      eapply C54_complete; try eassumption. apply K2. exact Ep.
    Qed.
  End Rep3.

  (** ** Shamir shares *)
  Section Shamir.
    Context {Sg M : Type} {DF : Draw Sg F} {EF : Enc M (list F)} {E1 : Enc M G1} {E1s : Enc M (list G1)}.
    Context {Seed : Type} {SDS : Seeded Sg Seed} {DS : Draw Sg Seed} {ES : Enc M (list Seed)} (seed0 : Seed).
    Theorem C54_shamir_complete (n t cap : nat) (n2 : 2 <= n) (nt : 2 * t + 1 <= n) (hcap : cap_ok n t cap)
        (inj : forall a b, a <= n -> b <= n -> fnat a = (fnat b : F) -> a = b)
        (H : list (F + G1) -> F) (e : G1 -> G2 -> GT) (gen1 : G1) (gen2 : G2) (tau : F) fuel (zk : zkey F G1) dm
        (seed : nat -> Seed) (pub full w : list F) (wit : nat -> list F) :
      fft_ok (F := F) -> pairing e -> domains_new fuel (domain_size zk) = Done dm -> key_ok dm gen1 tau zk -> 1 <= n_public zk ->
      sharings n t wit w -> assignment zk pub w full -> gates_ok zk (dm_w dm) full ->
      exists o, all_endn n cap (fun i => plonk_shamir_prove (M := M) (Sg := Sg) H seed0 fuel zk n t i (seed i) pub (wit i)) (fun r => forall i, i < n -> r i = o) /\
        forall p, o = Done p -> exists V, plonk_verify e gen1 gen2 H fuel (verifier_key gen2 tau zk) p (tl pub) = Done V /\ V.
    Proof.
      intros FO PR ED KO NP SH A GO. destruct (C53_shamir_prove (M := M) (Sg := Sg) seed0 n t cap n2 nt hcap inj H fuel seed (domain_size zk)) as (b & r0 & r1 & ks & K).
      destruct (K zk pub wit w eq_refl SH) as (o & K1 & K2 & _). exists o. split; [exact K1|]. intros p Ep.
      eapply C54_complete; try eassumption. apply K2. exact Ep.
    Qed.
  End Shamir.
End Props.
Print Assumptions C54_complete.
Print Assumptions C54_no_lagrange.
Print Assumptions C54_rep3_complete.
Print Assumptions C54_shamir_complete.

(** ** Examples over the field with 97 elements *)
Lemma fft97_ok : fft_ok (F := F97).
Proof.
  split.
  - intros q Hq. change (feqb (fpow q 48) (f97 96) = true) in Hq. apply feqb_spec in Hq. change (trace * 2 ^ (two_adicity - 1))%nat with 48. rewrite Hq. apply eq97. vm_compute. reflexivity.
  - apply neq97. vm_compute. discriminate.
  - cbn. lia.
Qed.
Lemma pair97 : pairing e97.
Proof.
  split. intros a b x y. unfold e97. change (rmul (rmul a x) (rmul b y) = rmul (rmul a b) (rmul x y)).
  rewrite <- !rmul_assoc. f_equal. rewrite !rmul_assoc. f_equal. apply rmul_comm.
Qed.
(** equations of vectors by computation *)
Definition all97 (k : nat) (f g : nat -> F97) : bool := forallb (fun i => feqb (f i) (g i)) (seq 0 k).
Lemma all97_ok k f g : all97 k f g = true -> forall i, i < k -> f i = g i.
Proof. intros E i Hi. apply feqb_spec. apply (proj1 (forallb_forall _ _) E i). apply in_seq. lia. Qed.
(* the coefficients and extended evaluations of a key polynomial agree (key_ok) *)
Definition poly_check (p : zpoly F97) : bool :=
  (length (coeffs p) <=? 8) && (length (evaluations p) =? 32) &&
  all97 32 (fun i => nth i (evaluations p) gzero) (fun i => peval (coeffs p) (fpow (dm_w4 dom97) i)).
Lemma polys_check ps : forallb poly_check ps = true -> Forall (poly_ok dom97 8) ps.
Proof.
  intros E. apply Forall_forall. intros p Ip. pose proof (proj1 (forallb_forall _ _) E p Ip) as K. apply andb_prop in K. destruct K as (K & K3). apply andb_prop in K.
  destruct K as (K1 & K2). apply Nat.leb_le in K1. apply Nat.eqb_eq in K2. split; [exact K1|]. split; [exact K2|]. exact (all97_ok 32 _ _ K3).
Qed.
(** the permutation of the cells of [zk97] and of [zk0] *)
Definition perm97 : list nat :=
  map (fun c => fst c * 8 + snd c)
    ([(2,1); (0,2); (0,1); (2,2); (0,5); (0,6); (0,7); (1,0)] ++ [(1,3); (1,2); (1,1); (1,4); (1,5); (1,6); (1,7); (2,0)] ++ [(2,3); (0,0); (0,3); (2,4); (2,5); (2,6); (2,7); (0,4)]).
Lemma perm_check (l : list nat) : length l = 24 -> forallb (fun x => existsb (Nat.eqb x) l) (seq 0 24) = true -> Permutation (map (fun c => nth c l 0) (seq 0 24)) (seq 0 24).
Proof.
  intros L E. replace (map (fun c => nth c l 0) (seq 0 24)) with l.
  2: { apply (@nth_ext nat _ _ 0 0); [rewrite map_length, seq_length; exact L|]. intros i Hi. rewrite nth_map_seq by lia. reflexivity. }
  symmetry. apply NoDup_Permutation_bis; [apply seq_NoDup|rewrite L, seq_length; lia|]. intros x Ix. pose proof (proj1 (forallb_forall _ _) E x Ix) as K.
  apply existsb_exists in K. destruct K as (y & Iy & Ey). apply Nat.eqb_eq in Ey. subst. exact Iy.
Qed.
Lemma smul97_1 (x : F97) : smul x (f97 1) = x.
Proof. change (rmul x (f97 1) = x). rewrite rmul_comm. replace (f97 1) with (rone : F97) by (apply eq97; vm_compute; reflexivity). apply rmul_1. Qed.
(* the cells of signals are in range (key_ok) *)
Definition signal_check (zk : zkey F97 F97) (l : list nat) : bool :=
  forallb (fun c => cell_signal zk (nth c l 0) =? cell_signal zk c) (seq 0 24).
(* the permutation polynomials hold the permuted labels (key_ok) *)
Definition label_check (zk : zkey F97 F97) (l : list nat) : bool :=
  forallb (fun c => all97 8 (fun i => peval (coeffs (nth c [s1_poly zk; s2_poly zk; s3_poly zk] (mkPoly [] []))) (fpow w97 i)) (fun i => cell_label zk w97 (nth (c * 8 + i) l 0))) (seq 0 3).
Lemma key_check zk l : domain_size zk = 8 -> zk_pow zk = 3 ->
  forallb poly_check ([qm_poly zk; ql_poly zk; qr_poly zk; qo_poly zk; qc_poly zk; s1_poly zk; s2_poly zk; s3_poly zk] ++ lagrange zk) = true ->
  length (lagrange zk) = n_public zk ->
  forallb (fun j => all97 8 (fun i => peval (coeffs (nth j (lagrange zk) (mkPoly [] []))) (fpow w97 i)) (fun i => if i =? j then rone else gzero)) (seq 0 (n_public zk)) = true ->
  forallb (fun m => length m <=? 8) (columns zk) = true -> (forall j, j < n_public zk -> nth_error (map_a zk) j = Some (S j)) ->
  length l = 24 -> forallb (fun x => existsb (Nat.eqb x) l) (seq 0 24) = true -> signal_check zk l = true -> label_check zk l = true ->
  p_tau zk = map (fun i => fpow tau97 i) (seq 0 (length (p_tau zk))) ->
  (let vk := verifying_key zk in vk_qm vk = com97 (qm_poly zk) /\ vk_ql vk = com97 (ql_poly zk) /\ vk_qr vk = com97 (qr_poly zk) /\ vk_qo vk = com97 (qo_poly zk) /\
    vk_qc vk = com97 (qc_poly zk) /\ vk_s1 vk = com97 (s1_poly zk) /\ vk_s2 vk = com97 (s2_poly zk) /\ vk_s3 vk = com97 (s3_poly zk)) ->
  key_ok dom97 (f97 1 : F97) tau97 zk.
Proof.
  intros Dn Pw CP Ll CD CM PU L24 CI CS CL TA VK. split.
  - rewrite Dn, Pw. reflexivity.
  - rewrite Pw. lia.
  - rewrite Dn. apply polys_check. exact CP.
  - exact Ll.
  - rewrite Dn. intros j i Hj Hi. pose proof (proj1 (forallb_forall _ _) CD j ltac:(apply in_seq; lia)) as K. exact (all97_ok 8 _ _ K i Hi).
  - rewrite Dn. apply Forall_forall. intros m Im. apply Nat.leb_le. exact (proj1 (forallb_forall _ _) CM m Im).
  - exact PU.
  - exists (fun c => nth c l 0). rewrite Dn. change (3 * 8) with 24. split; [apply perm_check; assumption|]. split.
    + intros c Hc. apply Nat.eqb_eq. apply (proj1 (forallb_forall _ _) CS c). apply in_seq. lia.
    + intros c i Hc Hi. pose proof (proj1 (forallb_forall _ _) CL c ltac:(apply in_seq; lia)) as K. exact (all97_ok 8 _ _ K i Hi).
  - rewrite TA at 1. apply map_ext. intros i. symmetry. apply smul97_1.
  - cbv beta zeta in *. rewrite !smul97_1. exact VK.
Qed.
Lemma dom97_new : domains_new 10 8 = Done dom97.
Proof.
  unfold dom97. destruct (domains_new 10 8) eqn:E; [reflexivity|]. exfalso. assert (K : match domains_new (F := F97) 10 8 with Done _ => true | _ => false end = true) by (vm_compute; reflexivity). rewrite E in K. discriminate.
Qed.
Lemma key97 : key_ok dom97 (f97 1 : F97) tau97 (zk97 1).
Proof.
  apply (key_check _ perm97); try reflexivity; try (vm_compute; reflexivity).
  - intros j Hj. cbn in Hj. assert (j = 0) by lia. subst. reflexivity.
  - repeat split; reflexivity.
Qed.
(* a satisfying assignment of the circuit of ConcreteP.v *)
Definition full97 : list F97 := map f97 [0; 6; 2; 3; 5]%Z.
Lemma asg97 : assignment (zk97 1) [f97 1; f97 6] [f97 2; f97 3] full97.
Proof.
  split; try reflexivity.
  - intros j Hj. cbn in Hj. assert (j = 0) by lia. subst. reflexivity.
  - intros j Hj. cbn in Hj. assert (j = 0 \/ j = 1) as [-> | ->] by lia; reflexivity.
  - intros j ad Hj. destruct j as [|[|j]]; [injection Hj as <-|discriminate Hj..]. apply eq97. vm_compute. reflexivity.
Qed.
(* the gate equation on every row *)
Definition gates_check (zk : zkey F97 F97) (full : list F97) : bool :=
  all97 8 (fun i => let x := fpow w97 i in let q p := peval (coeffs p) x in
    let a := cell_value full (map_a zk) i in let b := cell_value full (map_b zk) i in let c := cell_value full (map_c zk) i in
    gadd (gadd (gadd (gadd (rmul (q (qm_poly zk)) (rmul a b)) (rmul (q (ql_poly zk)) a)) (rmul (q (qr_poly zk)) b)) (rmul (q (qo_poly zk)) c)) (q (qc_poly zk)))
    (fun i => if i <? n_public zk then cell_value full (map_a zk) i else gzero).
Lemma gates_check_ok zk full : domain_size zk = 8 -> gates_check zk full = true -> gates_ok zk w97 full.
Proof. intros D E i Hi. rewrite D in Hi. exact (all97_ok 8 _ _ E i Hi). Qed.
Lemma gates97 : gates_ok (zk97 1) w97 full97.
Proof. apply gates_check_ok; [reflexivity|]. vm_compute. reflexivity. Qed.
#[local] Opaque plonk_plain_prove plonk_rep3_prove plonk_shamir_prove plonk_verify zk97.
Example ex_C54 b r0 r1 p : plonk_plain_prove h97 10 (zk97 1) [f97 1; f97 6] [f97 2; f97 3] b r0 r1 = Done p ->
  exists V, plonk_verify e97 (f97 1) (f97 1) h97 10 (verifier_key (f97 1) tau97 (zk97 1)) p [f97 6] = Done V /\ V.
Proof.
  intros E. pose proof (@C54_complete F97 F97 F97 F97 _ _ _ _ _ _ _ _ h97 e97 (f97 1) (f97 1) tau97 10 (zk97 1) dom97 [f97 1; f97 6] [f97 2; f97 3] full97 b r0 r1 p) as K.
  apply K; clear K; [exact fft97_ok|exact pair97|exact dom97_new|exact key97|apply le_n|exact asg97|exact gates97|exact E].
Qed.
Example ex_C54_rep3 : exists o, all_end 1 rep3_run97 (fun r => forall i, r i = o) /\
  forall p, o = Done p -> exists V, plonk_verify e97 (f97 1) (f97 1) h97 10 (verifier_key (f97 1) tau97 (zk97 1)) p [f97 6] = Done V /\ V.
Proof.
  pose proof (@C54_rep3_complete F97 F97 F97 F97 _ _ _ _ _ _ _ _ Z pmsg _ _ _ Z _ _ _ _ 1 ltac:(lia) h97 e97 (f97 1) (f97 1) tau97 10 (zk97 1) dom97
    (fun i => match i with Rep3Net.P0 => 1 | Rep3Net.P1 => 3 | Rep3Net.P2 => 8 end) seeds97 [f97 1; f97 6] full97 [f97 2; f97 3] wit97) as K.
  apply K; clear K; [exact fft97_ok|exact pair97|exact dom97_new|exact key97|apply le_n|exact wit97_shares|exact asg97|exact gates97].
Qed.
Example ex_C54_shamir : exists o, all_endn 3 1 shamir_run97 (fun r => forall i, i < 3 -> r i = o) /\
  forall p, o = Done p -> exists V, plonk_verify e97 (f97 1) (f97 1) h97 10 (verifier_key (f97 1) tau97 (zk97 1)) p [f97 6] = Done V /\ V.
Proof.
  pose proof (@C54_shamir_complete F97 F97 F97 F97 _ _ _ _ _ _ _ _ Z pmsg _ _ _ _ Z _ _ _ 0%Z 3 1 1 ltac:(lia) ltac:(lia) cap97 (inj97 3 ltac:(lia))
    h97 e97 (f97 1) (f97 1) tau97 10 (zk97 1) dom97 sseeds97 [f97 1; f97 6] full97 [f97 2; f97 3] swit97) as K.
  apply K; clear K; [exact fft97_ok|exact pair97|exact dom97_new|exact key97|apply le_n|exact swit97_shares|exact asg97|exact gates97].
Qed.
#[local] Transparent plonk_plain_prove plonk_verify zk97.
(** the verifier is no constant: it accepts the proof of the example and rejects it for another public input *)
Definition verdict97 (o : outcome (plonk_proof F97 F97)) (vk : json_vk F97 F97 F97) (pub : list F97) : Prop :=
  match o with Done p => match plonk_verify e97 (f97 1) (f97 1) h97 10 vk p pub with Done V => V | Failed _ => False end | Failed _ => False end.
Example ex_accept : verdict97 pr97 (verifier_key (f97 1) tau97 (zk97 1)) [f97 6].
Proof. vm_compute. apply eq97. reflexivity. Qed.
Example ex_reject : ~ verdict97 pr97 (verifier_key (f97 1) tau97 (zk97 1)) [f97 7].
Proof. vm_compute. apply neq97. cbn. discriminate. Qed.

(** ** Without public inputs *)
Definition perm0 : list nat := seq 0 24.
Lemma key0 : key_ok dom97 (f97 1 : F97) tau97 (zk0_with []).
Proof.
  apply (key_check _ perm0); try reflexivity; try (vm_compute; reflexivity).
  - intros j Hj. cbn in Hj. lia.
  - repeat split; reflexivity.
Qed.
(* an assignment of the circuit without public inputs *)
Definition full0 : list F97 := [f97 0; f97 5].
Lemma asg0 : assignment (zk0_with []) [f97 1] [f97 5] full0.
Proof.
  split; try reflexivity.
  - intros j Hj. cbn in Hj. lia.
  - intros j ad Hj. destruct j; discriminate Hj.
Qed.
Lemma lag97_ok : all97 8 (fun i => peval (coeffs (poly97 [1; 0; 0; 0; 0; 0; 0; 0]%Z)) (fpow w97 i)) (fun i => if i =? 0 then rone else gzero) = true.
Proof. vm_compute. reflexivity. Qed.
Lemma zk0_eq : with_lagrange (zk0_with []) [poly97 [1; 0; 0; 0; 0; 0; 0; 0]%Z] = zk0.
Proof. reflexivity. Qed.
Lemma vk0_eq : verifier_key (f97 1) tau97 zk0 = vk0.
Proof. unfold verifier_key. rewrite smul97_1. reflexivity. Qed.
Lemma pr0_eq : pr0 = plonk_plain_prove h97 10 zk0 [f97 1] [f97 5] b97 r97 r97.
Proof. reflexivity. Qed.
(* the prover returned and the verifier ended *)
Definition ended (o : outcome (plonk_proof F97 F97)) (f : plonk_proof F97 F97 -> outcome Prop) : bool :=
  match o with Done p => match f p with Done _ => true | Failed _ => false end | Failed _ => false end.
(* what plonk.rs:119-150 says of the proof of a run *)
Definition verdict (o : outcome (plonk_proof F97 F97)) (f : plonk_proof F97 F97 -> outcome Prop) : Prop :=
  match o with Done p => match f p with Done V => V | Failed _ => False end | Failed _ => False end.
Lemma run_split o f : ended o f = true -> ~ verdict o f -> exists p V, o = Done p /\ f p = Done V /\ ~ V.
Proof.
  intros K1 K2. unfold ended in K1. unfold verdict in K2. destruct o as [p|err]; [|discriminate K1]. exists p. destruct (f p) as [V|err]; [|discriminate K1]. exists V. auto.
Qed.
Lemma pr0_ended : ended pr0 (fun p => plonk_verify e97 (f97 1) (f97 1) h97 10 vk0 p []) = true.
Proof. vm_compute. reflexivity. Qed.
Lemma pr0_verdict : ~ verdict pr0 (fun p => plonk_verify e97 (f97 1) (f97 1) h97 10 vk0 p []).
Proof. vm_compute. apply neq97. cbn. discriminate. Qed.
Lemma pr0_run : exists p V, pr0 = Done p /\ plonk_verify e97 (f97 1) (f97 1) h97 10 vk0 p [] = Done V /\ ~ V.
Proof. exact (run_split _ _ pr0_ended pr0_verdict). Qed.
Lemma gates0 : gates_ok (zk0_with []) w97 full0.
Proof. apply gates_check_ok; [reflexivity|]. vm_compute. reflexivity. Qed.
(** C54 without the condition [1 <= n_public]: the prover multiplies the first wire value by the first Lagrange polynomial
    for every Lagrange polynomial of the key (round3.rs:378-381), and the key holds one (snarkjs) though there is no public
    input; the proof of a satisfied circuit is rejected *)
Theorem C54_no_public_refuted : exists (zk : zkey F97 F97) dm (tau : F97) L pub wit full b r0 r1 p V,
  domains_new 10 (domain_size zk) = Done dm /\ key_ok dm (f97 1 : F97) tau zk /\ n_public zk = 0 /\ assignment zk pub wit full /\ gates_ok zk (dm_w dm) full /\
  (let zk' := with_lagrange zk [L] in (forall i, i < domain_size zk -> peval (coeffs L) (fpow (dm_w dm) i) = if i =? 0 then rone else gzero) /\
     plonk_plain_prove h97 10 zk' pub wit b r0 r1 = Done p /\
     plonk_verify e97 (f97 1) (f97 1) h97 10 (verifier_key (f97 1) tau zk') p (tl pub) = Done V /\ ~ V).
Proof.
  destruct pr0_run as (p & V & E & EV & NV). rewrite pr0_eq in E.
  exists (zk0_with []), dom97, tau97, (poly97 [1; 0; 0; 0; 0; 0; 0; 0]%Z), [f97 1], [f97 5], full0, b97, r97, r97, p, V.
  split; [exact dom97_new|]. split; [exact key0|]. split; [reflexivity|]. split; [exact asg0|]. split; [exact gates0|].
  cbv zeta. rewrite zk0_eq, vk0_eq. split; [intros i Hi; exact (all97_ok 8 _ _ lag97_ok i Hi)|]. split; [exact E|]. split; [exact EV|exact NV].
Qed.
Print Assumptions C54_no_public_refuted.
