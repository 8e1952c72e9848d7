(** * Properties of the collaborative Groth16 prover: C49 (three parties, replicated shares), C50
      (the proofs verify and show nothing but the public input), C51 (Shamir shares, bridge) *)
From Coq Require Import String List Arith ZArith Lia Bool.
From Verif Require Import Proc Alg Zp Rep3Net NNet Rep3 Rep3Spec Concrete ShamirPoly Shamir ShamirSpec ShamirDeal ConcreteS PropsShamir Exec ConcreteC.
From Verif Require Import Dft Groth16 Groth16Gen Groth16Inst Groth16Complete.
Import ListNotations.
Local Open Scope nat_scope.

(** ** Three parties *)
Section PropsRep3.
  Context {F G1 G2 S M : Type} {FF : Fld F} {AG1 : AbGrp G1} {MG1 : Mod F G1} {AG2 : AbGrp G2} {MG2 : Mod F G2}.
  Context {DF : Draw S F} {D1 : Draw S G1} {E1 : Enc M (list G1)} {E2 : Enc M (list G2)} (drawv : nat -> S -> list F * S).
  Context {FT : Fft F} {Seed : Type} {SS : Seeded S Seed} {DS : Draw S Seed} {ES : Enc M (list Seed)} {ESS : Enc M (list (Seed * Seed))}.
  Context (cap : nat) (cap_pos : 1 <= cap) (Hlen : forall n s, length (fst (drawv n s)) = n).

  (** C49: whatever the schedule, the channel capacity and the numbers of threads, all parties return
      what the prover on clear values returns, for randomness [r], [s] that depends on the seeds and the matrices only *)
  Theorem C49_rep3_prove R fuel (threads : pid -> nat) threads0 m (seed : pid -> Seed) :
    exists r s, forall (pk : pkey G1 G2) pub (wit : pid -> list (share F)) (w : list F), shares_vec wit w ->
      all_end cap (fun i => rep3_prove (M := M) drawv R fuel (threads i) pk m i (seed i) pub (wit i))
        (fun o => forall i, o i = plain_prove R fuel threads0 pk m pub w r s).
  Proof. exact (rep3_prove_ok (M := M) drawv cap_pos Hlen R fuel threads threads0 m seed). Qed.

  (** C50 for three parties: a shared assignment that satisfies the constraints gives a proof that verifies *)
  Context {GT : Type} {AGT : AbGrp GT} {MGT : Mod F GT}.
  Lemma rep3_verifies R fuel (threads : pid -> nat) m (seed : pid -> Seed) T (P1 : G1) (P2 : G2) (pk : pkey G1 G2) (e : G1 -> G2 -> GT) input (wit : pid -> list (share F)) w :
    pairing e -> t_gamma T <> gzero -> t_delta T <> gzero -> well_formed m -> domain_ok R m fuel -> valid_key R m T P1 P2 fuel pk ->
    length (rone :: input) = num_instance_variables m -> length w = num_witness_variables m -> satisfied m ((rone :: input) ++ w) -> shares_vec wit w ->
    all_end cap (fun i => rep3_prove (M := M) drawv R fuel (threads i) pk m i (seed i) (rone :: input) (wit i))
      (fun o => exists p, (forall i, o i = Done p) /\ exists V, verify e pk input p = Done V /\ V).
  Proof.
    intros Pe G0 D0 Wf DO VK Lp Lw Sat W. destruct (rep3_prove_ok (M := M) drawv cap_pos Hlen R fuel threads 1 m seed) as (r & s & K).
    destruct (K pk (rone :: input) wit w W) as (o & k & Ho & K'). exists o, k. split; [|exact K'].
    destruct (plain_complete 1 r s Pe G0 D0 Wf DO VK Lp Lw Sat) as (p & E & V). exists p. split; [|exact V].
    intros i. rewrite Ho. exact E.
  Qed.
  Theorem C50_rep3_complete R fuel (threads : pid -> nat) m (seed : pid -> Seed) T (P1 : G1) (P2 : G2) (pk : pkey G1 G2) (e : G1 -> G2 -> GT) input (wit : pid -> list (share F)) w :
    pairing e -> t_gamma T <> gzero -> t_delta T <> gzero -> well_formed m -> domain_ok R m fuel -> valid_key R m T P1 P2 fuel pk ->
    length (rone :: input) = num_instance_variables m -> length w = num_witness_variables m -> satisfied m ((rone :: input) ++ w) -> shares_vec wit w ->
    all_end cap (fun i => rep3_prove (M := M) drawv R fuel (threads i) pk m i (seed i) (rone :: input) (wit i))
      (fun o => exists p, (forall i, o i = Done p) /\ exists V, verify e pk input p = Done V /\ V).
  Proof. exact (@rep3_verifies R fuel threads m seed T P1 P2 pk e input wit w). Qed.
End PropsRep3.

(** ** The prover on clear values *)
Section PropsPlain.
  Context {F G1 G2 GT : Type} {FF : Fld F} {FT : Fft F} {AG1 : AbGrp G1} {MG1 : Mod F G1} {AG2 : AbGrp G2} {MG2 : Mod F G2} {AGT : AbGrp GT} {MGT : Mod F GT}.
  (** C50: completeness, both reductions *)
  Theorem C50_complete R fuel threads m T (P1 : G1) (P2 : G2) (pk : pkey G1 G2) (e : G1 -> G2 -> GT) input wit r s :
    pairing e -> t_gamma T <> gzero -> t_delta T <> gzero -> well_formed m -> domain_ok R m fuel -> valid_key R m T P1 P2 fuel pk ->
    length (rone :: input) = num_instance_variables m -> length wit = num_witness_variables m -> satisfied m ((rone :: input) ++ wit) ->
    exists p, plain_prove R fuel threads pk m (rone :: input) wit r s = Done p /\ exists V, verify e pk input p = Done V /\ V.
  Proof. exact (@plain_complete F G1 G2 GT _ _ _ _ _ _ _ _ R fuel threads m T P1 P2 pk e input wit r s). Qed.
  (** C50: such keys exist *)
  Theorem C50_key R fuel m T (P1 : G1) (P2 : G2) : domain_ok R m fuel -> exists pk, valid_key R m T P1 P2 fuel pk.
  Proof. exact (@key_exists F G1 G2 _ _ _ _ _ _ R fuel m T P1 P2). Qed.
  (** C50: the search for a non-residue and the squarings give generators of the domains *)
  Theorem C50_roots fuel q k : fft_ok (F := F) -> find_nonresidue fuel (rone : F) = Some q -> k <= two_adicity ->
    exists g w, groth16_roots_of_unity fuel k = Some (g, w) /\ root g (2 ^ k) /\
      (k < two_adicity -> g = rmul w w /\ root w (2 ^ (1 + k))) /\ (k = two_adicity -> w = rmul q q).
  Proof. exact (@roots_ok F _ _ fuel q k). Qed.
  (** C50: the root comes from the smallest non-residue, as in snarkjs *)
  Theorem C50_nonresidue fuel (r : F) : find_nonresidue fuel (rone : F) = Some r -> nonresidue r = true /\
    exists k, r = Nat.iter k (fun x => gadd x rone) rone /\ forall j, j < k -> nonresidue (Nat.iter j (fun x => gadd x rone) (rone : F)) = false.
  Proof. exact (@find_nonresidue_least F _ _ fuel rone r). Qed.
  (** C50: the table of powers is cut into at most one piece per thread *)
  Theorem C50_chunks threads size : 0 < threads -> let cs := chunk_size threads size in 0 < cs /\ (size + cs - 1) / cs <= threads.
  Proof. exact (@chunks_le threads size). Qed.
  (** C50: the proof is a function of the public input, the key and two field elements that [r] and [s] mask *)
  Theorem C50_simulated R fuel threads m T (P1 : G1) (P2 : G2) (pk : pkey G1 G2) :
    t_delta T <> gzero -> well_formed m -> domain_ok R m fuel -> valid_key R m T P1 P2 fuel pk ->
    exists L hq, pk = setup m L hq P1 P2 T /\ forall input wit,
      length (rone :: input) = num_instance_variables m -> length wit = num_witness_variables m -> satisfied m ((rone :: input) ++ wit) ->
      exists a b, forall r s, plain_prove R fuel threads pk m (rone :: input) wit r s =
        Done (simulate m L P1 P2 T input (gadd a (rmul r (t_delta T))) (gadd b (rmul s (t_delta T)))).
  Proof. exact (@plain_simulated F G1 G2 _ _ _ _ _ _ R fuel threads m T P1 P2 pk). Qed.
  (** C50: two assignments with the same public input have the same proofs, up to a shift of [r] and [s] *)
  Theorem C50_indistinguishable R fuel threads m T (P1 : G1) (P2 : G2) (pk : pkey G1 G2) input wit wit' :
    t_delta T <> gzero -> well_formed m -> domain_ok R m fuel -> valid_key R m T P1 P2 fuel pk ->
    length (rone :: input) = num_instance_variables m ->
    length wit = num_witness_variables m -> satisfied m ((rone :: input) ++ wit) ->
    length wit' = num_witness_variables m -> satisfied m ((rone :: input) ++ wit') ->
    exists c d, forall r s, plain_prove R fuel threads pk m (rone :: input) wit r s = plain_prove R fuel threads pk m (rone :: input) wit' (gadd r c) (gadd s d).
  Proof. exact (@plain_indist F G1 G2 _ _ _ _ _ _ R fuel threads m T P1 P2 pk input wit wit'). Qed.
End PropsPlain.

(** ** Shamir shares *)
Section PropsShamir.
  Context {F G1 G2 Sg M : Type} {FF : Fld F} {AG1 : AbGrp G1} {MG1 : Mod F G1} {AG2 : AbGrp G2} {MG2 : Mod F G2}.
  Context {DF : Draw Sg F} {EF : Enc M (list F)} {E1 : Enc M G1} {E1s : Enc M (list G1)} {E2 : Enc M G2} (gen : G1).
  Context {FT : Fft F} {Seed : Type} {SDS : Seeded Sg Seed} {DS : Draw Sg Seed} {ES : Enc M (list Seed)} (seed0 : Seed).
  Theorem C51_shamir_prove (n t cap : nat) (n2 : 2 <= n) (nt : 2 * t + 1 <= n) (hcap : cap_ok n t cap)
      (inj : forall a b, a <= n -> b <= n -> fnat a = (fnat b : F) -> a = b) R fuel (threads : nat -> nat) threads0 m (seed : nat -> Seed) :
    exists r s, forall (pk : pkey G1 G2) pub (wit : nat -> list F) (w : list F), sharings n t wit w ->
      all_endn n cap (fun i => shamir_prove (M := M) (Sg := Sg) gen seed0 R fuel (threads i) pk m n t i (seed i) pub (wit i))
        (fun o => forall i, i < n -> o i = plain_prove R fuel threads0 pk m pub w r s).
  Proof. exact (@shamir_prove_ok F G1 G2 Sg M _ _ _ _ _ _ _ _ _ _ gen _ Seed _ _ _ seed0 n t cap n2 nt hcap inj R fuel threads threads0 m seed). Qed.
  (** C51: the bridge: the shares of three parties become Shamir shares before the proof *)
  Lemma bridge_ok (cap : nat) (hcap : cap_ok 3 1 cap) (inj : forall a b, a <= 3 -> b <= 3 -> fnat a = (fnat b : F) -> a = b)
      R fuel (threads : nat -> nat) threads0 m (seed : nat -> Seed) :
    exists r s, forall (pk : pkey G1 G2) pub (wit : pid -> list (share F)) (w : list F), shares_vec wit w ->
      all_endn 3 cap (fun i => bridge_prove (M := M) (Sg := Sg) gen seed0 R fuel (threads i) pk m i (seed i) pub (wit (pid_of i)))
        (fun o => forall i, i < 3 -> o i = plain_prove R fuel threads0 pk m pub w r s).
  Proof.
    destruct (@shamir_prove_wpon F G1 G2 Sg M _ _ _ _ _ _ _ _ _ _ gen _ Seed _ _ _ seed0 3 1 cap ltac:(lia) ltac:(lia) hcap inj R fuel threads threads0 m seed) as (r & s & K).
    exists r, s. intros pk pub wit w W. destruct (repshare_vec inj W) as (t & Et & St). apply wpon_all_end.
    eapply wpon_ext; [|exact (K pk pub t w St)]. intros i Hi. unfold bridge_prove. rewrite (Et i Hi). reflexivity.
  Qed.
  Theorem C51_bridge_prove (cap : nat) (hcap : cap_ok 3 1 cap) (inj : forall a b, a <= 3 -> b <= 3 -> fnat a = (fnat b : F) -> a = b)
      R fuel (threads : nat -> nat) threads0 m (seed : nat -> Seed) :
    exists r s, forall (pk : pkey G1 G2) pub (wit : pid -> list (share F)) (w : list F), shares_vec wit w ->
      all_endn 3 cap (fun i => bridge_prove (M := M) (Sg := Sg) gen seed0 R fuel (threads i) pk m i (seed i) pub (wit (pid_of i)))
        (fun o => forall i, i < 3 -> o i = plain_prove R fuel threads0 pk m pub w r s).
  Proof. exact (@bridge_ok cap hcap inj R fuel threads threads0 m seed). Qed.
  Context {GT : Type} {AGT : AbGrp GT} {MGT : Mod F GT}.
  Lemma shamir_verifies (n t cap : nat) (n2 : 2 <= n) (nt : 2 * t + 1 <= n) (hcap : cap_ok n t cap)
      (inj : forall a b, a <= n -> b <= n -> fnat a = (fnat b : F) -> a = b) R fuel (threads : nat -> nat) m (seed : nat -> Seed)
      T (P1 : G1) (P2 : G2) (pk : pkey G1 G2) (e : G1 -> G2 -> GT) input (wit : nat -> list F) w :
    pairing e -> t_gamma T <> gzero -> t_delta T <> gzero -> well_formed m -> domain_ok R m fuel -> valid_key R m T P1 P2 fuel pk ->
    length (rone :: input) = num_instance_variables m -> length w = num_witness_variables m -> satisfied m ((rone :: input) ++ w) -> sharings n t wit w ->
    all_endn n cap (fun i => shamir_prove (M := M) (Sg := Sg) gen seed0 R fuel (threads i) pk m n t i (seed i) (rone :: input) (wit i))
      (fun o => exists p, (forall i, i < n -> o i = Done p) /\ exists V, verify e pk input p = Done V /\ V).
  Proof.
    intros Pe G0 D0 Wf DO VK Lp Lw Sat W.
    destruct (@shamir_prove_ok F G1 G2 Sg M _ _ _ _ _ _ _ _ _ _ gen _ Seed _ _ _ seed0 n t cap n2 nt hcap inj R fuel threads 1 m seed) as (r & s & K).
    destruct (K pk (rone :: input) wit w W) as (o & k & Ho & K'). exists o, k. split; [|exact K'].
    destruct (plain_complete 1 r s Pe G0 D0 Wf DO VK Lp Lw Sat) as (p & E & V). exists p. split; [|exact V].
    intros i Hi. rewrite Ho by exact Hi. exact E.
  Qed.
  Theorem C51_shamir_complete (n t cap : nat) (n2 : 2 <= n) (nt : 2 * t + 1 <= n) (hcap : cap_ok n t cap)
      (inj : forall a b, a <= n -> b <= n -> fnat a = (fnat b : F) -> a = b) R fuel (threads : nat -> nat) m (seed : nat -> Seed)
      T (P1 : G1) (P2 : G2) (pk : pkey G1 G2) (e : G1 -> G2 -> GT) input (wit : nat -> list F) w :
    pairing e -> t_gamma T <> gzero -> t_delta T <> gzero -> well_formed m -> domain_ok R m fuel -> valid_key R m T P1 P2 fuel pk ->
    length (rone :: input) = num_instance_variables m -> length w = num_witness_variables m -> satisfied m ((rone :: input) ++ w) -> sharings n t wit w ->
    all_endn n cap (fun i => shamir_prove (M := M) (Sg := Sg) gen seed0 R fuel (threads i) pk m n t i (seed i) (rone :: input) (wit i))
      (fun o => exists p, (forall i, i < n -> o i = Done p) /\ exists V, verify e pk input p = Done V /\ V).
  Proof. exact (@shamir_verifies n t cap n2 nt hcap inj R fuel threads m seed T P1 P2 pk e input wit w). Qed.
End PropsShamir.
Print Assumptions C49_rep3_prove.
Print Assumptions C50_rep3_complete.
Print Assumptions C50_complete.
Print Assumptions C50_key.
Print Assumptions C50_roots.
Print Assumptions C50_nonresidue.
Print Assumptions C50_chunks.
Print Assumptions C50_simulated.
Print Assumptions C50_indistinguishable.
Print Assumptions C51_shamir_prove.
Print Assumptions C51_bridge_prove.
Print Assumptions C51_shamir_complete.

(** ** Examples: [x * x = 4] over the field with 13 elements; all groups are the field itself *)
#[export] Instance fft13 : Fft F13 := {| two_adicity := 2; trace := 3; fgenerator := f13 2;
  nonresidue := fun q => feqb (fpow q 6) (f13 12); ark_root := fun k => fpow (f13 2) (3 * 2 ^ (2 - k)) |}.
Definition m13 : matrices F13 := mkMats 1 1 1 [[(f13 1, 1)]] [[(f13 1, 1)]] [[(f13 4, 0)]].
Definition t13 : trapdoor (F := F13) := mkTrap (f13 6) (f13 2) (f13 3) (f13 5) (f13 7).
Definition e13 (x y : F13) : F13 := rmul x y.
Lemma eq13 (a b : F13) : Zp.val a = Zp.val b -> a = b.
Proof. intros E. apply feqb_spec. unfold feqb. cbn. apply Z.eqb_eq. exact E. Qed.
Lemma neq13 (a b : F13) : Zp.val a <> Zp.val b -> a <> b.
Proof. intros N E. apply N. rewrite E. reflexivity. Qed.
Lemma fft13_ok : fft_ok (F := F13).
Proof.
  split.
  - intros q Hq. change (feqb (fpow q 6) (f13 12) = true) in Hq. apply feqb_spec in Hq. change (trace * 2 ^ (two_adicity - 1))%nat with 6. rewrite Hq. apply eq13. vm_compute. reflexivity.
  - apply neq13. vm_compute. discriminate.
  - cbn. lia.
Qed.
Lemma root13 : root (f13 12) 2.
Proof.
  split; [lia|apply eq13; vm_compute; reflexivity| |apply neq13; vm_compute; discriminate].
  intros k Hk. assert (k = 1) by lia. subst. apply neq13. vm_compute. discriminate.
Qed.
Lemma dom13 R : domain_ok R m13 5.
Proof.
  destruct R; cbn [domain_ok].
  - split; [exact fft13_ok|]. split; [vm_compute; discriminate|cbn; lia].
  - split; [|split; [cbn; lia|split; apply neq13; vm_compute; discriminate]].
    replace (ark_root (domain_log m13)) with (f13 12) by (apply eq13; vm_compute; reflexivity). exact root13.
Qed.
Lemma wf13 : well_formed m13.
Proof.
  repeat split. intros rows row c ix I1 I2 I3. cbn in I1.
  destruct I1 as [<-|[<-|[<-|[]]]]; cbn in I2; destruct I2 as [<-|[]]; cbn in I3; destruct I3 as [E|[]]; injection E as <- <-; cbn; lia.
Qed.
Lemma sat13 x : x = 2%Z \/ x = 11%Z -> satisfied m13 ([rone] ++ [f13 x]).
Proof. intros Hx i Hi. cbn in Hi. assert (i = 0) by lia. subst. destruct Hx as [-> | ->]; apply eq13; vm_compute; reflexivity. Qed.
Lemma pair13 : pairing e13.
Proof.
  split. intros a b x y. unfold e13. change (rmul (rmul a x) (rmul b y) = rmul (rmul a b) (rmul x y)).
  rewrite <- !rmul_assoc. f_equal. rewrite !rmul_assoc. f_equal. apply rmul_comm.
Qed.
Example ex_C50 R : exists pk, valid_key R m13 t13 (f13 1 : F13) (f13 1 : F13) 5 pk /\
  forall r s, exists p, plain_prove R 5 4 pk m13 [rone] [f13 2] r s = Done p /\ exists V, verify e13 pk [] p = Done V /\ V.
Proof.
  destruct (C50_key R 5 m13 t13 (f13 1 : F13) (f13 1 : F13) (dom13 R)) as (pk & K). exists pk. split; [exact K|]. intros r s.
  apply (C50_complete R 5 4 m13 t13 (f13 1) (f13 1) pk e13 [] [f13 2] r s pair13); try exact wf13; try exact K; try reflexivity.
  - apply neq13. vm_compute. discriminate.
  - apply neq13. vm_compute. discriminate.
  - apply dom13.
  - apply sat13. auto.
Qed.
(** a key, computed *)
Definition pk13 : pkey F13 F13 := setup m13 (lagrange (f13 12) 2 (f13 6)) (circom_hq 2 (lagrange (f13 8) 4 (f13 6))) (f13 1) (f13 1) t13.
Lemma pk13_valid : valid_key CircomReduction m13 t13 (f13 1 : F13) (f13 1 : F13) 5 pk13.
Proof.
  exists (f13 12), (f13 8), (lagrange (f13 12) 2 (f13 6)), (lagrange (f13 8) 4 (f13 6)).
  destruct (C50_roots 5 (f13 2) 1 fft13_ok eq_refl ltac:(cbn; lia)) as (g & w & E & Rg & Rw & _). destruct (Rw ltac:(cbn; lia)) as (_ & Rw').
  assert (V := f_equal (option_map (fun p => (Zp.val (fst p), Zp.val (snd p)))) E). cbn [option_map fst snd] in V.
  assert (V0 : option_map (fun p : F13 * F13 => (Zp.val (fst p), Zp.val (snd p))) (groth16_roots_of_unity 5 1) = Some (12, 8)%Z) by (vm_compute; reflexivity).
  rewrite V0 in V. injection V as V1 V2. assert (g = f13 12) by (apply eq13; rewrite <- V1; reflexivity). assert (w = f13 8) by (apply eq13; rewrite <- V2; reflexivity).
  clear V0 V1 V2. subst g w. change (domain_log m13) with 1. rename E into E0.
  split; [exact E0|]. split; [apply lagrange_ok; [exact Rg|cbn; lia]|]. split; [apply lagrange_ok; [exact Rw'|cbn; lia]|reflexivity].
Qed.
Definition vals (p : proof F13 F13) : list Z := [Zp.val (pf_a p); Zp.val (pf_b p); Zp.val (pf_c p)].
Example ex_C50_run : option_map vals (match plain_prove CircomReduction 5 4 pk13 m13 [rone] [f13 2] (f13 5) (f13 9) with Done p => Some p | _ => None end) = Some [9; 8; 2]%Z.
Proof. vm_compute. reflexivity. Qed.
#[local] Opaque plain_prove rep3_prove shamir_prove bridge_prove setup.
(** the other root of 4, with shifted randomness: the same proof *)
Example ex_C50_indist : exists c d, forall r s, plain_prove CircomReduction 5 4 pk13 m13 [rone] [f13 2] r s = plain_prove CircomReduction 5 4 pk13 m13 [rone] [f13 11] (gadd r c) (gadd s d).
Proof.
  pose proof (C50_indistinguishable CircomReduction 5 4 m13 t13 (f13 1) (f13 1) pk13 [] [f13 2] [f13 11]) as K. apply K; clear K.
  - apply neq13. vm_compute. discriminate.
  - exact wf13.
  - apply dom13.
  - exact pk13_valid.
  - reflexivity.
  - reflexivity.
  - apply sat13. auto.
  - reflexivity.
  - apply sat13. auto.
Qed.
(** an assignment that does not satisfy the constraint: the proof does not verify *)
Example ex_C50_unsat : match plain_prove CircomReduction 5 4 pk13 m13 [rone] [f13 3] (f13 5) (f13 9) with
  | Done p => match verify e13 pk13 [] p with Done V => ~ V | _ => False end | _ => False end.
Proof. apply neq13. vm_compute. discriminate. Qed.

From Verif Require Import Rep3Net.
(** ** Runs of three parties *)
Inductive gmsg := GF (l : list F13) | GZ (l : list Z) | GP (l : list (Z * Z)).
#[export] Instance enc_gf : Enc gmsg (list F13).
Proof. refine {| enc := GF; dec := fun m => match m with GF l => Some l | _ => None end |}. reflexivity. Defined.
#[export] Instance enc_gz : Enc gmsg (list Z).
Proof. refine {| enc := GZ; dec := fun m => match m with GZ l => Some l | _ => None end |}. reflexivity. Defined.
#[export] Instance enc_gp : Enc gmsg (list (Z * Z)).
Proof. refine {| enc := GP; dec := fun m => match m with GP l => Some l | _ => None end |}. reflexivity. Defined.
Definition seeds3 (i : pid) : Z := match i with P0 => 123456789 | P1 => 987654321 | P2 => 555555555 end%Z.
Definition wit13 (i : pid) : list (share F13) := [sh13 2 5 9 i].
Definition rep3_run (i : pid) : prog pid gmsg (proof F13 F13) :=
  rep3_prove drawv13 CircomReduction 5 (match i with P0 => 1 | P1 => 3 | P2 => 8 end) pk13 m13 i (seeds3 i) [rone] (wit13 i).
Lemma wit13_shares : shares_vec wit13 [f13 2].
Proof. refine (Rep3Proofs.pvec_cons _ _ _ (fun j => eq_refl) (sh13_shares 2 5 9) _). apply Rep3Proofs.pvec_nil. reflexivity. Qed.
Example ex_C49 : exists r s, all_end 1 rep3_run (fun o => forall i, o i = plain_prove CircomReduction 5 1 pk13 m13 [rone] [f13 2] r s).
Proof.
  destruct (@C49_rep3_prove F13 F13 F13 Z gmsg _ _ _ _ _ _ _ _ _ drawv13 _ Z _ _ _ _ 1 ltac:(lia) drawv13_len CircomReduction 5
    (fun i => match i with P0 => 1 | P1 => 3 | P2 => 8 end) 1 m13 seeds3) as (r & s & K). exists r, s. exact (K pk13 [rone] wit13 [f13 2] wit13_shares).
Qed.
Definition same3 (o : option (pid -> outcome (proof F13 F13))) : option (list (list Z)) :=
  match o with
  | Some o => match o P0, o P1, o P2 with Done a, Done b, Done c => Some [vals a; vals b; vals c] | _, _, _ => None end
  | None => None
  end.
Example ex_C49_run : exists a b c, same3 (Exec.exec 1 3000 rep3_run) = Some [[a; b; c]; [a; b; c]; [a; b; c]].
Proof. do 3 eexists. vm_compute. reflexivity. Qed.
Example ex_C50_rep3 : all_end 1 rep3_run (fun o => exists p, (forall i, o i = Done p) /\ exists V, verify e13 pk13 [] p = Done V /\ V).
Proof.
  apply (@C50_rep3_complete F13 F13 F13 Z gmsg _ _ _ _ _ _ _ _ _ drawv13 _ Z _ _ _ _ 1 ltac:(lia) drawv13_len F13 _ _ CircomReduction 5
    (fun i => match i with P0 => 1 | P1 => 3 | P2 => 8 end) m13 seeds3 t13 (f13 1) (f13 1) pk13 e13 [] wit13 [f13 2] pair13).
  - apply neq13. vm_compute. discriminate.
  - apply neq13. vm_compute. discriminate.
  - exact wf13.
  - apply dom13.
  - exact pk13_valid.
  - reflexivity.
  - reflexivity.
  - apply sat13. auto.
  - exact wit13_shares.
Qed.
(** Shamir shares among three parties with threshold 1, and the bridge *)
Definition shamir_run (i : nat) : prog nat smsg (proof F13 F13) :=
  shamir_prove (f13 1) 0%Z CircomReduction 5 2 pk13 m13 3 1 i (seeds13 i) [rone] [ss13 2 5 i].
Definition bridge_run (i : nat) : prog nat smsg (proof F13 F13) :=
  bridge_prove (f13 1) 0%Z CircomReduction 5 2 pk13 m13 i (seeds13 i) [rone] (wit13 (pid_of i)).
Example ex_C51_run : exists a b c, map (option_map vals) (run_all 3 1 300 shamir_run) = repeat (Some [a; b; c]) 3.
Proof. do 3 eexists. vm_compute. reflexivity. Qed.
Example ex_C51_bridge_run : exists a b c, map (option_map vals) (run_all 3 1 300 bridge_run) = repeat (Some [a; b; c]) 3.
Proof. do 3 eexists. vm_compute. reflexivity. Qed.
Example ex_C51 : exists r s, all_endn 3 1 bridge_run (fun o => forall i, i < 3 -> o i = plain_prove CircomReduction 5 7 pk13 m13 [rone] [f13 2] r s).
Proof.
  destruct (@C51_bridge_prove F13 F13 F13 Z smsg _ _ _ _ _ _ _ _ _ _ (f13 1) _ Z _ _ _ 0%Z 1 cap_ok_31 (@inj13 3 ltac:(lia)) CircomReduction 5 (fun _ => 2) 7 m13 seeds13) as (r & s & K).
  exists r, s. exact (K pk13 [rone] wit13 [f13 2] wit13_shares).
Qed.
