(** * A Plonk circuit over the field with 97 elements, for the examples *)
From Coq Require Import String List Arith ZArith Znumtheory Lia Bool.
From Verif Require Import Proc Alg Zp Rep3Net NNet Rep3 Rep3Spec Rep3Proofs Concrete ShamirPoly Shamir ShamirSpec Dft Groth16 Plonk.
Import ListNotations.
Local Open Scope nat_scope.

#[export] Instance prime97 : prime (Zpos 97).
Proof. apply prime_intro; [lia|]. intros n Hn. apply Zgcd_1_rel_prime. assert (D : forall k, (k < 96)%nat -> Z.gcd (Z.of_nat k + 1) 97 = 1%Z).
  { intros k Hk. do 96 (destruct k as [|k]; [vm_compute; reflexivity|]). lia. }
  specialize (D (Z.to_nat (n - 1)) ltac:(lia)). rewrite Z2Nat.id in D by lia. replace (n - 1 + 1)%Z with n in D by lia. exact D.
Qed.
Notation F97 := (Zmod 97).
Notation f97 := (@ofZ 97).
#[export] Instance fft97 : Fft F97 := {| two_adicity := 5; trace := 3; fgenerator := f97 5;
  nonresidue := fun q => feqb (fpow q 48) (f97 96); ark_root := fun k => fpow (f97 5) (3 * 2 ^ (5 - k)) |}.
(** a transcript: a polynomial hash *)
Definition h97 (l : list (F97 + F97)) : F97 := f97 (fold_left (fun h x => ((h * 1231 + match x with inl a => val a | inr a => val a + 7 end) mod 10007)%Z) l 5%Z).
Definition dom97 : domains F97 := match domains_new 10 8 with Done d => d | _ => mkDom 0 gzero gzero gzero end.
Definition w97 := dm_w dom97.
Definition tau97 : F97 := f97 11.
(** a polynomial given by its values on the domain *)
Definition poly97 (v : list Z) : zpoly F97 :=
  let c := idft w97 8 (map f97 v) in mkPoly c (dft (dm_w4 dom97) 32 c).
Definition k97 (j : nat) : F97 := nth j [f97 1; f97 2; f97 3] gzero.
Definition label97 (c : nat * nat) : F97 := rmul (k97 (fst c)) (fpow w97 (snd c)).
Definition com97 (p : zpoly F97) : F97 := peval (coeffs p) tau97.
Definition sigma97 (s : list (nat * nat)) : zpoly F97 := poly97 (map (fun c => val (label97 c)) s).
(** rows: [a0 = pub]; [x * y = pub]; [x + y = s] with [s] an addition; [s = 5]; padding *)
Definition zk97 (np : nat) : zkey F97 F97 :=
  let qm := poly97 [0; 1; 0; 0; 0; 0; 0; 0]%Z in
  let ql := poly97 [1; 0; 1; 1; 0; 0; 0; 0]%Z in
  let qr := poly97 [0; 0; 1; 0; 0; 0; 0; 0]%Z in
  let qo := poly97 [0; -1; -1; 0; 0; 0; 0; 0]%Z in
  let qc := poly97 [0; 0; 0; -5; 0; 0; 0; 0]%Z in
  let s1 := sigma97 [(2,1); (0,2); (0,1); (2,2); (0,5); (0,6); (0,7); (1,0)] in
  let s2 := sigma97 [(1,3); (1,2); (1,1); (1,4); (1,5); (1,6); (1,7); (2,0)] in
  let s3 := sigma97 [(2,3); (0,0); (0,3); (2,4); (2,5); (2,6); (2,7); (0,4)] in
  mkZk 5 np 8 3 1 [mkAdd 2 3 (f97 1) (f97 1)] [1; 2; 2; 4] [0; 3; 3; 0] [0; 1; 4; 0]
    qm ql qr qo qc s1 s2 s3 [poly97 [1; 0; 0; 0; 0; 0; 0; 0]%Z]
    (map (fun i => fpow tau97 i) (seq 0 14))
    (mkVk (k97 1) (k97 2) (com97 qm) (com97 ql) (com97 qr) (com97 qo) (com97 qc) (com97 s1) (com97 s2) (com97 s3)).
Definition vk97 (np : nat) : json_vk F97 F97 F97 := mkJvk np 3 (verifying_key (zk97 np)) tau97.
Definition e97 (x y : F97) : F97 := rmul x y.
Definition b97 : list F97 := map f97 [7; 14; 15; 92; 65; 35; 89; 79; 32; 38; 46]%Z.
Definition r97 : list F97 := map f97 [31; 41; 59; 26; 53; 58; 97+9; 4; 71]%Z.
Definition show97 (p : plonk_proof F97 F97) : list Z := map val [pp_a p; pp_b p; pp_c p; pp_z p; pp_t1 p; pp_t2 p; pp_t3 p; pp_eval_a p; pp_eval_b p; pp_eval_c p; pp_eval_s1 p; pp_eval_s2 p; pp_eval_zw p; pp_wxi p; pp_wxiw p].
Definition pr97 : outcome (plonk_proof F97 F97) := plonk_plain_prove h97 10 (zk97 1) [f97 1; f97 6] [f97 2; f97 3] b97 r97 r97.
Lemma eq97 (a b : F97) : val a = val b -> a = b.
Proof. intros E. apply feqb_spec. unfold feqb. cbn. apply Z.eqb_eq. exact E. Qed.
Lemma neq97 (a b : F97) : val a <> val b -> a <> b.
Proof. intros N E. apply N. rewrite E. reflexivity. Qed.
(** a circuit without public inputs: [x = 5] *)
Definition zk0_with (ls : list (zpoly F97)) : zkey F97 F97 :=
  let qm := poly97 [0; 0; 0; 0; 0; 0; 0; 0]%Z in
  let ql := poly97 [1; 0; 0; 0; 0; 0; 0; 0]%Z in
  let qr := poly97 [0; 0; 0; 0; 0; 0; 0; 0]%Z in
  let qo := poly97 [0; 0; 0; 0; 0; 0; 0; 0]%Z in
  let qc := poly97 [-5; 0; 0; 0; 0; 0; 0; 0]%Z in
  let s1 := sigma97 [(0,0); (0,1); (0,2); (0,3); (0,4); (0,5); (0,6); (0,7)] in
  let s2 := sigma97 [(1,0); (1,1); (1,2); (1,3); (1,4); (1,5); (1,6); (1,7)] in
  let s3 := sigma97 [(2,0); (2,1); (2,2); (2,3); (2,4); (2,5); (2,6); (2,7)] in
  mkZk 2 0 8 3 0 [] [1] [0] [0]
    qm ql qr qo qc s1 s2 s3 ls
    (map (fun i => fpow tau97 i) (seq 0 14))
    (mkVk (k97 1) (k97 2) (com97 qm) (com97 ql) (com97 qr) (com97 qo) (com97 qc) (com97 s1) (com97 s2) (com97 s3)).
(** the file of the key holds one Lagrange polynomial also in this case *)
Definition zk0 : zkey F97 F97 := zk0_with [poly97 [1; 0; 0; 0; 0; 0; 0; 0]%Z].
Definition vk0 : json_vk F97 F97 F97 := mkJvk 0 3 (verifying_key zk0) tau97.
Definition pr0 : outcome (plonk_proof F97 F97) := plonk_plain_prove h97 10 zk0 [f97 1] [f97 5] b97 r97 r97.

(** three parties *)
#[export] Instance draw97 : Draw Z F97 := fun s => (f97 ((s * 7919 + 13) / 64), ((s * 1103515245 + 12345) mod 2147483648)%Z).
Inductive pmsg := PF (l : list F97) | PE (x : F97) | PZ (l : list Z) | PP (l : list (Z * Z)).
#[export] Instance enc_pf : Enc pmsg (list F97).
Proof. refine {| enc := PF; dec := fun m => match m with PF l => Some l | _ => None end |}. reflexivity. Defined.
#[export] Instance enc_pe : Enc pmsg F97.
Proof. refine {| enc := PE; dec := fun m => match m with PE l => Some l | _ => None end |}. reflexivity. Defined.
#[export] Instance enc_pz : Enc pmsg (list Z).
Proof. refine {| enc := PZ; dec := fun m => match m with PZ l => Some l | _ => None end |}. reflexivity. Defined.
#[export] Instance enc_pp : Enc pmsg (list (Z * Z)).
Proof. refine {| enc := PP; dec := fun m => match m with PP l => Some l | _ => None end |}. reflexivity. Defined.
Definition sh97 (v a b : Z) : pid -> share F97 := fun i =>
  match i with
  | P0 => mkShare (f97 a) (f97 (v - a - b))
  | P1 => mkShare (f97 b) (f97 a)
  | P2 => mkShare (f97 (v - a - b)) (f97 b)
  end%Z.
Lemma sh97_shares v a b : shares (sh97 v a b) (f97 v).
Proof.
  split; [intros []; reflexivity|]. unfold additive, sh97. cbn [sa].
  etransitivity; [exact (ofZ_sum3 _ _ _)|f_equal; lia].
Qed.
Definition wit97 (i : pid) : list (share F97) := [sh97 2 50 91 i; sh97 3 5 23 i].
Definition seeds97 (i : pid) : Z := match i with P0 => 123457089 | P1 => 987654621 | P2 => 555555855 end%Z.
Lemma wit97_shares : shares_vec wit97 [f97 2; f97 3].
Proof.
  refine (Rep3Proofs.pvec_cons _ _ _ (fun j => eq_refl) (sh97_shares 2 50 91) _).
  refine (Rep3Proofs.pvec_cons _ _ _ (fun j => eq_refl) (sh97_shares 3 5 23) _). apply Rep3Proofs.pvec_nil. reflexivity.
Qed.
Definition rep3_run97 (i : pid) : prog pid pmsg (plonk_proof F97 F97) :=
  plonk_rep3_prove h97 10 (match i with P0 => 1 | P1 => 3 | P2 => 8 end) (zk97 1) i (seeds97 i) [f97 1; f97 6] (wit97 i).
(** Shamir shares *)
Definition ss97 (v a : Z) : nat -> F97 := fun i => f97 (v + a * (Z.of_nat i + 1))%Z.
Definition swit97 (i : nat) : list F97 := [ss97 2 44 i; ss97 3 19 i].
Definition sseeds97 (i : nat) : Z := (123456789 + Z.of_nat i * 864197532)%Z.
Definition shamir_run97 (i : nat) : prog nat pmsg (plonk_proof F97 F97) :=
  plonk_shamir_prove h97 0%Z 10 (zk97 1) 3 1 i (sseeds97 i) [f97 1; f97 6] (swit97 i).
Lemma swit97_shares : sharings 3 1 swit97 [f97 2; f97 3].
Proof.
  split; [reflexivity|]. intros [|[|j]] Hj; [| |cbn in Hj; lia].
  - exists [f97 2; f97 44]. split; [cbn; lia|]. split; [reflexivity|]. intros i Hi. apply eq97. destruct i as [|[|[|i]]]; [vm_compute; reflexivity..|lia].
  - exists [f97 3; f97 19]. split; [cbn; lia|]. split; [reflexivity|]. intros i Hi. apply eq97. destruct i as [|[|[|i]]]; [vm_compute; reflexivity..|lia].
Qed.
Lemma inj97 n : n <= 12 -> forall a b, a <= n -> b <= n -> fnat a = (fnat b : F97) -> a = b.
Proof.
  intros Hn a b Ha Hb E. apply (f_equal val) in E.
  assert (V : forall k, k <= 12 -> val (fnat k : F97) = Z.of_nat k).
  { intros k Hk. do 13 (destruct k as [|k]; [vm_compute; reflexivity|]). lia. }
  rewrite !V in E by lia. lia.
Qed.
