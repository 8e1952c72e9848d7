(** * Properties of the collaborative Plonk prover: C52 (three parties, replicated shares), C53
      (Shamir shares) *)
From Coq Require Import String List Arith ZArith Lia Bool.
From Verif Require Import Proc Alg Zp Rep3Net NNet Rep3 Rep3Spec ShamirPoly Shamir ShamirSpec ShamirDeal.
From Verif Require Import Exec ConcreteS Concrete PropsShamir Dft Groth16 Plonk PlonkGen PlonkIdeal PlonkInst ConcreteP.
Import ListNotations.
Local Open Scope nat_scope.

(** ** Three parties *)
Section PropsRep3.
  Context {F G1 S M : Type} {FF : Fld F} {AG1 : AbGrp G1} {MG1 : Mod F G1}.
  Context {DF : Draw S F} {EF : Enc M (list F)} {E1 : Enc M (list G1)}.
  Context {FT : Fft F} {Seed : Type} {SS : Seeded S Seed} {DS : Draw S Seed} {ES : Enc M (list Seed)} {ESS : Enc M (list (Seed * Seed))}.
  Context (cap : nat) (cap_pos : 1 <= cap).

  (** C52: the seeds and the size of the domain determine blinding factors [b] and masks [r0], [r1], [ks].
      Whatever the schedule, the channel capacity, the thread counts, the key, the input and the shares: all
      parties end with the same outcome [o].  If it is a proof, the prover on clear values returns this proof with the
      same randomness.  If no mask is zero, the two provers agree (a denominator that is zero has another error text). *)
  Theorem C52_rep3_prove (H : list (F + G1) -> F) fuel (threads : pid -> nat) (seed : pid -> Seed) n :
    exists b r0 r1 ks, forall (zk : zkey F G1) pub (wit : pid -> list (share F)) (w : list F), domain_size zk = n -> shares_vec wit w ->
      exists o, all_end cap (fun i => plonk_rep3_prove (M := M) H fuel (threads i) zk i (seed i) pub (wit i)) (fun r => forall i, r i = o) /\
        (forall p, o = Done p -> plonk_plain_prove H fuel zk pub w b r0 r1 = Done p) /\
        (~ In gzero (r0 ++ r1 ++ ks) -> match o, plonk_plain_prove H fuel zk pub w b r0 r1 with
                                        | Done p, Done p' => p = p'
                                        | Failed e, Failed e' => e' = e \/ e' = plain_inv_error /\ e = inv_err
                                        | _, _ => False
                                        end).
  Proof. exact (@plonk_rep3_ok F G1 S M _ _ _ _ _ _ _ Seed _ _ _ _ cap cap_pos H fuel threads seed n). Qed.
End PropsRep3.

(** ** Shamir shares *)
Section PropsShamir.
  Context {F G1 Sg M : Type} {FF : Fld F} {AG1 : AbGrp G1} {MG1 : Mod F G1}.
  Context {DF : Draw Sg F} {EF : Enc M (list F)} {E1 : Enc M G1} {E1s : Enc M (list G1)}.
  Context {FT : Fft F} {Seed : Type} {SDS : Seeded Sg Seed} {DS : Draw Sg Seed} {ES : Enc M (list Seed)} (seed0 : Seed).
  (** C53: the same for [n] parties and threshold [t].  In particular the [222 * domain_size + 15] pairs of the
      preprocessing last until the end: no party fails because a fork finds too few of them *)
  Theorem C53_shamir_prove (n t cap : nat) (n2 : 2 <= n) (nt : 2 * t + 1 <= n) (hcap : cap_ok n t cap)
      (inj : forall a b, a <= n -> b <= n -> fnat a = (fnat b : F) -> a = b) (H : list (F + G1) -> F) fuel (seed : nat -> Seed) dn :
    exists b r0 r1 ks, forall (zk : zkey F G1) pub (wit : nat -> list F) (w : list F), domain_size zk = dn -> sharings n t wit w ->
      exists o, all_endn n cap (fun i => plonk_shamir_prove (M := M) (Sg := Sg) H seed0 fuel zk n t i (seed i) pub (wit i)) (fun r => forall i, i < n -> r i = o) /\
        (forall p, o = Done p -> plonk_plain_prove H fuel zk pub w b r0 r1 = Done p) /\
        (~ In gzero (r0 ++ r1 ++ ks) -> match o, plonk_plain_prove H fuel zk pub w b r0 r1 with
                                        | Done p, Done p' => p = p'
                                        | Failed e, Failed e' => e' = e \/ e' = plain_inv_error /\ e = Eyre "Cannot compute inverse of zero"
                                        | _, _ => False
                                        end).
  Proof. exact (@plonk_shamir_ok F G1 Sg M _ _ _ _ _ _ _ _ Seed _ _ _ seed0 n t cap n2 nt hcap inj H fuel seed dn). Qed.
End PropsShamir.
Print Assumptions C52_rep3_prove.
Print Assumptions C53_shamir_prove.

(** ** Examples: a circuit with four constraints, an addition and a public input over the field with 97 elements *)
Definition shown (o : outcome (plonk_proof F97 F97)) : option (list Z) := match o with Done p => Some (show97 p) | Failed _ => None end.
Example ex_plain_run : shown pr97 = Some [41; 44; 39; 80; 33; 42; 34; 43; 60; 3; 5; 22; 67; 6; 5]%Z.
Proof. vm_compute. reflexivity. Qed.
Import Rep3Net.
Definition same97 (o : option (pid -> outcome (plonk_proof F97 F97))) : option (list (option (list Z))) :=
  match o with Some o => Some [shown (o P0); shown (o P1); shown (o P2)] | None => None end.
Example ex_C52_run : same97 (Exec.exec 1 3000 rep3_run97) = Some (repeat (Some [9; 95; 38; 96; 39; 53; 53; 36; 13; 5; 93; 82; 5; 27; 91]%Z) 3).
Proof. vm_compute. reflexivity. Qed.
Definition outs97 (c : Proc.config (P := nat) (M := pmsg) (plonk_proof F97 F97)) : list (option (list Z)) :=
  map (fun i => match Proc.pr c i with Ret a => Some (show97 a) | _ => None end) (seq 0 3).
Example ex_C53_run : outs97 (exec_all 3 1 (round_robin 3 400) (Proc.init shamir_run97)) = repeat (Some [34; 1; 82; 85; 46; 38; 63; 23; 0; 11; 47; 12; 82; 91; 95]%Z) 3.
Proof. vm_compute. reflexivity. Qed.
#[local] Opaque plonk_plain_prove plonk_rep3_prove plonk_shamir_prove zk97.
Example ex_C52 : exists b r0 r1 o, all_end 1 rep3_run97 (fun r => forall i, r i = o) /\
  (forall p, o = Done p -> plonk_plain_prove h97 10 (zk97 1) [f97 1; f97 6] [f97 2; f97 3] b r0 r1 = Done p).
Proof.
  destruct (@C52_rep3_prove F97 F97 Z pmsg _ _ _ _ _ _ _ Z _ _ _ _ 1 ltac:(lia) h97 10 (fun i => match i with P0 => 1 | P1 => 3 | P2 => 8 end) seeds97 8) as (b & r0 & r1 & ks & K).
  destruct (K (zk97 1) [f97 1; f97 6] wit97 [f97 2; f97 3] eq_refl wit97_shares) as (o & K1 & K2 & _). exists b, r0, r1, o. auto.
Qed.
Lemma cap97 : cap_ok 3 1 1.
Proof. exact cap_ok_31. Qed.
Example ex_C53 : exists b r0 r1 o, all_endn 3 1 shamir_run97 (fun r => forall i, i < 3 -> r i = o) /\
  (forall p, o = Done p -> plonk_plain_prove h97 10 (zk97 1) [f97 1; f97 6] [f97 2; f97 3] b r0 r1 = Done p).
Proof.
  destruct (@C53_shamir_prove F97 F97 Z pmsg _ _ _ _ _ _ _ _ Z _ _ _ 0%Z 3 1 1 ltac:(lia) ltac:(lia) cap97 (inj97 3 ltac:(lia)) h97 10 sseeds97 8) as (b & r0 & r1 & ks & K).
  destruct (K (zk97 1) [f97 1; f97 6] swit97 [f97 2; f97 3] eq_refl swit97_shares) as (o & K1 & K2 & _). exists b, r0, r1, o. auto.
Qed.
