(** * Concrete carriers and an executable scheduler for the examples on Shamir shares *)
From Coq Require Import String List Arith ZArith Znumtheory Lia Bool.
From Verif Require Import Proc Alg Zp NNet Rep3 Concrete ShamirPoly Shamir ShamirSpec.
Import ListNotations.
Local Open Scope nat_scope.

(** a message type carrying everything the protocols send *)
Inductive smsg : Type :=
| SF (x : F13) | SFs (l : list F13) | SZs (l : list Z) | SP (p : F13 * F13) | SPs (p : list F13 * list F13).
#[export] Instance enc_sf : Enc smsg F13.
Proof. refine {| enc := SF; dec := fun m => match m with SF l => Some l | _ => None end |}. reflexivity. Defined.
#[export] Instance enc_sfs : Enc smsg (list F13).
Proof. refine {| enc := SFs; dec := fun m => match m with SFs l => Some l | _ => None end |}. reflexivity. Defined.
#[export] Instance enc_szs : Enc smsg (list Z).
Proof. refine {| enc := SZs; dec := fun m => match m with SZs l => Some l | _ => None end |}. reflexivity. Defined.
#[export] Instance enc_sp : Enc smsg (F13 * F13).
Proof. refine {| enc := SP; dec := fun m => match m with SP l => Some l | _ => None end |}. reflexivity. Defined.
#[export] Instance enc_sps : Enc smsg (list F13 * list F13).
Proof. refine {| enc := SPs; dec := fun m => match m with SPs l => Some l | _ => None end |}. reflexivity. Defined.

(** the evaluation points of up to 5 parties are distinct in the field with 13 elements *)
Lemma inj13 n : n <= 12 -> forall a b, a <= n -> b <= n -> fnat a = (fnat b : F13) -> a = b.
Proof.
  intros Hn. assert (H : forall a b, a <= 12 -> b <= 12 -> fnat a = (fnat b : F13) -> a = b).
  { intros a b Ha Hb E. apply (f_equal val) in E.
    assert (V : forall k, k <= 12 -> val (fnat k : F13) = Z.of_nat k).
    { intros k Hk. do 13 (destruct k as [|k]; [vm_compute; reflexivity|]). lia. }
    rewrite !V in E by assumption. lia. }
  intros a b Ha Hb. apply H; lia.
Qed.
(** degree-1 sharing of [v] with slope [a] *)
Definition ss13 (v a : Z) : nat -> F13 := fun i => f13 (v + a * (Z.of_nat i + 1))%Z.

(** ** Executable scheduler *)
Section Exec.
  Context {M A : Type} (n cap : nat).
  Notation config := (Proc.config (P := nat) (M := M) A).
  Definition upd2 (ch : nat -> nat -> list M) (i j : nat) (l : list M) : nat -> nat -> list M :=
    fun a b => if ((a =? i) && (b =? j))%nat then l else ch a b.
  Definition updp (p : nat -> prog nat M A) (i : nat) (q : prog nat M A) : nat -> prog nat M A := fun a => if (a =? i)%nat then q else p a.
  Definition exec (i : nat) (c : config) : option config :=
    if negb (i <? n)%nat then None else
    match pr c i with
    | Ret _ | Fail _ => None
    | Send j m k => if (length (ch c i j) <? cap)%nat then Some (mkConfig (updp (pr c) i k) (upd2 (ch c) i j (ch c i j ++ [m]))) else None
    | Recv j k => match ch c j i with [] => None | m :: q => Some (mkConfig (updp (pr c) i (k m)) (upd2 (ch c) j i q)) end
    end.
  Fixpoint exec_all (is : list nat) (c : config) : config :=
    match is with [] => c | i :: is => match exec i c with Some c' => exec_all is c' | None => exec_all is c end end.
  Lemma upd2_other chs i j l a b : (a, b) <> (i, j) -> upd2 chs i j l a b = chs a b.
  Proof. intros H. unfold upd2. destruct (Nat.eqb_spec a i), (Nat.eqb_spec b j); cbn; congruence. Qed.
  Lemma upd2_same chs i j l : upd2 chs i j l i j = l.
  Proof. unfold upd2. rewrite !Nat.eqb_refl. reflexivity. Qed.
  Lemma exec_step i c c' : exec i c = Some c' -> step (memn n) cap i c c'.
  Proof.
    unfold exec. destruct (Nat.ltb_spec i n) as [Hi|Hi]; cbn [negb]; [|discriminate]. intros E. split; [exact Hi|].
    assert (O : forall p q j, j <> i -> updp p i q j = p j) by (intros p q j Hj; unfold updp; destruct (Nat.eqb_spec j i); congruence).
    assert (O' : forall p q, updp p i q i = q) by (intros p q; unfold updp; rewrite Nat.eqb_refl; reflexivity).
    destruct (pr c i) as [a|e|j m k|j k] eqn:Ep; try discriminate.
    - destruct (Nat.ltb_spec (length (ch c i j)) cap) as [Hc|]; [|discriminate]. injection E as <-. cbn [pr ch].
      split; [intros; apply O; assumption|]. split; [exact Hc|]. split; [apply O'|]. split; [apply upd2_same|]. intros a b. apply upd2_other.
    - destruct (ch c j i) as [|m q] eqn:Ec; [discriminate|]. injection E as <-. cbn [pr ch].
      split; [intros; apply O; assumption|]. exists m. rewrite upd2_same. split; [reflexivity|]. split; [apply O'|]. intros a b. apply upd2_other.
  Qed.
  Lemma exec_all_steps is : forall c, exists k, steps (memn n) cap k c (exec_all is c).
  Proof.
    induction is as [|i is IH]; intros c; cbn [exec_all]; [exists 0; constructor; reflexivity|].
    destruct (exec i c) as [c'|] eqn:E; [|apply IH]. destruct (IH c') as (k & H). exists (S k). econstructor; [apply exec_step; exact E|exact H].
  Qed.
  Definition blocked (i : nat) (c : config) : bool := match exec i c with None => true | Some _ => false end.
  Lemma blocked_stuck c : forallb (fun i => blocked i c) (seq 0 n) = true -> stuck (memn n) cap c.
  Proof.
    intros H i c' (Hi & _ & Hs). assert (B : blocked i c = true) by (rewrite forallb_forall in H; apply H, in_seq; cbn in Hi; unfold memn in Hi; lia).
    unfold blocked, exec in B. destruct (Nat.ltb_spec i n) as [_|Hn]; [|unfold memn in Hi; lia]. cbn [negb] in B.
    destruct (pr c i) as [a|e|j m k|j k]; try contradiction.
    - destruct Hs as (Hc & _). apply Nat.ltb_lt in Hc. rewrite Hc in B. discriminate.
    - destruct Hs as (m & Hc & _). rewrite Hc in B. discriminate.
  Qed.
  Definition waiting (i : nat) (c : config) : bool := match pr c i with Ret _ | Fail _ => false | _ => true end.
  (** a reachable deadlock refutes every specification *)
  Lemma deadlock is ps i Q : (let c := exec_all is (init ps) in i <? n = true /\ forallb (fun i => blocked i c) (seq 0 n) = true /\ waiting i c = true)%nat ->
    ~ all_endn n cap ps Q.
  Proof.
    intros (Hi & H & W) (o & b & _ & _ & Hf). apply Nat.ltb_lt in Hi. destruct (exec_all_steps is (init ps)) as (k & Hk).
    destruct (Hf _ _ Hk (blocked_stuck _ H)) as [Hp _]. specialize (Hp i Hi). unfold waiting in W. rewrite Hp in W. destruct (o i); discriminate.
  Qed.
End Exec.
Fixpoint round_robin (n rounds : nat) : list nat := match rounds with 0 => [] | S r => seq 0 n ++ round_robin n r end.
