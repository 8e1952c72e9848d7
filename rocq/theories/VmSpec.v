(** * The co-circom MPC-VM: accelerated components, inputs, returns under shared conditions

    Specifications that do not mention the interpreter, and proofs that Vm.v meets them: what the
    built-in implementations of circom templates return (C55), where the inputs are put (C56), and
    what a function returns whose [return] statements stand under shared conditions (C57). *)
From Coq Require Import String List Arith NArith Lia Bool Ring.
From Verif Require Import Proc Alg Rep3Net Rep3 Rep3Spec Uint Binary Conv ConvWp Garble Circuits Yao VmDriver VmIdeal Vm VmSim VmRun VmSource VmCompile VmMask.
Import ListNotations.
Set Implicit Arguments.
Local Open Scope grp_scope.
Local Open Scope string_scope.
Local Open Scope list_scope.

Lemma some_inj {A} (a b : A) : Some a = Some b -> a = b.
Proof. congruence. Qed.
Lemma done_inj' {A} (a b : A) : Done a = Done b -> a = b.
Proof. congruence. Qed.
(** ** The templates *)
Section Templates.
  Context {F : Type} {FF : Fld F}.
  (** test_vectors/WitnessExtension/tests/libs/bitify.circom:28-36, the loop [lc1 += out[i] * e2; e2 = e2 + e2] *)
  Fixpoint weighted (e : F) (l : list F) : F := match l with [] => 0 | x :: l => rmul x e + weighted (e + e) l end.
  Definition bit (x : F) : Prop := rmul x (x - rone) = 0.
  (** bitify.circom:25-39: the constraints of [Num2Bits(n)] *)
  Definition num2bits_ok (n : nat) (a : F) (out : list F) : Prop := length out = n /\ Forall bit out /\ weighted rone out = a.
  (** reclaim_addbits_accelerator.circom:9-48: the constraints of [AddBits(n)]; the most significant bit comes first *)
  Definition addbits_ok (n : nat) (a b out : list F) (carry : F) : Prop :=
    length out = n /\ Forall bit out /\ bit carry /\ weighted rone (rev a) + weighted rone (rev b) = weighted rone (rev out ++ [carry]).
  (** comparators.circom:24-34: the assignment and the constraints of [IsZero()] *)
  Definition iszero_ok (a out inv : F) : Prop :=
    inv = (if feqb a 0 then 0 else finv a) /\ out = - (rmul a inv) + rone /\ rmul a out = 0.
End Templates.

Section Accel.
  Context {F : Type} `{FU : FieldUint F}.
  Variable fsqrt : F -> option F.
  Notation p := (fu_p (F := F)).
  Add Ring Fr : (cring_theory (R := F)).

  Lemma p_gt1 : (1 < p)%N.
  Proof. pose proof (to_uint_lt (F := F) rone). rewrite to_uint_one in *. assumption. Qed.
  Lemma bit_boolF b : bit (boolF (F := F) b).
  Proof. unfold bit. destruct b; cbn [boolF]; ring. Qed.
  Lemma bits_bit u n : Forall bit (bits_of (F := F) u n).
  Proof. unfold bits_of. apply Forall_forall. intros x I. apply in_map_iff in I as (i & <- & _). apply bit_boolF. Qed.
  Lemma bits_length u n : length (bits_of (F := F) u n) = n.
  Proof. unfold bits_of. now rewrite map_length, seq_length. Qed.
  Lemma bits_succ u n : bits_of (F := F) u (S n) = boolF (N.odd u) :: bits_of (N.div2 u) n.
  Proof.
    unfold bits_of. cbn [seq map]. f_equal; [unfold ubit; now rewrite N.bit0_odd|].
    rewrite <- seq_shift, map_map. apply map_ext. intros i. f_equal. unfold ubit.
    rewrite Nat2N.inj_succ. rewrite N.div2_spec, N.shiftr_spec by lia. now rewrite N.add_1_r.
  Qed.
  Lemma weighted_mul c e (l : list F) : weighted (rmul c e) l = rmul c (weighted e l).
  Proof.
    revert e. induction l as [|x l IH]; intros e; cbn [weighted]; [ring|].
    replace (rmul c e + rmul c e) with (rmul c (e + e)) by ring. rewrite IH. ring.
  Qed.
  Lemma weighted2 e (l : list F) : weighted (e + e) l = weighted e l + weighted e l.
  Proof. replace (e + e) with (rmul (rone + rone) e) by ring. rewrite weighted_mul. ring. Qed.
  Lemma of_bool b : of_uint (F := F) (N.b2n b) = boolF b.
  Proof. destruct b; cbn [N.b2n boolF]; [rewrite <- (to_uint_one (F := F)); apply of_to_uint|apply of_uint_0']. Qed.
  Lemma weighted_bits n : forall u, (u < p)%N -> (u < 2 ^ N.of_nat n)%N -> weighted rone (bits_of (F := F) u n) = of_uint u.
  Proof.
    induction n as [|n IH]; intros u L B.
    - cbn in B. assert (u = 0%N) by lia. subst. cbn. symmetry. apply of_uint_0'.
    - rewrite bits_succ. cbn [weighted]. rewrite Nat2N.inj_succ, N.pow_succ_r' in B.
      pose proof (N.div2_odd u) as E.
      assert (Q : (N.div2 u <= u)%N) by (revert E; generalize (N.div2 u) (N.b2n (N.odd u)); intros; lia).
      rewrite weighted2, IH; [| |].
      + replace (of_uint (F := F) u) with (of_uint (F := F) (2 * N.div2 u + N.b2n (N.odd u))) by (rewrite <- E; reflexivity).
        rewrite of_uint_add, of_bool by (rewrite <- E; exact L).
        replace (2 * N.div2 u)%N with (N.div2 u + N.div2 u)%N by lia.
        rewrite of_uint_add by (revert E L; generalize (N.div2 u) (N.b2n (N.odd u)); intros; lia). ring.
      + lia.
      + revert E B. generalize (N.div2 u) (N.b2n (N.odd u)) (2 ^ N.of_nat n)%N. intros. lia.
  Qed.
  Lemma bits_mod u n : bits_of (F := F) u n = bits_of (u mod 2 ^ N.of_nat n) n.
  Proof.
    unfold bits_of. apply map_ext_in. intros i I. apply in_seq in I. f_equal. unfold ubit. symmetry. apply N.mod_pow2_bits_low. lia.
  Qed.
  Lemma weighted_mod n u : (u < p)%N -> weighted rone (bits_of (F := F) u n) = of_uint (u mod 2 ^ N.of_nat n).
  Proof.
    intros L. rewrite bits_mod. apply weighted_bits.
    - pose proof (N.mod_le u (2 ^ N.of_nat n)). assert (2 ^ N.of_nat n <> 0)%N by (apply N.pow_nonzero; lia). lia.
    - apply N.mod_lt. apply N.pow_nonzero. lia.
  Qed.
  Lemma num2bits_iff n (a : F) : num2bits_ok n a (plain_num2bits a n) <-> (to_uint a < 2 ^ N.of_nat n)%N.
  Proof.
    unfold num2bits_ok, plain_num2bits. pose proof (to_uint_lt a) as L.
    assert (P2 : (2 ^ N.of_nat n <> 0)%N) by (apply N.pow_nonzero; lia).
    rewrite weighted_mod by exact L. split.
    - intros (_ & _ & E). apply (f_equal to_uint) in E. rewrite to_of_uint in E.
      + rewrite <- E. apply N.mod_lt. exact P2.
      + pose proof (N.mod_le (to_uint a) _ P2). lia.
    - intros B. split; [apply bits_length|]. split; [apply bits_bit|]. rewrite N.mod_small by exact B. apply of_to_uint.
  Qed.
  Lemma horner_weighted (l : list F) : horner_bits l = weighted rone (rev l).
  Proof.
    unfold horner_bits. induction l as [|x l IH] using rev_ind; [reflexivity|].
    rewrite fold_left_app, rev_app_distr. cbn [fold_left rev app weighted]. rewrite IH, weighted2. ring.
  Qed.
  Lemma mbs_pow n : (n < mbs F - 1)%nat -> (2 ^ N.of_nat (n + 1) <= p)%N.
  Proof.
    intros L. destruct (N.le_gt_cases (2 ^ N.of_nat (n + 1)) p) as [K|K]; [exact K|]. apply (proj2 (ubit_len_le _ _)) in K. unfold mbs in L. lia.
  Qed.
  Lemma addbits_iff (a b : list F) out carry : plain_addbits a b = Done (out, carry) ->
    (addbits_ok (length a) a b out carry <-> (to_uint (gadd (weighted rone (rev a)) (weighted rone (rev b))) < 2 ^ N.of_nat (length a + 1))%N).
  Proof.
    unfold plain_addbits. destruct (length a =? length b)%nat; [|discriminate]. destruct (length a <? mbs F - 1)%nat; [|discriminate].
    cbv zeta. rewrite !horner_weighted. set (s := weighted rone (rev a) + _). intros E.
    assert (E1 : out = rev (bits_of (to_uint s) (length a))) by congruence.
    assert (E2 : carry = boolF (ubit (to_uint s) (length a))) by congruence. clear E.
    assert (E3 : rev out ++ [carry] = bits_of (to_uint s) (length a + 1)).
    { subst. rewrite rev_involutive. unfold bits_of. rewrite seq_app, map_app. reflexivity. }
    rewrite <- num2bits_iff. unfold addbits_ok, num2bits_ok, plain_num2bits. rewrite E3, bits_length. fold s.
    split.
    - intros (_ & _ & _ & K). split; [reflexivity|]. split; [apply bits_bit|]. congruence.
    - intros (_ & _ & K). split; [subst; rewrite rev_length; apply bits_length|]. split; [subst; apply Forall_rev, bits_bit|].
      split; [subst; apply bit_boolF|congruence].
  Qed.
  Lemma bit_cases (x : F) : bit x -> x = 0 \/ x = rone.
  Proof.
    unfold bit. intros E. destruct (feqb x 0) eqn:Z; [left; now apply feqb_spec|right]. 
    assert (N : x <> 0) by (intros ->; rewrite (proj2 (feqb_spec 0 0) eq_refl) in Z; discriminate).
    apply (f_equal (rmul (finv x))) in E. 
    assert (K : x - rone = 0). { transitivity (rmul (rmul (finv x) x) (x - rone)); [rewrite finv_l by exact N; ring|]. transitivity (rmul (finv x) 0); [rewrite <- E; ring|ring]. }
    transitivity (x - rone + rone); [ring|rewrite K; ring].
  Qed.
  Lemma weighted_small (l : list F) : Forall bit l -> (length l < mbs F)%nat -> (to_uint (weighted rone l) < 2 ^ N.of_nat (length l))%N.
  Proof.
    intros B L. assert (K : exists u, (u < 2 ^ N.of_nat (length l))%N /\ forall e, weighted e l = rmul e (of_uint u)).
    { assert (L' : (length l - 1 < mbs F - 1)%nat \/ length l = 0%nat) by lia. clear L.
      assert (Q : (2 ^ N.of_nat (length l) <= p)%N).
      { destruct L' as [L|L]; [|rewrite L; pose proof p_gt1; cbn; lia]. destruct (length l) as [|k]; [pose proof p_gt1; cbn; lia|]. apply mbs_pow in L. replace (S k - 1 + 1)%nat with (S k) in L by lia. exact L. }
      clear L'. induction B as [|x l Hx B IH].
      - exists 0%N. split; [cbn; lia|]. intros e. cbn. rewrite of_uint_0'. ring.
      - cbn [length] in *. rewrite Nat2N.inj_succ, N.pow_succ_r' in *. destruct IH as (u & U & W); [lia|].
        destruct (bit_cases Hx) as [->| ->].
        + exists (2 * u)%N. split; [lia|]. intros e. cbn [weighted]. rewrite W. replace (2 * u)%N with (u + u)%N by lia. rewrite of_uint_add by lia. ring.
        + exists (2 * u + 1)%N. split; [lia|]. intros e. cbn [weighted]. rewrite W. replace (2 * u)%N with (u + u)%N by lia. rewrite !of_uint_add by lia.
          rewrite <- (to_uint_one (F := F)), of_to_uint. ring. }
    destruct K as (u & U & W). rewrite W. replace (rmul rone (of_uint u)) with (of_uint (F := F) u) by ring. rewrite to_of_uint; [exact U|].
    assert (L' : (length l - 1 < mbs F - 1)%nat \/ length l = 0%nat) by lia. destruct L' as [L'|L'].
    - destruct (length l) as [|k]; [pose proof p_gt1; cbn in U; lia|]. apply mbs_pow in L'. replace (S k - 1 + 1)%nat with (S k) in L' by lia. lia.
    - rewrite L' in U. pose proof p_gt1. cbn in U. lia.
  Qed.
  Lemma addbits_bits (a b : list F) : Forall bit a -> Forall bit b -> length a = length b -> (length a < mbs F - 1)%nat ->
    exists out carry, plain_addbits a b = Done (out, carry) /\ addbits_ok (length a) a b out carry.
  Proof.
    intros Ba Bb E L. destruct (plain_addbits a b) as [[out carry]|e] eqn:K.
    - exists out, carry. split; [reflexivity|]. apply (addbits_iff _ _ K). rewrite to_uint_add.
      assert (Wa : (to_uint (weighted rone (rev a)) < 2 ^ N.of_nat (length a))%N) by (rewrite <- (rev_length a); apply weighted_small; [now apply Forall_rev|rewrite rev_length; lia]).
      assert (Wb : (to_uint (weighted rone (rev b)) < 2 ^ N.of_nat (length a))%N) by (rewrite E, <- (rev_length b); apply weighted_small; [now apply Forall_rev|rewrite rev_length; lia]).
      assert (P2 : (2 ^ N.of_nat (length a + 1) = 2 * 2 ^ N.of_nat (length a))%N) by (rewrite Nat.add_1_r, Nat2N.inj_succ; apply N.pow_succ_r').
      pose proof (N.mod_le (to_uint (weighted rone (rev a)) + to_uint (weighted rone (rev b))) p). pose proof p_gt1. lia.
    - exfalso. unfold plain_addbits in K. rewrite (proj2 (Nat.eqb_eq _ _) E), (proj2 (Nat.ltb_lt _ _) L) in K. discriminate.
  Qed.

  (** ** Runs of the accelerators *)
  Notation cmp_id := (cmp_accelerator (Pub (F := F))).
  Notation cmp_pl := (cmp_accelerator (fun x : F => x)).
  Lemma feqb_refl (x : F) : feqb x x = true. Proof. now apply feqb_spec. Qed.
  Lemma feqb_one0 : feqb (F := F) rone 0 = false.
  Proof. destruct (feqb (F := F) rone 0) eqn:E; [|reflexivity]. apply feqb_spec in E. exfalso. apply (f_equal to_uint) in E. rewrite to_uint_one, to_uint_zero in E. lia. Qed.
  Lemma sub0 (a : F) : a + 0 = a. Proof. ring. Qed.
  Lemma iszero_cases (a : F) : let z := boolF (feqb a 0) in feqb (a + z) 0 = false /\ iszero_ok a z (rmul rone (finv (a + z)) - z).
  Proof.
    cbv zeta. unfold iszero_ok. destruct (feqb a 0) eqn:Z; cbn [boolF].
    - apply feqb_spec in Z. subst a. assert (E : (0 : F) + rone = rone) by ring. rewrite E. rewrite feqb_one0. split; [reflexivity|].
      assert (I : finv (F := F) rone = rone).
      { transitivity (rmul (finv rone) (rone : F)); [ring|]. apply finv_l. intros K. pose proof feqb_one0 as Q. rewrite K, feqb_refl in Q. discriminate. }
      rewrite I. split; [ring|]. split; ring.
    - rewrite sub0, Z. split; [reflexivity|]. assert (N : a <> 0) by (intros ->; rewrite feqb_refl in Z; discriminate).
      split; [ring|]. assert (E : rmul rone (finv a) - 0 = finv a) by ring. rewrite E. split; [|ring].
      transitivity (- (rmul (finv a) a) + rone); [rewrite finv_l by exact N; ring|ring].
  Qed.
  Lemma iszero_plain cfg (a : F) q outs : ac_iszero cfg = true -> cmp_pl cfg "IsZero" [a] outs = Some q ->
    exists out inv, run_plain fsqrt q = Done ([out], [inv]) /\ iszero_ok a out inv.
  Proof.
    intros C. unfold cmp_accelerator. cbn [String.eqb Ascii.eqb Bool.eqb]. rewrite !andb_false_r, C. cbn [andb]. intros E. apply some_inj in E; subst q.
    destruct (iszero_cases a) as [N K]. cbv zeta in N, K. cbn [run_plain plain_bop obind vzero vone]. unfold vzero, vone in *. rewrite N. cbn [obind run_plain plain_bop].
    eexists _, _. split; [reflexivity|exact K].
  Qed.
  Lemma iszero_ideal cfg (a : tv F) q outs : ac_iszero cfg = true -> cmp_id cfg "IsZero" [a] outs = Some q ->
    exists out inv, run_ideal fsqrt q = Done ([out], [inv]) /\ iszero_ok (tval a) (tval out) (tval inv).
  Proof.
    intros C. unfold cmp_accelerator. cbn [String.eqb Ascii.eqb Bool.eqb]. rewrite !andb_false_r, C. cbn [andb]. intros E. apply some_inj in E; subst q.
    destruct (iszero_cases (tval a)) as [N K]. cbv zeta in N, K. destruct a as [a|a]; cbn [tval] in *; unfold vzero, vone;
      cbn [run_ideal ideal_bop mixed_bop plain_bop omap obind tval]; rewrite N; cbn [run_ideal ideal_bop mixed_bop plain_bop omap obind tval];
      (eexists _, _; split; [reflexivity|exact K]).
  Qed.
  Lemma num2bits_plain cfg (a : F) q n : ac_num2bits cfg = true -> cmp_pl cfg "Num2Bits" [a] n = Some q ->
    exists out, run_plain fsqrt q = Done (out, []) /\ length out = n /\ (num2bits_ok n a out <-> (to_uint a < 2 ^ N.of_nat n)%N).
  Proof.
    intros C. unfold cmp_accelerator. cbn [String.eqb Ascii.eqb Bool.eqb]. rewrite C. cbn [andb]. intros E. apply some_inj in E; subst q.
    cbn [run_plain]. eexists. split; [reflexivity|]. split; [apply bits_length|apply num2bits_iff].
  Qed.
  Lemma num2bits_ideal cfg (a : tv F) q n : ac_num2bits cfg = true -> cmp_id cfg "Num2Bits" [a] n = Some q ->
    exists out, run_ideal fsqrt q = Done (out, []) /\ length out = n /\ (num2bits_ok n (tval a) (map tval out) <-> (to_uint (tval a) < 2 ^ N.of_nat n)%N).
  Proof.
    intros C. unfold cmp_accelerator. cbn [String.eqb Ascii.eqb Bool.eqb]. rewrite C. cbn [andb]. intros E. apply some_inj in E; subst q.
    cbn [run_ideal]. eexists. split; [reflexivity|]. unfold ideal_num2bits.
    split; [rewrite map_length; apply bits_length|]. rewrite map_map.
    assert (E : map (fun x => tval ((if tshared a then Sh else Pub) x)) (plain_num2bits (tval a) n) = plain_num2bits (tval a) n).
    { rewrite <- map_id. apply map_ext. intros x. destruct (tshared a); reflexivity. }
    rewrite E. apply num2bits_iff.
  Qed.
  Lemma addbits_plain cfg (a b : list F) q outs : ac_addbits cfg = true -> cmp_pl cfg "AddBits" (a ++ b) outs = Some q ->
    Forall bit a -> Forall bit b -> length a = length b -> (length a < mbs F - 1)%nat ->
    exists out carry, run_plain fsqrt q = Done (out, [carry]) /\ addbits_ok (length a) a b out carry.
  Proof.
    intros C. unfold cmp_accelerator. cbn [String.eqb Ascii.eqb Bool.eqb]. rewrite andb_false_r, C. cbn [andb]. intros E Ba Bb L M. apply some_inj in E; subst q.
    destruct (addbits_bits Ba Bb L M) as (out & carry & K1 & K2).
    rewrite app_length, <- L. replace (length a + length a)%nat with (2 * length a)%nat by lia. rewrite Nat.even_mul. cbn [Nat.even orb].
    rewrite (Nat.mul_comm 2), Nat.div_mul by lia. rewrite firstn_app, Nat.sub_diag, firstn_all, skipn_app, Nat.sub_diag, skipn_all. cbn [firstn skipn app].
    rewrite app_nil_r. cbn [run_plain]. rewrite K1. cbn [obind run_plain fst snd]. exists out, carry. auto.
  Qed.
  Lemma addbits_ideal cfg (a b : list (tv F)) q outs : ac_addbits cfg = true -> cmp_id cfg "AddBits" (a ++ b) outs = Some q ->
    Forall bit (map tval a) -> Forall bit (map tval b) -> length a = length b -> (length a < mbs F - 1)%nat ->
    exists out carry, run_ideal fsqrt q = Done (out, [carry]) /\ addbits_ok (length a) (map tval a) (map tval b) (map tval out) (tval carry).
  Proof.
    intros C. unfold cmp_accelerator. cbn [String.eqb Ascii.eqb Bool.eqb]. rewrite andb_false_r, C. cbn [andb]. intros E Ba Bb L M. apply some_inj in E; subst q.
    destruct (addbits_bits Ba Bb) as (out & carry & K1 & K2); [now rewrite !map_length|now rewrite map_length|]. rewrite map_length in K2.
    rewrite app_length, <- L. replace (length a + length a)%nat with (2 * length a)%nat by lia. rewrite Nat.even_mul. cbn [Nat.even orb].
    rewrite (Nat.mul_comm 2), Nat.div_mul by lia. rewrite firstn_app, Nat.sub_diag, firstn_all, skipn_app, Nat.sub_diag, skipn_all. cbn [firstn skipn app].
    rewrite app_nil_r. cbn [run_ideal]. unfold ideal_addbits. rewrite K1. cbn [omap obind run_ideal fst snd]. exists (map Sh out), (Sh carry). split; [reflexivity|].
    cbn [tval]. rewrite map_map. cbn [tval]. rewrite map_id. exact K2.
  Qed.
End Accel.

(** ** Inputs *)
Local Open Scope nat_scope.
Lemma nodup_app_r {A} (l l' : list A) : NoDup (l ++ l') -> NoDup l'.
Proof. induction l as [|x l IH]; cbn; intros D; [exact D|]. inversion D; auto. Qed.
Lemma nth_skip {A} k : forall j (l : list A), k <= j -> nth_error (skipn k l) (j - k) = nth_error l j.
Proof.
  induction k as [|k IH]; intros j l L; [cbn; now rewrite Nat.sub_0_r|]. destruct j as [|j]; [lia|].
  destruct l as [|x l]; [cbn; now destruct (j - k)|]. cbn [skipn nth_error Nat.sub]. apply IH. lia.
Qed.
Lemma splice_nth {A} s (xs l r : list A) : splice s xs l = Some r -> length r = length l /\ s + length xs <= length l /\
  forall j, nth_error r j = if (s <=? j)%nat && (j <? s + length xs)%nat then nth_error xs (j - s) else nth_error l j.
Proof.
  unfold splice. destruct (Nat.leb_spec (s + length xs) (length l)) as [L|L]; [|discriminate]. intros E. apply some_inj in E. subst r.
  assert (F1 : length (firstn s l) = s) by (rewrite firstn_length; lia).
  split; [rewrite !app_length, F1, skipn_length; lia|]. split; [exact L|]. intros j.
  destruct (Nat.leb_spec s j) as [A1|A1]; cbn [andb].
  - rewrite nth_error_app2, F1 by lia. destruct (Nat.ltb_spec j (s + length xs)) as [A2|A2].
    + apply nth_error_app1. lia.
    + rewrite nth_error_app2 by lia. replace (j - s - length xs)%nat with (j - (s + length xs))%nat by lia. apply nth_skip. lia.
  - rewrite nth_error_app1 by lia. revert A1. clear. revert j l. induction s as [|s IH]; intros j l A1; [lia|].
    destruct l as [|x l]; [reflexivity|]. destruct j as [|j]; [reflexivity|]. cbn. apply IH. lia.
Qed.
Lemma remove_key_some {A} k (l l' : list (string * A)) v : remove_key k l = Some (v, l') -> NoDup (map fst l) ->
  assoc k l = Some v /\ NoDup (map fst l') /\ incl (map fst l') (map fst l) /\ (forall k' w, assoc k' l' = Some w -> assoc k' l = Some w).
Proof.
  revert l'. induction l as [|[k0 a] l IH]; intros l' E N; [discriminate|]. cbn [remove_key assoc map fst] in *. inversion N as [|? ? N1 N2]; subst.
  destruct (String.eqb k k0) eqn:K.
  - inversion E; subst. apply String.eqb_eq in K. subst k0. split; [reflexivity|]. split; [exact N2|]. split; [apply incl_tl, incl_refl|].
    intros k' w W. destruct (String.eqb k' k) eqn:K; [|exact W]. apply String.eqb_eq in K. subst k'. exfalso. apply N1.
    clear - W. induction l' as [|[k1 b] l IH]; [discriminate|]. cbn in *. destruct (String.eqb k k1) eqn:K; [apply String.eqb_eq in K; auto|auto].
  - destruct (remove_key k l) as [[b l1]|] eqn:E1; [|discriminate]. inversion E; subst. destruct (IH _ eq_refl N2) as (I1 & I2 & I3 & I4).
    split; [exact I1|]. cbn [map fst]. split; [constructor; [intros I; apply N1, I3, I|exact I2]|].
    split; [intros x [X|X]; [left; exact X|right; apply I3, X]|]. intros k' w. cbn [assoc]. destruct (String.eqb k' k0); auto.
Qed.

(** mpc_vm.rs:957-977: the name under which the user gives the [i]-th element of an input signal *)
Definition input_name (name : string) (size i : nat) : string :=
  if (size =? 1)%nat then name else (name ++ "[" ++ dec_string i ++ "]")%string.
(** the signals of an input *)
Definition positions (e : string * nat * nat) : list nat := seq (snd (fst e)) (snd e).

Section Inputs.
  Context {F V : Type} `{CR : CRing F} (h : handler F V).
  Lemma set_array_spec name off n : forall i ins (sg : list V) r, run (F := F) h (set_array name off i n ins sg) = Done r -> NoDup (map fst ins) ->
    NoDup (map fst (fst r)) /\ (forall k w, assoc k (fst r) = Some w -> assoc k ins = Some w) /\ length (snd r) = length sg /\
    (forall j, i <= j < i + n -> exists v, assoc (name ++ "[" ++ dec_string j ++ "]")%string ins = Some v /\ nth_error (snd r) (off + j) = Some v) /\
    (forall j, ~ off + i <= j < off + i + n -> nth_error (snd r) j = nth_error sg j).
  Proof.
    induction n as [|n IH]; intros i ins sg r E N; cbn [set_array] in E.
    - apply done_inj' in E. subst r. cbn [fst snd]. repeat split; auto. intros j J. lia.
    - rewrite run_bind, run_opt in E. destruct (remove_key _ ins) as [[v ins1]|] eqn:K; [|discriminate]. cbn [obind] in E.
      rewrite run_bind, run_opt in E. cbn [fst snd] in E. destruct (splice (off + i) [v] sg) as [sg1|] eqn:Q; [|discriminate]. cbn [obind] in E.
      destruct (@remove_key_some _ _ _ _ _ K N) as (R1 & R2 & _ & R4). destruct (@splice_nth _ _ _ _ _ Q) as (S1 & S2 & S3). cbn [length] in *.
      destruct (IH _ _ _ _ E R2) as (I1 & I2 & I3 & I4 & I5). split; [exact I1|]. split; [intros k w W; apply R4, I2, W|]. split; [congruence|]. split.
      + intros j J. destruct (Nat.eq_dec j i) as [->|Nj].
        * exists v. split; [exact R1|]. rewrite I5 by lia. rewrite S3.
          destruct (Nat.leb_spec (off + i) (off + i)); [|lia]. destruct (Nat.ltb_spec (off + i) (off + i + 1)); [|lia]. cbn [andb]. now rewrite Nat.sub_diag.
        * destruct (I4 j ltac:(lia)) as (w & W1 & W2). exists w. split; [apply R4, W1|exact W2].
      + intros j J. rewrite I5 by lia. rewrite S3. destruct (Nat.leb_spec (off + i) j); cbn [andb]; [|reflexivity]. destruct (Nat.ltb_spec j (off + i + 1)); [lia|reflexivity].
  Qed.
  Lemma set_inputs_spec l : forall ins (sg sg' : list V), run (F := F) h (set_inputs l ins sg) = Done sg' -> NoDup (map fst ins) -> NoDup (flat_map positions l) ->
    length sg' = length sg /\
    (forall name off size i, In (name, off, size) l -> i < size -> exists v, assoc (input_name name size i) ins = Some v /\ nth_error sg' (off + i) = Some v) /\
    (forall j, ~ In j (flat_map positions l) -> nth_error sg' j = nth_error sg j).
  Proof.
    induction l as [|[[name off] size] l IH]; intros ins sg sg' E N D; cbn [set_inputs] in E.
    - apply done_inj' in E. subst. repeat split; auto. intros ? ? ? ? [].
    - cbn [flat_map] in D. unfold positions at 1 in D. cbn [fst snd] in D.
      assert (D2 : NoDup (flat_map positions l)) by (apply nodup_app_r in D; exact D).
      assert (D3 : forall j, off <= j < off + size -> ~ In j (flat_map positions l)).
      { intros j J I. assert (X : In j (seq off size)) by (apply in_seq; lia). revert X I D. generalize (seq off size) (flat_map positions l). clear.
        induction l as [|x l IH]; intros l' X I D; [destruct X|]. cbn in D. inversion D as [|? ? D1 D2]; subst. destruct X as [->|X]; [apply D1, in_or_app; auto|eauto]. }
      assert (Main : exists ins1 sg1, run (F := F) h (set_inputs l ins1 sg1) = Done sg' /\ NoDup (map fst ins1) /\ (forall k w, assoc k ins1 = Some w -> assoc k ins = Some w) /\
        length sg1 = length sg /\ (forall i, i < size -> exists v, assoc (input_name name size i) ins = Some v /\ nth_error sg1 (off + i) = Some v) /\
        (forall j, ~ off <= j < off + size -> nth_error sg1 j = nth_error sg j)).
      { unfold input_name. destruct (Nat.eqb_spec size 1) as [->|Ns].
        - rewrite run_bind, run_opt in E. destruct (remove_key _ ins) as [[v ins1]|] eqn:K; [|discriminate]. cbn [obind] in E.
          rewrite run_bind, run_opt in E. cbn [fst snd] in E. destruct (splice off [v] sg) as [sg1|] eqn:Q; [|discriminate]. cbn [obind] in E.
          destruct (@remove_key_some _ _ _ _ _ K N) as (R1 & R2 & _ & R4). destruct (@splice_nth _ _ _ _ _ Q) as (S1 & S2 & S3). cbn [length] in *.
          exists ins1, sg1. split; [exact E|]. split; [exact R2|]. split; [exact R4|]. split; [exact S1|]. split.
          + intros i Hi. assert (i = 0%nat) by lia. subst i. exists v. split; [exact R1|]. rewrite Nat.add_0_r, S3.
            destruct (Nat.leb_spec off off); [|lia]. destruct (Nat.ltb_spec off (off + 1)); [|lia]. cbn [andb]. now rewrite Nat.sub_diag.
          + intros j J. rewrite S3. destruct (Nat.leb_spec off j); cbn [andb]; [|reflexivity]. destruct (Nat.ltb_spec j (off + 1)); [lia|reflexivity].
        - rewrite run_bind in E. destruct (run h (set_array name off 0 size ins sg)) as [[ins1 sg1]|] eqn:K; [|discriminate]. cbn [obind fst snd] in E.
          destruct (@set_array_spec _ _ _ _ _ _ _ K N) as (I1 & I2 & I3 & I4 & I5). cbn [fst snd] in *.
          exists ins1, sg1. split; [exact E|]. split; [exact I1|]. split; [exact I2|]. split; [exact I3|]. split; [intros i Hi; apply I4; lia|]. intros j J. apply I5. lia. }
      destruct Main as (ins1 & sg1 & E1 & N1 & A1 & L1 & W1 & U1). destruct (IH _ _ _ E1 N1 D2) as (L2 & W2 & U2).
      split; [congruence|]. split.
      + intros nm o s i [I|I] Hi.
        * inversion I; subst. destruct (W1 i Hi) as (v & V1 & V2). exists v. split; [exact V1|]. rewrite U2; [exact V2|apply D3; lia].
        * destruct (W2 nm o s i I Hi) as (v & V1 & V2). exists v. split; [apply A1, V1|exact V2].
      + intros j J. cbn [flat_map] in J. unfold positions at 1 in J. cbn [fst snd] in J. rewrite U2 by (intros X; apply J, in_or_app; auto).
        apply U1. intros K. apply J, in_or_app. left. apply in_seq. lia.
  Qed.
  Lemma set_flat_spec (ps : parsed F) ins (sg sg' : list V) : run (F := F) h (set_flat_inputs ps ins sg) = Done sg' ->
    length ins = ps_inputs ps /\ length sg' = length sg /\
    (forall i, i < ps_inputs ps -> nth_error sg' (1 + ps_outputs ps + i) = nth_error ins i) /\
    (forall j, ~ 1 + ps_outputs ps <= j < 1 + ps_outputs ps + ps_inputs ps -> nth_error sg' j = nth_error sg j).
  Proof.
    unfold set_flat_inputs. destruct (Nat.eqb_spec (ps_inputs ps) (length ins)) as [L|L]; [|discriminate]. rewrite run_opt.
    destruct (splice _ ins sg) as [r|] eqn:Q; [|discriminate]. intros E. apply done_inj' in E. subst r.
    destruct (@splice_nth _ _ _ _ _ Q) as (S1 & S2 & S3). split; [congruence|]. split; [exact S1|]. split.
    - intros i Hi. rewrite S3. destruct (Nat.leb_spec (1 + ps_outputs ps) (1 + ps_outputs ps + i)); [|lia]. destruct (Nat.ltb_spec (1 + ps_outputs ps + i) (1 + ps_outputs ps + length ins)); [|lia].
      cbn [andb]. f_equal. lia.
    - intros j J. rewrite S3. destruct (Nat.leb_spec (1 + ps_outputs ps) j); cbn [andb]; [|reflexivity]. destruct (Nat.ltb_spec j (1 + ps_outputs ps + length ins)); [lia|reflexivity].
  Qed.
  (** the values of the inputs in the order of their signals *)
  Definition flat_of (l : list (string * nat * nat)) (ins : list (string * V)) : list (option V) :=
    flat_map (fun e => map (fun i => assoc (input_name (fst (fst e)) (snd e) i) ins) (seq 0 (snd e))) l.
  Lemma flat_nth l ins : forall s n, flat_map positions l = seq s n -> forall j o, nth_error (flat_of l ins) j = Some o ->
    exists name off size i, In (name, off, size) l /\ i < size /\ s + j = off + i /\ o = assoc (input_name name size i) ins.
  Proof.
    induction l as [|[[name off] size] l IH]; intros s n E j o J; cbn [flat_map flat_of] in *; [destruct j; discriminate|].
    unfold positions at 1 in E. unfold flat_of in J. cbn [flat_map fst snd] in *.
    assert (Ln : size + length (flat_map positions l) = n) by (apply (f_equal (@length nat)) in E; rewrite app_length, !seq_length in E; exact E).
    assert (Es : seq off size = seq s size /\ flat_map positions l = seq (s + size) (n - size)).
    { replace n with (size + (n - size)) in E by lia. rewrite seq_app in E. 
      assert (E1 := f_equal (firstn size) E). assert (E2 := f_equal (skipn size) E).
      rewrite !firstn_app, !seq_length, Nat.sub_diag in E1. rewrite !skipn_app, !seq_length, Nat.sub_diag in E2. cbn [firstn skipn] in *.
      rewrite !app_nil_r, !firstn_all2 in E1 by (rewrite seq_length; lia). rewrite !skipn_all2 in E2 by (rewrite seq_length; lia). split; [exact E1|exact E2]. }
    destruct Es as [Es1 Es2]. destruct (Nat.lt_ge_cases j size) as [Lj|Lj].
    - rewrite nth_error_app1 in J by (rewrite map_length, seq_length; exact Lj).
      exists name, off, size, j. split; [left; reflexivity|]. split; [exact Lj|].
      assert (s = off). { destruct size as [|k]; [lia|]. cbn in Es1. congruence. } subst. split; [reflexivity|].
      erewrite map_nth_error in J by (rewrite nth_error_nth' with (d := 0%nat) by (rewrite seq_length; exact Lj); rewrite seq_nth by exact Lj; reflexivity). cbn in J. congruence.
    - rewrite nth_error_app2 in J by (rewrite map_length, seq_length; exact Lj). rewrite map_length, seq_length in J.
      destruct (IH _ _ Es2 _ _ J) as (nm & o1 & s1 & i1 & I1 & I2 & I3 & I4). exists nm, o1, s1, i1. split; [right; exact I1|]. split; [exact I2|]. split; [lia|exact I4].
  Qed.
  Lemma flat_of_length l ins : length (flat_of l ins) = length (flat_map positions l).
  Proof.
    unfold flat_of. induction l as [|e l IH]; [reflexivity|]. cbn [flat_map]. rewrite !app_length, map_length, IH. unfold positions. now rewrite !seq_length.
  Qed.
  Lemma nth_ext_error {A} (l l' : list A) : (forall j, nth_error l j = nth_error l' j) -> l = l'.
  Proof.
    revert l'. induction l as [|x l IH]; intros [|y l'] E; [reflexivity|specialize (E O); discriminate|specialize (E O); discriminate|].
    pose proof (E O) as E0. cbn in E0. f_equal; [congruence|]. apply IH. intros j. exact (E (S j)).
  Qed.
  (** inputs by name and inputs in order give the same signals, hence the same run *)
  Lemma flat_named (pubv : F -> V) is_sh (ps : parsed F) fuel k (ins : list (string * V)) flat sg : flat_map positions (ps_input_list ps) = seq (1 + ps_outputs ps) (ps_inputs ps) ->
    1 + ps_outputs ps + ps_inputs ps <= ps_amount ps -> NoDup (map fst ins) -> map Some flat = flat_of (ps_input_list ps) ins -> run (F := F) h (init_signals pubv ps) = Done sg ->
    (exists sg', run (F := F) h (set_inputs (ps_input_list ps) ins sg) = Done sg') ->
    run (F := F) h (vm_run pubv is_sh ps fuel k ins) = run (F := F) h (vm_run_flat pubv is_sh ps fuel k flat).
  Proof.
    intros E LA N Ef E0 (sg1 & E1). unfold vm_run, vm_run_flat. rewrite !run_bind, E0. cbn [obind]. rewrite !run_bind, E1.
    assert (Lf : length flat = ps_inputs ps). { rewrite <- (map_length Some flat), Ef, flat_of_length, E. apply seq_length. }
    assert (D : NoDup (flat_map positions (ps_input_list ps))) by (rewrite E; apply seq_NoDup).
    destruct (@set_inputs_spec _ _ _ _ E1 N D) as (L1 & W1 & U1).
    assert (E2 : exists sg2, run (F := F) h (set_flat_inputs ps flat sg) = Done sg2).
    { unfold set_flat_inputs. rewrite Lf, Nat.eqb_refl, run_opt. unfold splice. rewrite Lf.
      unfold init_signals in E0. rewrite run_opt in E0. destruct (splice 0 _ _) as [q|] eqn:Q; [|discriminate]. apply done_inj' in E0. subst q.
      apply splice_nth in Q as (Q & _). rewrite repeat_length in Q. rewrite (proj2 (Nat.leb_le _ _)) by lia. eexists. reflexivity. }
    destruct E2 as (sg2 & E2). rewrite E2. cbn [obind]. destruct (@set_flat_spec _ _ _ _ E2) as (_ & L2 & W2 & U2).
    assert (sg1 = sg2); [|now subst]. apply nth_ext_error. intros j.
    destruct (le_lt_dec (1 + ps_outputs ps) j) as [A1|A1]; [destruct (le_lt_dec (1 + ps_outputs ps + ps_inputs ps) j) as [A2|A2]|].
    - rewrite U1, U2 by (try (rewrite E, in_seq); lia). reflexivity.
    - replace j with (1 + ps_outputs ps + (j - (1 + ps_outputs ps))) by lia. set (q := (j - (1 + ps_outputs ps))%nat) in *. assert (Q : q < ps_inputs ps) by lia.
      rewrite W2 by exact Q. destruct (nth_error flat q) as [v|] eqn:Ev; [|apply nth_error_None in Ev; lia].
      assert (J : nth_error (flat_of (ps_input_list ps) ins) q = Some (Some v)) by (rewrite <- Ef; now apply map_nth_error).
      destruct (@flat_nth _ _ _ _ E _ _ J) as (nm & off & sz & i & I1 & I2 & I3 & I4). destruct (W1 _ _ _ _ I1 I2) as (w & V1 & V2). rewrite I3. congruence.
    - rewrite U1, U2 by (try (rewrite E, in_seq); lia). reflexivity.
  Qed.
End Inputs.

(** ** Returns under shared conditions *)
Section Returns.
  Context {F : Type} `{FU : FieldUint F}.
  Variable fsqrt : F -> option F.
  Add Ring Fr2 : (cring_theory (R := F)).
  Notation val := (VmIdeal.tval (F := F)).
  Notation rets_t := (list (tv F * list (tv F))).
  Local Open Scope grp_scope.
  Local Open Scope vm_scope.

  Definition hit (r : tv F * list (tv F)) : bool := feqb (val (fst r)) rone.
  (** mpc_vm.rs:753-848: what a function has returned so far, given its pending returns *)
  Definition returned (rets : rets_t) : option (list F) := option_map (fun r => map val (snd r)) (find hit rets).
  (** the pending returns of a function with [n] values: at most one of them is taken *)
  Definition returns_ok (n : nat) (rets : rets_t) : Prop :=
    Forall (fun r => bit (val (fst r)) /\ length (snd r) = n) rets /\ (length (filter hit rets) <= 1)%nat.

  Lemma feq_refl (x : F) : feqb x x = true. Proof. now apply feqb_spec. Qed.
  Lemma feq_10 : feqb (F := F) rone 0 = false. Proof. apply feqb_one0. Qed.
  Lemma feq_01 : feqb (F := F) 0 rone = false.
  Proof. destruct (feqb (F := F) 0 rone) eqn:E; [|reflexivity]. apply feqb_spec in E. pose proof feq_10 as K. rewrite <- E, feq_refl in K. discriminate. Qed.
  Lemma usize0 : to_usize (F := F) 0 = Done 0%N.
  Proof. unfold to_usize. rewrite to_uint_zero. reflexivity. Qed.
  Lemma usize1 : to_usize (F := F) rone = Done 1%N.
  Proof. unfold to_usize. rewrite to_uint_one. reflexivity. Qed.
  Lemma and_val a b : bit (val a) -> bit (val b) -> exists v, ideal_bop OBoolAnd a b = Done v /\ val v = rmul (val a) (val b) /\ bit (val v).
  Proof.
    intros Ha Hb. assert (Bm : bit (rmul (val a) (val b))).
    { destruct (bit_cases Ha) as [-> | ->]; destruct (bit_cases Hb) as [-> | ->]; unfold bit; ring. }
    destruct a as [x|x]; destruct b as [y|y]; cbn [VmIdeal.tval] in *; cbn [ideal_bop mixed_bop VmIdeal.tval]; try (eexists; split; [reflexivity|]; split; [reflexivity|exact Bm]).
    cbn [plain_bop omap]. destruct (bit_cases Ha) as [-> | ->]; destruct (bit_cases Hb) as [-> | ->]; rewrite ?usize0, ?usize1; cbn; eexists; (split; [reflexivity|]); cbn [VmIdeal.tval]; (split; [ring|unfold bit; ring]).
  Qed.
  Lemma not_val a : bit (val a) -> exists v, ideal_uop fsqrt OBoolNot a = Done v /\ val v = rone - val a /\ bit (val v).
  Proof.
    intros Ha. assert (Bm : bit (rone - val a)) by (destruct (bit_cases Ha) as [-> | ->]; unfold bit; ring).
    destruct a as [x|x]; cbn [VmIdeal.tval] in *; cbn [ideal_uop]; [|eexists; split; [reflexivity|]; split; [reflexivity|exact Bm]].
    cbn [plain_uop]. unfold is01. assert (E : feqb x rone || feqb x 0 = true) by (destruct (bit_cases Ha) as [-> | ->]; rewrite !feq_refl; auto using orb_true_r).
    rewrite E. cbn. eexists; split; [reflexivity|]; split; [reflexivity|exact Bm].
  Qed.
  Lemma not_returned_run (rets : rets_t) n c : Forall (fun r => bit (val (fst r)) /\ length (snd r) = n) rets -> bit (val c) ->
    exists v, run_ideal fsqrt (not_returned rets c) = Done v /\ val v = (if existsb hit rets then 0 else val c) /\ bit (val v).
  Proof.
    intros B. revert c. induction B as [|[c0 vs] l [Hb _] _ IH]; intros c Bc; cbn [not_returned existsb]; [exists c; auto|]. cbn [fst] in Hb.
    destruct (not_val _ Hb) as (nv & N1 & N2 & N3). destruct (and_val _ _ Bc N3) as (w & W1 & W2 & W3).
    cbn [run_ideal]. rewrite N1. cbn [obind run_ideal]. rewrite W1. cbn [obind]. destruct (IH w W3) as (v & V1 & V2 & V3). exists v. split; [exact V1|]. split; [|exact V3].
    rewrite V2, W2, N2. unfold hit at 2. cbn [fst]. destruct (bit_cases Hb) as [E|E]; rewrite E.
    - rewrite feq_01. cbn [orb]. destruct (existsb hit l); [reflexivity|ring].
    - rewrite feq_refl. cbn [orb]. destruct (existsb hit l); [reflexivity|ring].
  Qed.
  Lemma mul_val a b : exists v, ideal_bop OMul a b = Done v /\ val v = rmul (val a) (val b).
  Proof. destruct a; destruct b; cbn; eexists; split; reflexivity. Qed.
  Lemma add_val a b : exists v, ideal_bop OAdd a b = Done v /\ val v = val a + val b.
  Proof. destruct a; destruct b; cbn; eexists; split; reflexivity. Qed.
  Lemma mul_all_run c l : exists r, run_ideal fsqrt (mul_all c l) = Done r /\ map val r = map (fun v => rmul (val c) (val v)) l.
  Proof.
    induction l as [|v l (r & R1 & R2)]; cbn [mul_all]; [exists []; auto|]. cbn [run_ideal]. destruct (mul_val c v) as (x & X1 & X2). rewrite X1. cbn [obind].
    rewrite run_ideal_h, run_bind, <- run_ideal_h, R1. cbn [obind run]. exists (x :: r). split; [reflexivity|]. cbn [map]. congruence.
  Qed.
  Lemma add_all_run acc : forall l, length l = length acc -> exists r, run_ideal fsqrt (add_all acc l) = Done r /\ map val r = map (fun q => val (fst q) + val (snd q)) (List.combine acc l).
  Proof.
    induction acc as [|a acc IH]; intros [|x l] L; try discriminate; cbn [add_all]; [exists []; auto|]. destruct (IH l) as (r & R1 & R2); [now injection L|].
    cbn [run_ideal]. destruct (add_val a x) as (y & Y1 & Y2). rewrite Y1. cbn [obind].
    rewrite run_ideal_h, run_bind, <- run_ideal_h, R1. cbn [obind run]. exists (y :: r). split; [reflexivity|]. cbn [map List.combine fst snd]. congruence.
  Qed.
  Lemma add_zero (acc r : list (tv F)) c l : length r = length l -> length l = length acc -> map val r = map (fun v => rmul (val c) (val v)) l ->
    map (fun q => val (fst q) + val (snd q)) (List.combine acc r) = if feqb (val c) rone then map (fun q => val (fst q) + val (snd q)) (List.combine acc l) else map (fun q => val (fst q) + rmul (val c) (val (snd q))) (List.combine acc l).
  Proof.
    intros L1 L2 E. assert (E' : map (fun q => val (fst q) + val (snd q)) (List.combine acc r) = map (fun q => val (fst q) + rmul (val c) (val (snd q))) (List.combine acc l)).
    { revert r l L1 L2 E. induction acc as [|a acc IH]; intros [|x r] [|y l] L1 L2 E; try discriminate; [reflexivity|]. cbn in *. injection E as E1 E2. rewrite E1. f_equal. apply IH; congruence. }
    rewrite E'. destruct (feqb (val c) rone) eqn:K; [|reflexivity]. apply feqb_spec in K. rewrite K. apply map_ext. intros q. ring.
  Qed.
  Lemma sum_run n (rets : rets_t) : Forall (fun r => bit (val (fst r)) /\ length (snd r) = n) rets -> forall acc, length acc = n ->
    (existsb hit rets = false -> exists out, run_ideal fsqrt (sum_returns rets acc) = Done out /\ map val out = map val acc) /\
    ((length (filter hit rets) <= 1)%nat -> map val acc = repeat 0 n -> forall vs, returned rets = Some vs -> exists out, run_ideal fsqrt (sum_returns rets acc) = Done out /\ map val out = vs).
  Proof.
    induction 1 as [|[c vs] l [Hb Hl] _ IH]; intros acc La.
    - split; [intros _; exists acc; auto|intros _ _ vs E; discriminate].
    - cbn [fst snd] in Hb, Hl. cbn [sum_returns].
      destruct (mul_all_run c vs) as (xs & X1 & X2). assert (Lx : length xs = length vs) by (apply (f_equal (@length F)) in X2; rewrite !map_length in X2; exact X2).
      destruct (add_all_run acc xs) as (acc' & A1 & A2); [congruence|].
      assert (Lc : length acc' = n). { apply (f_equal (@length F)) in A2. rewrite !map_length, combine_length in A2. rewrite A2. lia. }
      assert (Run : run_ideal fsqrt (xs <~ mul_all c vs; acc <~ add_all acc xs; sum_returns l acc) = run_ideal fsqrt (sum_returns l acc')).
      { rewrite !run_ideal_h, !run_bind. rewrite <- (run_ideal_h fsqrt (mul_all c vs)), X1. cbn [obind]. rewrite run_bind, <- (run_ideal_h fsqrt (add_all acc xs)), A1. reflexivity. }
      rewrite Run. rewrite (@add_zero acc xs c vs Lx) in A2; [|congruence|exact X2]. destruct (IH acc' Lc) as [I1 I2].
      assert (Zc : feqb (val c) rone = false -> map val acc' = map val acc).
      { intros K. rewrite A2, K. destruct (bit_cases Hb) as [E|E]; [|rewrite E, feq_refl in K; discriminate]. rewrite E.
        assert (La' : length acc = length vs) by lia. revert La'. clear. revert vs. induction acc as [|a acc IH]; intros [|v vs] L; try discriminate; [reflexivity|].
        cbn. f_equal; [ring|apply IH; cbn in L; lia]. }
      unfold returned in *. cbn [existsb filter find]. change (hit (c, vs)) with (feqb (val c) rone). destruct (feqb (val c) rone) eqn:K; cbn [orb].
      + split; [discriminate|]. cbn [length option_map snd]. intros Lf Z vs0 E. apply some_inj in E. subst vs0.
        assert (Nh : existsb hit l = false). { destruct (existsb hit l) eqn:Q; [|reflexivity]. apply existsb_exists in Q as (x & Ix & Hx). assert (In x (filter hit l)) by (apply filter_In; auto). destruct (filter hit l); [contradiction|]. cbn in Lf. lia. }
        destruct (I1 Nh) as (out & O1 & O2). exists out. split; [exact O1|]. rewrite O2, A2. assert (La' : length acc = length vs) by lia. rewrite <- La in Z. revert Z La'. clear. revert vs.
        induction acc as [|a acc IH]; intros [|v vs] Z L; try discriminate; [reflexivity|]. cbn in *. injection Z as Z1 Z2. rewrite Z1. f_equal; [ring|apply IH; [exact Z2|lia]].
      + rewrite (Zc eq_refl) in *. split; [intros Q; destruct (I1 Q) as (out & O1 & O2); exists out; split; [exact O1|congruence]|]. intros Lf Z vs0 E. apply I2; auto.
  Qed.
  Lemma find_none (rets : rets_t) : existsb hit rets = false -> find hit rets = None.
  Proof. induction rets as [|r l IH]; cbn; [auto|]. destruct (hit r); [discriminate|exact IH]. Qed.
  Lemma find_some_ex (rets : rets_t) : existsb hit rets = true -> exists r, find hit rets = Some r /\ In r rets.
  Proof. induction rets as [|r l IH]; cbn; [discriminate|]. destruct (hit r); [eauto|]. cbn. intros E. destruct (IH E) as (x & X1 & X2). eauto. Qed.
  Lemma find_app (l l' : rets_t) : find hit (l ++ l') = match find hit l with Some r => Some r | None => find hit l' end.
  Proof. induction l as [|r l IH]; [reflexivity|]. cbn. destruct (hit r); [reflexivity|exact IH]. Qed.
  (** adding the next return: it counts only if its condition holds and no earlier one was taken *)
  Lemma returns_snoc n (rets : rets_t) c this vs : returns_ok n rets -> bit (val c) -> val this = (if existsb hit rets then 0 else val c) -> length vs = n ->
    returns_ok n (rets ++ [(this, vs)]) /\
    returned (rets ++ [(this, vs)]) = match returned rets with Some v => Some v | None => if feqb (val c) rone then Some (map val vs) else None end.
  Proof.
    intros [R1 R2] Bc Et L. split.
    - split.
      + apply Forall_app. split; [exact R1|]. constructor; [|constructor]. cbn [fst snd]. split; [|exact L]. rewrite Et. destruct (existsb hit rets); [unfold bit; ring|exact Bc].
      + rewrite filter_app, app_length. cbn [filter]. unfold hit at 2. cbn [fst]. rewrite Et. destruct (existsb hit rets) eqn:E.
        * rewrite feq_01. cbn. lia.
        * assert (Z : filter hit rets = []). { clear - E. induction rets as [|r l IH]; [reflexivity|]. cbn in *. destruct (hit r); [discriminate|auto]. }
          rewrite Z. destruct (feqb (val c) rone); cbn; lia.
    - unfold returned. rewrite find_app. destruct (existsb hit rets) eqn:E.
      + destruct (find_some_ex _ E) as (r & -> & _). reflexivity.
      + rewrite (find_none _ E). cbn [option_map find]. unfold hit. cbn [fst]. rewrite Et. destruct (feqb (val c) rone); reflexivity.
  Qed.
  Notation rid := (run (F := F) (ideal_h fsqrt)).
  (** the values of a [return]: the top of the stack, or a range of the variables *)
  Definition return_values (m : mst (tv F)) : option (list (tv F) * comp (tv F)) :=
    if (c_ret (m_c m) =? 1)%nat then
      match c_fs (m_c m) with (v :: f) :: s => Some ([v], c_set_fs (m_c m) (f :: s)) | _ => None end
    else
      match c_is (m_c m) with
      | (s :: f) :: is => Some (firstn (c_ret (m_c m)) (skipn s (pad Pub (s + c_ret (m_c m)) (m_vars m))), c_set_is (m_c m) (f :: is))
      | _ => None
      end.
  Lemma values_length m vs c : return_values m = Some (vs, c) -> length vs = c_ret (m_c m) /\ c_ret c = c_ret (m_c m) /\ c_fn c = c_fn (m_c m) /\ c_if c = c_if (m_c m).
  Proof.
    unfold return_values. destruct (Nat.eqb_spec (c_ret (m_c m)) 1) as [E|E].
    - destruct (c_fs (m_c m)) as [|[|v f] s]; try discriminate. intros K. inversion K; subst. cbn [length c_ret c_set_fs c_fn c_if]. rewrite E. auto.
    - destruct (c_is (m_c m)) as [|[|s f] is]; try discriminate. intros K. inversion K; subst. cbn [length c_ret c_set_is c_fn c_if].
      repeat split. rewrite firstn_length, skipn_length. unfold pad. rewrite app_length, repeat_length. lia.
  Qed.
  (** [return] under a shared condition *)
  Lemma return_shared m cond r : shared_cond (c_if (m_c m)) = Some cond -> bit (val cond) -> returns_ok (c_ret (m_c m)) (m_shared m) ->
    run_ideal fsqrt (step_return_fun Pub m) = Done r ->
    exists m' vs c, r = Goto m' /\ return_values m = Some (vs, c) /\ m_ip m' = S (m_ip m) /\ m_c m' = c /\ returns_ok (c_ret (m_c m)) (m_shared m') /\
      returned (m_shared m') = match returned (m_shared m) with Some v => Some v | None => if feqb (val cond) rone then Some (map val vs) else None end.
  Proof.
    intros Es Bc Ok. rewrite run_ideal_h. unfold step_return_fun, return_values. rewrite Es. pose proof Ok as [R1 _].
    destruct (not_returned_run _ R1 Bc) as (this & T1 & T2 & T3). rewrite run_ideal_h in T1. destruct (Nat.eqb_spec (c_ret (m_c m)) 1) as [E|E].
    - intros X. rewrite run_bind, T1 in X. cbn [obind] in X. rewrite run_bind in X. unfold pop_field in X. destruct (c_fs (m_c m)) as [|[|v f] s]; try discriminate X.
      cbn [run obind fst snd next] in X. apply done_inj' in X. subst r. eexists _, _, _. split; [reflexivity|]. split; [reflexivity|]. split; [reflexivity|]. split; [reflexivity|].
      cbn [m_shared set_ip set_shared]. apply returns_snoc; auto.
    - rewrite run_bind. unfold pop_index. destruct (c_is (m_c m)) as [|[|s f] is] eqn:Ei; try discriminate. cbn [run obind fst snd]. cbv zeta.
      cbn [m_shared m_c set_vars set_c c_ret c_set_is]. rewrite run_bind, T1. cbn [obind]. intros X. cbn [run next] in X. apply done_inj' in X. subst r.
      eexists _, _, _. split; [reflexivity|]. split; [reflexivity|]. split; [reflexivity|]. split; [reflexivity|]. cbn [m_shared set_ip set_shared set_vars set_c m_vars]. apply returns_snoc; auto.
      rewrite firstn_length, skipn_length. unfold pad. rewrite app_length, repeat_length. lia.
  Qed.
  Lemma fun_return_run m f s : returns_ok (c_ret (m_c m)) (m_shared m) -> c_fs (m_c m) = f :: s ->
    exists vs, rid (shared_fun_return Pub m) = Done (set_c m (c_set_fs (m_c m) ((rev vs ++ f) :: s))) /\
      map val vs = match returned (m_shared m) with Some v => v | None => repeat 0 (c_ret (m_c m)) end.
  Proof.
    intros [R1 R2] Ef. unfold shared_fun_return. rewrite run_bind.
    assert (Lz : length (repeat (vzero (Pub (F := F))) (c_ret (m_c m))) = c_ret (m_c m)) by apply repeat_length.
    assert (Z : map val (repeat (vzero (Pub (F := F))) (c_ret (m_c m))) = repeat 0 (c_ret (m_c m))).
    { generalize (c_ret (m_c m)). intros n. induction n as [|n IH]; [reflexivity|]. cbn [repeat map]. now rewrite IH. }
    destruct (sum_run R1 _ Lz) as [I1 I2].
    assert (K : exists out, run_ideal fsqrt (sum_returns (m_shared m) (repeat (vzero Pub) (c_ret (m_c m)))) = Done out /\ map val out = match returned (m_shared m) with Some v => v | None => repeat 0 (c_ret (m_c m)) end).
    { destruct (returned (m_shared m)) as [vs|] eqn:E; [apply I2; auto|]. rewrite <- Z. apply I1. unfold returned in E. destruct (existsb hit (m_shared m)) eqn:Q; [|reflexivity].
      destruct (find_some_ex _ Q) as (r & Hr & _). rewrite Hr in E. discriminate. }
    destruct K as (out & O1 & O2). rewrite run_ideal_h in O1. rewrite O1. cbn [obind]. rewrite run_bind, (push_fields_run (ideal_h fsqrt) out Ef). cbn [obind run]. exists out. auto.
  Qed.
  Lemma pop_function_run m r : rid (m' <~ pop_function m ; next m') = Done r -> exists fr l m', c_fn (m_c m) = fr :: l /\ r = Goto m' /\ m_ip m' = S (f_ip fr) /\ m_body m' = f_body fr /\ m_vars m' = f_vars fr /\ m_shared m' = f_shared fr /\ c_fs (m_c m') = c_fs (m_c m).
  Proof.
    unfold pop_function. destruct (c_fn (m_c m)) as [|fr l]; [discriminate|]. intros X. cbn [vbind run next] in X. apply done_inj' in X. subst r. eexists _, _, _. repeat split.
  Qed.
  (** the end of a function that returned only under shared conditions *)
  Lemma return_end m f s r : returns_ok (c_ret (m_c m)) (m_shared m) -> c_fs (m_c m) = f :: s ->
    run_ideal fsqrt (m' <~ shared_fun_return Pub m ; m'' <~ pop_function m' ; next m'') = Done r ->
    exists m' vs, r = Goto m' /\ c_fs (m_c m') = (rev vs ++ f) :: s /\
      map val vs = match returned (m_shared m) with Some v => v | None => repeat 0 (c_ret (m_c m)) end.
  Proof.
    intros Ok Ef. rewrite run_ideal_h, run_bind. destruct (fun_return_run _ Ok Ef) as (vs & V1 & V2). rewrite V1. cbn [obind]. intros X.
    apply pop_function_run in X as (fr & l & m' & _ & E & _ & _ & _ & _ & E2). exists m', vs. split; [exact E|]. split; [exact E2|exact V2].
  Qed.
  (** an unconditional [return] after some under shared conditions *)
  Lemma return_last m r : shared_cond (c_if (m_c m)) = None -> m_shared m <> [] -> c_fs (m_c m) <> [] -> returns_ok (c_ret (m_c m)) (m_shared m) ->
    run_ideal fsqrt (step_return_fun Pub m) = Done r ->
    exists m' ws c f s vs, r = Goto m' /\ return_values m = Some (ws, c) /\ c_fs c = f :: s /\ c_fs (m_c m') = (rev vs ++ f) :: s /\
      map val vs = match returned (m_shared m) with Some v => v | None => map val ws end.
  Proof.
    intros Es Ne Nf Ok. rewrite run_ideal_h. unfold step_return_fun, return_values. rewrite Es. pose proof Ok as [R1 _].
    assert (B1 : bit (val (vone (Pub (F := F))))) by (unfold bit, vone; cbn; ring).
    destruct (not_returned_run _ R1 B1) as (this & T1 & T2 & T3). rewrite run_ideal_h in T1.
    assert (Sn : forall vs, length vs = c_ret (m_c m) -> returns_ok (c_ret (m_c m)) (m_shared m ++ [(this, vs)]) /\
       returned (m_shared m ++ [(this, vs)]) = Some (match returned (m_shared m) with Some v => v | None => map val vs end)).
    { intros vs L. destruct (@returns_snoc _ _ _ this vs Ok B1 T2 L) as [K1 K2]. split; [exact K1|]. rewrite K2. destruct (returned (m_shared m)); [reflexivity|]. unfold vone. cbn [VmIdeal.tval]. now rewrite feq_refl. }
    clear T2. destruct (m_shared m) as [|e l] eqn:Em; [congruence|]. destruct (Nat.eqb_spec (c_ret (m_c m)) 1) as [E|E].
    - intros X. rewrite run_bind, T1 in X. cbn [obind] in X. rewrite run_bind in X. unfold pop_field in X. destruct (c_fs (m_c m)) as [|[|v f] s]; try discriminate X.
      cbn [run obind fst snd] in X. rewrite run_bind in X. destruct (Sn [v] (eq_sym E)) as [S1 S2].
      match type of X with context [shared_fun_return _ ?q] => destruct (@fun_return_run q f s S1 eq_refl) as (vs & V1 & V2) end. rewrite V1 in X. cbn [obind] in X.
      apply pop_function_run in X as (fr & l' & m' & _ & E1 & _ & _ & _ & _ & E2). exists m', [v], (c_set_fs (m_c m) (f :: s)), f, s, vs. split; [exact E1|]. split; [reflexivity|]. split; [reflexivity|]. split; [exact E2|].
      cbn [m_shared set_shared] in V2. rewrite S2 in V2. exact V2.
    - rewrite run_bind. unfold pop_index. destruct (c_is (m_c m)) as [|[|s f] is] eqn:Ei; try discriminate. cbn [run obind fst snd]. cbv zeta.
      cbn [m_shared m_c set_vars set_c c_ret c_set_is m_vars]. rewrite Em. rewrite run_bind, T1. cbn [obind]. intros X. rewrite run_bind in X.
      set (ws := firstn (c_ret (m_c m)) (skipn s (pad Pub (s + c_ret (m_c m)) (m_vars m)))) in *.
      assert (Lw : length ws = c_ret (m_c m)) by (unfold ws; rewrite firstn_length, skipn_length; unfold pad; rewrite app_length, repeat_length; lia).
      destruct (Sn ws Lw) as [S1 S2].
      destruct (c_fs (m_c m)) as [|fr0 s0] eqn:Efs.
      { exfalso. apply Nf. reflexivity. }
      match type of X with context [shared_fun_return _ ?q] => destruct (@fun_return_run q fr0 s0 S1 Efs) as (vs & V1 & V2) end. rewrite V1 in X. cbn [obind] in X.
      apply pop_function_run in X as (fr & l' & m' & _ & E1 & _ & _ & _ & _ & E2). exists m', ws, (c_set_is (m_c m) (f :: is)), fr0, s0, vs. split; [exact E1|]. split; [reflexivity|]. split; [exact Efs|]. split; [exact E2|].
      cbn [m_shared set_shared set_vars set_c] in V2. rewrite S2 in V2. exact V2.
  Qed.
End Returns.
