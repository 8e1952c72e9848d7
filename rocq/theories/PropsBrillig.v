(** * Properties of the coBrillig VM (C64-C66) *)
From Coq Require Import String List Arith NArith ZArith Lia Bool.
From Verif Require Import Proc Alg Zp Rep3Net Rep3 Rep3Spec Rep3Proofs Rep3Wp Uint Binary Conv Ring2k Exec VmDriver VmIdeal
  Brillig BrilligSpec BrilligSound BrilligTag BrilligDriver BrilligOps BrilligSim BrilligParties BrilligProgress BrilligSelect BrilligRadix
  PropsVm Concrete ConcreteU ConcreteR ConcreteB.
Import ListNotations.
Local Open Scope grp_scope.
Local Open Scope string_scope.
Local Open Scope list_scope.

(** [srun code fuel (sinit calldata)] (BrilligSpec.v): what the program [code] computes on clear calldata, a
    list of values with the stored states, or a trap; nothing if the program has no result. *)

(** ** C64: the VM on clear values *)
Section Ops64.
  Context {F : Type} `{FU : FieldUint F}.
  Lemma field_ops (o : fop) (x y : F) : sbin (fbin o) (BF x) (BF y) =
    match o with
    | FAdd => Some (BF (x + y)) | FSub => Some (BF (x - y)) | FMul => Some (BF (rmul x y))
    | FDiv => if feqb y 0 then None else Some (BF (rmul x (finv y)))
    | FIntDiv => if feqb y 0 then None else Some (BF (of_uint (to_uint x / to_uint y)))
    | FEq => Some (bit_of (feqb x y)) | FLt => Some (bit_of (to_uint x <? to_uint y)%N) | FLe => Some (bit_of (to_uint x <=? to_uint y)%N)
    end.
  Proof. destruct o; reflexivity. Qed.
  Lemma int_ops (o : iop) (l r : N) s : (l < imod s)%N -> (r < imod s)%N ->
    sb (ibin o) (fun o' => sbin (F := F) o' (BI l s) (BI r (rhs_size o s))) =
    match o with
    | IAdd => Some (BI ((l + r) mod imod s) s)
    | ISub => Some (BI ((l + imod s - r) mod imod s) s)
    | IMul => Some (BI ((l * r) mod imod s) s)
    | IDiv => if (r =? 0)%N then None else Some (BI (l / r) s)
    | IEq => Some (bit_of (l =? r)%N) | ILt => Some (bit_of (l <? r)%N) | ILe => Some (bit_of (l <=? r)%N)
    | IAnd | IOr | IXor | IShl | IShr => None
    end.
  Proof.
    intros Ll Lr. assert (E : isz_eqb s s = true) by (destruct s; reflexivity).
    assert (El : (l <? 2 ^ N.of_nat (ibits s))%N = true) by (apply N.ltb_lt; exact Ll).
    assert (Er : (r <? 2 ^ N.of_nat (ibits s))%N = true) by (apply N.ltb_lt; exact Lr).
    destruct o; cbn [ibin sb rhs_size sbin]; try reflexivity; rewrite E; unfold sint; rewrite El, Er; cbn [andb]; try reflexivity.
    change (2 ^ N.of_nat (ibits s))%N with (imod s). destruct (N.leb_spec r l).
    - replace (l + imod s - r)%N with (l - r + 1 * imod s)%N by lia. rewrite N.mod_add by lia. rewrite N.mod_small by lia. reflexivity.
    - rewrite N.mod_small by lia. reflexivity.
  Qed.
  Lemma opcode_field (o : fop) (s : sst (F := F)) l r d x y z n : sread s l = Some (BF x) -> sread s r = Some (BF y) ->
    sbin (fbin o) (BF x) (BF y) = Some z -> sresolve s d = Some n ->
    sstep s (BinF o l r d) = Some (mkS (upd (s_mem s) n z) (s_pss s) (s_cd s) (s_stack s) (s_ip s + 1)).
  Proof. intros El Er Ez En. cbn [sstep]. rewrite El. cbn [sb sfield_of]. rewrite Er. cbn [sb sfield_of]. rewrite Ez. cbn [sb]. unfold swrite. rewrite En. reflexivity. Qed.
End Ops64.
Section C64.
  Context {F : Type} `{FU : FieldUint F} (P M : Type) (trng : nat -> bty -> bval F).
  (** what the VM returns is what the program computes *)
  Theorem C64_run dbg code fuel fuel' calldata r q : plain_run P M dbg trng code fuel calldata = Done r ->
    srun code fuel' (sinit calldata) = Some q ->
    match q with SOk vs ps => r = BSuccess vs ps | STrap => r = BTrap end.
  Proof. exact (@plain_run_ok F _ _ P M dbg trng code fuel fuel' calldata r q). Qed.
  (** a release build fails only if the program returns memory that it has not written, or stores twice under
      one name, or calls the store with other parameters *)
  Theorem C64_progress code fuel calldata q : srun code fuel (sinit calldata) = Some q ->
    match plain_run P M false trng code fuel calldata with
    | Done r => match q with SOk vs ps => r = BSuccess vs ps | STrap => r = BTrap end
    | Failed e => may_err e
    end.
  Proof. exact (@plain_progress F _ _ P M trng code fuel calldata q). Qed.
  (** the operations on two values *)
  Theorem C64_bin o (a b z : bval F) : sbin o a b = Some z -> plain_bin false o a b = Done z.
  Proof. exact (@plain_bin_total F _ _ o a b z). Qed.
  (** what each operation on field elements computes *)
  Theorem C64_field_ops (o : fop) (x y : F) : sbin (fbin o) (BF x) (BF y) =
    match o with
    | FAdd => Some (BF (x + y)) | FSub => Some (BF (x - y)) | FMul => Some (BF (rmul x y))
    | FDiv => if feqb y 0 then None else Some (BF (rmul x (finv y)))
    | FIntDiv => if feqb y 0 then None else Some (BF (of_uint (to_uint x / to_uint y)))
    | FEq => Some (bit_of (feqb x y)) | FLt => Some (bit_of (to_uint x <? to_uint y)%N) | FLe => Some (bit_of (to_uint x <=? to_uint y)%N)
    end.
  Proof. exact (field_ops o x y). Qed.
  (** and each one on integers of the size [s]; the bitwise ones do not exist *)
  Theorem C64_int_ops (o : iop) (l r : N) s : (l < imod s)%N -> (r < imod s)%N ->
    sb (ibin o) (fun o' => sbin o' (BI l s) (BI r (rhs_size o s))) =
    match o with
    | IAdd => Some (BI ((l + r) mod imod s) s)
    | ISub => Some (BI ((l + imod s - r) mod imod s) s)
    | IMul => Some (BI ((l * r) mod imod s) s)
    | IDiv => if (r =? 0)%N then None else Some (BI (l / r) s)
    | IEq => Some (bit_of (l =? r)%N) | ILt => Some (bit_of (l <? r)%N) | ILe => Some (bit_of (l <=? r)%N)
    | IAnd | IOr | IXor | IShl | IShr => None
    end.
  Proof. exact (@int_ops F _ _ o l r s). Qed.
  (** the opcodes write these results *)
  Theorem C64_opcode (o : fop) (s : sst) l r d x y z n : sread s l = Some (BF x) -> sread s r = Some (BF y) ->
    sbin (fbin o) (BF x) (BF y) = Some z -> sresolve s d = Some n ->
    sstep s (BinF o l r d) = Some (mkS (upd (s_mem s) n z) (s_pss s) (s_cd s) (s_stack s) (s_ip s + 1)).
  Proof. exact (@opcode_field F _ _ o s l r d x y z n). Qed.
End C64.
Print Assumptions C64_field_ops.
Print Assumptions C64_int_ops.
Print Assumptions C64_opcode.
Print Assumptions C64_run.
Print Assumptions C64_progress.
Print Assumptions C64_bin.

(** ** C65: the operations of three parties *)
(** [vrel v sh x]: the parties have the value [x], all the same one if [sh] is false and shares of it otherwise.
    [yao_ok Y cap]: the garbled circuits divide. *)
Section C65.
  Context {F : Type} `{FU : FieldUint F} {S M : Type} (dbg : bool) (W : nat) (du : nat -> S -> N * S).
  Context {DF : Draw S F} {EN : Enc M (list N)} {ENN : Enc M (list (N * N))} {EF : Enc M (list F)}.
  Context {RT : isz -> Type} {RC : forall s, CRing (RT s)} {RI : forall s, @IntRing (RT s) (RC s)}
          {RD : forall s, Draw S (RT s)} {RE : forall s, Enc M (list (RT s))}.
  Context (HK : forall s, rK (RT s) = ibits s).
  Context (Y : yao (F := F) (S := S) (M := M) (RT := RT)).
  Context (cap : nat) (cap_pos : (1 <= cap)%nat) (width : (mbs F + 2 <= W)%nat) (HY : yao_ok Y cap).
  Context (ds : pid -> drst (S := S)) (Hs : synced (fun i => fst (ds i))).
  (** a sum, difference, product, quotient or comparison of values at least one of which is shared; a field
      division by a shared value may fail (with [strict] false), single bits are not divided *)
  Theorem C65_bin strict o a b sh sh' x y z : vrel a sh x -> vrel b sh' y -> (sh || sh')%bool = true ->
    excluded strict o x sh' = false -> sbin o x y = Some z ->
    all_end cap (fun i => r_bin dbg W du Y i (ds i) o (a i) (b i)) (dpost strict (fun v => vrel v true z)).
  Proof. exact (fun Ha Hb Hsh Hex E => wpo_all_end (r_bin_shared dbg strict du HK cap_pos width HY ds o a b sh sh' x y Hs Ha Hb Hsh Hex E)). Qed.
  (** the complement of a shared integer, without communication *)
  Theorem C65_not a n s : vrel a true (BI n s) ->
    exists r, (forall i, r_not (F := F) i (a i) = Done (r i)) /\ vrel r true (BI (imod s - 1 - n) s)%N.
  Proof. exact (fun Ha => not_shared HK cap_pos width Ha). Qed.
  (** a shared integer as a field element or as an integer of another size *)
  Theorem C65_cast a n s t : vrel a true (BI n s) -> match t with TField => (n < fu_p (F := F))%N | _ => True end ->
    all_end cap (fun i => r_cast dbg W du i (ds i) (a i) t) (dpost true (fun v => vrel v true
      (match t with TField => BF (of_uint n) | TInt s' => BI (n mod imod s') s' end))).
  Proof. exact (fun Ha Hn => wpo_all_end (cast_shared dbg true du HK cap_pos width ds t Hs Ha Hn)). Qed.
  (** the selection by a shared bit; two public values only in a release build *)
  Theorem C65_select c a b n sh sh' x y : vrel c true (BI n U1) -> vrel a sh x -> vrel b sh' y ->
    bty_of x = bty_of y -> in_range x = true -> in_range y = true -> dbg = false \/ (sh || sh')%bool = true ->
    all_end cap (fun i => r_cmux dbg W du Y i (ds i) (c i) (a i) (b i))
      (fun o => exists r, (forall i, o i = Done (r i)) /\ vrel (fun i => fst (r i)) true (if (n =? 1)%N then x else y) /\ synced (fun i => fst (snd (r i)))).
  Proof. exact (fun Hc Ha Hb Et Rx Ry Hd => wpo_all_end (cmux_parties du HK cap_pos width HY ds a b sh sh' x y Hs Hc Ha Hb Et Rx Ry Hd)). Qed.
  (** the digits of a field element, most significant first, where the element or the radix is shared.
      [yao_radix_ok Y cap]: the garbled circuits of this operation compute what they should *)
  Theorem C65_radix (HR : yao_radix_ok Y cap) v w sh sh' x r n : (1 < r <= 256)%N -> (r < fu_p (F := F))%N -> (sh || sh')%bool = true ->
    (sh = true \/ n <> 0%nat) -> vrel v sh (BF x) -> vrel w sh' (BI r U32) ->
    all_ok cap (fun i => r_radix dbg Y i (ds i) (v i) (w i) n false) (fun o => radix_post fst (digits n (to_uint x) r) o).
  Proof. exact (fun A1 A2 A3 A4 A5 A6 => wp_all_ok (r_radix_wp dbg HK cap_pos HY HR ds v w sh' x A1 A2 A3 A4 A5 A6 Hs)). Qed.
End C65.
Print Assumptions C65_radix.
Print Assumptions C65_bin.
Print Assumptions C65_not.
Print Assumptions C65_cast.
Print Assumptions C65_select.

(** ** C66: runs of three parties *)
(** [cd_held v cd]: the parties hold the calldata [cd], each value with whether it is shared. [tagged_run]: the VM
    on values marked public, shared or shared but arbitrary; it fails where the parties fail, and with [undef]
    where nothing is said. With [strict] it does not divide field elements by shared ones. [returned vs ps o]:
    all parties return, and hold the results [vs] and the stored states [ps]. *)
Section C66.
  Context {F : Type} `{FU : FieldUint F} {S Seed M : Type} (dbg strict : bool) (W : nat) (du : nat -> S -> N * S).
  Context {DF : Draw S F} {DS : Draw S Seed} {SD : Seeded S Seed}.
  Context {EN : Enc M (list N)} {ENN : Enc M (list (N * N))} {EF : Enc M (list F)}.
  Context {RT : isz -> Type} {RC : forall s, CRing (RT s)} {RI : forall s, @IntRing (RT s) (RC s)}
          {RD : forall s, Draw S (RT s)} {RE : forall s, Enc M (list (RT s))}.
  Context (HK : forall s, rK (RT s) = ibits s).
  Context (Y : yao (F := F) (S := S) (M := M) (RT := RT)) (trng : pid -> nat -> bty -> bval F).
  Context (cap : nat) (cap_pos : (1 <= cap)%nat) (width : (mbs F + 2 <= W)%nat) (HY : yao_ok Y cap).
  Context (st : pid -> drst (S := S)) (Hs : synced (fun i => fst (st i))).
  Notation run := (party_run (Seed := Seed) dbg W du Y trng).
  (** the parties return exactly if the tagged run does, and their results are those of the tagged run *)
  Theorem C66_tagged code fuel v cd : cd_held v cd -> tagged_run (M := M) dbg strict code fuel cd <> Failed undef ->
    all_end cap (fun i => run code fuel (v i) (st i) i)
      (xpost strict (fun r q => rsrel (fun i => fst (r i)) q /\ synced (fun i => fst (b_drv (snd (r i))))) (tagged_run (M := M) dbg strict code fuel cd)).
  Proof. exact (fun Hv Hd => wpo_all_end (parties_tagged dbg strict du HK trng cap_pos width HY code fuel st Hv Hs Hd)). Qed.
  (** all parties return what the program computes *)
  Theorem C66_result code fuel fuel' v cd q vs ps : cd_held v cd -> tagged_run (M := M) dbg strict code fuel cd = Done q ->
    srun code fuel' (sinit (map snd cd)) = Some (SOk vs ps) ->
    all_end cap (fun i => run code fuel (v i) (st i) i) (fun o => returned vs ps o \/ (strict = false /\ all_fail o)).
  Proof. exact (fun Hv Ht Eq => wpo_all_end (parties_result dbg strict du HK trng cap_pos width HY code fuel fuel' st Hv Hs Ht Eq)). Qed.
End C66.
Print Assumptions C66_tagged.
Print Assumptions C66_result.

(** ** Examples *)
Definition c32 (d : nat) (v : Z) : bopc F13 := ConstO (Direct d) (TInt U32) (f13 v).
(** [n] values of calldata from address 5 on *)
Definition copy (n : Z) : list (bopc F13) := [c32 1 n; c32 2 0; CalldataCopy (Direct 5) (Direct 1) (Direct 2)].
(** the address and the number of the results *)
Definition out (a n : Z) : list (bopc F13) := [c32 3 a; c32 4 n].
Definition ret34 : bopc F13 := Stop (Direct 3) (Direct 4).
(** the larger of two integers: if a < b then b else a *)
Definition p_max : list (bopc F13) := copy 2 ++ out 8 1 ++
  [BinI ILt U8 (Direct 5) (Direct 6) (Direct 7); JumpIf (Direct 7) 9; Mov (Direct 8) (Direct 5); ret34; Mov (Direct 8) (Direct 6); ret34].
Definition cd_max (a b : N) : list (bool * bval F13) := [(true, BI a U8); (true, BI b U8)].
Definition v_max (a b : Z) : pid -> list Vb := fun i => [bsi U8 a 77 200 i; bsi U8 b 3 4 i].
Lemma v_max_held a b : (0 <= a < 256)%Z -> (0 <= b < 256)%Z -> cd_held (v_max a b) (cd_max (Z.to_N a) (Z.to_N b)).
Proof.
  intros A B. split; [intros i; reflexivity|]. intros [|[|n]] x E; cbn in E; [injection E as <-..|destruct n; discriminate].
  - exists (bsi U8 a 77 200). split; [reflexivity|]. exact (bsi_rel U8 a 77 200 A).
  - exists (bsi U8 b 3 4). split; [reflexivity|]. exact (bsi_rel U8 b 3 4 B).
Qed.
Notation run_b dbg code fuel v i := (party_run (Seed := Z) dbg 6 du13 yao_b trng_b code fuel v (sb13 i) i).
Notation tagged_b dbg strict code fuel cd := (tagged_run (F := F13) (M := bmsg) dbg strict code fuel cd).
Definition vals (l : list (bval F13)) : list (N * option isz) := map (fun v => match v with BF x => (to_uint x, None) | BI n s => (n, Some s) end) l.
Example ex_C64 : omap (fun r => match r with BSuccess ws _ => vals ws | BTrap => [] end) (plain_run pid bmsg false (trng_b P0) p_max 20 (map snd (cd_max 9 200))) = Done [(200, Some U8)]%N /\
  option_map (fun r => match r with SOk ws _ => vals ws | STrap => [] end) (srun p_max 20 (sinit (map snd (cd_max 9 200)))) = Some [(200, Some U8)]%N.
Proof. split; vm_compute; reflexivity. Qed.
Example ex_C64_bin : sbin (F := F13) BSub (BI 1 U8) (BI 2 U8) = Some (BI 255 U8) /\ sbin (F := F13) BDiv (BI 200 U8) (BI 7 U8) = Some (BI 28 U8).
Proof. split; vm_compute; reflexivity. Qed.

Lemma width13 : (mbs F13 + 2 <= 6)%nat.
Proof. vm_compute. lia. Qed.
Example ex_C65_bin cap : (1 <= cap)%nat ->
  all_end cap (fun i => r_bin (M := bmsg) (RT := fun s => RTb s) false 6 du13 yao_b i (sb13 i) BLt (bsi U16 300 5 9 i) (BPub (BI 301 U16)))
    (dpost true (fun v => vrel v true (BI 1 U1))).
Proof.
  intros C. exact (C65_bin false 6 du13 rK_b yao_b cap C width13 (yao_b_ok cap C) sb13 sb13_synced true BLt (bsi U16 300 5 9) (fun _ => BPub (BI 301 U16))
    true false (BI 300 U16) (BI 301 U16) (BI 1 U1) (bsi_rel U16 300 5 9 ltac:(split; reflexivity || discriminate)) (fun i => eq_refl) eq_refl eq_refl eq_refl).
Qed.
Example ex_C65_div cap : (1 <= cap)%nat ->
  all_end cap (fun i => r_bin (M := bmsg) (RT := fun s => RTb s) false 6 du13 yao_b i (sb13 i) BDiv (bsi U32 300 5 9 i) (bsi U32 7 1 2 i))
    (dpost true (fun v => vrel v true (BI 42 U32))).
Proof.
  intros C. exact (C65_bin false 6 du13 rK_b yao_b cap C width13 (yao_b_ok cap C) sb13 sb13_synced true BDiv (bsi U32 300 5 9) (bsi U32 7 1 2)
    true true (BI 300 U32) (BI 7 U32) (BI 42 U32) (bsi_rel U32 300 5 9 ltac:(split; reflexivity || discriminate)) (bsi_rel U32 7 1 2 ltac:(split; reflexivity || discriminate)) eq_refl eq_refl eq_refl).
Qed.
Example ex_C65_select cap : (1 <= cap)%nat ->
  all_end cap (fun i => r_cmux (M := bmsg) (RT := fun s => RTb s) true 6 du13 yao_b i (sb13 i) (bsi U1 0 1 1 i) (bsf 5 2 8 i) (BPub (BF (f13 9))))
    (fun o => exists r, (forall i, o i = Done (r i)) /\ vrel (fun i => fst (r i)) true (BF (f13 9)) /\ synced (fun i => fst (snd (r i)))).
Proof.
  intros C. exact (C65_select true 6 du13 rK_b yao_b cap C width13 (yao_b_ok cap C) sb13 sb13_synced (bsi U1 0 1 1) (bsf 5 2 8) (fun _ => BPub (BF (f13 9)))
    0%N true false (BF (f13 5)) (BF (f13 9)) (bsi_rel U1 0 1 1 ltac:(split; reflexivity || discriminate)) (bsf_rel 5 2 8) (fun i => eq_refl) eq_refl eq_refl eq_refl (or_intror eq_refl)).
Qed.
Example ex_C65_not : exists r, (forall i, r_not (F := F13) i (bsi U8 5 1 2 i) = Done (r i)) /\ vrel r true (BI 250 U8).
Proof. exact (C65_not 6 rK_b 1 (le_n 1) width13 (bsi U8 5 1 2) 5 U8 (bsi_rel U8 5 1 2 ltac:(split; reflexivity || discriminate))). Qed.
Example ex_C65_cast cap : (1 <= cap)%nat ->
  all_end cap (fun i => r_cast (F := F13) (M := bmsg) (RT := fun s => RTb s) false 6 du13 i (sb13 i) (bsi U16 300 5 9 i) (TInt U8)) (dpost true (fun v => vrel v true (BI 44 U8))).
Proof.
  intros C. exact (C65_cast false 6 du13 rK_b cap C width13 sb13 sb13_synced (bsi U16 300 5 9) 300 U16 (TInt U8) (bsi_rel U16 300 5 9 ltac:(split; reflexivity || discriminate)) I).
Qed.
Example ex_C66 cap : (1 <= cap)%nat ->
  all_end cap (fun i => run_b false p_max 20 (v_max 9 200 i) i) (fun o => returned [BI 200%N U8] [] o \/ (true = false /\ all_fail o)).
Proof.
  intros C. pose proof (C66_result false true 6 du13 rK_b yao_b trng_b cap C width13 (yao_b_ok cap C) sb13 sb13_synced p_max 20 20 (v_max 9 200) (cd_max 9 200)) as K.
  assert (Hv : cd_held (v_max 9 200) (cd_max 9 200)) by (apply (v_max_held 9 200); split; reflexivity || discriminate).
  specialize (K (BSuccess [TShr (BI 200%N U8)] []) [BI 200%N U8] [] Hv). apply K; vm_compute; reflexivity.
Qed.

(** ** Where the VM differs from the programs *)
(** debug builds: a difference below zero panics *)
Theorem C64_debug_refuted : exists o (a b z : bval F13), sbin o a b = Some z /\ plain_bin true o a b = Failed overflow.
Proof. exists BSub, (BI 1 U8), (BI 2 U8), (BI 255 U8). split; vm_compute; reflexivity. Qed.
Print Assumptions C64_debug_refuted.

(** all parties fail, on programs that have a result; one value is shared, a bit *)
Definition fails_b (dbg : bool) (code : list (bopc F13)) (cd : list (bool * bval F13)) (v : pid -> list Vb) : Prop :=
  cd_held v cd /\ (exists vs ps, srun code 30 (sinit (map snd cd)) = Some (SOk vs ps)) /\
  forall cap, (1 <= cap)%nat -> all_end cap (fun i => run_b dbg code 30 (v i) i) all_fail.
Lemma fails_intro dbg code cd v e : cd_held v cd -> (exists vs ps, srun code 30 (sinit (map snd cd)) = Some (SOk vs ps)) ->
  tagged_b dbg true code 30 cd = Failed e -> e <> undef -> fails_b dbg code cd v.
Proof.
  intros Hv Hp E N. split; [exact Hv|]. split; [exact Hp|]. intros cap C.
  pose proof (C66_tagged dbg true 6 du13 rK_b yao_b trng_b cap C width13 (yao_b_ok cap C) sb13 sb13_synced code 30 v cd Hv) as K.
  rewrite E in K. apply K. congruence.
Qed.
Definition cd_bit (b : N) : list (bool * bval F13) := [(true, BI b U1)].
Definition v_bit (b : Z) : pid -> list Vb := fun i => [bsi U1 b 1 1 i].
Lemma v_bit_held b : (0 <= b < 2)%Z -> cd_held (v_bit b) (cd_bit (Z.to_N b)).
Proof.
  intros B. split; [intros i; reflexivity|]. intros [|n] x E; cbn in E; [injection E as <-|destruct n; discriminate].
  exists (bsi U1 b 1 1). split; [reflexivity|]. exact (bsi_rel U1 b 1 1 B).
Qed.
(** an integer division in a branch on a shared bit: the divisor is selected against the field element one *)
Theorem C66_int_div_refuted : exists code cd v, fails_b false code cd v.
Proof.
  exists (copy 1 ++ out 8 1 ++ [ConstO (Direct 6) (TInt U8) (f13 12); ConstO (Direct 7) (TInt U8) (f13 3); ConstO (Direct 8) (TInt U8) (f13 1);
    JumpIf (Direct 5) 10; ret34; BinI IDiv U8 (Direct 6) (Direct 7) (Direct 8); ret34]), (cd_bit 1), (v_bit 1).
  eapply fails_intro; [apply (v_bit_held 1); split; reflexivity || discriminate|do 2 eexists; vm_compute; reflexivity|vm_compute; reflexivity|discriminate].
Qed.
Print Assumptions C66_int_div_refuted.
(** a branch in a branch, both on shared bits *)
Theorem C66_nested_refuted : exists code cd v, fails_b false code cd v.
Proof.
  exists (copy 1 ++ out 6 1 ++ [Mov (Direct 6) (Direct 5); JumpIf (Direct 5) 8; ret34; JumpIf (Direct 6) 10; ret34; ret34]), (cd_bit 1), (v_bit 1).
  eapply fails_intro; [apply (v_bit_held 1); split; reflexivity || discriminate|do 2 eexists; vm_compute; reflexivity|vm_compute; reflexivity|discriminate].
Qed.
Print Assumptions C66_nested_refuted.
(** a state stored before a branch on a shared bit *)
Theorem C66_store_refuted : exists code cd v, fails_b false code cd v.
Proof.
  exists (copy 1 ++ out 6 1 ++ [ConstO (Direct 6) (TInt U8) (f13 7); c32 7 6; c32 8 5; Foreign (FStore 0 0 [Some (Direct 7, 1); Some (Direct 8, 1)] 2);
    JumpIf (Direct 5) 11; ret34; ret34]), (cd_bit 1), (v_bit 1).
  eapply fails_intro; [apply (v_bit_held 1); split; reflexivity || discriminate|do 2 eexists; vm_compute; reflexivity|vm_compute; reflexivity|discriminate].
Qed.
Print Assumptions C66_store_refuted.
(** debug builds: the branches return public integers, the first one less than the second *)
Theorem C66_debug_refuted : exists code cd v, fails_b true code cd v.
Proof.
  exists (copy 1 ++ out 6 1 ++ [ConstO (Direct 6) (TInt U8) (f13 2); JumpIf (Direct 5) 8; ret34; ConstO (Direct 6) (TInt U8) (f13 1); ret34]), (cd_bit 1), (v_bit 1).
  eapply fails_intro; [apply (v_bit_held 1); split; reflexivity || discriminate|do 2 eexists; vm_compute; reflexivity|vm_compute; reflexivity|discriminate].
Qed.
Print Assumptions C66_debug_refuted.

(** an assertion on a shared bit: if it does not hold, the parties return all the same *)
Definition p_assert : list (bopc F13) := copy 2 ++ out 6 1 ++ [JumpIf (Direct 5) 7; Trap; ret34].
Definition cd_assert (b : N) : list (bool * bval F13) := [(true, BI b U1); (true, BF (f13 4))].
Definition v_assert (b : Z) : pid -> list Vb := fun i => [bsi U1 b 1 1 i; bsf 4 2 8 i].
Theorem C66_trap_refuted : exists code cd v, cd_held v cd /\ srun code 30 (sinit (map snd cd)) = Some STrap /\
  forall cap, (1 <= cap)%nat -> all_end cap (fun i => run_b false code 30 (v i) i) (fun o => forall i, exists ws ps s, o i = Done (BSuccess ws ps, s)).
Proof.
  exists p_assert, (cd_assert 0), (v_assert 0).
  assert (Hv : cd_held (v_assert 0) (cd_assert 0)).
  { split; [intros i; reflexivity|]. intros [|[|n]] x E; cbn in E; [injection E as <-..|destruct n; discriminate].
    - exists (bsi U1 0 1 1). split; [reflexivity|]. exact (bsi_rel U1 0 1 1 ltac:(split; reflexivity || discriminate)).
    - exists (bsf 4 2 8). split; [reflexivity|]. exact (bsf_rel 4 2 8). }
  split; [exact Hv|]. split; [vm_compute; reflexivity|]. intros cap C.
  assert (E : exists q, tagged_b false true p_assert 30 (cd_assert 0) = Done q /\ exists ws ps, q = BSuccess ws ps).
  { eexists. split; [vm_compute; reflexivity|]. do 2 eexists. reflexivity. }
  destruct E as (q & E & ws & ps & ->).
  pose proof (C66_tagged false true 6 du13 rK_b yao_b trng_b cap C width13 (yao_b_ok cap C) sb13 sb13_synced p_assert 30 _ _ Hv) as K.
  rewrite E in K. specialize (K ltac:(discriminate)).
  destruct K as (o & K). exists o. destruct K as (m & Ho & K). exists m. split; [|exact K].
  destruct Ho as [(r & Er & Hr & _)|[X _]]; [|discriminate]. intros i. destruct Hr as (w & p & _ & _ & Hw).
  exists (w i), (p i), (snd (r i)). rewrite Er, <- Hw. destruct (r i). reflexivity.
Qed.
Print Assumptions C66_trap_refuted.

(** an assertion on a shared bit that holds, and a public result: each party draws its own value for the other branch *)
Definition opened (o : option (pid -> outcome (bres Vb * bst Vb (drst (S := Z))))) : option (option Z) :=
  match o with
  | Some o => match o P0, o P1, o P2 with
      | Done (BSuccess [BShr (SF a)] _, _), Done (BSuccess [BShr (SF b)] _, _), Done (BSuccess [BShr (SF c)] _, _) =>
          if (feqb (Rep3.sb a) (sa c) && feqb (Rep3.sb b) (sa a) && feqb (Rep3.sb c) (sa b))%bool
          then Some (Some (Zp.val (sa a + sa b + sa c))) else Some None
      | _, _, _ => None
      end
  | None => None
  end.
Definition p_const : list (bopc F13) := copy 1 ++ out 6 1 ++ [ConstO (Direct 6) TField (f13 4); JumpIf (Direct 5) 8; Trap; ret34].
(** the shares that the parties return do not fit together *)
Theorem C66_noise_refuted : exists code cd v x, cd_held v cd /\ srun code 30 (sinit (map snd cd)) = Some (SOk [BF x] []) /\
  all_end 1 (fun i => run_b false code 30 (v i) i) (fun o => opened (Some o) = Some None).
Proof.
  exists p_const, (cd_bit 1), (v_bit 1), (f13 4). split; [apply (v_bit_held 1); split; reflexivity || discriminate|]. split; [vm_compute; reflexivity|].
  apply (exec_end 1 3000 _ opened); [reflexivity|vm_compute; reflexivity].
Qed.
Print Assumptions C66_noise_refuted.

(** the bits of a shared field element, as integers of 8 bits *)
Definition types (o : option (pid -> outcome (bres Vb * bst Vb (drst (S := Z))))) : option (list bty) :=
  match o with
  | Some o => match o P0, o P1, o P2 with
      | Done (BSuccess a _, _), Done (BSuccess b _, _), Done (BSuccess c _, _) => Some (map bv_ty (a ++ b ++ c))
      | _, _, _ => None
      end
  | None => None
  end.
Definition p_bits : list (bopc F13) := copy 1 ++ out 10 2 ++ [c32 6 2; c32 7 2; ConstO (Direct 8) (TInt U1) (f13 1); c32 9 10;
  ToRadix (Direct 5) (Direct 6) (Direct 9) (Direct 7) (Direct 8); ret34].
Definition cd_fld (x : Z) : list (bool * bval F13) := [(true, BF (f13 x))].
Definition v_fld (x : Z) : pid -> list Vb := fun i => [bsf x 2 8 i].
Theorem C66_bits_refuted : exists code cd v a b, cd_held v cd /\ srun code 30 (sinit (map snd cd)) = Some (SOk [BI a U1; BI b U1] []) /\
  all_end 1 (fun i => run_b false code 30 (v i) i) (fun o => types (Some o) = Some (repeat (TInt U8) 6)).
Proof.
  exists p_bits, (cd_fld 2), (v_fld 2), 1%N, 0%N. split.
  { split; [intros i; reflexivity|]. intros [|n] x E; cbn in E; [injection E as <-|destruct n; discriminate].
    exists (bsf 2 2 8). split; [reflexivity|]. exact (bsf_rel 2 2 8). }
  split; [vm_compute; reflexivity|].
  apply (exec_end 1 3000 _ types); [reflexivity|vm_compute; reflexivity].
Qed.
Print Assumptions C66_bits_refuted.

(** ** [ToRadix] on shared values *)
Lemma promoted {G} `{AbGrp G} (f : G) (a : pid -> G) : (forall i, a i = f) -> shares (fun i => promote i (a i)) f.
Proof. intros E. pose proof (promote_ok f) as [R A]. split; [intros i; cbn; rewrite !E; apply R|unfold additive in *; cbn; rewrite !E; exact A]. Qed.
Lemma yao_b_radix cap : (1 <= cap)%nat -> yao_radix_ok yao_b cap.
Proof.
  intros C. constructor.
  - intros st a x n k Hs Ha _. cbn [y_decompose yao_b]. apply wp_bind. eapply wp_mono; [|apply (open_wp C Ha)]. intros v Ev. apply wp_ret. split; [|exact Hs].
    exists (map (fun j i => promote i (rof (T := RTb U8) ((to_uint x / 2 ^ N.of_nat (k * j)) mod 2 ^ N.of_nat k)%N)) (seq 0 n)). split.
    + induction (seq 0 n) as [|j l IH]; cbn [map]; constructor; [|exact IH]. apply promoted. reflexivity.
    + intros i. cbn [fst]. rewrite map_map. apply map_ext. intros j. rewrite Ev. reflexivity.
  - intros st a x Hs Ha _. exact (via1_ok (fun v : F13 => rof (T := RTb U8) (to_uint v)) cap st a x C Hs Ha).
  - intros st a x Hs Ha L. cbn [y_r2f yao_b]. rewrite <- (N.mod_small _ _ L). exact (via1_ok (fun v : RTb U32 => of_uint (F := F13) (rto v mod 13)) cap st a x C Hs Ha).
Qed.
(** 11 = 1 * 9 + 0 * 3 + 2, with the number shared, with the radix shared, and with both *)
Example ex_C65_radix cap : (1 <= cap)%nat -> digits 3 11 3 = [1; 0; 2]%N /\
  all_ok cap (fun i => r_radix true yao_b i (sb13 i) (bsf 11 2 8 i) (bpv (BI 3 U32) i) 3 false) (radix_post fst [1; 0; 2]%N) /\
  all_ok cap (fun i => r_radix true yao_b i (sb13 i) (bpv (BF (f13 11)) i) (bsi U32 3 77 200 i) 3 false) (radix_post fst [1; 0; 2]%N) /\
  all_ok cap (fun i => r_radix true yao_b i (sb13 i) (bsf 11 2 8 i) (bsi U32 3 77 200 i) 3 false) (radix_post fst [1; 0; 2]%N).
Proof.
  intros C. split; [reflexivity|].
  pose proof (bsi_rel U32 3 77 200 ltac:(split; [discriminate|reflexivity])) as Hr.
  pose proof (fun v w sh sh' => C65_radix true rK_b yao_b cap C (yao_b_ok cap C) sb13 sb13_synced (yao_b_radix cap C) v w sh sh' (f13 11) 3 3) as T.
  repeat split; [apply (T _ _ true false)|apply (T _ _ false true)|apply (T _ _ true true)];
    try (right; discriminate); try (left; reflexivity); try reflexivity; try (split; [reflexivity|discriminate]);
    try exact (bsf_rel 11 2 8); try exact Hr; try exact (bpv_rel _).
Qed.
(** with a radix that is a power of two: 11 = 2 * 4 + 3 *)
Example ex_C65_radix4 cap : (1 <= cap)%nat ->
  all_ok cap (fun i => r_radix true yao_b i (sb13 i) (bsf 11 2 8 i) (bpv (BI 4 U32) i) 3 false) (radix_post fst [0; 2; 3]%N).
Proof.
  intros C. apply (C65_radix true rK_b yao_b cap C (yao_b_ok cap C) sb13 sb13_synced (yao_b_radix cap C) _ _ true false (f13 11) 4 3);
    try (left; reflexivity); try reflexivity; try (split; [reflexivity|discriminate]); [exact (bsf_rel 11 2 8)|exact (bpv_rel _)].
Qed.
