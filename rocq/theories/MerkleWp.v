(** * Merkle trees on shared leaves: the shared root is the root of the tree of the opened leaves *)
From Coq Require Import String List Arith NArith Bool Lia Ring.
From Verif Require Import Proc Alg Rep3Net NNet Rep3 Rep3Spec Rep3Proofs Rep3Wp ShamirPoly Shamir ShamirAlg ShamirSpec ShamirRng ShamirDeal ShamirWp ShamirRed ShamirOps
  Poseidon2 Poseidon2Spec Poseidon2Mat Poseidon2Lin Poseidon2Wp Poseidon2Sh Merkle MerkleSpec MerkleMem MerkleTree.
Import ListNotations.
Set Implicit Arguments.
Local Open Scope grp_scope.

(** number of hashes in a tree of depth [S k] *)
Fixpoint geo (a k : nat) : nat := match k with O => 1 | Datatypes.S k' => (a ^ k + geo a k')%nat end.
Lemma geo_eq a k : (2 <= a)%nat -> ((a ^ Datatypes.S k - 1) / (a - 1) = geo a k)%nat.
Proof.
  intros Ha.
  assert (Hg : (geo a k * (a - 1) = a ^ Datatypes.S k - 1)%nat).
  { induction k as [|k IH]; [cbn; lia|]. change (geo a (Datatypes.S k)) with (a ^ Datatypes.S k + geo a k)%nat. rewrite Nat.mul_add_distr_r, IH.
    pose proof (@pow_pos a (Datatypes.S k) Ha). change (a ^ Datatypes.S (Datatypes.S k))%nat with (a * a ^ Datatypes.S k)%nat. nia. }
  rewrite <- Hg. apply Nat.div_mul. lia.
Qed.

Section FF.
  Context {X : Type} (z : X) (add : X -> X -> X).
  Lemma feed_forward_nth t len (ff l : list X) : (0 < t)%nat -> length ff = length l -> (t * len <= length l)%nat ->
    exists l', feed_forward t add len ff l = Some l' /\ length l' = length l /\
      forall k, nth k l' z = if ((k mod t =? 0) && (k / t <? len))%nat then add (nth k l z) (nth k ff z) else nth k l z.
  Proof.
    intros Ht Ef Hl. unfold feed_forward.
    destruct (@fold_seq_ok (list X) (fun l0 i => obind (nth_error l0 (t * i)) (fun x => obind (nth_error ff (t * i)) (fun y => set_at l0 (t * i) (add x y))))
      (fun m l' => length l' = length l /\ forall k, nth k l' z = if ((k mod t =? 0) && (k / t <? m))%nat then add (nth k l z) (nth k ff z) else nth k l z) len 0 l) as (l' & E1 & E2 & E3).
    - intros m l0 Hm (L0 & N0). assert (Hi : (t * m < length l)%nat) by nia.
      rewrite (nth_error_nth' l0 z) by lia. cbn [obind]. rewrite (nth_error_nth' ff z) by lia. cbn [obind].
      destruct (@set_at_ok X z l0 (t * m) (add (nth (t * m) l0 z) (nth (t * m) ff z))) as (l1 & S1 & S2 & S3); [lia|].
      exists l1. split; [exact S1|]. split; [lia|]. intros k. rewrite S3.
      destruct (Nat.eqb_spec k (t * m)) as [->|Hk].
      + rewrite N0. rewrite (Nat.mul_comm t m), Nat.mod_mul, Nat.div_mul by lia. cbn [Nat.eqb andb]. rewrite Nat.ltb_irrefl. rewrite (proj2 (Nat.ltb_lt m (Datatypes.S m))) by lia. reflexivity.
      + rewrite N0. destruct (Nat.eqb_spec (k mod t) 0) as [Ek|Ek]; cbn [andb]; [|reflexivity].
        assert (Hq : (k / t <> m)%nat). { intros Eq. apply Hk. rewrite (Nat.div_mod_eq k t), Ek, Eq. lia. }
        destruct (Nat.ltb_spec (k / t) m), (Nat.ltb_spec (k / t) (Datatypes.S m)); try lia; reflexivity.
    - split; [reflexivity|]. intros k. rewrite (proj2 (Nat.ltb_ge (k / t) 0)) by lia. rewrite andb_false_r. reflexivity.
    - exists l'. auto.
  Qed.
End FF.

Section Step.
  Context {I A F : Type} {CR : CRing F} (mem : I -> Prop) (z : A) (add : A -> A -> A) (R : (I -> A) -> F -> Prop).
  Hypothesis Rx : rext mem R.
  Hypothesis Rz : R (fun _ => z) 0.
  Hypothesis Radd : forall a b x y, R a x -> R b y -> R (fun i => add (a i) (b i)) (x + y).
  Notation G := (gvec mem z 0 R).
  Definition getl (o : option (list A)) : list A := match o with Some l => l | None => [] end.
  Lemma G_len l xs i : G l xs -> mem i -> length (l i) = length xs.
  Proof. intros [E _] Hi. apply E. exact Hi. Qed.
  Lemma G_padded t a m l xs : (0 < a <= t)%nat -> length xs = (m * a)%nat -> G l xs -> G (fun i => padded z t a (l i)) (padded 0 t a xs).
  Proof.
    intros Ha E Gl. assert (El : forall i, mem i -> length (l i) = (m * a)%nat) by (intros i Hi; rewrite (G_len Gl Hi); exact E).
    split.
    - intros i Hi. rewrite (@padded_length A z t a (l i) m), (@padded_length F 0 t a xs m) by (lia || auto). reflexivity.
    - intros k Hk. rewrite (@padded_length F 0 t a xs m) in Hk by (lia || assumption). rewrite (@padded_nth F 0 t a) with (m := m) by (lia || assumption).
      destruct (Nat.ltb_spec (k mod t) a) as [Hm|Hm].
      + eapply Rx with (a := fun i => nth (a * (k / t) + k mod t) (l i) z).
        * intros i Hi. rewrite (@padded_nth A z t a) with (m := m) by (lia || auto). rewrite (proj2 (Nat.ltb_lt _ _) Hm). reflexivity.
        * apply Gl. rewrite E. assert (k / t < m)%nat by (apply Nat.div_lt_upper_bound; lia). nia.
      + eapply Rx with (a := fun _ => z); [|exact Rz].
        intros i Hi. rewrite (@padded_nth A z t a) with (m := m) by (lia || auto). rewrite (proj2 (Nat.ltb_ge _ _) Hm). reflexivity.
  Qed.
  Lemma G_compact t a m l xs : (2 <= a <= t)%nat -> (t * (a * m) <= length xs)%nat -> G l xs ->
    (forall i, mem i -> compact z t a m (l i) = Some (getl (compact z t a m (l i)))) /\
    forall xs', compact 0 t a m xs = Some xs' -> G (fun i => getl (compact z t a m (l i))) xs'.
  Proof.
    intros Ha E Gl.
    assert (Ei : forall i, mem i -> exists l', compact z t a m (l i) = Some l' /\ length l' = length (l i) /\ forall k, nth k l' z = if (k <? t * m)%nat then compacted z t a (l i) k else nth k (l i) z).
    { intros i Hi. apply compact_nth; [lia|lia|]. rewrite (G_len Gl Hi). exact E. }
    split; [intros i Hi; destruct (Ei i Hi) as (l' & -> & _); reflexivity|].
    intros xs' Ex. destruct (@compact_nth F 0 t a m xs ltac:(lia) ltac:(lia) E) as (xs0 & E0 & L0 & N0). rewrite Ex in E0. injection E0 as <-.
    split; [intros i Hi; destruct (Ei i Hi) as (l' & -> & L1 & _); cbn [getl]; rewrite L1, L0; apply (G_len Gl Hi)|].
    intros k Hk. rewrite N0. rewrite L0 in Hk.
    destruct (Nat.ltb_spec k (t * m)) as [Hm|Hm]; [unfold compacted; destruct (Nat.ltb_spec (k mod t) a) as [Hn|Hn]|].
    - eapply Rx with (a := fun i => nth (t * (a * (k / t) + k mod t)) (l i) z).
      + intros i Hi. destruct (Ei i Hi) as (l' & -> & _ & N1). cbn [getl]. rewrite N1, (proj2 (Nat.ltb_lt _ _) Hm). unfold compacted. rewrite (proj2 (Nat.ltb_lt _ _) Hn). reflexivity.
      + apply Gl. assert (k / t < m)%nat by (apply Nat.div_lt_upper_bound; lia).
        assert (a * (k / t) + k mod t < a * m)%nat by nia. nia.
    - eapply Rx with (a := fun _ => z); [|exact Rz].
      intros i Hi. destruct (Ei i Hi) as (l' & -> & _ & N1). cbn [getl]. rewrite N1, (proj2 (Nat.ltb_lt _ _) Hm). unfold compacted. rewrite (proj2 (Nat.ltb_ge _ _) Hn). reflexivity.
    - eapply Rx with (a := fun i => nth k (l i) z); [|apply Gl; exact Hk].
      intros i Hi. destruct (Ei i Hi) as (l' & -> & _ & N1). cbn [getl]. rewrite N1, (proj2 (Nat.ltb_ge _ _) Hm). reflexivity.
  Qed.
  Lemma G_ff t len ff l fs xs : (0 < t)%nat -> length fs = length xs -> (t * len <= length xs)%nat -> G ff fs -> G l xs ->
    (forall i, mem i -> feed_forward t add len (ff i) (l i) = Some (getl (feed_forward t add len (ff i) (l i)))) /\
    forall xs', feed_forward t gadd len fs xs = Some xs' -> G (fun i => getl (feed_forward t add len (ff i) (l i))) xs'.
  Proof.
    intros Ht El Hl Gf Gl.
    assert (Ei : forall i, mem i -> exists l', feed_forward t add len (ff i) (l i) = Some l' /\ length l' = length (l i) /\
      forall k, nth k l' z = if ((k mod t =? 0) && (k / t <? len))%nat then add (nth k (l i) z) (nth k (ff i) z) else nth k (l i) z).
    { intros i Hi. apply feed_forward_nth; [exact Ht|rewrite (G_len Gf Hi), (G_len Gl Hi); exact El|rewrite (G_len Gl Hi); exact Hl]. }
    split; [intros i Hi; destruct (Ei i Hi) as (l' & -> & _); reflexivity|].
    intros xs' Ex. destruct (@feed_forward_nth F 0 gadd t len fs xs Ht El Hl) as (xs0 & E0 & L0 & N0). rewrite Ex in E0. injection E0 as <-.
    split; [intros i Hi; destruct (Ei i Hi) as (l' & -> & L1 & _); cbn [getl]; rewrite L1, L0; apply (G_len Gl Hi)|].
    intros k Hk. rewrite N0. rewrite L0 in Hk.
    destruct ((k mod t =? 0) && (k / t <? len))%nat eqn:Eb.
    - eapply Rx with (a := fun i => add (nth k (l i) z) (nth k (ff i) z)).
      + intros i Hi. destruct (Ei i Hi) as (l' & -> & _ & N1). cbn [getl]. rewrite N1, Eb. reflexivity.
      + apply Radd; [apply Gl; exact Hk|apply Gf; rewrite El; exact Hk].
    - eapply Rx with (a := fun i => nth k (l i) z); [|apply Gl; exact Hk].
      intros i Hi. destruct (Ei i Hi) as (l' & -> & _ & N1). cbn [getl]. rewrite N1, Eb. reflexivity.
  Qed.

  (** *** One level *)
  Variables (t : nat) (d : N) (p : pparams F).
  Hypothesis W : wf_params t p.
  Notation P := (poseidon2 t d p).
  Definition after_ff (compress : bool) (len : nat) (ff l : list A) : option (list A) :=
    if compress then feed_forward t add len ff l else Some l.
  Definition level_done (compress : bool) (a k : nat) (lv : list F) (l3 : I -> list A) : Prop :=
    match k with
    | O => R (fun i => nth 0 (l3 i) z) (hash compress t P lv) /\ forall i, mem i -> (0 < length (l3 i))%nat
    | Datatypes.S _ => exists rest', G l3 (padded 0 t a (map (hash compress t P) (chunks a lv)) ++ rest')
    end.
  Lemma mpc_step compress a k lv rest l perm : (2 <= a <= t)%nat -> length lv = (a ^ Datatypes.S k)%nat ->
    G l (padded 0 t a lv ++ rest) -> G perm (each t P (padded 0 t a lv)) ->
    let l1 i := perm i ++ skipn (t * a ^ k) (l i) in
    let l2 i := getl (after_ff compress (a ^ k) (l i) (l1 i)) in
    let l3 i := getl (compact z t a (a ^ k / a) (l2 i)) in
    (forall i, mem i -> after_ff compress (a ^ k) (l i) (l1 i) = Some (l2 i)) /\
    (forall i, mem i -> compact z t a (a ^ k / a) (l2 i) = Some (l3 i)) /\ level_done compress a k lv l3.
  Proof.
    intros Ha E Gl Gp l1 l2 l3. pose proof (t_pos W) as Ht.
    assert (E' : length lv = (a ^ k * a)%nat) by (cbn [Nat.pow] in E; lia).
    assert (Lp : length (padded 0 t a lv) = (a ^ k * t)%nat) by (apply padded_length; lia).
    assert (Le : length (each t P (padded 0 t a lv)) = (a ^ k * t)%nat) by (apply each_length; [exact Ht|exact Lp|apply P_length; exact W]).
    set (Y := each t P (padded 0 t a lv) ++ rest).
    assert (LY : length Y = (a ^ k * t + length rest)%nat) by (unfold Y; rewrite app_length, Le; reflexivity).
    assert (G1 : G l1 Y).
    { unfold l1, Y. apply (gvec_app Rx); [exact Gp|]. replace rest with (skipn (t * a ^ k) (padded 0 t a lv ++ rest)) by (apply skipn_app_len; lia). apply (gvec_skipn Rx). exact Gl. }
    set (hs := map (hash compress t P) (chunks a lv)).
    assert (S2 : exists Y2, length Y2 = length Y /\ map (fun q => nth (t * q) Y2 0) (seq 0 (a ^ k)) = hs /\
      (forall i, mem i -> after_ff compress (a ^ k) (l i) (l1 i) = Some (l2 i)) /\ G l2 Y2).
    { destruct compress.
      - destruct (@feed_forward_nth F 0 gadd t (a ^ k) (padded 0 t a lv ++ rest) Y Ht) as (Y2 & F1 & F2 & F3); [rewrite LY, app_length, Lp; reflexivity|rewrite LY; lia|].
        destruct (@G_ff t (a ^ k) l l1 (padded 0 t a lv ++ rest) Y Ht) as [V1 V2]; [rewrite LY, app_length, Lp; reflexivity|rewrite LY; lia|exact Gl|exact G1|].
        exists Y2. split; [exact F2|]. split; [|split; [exact V1|apply V2; exact F1]].
        pose proof (@firsts_hash F CR t d p W false a ltac:(lia) (a ^ k) lv rest E') as FH. change (each t (B t d p false)) with (each t P) in FH. fold Y in FH.
        apply (list_ext 0).
        + unfold hs. rewrite !map_length, seq_length, (@chunks_length F a lv (a ^ k)) by (lia || exact E'). reflexivity.
        + rewrite map_length, seq_length. intros q Hq. rewrite (nth_map_lt _ (seq 0 (a ^ k)) O) by (rewrite seq_length; exact Hq). rewrite nth_seq0 by exact Hq.
          rewrite F3. rewrite (Nat.mul_comm t q), Nat.mod_mul, Nat.div_mul by lia. rewrite (proj2 (Nat.ltb_lt q (a ^ k)) Hq). cbn [Nat.eqb andb].
          assert (Eq : nth (q * t) Y 0 = hash false t P (nth q (chunks a lv) [])).
          { rewrite <- (@nth_map_hash F CR (hash false t P) a (a ^ k)) by (lia || assumption). rewrite <- FH.
            rewrite (nth_map_lt _ (seq 0 (a ^ k)) O) by (rewrite seq_length; exact Hq). rewrite nth_seq0 by exact Hq. rewrite Nat.mul_comm. reflexivity. }
          rewrite Eq. unfold hs. rewrite (@nth_map_hash F CR (hash true t P) a (a ^ k)) by (lia || assumption).
          unfold hash. f_equal. 
          assert (Lc : length (nth q (chunks a lv) []) = a).
          { apply (@chunks_each_length F a lv (a ^ k)); [lia|exact E'|]. apply nth_In. rewrite (@chunks_length F a lv (a ^ k)) by (lia || exact E'). exact Hq. }
          rewrite (app_nth1 (nth q (chunks a lv) [])) by lia. rewrite app_nth1 by (rewrite Lp; nia).
          rewrite (@padded_nth F 0 t a) with (m := (a ^ k)%nat) by (try exact E'; nia). rewrite Nat.mod_mul, Nat.div_mul by lia. rewrite (proj2 (Nat.ltb_lt 0 a)) by lia.
          rewrite (@nth_chunk F CR a (a ^ k)) by (lia || assumption). f_equal. lia.
      - exists Y. split; [reflexivity|]. split; [exact (@firsts_hash F CR t d p W false a ltac:(lia) (a ^ k) lv rest E')|]. split; [reflexivity|exact G1]. }
    destruct S2 as (Y2 & LY2 & Hh & F1 & G2). split; [exact F1|].
    destruct k as [|k'].
    - assert (E1 : (a ^ 0 / a = 0)%nat) by (apply Nat.div_small; cbn; lia).
      unfold l3. rewrite E1. split; [reflexivity|].
      change (R (fun i => nth 0 (l2 i) z) (hash compress t P lv) /\ forall i, mem i -> (0 < length (l2 i))%nat).
      assert (LY0 : (0 < length Y2)%nat) by (rewrite LY2, LY; cbn; lia).
      split; [|intros i Hi; rewrite (G_len G2 Hi); exact LY0].
      replace (hash compress t P lv) with (nth 0 Y2 0); [apply G2; exact LY0|].
      unfold hs in Hh. cbn [Nat.pow seq map] in Hh. rewrite (@chunks_S F a lv 0) in Hh by (cbn [Nat.pow] in E'; lia). rewrite firstn_all2 in Hh by (cbn [Nat.pow] in E'; lia).
      cbn [map] in Hh. rewrite Nat.mul_0_r in Hh. injection Hh as Hh _. exact Hh.
    - assert (Em : (a ^ Datatypes.S k' / a = a ^ k')%nat) by (cbn [Nat.pow]; rewrite Nat.mul_comm, Nat.div_mul by lia; reflexivity).
      unfold l3. rewrite Em.
      assert (Hl : (t * (a * a ^ k') <= length Y2)%nat) by (rewrite LY2, LY; cbn [Nat.pow]; lia).
      destruct (@G_compact t a (a ^ k') l2 Y2 Ha Hl G2) as [C1 C2]. split; [exact C1|].
      destruct (@compact_padded F 0 t a (a ^ k') Y2 ltac:(lia) ltac:(lia) Hl) as (Y3 & E3 & L3 & P3).
      exists (skipn (t * a ^ k') Y3). eapply (gvec_ext Rx); [intros i Hi; reflexivity|].
      replace (padded 0 t a (map (hash compress t P) (chunks a lv)) ++ skipn (t * a ^ k') Y3) with Y3; [apply C2; exact E3|].
      rewrite <- (firstn_skipn (t * a ^ k') Y3) at 1. f_equal. rewrite P3. f_equal. exact Hh.
  Qed.
  Lemma mpc_level (compress : bool) a k lv rest l perm : (2 <= a <= t)%nat -> length lv = (a ^ Datatypes.S k)%nat ->
    G l (padded 0 t a lv ++ rest) -> G perm (each t P (padded 0 t a lv)) ->
    exists l2 l3 : I -> list A,
    (forall i, mem i -> (if compress then feed_forward t add (a ^ k) (l i) (perm i ++ skipn (t * a ^ k) (l i)) else Some (perm i ++ skipn (t * a ^ k) (l i))) = Some (l2 i)) /\
    (forall i, mem i -> compact z t a (a ^ k / a) (l2 i) = Some (l3 i)) /\ level_done compress a k lv l3.
  Proof. intros Ha E Gl Gp. destruct (@mpc_step compress a k lv rest l perm Ha E Gl Gp) as (S1 & S2 & S3). eexists _, _. split; [exact S1|]. split; [exact S2|exact S3]. Qed.
  Lemma root_step (h : list F -> F) a k lv : (2 <= a)%nat -> length lv = (a ^ Datatypes.S k)%nat ->
    tree_root h a (Datatypes.S k) lv = match k with O => h lv | Datatypes.S _ => tree_root h a k (map h (chunks a lv)) end.
  Proof.
    intros Ha E. rewrite tree_root_level by (lia || exact E). destruct k; [|reflexivity]. cbn [Nat.pow] in E.
    rewrite (@chunks_S F a lv 0) by lia. rewrite firstn_all2 by lia. reflexivity.
  Qed.
End Step.

(** ** Replicated shares *)
Section Rep3Merkle.
  Context {F : Type} `{CRing F} {S M : Type} {DF : Draw S F} {EF : Enc M (list F)} (cap : nat) (cap_pos : (1 <= cap)%nat).
  Variables (t : nat) (p : pparams F).
  Hypothesis W : wf_params t p.
  Notation T3 := (fun _ : pid => True).
  Notation SH := (gvec T3 (zero_share : share F) (0 : F) (@shares F _)).
  Notation PCS := (pc_ok T3 (zero_share : share F) (@shares F _)).
  Notation P := (poseidon2 t 5 p).
  Lemma zero_shares : shares (fun _ : pid => zero_share : share F) 0.
  Proof. split; [split; reflexivity|]. unfold additive. cbn. grp. Qed.
  Lemma rep3_tree_loop_wp compress a k pc rs : (2 <= a <= t)%nat -> PCS pc rs -> forall fuel off l lv rest, length lv = (a ^ Datatypes.S k)%nat -> (k < fuel)%nat ->
    SH l (padded 0 t a lv ++ rest) -> (off + num_sbox p t * geo a k)%nat = length rs ->
    wp cap (fun i => rep3_tree_loop (M := M) t 5 p fuel compress i (pc i) a (a ^ Datatypes.S k) off (l i))
      (fun r => shares r (tree_root (hash compress t P) a (Datatypes.S k) lv)).
  Proof.
    intros Ha PC. pose proof (t_pos W) as Ht. induction k as [|k IH]; intros fuel off l lv rest E Hf Gl Ho; (destruct fuel as [|fuel]; [lia|]);
      match type of E with _ = (a ^ Datatypes.S ?j)%nat => 
      assert (E' : length lv = (a ^ j * a)%nat) by (rewrite E; cbn [Nat.pow]; lia);
      assert (Hk : (0 < a ^ j)%nat) by (apply pow_pos; lia);
      assert (Lp : length (padded 0 t a lv) = (a ^ j * t)%nat) by (apply padded_length; lia);
      set (N := (a ^ j)%nat) in *;
      assert (EN : (a ^ Datatypes.S j = N * a)%nat) by (unfold N; cbn [Nat.pow]; lia);
      assert (Gf : SH (fun i => firstn (t * N) (l i)) (padded 0 t a lv)) by
        (replace (padded 0 t a lv) with (firstn (t * N) (padded 0 t a lv ++ rest)) by (apply firstn_app_len; lia); apply (gvec_firstn sh_rext); exact Gl)
      end.
    - eapply wp_ext with (qs := fun i => r <- rep3_permutation_packed t 5 p i (pc i) off (firstn (t * N) (l i)) ;; _).
      { intros i. cbn [rep3_tree_loop]. rewrite EN. rewrite (proj2 (Nat.leb_gt (N * a) 1)) by nia. rewrite Nat.mod_mul, Nat.div_mul by lia. cbn [Nat.eqb negb].
        rewrite (@G_len _ _ _ _ _ _ _ _ _ i Gl Logic.I), app_length, Lp. rewrite (proj2 (Nat.ltb_ge _ _)) by nia. reflexivity. }
      apply wp_bind. cbn [geo] in Ho.
      eapply wp_mono; [|apply (rep3_permutation_packed_wp cap_pos W PC N off (xs := padded 0 t a lv)); [exact Gf|exact Lp|unfold N; cbn [Nat.pow]; lia]].
      intros r [Gr Hr]. cbv beta.
      destruct (@mpc_level pid (share F) F _ T3 zero_share shadd (@shares F _) sh_rext zero_shares (fun a b x y => @shadd_ok F _ a b x y) t 5 p W compress a 0 lv rest l (fun i => fst (r i)) Ha E Gl Gr) as (l2 & l3 & S1 & S2 & S3 & S4).
      cbn beta zeta in S1, S2, S3, S4. fold N in S1, S2, S3, S4.
      eapply wp_ext; [|apply wp_ret; rewrite (@root_step F _ (hash compress t P) a 0 lv) by (lia || exact E); exact S3].
      intros i. cbv zeta. specialize (S1 i Logic.I). rewrite S1. cbn [orp bind]. rewrite (S2 i Logic.I). cbn [orp bind].
      rewrite Hr. assert (Eo : (off + num_sbox p t * N =? length (pc_r (pc i)))%nat = true).
      { apply Nat.eqb_eq. destruct PC as [PC1 _]. rewrite (@G_len _ _ _ _ _ _ _ _ _ i PC1 Logic.I). unfold N. cbn [Nat.pow]. lia. }
      unfold N at 1. destruct fuel; cbn [rep3_tree_loop Nat.pow Nat.leb]; rewrite Eo; cbn [negb]; rewrite (nth_error_nth' _ zero_share) by (apply S4; exact Logic.I); reflexivity.
    - eapply wp_ext with (qs := fun i => r <- rep3_permutation_packed t 5 p i (pc i) off (firstn (t * N) (l i)) ;; _).
      { intros i. cbn [rep3_tree_loop]. rewrite EN. rewrite (proj2 (Nat.leb_gt (N * a) 1)) by nia. rewrite Nat.mod_mul, Nat.div_mul by lia. cbn [Nat.eqb negb].
        rewrite (@G_len _ _ _ _ _ _ _ _ _ i Gl Logic.I), app_length, Lp. rewrite (proj2 (Nat.ltb_ge _ _)) by nia. reflexivity. }
      apply wp_bind. change (geo a (Datatypes.S k)) with (N + geo a k)%nat in Ho.
      eapply wp_mono; [|apply (rep3_permutation_packed_wp cap_pos W PC N off (xs := padded 0 t a lv)); [exact Gf|exact Lp|nia]].
      intros r [Gr Hr]. cbv beta.
      destruct (@mpc_level pid (share F) F _ T3 zero_share shadd (@shares F _) sh_rext zero_shares (fun a b x y => @shadd_ok F _ a b x y) t 5 p W compress a (Datatypes.S k) lv rest l (fun i => fst (r i)) Ha E Gl Gr) as (l2 & l3 & S1 & S2 & rest' & S3).
      cbn beta zeta in S1, S2, S3. fold N in S1, S2, S3.
      eapply wp_ext; [|rewrite (@root_step F _ (hash compress t P) a (Datatypes.S k) lv) by (lia || exact E); apply (IH fuel (off + num_sbox p t * N)%nat l3 (map (hash compress t P) (chunks a lv)) rest'); [apply map_hash_length; [lia|exact E]|lia|exact S3|nia]].
      intros i. cbv beta zeta. specialize (S1 i Logic.I). rewrite S1. cbn [orp bind]. rewrite (S2 i Logic.I). cbn [orp bind]. rewrite Hr. reflexivity.
  Qed.
  Definition merkle_rep3 (compress : bool) := if compress then merkle_tree_compression_rep3 (S := S) (M := M) t 5 p else merkle_tree_sponge_rep3 (S := S) (M := M) t 5 p.
  Theorem merkle_rep3_wp compress a k l xs (st : pid -> rst S) : (2 <= a)%nat -> fits t compress a -> synced st -> shares_vec l xs -> length xs = (a ^ Datatypes.S k)%nat ->
    wp cap (fun i => merkle_rep3 compress a i (l i) (st i))
      (fun r => shares (fun i => fst (r i)) (tree_root (hash compress t P) a (Datatypes.S k) xs) /\ synced (fun i => snd (r i))).
  Proof.
    intros Ha Hf Hs Hl E. apply (sh_in cap_pos) in Hl. assert (Hat : (2 <= a <= t)%nat) by (unfold fits in Hf; destruct compress; lia).
    assert (Gp : SH (fun i => padded zero_share t a (l i)) (padded 0 t a xs ++ [])).
    { rewrite app_nil_r. apply (@G_padded pid (share F) F _ T3 zero_share (@shares F _) sh_rext zero_shares t a (a ^ k)); [lia|rewrite E; cbn [Nat.pow]; lia|exact Hl]. }
    eapply wp_ext with (qs := fun i => pc <- precompute_rep3 t 5 p i (geo a k) (st i) ;;
      r <- rep3_tree_loop t 5 p (a ^ Datatypes.S k) compress i (fst pc) a (a ^ Datatypes.S k) 0 (padded zero_share t a (l i)) ;; Ret (r, snd pc)).
    { intros i. unfold merkle_rep3, fits in *. rewrite <- (geo_eq k Ha). pose proof (@G_len _ _ _ _ _ _ _ _ _ i Hl Logic.I) as Li. rewrite E in Li. destruct compress.
      - unfold merkle_tree_compression_rep3. rewrite Li, is_power_pow by lia. rewrite (proj2 (Nat.ltb_ge t a)) by lia. cbn [orb negb].
        unfold padded_compression. destruct (Nat.eqb_spec t a) as [Et|]; [|reflexivity]. subst t.
        rewrite (@padded_id (share F) zero_share a (l i) (a ^ k)); [reflexivity|lia|]. rewrite Li. cbn [Nat.pow]. lia.
      - unfold merkle_tree_sponge_rep3. rewrite Li, is_power_pow by lia. rewrite (proj2 (Nat.leb_gt t a)) by lia. reflexivity. }
    apply wp_bind. eapply wp_mono; [|apply (precompute_rep3_wp cap_pos t p (geo a k) Hs)]. intros pc [PC Hs']. cbv beta. apply wp_bind.
    eapply wp_mono; [|apply (@rep3_tree_loop_wp compress a k (fun i => fst (pc i)) _ Hat PC (a ^ Datatypes.S k) 0 _ xs [] E); [apply pow_S_gt; lia|exact Gp|rewrite (pc_rs_length cap_pos); lia]].
    intros r Hr. apply wp_ret. cbn [fst snd]. split; assumption.
  Qed.
End Rep3Merkle.

(** ** Shamir shares *)
Section ShamirMerkle.
  Context {M : Type} {F : Type} {FF : Fld F} {Sg : Type} {DF : Draw Sg F} {EF1 : Enc M F} {EF : Enc M (list F)}.
  Notation sst := (sst (F := F) (Sg := Sg)).
  Variables (n th cap : nat).
  Hypothesis n2 : (2 <= n)%nat.
  Hypothesis nt : (2 * th + 1 <= n)%nat.
  Hypothesis hcap : cap_ok n th cap.
  Hypothesis inj : forall a b, (a <= n)%nat -> (b <= n)%nat -> fnat a = (fnat b : F) -> a = b.
  Variables (t : nat) (p : pparams F).
  Hypothesis W : wf_params t p.
  Notation mem := (fun i : nat => (i < n)%nat).
  Notation R := (sharing n th).
  Notation SH := (gvec mem (0 : F) (0 : F) (sharing n th)).
  Notation PCH := (pc_ok mem (0 : F) (sharing n th)).
  Notation synced st := (sm_synced n th st).
  Notation P := (poseidon2 t 5 p).
  Let step := @mpc_level nat F F _ mem 0 gadd (sharing n th) (@s_rext F _ n th) (@s_zero F _ n th) (@s_add F _ n th).
  Lemma shamir_tree_loop_wp compress a k (st : nat -> sst) pc rs : (2 <= a <= t)%nat -> synced st -> PCH pc rs -> forall fuel off l lv rest, length lv = (a ^ Datatypes.S k)%nat -> (k < fuel)%nat ->
    SH l (padded 0 t a lv ++ rest) -> (off + num_sbox p t * geo a k)%nat = length rs ->
    wpn n cap (fun i => shamir_tree_loop (M := M) t 5 p fuel compress (pc i) (st i) a (a ^ Datatypes.S k) off (l i))
      (fun r => R r (tree_root (hash compress t P) a (Datatypes.S k) lv)).
  Proof.
    intros Ha Hst PC. pose proof (t_pos W) as Ht. induction k as [|k IH]; intros fuel off l lv rest E Hf Gl Ho; (destruct fuel as [|fuel]; [lia|]);
      match type of E with _ = (a ^ Datatypes.S ?j)%nat => 
      assert (E' : length lv = (a ^ j * a)%nat) by (rewrite E; cbn [Nat.pow]; lia);
      assert (Hk : (0 < a ^ j)%nat) by (apply pow_pos; lia);
      assert (Lp : length (padded 0 t a lv) = (a ^ j * t)%nat) by (apply padded_length; lia);
      set (N := (a ^ j)%nat) in *;
      assert (EN : (a ^ Datatypes.S j = N * a)%nat) by (unfold N; cbn [Nat.pow]; lia);
      assert (Gf : SH (fun i => firstn (t * N) (l i)) (padded 0 t a lv)) by
        (replace (padded 0 t a lv) with (firstn (t * N) (padded 0 t a lv ++ rest)) by (apply firstn_app_len; lia); apply (gvec_firstn (@s_rext F _ n th)); exact Gl)
      end.
    - eapply wpn_ext with (qs := fun i => r <- shamir_permutation_packed t 5 p (pc i) (st i) off (firstn (t * N) (l i)) ;; _).
      { intros i Hi. cbn [shamir_tree_loop]. rewrite EN. rewrite (proj2 (Nat.leb_gt (N * a) 1)) by nia. rewrite Nat.mod_mul, Nat.div_mul by lia. cbn [Nat.eqb negb].
        rewrite (@G_len _ _ _ _ _ _ _ _ _ i Gl Hi), app_length, Lp. rewrite (proj2 (Nat.ltb_ge _ _)) by nia. reflexivity. }
      apply wpn_bind. cbn [geo] in Ho.
      eapply wpn_mono; [|apply (shamir_permutation_packed_wp n2 nt hcap inj W Hst PC N off (xs := padded 0 t a lv)); [exact Gf|exact Lp|unfold N; cbn [Nat.pow]; lia]].
      intros r [Gr Hr]. cbv beta.
      destruct (step 5%N W compress 0%nat lv rest Ha E Gl Gr) as (l2 & l3 & S1 & S2 & S3 & S4).
      cbn beta zeta in S1, S2, S3, S4. fold N in S1, S2, S3, S4.
      eapply wpn_ret_ext; [|rewrite (@root_step F _ (hash compress t P) a 0 lv) by (lia || exact E); exact S3].
      intros i Hi. cbv zeta. specialize (S1 i Hi). rewrite S1. cbn [orp bind]. rewrite (S2 i Hi). cbn [orp bind].
      rewrite Hr by exact Hi. assert (Eo : (off + num_sbox p t * N =? length (pc_r (pc i)))%nat = true).
      { apply Nat.eqb_eq. destruct PC as [PC1 _]. rewrite (@G_len _ _ _ _ _ _ _ _ _ i PC1 Hi). unfold N. cbn [Nat.pow]. lia. }
      unfold N at 1. destruct fuel; cbn [shamir_tree_loop Nat.pow Nat.leb]; rewrite Eo; cbn [negb]; rewrite (nth_error_nth' _ 0) by (apply S4; exact Hi); reflexivity.
    - eapply wpn_ext with (qs := fun i => r <- shamir_permutation_packed t 5 p (pc i) (st i) off (firstn (t * N) (l i)) ;; _).
      { intros i Hi. cbn [shamir_tree_loop]. rewrite EN. rewrite (proj2 (Nat.leb_gt (N * a) 1)) by nia. rewrite Nat.mod_mul, Nat.div_mul by lia. cbn [Nat.eqb negb].
        rewrite (@G_len _ _ _ _ _ _ _ _ _ i Gl Hi), app_length, Lp. rewrite (proj2 (Nat.ltb_ge _ _)) by nia. reflexivity. }
      apply wpn_bind. change (geo a (Datatypes.S k)) with (N + geo a k)%nat in Ho.
      eapply wpn_mono; [|apply (shamir_permutation_packed_wp n2 nt hcap inj W Hst PC N off (xs := padded 0 t a lv)); [exact Gf|exact Lp|nia]].
      intros r [Gr Hr]. cbv beta.
      destruct (step 5%N W compress (Datatypes.S k) lv rest Ha E Gl Gr) as (l2 & l3 & S1 & S2 & rest' & S3).
      cbn beta zeta in S1, S2, S3. fold N in S1, S2, S3.
      eapply wpn_ext; [|rewrite (@root_step F _ (hash compress t P) a (Datatypes.S k) lv) by (lia || exact E); apply (IH fuel (off + num_sbox p t * N)%nat l3 (map (hash compress t P) (chunks a lv)) rest'); [apply map_hash_length; [lia|exact E]|lia|exact S3|nia]].
      intros i Hi. cbv beta zeta. specialize (S1 i Hi). rewrite S1. cbn [orp bind]. rewrite (S2 i Hi). cbn [orp bind]. rewrite Hr by exact Hi. reflexivity.
  Qed.
  Definition merkle_shamir (compress : bool) := if compress then merkle_tree_compression_shamir (Sg := Sg) (M := M) t 5 p else merkle_tree_sponge_shamir (Sg := Sg) (M := M) t 5 p.
  Theorem merkle_shamir_wp compress a k l xs (st : nat -> sst) : (2 <= a)%nat -> fits t compress a -> synced st -> SH l xs -> length xs = (a ^ Datatypes.S k)%nat ->
    wpn n cap (fun i => merkle_shamir compress a (l i) (st i))
      (fun r => R (fun i => fst (r i)) (tree_root (hash compress t P) a (Datatypes.S k) xs) /\ synced (fun i => snd (r i))).
  Proof.
    intros Ha Hf Hs Hl E. assert (Hat : (2 <= a <= t)%nat) by (unfold fits in Hf; destruct compress; lia).
    assert (Gp : SH (fun i => padded 0 t a (l i)) (padded 0 t a xs ++ [])).
    { rewrite app_nil_r. apply (@G_padded nat F F _ mem 0 (sharing n th) (@s_rext F _ n th) (@s_zero F _ n th) t a (a ^ k)); [lia|rewrite E; cbn [Nat.pow]; lia|exact Hl]. }
    eapply wpn_ext with (qs := fun i => st' <- sm_buffer_triples (rand_required t p (geo a k) true) (st i) ;; pc <- precompute_shamir t 5 p (geo a k) st' ;;
      r <- shamir_tree_loop t 5 p (a ^ Datatypes.S k) compress (fst pc) (snd pc) a (a ^ Datatypes.S k) 0 (padded 0 t a (l i)) ;; Ret (r, snd pc)).
    { intros i Hi. unfold merkle_shamir, fits in *. rewrite <- (geo_eq k Ha). pose proof (@G_len _ _ _ _ _ _ _ _ _ i Hl Hi) as Li. rewrite E in Li. destruct compress.
      - unfold merkle_tree_compression_shamir. rewrite Li, is_power_pow by lia. rewrite (proj2 (Nat.ltb_ge t a)) by lia. cbn [orb negb].
        unfold padded_compression. destruct (Nat.eqb_spec t a) as [Et|]; [|reflexivity]. subst t.
        rewrite (@padded_id F 0 a (l i) (a ^ k)); [reflexivity|lia|]. rewrite Li. cbn [Nat.pow]. lia.
      - unfold merkle_tree_sponge_shamir. rewrite Li, is_power_pow by lia. rewrite (proj2 (Nat.leb_gt t a)) by lia. reflexivity. }
    destruct Hs as (gen & L & Hw).
    apply wpn_bind. eapply wpn_mono; [|eapply sm_buffer_triples_wp with (num := rand_required t p (geo a k) true); try eassumption; try (apply (pos_c1 hcap))].
    intros st' (L' & _ & _ & Hw'). cbv beta. assert (Hs : synced st') by (exists gen, (L ++ L'); exact Hw').
    apply wpn_bind. eapply wpn_mono; [|apply (precompute_shamir_wp n2 nt hcap inj t p (geo a k) Hs)]. intros pc (rs & Er & PC & Hs'). cbv beta. apply wpn_bind.
    eapply wpn_mono; [|apply (@shamir_tree_loop_wp compress a k (fun i => snd (pc i)) (fun i => fst (pc i)) _ Hat Hs' PC (a ^ Datatypes.S k) 0 _ xs [] E); [apply pow_S_gt; lia|exact Gp|rewrite Er; lia]].
    intros r Hr. apply wpn_ret. cbn [fst snd]. split; assumption.
  Qed.
End ShamirMerkle.
