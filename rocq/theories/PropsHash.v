(** * Properties of Poseidon2 and of the Merkle trees (C25, C26) *)
From Coq Require Import String List Arith NArith ZArith Lia Bool.
From Verif Require Import Proc Alg Zp Rep3Net NNet Rep3 Rep3Spec Rep3Proofs Rep3Wp ShamirPoly Shamir ShamirAlg ShamirSpec ShamirRng ShamirDeal ShamirWp ShamirRed ShamirOps
  Poseidon2 Poseidon2Spec Poseidon2Mat Poseidon2Lin Poseidon2Wp Poseidon2Sh Merkle MerkleSpec MerkleMem MerkleTree MerkleWp Concrete ConcreteS PropsShamir.
Import ListNotations.
Set Implicit Arguments.
Local Open Scope grp_scope.

Section Plain.
  Context {F : Type} `{CRing F}.
  (** ** C25, plain: the optimised linear layers and S-boxes compute the permutation of the specification *)
  Theorem C25_plain t d p (l : list F) : wf_params t p -> length l = t ->
    permutation t d p l = Some (poseidon2 t d p l) /\ length (poseidon2 t d p l) = t.
  Proof. exact (@permutation_spec F _ t d p l). Qed.
  (** what [Poseidon2Params::new] accepts is well-formed (array sizes come from the types; the diagonals for 2 and 3 are debug assertions) *)
  Theorem C25_params_new t d rounds_f rounds_p diag rce rci (p : pparams F) :
    params_new t d rounds_f rounds_p diag rce rci = Some p -> (0 < t)%nat ->
    length diag = t -> Forall (fun rc => length rc = t) rce ->
    (t = 2%nat -> diag = [rone; rone + rone]) -> (t = 3%nat -> diag = [rone; rone; rone + rone]) ->
    wf_params t p /\ N.odd d = true.
  Proof. exact (@params_new_wf F _ t d rounds_f rounds_p diag rce rci p). Qed.

  (** ** C26, plain *)
  Context (t : nat) (d : N) (p : pparams F) (W : wf_params t p) {FE : F -> F -> bool} (FE_spec : forall x y, FE x y = true <-> x = y).
  Notation hs := (hash false t (poseidon2 t d p)).
  Notation hc := (hash true t (poseidon2 t d p)).
  Notation h_ c := (hash c t (poseidon2 t d p)).
  Theorem C26_root_sponge a k l : (2 <= a < t)%nat -> length l = (a ^ Datatypes.S k)%nat ->
    merkle_tree_sponge t d p a l = Some (tree_root hs a (Datatypes.S k) l).
  Proof. exact (sponge_root d W k l). Qed.
  Theorem C26_root_compression a k l : (2 <= a <= t)%nat -> length l = (a ^ Datatypes.S k)%nat ->
    merkle_tree_compression t d p a l = Some (tree_root hc a (Datatypes.S k) l).
  Proof. exact (compression_root d W k l). Qed.
  (** other numbers of leaves are rejected *)
  Lemma other_lengths a l : (2 <= a)%nat -> (forall k, length l <> (a ^ k)%nat) -> merkle_tree_sponge t d p a l = None /\ merkle_tree_compression t d p a l = None.
  Proof.
    intros Ha Hl. assert (E : is_power a (length l) = false).
    { destruct (is_power a (length l)) eqn:E; [|reflexivity]. unfold is_power in E. destruct (ilog a (length l)) as [k|]; [|discriminate]. apply Nat.eqb_eq in E. destruct (Hl k E). }
    unfold merkle_tree_sponge, merkle_tree_compression. rewrite E. cbn [negb]. rewrite !orb_true_r. auto.
  Qed.
  Theorem C26_other_lengths_panic a l : (2 <= a)%nat -> (forall k, length l <> (a ^ k)%nat) -> merkle_tree_sponge t d p a l = None /\ merkle_tree_compression t d p a l = None.
  Proof. exact (@other_lengths a l). Qed.
  (** the witness of every index: root, depth, arity, position and acceptance *)
  Theorem C26_witness_sponge a k l i : (2 <= a < t)%nat -> length l = (a ^ Datatypes.S k)%nat -> (i < length l)%nat ->
    exists ws, merkle_tree_sponge_with_witness t d p a l i = Some (tree_root hs a (Datatypes.S k) l, ws) /\
      length ws = Datatypes.S k /\ path_wf a ws /\ path_index a ws = i /\
      verify_merkle_path_sponge (FE := FE) t d p (tree_root hs a (Datatypes.S k) l) (nth i l 0) ws = Some true.
  Proof. exact (fun Ha => witness_verifies d W FE_spec false k l (proj1 Ha) (proj2 Ha)). Qed.
  Theorem C26_witness_compression a k l i : (2 <= a <= t)%nat -> length l = (a ^ Datatypes.S k)%nat -> (i < length l)%nat ->
    exists ws, merkle_tree_compression_with_witness t d p a l i = Some (tree_root hc a (Datatypes.S k) l, ws) /\
      length ws = Datatypes.S k /\ path_wf a ws /\ path_index a ws = i /\
      verify_merkle_path_compression (FE := FE) t d p (tree_root hc a (Datatypes.S k) l) (nth i l 0) ws = Some true.
  Proof. exact (fun Ha => witness_verifies d W FE_spec true k l (proj1 Ha) (proj2 Ha)). Qed.
  (** acceptance, exactly *)
  Theorem C26_verify_sponge root leaf ws : verify_merkle_path_sponge (FE := FE) t d p root leaf ws = Some true <->
    exists w0 ws', ws = w0 :: ws' /\ let arity := (length (other w0) + 1)%nat in (arity < t)%nat /\ path_wf arity ws /\ path_root hs leaf ws = root.
  Proof. exact (verify_iff d W FE_spec false root leaf ws). Qed.
  Theorem C26_verify_compression root leaf ws : verify_merkle_path_compression (FE := FE) t d p root leaf ws = Some true <->
    exists w0 ws', ws = w0 :: ws' /\ let arity := (length (other w0) + 1)%nat in (arity <= t)%nat /\ path_wf arity ws /\ path_root hc leaf ws = root.
  Proof. exact (verify_iff d W FE_spec true root leaf ws). Qed.
  (** an accepted path of the depth and arity of the tree starts at the leaf of its index, or there is a collision of the hash *)
  Theorem C26_sound_sponge a k l leaf ws : (2 <= a)%nat -> length l = (a ^ Datatypes.S k)%nat -> length ws = Datatypes.S k -> Forall (fun w => length (other w) = a - 1)%nat ws ->
    verify_merkle_path_sponge (FE := FE) t d p (tree_root hs a (Datatypes.S k) l) leaf ws = Some true ->
    leaf = nth (path_index a ws) l 0 \/ exists c c', c <> c' /\ length c = a /\ length c' = a /\ hs c = hs c'.
  Proof. exact (@verify_sound F _ t d p W FE FE_spec false a k l leaf ws). Qed.
  Theorem C26_sound_compression a k l leaf ws : (2 <= a)%nat -> length l = (a ^ Datatypes.S k)%nat -> length ws = Datatypes.S k -> Forall (fun w => length (other w) = a - 1)%nat ws ->
    verify_merkle_path_compression (FE := FE) t d p (tree_root hc a (Datatypes.S k) l) leaf ws = Some true ->
    leaf = nth (path_index a ws) l 0 \/ exists c c', c <> c' /\ length c = a /\ length c' = a /\ hc c = hc c'.
  Proof. exact (@verify_sound F _ t d p W FE FE_spec true a k l leaf ws). Qed.
  (** depth and arity are taken from the witness (finding): inner nodes are accepted as leaves *)
  Theorem C26_inner_node_accepted a k l i : (2 <= a < t)%nat -> length l = (a ^ Datatypes.S (Datatypes.S k))%nat -> (i < a ^ Datatypes.S k)%nat ->
    exists ws, length ws = Datatypes.S k /\
      verify_merkle_path_sponge (FE := FE) t d p (tree_root hs a (Datatypes.S (Datatypes.S k)) l) (hs (firstn a (skipn (i * a) l))) ws = Some true.
  Proof. exact (fun Ha => inner_node_verifies d W FE_spec false k l (proj1 Ha) (proj2 Ha)). Qed.
  (** and the zero that pads the state is accepted as a leaf of a tree of a smaller arity *)
  Theorem C26_padding_accepted a l : (2 <= a)%nat -> (a + 1 < t)%nat -> length l = a ->
    verify_merkle_path_sponge (FE := FE) t d p (tree_root hs a 1 l) 0 [mkWit l a] = Some true.
  Proof. exact (@padding_verifies F _ t d p W FE FE_spec false a l). Qed.
  Theorem C26_padding_accepted_compression a l : (2 <= a)%nat -> (a + 1 <= t)%nat -> length l = a ->
    verify_merkle_path_compression (FE := FE) t d p (tree_root hc a 1 l) 0 [mkWit l a] = Some true.
  Proof. exact (@padding_verifies F _ t d p W FE FE_spec true a l). Qed.
  (** one leaf: the sponge always panics, the compression unless the arity fills the state; an empty path panics *)
  Theorem C26_one_leaf_sponge_panics a x : (2 <= a < t)%nat -> merkle_tree_sponge t d p a [x] = None.
  Proof. exact (sponge_single_panics d p x). Qed.
  Theorem C26_one_leaf_compression a x : (2 <= a <= t)%nat -> merkle_tree_compression t d p a [x] = if (t =? a)%nat then Some x else None.
  Proof. exact (compression_single d p x). Qed.
  Theorem C26_empty_path_panics root leaf : verify_merkle_path_sponge (FE := FE) t d p root leaf [] = None /\ verify_merkle_path_compression (FE := FE) t d p root leaf [] = None.
  Proof. exact (conj (verify_empty_panics (FE := FE) t d p false root leaf) (verify_empty_panics (FE := FE) t d p true root leaf)). Qed.
End Plain.

(** ** Replicated shares *)
Definition is_panic {A} (o : outcome A) : Prop := exists m, o = Failed (Panic m).
Section Rep3.
  Context {F : Type} `{CRing F} {S M : Type} {DF : Draw S F} {EF : Enc M (list F)} (cap : nat) (cap_pos : (1 <= cap)%nat).
  Context (t : nat) (p : pparams F) (W : wf_params t p).
  Implicit Types (st : pid -> rst S) (l : pid -> list (share F)) (xs : list F).
  Notation PCS := (pc_ok (fun _ : pid => True) (zero_share : share F) (@shares F _)).
  Notation PCA := (pc_ok (fun _ : pid => True) (0 : F) (@additive F _)).
  Lemma online st l xs : synced st -> shares_vec l xs -> length xs = t -> (0 < rounds_f_beginning p)%nat ->
    wp cap (fun i => rep3_permutation (M := M) t 5 p i (st i) (l i)) (fun r => shares_vec (fun i => fst (r i)) (poseidon2 t 5 p xs) /\ synced (fun i => snd (r i))).
  Proof.
    intros Hs Hl E Hr. eapply wp_mono; [|apply (rep3_permutation_wp cap_pos W Hs (sh_in cap_pos Hl) E Hr)].
    intros r [H1 H2]. split; [exact (sh_out H1)|exact H2].
  Qed.
  Theorem C25_rep3 st l xs : synced st -> shares_vec l xs -> length xs = t -> (0 < rounds_f_beginning p)%nat ->
    all_ok cap (fun i => rep3_permutation (M := M) t 5 p i (st i) (l i)) (fun r => shares_vec (fun i => fst (r i)) (poseidon2 t 5 p xs) /\ synced (fun i => snd (r i))).
  Proof. exact (fun Hs Hl E Hr => wp_all_ok (online Hs Hl E Hr)). Qed.
  (** preprocessing: shares of random elements and their powers, as many as [num] permutations consume *)
  Lemma pre st num : synced st ->
    wp cap (fun i => precompute_rep3 (M := M) t 5 p i num (st i)) (fun r => exists rs, length rs = (num_sbox p t * num)%nat /\ PCS (fun i => fst (r i)) rs /\ synced (fun i => snd (r i))).
  Proof.
    intros Hs. eapply wp_mono; [|apply (precompute_rep3_wp cap_pos t p num Hs)]. intros r [H1 H2]. eexists. split; [apply (pc_rs_length cap_pos)|]. split; eassumption.
  Qed.
  Theorem C25_precompute_rep3 st num : synced st ->
    all_ok cap (fun i => precompute_rep3 (M := M) t 5 p i num (st i)) (fun r => exists rs, length rs = (num_sbox p t * num)%nat /\ PCS (fun i => fst (r i)) rs /\ synced (fun i => snd (r i))).
  Proof. exact (fun Hs => wp_all_ok (pre num Hs)). Qed.
  Lemma pre_a st num : synced st ->
    wp cap (fun i => precompute_rep3_additive (M := M) t 5 p i num (st i)) (fun r => exists rs, length rs = (num_sbox p t * num)%nat /\ PCA (fun i => fst (r i)) rs /\ synced (fun i => snd (r i))).
  Proof.
    intros Hs. eapply wp_mono; [|apply (precompute_rep3_additive_wp cap_pos t p num Hs)]. intros r [H1 H2]. eexists. split; [apply (pc_rs_length cap_pos)|]. split; eassumption.
  Qed.
  Theorem C25_precompute_rep3_additive st num : synced st ->
    all_ok cap (fun i => precompute_rep3_additive (M := M) t 5 p i num (st i)) (fun r => exists rs, length rs = (num_sbox p t * num)%nat /\ PCA (fun i => fst (r i)) rs /\ synced (fun i => snd (r i))).
  Proof. exact (fun Hs => wp_all_ok (pre_a num Hs)). Qed.
  (** with preprocessing, from any offset; the offset advances by what one permutation consumes *)
  Lemma precomp pc rs off l xs : PCS pc rs -> shares_vec l xs -> length xs = t -> (off + num_sbox p t <= length rs)%nat ->
    wp cap (fun i => rep3_permutation_precomp (M := M) t 5 p i (pc i) off (l i)) (fun r => shares_vec (fun i => fst (r i)) (poseidon2 t 5 p xs) /\ forall i, snd (r i) = (off + num_sbox p t)%nat).
  Proof.
    intros PC Hl E Ho. eapply wp_mono; [|apply (rep3_permutation_precomp_wp cap_pos W PC off (sh_in cap_pos Hl) E Ho)].
    intros r [H1 H2]. split; [exact (sh_out H1)|exact H2].
  Qed.
  Theorem C25_rep3_precomp pc rs off l xs : PCS pc rs -> shares_vec l xs -> length xs = t -> (off + num_sbox p t <= length rs)%nat ->
    all_ok cap (fun i => rep3_permutation_precomp (M := M) t 5 p i (pc i) off (l i)) (fun r => shares_vec (fun i => fst (r i)) (poseidon2 t 5 p xs) /\ forall i, snd (r i) = (off + num_sbox p t)%nat).
  Proof. exact (fun PC Hl E Ho => wp_all_ok (precomp off PC Hl E Ho)). Qed.
  (** [m] states at once *)
  Lemma packed m pc rs off l xs : PCS pc rs -> shares_vec l xs -> length xs = (m * t)%nat -> (off + num_sbox p t * m <= length rs)%nat ->
    wp cap (fun i => rep3_permutation_packed (M := M) t 5 p i (pc i) off (l i)) (fun r => shares_vec (fun i => fst (r i)) (each t (poseidon2 t 5 p) xs) /\ forall i, snd (r i) = (off + num_sbox p t * m)%nat).
  Proof.
    intros PC Hl E Ho. eapply wp_mono; [|apply (rep3_permutation_packed_wp cap_pos W PC m off (sh_in cap_pos Hl) E Ho)].
    intros r [H1 H2]. split; [exact (sh_out H1)|exact H2].
  Qed.
  Theorem C25_rep3_packed m pc rs off l xs : PCS pc rs -> shares_vec l xs -> length xs = (m * t)%nat -> (off + num_sbox p t * m <= length rs)%nat ->
    all_ok cap (fun i => rep3_permutation_packed (M := M) t 5 p i (pc i) off (l i)) (fun r => shares_vec (fun i => fst (r i)) (each t (poseidon2 t 5 p) xs) /\ forall i, snd (r i) = (off + num_sbox p t * m)%nat).
  Proof. exact (fun PC Hl E Ho => wp_all_ok (packed m off PC Hl E Ho)). Qed.
  Lemma add pc rs off st l xs : PCA pc rs -> synced st -> shares_vec l xs -> length xs = t -> (off + num_sbox p t <= length rs)%nat ->
    wp cap (fun i => rep3_permutation_additive_precomp (M := M) t 5 p i (pc i) off (st i) (l i))
      (fun r => shares_vec (fun i => fst (fst (r i))) (poseidon2 t 5 p xs) /\ (forall i, snd (fst (r i)) = (off + num_sbox p t)%nat) /\ synced (fun i => snd (r i))).
  Proof.
    intros PC Hs Hl E Ho. eapply wp_mono; [|apply (rep3_permutation_additive_wp cap_pos W PC off Hs (sh_in cap_pos Hl) E Ho)].
    intros r [H1 H2]. split; [exact (sh_out H1)|exact H2].
  Qed.
  Theorem C25_rep3_additive pc rs off st l xs : PCA pc rs -> synced st -> shares_vec l xs -> length xs = t -> (off + num_sbox p t <= length rs)%nat ->
    all_ok cap (fun i => rep3_permutation_additive_precomp (M := M) t 5 p i (pc i) off (st i) (l i))
      (fun r => shares_vec (fun i => fst (fst (r i))) (poseidon2 t 5 p xs) /\ (forall i, snd (fst (r i)) = (off + num_sbox p t)%nat) /\ synced (fun i => snd (r i))).
  Proof. exact (fun PC Hs Hl E Ho => wp_all_ok (add off PC Hs Hl E Ho)). Qed.
  (** preprocessing for [m] states, then all of them at once, nothing left over *)
  Lemma whole m st l xs : synced st -> shares_vec l xs -> length xs = (m * t)%nat ->
    wp cap (fun i => pc <- precompute_rep3 (M := M) t 5 p i m (st i) ;; r <- rep3_permutation_packed t 5 p i (fst pc) 0 (l i) ;; Ret (fst r, snd r, length (pc_r (fst pc)), snd pc))
      (fun r => shares_vec (fun i => fst (fst (fst (r i)))) (each t (poseidon2 t 5 p) xs) /\ (forall i, snd (fst (fst (r i))) = snd (fst (r i))) /\ synced (fun i => snd (r i))).
  Proof.
    intros Hs Hl E. apply wp_bind. eapply wp_mono; [|apply (pre m Hs)]. intros pc (rs & Er & PC & Hs'). cbv beta. apply wp_bind.
    eapply wp_mono; [|apply (packed m 0%nat PC Hl E)]; [|lia]. intros r [H1 H2]. cbv beta. apply wp_ret. cbn [fst snd]. split; [exact H1|]. split; [|exact Hs'].
    intros i. rewrite H2. destruct PC as [[PC _] _]. rewrite PC by exact Logic.I. lia.
  Qed.
  Theorem C25_rep3_precompute_and_run m st l xs : synced st -> shares_vec l xs -> length xs = (m * t)%nat ->
    all_ok cap (fun i => pc <- precompute_rep3 (M := M) t 5 p i m (st i) ;; r <- rep3_permutation_packed t 5 p i (fst pc) 0 (l i) ;; Ret (fst r, snd r, length (pc_r (fst pc)), snd pc))
      (fun r => shares_vec (fun i => fst (fst (fst (r i)))) (each t (poseidon2 t 5 p) xs) /\ (forall i, snd (fst (fst (r i))) = snd (fst (r i))) /\ synced (fun i => snd (r i))).
  Proof. exact (fun Hs Hl E => wp_all_ok (whole m Hs Hl E)). Qed.
  (** an exponent other than 5 panics at every party *)
  Lemma bad_exp d st l : d <> 5%N -> wpo cap (fun i => rep3_permutation (M := M) t d p i (st i) (l i)) (fun o => forall i, is_panic (o i)).
  Proof.
    intros Hd. eapply wpo_ext; [|apply wpo_fail with (e := Panic bad_d); intros i; exists bad_d; reflexivity].
    intros i. unfold rep3_permutation. rewrite (proj2 (N.eqb_neq d 5) Hd). reflexivity.
  Qed.
  Theorem C25_rep3_other_exponent_panics d st l : d <> 5%N -> all_end cap (fun i => rep3_permutation (M := M) t d p i (st i) (l i)) (fun o => forall i, is_panic (o i)).
  Proof. exact (fun Hd => wpo_all_end (bad_exp st l Hd)). Qed.

  (** *** C26 *)
  Theorem C26_rep3_sponge a k st l xs : (2 <= a)%nat -> (a < t)%nat -> synced st -> shares_vec l xs -> length xs = (a ^ Datatypes.S k)%nat ->
    all_ok cap (fun i => merkle_tree_sponge_rep3 (M := M) t 5 p a i (l i) (st i))
      (fun r => shares (fun i => fst (r i)) (tree_root (hash false t (poseidon2 t 5 p)) a (Datatypes.S k) xs) /\ synced (fun i => snd (r i))).
  Proof. exact (fun Ha Ht Hs Hl E => wp_all_ok (merkle_rep3_wp cap_pos W false k Ha Ht Hs Hl E)). Qed.
  Theorem C26_rep3_compression a k st l xs : (2 <= a)%nat -> (a <= t)%nat -> synced st -> shares_vec l xs -> length xs = (a ^ Datatypes.S k)%nat ->
    all_ok cap (fun i => merkle_tree_compression_rep3 (M := M) t 5 p a i (l i) (st i))
      (fun r => shares (fun i => fst (r i)) (tree_root (hash true t (poseidon2 t 5 p)) a (Datatypes.S k) xs) /\ synced (fun i => snd (r i))).
  Proof. exact (fun Ha Ht Hs Hl E => wp_all_ok (merkle_rep3_wp cap_pos W true k Ha Ht Hs Hl E)). Qed.
End Rep3.

(** ** Shamir shares *)
Section Sham.
  Context {M : Type} {F : Type} {FF : Fld F} {Sg : Type} {DF : Draw Sg F} {EF1 : Enc M F} {EF : Enc M (list F)}.
  Context (n th cap : nat) (n2 : (2 <= n)%nat) (nt : (2 * th + 1 <= n)%nat) (hcap : cap_ok n th cap)
    (inj : forall a b, (a <= n)%nat -> (b <= n)%nat -> fnat a = (fnat b : F) -> a = b).
  Context (t : nat) (p : pparams F) (W : wf_params t p).
  Implicit Types (st : nat -> sst (F := F) (Sg := Sg)) (l : nat -> list F) (xs : list F).
  Notation PCH := (pc_ok (fun i : nat => (i < n)%nat) (0 : F) (sharing n th)).
  Notation synced st := (sm_synced n th st).
  Theorem C25_shamir st l xs : synced st -> sharings n th l xs -> length xs = t ->
    all_okn n cap (fun i => shamir_permutation (M := M) t 5 p (st i) (l i)) (fun r => sharings n th (fun i => fst (r i)) (poseidon2 t 5 p xs) /\ synced (fun i => snd (r i))).
  Proof. exact (fun Hs Hl E => wpn_all_ok (shamir_permutation_wp n2 nt hcap inj W Hs Hl E)). Qed.
  Theorem C25_precompute_shamir num st : synced st ->
    all_okn n cap (fun i => precompute_shamir (M := M) t 5 p num (st i))
      (fun r => exists rs, length rs = (num_sbox p t * num)%nat /\ PCH (fun i => fst (r i)) rs /\ synced (fun i => snd (r i))).
  Proof. exact (fun Hs => wpn_all_ok (precompute_shamir_wp n2 nt hcap inj t p num Hs)). Qed.
  Theorem C25_shamir_precomp st pc rs off l xs : synced st -> PCH pc rs -> sharings n th l xs -> length xs = t -> (off + num_sbox p t <= length rs)%nat ->
    all_okn n cap (fun i => shamir_permutation_precomp (M := M) t 5 p (pc i) (st i) off (l i))
      (fun r => sharings n th (fun i => fst (r i)) (poseidon2 t 5 p xs) /\ forall i, (i < n)%nat -> snd (r i) = (off + num_sbox p t)%nat).
  Proof. exact (fun Hs PC Hl E Ho => wpn_all_ok (shamir_permutation_precomp_wp n2 nt hcap inj W Hs PC off Hl E Ho)). Qed.
  Theorem C25_shamir_packed m st pc rs off l xs : synced st -> PCH pc rs -> sharings n th l xs -> length xs = (m * t)%nat -> (off + num_sbox p t * m <= length rs)%nat ->
    all_okn n cap (fun i => shamir_permutation_packed (M := M) t 5 p (pc i) (st i) off (l i))
      (fun r => sharings n th (fun i => fst (r i)) (each t (poseidon2 t 5 p) xs) /\ forall i, (i < n)%nat -> snd (r i) = (off + num_sbox p t * m)%nat).
  Proof. exact (fun Hs PC Hl E Ho => wpn_all_ok (shamir_permutation_packed_wp n2 nt hcap inj W Hs PC m off Hl E Ho)). Qed.
  Theorem C26_shamir_sponge a k st l xs : (2 <= a)%nat -> (a < t)%nat -> synced st -> sharings n th l xs -> length xs = (a ^ Datatypes.S k)%nat ->
    all_okn n cap (fun i => merkle_tree_sponge_shamir (M := M) t 5 p a (l i) (st i))
      (fun r => sharing n th (fun i => fst (r i)) (tree_root (hash false t (poseidon2 t 5 p)) a (Datatypes.S k) xs) /\ synced (fun i => snd (r i))).
  Proof. exact (fun Ha Ht Hs Hl E => wpn_all_ok (merkle_shamir_wp n2 nt hcap inj W false k Ha Ht Hs Hl E)). Qed.
  Theorem C26_shamir_compression a k st l xs : (2 <= a)%nat -> (a <= t)%nat -> synced st -> sharings n th l xs -> length xs = (a ^ Datatypes.S k)%nat ->
    all_okn n cap (fun i => merkle_tree_compression_shamir (M := M) t 5 p a (l i) (st i))
      (fun r => sharing n th (fun i => fst (r i)) (tree_root (hash true t (poseidon2 t 5 p)) a (Datatypes.S k) xs) /\ synced (fun i => snd (r i))).
  Proof. exact (fun Ha Ht Hs Hl E => wpn_all_ok (merkle_shamir_wp n2 nt hcap inj W true k Ha Ht Hs Hl E)). Qed.
End Sham.

(** ** Examples: the field with 13 elements, state of three elements, one external round on each side and one internal round *)
Definition p13 : pparams F13 := mkPP 1 1 1 [rone; rone; rone + rone] [[f13 1; f13 2; f13 3]; [f13 4; f13 5; f13 6]] [f13 7].
Lemma p13_new : params_new 3 5 2 1 [rone; rone; rone + rone] [[f13 1; f13 2; f13 3]; [f13 4; f13 5; f13 6]] [f13 7] = Some p13.
Proof. reflexivity. Qed.
Lemma p13_wf : wf_params 3 p13.
Proof. refine (proj1 (C25_params_new _ _ _ _ p13_new _ _ _ _ _)); [lia|reflexivity|repeat constructor|discriminate|reflexivity]. Qed.
Definition eqb13 (x y : F13) : bool := (val x =? val y)%Z.
Lemma eqb13_spec x y : eqb13 x y = true <-> x = y.
Proof. unfold eqb13. rewrite Z.eqb_eq. split; [apply Zmod_eq|congruence]. Qed.
Definition st3 (l : list Z) : pid -> list (share F13) := fun i => map (fun v => sh13 v 3 4 i) l.
Lemma st3_shares l : shares_vec (st3 l) (map f13 l).
Proof.
  split; [intros i; unfold st3; rewrite !map_length; reflexivity|]. intros k x E. rewrite nth_error_map in E. destruct (nth_error l k) as [v|] eqn:Ev; [|discriminate].
  injection E as <-. exists (sh13 v 3 4). split; [|apply sh13_shares]. intros i. unfold st3. rewrite nth_error_map, Ev. reflexivity.
Qed.
Example ex_C25_value : option_map (map val) (permutation 3 5 p13 [f13 1; f13 2; f13 3]) = Some (map val (poseidon2 3 5 p13 [f13 1; f13 2; f13 3])) /\ map val (poseidon2 3 5 p13 [f13 1; f13 2; f13 3]) <> map val (poseidon2 3 5 p13 [f13 2; f13 2; f13 3]).
Proof. split; [vm_compute; reflexivity|vm_compute; discriminate]. Qed.

Example ex_C25_rep3 : all_ok 1 (fun i => rep3_permutation (M := list F13) 3 5 p13 i (st13 i) (st3 [1; 2; 3]%Z i))
  (fun r => shares_vec (fun i => fst (r i)) (poseidon2 3 5 p13 (map f13 [1; 2; 3]%Z)) /\ synced (fun i => snd (r i))).
Proof. exact (C25_rep3 (M := list F13) (le_n 1) p13_wf st13_synced (st3_shares [1; 2; 3]%Z) eq_refl (le_n 1)). Qed.
Example ex_C25_rep3_precompute_and_run : all_ok 1 (fun i => pc <- precompute_rep3 (M := list F13) 3 5 p13 i 2 (st13 i) ;; r <- rep3_permutation_packed 3 5 p13 i (fst pc) 0 (st3 [1; 2; 3; 4; 5; 6]%Z i) ;; Ret (fst r, snd r, length (pc_r (fst pc)), snd pc))
  (fun r => shares_vec (fun i => fst (fst (fst (r i)))) (each 3 (poseidon2 3 5 p13) (map f13 [1; 2; 3; 4; 5; 6]%Z)) /\ (forall i, snd (fst (fst (r i))) = snd (fst (r i))) /\ synced (fun i => snd (r i))).
Proof. exact (C25_rep3_precompute_and_run (M := list F13) (le_n 1) p13_wf 2 st13_synced (st3_shares [1; 2; 3; 4; 5; 6]%Z) eq_refl). Qed.
Lemma ss3_sharings (l : list Z) : sharings 3 1 (fun i => map (fun v => ss13 v 5 i) l) (map f13 l).
Proof.
  split; [intros i Hi; rewrite !map_length; reflexivity|]. rewrite map_length. intros k Hk.
  rewrite (nth_map_lt _ l 0%Z) by exact Hk. eapply sharing_ext; [|apply (ss13_sharing 3 (nth k l 0%Z) 5)].
  intros i Hi. rewrite (nth_map_lt _ l 0%Z) by exact Hk. reflexivity.
Qed.
Lemma ex_synced : exists st : nat -> sst (F := F13) (Sg := Z), sm_synced 3 1 st.
Proof. destruct ex_state as (L & st & _ & Hw). exists st, 1024%nat, L. exact Hw. Qed.
Example ex_C25_shamir : exists st : nat -> sst (F := F13) (Sg := Z), sm_synced 3 1 st /\
  all_okn 3 1 (fun i => shamir_permutation (M := smsg) 3 5 p13 (st i) (map (fun v => ss13 v 5 i) [1; 2; 3]%Z))
    (fun r => sharings 3 1 (fun i => fst (r i)) (poseidon2 3 5 p13 (map f13 [1; 2; 3]%Z)) /\ sm_synced 3 1 (fun i => snd (r i))).
Proof.
  destruct ex_synced as (st & Hs). exists st. split; [exact Hs|].
  exact (C25_shamir (n := 3) (th := 1) ltac:(lia) ltac:(lia) cap_ok_31 (@inj13 3 ltac:(lia)) p13_wf Hs (ss3_sharings [1; 2; 3]%Z) eq_refl).
Qed.
(** parameters without external rounds are accepted by [Poseidon2Params::new]: the plain permutation works, the shared one panics at two parties (finding) *)
Lemma no_full_rounds : exists p : pparams F13, params_new 3 5 0 1 [rone; rone; rone + rone] [] [f13 7] = Some p /\
  (forall l, length l = 3%nat -> exists r, permutation 3 5 p l = Some r) /\
  forall (st : rst Z) (l : list (share F13)), rep3_permutation (M := list F13) 3 5 p Rep3Net.P0 st l = Fail (Panic oob) /\ rep3_permutation (M := list F13) 3 5 p Rep3Net.P1 st l = Fail (Panic oob).
Proof.
  exists (mkPP 0 0 1 [rone; rone; rone + rone] [] [f13 7]). split; [reflexivity|]. split.
  - intros l E. eexists. refine (proj1 (permutation_spec 5 l _ E)). split; [cbn; tauto|]. split; [reflexivity|]. split; [reflexivity|]. split; [constructor|]. split; [reflexivity|]. split; [discriminate|reflexivity].
  - intros st l. split; reflexivity.
Qed.
Theorem C25_no_full_rounds_refuted : exists p : pparams F13, params_new 3 5 0 1 [rone; rone; rone + rone] [] [f13 7] = Some p /\
  (forall l, length l = 3%nat -> exists r, permutation 3 5 p l = Some r) /\
  forall (st : rst Z) (l : list (share F13)), rep3_permutation (M := list F13) 3 5 p Rep3Net.P0 st l = Fail (Panic oob) /\ rep3_permutation (M := list F13) 3 5 p Rep3Net.P1 st l = Fail (Panic oob).
Proof. exact no_full_rounds. Qed.

Example ex_C26_value : option_map val (merkle_tree_sponge 3 5 p13 2 (map f13 [1; 2; 3; 4]%Z)) = Some (val (tree_root (hash false 3 (poseidon2 3 5 p13)) 2 2 (map f13 [1; 2; 3; 4]%Z))) /\
  option_map val (merkle_tree_compression 3 5 p13 3 (map f13 [1; 2; 3; 4; 5; 6; 7; 8; 9]%Z)) = Some (val (tree_root (hash true 3 (poseidon2 3 5 p13)) 3 2 (map f13 [1; 2; 3; 4; 5; 6; 7; 8; 9]%Z))).
Proof. split; vm_compute; reflexivity. Qed.
Example ex_C26_witness : exists ws, merkle_tree_sponge_with_witness 3 5 p13 2 (map f13 [1; 2; 3; 4]%Z) 2 = Some (tree_root (hash false 3 (poseidon2 3 5 p13)) 2 2 (map f13 [1; 2; 3; 4]%Z), ws) /\
  length ws = 2%nat /\ path_wf 2 ws /\ path_index 2 ws = 2%nat /\
  verify_merkle_path_sponge (FE := eqb13) 3 5 p13 (tree_root (hash false 3 (poseidon2 3 5 p13)) 2 2 (map f13 [1; 2; 3; 4]%Z)) (f13 3) ws = Some true.
Proof. apply (C26_witness_sponge 5 p13_wf eqb13_spec 1 (map f13 [1; 2; 3; 4]%Z) (a := 2)); [lia|reflexivity|cbn; lia]. Qed.
(** a wrong leaf is rejected *)
Example ex_C26_wrong_leaf : forall ws, merkle_tree_sponge_with_witness 3 5 p13 2 (map f13 [1; 2; 3; 4]%Z) 2 = Some (tree_root (hash false 3 (poseidon2 3 5 p13)) 2 2 (map f13 [1; 2; 3; 4]%Z), ws) ->
  verify_merkle_path_sponge (FE := eqb13) 3 5 p13 (tree_root (hash false 3 (poseidon2 3 5 p13)) 2 2 (map f13 [1; 2; 3; 4]%Z)) (f13 5) ws = Some false.
Proof.
  intros ws E.
  assert (Ew : ws = match merkle_tree_sponge_with_witness 3 5 p13 2 (map f13 [1; 2; 3; 4]%Z) 2 with Some r => snd r | None => [] end) by (rewrite E; reflexivity).
  rewrite Ew. vm_compute. reflexivity.
Qed.
Example ex_C26_rep3 : all_ok 1 (fun i => merkle_tree_compression_rep3 (M := list F13) 3 5 p13 2 i (st3 [1; 2; 3; 4]%Z i) (st13 i))
  (fun r => shares (fun i => fst (r i)) (tree_root (hash true 3 (poseidon2 3 5 p13)) 2 2 (map f13 [1; 2; 3; 4]%Z)) /\ synced (fun i => snd (r i))).
Proof. exact (C26_rep3_compression (M := list F13) (le_n 1) p13_wf 1 (le_n 2) (le_S 2 2 (le_n 2)) st13_synced (st3_shares [1; 2; 3; 4]%Z) eq_refl). Qed.
Example ex_C26_shamir : exists st : nat -> sst (F := F13) (Sg := Z), sm_synced 3 1 st /\
  all_okn 3 1 (fun i => merkle_tree_sponge_shamir (M := smsg) 3 5 p13 2 (map (fun v => ss13 v 5 i) [1; 2; 3; 4]%Z) (st i))
    (fun r => sharing 3 1 (fun i => fst (r i)) (tree_root (hash false 3 (poseidon2 3 5 p13)) 2 2 (map f13 [1; 2; 3; 4]%Z)) /\ sm_synced 3 1 (fun i => snd (r i))).
Proof.
  destruct ex_synced as (st & Hs). exists st. split; [exact Hs|].
  exact (C26_shamir_sponge (n := 3) (th := 1) ltac:(lia) ltac:(lia) cap_ok_31 (@inj13 3 ltac:(lia)) p13_wf 1 (le_n 2) (le_n 3) Hs (ss3_sharings [1; 2; 3; 4]%Z) eq_refl).
Qed.

Print Assumptions C25_plain.
Print Assumptions C25_params_new.
Print Assumptions C26_root_sponge.
Print Assumptions C26_root_compression.
Print Assumptions C26_other_lengths_panic.
Print Assumptions C26_witness_sponge.
Print Assumptions C26_witness_compression.
Print Assumptions C26_verify_sponge.
Print Assumptions C26_verify_compression.
Print Assumptions C26_sound_sponge.
Print Assumptions C26_sound_compression.
Print Assumptions C26_inner_node_accepted.
Print Assumptions C26_padding_accepted.
Print Assumptions C26_padding_accepted_compression.
Print Assumptions C26_one_leaf_sponge_panics.
Print Assumptions C26_one_leaf_compression.
Print Assumptions C26_empty_path_panics.
Print Assumptions C25_rep3.
Print Assumptions C25_precompute_rep3.
Print Assumptions C25_precompute_rep3_additive.
Print Assumptions C25_rep3_precomp.
Print Assumptions C25_rep3_packed.
Print Assumptions C25_rep3_additive.
Print Assumptions C25_rep3_precompute_and_run.
Print Assumptions C25_rep3_other_exponent_panics.
Print Assumptions C26_rep3_sponge.
Print Assumptions C26_rep3_compression.
Print Assumptions C25_shamir.
Print Assumptions C25_precompute_shamir.
Print Assumptions C25_shamir_precomp.
Print Assumptions C25_shamir_packed.
Print Assumptions C26_shamir_sponge.
Print Assumptions C26_shamir_compression.
Print Assumptions C25_no_full_rounds_refuted.
