(** * The relations of the permutation imply the copy constraints, but for few challenges (C80); no code of /repo is
      modelled here *)
From Coq Require Import String List Arith Lia Bool Ring Permutation.
From Verif Require Import Proc Alg NNet Rep3 ShamirPoly Shamir ShamirAlg Univariate Sumcheck SumcheckSpec HonkRelations HonkSpec HonkProofs HonkSkip Decider Oink OinkWiring OinkTrace OinkGrand OinkProofs OinkRelations OinkComplete OinkSound OinkCopy.
Import ListNotations.
Set Implicit Arguments.
Local Open Scope grp_scope.
Local Open Scope list_scope.

Section Wire.
  Context {F : Type} {FF : Fld F}.
  Add Ring FringWire : (@cring_theory F _).
  Infix "*" := rmul : grp_scope.
  Notation "1" := rone : grp_scope.

  (** the cells of rows 0 to [n] with the entries of four columns from [off] on, and further pairs for public inputs *)
  Definition cell_pairs (off : nat) (fs : list (list F)) (n : nat) (pub : nat -> F) (xs : list F) : list (F * F) :=
    flat_map (fun i => map (fun k => (cell fs (28 + k) i, cell fs (off + k) i)) (seq 0 4)) (seq 0 (S n)) ++ map (fun j => (nth j xs 0, pub j)) (seq 0 (length xs)).
  (** the cells with their ids, and the public inputs with the numbers that break the cycles *)
  Definition id_pairs (fs : list (list F)) (n : nat) (xs : list F) := cell_pairs 18 fs n (fun j => - fnat (j + 1 + 1)) xs.
  (** the cells with their images, and the public inputs with the cells of the second wire *)
  Definition sigma_pairs (sep : nat) (fs : list (list F)) (n : nat) (xs : list F) := cell_pairs 14 fs n (fun j => fnat (j + 1 + sep)) xs.

  Lemma pairs_product off fs n pub xs beta gamma :
    prodl (fun p => mix beta p + gamma) (cell_pairs off fs n pub xs) =
    prod (S n) (fun i => (cell fs 28 i + cell fs (off + 0) i * beta + gamma) * (cell fs 29 i + cell fs (off + 1) i * beta + gamma) *
                         (cell fs 30 i + cell fs (off + 2) i * beta + gamma) * (cell fs 31 i + cell fs (off + 3) i * beta + gamma)) *
    prod (length xs) (fun j => nth j xs 0 + pub j * beta + gamma).
  Proof.
    unfold cell_pairs. rewrite prodl_app, prodl_flat, prodl_map, !prodl_seq. f_equal.
    - apply prod_ext. intros i _. rewrite prodl_map. cbn [seq prodl Nat.add]. unfold mix. cbn [fst snd]. ring.
  Qed.

  Variables (P : rparams (F := F)) (sep size nv : nat) (real tags tau : nat -> nat) (blocks : list (list (list nat))) (fs : list (list F)) (xs : list F) (T : nat).
  Notation cells := (trace_cells real 1 blocks).
  Notation n := (length (concat blocks)).
  Notation beta := (rp_beta P).
  Notation gamma := (rp_gamma P).
  Hypothesis L36 : length fs = 36.
  Hypothesis Hn : 1 <= n /\ n < size /\ size <= sep /\ length xs <= n.
  Hypothesis Hnv : forall c, In c cells -> fst c < nv.
  Hypothesis Htags : forall v, v < nv -> tags v <= T /\ tau (tags v) <= T.
  Hypothesis Hwide : forall a b, a < sep * 4 + T + size + 2 -> b < sep * 4 + T + size + 2 -> fnat a = (fnat b : F) -> a = b.
  Hypothesis Hpub : forall j, j < length xs -> real (nth 0 (nth j (concat blocks) []) 0%nat) = real (nth 1 (nth j (concat blocks) []) 0%nat).
  Hypothesis Hwired : wired sep size nv real tags tau blocks (length xs) fs.
  Hypothesis Hfirst : forall i, i < size -> cell fs 26 i = if (i =? 0)%nat then 1 else 0.
  Hypothesis Hlast : forall i, i < size -> cell fs 27 i = if (i =? n)%nat then 1 else 0.
  Hypothesis Hz0 : cell fs 32 0 = 0.
  Hypothesis Hrel : forall i, i < size -> perm0 P (row (all_entities fs) i) = 0 /\ perm1 (row (all_entities fs) i) = 0.
  Hypothesis Hdelta : compute_public_input_delta sep beta gamma xs 1 = Done (rp_delta P).
  Notation num := (gp_numerator fs beta gamma).
  Notation den := (gp_denominator fs beta gamma).

  (** the recursion of the grand product *)
  Lemma relation_row i : i < size -> (cell fs 32 i + (if (i =? 0)%nat then 1 else 0)) * num i = ((if (i =? n)%nat then rp_delta P else 0) + cell fs 32 (S i)) * den i /\
    (i = n -> cell fs 32 (S i) = 0).
  Proof.
    intros Hi. destruct (Hrel Hi) as [A B]. unfold perm0, perm1 in A, B.
    assert (EM : forall k, k < 36 -> ent k (row (all_entities fs) i) = cell fs k i) by (intros k Hk; apply ent_main; lia).
    assert (ES : ent 40 (row (all_entities fs) i) = cell fs 32 (S i)) by exact (@ent_shift F FF fs i 4 L36 ltac:(lia)).
    assert (EN : perm_numerator P (row (all_entities fs) i) = num i) by (unfold perm_numerator, gp_numerator; rewrite !EM by lia; ring).
    assert (ED : perm_denominator P (row (all_entities fs) i) = den i) by (unfold perm_denominator, gp_denominator; rewrite !EM by lia; ring).
    rewrite EN, ED, ES, !EM, Hfirst, Hlast in A by lia. rewrite ES, EM, Hlast in B by lia. split.
    - destruct (i =? n)%nat.
      + transitivity ((cell fs 32 i + (if (i =? 0)%nat then 1 else 0)) * num i - (1 * rp_delta P + cell fs 32 (S i)) * den i + (rp_delta P + cell fs 32 (S i)) * den i); [ring|]. rewrite A. ring.
      + transitivity ((cell fs 32 i + (if (i =? 0)%nat then 1 else 0)) * num i - (0 * rp_delta P + cell fs 32 (S i)) * den i + (0 + cell fs 32 (S i)) * den i); [ring|]. rewrite A. ring.
    - intros ->. rewrite Nat.eqb_refl in B. transitivity (1 * cell fs 32 (S n)); [ring|exact B].
  Qed.
  Lemma telescope k : 1 <= k <= n -> prod k num = cell fs 32 k * prod k den.
  Proof.
    destruct Hn as (H1 & H2 & _). induction k as [|k IH]; intros Hk; [lia|]. cbn [prod]. destruct (@relation_row k ltac:(lia)) as [A _].
    destruct (Nat.eqb_spec k n); [lia|]. destruct (Nat.eqb_spec k 0) as [->|N0].
    - cbn [prod]. rewrite Hz0 in A. transitivity ((0 + 1) * num 0); [ring|]. rewrite A. ring.
    - rewrite IH by lia. transitivity ((cell fs 32 k + 0) * num k * prod k den); [ring|]. rewrite A. ring.
  Qed.
  Lemma whole_product : prod (S n) num = rp_delta P * prod (S n) den.
  Proof.
    destruct Hn as (H1 & H2 & _). cbn [prod]. destruct (@relation_row n ltac:(lia)) as [A B]. specialize (B eq_refl). rewrite B, Nat.eqb_refl in A. destruct (Nat.eqb_spec n 0) as [?|_]; [lia|].
    rewrite telescope by lia. transitivity ((cell fs 32 n + 0) * num n * prod n den); [ring|]. rewrite A. ring.
  Qed.
  Lemma pairs_equal : prodl (fun p => mix beta p + gamma) (id_pairs fs n xs) = prodl (fun p => mix beta p + gamma) (sigma_pairs sep fs n xs).
  Proof.
    unfold id_pairs, sigma_pairs. rewrite !pairs_product. destruct (public_delta _ _ _ _ _ Hdelta) as [_ E]. rewrite <- E.
    change (prod (S n) num * prod (length xs) (fun j => nth j xs 0 + - fnat (j + 1 + 1) * beta + gamma) = prod (S n) den * (rp_delta P * prod (length xs) (fun j => nth j xs 0 + - fnat (j + 1 + 1) * beta + gamma))).
    rewrite whole_product. ring.
  Qed.

  Theorem wire_sound :
    (exists vals : nat -> F,
      (forall v k i, In (v, (k, i)) cells -> cell fs (28 + k) i = vals v) /\
      (let in_use := filter (fun v => existsb (fun c => (fst c =? v)%nat) cells) (seq 0 nv) in
       Permutation (map (fun v => (vals v, tau (tags v))) in_use) (map (fun v => (vals v, tags v)) in_use)) /\
      (forall j, j < length xs -> cell fs 28 (S j) = nth j xs 0 /\ cell fs 29 (S j) = nth j xs 0)) \/
    lucky_mix (id_pairs fs n xs) (sigma_pairs sep fs n xs) beta \/
    lucky_gamma (map (mix beta) (id_pairs fs n xs)) (map (mix beta) (sigma_pairs sep fs n xs)) gamma.
  Proof.
    destruct (@pairs_agree F FF _ _ beta gamma pairs_equal) as [Q|Q]; [left|right; exact Q].
    destruct Hn as (H1 & H2 & H3 & H4). assert (W := Hwired). unfold wired in W. cbv zeta in W. rewrite active_all in W. unfold permutation_mapping in W.
    set (maps := fold_left (map_cycle tags tau (copy_cycles cells)) (seq 0 nv) (new_mapping, new_mapping)) in *.
    assert (W' : forall k, k < 4 -> nth (14 + k) fs [] = lagrange_column sep size (seq 1 n) (marks 1 (length xs) (fst maps)) k /\ nth (18 + k) fs [] = lagrange_column sep size (seq 1 n) (snd maps) k).
    { intros k Hk. specialize (W k Hk). destruct maps as [a b]. exact W. }
    clear W. assert (EC : cells = block_cells real 1 (concat blocks)) by apply trace_block.
    assert (EN : map snd cells = flat_map quad (seq 1 n)) by (rewrite EC; apply block_nodes).
    assert (ND : NoDup (map snd cells)) by (rewrite EN; apply quads_nodup).
    set (w := fun p : node => cell fs (28 + fst p) (snd p)).
    assert (Col : forall m c k i, nth c fs [] = lagrange_column sep size (seq 1 n) m k -> 1 <= i <= n -> cell fs c i = elem_value sep (m (k, i))).
    { intros m c k i E Hi. unfold cell. rewrite E, nth_column by lia. rewrite in_active.
      destruct (Nat.leb_spec 1 i), (Nat.leb_spec i n); try lia. reflexivity. }
    assert (Row : forall off (m : mapping) pub, (forall k, k < 4 -> nth (off + k) fs [] = lagrange_column sep size (seq 1 n) m k) ->
      cell_pairs off fs n pub xs = map (fun k => (cell fs (28 + k) 0, cell fs (off + k) 0)) (seq 0 4) ++ map (fun p => (w p, elem_value sep (m p))) (map snd cells) ++ map (fun j => (nth j xs 0, pub j)) (seq 0 (length xs))).
    { intros off m pub H. unfold cell_pairs. cbn [seq flat_map]. rewrite <- !app_assoc. f_equal. f_equal. rewrite EN.
      rewrite (flat_map_concat_map quad), concat_map, map_map, <- flat_map_concat_map. rewrite !flat_map_concat_map. f_equal. apply map_ext_in. intros i Ii. apply in_seq in Ii.
      cbn [map quad]. unfold w. cbn [fst snd]. 
      rewrite <- (Col m (off + 0)%nat 0%nat i (H 0%nat ltac:(lia)) ltac:(lia)), <- (Col m (off + 1)%nat 1%nat i (H 1%nat ltac:(lia)) ltac:(lia)), <- (Col m (off + 2)%nat 2 i (H 2 ltac:(lia)) ltac:(lia)), <- (Col m (off + 3)%nat 3 i (H 3 ltac:(lia)) ltac:(lia)). reflexivity. }
    unfold id_pairs, sigma_pairs in Q.
    rewrite (Row 18 (snd maps)), (Row 14 (marks 1 (length xs) (fst maps))) in Q by (intros k Hk; apply (W' k Hk)).
    replace (map (fun k => (cell fs (28 + k) 0, cell fs (14 + k) 0)) (seq 0 4)) with (map (fun k => (cell fs (28 + k) 0, cell fs (18 + k) 0)) (seq 0 4)) in Q.
    2: { apply map_ext_in. intros k Ik. apply in_seq in Ik. destruct (@wired_zero F FF sep size nv real tags tau blocks (length xs) fs k ltac:(lia) Hwired ltac:(lia)) as [A B]. rewrite A, B. reflexivity. }
    apply Permutation_app_inv_l in Q.
    assert (Rg : forall p, In p (map snd cells) -> fst p < 4 /\ snd p < size) by (intros p I; rewrite EN in I; apply quads_in in I; lia).
    assert (Pb : forall j, j < length xs -> exists v A B, cells = A ++ (v, (0, j + 1))%nat :: (v, (1, j + 1))%nat :: B).
    { intros j Hj. destruct (@adjacent_cells real (concat blocks) j 1) as (v & A & B & E); [lia|exact (Hpub Hj)|]. rewrite EC, E. replace (1 + j)%nat with (j + 1)%nat by lia. exists v, A, B. reflexivity. }
    pose proof (@copies_hold F FF sep tags tau cells nv (length xs) size T w (fun j => nth j xs 0) Hnv ND Rg H3 Htags Hwide Pb Q) as CH.
    pose proof (@tags_hold F FF sep tags tau cells nv (length xs) size T w (fun j => nth j xs 0) Hnv ND Rg H3 Htags Hwide Pb Q) as TH.
    pose proof (@public_value F FF sep tags tau cells nv (length xs) size T w (fun j => nth j xs 0) Hnv ND Rg H3 Htags Hwide Pb Q) as PV.
    exists (var_value cells w). split; [|split].
    - intros v k i I. exact (CH v (k, i) I).
    - replace (filter (fun v => existsb (fun c => (fst c =? v)%nat) cells) (seq 0 nv)) with (used cells nv); [exact TH|]. unfold used. apply filter_ext. intros v.
      rewrite copy_cycles_filter. clear. induction cells as [|c cs IH]; [reflexivity|]. cbn [existsb filter]. rewrite (Nat.eqb_sym (fst c) v).
      destruct (v =? fst c)%nat; [reflexivity|]. exact IH.
    - intros j Hj. destruct (Pb j Hj) as (v & A & B & E).
      assert (I0 : In (v, (0, j + 1)%nat) cells) by (rewrite E; apply in_or_app; right; left; reflexivity).
      assert (I1 : In (v, (1, j + 1)%nat) cells) by (rewrite E; apply in_or_app; right; right; left; reflexivity).
      pose proof (CH v _ I0) as X0. pose proof (CH v _ I1) as X1. pose proof (PV j Hj) as X. unfold w in X0, X1, X. cbn [fst snd Nat.add] in X0, X1, X.
      replace (S j) with (j + 1)%nat by lia. split; congruence.
  Qed.
End Wire.

Section Satisfied.
  Context {F : Type} {FF : Fld F}.
  (** the same for columns that satisfy the relations of UltraHonk *)
  Theorem satisfied_wired (P : rparams (F := F)) sep m nv real tags tau blocks fs xs T :
    let cells := trace_cells real 1 blocks in
    let rows := concat blocks in
    let n := length rows in
    let in_use := filter (fun v => existsb (fun c => (fst c =? v)%nat) cells) (seq 0 nv) in
    length fs = 36 -> 1 <= n -> n < 2 ^ m -> 2 ^ m <= sep -> length xs <= n ->
    (forall c, In c cells -> fst c < nv) -> (forall v, v < nv -> tags v <= T /\ tau (tags v) <= T) ->
    (forall a b, a < sep * 4 + T + 2 ^ m + 2 -> b < sep * 4 + T + 2 ^ m + 2 -> fnat a = (fnat b : F) -> a = b) ->
    (forall j, j < length xs -> real (nth 0 (nth j rows []) 0%nat) = real (nth 1 (nth j rows []) 0%nat)) ->
    wired sep (2 ^ m) nv real tags tau blocks (length xs) fs ->
    (forall i, i < 2 ^ m -> cell fs 26 i = if (i =? 0)%nat then rone else 0) -> (forall i, i < 2 ^ m -> cell fs 27 i = if (i =? n)%nat then rone else 0) ->
    compute_public_input_delta sep (rp_beta P) (rp_gamma P) xs 1 = Done (rp_delta P) ->
    cell fs 32 0 = 0 -> satisfied (honk_relations P) m (all_entities fs) ->
    (exists vals : nat -> F,
      (forall v k i, In (v, (k, i)) cells -> cell fs (28 + k) i = vals v) /\
      Permutation (map (fun v => (vals v, tau (tags v))) in_use) (map (fun v => (vals v, tags v)) in_use) /\
      (forall j, j < length xs -> cell fs 28 (S j) = nth j xs 0 /\ cell fs 29 (S j) = nth j xs 0)) \/
    lucky_mix (id_pairs fs n xs) (sigma_pairs sep fs n xs) (rp_beta P) \/
    lucky_gamma (map (mix (rp_beta P)) (id_pairs fs n xs)) (map (mix (rp_beta P)) (sigma_pairs sep fs n xs)) (rp_gamma P).
  Proof.
    cbv zeta. intros L36 H1 H2 H3 H4 Hnv Htags Hwide Hpub Hwired Hf Hl Hd Hz S. apply honk_satisfied in S. destruct S as [S _].
    refine (@wire_sound F FF P sep (2 ^ m) nv real tags tau blocks fs xs T L36 (conj H1 (conj H2 (conj H3 H4))) Hnv Htags Hwide Hpub Hwired Hf Hl Hz _ Hd).
    intros i Hi. split; apply S; try exact Hi; unfold in_rows; cbn [In]; tauto.
  Qed.
End Satisfied.
