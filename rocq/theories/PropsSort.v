(** * Properties of the oblivious shuffle and of the radix sort (C24) *)
From Coq Require Import Permutation String List Arith NArith ZArith Lia Bool.
From Verif Require Import Proc Alg Zp Rep3Net Rep3 Rep3Spec Rep3Proofs Rep3Wp Uint Binary BinaryWp Conv ConvWp CmpWp Ring2k Ring2kWp LutWp LutProv Poseidon2 SortRank Sort SortWp SortRadix Concrete ConcreteU ConcreteR.
From Verif Require Import Rep3Net Rep3 Rep3Spec Rep3Proofs.
Import ListNotations.
Set Implicit Arguments.
Local Open Scope grp_scope.

(** Specification ([stable_order], [select_at]: SortRank.v; [interleaves]: SortRadix.v):
    the sort key of an element is its low [bitsize] bits *)
Definition low_bits {F} `{FieldUint F} (bitsize : nat) (zs : list F) (j : nat) : N := (to_uint (nth j zs 0%grp) mod 2 ^ N.of_nat bitsize)%N.

(** ** Shuffles: vectors over any group, permutations drawn by the three pairs of parties *)
Section ShuffleStatements.
  Context {G : Type} {AG : AbGrp G} {S M : Type} {DG : Draw S G} {EG : Enc M (list G)} (cap : nat) (cap_pos : (1 <= cap)%nat).
  Implicit Types (st : pid -> rst S).
  Lemma shuffle_one n (p : pid -> list nat) : (forall i, Permutation (p i) (seq 0 n)) ->
    exists sigma, Permutation sigma (seq 0 n) /\
      (forall st s xs pub, synced st -> shares_vec s xs -> n = (length xs + length pub)%nat ->
         all_ok cap (fun i => shuffle i (st i) (p i) (p (prev i)) (s i) pub)
           (fun r => shares_vec (fun i => fst (r i)) (select_at 0 (xs ++ pub) sigma) /\ synced (fun i => snd (r i)))) /\
      (forall st s xs, synced st -> shares_vec s xs -> n = length xs ->
         all_ok cap (fun i => shuffle_reveal i (st i) (p i) (p (prev i)) (s i))
           (fun r => (forall i, fst (r i) = select_at 0 xs sigma) /\ synced (fun i => snd (r i)))) /\
      (forall st s xs, synced st -> shares_vec s (select_at 0 xs sigma) -> n = length xs ->
         all_ok cap (fun i => unshuffle i (st i) (p i) (p (prev i)) (s i))
           (fun r => shares_vec (fun i => fst (r i)) xs /\ synced (fun i => snd (r i)))).
  Proof.
    intros Hp. exists (map (joint p) (seq 0 n)). split; [apply joint_perm; exact Hp|]. split; [|split].
    - intros st s xs pub Hst Hs En. apply wp_all_ok. eapply wp_mono; [|apply (shuffle_wp cap_pos p pub Hp Hst Hs En)].
      intros r Hr. unfold select_at. rewrite map_map. exact Hr.
    - intros st s xs Hst Hs En. apply wp_all_ok. eapply wp_mono; [|apply (shuffle_reveal_wp cap_pos p Hp Hst Hs En)].
      intros r Hr. unfold select_at. rewrite map_map. exact Hr.
    - intros st s xs Hst Hs En. apply wp_all_ok. apply (unshuffle_wp cap_pos p xs Hp Hst Hs).
      + unfold select_at. rewrite map_length, tab_len. reflexivity.
      + symmetry. exact En.
      + intros k L. unfold select_at. rewrite map_map. symmetry. exact (tab_nth (fun k => nth (joint p k) xs 0) 0 L).
  Qed.
  (** one permutation describes what [shuffle] and [shuffle_reveal] do to every vector, and [unshuffle]
      undoes it: whatever the values, the masks and the generators *)
  Theorem C24_shuffle n (p : pid -> list nat) : (forall i, Permutation (p i) (seq 0 n)) ->
    exists sigma, Permutation sigma (seq 0 n) /\
      (forall st s xs pub, synced st -> shares_vec s xs -> n = (length xs + length pub)%nat ->
         all_ok cap (fun i => shuffle i (st i) (p i) (p (prev i)) (s i) pub)
           (fun r => shares_vec (fun i => fst (r i)) (select_at 0 (xs ++ pub) sigma) /\ synced (fun i => snd (r i)))) /\
      (forall st s xs, synced st -> shares_vec s xs -> n = length xs ->
         all_ok cap (fun i => shuffle_reveal i (st i) (p i) (p (prev i)) (s i))
           (fun r => (forall i, fst (r i) = select_at 0 xs sigma) /\ synced (fun i => snd (r i)))) /\
      (forall st s xs, synced st -> shares_vec s (select_at 0 xs sigma) -> n = length xs ->
         all_ok cap (fun i => unshuffle i (st i) (p i) (p (prev i)) (s i))
           (fun r => shares_vec (fun i => fst (r i)) xs /\ synced (fun i => snd (r i)))).
  Proof. exact (@shuffle_one n p). Qed.

  Lemma shuffle_inverse n (p : pid -> list nat) st s xs pub : (forall i, Permutation (p i) (seq 0 n)) -> synced st -> shares_vec s xs ->
    n = (length xs + length pub)%nat ->
    wp cap (fun i => r <- shuffle i (st i) (p i) (p (prev i)) (s i) pub ;; unshuffle i (snd r) (p i) (p (prev i)) (fst r))
      (fun r => shares_vec (fun i => fst (r i)) (xs ++ pub) /\ synced (fun i => snd (r i))).
  Proof.
    intros Hp Hst Hs En. apply wp_bind. eapply wp_mono; [|apply (shuffle_wp cap_pos p pub Hp Hst Hs En)]. intros r [R1 R2].
    apply (unshuffle_wp cap_pos p (xs ++ pub) Hp R2 R1).
    - symmetry. apply tab_len.
    - rewrite app_length. symmetry. exact En.
    - intros k L. symmetry. exact (tab_nth (fun k => nth (joint p k) (xs ++ pub) 0) 0 L).
  Qed.
  Theorem C24_unshuffle_inverts n (p : pid -> list nat) st s xs pub : (forall i, Permutation (p i) (seq 0 n)) -> synced st -> shares_vec s xs ->
    n = (length xs + length pub)%nat ->
    all_ok cap (fun i => r <- shuffle i (st i) (p i) (p (prev i)) (s i) pub ;; unshuffle i (snd r) (p i) (p (prev i)) (fst r))
      (fun r => shares_vec (fun i => fst (r i)) (xs ++ pub) /\ synced (fun i => snd (r i))).
  Proof. exact (fun Hp Hst Hs En => wp_all_ok (@shuffle_inverse n p st s xs pub Hp Hst Hs En)). Qed.
End ShuffleStatements.

(** ** Radix sort *)
Section SortStatements.
  Context {T : Type} `{IR : IntRing T} {F : Type} `{FU : FieldUint F} {S M : Type}.
  Context {DT : Draw S T} {DF : Draw S F} {ET : Enc M (list T)} {EF : Enc M (list F)} {EN : Enc M (list N)} {ENN : Enc M (list (N * N))}
          {EL : Enc M (list (list N))} {ELL : Enc M (list (list N * list N))}.
  Context (W : nat) (du : nat -> S -> N * S) (dperm : nat -> S -> list nat * S).
  (** shuffling [0..n] gives a permutation of it (rand [SliceRandom::shuffle]) *)
  Context (dperm_ok : forall n s, Permutation (fst (dperm n s)) (seq 0 n)).
  Context (width : (mbs F + 2 <= W)%nat) (cap : nat) (cap_pos : (1 <= cap)%nat).
  Implicit Types (st : pid -> rst S).
  Notation a2b_ := (fun i s a => a2b W du i s a).
  Notation a2b_ok := (fun st a (x : F) (Hs : synced st) (Ha : shares a x) => a2b_wp (M := M) du cap_pos width Hs Ha).
  (** the numbers of inputs that the ranks can count (sort.rs:38-44) *)
  Notation max_len := (2 ^ N.of_nat (rK T) - 1)%N.
  Notation sort := (radix_sort_fields (T := T) (M := M) W dperm a2b_).
  Notation sort_by := (radix_sort_fields_vec_by (T := T) (M := M) W dperm a2b_).

  Lemma sort_spec st0 st1 s pub (xs : list F) bitsize : synced st0 -> synced st1 -> shares_vec s xs -> (1 <= bitsize <= W)%nat ->
    (N.of_nat (length xs + length pub) <= max_len)%N ->
    exists sigma, stable_order (length (xs ++ pub)) (low_bits bitsize (xs ++ pub)) sigma /\
      all_ok cap (fun i => sort i (st0 i) (st1 i) (s i) pub bitsize)
        (fun r => shares_vec (fun i => fst (r i)) (select_at 0 (xs ++ pub) sigma) /\
                  synced (fun i => fst (snd (r i))) /\ synced (fun i => snd (snd (r i)))).
  Proof.
    intros Y0 Y1 Hs Lb Hn. eexists. split; [apply sorted_stable|]. apply wp_all_ok.
    exact (@radix_sort_fields_wp T _ IR F _ FU S M DT DF ET EF W dperm dperm_ok cap cap_pos a2b_ a2b_ok st0 st1 s pub xs bitsize Y0 Y1 Hs Lb Hn).
  Qed.
  (** the private and the public inputs, in the stable order of their low [bitsize] bits *)
  Theorem C24_radix_sort_fields st0 st1 s pub (xs : list F) bitsize : synced st0 -> synced st1 -> shares_vec s xs -> (1 <= bitsize <= W)%nat ->
    (N.of_nat (length xs + length pub) <= max_len)%N ->
    exists sigma, stable_order (length (xs ++ pub)) (low_bits bitsize (xs ++ pub)) sigma /\
      all_ok cap (fun i => sort i (st0 i) (st1 i) (s i) pub bitsize)
        (fun r => shares_vec (fun i => fst (r i)) (select_at 0 (xs ++ pub) sigma) /\
                  synced (fun i => fst (snd (r i))) /\ synced (fun i => snd (snd (r i)))).
  Proof. exact (@sort_spec st0 st1 s pub xs bitsize). Qed.
  Lemma sort_sorted st0 st1 s pub (xs : list F) bitsize : synced st0 -> synced st1 -> shares_vec s xs -> (1 <= bitsize <= W)%nat ->
    (N.of_nat (length xs + length pub) <= max_len)%N ->
    all_ok cap (fun i => sort i (st0 i) (st1 i) (s i) pub bitsize)
      (fun r => exists ys, shares_vec (fun i => fst (r i)) ys /\ Permutation ys (xs ++ pub) /\
         forall i j, (i < j < length ys)%nat -> (low_bits bitsize ys i <= low_bits bitsize ys j)%N).
  Proof.
    intros Y0 Y1 Hs Lb Hn. destruct (@sort_spec st0 st1 s pub xs bitsize Y0 Y1 Hs Lb Hn) as (sigma & Hsig & _).
    apply wp_all_ok. eapply wp_mono; [|exact (@radix_sort_fields_wp T _ IR F _ FU S M DT DF ET EF W dperm dperm_ok cap cap_pos a2b_ a2b_ok st0 st1 s pub xs bitsize Y0 Y1 Hs Lb Hn)].
    intros r [R1 _]. eexists. split; [exact R1|].
    pose proof (sorted_stable (length (xs ++ pub)) (sort_key bitsize (xs ++ pub))) as Hso. split; [exact (stable_permutation 0 _ Hso)|].
    pose proof (SortRank.perm_len (proj1 Hso)) as Lso. unfold select_at. rewrite map_length, Lso. intros i j [L1 L2]. unfold low_bits.
    rewrite !(@map_at _ _ (fun k => nth k (xs ++ pub) 0) _ _ O) by lia. exact (stable_sorted Hso (conj L1 L2)).
  Qed.
  (** in particular: a permutation of the inputs, in ascending order of the low [bitsize] bits *)
  Theorem C24_radix_sort_fields_sorted st0 st1 s pub (xs : list F) bitsize : synced st0 -> synced st1 -> shares_vec s xs -> (1 <= bitsize <= W)%nat ->
    (N.of_nat (length xs + length pub) <= max_len)%N ->
    all_ok cap (fun i => sort i (st0 i) (st1 i) (s i) pub bitsize)
      (fun r => exists ys, shares_vec (fun i => fst (r i)) ys /\ Permutation ys (xs ++ pub) /\
         forall i j, (i < j < length ys)%nat -> (low_bits bitsize ys i <= low_bits bitsize ys j)%N).
  Proof. exact (@sort_sorted st0 st1 s pub xs bitsize). Qed.

  Lemma sort_by_spec st0 st1 s pub o (xs zs : list F) t wss bitsize : synced st0 -> synced st1 -> shares_vec s xs -> (1 <= bitsize <= W)%nat ->
    (N.of_nat (length zs) <= max_len)%N -> interleaves o xs pub zs -> pvec (@shares_vec F _) t wss -> Forall (fun ws => length ws = length zs) wss ->
    exists sigma, stable_order (length zs) (low_bits bitsize zs) sigma /\
      all_ok cap (fun i => sort_by i (st0 i) (st1 i) (s i) pub o (t i) bitsize)
        (fun r => pvec (@shares_vec F _) (fun i => fst (r i)) (map (fun ws => select_at 0 ws sigma) wss) /\
                  synced (fun i => fst (snd (r i))) /\ synced (fun i => snd (snd (r i)))).
  Proof.
    intros Y0 Y1 Hs Lb Hn Ho Ht Hl. eexists. split; [apply sorted_stable|]. apply wp_all_ok.
    exact (@radix_sort_fields_vec_by_wp T _ IR F _ FU S M DT DF ET EF W dperm dperm_ok cap cap_pos a2b_ a2b_ok st0 st1 s pub o xs zs t wss bitsize Y0 Y1 Hs Lb Hn Ho Ht Hl).
  Qed.
  (** every column in the stable order of one key column, which is the merge of the private and the
      public keys described by [order] *)
  Theorem C24_radix_sort_fields_vec_by st0 st1 s pub o (xs zs : list F) t wss bitsize : synced st0 -> synced st1 -> shares_vec s xs -> (1 <= bitsize <= W)%nat ->
    (N.of_nat (length zs) <= max_len)%N -> interleaves o xs pub zs -> pvec (@shares_vec F _) t wss -> Forall (fun ws => length ws = length zs) wss ->
    exists sigma, stable_order (length zs) (low_bits bitsize zs) sigma /\
      all_ok cap (fun i => sort_by i (st0 i) (st1 i) (s i) pub o (t i) bitsize)
        (fun r => pvec (@shares_vec F _) (fun i => fst (r i)) (map (fun ws => select_at 0 ws sigma) wss) /\
                  synced (fun i => fst (snd (r i))) /\ synced (fun i => snd (snd (r i)))).
  Proof. exact (@sort_by_spec st0 st1 s pub o xs zs t wss bitsize). Qed.

  (** *** Rejected inputs *)
  Lemma too_many_wpo st0 st1 (s : pid -> list (share F)) pub bitsize n : (forall i, length (s i) = n) -> (max_len < N.of_nat (n + length pub))%N ->
    wpo cap (fun i => sort i (st0 i) (st1 i) (s i) pub bitsize)
      (fun o => forall i, o i = Failed (Eyre "Too many inputs for radix sort. Use a larger PermRing.")).
  Proof.
    intros Ls Hn. eapply wpo_ext with (qs := fun _ => Fail too_many_err); [|apply wpo_fail; reflexivity].
    intros i. unfold radix_sort_fields, too_many. rewrite Ls. destruct (N.ltb_spec max_len (N.of_nat (n + length pub))); [reflexivity|lia].
  Qed.
  Theorem C24_too_many st0 st1 (s : pid -> list (share F)) pub bitsize n : (forall i, length (s i) = n) -> (max_len < N.of_nat (n + length pub))%N ->
    all_end cap (fun i => sort i (st0 i) (st1 i) (s i) pub bitsize)
      (fun o => forall i, o i = Failed (Eyre "Too many inputs for radix sort. Use a larger PermRing.")).
  Proof. exact (fun Ls Hn => wpo_all_end (@too_many_wpo st0 st1 s pub bitsize n Ls Hn)). Qed.
  Lemma too_wide_wpo st0 st1 (s : pid -> list (share F)) pub bitsize n : (forall i, length (s i) = n) -> (N.of_nat (n + length pub) <= max_len)%N -> (W < bitsize)%nat ->
    wpo cap (fun i => sort i (st0 i) (st1 i) (s i) pub bitsize) (fun o => forall i, is_panic (o i)).
  Proof.
    intros Ls Hn Lb. eapply wpo_ext with (qs := fun _ => Fail (Panic oob)); [|apply wpo_fail; intros i; eexists; reflexivity].
    intros i. unfold radix_sort_fields, too_many. rewrite Ls. destruct (N.ltb_spec max_len (N.of_nat (n + length pub))); [lia|].
    unfold gen_perm, decompose, umask_checked. destruct (Nat.leb_spec bitsize W); [lia|]. reflexivity.
  Qed.
  Theorem C24_too_wide_panics st0 st1 (s : pid -> list (share F)) pub bitsize n : (forall i, length (s i) = n) -> (N.of_nat (n + length pub) <= max_len)%N -> (W < bitsize)%nat ->
    all_end cap (fun i => sort i (st0 i) (st1 i) (s i) pub bitsize) (fun o => forall i, is_panic (o i)).
  Proof. exact (fun Ls Hn Lb => wpo_all_end (@too_wide_wpo st0 st1 s pub bitsize n Ls Hn Lb)). Qed.
  Lemma order_wpo st0 st1 s pub o (xs : list F) t bitsize : synced st0 -> synced st1 -> shares_vec s xs -> (1 <= bitsize <= W)%nat ->
    (N.of_nat (length xs + length pub) <= max_len)%N ->
    count_occ bool_dec o true <> length xs \/ count_occ bool_dec o false <> length pub ->
    wpo cap (fun i => sort_by i (st0 i) (st1 i) (s i) pub o (t i) bitsize) (fun o => forall i, is_panic (o i)).
  Proof.
    intros Y0 Y1 Hs Lb Hn Ho.
    assert (E1 : forall l, length (filter (fun b : bool => b) l) = count_occ bool_dec l true).
    { intros l. induction l as [|[] l IH]; cbn; congruence. }
    assert (E2 : forall l, length (filter negb l) = count_occ bool_dec l false).
    { intros l. induction l as [|[] l IH]; cbn; congruence. }
    eapply wpo_mono with (Q := fun o => forall i, o i = Failed (Panic bad_d)); [intros q Hq i; rewrite Hq; eexists; reflexivity|].
    unfold radix_sort_fields_vec_by.
    eapply wpo_ext with (qs := fun i => bind (gen_perm_ordered W dperm a2b_ i (st0 i) (st1 i) (s i) pub o bitsize) (fun perm =>
      apply_all dperm i (fst (snd perm)) (snd (snd perm)) (fst perm) (t i))).
    { intros i. rewrite (pvec_len i Hs), (proj2 (too_many_fits _) Hn). reflexivity. }
    apply wpo_seq. eapply wpo_mono with (Q := fun o => forall i, o i = Failed (Panic bad_d)).
    { intros q Hq. eapply wpo_ext with (qs := fun i => Fail (Panic bad_d)); [intros i; rewrite Hq; reflexivity|]. apply wpo_fail. reflexivity. }
    unfold gen_perm_ordered. apply wpo_bind.
    eapply wp_mono; [|apply (@decompose_wp F _ FU S M W cap a2b_ a2b_ok st0 st1 s xs bitsize Y0 Y1 Hs (proj2 Lb))]. intros d (D1 & D2 & D3).
    apply wpo_seq. eapply wpo_mono with (Q := fun o => forall i, o i = Failed (Panic bad_d)).
    { intros q Hq. eapply wpo_ext with (qs := fun i => Fail (Panic bad_d)); [intros i; rewrite Hq; reflexivity|]. apply wpo_fail. reflexivity. }
    unfold ordered_bits. apply wpo_bind. eapply wp_mono; [|apply (inject_bit_wp cap_pos 0 D2 D1)]. intros r [R1 R2].
    eapply wpo_ext with (qs := fun i => Fail (Panic bad_d)); [|apply wpo_fail; reflexivity].
    intros i. unfold order_and_promote. rewrite (pvec_len i R1), !map_length, E1, E2. unfold inject_public_bit. rewrite map_length.
    destruct (Nat.eqb_spec (length xs) (count_occ bool_dec o true)); cbn [negb]; [|reflexivity].
    destruct (Nat.eqb_spec (length pub) (count_occ bool_dec o false)); cbn [negb]; [|reflexivity]. lia.
  Qed.
  (** an [order] that does not list as many private and public keys as given *)
  Theorem C24_order_mismatch_panics st0 st1 s pub o (xs : list F) t bitsize : synced st0 -> synced st1 -> shares_vec s xs -> (1 <= bitsize <= W)%nat ->
    (N.of_nat (length xs + length pub) <= max_len)%N ->
    count_occ bool_dec o true <> length xs \/ count_occ bool_dec o false <> length pub ->
    all_end cap (fun i => sort_by i (st0 i) (st1 i) (s i) pub o (t i) bitsize) (fun o => forall i, is_panic (o i)).
  Proof. exact (fun Y0 Y1 Hs Lb Hn Ho => wpo_all_end (@order_wpo st0 st1 s pub o xs t bitsize Y0 Y1 Hs Lb Hn Ho)). Qed.

  (** *** [bitsize = 0]: the private keys are all taken as zero, but the public ones by their lowest bit *)
  Lemma sort_zero_wp st0 st1 s pub (xs : list F) : synced st0 -> synced st1 -> shares_vec s xs -> (N.of_nat (length xs + length pub) <= max_len)%N ->
    exists sigma, stable_order (length (xs ++ pub)) (low_bits 1 (map (fun _ => 0) xs ++ pub)) sigma /\
      wp cap (fun i => sort i (st0 i) (st1 i) (s i) pub 0)
        (fun r => shares_vec (fun i => fst (r i)) (select_at 0 (xs ++ pub) sigma)).
  Proof.
    intros Y0 Y1 Hs Hn. set (zs := map (fun _ : F => 0 : F) xs ++ pub). eexists. split; [apply sorted_stable|].
    unfold radix_sort_fields.
    eapply wp_ext with (qs := fun i => bind (gen_perm W dperm a2b_ i (st0 i) (st1 i) (s i) pub 0) (fun perm =>
      apply_inv dperm i (fst (snd perm)) (snd (snd perm)) (fst perm) (s i ++ map (promote i) pub) [])).
    { intros i. rewrite (pvec_len i Hs), (proj2 (too_many_fits _) Hn). reflexivity. }
    apply wp_bind. eapply wp_mono with (Q := fun r => sort_ranks (length xs + length pub) 1 zs (fun i => fst (r i)) /\ synced (fun i => fst (snd (r i))) /\ synced (fun i => snd (snd (r i)))).
    - intros p (Hp1 & Hp2 & Hp3). rewrite <- app_length in Hp1, Hn.
      eapply wp_mono; [|apply (@apply_sorted T _ IR F _ FU S M DT DF ET EF dperm dperm_ok cap cap_pos (fun i => fst (snd (p i))) (fun i => snd (snd (p i))) (fun i => fst (p i)) (fun i => s i ++ map (promote i) pub) (xs ++ pub) _ 1 zs Hp2 Hp3 Hn Hp1);
        [apply pvec_app; [exact Hs|apply promote_all]|reflexivity]].
      intros r [R1 _]. exact R1.
    - unfold gen_perm. apply wp_bind.
      eapply wp_mono; [|apply (@decompose_wp F _ FU S M W cap a2b_ a2b_ok st0 st1 s xs 0 Y0 Y1 Hs (Nat.le_0_l W))]. intros d (D1 & D2 & D3).
      assert (Ez : map (fun x : F => N.land (to_uint x) (umask 0)) xs = map (fun x : F => N.land (to_uint x) (umask 1)) (map (fun _ => 0) xs)).
      { rewrite map_map. apply map_ext. intros x. rewrite to_uint_zero. cbn. apply N.land_0_r. }
      rewrite Ez in D1.
      refine (@radix_wp T _ IR F _ FU S M DT ET dperm dperm_ok cap cap_pos (fun i => perm_bits i (fst (d i)) pub) (length xs + length pub) 1 zs (fun i => fst (snd (d i))) (fun i => snd (snd (d i))) Hn (le_n 1) D2 D3 _).
      intros st k Lk Hst. pose proof (@perm_bits_wp T _ F _ FU S M DT ET cap cap_pos st (fun i => fst (d i)) pub (map (fun _ => 0) xs) 1 k Hst Lk D1) as HB.
      rewrite map_length in HB. exact HB.
  Qed.
  Theorem C24_bitsize_zero st0 st1 s pub (xs : list F) : synced st0 -> synced st1 -> shares_vec s xs -> (N.of_nat (length xs + length pub) <= max_len)%N ->
    exists sigma, stable_order (length (xs ++ pub)) (low_bits 1 (map (fun _ => 0) xs ++ pub)) sigma /\
      all_ok cap (fun i => sort i (st0 i) (st1 i) (s i) pub 0)
        (fun r => shares_vec (fun i => fst (r i)) (select_at 0 (xs ++ pub) sigma)).
  Proof.
    exact (fun Y0 Y1 Hs Hn => match @sort_zero_wp st0 st1 s pub xs Y0 Y1 Hs Hn with
      | ex_intro _ sigma (conj HA HB) => ex_intro _ sigma (conj HA (wp_all_ok HB)) end).
  Qed.
End SortStatements.

(** ** Examples: the hypotheses are met *)
Definition dperm13 (n : nat) (s : Z) : list nat * Z := (if Z.even (s / 65536) then rev (seq 0 n) else seq 0 n, ((s * 1103515245 + 12345) mod 2147483648)%Z).
Lemma dperm13_ok n s : Permutation (fst (dperm13 n s)) (seq 0 n).
Proof. unfold dperm13. cbn [fst]. destruct (Z.even _); [symmetry; apply Permutation_rev|reflexivity]. Qed.
Example ex_sort_width : (mbs F13 + 2 <= 64)%nat.
Proof. vm_compute. repeat constructor. Qed.
Definition sh3 : pid -> list (share F13) := fun i => [sh13 9 7 11 i; sh13 2 1 5 i; sh13 10 3 3 i].
Lemma sh3_shares : shares_vec sh3 (map f13 [9; 2; 10]%Z).
Proof. repeat (eapply pvec_cons; [intros i; reflexivity|apply sh13_shares|]). apply pvec_nil. reflexivity. Qed.
(** a shuffle and its inverse *)
Example ex_C24_unshuffle : all_ok 1 (fun i => r <- shuffle (M := rmsg 32) i (st13 i) [2; 0; 1]%nat [2; 0; 1]%nat (sh3 i) [] ;;
      unshuffle i (snd r) [2; 0; 1]%nat [2; 0; 1]%nat (fst r))
  (fun r => shares_vec (fun i => fst (r i)) (map f13 [9; 2; 10]%Z ++ []) /\ synced (fun i => snd (r i))).
Proof.
  apply (@C24_unshuffle_inverts F13 _ Z (rmsg 32) _ _ 1 (le_n 1) 3 (fun _ => [2; 0; 1]%nat)).
  - intros i. apply NoDup_Permutation; [repeat constructor; cbn; lia|apply seq_NoDup|]. intros x. cbn. lia.
  - exact st13_synced.
  - exact sh3_shares.
  - reflexivity.
Qed.
(** two private keys, one public *)
Example ex_C24_sort : exists sigma, stable_order 5 (low_bits 3 (map f13 [9; 2; 10; 1; 3]%Z)) sigma /\
  all_ok 1 (fun i => radix_sort_fields (T := R2 32) (M := rmsg 32) 64 dperm13 (fun i s a => a2b 64 du13 i s a) i (st13 i) (st13 i) (sh3 i) (map f13 [1; 3]%Z) 3)
    (fun r => shares_vec (fun i => fst (r i)) (select_at 0 (map f13 [9; 2; 10; 1; 3]%Z) sigma) /\
              synced (fun i => fst (snd (r i))) /\ synced (fun i => snd (snd (r i)))).
Proof.
  refine (@C24_radix_sort_fields (R2 32) _ _ F13 _ _ Z (rmsg 32) _ _ _ _ _ _ 64 du13 dperm13 dperm13_ok ex_sort_width 1 (le_n 1)
    st13 st13 sh3 (map f13 [1; 3]%Z) (map f13 [9; 2; 10]%Z) 3 st13_synced st13_synced sh3_shares _ _).
  - lia.
  - apply N.leb_le. reflexivity.
Qed.
(** by the low three bits, 9, 2, 10, 1, 3 are 1, 2, 2, 1, 3: the order is unique, and 9 stays before 1 *)
Example ex_C24_order : stable_order 5 (low_bits 3 (map f13 [9; 2; 10; 1; 3]%Z)) [0; 3; 1; 2; 4]%nat.
Proof.
  split.
  - apply NoDup_Permutation; [repeat constructor; cbn; lia|apply seq_NoDup|]. intros x. cbn. lia.
  - intros i j [L1 L2]. apply beforeb_spec.
    destruct j as [|[|[|[|[|j]]]]]; try lia; destruct i as [|[|[|[|i]]]]; try lia; vm_compute; reflexivity.
Qed.
Example ex_C24_by : exists sigma, stable_order 3 (low_bits 4 (map f13 [4; 2; 10]%Z)) sigma /\
  all_ok 1 (fun i => radix_sort_fields_vec_by (T := R2 32) (M := rmsg 32) 64 dperm13 (fun i s a => a2b 64 du13 i s a) i (st13 i) (st13 i)
       [sh13 4 7 11 i; sh13 10 3 3 i] [f13 2] [true; false; true] [sh3 i; sh3 i] 4)
    (fun r => pvec (@shares_vec F13 _) (fun i => fst (r i)) (map (fun ws => select_at 0 ws sigma) [map f13 [9; 2; 10]%Z; map f13 [9; 2; 10]%Z]) /\
              synced (fun i => fst (snd (r i))) /\ synced (fun i => snd (snd (r i)))).
Proof.
  refine (@C24_radix_sort_fields_vec_by (R2 32) _ _ F13 _ _ Z (rmsg 32) _ _ _ _ _ _ 64 du13 dperm13 dperm13_ok ex_sort_width 1 (le_n 1)
    st13 st13 (fun i => [sh13 4 7 11 i; sh13 10 3 3 i]) [f13 2] [true; false; true] (map f13 [4; 10]%Z) (map f13 [4; 2; 10]%Z) (fun i => [sh3 i; sh3 i]) _ 4 st13_synced st13_synced _ _ _ _ _ _).
  - repeat (eapply pvec_cons; [intros i; reflexivity|apply sh13_shares|]). apply pvec_nil. reflexivity.
  - lia.
  - apply N.leb_le. reflexivity.
  - repeat constructor.
  - repeat (eapply pvec_cons; [intros i; reflexivity|exact sh3_shares|]). apply pvec_nil. reflexivity.
  - repeat constructor.
Qed.
(** ** Sorting by no bits at all moves elements
    With [bitsize = 0] every key is zero, so a stable sort leaves the inputs where they are; the code
    sorts public inputs by their lowest bit. *)
Theorem C24_bitsize_zero_refuted :
  exists (pub : list F13) (ys : list F13),
    all_ok 1 (fun i => radix_sort_fields (T := R2 32) (M := rmsg 32) 64 dperm13 (fun i s a => a2b 64 du13 i s a) i (st13 i) (st13 i) (sh3 i) pub 0)
      (fun r => shares_vec (fun i => fst (r i)) ys) /\
    forall sigma, stable_order 5 (low_bits 0 (map f13 [9; 2; 10]%Z ++ pub)) sigma -> select_at 0 (map f13 [9; 2; 10]%Z ++ pub) sigma <> ys.
Proof.
  exists (map f13 [3; 4]%Z).
  destruct (@sort_zero_wp (R2 32) _ _ F13 _ _ Z (rmsg 32) _ _ _ _ _ _ 64 du13 dperm13 dperm13_ok ex_sort_width 1 (le_n 1)
    st13 st13 sh3 (map f13 [3; 4]%Z) (map f13 [9; 2; 10]%Z) st13_synced st13_synced sh3_shares ltac:(apply N.leb_le; reflexivity)) as (sigma & Hs & Hw).
  exists (select_at 0 (map f13 [9; 2; 10]%Z ++ map f13 [3; 4]%Z) sigma). split; [exact (wp_all_ok Hw)|].
  intros sigma' Hs'.
  assert (L3 : (nth 4 sigma 0 = 3)%nat).
  { destruct Hs as [Hperm Ho]. destruct (perm_index Hperm (j := 3)) as [I1 I2]; [cbn; lia|].
    destruct (Nat.eq_dec (pindex sigma 3) 4) as [E|E]; [rewrite <- E; exact I2|]. exfalso. change (length (map f13 [9; 2; 10]%Z ++ map f13 [3; 4]%Z)) with 5%nat in *.
    pose proof (Ho (pindex sigma 3) 4%nat ltac:(lia)) as B. rewrite I2 in B. pose proof (perm_lt Hperm (k := 4) ltac:(lia)) as L4.
    assert (NE : nth 4 sigma O <> 3%nat) by (intros C; apply E; apply (perm_inj Hperm); [exact I1|lia|congruence]).
    destruct (nth 4 sigma O) as [|[|[|[|[|x]]]]]; try (destruct B as [B|[B _]]; vm_compute in B; discriminate B); lia. }
  assert (L4 : (nth 4 sigma' 0 = 4)%nat).
  { destruct Hs' as [Hperm Ho]. destruct (perm_index Hperm (j := 4)) as [I1 I2]; [lia|].
    destruct (Nat.eq_dec (pindex sigma' 4) 4) as [E|E]; [rewrite E in I2; exact I2|]. exfalso.
    pose proof (Ho (pindex sigma' 4) 4%nat ltac:(lia)) as B. rewrite I2 in B. pose proof (perm_lt Hperm (k := 4) ltac:(lia)) as L4.
    destruct B as [B|[_ B]]; [|lia]. unfold low_bits in B. rewrite !N.mod_1_r in B. lia. }
  intros C. apply (f_equal (fun l => nth 4 l (f13 0))) in C. unfold select_at in C.
  rewrite !(@map_at _ _ (fun k => nth k (map f13 [9; 2; 10]%Z ++ map f13 [3; 4]%Z) 0) _ _ O) in C.
  - rewrite L3, L4 in C. vm_compute in C. discriminate C.
  - rewrite (SortRank.perm_len (proj1 Hs)). cbn. lia.
  - rewrite (SortRank.perm_len (proj1 Hs')). lia.
Qed.
Print Assumptions C24_shuffle.
Print Assumptions C24_unshuffle_inverts.
Print Assumptions C24_radix_sort_fields.
Print Assumptions C24_radix_sort_fields_sorted.
Print Assumptions C24_radix_sort_fields_vec_by.
Print Assumptions C24_too_many.
Print Assumptions C24_too_wide_panics.
Print Assumptions C24_order_mismatch_panics.
Print Assumptions C24_bitsize_zero.
Print Assumptions C24_bitsize_zero_refuted.
