(** * Properties of one-hot vectors and lookup tables (C22, C23) *)
From Coq Require Import String List Arith NArith ZArith Lia Bool.
From Verif Require Import Proc Alg Zp Rep3Net Rep3 Rep3Spec Rep3Proofs Rep3Wp Uint Binary BinaryWp Conv ConvWp Ring2k Lut LutWp LutProv Join Concrete ConcreteU.
Import ListNotations.
Set Implicit Arguments.
Local Open Scope grp_scope.

(** Specification: the vector with a one at [v] and zeros elsewhere. *)
Definition unit_vec (n v : nat) : list N := map (fun j => if (j =? v)%nat then 1%N else 0%N) (seq 0 n).
Lemma unit_onehot k v : onehot k v = unit_vec (2 ^ k) v.
Proof. apply map_ext. intros j. destruct (j =? v)%nat; reflexivity. Qed.

Section Statements.
  Context {F : Type} `{FU : FieldUint F} {S M : Type} (dbg : bool) (W : nat)
          (du dw : nat -> S -> N * S) {DF : Draw S F}.
  Context {EN : Enc M (list N)} {ENN : Enc M (list (N * N))}
          {EL : Enc M (list (list N))} {ELL : Enc M (list (list N * list N))} {EF : Enc M (list F)}
          (cap : nat) (cap_pos : (1 <= cap)%nat).
  (** a draw from a [K]-bit type is below [2^K] *)
  Context (dw_lt : forall K s, (fst (dw K s) < 2 ^ N.of_nat K)%N).
  (** the width contract of uint/field_uint.rs:9-14 *)
  Context (width : (mbs F + 2 <= W)%nat).
  Implicit Types (st : pid -> rst S).
  Notation a2b_ := (fun i s a => a2b W du i s a).
  Notation b2a_ := (fun i s a => b2a W du i s a).
  Lemma a2b_ok st a (x : F) : synced st -> shares a x ->
    wp (M := M) cap (fun i => a2b_ i (st i) (a i)) (fun r => shares (fun i => fst (r i)) (to_uint x) /\ synced (fun i => snd (r i))).
  Proof. exact (fun Hs Ha => a2b_wp du cap_pos width Hs Ha). Qed.
  Lemma b2a_ok st a u : synced st -> shares a u -> (u < fu_p (F := F))%N ->
    wp (M := M) cap (fun i => b2a_ i (st i) (a i)) (fun r => shares (fun i => fst (r i)) (of_uint u) /\ synced (fun i => snd (r i))).
  Proof. exact (fun Hs Ha Hu => b2a_wp du cap_pos width Hs Ha Hu). Qed.

  (** ** C22 *)
  Lemma ohv_unit K k st bits x : (1 <= k <= K)%nat -> synced st -> shares bits x ->
    wp cap (fun i => ohv dbg dw K k i (st i) (bits i))
      (fun r => shares_vec (fun i => fst (r i)) (unit_vec (2 ^ k) (N.to_nat (x mod 2 ^ N.of_nat k))) /\ synced (fun i => snd (r i))).
  Proof. intros Hk Hs Hb. rewrite <- unit_onehot. exact (ohv_wp dbg dw cap_pos Hk Hs Hb). Qed.
  Theorem C22_ohv K k st bits x : (1 <= k <= K)%nat -> synced st -> shares bits x ->
    all_ok cap (fun i => ohv dbg dw K k i (st i) (bits i))
      (fun r => shares_vec (fun i => fst (r i)) (unit_vec (2 ^ k) (N.to_nat (x mod 2 ^ N.of_nat k))) /\ synced (fun i => snd (r i))).
  Proof. exact (fun Hk Hs Hb => wp_all_ok (ohv_unit Hk Hs Hb)). Qed.
  (** [rand_ohv]: a shared [r] below [2^k] and the one-hot vector of it *)
  Lemma rand_ohv_unit K k st : (1 <= k <= K)%nat -> synced st ->
    wp cap (fun i => rand_ohv dbg dw K k i (st i))
      (fun r => (exists x, (x < 2 ^ N.of_nat k)%N /\ shares (fun i => fst (fst (r i))) x /\
                   shares_vec (fun i => snd (fst (r i))) (unit_vec (2 ^ k) (N.to_nat x))) /\ synced (fun i => snd (r i))).
  Proof.
    intros Hk Hs. eapply wp_mono; [|apply (@rand_ohv_wp _ _ dbg dw _ _ _ cap_pos dw_lt K k st Hk Hs)].
    intros r [(x & R1 & R2 & R3) R4]. split; [|exact R4]. exists x. pose proof (narrow_lt R3 R1) as L.
    rewrite (N.mod_small x) in R2 by exact L. rewrite <- unit_onehot. exact (conj L (conj R1 R2)).
  Qed.
  Theorem C22_rand_ohv K k st : (1 <= k <= K)%nat -> synced st ->
    all_ok cap (fun i => rand_ohv dbg dw K k i (st i))
      (fun r => (exists x, (x < 2 ^ N.of_nat k)%N /\ shares (fun i => fst (fst (r i))) x /\
                   shares_vec (fun i => snd (fst (r i))) (unit_vec (2 ^ k) (N.to_nat x))) /\ synced (fun i => snd (r i))).
  Proof. exact (fun Hk Hs => wp_all_ok (rand_ohv_unit Hk Hs)). Qed.
  (** [k = 0] panics at every party *)
  Theorem C22_ohv_zero_panics K st bits :
    all_end cap (fun i => ohv (M := M) dbg dw K 0 i (st i) (bits i)) (fun o => forall i, is_panic (o i)).
  Proof. exact (wpo_all_end (wpo_fail cap _ _ (fun i => ex_intro _ _ eq_refl))). Qed.
  Theorem C22_ohv_from_index st index (x : F) n : (2 <= n)%nat -> (lut_bits n <= 32)%nat -> synced st -> shares index x ->
    all_ok cap (fun i => ohv_from_index dbg dw a2b_ (index i) n i (st i))
      (fun r => shares_vec (fun i => fst (r i))
                  (map (fun j => if (j =? N.to_nat (to_uint x mod 2 ^ N.of_nat (lut_bits n)))%nat then rone else 0) (seq 0 (2 ^ lut_bits n))) /\
                synced (fun i => snd (r i))).
  Proof.
    exact (fun Hn Hb Hs Hi => wp_all_ok (eq_ind _ (fun l => wp cap _ (fun r => shares_vec _ l /\ _))
      (ohv_from_index_wp dbg dw cap_pos a2b_ a2b_ok Hn Hb Hs Hi) _ (injv_eq _ _))).
  Qed.

  (** ** C23: reading.  The index is taken modulo the (even) power of two the table is padded to;
      entries past the end read as zero. *)
  Theorem C23_get_public st0 st1 index (x : F) l : (3 <= length l)%nat -> (lut_bits (length l) <= 32)%nat ->
    synced st0 -> synced st1 -> shares index x ->
    all_ok cap (fun i => get_from_lut dbg du dw a2b_ b2a_ (index i) (Public l) i (st0 i) (st1 i))
      (fun r => shares (fun i => fst (r i)) (nth (N.to_nat (to_uint x mod 2 ^ N.of_nat (make_even (lut_bits (length l))))) l 0) /\
                synced (fun i => fst (snd (r i))) /\ synced (fun i => snd (snd (r i)))).
  Proof.
    exact (fun H1 H2 H3 H4 H5 => wp_all_ok (get_from_lut_public_wp dbg du dw cap_pos dw_lt a2b_ b2a_ a2b_ok b2a_ok l H1 H2 H3 H4 H5)).
  Qed.
  Theorem C23_get_shared st0 st1 index (x : F) lut l : (2 <= length l)%nat -> (lut_bits (length l) <= 32)%nat ->
    synced st0 -> synced st1 -> shares index x -> shares_vec lut l ->
    all_ok cap (fun i => get_from_lut dbg du dw a2b_ b2a_ (index i) (Shared (lut i)) i (st0 i) (st1 i))
      (fun r => shares (fun i => fst (r i)) (nth (N.to_nat (to_uint x mod 2 ^ N.of_nat (lut_bits (length l)))) l 0) /\
                synced (fun i => fst (snd (r i))) /\ synced (fun i => snd (snd (r i)))).
  Proof.
    exact (fun H1 H2 H3 H4 H5 H6 => wp_all_ok (get_from_lut_shared_wp dbg du dw cap_pos a2b_ b2a_ a2b_ok H1 H2 H3 H4 H5 H6)).
  Qed.
  (** an index inside the table reads exactly that entry *)
  Lemma in_bounds (x : F) n k : (to_uint x < N.of_nat n)%N -> (lut_bits n <= k)%nat -> N.to_nat (to_uint x mod 2 ^ N.of_nat k) = N.to_nat (to_uint x).
  Proof.
    intros Hx Hk. rewrite N.mod_small; [reflexivity|]. eapply N.lt_le_trans; [exact Hx|].
    eapply N.le_trans; [|apply N.pow_le_mono_r; [lia|]; apply N2Z.inj_le; rewrite !nat_N_Z; apply Nat2Z.inj_le, Hk].
    rewrite <- pow2_nat_N. pose proof (lut_bits_ge n). lia.
  Qed.
  Theorem C23_in_bounds (x : F) n : (to_uint x < N.of_nat n)%N ->
    N.to_nat (to_uint x mod 2 ^ N.of_nat (lut_bits n)) = N.to_nat (to_uint x) /\
    N.to_nat (to_uint x mod 2 ^ N.of_nat (make_even (lut_bits n))) = N.to_nat (to_uint x).
  Proof. exact (fun H1 => conj (in_bounds _ _ H1 (le_n _)) (in_bounds _ _ H1 (proj1 (make_even_ge _)))). Qed.
  Lemma get_public_in st0 st1 index (x : F) l : (3 <= length l)%nat -> (lut_bits (length l) <= 32)%nat -> (to_uint x < N.of_nat (length l))%N ->
    synced st0 -> synced st1 -> shares index x ->
    wp cap (fun i => get_from_lut dbg du dw a2b_ b2a_ (index i) (Public l) i (st0 i) (st1 i))
      (fun r => exists v, nth_error l (N.to_nat (to_uint x)) = Some v /\ shares (fun i => fst (r i)) v).
  Proof.
    intros H1 H2 H3 H4 H5 H6. eapply wp_mono; [|apply (get_from_lut_public_wp dbg du dw cap_pos dw_lt a2b_ b2a_ a2b_ok b2a_ok l H1 H2 H4 H5 H6)].
    intros r [R1 _]. rewrite (proj2 (C23_in_bounds _ _ H3)) in R1.
    eexists. split; [apply nth_error_nth'; lia|exact R1].
  Qed.
  Theorem C23_get_public_in_bounds st0 st1 index (x : F) l : (3 <= length l)%nat -> (lut_bits (length l) <= 32)%nat -> (to_uint x < N.of_nat (length l))%N ->
    synced st0 -> synced st1 -> shares index x ->
    all_ok cap (fun i => get_from_lut dbg du dw a2b_ b2a_ (index i) (Public l) i (st0 i) (st1 i))
      (fun r => exists v, nth_error l (N.to_nat (to_uint x)) = Some v /\ shares (fun i => fst (r i)) v).
  Proof. exact (fun H1 H2 H3 H4 H5 H6 => wp_all_ok (get_public_in l H1 H2 H3 H4 H5 H6)). Qed.
  Lemma get_shared_in st0 st1 index (x : F) lut l : (2 <= length l)%nat -> (lut_bits (length l) <= 32)%nat -> (to_uint x < N.of_nat (length l))%N ->
    synced st0 -> synced st1 -> shares index x -> shares_vec lut l ->
    wp cap (fun i => get_from_lut dbg du dw a2b_ b2a_ (index i) (Shared (lut i)) i (st0 i) (st1 i))
      (fun r => exists v, nth_error l (N.to_nat (to_uint x)) = Some v /\ shares (fun i => fst (r i)) v).
  Proof.
    intros H1 H2 H3 H4 H5 H6 H7. eapply wp_mono; [|apply (get_from_lut_shared_wp dbg du dw cap_pos a2b_ b2a_ a2b_ok H1 H2 H4 H5 H6 H7)].
    intros r [R1 _]. rewrite (proj1 (C23_in_bounds _ _ H3)) in R1.
    eexists. split; [apply nth_error_nth'; lia|exact R1].
  Qed.
  Theorem C23_get_shared_in_bounds st0 st1 index (x : F) lut l : (2 <= length l)%nat -> (lut_bits (length l) <= 32)%nat -> (to_uint x < N.of_nat (length l))%N ->
    synced st0 -> synced st1 -> shares index x -> shares_vec lut l ->
    all_ok cap (fun i => get_from_lut dbg du dw a2b_ b2a_ (index i) (Shared (lut i)) i (st0 i) (st1 i))
      (fun r => exists v, nth_error l (N.to_nat (to_uint x)) = Some v /\ shares (fun i => fst (r i)) v).
  Proof. exact (fun H1 H2 H3 H4 H5 H6 H7 => wp_all_ok (get_shared_in H1 H2 H3 H4 H5 H6 H7)). Qed.
  (** several public tables of one length at once *)
  Theorem C23_get_public_many st0 st1 index (x : F) n luts : luts <> [] -> Forall (fun l => length l = n) luts ->
    (3 <= n)%nat -> (lut_bits n <= 32)%nat -> synced st0 -> synced st1 -> shares index x ->
    all_ok cap (fun i => get_from_public_luts dbg du dw a2b_ b2a_ (index i) luts i (st0 i) (st1 i))
      (fun r => shares_vec (fun i => fst (r i))
                  (map (fun l => nth (N.to_nat (to_uint x mod 2 ^ N.of_nat (make_even (lut_bits n)))) l 0) luts) /\
                synced (fun i => fst (snd (r i))) /\ synced (fun i => snd (snd (r i)))).
  Proof.
    exact (fun H1 H2 H3 H4 H5 H6 H7 => wp_all_ok (get_from_public_luts_wp dbg du dw cap_pos dw_lt a2b_ b2a_ a2b_ok b2a_ok H1 H2 H3 H4 H5 H6 H7)).
  Qed.
  (** reading without the conversion back to a field element *)
  Theorem C23_get_public_no_b2a K st0 st1 index x (l : list F) : (2 <= length l)%nat -> (make_even (lut_bits (length l)) <= K <= 32)%nat ->
    synced st0 -> synced st1 -> shares index x ->
    all_ok cap (fun i => get_from_public_lut_no_b2a dbg du dw K (index i) (Public l) i (st0 i) (st1 i))
      (fun r => shares (fun i => fst (r i))
                  (match nth_error l (N.to_nat (x mod 2 ^ N.of_nat (make_even (lut_bits (length l))))) with Some v => to_uint v | None => 0%N end) /\
                synced (fun i => fst (snd (r i))) /\ synced (fun i => snd (snd (r i)))).
  Proof.
    exact (fun H1 H2 H3 H4 H5 => wp_all_ok (get_no_b2a_wp dbg du dw cap_pos dw_lt l H1 H2 H3 H4 H5)).
  Qed.
  (** the single-vector variant *)
  Theorem C23_read_public K lut st index x : (2 <= length lut)%nat -> (lut_bits (length lut) <= K <= 64)%nat -> (x < 2 ^ 64)%N ->
    synced st -> shares index x ->
    all_ok cap (fun i => read_public_lut (F := F) dbg dw K lut i (st i) (index i))
      (fun r => shares (fun i => fst (r i))
                  (match nth_error lut (N.to_nat (x mod 2 ^ N.of_nat (lut_bits (length lut)))) with Some v => to_uint v | None => 0%N end) /\
                synced (fun i => snd (r i))).
  Proof. exact (fun H1 H2 H3 H4 H5 => wp_all_ok (read_public_lut_wp dbg dw cap_pos dw_lt lut H1 H2 H3 H4 H5)). Qed.

  (** ** C23: writing.  [holds t l]: the table is public with entries [l], or shared with sharings of them. *)
  Lemma write_spec st0 st1 index (x : F) value w t l : (2 <= length l)%nat -> (lut_bits (length l) <= 32)%nat ->
    synced st0 -> synced st1 -> shares index x -> shares value w -> holds t l ->
    wp cap (fun i => write_to_lut dbg dw a2b_ (index i) (value i) (t i) i (st0 i) (st1 i))
      (fun r => (exists s l', (forall i, fst (r i) = Shared (s i)) /\ shares_vec s l' /\ length l' = length l /\
                  forall j, nth_error l' j = match nth_error l j with
                                             | Some y => Some (if (j =? N.to_nat (to_uint x mod 2 ^ N.of_nat (lut_bits (length l))))%nat then w else y)
                                             | None => None end) /\
                synced (fun i => fst (snd (r i))) /\ synced (fun i => snd (snd (r i)))).
  Proof.
    intros H1 H2 H3 H4 H5 H6 H7.
    eapply wp_mono; [|apply (write_to_lut_wp dbg dw cap_pos a2b_ a2b_ok H1 H2 H3 H4 H5 H6 H7)].
    intros r ((s & R0 & R1) & R2). split; [|exact R2]. exists s. eexists. split; [exact R0|]. split; [exact R1|]. split; [|apply lupd_nth].
    unfold lupd. rewrite map2_length, seq_length. apply Nat.min_id.
  Qed.
  Theorem C23_write st0 st1 index (x : F) value w t l : (2 <= length l)%nat -> (lut_bits (length l) <= 32)%nat ->
    synced st0 -> synced st1 -> shares index x -> shares value w -> holds t l ->
    all_ok cap (fun i => write_to_lut dbg dw a2b_ (index i) (value i) (t i) i (st0 i) (st1 i))
      (fun r => (exists s l', (forall i, fst (r i) = Shared (s i)) /\ shares_vec s l' /\ length l' = length l /\
                  forall j, nth_error l' j = match nth_error l j with
                                             | Some y => Some (if (j =? N.to_nat (to_uint x mod 2 ^ N.of_nat (lut_bits (length l))))%nat then w else y)
                                             | None => None end) /\
                synced (fun i => fst (snd (r i))) /\ synced (fun i => snd (snd (r i)))).
  Proof. exact (fun H1 H2 H3 H4 H5 H6 H7 => wp_all_ok (write_spec H1 H2 H3 H4 H5 H6 H7)). Qed.
  Theorem C23_write_from_ohv st value (w : F) lut l ohv_ k v : (length l <= 2 ^ k)%nat ->
    synced st -> shares value w -> shares_vec lut l ->
    shares_vec ohv_ (map (fun j => if (j =? v)%nat then rone else 0) (seq 0 (2 ^ k))) ->
    all_ok cap (fun i => write_to_shared_lut_from_ohv (ohv_ i) (value i) (lut i) i (st i))
      (fun r => shares_vec (fun i => fst (r i)) (lupd v w l) /\ synced (fun i => snd (r i))).
  Proof.
    exact (fun H1 H2 H3 H4 H5 => wp_all_ok (write_lut_from_ohv_wp cap_pos k v H1 H2 H3 H4
      (eq_ind_r (fun l => shares_vec ohv_ l) H5 (injv_eq k v)))).
  Qed.

  (** ** Tables that cannot be handled *)
  (** a public table with exactly two entries cannot be read *)
  Theorem C23_get_public_two_panics st0 st1 index (x : F) l : length l = 2%nat -> synced st0 -> shares index x ->
    all_end cap (fun i => get_from_lut dbg du dw a2b_ b2a_ (index i) (Public l) i (st0 i) (st1 i))
      (fun o => forall i, o i = Failed (Panic "assertion failed: k <= T::K")).
  Proof. exact (fun H1 H2 H3 => wpo_all_end (get_public_two_panics dbg du dw a2b_ b2a_ a2b_ok st1 l H1 H2 H3)). Qed.
  (** tables with no or one entry can neither be read nor written *)
  Theorem C23_get_tiny_panics st0 st1 index (x : F) (t : pid -> pplut F) n : (n <= 1)%nat -> (forall i, pplen (t i) = n) ->
    (forall i, match t i with Public _ => True | Shared _ => False end) \/ (forall i, match t i with Public _ => False | Shared _ => True end) ->
    synced st0 -> shares index x ->
    all_end cap (fun i => get_from_lut dbg du dw a2b_ b2a_ (index i) (t i) i (st0 i) (st1 i)) (fun o => forall i, is_panic (o i)).
  Proof. exact (fun H1 H2 H3 H4 H5 => wpo_all_end (get_tiny_panics dbg du dw cap_pos a2b_ b2a_ a2b_ok st1 t H1 H2 H3 H4 H5)). Qed.
  Theorem C23_write_tiny_panics st0 st1 index (x : F) value (t : pid -> pplut F) n : (n <= 1)%nat -> (forall i, pplen (t i) = n) ->
    synced st0 -> shares index x ->
    all_end cap (fun i => write_to_lut dbg dw a2b_ (index i) (value i) (t i) i (st0 i) (st1 i)) (fun o => forall i, is_panic (o i)).
  Proof. exact (fun H1 H2 H3 H4 => wpo_all_end (write_tiny_panics dbg dw cap_pos a2b_ a2b_ok st1 value t H1 H2 H3 H4)). Qed.
  (** tables of different lengths cannot be read together *)
  Theorem C23_get_uneven_panics st0 st1 index (x : F) lut luts : In lut luts ->
    (length lut < list_max (map (@length F) luts))%nat -> (3 <= list_max (map (@length F) luts))%nat ->
    (lut_bits (list_max (map (@length F) luts)) <= 32)%nat -> synced st0 -> synced st1 -> shares index x ->
    all_end cap (fun i => get_from_public_luts dbg du dw a2b_ b2a_ (index i) luts i (st0 i) (st1 i))
      (fun o => forall i, o i = Failed (Panic "index out of bounds")).
  Proof. exact (fun H1 H2 H3 H4 H5 H6 H7 => wpo_all_end (get_public_luts_uneven_panics dbg du dw cap_pos dw_lt a2b_ b2a_ a2b_ok lut luts H1 H2 H3 H4 H5 H6 H7)). Qed.
End Statements.

(** ** The plain provider (mpc-core/src/lut.rs) *)
Theorem C23_plain_get {F X : Type} `{FU : FieldUint F} (x : F) (l : list X) d : (to_uint x < N.of_nat (length l))%N -> (N.of_nat (length l) <= 2 ^ 64)%N ->
  plain_get x l = Done (nth (N.to_nat (to_uint x)) l d).
Proof. exact (@plain_get_ok F X _ _ x l d). Qed.
Theorem C23_plain_get_oob {F X : Type} `{FU : FieldUint F} (x : F) (l : list X) : (N.of_nat (length l) <= to_uint x)%N -> exists e, plain_get x l = Failed e.
Proof. exact (@plain_get_oob F X _ _ x l). Qed.
Theorem C23_plain_write {F X : Type} `{FU : FieldUint F} (x : F) v (l : list X) : (to_uint x < N.of_nat (length l))%N -> (N.of_nat (length l) <= 2 ^ 64)%N ->
  exists l', plain_write x v l = Done l' /\ length l' = length l /\
    forall j, nth_error l' j = if (j =? N.to_nat (to_uint x))%nat then Some v else nth_error l j.
Proof. exact (@plain_write_ok F X _ _ x v l). Qed.
Theorem C23_plain_write_oob {F X : Type} `{FU : FieldUint F} (x : F) v (l : list X) : (N.of_nat (length l) <= to_uint x)%N -> exists e, plain_write x v l = Failed e.
Proof. exact (@plain_write_oob F X _ _ x v l). Qed.

(** ** Running sub-protocols at the same time on two networks (mpc-net/src/lib.rs:137-148):
    every interleaving has the result of running one after the other *)
Theorem C22_join {P M A B : Type} (peq : forall i j : P, {i = j} + {i <> j}) (mem : P -> Prop) (cap : nat)
    (ps : P -> prog P M A) (qs : P -> prog P M B) (a : P -> A) (b : P -> B) :
  runs mem cap ps (fun i => Done (a i)) -> runs mem cap qs (fun i => Done (b i)) ->
  every_schedule mem cap (fun i => x <- ps i ;; y <- qs i ;; Ret (x, y)) (fun o => forall i, o i = Done (a i, b i)) /\
  sys_ok (jstep (nstep mem cap) (nstep mem cap)) (init ps, init qs)
    (fun cd => finished mem (fst cd) (fun i => Done (a i)) /\ finished mem (snd cd) (fun i => Done (b i))).
Proof. exact (@join_sequential P M peq mem cap A B ps qs a b). Qed.

(** ** Examples: the hypotheses are met *)
(** drawing an element of a [K]-bit type *)
Definition dw13 : nat -> Z -> N * Z := du13.
Lemma dw13_lt K s : (fst (dw13 K s) < 2 ^ N.of_nat K)%N.
Proof. unfold dw13, du13. cbn [fst]. rewrite land_mask. apply N.mod_lt, N.pow_nonzero. discriminate. Qed.
Example ex_width : (mbs F13 + 2 <= 64)%nat.
Proof. vm_compute. repeat constructor. Qed.
Definition tab5 : list F13 := map (fun z => f13 z) [7; 3; 11; 0; 5]%Z.
Example ex_C22 : all_ok 1 (fun i => ohv (M := msg) true dw13 8 3 i (st13 i) (xs 6 5 9 i))
  (fun r => shares_vec (fun i => fst (r i)) [0; 0; 0; 0; 0; 0; 1; 0]%N /\ synced (fun i => snd (r i))).
Proof. exact (C22_ohv true dw13 (le_n 1) (conj (le_S _ _ (le_S _ _ (le_n 1))) (proj1 (Nat.leb_le 3 8) eq_refl)) st13_synced (xs_shares 6 5 9)). Qed.
Example ex_C23_get : all_ok 1 (fun i => get_from_lut (M := msg) true du13 dw13 (fun i s a => a2b 64 du13 i s a) (fun i s a => b2a 64 du13 i s a)
    (sh13 2 7 11 i) (Public tab5) i (st13 i) (st13 i))
  (fun r => exists v, nth_error tab5 2 = Some v /\ shares (fun i => fst (r i)) v).
Proof.
  apply (C23_get_public_in_bounds true du13 dw13 (le_n 1) dw13_lt ex_width tab5 (index := sh13 2 7 11) (x := f13 2)).
  - apply Nat.leb_le. reflexivity.
  - apply Nat.leb_le. reflexivity.
  - reflexivity.
  - exact st13_synced.
  - exact st13_synced.
  - exact (sh13_shares 2 7 11).
Qed.
Example ex_C23_entry : nth_error tab5 2 = Some (f13 11).
Proof. reflexivity. Qed.
(** an index past the end of a table of five entries reads zero; [holds] is met by both kinds of table *)
Example ex_C23_holds : holds (fun _ => Public tab5) tab5 /\ holds (fun i => Shared (map (promote i) tab5)) tab5.
Proof.
  split; [left; reflexivity|]. right. exists (fun i => map (promote i) tab5). split; [reflexivity|].
  exact (promote_list_ok (F := F13) tab5).
Qed.
Example ex_C23_uneven : In (firstn 3 tab5) [tab5; firstn 3 tab5] /\ (length (firstn 3 tab5) < list_max (map (@length F13) [tab5; firstn 3 tab5]))%nat.
Proof. split; [right; left; reflexivity|]. apply Nat.ltb_lt. reflexivity. Qed.

(** ** Out-of-bounds writes are not ignored
    mpc-core/src/lut.rs:55-59 documents that an index outside the table is ignored; in fact the index
    is reduced modulo the padded length, so entry 0 of a table of three is overwritten by index 4. *)
Definition tab3 : list F13 := map (fun z => f13 z) [7; 3; 11]%Z.
Theorem C23_write_out_of_bounds_ignored_refuted :
  exists (index value : pid -> share F13) (x w : F13), shares index x /\ shares value w /\ (N.of_nat (length tab3) <= to_uint x)%N /\
    all_ok 1 (fun i => write_to_lut (M := msg) true dw13 (fun i s a => a2b 64 du13 i s a) (index i) (value i) (Public tab3) i (st13 i) (st13 i))
      (fun r => exists s l', (forall i, fst (r i) = Shared (s i)) /\ shares_vec s l' /\ l' <> tab3 /\ nth_error l' 0 = Some w).
Proof.
  exists (sh13 4 7 11), (sh13 9 1 2), (f13 4), (f13 9).
  split; [exact (sh13_shares 4 7 11)|]. split; [exact (sh13_shares 9 1 2)|]. split; [apply N.leb_le; reflexivity|].
  apply wp_all_ok. eapply wp_mono; [|apply (@write_spec F13 _ _ Z msg true 64 du13 dw13 _ _ _ _ _ 1 (le_n 1) ex_width st13 st13 (sh13 4 7 11) (f13 4) (sh13 9 1 2) (f13 9) (fun _ => Public tab3) tab3);
    [apply Nat.leb_le; reflexivity|apply Nat.leb_le; reflexivity|exact st13_synced|exact st13_synced|exact (sh13_shares 4 7 11)|exact (sh13_shares 9 1 2)|left; reflexivity]].
  intros r ((s & l' & L0 & L1 & L2 & L3) & _). pose proof (L3 0%nat) as L4. cbn in L4.
  exists s, l'. split; [exact L0|]. split; [exact L1|]. split; [|exact L4]. intros ->. discriminate L4.
Qed.

Print Assumptions C22_ohv.
Print Assumptions C22_rand_ohv.
Print Assumptions C22_ohv_zero_panics.
Print Assumptions C22_ohv_from_index.
Print Assumptions C22_join.
Print Assumptions C23_get_public.
Print Assumptions C23_get_shared.
Print Assumptions C23_in_bounds.
Print Assumptions C23_get_public_in_bounds.
Print Assumptions C23_get_shared_in_bounds.
Print Assumptions C23_get_public_many.
Print Assumptions C23_get_public_no_b2a.
Print Assumptions C23_read_public.
Print Assumptions C23_write.
Print Assumptions C23_write_from_ohv.
Print Assumptions C23_get_public_two_panics.
Print Assumptions C23_get_tiny_panics.
Print Assumptions C23_write_tiny_panics.
Print Assumptions C23_get_uneven_panics.
Print Assumptions C23_plain_get.
Print Assumptions C23_plain_get_oob.
Print Assumptions C23_plain_write.
Print Assumptions C23_plain_write_oob.
Print Assumptions C23_write_out_of_bounds_ignored_refuted.
