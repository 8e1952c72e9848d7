(** * The wiring gives the identity of the grand product; the grand product satisfies its relations (C77, C78) *)
From Coq Require Import String List Arith Lia Bool Ring Permutation.
From Verif Require Import Proc Alg NNet Rep3 ShamirPoly Shamir ShamirAlg Univariate Sumcheck SumcheckSpec HonkRelations HonkSpec Decider Oink OinkWiring OinkTrace.
Import ListNotations.
Set Implicit Arguments.
Local Open Scope grp_scope.
Local Open Scope list_scope.

Section Blocks.
  Variable real : nat -> nat.
  (** the cells of a row *)
  Definition quad (r : nat) : list node := [(0, r); (1, r); (2, r); (3, r)]%nat.
  Lemma block_cells_app : forall b b' r, block_cells real r (b ++ b') = block_cells real r b ++ block_cells real (r + length b) b'.
  Proof.
    induction b as [|x b IH]; intros b' r; cbn [app block_cells length]; [rewrite Nat.add_0_r; reflexivity|].
    rewrite IH, app_assoc. do 2 f_equal. lia.
  Qed.
  Lemma trace_block : forall bs off, trace_cells real off bs = block_cells real off (concat bs).
  Proof. induction bs as [|b bs IH]; intros off; cbn [trace_cells concat]; [reflexivity|]. rewrite IH, block_cells_app. reflexivity. Qed.
  Lemma block_nodes : forall b r, map snd (block_cells real r b) = flat_map quad (seq r (length b)).
  Proof.
    induction b as [|x b IH]; intros r; [reflexivity|]. cbn [block_cells length seq flat_map]. rewrite map_app, IH. reflexivity.
  Qed.
  Lemma quads_in p r n : In p (flat_map quad (seq r n)) <-> fst p < 4 /\ r <= snd p < r + n.
  Proof.
    rewrite in_flat_map. split.
    - intros [x [I J]]. apply in_seq in I. unfold quad in J. destruct J as [<-|[<-|[<-|[<-|[]]]]]; cbn [fst snd]; lia.
    - intros [A B]. exists (snd p). split; [apply in_seq; lia|]. destruct p as [k x]. cbn [fst snd] in *. unfold quad.
      destruct k as [|[|[|[|k]]]]; [left|right; left|right; right; left|right; right; right; left|lia]; reflexivity.
  Qed.
  Lemma quads_nodup n : forall r, NoDup (flat_map quad (seq r n)).
  Proof.
    induction n as [|n IH]; intros r; [constructor|]. cbn [seq flat_map quad app].
    assert (N : forall k, ~ In (k, r) (flat_map quad (seq (S r) n))) by (intros k I; apply quads_in in I; cbn [snd] in I; lia).
    repeat constructor; try (apply IH); cbn [In]; intros H; repeat (destruct H as [H|H]; [discriminate H|]); exact (N _ H).
  Qed.
  Lemma active_all : forall bs off, active_idxs (active_ranges off bs) = seq off (length (concat bs)).
  Proof.
    induction bs as [|b bs IH]; intros off; [reflexivity|]. cbn [active_ranges concat]. unfold active_idxs. rewrite flat_map_app. fold (active_idxs (active_ranges (off + length b) bs)).
    rewrite IH, app_length. destruct (Nat.ltb_spec 0 (length b)) as [L|L].
    - cbn [flat_map fst snd]. rewrite app_nil_r. replace (off + length b - off)%nat with (length b) by lia. symmetry. apply seq_app.
    - replace (length b) with 0%nat by lia. cbn [flat_map app]. rewrite Nat.add_0_r. reflexivity.
  Qed.
  Lemma final_active_all : forall bs fin off, fst (fold_left (fun '(fin, off) (b : list (list nat)) => ((if (0 <? length b)%nat then off + length b - 1 else fin)%nat, (off + length b)%nat)) bs (fin, off)) =
    (if (0 <? length (concat bs))%nat then off + length (concat bs) - 1 else fin)%nat.
  Proof.
    induction bs as [|b bs IH]; intros fin off; [reflexivity|]. cbn [fold_left concat]. rewrite IH, app_length.
    destruct (Nat.ltb_spec 0 (length b)), (Nat.ltb_spec 0 (length (concat bs))), (Nat.ltb_spec 0 (length b + length (concat bs))); lia.
  Qed.
  Lemma final_row bs : 1 <= length (concat bs) -> final_active_row 1 bs = length (concat bs).
  Proof. intros H. unfold final_active_row. rewrite final_active_all. destruct (Nat.ltb_spec 0 (length (concat bs))); lia. Qed.
  (** the ranges follow each other without a gap *)
  Lemma ranges_adjacent : forall bs off i, Forall (fun p => (snd (fst p) <=? i) && (i <? fst (snd p)) = false)%nat (List.combine (active_ranges off bs) (tl (active_ranges off bs))) /\
    match active_ranges off bs with [] => True | p :: _ => fst p = off end.
  Proof.
    induction bs as [|b bs IH]; intros off i; [split; [constructor|exact I]|]. cbn [active_ranges]. destruct (IH (off + length b)%nat i) as [A B].
    destruct (Nat.ltb_spec 0 (length b)) as [L|L]; cbn [app tl].
    - split; [|reflexivity]. destruct (active_ranges (off + length b) bs) as [|p ps]; [constructor|]. cbn [List.combine]. constructor; [|exact A].
      cbn [fst snd]. rewrite B. destruct (Nat.leb_spec (off + length b) i), (Nat.ltb_spec i (off + length b)); cbn [andb]; try reflexivity; lia.
    - replace (off + length b)%nat with off in * by lia. split; [exact A|exact B].
  Qed.
  Lemma adjacent_cells rows j r : j < length rows -> real (nth 0 (nth j rows []) 0%nat) = real (nth 1 (nth j rows []) 0%nat) ->
    exists v A B, block_cells real r rows = A ++ (v, (0, r + j)%nat) :: (v, (1, r + j)%nat) :: B.
  Proof.
    intros Hj E. destruct (nth_split rows [] Hj) as (l1 & l2 & Sp & L). set (x := nth j rows []) in *. rewrite Sp, block_cells_app. cbn [block_cells row_cells seq map app].
    rewrite L, <- E. do 3 eexists. reflexivity.
  Qed.
End Blocks.

Section Grand.
  Context {F : Type} {FF : Fld F}.
  Add Ring FringOG : (@cring_theory F _).
  Infix "*" := rmul : grp_scope.
  Notation "1" := rone : grp_scope.

  Lemma nth_column sep size idxs (m : mapping) k i : i < size -> nth i (lagrange_column (F := F) sep size idxs m k) 0 = if existsb (Nat.eqb i) idxs then elem_value sep (m (k, i)) else 0.
  Proof.
    intros H. unfold lagrange_column. set (f := fun i => if existsb (Nat.eqb i) idxs then elem_value sep (m (k, i)) else 0).
    rewrite (nth_indep _ 0 (f 0%nat)) by (rewrite map_length, seq_length; exact H). rewrite map_nth, seq_nth by exact H. reflexivity.
  Qed.
  Lemma in_active i n : existsb (Nat.eqb i) (seq 1 n) = ((1 <=? i) && (i <=? n))%nat.
  Proof.
    apply eq_true_iff_eq. rewrite existsb_exists, andb_true_iff, !Nat.leb_le. split.
    - intros [x [I E]]. apply Nat.eqb_eq in E. subst x. apply in_seq in I. lia.
    - intros H. exists i. split; [apply in_seq; lia|apply Nat.eqb_refl].
  Qed.

  (** the columns sigma and id of a circuit *)
  Definition wired (sep size nv : nat) (real tags tau : nat -> nat) (blocks : list (list (list nat))) (num_public : nat) (fs : list (list F)) : Prop :=
    let idxs := active_idxs (active_ranges 1 blocks) in
    let maps := permutation_mapping nv tags tau (copy_cycles (trace_cells real 1 blocks)) num_public 1 in
    forall k, k < 4 -> nth (14 + k) fs [] = lagrange_column sep size idxs (fst maps) k /\ nth (18 + k) fs [] = lagrange_column sep size idxs (snd maps) k.

  Theorem wiring_product sep size nv real tags tau blocks (vals : nat -> F) fs beta gamma num_public d :
    let cells := trace_cells real 1 blocks in
    let rows := concat blocks in
    let n := length rows in
    let in_use := filter (fun v => existsb (fun c => (fst c =? v)%nat) cells) (seq 0 nv) in
    n < size -> num_public <= n ->
    (forall c, In c cells -> fst c < nv) ->
    (forall v k i, In (v, (k, i)) cells -> cell fs (28 + k) i = vals v) ->
    Permutation (map (fun v => (vals v, tau (tags v))) in_use) (map (fun v => (vals v, tags v)) in_use) ->
    (forall j, j < num_public -> real (nth 0 (nth j rows []) 0%nat) = real (nth 1 (nth j rows []) 0%nat)) ->
    wired sep size nv real tags tau blocks num_public fs ->
    compute_public_input_delta sep beta gamma (map (fun j => cell fs 29 (S j)) (seq 0 num_public)) 1 = Done d ->
    prod n (fun i => gp_numerator fs beta gamma (S i)) = d * prod n (fun i => gp_denominator fs beta gamma (S i)).
  Proof.
    intros cells rows n in_use Hn Hp Hnv Hw Ht Hpub W D. unfold wired in W. cbv zeta in W. rewrite active_all in W. fold rows n cells in W.
    unfold permutation_mapping in W. fold cells in W.
    destruct (fold_left (map_cycle tags tau (copy_cycles cells)) (seq 0 nv) (new_mapping, new_mapping)) as [sg0 id] eqn:M. cbn [fst snd] in W.
    fold (@marks 1 num_public sg0) in W.
    assert (EC : cells = block_cells real 1 rows) by apply trace_block.
    assert (EN : map snd cells = flat_map quad (seq 1 n)) by (rewrite EC; apply block_nodes).
    assert (ND : NoDup (map snd cells)) by (rewrite EN; apply quads_nodup).
    set (w := fun p : node => cell fs (28 + fst p) (snd p)).
    assert (Hw' : forall v p, In (v, p) cells -> w p = vals v) by (intros v [k i] I; exact (Hw v k i I)).
    assert (Ht' : Permutation (map (fun v => (vals v, tau (tags v))) (used cells nv)) (map (fun v => (vals v, tags v)) (used cells nv))).
    { replace (used cells nv) with in_use; [exact Ht|]. unfold in_use, used. apply filter_ext. intros v.
      rewrite copy_cycles_filter. clear. induction cells as [|c cs IH]; [reflexivity|]. cbn [existsb filter]. rewrite (Nat.eqb_sym (fst c) v).
      destruct (v =? fst c)%nat; [reflexivity|]. exact IH. }
    (* the products of cells are those of rows *)
    assert (Q : forall (m : mapping) (off : nat), (forall k, k < 4 -> forall i, 1 <= i <= n -> cell fs (off + k) i = elem_value sep (m (k, i))) ->
      prodl (fun p => factor beta gamma (w p) (elem_value sep (m p))) (map snd cells) =
      prod n (fun i => (cell fs 28 (S i) + cell fs (off + 0) (S i) * beta + gamma) * (cell fs 29 (S i) + cell fs (off + 1) (S i) * beta + gamma) *
                       (cell fs 30 (S i) + cell fs (off + 2) (S i) * beta + gamma) * (cell fs 31 (S i) + cell fs (off + 3) (S i) * beta + gamma))).
    { intros m off H. rewrite EN, prodl_flat, <- prodl_seq, <- seq_shift, prodl_map. apply prodl_ext. intros i Ii. apply in_seq in Ii.
      rewrite !H by lia. cbn [quad prodl fst snd]. unfold factor, w. cbn [fst snd Nat.add]. ring. }
    assert (Col : forall m c k i, nth c fs [] = lagrange_column sep size (seq 1 n) m k -> 1 <= i <= n -> cell fs c i = elem_value sep (m (k, i))).
    { intros m c k i E Hi. unfold cell. rewrite E, nth_column by lia. rewrite in_active.
      destruct (Nat.leb_spec 1 i), (Nat.leb_spec i n); try lia. reflexivity. }
    assert (P1 := @cycles_products F FF sep tags tau beta gamma cells nv w vals Hnv ND Hw' Ht'). rewrite M in P1. cbn [fst snd] in P1.
    rewrite (Q id 18%nat) in P1 by (intros k Hk i Hi; apply Col; [exact (proj2 (W k Hk))|exact Hi]).
    assert (Hin : forall j, j < num_public -> In (0%nat, (j + 1)%nat) (map snd cells)) by (intros j Hj; rewrite EN; apply quads_in; cbn [fst snd]; lia).
    assert (P2 := @public_products F FF sep beta gamma cells w ND 1 sg0 num_public Hin).
    rewrite (Q (marks 1 num_public sg0) 14%nat) in P2 by (intros k Hk i Hi; apply Col; [exact (proj1 (W k Hk))|exact Hi]).
    set (NUM := prod n (fun i => gp_numerator fs beta gamma (S i))). set (DEN := prod n (fun i => gp_denominator fs beta gamma (S i))).
    change (NUM = prodl (fun p => factor beta gamma (w p) (elem_value sep (sg0 p))) (map snd cells)) in P1. rewrite <- P1 in P2.
    assert (X : forall j, j < num_public -> w (0%nat, (j + 1)%nat) = cell fs 29 (S j) /\ elem_value (F := F) sep (sg0 (0%nat, (j + 1)%nat)) = fnat (j + 1 + sep)).
    { intros j Hj. destruct (@adjacent_cells real rows j 1) as (v & A & B & E); [fold n; lia|exact (Hpub j Hj)|]. replace (1 + j)%nat with (j + 1)%nat in E by lia. rewrite <- EC in E. split.
      - rewrite (Hw' v (0, (j + 1))%nat) by (rewrite E; apply in_or_app; right; left; reflexivity).
        rewrite <- (Hw v 1%nat (j + 1)%nat) by (rewrite E; apply in_or_app; right; right; left; reflexivity). cbn [Nat.add]. f_equal. lia.
      - pose proof (@next_cell F FF sep tags tau cells nv Hnv ND v _ _ A B E) as Y. rewrite M in Y. cbn [fst] in Y. rewrite Y. unfold position. cbn [fst snd]. f_equal. lia. }
    destruct (public_delta _ _ _ _ _ D) as [Nz Ed]. rewrite map_length, seq_length in Nz, Ed.
    set (f := fun j => cell fs 29 (S j)) in *.
    assert (Nth : forall j, j < num_public -> nth j (map f (seq 0 num_public)) 0 = f j).
    { intros j Hj. rewrite (nth_indep _ 0 (f 0%nat)) by (rewrite map_length, seq_length; exact Hj). rewrite map_nth, seq_nth by exact Hj. reflexivity. }
    set (PD := prod num_public (fun j => nth j (map f (seq 0 num_public)) 0 + - fnat (j + 1 + 1) * beta + gamma)) in *.
    set (PN := prod num_public (fun j => nth j (map f (seq 0 num_public)) 0 + fnat (j + 1 + sep) * beta + gamma)) in *.
    rewrite (@prod_ext _ _ num_public (fun j => factor beta gamma (w (0%nat, (j + 1)%nat)) (elem_value sep (sg0 (0%nat, (j + 1)%nat)))) (fun j => nth j (map f (seq 0 num_public)) 0 + fnat (j + 1 + sep) * beta + gamma)) in P2.
    2: { intros j Hj. destruct (X j Hj) as [-> ->]. rewrite Nth by exact Hj. reflexivity. }
    rewrite (@prod_ext _ _ num_public (fun j => factor beta gamma (w (0%nat, (j + 1)%nat)) (- fnat (j + 1 + 1))) (fun j => nth j (map f (seq 0 num_public)) 0 + - fnat (j + 1 + 1) * beta + gamma)) in P2.
    2: { intros j Hj. destruct (X j Hj) as [-> _]. rewrite Nth by exact Hj. reflexivity. }
    fold PD PN in P2. change (DEN * PN = NUM * PD) in P2.
    transitivity (NUM * PD * finv PD).
    - transitivity (NUM * (finv PD * PD)); [rewrite (finv_l _ Nz); ring|ring].
    - rewrite <- P2, <- Ed. transitivity (d * DEN * (finv PD * PD)); [ring|rewrite (finv_l _ Nz); ring].
  Qed.
  (** rows that are not active have no positions and no images *)
  Lemma wired_zero sep size nv real tags tau blocks num_public fs k : 0 < size -> wired sep size nv real tags tau blocks num_public fs -> k < 4 ->
    cell fs (14 + k) 0 = 0 /\ cell fs (18 + k) 0 = 0.
  Proof.
    intros Hs W Hk. destruct (W k Hk) as [A B]. unfold cell. rewrite A, B, !nth_column by exact Hs. rewrite active_all, in_active. split; reflexivity.
  Qed.
End Grand.
