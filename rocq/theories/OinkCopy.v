(** * From agreeing multisets to the copy constraints, public inputs and tags (C80); no code of /repo is modelled here *)
From Coq Require Import String List Arith Lia Bool Ring Permutation.
From Verif Require Import Proc Alg NNet Rep3 ShamirPoly Shamir ShamirAlg Univariate Sumcheck HonkSpec Oink OinkWiring OinkTrace OinkGrand OinkSound.
Import ListNotations.
Set Implicit Arguments.
Local Open Scope grp_scope.
Local Open Scope list_scope.

Section Copy.
  Context {F : Type} {FF : Fld F}.
  Add Ring FringCopy : (@cring_theory F _).
  Infix "*" := rmul : grp_scope.
  Notation "1" := rone : grp_scope.
  Variables (sep : nat) (tags tau : nat -> nat) (cs : list (nat * node)) (nv np size T : nat) (w : node -> F) (x : nat -> F).
  Notation value := (elem_value (F := F) sep).
  Notation position := (position (F := F) sep).
  Notation tag_value := (tag_value (F := F) sep).
  Notation maps := (fold_left (map_cycle tags tau (copy_cycles cs)) (seq 0 nv) (new_mapping, new_mapping)).
  Notation sg0 := (fst maps).
  Notation ids := (snd maps).
  Hypothesis Hnv : forall c, In c cs -> fst c < nv.
  Hypothesis Hnd : NoDup (map snd cs).
  Hypothesis Hrange : forall p, In p (map snd cs) -> fst p < 4 /\ snd p < size.
  Hypothesis Hsize : size <= sep.
  Hypothesis Htags : forall v, v < nv -> tags v <= T /\ tau (tags v) <= T.
  Hypothesis Hwide : forall a b, a < sep * 4 + T + size + 2 -> b < sep * 4 + T + size + 2 -> fnat a = (fnat b : F) -> a = b.
  Hypothesis Hpub : forall j, j < np -> exists v A B, cs = A ++ (v, (0, j + 1))%nat :: (v, (1, j + 1))%nat :: B.

  (** ** Numbers *)
  Lemma position_small p : In p (map snd cs) -> snd p + sep * fst p < sep * 4.
  Proof. intros I. destruct (Hrange p I). nia. Qed.
  Lemma position_inj p q : In p (map snd cs) -> In q (map snd cs) -> position p = position q -> p = q.
  Proof.
    intros Ip Iq E. unfold OinkWiring.position in E. pose proof (position_small p Ip). pose proof (position_small q Iq). apply Hwide in E; [|lia|lia].
    destruct (Hrange p Ip), (Hrange q Iq). destruct (Nat.div_mod_unique sep (fst p) (fst q) (snd p) (snd q)) as [X Y]; [lia|lia|lia|]. destruct p, q; cbn [fst snd] in *; congruence.
  Qed.
  Lemma position_tag p t : In p (map snd cs) -> t <= T -> position p <> tag_value t.
  Proof. intros Ip Ht E. unfold OinkWiring.position, OinkWiring.tag_value in E. pose proof (position_small p Ip). apply Hwide in E; lia. Qed.
  Lemma negative j a : j < size -> a <= sep * 4 + T -> - fnat (j + 1 + 1) <> (fnat a : F).
  Proof.
    intros Hj Ha E. assert (X : fnat (a + (j + 1 + 1)) = (fnat 0 : F)) by (rewrite fnat_add, <- E; cbn [fnat]; ring). apply Hwide in X; lia.
  Qed.
  Lemma neg_inj i j : i < size -> j < size -> - fnat (i + 1 + 1) = - (fnat (j + 1 + 1) : F) -> i = j.
  Proof.
    intros Hi Hj E. assert (X : fnat (i + 1 + 1) = (fnat (j + 1 + 1) : F)) by (transitivity (- - fnat (i + 1 + 1) : F); [ring|rewrite E; ring]). apply Hwide in X; lia.
  Qed.

  (** ** Images *)
  Lemma node_cycle p : In p (map snd cs) -> exists v, v < nv /\ In p (copy_cycles cs v).
  Proof.
    intros I. apply in_map_iff in I. destruct I as ([v q] & E & I). cbn [snd] in E. subst q. exists v. split; [exact (Hnv _ I)|]. apply in_cycle. exact I.
  Qed.
  Lemma cycle_node v p : In p (copy_cycles cs v) -> In p (map snd cs).
  Proof. intros I. apply in_cycle in I. exact (in_map snd _ _ I). Qed.
  Lemma same_cycle u v p : In p (copy_cycles cs u) -> In p (copy_cycles cs v) -> u = v.
  Proof. intros I J. apply in_cycle in I. apply in_cycle in J. exact (@nodup_inj cs Hnd u v p I J). Qed.
  Lemma images v : v < nv ->
    map (fun p => value (sg0 p)) (copy_cycles cs v) = match copy_cycles cs v with [] => [] | _ :: c => map position c ++ [tag_value (tau (tags v))] end /\
    map (fun p => value (ids p)) (copy_cycles cs v) = match copy_cycles cs v with [] => [] | _ :: c => tag_value (tags v) :: map position c end.
  Proof. exact (@cycle_images F FF sep tags tau cs nv Hnd v). Qed.
  Lemma next_images v A p q B : v < nv -> copy_cycles cs v = A ++ p :: q :: B -> value (sg0 p) = position q /\ value (ids q) = position q.
  Proof.
    intros Hv C. destruct (images Hv) as [X Y]. split.
    - assert (Z : nth_error (map (fun p => value (sg0 p)) (copy_cycles cs v)) (length A) = Some (value (sg0 p))).
      { rewrite C at 1. rewrite map_app, nth_error_app2 by (rewrite map_length; lia). rewrite map_length, Nat.sub_diag. reflexivity. }
      rewrite X in Z. pose proof (@next_image F position (tag_value (tau (tags v))) p q B A) as W. rewrite <- C in W. destruct (copy_cycles cs v); [destruct A; discriminate C|]. cbn [tl] in W. congruence.
    - assert (Z : nth_error (map (fun p => value (ids p)) (copy_cycles cs v)) (S (length A)) = Some (value (ids q))).
      { rewrite C at 1. rewrite map_app, nth_error_app2 by (rewrite map_length; lia). rewrite map_length. replace (S (length A) - length A)%nat with 1%nat by lia. reflexivity. }
      rewrite Y in Z. destruct (copy_cycles cs v) as [|a c] eqn:Ec; [destruct A; discriminate C|]. cbn [nth_error] in Z.
      assert (N : nth_error c (length A) = Some q).
      { assert (W : nth_error (a :: c) (S (length A)) = Some q) by (rewrite C, nth_error_app2 by lia; replace (S (length A) - length A)%nat with 1%nat by lia; reflexivity). exact W. }
      rewrite (map_nth_error position _ _ N) in Z. congruence.
  Qed.
  Lemma last_image v A p : v < nv -> copy_cycles cs v = A ++ [p] -> value (sg0 p) = tag_value (tau (tags v)).
  Proof.
    intros Hv C. destruct (images Hv) as [X _]. rewrite C, map_app in X. destruct (A ++ [p]) as [|a c] eqn:E; [destruct A; discriminate E|]. cbn [map] in X.
    apply app_inj_tail in X. exact (proj2 X).
  Qed.
  Lemma first_image v p B : v < nv -> copy_cycles cs v = p :: B -> value (ids p) = tag_value (tags v).
  Proof. intros Hv C. destruct (images Hv) as [_ Y]. rewrite C in Y. cbn [map] in Y. congruence. Qed.
  (** what the image of a cell can be *)
  Lemma image_cases p : In p (map snd cs) -> (exists v A q B, v < nv /\ copy_cycles cs v = A ++ p :: q :: B) \/ (exists t, t <= T /\ value (sg0 p) = tag_value t).
  Proof.
    intros I. destruct (node_cycle p I) as (v & Hv & J). destruct (in_split _ _ J) as (A & R & C). destruct R as [|q B].
    - right. exists (tau (tags v)). split; [apply Htags, Hv|exact (@last_image v _ _ Hv C)].
    - left. exists v, A, q, B. split; assumption.
  Qed.
  Lemma id_small p : In p (map snd cs) -> exists a, a <= sep * 4 + T /\ value (ids p) = fnat a.
  Proof.
    intros I. destruct (node_cycle p I) as (v & Hv & J). destruct (in_split _ _ J) as (A & R & C). destruct A as [|a0 A0].
    - exists (sep * 4 + tags v)%nat. split; [destruct (Htags Hv); lia|exact (@first_image v _ _ Hv C)].
    - destruct (@exists_last _ (a0 :: A0) ltac:(discriminate)) as (A & p' & E). rewrite E, <- app_assoc in C. cbn [app] in C. destruct (@next_images v _ _ _ _ Hv C) as [_ Y].
      exists (snd p + sep * fst p)%nat. split; [pose proof (position_small p I); lia|exact Y].
  Qed.

  (** ** The constraints *)
  Notation sg := (marks 1 np sg0).
  (** the cells with their ids, the public inputs with the numbers that break the cycles; no code of /repo *)
  Definition with_ids : list (F * F) := map (fun p => (w p, value (ids p))) (map snd cs) ++ map (fun j => (x j, - fnat (j + 1 + 1))) (seq 0 np).
  (** the cells with their images, and the public inputs where they are expected *)
  Definition with_images : list (F * F) := map (fun p => (w p, value (sg p))) (map snd cs) ++ map (fun j => (x j, fnat (j + 1 + sep))) (seq 0 np).
  Hypothesis Hperm : Permutation with_ids with_images.

  Lemma pub_in j : j < np -> In (0, j + 1)%nat (map snd cs) /\ In (1, j + 1)%nat (map snd cs).
  Proof. intros Hj. destruct (Hpub Hj) as (v & A & B & E). rewrite E, map_app. split; apply in_or_app; right; [left|right; left]; reflexivity. Qed.
  Lemma mark_value n m j : j < n -> value (marks 1 n m (0, j + 1)%nat) = - fnat (j + 1 + 1).
  Proof.
    induction n as [|n IH]; intros Hj; [lia|]. rewrite marks_S. unfold mark_public. destruct (Nat.eq_dec j n) as [->|N].
    - rewrite set_same. unfold elem_value. cbn [el_pub el_row el_col]. do 2 f_equal. lia.
    - rewrite set_other by (intros X; injection X as X; lia). apply IH. lia.
  Qed.
  Lemma not_marked p : (exists j, j < np /\ p = (0, j + 1)%nat) \/ sg p = sg0 p.
  Proof.
    destruct (existsb (fun j => node_eqb p (0, j + 1)%nat) (seq 0 np)) eqn:E.
    - left. apply existsb_exists in E. destruct E as (j & I & E). apply in_seq in I. exists j. split; [lia|]. destruct (node_eqb_spec p (0, j + 1)%nat); congruence.
    - right. apply marks_other. intros j Hj X. rewrite <- not_true_iff_false in E. apply E. apply existsb_exists. exists j. split; [apply in_seq; lia|].
      destruct (node_eqb_spec p (0, j + 1)%nat); congruence.
  Qed.
  (** the first wire of a public row holds the public input *)
  Lemma public_value j : j < np -> w (0, j + 1)%nat = x j.
  Proof.
    intros Hj. destruct (pub_in Hj) as [I _]. destruct (Hrange _ I) as [_ Sj]. cbn [snd] in Sj.
    assert (M : In (w (0, j + 1)%nat, - fnat (j + 1 + 1)) with_ids).
    { eapply Permutation_in; [symmetry; exact Hperm|]. unfold with_images. apply in_or_app. left. apply in_map_iff. exists (0, j + 1)%nat. split; [|exact I]. f_equal. apply mark_value, Hj. }
    unfold with_ids in M. apply in_app_or in M. destruct M as [M|M]; apply in_map_iff in M.
    - destruct M as (p & E & Ip). exfalso. destruct (id_small p Ip) as (a & Ha & V). injection E as _ E. rewrite V in E. symmetry in E. revert E. apply negative; lia.
    - destruct M as (i & E & Ii). apply in_seq in Ii. injection E as E1 E2. destruct (pub_in (proj2 Ii)) as [Ji _]. destruct (Hrange _ Ji) as [_ Si]. cbn [snd] in Si.
      apply neg_inj in E2; [|lia|lia]. subst i. symmetry. exact E1.
  Qed.
  (** neighbours in a cycle hold the same value *)
  Lemma neighbours v A p q B : v < nv -> copy_cycles cs v = A ++ p :: q :: B -> w p = w q.
  Proof.
    intros Hv C. assert (Iq : In q (map snd cs)) by (apply (@cycle_node v); rewrite C; apply in_or_app; right; right; left; reflexivity).
    assert (Iqv : In q (copy_cycles cs v)) by (rewrite C; apply in_or_app; right; right; left; reflexivity).
    assert (Uniq : forall u A' p' B', u < nv -> copy_cycles cs u = A' ++ p' :: q :: B' -> p' = p).
    { intros u A' p' B' Hu C'. assert (u = v) by (apply (@same_cycle u v q); [rewrite C'; apply in_or_app; right; right; left; reflexivity|exact Iqv]). subst u.
      pose proof (cycle_nodup cs Hnd v) as ND. rewrite C in C'.
      assert (Sp : (A ++ [p]) ++ q :: B = (A' ++ [p']) ++ q :: B') by (rewrite <- !app_assoc; exact C').
      rewrite C in ND. replace (A ++ p :: q :: B) with ((A ++ [p]) ++ q :: B) in ND by (rewrite <- app_assoc; reflexivity).
      assert (G : forall l1 l2 r1 r2 : list node, NoDup (l1 ++ q :: r1) -> l1 ++ q :: r1 = l2 ++ q :: r2 -> l1 = l2).
      { clear. induction l1 as [|a l1 IH]; intros [|b l2] r1 r2 ND E; cbn [app] in *.
        - reflexivity.
        - injection E as E1 E2. subst b. exfalso. inversion ND as [|? ? N _]; subst. apply N. apply in_or_app. right. left. reflexivity.
        - injection E as E1 E2. subst a. exfalso. inversion ND as [|? ? N _]; subst. apply N. apply in_or_app. right. left. reflexivity.
        - injection E as E1 E2. subst b. f_equal. inversion ND; subst. eapply IH; eassumption. }
      apply (G _ _ _ _ ND) in Sp. apply app_inj_tail in Sp. symmetry. exact (proj2 Sp). }
    destruct (@next_images v _ _ _ _ Hv C) as [_ V].
    assert (M : In (w q, position q) with_images).
    { eapply Permutation_in; [exact Hperm|]. unfold with_ids. apply in_or_app. left. apply in_map_iff. exists q. split; [rewrite V; reflexivity|exact Iq]. }
    unfold with_images in M. apply in_app_or in M. destruct M as [M|M]; apply in_map_iff in M.
    - destruct M as (p' & E & Ip'). injection E as E1 E2. destruct (not_marked p') as [(j & Hj & ->)|U].
      + exfalso. rewrite mark_value in E2 by exact Hj. destruct (pub_in Hj) as [I _]. destruct (Hrange _ I) as [_ Sj]. cbn [snd] in Sj. revert E2.
        unfold OinkWiring.position. apply negative; [lia|]. pose proof (position_small q Iq). lia.
      + rewrite U in E2. destruct (image_cases p' Ip') as [(u & A' & q' & B' & Hu & C')|(t & Ht & E)].
        * destruct (@next_images u _ _ _ _ Hu C') as [V' _]. rewrite V' in E2.
          apply position_inj in E2; [|apply (@cycle_node u); rewrite C'; apply in_or_app; right; right; left; reflexivity|exact Iq]. subst q'.
          rewrite (Uniq u A' p' B' Hu C') in E1. exact E1.
        * exfalso. rewrite E in E2. symmetry in E2. exact (position_tag q Iq Ht E2).
    - destruct M as (j & E & Ij). apply in_seq in Ij. injection E as E1 E2. destruct (pub_in (proj2 Ij)) as [_ I1].
      assert (X : q = (1, j + 1)%nat) by (apply position_inj; [exact Iq|exact I1|rewrite <- E2; unfold OinkWiring.position; cbn [fst snd]; f_equal; lia]). subst q.
      rewrite <- E1, <- (public_value (proj2 Ij)). f_equal. symmetry.
      destruct (Hpub (proj2 Ij)) as (u & A' & B' & Ecs).
      assert (Hu : u < nv) by (apply (@Hnv (u, (0, j + 1)%nat)); rewrite Ecs; apply in_or_app; right; left; reflexivity).
      apply (Uniq u (map snd (filter (fun c => (u =? fst c)%nat) A')) _ (map snd (filter (fun c => (u =? fst c)%nat) B')) Hu).
      rewrite copy_cycles_filter, Ecs, filter_app, map_app. cbn [filter fst]. rewrite Nat.eqb_refl. reflexivity.
  Qed.
  (** the value of a variable *)
  Definition var_value (v : nat) : F := match copy_cycles cs v with [] => 0 | p :: _ => w p end.
  Theorem copies_hold v p : In (v, p) cs -> w p = var_value v.
  Proof.
    intros I. assert (Hv := Hnv _ I). cbn [fst] in Hv. apply in_cycle in I. unfold var_value. revert I.
    assert (G : forall R A, copy_cycles cs v = A ++ R -> forall q, In q R -> match R with [] => True | r :: _ => w q = w r end).
    { induction R as [|r R IH]; intros A C q Iq; [exact Logic.I|]. destruct Iq as [->|Iq]; [reflexivity|].
      destruct R as [|s R]; [destruct Iq|]. rewrite (@neighbours v A _ _ _ Hv C). apply (IH (A ++ [r])); [rewrite <- app_assoc; exact C|exact Iq]. }
    specialize (G (copy_cycles cs v) [] eq_refl p). destruct (copy_cycles cs v); [intros []|exact G].
  Qed.
  (** ** The tags *)
  Lemma flat_perm (A B : Type) (h m : A -> list B) : forall l, Permutation (flat_map (fun a => h a ++ m a) l) (flat_map h l ++ flat_map m l).
  Proof.
    induction l as [|a l IH]; [constructor|]. cbn [flat_map]. rewrite IH, <- !app_assoc. apply Permutation_app_head. rewrite !app_assoc. apply Permutation_app_tail. apply Permutation_app_comm.
  Qed.
  Lemma flat_each (A B : Type) (f g : A -> list B) : forall l, (forall a, In a l -> Permutation (f a) (g a)) -> Permutation (flat_map f l) (flat_map g l).
  Proof. induction l as [|a l IH]; intros H; [constructor|]. cbn [flat_map]. apply Permutation_app; [apply H; left; reflexivity|apply IH; intros b Hb; apply H; right; exact Hb]. Qed.
  Lemma group_perm : forall l : list (nat * node), (forall c, In c l -> fst c < nv) -> Permutation (map snd l) (flat_map (fun v => map snd (filter (fun c => (v =? fst c)%nat) l)) (seq 0 nv)).
  Proof.
    induction l as [|c l IH]; intros H.
    - cbn [map filter]. induction (seq 0 nv); [constructor|exact IHl].
    - cbn [map]. rewrite IH by (intros d Hd; apply H; right; exact Hd). clear IH.
      assert (I : In (fst c) (seq 0 nv)) by (apply in_seq; specialize (H c (or_introl eq_refl)); lia). pose proof (seq_NoDup nv 0) as ND.
      destruct (in_split _ _ I) as (l1 & l2 & E). rewrite E in *. clear I E H.
      assert (N : forall v, In v (l1 ++ l2) -> (v =? fst c)%nat = false).
      { intros v Iv. apply Nat.eqb_neq. intros ->. exact (NoDup_remove_2 _ _ _ ND Iv). }
      rewrite !flat_map_app. cbn [flat_map filter]. rewrite Nat.eqb_refl. cbn [map app].
      assert (X : forall l', (forall v, In v l' -> (v =? fst c)%nat = false) -> flat_map (fun v => map snd (if (v =? fst c)%nat then c :: filter (fun c0 => (v =? fst c0)%nat) l else filter (fun c0 => (v =? fst c0)%nat) l)) l' =
        flat_map (fun v => map snd (filter (fun c0 => (v =? fst c0)%nat) l)) l').
      { induction l' as [|v l' IH]; intros Hl; [reflexivity|]. cbn [flat_map]. rewrite (Hl v (or_introl eq_refl)), IH by (intros u Hu; apply Hl; right; exact Hu). reflexivity. }
      rewrite !X by (intros v Iv; apply N, in_or_app; auto). apply Permutation_middle.
  Qed.
  Lemma swap_perm (A : Type) (u v : A) N1 N2 ps : Permutation ((N1 ++ u :: N2) ++ ps ++ [v]) (((N1 ++ v :: N2) ++ ps) ++ [u]).
  Proof.
    assert (G : forall a b : A, Permutation (((N1 ++ a :: N2) ++ ps) ++ [b]) (b :: a :: (N1 ++ N2) ++ ps)).
    { intros a b. rewrite <- Permutation_cons_append. apply Permutation.perm_skip. rewrite <- Permutation_middle. reflexivity. }
    rewrite app_assoc, !G. apply Permutation.perm_swap.
  Qed.
  Lemma public_perm n : n <= np -> Permutation (map (fun p => (w p, value (marks 1 n sg0 p))) (map snd cs) ++ map (fun j => (x j, fnat (j + 1 + sep))) (seq 0 n))
    (map (fun p => (w p, value (sg0 p))) (map snd cs) ++ map (fun j => (x j, - fnat (j + 1 + 1))) (seq 0 n)).
  Proof.
    induction n as [|n IH]; intros Hn; [reflexivity|]. specialize (IH ltac:(lia)). rewrite seq_S, !map_app. cbn [map Nat.add]. set (nodes := map snd cs) in *.
    destruct (@pub_in n ltac:(lia)) as [I _]. fold nodes in I. destruct (in_split _ _ I) as (N1 & N2 & E). assert (ND : NoDup nodes) by exact Hnd. rewrite E in ND. pose proof (NoDup_remove_2 _ _ _ ND) as NI.
    set (f := fun p => (w p, value (marks 1 n sg0 p))) in *. set (f' := fun p => (w p, value (marks 1 (S n) sg0 p))).
    assert (X : forall l, (forall p, In p l -> In p (N1 ++ N2)) -> map f' l = map f l).
    { intros l Hl. apply map_ext_in. intros p Ip. unfold f', f. rewrite marks_S. unfold mark_public. rewrite set_other; [reflexivity|]. intros <-. apply NI, Hl, Ip. }
    assert (Fa : f (0, n + 1)%nat = (x n, fnat (n + 1 + sep))).
    { unfold f. rewrite public_value by lia. f_equal. rewrite marks_other by (intros j Hj Y; injection Y as Y; lia).
      destruct (@Hpub n ltac:(lia)) as (v & A & B & Ecs). rewrite (@next_cell F FF sep tags tau cs nv Hnv Hnd v _ _ A B Ecs). unfold OinkWiring.position. cbn [fst snd]. f_equal. lia. }
    assert (Fb : f' (0, n + 1)%nat = (x n, - fnat (n + 1 + 1))) by (unfold f'; rewrite public_value, mark_value by lia; reflexivity).
    rewrite E, map_app. cbn [map]. rewrite !X by (intros p Ip; apply in_or_app; auto). rewrite Fb, <- Fa.
    rewrite E in IH. rewrite map_app in IH. cbn [map] in IH.
    rewrite (app_assoc _ _ [(x n, - fnat (n + 1 + 1))]). (etransitivity; [|exact (Permutation_app_tail _ IH)]). apply swap_perm.
  Qed.
  (** the value of a variable in use with its tag; no code of /repo *)
  Definition tag_of (t : nat -> nat) (v : nat) : list (F * F) := match copy_cycles cs v with [] => [] | _ => [(var_value v, tag_value (t v))] end.
  Lemma tag_lists t : flat_map (tag_of t) (seq 0 nv) = map (fun q => (fst q, tag_value (snd q))) (map (fun v => (var_value v, t v)) (used cs nv)).
  Proof.
    unfold used, tag_of. induction (seq 0 nv) as [|v l IH]; [reflexivity|]. cbn [flat_map filter]. rewrite IH. destruct (copy_cycles cs v); reflexivity.
  Qed.
  Theorem tags_hold : Permutation (map (fun v => (var_value v, tau (tags v))) (used cs nv)) (map (fun v => (var_value v, tags v)) (used cs nv)).
  Proof.
    assert (P1 : Permutation (map (fun p => (w p, value (ids p))) (map snd cs)) (map (fun p => (w p, value (sg0 p))) (map snd cs))).
    { apply (Permutation_app_inv_r (map (fun j => (x j, - fnat (j + 1 + 1))) (seq 0 np))). rewrite <- (@public_perm np (Nat.le_refl np)). exact Hperm. }
    set (m := fun v => match copy_cycles cs v with [] => [] | _ :: c => map (fun p => (var_value v, position p)) c end).
    assert (G : forall (mp : mapping) t, (forall v, v < nv -> Permutation (map (fun p => (var_value v, value (mp p))) (copy_cycles cs v)) (tag_of t v ++ m v)) ->
      Permutation (map (fun p => (w p, value (mp p))) (map snd cs)) (flat_map (tag_of t) (seq 0 nv) ++ flat_map m (seq 0 nv))).
    { intros mp t H. rewrite <- flat_perm. rewrite (group_perm cs Hnv) at 1.
      rewrite flat_map_concat_map, concat_map, map_map, <- flat_map_concat_map. apply flat_each. intros v Iv. apply in_seq in Iv. rewrite <- H by lia. rewrite <- copy_cycles_filter.
      apply Permutation_refl'. apply map_ext_in. intros p Ip. f_equal. apply copies_hold, in_cycle, Ip. }
    assert (M : forall (mp : mapping) v l, map (fun p => value (mp p)) (copy_cycles cs v) = l -> map (fun p => (var_value v, value (mp p))) (copy_cycles cs v) = map (fun y => (var_value v, y)) l) by (intros mp v l <-; rewrite map_map; reflexivity).
    assert (P2 : Permutation (flat_map (tag_of tags) (seq 0 nv)) (flat_map (tag_of (fun v => tau (tags v))) (seq 0 nv))).
    { apply (Permutation_app_inv_r (flat_map m (seq 0 nv))). rewrite <- (G ids tags), <- (G sg0 (fun v => tau (tags v))).
      - exact P1.
      - intros v Hv. rewrite (M _ _ _ (proj1 (images Hv))). unfold tag_of, m. destruct (copy_cycles cs v) as [|a c]; [reflexivity|]. rewrite map_app, map_map. cbn [map app].
        symmetry. apply Permutation_cons_append.
      - intros v Hv. rewrite (M _ _ _ (proj2 (images Hv))). unfold tag_of, m. destruct (copy_cycles cs v) as [|a c]; [reflexivity|]. cbn [map app]. rewrite map_map. reflexivity. }
    rewrite !tag_lists in P2. symmetry.
    assert (Dec : forall a b : F * nat, {a = b} + {a <> b}).
    { intros [a n] [b k]. destruct (fdec a b) as [->|N]; [destruct (Nat.eq_dec n k) as [->|N]|]; [left; reflexivity|right; congruence|right; congruence]. }
    destruct (map_perm Dec _ _ _ P2) as [Q|([a n] & [b k] & Ia & Ib & N & E)]; [exact Q|]. exfalso. cbn [fst snd] in E. injection E as E1 E2. subst b. apply N. f_equal.
    apply in_map_iff in Ia, Ib. destruct Ia as (u & Eu & Iu), Ib as (v & Ev & Iv). injection Eu as _ Eu. injection Ev as _ Ev. unfold used in Iu, Iv. apply filter_In in Iu, Iv. destruct Iu as [Iu _], Iv as [Iv _]. apply in_seq in Iu, Iv.
    destruct (@Htags u ltac:(lia)), (@Htags v ltac:(lia)). unfold OinkWiring.tag_value in E2. apply Hwide in E2; lia.
  Qed.
End Copy.
