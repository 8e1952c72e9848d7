(** * The sumcheck of UltraHonk is complete, and accepts a wrong sum only at a root (C69, C70)

    Proofs; no code of /repo is modelled here. *)
From Coq Require Import String List Arith Lia Bool Ring.
From Verif Require Import Proc Alg NNet Rep3 ShamirPoly Shamir ShamirAlg Univariate Sumcheck SumcheckSpec.
Import ListNotations.
Set Implicit Arguments.
Local Open Scope grp_scope.
Local Open Scope string_scope.
Local Open Scope list_scope.

Lemma omapM_map {A B} (f : A -> outcome B) (g : A -> B) l : (forall a, In a l -> f a = Done (g a)) -> omapM f l = Done (map g l).
Proof.
  induction l as [|a l IH]; intros H; [reflexivity|]. cbn [omapM map]. rewrite H by (left; reflexivity). cbn [obind].
  rewrite IH by (intros; apply H; right; assumption). reflexivity.
Qed.
Lemma omapM_rel {A B} (f : A -> outcome B) (R : A -> B -> Prop) l : (forall a, In a l -> exists b, f a = Done b /\ R a b) ->
  exists bs, omapM f l = Done bs /\ Forall2 R l bs.
Proof.
  induction l as [|a l IH]; intros H; [exists []; split; [reflexivity|constructor]|].
  destruct (H a) as (b & E & Rb); [left; reflexivity|]. destruct IH as (bs & E' & Rbs); [intros; apply H; right; assumption|].
  exists (b :: bs). cbn [omapM]. rewrite E. cbn [obind]. rewrite E'. split; [reflexivity|constructor; assumption].
Qed.
Lemma at_index_nth {A} (l : list A) i d : (i < length l)%nat -> at_index l i = Done (nth i l d).
Proof. intros H. unfold at_index. rewrite (nth_error_nth' l d H). reflexivity. Qed.

Lemma Forall2_len {A B} (R : A -> B -> Prop) l l' : Forall2 R l l' -> length l = length l'.
Proof. induction 1; cbn; congruence. Qed.

Section Proofs.
  Context {F : Type} {FF : Fld F}.
  Add Ring FringSP : (@cring_theory F _).
  Infix "*" := rmul : grp_scope.
  Notation "1" := rone : grp_scope.
  Notation sub := (sub (F := F)).
  Notation gates := (gates (F := F)).

  (** the values of a function at 0, ..., n-1 *)
  Definition tab (n : nat) (f : F -> F) : list F := map (fun k => f (fnat k)) (seq 0 n).
  Lemma length_tab n f : length (tab n f) = n.
  Proof. unfold tab. rewrite map_length. apply seq_length. Qed.
  Lemma nth_tab n f k : k < n -> nth k (tab n f) 0 = f (fnat k).
  Proof.
    intros H. unfold tab. rewrite (nth_indep (map (fun k => f (fnat k)) (seq 0 n)) 0 (f (fnat O))) by (rewrite map_length, seq_length; exact H).
    rewrite (map_nth (fun k => f (fnat k))), seq_nth by exact H. reflexivity.
  Qed.
  Lemma tab_ext n f g : (forall k, k < n -> f (fnat k) = g (fnat k)) -> tab n f = tab n g.
  Proof. intros E. apply map_ext_in. intros k Hk. apply E. apply in_seq in Hk. lia. Qed.
  Lemma tab_values n f : poly_fun n f -> exists p, length p <= n /\ (forall x, f x = peval p x) /\ forall m, tab m f = values p m.
  Proof. intros (p & L & E). exists p. split; [exact L|]. split; [exact E|]. intros m. apply map_ext. intros k. apply E. Qed.
  Lemma extend_tab SIZE n f : wide (F := F) SIZE -> poly_fun n f -> n <= SIZE -> extend_from SIZE (tab n f) = Done (tab SIZE f).
  Proof. intros W P L. destruct (tab_values P) as (p & Lp & _ & E). rewrite (E n), (E SIZE). apply extend_ok; assumption. Qed.
  Lemma fnat_0 : fnat 0 = (0 : F).
  Proof. reflexivity. Qed.
  Lemma fnat_1 : fnat 1 = (1 : F).
  Proof. cbn. ring. Qed.
  Lemma tab_2 (a b : F) : tab 2 (fun x => a + b * x) = [a; a + b].
  Proof. unfold tab. cbn [map seq]. rewrite fnat_0, fnat_1. f_equal; [ring|]. f_equal. ring. Qed.
  Lemma tab_const n : tab n (fun _ => 0) = repeat 0 n.
  Proof. unfold tab. generalize 0%nat. induction n as [|n IH]; intros k; [reflexivity|]. cbn [repeat seq map]. rewrite IH. reflexivity. Qed.
  Lemma poly_line (a b : F) : poly_fun 2 (fun x => a + b * x).
  Proof. exists [a; b]. split; [cbn; lia|]. intros x. cbn [peval]. rewrite !smulU. ring. Qed.
  Lemma extend_line SIZE (a b : F) : wide (F := F) SIZE -> 2 <= SIZE -> extend_from SIZE [a; a + b] = Done (tab SIZE (fun x => a + b * x)).
  Proof. intros W L. rewrite <- tab_2. apply extend_tab; [exact W|apply poly_line|exact L]. Qed.
  Lemma values_line (a b : F) n : values [a; b] n = tab n (fun x => a + b * x).
  Proof. apply map_ext. intros k. cbn [peval]. rewrite !smulU. ring. Qed.

  Variables (subs : list sub) (xs : list F) (MAX SIZE N : nat).
  Hypothesis WS : wide (F := F) SIZE.
  Hypothesis WM : wide (F := F) MAX.
  Hypothesis HM : 2 <= MAX.
  Hypothesis HS : 2 <= SIZE.
  Hypothesis OK : Forall (sub_ok MAX SIZE N) subs.
  Hypothesis Lxs : length xs = length subs.

  (** ** One round *)
  Notation lines e := (map (fun p => values [fst p; snd p] MAX) e).
  Lemma extend_edges_ok cols l : Forall (fun col => S (2 * l) < length col) cols ->
    extend_edges MAX cols (2 * l) = Done (lines (edge cols l)).
  Proof.
    intros H. unfold extend_edges, edge. rewrite map_map. apply omapM_map. intros col Hi. rewrite Forall_forall in H. specialize (H col Hi).
    rewrite (at_index_nth col 0) by lia. cbn [obind]. rewrite (at_index_nth col 0) by lia. cbn [obind fst snd].
    rewrite values_line. rewrite <- extend_line by assumption. f_equal. f_equal. f_equal. ring.
  Qed.
  Lemma at_point_ok e k : k < MAX -> at_point (lines e) k = line e (fnat k).
  Proof.
    intros H. unfold at_point, line. rewrite map_map. apply map_ext. intros [a b]. cbn [fst snd]. rewrite values_line. rewrite nth_tab by exact H. reflexivity.
  Qed.
  Lemma accumulate_sub_ok s e scale T : sub_ok MAX SIZE N s -> length e = N ->
    accumulate_sub (lines e) scale s (tab (sb_len s) T) = tab (sb_len s) (fun x => T x + sval s scale (line e x)).
  Proof.
    intros (_ & _ & _ & Sk & S1 & _) Le. unfold accumulate_sub. destruct (sb_skip s (lines e)) eqn:E.
    - apply tab_ext. intros k _. unfold sval. rewrite (Sk e Le E). destruct (sb_indep s); ring.
    - apply map_ext_in. intros k Hk. apply in_seq in Hk. rewrite nth_tab by lia. rewrite at_point_ok by lia. unfold sval. destruct (sb_indep s); ring.
  Qed.
  Lemma accumulate_ok ss e scale (T : sub -> F -> F) : Forall (sub_ok MAX SIZE N) ss -> length e = N ->
    accumulate ss (lines e) scale (map (fun s => tab (sb_len s) (T s)) ss)
    = map (fun s => tab (sb_len s) (fun x => T s x + sval s scale (line e x))) ss.
  Proof.
    intros H Le. induction H as [|s ss Hs _ IH]; [reflexivity|]. cbn [map accumulate]. rewrite IH, accumulate_sub_ok by assumption. reflexivity.
  Qed.
  Lemma zero_accs_ok : zero_accs subs = map (fun s => tab (sb_len s) (fun _ => 0)) subs.
  Proof.
    unfold zero_accs. apply map_ext. intros s. symmetry. apply tab_const.
  Qed.
  Lemma over_edges_app cols g l1 : forall l2 accs, over_edges subs MAX (l1 ++ l2) cols g accs = obind (over_edges subs MAX l1 cols g accs) (over_edges subs MAX l2 cols g).
  Proof.
    induction l1 as [|l l1 IH]; intros l2 accs; [reflexivity|]. cbn [app over_edges].
    destruct (extend_edges MAX cols (2 * l)) as [ext|]; [|reflexivity]. cbn [obind].
    destruct (at_index (gs_products g) (l * gs_period g)) as [scale|]; [|reflexivity]. cbn [obind]. apply IH.
  Qed.
  Lemma over_edges_ok cols g (w : nat -> F) n : length cols = N -> Forall (fun col => 2 * n <= length col) cols ->
    (forall l, l < n -> at_index (gs_products g) (l * gs_period g) = Done (w l)) ->
    over_edges subs MAX (seq 0 n) cols g (zero_accs subs)
    = Done (map (fun s => tab (sb_len s) (fun x => sumn n (fun l => sval s (w l) (line (edge cols l) x)))) subs).
  Proof.
    intros Lc. induction n as [|n IH]; intros Hc Hw; [cbn [seq over_edges sumn]; rewrite zero_accs_ok; reflexivity|].
    rewrite seq_S, over_edges_app, IH; [|revert Hc; apply Forall_impl; intros; lia|intros; apply Hw; lia].
    cbn [obind over_edges Nat.add]. rewrite extend_edges_ok by (revert Hc; apply Forall_impl; intros; lia). cbn [obind].
    rewrite Hw by lia. cbn [obind]. rewrite accumulate_ok by (assumption || (rewrite length_edge; exact Lc)). reflexivity.
  Qed.
  Lemma batch_ok b c ss : forall ys (T : sub -> F -> F) R, length ys = length ss ->
    (forall s, In s ss -> sb_len s <= SIZE /\ poly_fun (sb_len s) (T s)) ->
    batch SIZE ss (map (fun s => tab (sb_len s) (T s)) ss) ys (tab SIZE (fun x => 1 + (b - 1) * x)) c (tab SIZE R)
    = Done (tab SIZE (fun x => R x + wsum ss ys (fun s => if sb_indep s then c * (1 + x * (b - 1)) * T s x else T s x))).
  Proof.
    induction ss as [|s ss IH]; intros [|y ys] T R L H; try discriminate; cbn [map batch wsum].
    - f_equal. apply tab_ext. intros. ring.
    - destruct (H s (or_introl eq_refl)) as (Hl & Hp).
      assert (E : map (fun v => v * y) (tab (sb_len s) (T s)) = tab (sb_len s) (fun x => T s x * y)) by (unfold tab; rewrite map_map; reflexivity).
      rewrite E, extend_tab; [|exact WS|apply poly_ext with (f := fun x => y * T s x); [intros; ring|apply poly_mul; exact Hp]|exact Hl]. cbn [obind].
      rewrite (@map_ext_in _ _ _ (fun k => (fun x => R x + y * (if sb_indep s then c * (1 + x * (b - 1)) * T s x else T s x)) (fnat k))).
      2: { intros k Hk. apply in_seq in Hk. rewrite !nth_tab by lia. destruct (sb_indep s); ring. }
      fold (tab SIZE (fun x => R x + y * (if sb_indep s then c * (1 + x * (b - 1)) * T s x else T s x))).
      rewrite IH; [|cbn [length] in L; lia|intros s' Hs'; apply H; right; exact Hs']. f_equal. apply tab_ext. intros. ring.
  Qed.
  Lemma term_poly s (w : nat -> F) n cols : In s subs -> length cols = N -> poly_fun (sb_len s) (fun x => sumn n (fun l => sval s (w l) (line (edge cols l) x))).
  Proof.
    intros Hi Lc. pose proof OK as H. rewrite Forall_forall in H. destruct (H s Hi) as (_ & P & _).
    apply (@poly_sumn _ _ (sb_len s) n (fun l x => sval s (w l) (line (edge cols l) x))). intros l _.
    destruct (P (edge cols l)) as (p & Lp & Ep); [rewrite length_edge; exact Lc|]. unfold sval. destruct (sb_indep s).
    - apply poly_mul. exists p. split; assumption.
    - exists p. split; assumption.
  Qed.
  Lemma sumn_mul_l n (f : nat -> F) a : a * sumn n f = sumn n (fun k => a * f k).
  Proof. induction n as [|n IH]; cbn [sumn]; [ring|]. rewrite <- IH. ring. Qed.
  Variable alphas : list F.
  Hypothesis Exs : xs = 1 :: alphas.
  Lemma batch_round g b bs m cols : length cols = N -> current_element g = Done b ->
    batch_over_relations subs SIZE (map (fun s => tab (sb_len s) (fun x => sumn (2 ^ m) (fun l => sval s (pow bs l) (line (edge cols l) x)))) subs) alphas g
    = Done (tab SIZE (round_poly subs xs m b bs (gs_result g) cols)).
  Proof.
    intros Lc Hb. unfold batch_over_relations.
    assert (L : (S (length alphas) =? length subs)%nat = true) by (rewrite <- Lxs, Exs; apply Nat.eqb_refl). rewrite L, Hb. cbn [obind].
    replace [1; b] with [1; 1 + (b - 1)] by (f_equal; f_equal; ring). rewrite extend_line by assumption. cbn [obind].
    rewrite <- tab_const.
    rewrite <- Exs, (@batch_ok b (gs_result g) subs xs (fun s x => sumn (2 ^ m) (fun l => sval s (pow bs l) (line (edge cols l) x))) (fun _ => 0) Lxs).
    - f_equal. apply tab_ext. intros k _. unfold round_poly. rewrite gadd_0. apply wsum_ext. intros s _. unfold sval. destruct (sb_indep s); [|reflexivity].
      rewrite sumn_mul_l. apply sumn_ext. intros. ring.
    - intros s Hs. pose proof OK as H. rewrite Forall_forall in H. destruct (H s Hs) as (_ & _ & _ & _ & _ & S1 & _). split; [exact S1|]. apply term_poly; assumption.
  Qed.
  Lemma compute_ok g b bs m cols : length cols = N -> Forall (fun col => 2 ^ S m <= length col)%nat cols -> current_element g = Done b ->
    (forall l, (l < 2 ^ m)%nat -> at_index (gs_products g) (l * gs_period g) = Done (pow bs l)) ->
    compute_univariate subs MAX SIZE (2 ^ m) g alphas cols = Done (tab SIZE (round_poly subs xs m b bs (gs_result g) cols)).
  Proof.
    intros Lc Hc Hb Hw. unfold compute_univariate. rewrite (@over_edges_ok cols g (pow bs) (2 ^ m) Lc Hc Hw). cbn [obind]. apply batch_round; assumption.
  Qed.
  Lemma pow_0 bs : pow bs 0 = (1 : F).
  Proof using Type. induction bs as [|b bs IH]; [reflexivity|]. cbn. rewrite IH. ring. Qed.
  Lemma virtual_ok g b bs cols : length cols = N -> Forall (fun col => 2 <= length col)%nat cols -> current_element g = Done b ->
    compute_virtual subs MAX SIZE g alphas cols = Done (tab SIZE (round_poly subs xs 0 b bs (gs_result g) cols)).
  Proof.
    intros Lc Hc Hb. unfold compute_virtual. change (extend_edges MAX cols 0) with (extend_edges MAX cols (2 * 0)). rewrite (@extend_edges_ok cols 0) by (revert Hc; apply Forall_impl; intros; lia). cbn [obind].
    rewrite zero_accs_ok, accumulate_ok by (assumption || (rewrite length_edge; exact Lc)). rewrite <- (@batch_round g b bs 0 cols Lc Hb). f_equal.
    apply map_ext. intros s. apply tab_ext. intros k _. cbn [Nat.pow sumn]. rewrite pow_0. reflexivity.
  Qed.

  (** ** The gate separator *)
  Lemma pow_app ds : forall es x y, (x < 2 ^ length ds)%nat -> pow (ds ++ es) (x + 2 ^ length ds * y) = pow ds x * (pow es y : F).
  Proof.
    induction ds as [|d ds IH]; intros es x y Hx; cbn [app length].
    - cbn [length Nat.pow] in Hx. replace x with O by lia. cbn [Nat.pow pow]. replace (0 + 1 * y)%nat with y by lia. ring.
    - cbn [pow]. rewrite Nat.pow_succ_r', <- Nat.mul_assoc, Nat.odd_add_mul_2.
      assert (E : Nat.div2 (x + 2 * (2 ^ length ds * y)) = (Nat.div2 x + 2 ^ length ds * y)%nat).
      { rewrite !Nat.div2_div, (Nat.mul_comm 2 (2 ^ length ds * y)). apply Nat.div_add. lia. }
      rewrite E, IH; [ring|]. cbn [length] in Hx. rewrite Nat.div2_div. apply Nat.div_lt_upper_bound; [lia|]. rewrite Nat.pow_succ_r' in Hx. exact Hx.
  Qed.
  Lemma pow_firstn bs k l : (l < 2 ^ length (firstn k bs))%nat -> pow (firstn k bs) l = pow bs l.
  Proof.
    intros H. rewrite <- (firstn_skipn k bs) at 2. replace l with (l + 2 ^ length (firstn k bs) * 0)%nat at 2 by lia. rewrite pow_app by exact H. rewrite pow_0. ring.
  Qed.
  Lemma products_ok bs : forall ds, beta_products bs (map (pow ds) (seq 0 (2 ^ length ds))) = map (pow (ds ++ bs)) (seq 0 (2 ^ length (ds ++ bs))).
  Proof.
    induction bs as [|b bs IH]; intros ds; cbn [beta_products]; [rewrite app_nil_r; reflexivity|].
    replace (ds ++ b :: bs) with ((ds ++ [b]) ++ bs) by (rewrite <- app_assoc; reflexivity). rewrite <- IH. f_equal.
    rewrite app_length. cbn [length]. rewrite Nat.add_1_r, Nat.pow_succ_r'. replace (2 * 2 ^ length ds)%nat with (2 ^ length ds + 2 ^ length ds)%nat by lia.
    rewrite seq_app, map_app. f_equal.
    - apply map_ext_in. intros i Hi. apply in_seq in Hi. replace i with (i + 2 ^ length ds * 0)%nat at 2 by lia. rewrite pow_app by lia. rewrite pow_0. ring.
    - assert (E : map (pow (ds ++ [b])) (seq (0 + 2 ^ length ds) (2 ^ length ds)) = map (fun x => x * b) (map (pow ds) (seq 0 (2 ^ length ds)))).
      { rewrite map_map.
        assert (G : forall n, n <= 2 ^ length ds -> map (pow (ds ++ [b])) (seq (0 + 2 ^ length ds) n) = map (fun x => pow ds x * b) (seq 0 n)).
        { induction n as [|n IHn]; intros Hn; [reflexivity|]. rewrite !seq_S, !map_app, IHn by lia. f_equal. cbn [map Nat.add]. f_equal.
          replace (2 ^ length ds + n)%nat with (n + 2 ^ length ds * 1)%nat by lia. rewrite pow_app by lia. cbn. ring. }
        apply G. lia. }
      rewrite E. destruct (2 ^ length ds)%nat eqn:E2; [exfalso; revert E2; apply Nat.pow_nonzero; lia|]. cbn [seq map tl]. rewrite pow_0. f_equal. ring.
  Qed.
  Lemma gates_products betas d r l : (r < d)%nat -> (d <= length betas)%nat -> (l < 2 ^ (d - S r))%nat ->
    at_index (gs_products (gates_new betas d)) (l * 2 ^ S r) = Done (pow (skipn (S r) betas) l).
  Proof.
    intros Hr Hd Hl. unfold gates_new. cbn [gs_products].
    pose proof (products_ok (firstn d betas) []) as E. cbn [length Nat.pow seq map app] in E. rewrite pow_0 in E. rewrite E.
    assert (Lf : length (firstn d betas) = d) by (rewrite firstn_length; lia). rewrite Lf.
    assert (Hi : (l * 2 ^ S r < 2 ^ d)%nat).
    { replace d with (d - S r + S r)%nat at 1 by lia. rewrite Nat.pow_add_r. apply Nat.mul_lt_mono_pos_r; [|exact Hl]. pose proof (Nat.pow_nonzero 2 (S r)). lia. }
    rewrite (at_index_nth _ 0) by (rewrite app_length, map_length, seq_length; lia). f_equal.
    rewrite app_nth1 by (rewrite map_length, seq_length; exact Hi).
    rewrite (nth_indep (map (pow (firstn d betas)) (seq 0 (2 ^ d))) 0 (pow (firstn d betas) 0)) by (rewrite map_length, seq_length; exact Hi).
    rewrite map_nth, seq_nth by exact Hi. cbn [Nat.add]. rewrite pow_firstn by (rewrite Lf; exact Hi).
    rewrite <- (firstn_skipn (S r) betas) at 1. assert (Lr : length (firstn (S r) betas) = S r) by (rewrite firstn_length; lia).
    replace (l * 2 ^ S r)%nat with (0 + 2 ^ length (firstn (S r) betas) * l)%nat by (rewrite Lr; lia). rewrite pow_app by (rewrite Lr; pose proof (Nat.pow_nonzero 2 (S r)); lia).
    rewrite pow_0. ring.
  Qed.

  (** ** The columns after a challenge *)
  Lemma init_ok u n col : length col = (2 * n)%nat -> exists col', evaluate_init n u col = Done col' /\ length col' = n /\ folds u col col'.
  Proof.
    intros L. set (f := fun i => nth (2 * i) col 0 + (nth (S (2 * i)) col 0 - nth (2 * i) col 0) * u). exists (map f (seq 0 n)). split; [|split].
    - unfold evaluate_init. apply omapM_map. intros i Hi. apply in_seq in Hi. rewrite !(at_index_nth col 0) by lia. reflexivity.
    - rewrite map_length. apply seq_length.
    - intros l. destruct (lt_dec l n) as [H|H].
      + rewrite (nth_indep (map f (seq 0 n)) 0 (f O)) by (rewrite map_length, seq_length; exact H).
        rewrite map_nth, seq_nth by exact H. reflexivity.
      + rewrite !nth_overflow; [ring|lia|lia|rewrite map_length, seq_length; lia].
  Qed.
  Lemma pairs_ok u n : forall col, length col = (2 * n)%nat -> exists col', evaluate_pairs u col = Done col' /\ length col' = n /\ folds u col col'.
  Proof.
    induction n as [|n IH]; intros [|a [|b col]] L; try (cbn [length] in L; lia).
    - exists []. split; [reflexivity|]. split; [reflexivity|]. intros l. rewrite !nth_overflow by (cbn; lia). ring.
    - destruct (IH col) as (col' & E & L' & Fo); [cbn [length] in L; lia|]. exists (a + (b - a) * u :: col'). split; [|split].
      + cbn [evaluate_pairs]. rewrite E. reflexivity.
      + cbn [length]. lia.
      + intros [|l]; [reflexivity|]. specialize (Fo l). replace (2 * S l)%nat with (S (S (2 * l))) by lia. exact Fo.
  Qed.
  Lemma nth_snoc_0 (l : list F) i : nth i (l ++ [0]) 0 = nth i l 0.
  Proof.
    destruct (lt_dec i (length l)) as [H|H]; [apply app_nth1; exact H|]. rewrite app_nth2 by lia. rewrite (nth_overflow l) by lia.
    destruct (i - length l)%nat as [|[|k]]; reflexivity.
  Qed.
  (** a column after [r] of [d] rounds *)
  Definition shape (d r : nat) (col : list F) : Prop := length col = (2 ^ (d - r))%nat \/ (r = d /\ exists v, col = [v; 0]).
  Lemma inplace_ok u d r col : r < d -> length col = (2 ^ (d - r))%nat ->
    exists col', evaluate_inplace u col = Done col' /\ folds u col col' /\
      ((S r < d -> length col' = 2 ^ (d - S r))%nat /\ (S r = d -> exists v, col' = [v; 0])).
  Proof.
    intros Hr L. assert (L2 : length col = (2 * 2 ^ (d - S r))%nat) by (rewrite L; replace (d - r)%nat with (S (d - S r)) by lia; apply Nat.pow_succ_r').
    destruct (pairs_ok u _ col L2) as (col' & E & L' & Fo). unfold evaluate_inplace. rewrite E. cbn [obind]. rewrite L'.
    destruct (2 ^ (d - S r) <? 2)%nat eqn:B.
    - exists (col' ++ [0]). split; [reflexivity|]. split; [intros l; rewrite nth_snoc_0; apply Fo|]. apply Nat.ltb_lt in B.
      split; intros H.
      + exfalso. destruct (d - S r)%nat eqn:D; [lia|]. rewrite Nat.pow_succ_r' in B. pose proof (Nat.pow_nonzero 2 n). lia.
      + replace (d - S r)%nat with O in L' by lia. destruct col' as [|v [|]]; try discriminate L'. exists v. reflexivity.
    - exists col'. split; [reflexivity|]. split; [exact Fo|]. apply Nat.ltb_ge in B. split; intros H; [exact L'|].
      exfalso. replace (d - S r)%nat with O in B by lia. cbn in B. lia.
  Qed.

  (** ** The verifier *)
  Variable chal : list (list F) -> F.
  (** a challenge at which the verifier can evaluate a univariate *)
  Definition good (u : F) : Prop := forall i, 1 <= i < SIZE -> u <> fnat i.
  Definition is_bad (u : F) : bool := existsb (fun i => feqb u (fnat i)) (seq 1 (SIZE - 1)).
  Lemma is_bad_spec u : if is_bad u then exists i, 1 <= i < SIZE /\ u = fnat i else good u.
  Proof using Type.
    clear - SIZE FF u.
    destruct (is_bad u) eqn:E.
    - apply existsb_exists in E. destruct E as (i & Hi & Ei). apply in_seq in Hi. exists i. split; [lia|]. apply feqb_spec. exact Ei.
    - intros i Hi Eu. enough (is_bad u = true) by congruence. apply existsb_exists. exists i. split; [apply in_seq; lia|]. apply feqb_spec. exact Eu.
  Qed.
  Lemma total_sum_1 t un : 2 <= length un -> total_sum t un 1 = Done (nth 0 un 0 + nth 1 un 0).
  Proof using Type. intros H. clear - H FF. unfold total_sum. rewrite !(at_index_nth un 0) by lia. cbn [obind]. f_equal. ring. Qed.
  Notation vr := (verify_rounds SIZE chal).
  (** the gate separator of the verifier after some rounds *)
  Definition vgates (betas : list F) (c : F) (r period : nat) : gates := {| gs_betas := betas; gs_products := []; gs_result := c; gs_idx := r; gs_period := period |}.
  Lemma verify_step pad sent rest R target betas c r period us b :
    poly_fun SIZE R -> R 0 + R 1 = target -> nth_error betas r = Some b ->
    let un := tab SIZE R in let u := chal (sent ++ [un]) in
    vr (1 :: pad) sent (un :: rest) target true (vgates betas c r period) us =
    if is_bad u then Failed (Panic "division by zero")
    else vr pad (sent ++ [un]) rest (R u) true (vgates betas (c * (1 + u * (b - 1))) (S r) (2 * period)) (us ++ [u]).
  Proof.
    intros P E Hb un u. cbn [verify_rounds]. fold un u. unfold un at 1. rewrite length_tab, Nat.eqb_refl.
    rewrite total_sum_1 by (unfold un; rewrite length_tab; exact HS). cbn [obind]. pose proof (is_bad_spec u) as B. destruct (is_bad u).
    - destruct B as (i & Hi & ->). rewrite evaluate_panics; [reflexivity| |]; unfold un; rewrite length_tab; assumption.
    - destruct (tab_values P) as (p & Lp & Ep & Vp). 
      assert (Ev : evaluate un u = Done (R u)) by (unfold un; rewrite (Vp SIZE), (Ep u); apply evaluate_ok; [exact WS|exact Lp|lia|exact B]).
      rewrite Ev. cbn [obind].
      unfold gates_evaluate_padded, current_element, at_index, vgates. cbn [gs_betas gs_idx gs_result gs_products gs_period]. rewrite Hb. cbn [obind].
      replace (nth 0 un 0 + nth 1 un 0) with (R 0 + R 1) by (unfold un; rewrite !nth_tab by lia; rewrite fnat_0, fnat_1; reflexivity). rewrite E.
      assert (F1 : feqb target target = true) by (apply feqb_spec; reflexivity). rewrite F1. cbn [andb].
      f_equal; [ring|]. f_equal. ring.
  Qed.

  (** ** Rounds of the prover and of the verifier *)
  Variables (betas : list F) (d : nat) (cols0 : list (list F)).
  Hypothesis Ld : d <= length betas.
  (** after [r] rounds the prover has the columns [cols] and the sum is [T] *)
  Definition agree (r : nat) (T c : F) (cols : list (list F)) (sent : list (list F)) (us : list F) : Prop :=
    length us = r /\ length cols = N /\
    (forall vs, map (mle (us ++ vs)) cols0 = map (mle vs) cols) /\
    gates_evaluate_all (gates_bare betas) us = Done (vgates betas c r (2 ^ S r)) /\
    ((Forall good us /\ forall k rest, vr (repeat 1 (r + k)) [] (sent ++ rest) 0 true (gates_bare betas) [] = vr (repeat 1 k) sent rest T true (vgates betas c r (2 ^ S r)) us) \/
     ((exists i, 1 <= i < SIZE /\ In (fnat i) us) /\ forall k rest, vr (repeat 1 (r + k)) [] (sent ++ rest) 0 true (gates_bare betas) [] = Failed (Panic "division by zero"))).
  Lemma evaluate_all_snoc us : forall g u, gates_evaluate_all g (us ++ [u]) = obind (gates_evaluate_all g us) (fun g : gates => gates_evaluate g u).
  Proof.
    induction us as [|v us IH]; intros g u; cbn [app gates_evaluate_all].
    - cbn [obind]. destruct (gates_evaluate g u); reflexivity.
    - destruct (gates_evaluate g v); [|reflexivity]. cbn [obind]. apply IH.
  Qed.
  Lemma agree_step r T c cols sent us R b cols' : agree r T c cols sent us -> poly_fun SIZE R -> R 0 + R 1 = T -> nth_error betas r = Some b ->
    let un := tab SIZE R in let u := chal (sent ++ [un]) in
    Forall2 (folds u) cols cols' -> agree (S r) (R u) (c * (1 + u * (b - 1))) cols' (sent ++ [un]) (us ++ [u]).
  Proof.
    intros (Lu & Lc & Em & Eg & V) P E Hb un u Fo. split; [rewrite app_length; cbn; lia|]. split; [rewrite <- (Forall2_len Fo); exact Lc|]. split; [|split].
    - intros vs. rewrite <- app_assoc. cbn [app]. rewrite Em. clear - Fo. induction Fo as [|x y l l' H _ IH]; [reflexivity|]. cbn [map]. rewrite IH, (mle_folds vs H). reflexivity.
    - rewrite evaluate_all_snoc, Eg. cbn [obind]. unfold gates_evaluate, current_element, at_index, vgates. cbn [gs_betas gs_idx gs_products gs_result gs_period].
      rewrite Hb. cbn [obind]. rewrite (Nat.pow_succ_r' 2 (S r)). reflexivity.
    - assert (Sr : forall k, (S r + k = r + S k)%nat) by (intros; lia).
      assert (Ap : forall rest, (sent ++ [un]) ++ rest = sent ++ un :: rest) by (intros; rewrite <- app_assoc; reflexivity).
      destruct V as [(G & V)|((i & Hi & Ii) & V)].
      + pose proof (is_bad_spec u) as B. destruct (is_bad u) eqn:Eb.
        * right. destruct B as (i & Hi & Eu). split; [exists i; split; [exact Hi|]; rewrite <- Eu; apply in_or_app; right; left; reflexivity|].
          intros k rest. rewrite Sr, Ap, V. cbn [repeat]. rewrite (@verify_step (repeat 1 k) sent rest R T betas c r (2 ^ S r)%nat us b P E Hb). fold un u. rewrite Eb. reflexivity.
        * left. split; [apply Forall_app; split; [exact G|constructor; [exact B|constructor]]|].
          intros k rest. rewrite Sr, Ap, V. cbn [repeat]. rewrite (@verify_step (repeat 1 k) sent rest R T betas c r (2 ^ S r)%nat us b P E Hb). fold un u. rewrite Eb, (Nat.pow_succ_r' 2 (S r)). reflexivity.
      + right. split; [exists i; split; [exact Hi|apply in_or_app; left; exact Ii]|]. intros k rest. rewrite Sr, Ap. apply V.
  Qed.

  (** the gate separator of the prover *)
  Definition pgates (c : F) (r : nat) : gates :=
    {| gs_betas := betas; gs_products := gs_products (gates_new betas d); gs_result := c; gs_idx := r; gs_period := 2 ^ S r |}.
  Notation tot := (total subs xs).
  Lemma round_ok r T c s next : r < d -> ps_gates s = pgates c r -> agree r T c (ps_cols s) (ps_sent s) (ps_us s) -> T = tot (d - r) (skipn r betas) c (ps_cols s) ->
    Forall (fun col => length col = 2 ^ (d - r))%nat (ps_cols s) ->
    (forall u col, length col = (2 ^ (d - r))%nat -> exists col', next u col = Done col' /\ folds u col col' /\
       ((S r < d -> length col' = 2 ^ (d - S r))%nat /\ (S r = d -> length col' = 1%nat \/ exists v, col' = [v; 0]))) ->
    exists s' c', round subs MAX SIZE chal (2 ^ (d - S r)) alphas next s = Done s' /\ ps_gates s' = pgates c' (S r) /\
      agree (S r) (tot (d - S r) (skipn (S r) betas) c' (ps_cols s')) c' (ps_cols s') (ps_sent s') (ps_us s') /\
      Forall (fun col => (S r < d -> length col = 2 ^ (d - S r))%nat) (ps_cols s') /\
      (S r = d -> (forall u col, length col = (2 ^ (d - r))%nat -> forall col', next u col = Done col' -> exists v, col' = [v; 0]) -> Forall (fun col => exists v, col = [v; 0]) (ps_cols s')) /\
      Forall (fun col => 1 <= length col)%nat (ps_cols s').
  Proof.
    intros Hr Eg A ET Hc Hn. destruct (nth_error betas r) as [b|] eqn:Hb; [|apply nth_error_None in Hb; lia].
    assert (Eb : skipn r betas = b :: skipn (S r) betas).
    { clear - Hb. revert r Hb. induction betas as [|x l IH]; intros [|r] H; cbn in H; try discriminate; [injection H as <-; reflexivity|]. cbn [skipn]. rewrite (IH r H). reflexivity. }
    assert (Ed : (d - r = S (d - S r))%nat) by lia. pose proof A as (_ & Lc & _).
    unfold round. rewrite Eg.
    rewrite (@compute_ok (pgates c r) b (skipn (S r) betas) (d - S r) (ps_cols s) Lc).
    2: { rewrite <- Ed. revert Hc. apply Forall_impl. intros; lia. }
    2: { unfold current_element, at_index, pgates. cbn [gs_betas gs_idx]. rewrite Hb. reflexivity. }
    2: { intros l Hl. unfold pgates. cbn [gs_period gs_products]. apply gates_products; assumption. }
    cbn [obind]. cbn [gs_result pgates]. set (R := round_poly subs xs (d - S r) b (skipn (S r) betas) c (ps_cols s)). set (un := tab SIZE R). set (u := chal (ps_sent s ++ [un])).
    destruct (@omapM_rel _ _ (next u) (fun col col' => folds u col col' /\ next u col = Done col' /\ length col = (2 ^ (d - r))%nat /\
      ((S r < d -> length col' = 2 ^ (d - S r))%nat /\ (S r = d -> length col' = 1%nat \/ exists v, col' = [v; 0]))) (ps_cols s)) as (cols' & En & Rel).
    { intros col Hi. rewrite Forall_forall in Hc. destruct (Hn u col (Hc col Hi)) as (col' & E & Fo & Sh). exists col'. split; [exact E|]. split; [exact Fo|]. split; [exact E|]. split; [apply Hc, Hi|exact Sh]. }
    rewrite En. cbn [obind]. unfold gates_evaluate, current_element, at_index, pgates. cbn [gs_betas gs_idx gs_products gs_result gs_period]. rewrite Hb. cbn [obind].
    eexists. exists (c * (1 + u * (b - 1))). split; [reflexivity|]. cbn [ps_gates ps_cols ps_sent ps_us]. split; [rewrite (Nat.pow_succ_r' 2 (S r)); reflexivity|].
    assert (Fo : Forall2 (folds u) (ps_cols s) cols') by (clear - Rel; clearbody u; induction Rel as [|x y l l' H _ IH]; [constructor|constructor; [apply H|exact IH]]).
    split; [|split; [|split]].
    - rewrite <- (round_next subs xs (d - S r) b (skipn (S r) betas) c Fo). fold R.
      apply (agree_step A (R := R) (b := b)); [apply round_degree with (MAX := MAX) (N := N); assumption| |exact Hb|exact Fo].
      unfold R. rewrite round_sum, ET, Eb, Ed. reflexivity.
    - clear - Rel. clearbody u; induction Rel as [|x y l l' H _ IH]; [constructor|]; constructor; [apply H|exact IH].
    - intros Er Hz. clear - Rel Hz. clearbody u; induction Rel as [|x y l l' H _ IH]; [constructor|]; constructor; [|exact IH]. destruct H as (_ & E & L & _). exact (Hz u x L y E).
    - clear - Rel Hr. clearbody u; induction Rel as [|x y l l' H _ IH]; [constructor|]; constructor; [|exact IH]. destruct H as (_ & _ & _ & H1 & H2).
      destruct (Nat.eq_dec (S r) d) as [E|E]; [destruct (H2 E) as [H|(v & ->)]; cbn; lia|]. rewrite H1 by lia. pose proof (Nat.pow_nonzero 2 (d - S r)). lia.
  Qed.

  Lemma rounds_ok n : forall r c s, (r + n = d)%nat -> ps_gates s = pgates c r ->
    agree r (tot (d - r) (skipn r betas) c (ps_cols s)) c (ps_cols s) (ps_sent s) (ps_us s) ->
    Forall (fun col => 1 <= length col)%nat (ps_cols s) ->
    (0 < n -> Forall (fun col => length col = 2 ^ (d - r)) (ps_cols s))%nat ->
    exists s' c', rounds subs MAX SIZE chal n (2 ^ (d - S r)) alphas s = Done s' /\
      agree d (tot 0 (skipn d betas) c' (ps_cols s')) c' (ps_cols s') (ps_sent s') (ps_us s') /\
      Forall (fun col => 1 <= length col)%nat (ps_cols s') /\
      ((0 < n)%nat -> Forall (fun col => exists v, col = [v; 0]) (ps_cols s')).
  Proof.
    induction n as [|n IH]; intros r c s Er Eg A L1 Hc; cbn [rounds].
    - exists s, c. replace r with d in A by lia. rewrite Nat.sub_diag in A. split; [reflexivity|]. split; [exact A|]. split; [exact L1|]. intros H; lia.
    - specialize (Hc (Nat.lt_0_succ n)). assert (Hr : r < d) by lia.
      destruct (@round_ok r _ c s evaluate_inplace Hr Eg A eq_refl Hc) as (s1 & c1 & E1 & Eg1 & A1 & Sh & Z & L1').
      { intros u col L. destruct (@inplace_ok u d r col Hr L) as (col' & E & Fo & Sh1 & Sh2). exists col'. split; [exact E|]. split; [exact Fo|]. split; [exact Sh1|]. intros H. right. exact (Sh2 H). }
      rewrite E1. cbn [obind].
      assert (Eh : (2 ^ (d - S r) / 2 = 2 ^ (d - S (S r)))%nat \/ n = O).
      { destruct n as [|n]; [right; reflexivity|left]. replace (d - S r)%nat with (S (d - S (S r))) by lia. rewrite Nat.pow_succ_r', Nat.mul_comm. apply Nat.div_mul. lia. }
      destruct (Nat.eq_dec n 0) as [->|Hn].
      + cbn [rounds]. exists s1, c1. split; [reflexivity|]. assert (Ed : S r = d) by lia. rewrite Ed in A1. rewrite Nat.sub_diag in A1. split; [exact A1|]. split; [exact L1'|].
        intros _. apply Z; [exact Ed|]. intros u col L col' E. destruct (@inplace_ok u d r col Hr L) as (col2 & E2 & _ & _ & Sh2). rewrite E in E2. injection E2 as ->. exact (Sh2 Ed).
      + destruct Eh as [Eh|Eh]; [|contradiction]. rewrite Eh.
        destruct (IH (S r) c1 s1) as (s2 & c2 & E2 & A2 & L2 & Z2); [lia|exact Eg1|exact A1|exact L1'|intros _; revert Sh; apply Forall_impl; intros col H; apply H; lia|].
        exists s2, c2. split; [exact E2|]. split; [exact A2|]. split; [exact L2|]. intros _. apply Z2. lia.
  Qed.

  (** ** Rounds of the extension by zero *)
  Lemma row_zero cols : Forall (fun col => exists v, col = [v; (0 : F)]) cols -> row cols 1 = repeat 0 (length cols).
  Proof. induction 1 as [|col cols (v & ->) _ IH]; [reflexivity|]. cbn [row map length repeat]. f_equal. exact IH. Qed.
  Lemma total_virtual b bs bs' c cols : length cols = N -> Forall (fun col => exists v, col = [v; 0]) cols -> tot 1 (b :: bs) c cols = tot 0 bs' c cols.
  Proof.
    intros Lc H. unfold total. apply wsum_ext. intros s Hi. cbn [Nat.pow Nat.mul Nat.add sumn]. rewrite (row_zero H), Lc. pose proof OK as O1. rewrite Forall_forall in O1.
    destruct (O1 s Hi) as (_ & _ & Z & _). unfold sval. rewrite !pow_0, Z. destruct (sb_indep s); ring.
  Qed.
  Lemma folds_virtual u v : folds u [v; 0] [v * (1 - u); 0].
  Proof.
    intros l. destruct l as [|l]; [cbn; ring|]. replace (2 * S l)%nat with (S (S (2 * l))) by lia.
    rewrite (nth_overflow [v; 0]) by (cbn [length]; lia). rewrite (nth_overflow [v; 0]) by (cbn [length]; lia). destruct l as [|[|l]]; cbn; ring.
  Qed.
  Lemma virtual_rounds_ok n : forall r c s, d <= r -> (r + n <= length betas)%nat -> ps_gates s = vgates betas c r (2 ^ S r) ->
    agree r (tot 0 (skipn r betas) c (ps_cols s)) c (ps_cols s) (ps_sent s) (ps_us s) ->
    ((0 < n)%nat -> Forall (fun col => exists v, col = [v; 0]) (ps_cols s)) -> Forall (fun col => 1 <= length col)%nat (ps_cols s) ->
    exists s' c', virtual_rounds subs MAX SIZE chal n alphas s = Done s' /\
      agree (r + n) (tot 0 (skipn (r + n) betas) c' (ps_cols s')) c' (ps_cols s') (ps_sent s') (ps_us s') /\
      Forall (fun col => 1 <= length col)%nat (ps_cols s').
  Proof.
    induction n as [|n IH]; intros r c s Hd Hr Eg A Z L1; cbn [virtual_rounds].
    - exists s, c. rewrite Nat.add_0_r. split; [reflexivity|]. split; assumption.
    - specialize (Z (Nat.lt_0_succ n)). destruct (nth_error betas r) as [b|] eqn:Hb; [|apply nth_error_None in Hb; lia].
      pose proof A as (_ & Lc & _). unfold virtual_round. rewrite Eg.
      rewrite (@virtual_ok (vgates betas c r (2 ^ S r)) b (skipn (S r) betas) (ps_cols s) Lc).
      2: { revert Z. apply Forall_impl. intros col (v & ->). cbn. lia. }
      2: { unfold current_element, at_index, vgates. cbn [gs_betas gs_idx]. rewrite Hb. reflexivity. }
      cbn [obind]. cbn [gs_result vgates]. set (R := round_poly subs xs 0 b (skipn (S r) betas) c (ps_cols s)). set (un := tab SIZE R). set (u := chal (ps_sent s ++ [un])).
      unfold gates_evaluate, current_element, at_index, vgates. cbn [gs_betas gs_idx gs_products gs_result gs_period]. rewrite Hb. cbn [obind].
      set (cols' := map (fun col => match col with [] => [] | a :: t => a * (1 - u) :: t end) (ps_cols s)).
      assert (Fo : Forall2 (folds u) (ps_cols s) cols').
      { unfold cols'. clearbody u. clear - Z WS WM HM HS OK Lxs Exs Ld. revert Z. generalize (ps_cols s). intros cs Z. induction Z as [|col l (v & ->) _ IHl]; cbn [map]; [constructor|]. constructor; [apply folds_virtual|exact IHl]. }
      assert (Z' : Forall (fun col => exists v, col = [v; 0]) cols').
      { unfold cols'. clearbody u. clear - Z WS WM HM HS OK Lxs Exs Ld. revert Z. generalize (ps_cols s). intros cs Z. induction Z as [|col l (v & ->) _ IHl]; cbn [map]; [constructor|]. constructor; [eexists; reflexivity|exact IHl]. }
      replace (r + S n)%nat with (S r + n)%nat by lia.
      apply (IH (S r) (c * (1 + u * (b - 1)))); cbn [ps_gates ps_cols ps_sent ps_us]; [lia|lia|rewrite (Nat.pow_succ_r' 2 (S r)); reflexivity| |intros _; exact Z'|revert Z'; apply Forall_impl; intros col (v & ->); cbn; lia].
      rewrite <- (round_next subs xs 0 b (skipn (S r) betas) c Fo). fold R.
      apply (agree_step A (R := R) (b := b)); [apply round_degree with (MAX := MAX) (N := N); assumption| |exact Hb|exact Fo].
      unfold R. rewrite round_sum. apply total_virtual; assumption.
  Qed.

  (** ** All of it *)
  Lemma batch_evaluations_ok row c : length row = N -> forall ss ys o, Forall (sub_ok MAX SIZE N) ss -> batch_evaluations ss ys row c o = o + wsum ss ys (fun s => sval s c row).
  Proof using Type.
    intros Lr ss. induction ss as [|s ss IH]; intros [|y ys] o H; cbn [batch_evaluations wsum]; try ring.
    pose proof (Forall_inv H) as (V & _). pose proof (Forall_inv_tail H) as H'. rewrite IH by assumption. unfold sval. rewrite (V row Lr). destruct (sb_indep s); ring.
  Qed.
  Lemma agree_0 T : length cols0 = N -> T = 0 -> agree 0 T 1 cols0 [] [].
  Proof.
    intros L ->. split; [reflexivity|]. split; [exact L|]. split; [reflexivity|]. split; [reflexivity|]. left. split; [constructor|]. reflexivity.
  Qed.
  Theorem sumcheck_complete v : 1 <= d -> d <= v -> v <= length betas -> (2 <= d \/ v = d) -> length cols0 = N ->
    Forall (fun col => length col = 2 ^ d)%nat cols0 -> tot d betas 1 cols0 = 0 ->
    exists sent evals us, sumcheck_prove subs MAX SIZE chal d v betas alphas cols0 = Done (sent, evals, us) /\
      length us = v /\ evals = map (mle us) cols0 /\
      ((Forall good us /\ sumcheck_verify subs SIZE chal (repeat 1 v) betas alphas sent evals = Done (true, us)) \/
       ((exists i, 1 <= i < SIZE /\ In (fnat i) us) /\ sumcheck_verify subs SIZE chal (repeat 1 v) betas alphas sent evals = Failed (Panic "division by zero"))).
  Proof.
    intros H1 Hv Lv Hd Lc Hc HT. unfold sumcheck_prove.
    set (s0 := {| ps_sent := []; ps_us := []; ps_cols := cols0; ps_gates := gates_new betas d |}).
    assert (E1 : (2 ^ d / 2 = 2 ^ (d - 1))%nat) by (replace d with (S (d - 1)) at 1 by lia; rewrite Nat.pow_succ_r', Nat.mul_comm; apply Nat.div_mul; lia).
    assert (E2 : (2 ^ d = 2 * 2 ^ (d - 1))%nat) by (replace d with (S (d - 1)) at 1 by lia; apply Nat.pow_succ_r').
    rewrite E1.
    destruct (@round_ok 0 0 1 s0 (evaluate_init (2 ^ (d - 1)))) as (s1 & c1 & R1 & G1 & A1 & Sh1 & _ & L1).
    { lia. } { reflexivity. } { apply agree_0; [exact Lc|reflexivity]. } { rewrite Nat.sub_0_r. cbn [skipn ps_cols s0]. symmetry. exact HT. }
    { rewrite Nat.sub_0_r. exact Hc. }
    { rewrite Nat.sub_0_r. intros u col L. rewrite E2 in L. destruct (init_ok u _ col L) as (col' & E & L' & Fo). exists col'. split; [exact E|]. split; [exact Fo|]. split; [intros _; exact L'|].
      intros H. left. rewrite L'. replace (d - 1)%nat with O by lia. reflexivity. }
    rewrite R1. cbn [obind].
    assert (Rs : exists s2 c2, rounds subs MAX SIZE chal (d - 1) (2 ^ (d - 1) / 2) alphas s1 = Done s2 /\ agree d (tot 0 (skipn d betas) c2 (ps_cols s2)) c2 (ps_cols s2) (ps_sent s2) (ps_us s2) /\
      Forall (fun col => 1 <= length col)%nat (ps_cols s2) /\ ((0 < d - 1)%nat -> Forall (fun col => exists v, col = [v; 0]) (ps_cols s2))).
    { destruct (Nat.eq_dec d 1) as [Ed|Ed].
      - replace (d - 1)%nat with O by lia. cbn [rounds]. exists s1, c1. split; [reflexivity|]. replace (d - 1)%nat with O in A1 by lia. rewrite <- Ed in A1. split; [exact A1|]. split; [exact L1|]. lia.
      - assert (Eh : (2 ^ (d - 1) / 2 = 2 ^ (d - 2))%nat) by (replace (d - 1)%nat with (S (d - 2)) by lia; rewrite Nat.pow_succ_r', Nat.mul_comm; apply Nat.div_mul; lia).
        rewrite Eh. apply (@rounds_ok (d - 1) 1 c1 s1); [lia|exact G1|exact A1|exact L1|]. intros _. revert Sh1. apply Forall_impl. intros col H. apply H. lia. }
    destruct Rs as (s2 & c2 & R2 & A2 & L2 & Z2). rewrite R2. cbn [obind]. pose proof A2 as (_ & _ & _ & Eg2 & _). rewrite Eg2. cbn [obind].
    destruct (@virtual_rounds_ok (v - d) d c2 {| ps_sent := ps_sent s2; ps_us := ps_us s2; ps_cols := ps_cols s2; ps_gates := vgates betas c2 d (2 ^ S d) |}) as (s3 & c3 & R3 & A3 & L3);
      [lia|lia|reflexivity|exact A2|intros H; apply Z2; lia|exact L2|].
    rewrite R3. cbn [obind]. replace (d + (v - d))%nat with v in A3 by lia. destruct A3 as (Lu & Lc3 & Em & _ & V).
    rewrite (@omapM_map _ _ _ (fun col => nth 0 col 0)) by (intros col Hi; rewrite Forall_forall in L3; apply at_index_nth; apply L3, Hi). cbn [obind].
    exists (ps_sent s3), (row (ps_cols s3) 0), (ps_us s3). split; [reflexivity|]. split; [exact Lu|].
    split; [specialize (Em []); rewrite app_nil_r in Em; rewrite Em; apply map_ext; intros; rewrite mle_nil; reflexivity|].
    assert (Lr : length (row (ps_cols s3) 0) = N) by (unfold row; rewrite map_length; exact Lc3).
    assert (La : (S (length alphas) =? length subs)%nat = true) by (rewrite <- Lxs, Exs; apply Nat.eqb_refl).
    destruct V as [(G & V)|(B & V)]; specialize (V 0%nat []); rewrite app_nil_r, Nat.add_0_r in V; [left|right]; (split; [assumption|]); unfold sumcheck_verify; rewrite V; [|reflexivity].
    cbn [repeat verify_rounds obind]. rewrite La. cbn [gs_result vgates]. rewrite batch_evaluations_ok by assumption. f_equal. f_equal. cbn [andb]. apply feqb_spec.
    rewrite <- Exs. unfold total. cbn [Nat.pow sumn]. rewrite gadd_0. apply wsum_ext. intros s _. rewrite pow_0. unfold sval. destruct (sb_indep s); ring.
  Qed.
End Proofs.
