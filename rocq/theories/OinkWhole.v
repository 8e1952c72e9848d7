(** * If the verifier of UltraHonk accepts, the committed columns satisfy the circuit, but for exceptional challenges (C82);
      no code of /repo is modelled here *)
From Coq Require Import String List Arith Lia Bool Ring Permutation.
From Verif Require Import Proc Alg NNet Rep3 ShamirPoly Shamir ShamirAlg Univariate Sumcheck SumcheckSpec SumcheckSound HonkRelations HonkSpec HonkProofs HonkSkip Shplemini ShpleminiFold ShpleminiPoly ShpleminiQuot ShpleminiVerify ShpleminiSound HonkRows Decider DeciderProofs Oink OinkTrace OinkGrand OinkProofs OinkRelations OinkComplete OinkSound OinkCopy OinkWire OinkLookup.
From Verif Require Groth16Complete.
Import ListNotations.
Set Implicit Arguments.
Local Open Scope grp_scope.
Local Open Scope list_scope.

Section Statement.
  Context {F : Type} {FF : Fld F}.
  Infix "*" := rmul : grp_scope.
  Notation "1" := rone : grp_scope.
  (** what the verifier knows of the columns from its key: the wiring and the Lagrange columns, and that the selector of
      lookups is 0 or 1; the circuit has [nv] variables, blocks of rows of wires, and public inputs in its first rows *)
  Record key_ok (sep m nv : nat) (real tags tau : nat -> nat) (blocks : list (list (list nat))) (xs : list F) (T : nat) (fs : list (list F)) : Prop := {
    ko_columns : length fs = 36;
    ko_rows : 1 <= length (concat blocks) < 2 ^ m /\ 2 ^ m <= sep /\ length xs <= length (concat blocks);
    ko_variables : forall c, In c (trace_cells real 1 blocks) -> fst c < nv;
    ko_tags : forall v, v < nv -> tags v <= T /\ tau (tags v) <= T;
    ko_field : forall a b, a < sep * 4 + T + 2 ^ m + 2 -> b < sep * 4 + T + 2 ^ m + 2 -> fnat a = (fnat b : F) -> a = b;
    ko_public : forall j, j < length xs -> real (nth 0 (nth j (concat blocks) []) 0%nat) = real (nth 1 (nth j (concat blocks) []) 0%nat);
    ko_wired : wired sep (2 ^ m) nv real tags tau blocks (length xs) fs;
    ko_first : forall i, i < 2 ^ m -> cell fs 26 i = if (i =? 0)%nat then 1 else 0;
    ko_last : forall i, i < 2 ^ m -> cell fs 27 i = if (i =? length (concat blocks))%nat then 1 else 0;
    ko_lookup : forall i, i < 2 ^ m -> cell fs 6 i = 0 \/ cell fs 6 i = 1 }.
  (** the circuit is satisfied: gates, copies, tags, public inputs and lookups *)
  Record circuit_holds (P : rparams (F := F)) (m nv : nat) (real tags tau : nat -> nat) (blocks : list (list (list nat))) (xs : list F) (fs : list (list F)) (vals : nat -> F) : Prop := {
    ch_gates : forall f, In f (gate_relations P) -> forall i, i < 2 ^ m -> f (row (all_entities fs) i) = 0;
    ch_copies : forall v k i, In (v, (k, i)) (trace_cells real 1 blocks) -> cell fs (28 + k) i = vals v;
    ch_tags : let in_use := filter (fun v => existsb (fun c => (fst c =? v)%nat) (trace_cells real 1 blocks)) (seq 0 nv) in
      Permutation (map (fun v => (vals v, tau (tags v))) in_use) (map (fun v => (vals v, tags v)) in_use);
    ch_public : forall j, j < length xs -> cell fs 28 (S j) = nth j xs 0 /\ cell fs 29 (S j) = nth j xs 0;
    ch_lookups : forall i, i < 2 ^ m -> cell fs 6 i = 1 -> exists j, j < 2 ^ m /\ read_tuple fs i = table_tuple fs j }.
  (** exceptions of the relations: beta and gamma *)
  Definition relation_exception (P : rparams (F := F)) (sep m n : nat) (xs : list F) (fs : list (list F)) : Prop :=
    lucky_mix (id_pairs fs n xs) (sigma_pairs sep fs n xs) (rp_beta P) \/
    lucky_gamma (map (mix (rp_beta P)) (id_pairs fs n xs)) (map (mix (rp_beta P)) (sigma_pairs sep fs n xs)) (rp_gamma P) \/
    lucky_tuples (map (read_tuple fs) (lookers fs (2 ^ m))) (map (table_tuple fs) (seq 0 (2 ^ m))) (rp_beta P) \/
    lucky_pole (map (fun t => peval t (rp_beta P)) (all_tuples fs (2 ^ m))) (rp_gamma P) \/
    lucky_sum (map (fun i => peval (read_tuple fs i) (rp_beta P)) (lookers fs (2 ^ m))) (table_terms fs (2 ^ m) (rp_beta P)) (rp_gamma P).
  (** exceptions of the first cells of the shifted columns: the first round challenge, or rho *)
  Definition shift_exception (u rho : F) (fs : list (list F)) : Prop :=
    u = 0 \/ lucky_rho (repeat 0 36 ++ map (fun p => nth 0 p 0) (to_be_shifted fs)) (repeat 0 41) rho.
  (** exceptions of sumcheck and opening (C76) *)
  Definition decider_exception (P : rparams (F := F)) (n : nat) (alpha beta : F) (fs bs : list (list F)) (q w : list F) (sent : list (list F)) (evals : list F) (n0 : F) (negs : list F) (rho r nu z tau u : F)
      (us : list F) : Prop :=
    let cols := all_entities fs in
    let bf := comb rho 1 fs in
    let bg := comb rho (spow rho 1 36) (to_be_shifted fs) in
    let v := lin rho 1 evals in
    lucky_alpha (honk_relations P) (S n) cols alpha \/ lucky_beta (honk_relations P) (S n) cols alpha beta \/
    lucky (honk_relations_full P) (1 :: generate_alphas 27 alpha) 8 (challenge_pows (S n) beta) 1 cols sent (u :: us) \/
    lucky_rho evals (map (mle (u :: us)) cols) rho \/
    lucky_first u (padd bf (tl bg)) (nth 0 bg 0) (hd [v] bs) r \/ lucky_fold us bs v (r * r) \/
    exists p0 poss, fold_pos_evaluations (repeat 1 (S n)) (u :: us) (sq r (S n)) (n0 :: negs) v = Done (p0, p0 :: poss) /\
      (lucky_z q (all_ops bf bg bs r p0 n0 poss negs) nu z \/ lucky_tau q w (all_ops bf bg bs r p0 n0 poss negs) nu z tau).
End Statement.

Section Whole.
  Context {F : Type} {FF : Fld F}.
  Add Ring FringWhole : (@cring_theory F _).
  Infix "*" := rmul : grp_scope.
  Notation "1" := rone : grp_scope.

  Lemma comb_first rho gs : forall s, nth 0 (comb rho s gs) 0 = lin rho s (map (fun p => nth 0 p 0) gs).
  Proof.
    induction gs as [|p gs IH]; intros s; [reflexivity|]. cbn [comb map lin]. rewrite nth_padd, IH. f_equal. destruct p; cbn [map nth]; [ring|rewrite smulU; reflexivity].
  Qed.
  Lemma shifted_first u rho (fs : list (list F)) : length fs = 36 -> u * nth 0 (comb rho (spow rho 1 36) (to_be_shifted fs)) 0 = 0 -> cell fs 32 0 = 0 \/ shift_exception u rho fs.
  Proof.
    intros L E. destruct (fdec u 0) as [U|U]; [right; left; exact U|].
    assert (Z : nth 0 (comb rho (spow rho 1 36) (to_be_shifted fs)) 0 = 0). { apply (@mul_cancel F FF u); [exact U|]. rewrite E. ring. }
    rewrite comb_first in Z. set (firsts := map (fun p => nth 0 p 0) (to_be_shifted fs)) in *.
    assert (L5 : length firsts = 5) by (unfold firsts, to_be_shifted; rewrite map_length, firstn_length, skipn_length, L; reflexivity).
    destruct (list_eq_dec fdec (repeat 0 36 ++ firsts) (repeat 0 41)) as [X|X].
    - left. assert (N : nth 40 (repeat 0 36 ++ firsts) 0 = nth 40 (repeat (0 : F) 41) 0) by (rewrite X; reflexivity).
      rewrite app_nth2 in N by (rewrite repeat_length; lia). rewrite repeat_length in N. change (nth 4 firsts 0 = 0) in N. rewrite <- N. unfold firsts, cell.
      clear -L. unfold to_be_shifted. do 36 (destruct fs as [|? fs]; [discriminate L|]). reflexivity.
    - right. right. change (lucky_rho (repeat 0 36 ++ firsts) (repeat 0 41) rho). split; [exact X|]. split; [rewrite app_length, !repeat_length, L5; reflexivity|].
      assert (R : forall k, peval (repeat (0 : F) k) rho = 0). { induction k as [|k IH]; cbn [repeat peval]; [reflexivity|]. rewrite IH, smulU. ring. }
      assert (A : lin rho 1 (repeat 0 36 ++ firsts) = 0). { rewrite lin_app, lin_peval, R, repeat_length, Z. ring. }
      rewrite lin_peval in A. rewrite R. transitivity (1 * peval (repeat 0 36 ++ firsts) rho); [ring|exact A].
  Qed.

  Theorem relations_hold (P : rparams (F := F)) sep m nv real tags tau blocks xs T fs : key_ok sep m nv real tags tau blocks xs T fs ->
    compute_public_input_delta sep (rp_beta P) (rp_gamma P) xs 1 = Done (rp_delta P) -> cell fs 32 0 = 0 -> satisfied (honk_relations P) m (all_entities fs) ->
    (exists vals, circuit_holds P m nv real tags tau blocks xs fs vals) \/ relation_exception P sep m (length (concat blocks)) xs fs.
  Proof.
    intros [K1 [[K2 K3] [K4 K5]] K6 K7 K8 K9 K10 K11 K12 K13] D Z S. unfold relation_exception.
    destruct (@satisfied_wired F FF P sep m nv real tags tau blocks fs xs T) as [(vals & A & B & C)|[X|X]]; try assumption; [|right; left; exact X|right; right; left; exact X].
    destruct (@satisfied_lookups F FF P m fs) as [X|[X|[X|X]]]; try assumption; [|do 3 right; left; exact X|do 4 right; left; exact X|do 5 right; exact X].
    left. exists vals. split; try assumption. apply honk_satisfied in S. destruct S as [S _]. intros f I. apply S. unfold gate_relations in I. unfold in_rows. cbn [In] in *. tauto.
  Qed.

  Context {G : Type} {GG : AbGrp G} {MG : Mod F G} {H : Type} {GH : AbGrp H} {MH : Mod F H} {GT : Type} {GGT : AbGrp GT} {MGT : Mod F GT}.
  Theorem whole_sound (e : G -> H -> GT) (tau : F) (gen : G) (h : H) (P : rparams (F := F)) : wide (F := F) 8 -> Groth16Complete.pairing e -> (forall a, smul a (e gen h) = 0 -> a = 0) ->
    forall sep nv real tags perm blocks xs T chal n alpha beta fs bs q w sent evals n0 negs rho r nu z,
    key_ok sep (S n) nv real tags perm blocks xs T fs -> compute_public_input_delta sep (rp_beta P) (rp_gamma P) xs 1 = Done (rp_delta P) ->
    (1 + 1 : F) <> 0 -> length evals = 41 -> length bs = n -> length negs = n -> nu <> 0 -> NoDup (points r (S n)) -> ~ In z (points r (S n)) ->
    decider_verify (honk_relations P) 8 chal e gen (smul tau h) h (S n) (challenge_pows (S n) beta) (generate_alphas 27 alpha) (map (fun p => smul (peval p tau) gen) fs) sent evals rho r nu z
      {| op_folds := map (fun b => smul (peval b tau) gen) bs; op_negs := n0 :: negs; op_q := smul (peval q tau) gen; op_w := smul (peval w tau) gen |} = Done (Some 0) ->
    (exists vals, circuit_holds P (S n) nv real tags perm blocks xs fs vals) \/ relation_exception P sep (S n) (length (concat blocks)) xs fs \/
    exists u us, length us = n /\
      sumcheck_verify (honk_relations P) 8 chal (repeat 1 (S n)) (challenge_pows (S n) beta) (generate_alphas 27 alpha) sent evals = Done (true, u :: us) /\
      (shift_exception u rho fs \/ decider_exception P n alpha beta fs bs q w sent evals n0 negs rho r nu z tau u us).
  Proof.
    intros W8 HP HN sep nv real tags perm blocks xs T chal n alpha beta fs bs q w sent evals n0 negs rho r nu z K D N2 Le Lb Ln Nnu ND Nz E.
    destruct (@decider_sound F FF G GG MG H GH MH GT GGT MGT e tau gen h P W8 HP HN chal n alpha beta fs bs q w sent evals n0 negs rho r nu z N2 (ko_columns K) Le Lb Ln Nnu ND Nz E) as (u & us & Lu & V & X).
    cbv zeta in X. destruct X as [[St U]|X].
    - destruct (@shifted_first u rho fs (ko_columns K) U) as [Z|Z].
      + destruct (@relations_hold P sep (S n) nv real tags perm blocks xs T fs K D Z St) as [Y|Y]; [left; exact Y|right; left; exact Y].
      + right. right. exists u, us. split; [exact Lu|]. split; [exact V|]. left. exact Z.
    - right. right. exists u, us. split; [exact Lu|]. split; [exact V|]. right. exact X.
  Qed.
End Whole.
