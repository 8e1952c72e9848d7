(** * Integer functions on shares by garbled circuits (protocols/rep3/yao.rs) *)
From Coq Require Import String List Arith NArith Lia Bool.
From Verif Require Import Proc Alg Rep3Net Rep3 Rep3Spec Rep3Proofs Rep3Wp Uint Binary BinaryWp Conv ConvWp
  Garble Circuits CircuitsSim CircuitsOk CircuitsArith CircuitsMod CircuitsFun Garbled Yao YaoSpec YaoWp YaoOut.
Import ListNotations.
Set Implicit Arguments.
Local Open Scope grp_scope.

Lemma gflatM_exact {A} (f : A -> gprog bool (list bool)) g (l : list A) :
  (forall x, In x l -> plain (f x) = Done (g x)) -> plain (gflatM f l) = Done (concat (map g l)).
Proof.
  intros Hf. unfold gflatM. rewrite plain_bind.
  assert (E : plain (gmapM f l) = Done (map g l)).
  { induction l as [|x l IH]; [reflexivity|]. cbn [gmapM map]. rewrite plain_bind, Hf by (left; reflexivity).
    rewrite plain_bind, IH; [reflexivity|]. intros y Hy. apply Hf. right. exact Hy. }
  rewrite E. reflexivity.
Qed.
Lemma split_masks {A} D n : forall ks : list A, length ks = (D * n)%nat ->
  exists kss, ks = concat kss /\ length kss = n /\ Forall (fun l => length l = D) kss.
Proof.
  induction n as [|n IH]; intros ks L.
  - exists []. rewrite Nat.mul_0_r in L. destruct ks; [auto|discriminate].
  - destruct (IH (skipn D ks)) as (kss & E & Ln & HF); [rewrite skipn_length; lia|].
    exists (firstn D ks :: kss). cbn [concat length]. rewrite <- E, firstn_skipn. split; [reflexivity|].
    split; [congruence|]. constructor; [rewrite firstn_length; lia|exact HF].
Qed.
Lemma map2_app {X Y Z} (f : X -> Y -> Z) a : forall b a' b', length a = length b ->
  map2 f (a ++ a') (b ++ b') = map2 f a b ++ map2 f a' b'.
Proof. induction a as [|x a IH]; intros [|y b] a' b' L; try discriminate; [reflexivity|]. cbn. rewrite IH by (cbn in L; lia). reflexivity. Qed.

Lemma nth_error_ext {A} (l : list A) : forall k, (forall i, nth_error l i = nth_error k i) -> l = k.
Proof.
  induction l as [|x l IH]; intros [|y k] E; [reflexivity|specialize (E O); discriminate E|specialize (E O); discriminate E|].
  pose proof (E O) as E0. cbn in E0. rewrite (IH k); [congruence|]. intros i. exact (E (S i)).
Qed.
Lemma nth_error_seq s n : forall i, (i < n)%nat -> nth_error (seq s n) i = Some (s + i)%nat.
Proof.
  revert s. induction n as [|n IH]; intros s i L; [lia|]. destruct i as [|i]; cbn; [rewrite Nat.add_0_r; reflexivity|].
  rewrite IH by lia. f_equal. lia.
Qed.

Section YaoApi.
  Context {F : Type} `{FU : FieldUint F} {S M : Type} (W : nat) {DF : Draw S F}.
  Context {Seed : Type} {SS : Seeded S Seed} {DS : Draw S Seed}.
  Context {EN : Enc M (list N)}.
  Variables (hash : N -> N -> N) (gtweak : N -> N) (otweak : N -> bool -> N).
  Context {Dg : Type} {ED : Enc M (list Dg)}.
  Variables (digest : list N -> Dg) (dg_eqb : Dg -> Dg -> bool).
  Variables (draw_label draw_delta : S -> N * S).
  Hypothesis dg_eqb_spec : forall x y, dg_eqb x y = true <-> x = y.
  Context (cap : nat) (cap_pos : (1 <= cap)%nat).
  Hypothesis p_odd : N.odd (fu_p (F := F)) = true.
  Notation B := (mbs F).
  Notation p := (fu_p (F := F)).
  Notation ftb := (field_to_bits (F := F)).
  Hypothesis width : (B + 2 <= W)%nat.
  Hypothesis delta_odd : forall s, color (fst (draw_delta s)) = true.
  Implicit Types (st : pid -> rst S) (rg : pid -> S).

  Lemma wide : (Datatypes.S (ubit_len p) <= W)%nat.
  Proof. clear cap_pos. unfold mbs in width. lia. Qed.
  Lemma ub_pos : (0 < ubit_len p)%nat.
  Proof. clear cap_pos width. pose proof (mbs_pos (F := F)). unfold mbs in *. lia. Qed.

  Definition separated_run (C : circuit3) (n m : nat) st rg : Prop :=
    run_separated hash gtweak otweak draw_label (delta_of draw_delta st)
      (blueprint_wires (F := F) draw_label C n m rg) (blueprint_rng (Seed := Seed) draw_delta st).

  Notation blueprint := (blueprint (F := F) (Seed := Seed) W hash gtweak otweak digest dg_eqb draw_label draw_delta).

  Lemma blueprint_exact C m st rg a (xs : list F) outs : natural3 C -> synced st -> shares_vec a xs -> length outs = m ->
    masks_outputs C (sums01 a) (sums2 a) outs m -> separated_run C (length xs) m st rg ->
    wp cap (fun i => blueprint C m i (a i) (st i) (rg i))
      (fun r => shares_vec (fun i => fst (r i)) outs /\ synced (fun i => fst (snd (r i)))).
  Proof.
    intros HC Hs Ha Lo Hp Hsep.
    eapply wp_mono; [|exact (@blueprint_wp F _ _ S M W _ _ _ _ _ hash gtweak otweak Dg _ digest dg_eqb draw_label draw_delta
      dg_eqb_spec cap cap_pos width delta_odd C m st rg a xs outs HC Hs Ha ltac:(lia) Hp Hsep)].
    cbv beta. intros r (ks & Lk & Hr & Hsr). rewrite skipn_all2, app_nil_r in Hr by lia. auto.
  Qed.

  Lemma out_bits l (v : N) (k : F) : felt p l -> (v < p)%N -> bval l = ((v + bval (ftb k)) mod p)%N -> l = ftb (of_uint v + k).
  Proof.
    clear cap_pos. intros [L V] Hv E. apply bval_inj; [rewrite fbits_length; exact L|].
    rewrite E, !fbits_bval, to_uint_add, to_of_uint by exact Hv. reflexivity.
  Qed.


  Lemma fields_concat (kss : list (list F)) : fields_to_bits (concat kss) = concat (map fields_to_bits kss).
  Proof.
    induction kss as [|ks kss IH]; [reflexivity|]. cbn [concat map]. rewrite <- IH. unfold fields_to_bits.
    rewrite map_app, concat_app. reflexivity.
  Qed.


  (** a circuit on the summands of one value with [D] outputs *)
  Lemma many3_masks D (f : list bool -> list bool -> list bool -> gprog bool (list bool)) (g : F -> list F) us : forall vs,
    (0 < D)%nat -> length us = length vs ->
    (forall u v, In (u + v) (map2 gadd us vs) -> length (g (u + v)) = D) ->
    (forall u v ks, In (u + v) (map2 gadd us vs) -> length ks = D ->
       plain (f (ftb u) (ftb v) (fields_to_bits ks)) = Done (fields_to_bits (map2 gadd (g (u + v)) ks))) ->
    forall kss, length kss = length us -> Forall (fun l => length l = D) kss ->
    plain (many3 (ubit_len p) (ubit_len p * D) f (fields_to_bits us) (fields_to_bits vs) (fields_to_bits (concat kss))) =
      Done (fields_to_bits (map2 gadd (concat (map g (map2 gadd us vs))) (concat kss))).
  Proof.
    clear cap_pos width. intros vs HD L Hg Hf kss Lk Fk. unfold many3. rewrite !chunks_fbits, fields_concat.
    rewrite chunks_concat.
    2:{ pose proof ub_pos. lia. }
    2:{ apply Forall_forall. intros b [ks [<- Hks]]%in_map_iff. rewrite fields_length.
        rewrite Forall_forall in Fk. rewrite (Fk ks Hks). unfold mbs. lia. }
    revert vs L Hg Hf kss Lk Fk. induction us as [|u us IH]; intros [|v vs] L Hg Hf [|ks kss] Lk Fk; try discriminate; try reflexivity.
    cbn [map zip3 map2 concat] in *.
    assert (L1 : length (g (u + v)) = length ks) by (inversion Fk; subst; rewrite Hg; [congruence|left; reflexivity]).
    rewrite map2_app by exact L1. unfold gflatM. cbn [gmapM]. rewrite !plain_bind. cbn [fst snd].
    rewrite Hf; [|left; reflexivity|inversion Fk; assumption]. rewrite plain_bind.
    assert (IH' : plain (gflatM (fun t => f (fst (fst t)) (snd (fst t)) (snd t))
        (zip3 (map field_to_bits us) (map field_to_bits vs) (map fields_to_bits kss))) =
        Done (fields_to_bits (map2 gadd (concat (map g (map2 gadd us vs))) (concat kss)))).
    { apply IH; try (cbn in *; lia).
      - intros u' v' Hin. apply Hg. right. exact Hin.
      - intros u' v' ks' Hin Lk'. apply Hf; [right; exact Hin|exact Lk'].
      - inversion Fk; assumption. }
    unfold gflatM in IH'. rewrite plain_bind in IH'.
    destruct (plain (gmapM _ (zip3 _ _ _))) as [r|e]; [|discriminate IH'].
    cbn [plain concat] in *. injection IH' as IH'. rewrite IH'. unfold fields_to_bits. rewrite map_app, concat_app. reflexivity.
  Qed.

  (** one output per value, with or without a public operand *)
  Lemma many3_masks1 (f : list bool -> list bool -> list bool -> gprog bool (list bool)) (g : F -> F) us : forall vs ks,
    length us = length vs -> length ks = length us ->
    (forall u v k, In (u + v) (map2 gadd us vs) -> plain (f (ftb u) (ftb v) (ftb k)) = Done (ftb (g (u + v) + k))) ->
    plain (many3 (ubit_len p) (ubit_len p) f (fields_to_bits us) (fields_to_bits vs) (fields_to_bits ks)) =
      Done (fields_to_bits (map2 gadd (map g (map2 gadd us vs)) ks)).
  Proof.
    clear cap_pos width. unfold many3. intros vs ks. rewrite !chunks_fbits. revert vs ks.
    induction us as [|u us IH]; intros [|v vs] [|k ks] L Lk Hf; try discriminate; [reflexivity|].
    cbn [map zip3 map2] in *. unfold gflatM in *. cbn [gmapM fst snd]. rewrite !plain_bind, Hf by (left; reflexivity).
    rewrite plain_bind. specialize (IH vs ks ltac:(cbn in L; lia) ltac:(cbn in Lk; lia) ltac:(intros; apply Hf; right; assumption)).
    rewrite plain_bind in IH. destruct (plain (gmapM _ (zip3 _ _ _))) as [r|e]; [|discriminate IH].
    cbn [plain concat] in *. injection IH as IH. rewrite IH. reflexivity.
  Qed.
  Lemma many3p_masks (f : list bool -> list bool -> list bool -> list bool -> gprog bool (list bool)) (g : F -> F -> F) us : forall vs ks ds,
    length us = length vs -> length ks = length us -> length ds = length us ->
    (forall u v k d, In (u + v, d) (List.combine (map2 gadd us vs) ds) ->
       plain (f (ftb u) (ftb v) (ftb d) (ftb k)) = Done (ftb (g (u + v) d + k))) ->
    plain (many3p (ubit_len p) f (fields_to_bits us) (fields_to_bits vs) (fields_to_bits ks) (concat (map ftb ds))) =
      Done (fields_to_bits (map2 gadd (map2 g (map2 gadd us vs) ds) ks)).
  Proof.
    clear cap_pos width. intros vs ks ds. unfold many3p. change (concat (map ftb ds)) with (fields_to_bits ds).
    rewrite !chunks_fbits. revert vs ks ds.
    induction us as [|u us IH]; intros [|v vs] [|k ks] [|d ds] L Lk Ld Hf; try discriminate; [reflexivity|].
    cbn [map zip3 map2 List.combine] in *. unfold gflatM in *. cbn [gmapM fst snd]. rewrite !plain_bind, Hf by (left; reflexivity).
    rewrite plain_bind. specialize (IH vs ks ds ltac:(cbn in L; lia) ltac:(cbn in Lk; lia) ltac:(cbn in Ld; lia) ltac:(intros; apply Hf; right; assumption)).
    rewrite plain_bind in IH. destruct (plain (gmapM _ (List.combine (zip3 _ _ _) _))) as [r|e]; [|discriminate IH].
    cbn [plain concat] in *. injection IH as IH. rewrite IH. reflexivity.
  Qed.
  Lemma many5_masks (f : list bool -> list bool -> list bool -> list bool -> list bool -> gprog bool (list bool)) (g : F -> F -> F)
    us vs us' vs' ks : length us = length vs -> length us' = length us -> length vs' = length us -> length ks = length us ->
    (forall u v u' v' k, In (u + v, u' + v') (List.combine (map2 gadd us vs) (map2 gadd us' vs')) ->
       plain (f (ftb u) (ftb v) (ftb u') (ftb v') (ftb k)) = Done (ftb (g (u + v) (u' + v') + k))) ->
    plain (many5 (ubit_len p) f (fields_to_bits (us ++ us')) (fields_to_bits (vs ++ vs')) (fields_to_bits ks)) =
      Done (fields_to_bits (map2 gadd (map2 g (map2 gadd us vs) (map2 gadd us' vs')) ks)).
  Proof.
    clear cap_pos width. intros L L' Lv' Lk Hf. unfold many5.
    assert (Hh : (length (fields_to_bits (us ++ us')) / 2)%nat = length (fields_to_bits us)).
    { rewrite !fields_length, app_length, L'. replace ((length us + length us) * B)%nat with (length us * B * 2)%nat by lia.
      apply Nat.div_mul. discriminate. }
    assert (Hv : length (fields_to_bits us) = length (fields_to_bits vs)) by (rewrite !fields_length, L; reflexivity).
    cbv zeta. rewrite Hh.
    assert (Ea : forall a b : list F, fields_to_bits (a ++ b) = fields_to_bits a ++ fields_to_bits b)
      by (intros; unfold fields_to_bits; rewrite map_app, concat_app; reflexivity).
    assert (FA : forall a b : list bool, firstn (length a) (a ++ b) = a)
      by (intros; rewrite firstn_app, Nat.sub_diag, firstn_all; apply app_nil_r).
    assert (SA : forall a b : list bool, skipn (length a) (a ++ b) = b)
      by (intros; rewrite skipn_app, Nat.sub_diag, skipn_all; reflexivity).
    rewrite !Ea, FA, SA, Hv, FA, SA, !chunks_fbits. clear FA SA.
    clear Hh Hv Ea. revert vs us' vs' ks L L' Lv' Lk Hf.
    induction us as [|u us IH]; intros [|v vs] [|u' us'] [|v' vs'] [|k ks] L L' Lv' Lk Hf; try discriminate; [reflexivity|].
    cbn [map zip3 map2 List.combine] in *. unfold gflatM in *. cbn [gmapM fst snd]. rewrite !plain_bind, Hf by (left; reflexivity).
    rewrite plain_bind. specialize (IH vs us' vs' ks ltac:(cbn in L; lia) ltac:(cbn in L'; lia) ltac:(cbn in Lv'; lia) ltac:(cbn in Lk; lia) ltac:(intros; apply Hf; right; assumption)).
    rewrite plain_bind in IH. destruct (plain (gmapM _ (List.combine _ _))) as [r|e]; [|discriminate IH].
    cbn [plain concat] in *. injection IH as IH. rewrite IH. reflexivity.
  Qed.

  Lemma sums_len a (xs : list F) : shares_vec a xs -> length (sums01 a) = length xs /\ length (sums2 a) = length xs.
  Proof. intros Ha. unfold sums01, sums2. rewrite !map_length. split; apply (pvec_len _ Ha). Qed.

  (** *** Division by a power of two *)
  Definition C_int_div_power_2 (bit : nat) : circuit3 :=
    fun X wa wb wc => Circuits.field_int_div_power_2_many W p wa wb wc bit.
  Lemma int_div_power_2_wp st rg a (xs : list F) bit : synced st -> shares_vec a xs -> (0 < bit < B)%nat ->
    separated_run (C_int_div_power_2 bit) (length xs) (length xs) st rg ->
    wp cap (fun i => field_int_div_power_2_many (F := F) (Seed := Seed) W hash gtweak otweak digest dg_eqb draw_label draw_delta
                       i (a i) (st i) (rg i) bit)
      (fun r => shares_vec (fun i => fst (r i)) (map (fun x => of_uint (to_uint x / 2 ^ N.of_nat bit)%N) xs) /\
                synced (fun i => fst (snd (r i)))).
  Proof.
    intros Hs Ha Hb Hsep. unfold field_int_div_power_2_many.
    destruct (Nat.eqb_spec bit 0); [lia|]. destruct (Nat.leb_spec B bit); [lia|].
    eapply wp_ext. { intros i. rewrite (pvec_len i Ha). reflexivity. }
    apply blueprint_exact with (xs := xs) (C := C_int_div_power_2 bit); auto.
    - intros X1 X2 f wa wb wc. apply field_int_div_power_2_many_sim.
    - rewrite map_length. reflexivity.
    - destruct (sums_len Ha) as [L1 L2]. intros ks Lk. rewrite <- (sums_vec Ha).
      unfold C_int_div_power_2, Circuits.field_int_div_power_2_many.
      rewrite many3_masks1 with (g := fun x => of_uint (to_uint x / 2 ^ N.of_nat bit)%N); [reflexivity|congruence|congruence|].
      intros u v k _.
      destruct (@field_int_div_power_2_ok W p p_odd wide (ftb u) (ftb v) (ftb k) bit (fbits_felt _) (fbits_felt _) (fbits_felt _)) as (r & E & Fr & Vr).
      rewrite E. f_equal. apply out_bits; [exact Fr| |].
      + pose proof (to_uint_lt (u + v)). pose proof (N.div_le_upper_bound (to_uint (u + v)) (2 ^ N.of_nat bit) (to_uint (u + v))) as Q.
        assert (2 ^ N.of_nat bit <> 0)%N by (apply N.pow_nonzero; discriminate). nia.
      + rewrite Vr, !fbits_bval, <- to_uint_add, p2_eq. reflexivity.
  Qed.
  Lemma div_small (x d : N) : (x < p)%N -> (x / d < p)%N.
  Proof.
    clear cap_pos width. intros Hx. destruct (N.eq_dec d 0) as [->|Hd]; [destruct x; cbn in *; lia|].
    pose proof (N.div_le_upper_bound x d x Hd). nia.
  Qed.
  Lemma of_uint_0 : of_uint (F := F) 0 = 0.
  Proof. rewrite <- (of_to_uint (F := F) 0). f_equal. symmetry. apply to_uint_zero. Qed.

  (** all shifts, as the API does them *)
  Lemma int_div_power_2_all_wp st rg a (xs : list F) bit : synced st -> shares_vec a xs ->
    ((0 < bit < B)%nat -> separated_run (C_int_div_power_2 bit) (length xs) (length xs) st rg) ->
    wp cap (fun i => field_int_div_power_2_many (F := F) (Seed := Seed) W hash gtweak otweak digest dg_eqb draw_label draw_delta
                       i (a i) (st i) (rg i) bit)
      (fun r => shares_vec (fun i => fst (r i)) (map (fun x => of_uint (to_uint x / 2 ^ N.of_nat bit)%N) xs) /\
                synced (fun i => fst (snd (r i)))).
  Proof.
    intros Hs Ha Hsep. destruct (Nat.eq_dec bit 0) as [->|H0]; [|destruct (le_lt_dec B bit) as [HB|HB]].
    - unfold field_int_div_power_2_many. cbn [Nat.eqb]. apply wp_ret. cbn [fst snd]. split; [|exact Hs].
      rewrite map_ext with (g := fun x => x); [rewrite map_id; exact Ha|]. intros x. cbn [N.of_nat N.pow].
      rewrite N.div_1_r. apply of_to_uint.
    - unfold field_int_div_power_2_many. destruct (Nat.eqb_spec bit 0); [lia|]. destruct (Nat.leb_spec B bit); [|lia].
      apply wp_ret. cbn [fst snd]. split; [|exact Hs].
      rewrite map_ext with (g := fun _ => 0).
      2:{ intros x. rewrite N.div_small; [apply of_uint_0|]. eapply N.lt_le_trans; [apply to_uint_mbs|].
          apply N.pow_le_mono_r; [discriminate|lia]. }
      assert (HL : forall i, length (a i) = length xs) by (intros i; apply (pvec_len i Ha)). clear Ha Hsep.
      revert a HL. induction xs as [|x xs IH]; intros a HL.
      + apply pvec_nil. intros i. rewrite HL. reflexivity.
      + cbn [map]. apply (@pvec_cons _ _ _ (fun _ => mkShare 0 0) _ (fun i => repeat (mkShare 0 0) (length (tl (a i))))).
        * intros i. specialize (HL i). destruct (a i); [discriminate|reflexivity].
        * apply (@shares_intro _ _ _ 0 0 0 0); try reflexivity. grp.
        * apply IH. intros i. specialize (HL i). destruct (a i); [discriminate|cbn in *; congruence].
    - apply int_div_power_2_wp; auto; try lia. apply Hsep. lia.
  Qed.

  (** *** Division *)
  Definition C_int_div : circuit3 := fun X wa wb wc => Circuits.field_int_div_many W p wa wb wc.
  Lemma sums_app a b (xs ys : list F) : shares_vec a xs -> shares_vec b ys ->
    sums01 (fun i => a i ++ b i) = sums01 a ++ sums01 b /\ sums2 (fun i => a i ++ b i) = sums2 a ++ sums2 b.
  Proof. intros _ _. unfold sums01, sums2. rewrite !map_app. auto. Qed.
  Lemma int_div_wp st rg a b (xs ys : list F) : synced st -> shares_vec a xs -> shares_vec b ys -> length ys = length xs ->
    Forall (fun y => y <> 0) ys -> separated_run C_int_div (length (xs ++ ys)) (length xs) st rg ->
    wp cap (fun i => field_int_div_many (F := F) (Seed := Seed) W hash gtweak otweak digest dg_eqb draw_label draw_delta
                       i (a i) (b i) (st i) (rg i))
      (fun r => shares_vec (fun i => fst (r i)) (map2 (fun x y => of_uint (to_uint x / to_uint y)%N) xs ys) /\
                synced (fun i => fst (snd (r i)))).
  Proof.
    intros Hs Ha Hb Ly Hnz Hsep. unfold field_int_div_many.
    eapply wp_ext. { intros i. rewrite (pvec_len i Ha). reflexivity. }
    apply blueprint_exact with (xs := xs ++ ys) (C := C_int_div) (a := fun i => a i ++ b i); auto.
    - intros X1 X2 f wa wb wc. apply field_int_div_many_sim.
    - apply pvec_app; assumption.
    - rewrite map2_length. lia.
    - destruct (sums_len Ha) as [L1 L2]. destruct (sums_len Hb) as [L3 L4]. destruct (sums_app Ha Hb) as [E1 E2].
      intros ks Lk. rewrite E1, E2. unfold C_int_div, Circuits.field_int_div_many.
      rewrite many5_masks with (g := fun x y => of_uint (to_uint x / to_uint y)%N); try congruence.
      + rewrite (sums_vec Ha), (sums_vec Hb). reflexivity.
      + rewrite (sums_vec Ha), (sums_vec Hb). intros u v u' v' k Hin.
        assert (Hy : u' + v' <> 0) by (rewrite Forall_forall in Hnz; apply Hnz; eapply in_combine_r; exact Hin).
        destruct (@field_int_div_ok W p p_odd wide (ftb u) (ftb v) (ftb u') (ftb v') (ftb k)
           (fbits_felt _) (fbits_felt _) (fbits_felt _) (fbits_felt _) (fbits_felt _)) as (r & E & Fr & Vr).
        { rewrite !fbits_bval, <- to_uint_add. intros C. apply Hy. rewrite <- (of_to_uint (u' + v')), C. apply of_uint_0. }
        rewrite E. f_equal. apply out_bits; [exact Fr|apply div_small, to_uint_lt|].
        rewrite Vr, !fbits_bval, <- !to_uint_add. reflexivity.
  Qed.
  Definition C_int_div_by_public (ds : list F) : circuit3 :=
    fun X wa wb wc => Circuits.field_int_div_by_public_many W p wa wb wc (concat (map ftb ds)).
  Lemma int_div_by_public_wp st rg a (xs ds : list F) : synced st -> shares_vec a xs -> length ds = length xs ->
    Forall (fun y => y <> 0) ds -> separated_run (C_int_div_by_public ds) (length xs) (length xs) st rg ->
    wp cap (fun i => field_int_div_by_public_many (F := F) (Seed := Seed) W hash gtweak otweak digest dg_eqb draw_label draw_delta
                       i (a i) ds (st i) (rg i))
      (fun r => shares_vec (fun i => fst (r i)) (map2 (fun x y => of_uint (to_uint x / to_uint y)%N) xs ds) /\
                synced (fun i => fst (snd (r i)))).
  Proof.
    intros Hs Ha Ld Hnz Hsep. unfold field_int_div_by_public_many.
    eapply wp_ext. { intros i. rewrite (pvec_len i Ha). reflexivity. }
    apply blueprint_exact with (xs := xs) (C := C_int_div_by_public ds); auto.
    - intros X1 X2 f wa wb wc. apply field_int_div_by_public_many_sim.
    - rewrite map2_length. lia.
    - destruct (sums_len Ha) as [L1 L2]. intros ks Lk. unfold C_int_div_by_public, Circuits.field_int_div_by_public_many.
      rewrite many3p_masks with (g := fun x y => of_uint (to_uint x / to_uint y)%N); try congruence.
      + rewrite (sums_vec Ha). reflexivity.
      + rewrite (sums_vec Ha). intros u v k d Hin.
        assert (Hd : d <> 0) by (rewrite Forall_forall in Hnz; apply Hnz; eapply in_combine_r; exact Hin).
        destruct (@field_int_div_by_public_ok W p p_odd wide (ftb u) (ftb v) (ftb d) (ftb k)
           (fbits_felt _) (fbits_felt _) (fbits_felt _) ltac:(rewrite fbits_length; unfold mbs; lia)) as (r & E & Fr & Vr).
        { rewrite !fbits_bval. intros C. apply Hd. rewrite <- (of_to_uint d), C. apply of_uint_0. }
        rewrite E. f_equal. apply out_bits; [exact Fr|apply div_small, to_uint_lt|].
        rewrite Vr, !fbits_bval, <- !to_uint_add. reflexivity.
  Qed.
  Definition C_int_div_by_shared (ds : list F) : circuit3 :=
    fun X wa wb wc => Circuits.field_int_div_by_shared_many W p wa wb wc (concat (map ftb ds)).
  Lemma int_div_by_shared_wp st rg a (xs ds : list F) : synced st -> shares_vec a xs -> length ds = length xs ->
    Forall (fun y => y <> 0) xs -> separated_run (C_int_div_by_shared ds) (length xs) (length xs) st rg ->
    wp cap (fun i => field_int_div_by_shared_many (F := F) (Seed := Seed) W hash gtweak otweak digest dg_eqb draw_label draw_delta
                       i ds (a i) (st i) (rg i))
      (fun r => shares_vec (fun i => fst (r i)) (map2 (fun x y => of_uint (to_uint y / to_uint x)%N) xs ds) /\
                synced (fun i => fst (snd (r i)))).
  Proof.
    intros Hs Ha Ld Hnz Hsep. unfold field_int_div_by_shared_many. rewrite Ld.
    apply blueprint_exact with (xs := xs) (C := C_int_div_by_shared ds); auto.
    - intros X1 X2 f wa wb wc. apply field_int_div_by_shared_many_sim.
    - rewrite map2_length. lia.
    - destruct (sums_len Ha) as [L1 L2]. intros ks Lk. unfold C_int_div_by_shared, Circuits.field_int_div_by_shared_many.
      rewrite many3p_masks with (g := fun x y => of_uint (to_uint y / to_uint x)%N); try congruence.
      + rewrite (sums_vec Ha). reflexivity.
      + rewrite (sums_vec Ha). intros u v k d Hin.
        assert (Hd : u + v <> 0) by (rewrite Forall_forall in Hnz; apply Hnz; eapply in_combine_l; exact Hin).
        destruct (@field_int_div_by_shared_ok W p p_odd wide (ftb u) (ftb v) (ftb d) (ftb k)
           (fbits_felt _) (fbits_felt _) (fbits_felt _) (fbits_felt _)) as (r & E & Fr & Vr).
        { rewrite !fbits_bval, <- to_uint_add. intros C. apply Hd. rewrite <- (of_to_uint (u + v)), C. apply of_uint_0. }
        rewrite E. f_equal. apply out_bits; [exact Fr|apply div_small, to_uint_lt|].
        rewrite Vr, !fbits_bval, <- !to_uint_add. reflexivity.
  Qed.

  (** *** Slices *)
  Definition C_slice (lo mid bitsize : nat) : circuit3 :=
    fun X wa wb wc => slice_field_element_many W p wa wb wc lo mid bitsize.
  (** bits [lo, mid) and bits [mid, bitsize) of the value *)
  Definition slice_of (lo mid bitsize : nat) (x : F) : list F :=
    let v := (to_uint x mod 2 ^ N.of_nat bitsize)%N in
    [of_uint (v mod 2 ^ N.of_nat mid / 2 ^ N.of_nat lo)%N; of_uint (v / 2 ^ N.of_nat mid)%N].
  Lemma slice_wp st rg a (xs : list F) lo mid bitsize : synced st -> shares_vec a xs ->
    (lo <= mid <= bitsize)%nat -> (bitsize <= B)%nat ->
    separated_run (C_slice lo mid bitsize) (length xs) (2 * length xs) st rg ->
    wp cap (fun i => slice_arithmetic_many (F := F) (Seed := Seed) W hash gtweak otweak digest dg_eqb draw_label draw_delta
                       i (a i) (st i) (rg i) lo mid bitsize)
      (fun r => shares_vec (fun i => fst (r i)) (concat (map (slice_of lo mid bitsize) xs)) /\
                synced (fun i => fst (snd (r i)))).
  Proof.
    intros Hs Ha Hlm Hb Hsep. unfold slice_arithmetic_many.
    eapply wp_ext. { intros i. rewrite (pvec_len i Ha). reflexivity. }
    apply blueprint_exact with (xs := xs) (C := C_slice lo mid bitsize); auto.
    - intros X1 X2 f wa wb wc. apply slice_field_element_many_sim.
    - clear. induction xs as [|x xs IH]; [reflexivity|]. cbn [map concat length app slice_of]. cbv zeta. cbn [length app]. rewrite IH. lia.
    - destruct (sums_len Ha) as [L1 L2]. intros ks Lk. destruct (split_masks 2 (length xs) ks Lk) as (kss & -> & Lkss & Fk).
      unfold C_slice, slice_field_element_many. rewrite <- (sums_vec Ha).
      apply many3_masks; try congruence; [lia|reflexivity|].
      intros u v l _ Ll. destruct l as [|k1 [|k2 [|? ?]]]; try discriminate Ll.
      destruct (@slice_field_element_ok W p p_odd wide (ftb u) (ftb v) (ftb k1) (ftb k2) lo mid bitsize
        (fbits_felt _) (fbits_felt _) (fbits_felt _) (fbits_felt _) Hlm Hb) as (r & E & l & h & -> & Fl & Fh & Vl & Vh).
      cbn [fields_to_bits map concat]. rewrite app_nil_r. rewrite E. f_equal.
      rewrite !fbits_bval, <- to_uint_add in Vl, Vh. rewrite !p2_eq in Vl. rewrite !p2_eq in Vh.
      assert (Hv : (to_uint (u + v)%grp mod 2 ^ N.of_nat bitsize < p)%N).
      { eapply N.le_lt_trans; [apply N.mod_le, N.pow_nonzero; discriminate|apply to_uint_lt]. }
      unfold slice_of. cbv zeta. cbn [map2 fields_to_bits map concat]. rewrite app_nil_r. f_equal.
      + apply out_bits; [exact Fl| |rewrite fbits_bval; exact Vl].
        apply div_small. eapply N.le_lt_trans; [apply N.mod_le, N.pow_nonzero; discriminate|exact Hv].
      + apply out_bits; [exact Fh|apply div_small; exact Hv|rewrite fbits_bval; exact Vh].
  Qed.

  (** *** Limbs *)
  Definition C_decompose (dbl total : nat) : circuit3 :=
    fun X wa wb wc => decompose_field_element_to_many W W p p wa wb wc dbl total.
  (** the [num] limbs of [dbl] bits of the low [total] bits *)
  Definition limbs_of (dbl total num : nat) (x : F) : list F :=
    map (fun j => of_uint (to_uint x mod 2 ^ N.of_nat total / 2 ^ N.of_nat (j * dbl) mod 2 ^ N.of_nat dbl)%N) (seq 0 num).
  Lemma div_ceil_lt a b i : (0 < b)%nat -> (i < div_ceil a b <-> i * b < a)%nat.
  Proof.
    clear cap_pos width. intros Hb. unfold div_ceil. pose proof (Nat.div_mod (a + (b - 1)) b ltac:(lia)) as E.
    pose proof (Nat.mod_upper_bound (a + (b - 1)) b ltac:(lia)) as U. nia.
  Qed.
  Lemma decompose_one u v (ks : list F) dbl total : (0 < dbl)%nat ->
    plain (decompose_field_element_to W W p p (ftb u) (ftb v) (fields_to_bits ks) dbl total) =
      Done (fields_to_bits (map2 gadd (limbs_of dbl total (div_ceil (Nat.min total B) dbl) (u + v)) ks)).
  Proof.
    clear cap_pos. intros Hd. unfold fields_to_bits at 1.
    assert (Hlt : forall i, ((bval (ftb u) + bval (ftb v)) mod p mod p2 total / p2 (i * dbl) mod p2 dbl < p)%N).
    { intros i. rewrite !fbits_bval, <- to_uint_add, !p2_eq. eapply N.le_lt_trans; [apply N.mod_le, N.pow_nonzero; discriminate|].
      apply div_small. eapply N.le_lt_trans; [apply N.mod_le, N.pow_nonzero; discriminate|apply to_uint_lt]. }
    destruct (@decompose_to_ok W p p_odd wide W p p_odd wide (ftb u) (ftb v) (map ftb ks) dbl total
       (fbits_felt _) (fbits_felt _)) as (r & E & rs & -> & Hn & Hr).
    - apply Forall_forall. intros b [k [<- _]]%in_map_iff. apply fbits_felt.
    - exact Hd.
    - lia.
    - exact Hlt.
    - rewrite E. f_equal. unfold fields_to_bits. f_equal. rewrite map_length in Hn, Hr.
      set (num := div_ceil (Nat.min total B) dbl).
      assert (Hnum : forall i, (i < num <-> i * dbl < Nat.min total B)%nat) by (intros; apply div_ceil_lt; exact Hd).
      assert (Lrs : length rs = Nat.min num (length ks)).
      { pose proof (Hn (length rs)) as N1. pose proof (Hn (Nat.min num (length ks))) as N2.
        fold B in N1, N2. unfold mbs in Hnum.
        rewrite <- Hnum in N1, N2. lia. }
      apply nth_error_ext. intros i. destruct (Nat.ltb_spec i (length rs)) as [Hi|Hi].
      2:{ rewrite (proj2 (nth_error_None _ _)) by exact Hi. symmetry. apply nth_error_None.
          rewrite map_length, map2_length. unfold limbs_of. rewrite map_length, seq_length. lia. }
      destruct (proj1 (Hn i) Hi) as [H1 H2]. destruct (Hr i H1 H2) as (l & m & El & Em & Fl & Vl).
      rewrite El. rewrite nth_error_map in Em. destruct (nth_error ks i) as [k|] eqn:Ek; [|discriminate Em].
      cbn in Em. assert (m = ftb k) by congruence. subst m.
      assert (Es : nth_error (limbs_of dbl total num (u + v)) i = Some (of_uint (to_uint (u + v)%grp mod 2 ^ N.of_nat total / 2 ^ N.of_nat (i * dbl) mod 2 ^ N.of_nat dbl)%N)).
      { unfold limbs_of. rewrite nth_error_map, nth_error_seq by lia. reflexivity. }
      rewrite nth_error_map, (nth_error_map2 gadd _ _ _ Es Ek). cbn [option_map]. f_equal. apply out_bits; [exact Fl| |].
      + specialize (Hlt i). rewrite !fbits_bval, <- to_uint_add, !p2_eq in Hlt. exact Hlt.
      + rewrite Vl, !fbits_bval, <- to_uint_add, !p2_eq. reflexivity.
  Qed.

  Notation decompose_many := (decompose_arithmetic_many (F := F) (Seed := Seed) W hash gtweak otweak digest dg_eqb draw_label draw_delta).
  Lemma limbs_length dbl total num (x : F) : length (limbs_of dbl total num x) = num.
  Proof. unfold limbs_of. rewrite map_length, seq_length. reflexivity. Qed.
  Lemma decompose_wp st rg a (xs : list F) dbl total : synced st -> shares_vec a xs -> (0 < dbl)%nat -> (0 < total)%nat ->
    div_ceil (Nat.min total B) dbl = div_ceil total dbl ->
    separated_run (C_decompose dbl total) (length xs) (div_ceil total dbl * length xs) st rg ->
    wp cap (fun i => decompose_many i (a i) (st i) (rg i) total dbl)
      (fun r => shares_vec (fun i => fst (r i)) (concat (map (limbs_of dbl total (div_ceil total dbl)) xs)) /\
                synced (fun i => fst (snd (r i)))).
  Proof.
    intros Hs Ha Hd Ht HD Hsep. unfold decompose_arithmetic_many. destruct (Nat.eqb_spec dbl 0); [lia|].
    eapply wp_ext. { intros i. rewrite (pvec_len i Ha). reflexivity. }
    assert (HDpos : (0 < div_ceil total dbl)%nat) by (apply div_ceil_lt; lia).
    apply blueprint_exact with (xs := xs) (C := C_decompose dbl total); auto.
    - intros X1 X2 f wa wb wc. apply decompose_field_element_to_many_sim.
    - clear. induction xs as [|x xs IH]; [cbn; lia|]. cbn [map concat length]. rewrite app_length, IH, limbs_length. lia.
    - destruct (sums_len Ha) as [L1 L2]. intros ks Lk. destruct (split_masks _ (length xs) ks Lk) as (kss & -> & Lkss & Fk).
      unfold C_decompose, decompose_field_element_to_many. rewrite <- (sums_vec Ha).
      apply many3_masks; try congruence; [intros; apply limbs_length|].
      intros u v l _ Ll. rewrite decompose_one by exact Hd. rewrite HD. reflexivity.
  Qed.
  (** one value, whatever the number of bits asked for: the limbs beyond the modulus are sharings of
      minus a random mask *)
  Lemma decompose_surplus_wp st rg a (x : F) dbl total : synced st -> shares_vec a [x] -> (0 < dbl)%nat -> (0 < total)%nat ->
    separated_run (C_decompose dbl total) 1 (div_ceil total dbl) st rg ->
    wp cap (fun i => decompose_many i (a i) (st i) (rg i) total dbl)
      (fun r => exists ks : list F, length ks = div_ceil total dbl /\
         let num := div_ceil (Nat.min total B) dbl in
         shares_vec (fun i => fst (r i)) (limbs_of dbl total num x ++ map (fun k => - k) (skipn num ks)) /\
         synced (fun i => fst (snd (r i)))).
  Proof.
    intros Hs Ha Hd Ht Hsep. unfold decompose_arithmetic_many. destruct (Nat.eqb_spec dbl 0); [lia|].
    eapply wp_ext. { intros i. rewrite (pvec_len i Ha). cbn [length]. rewrite Nat.mul_1_r. reflexivity. }
    set (num := div_ceil (Nat.min total B) dbl). set (D := div_ceil total dbl) in *.
    assert (HDpos : (0 < D)%nat) by (apply div_ceil_lt; lia).
    assert (HnD : (num <= D)%nat).
    { destruct (le_lt_dec num D) as [L|L]; [exact L|]. apply div_ceil_lt in L; [|exact Hd].
      assert (C : (D < D)%nat) by (unfold D at 2; apply div_ceil_lt; lia). lia. }
    assert (Hm : masks_outputs (C_decompose dbl total) (sums01 a) (sums2 a) (limbs_of dbl total num x) D).
    2:{ eapply wp_mono; [|exact (@blueprint_wp F _ _ S M W _ _ _ _ _ hash gtweak otweak Dg _ digest dg_eqb draw_label draw_delta
      dg_eqb_spec cap cap_pos width delta_odd (C_decompose dbl total) D st rg a [x] (limbs_of dbl total num x)
      ltac:(intros X1 X2 f wa wb wc; apply decompose_field_element_to_many_sim) Hs Ha ltac:(rewrite limbs_length; exact HnD) Hm Hsep)].
      cbv beta. intros r (ks & Lk & Hr & Hsr). rewrite limbs_length in Hr. exists ks. auto. }
    - intros ks Lk. pose proof (sums_vec Ha) as E. destruct (sums_len Ha) as [L1 L2].
      destruct (sums01 a) as [|u [|? ?]]; try discriminate L1. destruct (sums2 a) as [|v [|? ?]]; try discriminate L2.
      cbn [map2] in E. injection E as E. rewrite <- E.
      unfold C_decompose, decompose_field_element_to_many, many3. rewrite !chunks_fbits.
      assert (Ec : chunks (ubit_len p * div_ceil total dbl) (fields_to_bits ks) = [fields_to_bits ks]).
      { rewrite <- (chunks_concat (k := (ubit_len p * div_ceil total dbl)%nat) (ls := [fields_to_bits ks])).
        - cbn [concat]. rewrite app_nil_r. reflexivity.
        - pose proof ub_pos. fold D. nia.
        - repeat constructor. rewrite fields_length, Lk. unfold mbs. fold D. lia. }
      rewrite Ec. cbn [map zip3]. unfold gflatM. cbn [gmapM]. rewrite !plain_bind. cbn [fst snd].
      rewrite decompose_one by exact Hd. rewrite plain_bind. cbn [gmapM plain concat]. rewrite app_nil_r. reflexivity.
  Qed.

  Lemma wp_first (q : pid -> Proc.prog pid M (list (share F) * (rst S * S))) x Q :
    wp cap q (fun r => shares_vec (fun i => fst (r i)) [x] /\ Q (fun i => snd (r i))) ->
    wp cap (fun i => first (q i)) (fun r => shares (fun i => fst (r i)) x /\ Q (fun i => snd (r i))).
  Proof.
    intros Hq. unfold first. apply wp_bind. eapply wp_mono; [|exact Hq]. cbv beta. intros r [Hr HQ].
    destruct (pvec_cons_inv Hr) as (h & t & E & Hh & Ht).
    eapply wp_ext with (qs := fun i => Ret (h i, snd (r i))); [intros i; rewrite (E i); reflexivity|].
    apply wp_ret. cbn [fst snd]. auto.
  Qed.
  Lemma mod_power_2_wp st rg a (x : F) bit : synced st -> shares a x -> (0 < bit)%nat ->
    separated_run (C_decompose bit bit) 1 1 st rg ->
    wp cap (fun i => field_mod_power_2 (F := F) (Seed := Seed) W hash gtweak otweak digest dg_eqb draw_label draw_delta
                       i (a i) (st i) (rg i) bit)
      (fun r => shares (fun i => fst (r i)) (of_uint (to_uint x mod 2 ^ N.of_nat bit)%N) /\ synced (fun i => fst (snd (r i)))).
  Proof.
    intros Hs Ha Hb Hsep. unfold field_mod_power_2, decompose_arithmetic.
    assert (Ha' : shares_vec (fun i => [a i]) [x]).
    { apply (@pvec_cons _ _ _ a _ (fun _ => [])); [reflexivity|exact Ha|apply pvec_nil; reflexivity]. }
    assert (E1 : div_ceil bit bit = 1%nat).
    { unfold div_ceil. replace (bit + (bit - 1))%nat with (1 * bit + (bit - 1))%nat by lia.
      rewrite Nat.div_add_l, Nat.div_small by lia. reflexivity. }
    assert (E2 : div_ceil (Nat.min bit B) bit = 1%nat).
    { pose proof (div_ceil_lt (Nat.min bit B) 0 Hb). pose proof (div_ceil_lt (Nat.min bit B) 1 Hb). pose proof (mbs_pos (F := F)). lia. }
    apply (@wp_first (fun i => decompose_many i [a i] (st i) (rg i) bit bit) _ (fun s => synced (fun i => fst (s i)))).
    eapply wp_mono; [|apply (@decompose_wp st rg (fun i => [a i]) [x] bit bit Hs Ha' Hb Hb)].
    - cbv beta. rewrite E1. cbn [map concat app limbs_of seq]. intros r [Hr Hsr]. split; [|exact Hsr].
      rewrite Nat.mul_0_l in Hr. cbn [N.of_nat N.pow] in Hr. rewrite N.div_1_r, N.mod_mod in Hr by (apply N.pow_nonzero; discriminate).
      exact Hr.
    - congruence.
    - rewrite E1. exact Hsep.
  Qed.
End YaoApi.
