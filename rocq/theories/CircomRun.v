(** * Proofs for the front end of co-circom: the sharings made by the contributors, and merging *)
From Coq Require Import String List Arith NArith Lia Bool Ascii.
From Verif Require Import Proc Alg Rep3Net Rep3 Rep3Spec Rep3Proofs Uint Binary Conv Garble Circuits Garbled Yao NNet Shamir ShamirSpec ShamirPoly ShamirAlg ShamirRng ShamirSetup VmDriver VmIdeal VmDriverWp Vm VmRun VmSpec Circom CircomSpec CircomOk.
Import ListNotations.
Set Implicit Arguments.
Local Open Scope grp_scope.
Local Open Scope string_scope.
Local Open Scope list_scope.

(** ** Merging, for any type of entries *)
Section Merge.
  Context {V : Type} (eqb : V -> V -> bool) (eqb_spec : forall x y, eqb x y = true <-> x = y) (pubs : list string).
  Notation m_t := (list (string * V)).
  Lemma merge_map_spec (m : m_t) : NoDup (map fst m) -> forall r, sorted r ->
    match merge_map eqb pubs m r with
    | Done r' => sorted r' /\ (forall k v, has r' k v <-> has m k v \/ has r k v) /\ agree pubs r m
    | Failed _ => ~ agree pubs r m
    end.
  Proof.
    induction m as [|[k0 v0] m IH]; intros ND r Hr; cbn [merge_map].
    { split; [exact Hr|]. split; [intros k v; unfold has; cbn; split; [now right|intros [E|E]; [discriminate|exact E]]|]. intros k v w _ E. discriminate E. }
    inversion ND as [|x y N0 ND' E]; subst.
    assert (A0 : assoc k0 m = None).
    { destruct (assoc k0 m) as [v|] eqn:E; [|reflexivity]. exfalso. apply N0. apply in_map_iff. exists (k0, v). split; [reflexivity|now apply assoc_In]. }
    assert (Step : (forall w, has r k0 w -> In (orig_name k0) pubs /\ w = v0) ->
      match merge_map eqb pubs m (binsert k0 v0 r) with
      | Done r' => sorted r' /\ (forall k v, has r' k v <-> has ((k0, v0) :: m) k v \/ has r k v) /\ agree pubs r ((k0, v0) :: m)
      | Failed _ => ~ agree pubs r ((k0, v0) :: m)
      end).
    { intros H0. specialize (IH ND' (binsert k0 v0 r) (binsert_sorted _ _ Hr)). destruct (merge_map eqb pubs m (binsert k0 v0 r)) as [r'|e].
      - destruct IH as (S1 & I1 & A1). split; [exact S1|]. split.
        + intros k v. rewrite (I1 k v). unfold has. rewrite assoc_binsert. cbn [assoc]. destruct (String.eqb_spec k k0) as [->|Nk]; [|reflexivity].
          rewrite A0. split; [intros [E|E]; [discriminate|now left]|intros [E|E]; [now right|]]. right. destruct (H0 _ E) as [_ ->]. reflexivity.
        + intros k v w E1 E2. unfold has in *. cbn [assoc] in E2. destruct (String.eqb_spec k k0) as [->|Nk].
          * injection E2 as <-. exact (H0 _ E1).
          * apply (A1 k v w); [|exact E2]. unfold has. rewrite assoc_binsert. rewrite (proj2 (String.eqb_neq _ _) Nk). exact E1.
      - intros A. apply IH. intros k v w E1 E2. unfold has in E1. rewrite assoc_binsert in E1. destruct (String.eqb_spec k k0) as [->|Nk].
        + unfold has in E2. congruence.
        + apply (A k v w); [exact E1|]. unfold has. cbn [assoc]. rewrite (proj2 (String.eqb_neq _ _) Nk). exact E2. }
    assert (Here : has ((k0, v0) :: m) k0 v0) by (unfold has; cbn [assoc]; now rewrite String.eqb_refl).
    destruct (contains pubs (orig_name k0)) eqn:Ec.
    - apply contains_In in Ec. destruct (assoc k0 r) as [v|] eqn:E; [|apply Step; intros w K; unfold has in K; congruence].
      destruct (eqb v v0) eqn:Ee.
      + apply eqb_spec in Ee as ->. apply Step. intros w K. unfold has in K. split; [exact Ec|congruence].
      + intros A. destruct (A _ _ _ E Here) as [_ ->]. rewrite (proj2 (eqb_spec _ _) eq_refl) in Ee. discriminate.
    - apply contains_not in Ec. destruct (assoc k0 r) as [v|] eqn:E; [|apply Step; intros w K; unfold has in K; congruence].
      intros A. destruct (A _ _ _ E Here) as [I _]. contradiction.
  Qed.
  Lemma merge_loop_spec (ms : list m_t) : Forall (fun m => NoDup (map fst m)) ms -> forall r, sorted r ->
    match merge_loop eqb pubs ms r with
    | Done r' => sorted r' /\ (forall k v, has r' k v <-> (exists m, In m ms /\ has m k v) \/ has r k v) /\ compatible pubs (r :: ms)
    | Failed _ => ~ compatible pubs (r :: ms)
    end.
  Proof.
    induction 1 as [|m ms ND _ IH]; intros r Hr; cbn [merge_loop].
    { split; [exact Hr|]. split; [intros k v; split; [now right|intros [(m & [] & _)|E]; exact E]|]. repeat constructor. }
    pose proof (merge_map_spec m ND Hr) as K. destruct (merge_map eqb pubs m r) as [r1|e]; cbn [obind].
    - destruct K as (S1 & I1 & A1). specialize (IH r1 S1).
      assert (Eq : compatible pubs (r1 :: ms) <-> compatible pubs (r :: m :: ms)).
      { split; intros C.
        - inversion C as [|a l C1 C2]; subst. constructor; [constructor; [exact A1|]|constructor; [|exact C2]].
          + eapply Forall_impl; [|exact C1]. intros m' A k v w E1 E2. apply (A k v w); [|exact E2]. apply I1. now right.
          + eapply Forall_impl; [|exact C1]. intros m' A k v w E1 E2. apply (A k v w); [|exact E2]. apply I1. now left.
        - inversion C as [|a l C1 C2]; subst. inversion C2 as [|b l' C3 C4]; subst. inversion C1 as [|c l'' C5 C6]; subst. constructor; [|exact C4].
          rewrite Forall_forall in *. intros m' I k v w E1 E2. apply I1 in E1 as [E1|E1]; [exact (C3 m' I k v w E1 E2)|exact (C6 m' I k v w E1 E2)]. }
      destruct (merge_loop eqb pubs ms r1) as [r'|e].
      + destruct IH as (S2 & I2 & C2). split; [exact S2|]. split; [|now apply Eq]. intros k v. rewrite (I2 k v), (I1 k v). split.
        * intros [(m' & I & E)|[E|E]]; [left; exists m'; split; [now right|exact E]|left; exists m; split; [now left|exact E]|now right].
        * intros [(m' & [<-|I] & E)|E]; [right; now left|left; now exists m'|right; now right].
      + intros C. apply IH, Eq, C.
    - intros C. apply K. inversion C as [|a l C1 C2]; subst. now inversion C1.
  Qed.
End Merge.
Lemma compatible_nil {V} pubs (ms : list (list (string * V))) : compatible pubs ([] :: ms) <-> compatible pubs ms.
Proof.
  split; [now inversion 1|]. intros C. constructor; [|exact C]. apply Forall_forall. intros m _ k v w E. discriminate E.
Qed.
Lemma merge_spec {V} (eqb : V -> V -> bool) pubs (ms : list (list (string * V))) : (forall x y, eqb x y = true <-> x = y) ->
  Forall (fun m => NoDup (map fst m)) ms ->
  match merge_loop eqb pubs ms [] with
  | Done r => sorted r /\ union ms r /\ compatible pubs ms
  | Failed _ => ~ compatible pubs ms
  end.
Proof.
  intros Es H. pose proof (@merge_loop_spec V eqb Es pubs ms H [] sorted_nil) as K. destruct (merge_loop eqb pubs ms []) as [r|e].
  - destruct K as (S1 & I1 & C). split; [exact S1|]. split; [|now apply compatible_nil]. intros k v. rewrite (I1 k v). split; [|now left].
    intros [E|E]; [exact E|discriminate E].
  - now rewrite <- compatible_nil.
Qed.

(** ** Joint entries: what every party holds, and the value behind it *)
Section Joint.
  Context {F : Type} `{FU : FieldUint F}.
  Section J.
    Context {P V : Type}.
    Definition jent : Type := string * ((P -> V) * tv F).
    Definition pm (i : P) (js : list jent) : list (string * V) := map (on_snd (fun x => fst x i)) js.
    Definition tm (js : list jent) : list (string * tv F) := map (on_snd snd) js.
    Lemma pm_insert i k x js : pm i (binsert k x js) = binsert k (fst x i) (pm i js).
    Proof. unfold pm. symmetry. apply (binsert_map (fun x : (P -> V) * tv F => fst x i)). Qed.
    Lemma tm_insert k x js : tm (binsert k x js) = binsert k (snd x) (tm js).
    Proof. unfold tm. symmetry. apply (binsert_map (fun x : (P -> V) * tv F => snd x)). Qed.
    Lemma pm_assoc i k js : assoc k (pm i js) = option_map (fun x => fst x i) (assoc k js).
    Proof. apply (assoc_map (fun x : (P -> V) * tv F => fst x i)). Qed.
    Lemma tm_assoc k js : assoc k (tm js) = option_map snd (assoc k js).
    Proof. apply (assoc_map (fun x : (P -> V) * tv F => snd x)). Qed.
    Definition good (R : (P -> V) -> tv F -> Prop) (js : list jent) : Prop := Forall (fun e => R (fst (snd e)) (snd (snd e))) js.
    Lemma good_insert (R : (P -> V) -> tv F -> Prop) k x js : R (fst x) (snd x) -> good R js -> good R (binsert k x js).
    Proof.
      intros Hx G. apply Forall_forall. intros e I. apply In_binsert in I as [->|I]; [exact Hx|]. exact (proj1 (Forall_forall _ _) G e I).
    Qed.
  End J.

  (** *** Clear inputs *)
  Context (hex_uint : string -> option N) (from_str : string -> option F).
  Notation parsed_vals := (parsed_vals hex_uint from_str).
  Notation entry := (entry hex_uint from_str).
  Notation readable := (readable hex_uint from_str).
  Notation input_entry := (input_entry hex_uint from_str).
  Definition tag (pub : bool) (v : F) : tv F := if pub then Pub v else Sh v.
  Fixpoint tput (pub : bool) (es : list (string * F)) (m : list (string * tv F)) : list (string * tv F) :=
    match es with [] => m | (k, v) :: es => tput pub es (binsert k (tag pub v) m) end.
  Fixpoint tsplit (input : list (string * json)) (pubs : list string) (m : list (string * tv F)) : outcome (list (string * tv F)) :=
    match input with
    | [] => Done m
    | (name, val) :: input => obind (parsed_vals name val) (fun es => tsplit input pubs (tput (contains pubs name) es m))
    end.
  Lemma tput_sorted pub es m : sorted m -> sorted (tput pub es m).
  Proof. revert m. induction es as [|[k v] es IH]; intros m Hm; [exact Hm|]. apply IH, binsert_sorted, Hm. Qed.
  Lemma tput_assoc pub es k : NoDup (map fst es) -> forall m,
    assoc k (tput pub es m) = match assoc k es with Some v => Some (tag pub v) | None => assoc k m end.
  Proof.
    induction es as [|[k0 v0] es IH]; intros ND m; [reflexivity|]. inversion ND; subst. cbn [tput]. rewrite IH by assumption. rewrite assoc_binsert. cbn [assoc].
    destruct (String.eqb_spec k k0) as [->|]; [|reflexivity]. destruct (assoc k0 es) as [v|] eqn:E; [|reflexivity]. exfalso. apply H2. apply in_map_iff.
    exists (k0, v). split; [reflexivity|now apply assoc_In].
  Qed.
  Lemma tag_tagged pubs name v t : tagged pubs name v t <-> t = tag (contains pubs name) v.
  Proof.
    unfold tagged, tag. destruct (contains pubs name) eqn:E.
    - apply contains_In in E. intuition.
    - apply contains_not in E. intuition.
  Qed.
  Lemma tsplit_spec input pubs : forall m, sorted m ->
    match tsplit input pubs m with
    | Done m' => sorted m' /\ (forall k t, has m' k t <-> input_entry pubs input k t \/ ((forall name j v, In (name, j) input -> ~ entry name j k v) /\ has m k t)) /\
                 (forall name j, In (name, j) input -> readable j)
    | Failed _ => exists name j, In (name, j) input /\ ~ readable j
    end.
  Proof.
    induction input as [|[name j] input IH]; intros m Hm; cbn [tsplit].
    { split; [exact Hm|]. split; [|easy]. intros k t. split; [right; split; [easy|exact H0]|].
      intros [(pre & n & j & post & v & E & _)|[_ E]]; [destruct pre; discriminate|exact E]. }
    pose proof (parsed_vals_spec hex_uint from_str name j) as K. destruct (parsed_vals name j) as [es|e] eqn:Ep; cbn [obind].
    2: { exists name, j. split; [now left|exact K]. }
    destruct K as [ND K]. specialize (IH (tput (contains pubs name) es m) (tput_sorted _ _ Hm)).
    destruct (tsplit input pubs (tput (contains pubs name) es m)) as [m'|e].
    2: { destruct IH as (n' & j' & I & N). exists n', j'. split; [now right|exact N]. }
    destruct IH as (S1 & I1 & R1). split; [exact S1|]. split.
    2: { intros n' j' [E|I]; [injection E as <- <-; exact (parsed_readable _ _ _ _ Ep)|exact (R1 n' j' I)]. }
    intros k t. rewrite (I1 k t). unfold has at 1. rewrite tput_assoc by exact ND. split.
    - intros [(pre & n' & j' & post & v & -> & En & Tg & La)|[No E]].
      + left. exists ((name, j) :: pre), n', j', post, v. auto.
      + destruct (assoc k es) as [v|] eqn:Ev.
        * left. injection E as <-. exists [], name, j, input, v. split; [reflexivity|]. split; [apply K; now apply assoc_In|]. split; [now apply tag_tagged|exact No].
        * right. split; [|exact E]. intros n' j' v' [E'|I]; [injection E' as <- <-|exact (No n' j' v' I)]. intros En. apply K in En.
          rewrite (In_assoc _ _ _ ND En) in Ev. discriminate.
    - intros [(pre & n' & j' & post & v & E & En & Tg & La)|[No E]].
      + destruct pre as [|e pre]; cbn in E.
        * injection E as <- <- <-. right. split; [exact La|]. apply K in En. rewrite (In_assoc _ _ _ ND En). apply tag_tagged in Tg as ->. reflexivity.
        * injection E as <- E. subst input. left. exists pre, n', j', post, v. auto.
      + right. split; [intros n' j' v' I; apply No; now right|]. destruct (assoc k es) as [v|] eqn:Ev; [|exact E]. exfalso.
        apply (No name j v); [now left|]. apply K. now apply assoc_In.
  Qed.

  (** *** Replicated shares *)
  Definition rel3 (x : pid -> inp F (share F)) (t : tv F) : Prop :=
    match t with
    | Pub v => forall i, x i = IPub v
    | Sh v => exists s, (forall i, x i = IShared (s i)) /\ shares s v
    end.
  Section Split.
    Context {S : Type} {DF : Draw S F}.
    Lemma put_public_joint es : forall (ms : pid -> list (string * inp F (share F))) js, (forall i, ms i = pm i js) -> good rel3 js ->
      exists js', (forall i, put_public es ms i = pm i js') /\ tput true es (tm js) = tm js' /\ good rel3 js'.
    Proof.
      induction es as [|[k v] es IH]; intros ms js E G; cbn [put_public tput]; [now exists js|].
      destruct (IH (fun i => binsert k (IPub v) (ms i)) (binsert k (fun _ => IPub v, Pub v) js)) as (js' & E1 & E2 & G').
      - intros i. rewrite pm_insert, (E i). reflexivity.
      - apply good_insert; [intros i; reflexivity|exact G].
      - exists js'. rewrite tm_insert in E2. auto.
    Qed.
    Lemma put_shared_joint es : forall (g : S) (ms : pid -> list (string * inp F (share F))) js, (forall i, ms i = pm i js) -> good rel3 js ->
      exists js', (forall i, fst (put_shared es ms g) i = pm i js') /\ tput false es (tm js) = tm js' /\ good rel3 js'.
    Proof.
      induction es as [|[k v] es IH]; intros g ms js E G; cbn [put_shared tput]; [now exists js|]. cbv zeta.
      destruct (IH (snd (Rep3.share_field_element v g)) (fun i => binsert k (IShared (fst (Rep3.share_field_element v g) i)) (ms i))
        (binsert k (fun i => IShared (fst (Rep3.share_field_element v g) i), Sh v) js)) as (js' & E1 & E2 & G').
      - intros i. rewrite pm_insert, (E i). reflexivity.
      - apply good_insert; [exists (fst (Rep3.share_field_element v g)); split; [reflexivity|apply share_elem_ok]|exact G].
      - exists js'. rewrite tm_insert in E2. auto.
    Qed.
    Lemma split_loop_joint input pubs : forall (g : S) ms js, (forall i, ms i = pm i js) -> good rel3 js ->
      match tsplit input pubs (tm js) with
      | Done m => exists r js', split_loop hex_uint from_str input pubs ms g = Done r /\ (forall i, fst r i = pm i js') /\ m = tm js' /\ good rel3 js'
      | Failed e => split_loop hex_uint from_str input pubs ms g = Failed e
      end.
    Proof.
      induction input as [|[name j] input IH]; intros g ms js E G; cbn [tsplit split_loop]; [exists (ms, g), js; auto|].
      destruct (parsed_vals name j) as [es|e]; cbn [obind]; [|reflexivity]. destruct (contains pubs name).
      - destruct (put_public_joint es _ E G) as (js' & E1 & -> & G'). exact (IH g _ js' E1 G').
      - destruct (put_shared_joint es g _ E G) as (js' & E1 & -> & G'). exact (IH _ _ js' E1 G').
    Qed.
    Lemma split_joint input pubs (g : S) :
      match tsplit input pubs [] with
      | Done m => exists ms js, split_input hex_uint from_str input pubs g = Done ms /\ (forall i, ms i = pm i js) /\ m = tm js /\ good rel3 js
      | Failed e => split_input hex_uint from_str input pubs g = Failed e
      end.
    Proof.
      unfold split_input. pose proof (split_loop_joint input pubs g (fun _ => []) (js := []) (fun _ => eq_refl) (Forall_nil _)) as K. cbn [tm map] in K.
      destruct (tsplit input pubs []) as [m|e].
      - destruct K as (r & js' & -> & K). exists (fst r), js'. split; [reflexivity|exact K].
      - now rewrite K.
    Qed.

    (** *** Shamir shares *)
    Section Shamir.
      Context (n t : nat).
      Definition reln (x : nat -> inp F F) (a : tv F) : Prop :=
        match a with
        | Pub v => forall i, i < n -> x i = IPub v
        | Sh v => exists s, (forall i, i < n -> x i = IShared (s i)) /\ sharing n t s v
        end.
      Definition pms (js : list jent) : list (list (string * inp F F)) := map (fun i => pm i js) (seq 0 n).
      Lemma sput_public_joint es : forall js, good reln js ->
        exists js', sput_public es (pms js) = pms js' /\ tput true es (tm js) = tm js' /\ good reln js'.
      Proof.
        induction es as [|[k v] es IH]; intros js G; cbn [sput_public tput]; [now exists js|].
        destruct (IH (binsert k (fun _ => IPub v, Pub v) js)) as (js' & E1 & E2 & G').
        - apply good_insert; [intros i Hi; reflexivity|exact G].
        - exists js'. rewrite tm_insert in E2. split; [|auto]. rewrite <- E1. f_equal. unfold pms. rewrite map_map. apply map_ext. intros i. now rewrite pm_insert.
      Qed.
      Lemma map2_map_seq {A B C} (f : A -> B -> C) (h : nat -> A) (l : list B) d s : map2 f (map h (seq s (length l))) l = map (fun i => f (h i) (nth (i - s) l d)) (seq s (length l)).
      Proof.
        revert s. induction l as [|b l IH]; intros s; [reflexivity|]. cbn [length seq map map2]. rewrite Nat.sub_diag. f_equal. rewrite IH.
        apply map_ext_in. intros i Hi. apply in_seq in Hi. replace (i - s)%nat with (Datatypes.S (i - Datatypes.S s)) by lia. reflexivity.
      Qed.
      Lemma sput_shared_joint es : forall (g : S) js, good reln js ->
        exists js', fst (sput_shared es t n (pms js) g) = pms js' /\ tput false es (tm js) = tm js' /\ good reln js'.
      Proof.
        induction es as [|[k v] es IH]; intros g js G; cbn [sput_shared tput]; [now exists js|]. cbv zeta.
        pose (x := Shamir.share_field_element v t n g). fold x. pose proof (sm_share_sharing v n t g) as [Lx Sx]. fold (Shamir.share_field_element v t n g) in Lx, Sx. fold x in Lx, Sx.
        destruct (IH (snd x) (binsert k (fun i => IShared (nth i (fst x) 0), Sh v) js)) as (js' & E1 & E2 & G').
        - apply good_insert; [exists (fun i => nth i (fst x) 0); split; [reflexivity|exact Sx]|exact G].
        - exists js'. rewrite tm_insert in E2. split; [|auto]. rewrite <- E1. f_equal. f_equal. unfold pms. rewrite <- Lx at 1 2. rewrite (map2_map_seq _ _ _ 0).
          apply map_ext. intros i. rewrite pm_insert, Nat.sub_0_r. reflexivity.
      Qed.
      Lemma ssplit_loop_joint input pubs : forall (g : S) js, good reln js ->
        match tsplit input pubs (tm js) with
        | Done m => exists r js', ssplit_loop hex_uint from_str input pubs t n (pms js) g = Done r /\ fst r = pms js' /\ m = tm js' /\ good reln js'
        | Failed e => ssplit_loop hex_uint from_str input pubs t n (pms js) g = Failed e
        end.
      Proof.
        induction input as [|[name j] input IH]; intros g js G; cbn [tsplit ssplit_loop]; [exists (pms js, g), js; auto|].
        destruct (parsed_vals name j) as [es|e]; cbn [obind]; [|reflexivity]. destruct (contains pubs name).
        - destruct (sput_public_joint es G) as (js' & -> & -> & G'). exact (IH g js' G').
        - cbv zeta. destruct (sput_shared_joint es g G) as (js' & -> & -> & G'). exact (IH _ js' G').
      Qed.
      Lemma ssplit_joint input pubs (g : S) :
        match tsplit input pubs [] with
        | Done m => exists js, split_input_shamir hex_uint from_str input pubs t n g = Done (pms js) /\ m = tm js /\ good reln js
        | Failed e => split_input_shamir hex_uint from_str input pubs t n g = Failed e
        end.
      Proof.
        unfold split_input_shamir. pose proof (ssplit_loop_joint input pubs g (js := []) (Forall_nil _)) as K. cbn [tm map] in K.
        replace (pms []) with (repeat (@nil (string * inp F F)) n) in K by (unfold pms, pm; cbn [map]; clear; generalize O; induction n; intros s; cbn; [reflexivity|]; now rewrite <- IHn0).
        destruct (tsplit input pubs []) as [m|e].
        - destruct K as (r & js' & -> & K). exists js'. cbn [obind]. destruct K as [-> K]. split; [reflexivity|exact K].
        - now rewrite K.
      Qed.
    End Shamir.
  End Split.

  (** *** Merging at the three parties *)
  Definition teqb (a b : tv F) : bool :=
    match a, b with Pub x, Pub y => feqb x y | Sh x, Sh y => feqb x y | _, _ => false end.
  Lemma teqb_spec a b : teqb a b = true <-> a = b.
  Proof. destruct a, b; cbn; rewrite ?feqb_spec; split; congruence. Qed.
  Lemma inp_eqb_spec (a b : inp F (share F)) : inp_eqb a b = true <-> a = b.
  Proof.
    destruct a as [x|[x1 x2]], b as [y|[y1 y2]]; cbn; rewrite ?andb_true_iff, ?feqb_spec; split; try congruence.
    - intros [-> ->]. reflexivity.
    - intros E. injection E as -> ->. auto.
  Qed.
  Section MergeJ.
    Context (pubs : list string).
    (** entries with a public name are public *)
    Definition pubtag {V} (js : list (string * ((pid -> V) * tv F))) : Prop :=
      Forall (fun e => In (orig_name (fst e)) pubs -> exists v, snd (snd e) = Pub v) js.
    Lemma merge_map_joint m : forall r, good rel3 m -> pubtag m -> good rel3 r -> pubtag r ->
      match merge_map teqb pubs (tm m) (tm r) with
      | Done tr => exists r', tr = tm r' /\ good rel3 r' /\ pubtag r' /\ forall i, merge_map (inp_eqb (F := F)) pubs (pm i m) (pm i r) = Done (pm i r')
      | Failed e => forall i, merge_map (inp_eqb (F := F)) pubs (pm i m) (pm i r) = Failed e
      end.
    Proof.
      induction m as [|[k [x a]] m IH]; intros r Gm Tm Gr Tr; [exists r; auto|].
      inversion Gm as [|? ? Gx Gm']; subst. inversion Tm as [|? ? Tx Tm']; subst. cbn [fst snd] in Gx, Tx.
      cbn [tm pm map on_snd fst snd merge_map]. fold (tm m).
      assert (G' : good rel3 (binsert k (x, a) r)) by (apply good_insert; assumption).
      assert (T' : pubtag (binsert k (x, a) r)).
      { apply Forall_forall. intros e I. apply In_binsert in I as [->|I]; [exact Tx|exact (proj1 (Forall_forall _ _) Tr e I)]. }
      specialize (IH (binsert k (x, a) r) Gm' Tm' G' T'). rewrite tm_insert in IH. cbn [snd] in IH.
      assert (Ei : forall i, binsert k (x i) (pm i r) = pm i (binsert k (x, a) r)) by (intros i; now rewrite pm_insert).
      rewrite tm_assoc. destruct (contains pubs (orig_name k)) eqn:Ec.
      - apply contains_In in Ec. destruct (assoc k r) as [[y b]|] eqn:Er; cbn [option_map snd].
        + apply assoc_In in Er as Ir. destruct (Tx Ec) as (v & ->). pose proof (proj1 (Forall_forall _ _) Tr _ Ir Ec) as (w & Ew). cbn in Ew. subst b.
          pose proof (proj1 (Forall_forall _ _) Gr _ Ir) as Gy. cbn in Gy, Gx.
          assert (Eb : forall i, match assoc k (pm i r) with Some v => inp_eqb v (x i) | None => true end = feqb w v).
          { intros i. rewrite pm_assoc, Er. cbn. rewrite (Gy i), (Gx i). reflexivity. }
          assert (Es : forall i, exists v', assoc k (pm i r) = Some v') by (intros i; rewrite pm_assoc, Er; eexists; reflexivity).
          cbn [teqb]. destruct (feqb w v) eqn:Ef.
          * destruct (merge_map teqb pubs (tm m) (binsert k (Pub v) (tm r))) as [tr|e].
            -- destruct IH as (r' & Et & Gr' & Tr' & E). exists r'. split; [exact Et|]. split; [exact Gr'|]. split; [exact Tr'|]. intros i.
               specialize (Eb i). destruct (Es i) as (v' & Ev'). unfold pm at 1. cbn [map on_snd fst snd]. fold (pm i m). fold (pm i r). rewrite Ev' in *. rewrite Eb, Ei. exact (E i).
            -- intros i. specialize (Eb i). destruct (Es i) as (v' & Ev'). fold (pm i m). fold (pm i r). rewrite Ev' in *. rewrite Eb, Ei. exact (IH i).
          * intros i. specialize (Eb i). destruct (Es i) as (v' & Ev'). fold (pm i m). fold (pm i r). rewrite Ev' in *. rewrite Eb. reflexivity.
        + assert (En : forall i, assoc k (pm i r) = None) by (intros i; now rewrite pm_assoc, Er).
          destruct (merge_map teqb pubs (tm m) (binsert k a (tm r))) as [tr|e].
          * destruct IH as (r' & Et & Gr' & Tr' & E). exists r'. split; [exact Et|]. split; [exact Gr'|]. split; [exact Tr'|]. intros i.
            fold (pm i m). fold (pm i r). rewrite En, Ei. exact (E i).
          * intros i. fold (pm i m). fold (pm i r). rewrite En, Ei. exact (IH i).
      - destruct (assoc k r) as [[y b]|] eqn:Er; cbn [option_map snd].
        + intros i. fold (pm i m). fold (pm i r). rewrite pm_assoc, Er. reflexivity.
        + assert (En : forall i, assoc k (pm i r) = None) by (intros i; now rewrite pm_assoc, Er).
          destruct (merge_map teqb pubs (tm m) (binsert k a (tm r))) as [tr|e].
          * destruct IH as (r' & Et & Gr' & Tr' & E). exists r'. split; [exact Et|]. split; [exact Gr'|]. split; [exact Tr'|]. intros i.
            fold (pm i m). fold (pm i r). rewrite En, Ei. exact (E i).
          * intros i. fold (pm i m). fold (pm i r). rewrite En, Ei. exact (IH i).
    Qed.
    Lemma merge_loop_joint ms : forall r, Forall (good rel3) ms -> Forall pubtag ms -> good rel3 r -> pubtag r ->
      match merge_loop teqb pubs (map tm ms) (tm r) with
      | Done tr => exists r', tr = tm r' /\ good rel3 r' /\ forall i, merge_loop (inp_eqb (F := F)) pubs (map (pm i) ms) (pm i r) = Done (pm i r')
      | Failed e => forall i, merge_loop (inp_eqb (F := F)) pubs (map (pm i) ms) (pm i r) = Failed e
      end.
    Proof.
      induction ms as [|m ms IH]; intros r Gm Tm Gr Tr; cbn [map merge_loop]; [exists r; auto|].
      inversion Gm; subst. inversion Tm; subst. pose proof (merge_map_joint H2 H4 Gr Tr) as K. destruct (merge_map teqb pubs (tm m) (tm r)) as [tr|e]; cbn [obind].
      - destruct K as (r' & -> & Gr' & Tr' & E). specialize (IH r' H3 H5 Gr' Tr'). destruct (merge_loop teqb pubs (map tm ms) (tm r')) as [tr|e].
        + destruct IH as (r'' & Et & G'' & E''). exists r''. split; [exact Et|]. split; [exact G''|]. intros i. rewrite (E i). exact (E'' i).
        + intros i. rewrite (E i). exact (IH i).
      - intros i. rewrite (K i). reflexivity.
    Qed.
  End MergeJ.

  (** *** The inputs of the virtual machine *)
  Lemma joint_rel_in js : good rel3 js -> pvec rel_in (fun i => map (on_snd (to_vm (F := F))) (pm i js)) (tm js).
  Proof.
    induction 1 as [|[k [x a]] js Hx _ IH].
    - apply pvec_nil. reflexivity.
    - cbn [fst snd] in Hx. eapply pvec_cons with (h := fun i => (k, to_vm (x i))); [intros i; reflexivity| |exact IH]. split; [reflexivity|]. cbn [snd].
      destruct a as [v|v]; cbn in Hx |- *; [intros i; now rewrite Hx|]. destruct Hx as (s & E & Hs). exists s. split; [intros i; now rewrite E|exact Hs].
  Qed.
  Lemma joint_count js i : good rel3 js -> num_public_inputs (pm i js) = tcount (tm js).
  Proof.
    unfold num_public_inputs, tcount. induction 1 as [|[k [x a]] js Hx _ IH]; [reflexivity|]. cbn [fst snd] in Hx. cbn [pm tm map on_snd filter fst snd].
    fold (pm i js). fold (tm js). destruct a as [v|v]; cbn in Hx.
    - rewrite (Hx i). cbn. now rewrite IH.
    - destruct Hx as (s & E & _). rewrite (E i). cbn. exact IH.
  Qed.

  (** *** Everything together *)
  Lemma entry_orig name j k v : entry name j k v -> orig_name k = orig_name name.
  Proof.
    destruct j as [b|s|l|]; cbn.
    - now intros [-> _].
    - now intros [-> _].
    - intros (idx & s & _ & _ & -> & _). apply (orig_name_app name).
    - intros [].
  Qed.
  Lemma split_tagged input pubs m : tsplit input pubs [] = Done m -> sorted m /\
    (forall k t, has m k t <-> input_entry pubs input k t) /\ (forall name j, In (name, j) input -> readable j).
  Proof.
    intros E. pose proof (tsplit_spec input pubs sorted_nil) as K. rewrite E in K. destruct K as (S1 & I1 & R1). split; [exact S1|]. split; [|exact R1].
    intros k t. rewrite (I1 k t). split; [intros [K|[_ K]]; [exact K|discriminate K]|now left].
  Qed.
  Lemma split_pubtag input pubs (js : list (string * ((pid -> inp F (share F)) * tv F))) : tsplit input pubs [] = Done (tm js) ->
    (forall name j, In (name, j) input -> In (orig_name name) pubs -> In name pubs) -> pubtag pubs js.
  Proof.
    intros E N. destruct (split_tagged _ _ E) as (S1 & I1 & _). apply Forall_forall. intros [k [x a]] I Ik. cbn [fst snd] in *.
    assert (K : has (tm js) k a).
    { apply In_assoc; [exact (sorted_NoDup S1)|]. apply in_map_iff. exists (k, (x, a)). split; [reflexivity|exact I]. }
    apply I1 in K as (pre & name & j & post & v & -> & En & [[_ ->]|[Nn _]] & _); [now exists v|]. exfalso. apply Nn. apply (N name j).
    - apply in_or_app. right. now left.
    - rewrite <- (entry_orig _ _ _ _ En). exact Ik.
  Qed.
  Section Contributors.
    Context {S : Type} {DF : Draw S F} (pubs : list string).
    Notation harmony := (harmony (S := S) hex_uint from_str pubs).
    Lemma contributors (cs : list (list (string * json) * S)) mss :
      Forall2 (fun c ms => split_input hex_uint from_str (fst c) pubs (snd c) = Done ms) cs mss ->
      exists jss, (forall i, map (fun ms => ms i) mss = map (pm i) jss) /\ Forall (good rel3) jss /\
        Forall2 (fun c js => tsplit (fst c) pubs [] = Done (tm js)) cs jss.
    Proof.
      induction 1 as [|c ms cs mss E _ (jss & E1 & G1 & T1)]; [exists []; repeat constructor|].
      pose proof (split_joint (fst c) pubs (snd c)) as K. destruct (tsplit (fst c) pubs []) as [m|e] eqn:Et; [|congruence].
      destruct K as (ms' & js & E' & Ep & -> & G). assert (ms' = ms) by congruence. subst ms'. exists (js :: jss).
      split; [intros i; cbn; now rewrite E1, Ep|]. split; constructor; assumption.
    Qed.
    Lemma merge_contributors (cs : list (list (string * json) * S)) mss :
      Forall2 (fun c ms => split_input hex_uint from_str (fst c) pubs (snd c) = Done ms) cs mss ->
      (forall c name j, In c cs -> In (name, j) (fst c) -> In (orig_name name) pubs -> In name pubs) ->
      (harmony cs /\ exists m tmm, (forall i, merge_input_shares (map (fun ms => ms i) mss) pubs = Done (m i)) /\
         pvec rel_in (fun i => map (on_snd (to_vm (F := F))) (m i)) tmm /\ sorted tmm /\
         (forall k t, has tmm k t <-> exists c, In c cs /\ input_entry pubs (fst c) k t) /\ (forall i, num_public_inputs (m i) = tcount tmm)) \/
      (~ harmony cs /\ exists e, forall i, merge_input_shares (map (fun ms => ms i) mss) pubs = Failed e).
    Proof.
      intros H1 H2. destruct (contributors H1) as (jss & E & G & T). clear H1.
      assert (Tg : Forall (pubtag pubs) jss).
      { clear E G. induction T as [|c js cs jss Hc _ IH]; constructor.
        - apply (split_pubtag _ _ _ Hc). intros name j. apply (H2 c). now left.
        - apply IH. intros c' name j I. apply (H2 c'). now right. }
      assert (ND : Forall (fun m => NoDup (map fst m)) (map tm jss)).
      { clear E G Tg H2. induction T as [|c js cs jss Hc _ IH]; constructor; [|exact IH]. apply sorted_NoDup, (split_tagged _ _ Hc). }
      assert (Un : forall k t, (exists m, In m (map tm jss) /\ has m k t) <-> exists c, In c cs /\ input_entry pubs (fst c) k t).
      { clear E G Tg H2 ND. intros k t. induction T as [|c js cs jss Hc _ IH]; [split; intros (x & [] & _)|]. destruct (split_tagged _ _ Hc) as (_ & I1 & _). split.
        - intros (m & [<-|I] & Hm); [exists c; split; [now left|now apply I1]|]. destruct (proj1 IH (ex_intro _ m (conj I Hm))) as (c' & I' & E'). exists c'. split; [now right|exact E'].
        - intros (c' & [<-|I] & Hm); [exists (tm js); split; [now left|now apply I1]|]. destruct (proj2 IH (ex_intro _ c' (conj I Hm))) as (m & I' & E'). exists m. split; [now right|exact E']. }
      assert (Ha : harmony cs <-> compatible pubs (map tm jss)).
      { assert (K : forall (c : list (string * json) * S) js cs jss, tsplit (fst c) pubs [] = Done (tm js) -> Forall2 (fun c js => tsplit (fst c) pubs [] = Done (tm (P := pid) (V := inp F (share F)) js)) cs jss ->
          Forall (fun c' : list (string * json) * S => forall k t t', input_entry pubs (fst c) k t -> input_entry pubs (fst c') k t' -> In (orig_name k) pubs /\ t = t') cs <->
          Forall (agree pubs (tm (P := pid) (V := inp F (share F)) js)) (map tm jss)).
        { clear. intros c js cs jss Hc T. destruct (split_tagged _ _ Hc) as (_ & I1 & _). induction T as [|c' js' cs jss Hc' _ IH]; [split; constructor|].
          destruct (split_tagged _ _ Hc') as (_ & I2 & _). split; intros K; inversion K; subst; constructor.
          - intros k v w Hv Hw. apply (H2 k v w); [now apply I1|now apply I2].
          - now apply IH.
          - intros k v w Hv Hw. apply (H2 k v w); [now apply I1|now apply I2].
          - now apply IH. }
        clear E G Tg H2 ND Un. induction T as [|c js cs jss Hc T IH]; [split; constructor|]. split; intros C; inversion C; subst; constructor.
        - apply (K _ _ _ _ Hc T). assumption.
        - now apply IH.
        - apply (K _ _ _ _ Hc T). assumption.
        - now apply IH. }
      pose proof (@merge_spec (tv F) teqb pubs (map tm jss) teqb_spec ND) as Ms.
      pose proof (@merge_loop_joint pubs jss [] G Tg (Forall_nil _) (Forall_nil _)) as Mj. cbn [tm map] in Mj. unfold merge_input_shares.
      destruct (merge_loop teqb pubs (map tm jss) []) as [tr|e].
      - left. destruct Ms as (S1 & U1 & C1). split; [now apply Ha|]. destruct Mj as (r & -> & Gr & Er). exists (fun i => pm i r), (tm r).
        split; [intros i; rewrite E; exact (Er i)|]. split; [now apply joint_rel_in|]. split; [exact S1|]. split; [intros k t; rewrite <- (Un k t); exact (U1 k t)|].
        intros i. now apply joint_count.
      - right. split; [now rewrite Ha|]. exists e. intros i. rewrite E. exact (Mj i).
    Qed.
  End Contributors.
End Joint.

(** ** The two ways to split, in the words of the specification *)
Section SplitSpec.
  Context {F : Type} `{FU : FieldUint F} (hex_uint : string -> option N) (from_str : string -> option F).
  Context {S : Type} {DF : Draw S F}.
  Lemma parse_iff s v : parse_field hex_uint from_str (JStr s) = Done v <-> number hex_uint from_str s v.
  Proof.
    pose proof (parse_field_str hex_uint from_str s) as K. destruct (parse_field hex_uint from_str (JStr s)) as [w|e].
    - split; [intros E; injection E as <-; exact K|]. intros N. f_equal. exact (number_det K N).
    - split; [discriminate|]. intros N. now apply K in N.
  Qed.
  Lemma split_spec input pubs (g : S) :
    match split_input hex_uint from_str input pubs g with
    | Done ms => (forall name j, In (name, j) input -> readable hex_uint from_str j) /\
        exists m, pvec rel_in (fun i => map (on_snd (to_vm (F := F))) (ms i)) m /\ sorted m /\ (forall k t, has m k t <-> input_entry hex_uint from_str pubs input k t)
    | Failed _ => exists name j, In (name, j) input /\ ~ readable hex_uint from_str j
    end.
  Proof.
    pose proof (split_joint hex_uint from_str input pubs g) as K. pose proof (tsplit_spec hex_uint from_str input pubs sorted_nil) as T.
    destruct (tsplit hex_uint from_str input pubs []) as [m|e] eqn:E; [|now rewrite K].
    destruct K as (ms & js & -> & Em & -> & G). destruct (split_tagged _ _ _ _ E) as (S1 & I1 & R1). split; [exact R1|]. exists (tm js). split; [|split; assumption].
    pose proof (joint_rel_in G) as [L1 L2]. split; [intros i; rewrite Em; apply L1|]. intros n x En. destruct (L2 n x En) as (a & Ea & Ra). exists a. split; [intros i; rewrite Em; apply Ea|exact Ra].
  Qed.
  Lemma split_shamir_spec input pubs t n (g : S) :
    match split_input_shamir hex_uint from_str input pubs t n g with
    | Done ms => (forall name j, In (name, j) input -> readable hex_uint from_str j) /\ length ms = n /\
        exists m, sorted m /\ (forall k v, has m k v <-> input_entry hex_uint from_str pubs input k v) /\
          (forall i, i < n -> map fst (nth i ms []) = map fst m) /\
          (forall k v, has m k (Pub v) -> forall i, i < n -> has (nth i ms []) k (IPub v)) /\
          (forall k v, has m k (Sh v) -> exists s, (forall i, i < n -> has (nth i ms []) k (IShared (s i))) /\ sharing n t s v)
    | Failed _ => exists name j, In (name, j) input /\ ~ readable hex_uint from_str j
    end.
  Proof.
    pose proof (ssplit_joint hex_uint from_str n t input pubs g) as K. pose proof (tsplit_spec hex_uint from_str input pubs sorted_nil) as T.
    destruct (tsplit hex_uint from_str input pubs []) as [m|e] eqn:E; [|now rewrite K].
    destruct K as (js & -> & -> & G). destruct (split_tagged _ _ _ _ E) as (S1 & I1 & R1). split; [exact R1|].
    split; [unfold pms; now rewrite map_length, seq_length|]. exists (tm js). split; [exact S1|]. split; [exact I1|].
    assert (Ni : forall i, i < n -> nth i (pms n js) [] = pm i js) by (intros i Hi; unfold pms; now rewrite (nth_map_seq (fun i => pm i js)) by exact Hi).
    assert (Gk : forall k x, assoc k js = Some x -> reln n t (fst x) (snd x)).
    { intros k x Ek. apply assoc_In in Ek. exact (proj1 (Forall_forall _ _) G _ Ek). }
    split; [intros i Hi; rewrite (Ni i Hi); unfold pm, tm; rewrite !map_map; reflexivity|].
    split; intros k v Hk; unfold has in Hk; rewrite tm_assoc in Hk; destruct (assoc k js) as [[x a]|] eqn:Ea; cbn in Hk; try discriminate; injection Hk as ->; pose proof (Gk _ _ Ea) as R; cbn in R.
    - intros i Hi. rewrite (Ni i Hi). unfold has. rewrite pm_assoc, Ea. cbn. now rewrite R.
    - destruct R as (s & Es & Hs). exists s. split; [|exact Hs]. intros i Hi. rewrite (Ni i Hi). unfold has. rewrite pm_assoc, Ea. cbn. now rewrite Es.
  Qed.
End SplitSpec.

(** ** Splitting, merging and witness generation *)
Section GenerateOk.
  Context {F : Type} `{FU : FieldUint F} {S M : Type} (W : nat) (du : nat -> S -> N * S) {DF : Draw S F}.
  Context {Seed : Type} {SS : Seeded S Seed} {DS : Draw S Seed}.
  Context {EN : Enc M (list N)} {ENN : Enc M (list (N * N))}
          {EL : Enc M (list (list N))} {ELL : Enc M (list (list N * list N))} {EF : Enc M (list F)}.
  Context (hash : N -> N -> N) (gtweak : N -> N) (otweak : N -> bool -> N).
  Context {Dg : Type} {ED : Enc M (list Dg)} (digest : list N -> Dg) (dg_eqb : Dg -> Dg -> bool).
  Context (draw_label draw_delta : S -> N * S) (fsqrt : F -> option F) (rgof : pid -> rst S -> S) (t : a2b_type).
  Context (dg_eqb_spec : forall x y, dg_eqb x y = true <-> x = y).
  Context (cap : nat) (cap_pos : (1 <= cap)%nat) (p_odd : N.odd (fu_p (F := F)) = true) (width : (mbs F + 2 <= W)%nat).
  Context (delta_odd : forall s, color (fst (draw_delta s)) = true).
  Context (hash_sep : forall d z n, color d = true -> hash z (otweak n false) <> hash (N.lxor z d) (otweak n false)).
  Context (fsqrt_root : forall z w, fsqrt z = Some w -> rmul w w = z).
  Context (fsqrt_none : forall z, fsqrt z = None -> forall w, rmul w w <> z).
  Context (d : pid -> dst (S := S)) (Hd : synced2 d).
  Context (hex_uint : string -> option N) (from_str : string -> option F) (pubs : list string).
  Lemma generate_wpo ps fuel (cs : list (list (string * json) * S)) mss :
    Forall2 (fun c ms => split_input hex_uint from_str (fst c) pubs (snd c) = Done ms) cs mss ->
    (forall c name j, In c cs -> In (name, j) (fst c) -> In (orig_name name) pubs -> In name pubs) ->
    harmony hex_uint from_str pubs cs ->
    exists m ins, (forall i, merge_input_shares (map (fun ms => ms i) mss) pubs = Done (m i)) /\
      sorted ins /\ (forall k v, has ins k v <-> exists c, In c cs /\ input_entry hex_uint from_str pubs (fst c) k v) /\
      (run_ideal fsqrt (ideal_run ps fuel (tcount ins) ins) <> Failed undef ->
       all_end cap (fun i => generate_witness_rep3 (M := M) (Seed := Seed) W du hash gtweak otweak digest dg_eqb draw_label draw_delta fsqrt rgof t ps fuel i (d i) (m i))
         (drv_post witness_of (run_may fsqrt (ideal_run ps fuel (tcount ins) ins)) (run_ideal fsqrt (ideal_run ps fuel (tcount ins) ins)))).
  Proof.
    intros H1 H2 H3. destruct (merge_contributors hex_uint from_str pubs H1 H2) as [[_ (m & ins & Em & R & So & I1 & C)]|[Nh _]]; [|contradiction].
    exists m, ins. split; [exact Em|]. split; [exact So|]. split; [exact I1|]. intros U. apply wpo_all_end.
    eapply wpo_ext; [intros i; unfold generate_witness_rep3; rewrite (C i); reflexivity|].
    exact (rep3_run_wpo du hash gtweak otweak digest dg_eqb draw_label draw_delta fsqrt rgof t dg_eqb_spec cap_pos p_odd width delta_odd hash_sep fsqrt_root fsqrt_none ps fuel (tcount ins) Hd R U).
  Qed.
End GenerateOk.
