(** * Proofs for the front end of co-circom: inputs and merging *)
From Coq Require Import String List Arith NArith Lia Bool Ascii DecimalString DecimalNat.
From Verif Require Import Proc Alg Rep3Net Rep3 Rep3Spec Rep3Proofs Conv NNet Shamir ShamirSpec ShamirDeal VmDriver VmIdeal VmDriverWp Vm VmRun VmSpec Circom CircomSpec.
Import ListNotations.
Set Implicit Arguments.
Local Open Scope grp_scope.
Local Open Scope string_scope.
Local Open Scope list_scope.

(** ** Strings *)
Lemma ascii_compare_refl a : Ascii.compare a a = Eq.
Proof. unfold Ascii.compare. apply N.compare_refl. Qed.
Lemma compare_refl s : String.compare s s = Eq.
Proof. induction s; cbn; [reflexivity|]. now rewrite ascii_compare_refl. Qed.
Lemma compare_eq a b : String.compare a b = Eq <-> a = b.
Proof. split; [apply String.compare_eq_iff|intros ->; apply compare_refl]. Qed.
Definition slt (a b : string) : Prop := String.compare a b = Lt.
Lemma slt_trans a b c : slt a b -> slt b c -> slt a c.
Proof.
  unfold slt. revert b c. induction a as [|x a IH]; intros [|y b] [|z c]; cbn; try congruence.
  unfold Ascii.compare. destruct (N.compare_spec (N_of_ascii x) (N_of_ascii y)) as [E|E|E]; try discriminate;
  destruct (N.compare_spec (N_of_ascii y) (N_of_ascii z)) as [E'|E'|E']; try discriminate; intros H1 H2;
  destruct (N.compare_spec (N_of_ascii x) (N_of_ascii z)) as [E''|E''|E'']; try lia; try reflexivity. eapply IH; eauto.
Qed.
Lemma slt_irrefl a : ~ slt a a.
Proof. unfold slt. rewrite compare_refl. discriminate. Qed.
Lemma compare_gt a b : String.compare a b = Gt <-> slt b a.
Proof. unfold slt. rewrite (String.compare_antisym a b). destruct (String.compare b a); cbn; split; congruence. Qed.

Lemma app_assoc_s (a b c : string) : ((a ++ b) ++ c = a ++ (b ++ c))%string.
Proof. induction a; cbn; congruence. Qed.
Lemma prefix_app p h : String.prefix p (p ++ h)%string = true.
Proof. induction p as [|c p IH]; cbn; [now destruct h|]. now rewrite IH; destruct (ascii_dec c c). Qed.
Lemma prefix_inv p s : String.prefix p s = true -> exists h, s = (p ++ h)%string.
Proof.
  revert s. induction p as [|c p IH]; intros s E; [now exists s|]. destruct s as [|d s]; [discriminate|]. cbn in E.
  destruct (ascii_dec c d) as [->|]; [|discriminate]. destruct (IH _ E) as (h & ->). now exists h.
Qed.
Lemma substring_app p h : substring (String.length p) (String.length h) (p ++ h)%string = h.
Proof. induction p as [|c p IH]; cbn; [|exact IH]. induction h as [|c h IH]; cbn; [reflexivity|]. now rewrite IH. Qed.
Lemma length_app_s a b : String.length (a ++ b)%string = (String.length a + String.length b)%nat.
Proof. induction a; cbn; congruence. Qed.
Lemma strip_app p h : strip_prefix p (p ++ h) = Some h.
Proof. unfold strip_prefix. rewrite prefix_app, length_app_s, Nat.add_comm, Nat.add_sub. f_equal. apply substring_app. Qed.
Lemma strip_some p s h : strip_prefix p s = Some h <-> s = (p ++ h)%string.
Proof.
  split; [|intros ->; apply strip_app]. intros E. assert (K := E). unfold strip_prefix in K. destruct (String.prefix p s) eqn:E'; [|discriminate].
  destruct (prefix_inv _ _ E') as (h' & ->). rewrite strip_app in E. now injection E as ->.
Qed.
Lemma strip_none p s : strip_prefix p s = None <-> forall h, s <> (p ++ h)%string.
Proof.
  destruct (strip_prefix p s) as [h|] eqn:E.
  - apply strip_some in E. split; [discriminate|]. intros K. now destruct (K h).
  - split; [|reflexivity]. intros _ h ->. now rewrite strip_app in E.
Qed.

(** [orig_name] *)
Lemma orig_name_app a b : orig_name (a ++ "[" ++ b)%string = orig_name a.
Proof. induction a as [|c a IH]; cbn; [reflexivity|]. destruct (Ascii.eqb c "["); [reflexivity|]. cbn in IH. now rewrite IH. Qed.
Lemma contains_In l k : contains l k = true <-> In k l.
Proof.
  unfold contains. rewrite existsb_exists. split; [intros (x & I & E); apply String.eqb_eq in E; now subst|].
  intros I. exists k. split; [exact I|apply String.eqb_refl].
Qed.
Lemma contains_not l k : contains l k = false <-> ~ In k l.
Proof. rewrite <- contains_In. destruct (contains l k); split; congruence. Qed.

(** ** Maps *)
Section Maps.
  Context {V : Type}.
  Notation m_t := (list (string * V)).
  Lemma assoc_binsert k v (m : m_t) k' : assoc k' (binsert k v m) = if String.eqb k' k then Some v else assoc k' m.
  Proof.
    induction m as [|[k0 v0] m IH]; cbn; [reflexivity|]. destruct (String.compare k k0) eqn:E; cbn.
    - apply compare_eq in E as ->. destruct (String.eqb k' k0); reflexivity.
    - reflexivity.
    - rewrite IH. destruct (String.eqb_spec k' k0) as [->|]; [|reflexivity].
      destruct (String.eqb_spec k0 k) as [->|]; [|reflexivity]. now rewrite compare_refl in E.
  Qed.
  (** sorted by key *)
  Inductive sorted : m_t -> Prop :=
  | sorted_nil : sorted []
  | sorted_cons k v m : sorted m -> (forall k' v', In (k', v') m -> slt k k') -> sorted ((k, v) :: m).
  Lemma In_binsert k v (m : m_t) e : In e (binsert k v m) -> e = (k, v) \/ In e m.
  Proof.
    induction m as [|[k0 v0] m IH]; cbn; [intuition|]. destruct (String.compare k k0); cbn; intuition.
  Qed.
  Lemma binsert_sorted k v m : sorted m -> sorted (binsert k v m).
  Proof.
    induction 1 as [|k0 v0 m Hm IH Hlt]; cbn; [repeat constructor; intros ? ? []|]. destruct (String.compare k k0) eqn:E.
    - apply compare_eq in E as ->. constructor; assumption.
    - constructor; [now constructor|]. intros k' v' [K|K]; [now injection K as -> ->|]. eapply slt_trans; [exact E|]. eapply Hlt; exact K.
    - constructor; [exact IH|]. intros k' v' K. apply In_binsert in K as [K|K]; [injection K as -> ->; now apply compare_gt|]. eapply Hlt; exact K.
  Qed.
  Lemma sorted_NoDup m : sorted m -> NoDup (map fst m).
  Proof.
    induction 1 as [|k v m Hm IH Hlt]; cbn; constructor; [|exact IH]. rewrite in_map_iff. intros ((k', v') & E & I). cbn in E. subst k'.
    exact (slt_irrefl (Hlt _ _ I)).
  Qed.
  Lemma assoc_In k v (m : m_t) : assoc k m = Some v -> In (k, v) m.
  Proof. induction m as [|[k0 v0] m IH]; cbn; [discriminate|]. destruct (String.eqb_spec k k0) as [->|]; [intros E; injection E as ->; now left|right; auto]. Qed.
  Lemma In_assoc k v (m : m_t) : NoDup (map fst m) -> In (k, v) m -> assoc k m = Some v.
  Proof.
    induction m as [|[k0 v0] m IH]; cbn; [easy|]. intros ND [E|I].
    - injection E as -> ->. now rewrite String.eqb_refl.
    - inversion ND; subst. destruct (String.eqb_spec k k0) as [->|]; [|now apply IH]. exfalso. apply H1. apply in_map_iff. now exists (k0, v).
  Qed.
  Lemma collect_assoc k (l m : m_t) : NoDup (map fst l) ->
    assoc k (fold_left (fun m e => binsert (fst e) (snd e) m) l m) = match assoc k l with Some v => Some v | None => assoc k m end.
  Proof.
    revert m. induction l as [|[k0 v0] l IH]; intros m ND; [reflexivity|]. inversion ND; subst. cbn [fold_left fst snd]. rewrite IH by assumption.
    rewrite assoc_binsert. cbn [assoc]. destruct (String.eqb_spec k k0) as [->|]; [|reflexivity].
    destruct (assoc k0 l) as [v|] eqn:E; [|reflexivity]. exfalso. apply H1. apply in_map_iff. exists (k0, v). split; [reflexivity|now apply assoc_In].
  Qed.
  Lemma bcollect_sorted (l m : m_t) : sorted m -> sorted (fold_left (fun m e => binsert (fst e) (snd e) m) l m).
  Proof. revert m. induction l as [|e l IH]; intros m Hm; [exact Hm|]. apply IH, binsert_sorted, Hm. Qed.
End Maps.
Lemma binsert_map {V W} (f : V -> W) k v m : binsert k (f v) (map (on_snd f) m) = map (on_snd f) (binsert k v m).
Proof. induction m as [|[k0 v0] m IH]; cbn; [reflexivity|]. destruct (String.compare k k0); cbn; [reflexivity..|]. now rewrite IH. Qed.
Lemma assoc_map {V W} (f : V -> W) k m : assoc k (map (on_snd f) m) = option_map f (assoc k m).
Proof. induction m as [|[k0 v0] m IH]; cbn; [reflexivity|]. destruct (String.eqb k k0); [reflexivity|exact IH]. Qed.
Lemma sorted_map {V W} (f : V -> W) m : sorted m -> sorted (map (on_snd f) m).
Proof.
  induction 1 as [|k v m Hm IH Hlt]; cbn; constructor; [exact IH|]. intros k' v' I. apply in_map_iff in I as ([a b] & E & I). injection E as <- <-. eapply Hlt; exact I.
Qed.

(** ** Reading values *)
Section Json.
  Variable P : json -> Prop.
  Hypothesis (HB : forall b, P (JBool b)) (HS : forall s, P (JStr s)) (HO : P JOther) (HA : forall l, Forall P l -> P (JArr l)).
  Fixpoint json_ind2 (j : json) : P j :=
    match j with
    | JBool b => HB b | JStr s => HS s | JOther => HO
    | JArr l => HA ((fix go (l : list json) : Forall P l := match l with [] => Forall_nil P | e :: l => Forall_cons e (json_ind2 e) (go l) end) l)
    end.
End Json.

Section Inputs.
  Context {F : Type} `{FU : FieldUint F} (hex_uint : string -> option N) (from_str : string -> option F).
  Notation parse_field := (parse_field hex_uint from_str).
  Notation parse_element := (parse_element hex_uint from_str).
  Notation parsed_vals := (parsed_vals hex_uint from_str).
  Notation number := (number hex_uint from_str).
  Notation magnitude := (magnitude hex_uint from_str).
  Notation entry := (entry hex_uint from_str).
  Notation readable := (readable hex_uint from_str).

  Lemma reduce n : (if (fu_p (F := F) <=? n)%N then n mod fu_p (F := F) else n)%N = (n mod fu_p (F := F))%N.
  Proof.
    destruct (N.leb_spec (fu_p (F := F)) n); [reflexivity|]. symmetry. apply N.mod_small. exact H0.
  Qed.
  Lemma magnitude_det s v w : magnitude s v -> magnitude s w -> v = w.
  Proof.
    intros [(h & n & -> & E & ->)|[N1 E]] [(h' & n' & E2 & E' & ->)|[N2 E']].
    - apply strip_some in E2. rewrite strip_app in E2. injection E2 as <-. congruence.
    - now destruct (N2 h).
    - now destruct (N1 h').
    - congruence.
  Qed.
  Lemma parse_magnitude s : match (match strip_prefix "0x" s with
          | Some t => match hex_uint t with
                      | Some n => Done (of_uint (if (fu_p (F := F) <=? n)%N then n mod fu_p (F := F) else n)%N)
                      | None => Failed bad_field
                      end
          | None => match from_str s with Some v => Done v | None => Failed bad_field end
          end) with Done v => magnitude s v | Failed _ => forall v, ~ magnitude s v end.
  Proof.
    destruct (strip_prefix "0x" s) as [t|] eqn:E.
    - apply strip_some in E as ->. destruct (hex_uint t) as [n|] eqn:E; [left; exists t, n; rewrite reduce; auto|].
      intros v [(h & n & Eh & E' & _)|[N _]]; [|now apply (N t)]. apply strip_some in Eh. rewrite strip_app in Eh. injection Eh as <-. congruence.
    - assert (N := proj1 (strip_none _ _) E). destruct (from_str s) as [v|] eqn:Ev; [right; auto|].
      intros v [(h & n & -> & _)|[_ E']]; [now apply (N h)|congruence].
  Qed.
  Lemma parse_field_str s : match parse_field (JStr s) with Done v => number s v | Failed _ => forall v, ~ number s v end.
  Proof.
    unfold Circom.parse_field. destruct (strip_prefix "-" s) as [t|] eqn:E; cbn [fst snd].
    - apply strip_some in E as ->. pose proof (parse_magnitude t) as K. destruct (match strip_prefix "0x" t with Some _ => _ | None => _ end) as [v|e]; cbn [obind].
      + left. exists t, v. auto.
      + intros v [(m & w & E & Hm & _)|[N _]]; [|now apply (N t)]. apply strip_some in E. rewrite strip_app in E. injection E as <-. now apply (K w).
    - assert (N := proj1 (strip_none _ _) E). pose proof (parse_magnitude s) as K. destruct (match strip_prefix "0x" s with Some _ => _ | None => _ end) as [v|e]; cbn [obind].
      + right. auto.
      + intros v [(m & w & -> & _)|[_ Hm]]; [now apply (N m)|now apply (K v)].
  Qed.
  Lemma number_det s v w : number s v -> number s w -> v = w.
  Proof.
    intros [(m & a & -> & A & ->)|[N1 A]] [(m' & a' & E2 & A' & ->)|[N2 A']].
    - apply strip_some in E2. rewrite strip_app in E2. injection E2 as <-. now rewrite (magnitude_det A A').
    - now destruct (N2 m).
    - now destruct (N1 m').
    - exact (magnitude_det A A').
  Qed.
  (** a scalar of an array *)
  Definition leaf_is (s : json) (o : option F) : Prop :=
    match o with
    | None => s = JStr "?"
    | Some v => s <> JStr "?" /\ match s with JBool b => v = if b then rone else 0 | JStr s => number s v | _ => False end
    end.
  Definition leaf_readable (s : json) : Prop := s = JStr "?" \/ match s with JBool _ => True | JStr s => exists v, number s v | _ => False end.
  Lemma leaf_is_readable s o : leaf_is s o -> leaf_readable s.
  Proof. destruct o as [v|]; [intros [_ K]; right|intros ->; now left]. destruct s; auto. now exists v. Qed.
  Lemma parse_element_spec j : match parse_element j with
    | Done r => Forall2 leaf_is (leaves j) r
    | Failed _ => exists s, In s (leaves j) /\ ~ leaf_readable s
    end.
  Proof.
    induction j as [b|s| |l IH] using json_ind2.
    - repeat constructor. discriminate.
    - cbn [Circom.parse_element leaves]. destruct (String.eqb_spec s "?") as [->|Ns]; [repeat constructor|].
      pose proof (parse_field_str s) as K. destruct (parse_field (JStr s)) as [v|e]; cbn [obind].
      + constructor; [|constructor]. split; [congruence|exact K].
      + exists (JStr s). split; [now left|]. intros [E|[v Hv]]; [congruence|now apply (K v)].
    - cbn. exists JOther. split; [now left|]. intros [E|[]]. discriminate.
    - cbn [Circom.parse_element leaves]. induction IH as [|e l He Hl IHl]; [constructor|]. cbn [flat_map].
      destruct (parse_element e) as [x|err]; cbn [obind].
      + destruct ((fix go l := match l with [] => _ | _ :: _ => _ end) l) as [r|err]; cbn [obind].
        * now apply Forall2_app.
        * destruct IHl as (s & I & N). exists s. split; [apply in_or_app; now right|exact N].
      + destruct He as (s & I & N). exists s. split; [apply in_or_app; now left|exact N].
  Qed.
  (** names of the elements of an array *)
  Lemma app_inj_s a b c : (a ++ b = a ++ c)%string -> b = c.
  Proof. induction a as [|x a IH]; cbn; [auto|]. intros E. injection E as E. auto. Qed.
  Lemma app_inj_r a b c : (a ++ c = b ++ c)%string -> a = b.
  Proof.
    revert b. induction a as [|x a IH]; intros [|y b] E; [reflexivity|..].
    - apply (f_equal String.length) in E. rewrite !length_app_s in E. cbn in E. lia.
    - apply (f_equal String.length) in E. rewrite !length_app_s in E. cbn in E. lia.
    - cbn in E. injection E as -> E. f_equal. now apply IH.
  Qed.
  Lemma dec_string_inj i j : dec_string i = dec_string j -> i = j.
  Proof.
    unfold dec_string. intros E. apply DecimalNat.Unsigned.to_uint_inj. apply (f_equal NilEmpty.uint_of_string) in E. rewrite !NilEmpty.usu in E. now injection E as E.
  Qed.
  Lemma idx_name_inj name i j : idx_name name i = idx_name name j -> i = j.
  Proof.
    unfold idx_name. intros E. apply app_inj_s in E. cbn in E. injection E as E. apply app_inj_r in E. now apply dec_string_inj.
  Qed.
  Lemma In_name_entries name i (l : list (option F)) k v : In (k, v) (name_entries name i l) <->
    exists n, nth_error l n = Some (Some v) /\ k = idx_name name (i + n).
  Proof.
    revert i. induction l as [|[w|] l IH]; intros i; cbn [name_entries].
    - split; [easy|intros ([|n] & E & _); discriminate].
    - cbn [In]. rewrite IH. split.
      + intros [E|(n & E & ->)]; [injection E as <- <-; exists O; rewrite Nat.add_0_r; auto|]. exists (Datatypes.S n). split; [exact E|f_equal; lia].
      + intros ([|n] & E & ->); [injection E as ->; left; now rewrite Nat.add_0_r|right; exists n]. split; [exact E|f_equal; lia].
    - rewrite IH. split.
      + intros (n & E & ->). exists (Datatypes.S n). split; [exact E|f_equal; lia].
      + intros ([|n] & E & ->); [discriminate|]. exists n. split; [exact E|f_equal; lia].
  Qed.
  Lemma name_entries_NoDup name (l : list (option F)) : forall i, NoDup (map fst (name_entries name i l)).
  Proof.
    induction l as [|[w|] l IH]; intros i; cbn [name_entries map fst]; [constructor| |apply IH]. constructor; [|apply IH].
    rewrite in_map_iff. intros ((k & v) & E & I). cbn in E. apply In_name_entries in I as (n & _ & ->). apply idx_name_inj in E. lia.
  Qed.
  Lemma parsed_vals_spec name j : match parsed_vals name j with
    | Done es => NoDup (map fst es) /\ forall k v, In (k, v) es <-> entry name j k v
    | Failed _ => ~ readable j
    end.
  Proof.
    destruct j as [b|s|l|]; cbn [Circom.parsed_vals].
    - split; [repeat constructor; intros []|]. intros k v. cbn. split; [intros [E|[]]; injection E as <- <-; auto|intros [-> ->]; now left].
    - pose proof (parse_field_str s) as K. destruct (parse_field (JStr s)) as [v|e]; cbn [obind].
      + split; [repeat constructor; intros []|]. intros k w. cbn. split; [intros [E|[]]; injection E as <- <-; auto|intros [-> Hw]; left; now rewrite (number_det Hw K)].
      + intros [v Hv]. now apply (K v).
    - unfold Circom.parse_array. pose proof (parse_element_spec (JArr l)) as K. destruct (parse_element (JArr l)) as [fs|e]; cbn [obind].
      + split; [apply sorted_NoDup, bcollect_sorted; constructor|]. intros k v.
        assert (E : In (k, v) (bcollect (name_entries name 0 fs)) <-> In (k, v) (name_entries name 0 fs)).
        { unfold bcollect. split; intros I.
          - apply In_assoc in I; [|apply sorted_NoDup, bcollect_sorted; constructor]. rewrite collect_assoc in I by apply name_entries_NoDup. cbn in I.
            destruct (assoc k (name_entries name 0 fs)) eqn:E; [|discriminate]. injection I as ->. now apply assoc_In.
          - apply assoc_In. rewrite collect_assoc by apply name_entries_NoDup. erewrite In_assoc; [reflexivity|apply name_entries_NoDup|exact I]. }
        rewrite E, In_name_entries. cbn [Nat.add]. unfold CircomSpec.entry. split.
        * intros (n & En & ->). assert (K2 : exists s, nth_error (leaves (JArr l)) n = Some s /\ leaf_is s (Some v)).
          { clear E. revert n En. induction K as [|s o ls os Ho _ IH]; intros [|n] En; try discriminate; [injection En as ->; now exists s|exact (IH n En)]. }
          destruct K2 as (s & Es & N & Hs). exists n, s. auto.
        * intros (n & s & Es & N & -> & Hs). assert (K2 : exists o, nth_error fs n = Some o /\ leaf_is s o).
          { clear E. revert n Es. induction K as [|s' o ls os Ho _ IH]; intros [|n] Es; try discriminate; [injection Es as ->; now exists o|exact (IH n Es)]. }
          destruct K2 as ([w|] & Eo & Ho); [|contradiction]. exists n. split; [|reflexivity]. rewrite Eo. destruct Ho as [_ Ho]. destruct s; try contradiction; [now rewrite Hs, Ho|now rewrite (number_det Hs Ho)].
      + intros R. destruct K as (s & I & N). apply N. exact (R s I).
    - intros [].
  Qed.
  Lemma readable_ok name j : readable j -> exists es, parsed_vals name j = Done es.
  Proof. intros R. pose proof (parsed_vals_spec name j) as K. destruct (parsed_vals name j) as [es|e]; [now exists es|contradiction]. Qed.
  Lemma parsed_readable name j es : parsed_vals name j = Done es -> readable j.
  Proof.
    destruct j as [b|s|l|]; cbn [Circom.parsed_vals CircomSpec.readable]; [easy|..].
    - pose proof (parse_field_str s) as K. destruct (parse_field (JStr s)) as [v|e]; [intros _; now exists v|discriminate].
    - unfold Circom.parse_array. pose proof (parse_element_spec (JArr l)) as K. destruct (parse_element (JArr l)) as [fs|e]; [intros _|discriminate].
      intros s I. induction K as [|s' o ls os Ho _ IH]; [easy|]. destruct I as [<-|I]; [exact (leaf_is_readable _ _ Ho)|exact (IH I)].
    - discriminate.
  Qed.
End Inputs.
