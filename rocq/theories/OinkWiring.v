(** * The wiring of the circuit: the products of all cells with their positions and with their images agree (C78) *)
From Coq Require Import String List Arith Lia Bool Ring Permutation.
From Verif Require Import Proc Alg NNet Rep3 ShamirPoly Shamir ShamirAlg Univariate Sumcheck HonkSpec Oink.
Import ListNotations.
Set Implicit Arguments.
Local Open Scope grp_scope.
Local Open Scope list_scope.

Section Wiring.
  Context {F : Type} {FF : Fld F}.
  Add Ring FringOW : (@cring_theory F _).
  Infix "*" := rmul : grp_scope.
  Notation "1" := rone : grp_scope.

  (** ** Products over lists *)
  Fixpoint prodl {A} (f : A -> F) (l : list A) : F := match l with [] => 1 | a :: l => f a * prodl f l end.
  Lemma prodl_app A (f : A -> F) l l' : prodl f (l ++ l') = prodl f l * prodl f l'.
  Proof. induction l as [|a l IH]; cbn [app prodl]; [ring|rewrite IH; ring]. Qed.
  Lemma prodl_map A B (f : B -> F) (g : A -> B) l : prodl f (map g l) = prodl (fun a => f (g a)) l.
  Proof. induction l as [|a l IH]; cbn [map prodl]; [reflexivity|rewrite IH; reflexivity]. Qed.
  Lemma prodl_ext A (f g : A -> F) l : (forall a, In a l -> f a = g a) -> prodl f l = prodl g l.
  Proof. induction l as [|a l IH]; cbn [prodl]; intros H; [reflexivity|]. rewrite (H a), IH by (try (left; reflexivity); intros b Hb; apply H; right; exact Hb). reflexivity. Qed.
  Lemma prodl_perm A (f : A -> F) l l' : Permutation l l' -> prodl f l = prodl f l'.
  Proof. induction 1; cbn [prodl]; [reflexivity|rewrite IHPermutation; reflexivity|ring|rewrite IHPermutation1; exact IHPermutation2]. Qed.
  Lemma prodl_mul A (f g : A -> F) l : prodl (fun a => f a * g a) l = prodl f l * prodl g l.
  Proof. induction l as [|a l IH]; cbn [prodl]; [ring|rewrite IH; ring]. Qed.
  Lemma prodl_one A (f : A -> F) l : (forall a, In a l -> f a = 1) -> prodl f l = 1.
  Proof. intros H. rewrite (@prodl_ext A f (fun _ => 1) l H). clear H. induction l as [|a l IH]; cbn [prodl]; [reflexivity|rewrite IH; ring]. Qed.
  Lemma prodl_flat A B (f : B -> F) (g : A -> list B) l : prodl f (flat_map g l) = prodl (fun a => prodl f (g a)) l.
  Proof. induction l as [|a l IH]; cbn [flat_map prodl]; [reflexivity|rewrite prodl_app, IH; reflexivity]. Qed.
  Lemma prodl_seq (f : nat -> F) n : prodl f (seq 0 n) = prod n f.
  Proof. induction n as [|n IH]; [reflexivity|]. rewrite seq_S, prodl_app, IH. cbn [prodl prod]. change (0 + n)%nat with n. ring. Qed.
  (** only one element of a list without repetitions differs *)
  Lemma prodl_change A (f g : A -> F) p : forall l, NoDup l -> In p l -> (forall q, q <> p -> f q = g q) -> prodl g l * f p = prodl f l * g p.
  Proof.
    induction l as [|a l IH]; intros ND I H; [destruct I|]. inversion ND as [|? ? Na ND']; subst. cbn [prodl]. destruct I as [->|I].
    - rewrite (@prodl_ext A f g l); [ring|]. intros b Hb. apply H. intros ->. contradiction.
    - rewrite (H a) by (intros ->; contradiction). transitivity (g a * (prodl g l * f p)); [ring|]. rewrite (IH ND' I H). ring.
  Qed.
  (** grouped by a key *)
  Lemma prodl_group (f : nat * node -> F) nv : forall cs, (forall c, In c cs -> fst c < nv) ->
    prodl f cs = prodl (fun v => prodl f (filter (fun c => (v =? fst c)%nat) cs)) (seq 0 nv).
  Proof.
    induction cs as [|c cs IH]; intros H.
    - cbn [filter prodl]. symmetry. apply prodl_one. reflexivity.
    - cbn [prodl]. rewrite IH by (intros d Hd; apply H; right; exact Hd).
      set (P := fun v => prodl f (filter (fun c0 => (v =? fst c0)%nat) cs)).
      transitivity (prodl (fun v => (if (v =? fst c)%nat then f c else 1) * P v) (seq 0 nv)).
      + rewrite prodl_mul. f_equal. rewrite prodl_seq. specialize (H c (or_introl eq_refl)). clear - H.
        revert H. induction nv as [|n IH]; intros H; [lia|]. cbn [prod]. destruct (Nat.eqb_spec n (fst c)) as [->|N].
        * replace (prod (fst c) (fun v => if (v =? fst c)%nat then f c else 1)) with (1 : F); [ring|].
          symmetry. rewrite <- prodl_seq. apply prodl_one. intros a Ha. apply in_seq in Ha. destruct (Nat.eqb_spec a (fst c)); [lia|reflexivity].
        * rewrite <- IH by lia. ring.
      + apply prodl_ext. intros v _. cbn [filter]. unfold P. destruct (v =? fst c)%nat; cbn [prodl]; ring.
  Qed.

  (** ** Nodes *)
  Lemma last_cons (A : Type) : forall (l : list A) a d, List.last (a :: l) d = List.last l a.
  Proof. induction l as [|b l IH]; intros a d; [reflexivity|]. change (List.last (b :: l) d = List.last (b :: l) a). rewrite (IH b d), (IH b a). reflexivity. Qed.
  Lemma last_in (A : Type) : forall (c : list A) q, In (List.last c q) (q :: c).
  Proof. induction c as [|a c IH]; intros q; [left; reflexivity|]. right. rewrite last_cons. apply IH. Qed.
  Lemma node_eqb_spec p q : reflect (p = q) (node_eqb p q).
  Proof.
    destruct p as [a b], q as [c d]. unfold node_eqb. cbn [fst snd]. destruct (Nat.eqb_spec a c) as [->|N]; cbn [andb].
    - destruct (Nat.eqb_spec b d) as [->|N]; constructor; congruence.
    - constructor. congruence.
  Qed.
  Lemma set_same m p e : set_map m p e p = e.
  Proof. unfold set_map. destruct (node_eqb_spec p p); congruence. Qed.
  Lemma set_other m p e q : p <> q -> set_map m p e q = m q.
  Proof. intros N. unfold set_map. destruct (node_eqb_spec p q); congruence. Qed.

  (** ** Cycles *)
  Lemma cycles_filter cs : forall acc v, fold_left push cs acc v = acc v ++ map snd (filter (fun c => (v =? fst c)%nat) cs).
  Proof.
    induction cs as [|c cs IH]; intros acc v; cbn [fold_left filter]; [rewrite app_nil_r; reflexivity|].
    rewrite IH. unfold push. destruct (v =? fst c)%nat; [rewrite <- app_assoc; reflexivity|reflexivity].
  Qed.
  Lemma copy_cycles_filter cs v : copy_cycles cs v = map snd (filter (fun c => (v =? fst c)%nat) cs).
  Proof. unfold copy_cycles. rewrite cycles_filter. reflexivity. Qed.

  Variable sep : nat.
  Notation value := (elem_value (F := F) sep).
  (** the number of a cell, and of a tag *)
  Definition position (p : node) : F := fnat (snd p + sep * fst p).
  Definition tag_value (t : nat) : F := fnat (sep * 4 + t).

  Lemma link_other : forall c m q, ~ In q c -> link c m q = m q.
  Proof.
    induction c as [|p c IH]; intros m q N; [reflexivity|]. cbn [link]. destruct c as [|p' c]; [reflexivity|].
    rewrite IH by (intros I; apply N; right; exact I). apply set_other. intros ->. apply N. left. reflexivity.
  Qed.
  Lemma link_values : forall c p m, NoDup (p :: c) -> (forall x, In x (p :: c) -> x <> List.last c p -> el_pub (m x) = false /\ el_tag (m x) = false) ->
    map (fun x => value (link (p :: c) m x)) (p :: c) = map position c ++ [value (m (List.last c p))].
  Proof.
    induction c as [|q c IH]; intros p m ND H; [reflexivity|].
    set (m' := set_map m p {| el_row := snd q; el_col := fst q; el_pub := el_pub (m p); el_tag := el_tag (m p) |}).
    assert (E : link (p :: q :: c) m = link (q :: c) m') by reflexivity.
    inversion ND as [|? ? Np ND']; subst. rewrite E. clear E.
    assert (L : List.last (q :: c) p = List.last c q) by apply last_cons.
    assert (Lin : In (List.last c q) (q :: c)) by apply last_in.
    assert (Np' : p <> List.last c q) by (intros X; apply Np; rewrite X; exact Lin).
    cbn [map app]. rewrite link_other by exact Np. f_equal.
    - unfold m'. rewrite set_same. destruct (H p (or_introl eq_refl)) as [A B]; [rewrite L; exact Np'|]. unfold elem_value. cbn [el_pub el_tag el_row el_col]. rewrite A, B. reflexivity.
    - rewrite L. assert (IHm := IH q m' ND'). cbn [map] in IHm. rewrite IHm.
      + unfold m'. rewrite set_other by exact Np'. reflexivity.
      + intros x Ix Nx. unfold m'. rewrite set_other by (intros ->; contradiction). apply H; [right; exact Ix|rewrite L; exact Nx].
  Qed.


  Variables (tags tau : nat -> nat) (cycles : nat -> list node).
  (** the cells of a cycle are not touched by other cycles *)
  Lemma map_cycle_other m v p : ~ In p (cycles v) -> fst (map_cycle tags tau cycles m v) p = fst m p /\ snd (map_cycle tags tau cycles m v) p = snd m p.
  Proof.
    intros N. unfold map_cycle. destruct (cycles v) as [|a c] eqn:E; [split; reflexivity|]. destruct m as [sg id]. cbn [fst snd]. split.
    - rewrite link_other by exact N. apply set_other. intros <-. apply N, last_in.
    - apply set_other. intros <-. apply N. left. reflexivity.
  Qed.
  Lemma fold_other vs : forall m p, (forall v, In v vs -> ~ In p (cycles v)) ->
    fst (fold_left (map_cycle tags tau cycles) vs m) p = fst m p /\ snd (fold_left (map_cycle tags tau cycles) vs m) p = snd m p.
  Proof.
    induction vs as [|v vs IH]; intros m p H; [split; reflexivity|]. cbn [fold_left].
    destruct (IH (map_cycle tags tau cycles m v) p) as [A B]; [intros u Hu; apply H; right; exact Hu|].
    destruct (@map_cycle_other m v p) as [C D]; [apply H; left; reflexivity|]. split; congruence.
  Qed.
  (** the images of a cycle *)
  Definition new_on (m : mapping * mapping) (c : list node) : Prop := forall p, In p c -> fst m p = new_mapping p /\ snd m p = new_mapping p.
  Lemma map_cycle_own m v : NoDup (cycles v) -> new_on m (cycles v) ->
    map (fun p => value (fst (map_cycle tags tau cycles m v) p)) (cycles v) =
      match cycles v with [] => [] | _ :: c => map position c ++ [tag_value (tau (tags v))] end /\
    map (fun p => value (snd (map_cycle tags tau cycles m v) p)) (cycles v) =
      match cycles v with [] => [] | _ :: c => tag_value (tags v) :: map position c end.
  Proof.
    unfold map_cycle. destruct (cycles v) as [|a c] eqn:E; intros ND NW; [split; reflexivity|]. destruct m as [sg id]. cbn [fst snd]. split.
    - rewrite link_values.
      + rewrite set_same. destruct (NW (List.last c a) (last_in c a)) as [A _]. cbn [fst] in A. rewrite A. reflexivity.
      + exact ND.
      + intros x Ix Nx. rewrite set_other by congruence. destruct (NW x Ix) as [A _]. cbn [fst] in A. rewrite A. split; reflexivity.
    - cbn [map]. rewrite set_same. inversion ND as [|? ? Na ND']; subst. f_equal.
      + destruct (NW a (or_introl eq_refl)) as [_ B]. cbn [snd] in B. rewrite B. reflexivity.
      + apply map_ext_in. intros x Ix. rewrite set_other by (intros ->; contradiction). destruct (NW x (or_intror Ix)) as [_ B]. cbn [snd] in B. rewrite B. reflexivity.
  Qed.
  Lemma fold_own vs : forall m v, In v vs -> NoDup vs -> NoDup (cycles v) -> new_on m (cycles v) ->
    (forall u, In u vs -> u <> v -> forall p, In p (cycles v) -> ~ In p (cycles u)) ->
    map (fun p => value (fst (fold_left (map_cycle tags tau cycles) vs m) p)) (cycles v) =
      match cycles v with [] => [] | _ :: c => map position c ++ [tag_value (tau (tags v))] end /\
    map (fun p => value (snd (fold_left (map_cycle tags tau cycles) vs m) p)) (cycles v) =
      match cycles v with [] => [] | _ :: c => tag_value (tags v) :: map position c end.
  Proof.
    induction vs as [|u vs IH]; intros m v I NDv ND NW D; [destruct I|]. inversion NDv as [|? ? Nu NDv']; subst. cbn [fold_left].
    destruct (Nat.eq_dec u v) as [->|N].
    - destruct (@map_cycle_own m v ND NW) as [A B]. rewrite <- A, <- B. split; apply map_ext_in; intros p Ip;
        destruct (@fold_other vs (map_cycle tags tau cycles m v) p) as [X Y]; try (rewrite ?X, ?Y; reflexivity);
        intros w Iw; (apply D; [right; exact Iw|intros ->; contradiction|exact Ip]).
    - apply IH; [destruct I as [|I]; [contradiction|exact I]|exact NDv'|exact ND| |].
      + intros p Ip. destruct (@map_cycle_other m u p) as [A B]; [apply D; [left; reflexivity|exact N|exact Ip]|]. destruct (NW p Ip) as [C E]. split; congruence.
      + intros w Iw. apply D. right. exact Iw.
  Qed.
End Wiring.
