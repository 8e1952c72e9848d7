(** * Three parties running the coBrillig VM compute what the machine on tagged values computes *)
From Coq Require Import String List Arith NArith Lia Bool.
From Verif Require Import Proc Alg Rep3Net Rep3 Rep3Spec Rep3Proofs Rep3Wp Uint Binary BinaryWp Conv ConvWp CmpWp Ring2k Ring2kWp
  VmDriver VmIdeal Brillig BrilligSpec BrilligSound BrilligTag BrilligDriver BrilligOps.
Import ListNotations.
Set Implicit Arguments.
Local Open Scope grp_scope.
Local Open Scope list_scope.

Section Lists.
  Context {V : Type} (d : V).
  Lemma mset_length m : forall a v, length (mset d m a v) = Nat.max (length m) (a + 1).
  Proof.
    intros a. revert m. induction a as [|a IH]; intros [|x m] v.
    - reflexivity.
    - change (mset d (x :: m) 0 v) with (v :: m). cbn [length]. lia.
    - change (mset d [] (Datatypes.S a) v) with (d :: mset d [] a v). cbn [length]. rewrite IH. cbn [length]. lia.
    - change (mset d (x :: m) (Datatypes.S a) v) with (x :: mset d m a v). cbn [length]. rewrite IH. lia.
  Qed.
  Lemma over_length vs : forall m : list V, length (over vs m) = Nat.max (length m) (length vs).
  Proof. induction vs as [|v vs IH]; intros m; cbn [over length]; [lia|]. rewrite IH. destruct m; cbn [tl length]; lia. Qed.
  Lemma mslice_length m : forall a vs, length (mslice d m a vs) = Nat.max (length m) (a + length vs).
  Proof.
    intros a. revert m. induction a as [|a IH]; intros m vs.
    - replace (mslice d m 0 vs) with (over vs m) by (destruct m; reflexivity). rewrite over_length. reflexivity.
    - destruct m as [|x m].
      + change (mslice d [] (Datatypes.S a) vs) with (d :: mslice d [] a vs). cbn [length]. rewrite IH. cbn [length]. lia.
      + change (mslice d (x :: m) (Datatypes.S a) vs) with (x :: mslice d m a vs). cbn [length]. rewrite IH. lia.
  Qed.
  Lemma nth_firstn' n : forall (l : list V) k, nth k (firstn n l) d = if (k <? n)%nat then nth k l d else d.
  Proof.
    induction n as [|n IH]; intros [|x l] k.
    - destruct k; reflexivity.
    - destruct k; reflexivity.
    - cbn [firstn]. destruct (k <? Datatypes.S n)%nat; destruct k; reflexivity.
    - cbn [firstn]. destruct k as [|k]; [reflexivity|]. cbn [nth]. rewrite IH. reflexivity.
  Qed.
  Lemma nth_skipn' n : forall (l : list V) k, nth k (skipn n l) d = nth (n + k) l d.
  Proof. induction n as [|n IH]; intros [|x l] k; cbn [skipn Nat.add]; try reflexivity; [destruct k; reflexivity|]. rewrite IH. reflexivity. Qed.
  Lemma nth_map_seq (f : nat -> V) n k : nth k (map f (seq 0 n)) d = if (k <? n)%nat then f k else d.
  Proof.
    destruct (Nat.ltb_spec k n) as [L|L].
    - rewrite (nth_indep _ d (f 0%nat)) by (rewrite map_length, seq_length; exact L). rewrite map_nth, seq_nth by exact L. reflexivity.
    - apply nth_overflow. rewrite map_length, seq_length. exact L.
  Qed.
End Lists.

Section Sim.
  Context {F : Type} `{FU : FieldUint F} {S Seed M : Type} (dbg strict : bool) (W : nat) (du : nat -> S -> N * S).
  Context {DF : Draw S F} {DS : Draw S Seed} {SD : Seeded S Seed}.
  Context {EN : Enc M (list N)} {ENN : Enc M (list (N * N))}
          {EL : Enc M (list (list N))} {ELL : Enc M (list (list N * list N))} {EF : Enc M (list F)}.
  Context {RT : isz -> Type} {RC : forall s, CRing (RT s)} {RI : forall s, @IntRing (RT s) (RC s)}
          {RD : forall s, Draw S (RT s)} {RE : forall s, Enc M (list (RT s))}.
  Context (HK : forall s, rK (RT s) = ibits s).
  Context (Y : yao (F := F) (S := S) (M := M) (RT := RT)) (trng : pid -> nat -> bty -> bval F).
  Context (cap : nat) (cap_pos : (1 <= cap)%nat) (width : (mbs F + 2 <= W)%nat) (HY : yao_ok Y cap).
  Notation V := (bv (F := F) (RT := RT)).
  Notation St := (drst (S := S)).
  Notation D i := (rep3_bdriver (Seed := Seed) (EN := EN) (ENN := ENN) (EF := EF) (RE := RE) dbg W du Y trng i).
  Notation T := (tagged_driver (F := F) pid M dbg strict).
  Notation bs := (bst V St).
  Notation tst := (bst (tb F) unit).
  Notation trel := (trel (F := F) (RT := RT)).
  Notation dsync ds := (synced (fun i => fst (ds i))).

  (** ** Simulation *)
  Definition xpost {A B} (R : (pid -> A) -> B -> Prop) (t : outcome B) (o : pid -> outcome A) : Prop :=
    match t with
    | Done b => (exists r, (forall i, o i = Done (r i)) /\ R r b) \/ (strict = false /\ all_fail o)
    | Failed _ => all_fail o
    end.
  Definition osim {A B} (R : (pid -> A) -> B -> Prop) (o : pid -> outcome A) (t : outcome B) : Prop :=
    t <> Failed undef -> opost R t o.
  Definition sim {A B} (R : (pid -> A) -> B -> Prop) (ps : pid -> prog pid M A) (q : prog pid M B) : Prop :=
    pure_run q <> Failed undef -> wpo cap ps (xpost R (pure_run q)).
  Lemma pure_bind {A B} (q : prog pid M A) (f : A -> prog pid M B) :
    pure_run (bind q f) = match pure_run q with Done a => pure_run (f a) | Failed e => Failed e end.
  Proof. destruct q; reflexivity. Qed.
  Lemma opost_x {A B} (R : (pid -> A) -> B -> Prop) t o : opost R t o -> xpost R t o.
  Proof. destruct t; cbn; auto. Qed.
  Lemma sim_leaf {A B} (R : (pid -> A) -> B -> Prop) o t : osim R o t -> sim R (fun i => leaf (o i)) (leaf t).
  Proof. intros Ho Hd. rewrite pure_run_leaf in *. apply wpo_leaf, opost_x. exact (Ho Hd). Qed.
  Lemma sim_ret {A B} (R : (pid -> A) -> B -> Prop) a b : R a b -> sim R (fun i => Ret (a i)) (Ret b).
  Proof. intros HR _. apply wp_wpo, wp_ret. left. exists a. auto. Qed.
  Lemma sim_fail {A B} (R : (pid -> A) -> B -> Prop) e e' : sim R (fun i => Fail e) (Fail e').
  Proof. intros _. apply wpo_fail. intros i. eauto. Qed.
  Lemma sim_bind {A B A' B'} (R : (pid -> A) -> B -> Prop) (R' : (pid -> A') -> B' -> Prop) ps q ks k :
    sim R ps q -> (forall a b, R a b -> sim R' (fun i => ks i (a i)) (k b)) -> sim R' (fun i => bind (ps i) (ks i)) (bind q k).
  Proof.
    intros Hq Hk Hd. rewrite pure_bind in *. apply wpo_seq. eapply wpo_mono; [|apply Hq; destruct (pure_run q); congruence].
    intros o Ho. destruct (pure_run q) as [b|e]; cbn [xpost] in Ho.
    - destruct Ho as [(r & Ho & HR)|[E Ho]].
      + eapply wpo_ext with (qs := fun i => ks i (r i)); [intros i; rewrite Ho; reflexivity|]. exact (Hk r b HR Hd).
      + apply wpo_leaf_fail; [exact Ho|]. intros o' Ho'. destruct (pure_run (k b)); cbn [xpost]; auto.
    - apply wpo_leaf_fail; [exact Ho|]. auto.
  Qed.
  Lemma sim_ext {A B} (R : (pid -> A) -> B -> Prop) ps ps' q : (forall i, ps i = ps' i) -> sim R ps' q -> sim R ps q.
  Proof. intros E Hs Hd. eapply wpo_ext; [|exact (Hs Hd)]. exact E. Qed.
  Lemma osim_done {A B} (R : (pid -> A) -> B -> Prop) a b : R a b -> osim R (fun i => Done (a i)) (Done b).
  Proof. intros HR _. exists a. auto. Qed.
  Lemma osim_failed {A B} (R : (pid -> A) -> B -> Prop) e e' : osim R (fun i => Failed (e i)) (Failed e').
  Proof. intros _ i. eauto. Qed.
  Lemma osim_bind {A B A' B'} (R : (pid -> A) -> B -> Prop) (R' : (pid -> A') -> B' -> Prop) o t (ks : pid -> A -> outcome A') k :
    osim R o t -> (forall a b, R a b -> osim R' (fun i => ks i (a i)) (k b)) -> osim R' (fun i => obind (o i) (ks i)) (obind t k).
  Proof.
    intros Ho Hk Hd. destruct t as [b|e]; cbn [obind] in *.
    - destruct (Ho ltac:(discriminate)) as (r & Er & HR). specialize (Hk r b HR Hd).
      destruct (k b) as [c|e]; cbn [opost] in *.
      + destruct Hk as (r' & Er' & HR'). exists r'. split; [|exact HR']. intros i. rewrite Er. exact (Er' i).
      + intros i. rewrite Er. exact (Hk i).
    - intros i. destruct (Ho ltac:(congruence) i) as (e' & ->). cbn. eauto.
  Qed.
  Lemma osim_map {A B A' B'} (R : (pid -> A) -> B -> Prop) (R' : (pid -> A') -> B' -> Prop) o t (f : pid -> A -> A') g :
    osim R o t -> (forall a b, R a b -> R' (fun i => f i (a i)) (g b)) -> osim R' (fun i => omap (f i) (o i)) (omap g t).
  Proof.
    intros Ho Hf. unfold omap. eapply osim_bind; [exact Ho|]. intros a b HR. apply (osim_done R' (fun i => f i (a i))). exact (Hf a b HR).
  Qed.
  Lemma osim_ext {A B} (R : (pid -> A) -> B -> Prop) o o' t : (forall i, o i = o' i) -> osim R o' t -> osim R o t.
  Proof.
    intros E Ho Hd. specialize (Ho Hd). destruct t; cbn [opost] in *.
    - destruct Ho as (r & Er & HR). exists r. split; [|exact HR]. intros i. rewrite E. apply Er.
    - intros i. rewrite E. apply Ho.
  Qed.

  (** ** Relations *)
  Notation d0 := (BPub plain_default : V).
  Notation t0 := (TPub plain_default : tb F).
  Definition lrel (l : pid -> list V) (z : list (tb F)) : Prop :=
    (forall i, length (l i) = length z) /\ forall k, trel (fun i => nth k (l i) d0) (nth k z t0).
  Lemma trel_default : trel (fun _ => d0) t0.
  Proof. intros i. reflexivity. Qed.
  Lemma lrel_nil : lrel (fun _ => []) [].
  Proof. split; [reflexivity|]. intros [|k]; exact trel_default. Qed.
  Lemma lrel_cons h t x z : trel h x -> lrel t z -> lrel (fun i => h i :: t i) (x :: z).
  Proof. intros Hh [L N]. split; [intros i; cbn; rewrite L; reflexivity|]. intros [|k]; [exact Hh|exact (N k)]. Qed.
  Lemma lrel_nil_inv l : lrel l [] -> forall i, l i = [].
  Proof. intros [L _] i. specialize (L i). destruct (l i); [reflexivity|discriminate]. Qed.
  Lemma lrel_cons_inv l x z : lrel l (x :: z) -> exists h t, trel h x /\ lrel t z /\ forall i, l i = h i :: t i.
  Proof.
    intros [L N]. exists (fun i => nth 0 (l i) d0), (fun i => tl (l i)).
    assert (E : forall i, l i = nth 0 (l i) d0 :: tl (l i)) by (intros i; specialize (L i); destruct (l i); [discriminate|reflexivity]).
    split; [exact (N 0%nat)|]. split; [|exact E]. split.
    - intros i. specialize (L i). destruct (l i); [discriminate|]. injection L as L. exact L.
    - intros k. specialize (N (Datatypes.S k)). cbn [nth] in N. unfold BrilligOps.trel, vrel in *.
      assert (E2 : forall i, nth (Datatypes.S k) (l i) d0 = nth k (tl (l i)) d0) by (intros i; rewrite (E i) at 1; reflexivity).
      destruct (nth k z t0); [intros i; rewrite <- E2; apply N|destruct N as (w & H1 & H2); exists w; split; [exact H1|]; intros i; rewrite <- E2; apply H2|].
      destruct N as (y & E1 & w & H1 & H2). exists y. split; [exact E1|]. exists w. split; [exact H1|]. intros i. rewrite <- E2. apply H2.
  Qed.
  Lemma trel_ext a b x : (forall i, a i = b i) -> trel a x -> trel b x.
  Proof.
    intros E. unfold BrilligOps.trel, vrel. destruct x.
    - intros Ha i. rewrite <- E. apply Ha.
    - intros (w & H1 & H2). exists w. split; [exact H1|]. intros i. rewrite <- E. apply H2.
    - intros (y & E1 & w & H1 & H2). exists y. split; [exact E1|]. exists w. split; [exact H1|]. intros i. rewrite <- E. apply H2.
  Qed.
  Lemma lrel_ext a b z : (forall i, a i = b i) -> lrel a z -> lrel b z.
  Proof. intros E [L N]. split; [intros i; rewrite <- E; apply L|]. intros k. eapply trel_ext; [|exact (N k)]. intros i. cbv beta. rewrite E. reflexivity. Qed.
  Lemma lrel_map_pub (l : list (bval F)) : lrel (fun _ => map BPub l) (map TPub l).
  Proof. induction l as [|x l IH]; [exact lrel_nil|]. cbn [map]. apply (@lrel_cons (fun _ => BPub x) (fun _ => map BPub l)); [|exact IH]. intros i. reflexivity. Qed.

  Definition prel (l : pid -> list (list N * list V)) (z : list (list N * list (tb F))) : Prop :=
    (forall i, map fst (l i) = map fst z) /\ forall k, lrel (fun i => nth k (map snd (l i)) []) (nth k (map snd z) []).
  Definition crel (c : pid -> option V) (t : option (tb F)) : Prop :=
    match t with Some t => exists v, trel v t /\ forall i, c i = Some (v i) | None => forall i, c i = None end.
  Record brel (s : pid -> bs) (z : tst) : Prop := mkBrel {
    br_mem : lrel (fun i => b_mem (s i)) (b_mem z);
    br_drv : dsync (fun i => b_drv (s i));
    br_ctx : crel (fun i => b_ctx (s i)) (b_ctx z);
    br_pss : prel (fun i => b_pss (s i)) (b_pss z);
    br_cd : lrel (fun i => b_cd (s i)) (b_cd z);
    br_stack : forall i, b_stack (s i) = b_stack z;
    br_ip : forall i, b_ip (s i) = b_ip z }.
  Definition nrel {A} (v : pid -> A) (n : A) : Prop := forall i, v i = n.

  Lemma get_rel s z a : brel s z -> trel (fun i => mget d0 (b_mem (s i)) a) (mget t0 (b_mem z) a).
  Proof. intros Hs. exact (proj2 (br_mem Hs) a). Qed.
  Lemma usize_sim v t : trel v t -> osim nrel (fun i => r_usize (v i)) (tusize t).
  Proof.
    intros Hv _. assert (E : forall i, match tusize t with Done n => r_usize (v i) = Done n | Failed _ => exists e, r_usize (v i) = Failed e end) by (intros i; apply r_usize_ok; exact Hv). destruct (tusize t) as [n|e]; cbn [opost].
    - exists (fun _ => n). split; [exact E|]. intros i. reflexivity.
    - exact E.
  Qed.
  Lemma resolve_sim s z a : brel s z -> osim nrel (fun i => resolve (D i) (s i) a) (resolve T z a).
  Proof.
    intros Hs. destruct a as [a|o]; cbn [resolve].
    - apply (osim_done _ (fun _ => a)). intros i. reflexivity.
    - eapply (@osim_bind nat nat nat nat); [apply usize_sim; exact (get_rel 0 Hs)|]. intros n m E. apply (osim_done _ (fun i => (n i + o)%nat)). intros i. rewrite E. reflexivity.
  Qed.
  Lemma read_sim s z a : brel s z -> osim trel (fun i => read (D i) (s i) a) (read T z a).
  Proof.
    intros Hs. unfold read. eapply (@osim_map nat nat V (tb F)); [exact (resolve_sim a Hs)|]. intros n m E. eapply trel_ext; [|exact (get_rel m Hs)].
    intros i. cbv beta. rewrite E. reflexivity.
  Qed.
  Lemma read_usize_sim s z a : brel s z -> osim nrel (fun i => read_usize (D i) (s i) a) (read_usize T z a).
  Proof. intros Hs. eapply (@osim_bind V (tb F) nat nat); [exact (read_sim a Hs)|]. intros v t. apply usize_sim. Qed.
  Lemma read_field_sim s z a : brel s z -> osim trel (fun i => read_field (D i) (s i) a) (read_field T z a).
  Proof. intros Hs. eapply (@osim_bind V (tb F) V (tb F)); [exact (read_sim a Hs)|]. intros v t Hv _. eapply r_field_ok; eassumption. Qed.
  Lemma read_int_sim s z a w : brel s z -> osim trel (fun i => read_int (D i) (s i) a w) (read_int T z a w).
  Proof. intros Hs. eapply (@osim_bind V (tb F) V (tb F)); [exact (read_sim a Hs)|]. intros v t Hv _. eapply r_int_ok; eassumption. Qed.
  Lemma read_ref_sim s z a : brel s z -> osim nrel (fun i => read_ref (D i) (s i) a) (read_ref T z a).
  Proof.
    intros Hs. eapply osim_bind; [exact (read_usize_sim a Hs)|]. intros n m E. destruct (N.of_nat m <? 2 ^ 32)%N eqn:L.
    - eapply osim_ext; [intros i; rewrite (E i), L; reflexivity|]. apply (osim_done _ (fun _ => m)). intros i. reflexivity.
    - eapply osim_ext; [intros i; rewrite (E i), L; reflexivity|]. apply osim_failed.
  Qed.
  Lemma mset_rel l z a v t : lrel l z -> trel v t -> lrel (fun i => mset d0 (l i) a (v i)) (mset t0 z a t).
  Proof.
    intros [L N] Hv. split; [intros i; rewrite !mset_length, L; reflexivity|]. intros k.
    pose proof (mset_get t0 z a t k) as E. unfold mget in E. rewrite E.
    eapply trel_ext with (a := fun i => if (k =? a)%nat then v i else nth k (l i) d0).
    - intros i. pose proof (mset_get d0 (l i) a (v i) k) as E'. unfold mget in E'. rewrite E'. reflexivity.
    - destruct (k =? a)%nat; [exact Hv|exact (N k)].
  Qed.
  Lemma mslice_rel l z a vs ts : lrel l z -> lrel vs ts -> lrel (fun i => mslice d0 (l i) a (vs i)) (mslice t0 z a ts).
  Proof.
    intros [L N] [L2 N2]. split; [intros i; rewrite !mslice_length, L, L2; reflexivity|]. intros k.
    pose proof (mslice_get t0 z a ts k) as E. unfold mget in E. rewrite E.
    eapply trel_ext with (a := fun i => if ((a <=? k) && (k <? a + length ts))%nat%bool then nth (k - a) (vs i) d0 else nth k (l i) d0).
    - intros i. pose proof (mslice_get d0 (l i) a (vs i) k) as E'. unfold mget in E'. rewrite E', L2. reflexivity.
    - destruct (_ && _)%bool; [exact (N2 (k - a)%nat)|exact (N k)].
  Qed.
  Lemma set_mem_rel s z m t : brel s z -> lrel m t -> brel (fun i => set_mem (D i) (s i) (m i)) (set_mem T z t).
  Proof. intros [A B C E G I J] Hm. constructor; assumption. Qed.
  Lemma set_drv_rel s z ds : brel s z -> dsync ds -> brel (fun i => set_drv (D i) (s i) (ds i)) (set_drv T z tt).
  Proof. intros [A B C E G I J] Hm. constructor; assumption. Qed.
  Lemma set_ip_rel s z ip : brel s z -> brel (fun i => set_ip (D i) (s i) ip) (set_ip T z ip).
  Proof. intros [A B C E G I J]. constructor; try assumption. intros i. reflexivity. Qed.
  Lemma next_rel s z : brel s z -> brel (fun i => next (D i) (s i)) (next T z).
  Proof. intros [A B C E G I J]. constructor; try assumption. intros i. unfold next, set_ip. cbn [b_ip]. rewrite J. reflexivity. Qed.
  Lemma write_sim s z a v t : brel s z -> trel v t -> osim brel (fun i => write (D i) (s i) a (v i)) (write T z a t).
  Proof.
    intros Hs Hv. unfold write. eapply (@osim_map nat nat bs tst); [exact (resolve_sim a Hs)|]. intros n m E. cbv beta.
    apply (@set_mem_rel s z (fun i => mset d0 (b_mem (s i)) (n i) (v i))); [exact Hs|].
    eapply lrel_ext; [|exact (@mset_rel _ _ m v t (br_mem Hs) Hv)]. intros i. cbv beta. rewrite E. reflexivity.
  Qed.
  Lemma write_slice_sim s z a v t : brel s z -> lrel v t -> osim brel (fun i => write_slice (D i) (s i) a (v i)) (write_slice T z a t).
  Proof.
    intros Hs Hv. unfold write_slice. eapply (@osim_map nat nat bs tst); [exact (resolve_sim a Hs)|]. intros n m E. cbv beta.
    apply (@set_mem_rel s z (fun i => mslice d0 (b_mem (s i)) (n i) (v i))); [exact Hs|].
    eapply lrel_ext; [|exact (@mslice_rel _ _ m v t (br_mem Hs) Hv)]. intros i. cbv beta. rewrite E. reflexivity.
  Qed.
  Lemma write_n_sim s z a v t : brel s z -> trel v t -> osim brel (fun i => omap (next (D i)) (write (D i) (s i) a (v i))) (omap (next T) (write T z a t)).
  Proof. intros Hs Hv. eapply (@osim_map bs tst bs tst); [exact (@write_sim s z a v t Hs Hv)|]. intros x y. apply next_rel. Qed.
  Lemma write_slice_n_sim s z a v t : brel s z -> lrel v t ->
    osim brel (fun i => omap (next (D i)) (write_slice (D i) (s i) a (v i))) (omap (next T) (write_slice T z a t)).
  Proof. intros Hs Hv. eapply (@osim_map bs tst bs tst); [exact (@write_slice_sim s z a v t Hs Hv)|]. intros x y. apply next_rel. Qed.
  Lemma heap_sim s z h : brel s z -> osim lrel (fun i => read_heap_array (D i) (s i) h) (read_heap_array T z h).
  Proof.
    intros Hs. unfold read_heap_array. destruct (snd h =? 0)%nat; [exact (osim_done _ (fun _ => []) lrel_nil)|].
    eapply (@osim_map nat nat (list V) (list (tb F))); [exact (read_ref_sim (fst h) Hs)|]. intros n m E. split.
    - intros i. rewrite !map_length. reflexivity.
    - intros k. rewrite nth_map_seq. eapply trel_ext with (a := fun i => if (k <? snd h)%nat then mget d0 (b_mem (s i)) (m + k) else d0).
      + intros i. rewrite nth_map_seq, E. reflexivity.
      + destruct (k <? snd h)%nat; [exact (get_rel (m + k) Hs)|exact trel_default].
  Qed.
  Lemma slice_sim l z o n : lrel l z -> osim lrel (fun i => slice (l i) o n) (slice z o n).
  Proof.
    intros [L N]. unfold slice. destruct (o + n <=? length z)%nat eqn:E.
    - eapply osim_ext; [intros i; rewrite L, E; reflexivity|]. apply (osim_done lrel (fun i => firstn n (skipn o (l i)))). split.
      + intros i. rewrite !firstn_length, !skipn_length, L. reflexivity.
      + intros k. rewrite nth_firstn', nth_skipn'.
        eapply trel_ext with (a := fun i => if (k <? n)%nat then nth (o + k) (l i) d0 else d0); [intros i; rewrite nth_firstn', nth_skipn'; reflexivity|].
        destruct (k <? n)%nat; [exact (N (o + k)%nat)|exact trel_default].
    - eapply osim_ext; [intros i; rewrite L, E; reflexivity|]. apply osim_failed.
  Qed.
  Lemma chars_sim z : forall l, lrel l z -> osim nrel (fun i => chars (D i) (l i)) (chars T z).
  Proof.
    induction z as [|x z IH]; intros l Hl.
    - eapply osim_ext; [intros i; rewrite (lrel_nil_inv Hl i); reflexivity|]. apply (osim_done _ (fun _ => [])). intros i. reflexivity.
    - destruct (lrel_cons_inv Hl) as (h & t & Hh & Ht & E). eapply osim_ext; [intros i; rewrite E; reflexivity|]. cbn [chars].
      eapply osim_bind with (R := nrel).
      + intros _. assert (Ec : forall i, match tchar x with Done n => r_char (h i) = Done n | Failed _ => exists e, r_char (h i) = Failed e end) by (intros i; apply r_char_ok; exact Hh). cbn [d_char tagged_driver rep3_bdriver]. destruct (tchar x) as [c|e]; cbn [opost].
        * exists (fun _ => c). split; [exact Ec|]. intros i. reflexivity.
        * exact Ec.
      + intros c c' Ec. eapply osim_map; [exact (IH t Ht)|]. intros a b Ea i. rewrite Ea, Ec. reflexivity.
  Qed.

  (** ** Operations *)
  Definition vsrel (v : pid -> V * St) (t : tb F * unit) : Prop := trel (fun i => fst (v i)) (fst t) /\ dsync (fun i => snd (v i)).
  Lemma tpost_sim (ps : pid -> prog pid M (V * St)) (t : outcome (tb F)) : (t <> Failed undef -> wpo cap ps (tpost strict trel t)) ->
    sim vsrel ps (leaf (ton t)).
  Proof.
    intros Hp Hd. rewrite pure_run_leaf in *. eapply wpo_mono; [|apply Hp; destruct t; cbn in Hd; congruence].
    intros o Ho. destruct t as [b|e]; cbn [ton omap obind tpost xpost] in *; [|exact Ho].
    destruct Ho as [(r & Er & H1 & H2)|Ho]; [left; exists r; split; [exact Er|split; assumption]|right; exact Ho].
  Qed.
  Lemma bin_sim ds o a b x y : dsync ds -> trel a x -> trel b y -> sim vsrel (fun i => d_bin (D i) (ds i) o (a i) (b i)) (d_bin T tt o x y).
  Proof. intros Hs Ha Hb. apply (@tpost_sim _ (tbin dbg strict o x y)). intros Hd. eapply r_bin_ok; eassumption. Qed.
  Lemma cast_sim ds a x t : dsync ds -> trel a x -> sim vsrel (fun i => d_cast (D i) (ds i) (a i) t) (d_cast T tt x t).
  Proof. intros Hs Ha. apply (@tpost_sim _ (tcast x t)). intros Hd. eapply r_cast_ok; eassumption. Qed.
  Lemma cmux_sim ds c a b t x y : dsync ds -> trel c t -> trel a x -> trel b y ->
    sim vsrel (fun i => d_cmux (D i) (ds i) (c i) (a i) (b i)) (d_cmux T tt t x y).
  Proof. intros Hs Hc Ha Hb. apply (@tpost_sim _ (tcmux dbg t x y)). intros Hd. eapply r_cmux_ok; eassumption. Qed.
  Lemma random_sim ds a x : dsync ds -> trel a x -> sim vsrel (fun i => d_random (D i) (ds i) (a i)) (d_random T tt x).
  Proof. intros Hs Ha. apply (@tpost_sim _ (trandom x)). intros Hd. eapply r_random_ok; eassumption. Qed.
  Definition lsrel (v : pid -> list V * St) (t : list (tb F) * unit) : Prop := lrel (fun i => fst (v i)) (fst t) /\ dsync (fun i => snd (v i)).
  Lemma radix_sim ds a r x y n b : dsync ds -> trel a x -> trel r y ->
    sim lsrel (fun i => d_radix (D i) (ds i) (a i) (r i) n b) (d_radix T tt x y n b).
  Proof.
    intros Hs Ha Hr Hd. cbn [d_radix tagged_driver] in *. rewrite pure_run_leaf in *.
    eapply wpo_mono; [|eapply r_radix_ok with (strict := strict) (x := x) (y := y); [exact Hs|exact Ha|exact Hr|destruct (tradix x y n b); cbn in Hd; congruence]].
    intros o Ho. destruct (tradix x y n b) as [l|e]; cbn [ton omap obind tpost xpost] in *; [|exact Ho].
    destruct Ho as [(q & Eq & (l' & -> & El) & H2)|Ho]; [left|right; exact Ho]. exists q. split; [exact Eq|]. split; [|exact H2].
    eapply lrel_ext; [|exact (lrel_map_pub l')]. intros i. symmetry. apply El.
  Qed.
  Lemma guarded_sim s z o a b x y : brel s z -> trel a x -> trel b y ->
    sim vsrel (fun i => guarded (D i) (s i) o (a i) (b i)) (guarded T z o x y).
  Proof.
    intros Hs Ha Hb. unfold guarded. pose proof (br_ctx Hs) as Hc. pose proof (br_drv Hs) as Hsy. destruct z as [zm [] zc zp zd zs zi]. cbn [b_ctx b_drv] in *.
    destruct zc as [t|]; cbn [crel] in Hc.
    - destruct Hc as (c & Hc & Ec). destruct (is_div o).
      + eapply sim_ext; [intros i; rewrite Ec; reflexivity|].
        eapply (@sim_bind (V * St) (tb F * unit) (V * St) (tb F * unit) vsrel vsrel).
        * apply (@cmux_sim (fun i => b_drv (s i)) c b (fun _ => BPub (plain_public rone TField)) t y (TPub (plain_public rone TField))); [exact Hsy|exact Hc|exact Hb|].
          intros i. reflexivity.
        * intros v [w []] [H1 H2]. exact (@bin_sim (fun i => snd (v i)) o a (fun i => fst (v i)) x w H2 Ha H1).
      + eapply sim_ext; [intros i; rewrite Ec; reflexivity|]. exact (@bin_sim (fun i => b_drv (s i)) o a b x y Hsy Ha Hb).
    - eapply sim_ext; [intros i; rewrite Hc; reflexivity|]. exact (@bin_sim (fun i => b_drv (s i)) o a b x y Hsy Ha Hb).
  Qed.
  Lemma write_next_sim s z d v t : brel s z -> vsrel v t -> sim brel (fun i => write_next (D i) (s i) d (v i)) (write_next T z d t).
  Proof.
    intros Hs [H1 H2]. unfold write_next. apply (@sim_leaf bs tst). destruct t as [t []].
    exact (@write_n_sim _ _ d (fun i => fst (v i)) t (@set_drv_rel s z (fun i => snd (v i)) Hs H2) H1).
  Qed.
  Lemma bin_field_sim s z o l r d : brel s z -> sim brel (fun i => bin_field (D i) (s i) o l r d) (bin_field T z o l r d).
  Proof.
    intros Hs. unfold bin_field. eapply (@sim_bind V (tb F) bs tst); [apply (@sim_leaf V (tb F)); exact (read_field_sim l Hs)|]. intros a x Ha.
    eapply (@sim_bind V (tb F) bs tst); [apply (@sim_leaf V (tb F)); exact (read_field_sim r Hs)|]. intros b y Hb.
    eapply (@sim_bind (V * St) (tb F * unit) bs tst); [exact (@guarded_sim s z (fbin o) a b x y Hs Ha Hb)|]. intros v t Hv. exact (@write_next_sim s z d v t Hs Hv).
  Qed.
  Lemma bin_int_sim s z o w l r d : brel s z -> sim brel (fun i => bin_int (D i) (s i) o w l r d) (bin_int T z o w l r d).
  Proof.
    intros Hs. unfold bin_int. eapply (@sim_bind V (tb F) bs tst); [apply (@sim_leaf V (tb F)); exact (read_int_sim l w Hs)|]. intros a x Ha.
    eapply (@sim_bind V (tb F) bs tst); [apply (@sim_leaf V (tb F)); exact (read_int_sim r (rhs_size o w) Hs)|]. intros b y Hb.
    destruct (ibin o) as [o'|]; [|apply (@sim_fail bs tst)].
    eapply (@sim_bind (V * St) (tb F * unit) bs tst); [exact (@guarded_sim s z o' a b x y Hs Ha Hb)|]. intros v t Hv. exact (@write_next_sim s z d v t Hs Hv).
  Qed.
  Lemma calldata_sim s z d n o : brel s z -> osim brel (fun i => calldata_copy (D i) (s i) d n o) (calldata_copy T z d n o).
  Proof.
    intros Hs. unfold calldata_copy. eapply (@osim_bind nat nat bs tst); [exact (read_usize_sim n Hs)|]. intros a x Ha.
    eapply (@osim_bind nat nat bs tst); [exact (read_usize_sim o Hs)|]. intros b y Hb.
    eapply (@osim_bind (list V) (list (tb F)) bs tst lrel).
    - eapply osim_ext; [intros i; rewrite (Ha i), (Hb i); reflexivity|]. exact (slice_sim y x (br_cd Hs)).
    - intros v t Hv. exact (@write_slice_n_sim s z d v t Hs Hv).
  Qed.
  Lemma prel_snoc l z k v t : prel l z -> lrel v t -> prel (fun i => l i ++ [(k, v i)]) (z ++ [(k, t)]).
  Proof.
    intros [K N] Hv. assert (L : forall i, length (l i) = length z) by (intros i; rewrite <- (map_length fst), K, map_length; reflexivity). split.
    - intros i. rewrite !map_app, K. reflexivity.
    - intros j. rewrite map_app. destruct (lt_dec j (length z)) as [Lj|Lj].
      + rewrite app_nth1 by (rewrite map_length; exact Lj). eapply lrel_ext; [|exact (N j)]. intros i. cbv beta.
        rewrite map_app, app_nth1 by (rewrite map_length, L; exact Lj). reflexivity.
      + rewrite app_nth2 by (rewrite map_length; lia). rewrite map_length.
        eapply lrel_ext with (a := fun i => nth (j - length z) [v i] []).
        * intros i. rewrite map_app, app_nth2 by (rewrite map_length, L; lia). rewrite map_length, L. reflexivity.
        * cbn [map snd]. destruct (j - length z)%nat as [|[|e]]; [exact Hv|exact lrel_nil|exact lrel_nil].
  Qed.
  Lemma existsb_keys (k : list N) {A} (l : list (list N * A)) {B} (z : list (list N * B)) : map fst l = map fst z ->
    existsb (fun e => mem_key k (fst e)) l = existsb (fun e => mem_key k (fst e)) z.
  Proof.
    revert z. induction l as [|x l IH]; intros [|y z] E; try discriminate; [reflexivity|]. cbn in E. injection E as E1 E2. cbn. rewrite E1, (IH z E2). reflexivity.
  Qed.
  Lemma store_sim s z a b c d : brel s z -> osim brel (fun i => taceo_store (D i) (s i) a b c d) (taceo_store T z a b c d).
  Proof.
    intros Hs. unfold taceo_store. pose proof (br_ctx Hs) as Hc. pose proof (br_pss Hs) as Hp. destruct z as [zm [] zc zp zd zs zi]. cbn [b_ctx b_pss] in *. destruct zc; cbn [crel] in Hc.
    { destruct Hc as (v & _ & Ec). eapply osim_ext; [intros i; rewrite Ec; reflexivity|]. apply (@osim_failed bs tst). }
    eapply osim_ext; [intros i; rewrite Hc; reflexivity|].
    destruct (negb _); [apply (@osim_failed bs tst)|]. destruct (negb _); [apply (@osim_failed bs tst)|].
    destruct c as [|[name|] [|data [|]]]; try apply (@osim_failed bs tst).
    eapply (@osim_bind (list V) (list (tb F)) bs tst); [exact (heap_sim name Hs)|]. intros v t Hv.
    eapply (@osim_bind (list N) (list N) bs tst); [exact (chars_sim Hv)|]. intros k k' Ek. destruct data as [data|]; [|apply (@osim_failed bs tst)].
    eapply (@osim_bind (list V) (list (tb F)) bs tst); [exact (heap_sim data Hs)|]. intros w u Hw.
    eapply osim_ext with (o' := fun i => if existsb (fun e : list N * list V => mem_key k' (fst e)) (b_pss (s i)) then Failed (Eyre "duplicate entry for shared state id")
      else Done (mkB (b_mem (s i)) (b_drv (s i)) None (b_pss (s i) ++ [(k', w i)]) (b_cd (s i)) (b_stack (s i)) (b_ip (s i)))).
    { intros i. rewrite (Ek i). reflexivity. }
    match goal with |- osim _ ?o _ => change (osim brel o (if existsb (fun e : list N * list (tb F) => mem_key k' (fst e)) zp
      then Failed (Eyre "duplicate entry for shared state id") else Done (mkB zm tt None (zp ++ [(k', u)]) zd zs zi))) end.
    destruct (existsb (fun e => mem_key k' (fst e)) zp) eqn:Ee.
    - eapply osim_ext; [intros i; rewrite (existsb_keys k' _ _ (proj1 Hp i)), Ee; reflexivity|]. apply (@osim_failed bs tst).
    - eapply osim_ext; [intros i; rewrite (existsb_keys k' _ _ (proj1 Hp i)), Ee; reflexivity|].
      apply (osim_done brel (fun i => mkB (b_mem (s i)) (b_drv (s i)) None (b_pss (s i) ++ [(k', w i)]) (b_cd (s i)) (b_stack (s i)) (b_ip (s i)))).
      destruct Hs as [A B C E G I J]. constructor; try assumption; [intros i; reflexivity|]. exact (prel_snoc k' E Hw).
  Qed.
  Lemma not_sim v t : trel v t -> osim trel (fun i => d_not (D i) (v i)) (d_not T t).
  Proof. intros Hv Hd. eapply r_not_ok; eassumption. Qed.
  Lemma to_radix_sim s z a b c d e : brel s z -> sim brel (fun i => to_radix (D i) (s i) a b c d e) (to_radix T z a b c d e).
  Proof.
    intros Hs. unfold to_radix.
    eapply (@sim_bind V (tb F) bs tst); [apply (@sim_leaf V (tb F)); exact (read_field_sim a Hs)|]. intros v t Hv.
    eapply (@sim_bind V (tb F) bs tst); [apply (@sim_leaf V (tb F)); exact (read_int_sim b U32 Hs)|]. intros r u Hr.
    eapply (@sim_bind nat nat bs tst); [apply (@sim_leaf nat nat); exact (read_usize_sim d Hs)|]. intros n m En.
    eapply (@sim_bind bool bool bs tst).
    { apply (@sim_leaf bool bool nrel). eapply (@osim_bind V (tb F) bool bool); [exact (read_int_sim e U1 Hs)|]. intros w x Hw.
      assert (E : forall i, r_bool (w i) = tbool x) by (intros i; apply r_bool_ok; exact Hw).
      cbn [d_bool rep3_bdriver tagged_driver]. destruct (tbool x) as [y|] eqn:Ey.
      - eapply osim_ext; [intros i; rewrite E; reflexivity|]. apply (osim_done _ (fun _ => y)). intros i. reflexivity.
      - eapply osim_ext; [intros i; rewrite E; reflexivity|]. apply osim_failed. }
    intros f g Ef. pose proof (br_drv Hs) as Hsy. destruct z as [zm [] zc zp zd zs zi]. cbn [b_drv] in *.
    eapply (@sim_bind (list V * St) (list (tb F) * unit) bs tst lsrel).
    - eapply sim_ext; [intros i; rewrite (En i), (Ef i); reflexivity|]. exact (@radix_sim (fun i => b_drv (s i)) v r t u m g Hsy Hv Hr).
    - intros l [l' []] [H1 H2]. apply (@sim_leaf bs tst). eapply (@osim_bind nat nat bs tst); [exact (read_ref_sim c Hs)|]. intros p q Ep.
      eapply osim_ext; [intros i; rewrite (Ep i); reflexivity|].
      exact (@write_slice_n_sim _ _ (Direct q) (fun i => fst (l i)) l' (@set_drv_rel s _ (fun i => snd (l i)) Hs H2) H1).
  Qed.
  Lemma public_rel x t : trel (fun _ => BPub (plain_public x t)) (TPub (plain_public x t)).
  Proof. intros i. reflexivity. Qed.

  Lemma step_sim s z o : brel s z -> sim brel (fun i => step (D i) (s i) o) (step T z o).
  Proof.
    intros Hs. destruct o as [o l r d|o w l r d|d a w|d a t|c loc|loc|d n o|loc|d t x|dp t x| |f|d a| |d sp|dp a|a b c d e| | |p n]; cbn [step];
      try (apply (@sim_fail bs tst)).
    - exact (bin_field_sim o l r d Hs).
    - exact (bin_int_sim o w l r d Hs).
    - apply (@sim_leaf bs tst). eapply (@osim_bind V (tb F) bs tst); [exact (read_int_sim a w Hs)|]. intros v t Hv.
      eapply (@osim_bind V (tb F) bs tst); [exact (@not_sim v _ Hv)|]. intros w' u Hw. exact (@write_n_sim s z d w' u Hs Hw).
    - eapply (@sim_bind V (tb F) bs tst); [apply (@sim_leaf V (tb F)); exact (read_sim a Hs)|]. intros v x Hv.
      pose proof (br_drv Hs) as Hsy. destruct z as [zm [] zc zp zd zs zi]. cbn [b_drv] in *.
      eapply (@sim_bind (V * St) (tb F * unit) bs tst vsrel); [exact (@cast_sim (fun i => b_drv (s i)) v x t Hsy Hv)|].
      intros w u Hw. exact (@write_next_sim s _ d w u Hs Hw).
    - apply (@sim_ret bs tst brel (fun i => set_ip (D i) (s i) loc)). exact (set_ip_rel loc Hs).
    - apply (@sim_leaf bs tst). exact (calldata_sim d n o Hs).
    - apply (@sim_ret bs tst brel (fun i => mkB (b_mem (s i)) (b_drv (s i)) (b_ctx (s i)) (b_pss (s i)) (b_cd (s i)) (b_ip (s i) :: b_stack (s i)) loc)).
      destruct Hs as [A B C E G I J]. constructor; try assumption; intros i; cbn [b_stack b_ip]; [rewrite I, J|]; reflexivity.
    - apply (@sim_leaf bs tst). exact (@write_n_sim s z d _ _ Hs (public_rel x t)).
    - apply (@sim_leaf bs tst). eapply (@osim_bind nat nat bs tst); [exact (read_ref_sim dp Hs)|]. intros a b Ea.
      eapply osim_ext; [intros i; rewrite (Ea i); reflexivity|]. exact (@write_n_sim s z (Direct b) _ _ Hs (public_rel x t)).
    - pose proof (br_stack Hs) as I. destruct z as [zm [] zc zp zd zs zi]. cbn [b_stack] in *. destruct zs as [|l ls].
      + eapply sim_ext; [intros i; rewrite I; reflexivity|]. apply (@sim_fail bs tst).
      + eapply sim_ext; [intros i; rewrite I; reflexivity|].
        apply (@sim_ret bs tst brel (fun i => mkB (b_mem (s i)) (b_drv (s i)) (b_ctx (s i)) (b_pss (s i)) (b_cd (s i)) ls (l + 1)%nat)).
        destruct Hs as [A B C E G _ J]. constructor; try assumption; intros i; reflexivity.
    - apply (@sim_leaf bs tst). destruct f; cbn [foreign].
      + eapply (@osim_map bs tst bs tst); [exact (store_sim _ _ _ _ Hs)|]. intros x y. apply next_rel.
      + apply (@osim_done bs tst brel (fun i => next (D i) (s i))). exact (next_rel Hs).
      + apply (@osim_failed bs tst).
    - apply (@sim_leaf bs tst). eapply (@osim_bind V (tb F) bs tst); [exact (read_sim a Hs)|]. intros v t Hv. exact (@write_n_sim s z d v t Hs Hv).
    - apply (@sim_leaf bs tst). eapply (@osim_bind nat nat bs tst); [exact (read_ref_sim sp Hs)|]. intros a b Ea.
      eapply (@osim_bind V (tb F) bs tst trel); [eapply osim_ext; [intros i; rewrite (Ea i); reflexivity|]; exact (read_sim (Direct b) Hs)|].
      intros v t Hv. exact (@write_n_sim s z d v t Hs Hv).
    - apply (@sim_leaf bs tst). eapply (@osim_bind nat nat bs tst); [exact (read_ref_sim dp Hs)|]. intros d b Ed.
      eapply (@osim_bind V (tb F) bs tst); [exact (read_sim a Hs)|].
      intros v t Hv. eapply osim_ext; [intros i; rewrite (Ed i); reflexivity|]. exact (@write_n_sim s z (Direct b) v t Hs Hv).
    - exact (to_radix_sim a b c d e Hs).
  Qed.

  (** ** Runs *)
  Definition rsrel (v : pid -> bres V) (r : bres (tb F)) : Prop :=
    match r with
    | BSuccess ws ps => exists w p, lrel w ws /\ prel p ps /\ forall i, v i = BSuccess (w i) (p i)
    | BTrap => forall i, v i = BTrap
    end.
  Notation res := (bres V * bs)%type.
  Notation tres := (bres (tb F) * tst)%type.
  Definition runrel (v : pid -> res) (r : tres) : Prop := rsrel (fun i => fst (v i)) (fst r) /\ brel (fun i => snd (v i)) (snd r).
  Lemma prel_nil : prel (fun _ => []) [].
  Proof. split; [reflexivity|]. intros [|k]; exact lrel_nil. Qed.
  Lemma stop_sim s z p n : brel s z -> osim runrel (fun i => stop (D i) (s i) p n) (stop T z p n).
  Proof.
    intros Hs. unfold stop. eapply (@osim_bind nat nat res tres); [exact (read_usize_sim n Hs)|]. intros a b Ea.
    eapply (@osim_bind nat nat res tres nrel).
    { destruct (0 <? b)%nat eqn:L; (eapply osim_ext; [intros i; rewrite (Ea i), L; reflexivity|]); [exact (read_ref_sim p Hs)|].
      apply (osim_done _ (fun _ => 0%nat)). intros i. reflexivity. }
    intros o o' Eo. eapply (@osim_bind (list V) (list (tb F)) res tres lrel).
    - eapply osim_ext; [intros i; rewrite (Ea i), (Eo i); reflexivity|]. exact (slice_sim o' b (br_mem Hs)).
    - intros w u Hw. apply (@osim_done res tres runrel (fun i => (BSuccess (w i) (b_pss (s i)), mkB [] (b_drv (s i)) (b_ctx (s i)) [] (b_cd (s i)) (b_stack (s i)) (b_ip (s i))))).
      destruct Hs as [A B C E G I J]. split.
      + exists w, (fun i => b_pss (s i)). auto.
      + constructor; try assumption; [exact lrel_nil|exact prel_nil].
  Qed.
  Lemma noise_sim zs : forall ds l, dsync ds -> lrel l zs -> sim lsrel (fun i => noise (D i) (ds i) (l i)) (noise T tt zs).
  Proof.
    induction zs as [|x zs IH]; intros ds l Hs Hl.
    - eapply sim_ext; [intros i; rewrite (lrel_nil_inv Hl i); reflexivity|]. apply (@sim_ret (list V * St) (list (tb F) * unit) lsrel (fun i => ([], ds i))).
      split; [exact lrel_nil|exact Hs].
    - destruct (lrel_cons_inv Hl) as (h & t & Hh & Ht & E). eapply sim_ext; [intros i; rewrite E; reflexivity|]. cbn [noise].
      eapply (@sim_bind (V * St) (tb F * unit) (list V * St) (list (tb F) * unit)); [exact (@random_sim ds h x Hs Hh)|]. intros v [w []] [H1 H2].
      eapply (@sim_bind (list V * St) (list (tb F) * unit) (list V * St) (list (tb F) * unit)); [exact (IH (fun i => snd (v i)) t H2 Ht)|]. intros v' [w' []] [H3 H4].
      apply (@sim_ret (list V * St) (list (tb F) * unit) lsrel (fun i => (fst (v i) :: fst (v' i), snd (v' i)))).
      split; [|exact H4]. exact (@lrel_cons (fun i => fst (v i)) (fun i => fst (v' i)) w w' H1 H3).
  Qed.
  Lemma cmuxes_sim c t : trel c t -> forall zs ys ds l m, dsync ds -> lrel l zs -> lrel m ys ->
    sim lsrel (fun i => cmuxes (D i) (ds i) (c i) (l i) (m i)) (cmuxes T tt t zs ys).
  Proof.
    intros Hc. induction zs as [|x zs IH]; intros ys ds l m Hs Hl Hm.
    - eapply sim_ext; [intros i; rewrite (lrel_nil_inv Hl i); reflexivity|]. apply (@sim_ret (list V * St) (list (tb F) * unit) lsrel (fun i => ([], ds i))).
      split; [exact lrel_nil|exact Hs].
    - destruct (lrel_cons_inv Hl) as (h & tl & Hh & Ht & E). destruct ys as [|y ys].
      + eapply sim_ext; [intros i; rewrite E, (lrel_nil_inv Hm i); reflexivity|]. apply (@sim_ret (list V * St) (list (tb F) * unit) lsrel (fun i => ([], ds i))).
        split; [exact lrel_nil|exact Hs].
      + destruct (lrel_cons_inv Hm) as (h' & tl' & Hh' & Ht' & E').
        eapply sim_ext; [intros i; rewrite E, E'; reflexivity|]. cbn [cmuxes].
        eapply (@sim_bind (V * St) (tb F * unit) (list V * St) (list (tb F) * unit)); [exact (@cmux_sim ds c h h' t x y Hs Hc Hh Hh')|]. intros v [w []] [H1 H2].
        eapply (@sim_bind (list V * St) (list (tb F) * unit) (list V * St) (list (tb F) * unit)); [exact (IH ys (fun i => snd (v i)) tl tl' H2 Ht Ht')|]. intros v' [w' []] [H3 H4].
        apply (@sim_ret (list V * St) (list (tb F) * unit) lsrel (fun i => (fst (v i) :: fst (v' i), snd (v' i)))).
        split; [|exact H4]. exact (@lrel_cons (fun i => fst (v i)) (fun i => fst (v' i)) w w' H1 H3).
  Qed.
  Lemma universe_sim s z ds c t a b ip : brel s z -> dsync ds -> trel c t ->
    osim brel (fun i => universe (D i) (s i) (ds i) (c i) a b ip) (universe T z tt t a b ip).
  Proof.
    intros Hs Hd Hc. unfold universe.
    assert (Hs' : brel (fun i => mkB (b_mem (s i)) (ds i) (Some (c i)) (b_pss (s i)) (b_cd (s i)) (b_stack (s i)) (b_ip (s i)))
                       (mkB (b_mem z) tt (Some t) (b_pss z) (b_cd z) (b_stack z) (b_ip z))).
    { destruct Hs as [A B C E G I J]. constructor; try assumption. exists c. auto. }
    eapply (@osim_map bs tst bs tst); [exact (@write_sim _ _ a _ _ Hs' (public_rel b (TInt U1)))|]. intros x y. apply set_ip_rel.
  Qed.
  Lemma prel_nil_inv p : prel p [] -> forall i, p i = [].
  Proof. intros [K _] i. specialize (K i). destruct (p i); [reflexivity|discriminate]. Qed.
  Lemma prel_cons_inv p x z : prel p (x :: z) -> forall i, exists y q, p i = y :: q.
  Proof. intros [K _] i. specialize (K i). destruct (p i); [discriminate|eauto]. Qed.
  Lemma finish_sim s z c t ds l m zs ys : brel s z -> trel c t -> dsync ds -> lrel l zs -> lrel m ys ->
    sim runrel (fun i => r <- cmuxes (D i) (ds i) (c i) (l i) (m i) ;; Ret (BSuccess (fst r) (b_pss (s i)), set_drv (D i) (s i) (snd r)))
      (r <- cmuxes T tt t zs ys ;; Ret (BSuccess (fst r) (b_pss z), set_drv T z (snd r))).
  Proof.
    intros Hs Hc Hd Hl Hm. eapply (@sim_bind (list V * St) (list (tb F) * unit) res tres); [exact (@cmuxes_sim c t Hc zs ys ds l m Hd Hl Hm)|].
    intros v [w []] [H1 H2]. apply (@sim_ret res tres runrel (fun i => (BSuccess (fst (v i)) (b_pss (s i)), set_drv (D i) (s i) (snd (v i))))).
    split; [|exact (@set_drv_rel s z (fun i => snd (v i)) Hs H2)]. exists (fun i => fst (v i)), (fun i => b_pss (s i)). split; [exact H1|]. split; [exact (br_pss Hs)|reflexivity].
  Qed.
  Lemma merge_sim s z c t rt rf qt qf : brel s z -> trel c t -> rsrel rt qt -> rsrel rf qf ->
    sim runrel (fun i => merge (D i) (s i) (c i) (rt i) (rf i)) (merge T z t qt qf).
  Proof.
    intros Hs Hc Ht Hf. pose proof (br_drv Hs) as Hd.
    destruct z as [zm [] zc zp zd zs zi].
    destruct qt as [ts tp|], qf as [fs fp|]; cbn [rsrel] in Ht, Hf.
    - destruct Ht as (w & p & Hw & Hp & Et), Hf as (w' & p' & Hw' & Hp' & Ef).
      eapply sim_ext; [intros i; rewrite Et, Ef; reflexivity|]. cbn [merge].
      destruct tp as [|x tp].
      2:{ eapply sim_ext with (ps' := fun i => Fail pss_err); [|apply (@sim_fail res tres)].
          intros i. destruct (prel_cons_inv Hp i) as (y & q & ->). reflexivity. }
      destruct fp as [|x fp].
      2:{ eapply sim_ext with (ps' := fun i => Fail pss_err); [|apply (@sim_fail res tres)].
          intros i. destruct (prel_cons_inv Hp' i) as (y & q & ->). rewrite (prel_nil_inv Hp i). reflexivity. }
      eapply (@sim_ext res tres) with (ps' := fun i => if negb (length (w i : list V) =? length (w' i : list V))%nat then Fail (Eyre "truthy and falsy universe have different result lengths")
        else r <- cmuxes (D i) (b_drv (s i)) (c i) (w i) (w' i) ;; Ret (BSuccess (fst r) (b_pss (s i)), set_drv (D i) (s i) (snd r))).
      { intros i. rewrite (prel_nil_inv Hp i), (prel_nil_inv Hp' i). reflexivity. }
      match goal with |- sim _ ?p _ => change (sim runrel p (if negb (length ts =? length fs)%nat then Fail (Eyre "truthy and falsy universe have different result lengths")
        else r <- cmuxes T tt t ts fs ;; Ret (BSuccess (fst r) zp, set_drv T (mkB zm tt zc zp zd zs zi) (snd r)))) end.
      destruct (length ts =? length fs)%nat eqn:L.
      + eapply sim_ext; [intros i; rewrite (proj1 Hw i), (proj1 Hw' i), L; reflexivity|].
        cbn [negb]. cbn [b_drv]. exact (@finish_sim s _ c t (fun i => b_drv (s i)) w w' ts fs Hs Hc Hd Hw Hw').
      + eapply sim_ext; [intros i; rewrite (proj1 Hw i), (proj1 Hw' i), L; reflexivity|]. apply (@sim_fail res tres).
    - destruct Ht as (w & p & Hw & Hp & Et). eapply sim_ext; [intros i; rewrite Et, Hf; reflexivity|]. cbn [merge]. destruct tp as [|x tp].
      2:{ eapply sim_ext with (ps' := fun i => Fail pss_err); [|apply (@sim_fail res tres)].
          intros i. destruct (prel_cons_inv Hp i) as (y & q & ->). reflexivity. }
      eapply sim_ext; [intros i; rewrite (prel_nil_inv Hp i); reflexivity|]. cbn [b_drv].
      eapply (@sim_bind (list V * St) (list (tb F) * unit) res tres); [exact (@noise_sim ts (fun i => b_drv (s i)) w Hd Hw)|]. intros v [u []] [H1 H2].
      exact (@finish_sim s _ c t (fun i => snd (v i)) w (fun i => fst (v i)) ts u Hs Hc H2 Hw H1).
    - destruct Hf as (w & p & Hw & Hp & Ef). eapply sim_ext; [intros i; rewrite Ht, Ef; reflexivity|]. cbn [merge]. destruct fp as [|x fp].
      2:{ eapply sim_ext with (ps' := fun i => Fail pss_err); [|apply (@sim_fail res tres)].
          intros i. destruct (prel_cons_inv Hp i) as (y & q & ->). reflexivity. }
      eapply sim_ext; [intros i; rewrite (prel_nil_inv Hp i); reflexivity|]. cbn [b_drv].
      eapply (@sim_bind (list V * St) (list (tb F) * unit) res tres); [exact (@noise_sim fs (fun i => b_drv (s i)) w Hd Hw)|]. intros v [u []] [H1 H2].
      exact (@finish_sim s _ c t (fun i => snd (v i)) (fun i => fst (v i)) w u fs Hs Hc H2 H1 Hw).
    - eapply sim_ext; [intros i; rewrite Ht, Hf; reflexivity|]. cbn [merge]. apply (@sim_ret res tres runrel (fun i => (BTrap, s i))).
      split; [intros i; reflexivity|exact Hs].
  Qed.

  Variable code : list (bopc F).
  Theorem run_sim fuel : forall s z, brel s z -> sim runrel (fun i => run_inner (D i) code fuel (s i)) (run_inner T code fuel z).
  Proof.
    induction fuel as [|fuel IH]; intros s z Hs; cbn [run_inner]; [apply (@sim_fail res tres)|].
    pose proof (br_ip Hs) as Hip. destruct z as [zm [] zc zp zd zs zi]. cbn [b_ip b_drv b_ctx b_pss b_cd b_stack] in *.
    destruct (nth_error code zi) as [o|] eqn:Eo.
    2:{ eapply sim_ext; [intros i; rewrite Hip, Eo; reflexivity|]. apply (@sim_fail res tres). }
    eapply sim_ext; [intros i; rewrite Hip, Eo; reflexivity|].
    assert (Gen : sim runrel (fun i => s' <- step (D i) (s i) o ;; run_inner (D i) code fuel s') (s' <- step T (mkB zm tt zc zp zd zs zi) o ;; run_inner T code fuel s')).
    { eapply (@sim_bind bs tst res tres); [exact (step_sim o Hs)|]. intros x y. apply IH. }
    destruct o; try exact Gen.
    - (* JumpIf *)
      clear Gen. eapply (@sim_bind V (tb F) res tres); [apply (@sim_leaf V (tb F)); exact (read_sim c Hs)|]. intros v t Hv.
      assert (E : forall i, r_bool (v i) = tbool t) by (intros i; apply r_bool_ok; exact Hv).
      cbn [d_bool rep3_bdriver tagged_driver]. destruct (tbool t) as [[|]|] eqn:Et.
      + eapply sim_ext; [intros i; rewrite E; reflexivity|]. apply IH. exact (set_ip_rel loc Hs).
      + eapply sim_ext; [intros i; rewrite E; reflexivity|]. apply IH. exact (next_rel Hs).
      + eapply sim_ext; [intros i; rewrite E; reflexivity|].
        destruct (loc <=? zi)%nat eqn:L.
        { apply (@sim_fail res tres). }
        pose proof (br_ctx Hs) as Hc. cbn [b_ctx b_ip b_drv] in *. destruct zc; cbn [crel] in Hc.
        { destruct Hc as (w & _ & Ec). eapply sim_ext; [intros i; rewrite Ec; reflexivity|]. apply (@sim_fail res tres). }
        eapply sim_ext; [intros i; rewrite Hc; reflexivity|].
        assert (Hf := r_fork_ok (Seed := Seed) (fun i => b_drv (s i)) (br_drv Hs)). destruct Hf as (F1 & F2 & F3).
        eapply (@sim_bind V (tb F) res tres); [apply (@sim_leaf V (tb F)); exact (@not_sim v _ Hv)|]. intros nv nt Hnv.
        eapply (@sim_bind bs tst res tres); [apply (@sim_leaf bs tst); exact (@universe_sim s _ (fun i => fst (fst (r_fork (Seed := Seed) (b_drv (s i))))) v t c rone loc Hs F1 Hv)|]. intros st zt Hst.
        eapply (@sim_bind bs tst res tres); [apply (@sim_leaf bs tst); exact (@universe_sim s _ (fun i => snd (fst (r_fork (Seed := Seed) (b_drv (s i))))) nv nt c 0 (zi + 1) Hs F2 Hnv)|]. intros sf zf Hsf.
        eapply (@sim_bind res tres res tres); [exact (IH st zt Hst)|]. intros rt qt [H1 _].
        eapply (@sim_bind res tres res tres); [exact (IH sf zf Hsf)|]. intros rf qf [H2 _].
        apply (@merge_sim (fun i => mkB [] (snd (r_fork (Seed := Seed) (b_drv (s i)))) None (b_pss (s i)) (b_cd (s i)) (b_stack (s i)) zi)
                 (mkB [] tt None zp zd zs zi) v t (fun i => fst (rt i)) (fun i => fst (rf i)) (fst qt) (fst qf)); try assumption.
        destruct Hs as [A B C E' G I J]. constructor; try assumption; try (intros i; reflexivity). exact lrel_nil.
    - apply (@sim_ret res tres runrel (fun i => (BTrap, s i))). split; [intros i; reflexivity|exact Hs].
    - apply (@sim_leaf res tres). exact (stop_sim pointer size Hs).
  Qed.
End Sim.
