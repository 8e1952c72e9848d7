(** * The interpreter of the MPC-VM does not look at the values

    Runs of the interpreter on values related by a map [f] that commutes with public constants and
    with [is_shared] make the same calls to the driver, on related values. *)
From Coq Require Import String List Arith NArith Bool Lia.
From Verif Require Import Proc Alg VmDriver Vm.
Import ListNotations.
Set Implicit Arguments.
Local Open Scope vm_scope.

Section Vsim.
  Context {F W V : Type} (f : W -> V).
  Fixpoint vsim {A B} (g : A -> B) (q : vmp F W A) (q' : vmp F V B) {struct q} : Prop :=
    match q, q' with
    | VRet a, VRet b => b = g a
    | VFail e, VFail e' => e' = e
    | VBop o x y k, VBop o' x' y' k' => o' = o /\ x' = f x /\ y' = f y /\ forall w, vsim g (k w) (k' (f w))
    | VUop o x k, VUop o' x' k' => o' = o /\ x' = f x /\ forall w, vsim g (k w) (k' (f w))
    | VCmux c x y k, VCmux c' x' y' k' => c' = f c /\ x' = f x /\ y' = f y /\ forall w, vsim g (k w) (k' (f w))
    | VIsZero x a k, VIsZero x' a' k' => x' = f x /\ a' = a /\ forall w, vsim g (k w) (k' w)
    | VToIndex x k, VToIndex x' k' => x' = f x /\ forall w, vsim g (k w) (k' w)
    | VNum2Bits x n k, VNum2Bits x' n' k' => x' = f x /\ n' = n /\ forall w, vsim g (k w) (k' (map f w))
    | VAddBits x y k, VAddBits x' y' k' => x' = map f x /\ y' = map f y /\ forall w z, vsim g (k (w, z)) (k' (map f w, f z))
    | VOpen x k, VOpen x' k' => x' = f x /\ forall w, vsim g (k w) (k' w)
    | _, _ => False
    end.
  Lemma vsim_bind {A B A1 B1} (g : A -> B) (h : A1 -> B1) q : forall q' k k', vsim g q q' -> (forall a, vsim h (k a) (k' (g a))) -> vsim h (vbind q k) (vbind q' k').
  Proof.
    induction q as [a|e|o x y k1 IH|o x k1 IH|c x y k1 IH|x al k1 IH|x k1 IH|x n k1 IH|x y k1 IH|x k1 IH];
      intros [] k k' S K; cbn [vsim vbind] in *; try contradiction.
    - subst. apply K.
    - exact S.
    - destruct S as (-> & -> & -> & S). repeat split; auto.
    - destruct S as (-> & -> & S). repeat split; auto.
    - destruct S as (-> & -> & -> & S). repeat split; auto.
    - destruct S as (-> & -> & S). repeat split; auto.
    - destruct S as (-> & S). repeat split; auto.
    - destruct S as (-> & -> & S). repeat split; auto.
    - destruct S as (-> & -> & S). repeat split; auto.
    - destruct S as (-> & S). repeat split; auto.
  Qed.
End Vsim.
Arguments vsim_bind {F W V f A B A1 B1 g h q q' k k'}.

Section Maps.
  Context {W V : Type} (f : W -> V).
  Definition map_if (x : ifctx W) : ifctx V := match x with IfPublic => IfPublic | IfShared a b c => IfShared (f a) (f b) (f c) end.
  Definition map_ret (x : W * list W) : V * list V := (f (fst x), map f (snd x)).
  Definition map_fctx (x : fctx W) : fctx V := mkF (f_ip x) (f_ret x) (map f (f_vars x)) (f_body x) (map map_ret (f_shared x)).
  Fixpoint map_comp (c : comp W) : comp V :=
    mkC (c_t c) (c_prov c) (c_ret c) (c_off c) (map (map f) (c_fs c)) (c_is c) (map map_if (c_if c)) (map map_fctx (c_fn c)) (map map_comp (c_subs c)).
  Definition map_mst (m : mst W) : mst V := mkM (m_ip m) (m_body m) (map f (m_vars m)) (map map_ret (m_shared m)) (map_comp (m_c m)) (map f (m_sig m)).
  Definition map_sres (r : sres (V := W)) : sres (V := V) := match r with Goto m => Goto (map_mst m) | Halt m => Halt (map_mst m) end.

  Lemma map_comp_t c : c_t (map_comp c) = c_t c. Proof. destruct c; reflexivity. Qed.
  Lemma map_comp_prov c : c_prov (map_comp c) = c_prov c. Proof. destruct c; reflexivity. Qed.
  Lemma map_comp_ret c : c_ret (map_comp c) = c_ret c. Proof. destruct c; reflexivity. Qed.
  Lemma map_comp_off c : c_off (map_comp c) = c_off c. Proof. destruct c; reflexivity. Qed.
  Lemma map_comp_fs c : c_fs (map_comp c) = map (map f) (c_fs c). Proof. destruct c; reflexivity. Qed.
  Lemma map_comp_is c : c_is (map_comp c) = c_is c. Proof. destruct c; reflexivity. Qed.
  Lemma map_comp_if c : c_if (map_comp c) = map map_if (c_if c). Proof. destruct c; reflexivity. Qed.
  Lemma map_comp_fn c : c_fn (map_comp c) = map map_fctx (c_fn c). Proof. destruct c; reflexivity. Qed.
  Lemma map_comp_subs c : c_subs (map_comp c) = map map_comp (c_subs c). Proof. destruct c; reflexivity. Qed.
  Lemma map_set_fs c s : map_comp (c_set_fs c s) = c_set_fs (map_comp c) (map (map f) s). Proof. destruct c; reflexivity. Qed.
  Lemma map_set_is c s : map_comp (c_set_is c s) = c_set_is (map_comp c) s. Proof. destruct c; reflexivity. Qed.
  Lemma map_set_if c s : map_comp (c_set_if c s) = c_set_if (map_comp c) (map map_if s). Proof. destruct c; reflexivity. Qed.
  Lemma map_set_fn c s : map_comp (c_set_fn c s) = c_set_fn (map_comp c) (map map_fctx s). Proof. destruct c; reflexivity. Qed.
  Lemma map_set_subs c s : map_comp (c_set_subs c s) = c_set_subs (map_comp c) (map map_comp s). Proof. destruct c; reflexivity. Qed.
  Lemma map_set_ret c s : map_comp (c_set_ret c s) = c_set_ret (map_comp c) s. Proof. destruct c; reflexivity. Qed.
  Lemma map_set_prov c s : map_comp (c_set_prov c s) = c_set_prov (map_comp c) s. Proof. destruct c; reflexivity. Qed.
  Lemma map_init t o : map_comp (init_comp t o) = init_comp t o. Proof. reflexivity. Qed.
  Lemma slice_map {A B} (g : A -> B) a n l : slice a n (map g l) = option_map (map g) (slice a n l).
  Proof. unfold slice. rewrite map_length. destruct (_ <=? _)%nat; [|reflexivity]. cbn. now rewrite skipn_map, firstn_map. Qed.
  Lemma splice_map {A B} (g : A -> B) a xs l : splice a (map g xs) (map g l) = option_map (map g) (splice a xs l).
  Proof. unfold splice. rewrite !map_length. destruct (_ <=? _)%nat; [|reflexivity]. cbn. now rewrite !map_app, skipn_map, firstn_map. Qed.
  Lemma nth_error_map' {A B} (g : A -> B) l n : nth_error (map g l) n = option_map g (nth_error l n).
  Proof. revert n. induction l; intros [|n]; cbn; auto. Qed.
End Maps.
#[global] Arguments map_comp : simpl never.

Section Sim.
  Context {F W V : Type} `{CR : CRing F} (f : W -> V) (pubw : F -> W) (pubv : F -> V) (shw : W -> bool) (shv : V -> bool).
  Hypothesis f_pub : forall x, f (pubw x) = pubv x.
  Hypothesis f_sh : forall w, shv (f w) = shw w.
  Notation sim := (vsim (F := F) f).
  Notation mc := (map_comp f).
  Notation mm := (map_mst f).
  Notation pw := (fun r => (f (fst r), mc (snd r))).
  Notation pn := (fun r => (fst r, mc (snd r))).
  Notation pl := (fun r => (map f (fst r), mc (snd r))).
  Notation id' A := (fun a : A => a).

  Lemma f_zero : vzero pubv = f (vzero pubw). Proof. unfold vzero. now rewrite f_pub. Qed.
  Lemma f_one : vone pubv = f (vone pubw). Proof. unfold vone. now rewrite f_pub. Qed.
  Lemma ret_sim {A B} (g : A -> B) a b : b = g a -> sim g (VRet (F := F) a) (VRet b). Proof. auto. Qed.
  Lemma opt_sim {A B} (g : A -> B) e o o' : o' = option_map g o -> sim g (opt (F := F) e o) (opt e o').
  Proof. intros ->. destruct o; cbn; auto. Qed.

  Ltac mp := repeat progress (rewrite ?map_set_fs, ?map_set_is, ?map_set_if, ?map_set_fn, ?map_set_subs, ?map_set_ret, ?map_set_prov,
    ?map_comp_t, ?map_comp_prov, ?map_comp_ret, ?map_comp_off, ?map_comp_fs, ?map_comp_is, ?map_comp_if, ?map_comp_fn, ?map_comp_subs).
  Ltac spl := repeat match goal with |- _ /\ _ => split end.
  Ltac nmp := cbn [fst snd]; mp; reflexivity.

  Lemma pop_field_sim c : sim pw (pop_field c) (pop_field (mc c)).
  Proof. unfold pop_field. mp. destruct (c_fs c) as [|[|v g] s]; cbn [map vsim]; auto. nmp. Qed.
  Lemma push_field_sim v c : sim mc (push_field v c) (push_field (f v) (mc c)).
  Proof. unfold push_field. mp. destruct (c_fs c); cbn [map vsim]; auto. nmp. Qed.
  Lemma pop_index_sim c : sim pn (pop_index c) (pop_index (mc c)).
  Proof. unfold pop_index. mp. destruct (c_is c) as [|[|v g] s]; cbn [map vsim]; auto. nmp. Qed.
  Lemma push_index_sim v c : sim mc (push_index v c) (push_index v (mc c)).
  Proof. unfold push_index. mp. destruct (c_is c); cbn [map vsim]; auto. nmp. Qed.
  Lemma push_fields_sim vs : forall c, sim mc (push_fields vs c) (push_fields (map f vs) (mc c)).
  Proof. induction vs as [|v vs IH]; intros c; cbn [push_fields map]; [reflexivity|]. eapply vsim_bind; [apply push_field_sim|apply IH]. Qed.
  Lemma pop_fields_sim n : forall c, sim pl (pop_fields n c) (pop_fields n (mc c)).
  Proof.
    induction n as [|n IH]; intros c; cbn [pop_fields]; [reflexivity|]. eapply vsim_bind; [apply pop_field_sim|]. intros r. cbn [fst snd].
    eapply vsim_bind; [apply IH|]. intros q. reflexivity.
  Qed.
  Lemma if_shared_map l : if_shared (map (map_if f) l) = if_shared l.
  Proof. unfold if_shared. induction l as [|[] l IH]; cbn; auto. Qed.
  Lemma shared_cond_map l : shared_cond (map (map_if f) l) = option_map f (shared_cond l).
  Proof. induction l as [|[] l IH]; cbn; auto. Qed.
  Lemma push_shared_sim c v : sim mc (push_shared pubw c v) (push_shared pubv (mc c) (f v)).
  Proof.
    unfold push_shared. mp. rewrite shared_cond_map. destruct (shared_cond (c_if c)); cbn [option_map vsim]; spl; auto using f_one.
    - intros u. nmp.
    - intros u. mp. cbn [map map_if]. now rewrite f_one.
  Qed.
  Lemma toggle_sim l : sim (map (map_if f)) (toggle (F := F) l) (toggle (map (map_if f) l)).
  Proof. induction l as [|[|a b c] l IH]; cbn [toggle map map_if vsim]; auto.
    - eapply vsim_bind; [exact IH|]. reflexivity.
    - spl; auto.
  Qed.
  Lemma pop_if_sim c : sim mc (pop_if c) (pop_if (mc c)).
  Proof. unfold pop_if. mp. destruct (c_if c); cbn [map vsim]; auto. nmp. Qed.
  Lemma store_into_sim cond base n : forall arr c, sim pl (store_into cond base n arr c) (store_into (option_map f cond) base n (map f arr) (mc c)).
  Proof.
    induction n as [|n IH]; intros arr c; cbn [store_into]; [reflexivity|].
    eapply vsim_bind; [apply opt_sim, nth_error_map'|]. intros old. eapply vsim_bind; [apply pop_field_sim|]. intros r. cbn [fst snd].
    eapply (vsim_bind (g := f)); [destruct cond; cbn; auto|]. intros x.
    eapply (vsim_bind (g := map f)); [apply opt_sim; exact (splice_map f _ [x] arr)|]. intros a. apply IH.
  Qed.
  Lemma store_cond_map c : store_cond (mc c) = option_map f (store_cond c).
  Proof. unfold store_cond. mp. apply shared_cond_map. Qed.
  Lemma all_eq_sim l : forall a, sim f (all_eq (F := F) l a) (all_eq (map (fun x => (f (fst x), f (snd x))) l) (f a)).
  Proof. induction l as [|[x y] l IH]; intros a; cbn; auto; spl; auto. Qed.
  Lemma not_returned_sim l : forall a, sim f (not_returned (F := F) l a) (not_returned (map (map_ret f) l) (f a)).
  Proof. induction l as [|[x y] l IH]; intros a; cbn; auto; spl; auto. Qed.
  Lemma mul_all_sim c l : sim (map f) (mul_all (F := F) c l) (mul_all (f c) (map f l)).
  Proof. induction l as [|x l IH]; cbn [mul_all map vsim]; auto; spl; auto. intros w. eapply vsim_bind; [exact IH|]. reflexivity. Qed.
  Lemma add_all_sim a : forall l, sim (map f) (add_all (F := F) a l) (add_all (map f a) (map f l)).
  Proof. induction a as [|x a IH]; intros [|y l]; cbn [add_all map vsim]; auto; spl; auto. intros w. eapply vsim_bind; [apply IH|]. reflexivity. Qed.
  Lemma sum_returns_sim l : forall a, sim (map f) (sum_returns (F := F) l a) (sum_returns (map (map_ret f) l) (map f a)).
  Proof.
    induction l as [|[c vs] l IH]; intros a; cbn [sum_returns map map_ret fst snd]; [reflexivity|].
    eapply vsim_bind; [apply mul_all_sim|]. intros xs. eapply vsim_bind; [apply add_all_sim|]. intros b. apply IH.
  Qed.
  Lemma repeat_zero n : repeat (vzero pubv) n = map f (repeat (vzero pubw) n).
  Proof. rewrite f_zero. induction n; cbn; congruence. Qed.
  Lemma map_set_c m c : mm (set_c m c) = set_c (mm m) (mc c). Proof. reflexivity. Qed.
  Lemma shared_fun_return_sim m : sim mm (shared_fun_return pubw m) (shared_fun_return pubv (mm m)).
  Proof.
    unfold shared_fun_return. cbn [map_mst m_shared m_c]. mp. rewrite repeat_zero.
    eapply vsim_bind; [apply sum_returns_sim|]. intros a. eapply vsim_bind; [apply push_fields_sim|]. reflexivity.
  Qed.
  Lemma pop_function_sim m : sim mm (pop_function m) (pop_function (mm m)).
  Proof. unfold pop_function. cbn [map_mst m_c]. mp. destruct (c_fn (m_c m)) as [|g l]; cbn [map vsim]; auto. unfold map_mst. cbn. nmp. Qed.
  Lemma pad_map n l : pad pubv n (map f l) = map f (pad pubw n l).
  Proof. unfold pad. now rewrite map_app, map_length, repeat_zero. Qed.
  Lemma cmp_acc_sim cfg name args outs :
    match cmp_accelerator pubw cfg name args outs with
    | None => cmp_accelerator pubv cfg name (map f args) outs = None
    | Some q => exists q', cmp_accelerator pubv cfg name (map f args) outs = Some q' /\ sim (fun r => (map f (fst r), map f (snd r))) q q'
    end.
  Proof.
    unfold cmp_accelerator. destruct (_ && _); [|destruct (_ && _); [|destruct (_ && _); [|reflexivity]]]; eexists; split; try reflexivity.
    - destruct args as [|a [|]]; cbn [map vsim]; auto; spl; auto.
    - rewrite map_length. destruct (Nat.even _); [|reflexivity]. cbn [vsim]. rewrite firstn_map, skipn_map. spl; auto.
    - destruct args as [|a [|]]; cbn [map vsim]; auto; rewrite <- ?f_zero, <- ?f_one; spl; auto. repeat split; auto.
  Qed.

  Variable ps : parsed F.
  Notation ms := (map_sres f).
  Lemma next_sim m m' : m' = mm m -> sim ms (next (F := F) m) (next m'). Proof. intros ->. reflexivity. Qed.
  Lemma jump_sim m m' ip : m' = mm m -> sim ms (jump (F := F) m ip) (jump m' ip). Proof. intros ->. reflexivity. Qed.
  Lemma next_c_sim m c : sim ms (next_c (F := F) m c) (next_c (mm m) (mc c)). Proof. reflexivity. Qed.
  Notation pcs := (fun r => (mc (fst r), map f (snd r))).
  Section Step.
    Variables (rw : comp W -> list W -> vmp F W (comp W * list W)) (rv : comp V -> list V -> vmp F V (comp V * list V)).
    Hypothesis r_sim : forall c sg, sim pcs (rw c sg) (rv (mc c) (map f sg)).
    Lemma start_comps_sim l : forall subs sg, sim (fun r => (map mc (fst r), map f (snd r))) (start_comps rw l subs sg) (start_comps rv (map mc l) (map mc subs) (map f sg)).
    Proof.
      induction l as [|c l IH]; intros subs sg; cbn [start_comps map]; [reflexivity|]. mp.
      eapply (vsim_bind (g := pcs)); [destruct (_ =? _)%nat; [apply r_sim|reflexivity]|].
      intros r. cbn [fst snd]. specialize (IH (subs ++ [fst r]) (snd r)). rewrite map_app in IH. exact IH.
    Qed.
    Lemma component_at_sim c i b code ix : sim (fun r => (mc (fst r), snd r)) (component_at (F := F) c i b code ix) (component_at (mc c) i b code ix).
    Proof.
      unfold component_at. mp. eapply vsim_bind; [apply opt_sim, nth_error_map'|]. intros s. destruct b; [|reflexivity]. mp.
      eapply (vsim_bind (g := id' nat)); [apply opt_sim; destruct (nth_error (t_maps (c_t s)) code); reflexivity|]. reflexivity.
    Qed.
    Ltac st := cbn [map_mst m_ip m_body m_vars m_shared m_c m_sig fst snd]; mp.
    Ltac bnd L := eapply vsim_bind; [apply L|]; intros; st.
    Lemma binop_sim o m : sim ms (step_binop (F := F) o m) (step_binop o (mm m)).
    Proof.
      unfold step_binop. st. bnd pop_field_sim. bnd pop_field_sim. cbn [vsim]. spl; auto. intros w.
      bnd push_field_sim. apply next_c_sim.
    Qed.
    Lemma div_sim m : sim ms (step_div pubw m) (step_div pubv (mm m)).
    Proof.
      unfold step_div. st. bnd pop_field_sim. bnd pop_field_sim. rewrite store_cond_map.
      eapply (vsim_bind (g := f)); [destruct (store_cond _); cbn; auto; rewrite f_one; auto|]. intros y. cbn [vsim]. spl; auto. intros w.
      bnd push_field_sim. apply next_c_sim.
    Qed.
    Lemma opt_id {A} (o : option A) : o = option_map (fun a => a) o. Proof. destruct o; reflexivity. Qed.
    Lemma call_sim s n m : sim ms (step_call pubw ps s n m) (step_call pubv ps s n (mm m)).
    Proof.
      unfold step_call. st. eapply (vsim_bind (g := id' fundecl)); [apply opt_sim, opt_id|]. intros fd.
      eapply (vsim_bind (g := map f)); [apply opt_sim; destruct (c_fs (m_c m)); reflexivity|]. intros fr. rewrite map_length.
      destruct (_ <? _)%nat; [reflexivity|]. rewrite firstn_map, <- map_rev. generalize (rev (firstn (fd_params fd) fr)). intros args.
      destruct (fn_accelerator _ _).
      - destruct args as [|a [|]]; cbn [map vsim]; auto; spl; auto. intros w. bnd push_field_sim. apply next_c_sim.
      - eapply (vsim_bind (g := map f)); [apply opt_sim; rewrite repeat_zero; apply splice_map|]. intros vs. cbn [vsim map_sres].
        unfold map_mst. cbn. mp. reflexivity.
    Qed.
    Lemma create_sim s n m : sim ms (step_create ps rw s n m) (step_create ps rv s n (mm m)).
    Proof.
      unfold step_create. st. bnd pop_index_sim. bnd pop_index_sim. eapply (vsim_bind (g := id' templ)); [apply opt_sim, opt_id|]. intros t. st.
      eapply vsim_bind.
      - rewrite <- (map_map _ mc (fun _ => _)) || idtac.
        match goal with |- sim _ (start_comps rw (map ?g ?l) ?s ?x) (start_comps rv (map ?g' ?l) _ _) =>
          replace (map g' l) with (map mc (map g l)) by (rewrite map_map; reflexivity) end. apply start_comps_sim.
      - intros r. apply next_sim. unfold set_sig, set_c, map_mst. cbn. nmp.
    Qed.
    Lemma output_sim b k n m : sim ms (step_output b k n m) (step_output b k n (mm m)).
    Proof.
      unfold step_output. st. bnd pop_index_sim. bnd pop_index_sim. bnd component_at_sim.
      eapply vsim_bind; [apply opt_sim, slice_map|]. intros vs. bnd push_fields_sim. apply next_c_sim.
    Qed.
    Lemma input_sim b k n m : sim ms (step_input rw b k n m) (step_input rv b k n (mm m)).
    Proof.
      unfold step_input. st. rewrite if_shared_map. destruct (if_shared _); [reflexivity|].
      bnd pop_index_sim. bnd pop_index_sim. bnd pop_fields_sim. bnd component_at_sim.
      eapply vsim_bind; [apply opt_sim; rewrite <- map_rev; apply splice_map|]. intros sg.
      cbn [c_prov c_set_prov c_t]. st.
      eapply (vsim_bind (g := pcs)); [fold (c_set_prov (mc (fst a2)) (c_prov (fst a2) + n)); fold (c_set_prov (fst a2) (c_prov (fst a2) + n)); rewrite <- map_set_prov; destruct (_ =? _)%nat; [apply r_sim|reflexivity]|]. intros r. st.
      eapply (vsim_bind (g := map mc)); [apply opt_sim; exact (splice_map mc _ [fst r] _)|]. intros subs.
      apply next_sim. unfold set_sig, set_c, map_mst. cbn. nmp.
    Qed.
    Lemma if_sim j m : sim ms (step_if pubw shw j m) (step_if pubv shv j (mm m)).
    Proof.
      unfold step_if. st. bnd pop_field_sim. rewrite f_sh. destruct (shw _).
      - bnd push_shared_sim. apply next_c_sim.
      - cbn [vsim]. spl; auto. intros []; [apply jump_sim|apply next_sim]; rewrite map_set_c; nmp.
    Qed.
    Lemma end_truthy_sim j m : sim ms (step_end_truthy (F := F) j m) (step_end_truthy j (mm m)).
    Proof.
      unfold step_end_truthy. st. destruct (c_if (m_c m)) as [|[|a b c] l] eqn:E; cbn [map map_if vsim]; auto.
      - apply jump_sim. rewrite map_set_c. nmp.
      - destruct (_ =? _)%nat; [apply next_sim; rewrite map_set_c; nmp|].
        eapply vsim_bind; [apply (toggle_sim (IfShared a b c :: l))|]. intros l'. apply next_sim. rewrite map_set_c. nmp.
    Qed.
    Lemma map_set_shared m r : mm (set_shared m r) = set_shared (mm m) (map (map_ret f) r). Proof. reflexivity. Qed.
    Lemma map_set_vars m r : mm (set_vars m r) = set_vars (mm m) (map f r). Proof. reflexivity. Qed.
    Lemma shared_snoc l a vs : map (map_ret f) l ++ [(f a, map f vs)] = map (map_ret f) (l ++ [(a, vs)]).
    Proof. now rewrite map_app. Qed.
    Lemma return_fun_sim m : sim ms (step_return_fun pubw m) (step_return_fun pubv (mm m)).
    Proof.
      unfold step_return_fun. st. rewrite shared_cond_map. destruct (_ =? 1)%nat.
      - destruct (shared_cond _) as [cd|]; cbn [option_map].
        + bnd not_returned_sim. bnd pop_field_sim. apply next_sim. rewrite map_set_shared, map_set_c, <- shared_snoc. reflexivity.
        + destruct (m_shared m) as [|e l] eqn:E; cbn [map].
          * destruct (c_fs (m_c m)) as [|g s]; cbn [map vsim]; auto. eapply vsim_bind.
            -- rewrite <- map_rev, <- map_set_fs. apply push_fields_sim.
            -- intros c. eapply vsim_bind; [rewrite <- map_set_c; apply pop_function_sim|]. intros m'. now apply next_sim.
          * rewrite f_one. change (map_ret f e :: map (map_ret f) l) with (map (map_ret f) (e :: l)). bnd not_returned_sim. bnd pop_field_sim.
            eapply vsim_bind.
            -- match goal with |- sim _ (shared_fun_return _ ?x) (shared_fun_return _ ?y) => replace y with (mm x) by (rewrite map_set_shared, map_set_c, <- shared_snoc; reflexivity) end.
               apply shared_fun_return_sim.
            -- intros m'. eapply vsim_bind; [apply pop_function_sim|]. intros m2. now apply next_sim.
      - bnd pop_index_sim. rewrite pad_map, skipn_map, firstn_map.
        cbn [set_vars set_c m_shared map_mst m_c]. mp.
        destruct (shared_cond _) as [cd|]; cbn [option_map].
        + bnd not_returned_sim. apply next_sim. rewrite map_set_shared, <- shared_snoc. reflexivity.
        + destruct (m_shared m) as [|e l] eqn:E; cbn [map].
          * destruct (c_is _) as [|i1 is]; [reflexivity|]. destruct (c_fs _) as [|g s]; cbn [map]; [reflexivity|]. eapply vsim_bind.
            -- rewrite <- map_set_is, <- map_set_fs. apply push_fields_sim.
            -- intros c. eapply vsim_bind.
               ++ match goal with |- sim _ (pop_function ?x) (pop_function ?y) => replace y with (mm x) by reflexivity end. apply pop_function_sim.
               ++ intros m'. now apply next_sim.
          * rewrite f_one. change (map_ret f e :: map (map_ret f) l) with (map (map_ret f) (e :: l)). bnd not_returned_sim.
            eapply vsim_bind.
            -- match goal with |- sim _ (shared_fun_return _ ?x) (shared_fun_return _ ?y) => replace y with (mm x) by (rewrite map_set_shared, <- shared_snoc; reflexivity) end.
               apply shared_fun_return_sim.
            -- intros m'. eapply vsim_bind; [apply pop_function_sim|]. intros m2. now apply next_sim.
    Qed.
    Lemma combine_map l : forall l', combine (map f l) (map f l') = map (fun x => (f (fst x), f (snd x))) (combine l l').
    Proof. induction l; intros [|]; cbn; auto. now rewrite IHl. Qed.
    Lemma step_sim m : sim ms (step pubw shw ps rw m) (step pubv shv ps rv (mm m)).
    Proof.
      unfold step. st. destruct (nth_error _ _) as [op|]; [|reflexivity].
      destruct op; try (apply return_fun_sim || apply call_sim || apply create_sim || apply output_sim || apply input_sim || apply if_sim || apply end_truthy_sim).
      - eapply (vsim_bind (g := id' F)); [apply opt_sim, opt_id|]. intros k. rewrite <- f_pub. bnd push_field_sim. apply next_c_sim.
      - bnd push_index_sim. apply next_c_sim.
      - bnd pop_index_sim. eapply vsim_bind; [apply opt_sim, slice_map|]. intros vs. bnd push_fields_sim. apply next_c_sim.
      - bnd pop_index_sim. rewrite store_cond_map. bnd store_into_sim. now apply next_sim.
      - bnd pop_index_sim. eapply vsim_bind; [apply opt_sim, slice_map|]. intros vs. bnd push_fields_sim. apply next_c_sim.
      - bnd pop_index_sim. rewrite store_cond_map. bnd store_into_sim. now apply next_sim.
      - reflexivity.
      - bnd shared_fun_return_sim. bnd pop_function_sim. now apply next_sim.
      - bnd pop_field_sim. cbn [vsim]. spl; auto. intros []; reflexivity.
      - bnd pop_if_sim. apply next_c_sim.
      - destruct o; apply div_sim || apply binop_sim.
      - bnd pop_field_sim. cbn [vsim]. spl; auto. intros w. bnd push_field_sim. apply next_c_sim.
      - bnd pop_fields_sim. bnd pop_fields_sim. rewrite combine_map, f_one. bnd all_eq_sim. bnd push_field_sim. apply next_c_sim.
      - bnd pop_index_sim. bnd pop_index_sim. bnd push_index_sim. apply next_c_sim.
      - bnd pop_index_sim. bnd pop_index_sim. bnd push_index_sim. apply next_c_sim.
      - bnd pop_field_sim. cbn [vsim]. spl; auto. intros w. bnd push_index_sim. apply next_c_sim.
      - destruct (_ <? _)%nat; reflexivity.
      - bnd pop_field_sim. cbn [vsim]. spl; auto. intros []; reflexivity.
      - bnd pop_field_sim. rewrite f_sh. destruct (_ && _); [|reflexivity]. cbn [vsim]. spl; auto. intros; reflexivity.
      - destruct (_ <? _)%nat; reflexivity.
      - reflexivity.
    Qed.
  End Step.

  Lemma run_comp_sim lw lv : (forall m, sim mm (lw m) (lv (mm m))) -> forall c sg, sim pcs (run_comp pubw ps lw c sg) (run_comp pubv ps lv (mc c) (map f sg)).
  Proof.
    intros L c sg. unfold run_comp. mp. pose proof (cmp_acc_sim (ps_acc ps) (t_name (c_t c)) [] 0) as K. cbn [map] in K.
    destruct (cmp_accelerator pubw _ _ [] 0) as [q|] eqn:E.
    - destruct K as (q' & -> & _). eapply vsim_bind; [apply opt_sim, slice_map|]. intros args.
      pose proof (cmp_acc_sim (ps_acc ps) (t_name (c_t c)) args (t_out (c_t c))) as K.
      destruct (cmp_accelerator pubw _ _ args _) as [q1|] eqn:E1; [|rewrite K; reflexivity].
      destruct K as (q2 & -> & K). eapply vsim_bind; [exact K|]. intros r. cbn [fst snd]. rewrite map_length. destruct (_ =? _)%nat; [|reflexivity].
      eapply vsim_bind; [apply opt_sim, splice_map|]. intros s1. eapply vsim_bind; [apply opt_sim, splice_map|]. intros s2. reflexivity.
    - rewrite K. eapply (vsim_bind (g := mm)); [|intros m; reflexivity].
      match goal with |- sim _ (lw ?x) (lv ?y) => replace y with (mm x) by (unfold map_mst; cbn; now rewrite repeat_zero) end. apply L.
  Qed.
  Lemma loop_sim n : forall m, sim mm (loop pubw shw ps n m) (loop pubv shv ps n (mm m)).
  Proof.
    induction n as [|n IH]; intros m; cbn [loop]; [reflexivity|].
    eapply vsim_bind; [apply step_sim, run_comp_sim, IH|]. intros [m'|m']; cbn [map_sres]; [apply IH|reflexivity].
  Qed.

  Notation mi := (map (fun x : string * W => (fst x, f (snd x)))).
  Lemma remove_key_map k l : remove_key k (mi l) = option_map (fun r => (f (fst r), mi (snd r))) (remove_key k l).
  Proof. induction l as [|[k1 a] l IH]; cbn; auto. destruct (String.eqb k k1); [reflexivity|]. rewrite IH. destruct (remove_key k l) as [[]|]; reflexivity. Qed.
  Lemma set_array_sim name off n : forall i ins sg, sim (fun r => (mi (fst r), map f (snd r))) (set_array (F := F) name off i n ins sg) (set_array name off i n (mi ins) (map f sg)).
  Proof.
    induction n as [|n IH]; intros i ins sg; cbn [set_array]; [reflexivity|].
    eapply vsim_bind; [apply opt_sim, remove_key_map|]. intros r. cbn [fst snd].
    eapply (vsim_bind (g := map f)); [apply opt_sim; exact (splice_map f _ [fst r] sg)|]. intros s. apply IH.
  Qed.
  Lemma set_inputs_sim l : forall ins sg, sim (map f) (set_inputs (F := F) l ins sg) (set_inputs l (mi ins) (map f sg)).
  Proof.
    induction l as [|[[name off] size] l IH]; intros ins sg; cbn [set_inputs]; [reflexivity|]. destruct (_ =? _)%nat.
    - eapply vsim_bind; [apply opt_sim, remove_key_map|]. intros r. cbn [fst snd].
      eapply (vsim_bind (g := map f)); [apply opt_sim; exact (splice_map f _ [fst r] sg)|]. intros s. apply IH.
    - eapply vsim_bind; [apply set_array_sim|]. intros r. apply IH.
  Qed.
  Lemma init_signals_sim : sim (map f) (init_signals pubw ps) (init_signals pubv ps).
  Proof. unfold init_signals. apply opt_sim. rewrite repeat_zero, f_one. exact (splice_map f 0 [vone pubw] _). Qed.
  Lemma set_flat_sim ins sg : sim (map f) (set_flat_inputs ps ins sg) (set_flat_inputs ps (map f ins) (map f sg)).
  Proof. unfold set_flat_inputs. rewrite map_length. destruct (_ =? _)%nat; [|reflexivity]. apply opt_sim, splice_map. Qed.
  Lemma call_main_sim n sg : sim (map f) (call_main pubw shw ps n sg) (call_main pubv shv ps n (map f sg)).
  Proof.
    unfold call_main. eapply (vsim_bind (g := id' templ)); [apply opt_sim, opt_id|]. intros t.
    eapply (vsim_bind (g := pcs)); [|intros r; reflexivity]. exact (run_comp_sim _ _ (loop_sim n) (init_comp t 1) sg).
  Qed.
  Lemma open_all_sim idx sg : sim (id' (list F)) (open_all idx sg) (open_all idx (map f sg)).
  Proof.
    induction idx as [|i idx IH]; cbn [open_all]; [reflexivity|]. eapply vsim_bind; [apply opt_sim, nth_error_map'|]. intros v. cbn [vsim]. split; auto.
    intros w. eapply vsim_bind; [exact IH|]. reflexivity.
  Qed.
  Lemma at_all_sim idx sg : sim (map f) (at_all (F := F) idx sg) (at_all idx (map f sg)).
  Proof.
    induction idx as [|i idx IH]; cbn [at_all]; [reflexivity|]. eapply vsim_bind; [apply opt_sim, nth_error_map'|]. intros v.
    eapply vsim_bind; [exact IH|]. reflexivity.
  Qed.
  Notation mres := (fun r : list F * list W => (fst r, map f (snd r))).
  Lemma post_sim k sg : sim mres (post_processing ps k sg) (post_processing ps k (map f sg)).
  Proof.
    unfold post_processing. destruct (_ <? _)%nat; [reflexivity|]. eapply vsim_bind; [apply open_all_sim|]. intros a.
    eapply vsim_bind; [apply at_all_sim|]. reflexivity.
  Qed.
  Lemma vm_run_sim n k ins : sim mres (vm_run pubw shw ps n k ins) (vm_run pubv shv ps n k (mi ins)).
  Proof.
    unfold vm_run. eapply vsim_bind; [apply init_signals_sim|]. intros s1. eapply vsim_bind; [apply set_inputs_sim|]. intros s2.
    eapply vsim_bind; [apply call_main_sim|]. intros s3. apply post_sim.
  Qed.
  Lemma vm_run_flat_sim n k ins : sim mres (vm_run_flat pubw shw ps n k ins) (vm_run_flat pubv shv ps n k (map f ins)).
  Proof.
    unfold vm_run_flat. eapply vsim_bind; [apply init_signals_sim|]. intros s1. eapply vsim_bind; [apply set_flat_sim|]. intros s2.
    eapply vsim_bind; [apply call_main_sim|]. intros s3. apply post_sim.
  Qed.
End Sim.
