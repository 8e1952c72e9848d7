(** * Properties of the front end of co-circom (C61-C63) *)
From Coq Require Import String List Arith NArith ZArith Lia Bool DecimalString.
From Verif Require Import Proc Alg Zp Rep3Net Rep3 Rep3Spec Rep3Proofs Rep3Wp Uint Binary Conv Exec NNet Shamir ShamirSpec ShamirPoly ShamirDeal Garble Circuits Garbled Yao
  VmDriver VmIdeal VmDriverWp Vm VmRun Circom CircomSpec CircomOk CircomRun CircomWit PropsShamir PropsVm PropsVmRun Concrete ConcreteS ConcreteU ConcreteY ConcreteV.
From Verif Require Import Rep3Net.
Import ListNotations.
Local Open Scope grp_scope.
Local Open Scope string_scope.
Local Open Scope list_scope.

(** ** C61: sharing inputs *)
Section C61.
  Context {F : Type} `{FU : FieldUint F} (hex_uint : string -> option N) (from_str : string -> option F).
  Context {S : Type} {DF : Draw S F}.
  (** a string is read as the number it stands for, and rejected if it stands for none *)
  Theorem C61_number s v : parse_field hex_uint from_str (JStr s) = Done v <-> number hex_uint from_str s v.
  Proof. exact (parse_iff hex_uint from_str s v). Qed.
  (** [split_input] succeeds exactly if every value of the input can be read; then the maps of the
      three parties have the same keys, the entries of public signals are the same everywhere and
      all others are shared, and the values are those of the input *)
  Theorem C61_split input pubs (g : S) :
    match split_input hex_uint from_str input pubs g with
    | Done ms => (forall name j, In (name, j) input -> readable hex_uint from_str j) /\
        exists m, pvec rel_in (fun i => map (on_snd (to_vm (F := F))) (ms i)) m /\ sorted m /\ (forall k t, has m k t <-> input_entry hex_uint from_str pubs input k t)
    | Failed _ => exists name j, In (name, j) input /\ ~ readable hex_uint from_str j
    end.
  Proof. exact (split_spec hex_uint from_str input pubs g). Qed.
  (** [split_input_shamir], any number of parties and any threshold *)
  Theorem C61_split_shamir input pubs t n (g : S) :
    match split_input_shamir hex_uint from_str input pubs t n g with
    | Done ms => (forall name j, In (name, j) input -> readable hex_uint from_str j) /\ length ms = n /\
        exists m, sorted m /\ (forall k v, has m k v <-> input_entry hex_uint from_str pubs input k v) /\
          (forall i, i < n -> map fst (nth i ms []) = map fst m) /\
          (forall k v, has m k (Pub v) -> forall i, i < n -> has (nth i ms []) k (IPub v)) /\
          (forall k v, has m k (Sh v) -> exists s, (forall i, i < n -> has (nth i ms []) k (IShared (s i))) /\ sharing n t s v)
    | Failed _ => exists name j, In (name, j) input /\ ~ readable hex_uint from_str j
    end.
  Proof. exact (split_shamir_spec hex_uint from_str input pubs t n g). Qed.
End C61.
Print Assumptions C61_number.
Print Assumptions C61_split.
Print Assumptions C61_split_shamir.

(** decimal and hexadecimal numbers for the examples *)
Definition dec13 (s : string) : option F13 := option_map (fun u => f13 (Z.of_uint u)) (NilEmpty.uint_of_string s).
Definition hex13 (s : string) : option N :=
  if String.eqb s "f" then Some 15%N else if String.eqb s "10" then Some 16%N else None.
Definition split13 input pubs g := split_input (F := F13) hex13 dec13 input pubs g.
Definition ex_input : list (string * json) :=
  [("a", JArr [JStr "1"; JStr "?"; JArr [JStr "-0xf"; JBool true]]); ("b", JStr "5"); ("c", JStr "0x10")].
Lemma done13_eq (o : outcome F13) v : match o with Done x => Zp.val x = Zp.val v | Failed _ => False end -> o = Done v.
Proof. destruct o; [intros E; f_equal; now apply Zmod_eq|contradiction]. Qed.
(** the entries of a party: key, whether it is public, and (if so) its value *)
Definition shape {Sh} (m : list (string * inp F13 Sh)) : list (string * option Z) :=
  map (fun e => (fst e, match snd e with IPub v => Some (Zp.val v) | IShared _ => None end)) m.
Example ex_C61 : exists ms, split13 ex_input ["a"] 77%Z = Done ms /\
  forall i, shape (ms i) = [("a[0]", Some 1); ("a[2]", Some 11); ("a[3]", Some 1); ("b", None); ("c", None)]%Z.
Proof. eexists. split; [reflexivity|]. intros i. destruct i; vm_compute; reflexivity. Qed.
Example ex_C61_entry : input_entry hex13 dec13 ["a"] ex_input "a[2]" (Pub (f13 11)) /\ input_entry hex13 dec13 ["a"] ex_input "c" (Sh (f13 3)).
Proof.
  pose proof (C61_split hex13 dec13 ex_input ["a"] 77%Z) as K.
  destruct (split_input hex13 dec13 ex_input ["a"] 77%Z) as [ms|e] eqn:E; [|discriminate E]. clear K.
  split.
  - exists [], "a", (JArr [JStr "1"; JStr "?"; JArr [JStr "-0xf"; JBool true]]), [("b", JStr "5"); ("c", JStr "0x10")], (f13 11).
    split; [reflexivity|]. split; [exists 2%nat, (JStr "-0xf"); split; [reflexivity|]; split; [discriminate|]; split; [reflexivity|]|].
    { left. exists "0xf", (f13 2). split; [reflexivity|]. split; [|apply Zmod_eq; vm_compute; reflexivity]. left. exists "f", 15%N. split; [reflexivity|]. split; [reflexivity|].
      apply Zmod_eq; vm_compute; reflexivity. }
    split; [left; split; [now left|reflexivity]|]. intros n j v [Q|[Q|[]]]; injection Q as <- <-; intros [Q _]; discriminate Q.
  - exists [("a", JArr [JStr "1"; JStr "?"; JArr [JStr "-0xf"; JBool true]]); ("b", JStr "5")], "c", (JStr "0x10"), [], (f13 3).
    split; [reflexivity|]. split; [split; [reflexivity|]|].
    { right. split; [intros m Q; discriminate Q|]. left. exists "10", 16%N. split; [reflexivity|]. split; [reflexivity|]. apply Zmod_eq; vm_compute; reflexivity. }
    split; [|easy]. right. split; [intros [Q|[]]; discriminate Q|reflexivity].
Qed.
Example ex_C61_shamir : exists ms, split_input_shamir (F := F13) hex13 dec13 ex_input ["a"] 1 3 77%Z = Done ms /\ length ms = 3 /\
  combine_field_element (F := F13) (map (fun m => match assoc "c" m with Some (IShared s) => s | _ => 0 end) ms) [1; 2; 3] 1 = Done (f13 3).
Proof. eexists. split; [reflexivity|]. split; [reflexivity|]. apply done13_eq; vm_compute; reflexivity. Qed.
Example ex_C61_bad : split13 [("a", JArr [JStr "1"; JStr "x"])] [] 77%Z = Failed bad_field /\ split13 [("a", JOther)] [] 77%Z = Failed (Eyre "expected input to be a field element string").
Proof. split; reflexivity. Qed.

(** The keys of the entries do not determine the members of the input: a member named "a[0]" and
    the array "a" make the same entry, and the later member (in the order of the map of
    serde_json: "a" before "a[0]") silently replaces the value of the earlier one, also the public
    value by a shared one. *)
Theorem C61_no_collision_refuted : exists (input : list (string * json)) pubs (g : Z) ms,
  NoDup (map fst input) /\ split_input (F := F13) hex13 dec13 input pubs g = Done ms /\ entry hex13 dec13 "a" (JArr [JStr "1"]) "a[0]" (f13 1) /\
  In ("a", JArr [JStr "1"]) input /\ In "a" pubs /\ forall i, exists s, has (ms i) "a[0]" (IShared s).
Proof.
  exists [("a", JArr [JStr "1"]); ("a[0]", JStr "2")], ["a"], 77%Z. eexists. split; [|split; [reflexivity|]].
  - repeat constructor; cbn; intuition discriminate.
  - split; [exists 0%nat, (JStr "1"); split; [reflexivity|]; split; [discriminate|]; split; [reflexivity|]; right; split; [intros m Q; discriminate Q|]; right; split; [intros m Q; discriminate Q|reflexivity]|].
    split; [now left|]. split; [now left|]. intros i. eexists. destruct i; reflexivity.
Qed.
Print Assumptions C61_no_collision_refuted.

(** ** C62: merging inputs and generating the witness *)
Section C62.
  Context {F : Type} `{FU : FieldUint F} (hex_uint : string -> option N) (from_str : string -> option F).
  (** [merge_input_shares] at one party, for any maps: it succeeds exactly if two maps share a key
      only where it belongs to a public signal and the entries are equal, and gives the union *)
  Lemma merge_ok pubs (ms : list (list (string * inp F (share F)))) : Forall (fun m => NoDup (map fst m)) ms ->
    match merge_input_shares ms pubs with
    | Done r => sorted r /\ union ms r /\ compatible pubs ms
    | Failed _ => ~ compatible pubs ms
    end.
  Proof. exact (merge_spec _ pubs (fun x y => inp_eqb_spec x y)). Qed.
  Theorem C62_merge pubs (ms : list (list (string * inp F (share F)))) : Forall (fun m => NoDup (map fst m)) ms ->
    match merge_input_shares ms pubs with
    | Done r => sorted r /\ union ms r /\ compatible pubs ms
    | Failed _ => ~ compatible pubs ms
    end.
  Proof. exact (merge_ok pubs ms). Qed.
  (** inputs split by any number of contributors [cs] and merged by the three parties: all three
      succeed or all three fail.  They succeed exactly if the contributors have in common only
      equal public entries *)
  Theorem C62_contributors {S} {DF : Draw S F} pubs (cs : list (list (string * json) * S)) mss :
    Forall2 (fun c ms => split_input hex_uint from_str (fst c) pubs (snd c) = Done ms) cs mss ->
    (forall c name j, In c cs -> In (name, j) (fst c) -> In (orig_name name) pubs -> In name pubs) ->
    (harmony hex_uint from_str pubs cs /\ exists m tmm, (forall i, merge_input_shares (map (fun ms => ms i) mss) pubs = Done (m i)) /\
       pvec rel_in (fun i => map (on_snd (to_vm (F := F))) (m i)) tmm /\ sorted tmm /\
       (forall k t, has tmm k t <-> exists c, In c cs /\ input_entry hex_uint from_str pubs (fst c) k t) /\ (forall i, num_public_inputs (m i) = tcount tmm)) \/
    (~ harmony hex_uint from_str pubs cs /\ exists e, forall i, merge_input_shares (map (fun ms => ms i) mss) pubs = Failed e).
  Proof. exact (merge_contributors hex_uint from_str pubs (cs := cs) (mss := mss)). Qed.
End C62.
Print Assumptions C62_merge.
Print Assumptions C62_contributors.

Section C62_generate.
  Context {F : Type} `{FU : FieldUint F} {S M : Type} (W : nat) (du : nat -> S -> N * S) {DF : Draw S F}.
  Context {Seed : Type} {SS : Seeded S Seed} {DS : Draw S Seed}.
  Context {EN : Enc M (list N)} {ENN : Enc M (list (N * N))}
          {EL : Enc M (list (list N))} {ELL : Enc M (list (list N * list N))} {EF : Enc M (list F)}.
  Context (hash : N -> N -> N) (gtweak : N -> N) (otweak : N -> bool -> N).
  Context {Dg : Type} {ED : Enc M (list Dg)} (digest : list N -> Dg) (dg_eqb : Dg -> Dg -> bool).
  Context (draw_label draw_delta : S -> N * S) (fsqrt : F -> option F) (rgof : pid -> rst S -> S) (t : a2b_type).
  Context (dg_eqb_spec : forall x y, dg_eqb x y = true <-> x = y).
  Context (cap : nat) (cap_pos : (1 <= cap)%nat) (p_odd : N.odd (fu_p (F := F)) = true) (width : (mbs F + 2 <= W)%nat).
  Context (delta_odd : forall s, color (fst (draw_delta s)) = true).
  Context (hash_sep : forall d z n, color d = true -> hash z (otweak n false) <> hash (N.lxor z d) (otweak n false)).
  Context (fsqrt_root : forall z w, fsqrt z = Some w -> rmul w w = z).
  Context (fsqrt_none : forall z, fsqrt z = None -> forall w, rmul w w <> z).
  Context (d : pid -> dst (S := S)) (Hd : synced2 d).
  Context (hex_uint : string -> option N) (from_str : string -> option F) (pubs : list string).
  (** from the JSON inputs of the contributors to the shared witness: the witness is the one of the
      clear run on the inputs of all contributors *)
  Theorem C62_generate ps fuel (cs : list (list (string * json) * S)) mss :
    Forall2 (fun c ms => split_input hex_uint from_str (fst c) pubs (snd c) = Done ms) cs mss ->
    (forall c name j, In c cs -> In (name, j) (fst c) -> In (orig_name name) pubs -> In name pubs) ->
    harmony hex_uint from_str pubs cs ->
    exists m ins, (forall i, merge_input_shares (map (fun ms => ms i) mss) pubs = Done (m i)) /\
      sorted ins /\ (forall k v, has ins k v <-> exists c, In c cs /\ input_entry hex_uint from_str pubs (fst c) k v) /\
      (run_ideal fsqrt (ideal_run ps fuel (tcount ins) ins) <> Failed undef ->
       all_end cap (fun i => generate_witness_rep3 (M := M) (Seed := Seed) W du hash gtweak otweak digest dg_eqb draw_label draw_delta fsqrt rgof t ps fuel i (d i) (m i))
         (drv_post witness_of (run_may fsqrt (ideal_run ps fuel (tcount ins) ins)) (run_ideal fsqrt (ideal_run ps fuel (tcount ins) ins)))).
  Proof. exact (generate_wpo du hash gtweak otweak digest dg_eqb draw_label draw_delta fsqrt rgof t dg_eqb_spec cap_pos p_odd width delta_odd hash_sep fsqrt_root fsqrt_none Hd ps fuel (cs := cs) (mss := mss)). Qed.
End C62_generate.
Print Assumptions C62_generate.

(** a circuit with the public input a[2] and the private input b: [out <== a[0] * b] *)
Definition mulab_t : templ := mkTempl "Main" 3 1 0 []
  [PushIndex 1; LoadSignals 1; PushIndex 3; LoadSignals 1; Bin OMul; PushIndex 0; StoreSignals 1; Return].
Definition mulab : parsed F13 :=
  mkParsed "Main_0" 5 [] 0 [] [("Main_0", mulab_t)] [0; 1; 2; 3; 4]%nat 3 1 [("a", 2, 2); ("b", 4, 1)]%nat (mkAcfg true true true true) false.
Notation gen13 ps n m i := (generate_witness_rep3 (M := msg) (Seed := Z) 64 du13 hash_v gtweak_t otweak_t digest_t eqb_t label_t delta_t fsqrt13 rgof13 Direct ps n i (d13 i) (m i)).
Definition merged13 (cs : list (list (string * json) * Z)) (pubs : list string) (i : pid) : list (string * inp F13 (share F13)) :=
  match merge_input_shares (map (fun c => match split13 (fst c) pubs (snd c) with Done ms => ms i | Failed _ => [] end) cs) pubs with Done m => m | Failed _ => [] end.
Definition alice : list (string * json) * Z := ([("a", JArr [JStr "3"; JStr "2"])], 5%Z).
Definition bob : list (string * json) * Z := ([("b", JStr "5")], 6%Z).
Definition carol : list (string * json) * Z := ([("a", JArr [JStr "?"; JStr "?"; JStr "0"])], 7%Z).
Lemma split_all13 (cs : list (list (string * json) * Z)) pubs : (forall c, In c cs -> exists ms, split13 (fst c) pubs (snd c) = Done ms) ->
  Forall2 (fun c ms => split_input (F := F13) hex13 dec13 (fst c) pubs (snd c) = Done ms) cs (map (fun c => match split13 (fst c) pubs (snd c) with Done ms => ms | Failed _ => fun _ => [] end) cs).
Proof.
  induction cs as [|c cs IH]; intros H; constructor.
  - destruct (H c (or_introl eq_refl)) as (ms & E). rewrite E. exact E.
  - apply IH. intros c' I. apply H. now right.
Qed.
(** the hypotheses of [C62_contributors] and [C62_generate] hold for alice and bob *)
Example ex_C62 : exists mss, Forall2 (fun c ms => split_input (F := F13) hex13 dec13 (fst c) ["a"] (snd c) = Done ms) [alice; bob] mss /\
  (forall c name j, In c [alice; bob] -> In (name, j) (fst c) -> In (orig_name name) ["a"] -> In name ["a"]) /\ harmony hex13 dec13 ["a"] [alice; bob].
Proof.
  assert (Sp : forall c, In c [alice; bob] -> exists ms, split13 (fst c) ["a"] (snd c) = Done ms) by (intros c [<-|[<-|[]]]; eexists; reflexivity).
  pose proof (split_all13 _ _ Sp) as A. eexists. split; [exact A|].
  assert (Nm : forall c name j, In c [alice; bob] -> In (name, j) (fst c) -> In (orig_name name) ["a"] -> In name ["a"]).
  { intros c name j [<-|[<-|[]]] [Q|[]]; injection Q as <- <-; cbn; intuition. }
  split; [exact Nm|]. destruct (C62_contributors hex13 dec13 ["a"] [alice; bob] _ A Nm) as [[K _]|[_ (e & K)]]; [exact K|]. specialize (K P0). discriminate K.
Qed.
Example ex_C62_run : all_end 1 (fun i => gen13 mulab 100 (merged13 [alice; bob] ["a"]) i) (fun o => opens_w (Some o) = Some ([1; 2; 3; 2], [5])%Z).
Proof. apply (exec_end 1 8000 _ opens_w); [reflexivity|vm_compute; reflexivity]. Qed.
Example ex_C62_conflict i : merge_input_shares (map (fun c => match split13 (fst c) ["a"] (snd c) with Done ms => ms i | Failed _ => [] end) [alice; ([("a", JArr [JStr "4"])], 5%Z)]) ["a"] = Failed not_same /\
  merge_input_shares (map (fun c => match split13 (fst c) ["a"] (snd c) with Done ms => ms i | Failed _ => [] end) [bob; bob]) ["a"] = Failed duplicate.
Proof. destruct i; split; vm_compute; reflexivity. Qed.

(** The number of public inputs is not the one of the circuit: it is counted in the merged map, and
    entries the circuit does not have are counted as well.  Carol contributes nothing but the entry
    a[2] of a public signal of two elements; the parties accept it and open one more element of the
    witness: Bob's private input 5. *)
Theorem C62_private_stays_shared_refuted : exists cs pubs (ps : parsed F13),
  In bob cs /\ pubs = ["a"] /\ ps_input_list ps = [("a", 2, 2); ("b", 4, 1)]%nat /\
  all_end 1 (fun i => gen13 ps 100 (merged13 cs pubs) i) (fun o => opens_w (Some o) = Some ([1; 2; 3; 2; 5], [])%Z).
Proof.
  exists [alice; bob; carol], ["a"], mulab. split; [right; now left|]. split; [reflexivity|]. split; [reflexivity|].
  apply (exec_end 1 8000 _ opens_w); [reflexivity|vm_compute; reflexivity].
Qed.
Print Assumptions C62_private_stays_shared_refuted.
(** Without the condition on names the parties need not agree: a member called "a[0]" is not public
    for [split_input], but its entry is for [merge_input_shares], which then compares shares.  A party
    whose two shares coincide goes on while the others fail; and two contributors that give the same
    value are rejected unless all their random shares coincide. *)
Theorem C62_same_outcome_refuted : exists (mss : list (pid -> list (string * inp F13 (share F13)))),
  (forall ms, In ms mss -> exists s x, (forall i, ms i = [("a[0]", IShared (s i))]) /\ shares s x) /\
  (exists m, merge_input_shares (map (fun ms => ms P1) mss) ["a"] = Done m) /\ merge_input_shares (map (fun ms => ms P0) mss) ["a"] = Failed not_same.
Proof.
  exists [fun i => [("a[0]", IShared (sh13 5 1 2 i))]; fun i => [("a[0]", IShared (sh13 6 1 2 i))]].
  split; [|split].
  - intros ms [<-|[<-|[]]]; eexists; eexists; (split; [intros i; reflexivity|apply sh13_shares]).
  - eexists. vm_compute. reflexivity.
  - vm_compute. reflexivity.
Qed.
Theorem C62_equal_accepted_refuted : exists ms ms' : pid -> list (string * inp F13 (share F13)),
  split13 [("a[0]", JStr "2")] ["a"] 77%Z = Done ms /\ split13 [("a[0]", JStr "2")] ["a"] 78123456%Z = Done ms' /\
  forall i, merge_input_shares [ms i; ms' i] ["a"] = Failed not_same.
Proof. eexists. eexists. split; [reflexivity|]. split; [reflexivity|]. intros i. destruct i; vm_compute; reflexivity. Qed.
Print Assumptions C62_equal_accepted_refuted.
Print Assumptions C62_same_outcome_refuted.

(** ** C63: sharing witnesses *)
Section C63.
  Context {F : Type} {FF : Fld F} {S : Type} {DF : Draw S F} {Seed : Type} {SS : Seeded S Seed} {DS : Draw S Seed}.
  (** additive shares of the witness from every form *)
  Theorem C63_additive values k (s : S) c : k <= length values ->
    exists w, share_rep3 (Seed := Seed) values k s c = Done w /\
      (forall i, fst (additive_witness (S := S) (w i)) = firstn k values) /\ additive_vec (fun i => snd (additive_witness (S := S) (w i))) (skipn k values).
  Proof. exact (fun L => additive_witness_ok values s c L). Qed.
  Theorem C63_too_many_public values k (s : S) c : length values < k -> share_rep3 (Seed := Seed) values k s c = Failed (Panic "range end index out of range for slice").
  Proof. exact (fun L => share_rep3_panics values s c L). Qed.
  Theorem C63_shamir values k t n (s : S) : k <= length values ->
    exists ws, share_shamir values k t n s = Done ws /\ length ws = n /\ (forall i, i < n -> fst (nth i ws ([], [])) = firstn k values) /\
      sharings n t (fun i => snd (nth i ws ([], []))) (skipn k values).
  Proof. exact (fun L => share_shamir_ok values t n s L). Qed.
  Section Net.
    Context {M : Type} {EF : Enc M (list F)} (cap : nat) (cap_pos : 1 <= cap).
    (** [uncompress_shared_witness] at the three parties *)
    Theorem C63_uncompress values k (s : S) c w : share_rep3 (Seed := Seed) values k s c = Done w ->
      all_ok cap (fun i => uncompress (M := M) (S := S) i (w i)) (fun r => (forall i, fst (r i) = firstn k values) /\ shares_vec (fun i => snd (r i)) (skipn k values)).
    Proof. exact (fun E => wp_all_ok (uncompress_wp cap_pos values k s c E)). Qed.
  End Net.
  Section Translate.
    Context {M : Type} {EF : Enc M (list F)} {EF1 : Enc M F} {ES : Enc M (list Seed)} (seed0 : Seed) (cap : nat) (hcap : cap_ok 3 1 cap).
    Context (inj : forall a b, a <= 3 -> b <= 3 -> fnat a = (fnat b : F) -> a = b).
    (** [translate_witness]: Shamir shares of degree one for three parties *)
    Theorem C63_translate values k (s : S) c w (seed : nat -> Seed) : share_rep3 (Seed := Seed) values k s c = Done w ->
      all_okn 3 cap (fun i => translate_witness (M := M) (S := S) seed0 i (seed i) (w (pid_of i)))
        (fun r => (forall i, i < 3 -> fst (r i) = firstn k values) /\ sharings 3 1 (fun i => snd (r i)) (skipn k values)).
    Proof. exact (fun E => wpn_all_ok (translate_witness_wp seed0 hcap inj values k s c seed E)). Qed.
  End Translate.
End C63.
(** [unbatch]: instance [k] of a batched witness consists of the [k]-th element of every row *)
Theorem C63_unbatch {P Sh} (pubs : list (list P)) (wit : list (list Sh)) :
  match unbatch (pubs, wit) with
  | Done r => exists n, pubs <> [] /\ Forall (fun x => length x = n) pubs /\ Forall (fun x => length x = n) wit /\ length r = n /\
              forall k, k < n -> exists p w, nth_error r k = Some (p, w) /\ column k pubs p /\ column k wit w
  | Failed _ => pubs = [] \/ ~ (exists n, Forall (fun x => length x = n) pubs /\ Forall (fun x => length x = n) wit)
  end.
Proof. exact (unbatch_spec pubs wit). Qed.
(** [public_inputs_for_verify]: without the constant one at the front *)
Theorem C63_verify {F Sh} (w : list F * list Sh) l : public_inputs_for_verify w = Done l <-> exists x, fst w = x :: l.
Proof. exact (public_inputs_ok w l). Qed.
Print Assumptions C63_additive.
Print Assumptions C63_too_many_public.
Print Assumptions C63_shamir.
Print Assumptions C63_uncompress.
Print Assumptions C63_translate.
Print Assumptions C63_unbatch.
Print Assumptions C63_verify.

Definition wit13 : list F13 := map f13 [1; 4; 7; 9]%Z.
Definition comp_all : list compression := [CNone; CHalfShares; CSeededShares; CSeededHalfShares].
Example ex_C63_uncompress c : exists w, share_rep3 (Seed := Z) wit13 2 99%Z c = Done w /\
  all_ok 1 (fun i => uncompress (M := msg) (S := Z) i (w i)) (fun r => (forall i, fst (r i) = map f13 [1; 4]%Z) /\ shares_vec (fun i => snd (r i)) (map f13 [7; 9]%Z)).
Proof.
  destruct (C63_additive (Seed := Z) wit13 2 99%Z c ltac:(cbn; lia)) as (w & E & _). exists w. split; [exact E|].
  exact (C63_uncompress 1 (le_n 1) wit13 2 99%Z c w E).
Qed.
Example ex_C63_translate c : exists w, share_rep3 (Seed := Z) wit13 2 99%Z c = Done w /\
  all_okn 3 1 (fun i => translate_witness (M := smsg) (S := Z) 0%Z i (seeds13 i) (w (pid_of i)))
    (fun r => (forall i, i < 3 -> fst (r i) = map f13 [1; 4]%Z) /\ sharings 3 1 (fun i => snd (r i)) (map f13 [7; 9]%Z)).
Proof.
  destruct (C63_additive (Seed := Z) wit13 2 99%Z c ltac:(cbn; lia)) as (w & E & _). exists w. split; [exact E|].
  exact (C63_translate 0%Z 1 cap_ok_31 (@inj13 3 ltac:(lia)) wit13 2 99%Z c w seeds13 E).
Qed.
Example ex_C63_sizes : exists ws, share_shamir wit13 2 1 3 99%Z = Done ws /\ length ws = 3 /\
  share_rep3 (Seed := Z) wit13 5 99%Z CNone = Failed (Panic "range end index out of range for slice").
Proof. eexists. split; [reflexivity|]. split; reflexivity. Qed.
Example ex_C63_unbatch : unbatch ([[1; 2]; [3; 4]], [[true; false]]) = Done [([1; 3], [true]); ([2; 4], [false])] /\
  unbatch ([[1; 2]; [3]], [[true; false]]) = Failed (Panic "batch size not consistent in batched witness").
Proof. split; reflexivity. Qed.
Example ex_C63_verify : public_inputs_for_verify ([1; 2; 3], [true]) = Done [2; 3] /\ public_inputs_for_verify (@nil nat, [true]) = Failed (Panic "range start index 1 out of range for slice of length 0").
Proof. split; reflexivity. Qed.
