(** * The front end of co-circom: inputs, merging of inputs, witnesses
    (co-circom/co-circom-types/src/lib.rs = types.rs below, co-circom/co-circom/src/lib.rs = lib.rs below)

    Simplifications: log output ([tracing]) and the text of errors are dropped; [thread_rng] is a
    generator state passed in; the reading of digit strings into numbers (crates num-bigint and
    ark-ff) is a parameter; a [BTreeMap<String, _>] is its list of entries, sorted by key. *)
From Coq Require Import String List Arith NArith Bool Ascii DecimalString.
From Verif Require Import Proc Alg Rep3Net Rep3 Uint Binary Conv NNet Shamir Garble Circuits Garbled Yao VmDriver Vm VmRun.
Import ListNotations.
Set Implicit Arguments.
Local Open Scope grp_scope.
Local Open Scope string_scope.
Local Open Scope list_scope.

(** [?] on a [Result] *)
Definition obind {A B} (x : outcome A) (f : A -> outcome B) : outcome B :=
  match x with Done a => f a | Failed e => Failed e end.

(** ** Maps *)
(** [BTreeMap::insert]: replaces the entry with this key, if there is one *)
Fixpoint binsert {V} (k : string) (v : V) (m : list (string * V)) : list (string * V) :=
  match m with
  | [] => [(k, v)]
  | (k', v') :: m' =>
      match String.compare k k' with
      | Eq => (k, v) :: m'
      | Lt => (k, v) :: m
      | Gt => (k', v') :: binsert k v m'
      end
  end.
(** [collect::<BTreeMap<_, _>>()] *)
Definition bcollect {V} (l : list (string * V)) : list (string * V) :=
  fold_left (fun m e => binsert (fst e) (snd e) m) l [].

(** ** Inputs *)
(** [serde_json::Value]; [JOther]: null, numbers and objects, which no function here accepts *)
Inductive json : Type := JBool (b : bool) | JStr (s : string) | JArr (l : list json) | JOther.
(** types.rs:40-57 [Rep3InputType], 96-113 [ShamirInputType] *)
Inductive inp (F Sh : Type) : Type := IPub (v : F) | IShared (s : Sh).
Arguments IPub {F Sh}. Arguments IShared {F Sh}.
(** types.rs:61-63, 117-119 [is_public] *)
Definition is_public {F Sh} (x : inp F Sh) : bool := match x with IPub _ => true | IShared _ => false end.

(** [str::strip_prefix] *)
Definition strip_prefix (p s : string) : option string :=
  if String.prefix p s then Some (substring (String.length p) (String.length s - String.length p) s) else None.

Section Inputs.
  Context {F : Type} `{FU : FieldUint F}.
  (** [BigUint::from_str_radix(_, 16)] of num-bigint and [F::from_str] of ark-ff *)
  Variables (hex_uint : string -> option N) (from_str : string -> option F).
  (** types.rs:552, 562, 569 (value dropped from the message) *)
  Definition bad_field : err := Eyre "could not parse field element".
  (** types.rs:535-576 [parse_field]; the conversion of the reduced number to [F::BigInt] cannot fail *)
  Definition parse_field (j : json) : outcome F :=
    match j with
    | JStr s =>
        let ns := match strip_prefix "-" s with Some t => (true, t) | None => (false, s) end in
        let positive :=
          match strip_prefix "0x" (snd ns) with
          | Some t => match hex_uint t with
                      | Some n => Done (of_uint (if (fu_p (F := F) <=? n)%N then n mod fu_p (F := F) else n)%N)
                      | None => Failed bad_field
                      end
          | None => match from_str (snd ns) with Some v => Done v | None => Failed bad_field end
          end in
        obind positive (fun v => Done (if fst ns then - v else v))
    | _ => Failed (Eyre "expected input to be a field element string")
    end.
  (** types.rs:595-600 [parse_boolean] *)
  Definition parse_boolean (b : bool) : F := if b then rone else 0.
  (** types.rs:578-593 [parse_array], the body of the loop ([extend] or [push]) *)
  Fixpoint parse_element (j : json) : outcome (list (option F)) :=
    match j with
    | JArr l => (fix go l := match l with
                             | [] => Done []
                             | e :: l => obind (parse_element e) (fun x => obind (go l) (fun r => Done (x ++ r)))
                             end) l
    | JBool b => Done [Some (parse_boolean b)]
    | _ => if (match j with JStr s => String.eqb s "?" | _ => false end) then Done [None]
           else obind (parse_field j) (fun v => Done [Some v])
    end.
  Definition parse_array (l : list json) : outcome (list (option F)) := parse_element (JArr l).
  (** [format!("{name}[{idx}]")] *)
  Definition idx_name (name : string) (idx : nat) : string := (name ++ "[" ++ dec_string idx ++ "]")%string.
  (** types.rs:403-407, 446-450: [enumerate] and [filter_map] *)
  Fixpoint name_entries (name : string) (idx : nat) (l : list (option F)) : list (string * F) :=
    match l with
    | [] => []
    | Some v :: l => (idx_name name idx, v) :: name_entries name (Datatypes.S idx) l
    | None :: l => name_entries name (Datatypes.S idx) l
    end.
  (** types.rs:401-412, 445-455 [parsed_vals] *)
  Definition parsed_vals (name : string) (j : json) : outcome (list (string * F)) :=
    match j with
    | JArr l => obind (parse_array l) (fun fs => Done (bcollect (name_entries name 0 fs)))
    | JBool b => Done [(name, parse_boolean b)]
    | _ => obind (parse_field j) (fun v => Done [(name, v)])
    end.
  (** [slice::contains] *)
  Definition contains (l : list string) (k : string) : bool := existsb (String.eqb k) l.

  Section Split.
    Context {S : Type} {DF : Draw S F}.
    Notation rmap := (list (string * inp F (share F))).
    (** types.rs:414-419 *)
    Fixpoint put_public (es : list (string * F)) (ms : pid -> rmap) : pid -> rmap :=
      match es with
      | [] => ms
      | (k, v) :: es => put_public es (fun i => binsert k (IPub v) (ms i))
      end.
    (** types.rs:420-427 *)
    Fixpoint put_shared (es : list (string * F)) (ms : pid -> rmap) (g : S) : (pid -> rmap) * S :=
      match es with
      | [] => (ms, g)
      | (k, v) :: es => let x := Rep3.share_field_element v g in
                        put_shared es (fun i => binsert k (IShared (fst x i)) (ms i)) (snd x)
      end.
    (** types.rs:400-428, the loop *)
    Fixpoint split_loop (input : list (string * json)) (pubs : list string) (ms : pid -> rmap) (g : S) : outcome ((pid -> rmap) * S) :=
      match input with
      | [] => Done (ms, g)
      | (name, val) :: input =>
          obind (parsed_vals name val) (fun es =>
            if contains pubs name then split_loop input pubs (put_public es ms) g
            else let r := put_shared es ms g in split_loop input pubs (fst r) (snd r))
      end.
    (** types.rs:388-429 [split_input]; the entries of [input] in the order of [serde_json::Map] *)
    Definition split_input (input : list (string * json)) (pubs : list string) (g : S) : outcome (pid -> rmap) :=
      obind (split_loop input pubs (fun _ => []) g) (fun r => Done (fst r)).

    (** *** Shamir *)
    Notation smap := (list (string * inp F F)).
    (** types.rs:457-462 *)
    Fixpoint sput_public (es : list (string * F)) (ms : list smap) : list smap :=
      match es with
      | [] => ms
      | (k, v) :: es => sput_public es (map (binsert k (IPub v)) ms)
      end.
    (** types.rs:463-470; as many shares as maps *)
    Fixpoint sput_shared (es : list (string * F)) (t n : nat) (ms : list smap) (g : S) : list smap * S :=
      match es with
      | [] => (ms, g)
      | (k, v) :: es => let x := Shamir.share_field_element v t n g in
                        sput_shared es t n (map2 (fun m s => binsert k (IShared s) m) ms (fst x)) (snd x)
      end.
    (** types.rs:443-471, the loop *)
    Fixpoint ssplit_loop (input : list (string * json)) (pubs : list string) (t n : nat) (ms : list smap) (g : S) : outcome (list smap * S) :=
      match input with
      | [] => Done (ms, g)
      | (name, val) :: input =>
          obind (parsed_vals name val) (fun es =>
            if contains pubs name then ssplit_loop input pubs t n (sput_public es ms) g
            else let r := sput_shared es t n ms g in ssplit_loop input pubs t n (fst r) (snd r))
      end.
    (** types.rs:432-473 [split_input_shamir] *)
    Definition split_input_shamir (input : list (string * json)) (pubs : list string) (threshold num_parties : nat) (g : S) : outcome (list smap) :=
      obind (ssplit_loop input pubs threshold num_parties (repeat [] num_parties) g) (fun r => Done (fst r)).
  End Split.

  (** ** Merging *)
  (** types.rs:483 [name.split('[').next()] *)
  Fixpoint orig_name (s : string) : string :=
    match s with
    | EmptyString => EmptyString
    | String c s => if Ascii.eqb c "["%char then EmptyString else String c (orig_name s)
    end.
  (** types.rs:38 derived [PartialEq] of [Rep3InputType] *)
  Definition inp_eqb (x y : inp F (share F)) : bool :=
    match x, y with
    | IPub a, IPub b => feqb a b
    | IShared a, IShared b => feqb (sa a) (sa b) && feqb (sb a) (sb b)
    | _, _ => false
    end.
  (** types.rs:486, 489 *)
  Definition not_same : err := Eyre "Public entry not the same in all inputs".
  Definition duplicate : err := Eyre "Duplicate entry found in input shares".
  (** types.rs:481-492, the inner loop; [eqb] the equality of entries *)
  Section Merge.
    Context {V : Type} (eqb : V -> V -> bool).
    Fixpoint merge_map (pubs : list string) (m result : list (string * V)) : outcome (list (string * V)) :=
      match m with
      | [] => Done result
      | (name, share) :: m =>
          if contains pubs (orig_name name) then
            match assoc name result with
            | Some v => if eqb v share then merge_map pubs m (binsert name share result) else Failed not_same
            | None => merge_map pubs m (binsert name share result)
            end
          else match assoc name result with
               | Some _ => Failed duplicate
               | None => merge_map pubs m (binsert name share result)
               end
      end.
    (** types.rs:480-494, the outer loop *)
    Fixpoint merge_loop (pubs : list string) (ms : list (list (string * V))) (result : list (string * V)) : outcome (list (string * V)) :=
      match ms with
      | [] => Done result
      | m :: ms => obind (merge_map pubs m result) (fun r => merge_loop pubs ms r)
      end.
  End Merge.
  (** types.rs:475-496 [merge_input_shares] *)
  Definition merge_input_shares (ms : list (list (string * inp F (share F)))) (pubs : list string) : outcome (list (string * inp F (share F))) :=
    merge_loop inp_eqb pubs ms [].

  (** ** Witness generation *)
  (** circom-mpc-vm/src/mpc/rep3.rs:56-63 [From<Rep3InputType<F>> for Rep3VmType<F>] *)
  Definition to_vm (x : inp F (share F)) : rv F := match x with IPub v => RPub v | IShared s => RSh s end.
  (** lib.rs:150-153: [input.values().filter(Public).count()] *)
  Definition num_public_inputs {Sh} (m : list (string * inp F Sh)) : nat := length (filter (fun e => is_public (snd e)) m).
End Inputs.

(** lib.rs:154-157: [map(|(name, value)| (name, f(value)))] *)
Definition on_snd {A V W} (f : V -> W) (e : A * V) : A * W := (fst e, f (snd e)).
Section Generate.
  Context {F : Type} `{FU : FieldUint F} {S M : Type} (W : nat) (du : nat -> S -> N * S) {DF : Draw S F}.
  Context {Seed : Type} {SS : Seeded S Seed} {DS : Draw S Seed}.
  Context {EN : Enc M (list N)} {ENN : Enc M (list (N * N))}
          {EL : Enc M (list (list N))} {ELL : Enc M (list (list N * list N))} {EF : Enc M (list F)}.
  Context (hash : N -> N -> N) (gtweak : N -> N) (otweak : N -> bool -> N).
  Context {Dg : Type} {ED : Enc M (list Dg)} (digest : list N -> Dg) (dg_eqb : Dg -> Dg -> bool).
  Context (draw_label draw_delta : S -> N * S) (fsqrt : F -> option F) (rgof : pid -> rst S -> S) (t : a2b_type).
  (** lib.rs:139-165 [generate_witness_rep3], with the state [d] of the machine after
      [Rep3WitnessExtension::new] and the comparison of the configurations *)
  Definition generate_witness_rep3 (ps : parsed F) (fuel : nat) (i : pid) (d : dst) (input : list (string * inp F (share F))) :
    prog pid M ((list F * list (share F)) * dst) :=
    rep3_run (M := M) (Seed := Seed) W du hash gtweak otweak digest dg_eqb draw_label draw_delta fsqrt rgof t ps fuel (num_public_inputs input) i d
      (map (on_snd (to_vm (F := F))) input).
End Generate.

(** ** Witnesses *)
(** types.rs:152-162 [Compression] *)
Inductive compression : Type := CNone | CHalfShares | CSeededShares | CSeededHalfShares.
(** [&v[..n]] and [&v[n..]] *)
Definition split_slice {A} (n : nat) (v : list A) : outcome (list A * list A) :=
  if (n <=? length v)%nat then Done (firstn n v, skipn n v) else Failed (Panic "range end index out of range for slice").

Section Witness.
  Context {F : Type} {FF : Fld F} {S : Type} {DF : Draw S F} {Seed : Type} {SS : Seeded S Seed} {DS : Draw S Seed}.
  (** mpc-core/src/protocols/rep3.rs:138-151 [Rep3ShareVecType] *)
  Inductive share_vec : Type :=
  | Replicated (l : list (share F)) | SeededReplicated (x : seeded F Seed * seeded F Seed)
  | Additive (l : list F) | SeededAdditive (x : seeded F Seed).
  (** rep3.rs:415-430 [share_field_elements_additive] *)
  Fixpoint share_elements_additive (vs : list F) (s : S) : (pid -> list F) * S :=
    match vs with
    | [] => (fun _ => [], s)
    | v :: vs => let a := draw s in let b := draw (snd a) in
                 let r := share_elements_additive vs (snd b) in
                 (fun i => share_additive v (fst a) (fst b) i :: fst r i, snd r)
    end.
  (** rep3.rs:500-533 [share_field_elements_additive_seeded] *)
  Definition share_additive_seeded (vs : list F) (s : S) (i : pid) : seeded F Seed :=
    let seed_b := draw (X := Seed) s in
    let seed_c := draw (X := Seed) (snd seed_b) in
    match i with
    | P0 => Shares (seeded_rest vs (from_seed (fst seed_b)) (from_seed (fst seed_c)))
    | P1 => SeedOf (fst seed_b) (length vs)
    | P2 => SeedOf (fst seed_c) (length vs)
    end.
  (** types.rs:167-174 [CompressedRep3SharedWitness]: the public inputs and the shares *)
  Definition cwitness : Type := list F * share_vec.
  (** types.rs:279-333 [CompressedRep3SharedWitness::share_rep3]; lib.rs:47-55 [split_witness_rep3] *)
  Definition share_rep3 (values : list F) (num_pub_inputs : nat) (s : S) (c : compression) : outcome (pid -> cwitness) :=
    obind (split_slice num_pub_inputs values) (fun pw =>
      let shs := match c with
        | CSeededHalfShares => fun i => SeededAdditive (share_additive_seeded (snd pw) s i)
        | CSeededShares => fun i => SeededReplicated (share_seeded (snd pw) s i)
        | CHalfShares => fun i => Additive (fst (share_elements_additive (snd pw) s) i)
        | CNone => fun i => Replicated (fst (Rep3.share_field_elements (snd pw) s) i)
        end in
      Done (fun i => (fst pw, shs i))).
  (** types.rs:338-359 [SharedWitness::share_rep3] *)
  Definition share_rep3_plain (values : list F) (num_pub_inputs : nat) (s : S) : outcome (pid -> list F * list (share F)) :=
    obind (split_slice num_pub_inputs values) (fun pw => Done (fun i => (fst pw, fst (Rep3.share_field_elements (snd pw) s) i))).
  (** types.rs:364-382 [share_shamir]; lib.rs:82-91 [split_witness_shamir] *)
  Definition share_shamir (values : list F) (num_pub_inputs degree num_parties : nat) (s : S) : outcome (list (list F * list F)) :=
    obind (split_slice num_pub_inputs values) (fun pw =>
      Done (map (fun share => (fst pw, share)) (fst (Shamir.share_field_elements (snd pw) degree num_parties s)))).
  (** types.rs:176-183 *)
  Definition compress (w : list F * list (share F)) : cwitness := (fst w, Replicated (snd w)).
  (** types.rs:185-203 [From<CompressedRep3SharedWitness<F>> for SharedWitness<F, F>] *)
  Definition additive_witness (w : cwitness) : list F * list F :=
    (fst w, match snd w with
            | Replicated l => map (@sa F) l
            | SeededReplicated x => expand (S := S) (fst x)
            | Additive l => l
            | SeededAdditive x => expand (S := S) x
            end).
  Section Uncompress.
    Context {M : Type} {EF : Enc M (list F)}.
    (** mpc-core/src/protocols/rep3.rs [expand_vec] of a seeded vector, an error if the halves differ in length (lib.rs:65-67) *)
    Definition expand_or (x : seeded F Seed * seeded F Seed) : prog pid M (list (share F)) :=
      match expand_rep (S := S) x with Some l => Ret l | None => Fail (Eyre "Lengths of shares do not match") end.
    (** lib.rs:58-79 [uncompress_shared_witness] *)
    Definition uncompress (i : pid) (w : cwitness) : prog pid M (list F * list (share F)) :=
      r <- match snd w with
           | Replicated l => Ret l
           | SeededReplicated x => expand_or x
           | Additive l => reshare_vec i l
           | SeededAdditive x => reshare_vec i (expand (S := S) x)
           end ;;
      Ret (fst w, r).
  End Uncompress.
  Section Translate.
    Context {M : Type} {EF : Enc M (list F)} {EF1 : Enc M F} {ES : Enc M (list Seed)} (seed0 : Seed).
    (** lib.rs:99-104: the replicated shares of the party with this identity ([PartyID::try_from]) *)
    Definition translate_rep (l : list (share F)) (id : nat) : prog nat M (list F) :=
      if (3 <=? id)%nat then Fail (Eyre "Invalid party ID")
      else match translate_repshare_vec (F := F) (map (fun h => (sa h, sb h)) l) id with
           | Some r => Ret r
           | None => Fail (Panic "inverse in lagrange should work")
           end.
    (** lib.rs:105-115: preprocessing for 3 parties with threshold 1, then the translation *)
    Definition translate_add (l : list F) (id : nat) (seed : Seed) : prog nat M (list F) :=
      st <- preprocessing_new (M := M) (F := F) (Sg := S) seed0 id seed 3 1 (length l) ;;
      r <- translate_addshare_vec (M := M) l st ;;
      Ret (fst r).
    (** lib.rs:94-136 [translate_witness] *)
    Definition translate_witness (id : nat) (seed : Seed) (w : cwitness) : prog nat M (list F * list F) :=
      r <- match snd w with
           | Replicated l => translate_rep l id
           | SeededReplicated x => match expand_rep (S := S) x with
                                   | Some l => translate_rep l id
                                   | None => Fail (Eyre "Lengths of shares do not match")
                                   end
           | Additive l => translate_add l id seed
           | SeededAdditive x => translate_add (expand (S := S) x) id seed
           end ;;
      Ret (fst w, r).
  End Translate.
End Witness.

(** types.rs:272-274 [public_inputs_for_verify] *)
Definition public_inputs_for_verify {F Sh} (w : list F * list Sh) : outcome (list F) :=
  match fst w with [] => Failed (Panic "range start index 1 out of range for slice of length 0") | _ :: l => Done l end.

(** ** Batches *)
Section Batch.
  (** types.rs:236-245 and 247-256: one element to every instance *)
  Fixpoint push_rows {A} (batch_size : nat) (rows acc : list (list A)) : outcome (list (list A)) :=
    match rows with
    | [] => Done acc
    | r :: rows => if (length r =? batch_size)%nat then push_rows batch_size rows (map2 (fun a x => a ++ [x]) acc r)
                   else Failed (Panic "batch size not consistent in batched witness")
    end.
  (** types.rs:227-264 [unbatch] *)
  Definition unbatch {P Sh} (w : list (list P) * list (list Sh)) : outcome (list (list P * list Sh)) :=
    match fst w with
    | [] => Failed (Panic "trying to unbatch an empty shared witness")
    | r :: _ => let n := length r in
                obind (push_rows n (fst w) (repeat [] n)) (fun ps =>
                obind (push_rows n (snd w) (repeat [] n)) (fun ws =>
                Done (List.combine ps ws)))
    end.
End Batch.
