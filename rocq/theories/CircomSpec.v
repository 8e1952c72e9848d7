(** * What the inputs of co-circom mean, independently of the code *)
From Coq Require Import String List Arith NArith Bool.
From Verif Require Import Proc Alg Rep3 Conv VmIdeal Vm Circom.
Import ListNotations.
Set Implicit Arguments.
Local Open Scope grp_scope.
Local Open Scope string_scope.
Local Open Scope list_scope.

(** the scalars of a JSON value from left to right *)
Fixpoint leaves (j : json) : list json :=
  match j with JArr l => flat_map leaves l | _ => [j] end.
Section Spec.
  Context {F : Type} `{FU : FieldUint F} (hex_uint : string -> option N) (from_str : string -> option F).
  (** the number written as a string: an optional sign; hexadecimal numbers after 0x are reduced *)
  Definition magnitude (s : string) (v : F) : Prop :=
    (exists h n, s = "0x" ++ h /\ hex_uint h = Some n /\ v = of_uint (n mod fu_p (F := F))%N)%string \/
    ((forall h, s <> "0x" ++ h) /\ from_str s = Some v)%string.
  Definition number (s : string) (v : F) : Prop :=
    (exists m w, s = "-" ++ m /\ magnitude m w /\ v = - w)%string \/
    ((forall m, s <> "-" ++ m) /\ magnitude s v)%string.
  (** the entry [k] (with value [v]) that comes from the member [name : j] of the input *)
  Definition entry (name : string) (j : json) (k : string) (v : F) : Prop :=
    match j with
    | JArr _ => exists idx s, nth_error (leaves j) idx = Some s /\ s <> JStr "?" /\ k = (name ++ "[" ++ dec_string idx ++ "]")%string /\
                  match s with JBool b => v = if b then rone else 0 | JStr s => number s v | _ => False end
    | JBool b => k = name /\ v = if b then rone else 0
    | JStr s => k = name /\ number s v
    | JOther => False
    end.
  (** every scalar has a value *)
  Definition readable (j : json) : Prop :=
    match j with
    | JArr _ => forall s, In s (leaves j) -> s = JStr "?" \/ match s with JBool _ => True | JStr s => exists v, number s v | _ => False end
    | JBool _ => True
    | JStr s => exists v, number s v
    | JOther => False
    end.
  Definition tagged (pubs : list string) (name : string) (v : F) (t : tv F) : Prop :=
    (In name pubs /\ t = Pub v) \/ (~ In name pubs /\ t = Sh v).
  (** the entry [k] of a whole input: of several members that make it, the last one *)
  Definition input_entry (pubs : list string) (input : list (string * json)) (k : string) (t : tv F) : Prop :=
    exists pre name j post v, input = pre ++ (name, j) :: post /\ entry name j k v /\ tagged pubs name v t /\
      forall name' j' v', In (name', j') post -> ~ entry name' j' k v'.
  (** two contributors have an entry in common only if it is public and the same *)
  Definition harmony {S} (pubs : list string) (cs : list (list (string * json) * S)) : Prop :=
    ForallOrdPairs (fun c c' => forall k t t', input_entry pubs (fst c) k t -> input_entry pubs (fst c') k t' -> In (orig_name k) pubs /\ t = t') cs.
  Definition tcount (m : list (string * tv F)) : nat := length (filter (fun e => negb (tshared (snd e))) m).
End Spec.

(** Which maps can be merged, and what the result is *)
Section Merge.
  Context {V : Type}.
  Definition has (m : list (string * V)) (k : string) (v : V) : Prop := assoc k m = Some v.
  (** two contributors have an entry in common only if it is public and the same *)
  Definition agree (pubs : list string) (m m' : list (string * V)) : Prop :=
    forall k v w, has m k v -> has m' k w -> In (orig_name k) pubs /\ v = w.
  Definition compatible (pubs : list string) (ms : list (list (string * V))) : Prop := ForallOrdPairs (agree pubs) ms.
  Definition union (ms : list (list (string * V))) (r : list (string * V)) : Prop :=
    forall k v, has r k v <-> exists m, In m ms /\ has m k v.
End Merge.

(** the transpose of a rectangular table *)
Definition column {A} (k : nat) (rows : list (list A)) (c : list A) : Prop :=
  length c = length rows /\ forall n r, nth_error rows n = Some r -> nth_error r k = nth_error c n.
