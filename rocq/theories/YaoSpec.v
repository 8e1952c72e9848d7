(** * Specification vocabulary for Yao shares
    Refers to wires and labels only (fancy_garbling: [WireMod2], labels of a wire [w], [w + delta]). *)
From Coq Require Import List Arith NArith Lia Bool.
From Verif Require Import Proc Alg Rep3Net Rep3 Uint Conv Garble CircuitsOk Garbled.
Import ListNotations.
Set Implicit Arguments.

(** Yao shares of the bits [bs] under the offset [d]: both garblers hold the labels of zero, the
    evaluator holds the label of the bit *)
Definition yao_shares (d : N) (w : pid -> list N) (bs : list bool) : Prop :=
  w P1 = w P2 /\ length (w P1) = length bs /\ w P0 = labels d (w P1) bs.

(** [n] labels drawn one after the other *)
Fixpoint zero_labels {S} (draw_label : S -> N * S) (n : nat) (s : S) : list N * S :=
  match n with
  | O => ([], s)
  | Datatypes.S n => let z := draw_label s in let r := zero_labels draw_label n (snd z) in (fst z :: fst r, snd r)
  end.

(** who knows the offset *)
Definition knows_delta (d : N) (delta : pid -> option N) : Prop := delta P1 = Some d /\ delta P2 = Some d.
