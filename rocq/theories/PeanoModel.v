(** The format of Peano numbers: doodle-formats/src/format/peano.rs. *)
From Coq Require Import String.
From Verif Require Import Base BoundsModel DataModel NumericModel ValueModel FormatModel RecordModel TextModel DeflateModel GzipModel.
Open Scope nat_scope.

Section Peano.
Context (base : nat).
Definition l_decimal : nat := base.
Definition l_peano : nat := base + 1.
(** doodle-formats/src/format/peano.rs:5-14; the bytes are "S" and "Z" *)
Definition peano_number : item :=
  Item [] [] (FMap (FTuple [FRepeatBetween (EU B16 0) (EU B16 9) (is_byte_f 83); is_byte_f 90])
    (lambda_tuple ["s"; "_z"]%string (ESeqLength (evar "s")))).
(** doodle-formats/src/format/peano.rs:15 *)
Definition peano_sequence : item := Item [] [] (FRepeat1 (call l_decimal)).
(** doodle-formats/src/format/peano.rs:4-16 [main]: the items it defines, in order *)
Definition peano_items : list item := [peano_number; peano_sequence].
Definition peano : format := call l_peano.
End Peano.
