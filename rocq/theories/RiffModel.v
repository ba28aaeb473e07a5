(** The RIFF format: doodle-formats/src/format/riff.rs. *)
From Coq Require Import String.
From Verif Require Import Base BoundsModel DataModel NumericModel ValueModel FormatModel RecordModel TextModel DeflateModel GzipModel.
Open Scope nat_scope.

(** src/helper.rs:772-774 [rem] *)
Definition rem (x y : expr) : expr := EArith ARem x y.
(** src/helper.rs:665-667 [is_bytes] *)
Definition is_bytes (bytes : list N) : format := FTuple (map is_byte_f bytes).
(** src/helper.rs:2026-2028 [opaque_bytes] *)
Definition opaque_bytes : format := FRepeat u8_f.

(** doodle-formats/src/format/riff.rs:5-8 [is_odd] *)
Definition is_odd (num : expr) : expr := expr_eq (rem num (EU B32 2)) (EU B32 1).
(** doodle-formats/src/format/riff.rs:10-17 [chunk] *)
Definition chunk (tag data : format) : format :=
  record (named [
    ("tag", tag);
    ("length", uint false B32);
    ("data", FSlice (evar "length") data);
    ("pad", cond_maybe (is_odd (evar "length")) (is_byte_f 0))])%string.
Section Riff.
Context (base : nat).
Definition l_tag : nat := base.
Definition l_chunk : nat := base + 1.
Definition l_subchunks : nat := base + 2.
Definition l_riff : nat := base + 3.
(** doodle-formats/src/format/riff.rs:19 *)
Definition any_tag : item := Item [] [] (tuple_repeat 4 ascii_char).
(** doodle-formats/src/format/riff.rs:21 *)
Definition any_chunk : item := Item [] [] (chunk (call l_tag) opaque_bytes).
(** doodle-formats/src/format/riff.rs:23-29 *)
Definition subchunks : item :=
  Item [] [] (record (named [("tag", call l_tag); ("chunks", FRepeat (call l_chunk))])%string).
(** doodle-formats/src/format/riff.rs:31; the bytes are "RIFF" *)
Definition riff_main : item := Item [] [] (chunk (is_bytes [82; 73; 70; 70]%N) (call l_subchunks)).
(** doodle-formats/src/format/riff.rs:4-32 [main]: the items it defines, in order *)
Definition riff_items : list item := [any_tag; any_chunk; subchunks; riff_main].
Definition riff : format := call l_riff.
End Riff.
