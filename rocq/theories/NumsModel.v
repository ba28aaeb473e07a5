(** The format of tagged numbers: doodle-formats/src/format/numbers.rs. *)
From Coq Require Import String.
From Verif Require Import Base BoundsModel DataModel NumericModel ValueModel FormatModel RecordModel TextModel DeflateModel GzipModel RiffModel.
Open Scope nat_scope.

(** src/helper.rs:341-347 [alts] *)
Definition alts (branches : list (string * format)) : format := FUnion (map (fun lf => FVariant (intern (fst lf)) (snd lf)) branches).
Section Nums.
Context (base : nat).
Definition l_num : nat := base.
Definition l_nums : nat := base + 1.
(** doodle-formats/src/format/numbers.rs:6-41; the signed ones are those of [sint]
    (RecordModel), written out there *)
Definition num_value : item :=
  Item [] [] (alts [
    ("U8Value", FMonadSeq (is_byte_f 0) u8_f);
    ("U16BEValue", FMonadSeq (is_byte_f 1) (uint true B16));
    ("U32BEValue", FMonadSeq (is_byte_f 2) (uint true B32));
    ("U64BEValue", FMonadSeq (is_byte_f 3) (uint true B64));
    ("I8Value", FMonadSeq (is_byte_f 4) (sint B8));
    ("I16BEValue", FMonadSeq (is_byte_f 5) (sint B16));
    ("I32BEValue", FMonadSeq (is_byte_f 6) (sint B32));
    ("I64BEValue", FMonadSeq (is_byte_f 7) (sint B64))]%string).
(** doodle-formats/src/format/numbers.rs:42-49; the bytes are "NUMS" *)
Definition nums_main : item :=
  Item [] [] (record_auto [("__magic", is_bytes [78; 85; 77; 83]%N); ("values", FRepeat (call l_num))]%string).
(** doodle-formats/src/format/numbers.rs:5-50 [main]: the items it defines, in order *)
Definition nums_items : list item := [num_value; nums_main].
Definition nums : format := call l_nums.
End Nums.
