(** The run-length format: doodle-formats/src/format/run_length.rs. *)
From Coq Require Import String.
From Verif Require Import Base BoundsModel DataModel NumericModel ValueModel FormatModel RecordModel TextModel DeflateModel GzipModel.
Open Scope nat_scope.

(** src/helper.rs:1719-1721 [mk_ascii_string] *)
Definition mk_ascii_string (x : format) : format := FHint x.
(** doodle-formats/src/format/run_length.rs:5-12 and 28-35: the two definitions differ in the
    names of the first two fields; both keep them *)
Definition run_item (len char : string) : item :=
  Item [] [] (record (named [
    (len, u8_f);
    (char, u8_f);
    ("buf", FRepeatCount (evar len) (FCompute (evar char)))])%string).
(** doodle-formats/src/format/run_length.rs:17-23 and 40-46 *)
Definition expanded (runs : string) : format :=
  mk_ascii_string (FCompute (EFlatMap (ELambda (intern "run") (proj (evar "run") "buf")) (evar runs))).
Section Rle.
Context (base : nat).
Definition l_old_run : nat := base.
Definition l_old : nat := base + 1.
Definition l_new_run : nat := base + 2.
Definition l_new : nat := base + 3.
Definition l_rle : nat := base + 4.
(** doodle-formats/src/format/run_length.rs:13-25 *)
Definition old_style : item := Item [] [] (record (named [("runs", FRepeat (call l_old_run)); ("data", expanded "runs")])%string).
(** doodle-formats/src/format/run_length.rs:27-49 *)
Definition new_style : item := Item [] [] (record_auto [("_runs", FRepeat (call l_new_run)); ("data", expanded "_runs")]%string).
(** doodle-formats/src/format/run_length.rs:51-57 *)
Definition rle_main : item :=
  Item [] [] (FUnion [
    FMonadSeq (is_byte_f 0) (FVariant (intern "old-style") (call l_old));
    FMonadSeq (is_byte_f 1) (FVariant (intern "new-style") (call l_new))]).
(** doodle-formats/src/format/run_length.rs:4-58 [main]: the items it defines, in order *)
Definition rle_items : list item := [run_item "len" "char"; old_style; run_item "_len" "_char"; new_style; rle_main]%string.
Definition rle : format := call l_rle.
End Rle.
