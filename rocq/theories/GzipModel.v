(** The zlib and gzip formats: doodle-formats/src/format/zlib.rs and
    doodle-formats/src/format/gzip.rs. [dlevel] is the level of the deflate format. *)
From Coq Require Import String.
From Verif Require ByteSetModel.
From Verif Require Import Base BoundsModel DataModel NumericModel ValueModel FormatModel RecordModel TextModel DeflateModel.
Open Scope nat_scope.

(** The packed bytes of these formats are well laid out, so that [bit_fields_u8] does
    not panic (shown in GzipProofs). *)
Definition laid_out (o : outcome format) : format := match o with Val f => f | Panic => FFail end.
(** src/helper.rs:895-897 [where_lambda] *)
Definition where_lambda (f : format) (x : string) (body : expr) : format := FWhere f (ELambda (intern x) body) true.
(** src/helper.rs:705-707 [expr_eq] *)
Definition expr_eq (a b : expr) : expr := EIntRel REq a b.
(** src/helper.rs:628-630 [cond_maybe] *)
Definition cond_maybe (cond : expr) (f : format) : format := FMaybe cond f.
(** src/helper.rs:690-696 [record_lens] *)
Definition record_lens (e : expr) (xs : list string) : expr := fold_left proj xs e.
(** src/helper.rs:660-662 [not_byte], 670-672 [byte_seq] *)
Definition not_byte_f (b : N) : format := FByte (ByteSetModel.complement (ByteSetModel.from_list [b])).
Definition byte_seq (bytes : list N) : format := FSequence (map is_byte_f bytes).
(** src/helper.rs:1944-1946 [ascii_char]: any byte; 1963-1969 [asciiz_string] *)
Definition ascii_char : format := FHint any_byte_f.
Definition asciiz_string : format :=
  FHint (FLetFormat (FRepeat (not_byte_f 0)) (intern "chars") (FMonadSeq (is_byte_f 0) (FCompute (evar "chars")))).

Section Containers.
Context (dlevel : nat).
(** doodle-formats/src/format/zlib.rs:4-23 *)
Definition method_bits : list bit_field := [BitsField "compression-info" 4; BitsField "compression-method" 4].
Definition method_and_flags : format :=
  where_lambda (laid_out (bit_fields_u8 method_bits)) "method-info"
    (expr_eq (proj (evar "method-info") "compression-method") (EU B8 8)).
(** doodle-formats/src/format/zlib.rs:36-45 *)
Definition zlib_flag_bits : list bit_field := [BitsField "flevel" 2; FlagBit "fdict"; BitsField "fcheck" 5].
(** doodle-formats/src/format/zlib.rs:26 [has_dict] *)
Definition has_dict (flags : expr) : expr := proj flags "fdict".
(** doodle-formats/src/format/zlib.rs:30-54 *)
Definition zlib_main : item :=
  Item [] [] (record (named [
    ("compression-method-flags", method_and_flags);
    ("flags", laid_out (bit_fields_u8 zlib_flag_bits));
    ("dict-id", cond_maybe (has_dict (evar "flags")) (uint true B32));
    ("data", FBits (call dlevel));
    ("adler32", uint true B32)])%string).

Section Gzip.
Context (base : nat).
Definition l_file_flags : nat := base.
Definition l_header : nat := base + 1.
Definition l_footer : nat := base + 2.
Definition l_fname : nat := base + 3.
Definition l_subfield : nat := base + 4.
Definition l_fextra : nat := base + 5.
Definition l_fcomment : nat := base + 6.
Definition l_fhcrc : nat := base + 7.
Definition l_gzip : nat := base + 8.
(** doodle-formats/src/format/gzip.rs:16-32 *)
Definition file_flag_bits : list bit_field :=
  [Reserved 3 true; FlagBit "fcomment"; FlagBit "fname"; FlagBit "fextra"; FlagBit "fhcrc"; FlagBit "ftext"].
Definition file_flags : item := Item [] [] (laid_out (bit_fields_u8 file_flag_bits)).
(** doodle-formats/src/format/gzip.rs:34-44 *)
Definition header : item :=
  Item [] [] (record (named [
    ("magic", byte_seq [31; 139]%N);
    ("method", u8_f);
    ("file-flags", call l_file_flags);
    ("timestamp", uint false B32);
    ("compression-flags", u8_f);
    ("os-id", u8_f)])%string).
(** doodle-formats/src/format/gzip.rs:46-49 *)
Definition footer : item := Item [] [] (record (named [("crc", uint false B32); ("length", uint false B32)])%string).
(** doodle-formats/src/format/gzip.rs:51-57 *)
Definition fname : item := Item [] [] asciiz_string.
Definition cond_fname (header : expr) : format := cond_maybe (record_lens header ["file-flags"; "fname"]%string) (call l_fname).
(** doodle-formats/src/format/gzip.rs:59-83 *)
Definition fextra_subfield : item :=
  Item [] [] (record (named [
    ("si1", ascii_char);
    ("si2", ascii_char);
    ("len", uint false B16);
    ("data", FRepeatCount (evar "len") u8_f)])%string).
Definition fextra : item :=
  Item [] [] (record (named [("xlen", uint false B16); ("subfields", FSlice (evar "xlen") (FRepeat (call l_subfield)))])%string).
Definition cond_fextra (header : expr) : format := cond_maybe (record_lens header ["file-flags"; "fextra"]%string) (call l_fextra).
(** doodle-formats/src/format/gzip.rs:85-97 *)
Definition fcomment : item := Item [] [] (record (named [("comment", asciiz_string)])%string).
Definition cond_fcomment (header : expr) : format := cond_maybe (record_lens header ["file-flags"; "fcomment"]%string) (call l_fcomment).
(** doodle-formats/src/format/gzip.rs:99-110 *)
Definition fhcrc : item := Item [] [] (record (named [("crc", uint false B16)])%string).
Definition cond_fhcrc (header : expr) : format := cond_maybe (record_lens header ["file-flags"; "fhcrc"]%string) (call l_fhcrc).
(** doodle-formats/src/format/gzip.rs:112-121 *)
Definition gzip_single : format :=
  record (named [
    ("header", call l_header);
    ("fextra", cond_fextra (evar "header"));
    ("fname", cond_fname (evar "header"));
    ("fcomment", cond_fcomment (evar "header"));
    ("fhcrc", cond_fhcrc (evar "header"));
    ("data", FBits (call dlevel));
    ("footer", call l_footer)])%string.
(** doodle-formats/src/format/gzip.rs:122 *)
Definition gzip_main : item := Item [] [] (FRepeat1 gzip_single).
(** doodle-formats/src/format/gzip.rs:5-123 [main]: the items it defines, in order *)
Definition gzip_items : list item :=
  [file_flags; header; footer; fname; fextra_subfield; fextra; fcomment; fhcrc; gzip_main].
Definition gzip : format := call l_gzip.
End Gzip.
End Containers.
