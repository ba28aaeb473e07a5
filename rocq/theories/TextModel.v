(** The UTF-8 text formats of doodle-formats/src/format/text.rs, in a module of
    their own (simplification: there they are added to a module that has other
    items already), and the small formats next to it. *)
From Coq Require Import String.
From Verif Require ByteSetModel.
From Verif Require Import Base BoundsModel DataModel NumericModel ValueModel FormatModel RecordModel.
Open Scope nat_scope.

(** src/helper.rs:647-652 [byte_in] on an inclusive range *)
Definition byte_in (lo hi : N) : format := FByte (ByteSetModel.from_range_incl lo hi).
(** src/helper.rs:1351-1361 [lambda_tuple] *)
Definition lambda_tuple (names : list string) (body : expr) : expr :=
  ELambda (intern "tuple_var") (EDestructure (EVar (intern "tuple_var")) (PTuple (map (fun x => PBinding (intern x)) names)) body).
Definition evar (x : string) : expr := EVar (intern x).

(** doodle-formats/src/format/text.rs:7-14 [DROPMASKS], 16-21 [drop_n_msb] *)
Definition dropmasks : list N := [255; 127; 63; 31; 15; 7]%N.
Definition drop_n_msb (n : nat) (f : format) : format :=
  FMap f (ELambda (intern "raw") (EArith ABitAnd (evar "raw") (EU B8 (nth n dropmasks 0%N)))).
(** doodle-formats/src/format/text.rs:116-126 [shift6_2], [shift6_3], [shift6_4] *)
Definition shift6_2 (hi lo : expr) : expr := EArith ABitOr (EArith AShl (EAs B32 hi) (EU B32 6)) (EAs B32 lo).
Definition shift6_3 (hi mid lo : expr) : expr := EArith ABitOr (EArith AShl (EAs B32 hi) (EU B32 12)) (shift6_2 mid lo).
Definition shift6_4 (hh hl lh ll : expr) : expr := EArith ABitOr (EArith AShl (EAs B32 hh) (EU B32 18)) (shift6_3 hl lh ll).

(** src/helper.rs:1861 [VALID_ASCII] *)
Definition valid_ascii : ByteSetModel.byteset := ByteSetModel.BS (N.ones 64) (N.ones 64) 0 0.
Definition call (level : nat) : format := FItemVar level [] [].

(** doodle-formats/src/format/text.rs:23-113 [main] *)
Definition utf8_tail : format := drop_n_msb 2 (byte_in 128 191).
Definition tail : format := call 0.
Definition ascii_nz : ByteSetModel.byteset :=
  ByteSetModel.intersection valid_ascii (ByteSetModel.complement (ByteSetModel.singleton 0)).
Definition utf8_1_nz : format := FMap (FByte ascii_nz) (ELambda (intern "byte") (EAs B32 (evar "byte"))).
Definition utf8_2 : format :=
  FMap (FTuple [drop_n_msb 3 (byte_in 194 223); tail]) (lambda_tuple ["x1"; "x0"]%string (shift6_2 (evar "x1") (evar "x0"))).
Definition utf8_3 : format :=
  FMap (FUnion [
    FTuple [drop_n_msb 4 (is_byte_f 224); drop_n_msb 2 (byte_in 160 191); tail];
    FTuple [drop_n_msb 4 (byte_in 225 236); tail; tail];
    FTuple [drop_n_msb 4 (is_byte_f 237); drop_n_msb 2 (byte_in 128 159); tail];
    FTuple [drop_n_msb 4 (byte_in 238 239); tail; tail]])
  (lambda_tuple ["x2"; "x1"; "x0"]%string (shift6_3 (evar "x2") (evar "x1") (evar "x0"))).
Definition utf8_4 : format :=
  FMap (FUnion [
    FTuple [drop_n_msb 5 (is_byte_f 240); drop_n_msb 2 (byte_in 144 191); tail; tail];
    FTuple [drop_n_msb 5 (byte_in 241 243); tail; tail; tail];
    FTuple [drop_n_msb 5 (is_byte_f 244); drop_n_msb 2 (byte_in 128 143); tail; tail]])
  (lambda_tuple ["x3"; "x2"; "x1"; "x0"]%string (shift6_4 (evar "x3") (evar "x2") (evar "x1") (evar "x0"))).
Definition utf8_char_nz : format :=
  FMap (FUnion [utf8_1_nz; utf8_2; utf8_3; utf8_4]) (ELambda (intern "codepoint") (EAsChar (evar "codepoint"))).
Definition utf8_char : format :=
  FUnion [FMap (is_byte_f 0) (ELambda (intern "_") (EAsChar (EU B32 0))); call 1].
Definition text_module : fmodule :=
  [Item [] [] utf8_tail; Item [] [] utf8_char_nz; Item [] [] utf8_char;
   Item [] [] (FRepeat (call 1)); Item [] [] (FRepeat (call 2)); Item [] [] (call 4)].
Definition utf8_zstr : format := call 3.
Definition utf8_text : format := call 5.
