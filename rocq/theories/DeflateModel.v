(** The DEFLATE formats of doodle-formats/src/format/deflate.rs. The items are added
    to a module that has [base] items already. *)
From Coq Require Import String.
From Verif Require ByteSetModel.
From Verif Require Import Base BoundsModel DataModel NumericModel ValueModel FormatModel RecordModel TextModel.
Open Scope nat_scope.

(** src/helper.rs:1806-1809 [bit]: any byte, the bits of [Format::Bits] being bytes *)
Definition bit : format := any_byte_f.
(** src/helper.rs:1537-1539 [balanced_bitor] and 1550-1587 [balance_merge]: one round of
    the loop joins neighbours; [n] bounds the number of rounds *)
Fixpoint join_pairs (nodes : list expr) : list expr :=
  match nodes with
  | l :: r :: rest => EArith ABitOr l r :: join_pairs rest
  | l => l
  end.
Fixpoint balance_loop (n : nat) (stratum : list expr) : expr :=
  match n, stratum with
  | _, [] => EBool false
  | _, [e] => e
  | O, e :: _ => e
  | S n', _ => balance_loop n' (join_pairs stratum)
  end.
Definition balanced_bitor (nodes : list expr) : expr := balance_loop (length nodes) nodes.

(** doodle-formats/src/format/deflate.rs:6-8 [shl_u8], 10-13 [shl_u16]; [cast] (15-21) is the identity *)
Definition shl_u8 (x : expr) (r : nat) : expr :=
  if Nat.eqb r 0 then x else EArith AShl x (EU B8 (N.of_nat r)).
Definition shl_u16 (x : expr) (r : nat) : expr :=
  if Nat.eqb r 0 then EAs B16 x else EArith AShl (EAs B16 x) (EU B16 (N.of_nat r)).
(** doodle-formats/src/format/deflate.rs:28-42 [bits_value_u8] *)
Definition bits_value_u8 (name : string) (n : nat) : expr :=
  if Nat.eqb n 0 then EU B8 0
  else if Nat.eqb n 1 then ETupleProj (evar name) 0
  else balanced_bitor (map (fun i => shl_u8 (ETupleProj (evar name) i) i) (seq 0 n)).
(** doodle-formats/src/format/deflate.rs:51-58 [dist_value_u8]; src/helper.rs:1342-1348 [seq_proj] *)
Definition seq_proj (e : expr) (i : N) : expr := ESeqIx e (EU B32 i).
Definition dist_value_u8 (x : string) : expr :=
  EArith ABitOr (EArith ABitOr (shl_u8 (seq_proj (evar x) 0) 4) (shl_u8 (seq_proj (evar x) 1) 3))
    (EArith ABitOr (EArith ABitOr (shl_u8 (seq_proj (evar x) 2) 2) (shl_u8 (seq_proj (evar x) 3) 1)) (seq_proj (evar x) 4)).
(** doodle-formats/src/format/deflate.rs:65-80 [bits_value_u16] *)
Definition bits_value_u16 (name : string) (n : nat) : expr :=
  if Nat.eqb n 0 then EU B16 0
  else if Nat.eqb n 1 then EAs B16 (ETupleProj (evar name) 0)
  else balanced_bitor (map (fun i => shl_u16 (ETupleProj (evar name) i) i) (seq 0 n)).
(** doodle-formats/src/format/deflate.rs:83-88 [dist8] *)
Definition dist8 : format :=
  FMap (FRepeatCount (EU B32 5) bit) (ELambda (intern "bits") (dist_value_u8 "bits")).
(** doodle-formats/src/format/deflate.rs:92-101 [bits8], 105-114 [bits16] *)
Definition bits8 (n : nat) : format :=
  if Nat.eqb n 0 then FCompute (EU B8 0)
  else FMap (tuple_repeat n bit) (ELambda (intern "bits") (bits_value_u8 "bits" n)).
Definition bits16 (n : nat) : format :=
  if Nat.eqb n 0 then FCompute (EU B16 0)
  else FMap (tuple_repeat n bit) (ELambda (intern "bits") (bits_value_u16 "bits" n)).

Definition named (fs : list (string * format)) : list (label * format) := map (fun f => (intern (fst f), snd f)) fs.
(** src/helper.rs:680-682 [record_proj], 260-262 [variant] *)
Definition proj (e : expr) (x : string) : expr := ERecordProj e (intern x).
Definition variant (x : string) (e : expr) : expr := EVariant (intern x) e.
(** src/lib.rs:889-891 [FormatRef::call_args] *)
Definition call_args (level : nat) (args : list expr) : format := FItemVar level args [].

Section Deflate.
Context (base : nat).
(** The levels of the items, in the order of [main]. *)
Definition l_distance_record0 : nat := base.
Definition l_distance_record : nat := base + 1.
Definition l_uncompressed : nat := base + 2.
Definition l_fixed_huffman : nat := base + 3.
Definition l_lld_lengths : nat := base + 4.
Definition l_dynamic_huffman : nat := base + 5.
Definition l_block : nat := base + 6.
Definition l_main : nat := base + 7.

(** doodle-formats/src/format/deflate.rs:117-136 [length_record], 139-155 [length_record_fixed]: what differs is
    the format of the distance code and the argument of the call *)
Definition length_record_of (start extra_bits : nat) (code : format) (arg : expr) : format :=
  record (named [
    ("length-extra-bits", bits8 extra_bits);
    ("length", FCompute (EArith AAdd (EU B16 (N.of_nat start)) (EAs B16 (evar "length-extra-bits"))));
    ("distance-code", code);
    ("distance-record", call_args l_distance_record [arg])])%string.
Definition length_record (start extra_bits : nat) : format :=
  length_record_of start extra_bits (FApply (intern "distance-alphabet-format")) (evar "distance-code").
Definition length_record_fixed (start extra_bits : nat) : format :=
  length_record_of start extra_bits dist8 (EAs B16 (evar "distance-code")).
(** doodle-formats/src/format/deflate.rs:158-175 [reference_record]; src/helper.rs:1260-1262 [expr_unwrap] *)
Definition reference_record (scrutinee : expr) : expr :=
  EMatch (proj scrutinee "extra")
    [(POption (Some (PBinding (intern "rec"))),
      ESeq [variant "reference" (ERecord [
        (intern "length", proj (evar "rec") "length");
        (intern "distance", proj (proj (evar "rec") "distance-record") "distance")])])].
Definition expr_unwrap (e : expr) : expr := EMatch e [(POption (Some (PBinding (intern "x"))), evar "x")].
(** doodle-formats/src/format/deflate.rs:177-192 [fixed_code_lengths] *)
Definition fixed_code_lengths : expr :=
  ESeq (repeat (EU B8 8) 144 ++ repeat (EU B8 9) 112 ++ repeat (EU B8 7) 24 ++ repeat (EU B8 8) 8).

(** doodle-formats/src/format/deflate.rs:204-238 *)
Definition distance_record0 : item :=
  Item [intern "extra-bits"; intern "start"] [] (record (named [
    ("distance-extra-bits", FMatch (evar "extra-bits") (map (fun n => (PU B8 (N.of_nat n), bits16 n)) (seq 0 14)));
    ("distance", FCompute (EArith AAdd (evar "start") (evar "distance-extra-bits")))])%string).

(** doodle-formats/src/format/deflate.rs:245-364: code, extra bits and first distance *)
Definition distance_table : list (N * N * N) :=
  [(0, 0, 1); (1, 0, 2); (2, 0, 3); (3, 0, 4); (4, 1, 5); (5, 1, 7); (6, 2, 9); (7, 2, 13); (8, 3, 17); (9, 3, 25);
   (10, 4, 33); (11, 4, 49); (12, 5, 65); (13, 5, 97); (14, 6, 129); (15, 6, 193); (16, 7, 257); (17, 7, 385);
   (18, 8, 513); (19, 8, 769); (20, 9, 1025); (21, 9, 1537); (22, 10, 2049); (23, 10, 3073); (24, 11, 4097);
   (25, 11, 6145); (26, 12, 8193); (27, 12, 12289); (28, 13, 16385); (29, 13, 24577)]%N.
(** doodle-formats/src/format/deflate.rs:240-369 *)
Definition distance_record : item :=
  Item [intern "distance-code"] [] (FMatch (EAs B8 (evar "distance-code"))
    (map (fun e => (PU B8 (fst (fst e)), call_args l_distance_record0 [EU B8 (snd (fst e)); EU B16 (snd e)])) distance_table ++
     [(PInt (bnew 30 31), FFail)])).

(** doodle-formats/src/format/deflate.rs:371-386 *)
Definition uncompressed : item :=
  Item [] [] (record_auto [
    ("__align", FAlign 8);
    ("len", bits16 16);
    ("nlen", bits16 16);
    ("bytes", FRepeatCount (evar "len") (bits8 8));
    ("codes-values", FCompute (EFlatMap (ELambda (intern "x") (ESeq [variant "literal" (evar "x")])) (evar "bytes")))])%string.

(** doodle-formats/src/format/deflate.rs:408-523, 806-921: symbol, first length and extra bits *)
Definition length_table : list (N * nat * nat) :=
  [(257%N, 3, 0); (258%N, 4, 0); (259%N, 5, 0); (260%N, 6, 0); (261%N, 7, 0); (262%N, 8, 0); (263%N, 9, 0); (264%N, 10, 0);
   (265%N, 11, 1); (266%N, 13, 1); (267%N, 15, 1); (268%N, 17, 1); (269%N, 19, 2); (270%N, 23, 2); (271%N, 27, 2); (272%N, 31, 2);
   (273%N, 35, 3); (274%N, 43, 3); (275%N, 51, 3); (276%N, 59, 3); (277%N, 67, 4); (278%N, 83, 4); (279%N, 99, 4); (280%N, 115, 4);
   (281%N, 131, 5); (282%N, 163, 5); (283%N, 195, 5); (284%N, 227, 5); (285%N, 258, 0)].
(** doodle-formats/src/format/deflate.rs:401-531 and 796-928: a symbol and what follows it *)
Definition code_record (fmt : label) (length_record : nat -> nat -> format) : format :=
  record (named [
    ("code", FApply fmt);
    ("extra", FMatch (evar "code")
      (map (fun e => (PU B16 (fst (fst e)), FLiftedOption (Some (length_record (snd (fst e)) (snd e))))) length_table ++
       [(PInt (bnew 286 287), FLiftedOption None); (PWildcard, FLiftedOption None)]))])%string.
(** doodle-formats/src/format/deflate.rs:396-531, 791-928: up to the end-of-block symbol *)
Definition code_records (fmt : label) (length_record : nat -> nat -> format) : format :=
  FRepeatUntilLast (ELambda (intern "x") (EIntRel REq (EAs B16 (proj (evar "x") "code")) (EU B16 256)))
    (code_record fmt length_record).
(** doodle-formats/src/format/deflate.rs:534-561, 933-961 *)
Definition codes_values : expr :=
  EFlatMap (ELambda (intern "x") (EMatch (proj (evar "x") "code") [
    (PU B16 256, ESeq []);
    (PInt (bnew 257 285), reference_record (evar "x"));
    (PInt (bnew 286 287), ESeq []);
    (PWildcard, ESeq [variant "literal" (EAs B8 (proj (evar "x") "code"))])])) (evar "codes").
(** doodle-formats/src/format/deflate.rs:388-563 *)
Definition fixed_huffman : item :=
  Item [] [] (record (named [
    ("codes", FDynamic (intern "format") (DHuffman fixed_code_lengths None)
       (code_records (intern "format") length_record_fixed));
    ("codes-values", FCompute codes_values)])%string).

(** doodle-formats/src/format/deflate.rs:565-568 [CLA_CODE_LENGTHS] *)
Definition cla_code_lengths : list N := [16; 17; 18; 0; 8; 7; 9; 6; 10; 5; 11; 4; 12; 3; 13; 2; 14; 1; 15]%N.
(** doodle-formats/src/format/deflate.rs:577-629 [expand_cl_code], again 704-755 *)
Definition expand_cl_code : expr :=
  let extra n := EAs B32 (EArith AAdd (proj (evar "cl-code-extra") "extra") (EU B8 n)) in
  lambda_tuple ["last-symbol"; "cl-code-extra"]%string (EMatch (EAs B8 (proj (evar "cl-code-extra") "code")) [
    (PU B8 16, ETuple [evar "last-symbol"; EDup (extra 3%N) (expr_unwrap (evar "last-symbol"))]);
    (PU B8 17, ETuple [ELiftOption (Some (EU B8 0)); EDup (extra 3%N) (EU B8 0)]);
    (PU B8 18, ETuple [ELiftOption (Some (EU B8 0)); EDup (extra 11%N) (EU B8 0)]);
    (PBinding (intern "v"), ETuple [ELiftOption (Some (evar "v")); ESeq [evar "v"]])]).
Definition expand_lengths (e : expr) : expr :=
  EFlatMapAccum expand_cl_code (ELiftOption None) (TOption (TBase (TU B8))) e.
(** doodle-formats/src/format/deflate.rs:630-680 *)
Definition lld_alphabet_code_lengths : item :=
  Item [intern "hlit"; intern "hdist"; intern "code-length-alphabet-code-lengths"] []
    (FDynamic (intern "code-length-alphabet-format")
      (DHuffman (evar "code-length-alphabet-code-lengths") (Some (ESeq (map (EU B8) cla_code_lengths))))
      (FRepeatUntilSeq (ELambda (intern "y")
         (EIntRel RGte (ESeqLength (expand_lengths (evar "y")))
           (EArith AAdd (EAs B32 (EArith AAdd (evar "hlit") (evar "hdist"))) (EU B32 258))))
         (record (named [
           ("code", FApply (intern "code-length-alphabet-format"));
           ("extra", FMatch (EAs B8 (evar "code"))
             [(PU B8 16, bits8 2); (PU B8 17, bits8 3); (PU B8 18, bits8 7); (PWildcard, FCompute (EU B8 0))])])%string))).

(** doodle-formats/src/format/deflate.rs:683-963 *)
Definition dynamic_huffman : item :=
  Item [] [] (record (named [
    ("hlit", bits8 5);
    ("hdist", bits8 5);
    ("hclen", bits8 4);
    ("code-length-alphabet-code-lengths", FRepeatCount (EArith AAdd (evar "hclen") (EU B8 4)) (bits8 3));
    ("literal-length-distance-alphabet-code-lengths",
       call_args l_lld_lengths [evar "hlit"; evar "hdist"; evar "code-length-alphabet-code-lengths"]);
    ("literal-length-distance-alphabet-code-lengths-value",
       FCompute (expand_lengths (evar "literal-length-distance-alphabet-code-lengths")));
    ("literal-length-alphabet-code-lengths-value",
       FCompute (ESubSeq (evar "literal-length-distance-alphabet-code-lengths-value") (EU B32 0)
         (EArith AAdd (EAs B32 (evar "hlit")) (EU B32 257))));
    ("distance-alphabet-code-lengths-value",
       FCompute (ESubSeq (evar "literal-length-distance-alphabet-code-lengths-value")
         (EArith AAdd (EAs B32 (evar "hlit")) (EU B32 257)) (EArith AAdd (EAs B32 (evar "hdist")) (EU B32 1))));
    ("codes", FDynamic (intern "distance-alphabet-format") (DHuffman (evar "distance-alphabet-code-lengths-value") None)
       (FDynamic (intern "literal-length-alphabet-format") (DHuffman (evar "literal-length-alphabet-code-lengths-value") None)
         (code_records (intern "literal-length-alphabet-format") length_record)));
    ("codes-values", FCompute codes_values)])%string).

(** doodle-formats/src/format/deflate.rs:965-991 *)
Definition block : item :=
  Item [] [] (record (named [
    ("final", bit);
    ("type", bits8 2);
    ("data", FMatch (evar "type") [
       (PU B8 0, FVariant (intern "uncompressed") (call l_uncompressed));
       (PU B8 1, FVariant (intern "fixed_huffman") (call l_fixed_huffman));
       (PU B8 2, FVariant (intern "dynamic_huffman") (call l_dynamic_huffman))])])%string).

(** doodle-formats/src/format/deflate.rs:1003-1028 *)
Definition block_codes : expr :=
  EFlatMap (ELambda (intern "x") (EMatch (proj (evar "x") "data") (map (fun c =>
    (PVariant (intern c) (PBinding (intern "y")), proj (evar "y") "codes-values"))
    ["uncompressed"; "fixed_huffman"; "dynamic_huffman"]%string))) (evar "blocks").
(** doodle-formats/src/format/deflate.rs:1029-1058 *)
Definition inflate : expr :=
  EFlatMapList (lambda_tuple ["buffer"; "symbol"]%string (EMatch (evar "symbol") [
    (PVariant (intern "literal") (PBinding (intern "b")), ESeq [evar "b"]);
    (PVariant (intern "reference") (PBinding (intern "r")),
      ESubSeqInflate (evar "buffer")
        (EArith ASub (ESeqLength (evar "buffer")) (EAs B32 (proj (evar "r") "distance")))
        (EAs B32 (proj (evar "r") "length")))])) (TBase (TU B8)) (evar "codes").
(** doodle-formats/src/format/deflate.rs:993-1060 *)
Definition deflate_main : item :=
  Item [] [] (record (named [
    ("blocks", FRepeatUntilLast (ELambda (intern "x") (EIntRel REq (proj (evar "x") "final") (EU B8 1))) (call l_block));
    ("codes", FCompute block_codes);
    ("inflate", FCompute inflate)])%string).

(** doodle-formats/src/format/deflate.rs:197-1061 [main]: the items it defines, in order *)
Definition deflate_items : list item :=
  [distance_record0; distance_record; uncompressed; fixed_huffman; lld_alphabet_code_lengths; dynamic_huffman; block; deflate_main].
(** The item it returns. *)
Definition deflate : format := call l_main.
End Deflate.
