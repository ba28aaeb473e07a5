(** Building, inspecting, merging and rewriting record formats, and packed bit
    fields: src/format.rs, src/record_fmt.rs, src/helper.rs.
    A name given as a string is turned into a label by [intern]; everywhere else
    names are labels already. The model has a single kind of hint ([FHint]): where
    the code looks for the record hint, every hint is taken to be one. *)
From Coq Require Import String Ascii.
From Verif Require ByteSetModel.
From Verif Require Import Base BoundsModel DataModel NumericModel ValueModel FormatModel.
Open Scope nat_scope.

(** src/lib.rs:52-74 [IntoLabel]: strings as labels, without collisions
    (simplification: labels are numbers in the model) *)
Fixpoint intern (s : string) : label :=
  match s with EmptyString => 0%N | String a s' => (N_of_ascii a + 1 + 257 * intern s')%N end.

(** The full byte set, and a single byte: src/helper.rs:675 [ANY_BYTE], 638-640 [is_byte] *)
Definition any_byte_f : format := FByte ByteSetModel.full.
Definition is_byte_f (b : N) : format := FByte (ByteSetModel.from_list [b]).

(** ** Construction *)

(** A field: [None] is decoded and dropped, [Some (x, false)] is only in scope for
    the next fields, [Some (x, true)] is also kept in the record. *)
Definition rfield : Type := (option (label * bool) * format)%type.

(** src/format.rs:191-223 [__chain_record]; [remaining] in the order of decoding
    (the code keeps the reversed list and pops from its end) *)
Fixpoint chain_record (captured : list (label * expr)) (remaining : list rfield) : format :=
  match remaining with
  | [] => match captured with [] => FCompute (ETuple []) | _ => FCompute (ERecord captured) end
  | (None, f) :: rest => FMonadSeq f (chain_record captured rest)
  | (Some (x, persist), f) :: rest =>
    FLetFormat f x (chain_record (if persist then captured ++ [(x, EVar x)] else captured) rest)
  end.
(** src/format.rs:174-189 [Format::record] *)
Definition record (fields : list (label * format)) : format :=
  FHint (chain_record [] (map (fun nf => (Some (fst nf, true), snd nf)) fields)).
(** src/helper.rs:500-515 [record_ext] *)
Definition record_ext (fields : list rfield) : format := FHint (chain_record [] fields).

(** [str::trim_start_matches("#")] *)
Fixpoint trim_hash (s : string) : string :=
  match s with String "#" s' => trim_hash s' | _ => s end.
(** src/helper.rs:457-466 the reading of a name in [record_auto] *)
Definition auto_label (s : string) : option (label * bool) :=
  if String.prefix "#" s then Some (intern (trim_hash s), true)
  else if String.prefix "__" s then None
  else Some (intern s, negb (String.prefix "_" s)).
(** src/helper.rs:454-468 [record_auto] *)
Definition record_auto (fields : list (string * format)) : format :=
  record_ext (map (fun nf => (auto_label (fst nf), snd nf)) fields).

(** src/format.rs:225-257 [chaining], [__chain_format] *)
Fixpoint chaining (formats : list (option label * format)) (ret : format) : format :=
  match formats with
  | [] => ret
  | (None, f) :: rest => FMonadSeq f (chaining rest ret)
  | (Some x, f) :: rest => FLetFormat f x (chaining rest ret)
  end.
(** src/helper.rs:475-490 [pseudo_record] *)
Definition pseudo_record (prelim : list (string * format)) (f : format) : format :=
  chaining (map (fun nf =>
    (if String.prefix "#" (fst nf) then Some (intern (trim_hash (fst nf)))
     else if String.prefix "__" (fst nf) then None
     else Some (intern (fst nf)), snd nf)) prelim) f.

(** ** Inspection *)

(** src/record_fmt.rs:6-13 [enum FieldLabel] *)
Inductive field_label :=
| Anonymous
| Ephemeral (x : label)
| Permanent (in_capture in_value : label).
(** src/record_fmt.rs:56-62 [to_option] *)
Definition to_option (l : field_label) : option (label * bool) :=
  match l with
  | Anonymous => None
  | Ephemeral x => Some (x, false)
  | Permanent _ in_value => Some (in_value, true)
  end.
(** src/record_fmt.rs:68-76 [RecordFormat], [OwnedRecordFormat] *)
Definition record_view : Type := list (field_label * format).

(** src/record_fmt.rs:181-211 [step], [accum] (simplification: hints of every kind are passed
    through, the model having one kind): the captures, the formats and the
    fields of the final record; [None] is the error *)
Fixpoint record_accum (f : format) : option (list (option label * format) * list (label * expr)) :=
  let push x g r := match r with Some (ls, res) => Some ((x, g) :: ls, res) | None => None end in
  match f with
  | FHint g => record_accum g
  | FLetFormat g x inner => push (Some x) g (record_accum inner)
  | FMonadSeq g inner => push None g (record_accum inner)
  | FCompute (ERecord res) => Some ([], res)
  | _ => None
  end.
(** src/record_fmt.rs:214-223 the map from captured names to names of fields: a
    later insertion replaces an earlier one *)
Fixpoint kept_names (res : list (label * expr)) (kept : list (label * label)) : outcome (list (label * label)) :=
  match res with
  | [] => Val kept
  | (l, EVar x) :: res' => kept_names res' ((x, l) :: kept)
  | _ => Panic
  end.
(** src/record_fmt.rs:224-239 *)
Definition field_label_of (kept : list (label * label)) (x : option label) : field_label :=
  match x with
  | None => Anonymous
  | Some x => match assoc x kept with Some l => Permanent x l | None => Ephemeral x end
  end.
(** src/record_fmt.rs:213-242 [finish] *)
Definition record_finish (r : list (option label * format) * list (label * expr)) : outcome record_view :=
  omap (fun kept => map (fun xg => (field_label_of kept (fst xg), snd xg)) (fst r)) (kept_names (snd r) []).
(** src/record_fmt.rs:118-126 [TryFrom<&Format> for RecordFormat], src/format.rs:169-171
    [to_record_format]: the error is unwrapped *)
Definition to_record_format (f : format) : outcome record_view :=
  match record_accum f with Some r => record_finish r | None => Panic end.
(** src/record_fmt.rs:128-141 [lookup_value_field] *)
Fixpoint lookup_value_field (r : record_view) (name : label) : option (format * label) :=
  match r with
  | [] => None
  | (Permanent c v, f) :: r' => if N.eqb v name then Some (f, c) else lookup_value_field r' name
  | _ :: r' => lookup_value_field r' name
  end.
(** src/record_fmt.rs:145-162 [into_format] *)
Definition into_format (r : record_view) : format :=
  FHint (chain_record [] (map (fun lf => (to_option (fst lf), snd lf)) r)).

(** ** Rewriting *)

(** src/helper.rs:385-394 [merge_records] *)
Definition merge_records (records : list format) : outcome format :=
  omap (fun rs => into_format (List.concat rs)) (omapM to_record_format records).
(** src/helper.rs:399-418 [remap_field] *)
Fixpoint remap_field (name : label) (remap : format -> format) (f : format) : format :=
  match f with
  | FLetFormat g x inner =>
    if N.eqb x name then FLetFormat (remap g) x inner else FLetFormat g x (remap_field name remap inner)
  | FMonadSeq g inner => FMonadSeq g (remap_field name remap inner)
  | FHint g => FHint (remap_field name remap g)
  | f => f
  end.

(** ** Packed bit fields *)

(** src/helper.rs:17-35 [enum BitFieldKind] *)
Inductive bit_field :=
| FlagBit (name : string)
| BitsField (name : string) (width : N)
| Reserved (width : N) (check_zero : bool).
(** src/helper.rs:38-44 [bit_width], 46-48 [is_flag], 50-56 [field_name], 58-63 [check_zero] *)
Definition field_width (b : bit_field) : N :=
  match b with FlagBit _ => 1%N | BitsField _ w | Reserved w _ => w end.
Definition is_flag (b : bit_field) : bool := match b with FlagBit _ => true | _ => false end.
Definition field_name (b : bit_field) : option string :=
  match b with FlagBit n | BitsField n _ => Some n | Reserved _ _ => None end.
Definition check_zero (b : bit_field) : bool := match b with Reserved _ c => c | _ => false end.

(** src/helper.rs:68-82 [mask_bits_u8], 87-101 [mask_bits_u16]; [1 << nbits]
    overflows for a field as wide as the word *)
Definition mask_bits (w : bitwidth) (x : expr) (used n : N) : outcome expr :=
  if negb (N.leb (n + used) (nbits w)) then Panic
  else if N.leb (nbits w) n then Panic
  else let shift := (nbits w - used - n)%N in
    Val (EArith ABitAnd (if N.eqb shift 0 then x else EArith AShr x (EU w shift)) (EU w (2 ^ n - 1)%N)).
Definition packed_bits : string := "_packed_bits".
(** src/helper.rs:134-150, 209-224 the loop over the fields: the computed fields and
    the mask of the bits that must be zero *)
Fixpoint bit_fields_loop (w : bitwidth) (fields : list bit_field) (used mask : N) : outcome (list (string * format) * N) :=
  match fields with
  | [] => Val ([], mask)
  | b :: rest =>
    let n := field_width b in
    match field_name b with
    | Some name =>
      obind (mask_bits w (EVar (intern packed_bits)) used n) (fun raw =>
        let e := if is_flag b then EIntRel RGt raw (EU w 0) else raw in
        omap (fun r => ((name, FCompute e) :: fst r, snd r)) (bit_fields_loop w rest (used + n)%N mask))
    | None =>
      if check_zero b then
        if N.leb (nbits w) n || N.leb (nbits w) (nbits w - (used + n)) then Panic
        else bit_fields_loop w rest (used + n)%N
          (N.land mask (N.shiftl (2 ^ n - 1) (nbits w - (used + n)) mod modulus w))%N
      else bit_fields_loop w rest (used + n)%N mask
    end
  end.
Definition total_width (fields : list bit_field) : N := fold_right (fun b n => (field_width b + n)%N) 0%N fields.
(** src/helper.rs:116-168 [bit_fields_u8], 190-243 [bit_fields_u16]: [unset_bits_mask]
    starts from 0 *)
Definition bit_fields (w : bitwidth) (word : format) (fields : list bit_field) : outcome format :=
  if negb (N.eqb (total_width fields) (nbits w)) then Panic
  else omap (fun r =>
    let packed := if N.eqb (snd r) 0 then word
      else FWhere word (ELambda (intern "packed")
        (EIntRel REq (EArith ABitAnd (EVar (intern "packed")) (EU w (snd r))) (EU w 0))) false in
    record_auto ((packed_bits, packed) :: fst r)) (bit_fields_loop w fields 0 0).

(** ** Fixed-width integers *)

(** src/helper.rs:1048-1051 [tuple_repeat] *)
Definition tuple_repeat (n : nat) (f : format) : format := FTuple (repeat f n).
(** src/helper.rs:1780-1831 [u16be], [u16le], [u32be], ... *)
Definition uint (be : bool) (w : bitwidth) : format :=
  FHint (FMap (tuple_repeat (N.to_nat (nbits w / 8)) any_byte_f) (ELambda (intern "x") (EBytes be w (EVar (intern "x"))))).
(** src/helper.rs:1813-1818 [u8] *)
Definition u8_f : format := FHint any_byte_f.
(** src/helper.rs:2052-2055 [map_numeric] *)
Definition map_numeric (f : format) (g : nexpr -> nexpr) : format :=
  FLetFormat f (intern "raw") (FCompute (ENumeric (g (NVar (intern "raw"))))).
(** src/helper.rs:1833-1855 [i8], [i16be], [i32be], [i64be] *)
Definition sint (w : bitwidth) : format :=
  map_numeric (match w with B8 => u8_f | _ => uint true w end) (NCast (MR true w) Bitwise).

Definition bit_fields_u8 : list bit_field -> outcome format := bit_fields B8 any_byte_f.
Definition bit_fields_u16 : list bit_field -> outcome format := bit_fields B16 (uint true B16).
(** src/helper.rs:173-184 [u4_pair] *)
Definition u4_pair (hi lo : string) : outcome format := bit_fields_u8 [BitsField hi 4; BitsField lo 4].
