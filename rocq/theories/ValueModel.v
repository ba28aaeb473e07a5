(** Model of run-time values, patterns, scopes and expression evaluation:
    src/decoder/value.rs, src/pattern.rs, src/decoder.rs (Expr::eval, Scope),
    src/lib.rs (Expr), src/valuetype.rs (the types). *)
From Verif Require Import Base BoundsModel DataModel NumericModel.
Open Scope nat_scope.

(** ** Types *)

(** src/valuetype.rs:17-24 [enum BaseType] *)
Inductive basetype := TBool | TU (w : bitwidth) | TChar.
(** src/valuetype.rs:139-158 [enum ValueType]. A [BTreeMap] is a list of pairs;
    [Signed] carries the width. *)
Inductive vtype :=
| TAny | TEmpty | TViewObj
| TPhantom (t : vtype)
| TBase (b : basetype)
| TNumericHole
| TSigned (w : bitwidth)
| TTuple (ts : list vtype)
| TRecord (fs : list (label * vtype))
| TUnion (bs : list (label * vtype))
| TSeq (t : vtype)
| TOption (t : vtype).

(** ** Values *)

(** src/decoder/value.rs:23-51 [enum Value]. [U8]..[U64] are one constructor
    indexed by width; characters are scalar values; labels are numbers. *)
Inductive value :=
| VBool (b : bool)
| VU (w : bitwidth) (n : N)
| VChar (c : N)
| VUsize (n : N)
| VNumeric (c : tconst)
| VView (off : nat)
| VPhantom
| VEnumFromTo (lo hi : N)
| VOption (o : option value)
| VTuple (vs : list value)
| VRecord (fs : list (label * value))
| VVariant (l : label) (v : value)
| VSeq (s : seqkind value)
| VMapped (orig v : value)
| VBranch (n : nat) (v : value)
| VPermitOk (v : value)
| VPermitErr (o : option value).

(** src/decoder/value.rs:335 [Value::UNIT] *)
Definition VUnit : value := VTuple [].

(** src/decoder/value.rs:289-298 [coerce_nominal_value] *)
Fixpoint coerce_nominal (v : value) : value :=
  match v with
  | VPermitOk v' => coerce_nominal v'
  | VPermitErr (Some v') => coerce_nominal v'
  | VMapped _ v' => coerce_nominal v'
  | VBranch _ v' => coerce_nominal v'
  | v => v
  end.
(** src/decoder/value.rs:302-309 [coerce_mapped_value], 312-319
    [extract_mapped_value] (the same function on owned values) *)
Fixpoint coerce_mapped (v : value) : value :=
  match v with
  | VMapped _ v' => coerce_mapped v'
  | VBranch _ v' => coerce_mapped v'
  | VPermitOk v' => coerce_mapped v'
  | v => v
  end.

(** src/decoder/value.rs:155-162 [tuple_proj] *)
Definition tuple_proj (v : value) (i : nat) : outcome value :=
  match v with
  | VTuple vs => match nth_error vs i with Some x => Val x | None => Panic end
  | VPermitErr _ => Val (VPermitErr None)
  | _ => Panic
  end.
Fixpoint assoc {A} (l : label) (fs : list (label * A)) : option A :=
  match fs with
  | [] => None
  | (l', x) :: fs' => if N.eqb l l' then Some x else assoc l fs'
  end.
(** src/decoder/value.rs:164-174 [record_proj] *)
Definition record_proj (v : value) (l : label) : outcome value :=
  match v with
  | VRecord fs => match assoc l fs with Some x => Val x | None => Panic end
  | VPermitErr _ => Val (VPermitErr None)
  | _ => Panic
  end.

(** src/decoder/value.rs:321-327 [get_sequence], with [ValueSeq] of
    src/decoder/seq_kind.rs:20-23 *)
Inductive vseq := SVals (s : seqkind value) | SRange (lo hi : N).
Definition get_sequence (v : value) : option vseq :=
  match v with
  | VSeq s => Some (SVals s)
  | VEnumFromTo lo hi => Some (SRange lo hi)
  | _ => None
  end.
(** src/decoder/seq_kind.rs:26-38 [len], [is_empty] ([Range::len] is 0 when the
    bounds are reversed) *)
Definition vseq_len (s : vseq) : N :=
  match s with SVals s => N.of_nat (sk_len s) | SRange lo hi => (hi - lo)%N end.
Definition vseq_is_empty (s : vseq) : bool :=
  match s with SVals s => sk_is_empty s | SRange lo hi => N.leb hi lo end.
(** src/decoder/seq_kind.rs:63-96 [ValueIter]: the elements in order *)
Definition range_values (lo hi : N) : list value := map VUsize (nrange lo (N.to_nat (hi - lo))).
Definition vseq_list (s : vseq) : list value :=
  match s with SVals s => sk_to_list s | SRange lo hi => range_values lo hi end.
(** src/decoder/seq_kind.rs:40-48 [append] *)
Definition vseq_append (a b : vseq) : outcome (seqkind value) :=
  match a, b with SVals s, SVals t => Val (sk_append s t) | _, _ => Panic end.

(** src/decoder/value.rs:357-367 [unwrap_usize] *)
Definition unwrap_usize (v : value) : outcome N :=
  match v with
  | VU _ n | VUsize n => Val n
  | VNumeric c => match tc_as_usize c with Some n => Val n | None => Panic end
  | _ => Panic
  end.
(** src/decoder/value.rs:370-379 [get_as_u8] *)
Definition get_as_u8 (v : value) : outcome N :=
  match v with
  | VU B8 n => Val n
  | VNumeric c => match get_as_unsigned B8 c with Some n => Val n | None => Panic end
  | _ => Panic
  end.
(** src/decoder/value.rs:381-393 [unwrap_tuple], [unwrap_bool] *)
Definition unwrap_tuple (v : value) : outcome (list value) :=
  match v with VTuple vs => Val vs | _ => Panic end.
Definition unwrap_bool (v : value) : outcome bool :=
  match v with VBool b => Val b | _ => Panic end.

(** ** Integer operations *)

(** Number of bits of an unsigned width, and the first number that does not fit. *)
Definition nbits (w : bitwidth) : N := Z.to_N (bw_bits w).
Definition modulus (w : bitwidth) : N := (2 ^ nbits w)%N.

(** src/decoder/value.rs:396-408 [__rel] *)
Definition rel_apply (rel : int_rel) (l r : N) : bool :=
  match rel with
  | REq => N.eqb l r
  | RNe => negb (N.eqb l r)
  | RGt => N.ltb r l
  | RGte => N.leb r l
  | RLt => N.ltb l r
  | RLte => N.leb l r
  end.
(** src/lib.rs:120-132 [enum Arith], 135-142 [enum UnaryOp] *)
Inductive arith_op := AAdd | ASub | AMul | ADiv | ARem | ABitAnd | ABitOr | AShl | AShr | ABoolOr | ABoolAnd.
Inductive unary_op := UBoolNot | UIntSucc | UIntPred.

(** [Some n] in range at width [w] *)
Definition fit (w : bitwidth) (n : N) : outcome N := if N.ltb n (modulus w) then Val n else Panic.
(** [right.as_()] to [u32], then the machine shift, which panics (with overflow
    checks) when the amount reaches the width. *)
Definition as_u32 (n : N) : N := (n mod 4294967296)%N.
(** src/decoder/value.rs:410-445 [__arith] at width [w] *)
Definition arith_apply (w : bitwidth) (op : arith_op) (l r : N) : outcome N :=
  match op with
  | AAdd => fit w (l + r)
  | ASub => if N.leb r l then Val (l - r)%N else Panic
  | AMul => fit w (l * r)
  | ADiv => if N.eqb r 0 then Panic else Val (l / r)%N
  | ARem => if N.eqb r 0 then Panic else Val (l mod r)%N
  | AShl => let s := as_u32 r in
            if N.ltb s (nbits w) then Val (N.shiftl l s mod modulus w)%N else Panic
  | AShr => let s := as_u32 r in
            if N.ltb s (nbits w) then Val (N.shiftr l s) else Panic
  | ABitOr => Val (N.lor l r)
  | ABitAnd => Val (N.land l r)
  | ABoolOr | ABoolAnd => Panic
  end.
(** src/decoder/value.rs:447-468 [__unary] *)
Definition unary_apply (w : bitwidth) (op : unary_op) (n : N) : outcome N :=
  match op with
  | UIntPred => if N.eqb n 0 then Panic else Val (n - 1)%N
  | UIntSucc => fit w (n + 1)
  | UBoolNot => Panic
  end.
(** src/decoder/value.rs:471-539 [Value::int_rel] *)
Definition value_int_rel (rel : int_rel) (l r : value) : outcome value :=
  match l, r with
  | VU wl a, VU wr b => if bw_eqb wl wr then Val (VBool (rel_apply rel a b)) else Panic
  | VUsize a, VUsize b => Val (VBool (rel_apply rel a b))
  | VNumeric a, VNumeric b => Val (VBool (tc_rel rel a b))
  | VNumeric c, VU w b =>
    match get_as_unsigned w c with Some a => Val (VBool (rel_apply rel a b)) | None => Panic end
  | VU w a, VNumeric c =>
    match get_as_unsigned w c with Some b => Val (VBool (rel_apply rel a b)) | None => Panic end
  | _, _ => Panic
  end.
(** src/decoder/value.rs:541-572 [Value::arith]; [usize] is 64 bits *)
Definition value_arith (op : arith_op) (l r : value) : outcome value :=
  match op with
  | ABoolOr => match l, r with VBool a, VBool b => Val (VBool (a || b)) | _, _ => Panic end
  | ABoolAnd => match l, r with VBool a, VBool b => Val (VBool (a && b)) | _, _ => Panic end
  | _ =>
    match l, r with
    | VU wl a, VU wr b => if bw_eqb wl wr then omap (VU wl) (arith_apply wl op a b) else Panic
    | VUsize a, VUsize b => omap VUsize (arith_apply B64 op a b)
    | _, _ => Panic
    end
  end.
(** src/decoder/value.rs:574-592 [Value::unary] *)
Definition value_unary (op : unary_op) (v : value) : outcome value :=
  match op with
  | UBoolNot => match v with VBool b => Val (VBool (negb b)) | _ => Panic end
  | _ => match v with
         | VU w n => omap (VU w) (unary_apply w op n)
         | VUsize n => omap VUsize (unary_apply B64 op n)
         | _ => Panic
         end
  end.

(** src/decoder.rs:138-179 [AsU8]..[AsU64]: [try_from(..).unwrap()] *)
Definition value_as (w : bitwidth) (v : value) : outcome value :=
  match v with
  | VU _ n | VUsize n => omap (VU w) (fit w n)
  | _ => Panic
  end.
(** [char::from_u32]: surrogates and numbers above 0x10FFFF are not characters *)
Definition char_from_u32 (n : N) : option N :=
  if (N.ltb n 55296 || (N.leb 57344 n && N.leb n 1114111))%bool then Some n else None.
(** [char::REPLACEMENT_CHARACTER] *)
Definition replacement_char : N := 65533%N.
(** src/decoder.rs:235-252 [AsChar] *)
Definition value_as_char (v : value) : outcome value :=
  let conv n := Val (VChar (match char_from_u32 n with Some c => c | None => replacement_char end)) in
  match v with
  | VU B8 n => Val (VChar n)
  | VU _ n | VUsize n => if N.ltb n 4294967296 then conv n else Panic
  | _ => Panic
  end.
(** src/decoder.rs:181-234 [U16Be]..[U64Le]: the width is never [B8] in the code *)
Fixpoint bytes_of (vs : list value) : option (list N) :=
  match vs with
  | [] => Some []
  | VU B8 n :: vs' => option_map (cons n) (bytes_of vs')
  | _ => None
  end.
Definition value_from_bytes (be : bool) (w : bitwidth) (v : value) : outcome value :=
  obind (unwrap_tuple v) (fun vs =>
    match bytes_of vs with
    | Some bs =>
      if Nat.eqb (length bs) (N.to_nat (nbits w / 8)) then
        Val (VU w (if be then from_be_bytes bs else from_le_bytes bs))
      else Panic
    | None => Panic
    end).

(** ** Patterns *)

(** src/pattern.rs:12-28 [enum Pattern] *)
Inductive pattern :=
| PBinding (x : label)
| PWildcard
| PBool (b : bool)
| PU (w : bitwidth) (n : N)
| PInt (b : bounds)
| PZConst (z : Z)
| PZRange (b : zbounds)
| PChar (c : N)
| PTuple (ps : list pattern)
| PVariant (l : label) (p : pattern)
| PSeq (ps : list pattern)
| POption (o : option pattern).

(** The new bindings of a successful match, in the order they are pushed. *)
Definition binds := list (label * value).
Section MatchList.
Context (m : pattern -> value -> binds -> option binds).
(** [for (p, v) in zip(ps, vs)] with an early exit *)
Fixpoint match_list (ps : list pattern) (vs : list value) (acc : binds) : option binds :=
  match ps, vs with
  | p :: ps', v :: vs' => match m p v acc with Some acc' => match_list ps' vs' acc' | None => None end
  | _, _ => Some acc
  end.
End MatchList.
(** The unsigned number in a native value (value.rs:208-234). *)
Definition native_num (v : value) : option N :=
  match v with VU _ n | VUsize n => Some n | _ => None end.
(** src/decoder/value.rs:176-268 [matches_inner]. The scope being extended is
    the list of its entries; it is dropped by the caller on failure. *)
Fixpoint matches_inner (p : pattern) (v : value) (acc : binds) {struct p} : option binds :=
  let when (b : bool) := if b then Some acc else None in
  match p with
  | PBinding x => Some (acc ++ [(x, v)])
  | PWildcard => Some acc
  | PBool b0 => match v with VBool b1 => when (Bool.eqb b0 b1) | _ => None end
  | PU w n0 =>
    match v with
    | VU w1 n1 => when (bw_eqb w w1 && N.eqb n0 n1)
    | VNumeric c => when (pat_matches c n0 w)
    | _ => None
    end
  | PInt b =>
    match v with
    | VNumeric c => when (falls_within c b)
    | _ => match native_num v with Some n => when (bcontains b n) | None => None end
    end
  | PZConst z =>
    match v with
    | VNumeric c => when (Z.eqb (tc_val c) z)
    | _ => match native_num v with Some n => when (Z.eqb z (Z.of_N n)) | None => None end
    end
  | PZRange b =>
    match v with
    | VNumeric c => when (zb_contains b (tc_val c))
    | _ => match native_num v with Some n => when (zb_contains b (Z.of_N n)) | None => None end
    end
  | PChar c0 => match v with VChar c1 => when (N.eqb c0 c1) | _ => None end
  | PTuple ps =>
    match v with
    | VTuple vs => if Nat.eqb (length ps) (length vs) then match_list matches_inner ps vs acc else None
    | _ => None
    end
  | PSeq ps =>
    match v with
    | VSeq s => if Nat.eqb (length ps) (sk_len s) then match_list matches_inner ps (sk_to_list s) acc else None
    | _ => None
    end
  | PVariant l p' =>
    match v with VVariant l1 v' => if N.eqb l l1 then matches_inner p' v' acc else None | _ => None end
  | POption None => match v with VOption None => Some acc | _ => None end
  | POption (Some p') => match v with VOption (Some v') => matches_inner p' v' acc | _ => None end
  end.

(** src/pattern.rs:201-219 [shadows] *)
Fixpoint pat_shadows (x : label) (p : pattern) : bool :=
  match p with
  | PBinding n => N.eqb n x
  | PTuple ps | PSeq ps => existsb (pat_shadows x) ps
  | PVariant _ p' | POption (Some p') => pat_shadows x p'
  | _ => false
  end.

(** ** Scopes *)

(** src/decoder.rs:926-929 [enum ViewOrValue] *)
Inductive vov := EntView (c : rctx) | EntVal (v : value).
(** src/decoder.rs:917-952 [enum Scope] and its frames; generic in the type [D]
    of dynamic decoders. Entries of a multi-scope are in push order. *)
Inductive scope (D : Type) :=
| SEmpty
| SMulti (parent : scope D) (entries : list (label * vov))
| SSingle (parent : scope D) (x : label) (v : value)
| SDecoder (parent : scope D) (x : label) (d : D)
| SView (parent : scope D) (x : label) (c : rctx).
Arguments SEmpty {D}.
Arguments SMulti {D} parent entries.
Arguments SSingle {D} parent x v.
Arguments SDecoder {D} parent x d.
Arguments SView {D} parent x c.

(** The reverse scans of src/decoder.rs:1037-1067, on the reversed entries. *)
Fixpoint scan_value (x : label) (es : list (label * vov)) : option value :=
  match es with
  | [] => None
  | (n, EntVal v) :: es' => if N.eqb n x then Some v else scan_value x es'
  | (n, EntView _) :: es' => scan_value x es'
  end.
Fixpoint scan_view (x : label) (es : list (label * vov)) : option rctx :=
  match es with
  | [] => None
  | (n, EntView c) :: es' => if N.eqb n x then Some c else scan_view x es'
  | (n, EntVal _) :: es' => scan_view x es'
  end.
Section Scopes.
Context {D : Type}.
(** src/decoder.rs:969-977 [get_value_by_name], 1053-1067, 1093-1099 *)
Fixpoint get_value (x : label) (s : scope D) : option value :=
  match s with
  | SEmpty => None
  | SMulti p es => match scan_value x (rev es) with Some v => Some v | None => get_value x p end
  | SSingle p n v => if N.eqb n x then Some v else get_value x p
  | SDecoder p _ _ => get_value x p
  | SView p _ _ => get_value x p
  end.
(** src/decoder.rs:979-987 [get_decoder_by_name], 1119-1125 ([None]: panic) *)
Fixpoint get_decoder (x : label) (s : scope D) : option D :=
  match s with
  | SEmpty => None
  | SMulti p _ => get_decoder x p
  | SSingle p _ _ => get_decoder x p
  | SDecoder p n d => if N.eqb n x then Some d else get_decoder x p
  | SView p _ _ => get_decoder x p
  end.
(** src/decoder.rs:989-997 [get_view_by_name], 1037-1051, 1141-1147 ([None]: panic) *)
Fixpoint get_view (x : label) (s : scope D) : option rctx :=
  match s with
  | SEmpty => None
  | SMulti p es => match scan_view x (rev es) with Some c => Some c | None => get_view x p end
  | SSingle p _ _ => get_view x p
  | SDecoder p _ _ => get_view x p
  | SView p n c => if N.eqb n x then Some c else get_view x p
  end.
(** src/decoder.rs:911-915 [enum ScopeEntry] and 999-1007 [get_bindings], with the
    frames' versions 1069-1081, 1101-1107, 1127-1133, 1149-1155 *)
Inductive sentry := SEVal (v : value) | SEDec (d : D) | SEView (off : nat).
Fixpoint get_bindings (s : scope D) : list (label * sentry) :=
  match s with
  | SEmpty => []
  | SMulti p es =>
    map (fun e => (fst e, match snd e with EntView c => SEView (roff c) | EntVal v => SEVal v end)) (rev es)
    ++ get_bindings p
  | SSingle p n v => (n, SEVal v) :: get_bindings p
  | SDecoder p n d => (n, SEDec d) :: get_bindings p
  | SView p n c => (n, SEView (roff c)) :: get_bindings p
  end.
(** src/decoder/value.rs:276-285 [matches]: the extended scope *)
Definition vmatches (v : value) (s : scope D) (p : pattern) : option (scope D) :=
  option_map (fun bs => SMulti s (map (fun b => (fst b, EntVal (snd b))) bs))
             (matches_inner p (coerce_nominal v) []).
End Scopes.

(** ** Expressions *)

(** src/lib.rs:146-211 [enum Expr]; [EU] is [U8]..[U64], [EAs] is [AsU8]..[AsU64],
    [EBytes] is [U16Be]..[U64Le]. *)
Inductive expr :=
| EVar (x : label)
| EBool (b : bool)
| EU (w : bitwidth) (n : N)
| ETuple (es : list expr)
| ETupleProj (e : expr) (i : nat)
| ERecord (fs : list (label * expr))
| ERecordProj (e : expr) (l : label)
| EVariant (l : label) (e : expr)
| ESeq (es : list expr)
| ENumeric (n : nexpr)
| EMatch (h : expr) (bs : list (pattern * expr))
| EDestructure (h : expr) (p : pattern) (e : expr)
| ELambda (x : label) (e : expr)
| EIntRel (r : int_rel) (a b : expr)
| EArith (op : arith_op) (a b : expr)
| EUnary (op : unary_op) (a : expr)
| EAs (w : bitwidth) (e : expr)
| EAsChar (e : expr)
| EBytes (be : bool) (w : bitwidth) (e : expr)
| ESeqLength (e : expr)
| ESubSeq (e start len : expr)
| ESeqIx (e i : expr)
| ESubSeqInflate (e start len : expr)
| EFlatMap (f e : expr)
| EFlatMapAccum (f z : expr) (t : vtype) (e : expr)
| EFlatMapList (f : expr) (t : vtype) (e : expr)
| EFindByKey (sorted : bool) (k q e : expr)
| EEnumFromTo (a b : expr)
| ELeftFold (f z : expr) (t : vtype) (e : expr)
| EDup (n e : expr)
| ELiftOption (o : option expr)
| EAppend (a b : expr).

(** src/numeric/core.rs:1071-1111 [TryFrom<&Value> for StrictValue] *)
Fixpoint tc_of_value (v : value) : nres tconst :=
  match v with
  | VPermitOk v' | VPermitErr (Some v') | VMapped _ v' | VBranch _ v' => tc_of_value v'
  | VNumeric c => NOk c
  | VU w n => NOk (TC (Z.of_N n) (Concrete (MR false w)))
  | VUsize n => NOk (TC (Z.of_N n) Auto)
  | _ => NErr BadVariable
  end.
(** src/numeric/core.rs / src/scope.rs [EvalScope for Scope] *)
Definition num_look {D} (s : scope D) (x : label) : nres tconst :=
  match get_value x s with Some v => tc_of_value v | None => NErr UnknownVar end.

(** src/decoder/search.rs:19-37 [AsKey for Value] *)
Definition compare_as_key (a b : value) : outcome comparison :=
  match a, b with
  | VU wa x, VU wb y => if bw_eqb wa wb then Val (N.compare x y) else Panic
  | _, _ => Panic
  end.
Definition eq_key (a b : value) : outcome bool :=
  match a, b with
  | VU wa x, VU wb y => if bw_eqb wa wb then Val (N.eqb x y) else Panic
  | _, _ => Panic
  end.

(** Evaluating a list of things left to right. *)
Section OMapM.
Context {A B : Type} (f : A -> outcome B).
Fixpoint omapM (l : list A) : outcome (list B) :=
  match l with
  | [] => Val []
  | x :: l' => obind (f x) (fun y => obind (omapM l') (fun ys => Val (y :: ys)))
  end.
End OMapM.
Section OFoldM.
Context {A B : Type} (f : B -> A -> outcome B).
Fixpoint ofoldM (acc : B) (l : list A) : outcome B :=
  match l with
  | [] => Val acc
  | x :: l' => obind (f acc x) (fun acc' => ofoldM acc' l')
  end.
End OFoldM.

Definition seq_of (v : value) : outcome vseq :=
  match get_sequence (coerce_mapped v) with Some s => Val s | None => Panic end.
Definition strict_seq (v : value) : outcome (seqkind value) :=
  match v with VSeq s => Val s | _ => Panic end.

(** src/decoder.rs:264-270: [values[index]], and [range.nth(index).unwrap()] *)
Definition seq_ix (s : vseq) (i : N) : outcome value :=
  match s with
  | SVals s => sk_index s (N.to_nat i)
  | SRange lo hi => if N.ltb (lo + i) hi then Val (VUsize (lo + i)) else Panic
  end.
(** src/decoder.rs:278-287 *)
Definition seq_sub (s : vseq) (start len : N) : outcome value :=
  match s with
  | SVals s => omap VSeq (sk_sub_seq s (N.to_nat start) (N.to_nat len))
  | SRange lo hi =>
    omap (fun r => VEnumFromTo (N.of_nat (fst r)) (N.of_nat (snd r)))
         (sub_range (N.to_nat lo) (N.to_nat hi) (N.to_nat start) (N.to_nat len))
  end.
(** src/decoder.rs:298-321 *)
Definition seq_inflate (s : vseq) (start len : N) : outcome value :=
  omap (fun l => VSeq (Strict l)) (sub_seq_inflate (vseq_list s) (N.to_nat start) (N.to_nat len)).
(** src/decoder.rs:347-356, the elements of what a [FlatMap] body returns *)
Definition flat_elems (v : value) : outcome (list value) :=
  match v with
  | VSeq s => Val (sk_to_list s)
  | VEnumFromTo lo hi => Val (range_values lo hi)
  | _ => Panic
  end.
(** src/decoder.rs:52-60 [extract_pair], 370-376 *)
Definition accum_pair (v : value) : outcome (value * list value) :=
  obind (unwrap_tuple v) (fun vs =>
    match vs with
    | [a; VSeq s] => Val (a, sk_to_list s)
    | _ => Panic
    end).

(** src/decoder.rs:66-452 [Expr::eval]. [Cow] is transparent. Every failure is a
    panic, so the order of evaluation of independent operands is not observable,
    except that keys in [FindByKey] are only evaluated when inspected. *)
Fixpoint eval {D} (e : expr) (s : scope D) {struct e} : outcome value :=
  let eval_value e := omap coerce_mapped (eval e s) in
  let eval_lambda f (arg : value) :=
    match f with
    | ELambda x body => omap coerce_mapped (eval body (SSingle s x arg))
    | _ => Panic
    end in
  let eval_usize e := obind (eval_value e) unwrap_usize in
  match e with
  | EVar x => match get_value x s with Some v => Val v | None => Panic end
  | EBool b => Val (VBool b)
  | EU w n => Val (VU w n)
  | ENumeric n => match neval (num_look s) n with NOk c => Val (VNumeric c) | _ => Panic end
  | ETuple es => omap VTuple (omapM (fun e => omap coerce_mapped (eval e s)) es)
  | ETupleProj h i => obind (eval h s) (fun v => tuple_proj (coerce_mapped v) i)
  | ERecord fs =>
    omap VRecord (omapM (fun f => match f with (l, e) => omap (pair l) (eval e s) end) fs)
  | ERecordProj h l => obind (eval h s) (fun v => record_proj (coerce_mapped v) l)
  | EVariant l e => omap (VVariant l) (eval_value e)
  | ESeq es => omap (fun vs => VSeq (Strict vs)) (omapM (fun e => omap coerce_mapped (eval e s)) es)
  | EMatch h bs =>
    obind (eval h s) (fun v =>
      (fix go (bs : list (pattern * expr)) : outcome value :=
         match bs with
         | [] => Panic
         | (p, b) :: bs' =>
           match vmatches v s p with
           | Some s' => omap coerce_mapped (eval b s')
           | None => go bs'
           end
         end) bs)
  | EDestructure h p b =>
    obind (eval h s) (fun v =>
      match vmatches v s p with
      | Some s' => omap coerce_mapped (eval b s')
      | None => Panic
      end)
  | ELambda _ _ => Panic
  | EIntRel rel a b =>
    obind (eval_value a) (fun l => obind (eval_value b) (fun r => value_int_rel rel l r))
  | EArith op a b =>
    obind (eval_value a) (fun l => obind (eval_value b) (fun r => value_arith op l r))
  | EUnary op a => obind (eval_value a) (value_unary op)
  | EAs w a => obind (eval_value a) (value_as w)
  | EAsChar a => obind (eval_value a) value_as_char
  | EBytes be w a => obind (eval_value a) (value_from_bytes be w)
  | ESeqLength a => obind (eval a s) (fun v => omap (fun q => VU B32 (as_u32 (vseq_len q))) (seq_of v))
  | ESeqIx a i => obind (eval a s) (fun v => obind (seq_of v) (fun q => obind (eval_usize i) (seq_ix q)))
  | ESubSeq a st ln =>
    obind (eval a s) (fun v => obind (seq_of v) (fun q =>
      obind (eval_usize st) (fun st => obind (eval_usize ln) (seq_sub q st))))
  | ESubSeqInflate a st ln =>
    obind (eval a s) (fun v => obind (seq_of v) (fun q =>
      obind (eval_usize st) (fun st => obind (eval_usize ln) (seq_inflate q st))))
  | EAppend a b =>
    obind (eval a s) (fun va => obind (eval b s) (fun vb =>
      obind (seq_of va) (fun qa => obind (seq_of vb) (fun qb =>
        if vseq_is_empty qa then Val (coerce_mapped vb)
        else if vseq_is_empty qb then Val (coerce_mapped va)
        else omap VSeq (vseq_append qa qb)))))
  | EFlatMap f a =>
    obind (eval a s) (fun v => obind (seq_of v) (fun q =>
      omap (fun ls => VSeq (Strict (concat ls)))
           (omapM (fun x => obind (eval_lambda f x) flat_elems) (vseq_list q))))
  | EFlatMapAccum f z _ a =>
    obind (eval_value a) (fun v => obind (strict_seq v) (fun q => obind (eval_value z) (fun z =>
      omap (fun st : value * list value => VSeq (Strict (snd st)))
        (ofoldM (fun (st : value * list value) x =>
           obind (eval_lambda f (VTuple [fst st; x])) (fun r =>
             obind (accum_pair r) (fun pr => Val (fst pr, snd st ++ snd pr))))
           (z, []) (sk_to_list q)))))
  | ELeftFold f z _ a =>
    obind (eval_value a) (fun v => obind (strict_seq v) (fun q => obind (eval_value z) (fun z =>
      ofoldM (fun acc x => eval_lambda f (VTuple [acc; x])) z (sk_to_list q))))
  | EFindByKey sorted k q a =>
    obind (eval_value a) (fun v => obind (strict_seq v) (fun vs => obind (eval_value q) (fun query =>
      let found (r : outcome (option nat)) :=
        obind r (fun o => match o with
                          | Some ix => omap (fun x => VOption (Some x)) (sk_index vs ix)
                          | None => Val (VOption None)
                          end) in
      if sorted then
        match find_sorted (compare_as_key query) (sk_len vs)
                (fun i => obind (sk_index vs i) (fun x => eval_lambda k x)) with
        | Some r => found r
        | None => Panic
        end
      else found (find_unsorted (eq_key query) (fun x => eval_lambda k x) 0 (sk_to_list vs)))))
  | EFlatMapList f _ a =>
    obind (eval_value a) (fun v => obind (strict_seq v) (fun q =>
      omap (fun l => VSeq (Strict l))
        (ofoldM (fun acc x =>
           obind (eval_lambda f (VTuple [VSeq (Strict acc); x])) (fun r =>
             omap (fun t => acc ++ sk_to_list t) (strict_seq r))) [] (sk_to_list q))))
  | EDup n a => obind (eval_usize n) (fun n => omap (fun v => VSeq (Dup (N.to_nat n) v)) (eval_value a))
  | EEnumFromTo a b =>
    obind (eval_usize a) (fun lo => omap (VEnumFromTo lo) (eval_usize b))
  | ELiftOption None => Val (VOption None)
  | ELiftOption (Some a) => omap (fun v => VOption (Some v)) (eval_value a)
  end.
(** src/decoder.rs:454-463 [eval_value], 465-473 [eval_lambda] *)
Definition eval_value {D} (e : expr) (s : scope D) : outcome value := omap coerce_mapped (eval e s).
Definition eval_lambda {D} (f : expr) (s : scope D) (arg : value) : outcome value :=
  match f with
  | ELambda x body => eval_value body (SSingle s x arg)
  | _ => Panic
  end.

(** src/lib.rs:631-702 [is_shadowed_by] *)
Fixpoint is_shadowed_by (x : label) (e : expr) {struct e} : bool :=
  let sh := is_shadowed_by x in
  match e with
  | EVar y => N.eqb y x
  | ELambda y b => if N.eqb y x then false else sh b
  | EArith _ a b | EIntRel _ a b | EAppend a b | EDup a b | EEnumFromTo a b | ESeqIx a b
  | EFlatMap a b | EFlatMapList a _ b => sh a || sh b
  | EUnary _ a | ETupleProj a _ | ERecordProj a _ | EVariant _ a
  | EAs _ a | EAsChar a | EBytes _ _ a | ESeqLength a => sh a
  | EBool _ | EU _ _ => false
  | ENumeric n => existsb (fun y => N.eqb y x) (iter_vars n)
  | ETuple es | ESeq es => existsb (is_shadowed_by x) es
  | ERecord fs =>
    (fix go (fs : list (label * expr)) : bool :=
       match fs with
       | [] => false
       | (n, f) :: fs' => if is_shadowed_by x f then true else if N.eqb n x then false else go fs'
       end) fs
  | EMatch h bs =>
    sh h || existsb (fun b => match b with (p, e) => negb (pat_shadows x p) && is_shadowed_by x e end) bs
  | EDestructure h p b => sh h || (negb (pat_shadows x p) && sh b)
  | ESubSeq a b c | ESubSeqInflate a b c | EFlatMapAccum a b _ c | ELeftFold a b _ c
  | EFindByKey _ a b c => sh a || sh b || sh c
  | ELiftOption None => false
  | ELiftOption (Some a) => sh a
  end.

(** src/lib.rs:705-764 [bounds] *)
Fixpoint expr_bounds (e : expr) : outcome bounds :=
  match e with
  | EU _ n => Val (bexact n)
  | EAs w a =>
    obind (expr_bounds a) (fun b =>
      omap (fun o => match o with Some r => r | None => bany end) (bclamp b 0 (modulus w - 1)%N))
  | EArith op a b =>
    match op with
    | ABoolOr | ABoolAnd => Val bany
    | _ =>
      obind (expr_bounds a) (fun x => obind (expr_bounds b) (fun y =>
        match op with
        | AAdd => Val (badd x y)
        | ASub => Val (bsub x y)
        | AMul => Val (bmul x y)
        | ADiv => Val (bdiv x y)
        | ABitOr => bbitor x y
        | ABitAnd => bbitand x y
        | AShl => Val (bshl x y)
        | AShr => Val (bshr x y)
        | _ => brem x y
        end))
    end
  | EUnary op a =>
    match op with
    | UBoolNot => Val bany
    | UIntPred => omap (fun x => bsub x (bexact 1)) (expr_bounds a)
    | UIntSucc => omap (fun x => badd x (bexact 1)) (expr_bounds a)
    end
  | ENumeric n =>
    match neval_strict void_look n with
    | NOk (c, true) => Val (match tc_as_usize c with Some k => bexact k | None => bany end)
    | NPanic => Panic
    | _ => Val bany
    end
  | _ => Val bany
  end.
