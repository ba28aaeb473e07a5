(** Specification of decoding with locations: when two results are the same, which
    formats are covered, and what a location should say. *)
From Verif Require Import Base BoundsModel DataModel NumericModel ValueModel FormatModel MatchTreeModel DecoderModel LocModel.
Open Scope nat_scope.

(** ** The same result *)

(** A value without its provenance: mapped values are their images, alternatives
    and permitted values are what they hold, and a repeated element is spelt out. *)
Fixpoint plain (v : value) : value :=
  match v with
  | VMapped _ v' | VBranch _ v' | VPermitOk v' => plain v'
  | VPermitErr (Some v') => VPermitErr (Some (plain v'))
  | VOption (Some v') => VOption (Some (plain v'))
  | VTuple vs => VTuple (map plain vs)
  | VRecord fs => VRecord (map (fun f => match f with (l, x) => (l, plain x) end) fs)
  | VVariant l v' => VVariant l (plain v')
  | VSeq (Strict vs) => VSeq (Strict (map plain vs))
  | VSeq (Dup n v') => VSeq (Strict (repeat (plain v') n))
  | v => v
  end.
Definition same_err (e e' : derr) : Prop :=
  match e, e' with
  | KBadWhere v, KBadWhere w => plain v = plain w
  | KBadWhere _, _ | _, KBadWhere _ => False
  | _, _ => e = e'
  end.
(** Both succeed with the same value, cursor and soft errors, or both fail with
    the same error. A panic on either side is not compared. *)
Definition same_result (r : dres value) (r' : dres pval) : Prop :=
  match r, r' with
  | RPanic, _ | _, RPanic => True
  | ROk v c es, ROk p c' es' => plain v = plain (to_value p) /\ c = c' /\ Forall2 same_err es es'
  | RErr e, RErr e' => same_err e e'
  | RFuel, RFuel => True
  | _, _ => False
  end.

(** The value with repeated elements spelt out, and nothing else changed. *)
Fixpoint spelt (v : value) : value :=
  match v with
  | VMapped o v' => VMapped (spelt o) (spelt v')
  | VBranch n v' => VBranch n (spelt v')
  | VPermitOk v' => VPermitOk (spelt v')
  | VPermitErr (Some v') => VPermitErr (Some (spelt v'))
  | VOption (Some v') => VOption (Some (spelt v'))
  | VTuple vs => VTuple (map spelt vs)
  | VRecord fs => VRecord (map (fun f => match f with (l, x) => (l, spelt x) end) fs)
  | VVariant l v' => VVariant l (spelt v')
  | VSeq (Strict vs) => VSeq (Strict (map spelt vs))
  | VSeq (Dup n v') => VSeq (Strict (repeat (spelt v') n))
  | v => v
  end.

(** ** The formats covered *)

(** Patterns that look below at most one constructor; and, if numeric values may
    occur ([num]), no machine-integer patterns. *)
Definition pat_leaf (p : pattern) : bool := match p with PBinding _ | PWildcard => true | _ => false end.
Definition loc_pat (num : bool) (p : pattern) : bool :=
  match p with
  | PTuple ps | PSeq ps => forallb pat_leaf ps
  | PVariant _ p' | POption (Some p') => pat_leaf p'
  | PU _ _ | PInt _ => negb num
  | _ => true
  end.
(** Expressions all of whose patterns are such, with numeric sub-expressions only
    if [num]. *)
Fixpoint loc_expr (num : bool) (e : expr) : bool :=
  let ok := loc_expr num in
  match e with
  | EVar _ | EBool _ | EU _ _ | ELiftOption None => true
  | ENumeric _ => num
  | ETuple es | ESeq es => forallb (loc_expr num) es
  | ERecord fs => forallb (fun f => match f with (_, e) => loc_expr num e end) fs
  | EMatch h bs => ok h && forallb (fun b => match b with (p, e) => loc_pat num p && loc_expr num e end) bs
  | EDestructure h p b => ok h && loc_pat num p && ok b
  | ETupleProj a _ | ERecordProj a _ | EVariant _ a | ELambda _ a | EUnary _ a | EAs _ a | EAsChar a | EBytes _ _ a
  | ESeqLength a | ELiftOption (Some a) => ok a
  | EIntRel _ a b | EArith _ a b | ESeqIx a b | EFlatMap a b | EFlatMapList a _ b | EEnumFromTo a b | EDup a b
  | EAppend a b => ok a && ok b
  | ESubSeq a b c | ESubSeqInflate a b c | EFlatMapAccum a b _ c | EFindByKey _ a b c | ELeftFold a b _ c =>
    ok a && ok b && ok c
  end.
Fixpoint loc_view (num : bool) (v : viewexpr) : bool :=
  match v with VEVar _ => true | VEOffset b e => loc_view num b && loc_expr num e end.
(** One node of a format (not what is below it): no permitted failure, and only
    such expressions and patterns. *)
Definition loc_node (num : bool) (f : format) : bool :=
  let ok := loc_expr num in
  match f with
  | FPermit _ _ => false
  | FItemVar _ es vs => forallb ok es && forallb (loc_view num) vs
  | FRepeatCount e _ | FRepeatUntilLast e _ | FRepeatUntilSeq e _ | FForEach e _ _ | FMaybe e _ | FSlice e _ | FMap _ e
  | FWhere _ e _ | FCompute e | FLet _ e _ | FDecodeBytes e _ => ok e
  | FRepeatBetween a b _ | FWithRelativeOffset a b _ => ok a && ok b
  | FAccumUntil a b c _ _ => ok a && ok b && ok c
  | FMatch e bs => ok e && forallb (fun b => loc_pat num (fst b)) bs
  | FDynamic _ (DHuffman a None) _ => ok a
  | FDynamic _ (DHuffman a (Some b)) _ => ok a && ok b
  | FWithView v (VFCapture e) | FWithView v (VFReadArray e _) => loc_view num v && ok e
  | FWithView v VFReify | FParseFromView v _ => loc_view num v
  | _ => true
  end.

(** ** Where values are *)

(** A value and all the values inside it, those it was mapped from included. *)
Fixpoint parts (p : pval) : list pval :=
  p ::
  match p with
  | QFlat _ _ | QPermitErr None | QOption None => []
  | QTuple _ ps | QSeq _ (Strict ps) => flat_map parts ps
  | QSeq _ (Dup n p') => match n with O => [] | S _ => parts p' end
  | QRecord _ fs => flat_map (fun f => match f with (_, p') => parts p' end) fs
  | QVariant _ p' | QBranch _ p' | QPermitOk p' | QPermitErr (Some p') | QOption (Some p') => parts p'
  | QMapped o p' => parts o ++ parts p'
  end.
(** A location lies in the input. *)
Definition in_buffer (buf : list N) (l : loc) : Prop :=
  match l with LSynth => True | LBuf o n => o + n <= length buf end.
(** A scalar with a location is the big-endian number at that location. *)
Definition read_there (buf : list N) (p : pval) : Prop :=
  match p with
  | QFlat (LBuf o n) v => o + n <= length buf /\
      exists w, n = N.to_nat (nbits w / 8) /\ v = VU w (from_be_bytes (firstn n (skipn o buf)))
  | _ => True
  end.
(** Expressions that build no record *)
Fixpoint no_record (e : expr) : bool :=
  match e with
  | ERecord _ => false
  | EVar _ | EBool _ | EU _ _ | ELiftOption None | ENumeric _ => true
  | ETuple es | ESeq es => forallb no_record es
  | EMatch h bs => no_record h && forallb (fun b => match b with (_, e) => no_record e end) bs
  | EDestructure h _ b => no_record h && no_record b
  | ETupleProj a _ | ERecordProj a _ | EVariant _ a | ELambda _ a | EUnary _ a | EAs _ a | EAsChar a | EBytes _ _ a
  | ESeqLength a | ELiftOption (Some a) => no_record a
  | EIntRel _ a b | EArith _ a b | ESeqIx a b | EFlatMap a b | EFlatMapList a _ b | EEnumFromTo a b | EDup a b
  | EAppend a b => no_record a && no_record b
  | ESubSeq a b c | ESubSeqInflate a b c | EFlatMapAccum a b _ c | EFindByKey _ a b c | ELeftFold a b _ c =>
    no_record a && no_record b && no_record c
  end.
Definition one_buffer (f : format) : bool := match f with FBits _ | FDecodeBytes _ _ => false | _ => true end.
Definition unmapped (f : format) : bool := match f with FMap _ _ | FDynamic _ _ _ => false | _ => true end.
(** The expressions at one node of a format *)
Definition node_exprs (f : format) : list expr :=
  match f with
  | FPermit _ e | FRepeatCount e _ | FRepeatUntilLast e _ | FRepeatUntilSeq e _ | FForEach e _ _ | FMaybe e _ | FSlice e _
  | FWhere _ e _ | FCompute e | FLet _ e _ | FMap _ e | FDecodeBytes e _ | FMatch e _
  | FWithView _ (VFCapture e) | FWithView _ (VFReadArray e _) => [e]
  | FItemVar _ es _ => es
  | FRepeatBetween a b _ | FWithRelativeOffset a b _ => [a; b]
  | FAccumUntil a b c _ _ => [a; b; c]
  | FDynamic _ (DHuffman a o) _ => a :: match o with Some b => [b] | None => [] end
  | _ => []
  end.

(** The format of a record of named fields, all of them kept. *)
Definition record_of (fs : list (label * format)) : format :=
  fold_right (fun f g => FLetFormat (snd f) (fst f) g) (FCompute (ERecord (map (fun f => (fst f, EVar (fst f))) fs))) fs.
(** Formats whose value should carry the location of all that was consumed: those
    that read, those that collect what their parts read, and those that only wrap
    or choose among such formats. *)
Inductive Spans (M : fmodule) : format -> Prop :=
| SpByte bs : Spans M (FByte bs)
| SpEnd : Spans M FEndOfInput
| SpAlign n : Spans M (FAlign n)
| SpSkip : Spans M FSkipRemainder
| SpTuple fs : Spans M (FTuple fs)
| SpSequence fs : Spans M (FSequence fs)
| SpRepeat f : Spans M (FRepeat f)
| SpRepeat1 f : Spans M (FRepeat1 f)
| SpRepeatCount e f : Spans M (FRepeatCount e f)
| SpRepeatBetween a b f : Spans M (FRepeatBetween a b f)
| SpRepeatUntilLast e f : Spans M (FRepeatUntilLast e f)
| SpAccumUntil a b c t f : Spans M (FAccumUntil a b c t f)
| SpForEach e x f : Spans M (FForEach e x f)
| SpItem level args views it : get_item M level = Some it -> Spans M (it_format it) -> Spans M (FItemVar level args views)
| SpRecord fs : fs <> [] -> NoDup (map fst fs) -> Forall (fun f => Spans M (snd f)) fs -> Spans M (record_of fs)
| SpVariant l f : Spans M f -> Spans M (FVariant l f)
| SpUnion fs : Forall (Spans M) fs -> Spans M (FUnion fs)
| SpUnionNondet fs : Forall (Spans M) fs -> Spans M (FUnionNondet fs)
| SpMatch e bs : Forall (fun b => Spans M (snd b)) bs -> Spans M (FMatch e bs)
| SpMap f e : Spans M f -> Spans M (FMap f e)
| SpWhere f e b : Spans M f -> Spans M (FWhere f e b)
| SpLet x e f : Spans M f -> Spans M (FLet x e f)
| SpLetView x f : Spans M f -> Spans M (FLetView x f)
| SpDynamic x d f : Spans M f -> Spans M (FDynamic x d f)
| SpHint f : Spans M f -> Spans M (FHint f)
| SpSome f : Spans M f -> Spans M (FLiftedOption (Some f)).
(** The location is exactly what was consumed. *)
Definition spans_consumed (c : rctx) (r : dres pval) : Prop :=
  match r with ROk p c' _ => get_loc p = LBuf (roff c) (roff c' - roff c) | _ => True end.

(** ** Adjacent locations *)

(** The locations, in order, cover [o] to [o'] without gap or overlap. *)
Fixpoint contiguous (o : nat) (ls : list loc) (o' : nat) : Prop :=
  match ls with
  | [] => o = o'
  | LBuf a n :: r => a = o /\ contiguous (o + n) r o'
  | LSynth :: r => contiguous o r o'
  end.
