(** What relates the interpreter and the generated parser of a decoder: how their
    values correspond, and for which decoders they are compared. *)
From Coq Require Import String.
From Verif Require ByteSetModel.
From Verif Require Import Base BoundsModel DataModel NumericModel ValueModel FormatModel MatchTreeModel DecoderModel
  ParserModel ProgModel RecordModel CodegenModel.
Open Scope nat_scope.

(** ** Values *)

(** [erases v w]: the value [w] of a generated parser is the value [v] of the
    interpreter without the wrappers that say how it was obtained. *)
Inductive erases : value -> value -> Prop :=
| ErBool b : erases (VBool b) (VBool b)
| ErU w n : erases (VU w n) (VU w n)
| ErChar c : erases (VChar c) (VChar c)
| ErUsize n : erases (VUsize n) (VUsize n)
| ErNumeric c : erases (VNumeric c) (VNumeric c)
| ErView o : erases (VView o) (VView o)
| ErPhantom : erases VPhantom VPhantom
| ErEnum a b : erases (VEnumFromTo a b) (VEnumFromTo a b)
| ErNone : erases (VOption None) (VOption None)
| ErSome v w : erases v w -> erases (VOption (Some v)) (VOption (Some w))
| ErTuple vs ws : Forall2 erases vs ws -> erases (VTuple vs) (VTuple ws)
| ErRecord fs gs : Forall2 (fun f g => fst f = fst g /\ erases (snd f) (snd g)) fs gs -> erases (VRecord fs) (VRecord gs)
| ErVariant l v w : erases v w -> erases (VVariant l v) (VVariant l w)
| ErStrict vs ws : Forall2 erases vs ws -> erases (VSeq (Strict vs)) (VSeq (Strict ws))
| ErDup n v w : erases v w -> erases (VSeq (Dup n v)) (VSeq (Dup n w))
| ErMapped o v w : erases v w -> erases (VMapped o v) w
| ErBranch n v w : erases v w -> erases (VBranch n v) w
| ErPermitOk v w : erases v w -> erases (VPermitOk v) w.

(** ** Expressions *)

(** The names generated code uses for variables of its own. *)
Definition temporaries : list label :=
  [n_matching_ix; n_tmp_cond; n_sz; n_tgt_offset; n_is_advance; n_accum; n_next_elem; n_reps_left;
   n_seq; n_acc; n_elem; n_tree_index; n_inner; n_res; n_err].
(** [257] is the base of [intern]: a name that begins with [arg] or [ix]. *)
Definition reserved (x : label) : bool :=
  existsb (N.eqb x) temporaries || N.eqb (x mod 257 ^ 3) (intern "arg") || N.eqb (x mod 257 ^ 2) (intern "ix").

(** A pattern that does not look inside the parts it takes apart. *)
Definition simple_pattern (p : pattern) : bool := match p with PBinding _ | PWildcard => true | _ => false end.
Definition shallow (p : pattern) : bool :=
  match p with
  | PTuple ps | PSeq ps => forallb simple_pattern ps
  | PVariant _ p | POption (Some p) => simple_pattern p
  | _ => true
  end.
(** No variable of [e] has a name of generated code and its patterns are shallow. *)
Fixpoint tidy (e : expr) : bool :=
  match e with
  | EVar x => negb (reserved x)
  | ENumeric n => forallb (fun x => negb (reserved x)) (iter_vars n)
  | EBool _ | EU _ _ => true
  | ETuple es | ESeq es => forallb tidy es
  | ERecord fs => forallb (fun f => tidy (snd f)) fs
  | EMatch h bs => tidy h && forallb (fun b => shallow (fst b) && tidy (snd b)) bs
  | EDestructure h p e => tidy h && shallow p && tidy e
  | ELambda _ e | ETupleProj e _ | ERecordProj e _ | EVariant _ e | EUnary _ e | EAs _ e | EAsChar e
  | EBytes _ _ e | ESeqLength e => tidy e
  | EIntRel _ a b | EArith _ a b | ESeqIx a b | EFlatMap a b | EFlatMapList a _ b | EEnumFromTo a b | EDup a b
  | EAppend a b => tidy a && tidy b
  | ESubSeq a b c | ESubSeqInflate a b c | EFlatMapAccum a b _ c | EFindByKey _ a b c | ELeftFold a b _ c =>
    tidy a && tidy b && tidy c
  | ELiftOption None => true
  | ELiftOption (Some e) => tidy e
  end.
Fixpoint tidy_view (v : viewexpr) : bool :=
  match v with VEVar _ => true | VEOffset b e => tidy_view b && tidy e end.

(** ** Lookahead *)

Definition usable_set (bs : byteset) : bool := match criterion_of bs with Val _ => true | Panic => false end.
(** No node of the tree both accepts and has branches: the generated lookahead needs
    a byte wherever there are branches, and with several of them forgets what to
    accept when none applies. *)
Fixpoint decisive (t : mtree) : bool :=
  match t with
  | MT acc bs =>
    match acc, bs with Some _, _ :: _ => false | _, _ => true end &&
    (match bs with _ :: _ :: _ => forallb (fun e => negb (ByteSetModel.is_full (fst e))) bs | _ => true end) &&
    forallb (fun e => usable_set (fst e) && decisive (snd e)) bs
  end.
(** The tree of a loop is only used when there is input left. *)
Definition loop_tree (t : mtree) : bool :=
  match t with
  | MT acc [(set, t')] => usable_set set && decisive t'
  | t => decisive t
  end.
Definition goes_on_at_end (t : mtree) : bool := match t with MT (Some O) _ => true | _ => false end.
Definition stops_at_end (t : mtree) : bool := match t with MT (Some (S _)) _ => true | _ => false end.

(** ** Decoders *)

(** Where a decoder is used: in a bit format, in a slice, in a view; [exact]: its
    failures matter too; [quiet]: it is tried and may be taken back. *)
Record mode := Mode { bits : bool; sliced : bool; viewed : bool; exact : bool; quiet : bool }.
Definition top (ex : bool) : mode := Mode false false false ex false.
Definition in_bits md := Mode true (sliced md) (viewed md) (exact md) (quiet md).
Definition in_slice md := Mode (bits md) true (viewed md) (exact md) (quiet md).
Definition in_view md := Mode false false true (exact md) (quiet md).
Definition in_buffer md := Mode false false false (exact md) (quiet md).
Definition tried md := Mode (bits md) (sliced md) (viewed md) true true.

Definition both {A} (a b : option A) (f : A -> A -> A) : option A :=
  match a, b with Some x, Some y => Some (f x y) | _, _ => None end.
Section Starts.
Context (P : program).
(** The bytes with which anything the decoder accepts begins, if that is clear. *)
Fixpoint starts (fuel : nat) (d : decoder) : option byteset :=
  match fuel with
  | O => None
  | S fuel =>
    match d with
    | DByte bs => Some bs
    | DCall n _ _ => match nth_error P n with Some d => starts fuel d | None => None end
    | DVariant _ d | DMap d _ | DWhere d _ _ | DLet _ _ d | DLiftedOption (Some d) | DLetView _ d
    | DLetFormat d _ _ | DMonadSeq d _ | DTuple (d :: _) | DSequence (d :: _) => starts fuel d
    | DBranch _ ds => fold_right (fun d acc => both (starts fuel d) acc ByteSetModel.union) (Some ByteSetModel.empty) ds
    | _ => None
    end
  end.
End Starts.
(** The tree of a [DUntil] goes on (an index other than 0) on every byte of [bs]. *)
Fixpoint branch_for (b : N) (l : list (byteset * mtree)) : option mtree :=
  match l with [] => None | (bs, t) :: r => if ByteSetModel.contains bs b then Some t else branch_for b r end.
Definition goes_on (t : mtree) (bs : byteset) : bool :=
  match t with
  | MT _ brs =>
    forallb (fun b => match branch_for b brs with Some (MT (Some (S _)) []) => true | _ => false end) (ByteSetModel.iter bs)
  end.

Section Supported.
Context (P : program).
(** [lossy]: the generated parser may also panic, when a number exceeds the type of
    an offset or a buffer the size of the memory. *)
Context (lossy : bool).
(** which decoders of the program are supported where *)
Context (callee : mode -> nat -> bool).
(** An expression of type [u64]. *)
Definition wide (e : expr) : bool := match e with EAs B64 _ | EU B64 _ => true | _ => false end.
Fixpoint supported (md : mode) (d : decoder) : bool :=
  match d with
  | DCall n es vs => callee md n && forallb (fun e => tidy (snd e)) es && forallb (fun v => tidy_view (snd v)) vs
  | DFail | DEndOfInput | DPhantom => true
  | DPos => negb (bits md) && negb (viewed md)
  | DAlign n => negb (bits md) && negb (viewed md)
  | DSkipRemainder => negb (bits md)
  | DByte bs => usable_set bs
  | DVariant _ d | DPeek d | DLiftedOption (Some d) => supported md d
  | DLiftedOption None => true
  | DBranch t ds => decisive t && forallb (supported md) ds
  | DParallel ds =>
    negb (quiet md) &&
    (fix alts (ds : list decoder) : bool :=
      match ds with
      | [] => false
      | [d] => supported md d
      | d :: r => supported (tried md) d && alts r
      end) ds
  | DTuple ds | DSequence ds => forallb (supported md) ds
  | DWhile t d => loop_tree t && negb (goes_on_at_end t) && (negb (exact md) || stops_at_end t) && supported md d
  | DUntil t d =>
    negb (exact md) && loop_tree t && match starts P (S (length P)) d with Some bs => goes_on t bs | None => false end && supported md d
  | DRepeatBetween _ _ _ _ | DPermit _ _ | DDynamic _ _ _ | DApply _ => false
  | DRepeatCount e d | DRepeatUntilLast e d | DRepeatUntilSeq e d | DForEach e _ d | DMaybe e d | DMap d e
  | DWhere d e _ | DLet _ e d => tidy e && supported md d
  | DAccumUntil f g i d => tidy f && tidy g && tidy i && supported md d
  | DCompute e => tidy e
  | DMatch e bs => tidy e && forallb (fun b => shallow (fst b) && supported md (snd b)) bs
  | DLetFormat a _ b | DMonadSeq a b => supported md a && supported md b
  | DPeekNot d => negb (quiet md) && supported (tried md) d
  | DSlice e d => negb (bits md) && tidy e && supported (in_slice md) d
  | DBits d => negb (bits md) && negb (sliced md) && supported (in_bits md) d
  | DWithRelativeOffset b o d =>
    negb (bits md) && negb (sliced md) && negb (viewed md) && tidy b && tidy o && (lossy || wide b && wide o) && supported md d
  | DLetView _ d => negb (bits md) && negb (sliced md) && supported md d
  | DParseFromView v d => tidy_view v && supported (in_view md) d
  | DDecodeBytes e d => lossy && tidy e && supported (in_buffer md) d
  | DCaptureBytes v e => negb (exact md) && tidy_view v && tidy e
  | DReadArray v e k => tidy_view v && tidy e && (bw_eqb (bk_width k) B8 || bk_be k)
  | DReifyView v => tidy_view v
  end.
Definition closed : Prop :=
  forall md n d, callee md n = true -> nth_error P n = Some d -> supported md d = true.
End Supported.

(** ** Programs *)

Definition mode_eqb (a b : mode) : bool :=
  Bool.eqb (bits a) (bits b) && Bool.eqb (sliced a) (sliced b) && Bool.eqb (viewed a) (viewed b) &&
  Bool.eqb (exact a) (exact b) && Bool.eqb (quiet a) (quiet b).
Definition used (uses : list (mode * nat)) (md : mode) (n : nat) : bool :=
  existsb (fun u => mode_eqb (fst u) md && Nat.eqb (snd u) n) uses.
(** [uses] lists decoders of the program with where they are used, the first among
    them; each is supported there and only calls others of the list. *)
Definition program_supported (P : program) (lossy ex : bool) (uses : list (mode * nat)) : bool :=
  used uses (top ex) 0 &&
  forallb (fun u => match nth_error P (snd u) with
                    | Some d => supported P lossy (used uses) (fst u) d
                    | None => false
                    end) uses.
(** What a buffer in memory is. *)
Definition small (l : list N) : Prop := Forall (fun b => (b < 256)%N) l /\ (8 * N.of_nat (length l) + 8 < w64)%N.
