(** Model of binary format descriptions and their static bounds: src/format.rs,
    and the parts of src/lib.rs they are made of (view expressions, dynamic
    formats, modules). *)
From Verif Require ByteSetModel.
From Verif Require Import Base BoundsModel DataModel NumericModel ValueModel.
Open Scope nat_scope.

Definition byteset := ByteSetModel.byteset.

(** src/lib.rs:783-787 [enum ViewExpr] *)
Inductive viewexpr := VEVar (x : label) | VEOffset (v : viewexpr) (e : expr).
(** src/marker.rs:37-42 [enum BaseKind<Endian>]: the width, and whether it is
    big-endian (which has no meaning at 8 bits). *)
Record basekind := BK { bk_width : bitwidth; bk_be : bool }.
(** src/lib.rs:773-780 [enum ViewFormat] *)
Inductive viewformat :=
| VFCapture (len : expr)
| VFReadArray (len : expr) (k : basekind)
| VFReify.
(** src/lib.rs:768-770 [enum DynFormat]: code lengths and optional code values *)
Inductive dynformat := DHuffman (lengths : expr) (values : option expr).

(** src/format.rs:59-153 [enum Format], without the feature-gated [Enforce].
    [FHint] drops the hint (it has no effect on decoding, decoder.rs:888-891);
    [FWhere] carries the condition's expression and whether it is strict. *)
Inductive format :=
| FItemVar (level : nat) (args : list expr) (views : list viewexpr)
| FFail
| FEndOfInput
| FAlign (n : N)
| FByte (bs : byteset)
| FVariant (l : label) (f : format)
| FUnion (fs : list format)
| FUnionNondet (fs : list format)
| FTuple (fs : list format)
| FSequence (fs : list format)
| FRepeat (f : format)
| FRepeat1 (f : format)
| FRepeatCount (e : expr) (f : format)
| FRepeatBetween (emin emax : expr) (f : format)
| FRepeatUntilLast (e : expr) (f : format)
| FRepeatUntilSeq (e : expr) (f : format)
| FAccumUntil (fdone fupdate init : expr) (t : vtype) (f : format)
| FForEach (e : expr) (x : label) (f : format)
| FMaybe (e : expr) (f : format)
| FPeek (f : format)
| FPeekNot (f : format)
| FSlice (e : expr) (f : format)
| FBits (f : format)
| FWithRelativeOffset (base off : expr) (f : format)
| FMap (f : format) (e : expr)
| FWhere (f : format) (e : expr) (strict : bool)
| FCompute (e : expr)
| FLet (x : label) (e : expr) (f : format)
| FMatch (e : expr) (bs : list (pattern * format))
| FDynamic (x : label) (d : dynformat) (f : format)
| FApply (x : label)
| FPos
| FSkipRemainder
| FDecodeBytes (e : expr) (f : format)
| FLetFormat (f : format) (x : label) (g : format)
| FMonadSeq (f g : format)
| FHint (f : format)
| FLiftedOption (o : option format)
| FLetView (x : label) (f : format)
| FWithView (v : viewexpr) (vf : viewformat)
| FParseFromView (v : viewexpr) (f : format)
| FPhantom (f : format)
| FPermit (f : format) (e : expr).

(** src/format.rs:156 [Format::EMPTY] *)
Definition FEmpty : format := FTuple [].

(** src/lib.rs:907-913 [struct FormatModule]: for each level the names of its
    value arguments, of its view arguments, and its format. Names and types of
    items are not represented. *)
Record item := Item { it_args : list label; it_views : list label; it_format : format }.
Definition fmodule := list item.
(** src/lib.rs [get_format], [get_args], [get_view_args]: indexing panics out of range *)
Definition get_item (m : fmodule) (level : nat) : option item := nth_error m level.

(** ** Static bounds *)

(** [Iterator::reduce] followed by [unwrap] *)
Definition reduce_unwrap (f : bounds -> bounds -> bounds) (l : list bounds) : outcome bounds :=
  match l with [] => Panic | b :: r => Val (fold_left f r b) end.
(** [reduce(..).unwrap_or(Bounds::exact(0))] *)
Definition reduce_or0 (f : bounds -> bounds -> bounds) (l : list bounds) : bounds :=
  match l with [] => bexact 0 | b :: r => fold_left f r b end.

Section MatchBounds.
(** The bounds of the levels defined so far: [define_format] only accepts
    references to earlier levels, so the recursion through [ItemVar] is well
    founded; a reference beyond them is a panic here. *)
Context (items : list (outcome bounds)).
(** src/format.rs:262-338 [match_bounds] *)
Fixpoint match_bounds (f : format) : outcome bounds :=
  match f with
  | FItemVar level _ _ => match nth_error items level with Some b => b | None => Panic end
  | FFail | FEndOfInput => Val (bexact 0)
  | FSkipRemainder => Val bany
  | FAlign n => if N.eqb n 0 then Panic else Val (bnew 0 (n - 1))
  | FByte _ => Val (bexact 1)
  | FVariant _ g => match_bounds g
  | FUnion fs | FUnionNondet fs => obind (omapM match_bounds fs) (reduce_unwrap bunion)
  | FTuple fs => omap (reduce_or0 badd) (omapM match_bounds fs)
  | FRepeat _ => Val bany
  | FRepeat1 g => omap (fun b => bmul b (bat_least 1)) (match_bounds g)
  | FRepeatCount e g => obind (match_bounds g) (fun b => omap (bmul b) (expr_bounds e))
  | FRepeatBetween e1 e2 g =>
    obind (match_bounds g) (fun b => obind (expr_bounds e1) (fun b1 => obind (expr_bounds e2) (fun b2 =>
      Val (bmul b (bunion b1 b2)))))
  | FRepeatUntilLast _ g => omap (fun b => bmul b (bat_least 1)) (match_bounds g)
  | FRepeatUntilSeq _ _ | FAccumUntil _ _ _ _ _ => Val bany
  | FMaybe _ g => omap (bunion (bexact 0)) (match_bounds g)
  | FPeek _ | FPeekNot _ => Val (bexact 0)
  | FSlice e _ => expr_bounds e
  | FBits g => omap bits_to_bytes (match_bounds g)
  | FWithRelativeOffset _ _ _ => Val (bexact 0)
  | FMap g _ | FWhere g _ _ => match_bounds g
  | FCompute _ | FPos => Val (bexact 0)
  | FLet _ _ g | FLetView _ g => match_bounds g
  | FMatch _ bs => obind (omapM (fun b => match b with (_, g) => match_bounds g end) bs) (reduce_unwrap bunion)
  | FDynamic _ _ g => match_bounds g
  | FApply _ => Val (bat_least 1)
  | FForEach _ _ _ => Val bany
  | FDecodeBytes _ _ => Val (bexact 0)
  | FLetFormat g _ h | FMonadSeq g h => obind (match_bounds g) (fun b => omap (badd b) (match_bounds h))
  | FPermit g _ | FHint g => match_bounds g
  | FLiftedOption None => Val (bexact 0)
  | FLiftedOption (Some g) => match_bounds g
  | FSequence fs => omap (fun bs => fold_left badd bs (bexact 0)) (omapM match_bounds fs)
  | FWithView _ _ => Val (bexact 0)
  | FParseFromView _ _ => Val (bexact 0)
  | FPhantom _ => Val (bexact 0)
  end.
End MatchBounds.

(** The bounds of every level of a module, in order. *)
Definition item_bounds (m : fmodule) : list (outcome bounds) :=
  fold_left (fun acc it => acc ++ [match_bounds acc (it_format it)]) m [].

Section LookaheadBounds.
Context (items lits : list (outcome bounds)).
(** src/format.rs:342-425 [lookahead_bounds]; [items] are the match bounds and
    [lits] the lookahead bounds of the earlier levels. *)
Fixpoint lookahead_bounds (f : format) : outcome bounds :=
  match f with
  | FItemVar level _ _ => match nth_error lits level with Some b => b | None => Panic end
  | FFail | FEndOfInput => Val (bexact 0)
  | FSkipRemainder => Val bany
  | FAlign n => if N.eqb n 0 then Panic else Val (bnew 0 (n - 1))
  | FByte _ => Val (bexact 1)
  | FVariant _ g => lookahead_bounds g
  | FUnion fs | FUnionNondet fs => obind (omapM lookahead_bounds fs) (reduce_unwrap bunion)
  | FTuple fs => omap (reduce_or0 badd) (omapM lookahead_bounds fs)
  | FRepeat _ | FForEach _ _ _ => Val bany
  | FRepeat1 g => omap (fun b => bmul b (bat_least 1)) (lookahead_bounds g)
  | FRepeatCount e g => obind (lookahead_bounds g) (fun b => omap (bmul b) (expr_bounds e))
  | FRepeatBetween e1 e2 g =>
    obind (lookahead_bounds g) (fun b => obind (expr_bounds e1) (fun b1 => obind (expr_bounds e2) (fun b2 =>
      Val (bmul b (bunion b1 b2)))))
  | FRepeatUntilLast _ g => omap (fun b => bmul b (bat_least 1)) (lookahead_bounds g)
  | FRepeatUntilSeq _ _ | FAccumUntil _ _ _ _ _ => Val bany
  | FMaybe _ g => omap (bunion (bexact 0)) (lookahead_bounds g)
  | FPeek g | FPeekNot g => lookahead_bounds g
  | FSlice e _ => expr_bounds e
  | FBits g => omap bits_to_bytes (lookahead_bounds g)
  | FWithRelativeOffset _ _ _ => Val bany
  | FMap g _ | FWhere g _ _ => lookahead_bounds g
  | FCompute _ | FPos => Val (bexact 0)
  | FLet _ _ g | FLetView _ g => lookahead_bounds g
  | FMatch _ bs => obind (omapM (fun b => match b with (_, g) => lookahead_bounds g end) bs) (reduce_unwrap bunion)
  | FDynamic _ _ g => lookahead_bounds g
  | FApply _ => Val (bat_least 1)
  | FDecodeBytes _ _ => Val (bexact 0)
  | FMonadSeq g h | FLetFormat g _ h =>
    obind (lookahead_bounds g) (fun lg => obind (match_bounds items g) (fun mg =>
      omap (fun lh => bunion lg (badd mg lh)) (lookahead_bounds h)))
  | FPermit g _ | FHint g => lookahead_bounds g
  | FLiftedOption None => Val (bexact 0)
  | FLiftedOption (Some g) => lookahead_bounds g
  | FSequence fs =>
    omap snd (obind (omapM (fun g => obind (lookahead_bounds g) (fun l => omap (pair l) (match_bounds items g))) fs)
      (fun ps => Val (fold_left (fun (st : bounds * bounds) (p : bounds * bounds) =>
         (badd (fst st) (snd p), bunion (snd st) (badd (fst st) (fst p)))) ps (bexact 0, bexact 0))))
  | FWithView _ _ => Val (bexact 0)
  | FParseFromView _ _ => Val (bexact 0)
  | FPhantom _ => Val (bexact 0)
  end.
End LookaheadBounds.
Definition item_lookahead (m : fmodule) : list (outcome bounds) :=
  fold_left (fun acc it => acc ++ [lookahead_bounds (item_bounds m) acc (it_format it)]) m [].

(** src/format.rs:428-430 [is_nullable] *)
Definition is_nullable (m : fmodule) (f : format) : outcome bool :=
  omap (fun b => N.eqb (bmin b) 0) (match_bounds (item_bounds m) f).

(** src/format.rs:160-167 [alts] *)
Definition alts (fields : list (label * format)) : format :=
  FUnion (map (fun lf => FVariant (fst lf) (snd lf)) fields).
(** src/format.rs:191-223 [__chain_record]; [remaining] in field order, each with
    an optional name and whether the field is kept. *)
Fixpoint chain_record (captured : list (label * expr)) (remaining : list (option (label * bool) * format)) : format :=
  match remaining with
  | [] => match captured with
          | [] => FCompute (ETuple [])
          | _ => FCompute (ERecord captured)
          end
  | (None, f) :: r => FMonadSeq f (chain_record captured r)
  | (Some (x, keep), f) :: r =>
    FLetFormat f x (chain_record (if keep then captured ++ [(x, EVar x)] else captured) r)
  end.
(** src/format.rs:174-189 [record] *)
Definition record (fields : list (label * format)) : format :=
  FHint (chain_record [] (map (fun lf => (Some (fst lf, true), snd lf)) fields)).
(** src/format.rs:225-257 [chaining] *)
Fixpoint chaining (formats : list (option label * format)) (ret : format) : format :=
  match formats with
  | [] => ret
  | (None, f) :: r => FMonadSeq f (chaining r ret)
  | (Some x, f) :: r => FLetFormat f x (chaining r ret)
  end.
