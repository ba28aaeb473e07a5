(** When the formats of the code generator (with types) and those of the interpreter
    (without) are compiled alike. *)
From Verif Require ByteSetModel MatchBoundsProofs.
From Verif Require Import Base BoundsModel DataModel NumericModel ValueModel FormatModel MatchTreeModel DecoderModel TypedModel.
Open Scope nat_scope.

(** The parts of a typed format, itself included; the definitions of the formats it
    calls are parts of it. *)
Fixpoint tsubs (f : tformat) : list tformat :=
  f ::
  match f with
  | GFail | GEndOfInput | GAlign _ | GByte _ | GCompute _ _ | GApply _ _ | GPos _ | GSkipRemainder | GWithView _ _ _ | GLiftedOption _ None => []
  | GUnion _ fs | GUnionNondet _ fs | GTuple _ fs | GSequence _ fs => flat_map tsubs fs
  | GMatch _ _ bs => flat_map (fun b => match b with (_, g) => tsubs g end) bs
  | GLetFormat _ g _ h | GMonadSeq _ g h => tsubs g ++ tsubs h
  | GCall _ _ _ _ g | GVariant _ _ g | GRepeat _ g | GRepeat1 _ g | GRepeatCount _ _ g | GRepeatBetween _ _ _ g
  | GRepeatUntilLast _ _ g | GRepeatUntilSeq _ _ g | GAccumUntil _ _ _ _ _ g | GForEach _ _ _ g | GMaybe _ _ g
  | GPeek _ g | GPeekNot _ g | GSlice _ _ g | GBits _ g | GWithRelativeOffset _ _ _ g | GMap _ g _ | GWhere _ g _ _
  | GLet _ _ _ g | GDynamic _ _ _ g | GDecodeBytes _ _ g | GHint _ g | GLiftedOption _ (Some g) | GLetView _ _ g
  | GParseFromView _ _ g | GPhantom _ g | GPermit _ g _ => tsubs g
  end.
Definition teverywhere (Q : tformat -> Prop) (f : tformat) : Prop := forall g, In g (tsubs f) -> Q g.

(** A byte set that holds a byte (four words of 64 bits, not all of them zero). *)
Definition inhabited_set (bs : byteset) : Prop := ByteSetModel.wf bs /\ ByteSetModel.is_empty bs = false.
Definition bytes_inhabited (f : format) : Prop := match f with FByte bs => inhabited_set bs | _ => True end.

(** The static bounds of a count or size with and without types agree on its least
    value and on whether it is a constant (and which). *)
Definition counted_alike (e : expr) : Prop :=
  exists b, expr_bounds e = Val b /\ bmin b = bmin (texpr_bounds e) /\ as_exact b = as_exact (texpr_bounds e) /\ (bmin b < w64)%N.

(** A call carries the format that the module has at its level, and names its
    arguments as the module does. *)
Definition call_follows (m : fmodule) (f : tformat) : Prop :=
  match f with
  | GCall _ level args views def =>
    exists it, get_item m level = Some it /\ forget def = it_format it /\
      map fst args = it_args it /\ map fst views = it_views it
  | _ => True
  end.
(** The nodes that lookahead treats alike with and without types: nothing is aligned
    to 0 or 1, byte sets hold a byte, counts and sizes have the same bounds, and a
    format that is repeated for each element and may be empty is always empty in the
    view of both or of none. *)
Definition alike (m : fmodule) (f : tformat) : Prop :=
  match f with
  | GAlign n => (1 < n)%N
  | GByte bs => inhabited_set bs
  | GRepeatCount _ e _ | GSlice _ e _ => counted_alike e
  | GRepeatBetween _ e1 e2 _ => counted_alike e1 /\ counted_alike e2
  | GForEach _ _ _ g =>
    forall b b', tmatch_bounds g = Val b -> match_bounds (item_bounds m) (forget g) = Val b' ->
      (bmin b = 0)%N -> (bmax b = Some 0%N <-> bmax b' = Some 0%N)
  | _ => True
  end.

Section Free.
(** Whether the decoder of the item at a level depends on what follows it. *)
Context (depends : nat -> bool).
(** The decoder of the format does not depend on what follows it: no alternative or
    repetition is decided by lookahead that may look beyond it. *)
Fixpoint settled (f : tformat) : bool :=
  match f with
  | GCall _ level _ _ _ => negb (depends level)
  | GUnion _ _ | GRepeat _ _ | GRepeat1 _ _ | GRepeatBetween _ _ _ _ => false
  | GUnionNondet _ fs | GTuple _ fs | GSequence _ fs => forallb settled fs
  | GMatch _ _ bs => forallb (fun b => match b with (_, g) => settled g end) bs
  | GLetFormat _ g _ h | GMonadSeq _ g h => settled g && settled h
  | GVariant _ _ g | GRepeatCount _ _ g | GRepeatUntilLast _ _ g | GRepeatUntilSeq _ _ g | GAccumUntil _ _ _ _ _ g
  | GForEach _ _ _ g | GMaybe _ _ g | GMap _ g _ | GWhere _ g _ _ | GLet _ _ _ g | GDynamic _ _ _ g | GHint _ g
  | GLiftedOption _ (Some g) | GLetView _ _ g | GPermit _ g _ => settled g
  | _ => true
  end.
(** Only such formats are optional. *)
Definition maybe_settled (f : tformat) : Prop := match f with GMaybe _ _ g => settled g = true | _ => True end.
End Free.

(** Every format of the module has static bounds. *)
Definition bounded_items (m : fmodule) : Prop := Forall (fun o => exists b, o = Val b) (item_bounds m).

(** Two lookahead trees that choose alike on every input. *)
Definition same_choice (t t' : mtree) : Prop := forall w, mt_matches t w = mt_matches t' w.

(** Calls give a value for every argument and a view for every view argument. *)
Definition called_fully (m : fmodule) (f : format) : Prop :=
  match f with
  | FItemVar level args views => forall it, get_item m level = Some it -> length args = length (it_args it) /\ length views = length (it_views it)
  | _ => True
  end.
(** No alternative is a variant that always fails. *)
Definition no_dead_variant (f : format) : Prop :=
  match f with FUnion fs | FUnionNondet fs => forall l, ~ In (FVariant l FFail) fs | _ => True end.

(** What follows, without the types. *)
Definition plain_format (f : mformat) : format := match f with MU f => f | MT' f => forget f end.
Definition plain_formats (fs : mformats) : list format := match fs with MUs fs => fs | MTs fs => map forget fs end.
Fixpoint plain_next (n : tnext) : next :=
  match n with
  | XEmpty => NEmpty
  | XUnion a b => NUnion (plain_next a) (plain_next b)
  | XCat f n => NCat (plain_format f) (plain_next n)
  | XSequence fs n => NSequence (plain_formats fs) (plain_next n)
  | XRepeat f n => NRepeat (plain_format f) (plain_next n)
  | XRepeatCount k f n => NRepeatCount k (plain_format f) (plain_next n)
  | XRepeatMax k f n => NRepeatMax k (plain_format f) (plain_next n)
  | XRepeatBetween k1 k2 f n => NRepeatBetween k1 k2 (plain_format f) (plain_next n)
  | XSlice k a n => NSlice k (plain_next a) (plain_next n)
  | XPeek a b => NPeek (plain_next a) (plain_next b)
  | XPeekNot a b => NPeekNot (plain_next a) (plain_next b)
  end.
(** The typed formats among what follows are the module's and treated alike, the
    others have byte sets that hold a byte. *)
Definition sound_typed (m : fmodule) (f : tformat) : Prop := teverywhere (call_follows m) f /\ teverywhere (alike m) f.
Definition sound_format (m : fmodule) (f : mformat) : Prop :=
  match f with MU f => MatchBoundsProofs.everywhere bytes_inhabited f | MT' f => sound_typed m f end.
Definition sound_formats (m : fmodule) (fs : mformats) : Prop :=
  match fs with MUs fs => Forall (MatchBoundsProofs.everywhere bytes_inhabited) fs | MTs fs => Forall (sound_typed m) fs end.
Fixpoint sound_next (m : fmodule) (n : tnext) : Prop :=
  match n with
  | XEmpty => True
  | XUnion a b | XPeek a b | XPeekNot a b | XSlice _ a b => sound_next m a /\ sound_next m b
  | XCat f n | XRepeat f n | XRepeatCount _ f n | XRepeatMax _ f n | XRepeatBetween _ _ f n => sound_format m f /\ sound_next m n
  | XSequence fs n => sound_formats m fs /\ sound_next m n
  end.

(** Whether the decoder of the item at a level depends on what follows it. *)
Definition waits (bld : fmodule -> list format -> next -> outcome (option mtree)) (m : fmodule) (level : nat) : bool :=
  match get_item m level with
  | Some it => match depends_on_next bld m (item_depends bld m) (it_format it) with Val b => b | Panic => false end
  | None => false
  end.
