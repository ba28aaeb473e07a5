(** When the failure of a format at a position means that nothing there belongs to
    the format. *)
From Verif Require Import Base BoundsModel DataModel NumericModel ValueModel FormatModel MatchTreeModel DecoderModel
  FormatSpec ExactSpec.
Open Scope nat_scope.

Section Negative.
Context (bld : fmodule -> list format -> next -> outcome (option mtree)) (m : fmodule).
(** The lookahead of [f] alone is exact (see [ExactSpec]), whatever comes after if [o]. *)
Definition exactly (o : bool) (f : format) : Prop := exists lfuel depth, exactb bld m false lfuel depth o f NEmpty = true.
(** [f] decodes the same way whatever comes after: its choices are inside parts that
    are compiled on their own, and exact. *)
Fixpoint direct (f : format) : Prop :=
  match f with
  | FItemVar level _ _ =>
    exists it, get_item m level = Some it /\ depends_on_next bld m (item_depends bld m) (it_format it) = Val false /\ exactly true (it_format it)
  | FTuple fs | FSequence fs => (fix all (l : list format) : Prop := match l with [] => True | g :: r => direct g /\ all r end) fs
  | FRepeatCount _ a | FRepeatUntilLast _ a | FRepeatUntilSeq _ a | FAccumUntil _ _ _ _ a | FForEach _ _ a => direct a
  | FMaybe _ a | FPeek a | FBits a | FWithRelativeOffset _ _ a | FParseFromView _ a => exactly true a
  | FSlice _ a | FDecodeBytes _ a => exactly false a
  | FVariant _ a | FMap a _ | FWhere a _ _ | FLet _ _ a | FHint a | FLiftedOption (Some a) | FLetView _ a | FPermit a _ => direct a
  | FMatch _ bs => (fix all (l : list (pattern * format)) : Prop := match l with [] => True | (_, g) :: r => direct g /\ all r end) bs
  | FLetFormat a _ b | FMonadSeq a b => direct a /\ direct b
  | FUnion _ | FUnionNondet _ | FRepeat _ | FRepeat1 _ | FRepeatBetween _ _ _ | FPeekNot _ | FDynamic _ _ _ | FApply _ => False
  | FFail | FEndOfInput | FAlign _ | FByte _ | FCompute _ | FPos | FSkipRemainder | FLiftedOption None | FWithView _ _ | FPhantom _ => True
  end.
(** Nothing at this position belongs to [f] (in the strict sense: whatever failures
    inside [f] would allow). *)
Definition nothing_at (s : scope format) (f : format) (buf : list N) (i : nat) : Prop := forall j v, ~ Sem m true s f buf i j v.
(** What an accepted negative peek says. *)
Definition refused (s : scope format) (f : format) (buf : list N) (i : nat) : Prop := usable buf -> exactly true f -> nothing_at s f buf i.
(** What a tolerated failure, or passing over a branch of an ordered choice, says. *)
Definition given_up (s : scope format) (f : format) (buf : list N) (i : nat) : Prop := usable buf -> direct f -> nothing_at s f buf i.
End Negative.
