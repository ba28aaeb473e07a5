(** When the lookahead of a format is exact everywhere, as an executable check. *)
From Verif Require Import Base BoundsModel DataModel NumericModel ValueModel FormatModel MatchTreeModel DecoderModel.
Open Scope nat_scope.

(** What the lookahead may assume: nothing is known ([o = true]) of what follows
    the continuation, or the input ends there. *)
Definition strict_look (o : bool) : look := if o then LOpen else LExact.

Section ExactB.
Context (bld : fmodule -> list format -> next -> outcome (option mtree)) (m : fmodule).
(** Whether formats made while decoding are allowed. *)
Context (dyn : bool).
(** The construction of the lookahead for branches [fs] before [n] also succeeds
    when it gives up where it approximates, and at the end of [n] if [o];
    [lfuel] is its recursion limit. *)
Context (lfuel : nat).
Definition decidedb (o : bool) (fs : list format) (n : next) : bool :=
  match build (strict_look o) m lfuel fs n with Val (Some _) => true | _ => false end.
(** The same for the items of the module, by level. *)
Context (xb : bool -> nat -> next -> bool).
(** This holds for every union and repetition in [f] followed by [n]. A format
    compiled with another continuation than its own is checked with that one.
    Formats made while decoding are exact, if their tables do not have too many
    codes. *)
Fixpoint exact_step (o : bool) (f : format) (n : next) {struct f} : bool :=
  match f with
  | FItemVar level _ _ =>
    match get_item m level with
    | Some it =>
      match depends_on_next bld m (item_depends bld m) (it_format it) with
      | Val true => xb o level n
      | Val false => xb true level NEmpty
      | Panic => false
      end
    | None => false
    end
  | FUnion fs =>
    decidedb o fs n && (fix all (l : list format) : bool := match l with [] => true | g :: r => exact_step o g n && all r end) fs
  | FTuple fs | FSequence fs =>
    (fix all (l : list format) : bool := match l with [] => true | g :: r => exact_step o g (NSequence r n) && all r end) fs
  | FRepeat a => decidedb o [FTuple [a; FRepeat a]; FEmpty] n && exact_step o a (NRepeat a n)
  | FRepeat1 a => decidedb o [FEmpty; FTuple [a; FRepeat a]] n && exact_step o a (NRepeat a n)
  | FRepeatCount _ a | FRepeatUntilLast _ a | FRepeatUntilSeq _ a | FAccumUntil _ _ _ _ a | FForEach _ _ a => exact_step o a (NRepeat a n)
  | FMaybe _ a | FPeek a | FBits a | FWithRelativeOffset _ _ a | FParseFromView _ a => exact_step true a NEmpty
  | FSlice _ a | FDecodeBytes _ a => exact_step false a NEmpty
  | FVariant _ a | FMap a _ | FWhere a _ _ | FLet _ _ a | FHint a | FLiftedOption (Some a) | FLetView _ a | FPermit a _ => exact_step o a n
  | FMatch _ bs =>
    (fix all (l : list (pattern * format)) : bool := match l with [] => true | (_, g) :: r => exact_step o g n && all r end) bs
  | FLetFormat a _ b | FMonadSeq a b => exact_step o a (NCat b n) && exact_step o b n
  | FDynamic _ _ a => dyn && exact_step o a n
  | FApply _ => dyn
  | FFail | FEndOfInput | FAlign _ | FByte _ | FUnionNondet _ | FRepeatBetween _ _ _ | FPeekNot _ | FCompute _ | FPos
  | FSkipRemainder | FLiftedOption None | FWithView _ _ | FPhantom _ => true
  end.
End ExactB.
(** [depth] bounds the nesting of items. *)
Fixpoint exactb (bld : fmodule -> list format -> next -> outcome (option mtree)) (m : fmodule) (dyn : bool) (lfuel depth : nat)
    (o : bool) (f : format) (n : next) : bool :=
  match depth with
  | O => false
  | S depth =>
    exact_step bld m dyn lfuel
      (fun o level n => match get_item m level with Some it => exactb bld m dyn lfuel depth o (it_format it) n | None => false end) o f n
  end.

(** Huffman codes as branches of a union (see [huffman_format]): strings of one to
    eighty bits (the depth of lookahead), none of which begins with another. *)
Definition branches (codes : list (list N * N)) : list format :=
  map (fun c => FMap (FTuple (map is_bit (fst c))) (ELambda 0%N (EU B16 (snd c)))) codes.
Definition good_codes (codes : list (list N * N)) : Prop :=
  Forall (fun c => Forall (fun b => b = 0 \/ b = 1)%N (fst c) /\ 1 <= length (fst c) <= max_depth) codes /\
  forall i j c d r, nth_error codes i = Some c -> nth_error codes j = Some d -> fst d = fst c ++ r -> i = j.
(** The construction of lookahead trees copes with such codes. *)
Definition builds_codes (bld : fmodule -> list format -> next -> outcome (option mtree)) : Prop :=
  forall codes, good_codes codes -> exists t, bld [] (branches codes) NEmpty = Val (Some t).
