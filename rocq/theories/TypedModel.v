(** The compiler of typed formats that the code generator uses:
    src/codegen/typed_format.rs [TypedFormat] with its copies of the static bounds,
    src/lib.rs [MaybeTyped], [from_gt_format], and src/codegen/typed_decoder.rs
    [GTCompiler]. Everything here is a second version, for formats that carry types,
    of what FormatModel, MatchTreeModel and DecoderModel model for plain formats. *)
From Verif Require ByteSetModel.
From Verif Require Import Base BoundsModel DataModel NumericModel ValueModel FormatModel MatchTreeModel DecoderModel.
Open Scope nat_scope.

(** The types recorded in a node of a typed format: its own, and those of the
    expressions and patterns in it. They are only compared for equality (as part of
    the keys of a hash map), so they are numbers here. *)
Definition ann := nat.

(** src/codegen/typed_format.rs:228-327 [enum TypedFormat], without the
    feature-gated [Enforce]. Expressions, patterns and views are the untyped ones
    (their types are part of the node's [ann]). A call carries the typed format of
    what it calls. *)
Inductive tformat :=
| GCall (t : ann) (level : nat) (args : list (label * expr)) (views : list (label * viewexpr)) (def : tformat)
| GFail
| GEndOfInput
| GAlign (n : N)
| GByte (bs : byteset)
| GVariant (t : ann) (l : label) (f : tformat)
| GUnion (t : ann) (fs : list tformat)
| GUnionNondet (t : ann) (fs : list tformat)
| GTuple (t : ann) (fs : list tformat)
| GSequence (t : ann) (fs : list tformat)
| GRepeat (t : ann) (f : tformat)
| GRepeat1 (t : ann) (f : tformat)
| GRepeatCount (t : ann) (e : expr) (f : tformat)
| GRepeatBetween (t : ann) (emin emax : expr) (f : tformat)
| GRepeatUntilLast (t : ann) (e : expr) (f : tformat)
| GRepeatUntilSeq (t : ann) (e : expr) (f : tformat)
| GAccumUntil (t : ann) (fdone fupdate init : expr) (vt : vtype) (f : tformat)
| GForEach (t : ann) (e : expr) (x : label) (f : tformat)
| GMaybe (t : ann) (e : expr) (f : tformat)
| GPeek (t : ann) (f : tformat)
| GPeekNot (t : ann) (f : tformat)
| GSlice (t : ann) (e : expr) (f : tformat)
| GBits (t : ann) (f : tformat)
| GWithRelativeOffset (t : ann) (base off : expr) (f : tformat)
| GMap (t : ann) (f : tformat) (e : expr)
| GWhere (t : ann) (f : tformat) (e : expr) (strict : bool)
| GCompute (t : ann) (e : expr)
| GLet (t : ann) (x : label) (e : expr) (f : tformat)
| GMatch (t : ann) (e : expr) (bs : list (pattern * tformat))
| GDynamic (t : ann) (x : label) (d : dynformat) (f : tformat)
| GApply (t : ann) (x : label)
| GPos (t : ann)
| GSkipRemainder
| GDecodeBytes (t : ann) (e : expr) (f : tformat)
| GLetFormat (t : ann) (f : tformat) (x : label) (g : tformat)
| GMonadSeq (t : ann) (f g : tformat)
| GHint (t : ann) (f : tformat)
| GLiftedOption (t : ann) (o : option tformat)
| GLetView (t : ann) (x : label) (f : tformat)
| GWithView (t : ann) (v : viewexpr) (vf : viewformat)
| GParseFromView (t : ann) (v : viewexpr) (f : tformat)
| GPhantom (t : ann) (f : tformat)
| GPermit (t : ann) (f : tformat) (e : expr).

(** src/codegen/typed_format.rs:1159-1251 [From<TypedFormat> for Format]: the format
    without its types *)
Fixpoint forget (f : tformat) : format :=
  match f with
  | GCall _ level args views _ => FItemVar level (map snd args) (map snd views)
  | GFail => FFail
  | GEndOfInput => FEndOfInput
  | GAlign n => FAlign n
  | GByte bs => FByte bs
  | GVariant _ l g => FVariant l (forget g)
  | GUnion _ fs => FUnion (map forget fs)
  | GUnionNondet _ fs => FUnionNondet (map forget fs)
  | GTuple _ fs => FTuple (map forget fs)
  | GSequence _ fs => FSequence (map forget fs)
  | GRepeat _ g => FRepeat (forget g)
  | GRepeat1 _ g => FRepeat1 (forget g)
  | GRepeatCount _ e g => FRepeatCount e (forget g)
  | GRepeatBetween _ e1 e2 g => FRepeatBetween e1 e2 (forget g)
  | GRepeatUntilLast _ e g => FRepeatUntilLast e (forget g)
  | GRepeatUntilSeq _ e g => FRepeatUntilSeq e (forget g)
  | GAccumUntil _ a b c vt g => FAccumUntil a b c vt (forget g)
  | GForEach _ e x g => FForEach e x (forget g)
  | GMaybe _ e g => FMaybe e (forget g)
  | GPeek _ g => FPeek (forget g)
  | GPeekNot _ g => FPeekNot (forget g)
  | GSlice _ e g => FSlice e (forget g)
  | GBits _ g => FBits (forget g)
  | GWithRelativeOffset _ a b g => FWithRelativeOffset a b (forget g)
  | GMap _ g e => FMap (forget g) e
  | GWhere _ g e s => FWhere (forget g) e s
  | GCompute _ e => FCompute e
  | GLet _ x e g => FLet x e (forget g)
  | GMatch _ e bs => FMatch e (map (fun b => match b with (p, g) => (p, forget g) end) bs)
  | GDynamic _ x d g => FDynamic x d (forget g)
  | GApply _ x => FApply x
  | GPos _ => FPos
  | GSkipRemainder => FSkipRemainder
  | GDecodeBytes _ e g => FDecodeBytes e (forget g)
  | GLetFormat _ g x h => FLetFormat (forget g) x (forget h)
  | GMonadSeq _ g h => FMonadSeq (forget g) (forget h)
  | GHint _ g => FHint (forget g)
  | GLiftedOption _ o => FLiftedOption (match o with Some g => Some (forget g) | None => None end)
  | GLetView _ x g => FLetView x (forget g)
  | GWithView _ v vf => FWithView v vf
  | GParseFromView _ v g => FParseFromView v (forget g)
  | GPhantom _ g => FPhantom (forget g)
  | GPermit _ g e => FPermit (forget g) e
  end.

(** ** Static bounds *)

(** src/codegen/typed_format.rs:889-899 [TypedExpr::bounds] *)
Fixpoint texpr_bounds (e : expr) : bounds :=
  match e with
  | EU _ n => bexact n
  | EArith AAdd a b => badd (texpr_bounds a) (texpr_bounds b)
  | EArith AMul a b => bmul (texpr_bounds a) (texpr_bounds b)
  | _ => bany
  end.

(** src/codegen/typed_format.rs:416-494 [TypedFormat::match_bounds]; the alignment 0,
    whose predecessor is an arithmetic overflow, is a panic *)
Fixpoint tmatch_bounds (f : tformat) : outcome bounds :=
  match f with
  | GCall _ _ _ _ def => tmatch_bounds def
  | GDecodeBytes _ _ _ | GParseFromView _ _ _ | GCompute _ _ | GPeek _ _ | GPeekNot _ _ | GEndOfInput | GPos _ | GFail => Val (bexact 0)
  | GAlign n => if N.eqb n 0 then Panic else Val (bnew 0 (n - 1))
  | GByte _ => Val (bexact 1)
  | GVariant _ _ g => tmatch_bounds g
  | GUnion _ fs | GUnionNondet _ fs => obind (omapM tmatch_bounds fs) (reduce_unwrap bunion)
  | GSequence _ fs | GTuple _ fs => omap (reduce_or0 badd) (omapM tmatch_bounds fs)
  | GRepeatCount _ e g => omap (fun b => bmul b (texpr_bounds e)) (tmatch_bounds g)
  | GRepeatBetween _ e1 e2 g => omap (fun b => bmul b (bunion (texpr_bounds e1) (texpr_bounds e2))) (tmatch_bounds g)
  | GRepeat1 _ g | GRepeatUntilLast _ _ g => omap (fun b => bmul b (bat_least 1)) (tmatch_bounds g)
  | GRepeat _ _ | GRepeatUntilSeq _ _ _ | GAccumUntil _ _ _ _ _ _ | GForEach _ _ _ _ => Val bany
  | GMaybe _ _ g => omap (bunion (bexact 0)) (tmatch_bounds g)
  | GSkipRemainder => Val bany
  | GSlice _ e _ => Val (texpr_bounds e)
  | GBits _ g => omap bits_to_bytes (tmatch_bounds g)
  | GWithRelativeOffset _ _ _ _ => Val (bexact 0)
  | GMap _ g _ | GWhere _ g _ _ | GDynamic _ _ _ g | GLet _ _ _ g | GLetView _ _ g => tmatch_bounds g
  | GMatch _ _ bs => obind (omapM (fun b => match b with (_, g) => tmatch_bounds g end) bs) (reduce_unwrap bunion)
  | GApply _ _ => Val (bat_least 1)
  | GLetFormat _ g _ h | GMonadSeq _ g h => obind (tmatch_bounds g) (fun b => omap (badd b) (tmatch_bounds h))
  | GPermit _ g _ | GHint _ g => tmatch_bounds g
  | GLiftedOption _ None => Val (bexact 0)
  | GLiftedOption _ (Some g) => tmatch_bounds g
  | GWithView _ _ _ | GPhantom _ _ => Val (bexact 0)
  end.
(** src/codegen/typed_format.rs:496-498 [TypedFormat::is_nullable] *)
Definition tis_nullable (f : tformat) : outcome bool := omap (fun b => N.eqb (bmin b) 0) (tmatch_bounds f).

(** src/codegen/typed_format.rs:331-414 [TypedFormat::lookahead_bounds] *)
Fixpoint tlookahead_bounds (f : tformat) : outcome bounds :=
  match f with
  | GCall _ _ _ _ def => tlookahead_bounds def
  | GDecodeBytes _ _ _ | GSkipRemainder | GPos _ | GCompute _ _ | GEndOfInput | GParseFromView _ _ _ | GFail => Val (bexact 0)
  | GPeek _ g | GPeekNot _ g => tlookahead_bounds g
  | GAlign n => if N.eqb n 0 then Panic else Val (bnew 0 (n - 1))
  | GByte _ => Val (bexact 1)
  | GVariant _ _ g => tlookahead_bounds g
  | GUnion _ fs | GUnionNondet _ fs => obind (omapM tlookahead_bounds fs) (reduce_unwrap bunion)
  | GTuple _ fs | GSequence _ fs => omap (reduce_or0 badd) (omapM tlookahead_bounds fs)
  | GRepeatCount _ e g => omap (fun b => bmul b (texpr_bounds e)) (tlookahead_bounds g)
  | GRepeatBetween _ e1 e2 g => omap (fun b => bmul b (bunion (texpr_bounds e1) (texpr_bounds e2))) (tlookahead_bounds g)
  | GRepeat1 _ g | GRepeatUntilLast _ _ g => omap (fun b => bmul b (bat_least 1)) (tlookahead_bounds g)
  | GRepeat _ _ | GRepeatUntilSeq _ _ _ | GAccumUntil _ _ _ _ _ _ | GForEach _ _ _ _ => Val bany
  | GMaybe _ _ g => omap (bunion (bexact 0)) (tlookahead_bounds g)
  | GSlice _ e _ => Val (texpr_bounds e)
  | GBits _ g => omap bits_to_bytes (tlookahead_bounds g)
  | GWithRelativeOffset _ _ _ _ => Val bany
  | GMap _ g _ | GWhere _ g _ _ | GDynamic _ _ _ g | GLet _ _ _ g | GLetView _ _ g => tlookahead_bounds g
  | GMatch _ _ bs => obind (omapM (fun b => match b with (_, g) => tlookahead_bounds g end) bs) (reduce_unwrap bunion)
  | GApply _ _ => Val (bat_least 1)
  | GLetFormat _ g _ h | GMonadSeq _ g h =>
    obind (tlookahead_bounds g) (fun lg => obind (tmatch_bounds g) (fun mg =>
      omap (fun lh => bunion lg (badd mg lh)) (tlookahead_bounds h)))
  | GPermit _ g _ | GHint _ g => tlookahead_bounds g
  | GLiftedOption _ None => Val (bexact 0)
  | GLiftedOption _ (Some g) => tlookahead_bounds g
  | GWithView _ _ _ | GPhantom _ _ => Val (bexact 0)
  end.

(** ** Lookahead *)

(** src/lib.rs:1363-1366 [enum MaybeTyped], for a format and for a slice of formats *)
Inductive mformat := MU (f : format) | MT' (f : tformat).
Inductive mformats := MUs (fs : list format) | MTs (fs : list tformat).
(** src/lib.rs:1386-1398 [enum Next] *)
Inductive tnext :=
| XEmpty
| XUnion (a b : tnext)
| XCat (f : mformat) (n : tnext)
| XSequence (fs : mformats) (n : tnext)
| XRepeat (f : mformat) (n : tnext)
| XRepeatCount (k : N) (f : mformat) (n : tnext)
| XRepeatMax (k : N) (f : mformat) (n : tnext)
| XRepeatBetween (k m : N) (f : mformat) (n : tnext)
| XSlice (k : N) (inside n : tnext)
| XPeek (a b : tnext)
| XPeekNot (a b : tnext).

(** src/lib.rs:1402-1530: [MatchTreeStep] and its operations, as in MatchTreeModel *)
Record xstep := XStep { x_acc : bool; x_br : list (byteset * tnext) }.
Definition x_reject : xstep := XStep false [].
Definition x_accept : xstep := XStep true [].
Definition x_branch (bs : byteset) (n : tnext) : xstep := XStep false [(bs, n)].
Definition xunion_branch (s : xstep) (b : byteset * tnext) : xstep :=
  XStep (x_acc s) (add_branch (fun n0 => XUnion n0 (snd b)) (x_br s) (fst b) (snd b)).
Definition x_union (s other : xstep) : xstep :=
  fold_left xunion_branch (x_br other) (XStep (x_acc s || x_acc other) (x_br s)).
Definition x_peek (s peek : xstep) : xstep :=
  if x_acc peek then s
  else if x_acc s then XStep (x_acc peek) (x_br peek)
  else XStep (x_acc s)
    (flat_map (fun b1 => flat_map (fun b2 =>
       let bs := ByteSetModel.intersection (fst b1) (fst b2) in
       if ByteSetModel.is_empty bs then [] else [(bs, XPeek (snd b1) (snd b2))]) (x_br peek)) (x_br s)).
Definition x_peek_not (s peek : xstep) : xstep :=
  if x_acc peek then XStep false []
  else XStep (x_acc s)
    (flat_map (fun b1 =>
       flat_map (fun b2 =>
         let common := ByteSetModel.intersection (fst b1) (fst b2) in
         if ByteSetModel.is_empty common then [] else [(common, XPeekNot (snd b1) (snd b2))]) (x_br peek)
       ++ let diff := fold_left (fun d b2 => ByteSetModel.difference d (fst b2)) (x_br peek) (fst b1) in
          if ByteSetModel.is_empty diff then [] else [(diff, snd b1)]) (x_br s)).

Section FromTyped.
Context (m : fmodule).
(** src/lib.rs:1632-1723 [from_next], 1608-1629 [from_slice], 1968-2133
    [from_format] (as in MatchTreeModel, with continuations that may be typed) and
    1736-1964 [from_gt_format]. Running out of [fuel] (a stack overflow) is a panic. *)
Fixpoint xfrom_next (fuel : nat) (n : tnext) {struct fuel} : outcome xstep :=
  match fuel with
  | O => Panic
  | S fuel =>
    let mt f n := match f with MU f => xfrom_format fuel f n | MT' f => xfrom_gt fuel f n end in
    match n with
    | XEmpty => Val x_accept
    | XUnion a b => obind (xfrom_next fuel a) (fun t1 => omap (x_union t1) (xfrom_next fuel b))
    | XCat f n' => mt f n'
    | XSequence (MUs []) n' | XSequence (MTs []) n' => xfrom_next fuel n'
    | XSequence (MUs (f :: fs)) n' => xfrom_format fuel f (XSequence (MUs fs) n')
    | XSequence (MTs (f :: fs)) n' => xfrom_gt fuel f (XSequence (MTs fs) n')
    | XRepeat a n0 => obind (xfrom_next fuel n0) (fun t => omap (x_union t) (mt a n))
    | XRepeatBetween min max a n0 =>
      if N.eqb min max then Panic
      else if N.ltb 0 min then if N.eqb max 0 then Panic else mt a (XRepeatBetween (min - 1) (max - 1) a n0)
      else xfrom_next fuel (XRepeatMax max a n0)
    | XRepeatMax k a n0 =>
      if N.eqb k 0 then xfrom_next fuel n0
      else obind (xfrom_next fuel n0) (fun t => omap (x_union t) (mt a (XRepeatMax (k - 1) a n0)))
    | XRepeatCount k a n0 =>
      if N.ltb 0 k then mt a (XRepeatCount (k - 1) a n0) else xfrom_next fuel n0
    | XSlice k inside n0 => xfrom_slice fuel k inside n0
    | XPeek a b => obind (xfrom_next fuel a) (fun t1 => omap (x_peek t1) (xfrom_next fuel b))
    | XPeekNot a b => obind (xfrom_next fuel a) (fun t1 => omap (x_peek_not t1) (xfrom_next fuel b))
    end
  end
with xfrom_slice (fuel : nat) (k : N) (inside n : tnext) {struct fuel} : outcome xstep :=
  match fuel with
  | O => Panic
  | S fuel =>
    if N.ltb 0 k then
      omap (fun t =>
        match x_br t with
        | [] => XStep false [(ByteSetModel.full, XSlice (k - 1) XEmpty n)]
        | l => XStep false (map (fun b => (fst b, XSlice (k - 1) (snd b) n)) l)
        end) (xfrom_next fuel inside)
    else xfrom_next fuel n
  end
with xfrom_format (fuel : nat) (f : format) (n : tnext) {struct fuel} : outcome xstep :=
  match fuel with
  | O => Panic
  | S fuel =>
    let from_repeat_count k a n := if N.ltb 0 k then xfrom_format fuel a (XRepeatCount (k - 1) (MU a) n) else xfrom_next fuel n in
    match f with
    | FItemVar level _ _ => match get_item m level with Some it => xfrom_format fuel (it_format it) n | None => Panic end
    | FPhantom _ => Val x_accept
    | FFail => Val x_reject
    | FEndOfInput => Val x_accept
    | FSkipRemainder => Val x_accept
    | FAlign k => if N.eqb k 0 then Panic else if N.eqb k 1 then xfrom_next fuel n else Val x_accept
    | FDecodeBytes _ _ | FParseFromView _ _ => xfrom_next fuel n
    | FByte bs => Val (x_branch bs n)
    | FVariant _ g => xfrom_format fuel g n
    | FUnion fs | FUnionNondet fs =>
      ofoldM (fun t g => omap (x_union t) (xfrom_format fuel g n)) x_reject fs
    | FSequence fs | FTuple fs =>
      match fs with
      | [] => xfrom_next fuel n
      | g :: gs => xfrom_format fuel g (XSequence (MUs gs) n)
      end
    | FRepeat a => obind (xfrom_next fuel n) (fun t => omap (x_union t) (xfrom_format fuel a (XRepeat (MU a) n)))
    | FForEach _ _ a =>
      obind (xfrom_next fuel n) (fun t => obind (match_bounds (item_bounds m) a) (fun b =>
        if N.eqb (bmin b) 0 then
          match bmax b with
          | Some 0%N => Val t
          | _ => Val x_accept
          end
        else omap (x_union t) (xfrom_format fuel a (XRepeat (MU a) n))))
    | FRepeat1 a => xfrom_format fuel a (XRepeat (MU a) n)
    | FRepeatCount e a =>
      obind (expr_bounds e) (fun b =>
        match as_exact b with
        | Some k => from_repeat_count k a n
        | None => from_repeat_count (bmin b) a XEmpty
        end)
    | FRepeatBetween e1 e2 a =>
      obind (expr_bounds e1) (fun b1 => obind (expr_bounds e2) (fun b2 =>
        match as_exact b1, as_exact b2 with
        | Some min, Some max =>
          match N.compare min max with
          | Lt => if N.ltb 0 min then xfrom_format fuel a (XRepeatBetween (min - 1) (max - 1) (MU a) n)
                  else xfrom_next fuel (XRepeatMax max (MU a) n)
          | Eq => from_repeat_count min a n
          | Gt => Panic
          end
        | _, _ => Panic
        end))
    | FRepeatUntilLast _ _ | FRepeatUntilSeq _ _ | FAccumUntil _ _ _ _ _ => Val x_accept
    | FMaybe _ a => obind (xfrom_format fuel a n) (fun t => omap (x_union t) (xfrom_next fuel n))
    | FPeek a => obind (xfrom_next fuel n) (fun t => omap (x_peek t) (xfrom_format fuel a XEmpty))
    | FPeekNot a => obind (xfrom_next fuel n) (fun t => omap (x_peek_not t) (xfrom_format fuel a XEmpty))
    | FSlice e a =>
      obind (expr_bounds e) (fun b =>
        match as_exact b with
        | Some k => xfrom_slice fuel k (XCat (MU a) XEmpty) n
        | None => xfrom_slice fuel (bmin b) (XCat (MU a) XEmpty) XEmpty
        end)
    | FBits _ | FWithRelativeOffset _ _ _ => Val x_accept
    | FMap g _ | FWhere g _ _ => xfrom_format fuel g n
    | FPos | FCompute _ => xfrom_next fuel n
    | FLet _ _ g | FLetView _ g => xfrom_format fuel g n
    | FPermit g _ => xfrom_format fuel g n
    | FMatch _ bs =>
      ofoldM (fun t (b : pattern * format) => omap (x_union t) (xfrom_format fuel (snd b) n)) x_reject bs
    | FDynamic _ _ g => xfrom_format fuel g n
    | FApply _ => Val x_accept
    | FMonadSeq g h | FLetFormat g _ h => xfrom_format fuel g (XCat (MU h) n)
    | FHint g => xfrom_format fuel g n
    | FLiftedOption None => xfrom_next fuel n
    | FLiftedOption (Some g) => xfrom_format fuel g n
    | FWithView _ _ => xfrom_next fuel n
    end
  end
with xfrom_gt (fuel : nat) (f : tformat) (n : tnext) {struct fuel} : outcome xstep :=
  match fuel with
  | O => Panic
  | S fuel =>
    let from_repeat_count k a n := if N.ltb 0 k then xfrom_gt fuel a (XRepeatCount (k - 1) (MT' a) n) else xfrom_next fuel n in
    match f with
    | GCall _ level _ _ _ => match get_item m level with Some it => xfrom_format fuel (it_format it) n | None => Panic end
    | GFail => Val x_reject
    | GEndOfInput | GAlign _ | GPhantom _ _ | GSkipRemainder => Val x_accept
    | GByte bs => Val (x_branch bs n)
    | GVariant _ _ g => xfrom_gt fuel g n
    | GUnion _ fs | GUnionNondet _ fs =>
      ofoldM (fun t g => omap (x_union t) (xfrom_gt fuel g n)) x_reject fs
    | GSequence _ fs | GTuple _ fs =>
      match fs with
      | [] => xfrom_next fuel n
      | g :: gs => xfrom_gt fuel g (XSequence (MTs gs) n)
      end
    | GRepeat _ a => obind (xfrom_next fuel n) (fun t => omap (x_union t) (xfrom_gt fuel a (XRepeat (MT' a) n)))
    | GForEach _ _ _ a =>
      obind (xfrom_next fuel n) (fun t => obind (tmatch_bounds a) (fun b =>
        if N.eqb (bmin b) 0 then
          match bmax b with
          | Some 0%N => Val t
          | _ => Val x_accept
          end
        else omap (x_union t) (xfrom_gt fuel a (XRepeat (MT' a) n))))
    | GRepeat1 _ a => xfrom_gt fuel a (XRepeat (MT' a) n)
    | GRepeatCount _ e a =>
      match as_exact (texpr_bounds e) with
      | Some k => from_repeat_count k a n
      | None => from_repeat_count (bmin (texpr_bounds e)) a XEmpty
      end
    | GRepeatBetween _ e1 e2 a =>
      match as_exact (texpr_bounds e1), as_exact (texpr_bounds e2) with
      | Some min, Some max =>
        match N.compare min max with
        | Lt => if N.ltb 0 min then xfrom_gt fuel a (XRepeatBetween (min - 1) (max - 1) (MT' a) n)
                else xfrom_next fuel (XRepeatMax max (MT' a) n)
        | Eq => from_repeat_count min a n
        | Gt => Panic
        end
      | _, _ => Panic
      end
    | GRepeatUntilLast _ _ _ | GRepeatUntilSeq _ _ _ | GAccumUntil _ _ _ _ _ _ => Val x_accept
    | GMaybe _ _ a => obind (xfrom_gt fuel a n) (fun some => omap (fun none => x_union none some) (xfrom_next fuel n))
    | GLiftedOption _ None => xfrom_next fuel n
    | GLiftedOption _ (Some g) => xfrom_gt fuel g n
    | GPeek _ a => obind (xfrom_next fuel n) (fun t => omap (x_peek t) (xfrom_gt fuel a XEmpty))
    | GPeekNot _ a => obind (xfrom_next fuel n) (fun t => omap (x_peek_not t) (xfrom_gt fuel a XEmpty))
    | GSlice _ e a =>
      match as_exact (texpr_bounds e) with
      | Some k => xfrom_slice fuel k (XCat (MT' a) XEmpty) n
      | None => xfrom_slice fuel (bmin (texpr_bounds e)) (XCat (MT' a) XEmpty) XEmpty
      end
    | GBits _ _ | GWithRelativeOffset _ _ _ _ => Val x_accept
    | GMap _ g _ | GWhere _ g _ _ => xfrom_gt fuel g n
    | GDecodeBytes _ _ _ | GParseFromView _ _ _ | GCompute _ _ => xfrom_next fuel n
    | GPos _ => xfrom_next fuel n
    | GLet _ _ _ g | GLetView _ _ g => xfrom_gt fuel g n
    | GMatch _ _ bs =>
      ofoldM (fun t (b : pattern * tformat) => omap (x_union t) (xfrom_gt fuel (snd b) n)) x_reject bs
    | GDynamic _ _ _ g => xfrom_gt fuel g n
    | GApply _ _ => Val x_accept
    | GMonadSeq _ g h | GLetFormat _ g _ h => xfrom_gt fuel g (XCat (MT' h) n)
    | GHint _ g | GPermit _ g _ => xfrom_gt fuel g n
    | GWithView _ _ _ => xfrom_next fuel n
    end
  end.

(** src/lib.rs:2160-2307: [MatchTreeLevel] and [MatchTree::build], as in
    MatchTreeModel (hash sets in insertion order) *)
Definition xbranch := list (nat * tnext).
Record xlevel := XLevel { xl_acc : option nat; xl_br : list (byteset * xbranch) }.
Definition xmerge_branch (ix : nat) (l : list (byteset * xbranch)) (b : byteset * tnext) : list (byteset * xbranch) :=
  add_branch (fun nexts => nexts ++ [(ix, snd b)]) l (fst b) [(ix, snd b)].
Definition xmerge_step (lv : xlevel) (ix : nat) (s : xstep) : option xlevel :=
  let l := fold_left (xmerge_branch ix) (x_br s) (xl_br lv) in
  if x_acc s then match merge_accept (xl_acc lv) ix with Some a => Some (XLevel a l) | None => None end
  else Some (XLevel (xl_acc lv) l).
Fixpoint xaccepts_loop (acc : option nat) (nexts : xbranch) : option (option nat) :=
  match nexts with
  | [] => Some acc
  | (i, _) :: r => match merge_accept acc i with Some acc' => xaccepts_loop acc' r | None => None end
  end.
Definition xaccepts (nexts : xbranch) : option mtree :=
  option_map (fun a => MT a []) (xaccepts_loop None nexts).
Fixpoint xmerge_all (fuel : nat) (lv : xlevel) (nexts : xbranch) : outcome (option xlevel) :=
  match nexts with
  | [] => Val (Some lv)
  | (i, n) :: r =>
    obind (xfrom_next fuel n) (fun s =>
      match xmerge_step lv i s with
      | Some lv' => xmerge_all fuel lv' r
      | None => Val None
      end)
  end.
Fixpoint xgrow_branches (g : xbranch -> outcome (option mtree)) (l : list (byteset * xbranch)) : outcome (option (list (byteset * mtree))) :=
  match l with
  | [] => Val (Some [])
  | (bs, nexts) :: r =>
    obind (g nexts) (fun o =>
      match o with
      | None => Val None
      | Some t => omap (option_map (cons (bs, t))) (xgrow_branches g r)
      end)
  end.
Fixpoint xgrow (fuel depth : nat) (nexts : xbranch) : outcome (option mtree) :=
  match xaccepts nexts with
  | Some t => Val (Some t)
  | None =>
    match depth with
    | O => Val None
    | S depth =>
      obind (xmerge_all fuel (XLevel None []) nexts) (fun o =>
        match o with
        | None => Val None
        | Some lv => omap (option_map (MT (xl_acc lv))) (xgrow_branches (xgrow fuel depth) (xl_br lv))
        end)
    end
  end.
(** src/lib.rs:2300-2307 [build]: the alternatives themselves are untyped *)
Definition xbuild (fuel : nat) (fs : list format) (n : tnext) : outcome (option mtree) :=
  xgrow fuel max_depth (map (fun p => (fst p, XCat (MU (snd p)) n)) (enumerate 0 fs)).
End FromTyped.

(** ** The compiler *)

(** src/codegen/typed_decoder.rs:286-291 [struct GTCompiler]. The decoders are
    those of the interpreter: their types are dropped, and [TypedDecoder::Hint] is
    the decoder inside, as there (so a variant around a hint around a failure is a
    failure here, where the code has the variant of the hint of the failure). *)
Record tstate := TS { ts_decs : list decoder; ts_map : list (nat * tnext * nat); ts_queue : list (tformat * tnext * nat) }.
Definition tcomp (A : Type) := tstate -> cres (A * tstate).
Definition tret {A} (a : A) : tcomp A := fun st => COk (a, st).
Definition tfail {A} : tcomp A := fun _ => CErr.
Definition tbind {A B} (x : tcomp A) (f : A -> tcomp B) : tcomp B :=
  fun st => match x st with COk (a, st') => f a st' | CErr => CErr | CPanic => CPanic end.
Definition tmap {A B} (f : A -> B) (x : tcomp A) : tcomp B := tbind x (fun a => tret (f a)).
Definition tlift {A} (x : outcome A) : tcomp A := match x with Val a => tret a | Panic => fun _ => CPanic end.
Section TMapM.
Context {A B : Type} (f : A -> tcomp B).
Fixpoint tmapM (l : list A) : tcomp (list B) :=
  match l with
  | [] => tret []
  | x :: r => tbind (f x) (fun y => tmap (cons y) (tmapM r))
  end.
End TMapM.
Section TTuple.
Context (f : tformat -> tnext -> tcomp decoder).
(** src/codegen/typed_decoder.rs:470-480, 483-493 *)
Fixpoint ttuple (fs : list tformat) (n : tnext) : tcomp (list decoder) :=
  match fs with
  | [] => tret []
  | g :: gs => tbind (f g (XSequence (MTs gs) n)) (fun d => tmap (cons d) (ttuple gs n))
  end.
End TTuple.

(** [TypedExpr::get_type] is [None] (typed_format.rs:906-908) *)
Definition is_lambda (e : expr) : bool := match e with ELambda _ _ => true | _ => false end.

Section GTCompiler.
(** As for the interpreter's compiler: the construction of lookahead trees (for
    untyped and for typed continuations), and the equality of the decoder map. *)
Context (bld : fmodule -> list format -> next -> outcome (option mtree)).
Context (tbld : fmodule -> list format -> tnext -> outcome (option mtree)).
Context (teqb : tnext -> tnext -> bool).
Context (m : fmodule).

(** src/codegen/typed_decoder.rs:346-357 [queue_compile] *)
Definition tqueue_compile (f : tformat) (n : tnext) : tcomp nat :=
  fun st => COk (length (ts_decs st),
    TS (ts_decs st ++ [DFail]) (ts_map st) ((f, n, length (ts_decs st)) :: ts_queue st)).
(** src/codegen/typed_decoder.rs:405-411 *)
Fixpoint tmap_get (level : nat) (n : tnext) (l : list (nat * tnext * nat)) : option nat :=
  match l with
  | [] => None
  | (k, n', i) :: r => if Nat.eqb k level && teqb n' n then Some i else tmap_get level n r
  end.
Definition tmap_insert (level : nat) (n : tnext) (i : nat) : tcomp unit :=
  fun st => COk (tt, TS (ts_decs st) ((level, n, i) :: ts_map st) (ts_queue st)).
Definition titem_decoder (level : nat) (f : tformat) (n : tnext) : tcomp nat :=
  fun st =>
    match tmap_get level n (ts_map st) with
    | Some i => COk (i, st)
    | None => tbind (tqueue_compile f n) (fun i => tmap (fun _ => i) (tmap_insert level n i)) st
    end.
Definition tbuild_or_err (fs : list format) (n : tnext) : tcomp mtree :=
  tbind (tlift (tbld m fs n)) (fun o => match o with Some t => tret t | None => tfail end).
Definition tcheck_nullable (a : tformat) : tcomp unit :=
  tbind (tlift (tis_nullable a)) (fun b : bool => if b then tfail else tret tt).
(** src/codegen/typed_decoder.rs:628-640, [MAX_LOOKAHEAD] *)
Definition tcheck_lookahead (a : tformat) : tcomp unit :=
  tbind (tlift (tlookahead_bounds a)) (fun b =>
    match bmax b with
    | None => tfail
    | Some k => if N.ltb 1024 k then tfail else tret tt
    end).

(** src/codegen/typed_decoder.rs:364-773 [compile_gt_format]. The panic for a
    position whose type is not a number (672-674) is not modelled: it depends on
    the types; nor is that of [TypedFormat::tuple] (typed_format.rs:503-505), which
    concerns only [Fail], refused before as nullable. *)
Fixpoint tcompile_format (f : tformat) (n : tnext) {struct f} : tcomp decoder :=
  match f with
  | GCall _ level args views def =>
    if existsb (fun a => is_lambda (snd a)) args then fun _ => CPanic
    else match get_item m level with
    | None => fun _ => CPanic
    | Some it =>
      tbind (tlift (depends_on_next bld m (item_depends bld m) (it_format it))) (fun dep : bool =>
      let n' := if dep then n else XEmpty in
      tmap (fun i => DCall i args views) (titem_decoder level def n'))
    end
  | GPhantom _ a => tmap (fun _ => DPhantom) (tcompile_format a XEmpty)
  | GDecodeBytes _ e a => tmap (DDecodeBytes e) (tcompile_format a XEmpty)
  | GParseFromView _ v a => tmap (DParseFromView v) (tcompile_format a XEmpty)
  | GFail => tret DFail
  | GEndOfInput => tret DEndOfInput
  | GSkipRemainder => tret DSkipRemainder
  | GAlign k => tret (DAlign k)
  | GByte bs => tret (DByte bs)
  | GVariant _ l a => tmap (fun d => match d with DFail => DFail | _ => DVariant l d end) (tcompile_format a n)
  | GUnion _ fs =>
    tbind (tmapM (fun g => tcompile_format g n) fs) (fun ds => tmap (fun t => DBranch t ds) (tbuild_or_err (map forget fs) n))
  | GUnionNondet _ fs => tmap DParallel (tmapM (fun g => tcompile_format g n) fs)
  | GTuple _ fs => tmap DTuple (ttuple tcompile_format fs n)
  | GSequence _ fs => tmap DSequence (ttuple tcompile_format fs n)
  | GRepeat t a =>
    tbind (tcheck_nullable a) (fun _ => tbind (tcompile_format a (XRepeat (MT' a) n)) (fun d =>
      tmap (fun t => DWhile t d) (tbuild_or_err [forget (GTuple t [a; GRepeat t a]); FEmpty] n)))
  | GRepeat1 t a =>
    tbind (tcheck_nullable a) (fun _ => tbind (tcompile_format a (XRepeat (MT' a) n)) (fun d =>
      tmap (fun t => DUntil t d) (tbuild_or_err [FEmpty; forget (GTuple t [a; GRepeat t a])] n)))
  | GRepeatCount _ e a => tmap (DRepeatCount e) (tcompile_format a (XRepeat (MT' a) n))
  | GRepeatBetween t e1 e2 a =>
    match as_exact (texpr_bounds e1), as_exact (texpr_bounds e2) with
    | Some min, Some max =>
      tbind (tcompile_format a (XRepeatBetween (min - 1) (max - 1) (MT' a) n)) (fun d =>
        tmap (fun t => DRepeatBetween t e1 e2 d)
          (tbuild_or_err (map (fun k => forget (GRepeatCount t (EU B32 (as_u32 k)) a)) (nrange 0 (N.to_nat max + 1))) n))
    | _, _ => fun _ => CPanic
    end
  | GRepeatUntilLast _ e a => tmap (DRepeatUntilLast e) (tcompile_format a (XRepeat (MT' a) n))
  | GRepeatUntilSeq _ e a => tmap (DRepeatUntilSeq e) (tcompile_format a (XRepeat (MT' a) n))
  | GAccumUntil _ fd fu i _ a => tmap (DAccumUntil fd fu i) (tcompile_format a (XRepeat (MT' a) n))
  | GForEach _ e x a => tmap (DForEach e x) (tcompile_format a (XRepeat (MT' a) n))
  | GMaybe _ e a => tmap (DMaybe e) (tcompile_format a n)
  | GPeek _ a => tmap DPeek (tcompile_format a XEmpty)
  | GPeekNot _ a => tbind (tcheck_lookahead a) (fun _ => tmap DPeekNot (tcompile_format a XEmpty))
  | GSlice _ e a => tmap (DSlice e) (tcompile_format a XEmpty)
  | GBits _ a => tmap DBits (tcompile_format a XEmpty)
  | GWithRelativeOffset _ base off a => tmap (DWithRelativeOffset base off) (tcompile_format a XEmpty)
  | GMap _ a e => tmap (fun d => DMap d e) (tcompile_format a n)
  | GWhere _ a e s => tmap (fun d => DWhere d e s) (tcompile_format a n)
  | GCompute _ e => tret (DCompute e)
  | GPos _ => tret DPos
  | GLet _ x e a => tmap (DLet x e) (tcompile_format a n)
  | GLetView _ x a => tmap (DLetView x) (tcompile_format a n)
  | GMatch _ e bs =>
    tmap (DMatch e) (tmapM (fun b => match b with (p, g) => tmap (pair p) (tcompile_format g n) end) bs)
  | GDynamic _ x dy a => tmap (DDynamic x dy) (tcompile_format a n)
  | GApply _ x => tret (DApply x)
  | GLetFormat _ a x b =>
    tbind (tcompile_format a (XCat (MT' b) n)) (fun da => tmap (DLetFormat da x) (tcompile_format b n))
  | GMonadSeq _ a b =>
    tbind (tcompile_format a (XCat (MT' b) n)) (fun da => tmap (DMonadSeq da) (tcompile_format b n))
  | GHint _ a => tcompile_format a n
  | GLiftedOption _ None => tret (DLiftedOption None)
  | GLiftedOption _ (Some a) => tmap (fun d => DLiftedOption (Some d)) (tcompile_format a n)
  | GWithView _ v (VFCapture len) => tret (DCaptureBytes v len)
  | GWithView _ v (VFReadArray len k) => tret (DReadArray v len k)
  | GWithView _ v VFReify => tret (DReifyView v)
  | GPermit _ a e => tmap (fun d => DPermit d e) (tcompile_format a n)
  end.

(** src/codegen/typed_decoder.rs:338-343: the loop; [None] when [fuel] runs out *)
Fixpoint tcompile_loop (fuel : nat) (st : tstate) : option (cres tstate) :=
  match ts_queue st with
  | [] => Some (COk st)
  | (f, n, i) :: q =>
    match fuel with
    | O => None
    | S fuel =>
      match tcompile_format f n (TS (ts_decs st) (ts_map st) q) with
      | COk (d, st') => tcompile_loop fuel (TS (set_nth (ts_decs st') i d) (ts_map st') (ts_queue st'))
      | CErr => Some CErr
      | CPanic => Some CPanic
      end
    end
  end.
(** src/codegen/typed_decoder.rs:327-344 [compile_local_root]: a format without a
    type is [unreachable!]; [adhoc] says whether its type is an ad-hoc one *)
Definition compile_local_root (fuel : nat) (f : tformat) (is_extra adhoc : bool) (st : tstate) : option (cres tstate) :=
  match f with
  | GFail => Some CPanic
  | _ =>
    if is_extra && negb adhoc then Some (COk st)
    else match tqueue_compile f XEmpty st with
    | COk (_, st') => tcompile_loop fuel st'
    | CErr => Some CErr
    | CPanic => Some CPanic
    end
  end.
Fixpoint compile_extra (fuel : nat) (extra : list (bool * tformat)) (st : tstate) : option (cres tstate) :=
  match extra with
  | [] => Some (COk st)
  | (adhoc, f) :: r =>
    match compile_local_root fuel f true adhoc st with
    | Some (COk st') => compile_extra fuel r st'
    | x => x
    end
  end.
(** src/codegen/typed_decoder.rs:308-322 [compile_program] *)
Definition tcompile_program (fuel : nat) (f : tformat) (extra : list (bool * tformat)) : option (cres program) :=
  match compile_local_root fuel f false false (TS [] [] []) with
  | Some (COk st) =>
    match compile_extra fuel extra st with
    | Some (COk st') => Some (COk (ts_decs st'))
    | Some CErr => Some CErr
    | Some CPanic => Some CPanic
    | None => None
    end
  | Some CErr => Some CErr
  | Some CPanic => Some CPanic
  | None => None
  end.
End GTCompiler.

(** The lookahead construction with the elements of hash sets in insertion order
    and a given recursion limit. *)
Definition tbuild_exec (fuel : nat) (m : fmodule) (fs : list format) (n : tnext) : outcome (option mtree) := xbuild m fuel fs n.

(** ** Elaboration *)
Section Dress.
Context (m : fmodule).
(** The type of a node, here a function of the plain format at it (in the code it is
    that of the variable numbered for the node, see ElabModel). *)
Context (ty : format -> ann).
(** The typed format of a level, or [None] for a panic or a level too deep. *)
Context (lower : nat -> option tformat).
Section DressList.
Context {A B : Type} (g : A -> option B).
Fixpoint dress_list (l : list A) : option (list B) :=
  match l with
  | [] => Some []
  | a :: r => match g a, dress_list r with Some b, Some bs => Some (b :: bs) | _, _ => None end
  end.
End DressList.
Definition dmap {A B} (f : A -> B) (o : option A) : option B := option_map f o.
(** src/codegen/mod.rs:4250-4723 [elaborate_format], 4210-4248
    [elaborate_format_union]: a variant of a format without a type is left out of the
    alternatives. A variable for a format decoded at run time that is not bound (a
    panic, 4613-4615) is not checked, nor are the types of hints (4649-4693). *)
Fixpoint dress (f : format) {struct f} : option tformat :=
  match f with
  | FItemVar level args views =>
    match get_item m level, lower level with
    | Some it, Some def => Some (GCall (ty f) level (combine (it_args it) args) (combine (it_views it) views) def)
    | _, _ => None
    end
  | FFail => Some GFail
  | FEndOfInput => Some GEndOfInput
  | FAlign n => Some (GAlign n)
  | FByte bs => Some (GByte bs)
  | FVariant l g => dmap (GVariant (ty f) l) (dress g)
  | FUnion fs =>
    dmap (GUnion (ty f)) ((fix go (l : list format) : option (list tformat) :=
      match l with
      | [] => Some []
      | FVariant x g :: r =>
        match dress g, go r with
        | Some GFail, Some r' => Some r'
        | Some g', Some r' => Some (GVariant (ty f) x g' :: r')
        | _, _ => None
        end
      | g :: r => match dress g, go r with Some g', Some r' => Some (g' :: r') | _, _ => None end
      end) fs)
  | FUnionNondet fs =>
    dmap (GUnionNondet (ty f)) ((fix go (l : list format) : option (list tformat) :=
      match l with
      | [] => Some []
      | FVariant x g :: r =>
        match dress g, go r with
        | Some GFail, Some r' => Some r'
        | Some g', Some r' => Some (GVariant (ty f) x g' :: r')
        | _, _ => None
        end
      | g :: r => match dress g, go r with Some g', Some r' => Some (g' :: r') | _, _ => None end
      end) fs)
  | FTuple fs => dmap (GTuple (ty f)) (dress_list dress fs)
  | FSequence fs => match fs with [] => None | _ => dmap (GSequence (ty f)) (dress_list dress fs) end
  | FRepeat g => dmap (GRepeat (ty f)) (dress g)
  | FRepeat1 g => dmap (GRepeat1 (ty f)) (dress g)
  | FRepeatCount e g => dmap (GRepeatCount (ty f) e) (dress g)
  | FRepeatBetween e1 e2 g => dmap (GRepeatBetween (ty f) e1 e2) (dress g)
  | FRepeatUntilLast e g => dmap (GRepeatUntilLast (ty f) e) (dress g)
  | FRepeatUntilSeq e g => dmap (GRepeatUntilSeq (ty f) e) (dress g)
  | FAccumUntil a b c vt g => dmap (GAccumUntil (ty f) a b c vt) (dress g)
  | FForEach e x g => dmap (GForEach (ty f) e x) (dress g)
  | FMaybe e g => dmap (GMaybe (ty f) e) (dress g)
  | FPeek g => dmap (GPeek (ty f)) (dress g)
  | FPeekNot g => dmap (GPeekNot (ty f)) (dress g)
  | FSlice e g => dmap (GSlice (ty f) e) (dress g)
  | FBits g => dmap (GBits (ty f)) (dress g)
  | FWithRelativeOffset a b g => dmap (GWithRelativeOffset (ty f) a b) (dress g)
  | FMap g e => dmap (fun g' => GMap (ty f) g' e) (dress g)
  | FWhere g e s => dmap (fun g' => GWhere (ty f) g' e s) (dress g)
  | FCompute e => Some (GCompute (ty f) e)
  | FLet x e g => dmap (GLet (ty f) x e) (dress g)
  | FMatch e bs => dmap (GMatch (ty f) e) (dress_list (fun b => match b with (p, g) => dmap (pair p) (dress g) end) bs)
  | FDynamic x d g => dmap (GDynamic (ty f) x d) (dress g)
  | FApply x => Some (GApply (ty f) x)
  | FPos => Some (GPos (ty f))
  | FSkipRemainder => Some GSkipRemainder
  | FDecodeBytes e g => dmap (GDecodeBytes (ty f) e) (dress g)
  | FLetFormat g x h => match dress g, dress h with Some g', Some h' => Some (GLetFormat (ty f) g' x h') | _, _ => None end
  | FMonadSeq g h => match dress g, dress h with Some g', Some h' => Some (GMonadSeq (ty f) g' h') | _, _ => None end
  | FHint g => dmap (GHint (ty f)) (dress g)
  | FLiftedOption None => Some (GLiftedOption (ty f) None)
  | FLiftedOption (Some g) => dmap (fun g' => GLiftedOption (ty f) (Some g')) (dress g)
  | FLetView x g => dmap (GLetView (ty f) x) (dress g)
  | FWithView v vf => Some (GWithView (ty f) v vf)
  | FParseFromView v g => dmap (GParseFromView (ty f) v) (dress g)
  | FPhantom g => dmap (GPhantom (ty f)) (dress g)
  | FPermit g e => dmap (fun g' => GPermit (ty f) g' e) (dress g)
  end.
End Dress.
(** src/codegen/mod.rs:4279-4287: the format of a level is elaborated at its first
    call; [n] bounds the nesting of levels. *)
Fixpoint dress_level (m : fmodule) (ty : format -> ann) (n level : nat) : option tformat :=
  match n, get_item m level with
  | S n, Some it => dress m ty (dress_level m ty n) (it_format it)
  | _, _ => None
  end.
Definition dressed (m : fmodule) (ty : format -> ann) (n : nat) (f : format) : option tformat := dress m ty (dress_level m ty n) f.
