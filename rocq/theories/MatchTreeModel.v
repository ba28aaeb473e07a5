(** Model of the lookahead trees: src/lib.rs [Next], [MatchTreeStep],
    [MatchTreeLevel], [MatchTree]. Only the untyped half ([from_format]) is
    modelled here: the typed half ([from_gt_format]), which serves the code
    generator, is in TypedModel. *)
From Verif Require ByteSetModel.
From Verif Require Import Base BoundsModel DataModel NumericModel ValueModel FormatModel.
Open Scope nat_scope.

(** src/lib.rs:1386-1398 [enum Next]; every format reference is untyped *)
Inductive next :=
| NEmpty
| NUnion (a b : next)
| NCat (f : format) (n : next)
| NSequence (fs : list format) (n : next)
| NRepeat (f : format) (n : next)
| NRepeatCount (k : N) (f : format) (n : next)
| NRepeatMax (k : N) (f : format) (n : next)
| NRepeatBetween (k m : N) (f : format) (n : next)
| NSlice (k : N) (inside n : next)
| NPeek (a b : next)
| NPeekNot (a b : next).

(** src/lib.rs:1402-1405 [struct MatchTreeStep] *)
Record step := Step { s_acc : bool; s_br : list (byteset * next) }.
(** src/lib.rs:1426-1447 [reject], [accept], [branch] *)
Definition s_reject : step := Step false [].
Definition s_accept : step := Step true [].
Definition s_branch (bs : byteset) (n : next) : step := Step false [(bs, n)].

Section Split.
Context {T : Type} (upd : T -> T).
(** The loop shared by [union_branch] (lib.rs:1452-1463) and [merge_branch]
    (lib.rs:2184-2200): the branches rewritten in place, the bytes left over, and
    the branches to append at the end. *)
Fixpoint split_loop (l : list (byteset * T)) (bs : byteset) : list (byteset * T) * byteset * list (byteset * T) :=
  match l with
  | [] => ([], bs, [])
  | (bs0, t0) :: r =>
    let common := ByteSetModel.intersection bs0 bs in
    if ByteSetModel.is_empty common then
      let '(l', bs', ex) := split_loop r bs in ((bs0, t0) :: l', bs', ex)
    else
      let orig := ByteSetModel.difference bs0 bs in
      let '(l', bs', ex) := split_loop r (ByteSetModel.difference bs common) in
      ((common, upd t0) :: l', bs', if ByteSetModel.is_empty orig then ex else (orig, t0) :: ex)
  end.
Definition add_branch (l : list (byteset * T)) (bs : byteset) (fresh : T) : list (byteset * T) :=
  let '(l', bs', ex) := split_loop l bs in
  l' ++ (if ByteSetModel.is_empty bs' then [] else [(bs', fresh)]) ++ ex.
End Split.

(** src/lib.rs:1450-1468 [union_branch] *)
Definition union_branch (s : step) (b : byteset * next) : step :=
  Step (s_acc s) (add_branch (fun n0 => NUnion n0 (snd b)) (s_br s) (fst b) (snd b)).
(** src/lib.rs:1471-1477 [union] *)
Definition s_union (s other : step) : step :=
  fold_left union_branch (s_br other) (Step (s_acc s || s_acc other) (s_br s)).
(** src/lib.rs:1481-1503 [peek] *)
Definition s_peek (s peek : step) : step :=
  if s_acc peek then s
  else if s_acc s then Step (s_acc peek) (s_br peek)
  else Step (s_acc s)
    (flat_map (fun b1 => flat_map (fun b2 =>
       let bs := ByteSetModel.intersection (fst b1) (fst b2) in
       if ByteSetModel.is_empty bs then [] else [(bs, NPeek (snd b1) (snd b2))]) (s_br peek)) (s_br s)).
(** src/lib.rs:1507-1530 [peek_not] *)
Definition s_peek_not (s peek : step) : step :=
  if s_acc peek then Step false []
  else Step (s_acc s)
    (flat_map (fun b1 =>
       flat_map (fun b2 =>
         let common := ByteSetModel.intersection (fst b1) (fst b2) in
         if ByteSetModel.is_empty common then [] else [(common, NPeekNot (snd b1) (snd b2))]) (s_br peek)
       ++ let diff := fold_left (fun d b2 => ByteSetModel.difference d (fst b2)) (s_br peek) (fst b1) in
          if ByteSetModel.is_empty diff then [] else [(diff, snd b1)]) (s_br s)).

(** How much the lookahead may assume. [LReal] is the code. The others are the
    same algorithm made to give up (panic) where it is not known to cover
    everything. [LExact] and [LOpen] give up on the formats that the code marks
    with an unconditional [accept], on negative peeks, and on counts or sizes
    whose static bounds may be wrong; [LOpen] moreover gives up when it
    reaches the end of what it knows about the continuation ([Next::Empty]).
    [LWeak], used for what is peeked, takes acceptance to mean that anything may
    follow. They are not in the code: they serve to state when its lookahead is
    exact. *)
Inductive look := LReal | LExact | LOpen | LWeak.
(** No bit operator (whose static bounds may be wrong) in the expression. *)
Fixpoint no_bitopsb (e : expr) : bool :=
  match e with
  | EAs _ a | EUnary _ a => no_bitopsb a
  | EArith (AShl | AShr | ABitOr | ABitAnd) _ _ => false
  | EArith _ a b => no_bitopsb a && no_bitopsb b
  | _ => true
  end.

Section FromFormat.
Context (m : fmodule).
Definition known (lk : look) (e : expr) : outcome bounds :=
  match lk with LReal => expr_bounds e | _ => if no_bitopsb e then expr_bounds e else Panic end.
Definition approx (lk : look) (s : step) : outcome step := match lk with LReal => Val s | _ => Panic end.
Definition approx_weak (lk : look) (s : step) : outcome step := match lk with LReal | LWeak => Val s | _ => Panic end.
(** The end of a slice is known, whatever is known of what follows the slice. *)
Definition look_inside (lk : look) : look := match lk with LReal => LReal | _ => LExact end.
Definition look_peek (lk : look) : look := match lk with LReal => LReal | _ => LWeak end.
(** Where the code keeps only what is peeked, whose end is not the end of input. *)
Definition peeked (lk : look) (t peek : step) : outcome step :=
  match lk with
  | LExact => if s_acc t && negb (s_acc peek) then Panic else Val (s_peek t peek)
  | _ => Val (s_peek t peek)
  end.
Definition at_end (lk : look) : outcome step := match lk with LOpen => Panic | _ => Val s_accept end.

(** src/lib.rs:1632-1723 [from_next], 1968-2133 [from_format], with
    [from_sequential] 1533-1546, [from_repeat_count] 1549-1564,
    [from_repeat_between] 1571-1605, [from_slice] 1608-1629, [from_align]
    2143-2154. Running out of [fuel] (a stack overflow) is a panic. *)
Fixpoint from_next (lk : look) (fuel : nat) (n : next) {struct fuel} : outcome step :=
  match fuel with
  | O => Panic
  | S fuel =>
    match n with
    | NEmpty => at_end lk
    | NUnion a b => obind (from_next lk fuel a) (fun t1 => omap (s_union t1) (from_next lk fuel b))
    | NCat f n' => from_format lk fuel f n'
    | NSequence [] n' => from_next lk fuel n'
    | NSequence (f :: fs) n' => from_format lk fuel f (NSequence fs n')
    | NRepeat a n0 => obind (from_next lk fuel n0) (fun t => omap (s_union t) (from_format lk fuel a n))
    | NRepeatBetween min max a n0 =>
      if N.eqb min max then Panic
      else if N.ltb 0 min then if N.eqb max 0 then Panic else from_format lk fuel a (NRepeatBetween (min - 1) (max - 1) a n0)
      else from_next lk fuel (NRepeatMax max a n0)
    | NRepeatMax k a n0 =>
      if N.eqb k 0 then from_next lk fuel n0
      else obind (from_next lk fuel n0) (fun t => omap (s_union t) (from_format lk fuel a (NRepeatMax (k - 1) a n0)))
    | NRepeatCount k a n0 =>
      if N.ltb 0 k then from_format lk fuel a (NRepeatCount (k - 1) a n0) else from_next lk fuel n0
    | NSlice k inside n0 => from_slice lk fuel k inside n0
    | NPeek a b => obind (from_next lk fuel a) (fun t1 => obind (from_next (look_peek lk) fuel b) (peeked lk t1))
    | NPeekNot a b => obind (from_next lk fuel a) (fun t1 => obind (from_next lk fuel b) (fun t2 => approx lk (s_peek_not t1 t2)))
    end
  end
with from_slice (lk : look) (fuel : nat) (k : N) (inside n : next) {struct fuel} : outcome step :=
  match fuel with
  | O => Panic
  | S fuel =>
    if N.ltb 0 k then
      omap (fun t =>
        match s_br t with
        | [] => Step false [(ByteSetModel.full, NSlice (k - 1) NEmpty n)]
        | l => Step false (map (fun b => (fst b, NSlice (k - 1) (snd b) n)) l)
        end) (from_next (look_inside lk) fuel inside)
    else from_next lk fuel n
  end
with from_format (lk : look) (fuel : nat) (f : format) (n : next) {struct fuel} : outcome step :=
  match fuel with
  | O => Panic
  | S fuel =>
    let from_repeat_count k a n := if N.ltb 0 k then from_format lk fuel a (NRepeatCount (k - 1) a n) else from_next lk fuel n in
    match f with
    | FItemVar level _ _ => match get_item m level with Some it => from_format lk fuel (it_format it) n | None => Panic end
    | FPhantom _ => approx_weak lk s_accept
    | FFail => Val s_reject
    | FEndOfInput => Val s_accept
    | FSkipRemainder => approx_weak lk s_accept
    | FAlign k => if N.eqb k 0 then Panic else if N.eqb k 1 then from_next lk fuel n else approx_weak lk s_accept
    | FDecodeBytes _ _ | FParseFromView _ _ => from_next lk fuel n
    | FByte bs => Val (s_branch bs n)
    | FVariant _ g => from_format lk fuel g n
    | FUnion fs | FUnionNondet fs =>
      ofoldM (fun t g => omap (s_union t) (from_format lk fuel g n)) s_reject fs
    | FSequence fs | FTuple fs =>
      match fs with
      | [] => from_next lk fuel n
      | g :: gs => from_format lk fuel g (NSequence gs n)
      end
    | FRepeat a => obind (from_next lk fuel n) (fun t => omap (s_union t) (from_format lk fuel a (NRepeat a n)))
    | FForEach _ _ a =>
      obind (from_next lk fuel n) (fun t => obind (match_bounds (item_bounds m) a) (fun b =>
        if N.eqb (bmin b) 0 then
          match bmax b with
          | Some 0%N => approx lk t
          | _ => approx_weak lk s_accept
          end
        else omap (s_union t) (from_format lk fuel a (NRepeat a n))))
    | FRepeat1 a => from_format lk fuel a (NRepeat a n)
    | FRepeatCount e a =>
      obind (known lk e) (fun b =>
        match as_exact b with
        | Some k => from_repeat_count k a n
        | None => obind (from_repeat_count (bmin b) a NEmpty) (approx_weak lk)
        end)
    | FRepeatBetween e1 e2 a =>
      obind (known lk e1) (fun b1 => obind (known lk e2) (fun b2 =>
        match as_exact b1, as_exact b2 with
        | Some min, Some max =>
          match N.compare min max with
          | Lt => if N.ltb 0 min then from_format lk fuel a (NRepeatBetween (min - 1) (max - 1) a n)
                  else from_next lk fuel (NRepeatMax max a n)
          | Eq => from_repeat_count min a n
          | Gt => Panic
          end
        | _, _ => Panic
        end))
    | FRepeatUntilLast _ _ | FRepeatUntilSeq _ _ | FAccumUntil _ _ _ _ _ => approx_weak lk s_accept
    | FMaybe _ a => obind (from_format lk fuel a n) (fun t => omap (s_union t) (from_next lk fuel n))
    | FPeek a => obind (from_next lk fuel n) (fun t => obind (from_format (look_peek lk) fuel a NEmpty) (peeked lk t))
    | FPeekNot a => obind (from_next lk fuel n) (fun t => obind (from_format lk fuel a NEmpty) (fun p => approx lk (s_peek_not t p)))
    | FSlice e a =>
      obind (known lk e) (fun b =>
        match as_exact b with
        | Some k => from_slice lk fuel k (NCat a NEmpty) n
        | None => obind (from_slice lk fuel (bmin b) (NCat a NEmpty) NEmpty) (approx lk)
        end)
    | FBits _ | FWithRelativeOffset _ _ _ => approx_weak lk s_accept
    | FMap g _ | FWhere g _ _ => from_format lk fuel g n
    | FPos | FCompute _ => from_next lk fuel n
    | FLet _ _ g | FLetView _ g => from_format lk fuel g n
    | FPermit g _ => from_format lk fuel g n
    | FMatch _ bs =>
      ofoldM (fun t (b : pattern * format) => omap (s_union t) (from_format lk fuel (snd b) n)) s_reject bs
    | FDynamic _ _ g => from_format lk fuel g n
    | FApply _ => approx_weak lk s_accept
    | FMonadSeq g h | FLetFormat g _ h => from_format lk fuel g (NCat h n)
    | FHint g => from_format lk fuel g n
    | FLiftedOption None => from_next lk fuel n
    | FLiftedOption (Some g) => from_format lk fuel g n
    | FWithView _ _ => from_next lk fuel n
    end
  end.
End FromFormat.

(** ** Levels and trees *)

(** src/lib.rs:1415 [LevelBranch]: a hash set, as a list of its elements *)
Definition lbranch := list (nat * next).
(** src/lib.rs:1409-1412 [struct MatchTreeLevel] *)
Record level := Level { l_acc : option nat; l_br : list (byteset * lbranch) }.
(** src/lib.rs:1419-1422 [struct MatchTree] *)
Inductive mtree := MT (acc : option nat) (branches : list (byteset * mtree)).

(** src/lib.rs:2169-2178 [merge_accept] *)
Definition merge_accept (acc : option nat) (ix : nat) : option (option nat) :=
  match acc with
  | None => Some (Some ix)
  | Some i => if Nat.eqb i ix then Some acc else None
  end.
(** src/lib.rs:2181-2210 [merge_branch] *)
Definition merge_branch (ix : nat) (l : list (byteset * lbranch)) (b : byteset * next) : list (byteset * lbranch) :=
  add_branch (fun nexts => nexts ++ [(ix, snd b)]) l (fst b) [(ix, snd b)].
(** src/lib.rs:2213-2225 [merge_step] *)
Definition merge_step (lv : level) (ix : nat) (s : step) : option level :=
  let l := fold_left (merge_branch ix) (s_br s) (l_br lv) in
  if s_acc s then match merge_accept (l_acc lv) ix with Some a => Some (Level a l) | None => None end
  else Some (Level (l_acc lv) l).
(** src/lib.rs:2233-2242 [accepts] *)
Fixpoint accepts_loop (acc : option nat) (nexts : lbranch) : option (option nat) :=
  match nexts with
  | [] => Some acc
  | (i, _) :: r => match merge_accept acc i with Some acc' => accepts_loop acc' r | None => None end
  end.
Definition accepts (nexts : lbranch) : option mtree :=
  option_map (fun a => MT a []) (accepts_loop None nexts).

Section Grow.
Context (lk : look) (m : fmodule).
(** src/lib.rs:2258-2261, the loop of [grow] *)
Fixpoint merge_all (fuel : nat) (lv : level) (nexts : lbranch) : outcome (option level) :=
  match nexts with
  | [] => Val (Some lv)
  | (i, n) :: r =>
    obind (from_next m lk fuel n) (fun s =>
      match merge_step lv i s with
      | Some lv' => merge_all fuel lv' r
      | None => Val None
      end)
  end.
(** src/lib.rs:2251-2274 [grow], for the order in which the elements of the hash
    set were inserted; [fuel] is that of [from_next]. That order is sorted by
    index, as the code requires. *)
Fixpoint grow_branches (g : lbranch -> outcome (option mtree)) (l : list (byteset * lbranch)) : outcome (option (list (byteset * mtree))) :=
  match l with
  | [] => Val (Some [])
  | (bs, nexts) :: r =>
    obind (g nexts) (fun o =>
      match o with
      | None => Val None
      | Some t => omap (option_map (cons (bs, t))) (grow_branches g r)
      end)
  end.
Fixpoint grow (fuel depth : nat) (nexts : lbranch) : outcome (option mtree) :=
  match accepts nexts with
  | Some t => Val (Some t)
  | None =>
    match depth with
    | O => Val None
    | S depth =>
      obind (merge_all fuel (Level None []) nexts) (fun o =>
        match o with
        | None => Val None
        | Some lv => omap (option_map (MT (l_acc lv))) (grow_branches (grow fuel depth) (l_br lv))
        end)
    end
  end.
(** src/lib.rs:2300-2307 [build]: [MAX_DEPTH] is 80 *)
Fixpoint enumerate {A} (i : nat) (l : list A) : list (nat * A) :=
  match l with [] => [] | x :: r => (i, x) :: enumerate (S i) r end.
Definition max_depth : nat := 80.
Definition start (fs : list format) (n : next) : lbranch :=
  map (fun p => (fst p, NCat (snd p) n)) (enumerate 0 fs).
Definition build (fuel : nat) (fs : list format) (n : next) : outcome (option mtree) :=
  grow fuel max_depth (start fs n).

(** The same for every iteration order of the hash sets (and whatever their
    treatment of repeated elements): at each level the elements may be visited in
    any order sorted by index. *)
Fixpoint Grow (depth : nat) (nexts : lbranch) (t : mtree) {struct depth} : Prop :=
  accepts nexts = Some t \/
  accepts nexts = None /\
  match depth with
  | O => False
  | S depth =>
    exists fuel order lv bs,
      (forall x, In x order <-> In x nexts) /\
      merge_all fuel (Level None []) order = Val (Some lv) /\
      t = MT (l_acc lv) bs /\
      Forall2 (fun lb tb => fst lb = fst tb /\ Grow depth (snd lb) (snd tb)) (l_br lv) bs
  end.
Definition Build (fs : list format) (n : next) (t : mtree) : Prop := Grow max_depth (start fs n) t.
End Grow.

(** src/lib.rs:2282-2294 [MatchTree::matches] *)
Section Find.
Context (b : N) (k : mtree -> option nat).
Fixpoint first_branch (l : list (byteset * mtree)) : option (option nat) :=
  match l with
  | [] => None
  | (bs, t) :: r => if ByteSetModel.contains bs b then Some (k t) else first_branch r
  end.
End Find.
Fixpoint mt_matches (t : mtree) (w : list N) {struct w} : option nat :=
  match t with
  | MT acc brs =>
    match w with
    | [] => acc
    | b :: w' => match first_branch b (fun s => mt_matches s w') brs with Some r => r | None => acc end
    end
  end.
(** On an input cursor: the bytes from the offset on (read.rs:75-88 [read_byte]). *)
Definition tree_matches (t : mtree) (c : rctx) : option nat := mt_matches t (skipn (roff c) (rinput c)).
