(** Model of the format compiler and of the decoding interpreter:
    src/decoder.rs [Decoder], [Program], [Compiler], [Decoder::parse]. *)
From Verif Require ByteSetModel HuffmanModel.
From Verif Require Import Base BoundsModel DataModel NumericModel ValueModel FormatModel MatchTreeModel.
Open Scope nat_scope.

(** src/decoder.rs:480-528 [enum Decoder], without the feature-gated [Enforce];
    the type hint of [AccumUntil] is dropped (it is ignored, decoder.rs:1466). *)
Inductive decoder :=
| DCall (n : nat) (es : list (label * expr)) (vs : list (label * viewexpr))
| DPos
| DFail
| DEndOfInput
| DAlign (n : N)
| DByte (bs : byteset)
| DVariant (l : label) (d : decoder)
| DParallel (ds : list decoder)
| DBranch (t : mtree) (ds : list decoder)
| DTuple (ds : list decoder)
| DSequence (ds : list decoder)
| DWhile (t : mtree) (d : decoder)
| DUntil (t : mtree) (d : decoder)
| DRepeatCount (e : expr) (d : decoder)
| DRepeatUntilLast (e : expr) (d : decoder)
| DRepeatUntilSeq (e : expr) (d : decoder)
| DMaybe (e : expr) (d : decoder)
| DPeek (d : decoder)
| DPeekNot (d : decoder)
| DSlice (e : expr) (d : decoder)
| DBits (d : decoder)
| DWithRelativeOffset (base off : expr) (d : decoder)
| DMap (d : decoder) (e : expr)
| DWhere (d : decoder) (e : expr) (strict : bool)
| DCompute (e : expr)
| DLet (x : label) (e : expr) (d : decoder)
| DMatch (e : expr) (bs : list (pattern * decoder))
| DDynamic (x : label) (dy : dynformat) (d : decoder)
| DApply (x : label)
| DRepeatBetween (t : mtree) (emin emax : expr) (d : decoder)
| DForEach (e : expr) (x : label) (d : decoder)
| DSkipRemainder
| DDecodeBytes (e : expr) (d : decoder)
| DParseFromView (v : viewexpr) (d : decoder)
| DLetFormat (d : decoder) (x : label) (d' : decoder)
| DMonadSeq (d d' : decoder)
| DAccumUntil (fdone fupdate init : expr) (d : decoder)
| DLiftedOption (o : option decoder)
| DLetView (x : label) (d : decoder)
| DCaptureBytes (v : viewexpr) (len : expr)
| DReadArray (v : viewexpr) (len : expr) (k : basekind)
| DReifyView (v : viewexpr)
| DPhantom
| DPermit (d : decoder) (e : expr).

(** src/decoder.rs:531-533 [struct Program], without the types *)
Definition program := list decoder.

(** ** The compiler *)

(** The result of a compilation step: a value, a reported error, a panic. *)
Inductive cres (A : Type) := COk (a : A) | CErr | CPanic.
Arguments COk {A} a.
Arguments CErr {A}.
Arguments CPanic {A}.

(** src/decoder.rs:549-554 [struct Compiler] *)
Record cstate := CS { cs_decs : list decoder; cs_map : list (nat * next * nat); cs_queue : list (format * next * nat) }.
Definition comp (A : Type) := cstate -> cres (A * cstate).
Definition cret {A} (a : A) : comp A := fun st => COk (a, st).
Definition cfail {A} : comp A := fun _ => CErr.
Definition cbind {A B} (x : comp A) (f : A -> comp B) : comp B :=
  fun st => match x st with COk (a, st') => f a st' | CErr => CErr | CPanic => CPanic end.
Definition cmap {A B} (f : A -> B) (x : comp A) : comp B := cbind x (fun a => cret (f a)).
Definition clift {A} (x : outcome A) : comp A := match x with Val a => cret a | Panic => fun _ => CPanic end.

Section CMapM.
Context {A B : Type} (f : A -> comp B).
Fixpoint cmapM (l : list A) : comp (list B) :=
  match l with
  | [] => cret []
  | x :: r => cbind (f x) (fun y => cmap (cons y) (cmapM r))
  end.
End CMapM.
Section CTuple.
Context (f : format -> next -> comp decoder).
(** src/decoder.rs:676-685: each field is compiled against the remaining ones *)
Fixpoint ctuple (fs : list format) (n : next) : comp (list decoder) :=
  match fs with
  | [] => cret []
  | g :: gs => cbind (f g (NSequence gs n)) (fun d => cmap (cons d) (ctuple gs n))
  end.
End CTuple.
Section OAny.
Context {A : Type} (f : A -> outcome bool).
(** [any], with its early exit *)
Fixpoint oany (l : list A) : outcome bool :=
  match l with
  | [] => Val false
  | x :: r => obind (f x) (fun b : bool => if b then Val true else oany r)
  end.
End OAny.

Section Compiler.
(** The compiler is parametrised by the construction of lookahead trees
    ([MatchTree::build], whose result may depend on the iteration order of hash
    sets) and by the equality used by the decoder map. *)
Context (bld : fmodule -> list format -> next -> outcome (option mtree)).
Context (eqb : next -> next -> bool).
Context (m : fmodule).

Section Depends.
Context (deps : list (outcome bool)).
(** src/format.rs:433-481 [depends_on_next], 483-492 [union_depends_on_next];
    [deps] are the results for the earlier levels *)
Fixpoint depends_on_next (f : format) : outcome bool :=
  match f with
  | FItemVar level _ _ => match nth_error deps level with Some b => b | None => Panic end
  | FFail | FEndOfInput | FSkipRemainder | FAlign _ | FByte _ | FWithView _ _ => Val false
  | FVariant _ g => depends_on_next g
  | FUnion fs | FUnionNondet fs =>
    obind (oany depends_on_next fs) (fun b : bool =>
      if b then Val true
      else omap (fun o => match o with None => true | Some _ => false end) (bld m fs NEmpty))
  | FTuple fs | FSequence fs => oany depends_on_next fs
  | FRepeat _ | FRepeat1 _ | FRepeatBetween _ _ _ => Val true
  | FRepeatCount _ _ | FRepeatUntilLast _ _ | FRepeatUntilSeq _ _ | FAccumUntil _ _ _ _ _ => Val false
  | FMaybe _ _ => Val true
  | FPeek _ | FPeekNot _ | FSlice _ _ | FBits _ | FWithRelativeOffset _ _ _ => Val false
  | FMap g _ | FWhere g _ _ => depends_on_next g
  | FCompute _ | FPos => Val false
  | FLet _ _ g | FLetView _ g => depends_on_next g
  | FMatch _ bs => oany (fun b => match b with (_, g) => depends_on_next g end) bs
  | FDynamic _ _ g => depends_on_next g
  | FApply _ => Val false
  | FForEach _ _ g => depends_on_next g
  | FDecodeBytes _ _ | FParseFromView _ _ => Val false
  | FMonadSeq g h | FLetFormat g _ h =>
    obind (depends_on_next g) (fun b : bool => if b then Val true else depends_on_next h)
  | FPermit g _ | FHint g => depends_on_next g
  | FLiftedOption None => Val false
  | FLiftedOption (Some g) => depends_on_next g
  | FPhantom _ => Val false
  end.
End Depends.
Definition item_depends : list (outcome bool) :=
  fold_left (fun acc it => acc ++ [depends_on_next acc (it_format it)]) m [].

(** src/decoder.rs:583-588 [queue_compile] (the queue is popped from the end: here
    its head) *)
Definition queue_compile (f : format) (n : next) : comp nat :=
  fun st => COk (length (cs_decs st),
    CS (cs_decs st ++ [DFail]) (cs_map st) ((f, n, length (cs_decs st)) :: cs_queue st)).
(** src/decoder.rs:613-620: the map lookup *)
Fixpoint map_get (level : nat) (n : next) (l : list (nat * next * nat)) : option nat :=
  match l with
  | [] => None
  | (k, n', i) :: r => if Nat.eqb k level && eqb n' n then Some i else map_get level n r
  end.
Definition map_insert (level : nat) (n : next) (i : nat) : comp unit :=
  fun st => COk (tt, CS (cs_decs st) ((level, n, i) :: cs_map st) (cs_queue st)).
Definition item_decoder (level : nat) (f : format) (n : next) : comp nat :=
  fun st =>
    match map_get level n (cs_map st) with
    | Some i => COk (i, st)
    | None => cbind (queue_compile f n) (fun i => cmap (fun _ => i) (map_insert level n i)) st
    end.
(** [MatchTree::build], reporting [None] as an error *)
Definition build_or_err (fs : list format) (n : next) : comp mtree :=
  cbind (clift (bld m fs n)) (fun o => match o with Some t => cret t | None => cfail end).
(** src/decoder.rs:702-704 *)
Definition check_nullable (a : format) : comp unit :=
  cbind (clift (is_nullable m a)) (fun b : bool => if b then cfail else cret tt).
(** src/decoder.rs:815-824, [MAX_LOOKAHEAD] *)
Definition check_lookahead (a : format) : comp unit :=
  cbind (clift (lookahead_bounds (item_bounds m) (item_lookahead m) a)) (fun b =>
    match bmax b with
    | None => cfail
    | Some k => if N.ltb 1024 k then cfail else cret tt
    end).
(** src/decoder.rs:762-766: one branch per number of repetitions *)
Definition count_branches (max : N) (a : format) : list format :=
  map (fun k => FRepeatCount (EU B32 (as_u32 k)) a) (nrange 0 (N.to_nat max + 1)).

(** src/decoder.rs:604-907 [compile_format] *)
Fixpoint compile_format (f : format) (n : next) {struct f} : comp decoder :=
  match f with
  | FItemVar level args views =>
    match get_item m level with
    | None => fun _ => CPanic
    | Some it =>
      cbind (clift (depends_on_next item_depends (it_format it))) (fun dep : bool =>
      let n' := if dep then n else NEmpty in
      cmap (fun i => DCall i (combine (it_args it) args) (combine (it_views it) views))
           (item_decoder level (it_format it) n'))
    end
  | FPhantom _ => cret DPhantom
  | FFail => cret DFail
  | FDecodeBytes e a => cmap (DDecodeBytes e) (compile_format a NEmpty)
  | FParseFromView v a => cmap (DParseFromView v) (compile_format a NEmpty)
  | FPos => cret DPos
  | FLetView x a => cmap (DLetView x) (compile_format a n)
  | FEndOfInput => cret DEndOfInput
  | FAlign k => cret (DAlign k)
  | FByte bs => cret (DByte bs)
  | FSkipRemainder => cret DSkipRemainder
  | FVariant l a => cmap (DVariant l) (compile_format a n)
  | FUnion fs =>
    cbind (cmapM (fun g => compile_format g n) fs) (fun ds => cmap (fun t => DBranch t ds) (build_or_err fs n))
  | FUnionNondet fs => cmap DParallel (cmapM (fun g => compile_format g n) fs)
  | FTuple fs => cmap DTuple (ctuple compile_format fs n)
  | FSequence fs => cmap DSequence (ctuple compile_format fs n)
  | FRepeat a =>
    cbind (check_nullable a) (fun _ => cbind (compile_format a (NRepeat a n)) (fun d =>
      cmap (fun t => DWhile t d) (build_or_err [FTuple [a; FRepeat a]; FEmpty] n)))
  | FRepeat1 a =>
    cbind (check_nullable a) (fun _ => cbind (compile_format a (NRepeat a n)) (fun d =>
      cmap (fun t => DUntil t d) (build_or_err [FEmpty; FTuple [a; FRepeat a]] n)))
  | FRepeatCount e a => cmap (DRepeatCount e) (compile_format a (NRepeat a n))
  | FRepeatBetween e1 e2 a =>
    cbind (clift (expr_bounds e1)) (fun b1 =>
    match as_exact b1 with
    | None => fun _ => CPanic
    | Some min =>
      cbind (clift (expr_bounds e2)) (fun b2 =>
      match as_exact b2 with
      | None => fun _ => CPanic
      | Some max =>
        cbind (compile_format a (NRepeatBetween (min - 1) (max - 1) a n)) (fun d =>
        cbind (clift (bld m (count_branches max a) n)) (fun o =>
        match o with
        | Some t => cret (DRepeatBetween t e1 e2 d)
        | None => fun _ => CPanic
        end))
      end)
    end)
  | FRepeatUntilLast e a => cmap (DRepeatUntilLast e) (compile_format a (NRepeat a n))
  | FForEach e x a => cmap (DForEach e x) (compile_format a (NRepeat a n))
  | FRepeatUntilSeq e a => cmap (DRepeatUntilSeq e) (compile_format a (NRepeat a n))
  | FAccumUntil fd fu i _ a => cmap (DAccumUntil fd fu i) (compile_format a (NRepeat a n))
  | FMaybe e a => cmap (DMaybe e) (compile_format a NEmpty)
  | FPeek a => cmap DPeek (compile_format a NEmpty)
  | FPeekNot a => cbind (check_lookahead a) (fun _ => cmap DPeekNot (compile_format a NEmpty))
  | FSlice e a => cmap (DSlice e) (compile_format a NEmpty)
  | FBits a => cmap DBits (compile_format a NEmpty)
  | FWithRelativeOffset base off a => cmap (DWithRelativeOffset base off) (compile_format a NEmpty)
  | FMap a e => cmap (fun d => DMap d e) (compile_format a n)
  | FWhere a e s => cmap (fun d => DWhere d e s) (compile_format a n)
  | FPermit a e => cmap (fun d => DPermit d e) (compile_format a n)
  | FCompute e => cret (DCompute e)
  | FLet x e a => cmap (DLet x e) (compile_format a n)
  | FMatch e bs =>
    cmap (DMatch e) (cmapM (fun b => match b with (p, g) => cmap (pair p) (compile_format g n) end) bs)
  | FDynamic x dy a => cmap (DDynamic x dy) (compile_format a n)
  | FApply x => cret (DApply x)
  | FLetFormat a x b =>
    cbind (compile_format a (NCat b n)) (fun da => cmap (DLetFormat da x) (compile_format b n))
  | FMonadSeq a b =>
    cbind (compile_format a (NCat b n)) (fun da => cmap (DMonadSeq da) (compile_format b n))
  | FHint a => compile_format a n
  | FLiftedOption None => cret (DLiftedOption None)
  | FLiftedOption (Some a) => cmap (fun d => DLiftedOption (Some d)) (compile_format a n)
  | FWithView v (VFCapture len) => cret (DCaptureBytes v len)
  | FWithView v (VFReadArray len k) => cret (DReadArray v len k)
  | FWithView v VFReify => cret (DReifyView v)
  end.

Fixpoint set_nth {A} (l : list A) (i : nat) (x : A) : list A :=
  match l, i with
  | [], _ => []
  | _ :: r, O => x :: r
  | y :: r, S i => y :: set_nth r i x
  end.
(** src/decoder.rs:576-579: the loop; [None] when [fuel] runs out *)
Fixpoint compile_loop (fuel : nat) (st : cstate) : option (cres program) :=
  match cs_queue st with
  | [] => Some (COk (cs_decs st))
  | (f, n, i) :: q =>
    match fuel with
    | O => None
    | S fuel =>
      match compile_format f n (CS (cs_decs st) (cs_map st) q) with
      | COk (d, st') => compile_loop fuel (CS (set_nth (cs_decs st') i d) (cs_map st') (cs_queue st'))
      | CErr => Some CErr
      | CPanic => Some CPanic
      end
    end
  end.
(** src/decoder.rs:569-581 [compile_program]; type inference, which only accepts
    or rejects the format, is not modelled here *)
Definition compile_program (fuel : nat) (f : format) : option (cres program) :=
  match queue_compile f NEmpty (CS [] [] []) with
  | COk (_, st) => compile_loop fuel st
  | CErr => Some CErr
  | CPanic => Some CPanic
  end.
End Compiler.

(** src/decoder.rs:590-594 [compile_one] *)
Definition compile_one (bld : fmodule -> list format -> next -> outcome (option mtree)) (f : format) : cres decoder :=
  match compile_format bld (fun _ _ => false) [] f NEmpty (CS [] [] []) with
  | COk (d, _) => COk d
  | CErr => CErr
  | CPanic => CPanic
  end.

(** ** The interpreter *)

(** src/error.rs:60-92 [DecodeErrorKind], without traces and scope listings *)
Inductive derr :=
| KFail (off : nat)
| KBadWhere (v : value)
| KTrailing (b : N) (off : nat)
| KOverrun (n : N) (off : nat)
| KOverbyte (off : nat)
| KSeekPastEnd (off : N) (len : nat)
| KUnexpected (b : N) (expected : byteset) (off : nat)
| KNoValidBranch (off : nat).

(** The result of decoding ([EDecodeResult]): a value, the cursor after it and the
    soft errors; an error; a panic; or, in the model only, fuel exhausted. *)
Inductive dres (A : Type) :=
| ROk (a : A) (c : rctx) (errs : list derr)
| RErr (e : derr)
| RPanic
| RFuel.
Arguments ROk {A} a c errs.
Arguments RErr {A} e.
Arguments RPanic {A}.
Arguments RFuel {A}.
(** src/util.rs:139-144 [WithErr::join]: later errors come first *)
Definition rbind {A B} (r : dres A) (k : A -> rctx -> dres B) : dres B :=
  match r with
  | ROk a c es =>
    match k a c with
    | ROk b c' es' => ROk b c' (es' ++ es)
    | RErr e => RErr e
    | RPanic => RPanic
    | RFuel => RFuel
    end
  | RErr e => RErr e
  | RPanic => RPanic
  | RFuel => RFuel
  end.
Definition rmap {A B} (f : A -> B) (r : dres A) : dres B :=
  match r with
  | ROk a c es => ROk (f a) c es
  | RErr e => RErr e
  | RPanic => RPanic
  | RFuel => RFuel
  end.
(** [map(|(v, _)| (v, input))] *)
Definition rback {A} (c : rctx) (r : dres A) : dres A :=
  match r with
  | ROk a _ es => ROk a c es
  | RErr e => RErr e
  | RPanic => RPanic
  | RFuel => RFuel
  end.
(** a computation that may only panic, then decoding *)
Definition rlet {A B} (x : outcome A) (k : A -> dres B) : dres B :=
  match x with Val a => k a | Panic => RPanic end.

Section Loops.
Context {Sc Dc : Type} (p : Sc -> Dc -> rctx -> dres value).
(** [WithErr::fold] over a list of bodies (src/util.rs:152-165), as used by
    Tuple, Sequence, ForEach and RepeatCount (decoder.rs:1234-1263, 1352-1386) *)
Fixpoint pseq (l : list (Sc * Dc)) (c : rctx) : dres (list value) :=
  match l with
  | [] => ROk [] c []
  | (s, d) :: r => rbind (p s d c) (fun v c' => rmap (cons v) (pseq r c'))
  end.
(** decoder.rs:1226-1231 *)
Fixpoint ppar (i : nat) (s : Sc) (ds : list Dc) (c : rctx) : dres value :=
  match ds with
  | [] => RErr (KFail (roff c))
  | d :: r =>
    match p s d c with
    | RErr _ => ppar (S i) s r c
    | o => rmap (VBranch i) o
    end
  end.
Context (s : Sc) (d : Dc) (t : mtree).
(** decoder.rs:1264-1284 [While] *)
Fixpoint pwhile (fuel : nat) (c : rctx) : dres (list value) :=
  match fuel with
  | O => RFuel
  | S fuel =>
    match tree_matches t c with
    | None => RErr (KNoValidBranch (roff c))
    | Some O => rbind (p s d c) (fun v c' => rmap (cons v) (pwhile fuel c'))
    | Some (S _) => ROk [] c []
    end
  end.
(** decoder.rs:1285-1307 [Until] *)
Fixpoint puntil (fuel : nat) (c : rctx) : dres (list value) :=
  match fuel with
  | O => RFuel
  | S fuel =>
    rbind (p s d c) (fun v c' =>
      match tree_matches t c' with
      | None => RErr (KNoValidBranch (roff c'))
      | Some O => ROk [v] c' []
      | Some (S _) => rmap (cons v) (puntil fuel c')
      end)
  end.
(** decoder.rs:1391-1416 [RepeatBetween]: the lookahead is always made from the
    initial cursor [c0] *)
Fixpoint pbetween (min max : N) (c0 : rctx) (len : nat) (fuel : nat) (c : rctx) : dres (list value) :=
  match fuel with
  | O => RFuel
  | S fuel =>
    match tree_matches t c0 with
    | None => RErr (KNoValidBranch (roff c0))
    | Some i =>
      if Nat.eqb i 0 || N.eqb (N.of_nat len) max then
        if N.ltb (N.of_nat len) min then RPanic else ROk [] c []
      else rbind (p s d c) (fun v c' => rmap (cons v) (pbetween min max c0 (S len) fuel c'))
    end
  end.
(** decoder.rs:1428-1442 [RepeatUntilLast], 1443-1465 [RepeatUntilSeq]: [stop acc v]
    says whether to stop after the elements [acc] followed by [v] *)
Fixpoint puntil_done (stop : list value -> value -> outcome bool) (acc : list value) (fuel : nat) (c : rctx) : dres (list value) :=
  match fuel with
  | O => RFuel
  | S fuel =>
    rbind (p s d c) (fun v c' =>
      rlet (stop acc v) (fun b : bool =>
        if b then ROk (acc ++ [v]) c' [] else puntil_done stop (acc ++ [v]) fuel c'))
  end.
(** decoder.rs:1466-1490 [AccumUntil] *)
Fixpoint paccum (stop : value -> list value -> outcome bool) (update : value -> value -> outcome value)
    (acc : value) (vs : list value) (fuel : nat) (c : rctx) : dres (value * list value) :=
  match fuel with
  | O => RFuel
  | S fuel =>
    rlet (stop acc vs) (fun b : bool =>
      if b then ROk (acc, vs) c []
      else rbind (p s d c) (fun v c' =>
        rlet (update acc v) (fun acc' => paccum stop update acc' (vs ++ [v]) fuel c')))
  end.
End Loops.

(** decoder.rs:1703-1721 [eval_view_expr] *)
Fixpoint eval_view {D} (s : scope D) (v : viewexpr) : outcome (rctx + derr) :=
  match v with
  | VEVar x => match get_view x s with Some c => Val (inl c) | None => Panic end
  | VEOffset b e =>
    obind (obind (eval_value e s) unwrap_usize) (fun off =>
    obind (eval_view s b) (fun r =>
      match r with
      | inr err => Val (inr err)
      | inl c =>
        obind (rc_split_at c off) (fun o =>
          match o with
          | Some (_, w) => Val (inl w)
          | None => Val (inr (KOverrun off (roff c)))
          end)
      end))
  end.
Definition with_view {D A} (s : scope D) (v : viewexpr) (k : rctx -> dres A) : dres A :=
  rlet (eval_view s v) (fun r => match r with inl c => k c | inr e => RErr e end).

(** decoder.rs:1724-1757 [read_base]; little-endian reads are [unimplemented!] *)
Definition read_base (k : basekind) (c : rctx) : dres value :=
  match bk_width k with
  | B8 => match rc_read_byte c with Some (b, c') => ROk (VU B8 b) c' [] | None => RErr (KOverbyte (roff c)) end
  | w =>
    if bk_be k then
      match rc_read_be (N.to_nat (nbits w / 8)) c with
      | Some (n, c') => ROk (VU w n) c' []
      | None => RErr (KOverrun (nbits w / 8) (roff c))
      end
    else RPanic
  end.
(** decoder.rs:1640-1650 and 1662-1666: [len] reads *)
Fixpoint read_n (rd : rctx -> dres value) (len : nat) (c : rctx) : dres (list value) :=
  match len with
  | O => ROk [] c []
  | S len => rbind (rd c) (fun v c' => rmap (cons v) (read_n rd len c'))
  end.
Definition read_u8 (c : rctx) : dres value :=
  match rc_read_byte c with Some (b, c') => ROk (VU B8 b) c' [] | None => RErr (KOverbyte (roff c)) end.

(** decoder.rs:1759-1770 [value_to_vec_usize] *)
Definition value_to_vec_usize (v : value) : outcome (list nat) :=
  match v with
  | VSeq s => omapM (fun x => match coerce_mapped x with VU B8 n => Val (N.to_nat n) | _ => Panic end) (sk_to_list s)
  | _ => Panic
  end.
(** decoder.rs:1772-1822 [make_huffman_codes], [bit_range], [is_bit] *)
Definition is_bit (b : N) : format := FByte (ByteSetModel.insert ByteSetModel.empty b).
Definition huffman_format (lengths : list nat) : outcome format :=
  omap (fun codes => FUnion (map (fun c => FMap (FTuple (map is_bit (fst c))) (ELambda 0%N (EU B16 (snd c)))) codes))
       (HuffmanModel.huffman_codes lengths).
(** decoder.rs:1601-1615 *)
Definition dyn_format {D} (dy : dynformat) (s : scope D) : outcome format :=
  match dy with
  | DHuffman le ve =>
    obind (obind (eval le s) value_to_vec_usize) (fun lengths =>
    obind (match ve with
           | None => Val lengths
           | Some e => obind (obind (eval e s) value_to_vec_usize) (fun values => HuffmanModel.reorder lengths values)
           end) huffman_format)
  end.
(** decoder.rs:1510-1515: the bits of every byte, least significant first *)
Definition bits_of (l : list N) : list N :=
  flat_map (fun b => map (fun i => if N.testbit b (N.of_nat i) then 1%N else 0%N) (seq 0 8)) l.

(** decoder.rs:1587-1594: the first matching branch *)
Fixpoint first_match {D Dc} (v : value) (s : scope D) (i : nat) (bs : list (pattern * Dc)) : option (nat * scope D * Dc) :=
  match bs with
  | [] => None
  | (p, d) :: r => match vmatches v s p with Some s' => Some (i, s', d) | None => first_match v s (S i) r end
  end.

Definition eval_usize {D} (e : expr) (s : scope D) : outcome N := obind (eval_value e s) unwrap_usize.
Definition eval_bool {D} (e : expr) (s : scope D) : outcome bool := obind (eval_value e s) unwrap_bool.
Definition lambda_bool {D} (e : expr) (s : scope D) (v : value) : outcome bool :=
  obind (eval_lambda e s v) unwrap_bool.
(** decoder.rs:1167-1175: the scope of a call *)
Definition call_views {D} (s : scope D) (vs : list (label * viewexpr)) : outcome (list (label * vov) + derr) :=
  (fix go (vs : list (label * viewexpr)) :=
    match vs with
    | [] => Val (inl [])
    | (x, v) :: r =>
      obind (eval_view s v) (fun o =>
        match o with
        | inr e => Val (inr e)
        | inl c => omap (fun o => match o with inl l => inl ((x, EntView c) :: l) | inr e => inr e end) (go r)
        end)
    end) vs.
Definition call_values {D} (s : scope D) (es : list (label * expr)) : outcome (list (label * vov)) :=
  omapM (fun xe => match xe with (x, e) => omap (fun v => (x, EntVal v)) (eval_value e s) end) es.
Definition call_scope {D} (s : scope D) (es : list (label * expr)) (vs : list (label * viewexpr)) : outcome (scope D + derr) :=
  obind (call_values s es) (fun l =>
  omap (fun o => match o with inl l' => inl (SMulti SEmpty (l ++ l')) | inr e => inr e end) (call_views s vs)).

Section Parse.
Context (bld : fmodule -> list format -> next -> outcome (option mtree)).
Context (P : program).

(** src/decoder.rs:1159-1701 [Decoder::parse]. [fuel] bounds the depth of the
    recursion and the number of iterations of each unbounded loop. *)
Fixpoint parse (fuel : nat) (s : scope decoder) (d : decoder) (c : rctx) {struct fuel} : dres value :=
  match fuel with
  | O => RFuel
  | S fuel =>
    match d with
    | DCall n es vs =>
      rlet (call_scope s es vs) (fun o =>
        match o with
        | inr e => RErr e
        | inl s' => match nth_error P n with Some d' => parse fuel s' d' c | None => RPanic end
        end)
    | DPhantom => ROk VPhantom c []
    | DFail => RErr (KFail (roff c))
    | DPos => ROk (VU B64 (N.of_nat (roff c))) c []
    | DSkipRemainder => ROk VUnit (rc_skip_remainder c) []
    | DEndOfInput =>
      match rc_read_byte c with
      | None => ROk VUnit c []
      | Some (b, _) => RErr (KTrailing b (roff c))
      end
    | DAlign n =>
      if N.eqb n 0 then RPanic
      else
        let skip := ((n - N.of_nat (roff c) mod n) mod n)%N in
        rlet (rc_split_at c skip) (fun o =>
          match o with
          | Some (_, c') => ROk VUnit c' []
          | None => RErr (KOverrun skip (roff c))
          end)
    | DByte bs =>
      match rc_read_byte c with
      | None => RErr (KOverbyte (roff c))
      | Some (b, c') => if ByteSetModel.contains bs b then ROk (VU B8 b) c' [] else RErr (KUnexpected b bs (roff c'))
      end
    | DVariant l d => rmap (VVariant l) (parse fuel s d c)
    | DBranch t ds =>
      match tree_matches t c with
      | None => RErr (KNoValidBranch (roff c))
      | Some i => match nth_error ds i with Some d => rmap (VBranch i) (parse fuel s d c) | None => RPanic end
      end
    | DParallel ds => ppar (parse fuel) 0 s ds c
    | DTuple ds => rmap VTuple (pseq (parse fuel) (map (pair s) ds) c)
    | DSequence ds => rmap (fun vs => VSeq (Strict vs)) (pseq (parse fuel) (map (pair s) ds) c)
    | DWhile t d => rmap (fun vs => VSeq (Strict vs)) (pwhile (parse fuel) s d t fuel c)
    | DUntil t d => rmap (fun vs => VSeq (Strict vs)) (puntil (parse fuel) s d t fuel c)
    | DDecodeBytes e d =>
      rlet (obind (eval_value e s) (fun v =>
              match get_sequence v with Some q => omapM get_as_u8 (vseq_list q) | None => Panic end)) (fun bytes =>
        rbind (parse fuel s d (rc_new bytes)) (fun v c' =>
          match rc_read_byte c' with
          | Some (b, _) => ROk v c [KTrailing b (roff c')]
          | None => ROk v c []
          end))
    | DParseFromView v d => with_view s v (fun w => rback c (parse fuel s d w))
    | DLetFormat da x db => rbind (parse fuel s da c) (fun v c' => parse fuel (SSingle s x v) db c')
    | DMonadSeq da db => rbind (parse fuel s da c) (fun _ c' => parse fuel s db c')
    | DForEach e x d =>
      rlet (obind (eval_value e s) (fun v => match get_sequence v with Some q => Val (vseq_list q) | None => Panic end)) (fun l =>
        rmap (fun vs => VSeq (Strict vs)) (pseq (parse fuel) (map (fun v => (SSingle s x v, d)) l) c))
    | DRepeatCount e d =>
      rlet (eval_usize e s) (fun k =>
        rmap (fun vs => VSeq (Strict vs)) (pseq (parse fuel) (repeat (s, d) (N.to_nat k)) c))
    | DRepeatBetween t e1 e2 d =>
      rlet (eval_usize e1 s) (fun min => rlet (eval_usize e2 s) (fun max =>
        rmap (fun vs => VSeq (Strict vs)) (pbetween (parse fuel) s d t min max c 0 fuel c)))
    | DMaybe e d =>
      rlet (eval_bool e s) (fun b : bool =>
        if b then rmap (fun v => VOption (Some v)) (parse fuel s d c) else ROk (VOption None) c [])
    | DRepeatUntilLast e d =>
      rmap (fun vs => VSeq (Strict vs)) (puntil_done (parse fuel) s d (fun _ v => lambda_bool e s v) [] fuel c)
    | DRepeatUntilSeq e d =>
      rmap (fun vs => VSeq (Strict vs))
        (puntil_done (parse fuel) s d (fun acc v => lambda_bool e s (VSeq (Strict (acc ++ [v])))) [] fuel c)
    | DAccumUntil fd fu i d =>
      rlet (eval_value i s) (fun acc =>
        rmap (fun r => VTuple [fst r; VSeq (Strict (snd r))])
          (paccum (parse fuel) s d (fun a vs => lambda_bool fd s (VTuple [a; VSeq (Strict vs)]))
             (fun a v => eval_lambda fu s (VTuple [a; v])) acc [] fuel c))
    | DPeek d => rback c (parse fuel s d c)
    | DPeekNot d =>
      match parse fuel s d c with
      | ROk _ _ _ => RErr (KFail (roff c))
      | RErr _ => ROk (VTuple []) c []
      | RPanic => RPanic
      | RFuel => RFuel
      end
    | DSlice e d =>
      rlet (eval_usize e s) (fun size =>
      rlet (rc_split_at c size) (fun o =>
        match o with
        | Some (slice, c') => rback c' (parse fuel s d slice)
        | None => RErr (KOverrun size (roff c))
        end))
    | DBits d =>
      rlet (rc_remaining c) (fun rem =>
        rbind (parse fuel s d (rc_new (bits_of rem))) (fun v cb =>
          rlet (rc_remaining cb) (fun remb =>
            let bytes_remain := length remb / 8 in
            if length rem <? bytes_remain then RPanic
            else
              let bytes_read := N.of_nat (length rem - bytes_remain) in
              rlet (rc_split_at c bytes_read) (fun o =>
                match o with
                | Some (_, c') => ROk v c' []
                | None => RErr (KOverrun bytes_read (roff c))
                end))))
    | DWithRelativeOffset base off d =>
      rlet (eval_usize base s) (fun b => rlet (eval_usize off s) (fun o =>
        if N.ltb (b + o) w64 then
          match rc_seek_to c (b + o) with
          | Some c' => rback c (parse fuel s d c')
          | None => RErr (KSeekPastEnd (b + o) (length (rinput c)))
          end
        else RPanic))
    | DMap d e =>
      rbind (parse fuel s d c) (fun orig c' => rlet (eval_lambda e s orig) (fun v => ROk (VMapped orig v) c' []))
    | DWhere d e strict =>
      rbind (parse fuel s d c) (fun v c' =>
        rlet (lambda_bool e s v) (fun b : bool =>
          if b then ROk v c' []
          else if strict then RErr (KBadWhere v) else ROk v c' [KBadWhere v]))
    | DCompute e => rlet (eval_value e s) (fun v => ROk v c [])
    | DLet x e d => rlet (eval_value e s) (fun v => parse fuel (SSingle s x v) d c)
    | DLetView x d => parse fuel (SView s x c) d c
    | DMatch e bs =>
      rlet (eval e s) (fun v =>
        match first_match v s 0 bs with
        | Some (i, s', d) => rmap (VBranch i) (parse fuel s' d c)
        | None => RPanic
        end)
    | DDynamic x dy d =>
      rlet (dyn_format dy s) (fun f =>
        match compile_one bld f with
        | COk dyn => parse fuel (SDecoder s x dyn) d c
        | _ => RPanic
        end)
    | DApply x => match get_decoder x s with Some d => parse fuel s d c | None => RPanic end
    | DLiftedOption None => ROk (VOption None) c []
    | DLiftedOption (Some d) => rmap (fun v => VOption (Some v)) (parse fuel s d c)
    | DCaptureBytes v len =>
      rlet (eval_usize len s) (fun k => with_view s v (fun w =>
        rback c (rmap (fun vs => VSeq (Strict vs)) (read_n read_u8 (N.to_nat k) w))))
    | DReadArray v len k =>
      rlet (eval_usize len s) (fun n => with_view s v (fun w =>
        rback c (rmap (fun vs => VSeq (Strict vs)) (read_n (read_base k) (N.to_nat n) w))))
    | DReifyView v => with_view s v (fun w => ROk (VView (roff w)) c [])
    | DPermit d e =>
      match parse fuel s d c with
      | ROk v c' es => ROk (VPermitOk v) c' es
      | RErr er => rlet (eval_value e s) (fun v => ROk (VPermitErr (Some v)) c [er])
      | RPanic => RPanic
      | RFuel => RFuel
      end
    end
  end.

(** src/decoder.rs:541-546 [Program::run]: the soft errors are only reported *)
Definition run (fuel : nat) (c : rctx) : dres value :=
  match P with [] => RPanic | d :: _ => parse fuel SEmpty d c end.
End Parse.

(** The lookahead construction with the elements of hash sets in insertion order
    and a given recursion limit. *)
Definition build_exec (fuel : nat) (m : fmodule) (fs : list format) (n : next) : outcome (option mtree) :=
  build LReal m fuel fs n.
