(** What a format describes, independently of compilation and lookahead: the
    semantics documented in src/format.rs:17-56 (union as alternation, tuple as
    concatenation, repeat as Kleene star, ...), extended to the other formats.
    Expressions, patterns and scopes are those of ValueModel; a format bound by
    [Dynamic] is kept in the scope as a format. *)
From Verif Require ByteSetModel HuffmanModel.
From Verif Require Import Base BoundsModel DataModel NumericModel ValueModel FormatModel DecoderModel.
Open Scope nat_scope.

(** A list of things decoded one after the other from [i] to [j]. *)
Inductive Chain {A} (R : A -> nat -> nat -> value -> Prop) : list A -> nat -> nat -> list value -> Prop :=
| ChNil i : Chain R [] i i []
| ChCons a l i j k v vs : R a i j v -> Chain R l j k vs -> Chain R (a :: l) i k (v :: vs).

(** [vs] is a run of elements such that the loop condition stops exactly after the
    last one: [stop acc v] is tested after each element [v], [acc] being those
    before it. *)
Inductive StopsAt (stop : list value -> value -> outcome bool) : list value -> list value -> Prop :=
| StopLast acc v : stop acc v = Val true -> StopsAt stop acc [v]
| StopMore acc v vs : stop acc v = Val false -> StopsAt stop (acc ++ [v]) vs -> StopsAt stop acc (v :: vs).
(** [vs] is a run of elements, and [acc'] the accumulator after them, such that the
    loop condition, tested before each element, stops exactly at the end. *)
Inductive AccumTo (stop : value -> list value -> outcome bool) (update : value -> value -> outcome value) :
  value -> list value -> list value -> value -> Prop :=
| AccStop acc done : stop acc done = Val true -> AccumTo stop update acc done [] acc
| AccMore acc done v vs acc1 acc2 : stop acc done = Val false -> update acc v = Val acc1 ->
    AccumTo stop update acc1 (done ++ [v]) vs acc2 -> AccumTo stop update acc done (v :: vs) acc2.

Definition eval_list {D} (e : expr) (s : scope D) : outcome (list value) :=
  obind (eval_value e s) (fun v => match get_sequence v with Some q => Val (vseq_list q) | None => Panic end).
Definition eval_bytes {D} (e : expr) (s : scope D) : outcome (list N) :=
  obind (eval_value e s) (fun v => match get_sequence v with Some q => omapM get_as_u8 (vseq_list q) | None => Panic end).

(** The big-endian number made of bytes. *)
Definition bytes_at (buf : list N) (i n : nat) : option (list N) :=
  if i + n <=? length buf then Some (firstn n (skipn i buf)) else None.
Inductive Elem (k : basekind) (buf : list N) : unit -> nat -> nat -> value -> Prop :=
| ElemBE i bs : bytes_at buf i (N.to_nat (nbits (bk_width k) / 8)) = Some bs ->
    (bk_width k = B8 \/ bk_be k = true) ->
    Elem k buf tt i (i + N.to_nat (nbits (bk_width k) / 8)) (VU (bk_width k) (from_be_bytes bs)).

(** The table of code lengths that a dynamic format is made of. *)
Definition dyn_lengths {D} (dy : dynformat) (s : scope D) : outcome (list nat) :=
  match dy with
  | DHuffman le ve =>
    obind (obind (eval le s) value_to_vec_usize) (fun lengths =>
      match ve with
      | None => Val lengths
      | Some e => obind (obind (eval e s) value_to_vec_usize) (fun values => HuffmanModel.reorder lengths values)
      end)
  end.
(** There are enough bit strings for codes of these lengths: the sum of the
    [2 ^ (63 - l)] is at most [2 ^ 63]. *)
Definition enough_codes (lengths : list nat) : Prop :=
  Forall (fun l => l <= 63) lengths /\ (N.of_nat (length lengths) <= 65536)%N /\
  (fold_right (fun l n => (if Nat.eqb l 0 then 0 else 2 ^ N.of_nat (63 - l)) + n) 0 lengths <= 2 ^ 63)%N.

(** An input that a machine can hold: bytes, with 64-bit offsets. *)
Definition usable (buf : list N) : Prop := Forall (fun b => (b < 256)%N) buf /\ (N.of_nat (length buf) < w64)%N.

Section Sem.
(** The levels of the module. *)
Context (M : fmodule).
(** [strict = false] describes what may be accepted. [strict = true] keeps what
    must be accepted: slices and re-decoded byte strings are entirely used, Huffman
    tables do not have too many codes, and failure plays no role (no negative peek, no tolerated failure, no ordered
    choice, no bounded repetition). *)
Context (strict : bool).
(** What a negative peek, and what a tolerated failure or a branch passed over in an
    ordered choice, say of their format at a position. *)
Context (unmatched failed : scope format -> format -> list N -> nat -> Prop).

(** [SemN s f buf i j v]: in scope [s], format [f] describes the bytes of [buf]
    between [i] and [j], with value [v]. *)
Inductive SemN : scope format -> format -> list N -> nat -> nat -> value -> Prop :=
| SemItem s level args views it s' buf i j v :
    get_item M level = Some it ->
    call_scope s (combine (it_args it) args) (combine (it_views it) views) = Val (inl s') ->
    SemN s' (it_format it) buf i j v ->
    SemN s (FItemVar level args views) buf i j v
| SemEndOfInput s buf i : length buf <= i -> SemN s FEndOfInput buf i i VUnit
| SemAlign s n buf i j : n <> 0%N -> (N.of_nat j mod n = 0)%N -> i <= j -> (N.of_nat j < N.of_nat i + n)%N -> j <= length buf ->
    SemN s (FAlign n) buf i j VUnit
| SemByte s bs buf i b : nth_error buf i = Some b -> ByteSetModel.contains bs b = true ->
    SemN s (FByte bs) buf i (S i) (VU B8 b)
| SemVariant s l f buf i j v : SemN s f buf i j v -> SemN s (FVariant l f) buf i j (VVariant l v)
| SemUnion s fs k f buf i j v : nth_error fs k = Some f -> SemN s f buf i j v -> SemN s (FUnion fs) buf i j (VBranch k v)
| SemUnionNondet s fs k f buf i j v : strict = false -> Forall (fun g => failed s g buf i) (firstn k fs) ->
    nth_error fs k = Some f -> SemN s f buf i j v -> SemN s (FUnionNondet fs) buf i j (VBranch k v)
| SemTuple s fs buf i j vs :
    Chain (fun f i j v => SemN s f buf i j v) fs i j vs -> SemN s (FTuple fs) buf i j (VTuple vs)
| SemSequence s fs buf i j vs :
    Chain (fun f i j v => SemN s f buf i j v) fs i j vs -> SemN s (FSequence fs) buf i j (VSeq (Strict vs))
| SemRepeat s f n buf i j vs :
    Chain (fun f i j v => SemN s f buf i j v) (repeat f n) i j vs -> SemN s (FRepeat f) buf i j (VSeq (Strict vs))
| SemRepeat1 s f n buf i j vs :
    Chain (fun f i j v => SemN s f buf i j v) (repeat f (S n)) i j vs -> SemN s (FRepeat1 f) buf i j (VSeq (Strict vs))
| SemRepeatCount s e f n buf i j vs : eval_usize e s = Val n ->
    Chain (fun f i j v => SemN s f buf i j v) (repeat f (N.to_nat n)) i j vs ->
    SemN s (FRepeatCount e f) buf i j (VSeq (Strict vs))
| SemRepeatBetween s e1 e2 f n1 n2 n buf i j vs : strict = false ->
    eval_usize e1 s = Val n1 -> eval_usize e2 s = Val n2 -> (n1 <= N.of_nat n <= n2)%N ->
    Chain (fun f i j v => SemN s f buf i j v) (repeat f n) i j vs ->
    SemN s (FRepeatBetween e1 e2 f) buf i j (VSeq (Strict vs))
| SemRepeatUntilLast s e f n buf i j vs :
    Chain (fun f i j v => SemN s f buf i j v) (repeat f n) i j vs ->
    StopsAt (fun _ v => lambda_bool e s v) [] vs ->
    SemN s (FRepeatUntilLast e f) buf i j (VSeq (Strict vs))
| SemRepeatUntilSeq s e f n buf i j vs :
    Chain (fun f i j v => SemN s f buf i j v) (repeat f n) i j vs ->
    StopsAt (fun acc v => lambda_bool e s (VSeq (Strict (acc ++ [v])))) [] vs ->
    SemN s (FRepeatUntilSeq e f) buf i j (VSeq (Strict vs))
| SemAccumUntil s fd fu e0 t f n buf i j vs acc0 acc : eval_value e0 s = Val acc0 ->
    Chain (fun f i j v => SemN s f buf i j v) (repeat f n) i j vs ->
    AccumTo (fun a vs => lambda_bool fd s (VTuple [a; VSeq (Strict vs)])) (fun a v => eval_lambda fu s (VTuple [a; v]))
      acc0 [] vs acc ->
    SemN s (FAccumUntil fd fu e0 t f) buf i j (VTuple [acc; VSeq (Strict vs)])
| SemForEach s e x f l buf i j vs : eval_list e s = Val l ->
    Chain (fun v0 i j v => SemN (SSingle s x v0) f buf i j v) l i j vs ->
    SemN s (FForEach e x f) buf i j (VSeq (Strict vs))
| SemMaybeNo s e f buf i : eval_bool e s = Val false -> SemN s (FMaybe e f) buf i i (VOption None)
| SemMaybeYes s e f buf i j v : eval_bool e s = Val true -> SemN s f buf i j v -> SemN s (FMaybe e f) buf i j (VOption (Some v))
| SemPeek s f buf i j v : SemN s f buf i j v -> SemN s (FPeek f) buf i i v
| SemPeekNot s f buf i : strict = false -> unmatched s f buf i -> SemN s (FPeekNot f) buf i i (VTuple [])
| SemSlice s e f n buf i j v : eval_usize e s = Val n -> i + N.to_nat n <= length buf ->
    SemN s f (firstn (i + N.to_nat n) buf) i j v -> (strict = true -> j = i + N.to_nat n) ->
    SemN s (FSlice e f) buf i (i + N.to_nat n) v
| SemBits s f buf i k v : i <= length buf -> SemN s f (bits_of (skipn i buf)) 0 k v ->
    (strict = true -> usable (bits_of (skipn i buf))) ->
    SemN s (FBits f) buf i (i + (k + 7) / 8) v
| SemWithRelativeOffset s e1 e2 f n1 n2 buf i j v : eval_usize e1 s = Val n1 -> eval_usize e2 s = Val n2 ->
    (n1 + n2 < w64)%N -> (n1 + n2 <= N.of_nat (length buf))%N ->
    SemN s f buf (N.to_nat (n1 + n2)) j v ->
    SemN s (FWithRelativeOffset e1 e2 f) buf i i v
| SemMap s f e buf i j v w : SemN s f buf i j v -> eval_lambda e s v = Val w -> SemN s (FMap f e) buf i j (VMapped v w)
| SemWhere s f e hard b buf i j v : SemN s f buf i j v -> lambda_bool e s v = Val b -> (hard = true -> b = true) ->
    SemN s (FWhere f e hard) buf i j v
| SemCompute s e buf i v : eval_value e s = Val v -> SemN s (FCompute e) buf i i v
| SemLet s x e f buf i j v w : eval_value e s = Val w -> SemN (SSingle s x w) f buf i j v -> SemN s (FLet x e f) buf i j v
| SemMatch s e bs w k s' f buf i j v : eval e s = Val w -> first_match w s 0 bs = Some (k, s', f) ->
    SemN s' f buf i j v -> SemN s (FMatch e bs) buf i j (VBranch k v)
| SemDynamic s x dy g f buf i j v : dyn_format dy s = Val g ->
    (strict = true -> exists ls, dyn_lengths dy s = Val ls /\ enough_codes ls) -> SemN (SDecoder s x g) f buf i j v ->
    SemN s (FDynamic x dy f) buf i j v
| SemApply s x g buf i j v : get_decoder x s = Some g -> SemN s g buf i j v -> SemN s (FApply x) buf i j v
| SemPos s buf i : SemN s FPos buf i i (VU B64 (N.of_nat i))
| SemSkipRemainder s buf i : i <= length buf -> SemN s FSkipRemainder buf i (length buf) VUnit
| SemDecodeBytes s e f bytes buf i j v : eval_bytes e s = Val bytes -> SemN s f bytes 0 j v ->
    (strict = true -> usable bytes /\ j = length bytes) ->
    SemN s (FDecodeBytes e f) buf i i v
| SemLetFormat s f x g buf i j k v w : SemN s f buf i j w -> SemN (SSingle s x w) g buf j k v ->
    SemN s (FLetFormat f x g) buf i k v
| SemMonadSeq s f g buf i j k v w : SemN s f buf i j w -> SemN s g buf j k v -> SemN s (FMonadSeq f g) buf i k v
| SemHint s f buf i j v : SemN s f buf i j v -> SemN s (FHint f) buf i j v
| SemNone s buf i : SemN s (FLiftedOption None) buf i i (VOption None)
| SemSome s f buf i j v : SemN s f buf i j v -> SemN s (FLiftedOption (Some f)) buf i j (VOption (Some v))
| SemLetView s x f buf i j v : SemN (SView s x (RC buf i)) f buf i j v -> SemN s (FLetView x f) buf i j v
| SemCapture s ve e n w buf i j vs : eval_usize e s = Val n -> eval_view s ve = Val (inl w) ->
    Chain (Elem (BK B8 true) (rinput w)) (repeat tt (N.to_nat n)) (roff w) j vs ->
    SemN s (FWithView ve (VFCapture e)) buf i i (VSeq (Strict vs))
| SemReadArray s ve e n w k buf i j vs : eval_usize e s = Val n -> eval_view s ve = Val (inl w) ->
    Chain (Elem k (rinput w)) (repeat tt (N.to_nat n)) (roff w) j vs ->
    SemN s (FWithView ve (VFReadArray e k)) buf i i (VSeq (Strict vs))
| SemReify s ve w buf i : eval_view s ve = Val (inl w) ->
    SemN s (FWithView ve VFReify) buf i i (VView (roff w))
| SemParseFromView s ve f w buf i j v : eval_view s ve = Val (inl w) -> SemN s f (rinput w) (roff w) j v ->
    (strict = true -> usable (rinput w)) ->
    SemN s (FParseFromView ve f) buf i i v
| SemPhantom s f buf i : SemN s (FPhantom f) buf i i VPhantom
| SemPermit s f e buf i j v : SemN s f buf i j v -> SemN s (FPermit f e) buf i j (VPermitOk v)
| SemPermitFailed s f e buf i w : strict = false -> failed s f buf i -> eval_value e s = Val w ->
    SemN s (FPermit f e) buf i i (VPermitErr (Some w)).
End Sem.
(** No condition on those *)
Definition anything (s : scope format) (f : format) (buf : list N) (i : nat) : Prop := True.
Notation Sem M strict := (SemN M strict anything anything).
