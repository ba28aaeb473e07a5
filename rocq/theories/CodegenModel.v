(** The code generator: the parser that src/codegen/mod.rs emits for a decoder, as
    a program over the runtime (ProgModel). [translate] (292-680) and [to_ast]
    (2735-3737) are composed: [gen] gives, for every decoder, what its emitted
    block does.

    Simplifications: a value of an emitted Rust type is a [value] without the
    wrappers [VMapped], [VBranch], [VPermitOk], [VPermitErr], which only the
    interpreter has; an emitted expression evaluates as [eval] does on those
    ([embed_expr] is not modelled); [ReadArray] is the list of its elements; types,
    borrowing, boxing and the text of the code are not modelled; the recursion of
    emitted functions and the number of iterations of a loop are bounded by fuel,
    whose exhaustion is a panic. [Dynamic] is not modelled. *)
From Coq Require Import String Ascii Decimal DecimalString.
From Verif Require ByteSetModel.
From Verif Require Import Base BoundsModel DataModel NumericModel ValueModel FormatModel MatchTreeModel DecoderModel
  ParserModel ProgModel RecordModel.
Open Scope nat_scope.

(** ** Byte predicates *)

(** codegen/mod.rs:684-690 [ByteCriterion] *)
Inductive criterion := CAny | CMustBe (b : N) | COtherThan (b : N) | CWithin (bs : byteset).
(** codegen/mod.rs:5466-5487 [From<&ByteSet> for ByteCriterion]: the empty set is
    [unreachable!] (while code is generated) *)
Definition criterion_of (bs : byteset) : outcome criterion :=
  if ByteSetModel.is_full bs then Val CAny
  else
    let n := ByteSetModel.len bs in
    if N.eqb n 1 then match ByteSetModel.min_elem bs with Some b => Val (CMustBe b) | None => Panic end
    else if N.eqb n 255 then
      match ByteSetModel.min_elem (ByteSetModel.complement bs) with Some b => Val (COtherThan b) | None => Panic end
    else if N.leb 2 n && N.leb n 254 then Val (CWithin bs)
    else Panic.
(** codegen/mod.rs:700-712 [as_predicate] *)
Definition satisfies (c : criterion) (b : N) : bool :=
  match c with
  | CAny => true
  | CMustBe x => N.eqb b x
  | COtherThan x => negb (N.eqb b x)
  | CWithin bs => ByteSetModel.contains bs b
  end.

(** A computation of emitted code that may only panic. *)
Definition plet {A B} (x : outcome A) (k : A -> prog B) : prog B := match x with Val a => k a | Panic => Boom end.

(** ** Lookahead *)

(** The arms of the emitted [match] on a byte: the first whose pattern or guard holds
    (codegen/mod.rs:797-821). *)
Section Arms.
Context (expand : mtree -> prog nat).
Fixpoint arms (bs : list (byteset * mtree)) (b : N) : prog nat :=
  match bs with
  | [] => Fail
  | (set, t) :: r => plet (criterion_of set) (fun c => if satisfies c b then expand t else arms r b)
  end.
End Arms.
(** codegen/mod.rs:741-830 [expand_matchtree]: with several branches the node's own
    [accept] is not used, and [Any] among them is [unreachable!]; a generator panic
    is a panic of the program. *)
Fixpoint expand_tree (t : mtree) : prog nat :=
  match t with
  | MT acc bs =>
    let stop := match acc with Some i => Ret i | None => Fail end in
    match bs with
    | [] => stop
    | [(set, t')] =>
      plet (criterion_of set) (fun c =>
        Bind Read (fun b => if satisfies c b then expand_tree t' else stop))
    | _ =>
      if existsb (fun e => ByteSetModel.is_full (fst e)) bs then Boom
      else Bind Read (arms expand_tree bs)
    end
  end.
(** codegen/mod.rs:735-737 [invoke_matchtree], 739-740 and 832-870: the lookahead is
    made inside a peek *)
Definition invoke_tree (t : mtree) : prog nat := Peek (expand_tree t).

(** ** Names *)

(** The names of the variables emitted code introduces (codegen/model.rs:67-153). *)
Definition n_matching_ix := intern "matching_ix".
Definition n_tmp_cond := intern "tmp_cond".
Definition n_sz := intern "sz".
Definition n_tgt_offset := intern "tgt_offset".
Definition n_is_advance := intern "_is_advance".
Definition n_accum := intern "accum".
Definition n_next_elem := intern "next_elem".
Definition n_reps_left := intern "reps_left".
Definition n_seq := intern "seq".
Definition n_acc := intern "acc".
Definition n_elem := intern "elem".
Definition n_tree_index := intern "tree_index".
Definition n_inner := intern "inner".
Definition n_res := intern "res".
Definition n_err := intern "err".
(** codegen/model.rs:126-127, [format!("{PREFIX}{ix}")] *)
Definition n_ix (i : nat) : label := intern ("ix" ++ NilZero.string_of_uint (Nat.to_uint i))%string.
Definition n_arg (i : nat) : label := intern ("arg" ++ NilZero.string_of_uint (Nat.to_uint i))%string.

(** ** Views *)

(** The variables of the emitted code: a view is its buffer and where that starts
    in the input (parser/view.rs:14-17). *)
Definition env := scope unit.
Definition view := (list N * N)%type.
Definition view_in (w : view) : rctx := RC (fst w) (N.to_nat (snd w)).
Definition view_out (c : rctx) : view := (rinput c, N.of_nat (roff c)).
(** codegen/mod.rs:872-880 [embed_view_expr] *)
Fixpoint gen_view (s : env) (v : viewexpr) : prog view :=
  match v with
  | VEVar x => match get_view x s with Some c => Ret (view_out c) | None => Boom end
  | VEOffset b e =>
    Bind (gen_view s b) (fun w => plet (eval_usize e s) (fun off =>
      match view_offset (fst w) (snd w) off with Some w' => Ret w' | None => Fail end))
  end.
(** codegen/mod.rs:2759-2781: the arguments of a call, in order *)
Fixpoint gen_views (s : env) (vs : list (label * viewexpr)) : prog (list (label * vov)) :=
  match vs with
  | [] => Ret []
  | (x, v) :: r =>
    Bind (gen_view s v) (fun w => Bind (gen_views s r) (fun l => Ret ((x, EntView (view_in w)) :: l)))
  end.
(** codegen/model.rs:251-262 and parser/view.rs:46-66 [as_read_array]: the elements,
    after the length has been checked *)
Fixpoint be_chunks (w : bitwidth) (n : nat) (l : list N) : list value :=
  match n with
  | O => []
  | S n =>
    let k := N.to_nat (nbits w / 8) in
    VU w (from_be_bytes (firstn k l)) :: be_chunks w n (skipn k l)
  end.
Definition read_array (k : basekind) (n : N) (w : view) : prog value :=
  match bk_width k with
  | B8 => if N.leb n (N.of_nat (length (fst w))) then Ret (VSeq (Strict (be_chunks B8 (N.to_nat n) (fst w)))) else Fail
  | b =>
    if bk_be k then
      if N.leb (n * (nbits b / 8)) (N.of_nat (length (fst w))) then Ret (VSeq (Strict (be_chunks b (N.to_nat n) (fst w)))) else Fail
    else Boom
  end.

(** codegen/mod.rs:2912-2918: [base + offset] in the type of the operands *)
Definition target (b o : value) : outcome N :=
  match b, o with
  | VU w x, VU w' y => if bw_eqb w w' then fit w (x + y) else Panic
  | _, _ => obind (unwrap_usize b) (fun x => obind (unwrap_usize o) (fun y => fit B64 (x + y)))
  end.

(** What a [Vec<u8>] can be; anything else does not exist and is a panic. *)
Definition addressable (l : list N) : bool :=
  forallb (fun b => N.ltb b 256) l && N.ltb (8 * N.of_nat (length l) + 8) w64.

Definition vlist (vs : list value) : value := VSeq (Strict vs).

(** ** Emitted blocks *)
Section Gen.
Context (g : env -> decoder -> prog value).
(** codegen/model.rs:355-373 [accum_seq_terms]: every term is bound to a variable.
    Simplification: also where all of them are simple enough to be inlined. *)
Fixpoint gen_terms (name : nat -> label) (i : nat) (s : env) (ds : list decoder) : prog (list value) :=
  match ds with
  | [] => Ret []
  | d :: r => Bind (g s d) (fun v => Bind (gen_terms name (S i) (SSingle s (name i) v) r) (fun vs => Ret (v :: vs)))
  end.
(** codegen/mod.rs:3465-3519 [Alts]: [res] is the result of the previous branch, of
    a type no other expression can have *)
Fixpoint gen_alts (s : env) (d : decoder) (ds : list decoder) : branches value :=
  match ds with
  | [] => BLast (g s d)
  | d' :: r => BMore (g s d) (gen_alts (SSingle s n_res VPhantom) d' r)
  end.
Context (s : env) (d : decoder).
Definition in_loop (acc : list value) (s : env) : env := SSingle s n_accum (vlist acc).
(** codegen/mod.rs:3002-3027 [Repeat0ContinueOnMatch] *)
Fixpoint gen_while (t : mtree) (fuel : nat) (acc : list value) : prog (list value) :=
  match fuel with
  | O => Boom
  | S fuel =>
    Bind Remaining (fun n =>
      if N.eqb n 0 then Ret acc
      else Bind (invoke_tree t) (fun ix =>
        if Nat.eqb ix 0 then
          Bind (g (SSingle (in_loop acc s) n_matching_ix (VUsize (N.of_nat ix))) d) (fun v => gen_while t fuel (acc ++ [v]))
        else Ret acc))
  end.
(** codegen/mod.rs:3028-3058 [Repeat1BreakOnMatch] *)
Fixpoint gen_until (t : mtree) (fuel : nat) (acc : list value) : prog (list value) :=
  match fuel with
  | O => Boom
  | S fuel =>
    Bind Remaining (fun n =>
      if N.eqb n 0 then Ret acc
      else Bind (invoke_tree t) (fun ix =>
        if Nat.eqb ix 0 then match acc with [] => Fail | _ => Ret acc end
        else Bind (g (SSingle (in_loop acc s) n_matching_ix (VUsize (N.of_nat ix))) d) (fun v => gen_until t fuel (acc ++ [v]))))
  end.
(** prelude.rs:506-525 [repeat_between_finished] *)
Definition between_finished (out : bool) (len min max : N) : prog bool :=
  if N.ltb max min then Boom
  else if N.ltb max len then Boom
  else if out && N.ltb len min then Fail
  else Ret (out || N.eqb len max).
(** codegen/mod.rs:3059-3092 [BetweenCounts] *)
Fixpoint gen_between (t : mtree) (emin emax : expr) (fuel : nat) (acc : list value) : prog (list value) :=
  match fuel with
  | O => Boom
  | S fuel =>
    Bind Remaining (fun n =>
      if N.eqb n 0 then Ret acc
      else Bind (invoke_tree t) (fun ix =>
        let s' := SSingle (in_loop acc s) n_reps_left (VUsize (N.of_nat ix)) in
        plet (eval_usize emin s') (fun min => plet (eval_usize emax s') (fun max =>
          Bind (between_finished (Nat.eqb ix 0) (N.of_nat (length acc)) min max) (fun stop : bool =>
            if stop then Ret acc
            else Bind (g s' d) (fun v => gen_between t emin emax fuel (acc ++ [v])))))))
  end.
(** codegen/mod.rs:3115-3135 [ExactCount] *)
Fixpoint gen_count (n : nat) (acc : list value) : prog (list value) :=
  match n with
  | O => Ret acc
  | S n => Bind (g (in_loop acc s) d) (fun v => gen_count n (acc ++ [v]))
  end.
(** codegen/mod.rs:3093-3114 [ForEach] *)
Fixpoint gen_each (x : label) (l : list value) (acc : list value) : prog (list value) :=
  match l with
  | [] => Ret acc
  | a :: l => Bind (g (SSingle (in_loop acc s) x a) d) (fun v => gen_each x l (acc ++ [v]))
  end.
(** codegen/mod.rs:3136-3167 [ConditionTerminal] *)
Fixpoint gen_until_last (e : expr) (fuel : nat) (acc : list value) : prog (list value) :=
  match fuel with
  | O => Boom
  | S fuel =>
    Bind (g (in_loop acc s) d) (fun v =>
      plet (lambda_bool e (SSingle (in_loop acc s) n_next_elem v) v) (fun b : bool =>
        if b then Ret (acc ++ [v]) else gen_until_last e fuel (acc ++ [v])))
  end.
(** codegen/mod.rs:3168-3192 [ConditionComplete] *)
Fixpoint gen_until_seq (e : expr) (fuel : nat) (acc : list value) : prog (list value) :=
  match fuel with
  | O => Boom
  | S fuel =>
    Bind (g (in_loop acc s) d) (fun v =>
      plet (lambda_bool e (SSingle (in_loop (acc ++ [v]) s) n_next_elem v) (vlist (acc ++ [v]))) (fun b : bool =>
        if b then Ret (acc ++ [v]) else gen_until_seq e fuel (acc ++ [v])))
  end.
(** codegen/mod.rs:3193-3249 [AccumUntil] *)
Definition in_unfold (a : value) (vs : list value) (s : env) : env := SSingle (SSingle s n_seq (vlist vs)) n_acc a.
Fixpoint gen_accum (fdone fupdate : expr) (fuel : nat) (a : value) (vs : list value) : prog (value * list value) :=
  match fuel with
  | O => Boom
  | S fuel =>
    let s' := in_unfold a vs s in
    plet (lambda_bool fdone s' (VTuple [a; vlist vs])) (fun b : bool =>
      if b then Ret (a, vs)
      else Bind (g s' d) (fun v =>
        plet (eval_lambda fupdate (SSingle s' n_elem v) (VTuple [a; v])) (fun a' => gen_accum fdone fupdate fuel a' (vs ++ [v]))))
  end.
End Gen.

Definition pmap {A B} (f : A -> B) (p : prog A) : prog B := Bind p (fun a => Ret (f a)).

Section Program.
Context (P : program).
(** codegen/mod.rs:292-680 [translate] followed by [to_ast]; [s] holds the variables
    in scope. *)
Fixpoint gen (fuel : nat) (s : env) (d : decoder) {struct fuel} : prog value :=
  match fuel with
  | O => Boom
  | S fuel =>
    match d with
    (** 2759-2785: the emitted function has its parameters only; 285-290 *)
    | DCall n es vs =>
      plet (call_values s es) (fun l => Bind (gen_views s vs) (fun l' =>
        match nth_error P n with Some d' => gen fuel (SMulti SEmpty (l ++ l')) d' | None => Boom end))
    (** 2754-2758 *)
    | DFail => Fail
    | DEndOfInput => pmap (fun _ => VUnit) Finish
    | DPhantom => Ret VPhantom
    | DSkipRemainder => pmap (fun _ => VUnit) SkipRem
    (** 2790-2803 *)
    | DAlign n => pmap (fun _ => VUnit) (Align n)
    | DPos => pmap (VU B64) Offset
    (** 2804-2829 *)
    | DByte bs => plet (criterion_of bs) (fun c => Bind Read (fun b => if satisfies c b then Ret (VU B8 b) else Fail))
    (** 3639-3682 [VariantOf], [UnitVariantOf]; 305-386 *)
    | DVariant l d => pmap (VVariant l) (gen fuel s d)
    (** 3366-3391 [Descend] *)
    | DBranch t ds =>
      Bind (invoke_tree t) (fun i =>
        match nth_error ds i with Some d => gen fuel (SSingle s n_tree_index (VUsize (N.of_nat i))) d | None => Fail end)
    (** 3464-3519; no alternatives: panic while code is generated *)
    | DParallel [] => Boom
    | DParallel (d :: ds) => Alts (gen_alts (gen fuel) s d ds)
    (** 3276-3341 *)
    | DTuple ds => pmap VTuple (gen_terms (gen fuel) n_arg 0 s ds)
    | DSequence ds => pmap vlist (gen_terms (gen fuel) n_ix 0 s ds)
    | DWhile t d => pmap vlist (gen_while (gen fuel) s d t fuel [])
    | DUntil t d => pmap vlist (gen_until (gen fuel) s d t (S fuel) [])
    | DRepeatBetween t emin emax d => pmap vlist (gen_between (gen fuel) s d t emin emax fuel [])
    | DRepeatCount e d => plet (eval_usize e s) (fun n => pmap vlist (gen_count (gen fuel) s d (N.to_nat n) []))
    | DForEach e x d =>
      plet (obind (eval_value e s) (fun v => match get_sequence v with Some q => Val (vseq_list q) | None => Panic end)) (fun l =>
        pmap vlist (gen_each (gen fuel) s d x l []))
    | DRepeatUntilLast e d => pmap vlist (gen_until_last (gen fuel) s d e fuel [])
    | DRepeatUntilSeq e d => pmap vlist (gen_until_seq (gen fuel) s d e fuel [])
    | DAccumUntil fd fu i d =>
      plet (eval_value i s) (fun a => pmap (fun r => VTuple [fst r; vlist (snd r)]) (gen_accum (gen fuel) s d fd fu fuel a []))
    (** 3550-3595 [DecodeBytes], [ParseView] *)
    | DDecodeBytes e d =>
      plet (obind (eval_value e s) (fun v =>
              match get_sequence v with Some q => omapM get_as_u8 (vseq_list q) | None => Panic end)) (fun bytes =>
        if addressable bytes then OnView bytes 0 (gen fuel s d) else Boom)
    | DParseFromView v d => Bind (gen_view s v) (fun w => OnView (fst w) (snd w) (gen fuel s d))
    (** 3596-3607 [Maybe] *)
    | DMaybe e d =>
      plet (eval_bool e s) (fun b : bool =>
        if b then pmap (fun v => VOption (Some v)) (gen fuel (SSingle s n_tmp_cond (VBool true)) d) else Ret (VOption None))
    (** 3608-3632 [Permit]: the parser stays where the error left it *)
    | DPermit d e =>
      Bind (Catch (gen fuel s d)) (fun o =>
        match o with
        | Some v => Ret v
        | None => plet (eval_value e (SSingle (SSingle s n_res VPhantom) n_err VPhantom)) Ret
        end)
    (** 3683-3695 [MapOf] *)
    | DMap d e => Bind (gen fuel s d) (fun v => plet (eval_lambda e s v) Ret)
    (** 3696-3723 [Where]: with [Severity::Expect] the failure is only logged *)
    | DWhere d e strict =>
      Bind (gen fuel s d) (fun v => plet (lambda_bool e (SSingle s n_inner v) v) (fun b : bool =>
        if b then Ret v else if strict then Fail else Ret v))
    | DCompute e => plet (eval_value e s) Ret
    | DLet x e d => plet (eval_value e s) (fun v => gen fuel (SSingle s x v) d)
    (** 2847-2868 [ViewLogic] *)
    | DLetView x d => Bind GetView (fun w => gen fuel (SView s x (view_in w)) d)
    | DCaptureBytes v len =>
      Bind (gen_view s v) (fun w => plet (eval_usize len s) (fun n =>
        plet (view_read_len (fst w) n) (fun l => Ret (vlist (map (VU B8) l)))))
    | DReadArray v len k => Bind (gen_view s v) (fun w => plet (eval_usize len s) (fun n => read_array k n w))
    | DReifyView v => Bind (gen_view s v) (fun w => Ret (VView (N.to_nat (snd w))))
    (** 3392-3438 [ExprMatch], [LetFormat], [MonadSeq] *)
    | DMatch e bs =>
      plet (eval e s) (fun v => match first_match v s 0 bs with Some (_, s', d) => gen fuel s' d | None => Boom end)
    | DLetFormat da x db => Bind (gen fuel s da) (fun v => gen fuel (SSingle s x v) db)
    | DMonadSeq da db => Bind (gen fuel s da) (fun _ => gen fuel s db)
    | DDynamic _ _ _ | DApply _ => Boom
    (** 2886-2958 [EngineLogic] *)
    | DPeek d => Peek (gen fuel s d)
    | DPeekNot d => pmap (fun _ => VUnit) (PeekNot (gen fuel s d))
    | DSlice e d => plet (eval_usize e s) (fun n => Slice n (gen fuel (SSingle s n_sz (VUsize n)) d))
    | DBits d => BitsOf (gen fuel s d)
    | DWithRelativeOffset base off d =>
      plet (obind (eval_value base s) (fun b => obind (eval_value off s) (target b))) (fun n =>
        OffsetPeek n (gen fuel (SSingle (SSingle s n_tgt_offset (VUsize n)) n_is_advance VPhantom) d))
    (** 2830-2831, 3647-3656 [ConstNone], [WrapSome] *)
    | DLiftedOption None => Ret (VOption None)
    | DLiftedOption (Some d) => pmap (fun v => VOption (Some v)) (gen fuel s d)
    end
  end.
(** A generated parser on an input (the entry point is the first decoder). *)
Definition generated (fuel : nat) (input : list N) : pres value * pst :=
  match P with [] => (PPanic, parser_new input) | d :: _ => exec (gen fuel SEmpty d) (parser_new input) end.
End Program.
