(** Model of src/numeric/elaborator.rs (typed trees of numeric expressions),
    src/numeric/codegen.rs (the Rust code made for them) and of that code's running:
    the functions of src/numeric/eval.rs by their names. *)
From Coq Require Import String.
From Verif Require Import Base BoundsModel NumericModel.
Open Scope string_scope.
Open Scope list_scope.
Open Scope Z_scope.

(** ** Typed trees *)

(** src/numeric/elaborator.rs:9-18 [PrimInt] and 174-176 [IntType] are the eight
    representations; the conversions 101-193 between them are the identity. *)
(** src/numeric/elaborator.rs:243-254 [enum TypedExpr], 440-443 [TypedBinOp], 465-468
    [TypedUnaryOp], 493-496 [TypedCast]. [TypeRep] is an integer type: 226-240, the
    code generator's types that are not integer types are refused (a panic). *)
Inductive ntree :=
| TConst (t : mrep) (c : tconst)
| TBin (t : mrep) (sig : mrep * mrep * mrep) (op : nbinop) (out : option mrep) (l r : ntree)
| TUn (t : mrep) (sig : mrep * mrep) (op : nunop) (out : option mrep) (e : ntree)
| TCast (t : mrep) (sig : mrep * mrep) (out : mrep) (sem : castsem) (e : ntree)
| TVar (t : mrep) (x : label).

(** src/numeric/elaborator.rs:284-292 [get_type] *)
Definition ntype (e : ntree) : mrep :=
  match e with TConst t _ | TBin t _ _ _ _ _ | TUn t _ _ _ _ | TCast t _ _ _ _ | TVar t _ => t end.
(** src/numeric/elaborator.rs:349-361 [From<TypedExpr> for Expr] *)
Fixpoint nerase (e : ntree) : nexpr :=
  match e with
  | TConst _ c => NConst c
  | TBin _ _ op out l r => NBin op out (nerase l) (nerase r)
  | TUn _ _ op out e => NUn op out (nerase e)
  | TCast _ _ out sem e => NCast out sem (nerase e)
  | TVar _ x => NVar x
  end.

(** src/numeric/elaborator.rs:632-682 [elaborate_expr] and, for the code generator,
    src/codegen/mod.rs:4736-4786 [elaborate_num_tree]: [ty] gives the type of each
    variable of the inference engine, [i] is the next variable. [None] is an error, or
    a panic in the code generator. *)
Fixpoint elab_tree (ty : nat -> option mrep) (e : nexpr) (i : nat) : option (ntree * nat) :=
  match e with
  | NConst c => match ty i with Some t => Some (TConst t c, S i) | None => None end
  | NVar x => match ty i with Some t => Some (TVar t x, S i) | None => None end
  | NBin op out a b =>
    match elab_tree ty a (S i) with
    | None => None
    | Some (ta, j) =>
      match elab_tree ty b j with
      | None => None
      | Some (tb, k) =>
        match ty i with Some t => Some (TBin t (ntype ta, ntype tb, t) op out ta tb, k) | None => None end
      end
    end
  | NUn op out a =>
    match elab_tree ty a (S i) with
    | None => None
    | Some (ta, j) => match ty i with Some t => Some (TUn t (ntype ta, t) op out ta, j) | None => None end
    end
  | NCast out sem a =>
    match elab_tree ty a (S i) with
    | None => None
    | Some (ta, j) => match ty i with Some t => Some (TCast t (ntype ta, t) out sem ta, j) | None => None end
    end
  end.

(** ** Classes of operations *)

(** src/numeric/codegen.rs:21-32 [BinOpClass], 36-40 [UnaryOpClass] *)
Inductive bclass := BPure (t : mrep) | BHomWide (t o : mrep) | BHetWide (l r o : mrep) | BHomLossy (t o : mrep) | BHetLossy (l r o : mrep).
Inductive uclass := UPure (t : mrep) | UNonLossy (i o : mrep) | ULossy (i o : mrep).

(** src/numeric/core.rs:366-368 [encompasses], which does not panic: the bounds of the
    representations are not empty. *)
Definition encompasses (a b : mrep) : bool := match rep_encompasses a b with Val x => x | Panic => false end.
(** src/numeric/codegen.rs:58-81 [classify_binary] *)
Definition classify_binary (l r o : mrep) : bclass :=
  if mrep_eqb l r then
    if mrep_eqb o l then BPure l else if encompasses o l then BHomWide l o else BHomLossy l o
  else if encompasses o l && encompasses o r then BHetWide l r o
  else BHetLossy l r o.
(** src/numeric/core.rs:360-362 [compare_width], 161-171 of codegen.rs [absval_is_nonlossy] *)
Definition at_least_as_wide (target source : mrep) : bool :=
  match bw_cmp (bit_width target) (bit_width source) with Eq | Gt => true | Lt => false end.
Definition absval_is_nonlossy (source target : mrep) : bool :=
  if is_signed source then at_least_as_wide target source else encompasses target source.
(** src/numeric/codegen.rs:173-184 [negate_is_nonlossy] *)
Definition negate_is_nonlossy (source target : mrep) : bool :=
  if is_signed source then at_least_as_wide target source else true.
(** src/numeric/codegen.rs:186-192 [succ_is_nonlossy], [pred_is_nonlossy] *)
Definition succ_is_nonlossy (source target : mrep) : bool := encompasses target source.
Definition pred_is_nonlossy (source target : mrep) : bool := encompasses target source.
(** src/numeric/codegen.rs:99-158 [classify_unary]; [None] for a cast *)
Definition classify_unary (op : option nunop) (i o : mrep) : uclass :=
  let fits := match op with
              | None => encompasses o i
              | Some NAbs => absval_is_nonlossy i o
              | Some NNegate => negate_is_nonlossy i o
              | Some NPred => pred_is_nonlossy i o
              | Some NSucc => succ_is_nonlossy i o
              end in
  if mrep_eqb i o then UPure i else if fits then UNonLossy i o else ULossy i o.

(** ** Names of functions *)

(** src/numeric/elaborator.rs:28-39 [to_static_str] *)
Definition rep_str (r : mrep) : string :=
  match is_signed r, bit_width r with
  | false, B8 => "u8" | false, B16 => "u16" | false, B32 => "u32" | false, B64 => "u64"
  | true, B8 => "i8" | true, B16 => "i16" | true, B32 => "i32" | true, B64 => "i64"
  end.
Definition under (l : list string) : string := String.concat "_" l.
(** src/numeric/codegen.rs:197-219 [induce_binary_fname] *)
Definition binop_str (op : nbinop) : string :=
  match op with NAdd => "add" | NSub => "sub" | NMul => "mul" | NDiv => "div" | NRem => "rem" end.
Definition binary_fname (op : nbinop) (c : bclass) : string :=
  match c with
  | BPure t => under [binop_str op; rep_str t]
  | BHomWide t0 t1 | BHomLossy t0 t1 => under [binop_str op; rep_str t0; rep_str t1]
  | BHetWide t0 t1 t2 | BHetLossy t0 t1 t2 => under [binop_str op; rep_str t0; rep_str t1; rep_str t2]
  end.
(** src/numeric/codegen.rs:221-235 [induce_unary_fname] *)
Definition unop_str (op : nunop) : string :=
  match op with NNegate => "neg" | NAbs => "abs" | NPred => "pred" | NSucc => "succ" end.
Definition unary_fname (op : nunop) (c : uclass) : string :=
  match c with
  | UPure t => under [unop_str op; rep_str t]
  | UNonLossy t0 t1 | ULossy t0 t1 => under [unop_str op; rep_str t0; rep_str t1]
  end.
(** src/numeric/codegen.rs:237-246 [induce_cast_fname]; a pure class is a panic, and does
    not occur. *)
Definition cast_fname (i o : mrep) : string := under ["cast"; rep_str i; rep_str o].

(** ** The code *)

(** The Rust expressions that are made: a local variable, a literal with its type as
    suffix, [f(a, ..).eval()?], the two fallbacks (src/numeric/eval.rs:540-569
    [eval_fallback] and 808-830 [eval_unary_fallback], with [.eval()?], the name that is
    only printed and the operation of the closure), and [a as t]. *)
Inductive rnum :=
| RLocal (x : label)
| RLiteral (z : Z) (t : mrep)
| RInvoke1 (fname : string) (a : rnum)
| RInvoke2 (fname : string) (a b : rnum)
| RFallback2 (t0 t1 t2 : mrep) (a b : rnum) (hint : string) (op : nbinop)
| RFallback1 (t0 t1 : mrep) (a : rnum) (hint : string) (op : nunop)
| RAs (a : rnum) (t : mrep).

(** src/numeric/codegen.rs:301-422 [synthesize], with 248-269 [synthesize_unary] and
    271-299 [synthesize_binop]: the closure's operation is named by the operation. *)
Fixpoint synthesize (e : ntree) : rnum :=
  match e with
  | TVar _ x => RLocal x
  | TConst t c => RLiteral (tc_val c) t
  | TBin _ (tl, tr, to) op _ l r =>
    let a := synthesize l in
    let b := synthesize r in
    let c := classify_binary tl tr to in
    match c with
    | BPure _ | BHomWide _ _ | BHetWide _ _ _ => RInvoke2 (binary_fname op c) a b
    | BHomLossy t0 t2 => RFallback2 t0 t0 t2 a b (binary_fname op c) op
    | BHetLossy t0 t1 t2 => RFallback2 t0 t1 t2 a b (binary_fname op c) op
    end
  | TUn _ (ti, to) op _ e =>
    let a := synthesize e in
    let c := classify_unary (Some op) ti to in
    match c with
    | UPure _ | UNonLossy _ _ => RInvoke1 (unary_fname op c) a
    | ULossy t0 t1 => RFallback1 t0 t1 a (unary_fname op c) op
    end
  | TCast _ (ti, to) _ sem e =>
    let a := synthesize e in
    match sem with
    | Arithmetic =>
      match classify_unary None ti to with
      | UPure _ => a
      | UNonLossy t0 t1 | ULossy t0 t1 => RInvoke1 (cast_fname t0 t1) a
      end
    | Bitwise => RAs a to
    end
  end.

(** ** The functions of src/numeric/eval.rs *)

(** What each macro defines, at given types: eval.rs:98-207 the binary operations,
    576-593 [negate_as_signed!], 599-620 [negate_into_unsigned!], 623-637
    [negate_unsigned_unsigned!], 640-651 [abs_as_signed!] at one type and 652-662 at two,
    666-681 [abs_signed_unsigned!], 684-703 [abs_unsigned_unsigned!], 836-846
    [direct_cast!], 849-864 [attempt_cast!]. *)
Inductive nfun :=
| FBin (op : nbinop) (l r o : mrep)
| FNegSigned (i o : mrep) | FNegUnsigned (i o : mrep) | FNegInto (i o : mrep)
| FAbsSame (i : mrep) | FAbsSigned (i o : mrep) | FAbsInto (i o : mrep) | FAbsUnsigned (i o : mrep)
| FDirect (i o : mrep) | FAttempt (i o : mrep).

(** src/numeric/eval.rs:212-240 [homogenous!] *)
Definition functions1 : list (string * nfun) :=
  [ ("add_u8", FBin NAdd rU8 rU8 rU8); ("add_u16", FBin NAdd rU16 rU16 rU16);
    ("add_u32", FBin NAdd rU32 rU32 rU32); ("add_u64", FBin NAdd rU64 rU64 rU64);
    ("add_i8", FBin NAdd rI8 rI8 rI8); ("add_i16", FBin NAdd rI16 rI16 rI16);
    ("add_i32", FBin NAdd rI32 rI32 rI32); ("add_i64", FBin NAdd rI64 rI64 rI64);
    ("sub_u8", FBin NSub rU8 rU8 rU8); ("sub_u16", FBin NSub rU16 rU16 rU16);
    ("sub_u32", FBin NSub rU32 rU32 rU32); ("sub_u64", FBin NSub rU64 rU64 rU64);
    ("sub_i8", FBin NSub rI8 rI8 rI8); ("sub_i16", FBin NSub rI16 rI16 rI16);
    ("sub_i32", FBin NSub rI32 rI32 rI32); ("sub_i64", FBin NSub rI64 rI64 rI64);
    ("mul_u8", FBin NMul rU8 rU8 rU8); ("mul_u16", FBin NMul rU16 rU16 rU16);
    ("mul_u32", FBin NMul rU32 rU32 rU32); ("mul_u64", FBin NMul rU64 rU64 rU64);
    ("mul_i8", FBin NMul rI8 rI8 rI8); ("mul_i16", FBin NMul rI16 rI16 rI16);
    ("mul_i32", FBin NMul rI32 rI32 rI32); ("mul_i64", FBin NMul rI64 rI64 rI64) ].
(** src/numeric/eval.rs:244-263 [homogenous_quotient!] *)
Definition functions2 : list (string * nfun) :=
  [ ("div_u8", FBin NDiv rU8 rU8 rU8); ("div_u16", FBin NDiv rU16 rU16 rU16);
    ("div_u32", FBin NDiv rU32 rU32 rU32); ("div_u64", FBin NDiv rU64 rU64 rU64);
    ("div_i8", FBin NDiv rI8 rI8 rI8); ("div_i16", FBin NDiv rI16 rI16 rI16);
    ("div_i32", FBin NDiv rI32 rI32 rI32); ("div_i64", FBin NDiv rI64 rI64 rI64);
    ("rem_u8", FBin NRem rU8 rU8 rU8); ("rem_u16", FBin NRem rU16 rU16 rU16);
    ("rem_u32", FBin NRem rU32 rU32 rU32); ("rem_u64", FBin NRem rU64 rU64 rU64);
    ("rem_i8", FBin NRem rI8 rI8 rI8); ("rem_i16", FBin NRem rI16 rI16 rI16);
    ("rem_i32", FBin NRem rI32 rI32 rI32); ("rem_i64", FBin NRem rI64 rI64 rI64) ].
(** src/numeric/eval.rs:270-292 [widening!] *)
Definition functions3 : list (string * nfun) :=
  [ ("add_u8_u16", FBin NAdd rU8 rU8 rU16); ("add_u8_u32", FBin NAdd rU8 rU8 rU32);
    ("add_u8_u64", FBin NAdd rU8 rU8 rU64); ("add_u8_i16", FBin NAdd rU8 rU8 rI16);
    ("add_u8_i32", FBin NAdd rU8 rU8 rI32); ("add_u8_i64", FBin NAdd rU8 rU8 rI64);
    ("add_u16_u32", FBin NAdd rU16 rU16 rU32); ("add_u16_u64", FBin NAdd rU16 rU16 rU64);
    ("add_u16_i32", FBin NAdd rU16 rU16 rI32); ("add_u16_i64", FBin NAdd rU16 rU16 rI64);
    ("add_u32_u64", FBin NAdd rU32 rU32 rU64); ("add_u32_i64", FBin NAdd rU32 rU32 rI64);
    ("add_i8_i16", FBin NAdd rI8 rI8 rI16); ("add_i8_i32", FBin NAdd rI8 rI8 rI32);
    ("add_i8_i64", FBin NAdd rI8 rI8 rI64); ("add_i16_i32", FBin NAdd rI16 rI16 rI32);
    ("add_i16_i64", FBin NAdd rI16 rI16 rI64); ("add_i32_i64", FBin NAdd rI32 rI32 rI64);
    ("sub_u8_u16", FBin NSub rU8 rU8 rU16); ("sub_u8_u32", FBin NSub rU8 rU8 rU32);
    ("sub_u8_u64", FBin NSub rU8 rU8 rU64); ("sub_u8_i16", FBin NSub rU8 rU8 rI16);
    ("sub_u8_i32", FBin NSub rU8 rU8 rI32); ("sub_u8_i64", FBin NSub rU8 rU8 rI64);
    ("sub_u16_u32", FBin NSub rU16 rU16 rU32); ("sub_u16_u64", FBin NSub rU16 rU16 rU64);
    ("sub_u16_i32", FBin NSub rU16 rU16 rI32); ("sub_u16_i64", FBin NSub rU16 rU16 rI64);
    ("sub_u32_u64", FBin NSub rU32 rU32 rU64); ("sub_u32_i64", FBin NSub rU32 rU32 rI64);
    ("sub_i8_i16", FBin NSub rI8 rI8 rI16); ("sub_i8_i32", FBin NSub rI8 rI8 rI32);
    ("sub_i8_i64", FBin NSub rI8 rI8 rI64); ("sub_i16_i32", FBin NSub rI16 rI16 rI32);
    ("sub_i16_i64", FBin NSub rI16 rI16 rI64); ("sub_i32_i64", FBin NSub rI32 rI32 rI64);
    ("mul_u8_u16", FBin NMul rU8 rU8 rU16); ("mul_u8_u32", FBin NMul rU8 rU8 rU32);
    ("mul_u8_u64", FBin NMul rU8 rU8 rU64); ("mul_u8_i16", FBin NMul rU8 rU8 rI16);
    ("mul_u8_i32", FBin NMul rU8 rU8 rI32); ("mul_u8_i64", FBin NMul rU8 rU8 rI64);
    ("mul_u16_u32", FBin NMul rU16 rU16 rU32); ("mul_u16_u64", FBin NMul rU16 rU16 rU64);
    ("mul_u16_i32", FBin NMul rU16 rU16 rI32); ("mul_u16_i64", FBin NMul rU16 rU16 rI64);
    ("mul_u32_u64", FBin NMul rU32 rU32 rU64); ("mul_u32_i64", FBin NMul rU32 rU32 rI64);
    ("mul_i8_i16", FBin NMul rI8 rI8 rI16); ("mul_i8_i32", FBin NMul rI8 rI8 rI32);
    ("mul_i8_i64", FBin NMul rI8 rI8 rI64); ("mul_i16_i32", FBin NMul rI16 rI16 rI32);
    ("mul_i16_i64", FBin NMul rI16 rI16 rI64); ("mul_i32_i64", FBin NMul rI32 rI32 rI64) ].
(** src/numeric/eval.rs:296-313 [widening_quotient!] *)
Definition functions4 : list (string * nfun) :=
  [ ("div_u8_u16", FBin NDiv rU8 rU8 rU16); ("div_u8_u32", FBin NDiv rU8 rU8 rU32);
    ("div_u8_u64", FBin NDiv rU8 rU8 rU64); ("div_u8_i16", FBin NDiv rU8 rU8 rI16);
    ("div_u8_i32", FBin NDiv rU8 rU8 rI32); ("div_u8_i64", FBin NDiv rU8 rU8 rI64);
    ("div_u16_u32", FBin NDiv rU16 rU16 rU32); ("div_u16_u64", FBin NDiv rU16 rU16 rU64);
    ("div_u16_i32", FBin NDiv rU16 rU16 rI32); ("div_u16_i64", FBin NDiv rU16 rU16 rI64);
    ("div_u32_u64", FBin NDiv rU32 rU32 rU64); ("div_u32_i64", FBin NDiv rU32 rU32 rI64);
    ("div_i8_i16", FBin NDiv rI8 rI8 rI16); ("div_i8_i32", FBin NDiv rI8 rI8 rI32);
    ("div_i8_i64", FBin NDiv rI8 rI8 rI64); ("div_i16_i32", FBin NDiv rI16 rI16 rI32);
    ("div_i16_i64", FBin NDiv rI16 rI16 rI64); ("div_i32_i64", FBin NDiv rI32 rI32 rI64);
    ("rem_u8_u16", FBin NRem rU8 rU8 rU16); ("rem_u8_u32", FBin NRem rU8 rU8 rU32);
    ("rem_u8_u64", FBin NRem rU8 rU8 rU64); ("rem_u8_i16", FBin NRem rU8 rU8 rI16);
    ("rem_u8_i32", FBin NRem rU8 rU8 rI32); ("rem_u8_i64", FBin NRem rU8 rU8 rI64);
    ("rem_u16_u32", FBin NRem rU16 rU16 rU32); ("rem_u16_u64", FBin NRem rU16 rU16 rU64);
    ("rem_u16_i32", FBin NRem rU16 rU16 rI32); ("rem_u16_i64", FBin NRem rU16 rU16 rI64);
    ("rem_u32_u64", FBin NRem rU32 rU32 rU64); ("rem_u32_i64", FBin NRem rU32 rU32 rI64);
    ("rem_i8_i16", FBin NRem rI8 rI8 rI16); ("rem_i8_i32", FBin NRem rI8 rI8 rI32);
    ("rem_i8_i64", FBin NRem rI8 rI8 rI64); ("rem_i16_i32", FBin NRem rI16 rI16 rI32);
    ("rem_i16_i64", FBin NRem rI16 rI16 rI64); ("rem_i32_i64", FBin NRem rI32 rI32 rI64) ].
(** src/numeric/eval.rs:317-445 [mixed_widening!] *)
Definition functions5 : list (string * nfun) :=
  [ ("add_u8_i8_i16", FBin NAdd rU8 rI8 rI16); ("add_u8_i8_i32", FBin NAdd rU8 rI8 rI32);
    ("add_u8_i8_i64", FBin NAdd rU8 rI8 rI64); ("add_i8_u8_i16", FBin NAdd rI8 rU8 rI16);
    ("add_i8_u8_i32", FBin NAdd rI8 rU8 rI32); ("add_i8_u8_i64", FBin NAdd rI8 rU8 rI64);
    ("add_u16_u8_u16", FBin NAdd rU16 rU8 rU16); ("add_u16_u8_u32", FBin NAdd rU16 rU8 rU32);
    ("add_u16_u8_u64", FBin NAdd rU16 rU8 rU64); ("add_u16_u8_i32", FBin NAdd rU16 rU8 rI32);
    ("add_u16_u8_i64", FBin NAdd rU16 rU8 rI64); ("add_u8_u16_u16", FBin NAdd rU8 rU16 rU16);
    ("add_u8_u16_u32", FBin NAdd rU8 rU16 rU32); ("add_u8_u16_u64", FBin NAdd rU8 rU16 rU64);
    ("add_u8_u16_i32", FBin NAdd rU8 rU16 rI32); ("add_u8_u16_i64", FBin NAdd rU8 rU16 rI64);
    ("add_u16_i8_i32", FBin NAdd rU16 rI8 rI32); ("add_u16_i8_i64", FBin NAdd rU16 rI8 rI64);
    ("add_i8_u16_i32", FBin NAdd rI8 rU16 rI32); ("add_i8_u16_i64", FBin NAdd rI8 rU16 rI64);
    ("add_i16_u8_i16", FBin NAdd rI16 rU8 rI16); ("add_i16_u8_i32", FBin NAdd rI16 rU8 rI32);
    ("add_i16_u8_i64", FBin NAdd rI16 rU8 rI64); ("add_u8_i16_i16", FBin NAdd rU8 rI16 rI16);
    ("add_u8_i16_i32", FBin NAdd rU8 rI16 rI32); ("add_u8_i16_i64", FBin NAdd rU8 rI16 rI64);
    ("add_i16_i8_i16", FBin NAdd rI16 rI8 rI16); ("add_i16_i8_i32", FBin NAdd rI16 rI8 rI32);
    ("add_i16_i8_i64", FBin NAdd rI16 rI8 rI64); ("add_i8_i16_i16", FBin NAdd rI8 rI16 rI16);
    ("add_i8_i16_i32", FBin NAdd rI8 rI16 rI32); ("add_i8_i16_i64", FBin NAdd rI8 rI16 rI64);
    ("add_u16_i16_i32", FBin NAdd rU16 rI16 rI32); ("add_u16_i16_i64", FBin NAdd rU16 rI16 rI64);
    ("add_i16_u16_i32", FBin NAdd rI16 rU16 rI32); ("add_i16_u16_i64", FBin NAdd rI16 rU16 rI64);
    ("add_u32_u8_u32", FBin NAdd rU32 rU8 rU32); ("add_u32_u8_u64", FBin NAdd rU32 rU8 rU64);
    ("add_u32_u8_i64", FBin NAdd rU32 rU8 rI64); ("add_u8_u32_u32", FBin NAdd rU8 rU32 rU32);
    ("add_u8_u32_u64", FBin NAdd rU8 rU32 rU64); ("add_u8_u32_i64", FBin NAdd rU8 rU32 rI64);
    ("add_u32_i8_i64", FBin NAdd rU32 rI8 rI64); ("add_i8_u32_i64", FBin NAdd rI8 rU32 rI64);
    ("add_u32_u16_u32", FBin NAdd rU32 rU16 rU32); ("add_u32_u16_u64", FBin NAdd rU32 rU16 rU64);
    ("add_u32_u16_i64", FBin NAdd rU32 rU16 rI64); ("add_u16_u32_u32", FBin NAdd rU16 rU32 rU32);
    ("add_u16_u32_u64", FBin NAdd rU16 rU32 rU64); ("add_u16_u32_i64", FBin NAdd rU16 rU32 rI64);
    ("add_u32_i16_i64", FBin NAdd rU32 rI16 rI64); ("add_i16_u32_i64", FBin NAdd rI16 rU32 rI64);
    ("add_i32_u8_i32", FBin NAdd rI32 rU8 rI32); ("add_i32_u8_i64", FBin NAdd rI32 rU8 rI64);
    ("add_u8_i32_i32", FBin NAdd rU8 rI32 rI32); ("add_u8_i32_i64", FBin NAdd rU8 rI32 rI64);
    ("add_i32_i8_i32", FBin NAdd rI32 rI8 rI32); ("add_i32_i8_i64", FBin NAdd rI32 rI8 rI64);
    ("add_i8_i32_i32", FBin NAdd rI8 rI32 rI32); ("add_i8_i32_i64", FBin NAdd rI8 rI32 rI64);
    ("add_i32_u16_i32", FBin NAdd rI32 rU16 rI32); ("add_i32_u16_i64", FBin NAdd rI32 rU16 rI64);
    ("add_u16_i32_i32", FBin NAdd rU16 rI32 rI32); ("add_u16_i32_i64", FBin NAdd rU16 rI32 rI64);
    ("add_i32_i16_i32", FBin NAdd rI32 rI16 rI32); ("add_i32_i16_i64", FBin NAdd rI32 rI16 rI64);
    ("add_i16_i32_i32", FBin NAdd rI16 rI32 rI32); ("add_i16_i32_i64", FBin NAdd rI16 rI32 rI64);
    ("add_u32_i32_i64", FBin NAdd rU32 rI32 rI64); ("add_i32_u32_i64", FBin NAdd rI32 rU32 rI64);
    ("sub_u8_i8_i16", FBin NSub rU8 rI8 rI16); ("sub_u8_i8_i32", FBin NSub rU8 rI8 rI32);
    ("sub_u8_i8_i64", FBin NSub rU8 rI8 rI64); ("sub_i8_u8_i16", FBin NSub rI8 rU8 rI16);
    ("sub_i8_u8_i32", FBin NSub rI8 rU8 rI32); ("sub_i8_u8_i64", FBin NSub rI8 rU8 rI64);
    ("sub_u16_u8_u16", FBin NSub rU16 rU8 rU16); ("sub_u16_u8_u32", FBin NSub rU16 rU8 rU32);
    ("sub_u16_u8_u64", FBin NSub rU16 rU8 rU64); ("sub_u16_u8_i32", FBin NSub rU16 rU8 rI32);
    ("sub_u16_u8_i64", FBin NSub rU16 rU8 rI64); ("sub_u8_u16_u16", FBin NSub rU8 rU16 rU16);
    ("sub_u8_u16_u32", FBin NSub rU8 rU16 rU32); ("sub_u8_u16_u64", FBin NSub rU8 rU16 rU64);
    ("sub_u8_u16_i32", FBin NSub rU8 rU16 rI32); ("sub_u8_u16_i64", FBin NSub rU8 rU16 rI64);
    ("sub_u16_i8_i32", FBin NSub rU16 rI8 rI32); ("sub_u16_i8_i64", FBin NSub rU16 rI8 rI64);
    ("sub_i8_u16_i32", FBin NSub rI8 rU16 rI32); ("sub_i8_u16_i64", FBin NSub rI8 rU16 rI64);
    ("sub_u8_i16_i16", FBin NSub rU8 rI16 rI16); ("sub_u8_i16_i32", FBin NSub rU8 rI16 rI32);
    ("sub_u8_i16_i64", FBin NSub rU8 rI16 rI64); ("sub_i16_u8_i16", FBin NSub rI16 rU8 rI16);
    ("sub_i16_u8_i32", FBin NSub rI16 rU8 rI32); ("sub_i16_u8_i64", FBin NSub rI16 rU8 rI64);
    ("sub_i8_i16_i16", FBin NSub rI8 rI16 rI16); ("sub_i8_i16_i32", FBin NSub rI8 rI16 rI32);
    ("sub_i8_i16_i64", FBin NSub rI8 rI16 rI64); ("sub_i16_i8_i16", FBin NSub rI16 rI8 rI16);
    ("sub_i16_i8_i32", FBin NSub rI16 rI8 rI32); ("sub_i16_i8_i64", FBin NSub rI16 rI8 rI64);
    ("sub_u16_i16_i32", FBin NSub rU16 rI16 rI32); ("sub_u16_i16_i64", FBin NSub rU16 rI16 rI64);
    ("sub_i16_u16_i32", FBin NSub rI16 rU16 rI32); ("sub_i16_u16_i64", FBin NSub rI16 rU16 rI64);
    ("sub_u32_u8_u32", FBin NSub rU32 rU8 rU32); ("sub_u32_u8_u64", FBin NSub rU32 rU8 rU64);
    ("sub_u32_u8_i64", FBin NSub rU32 rU8 rI64); ("sub_u8_u32_u32", FBin NSub rU8 rU32 rU32);
    ("sub_u8_u32_u64", FBin NSub rU8 rU32 rU64); ("sub_u8_u32_i64", FBin NSub rU8 rU32 rI64);
    ("sub_u32_i8_i64", FBin NSub rU32 rI8 rI64); ("sub_i8_u32_i64", FBin NSub rI8 rU32 rI64);
    ("sub_u32_u16_u32", FBin NSub rU32 rU16 rU32); ("sub_u32_u16_u64", FBin NSub rU32 rU16 rU64);
    ("sub_u32_u16_i64", FBin NSub rU32 rU16 rI64); ("sub_u16_u32_u32", FBin NSub rU16 rU32 rU32);
    ("sub_u16_u32_u64", FBin NSub rU16 rU32 rU64); ("sub_u16_u32_i64", FBin NSub rU16 rU32 rI64);
    ("sub_u32_i16_i64", FBin NSub rU32 rI16 rI64); ("sub_i16_u32_i64", FBin NSub rI16 rU32 rI64);
    ("sub_i32_u8_i32", FBin NSub rI32 rU8 rI32); ("sub_i32_u8_i64", FBin NSub rI32 rU8 rI64);
    ("sub_u8_i32_i32", FBin NSub rU8 rI32 rI32); ("sub_u8_i32_i64", FBin NSub rU8 rI32 rI64);
    ("sub_i32_i8_i32", FBin NSub rI32 rI8 rI32); ("sub_i32_i8_i64", FBin NSub rI32 rI8 rI64);
    ("sub_i8_i32_i32", FBin NSub rI8 rI32 rI32); ("sub_i8_i32_i64", FBin NSub rI8 rI32 rI64);
    ("sub_i32_u16_i32", FBin NSub rI32 rU16 rI32); ("sub_i32_u16_i64", FBin NSub rI32 rU16 rI64);
    ("sub_u16_i32_i32", FBin NSub rU16 rI32 rI32); ("sub_u16_i32_i64", FBin NSub rU16 rI32 rI64);
    ("sub_i32_i16_i32", FBin NSub rI32 rI16 rI32); ("sub_i32_i16_i64", FBin NSub rI32 rI16 rI64);
    ("sub_i16_i32_i32", FBin NSub rI16 rI32 rI32); ("sub_i16_i32_i64", FBin NSub rI16 rI32 rI64);
    ("sub_u32_i32_i64", FBin NSub rU32 rI32 rI64); ("sub_i32_u32_i64", FBin NSub rI32 rU32 rI64);
    ("mul_u8_i8_i16", FBin NMul rU8 rI8 rI16); ("mul_u8_i8_i32", FBin NMul rU8 rI8 rI32);
    ("mul_u8_i8_i64", FBin NMul rU8 rI8 rI64); ("mul_i8_u8_i16", FBin NMul rI8 rU8 rI16);
    ("mul_i8_u8_i32", FBin NMul rI8 rU8 rI32); ("mul_i8_u8_i64", FBin NMul rI8 rU8 rI64);
    ("mul_u16_u8_u16", FBin NMul rU16 rU8 rU16); ("mul_u16_u8_u32", FBin NMul rU16 rU8 rU32);
    ("mul_u16_u8_u64", FBin NMul rU16 rU8 rU64); ("mul_u16_u8_i32", FBin NMul rU16 rU8 rI32);
    ("mul_u16_u8_i64", FBin NMul rU16 rU8 rI64); ("mul_u8_u16_u16", FBin NMul rU8 rU16 rU16);
    ("mul_u8_u16_u32", FBin NMul rU8 rU16 rU32); ("mul_u8_u16_u64", FBin NMul rU8 rU16 rU64);
    ("mul_u8_u16_i32", FBin NMul rU8 rU16 rI32); ("mul_u8_u16_i64", FBin NMul rU8 rU16 rI64);
    ("mul_u16_i8_i32", FBin NMul rU16 rI8 rI32); ("mul_u16_i8_i64", FBin NMul rU16 rI8 rI64);
    ("mul_i8_u16_i32", FBin NMul rI8 rU16 rI32); ("mul_i8_u16_i64", FBin NMul rI8 rU16 rI64);
    ("mul_u8_i16_i16", FBin NMul rU8 rI16 rI16); ("mul_u8_i16_i32", FBin NMul rU8 rI16 rI32);
    ("mul_u8_i16_i64", FBin NMul rU8 rI16 rI64); ("mul_i16_u8_i16", FBin NMul rI16 rU8 rI16);
    ("mul_i16_u8_i32", FBin NMul rI16 rU8 rI32); ("mul_i16_u8_i64", FBin NMul rI16 rU8 rI64);
    ("mul_i8_i16_i16", FBin NMul rI8 rI16 rI16); ("mul_i8_i16_i32", FBin NMul rI8 rI16 rI32);
    ("mul_i8_i16_i64", FBin NMul rI8 rI16 rI64); ("mul_i16_i8_i16", FBin NMul rI16 rI8 rI16);
    ("mul_i16_i8_i32", FBin NMul rI16 rI8 rI32); ("mul_i16_i8_i64", FBin NMul rI16 rI8 rI64);
    ("mul_u16_i16_i32", FBin NMul rU16 rI16 rI32); ("mul_u16_i16_i64", FBin NMul rU16 rI16 rI64);
    ("mul_i16_u16_i32", FBin NMul rI16 rU16 rI32); ("mul_i16_u16_i64", FBin NMul rI16 rU16 rI64);
    ("mul_u32_u8_u32", FBin NMul rU32 rU8 rU32); ("mul_u32_u8_u64", FBin NMul rU32 rU8 rU64);
    ("mul_u32_u8_i64", FBin NMul rU32 rU8 rI64); ("mul_u8_u32_u32", FBin NMul rU8 rU32 rU32);
    ("mul_u8_u32_u64", FBin NMul rU8 rU32 rU64); ("mul_u8_u32_i64", FBin NMul rU8 rU32 rI64);
    ("mul_u32_i8_i64", FBin NMul rU32 rI8 rI64); ("mul_i8_u32_i64", FBin NMul rI8 rU32 rI64);
    ("mul_u32_u16_u32", FBin NMul rU32 rU16 rU32); ("mul_u32_u16_u64", FBin NMul rU32 rU16 rU64);
    ("mul_u32_u16_i64", FBin NMul rU32 rU16 rI64); ("mul_u16_u32_u32", FBin NMul rU16 rU32 rU32);
    ("mul_u16_u32_u64", FBin NMul rU16 rU32 rU64); ("mul_u16_u32_i64", FBin NMul rU16 rU32 rI64);
    ("mul_u32_i16_i64", FBin NMul rU32 rI16 rI64); ("mul_i16_u32_i64", FBin NMul rI16 rU32 rI64);
    ("mul_i32_u8_i32", FBin NMul rI32 rU8 rI32); ("mul_i32_u8_i64", FBin NMul rI32 rU8 rI64);
    ("mul_u8_i32_i32", FBin NMul rU8 rI32 rI32); ("mul_u8_i32_i64", FBin NMul rU8 rI32 rI64);
    ("mul_i32_i8_i32", FBin NMul rI32 rI8 rI32); ("mul_i32_i8_i64", FBin NMul rI32 rI8 rI64);
    ("mul_i8_i32_i32", FBin NMul rI8 rI32 rI32); ("mul_i8_i32_i64", FBin NMul rI8 rI32 rI64);
    ("mul_i32_u16_i32", FBin NMul rI32 rU16 rI32); ("mul_i32_u16_i64", FBin NMul rI32 rU16 rI64);
    ("mul_u16_i32_i32", FBin NMul rU16 rI32 rI32); ("mul_u16_i32_i64", FBin NMul rU16 rI32 rI64);
    ("mul_i32_i16_i32", FBin NMul rI32 rI16 rI32); ("mul_i32_i16_i64", FBin NMul rI32 rI16 rI64);
    ("mul_i16_i32_i32", FBin NMul rI16 rI32 rI32); ("mul_i16_i32_i64", FBin NMul rI16 rI32 rI64);
    ("mul_u32_i32_i64", FBin NMul rU32 rI32 rI64); ("mul_i32_u32_i64", FBin NMul rI32 rU32 rI64) ].
(** src/numeric/eval.rs:448-535 [mixed_widening_quotient!] *)
Definition functions6 : list (string * nfun) :=
  [ ("div_u8_i8_i16", FBin NDiv rU8 rI8 rI16); ("div_u8_i8_i32", FBin NDiv rU8 rI8 rI32);
    ("div_u8_i8_i64", FBin NDiv rU8 rI8 rI64); ("div_i8_u8_i16", FBin NDiv rI8 rU8 rI16);
    ("div_i8_u8_i32", FBin NDiv rI8 rU8 rI32); ("div_i8_u8_i64", FBin NDiv rI8 rU8 rI64);
    ("div_u16_u8_u16", FBin NDiv rU16 rU8 rU16); ("div_u16_u8_u32", FBin NDiv rU16 rU8 rU32);
    ("div_u16_u8_u64", FBin NDiv rU16 rU8 rU64); ("div_u16_u8_i32", FBin NDiv rU16 rU8 rI32);
    ("div_u16_u8_i64", FBin NDiv rU16 rU8 rI64); ("div_u8_u16_u16", FBin NDiv rU8 rU16 rU16);
    ("div_u8_u16_u32", FBin NDiv rU8 rU16 rU32); ("div_u8_u16_u64", FBin NDiv rU8 rU16 rU64);
    ("div_u8_u16_i32", FBin NDiv rU8 rU16 rI32); ("div_u8_u16_i64", FBin NDiv rU8 rU16 rI64);
    ("div_u16_i8_i32", FBin NDiv rU16 rI8 rI32); ("div_u16_i8_i64", FBin NDiv rU16 rI8 rI64);
    ("div_i8_u16_i32", FBin NDiv rI8 rU16 rI32); ("div_i8_u16_i64", FBin NDiv rI8 rU16 rI64);
    ("div_i16_u8_i16", FBin NDiv rI16 rU8 rI16); ("div_i16_u8_i32", FBin NDiv rI16 rU8 rI32);
    ("div_i16_u8_i64", FBin NDiv rI16 rU8 rI64); ("div_u8_i16_i16", FBin NDiv rU8 rI16 rI16);
    ("div_u8_i16_i32", FBin NDiv rU8 rI16 rI32); ("div_u8_i16_i64", FBin NDiv rU8 rI16 rI64);
    ("div_i16_i8_i16", FBin NDiv rI16 rI8 rI16); ("div_i16_i8_i32", FBin NDiv rI16 rI8 rI32);
    ("div_i16_i8_i64", FBin NDiv rI16 rI8 rI64); ("div_i8_i16_i16", FBin NDiv rI8 rI16 rI16);
    ("div_i8_i16_i32", FBin NDiv rI8 rI16 rI32); ("div_i8_i16_i64", FBin NDiv rI8 rI16 rI64);
    ("div_u16_i16_i32", FBin NDiv rU16 rI16 rI32); ("div_u16_i16_i64", FBin NDiv rU16 rI16 rI64);
    ("div_i16_u16_i32", FBin NDiv rI16 rU16 rI32); ("div_i16_u16_i64", FBin NDiv rI16 rU16 rI64);
    ("div_u32_u8_u32", FBin NDiv rU32 rU8 rU32); ("div_u32_u8_u64", FBin NDiv rU32 rU8 rU64);
    ("div_u32_u8_i64", FBin NDiv rU32 rU8 rI64); ("div_u8_u32_u32", FBin NDiv rU8 rU32 rU32);
    ("div_u8_u32_u64", FBin NDiv rU8 rU32 rU64); ("div_u8_u32_i64", FBin NDiv rU8 rU32 rI64);
    ("div_u32_i8_i64", FBin NDiv rU32 rI8 rI64); ("div_i8_u32_i64", FBin NDiv rI8 rU32 rI64);
    ("div_u32_u16_u32", FBin NDiv rU32 rU16 rU32); ("div_u32_u16_u64", FBin NDiv rU32 rU16 rU64);
    ("div_u32_u16_i64", FBin NDiv rU32 rU16 rI64); ("div_u16_u32_u32", FBin NDiv rU16 rU32 rU32);
    ("div_u16_u32_u64", FBin NDiv rU16 rU32 rU64); ("div_u16_u32_i64", FBin NDiv rU16 rU32 rI64);
    ("div_u32_i16_i64", FBin NDiv rU32 rI16 rI64); ("div_i16_u32_i64", FBin NDiv rI16 rU32 rI64);
    ("div_i32_u8_i32", FBin NDiv rI32 rU8 rI32); ("div_i32_u8_i64", FBin NDiv rI32 rU8 rI64);
    ("div_u8_i32_i32", FBin NDiv rU8 rI32 rI32); ("div_u8_i32_i64", FBin NDiv rU8 rI32 rI64);
    ("div_i32_i8_i32", FBin NDiv rI32 rI8 rI32); ("div_i32_i8_i64", FBin NDiv rI32 rI8 rI64);
    ("div_i8_i32_i32", FBin NDiv rI8 rI32 rI32); ("div_i8_i32_i64", FBin NDiv rI8 rI32 rI64);
    ("div_i32_u16_i32", FBin NDiv rI32 rU16 rI32); ("div_i32_u16_i64", FBin NDiv rI32 rU16 rI64);
    ("div_u16_i32_i32", FBin NDiv rU16 rI32 rI32); ("div_u16_i32_i64", FBin NDiv rU16 rI32 rI64);
    ("div_i32_i16_i32", FBin NDiv rI32 rI16 rI32); ("div_i32_i16_i64", FBin NDiv rI32 rI16 rI64);
    ("div_i16_i32_i32", FBin NDiv rI16 rI32 rI32); ("div_i16_i32_i64", FBin NDiv rI16 rI32 rI64);
    ("div_u32_i32_i64", FBin NDiv rU32 rI32 rI64); ("div_i32_u32_i64", FBin NDiv rI32 rU32 rI64);
    ("rem_u8_i8_i16", FBin NRem rU8 rI8 rI16); ("rem_u8_i8_i32", FBin NRem rU8 rI8 rI32);
    ("rem_u8_i8_i64", FBin NRem rU8 rI8 rI64); ("rem_i8_u8_i16", FBin NRem rI8 rU8 rI16);
    ("rem_i8_u8_i32", FBin NRem rI8 rU8 rI32); ("rem_i8_u8_i64", FBin NRem rI8 rU8 rI64);
    ("rem_u16_u8_u16", FBin NRem rU16 rU8 rU16); ("rem_u16_u8_u32", FBin NRem rU16 rU8 rU32);
    ("rem_u16_u8_u64", FBin NRem rU16 rU8 rU64); ("rem_u16_u8_i32", FBin NRem rU16 rU8 rI32);
    ("rem_u16_u8_i64", FBin NRem rU16 rU8 rI64); ("rem_u8_u16_u16", FBin NRem rU8 rU16 rU16);
    ("rem_u8_u16_u32", FBin NRem rU8 rU16 rU32); ("rem_u8_u16_u64", FBin NRem rU8 rU16 rU64);
    ("rem_u8_u16_i32", FBin NRem rU8 rU16 rI32); ("rem_u8_u16_i64", FBin NRem rU8 rU16 rI64);
    ("rem_u16_i8_i32", FBin NRem rU16 rI8 rI32); ("rem_u16_i8_i64", FBin NRem rU16 rI8 rI64);
    ("rem_i8_u16_i32", FBin NRem rI8 rU16 rI32); ("rem_i8_u16_i64", FBin NRem rI8 rU16 rI64);
    ("rem_u8_i16_i16", FBin NRem rU8 rI16 rI16); ("rem_u8_i16_i32", FBin NRem rU8 rI16 rI32);
    ("rem_u8_i16_i64", FBin NRem rU8 rI16 rI64); ("rem_i16_u8_i16", FBin NRem rI16 rU8 rI16);
    ("rem_i16_u8_i32", FBin NRem rI16 rU8 rI32); ("rem_i16_u8_i64", FBin NRem rI16 rU8 rI64);
    ("rem_i8_i16_i16", FBin NRem rI8 rI16 rI16); ("rem_i8_i16_i32", FBin NRem rI8 rI16 rI32);
    ("rem_i8_i16_i64", FBin NRem rI8 rI16 rI64); ("rem_i16_i8_i16", FBin NRem rI16 rI8 rI16);
    ("rem_i16_i8_i32", FBin NRem rI16 rI8 rI32); ("rem_i16_i8_i64", FBin NRem rI16 rI8 rI64);
    ("rem_u16_i16_i32", FBin NRem rU16 rI16 rI32); ("rem_u16_i16_i64", FBin NRem rU16 rI16 rI64);
    ("rem_i16_u16_i32", FBin NRem rI16 rU16 rI32); ("rem_i16_u16_i64", FBin NRem rI16 rU16 rI64);
    ("rem_u32_u8_u32", FBin NRem rU32 rU8 rU32); ("rem_u32_u8_u64", FBin NRem rU32 rU8 rU64);
    ("rem_u32_u8_i64", FBin NRem rU32 rU8 rI64); ("rem_u8_u32_u32", FBin NRem rU8 rU32 rU32);
    ("rem_u8_u32_u64", FBin NRem rU8 rU32 rU64); ("rem_u8_u32_i64", FBin NRem rU8 rU32 rI64);
    ("rem_u32_i8_i64", FBin NRem rU32 rI8 rI64); ("rem_i8_u32_i64", FBin NRem rI8 rU32 rI64);
    ("rem_u32_u16_u32", FBin NRem rU32 rU16 rU32); ("rem_u32_u16_u64", FBin NRem rU32 rU16 rU64);
    ("rem_u32_u16_i64", FBin NRem rU32 rU16 rI64); ("rem_u16_u32_u32", FBin NRem rU16 rU32 rU32);
    ("rem_u16_u32_u64", FBin NRem rU16 rU32 rU64); ("rem_u16_u32_i64", FBin NRem rU16 rU32 rI64);
    ("rem_u32_i16_i64", FBin NRem rU32 rI16 rI64); ("rem_i16_u32_i64", FBin NRem rI16 rU32 rI64);
    ("rem_i32_u8_i32", FBin NRem rI32 rU8 rI32); ("rem_i32_u8_i64", FBin NRem rI32 rU8 rI64);
    ("rem_u8_i32_i32", FBin NRem rU8 rI32 rI32); ("rem_u8_i32_i64", FBin NRem rU8 rI32 rI64);
    ("rem_i32_i8_i32", FBin NRem rI32 rI8 rI32); ("rem_i32_i8_i64", FBin NRem rI32 rI8 rI64);
    ("rem_i8_i32_i32", FBin NRem rI8 rI32 rI32); ("rem_i8_i32_i64", FBin NRem rI8 rI32 rI64);
    ("rem_i32_u16_i32", FBin NRem rI32 rU16 rI32); ("rem_i32_u16_i64", FBin NRem rI32 rU16 rI64);
    ("rem_u16_i32_i32", FBin NRem rU16 rI32 rI32); ("rem_u16_i32_i64", FBin NRem rU16 rI32 rI64);
    ("rem_i32_i16_i32", FBin NRem rI32 rI16 rI32); ("rem_i32_i16_i64", FBin NRem rI32 rI16 rI64);
    ("rem_i16_i32_i32", FBin NRem rI16 rI32 rI32); ("rem_i16_i32_i64", FBin NRem rI16 rI32 rI64);
    ("rem_u32_i32_i64", FBin NRem rU32 rI32 rI64); ("rem_i32_u32_i64", FBin NRem rI32 rU32 rI64) ].
(** src/numeric/eval.rs:708-713 [negate_as_signed!] *)
Definition functions7 : list (string * nfun) :=
  [ ("neg_i8", FNegSigned rI8 rI8); ("neg_i16", FNegSigned rI16 rI16); ("neg_i32", FNegSigned rI32 rI32);
    ("neg_i64", FNegSigned rI64 rI64) ].
(** src/numeric/eval.rs:716-723 [negate_as_signed!] *)
Definition functions8 : list (string * nfun) :=
  [ ("neg_u8_i16", FNegSigned rU8 rI16); ("neg_u8_i32", FNegSigned rU8 rI32);
    ("neg_u8_i64", FNegSigned rU8 rI64); ("neg_u16_i32", FNegSigned rU16 rI32);
    ("neg_u16_i64", FNegSigned rU16 rI64); ("neg_u32_i64", FNegSigned rU32 rI64);
    ("neg_i8_i16", FNegSigned rI8 rI16); ("neg_i8_i32", FNegSigned rI8 rI32);
    ("neg_i8_i64", FNegSigned rI8 rI64); ("neg_i16_i32", FNegSigned rI16 rI32);
    ("neg_i16_i64", FNegSigned rI16 rI64); ("neg_i32_i64", FNegSigned rI32 rI64) ].
(** src/numeric/eval.rs:726-731 [negate_unsigned_unsigned!] *)
Definition functions9 : list (string * nfun) :=
  [ ("neg_u8", FNegUnsigned rU8 rU8); ("neg_u8_u16", FNegUnsigned rU8 rU16);
    ("neg_u8_u32", FNegUnsigned rU8 rU32); ("neg_u8_u64", FNegUnsigned rU8 rU64);
    ("neg_u16_u8", FNegUnsigned rU16 rU8); ("neg_u16", FNegUnsigned rU16 rU16);
    ("neg_u16_u32", FNegUnsigned rU16 rU32); ("neg_u16_u64", FNegUnsigned rU16 rU64);
    ("neg_u32_u8", FNegUnsigned rU32 rU8); ("neg_u32_u16", FNegUnsigned rU32 rU16);
    ("neg_u32", FNegUnsigned rU32 rU32); ("neg_u32_u64", FNegUnsigned rU32 rU64);
    ("neg_u64_u8", FNegUnsigned rU64 rU8); ("neg_u64_u16", FNegUnsigned rU64 rU16);
    ("neg_u64_u32", FNegUnsigned rU64 rU32); ("neg_u64", FNegUnsigned rU64 rU64) ].
(** src/numeric/eval.rs:734-739 [negate_into_unsigned!] *)
Definition functions10 : list (string * nfun) :=
  [ ("neg_i8_u8", FNegInto rI8 rU8); ("neg_i8_u16", FNegInto rI8 rU16); ("neg_i8_u32", FNegInto rI8 rU32);
    ("neg_i8_u64", FNegInto rI8 rU64); ("neg_i16_u16", FNegInto rI16 rU16); ("neg_i16_u32", FNegInto rI16 rU32);
    ("neg_i16_u64", FNegInto rI16 rU64); ("neg_i32_u32", FNegInto rI32 rU32);
    ("neg_i32_u64", FNegInto rI32 rU64); ("neg_i64_u64", FNegInto rI64 rU64) ].
(** src/numeric/eval.rs:756-761 [abs_as_signed!] *)
Definition functions11 : list (string * nfun) :=
  [ ("abs_i8", FAbsSame rI8); ("abs_i16", FAbsSame rI16); ("abs_i32", FAbsSame rI32); ("abs_i64", FAbsSame rI64) ].
(** src/numeric/eval.rs:764-771 [abs_as_signed!] *)
Definition functions12 : list (string * nfun) :=
  [ ("abs_u8_i16", FAbsSigned rU8 rI16); ("abs_u8_i32", FAbsSigned rU8 rI32);
    ("abs_u8_i64", FAbsSigned rU8 rI64); ("abs_u16_i32", FAbsSigned rU16 rI32);
    ("abs_u16_i64", FAbsSigned rU16 rI64); ("abs_u32_i64", FAbsSigned rU32 rI64);
    ("abs_i8_i16", FAbsSigned rI8 rI16); ("abs_i8_i32", FAbsSigned rI8 rI32);
    ("abs_i8_i64", FAbsSigned rI8 rI64); ("abs_i16_i32", FAbsSigned rI16 rI32);
    ("abs_i16_i64", FAbsSigned rI16 rI64); ("abs_i32_i64", FAbsSigned rI32 rI64) ].
(** src/numeric/eval.rs:774-779 [abs_signed_unsigned!] *)
Definition functions13 : list (string * nfun) :=
  [ ("abs_i8_u8", FAbsInto rI8 rU8); ("abs_i8_u16", FAbsInto rI8 rU16); ("abs_i8_u32", FAbsInto rI8 rU32);
    ("abs_i8_u64", FAbsInto rI8 rU64); ("abs_i16_u16", FAbsInto rI16 rU16); ("abs_i16_u32", FAbsInto rI16 rU32);
    ("abs_i16_u64", FAbsInto rI16 rU64); ("abs_i32_u32", FAbsInto rI32 rU32);
    ("abs_i32_u64", FAbsInto rI32 rU64); ("abs_i64_u64", FAbsInto rI64 rU64) ].
(** src/numeric/eval.rs:782-787 [abs_unsigned_unsigned!] *)
Definition functions14 : list (string * nfun) :=
  [ ("abs_u8", FAbsUnsigned rU8 rU8); ("abs_u16", FAbsUnsigned rU16 rU16); ("abs_u32", FAbsUnsigned rU32 rU32);
    ("abs_u64", FAbsUnsigned rU64 rU64) ].
(** src/numeric/eval.rs:790-794 [abs_unsigned_unsigned!] *)
Definition functions15 : list (string * nfun) :=
  [ ("abs_u8_u16", FAbsUnsigned rU8 rU16); ("abs_u8_u32", FAbsUnsigned rU8 rU32);
    ("abs_u8_u64", FAbsUnsigned rU8 rU64); ("abs_u16_u32", FAbsUnsigned rU16 rU32);
    ("abs_u16_u64", FAbsUnsigned rU16 rU64); ("abs_u32_u64", FAbsUnsigned rU32 rU64) ].
(** src/numeric/eval.rs:869-876 [direct_cast!] *)
Definition functions16 : list (string * nfun) :=
  [ ("cast_u8_u16", FDirect rU8 rU16); ("cast_u8_u32", FDirect rU8 rU32); ("cast_u8_u64", FDirect rU8 rU64);
    ("cast_u8_i16", FDirect rU8 rI16); ("cast_u8_i32", FDirect rU8 rI32); ("cast_u8_i64", FDirect rU8 rI64);
    ("cast_u16_u32", FDirect rU16 rU32); ("cast_u16_u64", FDirect rU16 rU64);
    ("cast_u16_i32", FDirect rU16 rI32); ("cast_u16_i64", FDirect rU16 rI64);
    ("cast_u32_u64", FDirect rU32 rU64); ("cast_u32_i64", FDirect rU32 rI64); ("cast_i8_i16", FDirect rI8 rI16);
    ("cast_i8_i32", FDirect rI8 rI32); ("cast_i8_i64", FDirect rI8 rI64); ("cast_i16_i32", FDirect rI16 rI32);
    ("cast_i16_i64", FDirect rI16 rI64); ("cast_i32_i64", FDirect rI32 rI64) ].
(** src/numeric/eval.rs:879-888 [attempt_cast!] *)
Definition functions17 : list (string * nfun) :=
  [ ("cast_u8_i8", FAttempt rU8 rI8); ("cast_u16_u8", FAttempt rU16 rU8); ("cast_u16_i8", FAttempt rU16 rI8);
    ("cast_u16_i16", FAttempt rU16 rI16); ("cast_u32_u8", FAttempt rU32 rU8);
    ("cast_u32_u16", FAttempt rU32 rU16); ("cast_u32_i8", FAttempt rU32 rI8);
    ("cast_u32_i16", FAttempt rU32 rI16); ("cast_u32_i32", FAttempt rU32 rI32);
    ("cast_u64_u8", FAttempt rU64 rU8); ("cast_u64_u16", FAttempt rU64 rU16);
    ("cast_u64_u32", FAttempt rU64 rU32); ("cast_u64_i8", FAttempt rU64 rI8);
    ("cast_u64_i16", FAttempt rU64 rI16); ("cast_u64_i32", FAttempt rU64 rI32);
    ("cast_u64_i64", FAttempt rU64 rI64); ("cast_i8_u8", FAttempt rI8 rU8); ("cast_i8_u16", FAttempt rI8 rU16);
    ("cast_i8_u32", FAttempt rI8 rU32); ("cast_i8_u64", FAttempt rI8 rU64); ("cast_i16_u8", FAttempt rI16 rU8);
    ("cast_i16_u16", FAttempt rI16 rU16); ("cast_i16_u32", FAttempt rI16 rU32);
    ("cast_i16_u64", FAttempt rI16 rU64); ("cast_i16_i8", FAttempt rI16 rI8); ("cast_i32_u8", FAttempt rI32 rU8);
    ("cast_i32_u16", FAttempt rI32 rU16); ("cast_i32_u32", FAttempt rI32 rU32);
    ("cast_i32_u64", FAttempt rI32 rU64); ("cast_i32_i8", FAttempt rI32 rI8);
    ("cast_i32_i16", FAttempt rI32 rI16); ("cast_i64_u8", FAttempt rI64 rU8);
    ("cast_i64_u16", FAttempt rI64 rU16); ("cast_i64_u32", FAttempt rI64 rU32);
    ("cast_i64_u64", FAttempt rI64 rU64); ("cast_i64_i8", FAttempt rI64 rI8);
    ("cast_i64_i16", FAttempt rI64 rI16); ("cast_i64_i32", FAttempt rI64 rI32) ].
Definition functions : list (string * nfun) :=
  functions1 ++ functions2 ++ functions3 ++ functions4 ++ functions5 ++ functions6 ++ functions7 ++ functions8 ++ functions9 ++ functions10 ++ functions11 ++ functions12 ++ functions13 ++ functions14 ++ functions15 ++ functions16 ++ functions17.
Fixpoint lookup_fun (f : string) (l : list (string * nfun)) : option nfun :=
  match l with [] => None | (g, d) :: r => if String.eqb f g then Some d else lookup_fun f r end.
Definition nfun_params (d : nfun) : list mrep :=
  match d with
  | FBin _ l r _ => [l; r]
  | FNegSigned i _ | FNegUnsigned i _ | FNegInto i _ | FAbsSame i | FAbsSigned i _ | FAbsInto i _ | FAbsUnsigned i _
  | FDirect i _ | FAttempt i _ => [i]
  end.
Definition nfun_result (d : nfun) : mrep :=
  match d with
  | FBin _ _ _ o | FNegSigned _ o | FNegUnsigned _ o | FNegInto _ o | FAbsSame o | FAbsSigned _ o | FAbsInto _ o
  | FAbsUnsigned _ o | FDirect _ o | FAttempt _ o => o
  end.
(** The bodies; [checks] says whether overflow checks are compiled in. *)
Definition run_fun2 (d : nfun) (x y : Z) : outcome meval :=
  match d with FBin op _ _ o => Val (bin_fn op o x y) | _ => Panic end.
Definition run_fun1 (checks : bool) (d : nfun) (x : Z) : outcome meval :=
  match d with
  | FBin _ _ _ _ => Panic
  | FNegSigned _ o => neg_as_signed checks o x
  | FNegUnsigned _ _ => Val (neg_unsigned_unsigned x)
  | FNegInto i o => neg_into_unsigned checks i o x
  | FAbsSame i => abs_same checks i x
  | FAbsSigned _ o => abs_as_signed checks o x
  | FAbsInto i o => abs_signed_unsigned checks i o x
  | FAbsUnsigned _ o => Val (abs_unsigned_unsigned o x)
  | FDirect _ o => Val (direct_cast o x)
  | FAttempt _ o => Val (attempt_cast o x)
  end.

(** ** Compiling and running the code *)

(** The Rust compiler: the type of the expression, if it has one. A function must exist
    and be given what it takes; a literal must be in the range of its type (a lint that
    is an error unless it is switched off); the closures of negation and of absolute
    value call the traits of std and num_traits, those of successor and predecessor a
    trait that does not exist (src/numeric/codegen.rs:253-255); [BigInt::checked_add]
    and the like are taken to exist. [vt]: the types of the local variables. *)
Fixpoint rtype (vt : label -> option mrep) (e : rnum) : option mrep :=
  match e with
  | RLocal x => vt x
  | RLiteral z t => if in_rep t z then Some t else None
  | RInvoke1 f a =>
    match lookup_fun f functions, rtype vt a with
    | Some d, Some t => match nfun_params d with [p] => if mrep_eqb p t then Some (nfun_result d) else None | _ => None end
    | _, _ => None
    end
  | RInvoke2 f a b =>
    match lookup_fun f functions, rtype vt a, rtype vt b with
    | Some d, Some t, Some u =>
      match nfun_params d with [p; q] => if mrep_eqb p t && mrep_eqb q u then Some (nfun_result d) else None | _ => None end
    | _, _, _ => None
    end
  | RFallback2 t0 t1 t2 a b _ _ =>
    match rtype vt a, rtype vt b with
    | Some t, Some u => if mrep_eqb t0 t && mrep_eqb t1 u then Some t2 else None
    | _, _ => None
    end
  | RFallback1 t0 t1 a _ op =>
    match op, rtype vt a with
    | (NNegate | NAbs), Some t => if mrep_eqb t0 t then Some t1 else None
    | _, _ => None
    end
  | RAs a t => match rtype vt a with Some _ => Some t | None => None end
  end.

(** How a run ends: with a value, with an error that [?] hands to the caller, or with
    a panic. *)
Inductive rout := RRet (z : Z) | RFail | RCrash.
(** src/numeric/eval.rs:79-90 [eval], and [?] *)
Definition unwrap_eval (m : outcome meval) : rout :=
  match m with
  | Val (MDirect z) => RRet z
  | Val MNaN | Val (MIndirect _) => RFail
  | Panic => RCrash
  end.
Definition rthen (a : rout) (k : Z -> rout) : rout := match a with RRet z => k z | RFail => RFail | RCrash => RCrash end.
(** src/numeric/eval.rs:808-830 [eval_unary_fallback] *)
Definition un_fallback (op : nunop) (out : mrep) (x : Z) : meval :=
  attempt_cast out (match op with NNegate => - x | NAbs => Z.abs x | NSucc => x + 1 | NPred => x - 1 end).
(** Running code that compiles (a function that does not exist is shown as a panic).
    Operands are evaluated from left to right. *)
Fixpoint rrun (checks : bool) (env : label -> Z) (e : rnum) : rout :=
  match e with
  | RLocal x => RRet (env x)
  | RLiteral z _ => RRet z
  | RInvoke1 f a =>
    rthen (rrun checks env a) (fun x =>
    match lookup_fun f functions with Some d => unwrap_eval (run_fun1 checks d x) | None => RCrash end)
  | RInvoke2 f a b =>
    rthen (rrun checks env a) (fun x => rthen (rrun checks env b) (fun y =>
    match lookup_fun f functions with Some d => unwrap_eval (run_fun2 d x y) | None => RCrash end))
  | RFallback2 _ _ t2 a b _ op =>
    rthen (rrun checks env a) (fun x => rthen (rrun checks env b) (fun y => unwrap_eval (Val (bin_fallback op t2 x y))))
  | RFallback1 _ t1 a _ op => rthen (rrun checks env a) (fun x => unwrap_eval (Val (un_fallback op t1 x)))
  | RAs a t => rthen (rrun checks env a) (fun x => RRet (as_cast t x))
  end.
