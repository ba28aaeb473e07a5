(** Printing generated Rust expressions: src/precedence.rs and the printer of
    src/codegen/rust_ast/mod.rs; and the arithmetic part of the translation of
    format expressions into Rust expressions, src/codegen/mod.rs.
    A fragment of text is modelled by its list of tokens: spaces are dropped, and
    [&&] in front of an operand (two borrows) is two tokens [&]. *)
From Coq Require Import String Ascii.
From Verif Require Import Base NumericModel ValueModel RecordModel.
Open Scope nat_scope.

(** ** Precedences *)

(** src/precedence.rs:51-91 the sub-levels *)
Inductive calculus_level := Invoke | Lambda | MatchLevel.
Inductive compare_level := Compare | Equality.
Inductive logical_level := LAnd | LOr.
Inductive bitwise_level := Shift | BAnd | BOr.
Inductive arith_level := DivRem | MulLevel | AddSub.
Inductive mono_level := Prefix | Postfix.
(** src/precedence.rs:28-49 [enum Precedence] *)
Inductive precedence :=
| Atomic
| Projection
| Mono (l : mono_level)
| ArithInfix (l : arith_level)
| BitwiseInfix (l : bitwise_level)
| LogicalInfix (l : logical_level)
| Comparison (l : compare_level)
| Calculus (l : calculus_level)
| Top.
(** src/precedence.rs:103-113 [enum Relation] *)
Inductive relation := Inferior | Congruent | Superior | Disjoint.

(** src/precedence.rs:139-149 *)
Definition relate_compare (a b : compare_level) : relation :=
  match a, b with
  | Compare, Compare | Equality, Equality => Congruent
  | Compare, Equality | Equality, Compare => Disjoint
  end.
(** src/precedence.rs:151-164 *)
Definition relate_calculus (a b : calculus_level) : relation :=
  match a, b with
  | Invoke, Invoke | Lambda, Lambda | MatchLevel, MatchLevel => Congruent
  | Lambda, Invoke => Inferior
  | Invoke, Lambda => Superior
  | Lambda, MatchLevel | MatchLevel, Lambda => Congruent
  | Invoke, MatchLevel => Superior
  | MatchLevel, Invoke => Inferior
  end.
(** src/precedence.rs:166-177 *)
Definition relate_arith (a b : arith_level) : relation :=
  match a, b with
  | DivRem, DivRem | MulLevel, MulLevel | AddSub, AddSub => Congruent
  | DivRem, MulLevel | MulLevel, DivRem => Disjoint
  | AddSub, _ => Inferior
  | _, AddSub => Superior
  end.
(** src/precedence.rs:179-187 *)
Definition relate_mono (a b : mono_level) : relation :=
  match a, b with
  | Prefix, Prefix | Postfix, Postfix => Congruent
  | Prefix, Postfix => Superior
  | Postfix, Prefix => Inferior
  end.
(** src/precedence.rs:189-198 *)
Definition relate_logical (a b : logical_level) : relation :=
  match a, b with
  | LAnd, LAnd | LOr, LOr => Congruent
  | LAnd, LOr => Superior
  | LOr, LAnd => Inferior
  end.
(** src/precedence.rs:200-212 *)
Definition relate_bitwise (a b : bitwise_level) : relation :=
  match a, b with
  | Shift, Shift => Congruent
  | Shift, _ => Superior
  | _, Shift => Inferior
  | BAnd, BAnd | BOr, BOr => Congruent
  | BAnd, BOr => Superior
  | BOr, BAnd => Inferior
  end.
(** src/precedence.rs:221-267 [Precedence::relate], in the order of its arms *)
Definition relate (a b : precedence) : relation :=
  match a, b with
  | Atomic, Atomic => Congruent
  | Projection, Projection => Congruent
  | Top, Top => Congruent
  | Atomic, _ => Superior
  | _, Atomic => Inferior
  | Projection, _ => Superior
  | _, Projection => Inferior
  | Top, _ => Inferior
  | _, Top => Superior
  | Calculus x, Calculus y => relate_calculus x y
  | ArithInfix x, ArithInfix y => relate_arith x y
  | BitwiseInfix x, BitwiseInfix y => relate_bitwise x y
  | LogicalInfix x, LogicalInfix y => relate_logical x y
  | Comparison x, Comparison y => relate_compare x y
  | Mono x, Mono y => relate_mono x y
  | Calculus _, _ => Inferior
  | _, Calculus _ => Superior
  | Comparison _, _ => Inferior
  | _, Comparison _ => Superior
  | Mono _, _ => Superior
  | _, Mono _ => Inferior
  | ArithInfix _, BitwiseInfix _ | BitwiseInfix _, ArithInfix _ => Disjoint
  | LogicalInfix _, ArithInfix _ | ArithInfix _, LogicalInfix _ => Disjoint
  | LogicalInfix _, BitwiseInfix _ | BitwiseInfix _, LogicalInfix _ => Disjoint
  end.

(** src/precedence.rs:269-300 the named precedences *)
Definition ARROW := Calculus Lambda.
Definition INVOKE := Calculus Invoke.
Definition COMPARE := Comparison Compare.
Definition EQUALITY := Comparison Equality.
Definition BITOR := BitwiseInfix BOr.
Definition ADD_SUB := ArithInfix AddSub.
Definition DIV_REM := ArithInfix DivRem.
Definition BITAND := BitwiseInfix BAnd.
Definition LOGICAL_AND := LogicalInfix LAnd.
Definition LOGICAL_OR := LogicalInfix LOr.
Definition LOGICAL_NEGATE := Mono Prefix.
Definition MUL := ArithInfix MulLevel.
Definition BIT_SHIFT := BitwiseInfix Shift.
Definition CAST_INFIX := Calculus Invoke.
Definition PTR_PREFIX := Mono Prefix.

(** ** Rust expressions *)

(** src/codegen/rust_ast/mod.rs:3230-3249 [enum InfixOperator] *)
Inductive infix :=
| OEq | ONe | OLt | OLe | OGt | OGe | ODiv | ORem | OAdd | OSub | OMul
| OShl | OShr | OBitOr | OBitAnd | OOr | OAnd.
(** src/codegen/rust_ast/mod.rs:3273-3290 [InfixOperator::precedence] *)
Definition infix_prec (op : infix) : precedence :=
  match op with
  | OEq | ONe => EQUALITY
  | OLt | OLe | OGt | OGe => COMPARE
  | ODiv | ORem => DIV_REM
  | OAdd | OSub => ADD_SUB
  | OMul => MUL
  | OShl | OShr => BIT_SHIFT
  | OBitOr => BITOR
  | OBitAnd => BITAND
  | OAnd => LOGICAL_AND
  | OOr => LOGICAL_OR
  end.
(** src/codegen/rust_ast/mod.rs:3335-3357 [InfixOperator::token], without its spaces *)
Definition infix_token (op : infix) : string :=
  match op with
  | OEq => "==" | ONe => "!=" | OLt => "<" | OLe => "<=" | OGt => ">" | OGe => ">="
  | ODiv => "/" | ORem => "%" | OAdd => "+" | OSub => "-" | OMul => "*"
  | OShl => "<<" | OShr => ">>" | OBitOr => "|" | OBitAnd => "&"
  | OOr => "||" | OAnd => "&&"
  end%string.

(** [RustPrimLit]: numbers with their type suffix, and booleans *)
Inductive literal := LInt (w : bitwidth) (n : N) | LBool (b : bool).

(** src/codegen/rust_ast/mod.rs:1923-1954 [enum RustExpr], without statements, macros,
    [match]/[if], structs, and strings; a call's callee is any expression
    ([Invoke] is a call of a name); [Owned]/[OwnedOption] by cloning are the method
    calls they print as; copied ones and blocks without statements print what they
    contain and are left out; a closure has one parameter, without its type. *)
Inductive rexpr :=
| XName (n : label)
| XLit (l : literal)
| XTuple (es : list rexpr)
| XArray (es : list rexpr)
| XMethod (x : rexpr) (name : label) (args : list rexpr)
| XField (x : rexpr) (name : label)
| XCall (f : rexpr) (args : list rexpr)
| XIndex (x i : rexpr)
| XSlice (x a b : rexpr)
| XTry (x : rexpr)
| XDeref (x : rexpr)
| XBorrow (x : rexpr)
| XBorrowMut (x : rexpr)
| XNot (x : rexpr)
| XCast (x : rexpr) (t : label)
| XBin (op : infix) (a b : rexpr)
| XRange (a b : rexpr)
| XClosure (v : label) (body : rexpr).

(** ** Printing *)

(** Tokens of Rust text: names, literals, types, and everything else. *)
Inductive token := TId (n : label) | TLit (l : literal) | TTy (t : label) | TSym (s : string).
Definition sym (s : string) : token := TSym s.

(** src/precedence.rs:311-318 [cond_paren] *)
Definition cond_paren (frag : list token) (current cutoff : precedence) : list token :=
  match relate current cutoff with
  | Disjoint | Superior => sym "(" :: frag ++ [sym ")"]
  | Congruent | Inferior => frag
  end.

(** src/codegen/rust_ast/mod.rs:3942-3963 [delim_list_prec]: items between commas *)
Section Items.
Context (show : rexpr -> list token).
Fixpoint show_items (es : list rexpr) : list token :=
  match es with
  | [] => []
  | [e] => show e
  | e :: es' => show e ++ sym "," :: show_items es'
  end.
End Items.

(** src/codegen/rust_ast/mod.rs:2871-3029 [RustExpr::to_fragment_precedence],
    3215-3228 [RustClosure], 3435-3461 [RustOp] *)
Fixpoint show (p : precedence) (e : rexpr) : list token :=
  match e with
  | XName n => [TId n]
  | XLit l => [TLit l]
  | XArray es => sym "[" :: show_items (show Top) es ++ [sym "]"]
  | XTuple es =>
    match es with
    | [e1] => sym "(" :: show Top e1 ++ [sym ","; sym ")"]
    | _ => sym "(" :: show_items (show Top) es ++ [sym ")"]
    end
  | XMethod x name args =>
    cond_paren (show Projection x ++ sym "." :: TId name :: sym "(" :: show_items (show Top) args ++ [sym ")"])
               p Projection
  | XField x name => show Projection x ++ [sym "."; TId name]
  | XCall f args =>
    cond_paren (show INVOKE f ++ sym "(" :: show_items (show Top) args ++ [sym ")"]) p INVOKE
  | XIndex x i => show Projection x ++ sym "[" :: show Top i ++ [sym "]"]
  | XSlice x a b => show Projection x ++ sym "[" :: show Atomic a ++ sym ".." :: show Atomic b ++ [sym "]"]
  | XTry x => show Projection x ++ [sym "?"]
  | XDeref x => sym "*" :: show PTR_PREFIX x
  | XBorrow x => sym "&" :: show PTR_PREFIX x
  | XBorrowMut x => sym "&mut" :: show PTR_PREFIX x
  | XNot x => cond_paren (sym "!" :: show LOGICAL_NEGATE x) p LOGICAL_NEGATE
  | XCast x t => cond_paren (show Atomic x ++ [sym "as"; TTy t]) p CAST_INFIX
  | XBin op a b =>
    cond_paren (show (infix_prec op) a ++ sym (infix_token op) :: show (infix_prec op) b) p (infix_prec op)
  | XRange a b => cond_paren (show Top a ++ sym ".." :: show Top b) p Top
  | XClosure v body => cond_paren (sym "|" :: TId v :: sym "|" :: show ARROW body) p ARROW
  end.
(** src/codegen/rust_ast/mod.rs:3031-3035 [RustExpr::to_fragment]: how a statement
    prints its expression *)
Definition to_fragment (e : rexpr) : list token := show Atomic e.

(** ** Translating format expressions *)

(** Names the translation uses *)
Definition n_try_sub : label := intern "try_sub!".
Definition n_pred : label := intern "pred".
Definition n_succ : label := intern "succ".
Definition width_type (w : bitwidth) : label :=
  match w with B8 => intern "u8" | B16 => intern "u16" | B32 => intern "u32" | B64 => intern "u64" end.

(** src/codegen/mod.rs:1120-1147 *)
Definition arith_infix (op : arith_op) : infix :=
  match op with
  | ABitAnd => OBitAnd | ABitOr => OBitOr | ABoolAnd => OAnd | ABoolOr => OOr
  | AAdd => OAdd | ASub => OSub | AMul => OMul | ADiv => ODiv | ARem => ORem
  | AShl => OShl | AShr => OShr
  end.
(** src/codegen/mod.rs:1161-1168 *)
Definition rel_infix (r : int_rel) : infix :=
  match r with REq => OEq | RNe => ONe | RLt => OLt | RGt => OGt | RLte => OLe | RGte => OGe end.

(** src/codegen/mod.rs:1015-1372 [embed_expr], as far as variables, literals,
    arithmetic, comparisons, negation, successor, predecessor and casts between
    unsigned types; [None] for everything else. [trace] is the number a failed
    subtraction is reported with (a hash in the code). *)
Fixpoint embed (trace : N) (e : expr) : option rexpr :=
  match e with
  | EVar x => Some (XName x)
  | EBool b => Some (XLit (LBool b))
  | EU w n => Some (XLit (LInt w n))
  | EArith op a b =>
    match embed trace a, embed trace b with
    | Some x, Some y =>
      Some match op with
           | ASub => XCall (XName n_try_sub) [x; y; XLit (LInt B64 trace)]
           | _ => XBin (arith_infix op) x y
           end
    | _, _ => None
    end
  | EIntRel r a b =>
    match embed trace a, embed trace b with
    | Some x, Some y => Some (XBin (rel_infix r) x y)
    | _, _ => None
    end
  | EUnary op a =>
    match embed trace a with
    | Some x => Some match op with
                     | UBoolNot => XNot x
                     | UIntPred => XCall (XName n_pred) [x]
                     | UIntSucc => XCall (XName n_succ) [x]
                     end
    | None => None
    end
  | EAs w a => option_map (fun x => XCast x (width_type w)) (embed trace a)
  | _ => None
  end.
