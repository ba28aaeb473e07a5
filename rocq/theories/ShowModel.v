(** Precedences (src/precedence.rs) and the printing of expressions (src/output/tree.rs). *)
From Coq Require Import Ascii String.
From Verif Require Import Base BoundsModel DataModel NumericModel ValueModel FragModel.
Open Scope nat_scope.

(** ** Precedences *)

(** src/precedence.rs:52-56, 59-62, 65-68, 71-75, 78-82, 85-90 *)
Inductive calculus_level := Invoke | Lambda | Match.
Inductive compare_level := Comparison | Equality.
Inductive logical_level := LogAnd | LogOr.
Inductive bitwise_level := BitShift | BitAnd | BitOr.
Inductive arith_level := DivRem | MulL | AddSub.
Inductive mono_level := MPrefix | MPostfix.
(** src/precedence.rs:29-49 [enum Precedence] *)
Inductive precedence :=
| Atomic
| Projection
| Mono (l : mono_level)
| ArithInfix (l : arith_level)
| BitwiseInfix (l : bitwise_level)
| LogicalInfix (l : logical_level)
| Compare (l : compare_level)
| Calculus (l : calculus_level)
| Top.
(** src/precedence.rs:104-113 [enum Relation] *)
Inductive relation := Inferior | Congruent | Superior | Disjoint.

(** src/precedence.rs:139-149 *)
Definition relate_compare (a b : compare_level) : relation :=
  match a, b with
  | Comparison, Comparison | Equality, Equality => Congruent
  | Comparison, Equality => Disjoint
  | Equality, Comparison => Disjoint
  end.
(** src/precedence.rs:151-164 *)
Definition relate_calculus (a b : calculus_level) : relation :=
  match a, b with
  | Invoke, Invoke | Lambda, Lambda | Match, Match => Congruent
  | Lambda, Invoke => Inferior
  | Invoke, Lambda => Superior
  | Lambda, Match | Match, Lambda => Congruent
  | Invoke, Match => Superior
  | Match, Invoke => Inferior
  end.
(** src/precedence.rs:166-177 *)
Definition relate_arith (a b : arith_level) : relation :=
  match a, b with
  | DivRem, DivRem | MulL, MulL | AddSub, AddSub => Congruent
  | DivRem, MulL | MulL, DivRem => Disjoint
  | AddSub, (DivRem | MulL) => Inferior
  | (DivRem | MulL), AddSub => Superior
  end.
(** src/precedence.rs:179-187 *)
Definition relate_mono (a b : mono_level) : relation :=
  match a, b with
  | MPrefix, MPrefix | MPostfix, MPostfix => Congruent
  | MPrefix, MPostfix => Superior
  | MPostfix, MPrefix => Inferior
  end.
(** src/precedence.rs:189-198 *)
Definition relate_logical (a b : logical_level) : relation :=
  match a, b with
  | LogAnd, LogAnd => Congruent
  | LogAnd, LogOr => Superior
  | LogOr, LogAnd => Inferior
  | LogOr, LogOr => Congruent
  end.
(** src/precedence.rs:200-212 *)
Definition relate_bitwise (a b : bitwise_level) : relation :=
  match a, b with
  | BitShift, BitShift => Congruent
  | BitShift, _ => Superior
  | _, BitShift => Inferior
  | BitAnd, BitAnd => Congruent
  | BitAnd, BitOr => Superior
  | BitOr, BitAnd => Inferior
  | BitOr, BitOr => Congruent
  end.
(** src/precedence.rs:221-267 [relate] *)
Definition relate (a b : precedence) : relation :=
  match a, b with
  | Atomic, Atomic => Congruent
  | Projection, Projection => Congruent
  | Top, Top => Congruent
  | Atomic, _ => Superior
  | _, Atomic => Inferior
  | Projection, _ => Superior
  | _, Projection => Inferior
  | Top, _ => Inferior
  | _, Top => Superior
  | Calculus x, Calculus y => relate_calculus x y
  | ArithInfix x, ArithInfix y => relate_arith x y
  | BitwiseInfix x, BitwiseInfix y => relate_bitwise x y
  | LogicalInfix x, LogicalInfix y => relate_logical x y
  | Compare x, Compare y => relate_compare x y
  | Mono x, Mono y => relate_mono x y
  | Calculus _, _ => Inferior
  | _, Calculus _ => Superior
  | Compare _, _ => Inferior
  | _, Compare _ => Superior
  | Mono _, _ => Superior
  | _, Mono _ => Inferior
  | ArithInfix _, BitwiseInfix _ => Disjoint
  | BitwiseInfix _, ArithInfix _ => Disjoint
  | LogicalInfix _, ArithInfix _ => Disjoint
  | ArithInfix _, LogicalInfix _ => Disjoint
  | LogicalInfix _, BitwiseInfix _ => Disjoint
  | BitwiseInfix _, LogicalInfix _ => Disjoint
  end.

(** src/precedence.rs:269-300 *)
Definition ARROW := Calculus Lambda.
Definition MATCH := Calculus Match.
Definition COMPARE := Compare Comparison.
Definition EQUALITY := Compare Equality.
Definition BITOR := BitwiseInfix BitOr.
Definition ADD_SUB := ArithInfix AddSub.
Definition DIV_REM := ArithInfix DivRem.
Definition BITAND := BitwiseInfix BitAnd.
Definition LOGICAL_AND := LogicalInfix LogAnd.
Definition LOGICAL_OR := LogicalInfix LogOr.
Definition LOGICAL_NEGATE := Mono MPrefix.
Definition NUMERIC_PREFIX := Mono MPrefix.
Definition MUL := ArithInfix MulL.
Definition BIT_SHIFT := BitwiseInfix BitShift.
Definition FUN_APPLICATION := Mono MPrefix.
Definition CAST_PREFIX := Mono MPrefix.
Definition APPEND := ArithInfix AddSub.

(** Texts that may be missing because of a panic *)
Definition joins (a b : option text) : option text :=
  match a, b with Some a, Some b => Some (a ++ b) | _, _ => None end.
Definition lit (s : string) : option text := Some (str s).
Infix "+++" := joins (at level 60, right associativity).

(** src/precedence.rs:311-318 [cond_paren] *)
Definition cond_paren (t : option text) (current cutoff : precedence) : option text :=
  match relate current cutoff with
  | Disjoint | Superior => lit "(" +++ t +++ lit ")"
  | Congruent | Inferior => t
  end.

(** ** Expressions *)

(** [Fragment::seq] of texts with a separator, src/output.rs:124-144 (see C76) *)
Fixpoint commas (ts : list (option text)) : option text :=
  match ts with
  | [] => Some []
  | [t] => t
  | t :: ts => t +++ lit ", " +++ commas ts
  end.

Section Show.
(** What Rust's own [Display] makes of numbers, the text of labels, and the printing of
    numeric expressions (src/numeric/printer.rs), which is not modelled here *)
Context (dec : N -> text) (name : label -> text) (numeric : nexpr -> precedence -> text).

(** src/output/tree.rs:1777-1814 [compile_pattern]; [None] for the patterns it takes to be
    unreachable *)
Fixpoint compile_pattern (p : pattern) : option text :=
  match p with
  | PBinding x => Some (name x)
  | PTuple ps => lit "(" +++ commas (map compile_pattern ps) +++ lit ")"
  | POption (Some p) => lit "Some" +++ lit "(" +++ compile_pattern p +++ lit ")"
  | POption None => lit "None"
  | PWildcard => lit "_"
  | PSeq ps => lit "[" +++ commas (map compile_pattern ps) +++ lit "]"
  | PVariant l p => Some (name l) +++ lit "(" +++ compile_pattern p +++ lit ")"
  | PInt _ | PZConst _ | PZRange _ | PU _ _ | PBool _ | PChar _ => None
  end.

(** src/output/tree.rs:1738-1750 [binary_op], of the texts of the operands *)
Definition binary_op (op : string) (l r : option text) : option text := l +++ lit op +++ r.
(** src/output/tree.rs:1754-1774 [prefix_op], of the texts of the arguments and the operand *)
Definition prefix_op (op : string) (args : option (list (option text))) (operand : option text) : option text :=
  lit op +++ lit " " +++
  match args with
  | None => operand
  | Some args => lit "(" +++ commas args +++ lit ")" +++ lit " " +++ operand
  end.

Definition cast_name (w : bitwidth) : string :=
  match w with B8 => "as-u8" | B16 => "as-u16" | B32 => "as-u32" | B64 => "as-u64" end.
(** There is no [U8Be]; the model of expressions has it for uniformity. *)
Definition bytes_name (be : bool) (w : bitwidth) : string :=
  match w, be with
  | B8, true => "u8be" | B8, false => "u8le" | B16, true => "u16be" | B16, false => "u16le"
  | B32, true => "u32be" | B32, false => "u32le" | B64, true => "u64be" | B64, false => "u64le"
  end.

(** src/output/tree.rs:1816-2127 [compile_expr]; fragments are taken as their texts (see C76) *)
Fixpoint compile_expr (e : expr) (prec : precedence) : option text :=
  match e with
  | EMatch head _ => cond_paren (lit "match " +++ compile_expr head MATCH +++ lit " { ... }") prec MATCH
  | EDestructure head pat e =>
      cond_paren (lit "pat-bind " +++ lit "[" +++ compile_pattern pat +++ lit " = " +++
                  compile_expr head Top +++ lit "] " +++ compile_expr e prec) prec MATCH
  | ELambda x e => cond_paren (Some (name x) +++ lit " -> " +++ compile_expr e ARROW) prec ARROW
  | EIntRel REq l r => cond_paren (binary_op " == " (compile_expr l EQUALITY) (compile_expr r EQUALITY)) prec COMPARE
  | EIntRel RNe l r => cond_paren (binary_op " != " (compile_expr l EQUALITY) (compile_expr r EQUALITY)) prec COMPARE
  | EIntRel RLt l r => cond_paren (binary_op " < " (compile_expr l COMPARE) (compile_expr r COMPARE)) prec COMPARE
  | EIntRel RGt l r => cond_paren (binary_op " > " (compile_expr l COMPARE) (compile_expr r COMPARE)) prec COMPARE
  | EIntRel RLte l r => cond_paren (binary_op " <= " (compile_expr l COMPARE) (compile_expr r COMPARE)) prec COMPARE
  | EIntRel RGte l r => cond_paren (binary_op " >= " (compile_expr l COMPARE) (compile_expr r COMPARE)) prec COMPARE
  | EArith AAdd l r => cond_paren (binary_op " + " (compile_expr l ADD_SUB) (compile_expr r ADD_SUB)) prec ADD_SUB
  | EArith ASub l r => cond_paren (binary_op " - " (compile_expr l ADD_SUB) (compile_expr r ADD_SUB)) prec ADD_SUB
  | EArith AMul l r => cond_paren (binary_op " * " (compile_expr l MUL) (compile_expr r MUL)) prec MUL
  | EArith ADiv l r => cond_paren (binary_op " / " (compile_expr l DIV_REM) (compile_expr r DIV_REM)) prec DIV_REM
  | EArith ARem l r => cond_paren (binary_op " % " (compile_expr l DIV_REM) (compile_expr r DIV_REM)) prec DIV_REM
  | EArith ABitAnd l r => cond_paren (binary_op " & " (compile_expr l BITAND) (compile_expr r BITAND)) prec BITAND
  | EArith ABitOr l r => cond_paren (binary_op " | " (compile_expr l BITOR) (compile_expr r BITOR)) prec BITOR
  | EArith ABoolAnd l r => cond_paren (binary_op " && " (compile_expr l BITAND) (compile_expr r BITAND)) prec LOGICAL_AND
  | EArith ABoolOr l r => cond_paren (binary_op " || " (compile_expr l BITOR) (compile_expr r BITOR)) prec LOGICAL_OR
  | EArith AShl l r => cond_paren (binary_op " << " (compile_expr l BIT_SHIFT) (compile_expr r BIT_SHIFT)) prec BIT_SHIFT
  | EArith AShr l r => cond_paren (binary_op " >> " (compile_expr l BIT_SHIFT) (compile_expr r BIT_SHIFT)) prec BIT_SHIFT
  | EAppend l r => cond_paren (binary_op " ++ " (compile_expr l APPEND) (compile_expr r APPEND)) prec APPEND
  | EUnary UBoolNot e => cond_paren (prefix_op "!" None (compile_expr e Atomic)) prec LOGICAL_NEGATE
  | EUnary UIntPred e => cond_paren (prefix_op "pred" None (compile_expr e Atomic)) prec NUMERIC_PREFIX
  | EUnary UIntSucc e => cond_paren (prefix_op "succ" None (compile_expr e Atomic)) prec NUMERIC_PREFIX
  | EAs w e => cond_paren (prefix_op (cast_name w) None (compile_expr e Atomic)) prec CAST_PREFIX
  | EAsChar e => cond_paren (prefix_op "as-char" None (compile_expr e Atomic)) prec CAST_PREFIX
  | EBytes be w e => cond_paren (prefix_op (bytes_name be w) None (compile_expr e Atomic)) prec CAST_PREFIX
  | ESeqLength e => cond_paren (prefix_op "seq-length" None (compile_expr e Atomic)) prec FUN_APPLICATION
  | ESeqIx e i => cond_paren (prefix_op "seq-ix" (Some [compile_expr i Top]) (compile_expr e Atomic)) prec FUN_APPLICATION
  | ESubSeq e s l =>
      cond_paren (prefix_op "sub-seq" (Some [compile_expr s Top; compile_expr l Top]) (compile_expr e Atomic)) prec FUN_APPLICATION
  | ESubSeqInflate e s l =>
      cond_paren (prefix_op "sub-seq-inflate" (Some [compile_expr s Top; compile_expr l Top]) (compile_expr e Atomic)) prec FUN_APPLICATION
  | EFlatMap f e => cond_paren (prefix_op "flat-map" (Some [compile_expr f Top]) (compile_expr e Atomic)) prec FUN_APPLICATION
  | EFlatMapAccum f z _ e =>
      cond_paren (prefix_op "flat-map-accum" (Some [compile_expr f Top; compile_expr z Top]) (compile_expr e Atomic)) prec FUN_APPLICATION
  | ELeftFold f z _ e =>
      cond_paren (prefix_op "left-fold" (Some [compile_expr f Top; compile_expr z Top]) (compile_expr e Atomic)) prec FUN_APPLICATION
  | EFindByKey sorted k q e =>
      cond_paren (prefix_op (if sorted then "binary-search" else "linear-search")
                    (Some [compile_expr k Top; compile_expr q Top]) (compile_expr e Atomic)) prec FUN_APPLICATION
  | EFlatMapList f _ e => cond_paren (prefix_op "flat-map-list" (Some [compile_expr f Top]) (compile_expr e Atomic)) prec FUN_APPLICATION
  | EDup n e => cond_paren (prefix_op "dup" (Some [compile_expr n Top]) (compile_expr e Atomic)) prec FUN_APPLICATION
  | EEnumFromTo a b =>
      cond_paren (binary_op " .. " (compile_expr a FUN_APPLICATION) (compile_expr b FUN_APPLICATION)) prec FUN_APPLICATION
  | ELiftOption (Some e) => cond_paren (prefix_op "some" None (compile_expr e Atomic)) prec FUN_APPLICATION
  | ELiftOption None => lit "none"
  | ETupleProj e i => cond_paren (compile_expr e Projection +++ lit "." +++ Some (dec (N.of_nat i))) prec Projection
  | ERecordProj e l => cond_paren (compile_expr e Projection +++ lit "." +++ Some (name l)) prec Projection
  | EVar x => Some (name x)
  | EBool b => lit (if b then "true" else "false")
  | EU _ n => Some (dec n)
  | ETuple _ => lit "(...)"
  | ERecord _ => lit "{ ... }"
  | EVariant l e => lit "{ " +++ Some (name l) +++ lit " := " +++ compile_expr e Top +++ lit " }"
  | ESeq _ => lit "[..]"
  | ENumeric n => Some (numeric n prec)
  end.
End Show.
