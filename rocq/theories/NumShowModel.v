(** The printing of numeric expressions (src/numeric/printer.rs). *)
From Coq Require Import Ascii String DecimalString.
From Verif Require Import Base BoundsModel DataModel NumericModel FragModel ShowModel.
Open Scope nat_scope.

(** How Rust's [Display] shows natural numbers *)
Definition decimal (n : N) : text := str (NilZero.string_of_uint (N.to_uint n)).
(** How [BigInt]'s [Display] shows integers *)
Definition decz (z : Z) : text :=
  if (z <? 0)%Z then str "-" ++ decimal (Z.to_N (- z)) else decimal (Z.to_N z).

(** src/numeric/core.rs:179-195 [MachineRep::to_static_str] *)
Definition rep_name (r : mrep) : string :=
  match is_signed r, bit_width r with
  | true, B8 => "i8" | true, B16 => "i16" | true, B32 => "i32" | true, B64 => "i64"
  | false, B8 => "u8" | false, B16 => "u16" | false, B32 => "u32" | false, B64 => "u64"
  end.
(** src/numeric/core.rs:237-242 [NumRep::to_static_str] *)
Definition numrep_name (r : numrep) : string :=
  match r with Auto => "?" | Concrete m => rep_name m end.
(** src/numeric/core.rs:411-417 [Display for TypedConst] *)
Definition const_text (z : Z) (r : numrep) : text := decz z ++ str (numrep_name r).

(** src/numeric/printer.rs:22-28, the token *)
Definition bin_token (op : nbinop) : string :=
  match op with NAdd => "+" | NSub => "-" | NMul => "*" | NDiv => "/" | NRem => "%" end.
(** src/numeric/printer.rs:21-38 [compile_bin_op] *)
Definition compile_bin_op (op : nbinop) (out : option mrep) : text :=
  str " " ++ match out with Some r => str (bin_token op) ++ str (rep_name r) | None => str (bin_token op) end ++ str " ".
(** src/numeric/printer.rs:100-105, the token *)
Definition un_token (op : nunop) : string :=
  match op with NNegate => "~" | NAbs => "abs" | NSucc => "++" | NPred => "--" end.
(** src/numeric/printer.rs:99-115 [compile_unary_op] *)
Definition compile_unary_op (op : nunop) (out : option mrep) : text :=
  match out with Some r => str (un_token op) ++ str (rep_name r) ++ str " " | None => str (un_token op) end.
(** src/numeric/printer.rs:80-89, the token *)
Definition cast_token (sem : castsem) : string :=
  match sem with Arithmetic => " as " | Bitwise => " as(rust) " end.

(** src/precedence.rs:273, 294-295 *)
Definition INVOKE := Calculus Invoke.
Definition UNARY := Mono MPrefix.
Definition CAST := Mono MPostfix.
(** src/precedence.rs:311-318 [cond_paren], of texts *)
Definition parens (t : text) (current cutoff : precedence) : text :=
  match relate current cutoff with
  | Disjoint | Superior => str "(" ++ t ++ str ")"
  | Congruent | Inferior => t
  end.
(** src/numeric/printer.rs:135-151, the precedence of an operator and its operands *)
Definition bin_prec (op : nbinop) : precedence :=
  match op with NAdd | NSub => ADD_SUB | NMul => MUL | NDiv | NRem => DIV_REM end.
(** src/numeric/printer.rs:152-167, the same of prefix operators *)
Definition un_prec (op : nunop) : precedence :=
  match op with NPred | NSucc => INVOKE | NNegate | NAbs => UNARY end.

Section Show.
(** The text of labels *)
Context (name : label -> text).
(** src/numeric/printer.rs:132-175 [compile_expr], with 75-97 [compile_prefix],
    [compile_cast_op] and 117-129 [compile_binop]; fragments are taken as their texts (see C76) *)
Fixpoint numeric_text (e : nexpr) (prec : precedence) : text :=
  match e with
  | NConst c => const_text (tc_val c) (tc_rep c)
  | NBin op out l r =>
      parens (numeric_text l (bin_prec op) ++ compile_bin_op op out ++ numeric_text r (bin_prec op)) prec (bin_prec op)
  | NUn op out e => parens (compile_unary_op op out ++ numeric_text e (un_prec op)) prec (un_prec op)
  | NCast out sem e => parens (numeric_text e CAST ++ str (cast_token sem) ++ str (rep_name out)) prec CAST
  | NVar x => name x
  end.
(** src/numeric/printer.rs:177-179 [show_expr] *)
Definition show_expr (e : nexpr) : text := numeric_text e Top.
End Show.
