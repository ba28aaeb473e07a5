(** What printed expressions should mean: how Rust reads text.

    The grammar below is the table of operator precedence and associativity of the
    Rust reference, for the constructs the printer of generated code has. It knows
    nothing of the printer's precedences. *)
From Coq Require Import String.
From Verif Require Import Base NumericModel ValueModel RecordModel PrintModel.
Open Scope nat_scope.

(** Binding strength of an infix operator, from the weakest up. The levels not
    listed: 0 closures, 1 [..], 11 [as], 12 prefix operators, 13 postfix operators,
    14 everything that needs no parentheses. *)
Definition strength (op : infix) : nat :=
  match op with
  | OMul | ODiv | ORem => 10
  | OAdd | OSub => 9
  | OShl | OShr => 8
  | OBitAnd => 7
  | OBitOr => 5
  | OEq | ONe | OLt | OLe | OGt | OGe => 4
  | OAnd => 3
  | OOr => 2
  end.
(** The symbol Rust reads as an operator. *)
Definition symbol (op : infix) : string :=
  match op with
  | OMul => "*" | ODiv => "/" | ORem => "%" | OAdd => "+" | OSub => "-" | OShl => "<<" | OShr => ">>"
  | OBitAnd => "&" | OBitOr => "|" | OAnd => "&&" | OOr => "||"
  | OEq => "==" | ONe => "!=" | OLt => "<" | OLe => "<=" | OGt => ">" | OGe => ">="
  end%string.
Definition comparison (op : infix) : bool :=
  match op with OEq | ONe | OLt | OLe | OGt | OGe => true | _ => false end.

(** The text ends with the type of a cast: a [<] after it would be read as the
    start of type arguments. *)
Definition ends_in_type (w : list token) : Prop := exists u t, w = u ++ [TTy t].
Definition angle (op : infix) : Prop := op = OLt \/ op = OShl.
(** The text ends with a field: a [(] after it would be read as a method call. *)
Definition ends_in_field (w : list token) : Prop := exists u n, w = u ++ [sym "."; TId n].

(** [reads l w e]: the text [w] is the expression [e], made with operators that
    bind with strength [l] or more. *)
Inductive reads : nat -> list token -> rexpr -> Prop :=
| R_stronger l w e : reads (S l) w e -> reads l w e
| R_name n : reads 14 [TId n] (XName n)
| R_literal l : reads 14 [TLit l] (XLit l)
| R_parentheses w e : reads 0 w e -> reads 14 (sym "(" :: w ++ [sym ")"]) e
| R_one w e : reads 0 w e -> reads 14 (sym "(" :: w ++ [sym ","; sym ")"]) (XTuple [e])
| R_tuple w es : reads_items w es -> length es <> 1 -> reads 14 (sym "(" :: w ++ [sym ")"]) (XTuple es)
| R_array w es : reads_items w es -> reads 14 (sym "[" :: w ++ [sym "]"]) (XArray es)
| R_method w x n wa args : reads 13 w x -> reads_items wa args ->
    reads 13 (w ++ sym "." :: TId n :: sym "(" :: wa ++ [sym ")"]) (XMethod x n args)
| R_field w x n : reads 13 w x -> reads 13 (w ++ [sym "."; TId n]) (XField x n)
| R_call w f wa args : reads 13 w f -> ~ ends_in_field w -> reads_items wa args ->
    reads 13 (w ++ sym "(" :: wa ++ [sym ")"]) (XCall f args)
| R_index w x wi i : reads 13 w x -> reads 0 wi i -> reads 13 (w ++ sym "[" :: wi ++ [sym "]"]) (XIndex x i)
| R_try w x : reads 13 w x -> reads 13 (w ++ [sym "?"]) (XTry x)
| R_deref w x : reads 12 w x -> reads 12 (sym "*" :: w) (XDeref x)
| R_borrow w x : reads 12 w x -> reads 12 (sym "&" :: w) (XBorrow x)
| R_borrow_mut w x : reads 12 w x -> reads 12 (sym "&mut" :: w) (XBorrowMut x)
| R_not w x : reads 12 w x -> reads 12 (sym "!" :: w) (XNot x)
| R_cast w x t : reads 11 w x -> reads 11 (w ++ [sym "as"; TTy t]) (XCast x t)
| R_left wa a op wb b : comparison op = false -> (angle op -> ~ ends_in_type wa) ->
    reads (strength op) wa a -> reads (S (strength op)) wb b ->
    reads (strength op) (wa ++ sym (symbol op) :: wb) (XBin op a b)
| R_compare wa a op wb b : comparison op = true -> (angle op -> ~ ends_in_type wa) ->
    reads (S (strength op)) wa a -> reads (S (strength op)) wb b ->
    reads (strength op) (wa ++ sym (symbol op) :: wb) (XBin op a b)
| R_range wa a wb b : reads 2 wa a -> reads 2 wb b -> reads 1 (wa ++ sym ".." :: wb) (XRange a b)
| R_closure v w e : reads 0 w e -> reads 0 (sym "|" :: TId v :: sym "|" :: w) (XClosure v e)
with reads_items : list token -> list rexpr -> Prop :=
| R_none : reads_items [] []
| R_last w e : reads 0 w e -> reads_items w [e]
| R_more w e ws es : reads 0 w e -> reads_items ws es -> es <> [] ->
    reads_items (w ++ sym "," :: ws) (e :: es).
(** The text is an expression. *)
Definition parses_as (w : list token) (e : rexpr) : Prop := reads 0 w e.

(** ** Which expressions are printed so that they are read back *)

(** The classes within which the printer writes no parentheses *)
Definition same_class (a b : infix) : bool :=
  match a, b with
  | (ODiv | ORem), (ODiv | ORem) => true
  | (OAdd | OSub), (OAdd | OSub) => true
  | (OShl | OShr), (OShl | OShr) => true
  | OMul, OMul | OBitAnd, OBitAnd | OBitOr, OBitOr | OAnd, OAnd | OOr, OOr => true
  | (OEq | ONe | OLt | OLe | OGt | OGe), (OEq | ONe | OLt | OLe | OGt | OGe) => true
  | _, _ => false
  end.
(** Operators for which [a op (b op c)] and [(a op b) op c] have the same value *)
Definition regroups (op : infix) : bool :=
  match op with OAdd | OBitAnd | OBitOr | OAnd | OOr => true | _ => false end.
Definition infix_eqb (a b : infix) : bool := String.eqb (symbol a) (symbol b).

(** Operands of a comparison: not comparisons or logical operations *)
Definition not_logical (e : rexpr) : bool :=
  match e with
  | XBin op _ _ => match op with OAnd | OOr => false | _ => negb (comparison op) end
  | _ => true
  end.
(** The right operand of [op] is not an operation of the class of [op] *)
Definition not_nested (op : infix) (e : rexpr) : bool :=
  match e with XBin op' _ _ => negb (same_class op op') | _ => true end.
(** ... or it is the same operation, grouping does not matter, and its left
    operand is of no other operation of the class *)
Fixpoint regroups_right (op : infix) (e : rexpr) : bool :=
  match e with
  | XBin op' a _ => if infix_eqb op op' then regroups op && regroups_right op a else negb (same_class op op')
  | _ => true
  end.
(** What a method is called on, or a field taken of, is not a borrow *)
Definition not_borrow (e : rexpr) : bool :=
  match e with XDeref _ | XBorrow _ | XBorrowMut _ => false | _ => true end.
(** What is called is a name or the result of something *)
Definition callable (e : rexpr) : bool :=
  match e with
  | XName _ | XClosure _ _ | XCall _ _ | XMethod _ _ _ | XIndex _ _ | XTry _ => true
  | _ => false
  end.
(** What a range goes from and to is not a range or a closure *)
Definition endpoint (e : rexpr) : bool :=
  match e with XRange _ _ | XClosure _ _ => false | _ => true end.

Section Printable.
Context (right_ok : infix -> rexpr -> bool) (slices : bool).
Fixpoint printable_with (e : rexpr) : bool :=
  match e with
  | XName _ | XLit _ => true
  | XTuple es | XArray es => forallb printable_with es
  | XMethod x _ args => not_borrow x && printable_with x && forallb printable_with args
  | XField x _ => not_borrow x && printable_with x
  | XCall f args => callable f && printable_with f && forallb printable_with args
  | XIndex x i => not_borrow x && printable_with x && printable_with i
  | XSlice x a b => slices && not_borrow x && printable_with x && printable_with a && printable_with b
  | XTry x => not_borrow x && printable_with x
  | XDeref x | XBorrow x | XBorrowMut x | XNot x | XCast x _ => printable_with x
  | XBin op a b =>
    right_ok op b && (if comparison op then not_logical a && not_logical b else true)
    && printable_with a && printable_with b
  | XRange a b => endpoint a && endpoint b && printable_with a && printable_with b
  | XClosure _ b => printable_with b
  end.
End Printable.
(** Every right operand that is an operation of its parent's class would need
    parentheses; and [x[a..b]] is read as an index by a range. *)
Definition printable : rexpr -> bool := printable_with not_nested false.
(** The same, but regrouping sums, bitwise and logical operations is accepted. *)
Definition printable_up_to_grouping : rexpr -> bool := printable_with regroups_right true.

(** ** Values *)

(** A compositional meaning of Rust expressions: whatever values and effects are,
    the meaning of an expression is made from the meanings of its parts. *)
Record meaning (D : Type) := Meaning {
  m_name : label -> D;
  m_lit : literal -> D;
  m_tuple : list D -> D;
  m_array : list D -> D;
  m_method : D -> label -> list D -> D;
  m_field : D -> label -> D;
  m_call : D -> list D -> D;
  m_index : D -> D -> D;
  m_try : D -> D;
  m_deref : D -> D;
  m_borrow : D -> D;
  m_borrow_mut : D -> D;
  m_not : D -> D;
  m_cast : D -> label -> D;
  m_bin : infix -> D -> D -> D;
  m_range : D -> D -> D;
  m_closure : label -> D -> D
}.
Section Meaning.
Context {D : Type} (m : meaning D).
Fixpoint denote (e : rexpr) : D :=
  match e with
  | XName n => m_name D m n
  | XLit l => m_lit D m l
  | XTuple es => m_tuple D m (map denote es)
  | XArray es => m_array D m (map denote es)
  | XMethod x n args => m_method D m (denote x) n (map denote args)
  | XField x n => m_field D m (denote x) n
  | XCall f args => m_call D m (denote f) (map denote args)
  | XIndex x i => m_index D m (denote x) (denote i)
  | XSlice x a b => m_index D m (denote x) (m_range D m (denote a) (denote b))
  | XTry x => m_try D m (denote x)
  | XDeref x => m_deref D m (denote x)
  | XBorrow x => m_borrow D m (denote x)
  | XBorrowMut x => m_borrow_mut D m (denote x)
  | XNot x => m_not D m (denote x)
  | XCast x t => m_cast D m (denote x) t
  | XBin op a b => m_bin D m op (denote a) (denote b)
  | XRange a b => m_range D m (denote a) (denote b)
  | XClosure v b => m_closure D m v (denote b)
  end.
(** Sums, bitwise and logical operations may be regrouped. *)
Definition regroupable : Prop := forall op, regroups op = true -> forall x y z,
  m_bin D m op x (m_bin D m op y z) = m_bin D m op (m_bin D m op x y) z.
End Meaning.

(** ** Rust evaluation of the arithmetic that format expressions become *)

(** A value, an early return or panic ([Panic]): names are variables; operators
    are those of Rust's unsigned integers and [bool] with overflow checks; [&&] and
    [||] do not evaluate their right operand when the left decides; a cast between
    unsigned integers keeps the low bits. *)
Definition int_op (w : bitwidth) (op : infix) (a b : N) : outcome N :=
  match op with
  | OAdd => if N.ltb (a + b) (2 ^ nbits w) then Val (a + b)%N else Panic
  | OSub => if N.leb b a then Val (a - b)%N else Panic
  | OMul => if N.ltb (a * b) (2 ^ nbits w) then Val (a * b)%N else Panic
  | ODiv => if N.eqb b 0 then Panic else Val (a / b)%N
  | ORem => if N.eqb b 0 then Panic else Val (a mod b)%N
  | OShl => if N.ltb b (nbits w) then Val ((a * 2 ^ b) mod 2 ^ nbits w)%N else Panic
  | OShr => if N.ltb b (nbits w) then Val (a / 2 ^ b)%N else Panic
  | OBitOr => Val (N.lor a b)
  | OBitAnd => Val (N.land a b)
  | _ => Panic
  end.
Definition int_compare (op : infix) (a b : N) : option bool :=
  match op with
  | OEq => Some (N.eqb a b) | ONe => Some (negb (N.eqb a b))
  | OLt => Some (N.ltb a b) | OGt => Some (N.ltb b a)
  | OLe => Some (N.leb a b) | OGe => Some (N.leb b a)
  | _ => None
  end.
Definition rust_bin (op : infix) (x y : outcome value) : outcome value :=
  match op with
  | OAnd => obind x (fun u => match u with VBool true => obind y (fun v => match v with VBool b => Val (VBool b) | _ => Panic end)
                                         | VBool false => Val (VBool false) | _ => Panic end)
  | OOr => obind x (fun u => match u with VBool false => obind y (fun v => match v with VBool b => Val (VBool b) | _ => Panic end)
                                        | VBool true => Val (VBool true) | _ => Panic end)
  | _ => obind x (fun u => obind y (fun v =>
           match u, v with
           | VU wa a, VU wb b =>
             if bw_eqb wa wb then
               match int_compare op a b with Some c => Val (VBool c) | None => omap (VU wa) (int_op wa op a b) end
             else Panic
           | _, _ => Panic
           end))
  end.
Definition type_width (t : label) : option bitwidth :=
  if N.eqb t (intern "u8") then Some B8 else if N.eqb t (intern "u16") then Some B16
  else if N.eqb t (intern "u32") then Some B32 else if N.eqb t (intern "u64") then Some B64 else None.
(** A meaning knows the name it is the meaning of, for calls of known functions. *)
Definition rust_call (f : option label) (args : list (outcome value)) : outcome value :=
  match f, args with
  | Some f, a :: rest =>
    if N.eqb f (intern "try_sub!") then match rest with b :: _ => rust_bin OSub a b | [] => Panic end
    else obind a (fun v =>
      match v with
      | VU w _ => if N.eqb f (intern "succ") then rust_bin OAdd (Val v) (Val (VU w 1))
                  else if N.eqb f (intern "pred") then rust_bin OSub (Val v) (Val (VU w 1)) else Panic
      | _ => Panic
      end)
  | _, _ => Panic
  end.
Definition rust_lit (l : literal) : value := match l with LInt w n => VU w n | LBool b => VBool b end.
Definition rust_not (x : outcome value) : outcome value :=
  obind x (fun v => match v with VBool b => Val (VBool (negb b)) | _ => Panic end).
Definition rust_cast (x : outcome value) (t : label) : outcome value :=
  obind x (fun v => match v, type_width t with VU _ n, Some w => Val (VU w (n mod 2 ^ nbits w)%N) | _, _ => Panic end).
Definition rust_meaning (env : label -> outcome value) : meaning (option label * outcome value) :=
  let no := (None, Panic) in
  {| m_name n := (Some n, env n);
     m_lit l := (None, Val (rust_lit l));
     m_tuple _ := no; m_array _ := no; m_method _ _ _ := no; m_field _ _ := no;
     m_call f args := (None, rust_call (fst f) (map snd args));
     m_index _ _ := no; m_try _ := no; m_deref _ := no; m_borrow _ := no; m_borrow_mut _ := no;
     m_not x := (None, rust_not (snd x));
     m_cast x t := (None, rust_cast (snd x) t);
     m_bin op x y := (None, rust_bin op (snd x) (snd y));
     m_range _ _ := no; m_closure _ _ := no |}.
Definition rust_eval (env : label -> outcome value) (e : rexpr) : outcome value := snd (denote (rust_meaning env) e).

(** A format expression of the arithmetic part without an operation nested on the
    right of an operation of the same class, other than sums, bitwise and logical
    operations; comparisons are of numbers ([numeric]), as the type checker
    demands. *)
Definition numeric (e : expr) : bool :=
  match e with
  | EIntRel _ _ _ | EBool _ | EUnary UBoolNot _ | EArith (ABoolAnd | ABoolOr) _ _ => false
  | _ => true
  end.
Definition no_regroup (op : arith_op) (e : expr) : bool :=
  match op, e with
  | AMul, EArith AMul _ _ => false
  | (ADiv | ARem), EArith (ADiv | ARem) _ _ => false
  | (AShl | AShr), EArith (AShl | AShr) _ _ => false
  | _, _ => true
  end.
Fixpoint arithmetic (e : expr) : bool :=
  match e with
  | EVar _ | EBool _ | EU _ _ => true
  | EArith op a b => no_regroup op b && arithmetic a && arithmetic b
  | EIntRel _ a b => numeric a && numeric b && arithmetic a && arithmetic b
  | EUnary _ a => arithmetic a
  | EAs _ a => arithmetic a
  | _ => false
  end.
(** Shifts are by constants that fit 32 bits. *)
Fixpoint shifts_by_constants (e : expr) : bool :=
  match e with
  | EArith op a b =>
    match op with
    | AShl | AShr => match b with EU _ n => N.ltb n 4294967296 | _ => false end
    | _ => shifts_by_constants b
    end && shifts_by_constants a
  | EIntRel _ a b => shifts_by_constants a && shifts_by_constants b
  | EUnary _ a => shifts_by_constants a
  | EAs _ a => shifts_by_constants a
  | _ => true
  end.
(** The values of variables in generated code that arithmetic is about *)
Definition machine_value (v : value) : Prop := (exists w n, v = VU w n) \/ (exists b, v = VBool b).

(** The variables of an expression of the arithmetic part *)
Fixpoint variables (e : expr) : list label :=
  match e with
  | EVar x => [x]
  | EArith _ a b | EIntRel _ a b => variables a ++ variables b
  | EUnary _ a | EAs _ a => variables a
  | _ => []
  end.
