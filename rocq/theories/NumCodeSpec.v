(** What the code for a numeric expression should compute, and for which types of
    operations there is code at all. *)
From Verif Require Import Base NumericModel NumericProps NumCodeModel.
Open Scope Z_scope.

Definition within (a b : mrep) : Prop := forall z, fits a z -> fits b z.

(** A typed tree says at each operation the types of its operands and its own; the
    variables [vt] have the types the tree says. *)
Fixpoint well_signed (vt : label -> option mrep) (e : ntree) : Prop :=
  match e with
  | TConst _ _ => True
  | TVar t x => vt x = Some t
  | TBin t s _ _ l r => s = (ntype l, ntype r, t) /\ well_signed vt l /\ well_signed vt r
  | TUn t s _ _ e => s = (ntype e, t) /\ well_signed vt e
  | TCast t s _ _ e => s = (ntype e, t) /\ well_signed vt e
  end.

(** The value of a tree: every operation is done on the integers, and its result must
    be a value of the type of the operation. A bitwise cast keeps the low bits. With
    [neg] a remainder by a negative number is a value too, as it is in Rust; in the
    interpreter it is not. *)
Definition exactly (neg : bool) (op : nbinop) (x y z : Z) : Prop :=
  match op with
  | NAdd => z = x + y
  | NSub => z = x - y
  | NMul => z = x * y
  | NDiv => y <> 0 /\ z = Z.quot x y
  | NRem => (if neg then y <> 0 else 0 < y) /\ z = Z.rem x y
  end.
Definition exactly1 (op : nunop) (x : Z) : Z :=
  match op with NNegate => - x | NAbs => Z.abs x | NSucc => x + 1 | NPred => x - 1 end.
Inductive Computes (neg : bool) (env : label -> Z) : ntree -> Z -> Prop :=
| c_const t c : fits t (tc_val c) -> Computes neg env (TConst t c) (tc_val c)
| c_var t x : fits t (env x) -> Computes neg env (TVar t x) (env x)
| c_bin t s op out l r x y z : Computes neg env l x -> Computes neg env r y -> exactly neg op x y z -> fits t z ->
    Computes neg env (TBin t s op out l r) z
| c_un t s op out e x : Computes neg env e x -> fits t (exactly1 op x) -> Computes neg env (TUn t s op out e) (exactly1 op x)
| c_cast t s out e x : Computes neg env e x -> fits t x -> Computes neg env (TCast t s out Arithmetic e) x
| c_bits t s out e x z : Computes neg env e x -> fits t z ->
    z mod 2 ^ bw_bits (bit_width t) = x mod 2 ^ bw_bits (bit_width t) ->
    Computes neg env (TCast t s out Bitwise e) z.

(** Operations for which the code calls something that does not exist: on two
    different types, one of 64 bits, into a type that holds both; the negation of an unsigned
    integer into a signed type that does not hold it; successor and predecessor. *)
Definition missing_binary (l r o : mrep) : Prop :=
  l <> r /\ within l o /\ within r o /\ (bit_width l = B64 \/ bit_width r = B64).
Definition missing_unary (op : nunop) (i o : mrep) : Prop :=
  match op with
  | NSucc | NPred => True
  | NAbs => False
  | NNegate => is_signed i = false /\ is_signed o = true /\ ~ within i o
  end.
Fixpoint available (e : ntree) : Prop :=
  match e with
  | TConst t c => fits t (tc_val c)
  | TVar _ _ => True
  | TBin t _ _ _ l r => ~ missing_binary (ntype l) (ntype r) t /\ available l /\ available r
  | TUn t _ op _ e => ~ missing_unary op (ntype e) t /\ available e
  | TCast _ _ _ _ e => available e
  end.

(** Trees without: a negation from a signed type to itself; an absolute value from a signed
    type to an unsigned one of at least its width, or to itself; a remainder by a signed
    number. *)
Fixpoint nowhere (bad : ntree -> Prop) (e : ntree) : Prop :=
  ~ bad e /\
  match e with
  | TConst _ _ | TVar _ _ => True
  | TBin _ _ _ _ l r => nowhere bad l /\ nowhere bad r
  | TUn _ _ _ _ e | TCast _ _ _ _ e => nowhere bad e
  end.
Definition own_negation (e : ntree) : Prop :=
  match e with TUn t _ NNegate _ a => is_signed t = true /\ ntype a = t | _ => False end.
Definition unsigned_abs (e : ntree) : Prop :=
  match e with TUn t _ NAbs _ a => is_signed (ntype a) = true /\ is_signed t = false | _ => False end.
Definition may_overflow (e : ntree) : Prop :=
  match e with
  | TUn t _ NNegate _ a => is_signed (ntype a) = true /\ ntype a = t
  | TUn t _ NAbs _ a => is_signed (ntype a) = true /\ (ntype a = t \/ is_signed t = false)
  | _ => False
  end.
Definition signed_remainder (e : ntree) : Prop :=
  match e with TBin _ _ NRem _ _ r => is_signed (ntype r) = true | _ => False end.

(** Trees whose types follow the representations of the expression, as [rep]: what has
    no representation of its own has the type of what it is used with. [vr]: the
    representations of the variables. *)
Inductive Follows (vr : label -> numrep) : ntree -> numrep -> Prop :=
| f_const t z r : r = Auto \/ r = Concrete t -> Follows vr (TConst t (TC z r)) r
| f_var t x : vr x = Concrete t -> Follows vr (TVar t x) (Concrete t)
| f_bin t op l r rl rr : Follows vr l rl -> Follows vr r rr -> ntype l = t -> ntype r = t ->
    Follows vr (TBin t (ntype l, ntype r, t) op None l r) (match rl with Auto => rr | Concrete _ => rl end)
| f_bin_to t op l r rl rr : Follows vr l rl -> Follows vr r rr ->
    Follows vr (TBin t (ntype l, ntype r, t) op (Some t) l r) (Concrete t)
| f_un t op e r : Follows vr e r -> ntype e = t -> Follows vr (TUn t (ntype e, t) op None e) r
| f_un_to t op e r : Follows vr e r -> Follows vr (TUn t (ntype e, t) op (Some t) e) (Concrete t)
| f_cast t sem e r : Follows vr e r -> (r = Auto -> ntype e = t) -> Follows vr (TCast t (ntype e, t) t sem e) (Concrete t).

(** The parts of a tree *)
Inductive part : ntree -> ntree -> Prop :=
| p_self e : part e e
| p_left t s op out l r p : part p l -> part p (TBin t s op out l r)
| p_right t s op out l r p : part p r -> part p (TBin t s op out l r)
| p_un t s op out e p : part p e -> part p (TUn t s op out e)
| p_cast t s out sem e p : part p e -> part p (TCast t s out sem e).
