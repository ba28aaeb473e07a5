(** What it is for the types of a numeric expression to be right, without the engine
    that finds them. *)
From Verif Require Import Base NumericModel NumCodeModel.
Open Scope Z_scope.

(** The values of a machine type *)
Definition holds (t : mrep) (z : Z) : Prop :=
  if is_signed t then - 2 ^ (bw_bits (bit_width t) - 1) <= z < 2 ^ (bw_bits (bit_width t) - 1)
  else 0 <= z < 2 ^ bw_bits (bit_width t).

(** The representation that an expression itself says it has: that of a constant, the
    one an operation is marked with or a cast goes to, and otherwise that of its
    operands. *)
Fixpoint declared (e : nexpr) : option mrep :=
  match e with
  | NConst c => match tc_rep c with Concrete r => Some r | Auto => None end
  | NBin _ (Some r) _ _ | NUn _ (Some r) _ | NCast r _ _ => Some r
  | NBin _ None a b => match declared a with Some r => Some r | None => declared b end
  | NUn _ None a => declared a
  | NVar _ => None
  end.

(** An operand that declares no representation is of the type of the result; one that
    declares a representation declares that of the result, unless the operation is
    marked with a representation for its result. *)
Definition operand_ok (mark : option mrep) (t : mrep) (operand : ntree) : Prop :=
  match declared (nerase operand) with
  | None => ntype operand = t
  | Some d => mark = None -> d = t
  end.

(** Right types: a constant has its representation or, if it has none, a type that
    holds its value; operations have the types of their marks and operands; there are
    no variables. *)
Fixpoint well_typed (e : ntree) : Prop :=
  match e with
  | TConst t c => match tc_rep c with Concrete r => t = r | Auto => holds t (tc_val c) end
  | TBin t sig _ mark l r =>
    sig = (ntype l, ntype r, t) /\ (forall m, mark = Some m -> t = m) /\
    operand_ok mark t l /\ operand_ok mark t r /\ well_typed l /\ well_typed r
  | TUn t sig _ mark a =>
    sig = (ntype a, t) /\ (forall m, mark = Some m -> t = m) /\ operand_ok mark t a /\ well_typed a
  | TCast t sig out _ a =>
    sig = (ntype a, t) /\ t = out /\ (declared (nerase a) = None -> ntype a = out) /\ well_typed a
  | TVar _ _ => False
  end.

(** The only right way to give types to an expression *)
Definition only_typing (e : nexpr) (te : ntree) : Prop :=
  nerase te = e /\ well_typed te /\ forall te', nerase te' = e -> well_typed te' -> te' = te.
