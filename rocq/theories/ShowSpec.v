(** What is shown of expressions, and when two are shown alike; reviewed without the printer. *)
From Coq Require Import Ascii String.
From Verif Require Import Base BoundsModel DataModel NumericModel ValueModel FragModel.
Open Scope nat_scope.

(** Infix operators *)
Inductive infix :=
| Range | Times | Divide | Remainder | ShiftL | ShiftR | Plus | Minus | Concat
| AndB | OrB | AndL | OrL | Equal | Unequal | Less | Greater | AtMost | AtLeast.
(** What is shown of an expression: a word; that something is hidden; operations on what is
    shown. Patterns are shown as a text. *)
Inductive hidden := HTuple | HRecord | HSeq.
Inductive shown :=
| XWord (t : text)
| XHidden (k : hidden)
| XVariant (l : text) (x : shown)
| XProj (x : shown) (l : text)
| XApply (op : text) (args : list shown) (x : shown)
| XInfix (o : infix) (x y : shown)
| XMatch (x : shown)
| XBind (pat : text) (x y : shown)
| XArrow (v : text) (x : shown).

Definition rel_infix (r : int_rel) : infix :=
  match r with REq => Equal | RNe => Unequal | RLt => Less | RGt => Greater | RLte => AtMost | RGte => AtLeast end.
Definition arith_infix (o : arith_op) : infix :=
  match o with
  | AAdd => Plus | ASub => Minus | AMul => Times | ADiv => Divide | ARem => Remainder | ABitAnd => AndB | ABitOr => OrB
  | AShl => ShiftL | AShr => ShiftR | ABoolOr => OrL | ABoolAnd => AndL
  end.
Definition unary_name (o : unary_op) : string :=
  match o with UBoolNot => "!" | UIntPred => "pred" | UIntSucc => "succ" end.

(** The names of casts to an unsigned type, and of the reading of bytes as a number *)
Definition cast_word (w : bitwidth) : string :=
  match w with B8 => "as-u8" | B16 => "as-u16" | B32 => "as-u32" | B64 => "as-u64" end.
Definition bytes_word (be : bool) (w : bitwidth) : string :=
  match w, be with
  | B8, true => "u8be" | B8, false => "u8le" | B16, true => "u16be" | B16, false => "u16le"
  | B32, true => "u32be" | B32, false => "u32le" | B64, true => "u64be" | B64, false => "u64le"
  end.

Section Spec.
Context (dec : N -> text) (name : label -> text) (pat : pattern -> text) (cast : bitwidth -> string) (bytes : bool -> bitwidth -> string).

(** What is shown of an expression. The types of numbers, the cases of a [match], the
    elements of tuples, records and sequences, and the types of accumulators are not. *)
Fixpoint what_is_shown (e : expr) : shown :=
  match e with
  | EVar x => XWord (name x)
  | EBool b => XWord (str (if b then "true" else "false"))
  | EU _ n => XWord (dec n)
  | ETuple _ => XHidden HTuple
  | ETupleProj e i => XProj (what_is_shown e) (dec (N.of_nat i))
  | ERecord _ => XHidden HRecord
  | ERecordProj e l => XProj (what_is_shown e) (name l)
  | EVariant l e => XVariant (name l) (what_is_shown e)
  | ESeq _ => XHidden HSeq
  | ENumeric _ => XWord []
  | EMatch h _ => XMatch (what_is_shown h)
  | EDestructure h p e => XBind (pat p) (what_is_shown h) (what_is_shown e)
  | ELambda x e => XArrow (name x) (what_is_shown e)
  | EIntRel r a b => XInfix (rel_infix r) (what_is_shown a) (what_is_shown b)
  | EArith o a b => XInfix (arith_infix o) (what_is_shown a) (what_is_shown b)
  | EUnary o a => XApply (str (unary_name o)) [] (what_is_shown a)
  | EAs w e => XApply (str (cast w)) [] (what_is_shown e)
  | EAsChar e => XApply (str "as-char") [] (what_is_shown e)
  | EBytes be w e => XApply (str (bytes be w)) [] (what_is_shown e)
  | ESeqLength e => XApply (str "seq-length") [] (what_is_shown e)
  | ESubSeq e s l => XApply (str "sub-seq") [what_is_shown s; what_is_shown l] (what_is_shown e)
  | ESeqIx e i => XApply (str "seq-ix") [what_is_shown i] (what_is_shown e)
  | ESubSeqInflate e s l => XApply (str "sub-seq-inflate") [what_is_shown s; what_is_shown l] (what_is_shown e)
  | EFlatMap f e => XApply (str "flat-map") [what_is_shown f] (what_is_shown e)
  | EFlatMapAccum f z _ e => XApply (str "flat-map-accum") [what_is_shown f; what_is_shown z] (what_is_shown e)
  | EFlatMapList f _ e => XApply (str "flat-map-list") [what_is_shown f] (what_is_shown e)
  | EFindByKey sorted k q e =>
      XApply (str (if sorted then "binary-search" else "linear-search")) [what_is_shown k; what_is_shown q] (what_is_shown e)
  | EEnumFromTo a b => XInfix Range (what_is_shown a) (what_is_shown b)
  | ELeftFold f z _ e => XApply (str "left-fold") [what_is_shown f; what_is_shown z] (what_is_shown e)
  | EDup n e => XApply (str "dup") [what_is_shown n] (what_is_shown e)
  | ELiftOption (Some e) => XApply (str "some") [] (what_is_shown e)
  | ELiftOption None => XWord (str "none")
  | EAppend a b => XInfix Concat (what_is_shown a) (what_is_shown b)
  end.
End Spec.

(** Operators of one level, whose chains are shown without parentheses *)
Definition chained (o o' : infix) : bool :=
  match o, o' with
  | Range, Range | Times, Times | AndB, AndB | OrB, OrB => true
  | (Divide | Remainder), (Divide | Remainder) => true
  | (ShiftL | ShiftR), (ShiftL | ShiftR) => true
  | (Plus | Minus | Concat), (Plus | Minus | Concat) => true
  | (Less | Greater | AtMost | AtLeast), (Less | Greater | AtMost | AtLeast) => true
  | _, _ => false
  end.
(** The same but for the grouping of chains of operators of one level *)
Inductive Regrouped : shown -> shown -> Prop :=
| RG_refl x : Regrouped x x
| RG_sym x y : Regrouped x y -> Regrouped y x
| RG_trans x y z : Regrouped x y -> Regrouped y z -> Regrouped x z
| RG_rotate o o' x y z : chained o o' = true ->
    Regrouped (XInfix o' (XInfix o x y) z) (XInfix o x (XInfix o' y z))
| RG_variant l x y : Regrouped x y -> Regrouped (XVariant l x) (XVariant l y)
| RG_proj x y l : Regrouped x y -> Regrouped (XProj x l) (XProj y l)
| RG_apply op a x y : Regrouped x y -> Regrouped (XApply op a x) (XApply op a y)
| RG_args op a b x y z : Regrouped x y -> Regrouped (XApply op (a ++ x :: b) z) (XApply op (a ++ y :: b) z)
| RG_infix o x x' y y' : Regrouped x x' -> Regrouped y y' -> Regrouped (XInfix o x y) (XInfix o x' y')
| RG_match x y : Regrouped x y -> Regrouped (XMatch x) (XMatch y)
| RG_bind p x x' y y' : Regrouped x x' -> Regrouped y y' -> Regrouped (XBind p x y) (XBind p x' y')
| RG_arrow v x y : Regrouped x y -> Regrouped (XArrow v x) (XArrow v y).

(** Chains grouped to the left, as written without parentheses they are usually read *)
Fixpoint to_the_left (x : shown) : bool :=
  match x with
  | XWord _ | XHidden _ => true
  | XVariant _ x | XProj x _ | XMatch x | XArrow _ x => to_the_left x
  | XApply _ args x => forallb to_the_left args && to_the_left x
  | XInfix o x y =>
      to_the_left x && to_the_left y && match y with XInfix o' _ _ => negb (chained o o') | _ => true end
  | XBind _ x y => to_the_left x && to_the_left y
  end.

(** The characters that separate words *)
Definition separator (c : N) : bool :=
  existsb (N.eqb c) (str " (),[]{}.").
Definition reserved : list text :=
  map str ["match"; "pat-bind"; "="; "!"; "pred"; "succ"; "as-u8"; "as-u16"; "as-u32"; "as-u64"; "as-char"; "u8be"; "u8le";
           "u16be"; "u16le"; "u32be"; "u32le"; "u64be"; "u64le"; "seq-length"; "seq-ix"; "sub-seq"; "sub-seq-inflate";
           "flat-map"; "flat-map-accum"; "left-fold"; "binary-search"; "linear-search"; "flat-map-list"; "dup"; "some"]%string.
(** A word: something, without separators, and not reserved *)
Definition word (t : text) : Prop := t <> [] /\ forallb (fun c => negb (separator c)) t = true /\ ~ In t reserved.

Section Names.
Context (name : label -> text).
(** Patterns and expressions all of whose names are words, without numeric expressions, and
    with only patterns that can be shown *)
Inductive PatNames : pattern -> Prop :=
| PN_binding x : word (name x) -> PatNames (PBinding x)
| PN_wildcard : PatNames PWildcard
| PN_tuple ps : Forall PatNames ps -> PatNames (PTuple ps)
| PN_variant l p : word (name l) -> PatNames p -> PatNames (PVariant l p)
| PN_seq ps : Forall PatNames ps -> PatNames (PSeq ps)
| PN_none : PatNames (POption None)
| PN_some p : PatNames p -> PatNames (POption (Some p)).
Fixpoint names (e : expr) : Prop :=
  match e with
  | EVar x => word (name x)
  | EBool _ | EU _ _ | ETuple _ | ERecord _ | ESeq _ | ELiftOption None => True
  | ETupleProj e _ | EMatch e _ | EUnary _ e | EAs _ e | EAsChar e | EBytes _ _ e | ESeqLength e
  | ELiftOption (Some e) => names e
  | ERecordProj e l | EVariant l e | ELambda l e => word (name l) /\ names e
  | ENumeric _ => False
  | EDestructure h p e => PatNames p /\ names h /\ names e
  | EIntRel _ a b | EArith _ a b | ESeqIx a b | EFlatMap a b | EFlatMapList a _ b | EEnumFromTo a b
  | EDup a b | EAppend a b => names a /\ names b
  | ESubSeq a b c | ESubSeqInflate a b c | EFlatMapAccum a b _ c | EFindByKey _ a b c | ELeftFold a b _ c =>
      names a /\ names b /\ names c
  end.
End Names.
