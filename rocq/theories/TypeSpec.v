(** What types mean: which values have a type, and when a type is at most as
    general as another. *)
From Coq Require Import Sorted.
From Verif Require ByteSetModel.
From Verif Require Import Base BoundsModel DataModel NumericModel ValueModel FormatModel TypeModel.
Open Scope nat_scope.

(** ** The order on types *)

(** [sub a b]: [b] is [a] with some unknown parts made known and some union
    alternatives added. *)
Fixpoint sub (a b : vtype) {struct a} : Prop :=
  match a with
  | TAny => True
  | TEmpty => b <> TAny
  | TNumericHole => is_numeric b = true
  | TViewObj => b = TViewObj
  | TBase x => b = TBase x
  | TSigned w => b = TSigned w
  | TPhantom x => exists y, b = TPhantom y /\ sub x y
  | TSeq x => exists y, b = TSeq y /\ sub x y
  | TOption x => exists y, b = TOption y /\ sub x y
  | TTuple xs => exists ys, b = TTuple ys /\
      (fix all2 (xs ys : list vtype) : Prop :=
         match xs, ys with [], [] => True | x :: xs', y :: ys' => sub x y /\ all2 xs' ys' | _, _ => False end) xs ys
  | TRecord xs => exists ys, b = TRecord ys /\
      (fix allf (xs ys : list (label * vtype)) : Prop :=
         match xs, ys with
         | [], [] => True
         | (l, x) :: xs', (m, y) :: ys' => (l = m /\ sub x y) /\ allf xs' ys'
         | _, _ => False
         end) xs ys
  | TUnion xs => exists ys, b = TUnion ys /\
      (fix cov (xs : list (label * vtype)) : Prop :=
         match xs with [] => True | (l, x) :: xs' => (exists y, assoc l ys = Some y /\ sub x y) /\ cov xs' end) xs
  end.
(** The alternatives of each union are sorted by name ([BTreeMap]). *)
Fixpoint wf_type (a : vtype) : Prop :=
  match a with
  | TPhantom x | TSeq x | TOption x => wf_type x
  | TTuple xs => (fix all (xs : list vtype) : Prop := match xs with [] => True | x :: r => wf_type x /\ all r end) xs
  | TRecord xs => (fix all (xs : list (label * vtype)) : Prop := match xs with [] => True | (_, x) :: r => wf_type x /\ all r end) xs
  | TUnion xs => StronglySorted N.lt (map fst xs) /\
      (fix all (xs : list (label * vtype)) : Prop := match xs with [] => True | (_, x) :: r => wf_type x /\ all r end) xs
  | _ => True
  end.

(** ** The values of a type *)

Section HasType.
(** With [exact = true] an integer has exactly the type of its width and sign, and
    there is no integer whose type is left open. With [exact = false], every
    integer has every numeric type. *)
Context (exact : bool).
Fixpoint has_type (v : value) (t : vtype) {struct v} : Prop :=
  match v with
  (* what decoding adds around a value is not part of it *)
  | VMapped _ v' | VBranch _ v' | VPermitOk v' | VPermitErr (Some v') => has_type v' t
  | VPermitErr None => True
  | VBool _ => t = TBase TBool
  | VChar _ => t = TBase TChar
  | VU w _ => t = TBase (TU w) \/ (exact = false /\ is_numeric t = true)
  | VNumeric c => (exists r, tc_rep c = Concrete r /\ t = type_of_mrep r) \/ (exact = false /\ is_numeric t = true)
  | VUsize _ => exact = false /\ is_numeric t = true
  | VEnumFromTo _ _ => exact = false /\ exists u, t = TSeq u /\ is_numeric u = true
  | VView _ => t = TViewObj
  | VPhantom => exists u, t = TPhantom u
  | VOption None => exists u, t = TOption u
  | VOption (Some v') => exists u, t = TOption u /\ has_type v' u
  | VTuple vs => exists ts, t = TTuple ts /\
      (fix all2 (vs : list value) (ts : list vtype) : Prop :=
         match vs, ts with [], [] => True | v :: vs', t :: ts' => has_type v t /\ all2 vs' ts' | _, _ => False end) vs ts
  | VRecord fs => exists ts, t = TRecord ts /\
      (fix allf (fs : list (label * value)) (ts : list (label * vtype)) : Prop :=
         match fs, ts with
         | [], [] => True
         | (l, v) :: fs', (m, t) :: ts' => (l = m /\ has_type v t) /\ allf fs' ts'
         | _, _ => False
         end) fs ts
  | VVariant l v' => exists bs u, t = TUnion bs /\ assoc l bs = Some u /\ has_type v' u
  | VSeq (Strict vs) => exists u, t = TSeq u /\
      (fix all (vs : list value) : Prop := match vs with [] => True | v :: r => has_type v u /\ all r end) vs
  | VSeq (Dup _ v') => exists u, t = TSeq u /\ has_type v' u
  end.
End HasType.

(** ** Where integers have exactly their inferred type *)

(** The result is not computed from a constant of open type. *)
Fixpoint typed_num (n : nexpr) : bool :=
  match n with
  | NConst c => match tc_rep c with Concrete _ => true | Auto => false end
  | NBin _ None a b => typed_num a && typed_num b
  | NUn _ None a => typed_num a
  | NBin _ (Some _) _ _ | NUn _ (Some _) _ | NCast _ _ _ | NVar _ => true
  end.
(** Nor is it, or any part of it, the value of such a constant or of a range of
    integers (whose elements are native). *)
Fixpoint typed_expr (e : expr) : bool :=
  match e with
  | EVar _ | EBool _ | EU _ _ | ELiftOption None | EIntRel _ _ _ | EAs _ _ | EAsChar _ | EBytes _ _ _ | ESeqLength _
  | EArith (ABoolAnd | ABoolOr) _ _ | EUnary UBoolNot _ => true
  | ENumeric n => typed_num n
  | EEnumFromTo _ _ => false
  | ETuple es | ESeq es => forallb typed_expr es
  | ERecord fs => forallb (fun f => match f with (_, e) => typed_expr e end) fs
  | EMatch h bs => typed_expr h && forallb (fun b => match b with (_, e) => typed_expr e end) bs
  | EDestructure h _ b => typed_expr h && typed_expr b
  | ETupleProj a _ | ERecordProj a _ | EVariant _ a | ELambda _ a | EUnary _ a | ELiftOption (Some a)
  | ESeqIx a _ | ESubSeq a _ _ | ESubSeqInflate a _ _ | EDup _ a | EFindByKey _ _ _ a => typed_expr a
  | EArith _ a b | EFlatMap a b | EFlatMapList a _ b | EAppend a b => typed_expr a && typed_expr b
  | EFlatMapAccum a b _ c | ELeftFold a b _ c => typed_expr a && typed_expr b && typed_expr c
  end.
(** The same for the node of a format; the current position is also an integer of
    open type. *)
Definition typed_node (f : format) : bool :=
  match f with
  | FPos => false
  | FItemVar _ es _ => forallb typed_expr es
  | FForEach e _ _ | FMap _ e | FCompute e | FLet _ e _ | FMatch e _ | FPermit _ e => typed_expr e
  | FAccumUntil _ b c _ _ => typed_expr b && typed_expr c
  | _ => true
  end.

(** ** Where the code's own check is enough *)

(** Nothing is left open, and there are no alternatives. *)
Fixpoint ground (t : vtype) : bool :=
  match t with
  | TAny | TEmpty | TNumericHole | TUnion _ => false
  | TViewObj | TBase _ | TSigned _ => true
  | TPhantom x | TSeq x | TOption x => ground x
  | TTuple xs => forallb ground xs
  | TRecord fs => forallb (fun f => match f with (_, x) => ground x end) fs
  end.
(** The accumulators are declared with such types, and there is no flat-map over the
    list made so far. *)
Fixpoint declared (e : expr) : bool :=
  match e with
  | EVar _ | EBool _ | EU _ _ | ENumeric _ | ELiftOption None => true
  | ETuple es | ESeq es => forallb declared es
  | ERecord fs => forallb (fun f => match f with (_, e) => declared e end) fs
  | EMatch h bs => declared h && forallb (fun b => match b with (_, e) => declared e end) bs
  | ETupleProj a _ | ERecordProj a _ | EVariant _ a | ELambda _ a | EUnary _ a | EAs _ a | EAsChar a | EBytes _ _ a
  | ESeqLength a | ELiftOption (Some a) => declared a
  | EDestructure a _ b | EIntRel _ a b | EArith _ a b | ESeqIx a b | EFlatMap a b | EEnumFromTo a b | EDup a b | EAppend a b =>
    declared a && declared b
  | ESubSeq a b c | ESubSeqInflate a b c | EFindByKey _ a b c => declared a && declared b && declared c
  | EFlatMapAccum a b t c | ELeftFold a b t c => declared a && declared b && ground t && declared c
  | EFlatMapList _ _ _ => false
  end.
Fixpoint declared_view (v : viewexpr) : bool := match v with VEVar _ => true | VEOffset v e => declared_view v && declared e end.
(** The same for the node of a format, which is not an accumulation. *)
Definition declared_node (f : format) : bool :=
  match f with
  | FAccumUntil _ _ _ _ _ => false
  | FItemVar _ es _ => forallb declared es
  | FDecodeBytes e _ | FRepeatCount e _ | FRepeatUntilLast e _ | FRepeatUntilSeq e _ | FMaybe e _ | FMap _ e | FWhere _ e _
  | FCompute e | FLet _ e _ | FPermit _ e | FMatch e _ | FForEach e _ _ | FDynamic _ (DHuffman e _) _ => declared e
  | FRepeatBetween a b _ => declared a && declared b
  | FParseFromView v _ => declared_view v
  | FWithView v (VFCapture e) | FWithView v (VFReadArray e _) => declared_view v && declared e
  | FWithView v VFReify => declared_view v
  | _ => true
  end.
