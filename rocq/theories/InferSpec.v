(** The types of expressions and formats, by rules; what a type without variables says
    of values; and the expressions and formats for which the code's inference follows
    the rules. *)
From Verif Require ByteSetModel.
From Verif Require Import Base BoundsModel DataModel NumericModel TypeModel BaseSetModel BaseSetSpec UnifyModel ReifyModel ValueModel FormatModel.
From Verif Require Import TypeSpec MatchBoundsProofs UnifySpec.
Open Scope nat_scope.

(** The type of values that a type without variables is. *)
Fixpoint vt (g : gtype) : vtype :=
  match g with
  | GInt p => type_of_mrep p
  | GBool => TBase TBool
  | GChar => TBase TChar
  | GView => TViewObj
  | GTuple gs => TTuple (map vt gs)
  | GRecord fs => TRecord (map (fun f : label * gtype => let (l, t) := f in (l, vt t)) fs)
  | GUnion bs => TUnion (map (fun f : label * gtype => let (l, t) := f in (l, vt t)) bs)
  | GSeq g => TSeq (vt g)
  | GOption g => TOption (vt g)
  | GPhantom g => TPhantom (vt g)
  end.

(** ** Rules *)

Definition env := list (label * gtype).
Definition GU (w : bitwidth) : gtype := GInt (MR false w).

(** Patterns: the type of the values they are for, and the names they bind, the last
    one first. *)
Inductive pat_type : pattern -> gtype -> env -> Prop :=
| PTBinding x T : pat_type (PBinding x) T [(x, T)]
| PTWildcard T : pat_type PWildcard T []
| PTBool b : pat_type (PBool b) GBool []
| PTU w n : pat_type (PU w n) (GU w) []
| PTInt b w : (forall m, bmax b = Some m -> (m < 2 ^ 64)%N -> holds (MR false w) (Z.of_N m)) -> pat_type (PInt b) (GU w) []
| PTZConst z p : holds p z -> pat_type (PZConst z) (GInt p) []
| PTZRange lo hi p : ((lo <= hi)%Z -> forall z, (lo <= z <= hi)%Z -> holds p z) -> pat_type (PZRange (ZB lo hi)) (GInt p) []
| PTChar c : pat_type (PChar c) GChar []
| PTTuple ps Ts B : pats_type ps Ts B -> pat_type (ValueModel.PTuple ps) (GTuple Ts) B
| PTVariant l p bs T B : assoc l bs = Some T -> pat_type p T B -> pat_type (PVariant l p) (GUnion bs) B
| PTSeq ps T Ts B : pats_type ps Ts B -> Forall (eq T) Ts -> pat_type (ValueModel.PSeq ps) (GSeq T) B
| PTNone T : pat_type (POption None) (GOption T) []
| PTSome p T B : pat_type p T B -> pat_type (POption (Some p)) (GOption T) B
with pats_type : list pattern -> list gtype -> env -> Prop :=
| PTnil : pats_type [] [] []
| PTcons p ps T Ts B Bs : pat_type p T B -> pats_type ps Ts Bs -> pats_type (p :: ps) (T :: Ts) (Bs ++ B).

(** Numeric expressions. A constant of open type has a type that can hold it. *)
Inductive num_type (G : env) : nexpr -> mrep -> Prop :=
| NTConst c p : match tc_rep c with Concrete r => r = p | Auto => holds p (tc_val c) end -> num_type G (NConst c) p
| NTVar x p : assoc x G = Some (GInt p) -> num_type G (NVar x) p
| NTBin op a b p : num_type G a p -> num_type G b p -> num_type G (NBin op None a b) p
| NTBinAs op p a b q r : num_type G a q -> num_type G b r -> num_type G (NBin op (Some p) a b) p
| NTUn op a p : num_type G a p -> num_type G (NUn op None a) p
| NTUnAs op p a q : num_type G a q -> num_type G (NUn op (Some p) a) p
| NTCast p s a q : num_type G a q -> num_type G (NCast p s a) p.

(** An accumulator has the type it is declared with. Where the declared type has unions
    in it, these have at least the declared variants, and the tuples and records around
    them at least the declared parts; a union without variants says nothing. *)
Inductive as_declared : vtype -> gtype -> Prop :=
| DlExact T : ground (vt T) = true -> as_declared (vt T) T
| DlTuple ts Ts : ground (TTuple ts) = false ->
    (forall i t, nth_error ts i = Some t -> exists T, nth_error Ts i = Some T /\ as_declared t T) -> as_declared (TTuple ts) (GTuple Ts)
| DlRecord fs Fs : ground (TRecord fs) = false ->
    (forall l t, In (l, t) fs -> exists T, assoc l Fs = Some T /\ as_declared t T) -> as_declared (TRecord fs) (GRecord Fs)
| DlNone T : as_declared (TUnion []) T
| DlUnion bs Bs : (forall l t, In (l, t) bs -> exists T, assoc l Bs = Some T /\ as_declared t T) -> as_declared (TUnion bs) (GUnion Bs)
| DlSeq t T : ground t = false -> as_declared t T -> as_declared (TSeq t) (GSeq T)
| DlOption t T : ground t = false -> as_declared t T -> as_declared (TOption t) (GOption T).

Definition is_logic (op : arith_op) : bool := match op with ABoolAnd | ABoolOr => true | _ => false end.
Inductive types : env -> expr -> gtype -> Prop :=
| TyVar G x T : assoc x G = Some T -> types G (EVar x) T
| TyBool G b : types G (EBool b) GBool
| TyU G w n : types G (EU w n) (GU w)
| TyNum G n p : num_type G n p -> types G (ENumeric n) (GInt p)
| TyTuple G es Ts : Forall2 (types G) es Ts -> types G (ETuple es) (GTuple Ts)
| TyProj G a i Ts T : types G a (GTuple Ts) -> nth_error Ts i = Some T -> types G (ETupleProj a i) T
| TyRecord G fs Ts : Forall2 (fun f T => fst f = fst T /\ types G (snd f) (snd T)) fs Ts -> types G (ERecord fs) (GRecord Ts)
| TyField G a l Ts T : types G a (GRecord Ts) -> assoc l Ts = Some T -> types G (ERecordProj a l) T
| TyVariant G l a bs T : types G a T -> assoc l bs = Some T -> types G (EVariant l a) (GUnion bs)
| TySeq G es T : Forall (fun e => types G e T) es -> types G (ESeq es) (GSeq T)
| TyMatch G h H bs T : types G h H ->
    Forall (fun b => exists B, pat_type (fst b) H B /\ types (B ++ G) (snd b) T) bs -> types G (EMatch h bs) T
| TyDestructure G h H p B b T : types G h H -> pat_type p H B -> types (B ++ G) b T -> types G (EDestructure h p b) T
| TyRel G r a b w : types G a (GU w) -> types G b (GU w) -> types G (EIntRel r a b) GBool
| TyLogic G op a b : is_logic op = true -> types G a GBool -> types G b GBool -> types G (EArith op a b) GBool
| TyArith G op a b w : is_logic op = false -> types G a (GU w) -> types G b (GU w) -> types G (EArith op a b) (GU w)
| TyNot G a : types G a GBool -> types G (EUnary UBoolNot a) GBool
| TyStep G op a w : op <> UBoolNot -> types G a (GU w) -> types G (EUnary op a) (GU w)
| TyAs G w a p : types G a (GInt p) -> types G (EAs w a) (GU w)
| TyChar G a w : types G a (GU w) -> types G (EAsChar a) GChar
| TyBytes G be w a : types G a (GTuple (repeat (GU B8) (N.to_nat (nbits w / 8)))) -> types G (EBytes be w a) (GU w)
| TyLength G a T w : types G a (GSeq T) -> types G (ESeqLength a) (GU w)
| TyIndex G a i w T : types G a (GSeq T) -> types G i (GU w) -> types G (ESeqIx a i) T
| TySub G a i n w w' T : types G a (GSeq T) -> types G i (GU w) -> types G n (GU w') -> types G (ESubSeq a i n) (GSeq T)
| TyInflate G a i n w w' T : types G a (GSeq T) -> types G i (GU w) -> types G n (GU w') -> types G (ESubSeqInflate a i n) (GSeq T)
| TyAppend G a b T : types G a (GSeq T) -> types G b (GSeq T) -> types G (EAppend a b) (GSeq T)
| TyFlatMap G x b a T U : types G a (GSeq T) -> types ((x, T) :: G) b (GSeq U) -> types G (EFlatMap (ELambda x b) a) (GSeq U)
| TyFlatMapAccum G x b z t a A T U : types G z A -> types G a (GSeq T) ->
    types ((x, GTuple [A; T]) :: G) b (GTuple [A; GSeq U]) -> as_declared t A -> types G (EFlatMapAccum (ELambda x b) z t a) (GSeq U)
| TyFold G x b z t a A T : types G z A -> types G a (GSeq T) ->
    types ((x, GTuple [A; T]) :: G) b A -> as_declared t A -> types G (ELeftFold (ELambda x b) z t a) A
| TyFind G s x b q a T K : types G a (GSeq T) -> types G q K -> types ((x, T) :: G) b K ->
    types G (EFindByKey s (ELambda x b) q a) (GOption T)
| TyFlatMapList G x b t a T U : types G a (GSeq T) ->
    types ((x, GTuple [GSeq U; T]) :: G) b (GSeq U) -> as_declared t U -> types G (EFlatMapList (ELambda x b) t a) (GSeq U)
| TyRange G a b w : types G a (GU w) -> types G b (GU w) -> types G (EEnumFromTo a b) (GSeq (GU w))
| TyDup G n a w T : types G n (GU w) -> types G a T -> types G (EDup n a) (GSeq T)
| TyNone G T : types G (ELiftOption None) (GOption T)
| TySome G a T : types G a T -> types G (ELiftOption (Some a)) (GOption T).

(** Formats, in a module with argument types; [L] gives its levels types. [G] is for
    the values in scope, [D] for the dynamic formats. *)
Section Formats.
Variable ds : list (item * list vtype).
Variable L : nat -> gtype -> Prop.
Inductive ftype : env -> env -> format -> gtype -> Prop :=
| FtItem G D k args views it tys T : nth_error ds k = Some (it, tys) -> Forall2 (fun e t => exists U, types G e U /\ vt U = t) args tys ->
    length args = length (it_args it) -> L k T -> ftype G D (FItemVar k args views) T
| FtEnd G D : ftype G D FEndOfInput (GTuple [])
| FtAlign G D n : ftype G D (FAlign n) (GTuple [])
| FtSkip G D : ftype G D FSkipRemainder (GTuple [])
| FtByte G D bs : ftype G D (FByte bs) (GU B8)
| FtVariant G D l f bs T : ftype G D f T -> assoc l bs = Some T -> ftype G D (FVariant l f) (GUnion bs)
| FtUnion G D fs T : Forall (fun f => ftype G D f T) fs -> ftype G D (FUnion fs) T
| FtUnionNondet G D fs T : Forall (fun f => ftype G D f T) fs -> ftype G D (FUnionNondet fs) T
| FtTuple G D fs Ts : Forall2 (ftype G D) fs Ts -> ftype G D (FTuple fs) (GTuple Ts)
| FtSequence G D fs T : Forall (fun f => ftype G D f T) fs -> ftype G D (FSequence fs) (GSeq T)
| FtRepeat G D f T : ftype G D f T -> ftype G D (FRepeat f) (GSeq T)
| FtRepeat1 G D f T : ftype G D f T -> ftype G D (FRepeat1 f) (GSeq T)
| FtCount G D e f w T : types G e (GU w) -> ftype G D f T -> ftype G D (FRepeatCount e f) (GSeq T)
| FtBetween G D e1 e2 f w T : types G e1 (GU w) -> types G e2 (GU w) -> ftype G D f T -> ftype G D (FRepeatBetween e1 e2 f) (GSeq T)
| FtUntilLast G D x b f T : types ((x, T) :: G) b GBool -> ftype G D f T -> ftype G D (FRepeatUntilLast (ELambda x b) f) (GSeq T)
| FtUntilSeq G D x b f T : types ((x, GSeq T) :: G) b GBool -> ftype G D f T -> ftype G D (FRepeatUntilSeq (ELambda x b) f) (GSeq T)
| FtAccum G D x b y d z t f A T : types ((x, GTuple [A; GSeq T]) :: G) b GBool -> types ((y, GTuple [A; T]) :: G) d A -> types G z A ->
    as_declared t A -> ftype G D f T -> ftype G D (FAccumUntil (ELambda x b) (ELambda y d) z t f) (GTuple [A; GSeq T])
| FtForEach G D e x f T U : types G e (GSeq T) -> ftype ((x, T) :: G) D f U -> ftype G D (FForEach e x f) (GSeq U)
| FtMaybe G D e f T : types G e GBool -> ftype G D f T -> ftype G D (FMaybe e f) (GOption T)
| FtPeek G D f T : ftype G D f T -> ftype G D (FPeek f) T
| FtPeekNot G D f T : ftype G D f T -> ftype G D (FPeekNot f) (GTuple [])
| FtSlice G D e f w T : types G e (GU w) -> ftype G D f T -> ftype G D (FSlice e f) T
| FtBits G D f T : ftype G D f T -> ftype G D (FBits f) T
| FtOffset G D e1 e2 f w T : types G e1 (GU w) -> types G e2 (GU w) -> ftype G D f T -> ftype G D (FWithRelativeOffset e1 e2 f) T
| FtMap G D f x b T U : ftype G D f T -> types ((x, T) :: G) b U -> ftype G D (FMap f (ELambda x b)) U
| FtWhere G D f x b h T : ftype G D f T -> types ((x, T) :: G) b GBool -> ftype G D (FWhere f (ELambda x b) h) T
| FtCompute G D e T : types G e T -> ftype G D (FCompute e) T
| FtLet G D x e f T U : types G e T -> ftype ((x, T) :: G) D f U -> ftype G D (FLet x e f) U
| FtMatch G D e H bs T : types G e H ->
    Forall (fun b => exists B, pat_type (fst b) H B /\ ftype (B ++ G) D (snd b) T) bs -> ftype G D (FMatch e bs) T
| FtDynamic G D x d f w T : ftype G ((x, GU w) :: D) f T -> ftype G D (FDynamic x d f) T
| FtApply G D x T : assoc x D = Some T -> ftype G D (FApply x) T
| FtPos G D w : ftype G D FPos (GU w)
| FtDecodeBytes G D e f T : types G e (GSeq (GU B8)) -> ftype G D f T -> ftype G D (FDecodeBytes e f) T
| FtLetFormat G D f x g T U : ftype G D f T -> ftype ((x, T) :: G) D g U -> ftype G D (FLetFormat f x g) U
| FtMonadSeq G D f g T U : ftype G D f T -> ftype G D g U -> ftype G D (FMonadSeq f g) U
| FtHint G D f T : ftype G D f T -> ftype G D (FHint f) T
| FtNone G D T : ftype G D (FLiftedOption None) (GOption T)
| FtSome G D f T : ftype G D f T -> ftype G D (FLiftedOption (Some f)) (GOption T)
| FtLetView G D x f T : ftype G D f T -> ftype G D (FLetView x f) T
| FtCapture G D v e w : types G e (GU w) -> ftype G D (FWithView v (VFCapture e)) (GSeq (GU B8))
| FtReadArray G D v e k w : types G e (GU w) -> ftype G D (FWithView v (VFReadArray e k)) (GSeq (GU (bk_width k)))
| FtReify G D v : ftype G D (FWithView v VFReify) GView
| FtParseFromView G D v f T : ftype G D f T -> ftype G D (FParseFromView v f) T
| FtPhantom G D f T : ftype G D f T -> ftype G D (FPhantom f) (GPhantom T)
| FtPermit G D f e T : ftype G D f T -> types G e T -> ftype G D (FPermit f e) T.

(** In an environment for a call, the arguments have their declared types. *)
Definition args_in (it : item) (tys : list vtype) (G : env) : Prop :=
  forall x t, assoc x (rev (combine (it_args it) tys)) = Some t -> exists U, assoc x G = Some U /\ vt U = t.
(** The levels have the types that [L] gives them. *)
Definition module_types : Prop :=
  forall k T, L k T -> exists it tys G D, nth_error ds k = Some (it, tys) /\ args_in it tys G /\ ftype G D (it_format it) T.
End Formats.

(** ** Where inference follows the rules *)

Fixpoint nodup_labels (l : list label) : bool :=
  match l with [] => true | x :: r => negb (existsb (N.eqb x) r) && nodup_labels r end.
Fixpoint pat_names (p : pattern) : list label :=
  match p with
  | PBinding x => [x]
  | ValueModel.PTuple ps | ValueModel.PSeq ps => flat_map pat_names ps
  | PVariant _ p | POption (Some p) => pat_names p
  | _ => []
  end.
Definition names_pat (p : pattern) (x : label) : bool := existsb (N.eqb x) (pat_names p).
(** [x] is a free name of the expression. *)
Fixpoint uses (x : label) (e : expr) {struct e} : bool :=
  match e with
  | EVar y => N.eqb x y
  | EBool _ | EU _ _ | ELiftOption None => false
  | ENumeric n => existsb (N.eqb x) (iter_vars n)
  | ETuple es | ESeq es => existsb (uses x) es
  | ERecord fs => existsb (fun f => match f with (_, e) => uses x e end) fs
  | EMatch h bs => uses x h || existsb (fun b => match b with (p, e) => negb (names_pat p x) && uses x e end) bs
  | EDestructure h p b => uses x h || (negb (names_pat p x) && uses x b)
  | ELambda y b => negb (N.eqb x y) && uses x b
  | ETupleProj a _ | ERecordProj a _ | EVariant _ a | EUnary _ a | EAs _ a | EAsChar a | EBytes _ _ a | ESeqLength a
  | ELiftOption (Some a) => uses x a
  | EIntRel _ a b | EArith _ a b | ESeqIx a b | EFlatMap a b | EFlatMapList a _ b | EEnumFromTo a b | EDup a b | EAppend a b =>
    uses x a || uses x b
  | ESubSeq a b c | ESubSeqInflate a b c | EFlatMapAccum a b _ c | ELeftFold a b _ c | EFindByKey _ a b c =>
    uses x a || uses x b || uses x c
  end.
(** No field of a record uses the name of an earlier field. *)
Fixpoint apart (fs : list (label * expr)) : bool :=
  match fs with
  | [] => true
  | (l, _) :: r => forallb (fun f => match f with (_, e) => negb (uses l e) end) r && apart r
  end.
(** Types in which nothing is left open. *)
Fixpoint definite (t : vtype) : bool :=
  match t with
  | TAny | TEmpty | TNumericHole => false
  | TViewObj | TBase _ | TSigned _ => true
  | TPhantom x | TSeq x | TOption x => definite x
  | TTuple xs => forallb definite xs
  | TRecord fs => nodup_labels (map fst fs) && forallb (fun f => match f with (_, x) => definite x end) fs
  | TUnion fs => forallb (fun f => match f with (_, x) => definite x end) fs
  end.
(** In all records the fields have distinct names and are apart, and accumulators are
    declared with definite types. *)
Fixpoint tidy (e : expr) : bool :=
  match e with
  | EVar _ | EBool _ | EU _ _ | ENumeric _ | ELiftOption None => true
  | ETuple es | ESeq es => forallb tidy es
  | ERecord fs => nodup_labels (map fst fs) && apart fs && forallb (fun f => match f with (_, e) => tidy e end) fs
  | EMatch h bs => tidy h && forallb (fun b => match b with (_, e) => tidy e end) bs
  | ETupleProj a _ | ERecordProj a _ | EVariant _ a | ELambda _ a | EUnary _ a | EAs _ a | EAsChar a | EBytes _ _ a
  | ESeqLength a | ELiftOption (Some a) => tidy a
  | EDestructure a _ b | EIntRel _ a b | EArith _ a b | ESeqIx a b | EFlatMap a b | EEnumFromTo a b | EDup a b | EAppend a b =>
    tidy a && tidy b
  | ESubSeq a b c | ESubSeqInflate a b c | EFindByKey _ a b c => tidy a && tidy b && tidy c
  | EFlatMapAccum a b t c | ELeftFold a b t c => tidy a && tidy b && definite t && tidy c
  | EFlatMapList a t b => tidy a && definite t && tidy b
  end.
Fixpoint tidy_view (v : viewexpr) : bool := match v with VEVar _ => true | VEOffset v e => tidy_view v && tidy e end.
(** The same for the node of a format. It has values, and calls have as many arguments
    as are declared. *)
Definition tidy_node (ds : list (item * list vtype)) (f : format) : bool :=
  match f with
  | FFail => false
  | FByte bs => negb (ByteSetModel.is_empty bs)
  | FItemVar k es vs =>
    forallb tidy es && forallb tidy_view vs &&
    match nth_error ds k with Some (it, tys) => (length es =? length (it_args it)) && (length es =? length tys) | None => false end
  | FDecodeBytes e _ | FRepeatCount e _ | FRepeatUntilLast e _ | FRepeatUntilSeq e _ | FMaybe e _ | FMap _ e | FWhere _ e _ | FSlice e _
  | FCompute e | FLet _ e _ | FPermit _ e | FMatch e _ | FForEach e _ _ | FDynamic _ (DHuffman e None) _ => tidy e
  | FRepeatBetween a b _ | FWithRelativeOffset a b _ | FDynamic _ (DHuffman a (Some b)) _ => tidy a && tidy b
  | FAccumUntil a b c t _ => tidy a && tidy b && tidy c && definite t
  | FParseFromView v _ => tidy_view v
  | FWithView v (VFCapture e) | FWithView v (VFReadArray e _) => tidy_view v && tidy e
  | FWithView v VFReify => tidy_view v
  | _ => true
  end.

(** ** Where integers have exactly the type of their width *)

(** The result is not computed from a constant of open type, or from the length of a
    sequence or a range. *)
Fixpoint sized_num (n : nexpr) : bool :=
  match n with
  | NConst c => match tc_rep c with Concrete _ => true | Auto => false end
  | NBin _ None a b => sized_num a && sized_num b
  | NUn _ None a => sized_num a
  | NBin _ (Some _) _ _ | NUn _ (Some _) _ | NCast _ _ _ | NVar _ => true
  end.
Fixpoint sized (e : expr) : bool :=
  match e with
  | EVar _ | EBool _ | EU _ _ | ELiftOption None | EIntRel _ _ _ | EAs _ _ | EAsChar _ | EBytes _ _ _
  | EArith (ABoolAnd | ABoolOr) _ _ | EUnary UBoolNot _ => true
  | ENumeric n => sized_num n
  | EEnumFromTo _ _ | ESeqLength _ => false
  | ETuple es | ESeq es => forallb sized es
  | ERecord fs => forallb (fun f => match f with (_, e) => sized e end) fs
  | EMatch h bs => sized h && forallb (fun b => match b with (_, e) => sized e end) bs
  | EDestructure h _ b => sized h && sized b
  | ETupleProj a _ | ERecordProj a _ | EVariant _ a | ELambda _ a | EUnary _ a | ELiftOption (Some a)
  | ESeqIx a _ | ESubSeq a _ _ | ESubSeqInflate a _ _ | EDup _ a | EFindByKey _ _ _ a => sized a
  | EArith _ a b | EFlatMap a b | EFlatMapList a _ b | EAppend a b => sized a && sized b
  | EFlatMapAccum a b _ c | ELeftFold a b _ c => sized a && sized b && sized c
  end.
(** The same for the node of a format, which is not the position or a dynamic format. *)
Definition sized_node (f : format) : bool :=
  match f with
  | FPos | FApply _ => false
  | FItemVar _ es _ => forallb sized es
  | FForEach e _ _ | FMap _ e | FCompute e | FLet _ e _ | FMatch e _ | FPermit _ e => sized e
  | FAccumUntil _ b c _ _ => sized b && sized c
  | _ => true
  end.

(** Formats and modules all of whose nodes are such. The arguments of items are
    declared with types without unions, in which nothing is left open. *)
Definition tidy_format (ds : list (item * list vtype)) (f : format) : Prop := everywhere (fun g => tidy_node ds g = true) f.
Definition tidy_module (ds : list (item * list vtype)) : Prop :=
  forall k it tys, nth_error ds k = Some (it, tys) -> forallb ground tys = true /\ forallb definite tys = true /\ tidy_format ds (it_format it).
Definition sized_format (f : format) : Prop := everywhere (fun g => sized_node g = true) f.
Definition sized_module (ds : list (item * list vtype)) : Prop := module_wide (fun g => sized_node g = true) (map fst ds).
