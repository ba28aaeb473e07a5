(** Model of type inference for expressions and formats: src/valuetype.rs
    (unification), src/pattern.rs (scopes of patterns), src/numeric/core.rs
    (types of numeric expressions), src/lib.rs ([infer_type],
    [infer_format_type], [TypeScope], [define_format_args_views]). *)
From Verif Require ByteSetModel.
From Verif Require Import Base BoundsModel DataModel NumericModel ValueModel FormatModel.
Open Scope nat_scope.

(** ** Types *)

(** src/valuetype.rs:46-48, 350-356 [is_numeric] *)
Definition is_numeric (t : vtype) : bool :=
  match t with TBase (TU _) | TNumericHole | TSigned _ => true | _ => false end.
Definition basetype_eqb (a b : basetype) : bool :=
  match a, b with TBool, TBool | TChar, TChar => true | TU x, TU y => bw_eqb x y | _, _ => false end.
(** [derive(PartialEq)] for [ValueType] *)
Fixpoint vtype_eqb (a b : vtype) {struct a} : bool :=
  let all2 := fix all2 (xs ys : list vtype) :=
    match xs, ys with [], [] => true | x :: xs', y :: ys' => vtype_eqb x y && all2 xs' ys' | _, _ => false end in
  let allf := fix allf (xs ys : list (label * vtype)) :=
    match xs, ys with
    | [], [] => true
    | (l, x) :: xs', (m, y) :: ys' => N.eqb l m && vtype_eqb x y && allf xs' ys'
    | _, _ => false
    end in
  match a, b with
  | TAny, TAny | TEmpty, TEmpty | TViewObj, TViewObj | TNumericHole, TNumericHole => true
  | TPhantom x, TPhantom y | TSeq x, TSeq y | TOption x, TOption y => vtype_eqb x y
  | TBase x, TBase y => basetype_eqb x y
  | TSigned x, TSigned y => bw_eqb x y
  | TTuple xs, TTuple ys => all2 xs ys
  | TRecord xs, TRecord ys | TUnion xs, TUnion ys => allf xs ys
  | _, _ => false
  end.

(** [BTreeMap::insert], on lists sorted by key *)
Fixpoint tm_insert {A} (l : label) (x : A) (m : list (label * A)) : list (label * A) :=
  match m with
  | [] => [(l, x)]
  | (k, y) :: r => match N.compare l k with Lt => (l, x) :: m | Eq => (l, x) :: r | Gt => (k, y) :: tm_insert l x r end
  end.
(** src/valuetype.rs:272-348 [unify] ([None]: an error). The common keys of two
    unions are visited in the order of the first; the code visits them in the
    order of a hash set, which only affects which of several errors is reported. *)
Fixpoint unify (a b : vtype) {struct a} : option vtype :=
  let tuples := fix tuples (xs ys : list vtype) : option (list vtype) :=
    match xs, ys with
    | [], [] => Some []
    | x :: xs', y :: ys' =>
      match unify x y with Some t => option_map (cons t) (tuples xs' ys') | None => None end
    | _, _ => None
    end in
  let fields := fix fields (xs ys : list (label * vtype)) : option (list (label * vtype)) :=
    match xs, ys with
    | [], [] => Some []
    | (l, x) :: xs', (m, y) :: ys' =>
      if N.eqb l m then
        match unify x y with Some t => option_map (cons (l, t)) (fields xs' ys') | None => None end
      else None
    | _, _ => None
    end in
  let unions := fix unions (xs ys : list (label * vtype)) : option (list (label * vtype)) :=
    match xs with
    | [] => Some ys
    | (l, x) :: xs' =>
      match assoc l ys with
      | Some y => match unify x y with Some t => option_map (tm_insert l t) (unions xs' ys) | None => None end
      | None => option_map (tm_insert l x) (unions xs' ys)
      end
    end in
  match a, b with
  | TAny, _ => Some b
  | _, TAny => Some a
  | TEmpty, _ => Some b
  | _, TEmpty => Some a
  | TNumericHole, _ => if is_numeric b then Some b else None
  | _, TNumericHole => if is_numeric a then Some a else None
  | TViewObj, TViewObj => Some TViewObj
  | TBase x, TBase y => if basetype_eqb x y then Some (TBase x) else None
  | TSigned x, TSigned y => if bw_eqb x y then Some (TSigned x) else None
  | TTuple xs, TTuple ys => option_map TTuple (tuples xs ys)
  | TRecord xs, TRecord ys => option_map TRecord (fields xs ys)
  | TUnion xs, TUnion ys => option_map TUnion (unions xs ys)
  | TSeq x, TSeq y => option_map TSeq (unify x y)
  | TOption x, TOption y => option_map TOption (unify x y)
  | TPhantom x, TPhantom y => option_map TPhantom (unify x y)
  | _, _ => None
  end.

(** ** Inference *)

(** A result, an error returned, or a panic *)
Inductive ires (A : Type) := IOk (a : A) | IErr | IPanic.
Arguments IOk {A} a.
Arguments IErr {A}.
Arguments IPanic {A}.
Definition ibind {A B} (x : ires A) (f : A -> ires B) : ires B :=
  match x with IOk a => f a | IErr => IErr | IPanic => IPanic end.
Definition of_opt {A} (x : option A) : ires A := match x with Some a => IOk a | None => IErr end.
Definition unify_i (a b : vtype) : ires vtype := of_opt (unify a b).
(** [if b { Ok(()) } else { Err(..) }] *)
Definition guard (b : bool) : ires unit := if b then IOk tt else IErr.

(** src/lib.rs [enum ValueKind] *)
Inductive vkind := KValue (t : vtype) | KView | KFormat (t : vtype).
(** src/lib.rs:2310-2366 [struct TypeScope]: the bindings, latest first, those of
    the parents after those of the child; [None]: a panic *)
Definition tscope := list (label * vkind).
Definition get_type (G : tscope) (x : label) : option vkind := assoc x G.

Definition tvar (G : tscope) (x : label) : ires vtype :=
  match get_type G x with Some (KValue t) => IOk t | Some _ => IErr | None => IPanic end.

(** src/valuetype.rs:167-200 [From<MachineRep>], [From<NumRep>] *)
Definition type_of_mrep (r : mrep) : vtype :=
  if is_signed r then TSigned (bit_width r) else TBase (TU (bit_width r)).
Definition type_of_rep (r : numrep) : vtype := match r with Auto => TNumericHole | Concrete r => type_of_mrep r end.
(** src/numeric/core.rs:969-995 [infer_type], 653-655 [get_type] *)
Fixpoint infer_num (G : tscope) (n : nexpr) : ires vtype :=
  match n with
  | NConst c => IOk (type_of_rep (tc_rep c))
  | NBin _ (Some r) _ _ => IOk (type_of_mrep r)
  | NBin _ None a b => ibind (infer_num G a) (fun ta => ibind (infer_num G b) (fun tb => unify_i ta tb))
  | NUn _ (Some r) _ => IOk (type_of_mrep r)
  | NUn _ None a => infer_num G a
  | NCast r _ _ => IOk (type_of_mrep r)
  | NVar x => tvar G x
  end.

Section Lists.
Context {A B S : Type} (f : A -> ires B) (g : S -> A -> ires S).
Fixpoint imapM (l : list A) : ires (list B) :=
  match l with [] => IOk [] | x :: l' => ibind (f x) (fun y => ibind (imapM l') (fun ys => IOk (y :: ys))) end.
Fixpoint ifoldM (s : S) (l : list A) : ires S :=
  match l with [] => IOk s | x :: l' => ibind (g s x) (fun s' => ifoldM s' l') end.
End Lists.

(** src/pattern.rs:60-105 [build_scope]: no case matches a character pattern *)
Fixpoint build_scope (p : pattern) (t : vtype) (G : tscope) {struct p} : ires tscope :=
  match p with
  | PBinding x => IOk ((x, KValue t) :: G)
  | PWildcard => IOk G
  | PBool _ => match t with TBase TBool => IOk G | _ => IPanic end
  | PU w _ => match t with TBase (TU w') => if bw_eqb w w' then IOk G else IPanic | _ => IPanic end
  | PInt _ => match t with TBase (TU _) => IOk G | _ => IPanic end
  | PZConst _ | PZRange _ => if is_numeric t then IOk G else IPanic
  | PChar _ => IPanic
  | PTuple ps =>
    match t with
    | TTuple ts =>
      if Nat.eqb (length ps) (length ts) then
        (fix go (ps : list pattern) (ts : list vtype) (G : tscope) : ires tscope :=
           match ps, ts with
           | p :: ps', t :: ts' => ibind (build_scope p t G) (go ps' ts')
           | _, _ => IOk G
           end) ps ts G
      else IPanic
    | _ => IPanic
    end
  | PSeq ps =>
    match t with
    | TSeq t' =>
      (fix go (ps : list pattern) (G : tscope) : ires tscope :=
         match ps with [] => IOk G | p :: ps' => ibind (build_scope p t' G) (go ps') end) ps G
    | _ => IPanic
    end
  | PVariant l p' =>
    match t with
    | TUnion bs => match assoc l bs with Some t' => build_scope p' t' G | None => IPanic end
    | _ => IPanic
    end
  | POption None => match t with TOption _ => IOk G | _ => IPanic end
  | POption (Some p') => match t with TOption t' => build_scope p' t' G | _ => IPanic end
  end.

(** src/valuetype.rs:243-253 [record_proj] *)
Definition type_record_proj (t : vtype) (l : label) : ires vtype :=
  match t with TRecord fs => match assoc l fs with Some u => IOk u | None => IPanic end | _ => IPanic end.
Definition is_bool (t : vtype) : bool := match t with TBase TBool => true | _ => false end.
Definition is_u (w : bitwidth) (t : vtype) : bool := match t with TBase (TU w') => bw_eqb w w' | _ => false end.
Definition is_base_num (t : vtype) : bool := match t with TBase (TU _) => true | _ => false end.
Definition elem_type (t : vtype) : ires vtype := match t with TSeq u => IOk u | _ => IErr end.

Section Infer.
(** [careful = false] is the code. With [careful = true], wherever the code only
    tests that the type found unifies with a declared one (or does not test at
    all), the declared type is also required to cover the type found; and the
    update of an accumulation is typed in the scope it is evaluated in. *)
Context (careful : bool).
Definition covers (declared found : vtype) : ires unit :=
  guard (negb careful || match unify found declared with Some u => vtype_eqb u declared | None => false end).

(** src/lib.rs:233-626 [Expr::infer_type]; [EBytes _ B8] does not occur *)
Fixpoint infer_expr (G : tscope) (e : expr) {struct e} : ires vtype :=
  let infer := infer_expr G in
  (** the function's argument type, its body's type *)
  let lambda (f : expr) (arg : vtype) : ires vtype :=
    match f with ELambda x b => infer_expr ((x, KValue arg) :: G) b | _ => IErr end in
  let is_lambda (f : expr) : ires unit := match f with ELambda _ _ => IOk tt | _ => IErr end in
  let binary (a b : expr) : ires vtype :=
    ibind (infer a) (fun ta => ibind (infer b) (fun tb =>
      match unify ta tb with Some t => if is_numeric t then IOk t else IErr | None => IErr end)) in
  let sub_seq (a st ln : expr) : ires vtype :=
    ibind (infer a) (fun t => match t with
      | TSeq _ => ibind (infer st) (fun ts => ibind (infer ln) (fun tl =>
          ibind (guard (is_u B32 ts)) (fun _ => ibind (guard (is_u B32 tl)) (fun _ => IOk t))))
      | _ => IErr end) in
  match e with
  | EVar x => tvar G x
  | EBool _ => IOk (TBase TBool)
  | EU w _ => IOk (TBase (TU w))
  | ENumeric n => infer_num G n
  | ETuple es => ibind (imapM infer es) (fun ts => IOk (TTuple ts))
  | ETupleProj h i =>
    ibind (infer h) (fun t => match t with
      | TTuple ts => match nth_error ts i with Some u => IOk u | None => IPanic end
      | _ => IErr end)
  | ERecord fs =>
    ibind (imapM (fun f => match f with (l, e) => ibind (infer_expr G e) (fun t => IOk (l, t)) end) fs) (fun ts => IOk (TRecord ts))
  | ERecordProj h l => ibind (infer h) (fun t => type_record_proj t l)
  | EVariant l a => ibind (infer a) (fun t => IOk (TUnion [(l, t)]))
  | ESeq es => ibind (ifoldM (fun t e => ibind (infer e) (fun u => unify_i t u)) TAny es) (fun t => IOk (TSeq t))
  | EMatch h bs =>
    match bs with
    | [] => IErr
    | _ =>
      ibind (infer h) (fun th =>
        ifoldM (fun t b => match b with (p, b) =>
          ibind (ibind (build_scope p th G) (fun G' => infer_expr G' b)) (fun u => unify_i t u) end) TAny bs)
    end
  | EDestructure h p b => ibind (infer h) (fun th => ibind (build_scope p th G) (fun G' => infer_expr G' b))
  | ELambda _ _ => IErr
  | EIntRel _ a b => ibind (binary a b) (fun _ => IOk (TBase TBool))
  | EArith (ABoolAnd | ABoolOr) a b =>
    ibind (infer a) (fun ta => ibind (infer b) (fun tb => if is_bool ta && is_bool tb then IOk (TBase TBool) else IErr))
  | EArith _ a b => binary a b
  | EUnary UBoolNot a => ibind (infer a) (fun t => if is_bool t then IOk t else IErr)
  | EUnary _ a => ibind (infer a) (fun t => if is_numeric t then IOk t else IErr)
  | EAs w a => ibind (infer a) (fun t => if is_numeric t then IOk (TBase (TU w)) else IErr)
  | EAsChar a => ibind (infer a) (fun t => if is_numeric t then IOk (TBase TChar) else IErr)
  | EBytes _ w a =>
    ibind (infer a) (fun t => match t with
      | TTuple ts => if Nat.eqb (length ts) (N.to_nat (nbits w / 8)) && forallb (is_u B8) ts then IOk (TBase (TU w)) else IErr
      | _ => IErr end)
  | ESeqLength a => ibind (infer a) (fun t => ibind (elem_type t) (fun _ => IOk (TBase (TU B32))))
  | ESeqIx a i =>
    ibind (infer a) (fun t => ibind (elem_type t) (fun u =>
      ibind (infer i) (fun ti => if is_u B32 ti then IOk u else IErr)))
  | ESubSeq a st ln => sub_seq a st ln
  | ESubSeqInflate a st ln => sub_seq a st ln
  | EFlatMap f a =>
    ibind (is_lambda f) (fun _ => ibind (infer a) (fun t => ibind (elem_type t) (fun u =>
      ibind (lambda f u) (fun r => ibind (elem_type r) (fun _ => IOk r)))))
  | EFlatMapAccum f z h a =>
    ibind (is_lambda f) (fun _ => ibind (infer a) (fun t => ibind (elem_type t) (fun u =>
      ibind (infer z) (fun tz => ibind (unify_i tz h) (fun acc =>
        ibind (lambda f (TTuple [acc; u])) (fun r => match r with
          | TTuple [ra; TSeq r2] => ibind (unify_i ra acc) (fun _ => ibind (covers acc ra) (fun _ => IOk (TSeq r2)))
          | _ => IErr end))))))
  | ELeftFold f z h a =>
    ibind (is_lambda f) (fun _ => ibind (infer a) (fun t => ibind (elem_type t) (fun u =>
      ibind (infer z) (fun tz => ibind (unify_i tz h) (fun acc =>
        ibind (lambda f (TTuple [acc; u])) (fun r =>
          ibind (unify_i r acc) (fun q => ibind (covers acc r) (fun _ => IOk q))))))))
  | EFindByKey _ k q a =>
    ibind (is_lambda k) (fun _ => ibind (infer a) (fun t => ibind (elem_type t) (fun u =>
      ibind (infer q) (fun tq => ibind (lambda k u) (fun tk => ibind (unify_i tk tq) (fun w =>
        if is_base_num w then IOk (TOption u) else IErr))))))
  | EFlatMapList f h a =>
    ibind (is_lambda f) (fun _ => ibind (infer a) (fun t => ibind (elem_type t) (fun u =>
      ibind (lambda f (TTuple [TSeq h; u])) (fun r => ibind (elem_type r) (fun r2 => ibind (covers h r2) (fun _ => IOk r))))))
  | EEnumFromTo a b =>
    ibind (infer a) (fun ta => ibind (infer b) (fun tb =>
      if is_numeric ta then ibind (unify_i ta tb) (fun t => IOk (TSeq t)) else IErr))
  | EDup n a => ibind (infer n) (fun tn => if is_u B32 tn then ibind (infer a) (fun t => IOk (TSeq t)) else IErr)
  | ELiftOption None => IOk (TOption TAny)
  | ELiftOption (Some a) => ibind (infer a) (fun t => IOk (TOption t))
  | EAppend a b =>
    ibind (infer a) (fun ta => ibind (infer b) (fun tb =>
      match ta, tb with
      | TSeq x, TSeq y => ibind (unify_i x y) (fun t => IOk (TSeq t))
      | _, _ => IErr
      end))
  end.

(** The body's type of a function given its argument's (the places where
    [infer_format_type] requires [Expr::Lambda]) *)
Definition infer_lambda (G : tscope) (f : expr) (arg : vtype) : ires vtype :=
  match f with ELambda x b => infer_expr ((x, KValue arg) :: G) b | _ => IErr end.
(** src/lib.rs:806-823 [ViewExpr::check_type] *)
Fixpoint check_view (G : tscope) (v : viewexpr) : ires unit :=
  match v with
  | VEVar x => match get_type G x with Some KView => IOk tt | Some _ => IErr | None => IPanic end
  | VEOffset v' e => ibind (infer_expr G e) (fun t => if is_numeric t then check_view G v' else IErr)
  end.

(** For each level defined so far: its argument types, its number of view
    arguments (src/lib.rs:907-913 [args], [views]) and its type ([format_types]) *)
Record sig := Sig { sg_args : list vtype; sg_views : nat; sg_type : vtype }.
Context (sigs : list sig).
(** [RepeatUntilLast], [RepeatUntilSeq]: the condition is a function to booleans *)
Definition until (G : tscope) (f : expr) (arg : vtype) : ires unit :=
  ibind (infer_lambda G f arg) (fun r => guard (is_bool r)).
Definition is_lam (f : expr) : ires unit := match f with ELambda _ _ => IOk tt | _ => IErr end.
(** src/lib.rs:1017-1367 [infer_format_type]; indexing [sigs] out of range panics *)
Fixpoint infer_format (G : tscope) (f : format) {struct f} : ires vtype :=
  let union (fs : list format) := ifoldM (fun t f => ibind (infer_format G f) (fun u => unify_i t u)) TAny fs in
  match f with
  | FItemVar level args views =>
    match nth_error sigs level with
    | None => IPanic
    | Some sg =>
      ibind (guard (Nat.eqb (length (sg_args sg)) (length args))) (fun _ =>
      ibind (guard (Nat.eqb (sg_views sg) (length views))) (fun _ =>
      ibind (imapM (fun te => match te with (ta, e) =>
          ibind (infer_expr G e) (fun t => ibind (unify_i ta t) (fun _ => covers ta t)) end)
        (combine (sg_args sg) args)) (fun _ => IOk (sg_type sg))))
    end
  | FDecodeBytes e g => ibind (infer_expr G e) (fun t => match t with TSeq u => if is_u B8 u then infer_format G g else IErr | _ => IErr end)
  | FParseFromView v g => ibind (check_view G v) (fun _ => infer_format G g)
  | FFail => IOk TEmpty
  | FSkipRemainder | FEndOfInput | FAlign _ => IOk (TTuple [])
  | FByte _ => IOk (TBase (TU B8))
  | FVariant l g => ibind (infer_format G g) (fun t => IOk (TUnion [(l, t)]))
  | FUnion fs => union fs
  | FUnionNondet fs => union fs
  | FTuple fs => ibind (imapM (infer_format G) fs) (fun ts => IOk (TTuple ts))
  | FRepeat g | FRepeat1 g => ibind (infer_format G g) (fun t => IOk (TSeq t))
  | FRepeatCount e g =>
    ibind (infer_expr G e) (fun t => if is_base_num t then ibind (infer_format G g) (fun u => IOk (TSeq u)) else IErr)
  | FSequence fs => ibind (union fs) (fun t => IOk (TSeq t))
  | FRepeatBetween a b g =>
    ibind (infer_expr G a) (fun ta => if is_base_num ta then
      ibind (infer_expr G b) (fun tb => if vtype_eqb ta tb then ibind (infer_format G g) (fun u => IOk (TSeq u)) else IErr)
    else IErr)
  | FRepeatUntilLast e g =>
    ibind (is_lam e) (fun _ => ibind (infer_format G g) (fun t => ibind (until G e t) (fun _ => IOk (TSeq t))))
  | FRepeatUntilSeq e g =>
    ibind (is_lam e) (fun _ => ibind (infer_format G g) (fun t => ibind (until G e (TSeq t)) (fun _ => IOk (TSeq t))))
  | FAccumUntil fd fu e0 h g =>
    match fd with
    | ELambda x body =>
      ibind (infer_format G g) (fun t =>
      ibind (infer_expr G e0) (fun t0 => ibind (unify_i t0 h) (fun _ => ibind (covers h t0) (fun _ =>
        let ta := TTuple [h; TSeq t] in
        let G' := (x, KValue ta) :: G in
        ibind (infer_expr G' body) (fun r => ibind (guard (is_bool r)) (fun _ =>
          ibind (infer_lambda G' fu (TTuple [h; t])) (fun r => ibind (unify_i r h) (fun _ =>
          ibind (if careful then ibind (infer_lambda G fu (TTuple [h; t])) (fun r => ibind (unify_i r h) (fun _ => covers h r)) else IOk tt) (fun _ =>
            IOk ta)))))))))
    | _ => IErr
    end
  | FMaybe e g => ibind (infer_expr G e) (fun t => if is_bool t then ibind (infer_format G g) (fun u => IOk (TOption u)) else IErr)
  | FPeek g | FSlice _ g | FBits g | FWithRelativeOffset _ _ g | FHint g => infer_format G g
  | FPeekNot _ => IOk (TTuple [])
  | FMap g e => ibind (infer_format G g) (fun t => infer_lambda G e t)
  | FWhere g e _ => ibind (infer_format G g) (fun t => ibind (infer_lambda G e t) (fun r => if is_bool r then IOk t else IErr))
  | FCompute e => infer_expr G e
  | FLet x e g => ibind (infer_expr G e) (fun t => infer_format ((x, KValue t) :: G) g)
  | FLetView x g => infer_format ((x, KView) :: G) g
  | FLetFormat g x h => ibind (infer_format G g) (fun t => infer_format ((x, KValue t) :: G) h)
  | FMonadSeq g h => ibind (infer_format G g) (fun _ => infer_format G h)
  | FPermit g e => ibind (infer_expr G e) (fun t0 => ibind (infer_format G g) (fun t => unify_i t0 t))
  | FMatch e bs =>
    match bs with
    | [] => IErr
    | _ =>
      ibind (infer_expr G e) (fun th =>
        ifoldM (fun t b => match b with (p, g) =>
          ibind (ibind (build_scope p th G) (fun G' => infer_format G' g)) (fun u => unify_i t u) end) TAny bs)
    end
  | FDynamic x (DHuffman le _) g =>
    ibind (infer_expr G le) (fun t => match t with
      | TSeq u => if is_u B8 u || is_u B16 u then infer_format ((x, KFormat (TBase (TU B16))) :: G) g else IErr
      | _ => IErr end)
  | FApply x => match get_type G x with Some (KFormat t) => IOk t | Some _ => IErr | None => IPanic end
  | FPos => IOk TNumericHole
  | FForEach e x g =>
    ibind (infer_expr G e) (fun t => ibind (elem_type t) (fun u =>
      ibind (infer_format ((x, KValue u) :: G) g) (fun r => IOk (TSeq r))))
  | FLiftedOption None => IOk (TOption TAny)
  | FLiftedOption (Some g) => ibind (infer_format G g) (fun t => IOk (TOption t))
  | FWithView v (VFCapture e) =>
    ibind (check_view G v) (fun _ => ibind (infer_expr G e) (fun t => if is_numeric t then IOk (TSeq (TBase (TU B8))) else IErr))
  | FWithView v (VFReadArray e k) =>
    ibind (check_view G v) (fun _ => ibind (infer_expr G e) (fun t => if is_numeric t then IOk (TSeq (TBase (TU (bk_width k)))) else IErr))
  | FWithView v VFReify => ibind (check_view G v) (fun _ => IOk TViewObj)
  | FPhantom g => ibind (infer_format G g) (fun t => IOk (TPhantom t))
  end.
End Infer.

(** src/lib.rs:944-972 [define_format_args_views]: arguments then views are pushed;
    an error is a panic. The levels are defined in order. *)
Definition item_scope (args : list (label * vtype)) (views : list label) : tscope :=
  rev (map (fun a => (fst a, KValue (snd a))) args ++ map (fun v => (v, KView)) views).
Definition define_item (careful : bool) (sigs : list sig) (it : item) (tys : list vtype) : option (list sig) :=
  match infer_format careful sigs (item_scope (combine (it_args it) tys) (it_views it)) (it_format it) with
  | IOk t => Some (sigs ++ [Sig tys (length (it_views it)) t])
  | _ => None
  end.
(** A module as it is made by successive definitions, each with its argument types *)
Fixpoint define_all (careful : bool) (sigs : list sig) (ds : list (item * list vtype)) : option (list sig) :=
  match ds with
  | [] => Some sigs
  | (it, tys) :: r => match define_item careful sigs it tys with Some s => define_all careful s r | None => None end
  end.
