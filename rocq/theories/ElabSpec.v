(** Typed trees that are derivations: the rules of [InferSpec], each with the types that
    the tree gives to the parts. *)
From Verif Require ByteSetModel.
From Verif Require Import Base BoundsModel DataModel NumericModel TypeModel BaseSetModel BaseSetSpec UnifyModel ReifyModel ValueModel FormatModel.
From Verif Require Import TypeSpec MatchBoundsProofs UnifySpec InferSpec ElabModel.
Open Scope nat_scope.

(** A tree with a type at each node *)
Definition gtree := tree gtype.

(** [apat p t T B]: by the tree [t] the pattern is for values of type [T], and binds [B]. *)
Inductive apat : pattern -> gtree -> gtype -> env -> Prop :=
| APBinding x T : apat (PBinding x) (Tn T []) T [(x, T)]
| APWildcard T : apat PWildcard (Tn T []) T []
| APBool b : apat (PBool b) (Tn GBool []) GBool []
| APU w n : apat (PU w n) (Tn (GU w) []) (GU w) []
| APInt b w : (forall m, bmax b = Some m -> (m < 2 ^ 64)%N -> holds (MR false w) (Z.of_N m)) -> apat (PInt b) (Tn (GU w) []) (GU w) []
| APZConst z p : holds p z -> apat (PZConst z) (Tn (GInt p) []) (GInt p) []
| APZRange lo hi p : ((lo <= hi)%Z -> forall z, (lo <= z <= hi)%Z -> holds p z) -> apat (PZRange (ZB lo hi)) (Tn (GInt p) []) (GInt p) []
| APChar c : apat (PChar c) (Tn GChar []) GChar []
| APTuple ps ts Ts B : apats ps ts Ts B -> apat (ValueModel.PTuple ps) (Tn (GTuple Ts) ts) (GTuple Ts) B
| APVariant l p t bs T B : assoc l bs = Some T -> apat p t T B -> apat (PVariant l p) (Tn (GUnion bs) [t]) (GUnion bs) B
| APSeq ps ts T Ts B : apats ps ts Ts B -> Forall (eq T) Ts -> apat (ValueModel.PSeq ps) (Tn (GSeq T) ts) (GSeq T) B
| APNone T : apat (POption None) (Tn (GOption T) []) (GOption T) []
| APSome p t T B : apat p t T B -> apat (POption (Some p)) (Tn (GOption T) [t]) (GOption T) B
with apats : list pattern -> list gtree -> list gtype -> env -> Prop :=
| APnil : apats [] [] [] []
| APcons p ps t ts T Ts B Bs : apat p t T B -> apats ps ts Ts Bs -> apats (p :: ps) (t :: ts) (T :: Ts) (Bs ++ B).

Inductive anum (G : env) : nexpr -> gtree -> mrep -> Prop :=
| ANConst c p : match tc_rep c with Concrete r => r = p | Auto => holds p (tc_val c) end -> anum G (NConst c) (Tn (GInt p) []) p
| ANVar x p : assoc x G = Some (GInt p) -> anum G (NVar x) (Tn (GInt p) []) p
| ANBin op a b ta tb p : anum G a ta p -> anum G b tb p -> anum G (NBin op None a b) (Tn (GInt p) [ta; tb]) p
| ANBinAs op p a b ta tb q r : anum G a ta q -> anum G b tb r -> anum G (NBin op (Some p) a b) (Tn (GInt p) [ta; tb]) p
| ANUn op a t p : anum G a t p -> anum G (NUn op None a) (Tn (GInt p) [t]) p
| ANUnAs op p a t q : anum G a t q -> anum G (NUn op (Some p) a) (Tn (GInt p) [t]) p
| ANCast p s a t q : anum G a t q -> anum G (NCast p s a) (Tn (GInt p) [t]) p.

(** [an G e t T]: the tree [t] derives that [e] has the type [T]. A lambda's node has
    the type of its argument, and its child is the tree of its body. *)
Inductive an : env -> expr -> gtree -> gtype -> Prop :=
| AnVar G x T : assoc x G = Some T -> an G (EVar x) (Tn T []) T
| AnBool G b : an G (EBool b) (Tn GBool []) GBool
| AnU G w n : an G (EU w n) (Tn (GU w) []) (GU w)
| AnNum G n t p : anum G n t p -> an G (ENumeric n) (Tn (GInt p) [t]) (GInt p)
| AnTuple G es ts : Forall2 (fun e t => an G e t (top t)) es ts -> an G (ETuple es) (Tn (GTuple (map top ts)) ts) (GTuple (map top ts))
| AnProj G a i t Ts T : an G a t (GTuple Ts) -> nth_error Ts i = Some T -> an G (ETupleProj a i) (Tn T [t]) T
| AnRecord G fs ts : Forall2 (fun f t => an G (snd f) t (top t)) fs ts ->
    an G (ERecord fs) (Tn (GRecord (combine (map fst fs) (map top ts))) ts) (GRecord (combine (map fst fs) (map top ts)))
| AnField G a l t Ts T : an G a t (GRecord Ts) -> assoc l Ts = Some T -> an G (ERecordProj a l) (Tn T [t]) T
| AnVariant G l a t bs T : an G a t T -> assoc l bs = Some T -> an G (EVariant l a) (Tn (GUnion bs) [t]) (GUnion bs)
| AnSeq G es ts T : Forall2 (fun e t => an G e t T) es ts -> an G (ESeq es) (Tn (GSeq T) ts) (GSeq T)
| AnMatch G h th H bs ps T : an G h th H ->
    Forall2 (fun b p => exists B, apat (fst b) (fst p) H B /\ an (B ++ G) (snd b) (snd p) T) bs ps ->
    an G (EMatch h bs) (Tn T (th :: flat_map (fun p => [fst p; snd p]) ps)) T
| AnDestructure G h th H p tp B b tb T : an G h th H -> apat p tp H B -> an (B ++ G) b tb T -> an G (EDestructure h p b) (Tn T [th; tp; tb]) T
| AnRel G r a b ta tb w : an G a ta (GU w) -> an G b tb (GU w) -> an G (EIntRel r a b) (Tn GBool [ta; tb]) GBool
| AnLogic G op a b ta tb : is_logic op = true -> an G a ta GBool -> an G b tb GBool -> an G (EArith op a b) (Tn GBool [ta; tb]) GBool
| AnArith G op a b ta tb w : is_logic op = false -> an G a ta (GU w) -> an G b tb (GU w) -> an G (EArith op a b) (Tn (GU w) [ta; tb]) (GU w)
| AnNot G a t : an G a t GBool -> an G (EUnary UBoolNot a) (Tn GBool [t]) GBool
| AnStep G op a t w : op <> UBoolNot -> an G a t (GU w) -> an G (EUnary op a) (Tn (GU w) [t]) (GU w)
| AnAs G w a t p : an G a t (GInt p) -> an G (EAs w a) (Tn (GU w) [t]) (GU w)
| AnChar G a t w : an G a t (GU w) -> an G (EAsChar a) (Tn GChar [t]) GChar
| AnBytes G be w a t : an G a t (GTuple (repeat (GU B8) (N.to_nat (nbits w / 8)))) -> an G (EBytes be w a) (Tn (GU w) [t]) (GU w)
| AnLength G a t T w : an G a t (GSeq T) -> an G (ESeqLength a) (Tn (GU w) [t]) (GU w)
| AnIndex G a i ta ti w T : an G a ta (GSeq T) -> an G i ti (GU w) -> an G (ESeqIx a i) (Tn T [ta; ti]) T
| AnSub G a i n ta ti tn w w' T : an G a ta (GSeq T) -> an G i ti (GU w) -> an G n tn (GU w') -> an G (ESubSeq a i n) (Tn (GSeq T) [ta; ti; tn]) (GSeq T)
| AnInflate G a i n ta ti tn w w' T : an G a ta (GSeq T) -> an G i ti (GU w) -> an G n tn (GU w') -> an G (ESubSeqInflate a i n) (Tn (GSeq T) [ta; ti; tn]) (GSeq T)
| AnAppend G a b ta tb T : an G a ta (GSeq T) -> an G b tb (GSeq T) -> an G (EAppend a b) (Tn (GSeq T) [ta; tb]) (GSeq T)
| AnFlatMap G x b a tb ta T U : an G a ta (GSeq T) -> an ((x, T) :: G) b tb (GSeq U) -> an G (EFlatMap (ELambda x b) a) (Tn (GSeq U) [Tn T [tb]; ta]) (GSeq U)
| AnFlatMapAccum G x b z t a tb tz ta A T U : an G z tz A -> an G a ta (GSeq T) ->
    an ((x, GTuple [A; T]) :: G) b tb (GTuple [A; GSeq U]) -> as_declared t A -> an G (EFlatMapAccum (ELambda x b) z t a) (Tn (GSeq U) [Tn (GTuple [A; T]) [tb]; tz; ta]) (GSeq U)
| AnFold G x b z t a tb tz ta A T : an G z tz A -> an G a ta (GSeq T) ->
    an ((x, GTuple [A; T]) :: G) b tb A -> as_declared t A -> an G (ELeftFold (ELambda x b) z t a) (Tn A [Tn (GTuple [A; T]) [tb]; tz; ta]) A
| AnFind G s x b q a tb tq ta T K : an G a ta (GSeq T) -> an G q tq K -> an ((x, T) :: G) b tb K ->
    an G (EFindByKey s (ELambda x b) q a) (Tn (GOption T) [Tn T [tb]; tq; ta]) (GOption T)
| AnFlatMapList G x b t a tb ta T U : an G a ta (GSeq T) ->
    an ((x, GTuple [GSeq U; T]) :: G) b tb (GSeq U) -> as_declared t U -> an G (EFlatMapList (ELambda x b) t a) (Tn (GSeq U) [Tn (GTuple [GSeq U; T]) [tb]; ta]) (GSeq U)
| AnRange G a b ta tb w : an G a ta (GU w) -> an G b tb (GU w) -> an G (EEnumFromTo a b) (Tn (GSeq (GU w)) [ta; tb]) (GSeq (GU w))
| AnDup G n a tn ta w T : an G n tn (GU w) -> an G a ta T -> an G (EDup n a) (Tn (GSeq T) [tn; ta]) (GSeq T)
| AnNone G T : an G (ELiftOption None) (Tn (GOption T) []) (GOption T)
| AnSome G a t T : an G a t T -> an G (ELiftOption (Some a)) (Tn (GOption T) [t]) (GOption T).

(** The expressions inside a view are integers. *)
Inductive aview (G : env) : viewexpr -> list gtree -> Prop :=
| AvVar x : aview G (VEVar x) []
| AvOffset v e ts t w : aview G v ts -> an G e t (GU w) -> aview G (VEOffset v e) (ts ++ [t]).
Inductive aviews (G : env) : list label -> list viewexpr -> list gtree -> Prop :=
| Avnil vs : aviews G [] vs []
| Avend xs : aviews G xs [] []
| Avcons x xs v vs t ts : aview G v t -> aviews G xs vs ts -> aviews G (x :: xs) (v :: vs) (t ++ ts).
(** The code lengths of a dynamic format are sequences of integers. *)
Inductive adyn (G : env) : dynformat -> gtree -> gtype -> Prop :=
| AdNone e t w w' : an G e t (GSeq (GU w')) -> adyn G (DHuffman e None) (Tn (GU w) [t]) (GU w)
| AdSome e e' t t' w w1 w2 : an G e t (GSeq (GU w1)) -> an G e' t' (GSeq (GU w2)) -> adyn G (DHuffman e (Some e')) (Tn (GU w) [t; t']) (GU w).

(** Formats; [L] gives the levels trees. [D] has the trees of the dynamic formats in
    scope. *)
Section Formats.
Variable ds : list (item * list vtype).
Variable L : nat -> gtree -> Prop.
Definition denv := list (label * gtree).
Inductive af : env -> denv -> format -> gtree -> gtype -> Prop :=
| AfItem G D k args views it tys ts vs t : nth_error ds k = Some (it, tys) ->
    Forall2 (fun e t => an G e t (top t)) args ts -> map (fun t => vt (top t)) ts = tys -> length args = length (it_args it) ->
    aviews G (it_views it) views vs -> L k t -> af G D (FItemVar k args views) (Tn (top t) (ts ++ vs ++ [t])) (top t)
| AfEnd G D : af G D FEndOfInput (Tn (GTuple []) []) (GTuple [])
| AfAlign G D n : af G D (FAlign n) (Tn (GTuple []) []) (GTuple [])
| AfSkip G D : af G D FSkipRemainder (Tn (GTuple []) []) (GTuple [])
| AfByte G D bs : af G D (FByte bs) (Tn (GU B8) []) (GU B8)
| AfVariant G D l f t bs T : af G D f t T -> assoc l bs = Some T -> af G D (FVariant l f) (Tn (GUnion bs) [t]) (GUnion bs)
| AfUnion G D fs ts T : Forall2 (fun f t => af G D f t T) fs ts -> af G D (FUnion fs) (Tn T ts) T
| AfUnionNondet G D fs ts T : Forall2 (fun f t => af G D f t T) fs ts -> af G D (FUnionNondet fs) (Tn T ts) T
| AfTuple G D fs ts : Forall2 (fun f t => af G D f t (top t)) fs ts -> af G D (FTuple fs) (Tn (GTuple (map top ts)) ts) (GTuple (map top ts))
| AfSequence G D fs ts T : Forall2 (fun f t => af G D f t T) fs ts -> af G D (FSequence fs) (Tn (GSeq T) ts) (GSeq T)
| AfRepeat G D f t T : af G D f t T -> af G D (FRepeat f) (Tn (GSeq T) [t]) (GSeq T)
| AfRepeat1 G D f t T : af G D f t T -> af G D (FRepeat1 f) (Tn (GSeq T) [t]) (GSeq T)
| AfCount G D e f te t w T : an G e te (GU w) -> af G D f t T -> af G D (FRepeatCount e f) (Tn (GSeq T) [te; t]) (GSeq T)
| AfBetween G D e1 e2 f t1 t2 t w T : an G e1 t1 (GU w) -> an G e2 t2 (GU w) -> af G D f t T -> af G D (FRepeatBetween e1 e2 f) (Tn (GSeq T) [t1; t2; t]) (GSeq T)
| AfUntilLast G D x b f tb t T : an ((x, T) :: G) b tb GBool -> af G D f t T -> af G D (FRepeatUntilLast (ELambda x b) f) (Tn (GSeq T) [Tn T [tb]; t]) (GSeq T)
| AfUntilSeq G D x b f tb t T : an ((x, GSeq T) :: G) b tb GBool -> af G D f t T ->
    af G D (FRepeatUntilSeq (ELambda x b) f) (Tn (GSeq T) [Tn (GSeq T) [tb]; t]) (GSeq T)
| AfAccum G D x b y d z ty f tb td tz t A T : an ((x, GTuple [A; GSeq T]) :: G) b tb GBool -> an ((y, GTuple [A; T]) :: G) d td A -> an G z tz A ->
    as_declared ty A -> af G D f t T ->
    af G D (FAccumUntil (ELambda x b) (ELambda y d) z ty f)
       (Tn (GTuple [A; GSeq T]) [Tn (GTuple [A; GSeq T]) [tb]; Tn (GTuple [A; T]) [td]; tz; t]) (GTuple [A; GSeq T])
| AfForEach G D e x f te t T U : an G e te (GSeq T) -> af ((x, T) :: G) D f t U -> af G D (FForEach e x f) (Tn (GSeq U) [te; t]) (GSeq U)
| AfMaybe G D e f te t T : an G e te GBool -> af G D f t T -> af G D (FMaybe e f) (Tn (GOption T) [te; t]) (GOption T)
| AfPeek G D f t T : af G D f t T -> af G D (FPeek f) (Tn T [t]) T
| AfPeekNot G D f t T : af G D f t T -> af G D (FPeekNot f) (Tn (GTuple []) [t]) (GTuple [])
| AfSlice G D e f te t w T : an G e te (GU w) -> af G D f t T -> af G D (FSlice e f) (Tn T [te; t]) T
| AfBits G D f t T : af G D f t T -> af G D (FBits f) (Tn T [t]) T
| AfOffset G D e1 e2 f t1 t2 t w T : an G e1 t1 (GU w) -> an G e2 t2 (GU w) -> af G D f t T -> af G D (FWithRelativeOffset e1 e2 f) (Tn T [t1; t2; t]) T
| AfMap G D f x b t tb T U : af G D f t T -> an ((x, T) :: G) b tb U -> af G D (FMap f (ELambda x b)) (Tn U [t; Tn T [tb]]) U
| AfWhere G D f x b h t tb T : af G D f t T -> an ((x, T) :: G) b tb GBool -> af G D (FWhere f (ELambda x b) h) (Tn T [t; Tn T [tb]]) T
| AfCompute G D e te T : an G e te T -> af G D (FCompute e) (Tn T [te]) T
| AfLet G D x e f te t T U : an G e te T -> af ((x, T) :: G) D f t U -> af G D (FLet x e f) (Tn U [te; t]) U
| AfMatch G D e te H bs ps T : an G e te H ->
    Forall2 (fun b p => exists B, apat (fst b) (fst p) H B /\ af (B ++ G) D (snd b) (snd p) T) bs ps ->
    af G D (FMatch e bs) (Tn T (te :: flat_map (fun p => [fst p; snd p]) ps)) T
| AfDynamic G D x d f td t W T : adyn G d td W -> af G ((x, td) :: D) f t T -> af G D (FDynamic x d f) (Tn T [td; t]) T
| AfApply G D x t : assoc x D = Some t -> af G D (FApply x) (Tn (top t) [t]) (top t)
| AfPos G D w : af G D FPos (Tn (GU w) []) (GU w)
| AfDecodeBytes G D e f te t T : an G e te (GSeq (GU B8)) -> af G D f t T -> af G D (FDecodeBytes e f) (Tn T [te; t]) T
| AfLetFormat G D f x g t u T U : af G D f t T -> af ((x, T) :: G) D g u U -> af G D (FLetFormat f x g) (Tn U [t; u]) U
| AfMonadSeq G D f g t u T U : af G D f t T -> af G D g u U -> af G D (FMonadSeq f g) (Tn U [t; u]) U
| AfHint G D f t T : af G D f t T -> af G D (FHint f) (Tn T [t]) T
| AfNone G D T : af G D (FLiftedOption None) (Tn (GOption T) []) (GOption T)
| AfSome G D f t T : af G D f t T -> af G D (FLiftedOption (Some f)) (Tn (GOption T) [t]) (GOption T)
| AfLetView G D x f t T : af G D f t T -> af G D (FLetView x f) (Tn T [t]) T
| AfCapture G D v e vs te w : aview G v vs -> an G e te (GU w) ->
    af G D (FWithView v (VFCapture e)) (Tn (GSeq (GU B8)) (vs ++ [Tn (GSeq (GU B8)) [te]])) (GSeq (GU B8))
| AfReadArray G D v e k vs te w : aview G v vs -> an G e te (GU w) ->
    af G D (FWithView v (VFReadArray e k)) (Tn (GSeq (GU (bk_width k))) (vs ++ [Tn (GSeq (GU (bk_width k))) [te]])) (GSeq (GU (bk_width k)))
| AfReify G D v vs : aview G v vs -> af G D (FWithView v VFReify) (Tn GView (vs ++ [Tn GView []])) GView
| AfParseFromView G D v f vs t T : aview G v vs -> af G D f t T -> af G D (FParseFromView v f) (Tn T (vs ++ [t])) T
| AfPhantom G D f t T : af G D f t T -> af G D (FPhantom f) (Tn (GPhantom T) [t]) (GPhantom T)
| AfPermit G D f e t te T : af G D f t T -> an G e te T -> af G D (FPermit f e) (Tn T [t; te]) T.

(** The trees of the levels are derivations for them. *)
Definition module_trees : Prop :=
  forall k t, L k t -> exists it tys G D, nth_error ds k = Some (it, tys) /\ args_in it tys G /\ af G D (it_format it) t (top t).
End Formats.

(** Accumulators are declared with types without unions. *)
Fixpoint union_free (t : vtype) : bool :=
  match t with
  | TUnion _ => false
  | TPhantom x | TSeq x | TOption x => union_free x
  | TTuple xs => forallb union_free xs
  | TRecord fs => forallb (fun f => match f with (_, x) => union_free x end) fs
  | _ => true
  end.
Fixpoint simple_acc (e : expr) : bool :=
  match e with
  | EVar _ | EBool _ | EU _ _ | ENumeric _ | ELiftOption None => true
  | ETuple es | ESeq es => forallb simple_acc es
  | ERecord fs => forallb (fun f => match f with (_, e) => simple_acc e end) fs
  | EMatch h bs => simple_acc h && forallb (fun b => match b with (_, e) => simple_acc e end) bs
  | ETupleProj a _ | ERecordProj a _ | EVariant _ a | ELambda _ a | EUnary _ a | EAs _ a | EAsChar a | EBytes _ _ a
  | ESeqLength a | ELiftOption (Some a) => simple_acc a
  | EDestructure a _ b | EIntRel _ a b | EArith _ a b | ESeqIx a b | EFlatMap a b | EEnumFromTo a b | EDup a b | EAppend a b =>
    simple_acc a && simple_acc b
  | ESubSeq a b c | ESubSeqInflate a b c | EFindByKey _ a b c => simple_acc a && simple_acc b && simple_acc c
  | EFlatMapAccum a b t c | ELeftFold a b t c => simple_acc a && simple_acc b && union_free t && simple_acc c
  | EFlatMapList a t b => simple_acc a && union_free t && simple_acc b
  end.
Fixpoint simple_view (v : viewexpr) : bool := match v with VEVar _ => true | VEOffset v e => simple_view v && simple_acc e end.
Definition simple_node (f : format) : bool :=
  match f with
  | FItemVar k es vs => forallb simple_acc es && forallb simple_view vs
  | FDecodeBytes e _ | FRepeatCount e _ | FRepeatUntilLast e _ | FRepeatUntilSeq e _ | FMaybe e _ | FMap _ e | FWhere _ e _ | FSlice e _
  | FCompute e | FLet _ e _ | FPermit _ e | FMatch e _ | FForEach e _ _ | FDynamic _ (DHuffman e None) _ => simple_acc e
  | FRepeatBetween a b _ | FWithRelativeOffset a b _ | FDynamic _ (DHuffman a (Some b)) _ => simple_acc a && simple_acc b
  | FAccumUntil a b c t _ => simple_acc a && simple_acc b && simple_acc c && union_free t
  | FParseFromView v _ => simple_view v
  | FWithView v (VFCapture e) | FWithView v (VFReadArray e _) => simple_view v && simple_acc e
  | FWithView v VFReify => simple_view v
  | _ => true
  end.
Definition simple_format (f : format) : Prop := everywhere (fun g => simple_node g = true) f.
Definition simple_module (ds : list (item * list vtype)) : Prop := module_wide (fun g => simple_node g = true) (map fst ds).
