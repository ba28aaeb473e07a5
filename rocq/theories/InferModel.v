(** Type inference by constraints: the requests that expressions and formats make of
    the unification engine, and the type that is reported. *)
From Verif Require ByteSetModel.
From Verif Require Import Base BoundsModel DataModel NumericModel TypeModel BaseSetModel UnifyModel ReifyModel ValueModel FormatModel.
Open Scope nat_scope.

(** ** Making requests *)

(** The part of src/typecheck.rs:700-712 [TypeChecker] that inference itself reads:
    the number of variables, and the variables of the levels inferred so far
    (714: [level_vars]). The requests made of the engine are kept, the latest first;
    the engine's state is what it makes of them. *)
Record gst := GS { nv : nat; reqs : list request; lvls : list (nat * nat) }.
(** A computation that makes requests. [None] is an error of inference, a panic or
    the lack of fuel. Requests that the engine refuses are not noticed here: the code
    stops at the first one, and [typecheck] below refuses if there is one. *)
Definition gm (A : Type) := gst -> option (A * gst).
Definition gret {A} (a : A) : gm A := fun g => Some (a, g).
Definition gfail {A} : gm A := fun _ => None.
Definition gbind {A B} (m : gm A) (k : A -> gm B) : gm B :=
  fun g => match m g with Some (a, g1) => k a g1 | None => None end.
Notation "'let*' x ':=' m 'in' k" := (gbind m (fun x => k)) (at level 200, x name, m at level 100, k at level 200).
Definition tell (r : request) : gm unit := fun g => Some (tt, GS (nv g) (r :: reqs g) (lvls g)).
Notation "m ';;;' k" := (gbind m (fun _ => k)) (at level 100, k at level 200, right associativity).
(** src/typecheck.rs:760-765 [get_new_uvar] *)
Definition fresh : gm nat := fun g => Some (nv g, GS (S (nv g)) (RNew :: reqs g) (lvls g)).
(** src/typecheck.rs:751-757 [init_var_simple] *)
Definition init_var (t : utype) : gm nat := let* v := fresh in tell (RType v t) ;;; gret v.
(** src/typecheck.rs:769-774 [get_new_uvar_numtree] *)
Definition fresh_num : gm nat := let* v := fresh in tell (RIntset v (IZ P_ANY)) ;;; gret v.
Definition glift {A} (o : option A) : gm A := match o with Some a => gret a | None => gfail end.

Section MapG.
Context {A B : Type} (f : A -> gm B).
Fixpoint mapG (l : list A) : gm (list B) :=
  match l with [] => gret [] | a :: r => let* b := f a in let* bs := mapG r in gret (b :: bs) end.
Fixpoint iterG (l : list A) : gm unit :=
  match l with [] => gret tt | a :: r => f a ;;; iterG r end.
End MapG.

(** ** Declared types *)

Section MapO.
Context {A B : Type} (f : A -> option B).
Fixpoint mapO (l : list A) : option (list B) :=
  match l with
  | [] => Some []
  | a :: r => match f a with Some b => match mapO r with Some bs => Some (b :: bs) | None => None end | None => None end
  end.
End MapO.
(** src/typecheck.rs:384-416 [UType::from_valuetype] *)
Fixpoint from_valuetype (t : vtype) : option utype :=
  match t with
  | TAny | TNumericHole => Some UHole
  | TEmpty => Some UEmpty
  | TViewObj => Some UView
  | TPhantom t1 => option_map UPhantom (from_valuetype t1)
  | TBase b => Some (UBase b)
  | TSigned w => Some (UInt (MR true w))
  | TTuple ts => option_map UTuple (mapO from_valuetype ts)
  | TRecord fs => option_map URecord (mapO (fun f : label * vtype => let (l, t1) := f in option_map (pair l) (from_valuetype t1)) fs)
  | TUnion _ => None
  | TOption t1 => option_map UOption (from_valuetype t1)
  | TSeq t1 => option_map (fun u => USeq u 0) (from_valuetype t1)
  end.
Section Declared.
Variable f : nat -> vtype -> gm unit.
(** src/typecheck.rs:959-975 [unify_var_valuetype_union] *)
Fixpoint union_vt (v : nat) (bs : list (label * vtype)) : gm unit :=
  match bs with
  | [] => gret tt
  | (l, t) :: r =>
    (let* u := match from_valuetype t with
               | Some u => gret u
               | None => let* w := fresh in f w t ;;; gret (UVar w)
               end in
     tell (RVariant v l u)) ;;; union_vt v r
  end.
Fixpoint record_vt (v : nat) (fs : list (label * vtype)) : gm unit :=
  match fs with
  | [] => gret tt
  | (l, t) :: r => (let* w := fresh in tell (RField v l w) ;;; f w t) ;;; record_vt v r
  end.
Fixpoint tuple_vt (v : nat) (i : nat) (ts : list vtype) : gm unit :=
  match ts with
  | [] => gret tt
  | t :: r => (let* w := fresh in tell (RIndex v i w) ;;; f w t) ;;; tuple_vt v (S i) r
  end.
End Declared.
(** src/typecheck.rs:1865-1903 [unify_var_valuetype] *)
Fixpoint declare (v : nat) (t : vtype) {struct t} : gm unit :=
  match from_valuetype t with
  | Some u => tell (RType v u)
  | None =>
    match t with
    | TUnion bs => union_vt declare v bs
    | TRecord fs => record_vt declare v fs
    | TTuple ts => tuple_vt declare v 0 ts
    | TSeq t1 => let* w := fresh in tell (RElem v w) ;;; declare w t1
    | TOption t1 => let* w := fresh in tell (RParam v w) ;;; declare w t1
    | _ => gfail
    end
  end.

(** ** Patterns *)

(** src/typecheck.rs:46-124 [UScope], the innermost binding first; look-up *)
Definition uscope := list (label * nat).
Definition ulook (x : label) (G : uscope) : option nat := assoc x G.

(** src/typecheck.rs:820-841: the integer types that take all of a range;
    src/typecheck/inference.rs:144-158 [is_satisfied_by]. *)
Definition encompassing (b : zbounds) : outcome intset :=
  omap IZ (ofoldM (fun s p => omap (fun inside : bool => if inside then s else prim_remove s p)
                                   (zb_is_encompassed_by b (as_bounds p))) P_ANY prim_ints).
Definition glift_o {A} (o : outcome A) : gm A := match o with Val a => gret a | Panic => gfail end.

Section Patterns.
Variable f : pattern -> gm (nat * uscope).
Fixpoint pats (ps : list pattern) : gm (list nat * uscope) :=
  match ps with
  | [] => gret ([], [])
  | p :: r => let* a := f p in let* b := pats r in gret (fst a :: fst b, snd b ++ snd a)
  end.
Fixpoint seq_pats (elem : nat) (ps : list pattern) : gm uscope :=
  match ps with
  | [] => gret []
  | p :: r => let* a := f p in tell (RPair elem (fst a)) ;;; (let* b := seq_pats elem r in gret (b ++ snd a))
  end.
End Patterns.
(** src/typecheck.rs:776-888 [infer_var_scope_pattern]: the pattern's variable, and the
    bindings it adds to the scope. *)
Fixpoint gen_pat (p : pattern) : gm (nat * uscope) :=
  match p with
  | PBinding x => let* v := fresh in gret (v, [(x, v)])
  | PWildcard => let* v := fresh in gret (v, [])
  | PBool _ => let* v := init_var (UBase TBool) in gret (v, [])
  | PU w _ => let* v := init_var (UBase (TU w)) in gret (v, [])
  | PInt b => let* v := fresh in tell (RBaseset v (BU (at_least (min_required_width b)))) ;;; gret (v, [])
  | PZConst z => let* v := fresh in let* is := glift_o (encompassing (ZB z z)) in tell (RIntset v is) ;;; gret (v, [])
  | PZRange b => let* v := fresh in let* is := glift_o (encompassing b) in tell (RIntset v is) ;;; gret (v, [])
  | PChar _ => let* v := init_var (UBase TChar) in gret (v, [])
  | PTuple ps => let* v := fresh in let* r := pats gen_pat ps in tell (RType v (UTuple (map UVar (fst r)))) ;;; gret (v, snd r)
  | PVariant l p1 => let* v := fresh in let* r := gen_pat p1 in tell (RVariant v l (UVar (fst r))) ;;; gret (v, snd r)
  | PSeq ps => let* v := fresh in let* e := fresh in let* b := seq_pats gen_pat e ps in tell (RType v (USeq (UVar e) 0)) ;;; gret (v, b)
  | POption o =>
    let* v := fresh in
    let* r := match o with Some p1 => gen_pat p1 | None => let* w := fresh in gret (w, []) end in
    tell (RType v (UOption (UVar (fst r)))) ;;; gret (v, snd r)
  end.

Definition any_u : baseset := BU U_ANY.
(** src/typecheck/base_set.rs:329 [ANY32] *)
Definition any_u32 : baseset := BU (any_default B32).
Definition a_bool : baseset := BSingle TBool.

(** What the code reads of the engine's state: src/typecheck.rs:2888-2990
    [get_var_numrep]. *)
Definition get_var_numrep (st : state) (v : nat) : option numrep :=
  match canonical st v with
  | None => None
  | Some c =>
    match get_cons st c with
    | None | Some (Variant _) => None
    | Some Indefinite => Some Auto
    | Some (Invariant k) =>
      match k with
      | CEquiv (UEmpty | UHole) => Some Auto
      | CEquiv (UBase b) => option_map Concrete (prim_of_base b)
      | CEquiv (UInt p) => Some (Concrete p)
      | CEquiv _ => None
      | CElem (BSingle b) => option_map Concrete (prim_of_base b)
      | CElem (BU u) => match uint_as_singleton u with
                        | Some b => option_map Concrete (prim_of_base b)
                        | None => if rs_is_empty u then None else Some Auto
                        end
      | CProj _ => None
      | CNum (ISingle p) => Some (Concrete p)
      | CNum (IZ z) => match prim_as_singleton z with
                       | Some p => Some (Concrete p)
                       | None => if rs_is_empty z then None else Some Auto
                       end
      end
    end
  end.

Section Infer.
(** The representation the engine knows for a variable, after the requests given
    (the latest first). *)
Variable ask : list request -> nat -> option numrep.

(** ** Numeric expressions *)

(** src/typecheck.rs:2839-2846 [unify_var_rep], for a concrete representation: it is
    not called with another. *)
Definition tell_rep (v : nat) (r : mrep) : gm unit := tell (RType v (UInt r)).
(** src/typecheck.rs:2734-2787: the requests of a binary operation *)
Definition gen_bin (out : option mrep) (this : nat) (l r : nat * numrep) : gm numrep :=
  match snd l, snd r with
  | Auto, Auto =>
    tell (RPair this (fst l)) ;;; tell (RPair this (fst r)) ;;;
    match out with Some p => tell_rep this p ;;; gret (Concrete p) | None => gret Auto end
  | Concrete p0, Concrete p1 =>
    if mrep_eqb p0 p1 then
      match out with Some p => tell_rep this p ;;; gret (Concrete p) | None => tell_rep this p0 ;;; gret (Concrete p0) end
    else match out with Some p => tell_rep this p ;;; gret (Concrete p) | None => gfail end
  | Auto, Concrete p1 =>
    match out with
    | Some p => tell_rep this p ;;; tell (RPair this (fst l)) ;;; gret (Concrete p)
    | None => tell_rep this p1 ;;; tell_rep (fst l) p1 ;;; gret (Concrete p1)
    end
  | Concrete p0, Auto =>
    match out with
    | Some p => tell_rep this p ;;; tell (RPair this (fst r)) ;;; gret (Concrete p)
    | None => tell_rep this p0 ;;; tell_rep (fst r) p0 ;;; gret (Concrete p0)
    end
  end.
(** src/typecheck.rs:2666-2838 [infer_var_num_tree] *)
Fixpoint gen_num (G : uscope) (e : nexpr) : gm (nat * numrep) :=
  match e with
  | NVar x =>
    let* occ := fresh_num in
    let* uv := glift (ulook x G) in
    tell (RPair occ uv) ;;;
    (let* rep := (fun g => match ask (reqs g) occ with Some r => Some (r, g) | None => None end) in gret (occ, rep))
  | NConst c =>
    match tc_rep c with
    | Auto =>
      let* v := fresh_num in
      let* is := glift_o (from_bounds (ZB (tc_val c) (tc_val c))) in
      tell (RIntset v is) ;;; gret (v, Auto)
    | Concrete p => let* v := init_var (UInt p) in gret (v, Concrete p)
    end
  | NBin _ out a b =>
    let* this := fresh_num in
    let* l := gen_num G a in
    let* r := gen_num G b in
    let* rep := gen_bin out this l r in gret (this, rep)
  | NUn _ out a =>
    let* this := fresh_num in
    let* i := gen_num G a in
    let* rep := match snd i with
                | Auto => tell (RPair this (fst i)) ;;;
                          match out with Some p => tell_rep this p ;;; gret (Concrete p) | None => gret Auto end
                | Concrete p0 => let p := match out with Some p => p | None => p0 end in tell_rep this p ;;; gret (Concrete p)
                end in gret (this, rep)
  | NCast p _ a =>
    let* this := fresh_num in
    let* i := gen_num G a in
    (match snd i with Auto => tell_rep (fst i) p | Concrete _ => gret tt end) ;;;
    tell_rep this p ;;; gret (this, Concrete p)
  end.

(** ** Expressions *)

Section Lists.
Variable f : uscope -> expr -> gm nat.
(** src/typecheck.rs:2271-2285: the fields of a record, each with the ones before it
    in scope. *)
Fixpoint fields (G : uscope) (fs : list (label * expr)) : gm (list (label * utype)) :=
  match fs with
  | [] => gret []
  | (l, e) :: r => let* v := f G e in let* us := fields ((l, v) :: G) r in gret ((l, UVar v) :: us)
  end.
(** src/typecheck.rs:913-930 [unify_utype_expr_match_case] *)
Fixpoint cases (G : uscope) (head out : nat) (bs : list (pattern * expr)) : gm unit :=
  match bs with
  | [] => gret tt
  | (p, e) :: r =>
    (let* pv := gen_pat p in
     let* v := f (snd pv ++ G) e in
     tell (RType (fst pv) (UVar head)) ;;; tell (RPair out v)) ;;; cases G head out r
  end.
Fixpoint elems (G : uscope) (elem : nat) (es : list expr) : gm unit :=
  match es with
  | [] => gret tt
  | e :: r => (let* v := f G e in tell (RType elem (UVar v))) ;;; elems G elem r
  end.
End Lists.
Definition bw_len (w : bitwidth) : nat := match w with B8 => 1 | B16 => 2 | B32 => 4 | B64 => 8 end.

(** src/typecheck.rs:2233-2660 [infer_var_expr]; 2993-3009 [infer_vars_expr_lambda],
    2222-2231 [infer_var_expr_acc] and 2661-2664 [infer_utype_expr] are written out. *)
Fixpoint gen_expr (G : uscope) (e : expr) {struct e} : gm nat :=
  let lam e := match e with
               | ELambda x b => let* h := fresh in let* r := gen_expr ((x, h) :: G) b in gret (h, r)
               | _ => gfail
               end in
  match e with
  | EVar x => let* occ := fresh in let* uv := glift (ulook x G) in tell (RPair uv occ) ;;; gret occ
  | EBool _ => init_var (UBase TBool)
  | EU w _ => init_var (UBase (TU w))
  | ENumeric n => let* a := fresh in let* r := gen_num G n in tell (RPair a (fst r)) ;;; gret a
  | ETuple es => let* v := fresh in let* vs := mapG (gen_expr G) es in tell (RType v (UTuple (map UVar vs))) ;;; gret v
  | ETupleProj a i => let* v := fresh in let* t := gen_expr G a in tell (RIndex t i v) ;;; gret v
  | ERecord fs => let* v := fresh in let* us := fields gen_expr G fs in tell (RType v (URecord us)) ;;; gret v
  | ERecordProj a l => let* v := fresh in let* t := gen_expr G a in tell (RField t l v) ;;; gret v
  | ESeq es =>
    let* v := fresh in
    let* elem := fresh in
    elems gen_expr G elem es ;;;
    tell (RType v (USeq (UVar elem) (match es with [] => 2 | _ => 0 end))) ;;; gret v
  | EMatch h bs => let* v := fresh in let* hv := gen_expr G h in cases gen_expr G hv v bs ;;; gret v
  | EDestructure h p b =>
    let* v := fresh in
    let* hv := gen_expr G h in
    let* pv := gen_pat p in
    let* r := gen_expr (snd pv ++ G) b in
    tell (RType (fst pv) (UVar hv)) ;;; tell (RPair v r) ;;; gret v
  | ELambda _ _ => gfail
  | EVariant l a => let* v := fresh in let* i := gen_expr G a in tell (RVariant v l (UVar i)) ;;; gret v
  | EArith (ABoolAnd | ABoolOr) a b =>
    let* z := fresh in
    let* x := gen_expr G a in tell (RBaseset x a_bool) ;;;
    (let* y := gen_expr G b in tell (RBaseset y a_bool) ;;; tell (RBaseset z a_bool) ;;; gret z)
  | EUnary UBoolNot a =>
    let* v := fresh in let* x := gen_expr G a in tell (RBaseset x a_bool) ;;; tell (RBaseset v a_bool) ;;; gret v
  | EUnary (UIntSucc | UIntPred) a =>
    let* v := fresh in let* x := gen_expr G a in tell (RBaseset x any_u) ;;; tell (RPair v x) ;;; gret v
  | EArith _ a b =>
    let* z := fresh in
    let* x := gen_expr G a in tell (RBaseset x any_u) ;;;
    (let* y := gen_expr G b in tell (RBaseset y any_u) ;;; tell (RPair z x) ;;; tell (RPair z y) ;;; gret z)
  | EIntRel _ a b =>
    let* z := fresh in
    let* x := gen_expr G a in tell (RBaseset x any_u) ;;;
    (let* y := gen_expr G b in tell (RBaseset y any_u) ;;; tell (RPair x y) ;;; tell (RBaseset z a_bool) ;;; gret z)
  | EAs w a => let* v := init_var (UBase (TU w)) in let* x := gen_expr G a in tell (RIntset x (IZ P_ANY)) ;;; gret v
  | EAsChar a => let* v := init_var (UBase TChar) in let* x := gen_expr G a in tell (RBaseset x any_u) ;;; gret v
  | EBytes _ w a =>
    let* v := init_var (UBase (TU w)) in
    let* x := gen_expr G a in tell (RTypes (UVar x) (UTuple (repeat (UBase (TU B8)) (bw_len w)))) ;;; gret v
  | ESeqLength a =>
    let* v := fresh in
    tell (RBaseset v any_u32) ;;;
    (let* s := gen_expr G a in let* elem := fresh in tell (RElem s elem) ;;; gret v)
  | ESeqIx a i =>
    let* v := fresh in
    let* s := gen_expr G a in
    let* ix := gen_expr G i in tell (RBaseset ix any_u32) ;;; tell (RElem s v) ;;; gret v
  | ESubSeq a st len | ESubSeqInflate a st len =>
    let* v := fresh in
    let* s := gen_expr G a in
    let* x := gen_expr G st in
    let* y := gen_expr G len in
    tell (RBaseset x any_u32) ;;; tell (RBaseset y any_u32) ;;;
    (let* elem := fresh in tell (RElem s elem) ;;; tell (RPair v s) ;;; gret v)
  | EAppend a b =>
    let* v := fresh in
    let* s0 := gen_expr G a in
    let* s1 := gen_expr G b in
    let* elem := fresh in tell (RPair s0 s1) ;;; tell (RElem s0 elem) ;;; tell (RElem v elem) ;;; gret v
  | EFlatMap f a =>
    let* v := fresh in
    let* io := lam f in
    let* s := gen_expr G a in
    let* oe := fresh in tell (RElem s (fst io)) ;;; tell (RElem (snd io) oe) ;;; tell (RPair v (snd io)) ;;; gret v
  | EFlatMapAccum f z t a =>
    let* ys := fresh in
    let* io := lam f in
    let* acc := gen_expr G z in
    declare acc t ;;;
    (let* xs := gen_expr G a in
     let* x := fresh in
     let* y := fresh in
     tell (RElem ys y) ;;; tell (RElem xs x) ;;;
     tell (RType (fst io) (UTuple [UVar acc; UVar x])) ;;; tell (RType (snd io) (UTuple [UVar acc; UVar ys])) ;;; gret ys)
  | ELeftFold f z t a =>
    let* v := fresh in
    let* io := lam f in
    let* acc := gen_expr G z in
    declare acc t ;;;
    (let* xs := gen_expr G a in
     let* x := fresh in
     tell (RElem xs x) ;;; tell (RType (fst io) (UTuple [UVar acc; UVar x])) ;;;
     tell (RPair acc (snd io)) ;;; tell (RPair v acc) ;;; gret v)
  | EFindByKey _ k q a =>
    let* v := fresh in
    let* io := lam k in
    let* key := gen_expr G q in
    let* xs := gen_expr G a in
    let* x := fresh in
    tell (RElem xs x) ;;; tell (RPair (snd io) key) ;;; tell (RPair (fst io) x) ;;; tell (RType v (UOption (UVar x))) ;;; gret v
  | EFlatMapList f t a =>
    let* ys := fresh in
    let* io := lam f in
    let* xs := gen_expr G a in
    let* x := fresh in
    let* y := fresh in
    tell (RElem ys y) ;;; tell (RElem xs x) ;;; declare y t ;;;
    tell (RPair ys (snd io)) ;;; tell (RType (fst io) (UTuple [UVar ys; UVar x])) ;;; gret ys
  | EEnumFromTo a b =>
    let* v := fresh in
    let* x := gen_expr G a in
    let* y := gen_expr G b in tell (RBaseset x any_u32) ;;; tell (RPair x y) ;;; tell (RElem v x) ;;; gret v
  | EDup n a =>
    let* v := fresh in
    let* c := gen_expr G n in
    let* x := gen_expr G a in tell (RBaseset c any_u32) ;;; tell (RElem v x) ;;; gret v
  | ELiftOption o =>
    let* v := fresh in
    let* i := match o with Some a => gen_expr G a | None => fresh end in
    tell (RType v (UOption (UVar i))) ;;; gret v
  end.
(** src/typecheck.rs:2993-3009 [infer_vars_expr_lambda] *)
Definition gen_lam (G : uscope) (e : expr) : gm (nat * nat) :=
  match e with
  | ELambda x b => let* h := fresh in let* r := gen_expr ((x, h) :: G) b in gret (h, r)
  | _ => gfail
  end.

(** ** Formats *)

(** src/typecheck.rs:239-290 [Ctxt], without the module: the variables of values and
    of dynamic formats by name, and the names of the views. *)
Record ctx := Ctx { cvals : uscope; cdyns : uscope; cviews : list label }.
Definition with_val (x : label) (v : nat) (c : ctx) : ctx := Ctx ((x, v) :: cvals c) (cdyns c) (cviews c).
Definition with_vals (b : uscope) (c : ctx) : ctx := Ctx (b ++ cvals c) (cdyns c) (cviews c).
Definition with_dyn (x : label) (v : nat) (c : ctx) : ctx := Ctx (cvals c) ((x, v) :: cdyns c) (cviews c).
Definition with_views (l : list label) (c : ctx) : ctx := Ctx (cvals c) (cdyns c) (l ++ cviews c).

(** src/typecheck.rs:1056-1072 [traverse_view_expr] *)
Fixpoint gen_view (c : ctx) (v : viewexpr) : gm unit :=
  match v with
  | VEVar x => if existsb (N.eqb x) (cviews c) then gret tt else gfail
  | VEOffset w e => gen_view c w ;;; (let* o := gen_expr (cvals c) e in tell (RBaseset o any_u))
  end.
(** src/typecheck.rs:987-1023 [infer_var_view_format] *)
Definition gen_vf (c : ctx) (vf : viewformat) : gm nat :=
  match vf with
  | VFCapture e => let* v := fresh in let* n := gen_expr (cvals c) e in tell (RBaseset n any_u) ;;; tell (RType v (USeq (UBase (TU B8)) 2)) ;;; gret v
  | VFReadArray e k => let* v := fresh in let* n := gen_expr (cvals c) e in tell (RBaseset n any_u) ;;; tell (RType v (USeq (UBase (TU (bk_width k))) 1)) ;;; gret v
  | VFReify => init_var UView
  end.
(** src/typecheck.rs:1025-1054 [infer_var_dyn_format] *)
Definition gen_dyn (c : ctx) (d : dynformat) : gm nat :=
  match d with
  | DHuffman codes values =>
    let lengths e := let* s := gen_expr (cvals c) e in let* x := fresh in tell (RElem s x) ;;; tell (RBaseset x (BU U_SHORT8)) in
    let* v := fresh in
    lengths codes ;;;
    match values with Some e => lengths e | None => gret tt end ;;;
    tell (RBaseset v (BU (any_default B16))) ;;; gret v
  end.

Section Formats.
Variable f : ctx -> format -> gm nat.
(** src/typecheck.rs:3370-3391 [infer_var_format_union]: [f] is only applied to the
    branches or to what is inside a variant. *)
Fixpoint fcases (c : ctx) (head out : nat) (bs : list (pattern * format)) : gm unit :=
  match bs with
  | [] => gret tt
  | (p, e) :: r =>
    (let* pv := gen_pat p in
     let* v := f (with_vals (snd pv) c) e in
     tell (RType (fst pv) (UVar head)) ;;; tell (RPair out v)) ;;; fcases c head out r
  end.
End Formats.

Variable ds : list (item * list vtype).


Section Level.
(** src/typecheck.rs:977-985 [infer_var_format_level] *)
Variable level : nat -> ctx -> gm nat.
(** src/typecheck.rs:3403-3412: the arguments of a call, zipped with their names and
    declared types; the latest is the innermost. *)
Fixpoint gen_args (G : uscope) (ps : list (label * vtype)) (es : list expr) : gm uscope :=
  match ps, es with
  | (x, t) :: ps', e :: es' => let* v := gen_expr G e in declare v t ;;; (let* r := gen_args G ps' es' in gret (r ++ [(x, v)]))
  | _, _ => gret []
  end.
Fixpoint gen_views (c : ctx) (xs : list label) (vs : list viewexpr) : gm (list label) :=
  match xs, vs with
  | x :: xs', v :: vs' => gen_view c v ;;; (let* r := gen_views c xs' vs' in gret (x :: r))
  | _, _ => gret []
  end.
(** src/typecheck.rs:3394-3745 [infer_var_format]; 3370-3391 [infer_var_format_union]
    and 890-911 [unify_utype_format_match_case] are written out. *)
Fixpoint gen_format (c : ctx) (F : format) {struct F} : gm nat :=
  match F with
  | FPhantom f => let* v := fresh in let* i := gen_format c f in tell (RType v (UPhantom (UVar i))) ;;; gret v
  | FItemVar k args views =>
    let* v := fresh in
    let* it := glift (nth_error ds k) in
    let* lv := match args, views with
               | [], [] => level k c
               | _, _ =>
                 let* b := gen_args (cvals c) (combine (it_args (fst it)) (snd it)) args in
                 let* w := gen_views c (it_views (fst it)) views in
                 level k (with_views w (with_vals b c))
               end in
    tell (RPair v lv) ;;; gret v
  | FForEach e x f =>
    let* v := fresh in
    let* s := gen_expr (cvals c) e in
    let* elem := fresh in
    tell (RElem s elem) ;;;
    (let* i := gen_format (with_val x elem c) f in tell (RType v (USeq (UVar i) 0)) ;;; gret v)
  | FFail => init_var UEmpty
  | FSkipRemainder | FEndOfInput | FAlign _ => init_var (UTuple [])
  | FDecodeBytes e f =>
    let* v := fresh in
    let* b := gen_expr (cvals c) e in
    let* i := gen_format c f in
    tell (RType b (USeq (UBase (TU B8)) 0)) ;;; tell (RPair v i) ;;; gret v
  | FParseFromView w f => let* v := fresh in gen_view c w ;;; (let* i := gen_format c f in tell (RPair v i) ;;; gret v)
  | FByte bs => init_var (if ByteSetModel.is_empty bs then UEmpty else UBase (TU B8))
  | FVariant l f => let* v := fresh in let* i := gen_format c f in tell (RVariant v l (UVar i)) ;;; gret v
  | FUnion fs | FUnionNondet fs =>
    let* v := fresh in
    iterG (fun b => match b with
                    | FVariant l f => let* i := gen_format c f in tell (RVariant v l (UVar i))
                    | _ => let* i := gen_format c b in tell (RType v (UVar i))
                    end) fs ;;; gret v
  | FTuple fs => let* v := fresh in let* vs := mapG (gen_format c) fs in tell (RType v (UTuple (map UVar vs))) ;;; gret v
  | FSequence fs =>
    let* v := fresh in
    let* elem := fresh in
    iterG (fun b => let* i := gen_format c b in tell (RPair elem i)) fs ;;; tell (RType v (USeq (UVar elem) 0)) ;;; gret v
  | FRepeat f | FRepeat1 f => let* v := fresh in let* i := gen_format c f in tell (RType v (USeq (UVar i) 0)) ;;; gret v
  | FRepeatCount e f =>
    let* v := fresh in
    let* n := gen_expr (cvals c) e in tell (RBaseset n any_u) ;;;
    (let* i := gen_format c f in tell (RType v (USeq (UVar i) 0)) ;;; gret v)
  | FRepeatBetween e1 e2 f =>
    let* v := fresh in
    let* a := gen_expr (cvals c) e1 in
    let* b := gen_expr (cvals c) e2 in
    tell (RBaseset a any_u) ;;; tell (RPair a b) ;;;
    (let* i := gen_format c f in tell (RType v (USeq (UVar i) 0)) ;;; gret v)
  | FRepeatUntilLast e f =>
    let* v := fresh in
    let* io := gen_lam (cvals c) e in
    let* i := gen_format c f in
    tell (RType (fst io) (UVar i)) ;;; tell (RType (snd io) (UBase TBool)) ;;; tell (RType v (USeq (UVar i) 0)) ;;; gret v
  | FRepeatUntilSeq e f =>
    let* v := fresh in
    let* io := gen_lam (cvals c) e in
    let* i := gen_format c f in
    tell (RType (fst io) (USeq (UVar i) 0)) ;;; tell (RType (snd io) (UBase TBool)) ;;; tell (RType v (USeq (UVar i) 0)) ;;; gret v
  | FAccumUntil e1 e2 e0 t f =>
    let* v := fresh in
    let* io1 := gen_lam (cvals c) e1 in
    let* io2 := gen_lam (cvals c) e2 in
    let* acc := gen_expr (cvals c) e0 in
    let* i := gen_format c f in
    declare acc t ;;;
    tell (RType (fst io1) (UTuple [UVar acc; USeq (UVar i) 0])) ;;; tell (RType (snd io1) (UBase TBool)) ;;;
    tell (RType (fst io2) (UTuple [UVar acc; UVar i])) ;;; tell (RPair (snd io2) acc) ;;;
    tell (RPair v (fst io1)) ;;; gret v
  | FMaybe e f =>
    let* v := fresh in
    let* b := gen_expr (cvals c) e in
    let* i := gen_format c f in
    tell (RType b (UBase TBool)) ;;; tell (RType v (UOption (UVar i))) ;;; gret v
  | FPeek f | FBits f => let* v := fresh in let* i := gen_format c f in tell (RType v (UVar i)) ;;; gret v
  | FPeekNot f => let* v := init_var (UTuple []) in let* i := gen_format c f in gret v
  | FSlice e f =>
    let* v := fresh in
    let* n := gen_expr (cvals c) e in tell (RBaseset n any_u32) ;;;
    (let* i := gen_format c f in tell (RType v (UVar i)) ;;; gret v)
  | FWithRelativeOffset e1 e2 f =>
    let* v := fresh in
    let* a := gen_expr (cvals c) e1 in
    let* b := gen_expr (cvals c) e2 in
    tell (RBaseset a any_u32) ;;; tell (RPair a b) ;;;
    (let* i := gen_format c f in tell (RType v (UVar i)) ;;; gret v)
  | FMap f e =>
    let* v := fresh in
    let* i := gen_format c f in
    let* io := gen_lam (cvals c) e in
    tell (RType (fst io) (UVar i)) ;;; tell (RPair v (snd io)) ;;; gret v
  | FWhere f e _ =>
    let* v := fresh in
    let* i := gen_format c f in
    let* io := gen_lam (cvals c) e in
    tell (RPair v (fst io)) ;;; tell (RType v (UVar i)) ;;; tell (RType (snd io) (UBase TBool)) ;;; gret v
  | FCompute e => let* v := fresh in let* x := gen_expr (cvals c) e in tell (RType v (UVar x)) ;;; gret v
  | FLet x e f =>
    let* v := fresh in
    let* y := gen_expr (cvals c) e in
    let* i := gen_format (with_val x y c) f in tell (RType v (UVar i)) ;;; gret v
  | FLetView x f => let* v := fresh in let* i := gen_format (with_views [x] c) f in tell (RType v (UVar i)) ;;; gret v
  | FMatch e bs => let* v := fresh in let* h := gen_expr (cvals c) e in fcases gen_format c h v bs ;;; gret v
  | FDynamic x d f =>
    let* v := fresh in
    let* y := gen_dyn c d in
    let* i := gen_format (with_dyn x y c) f in tell (RType v (UVar i)) ;;; gret v
  | FApply x => let* v := fresh in let* y := glift (ulook x (cdyns c)) in tell (RPair v y) ;;; gret v
  | FPos => let* v := fresh in tell (RBaseset v (BU (any_default B64))) ;;; gret v
  | FLetFormat f x g =>
    let* v := fresh in
    let* i := gen_format c f in
    let* j := gen_format (with_val x i c) g in tell (RPair v j) ;;; gret v
  | FMonadSeq f g => let* v := fresh in let* i := gen_format c f in let* j := gen_format c g in tell (RPair v j) ;;; gret v
  | FHint f => let* v := fresh in let* i := gen_format c f in tell (RPair v i) ;;; gret v
  | FPermit f e =>
    let* v := fresh in
    let* i := gen_format c f in
    let* d := gen_expr (cvals c) e in tell (RPair v i) ;;; tell (RPair v d) ;;; gret v
  | FLiftedOption o =>
    let* v := fresh in
    let* i := match o with Some f => gen_format c f | None => fresh end in
    tell (RType v (UOption (UVar i))) ;;; gret v
  | FWithView w vf => let* v := fresh in gen_view c w ;;; (let* i := gen_vf c vf in tell (RPair v i) ;;; gret v)
  end.
End Level.

(** src/typecheck.rs:977-985 [infer_var_format_level]; [n] bounds the depth of the
    calls that are inferred inside one another (a level that calls itself is inferred
    without end). *)
Fixpoint nget (k : nat) (l : list (nat * nat)) : option nat :=
  match l with [] => None | (j, v) :: r => if k =? j then Some v else nget k r end.
Fixpoint gen_level (n : nat) (k : nat) (c : ctx) {struct n} : gm nat :=
  fun g =>
    match nget k (lvls g) with
    | Some v => Some (v, g)
    | None =>
      match n with
      | O => None
      | S n' =>
        match nth_error ds k with
        | None => None
        | Some it =>
          match gen_format (gen_level n') c (it_format (fst it)) g with
          | Some (v, g1) => Some (v, GS (nv g1) (reqs g1) ((k, v) :: lvls g1))
          | None => None
          end
        end
      end
    end.
End Infer.

(** ** The type that is reported *)

(** src/valuetype.rs:481-505 [From<AugValueType> for ValueType], and 507-530 for
    integer types *)
Fixpoint into_vtype (a : avt) : vtype :=
  match a with
  | AEmpty => TEmpty
  | AView => TViewObj
  | ABool => TBase TBool
  | AChar => TBase TChar
  | AInt p => type_of_mrep p
  | ATuple ts => TTuple (map into_vtype ts)
  | ARecord fs => TRecord (map (fun f : label * avt => let (l, t) := f in (l, into_vtype t)) fs)
  | AUnion bs => TUnion (map (fun f : label * avt => let (l, t) := f in (l, into_vtype t)) bs)
  | ASeq t _ => TSeq (into_vtype t)
  | AOption t => TOption (into_vtype t)
  | APhantom t => TPhantom (into_vtype t)
  end.

(** The engine's answers, with the order of its hash tables and its fuel. *)
Definition engine (ho : hash_order) (n : nat) (rs : list request) (v : nat) : option numrep :=
  match perform_all ho n (rev rs) empty_state with UOk st _ => get_var_numrep st v | _ => None end.
(** The requests made for a format in a module, and the variable of its type. *)
Definition requests (ho : hash_order) (n depth : nat) (ds : list (item * list vtype)) (f : format) : option (nat * list request) :=
  match gen_format (engine ho n) ds (gen_level (engine ho n) ds depth) (Ctx [] [] []) f (GS 0 [] []) with
  | Some (v, g) => Some (v, rev (reqs g))
  | None => None
  end.
(** src/typecheck.rs:4050-4062 [typecheck]: a type, no type ([Some None]), or an error,
    a panic or the lack of fuel ([None]). [n] is the fuel of the engine, [depth] bounds
    the nesting of calls. *)
Definition typecheck (ho : hash_order) (n depth : nat) (ds : list (item * list vtype)) (f : format) : option (option vtype) :=
  match requests ho n depth ds f with
  | None => None
  | Some (v, rs) =>
    match perform_all ho n rs empty_state with
    | UOk st _ =>
      match reify ho n st (UVar v) with
      | ROk a => Some (Some (into_vtype a))
      | RNone => Some None
      | _ => None
      end
    | _ => None
    end
  end.
