(** Elaboration: the typed tree that code is generated from. The elaborator walks over
    the module that type inference has walked over, and counts: it takes the type of a
    node from the variable whose number it has reached. *)
From Verif Require Import Base DataModel NumericModel TypeModel UnifyModel ValueModel FormatModel InferModel.
Open Scope nat_scope.

(** ** Typed trees *)

(** src/codegen/typed_format.rs [TypedFormat], [TypedExpr], [TypedPattern]: of a typed
    tree, what its nodes are labelled with. The rest of it is a copy of the format. Nodes
    that do not store a type (literals, casts) have one too. *)
Inductive tree (A : Type) := Tn (a : A) (kids : list (tree A)).
Arguments Tn {A}.
Definition top {A} (t : tree A) : A := match t with Tn a _ => a end.
Fixpoint tmap {A B} (f : A -> B) (t : tree A) {struct t} : tree B := match t with Tn a ts => Tn (f a) (map (tmap f) ts) end.
(** Each node with the number of the variable whose type it is given
    (src/codegen/mod.rs:4727-4734 [get_gt_from_index]). *)
Definition itree := tree nat.

(** src/codegen/mod.rs:4069-4075 [Elaborator]: the counter, and the typed trees of the
    levels elaborated so far. The names that it makes up for types on the way are not
    modelled here. *)
Record est := ES { cnt : nat; forms : list (nat * itree) }.
(** A computation of the elaborator; [None] is a panic or the lack of fuel. *)
Definition em (A : Type) := est -> option (A * est).
Definition eret {A} (a : A) : em A := fun g => Some (a, g).
Definition efail {A} : em A := fun _ => None.
Definition ebind {A B} (m : em A) (k : A -> em B) : em B :=
  fun g => match m g with Some (a, g1) => k a g1 | None => None end.
Notation "'let+' x ':=' m 'in' k" := (ebind m (fun x => k)) (at level 200, x name, m at level 100, k at level 200).
(** src/codegen/mod.rs:4078-4088 [get_and_increment_index], [increment_index] *)
Definition index : em nat := fun g => Some (cnt g, ES (S (cnt g)) (forms g)).
Definition elift {A} (o : option A) : em A := match o with Some a => eret a | None => efail end.

Section MapE.
Context {A B : Type} (f : A -> em B).
Fixpoint mapE (l : list A) : em (list B) :=
  match l with [] => eret [] | a :: r => let+ b := f a in let+ bs := mapE r in eret (b :: bs) end.
End MapE.

(** ** Declared types *)

Section Declared.
Variable f : vtype -> em unit.
(** src/codegen/mod.rs:5262-5273 [force_unify_against_valuetype_union] *)
Fixpoint skip_union (bs : list (label * vtype)) : em unit :=
  match bs with
  | [] => eret tt
  | (_, t) :: r =>
    let+ _ := match from_valuetype t with Some _ => eret tt | None => let+ _ := index in f t end in
    skip_union r
  end.
Fixpoint skip_record (fs : list (label * vtype)) : em unit :=
  match fs with [] => eret tt | (_, t) :: r => let+ _ := index in let+ _ := f t in skip_record r end.
Fixpoint skip_tuple (ts : list vtype) : em unit :=
  match ts with [] => eret tt | t :: r => let+ _ := index in let+ _ := f t in skip_tuple r end.
End Declared.
(** src/codegen/mod.rs:5234-5260 [force_unify_against_valuetype] *)
Fixpoint skip_declared (t : vtype) {struct t} : em unit :=
  match from_valuetype t with
  | Some _ => eret tt
  | None =>
    match t with
    | TUnion bs => skip_union skip_declared bs
    | TRecord fs => skip_record skip_declared fs
    | TTuple ts => skip_tuple skip_declared ts
    | TSeq t1 | TOption t1 => let+ _ := index in skip_declared t1
    | _ => efail
    end
  end.

(** ** Patterns, numeric expressions and expressions *)

(** src/codegen/mod.rs:4135-4198 [elaborate_pattern] *)
Fixpoint elab_pat (p : pattern) : em itree :=
  let+ i := index in
  match p with
  | PTuple ps => let+ ts := mapE elab_pat ps in eret (Tn i ts)
  | PVariant _ p1 => let+ t := elab_pat p1 in eret (Tn i [t])
  | PSeq ps => let+ _ := index in let+ ts := mapE elab_pat ps in eret (Tn i ts)
  | POption (Some p1) => let+ t := elab_pat p1 in eret (Tn i [t])
  | POption None => let+ _ := index in eret (Tn i [])
  | PBinding _ | PWildcard | PBool _ | PU _ _ | PInt _ | PZConst _ | PZRange _ | PChar _ => eret (Tn i [])
  end.
(** src/codegen/mod.rs:4736-4786 [elaborate_num_tree] *)
Fixpoint elab_num (n : nexpr) : em itree :=
  let+ i := index in
  match n with
  | NConst _ | NVar _ => eret (Tn i [])
  | NBin _ _ a b => let+ ta := elab_num a in let+ tb := elab_num b in eret (Tn i [ta; tb])
  | NUn _ _ a | NCast _ _ a => let+ t := elab_num a in eret (Tn i [t])
  end.

Section Lists.
Variable f : expr -> em itree.
Fixpoint elab_fields (fs : list (label * expr)) : em (list itree) :=
  match fs with [] => eret [] | (_, e) :: r => let+ t := f e in let+ ts := elab_fields r in eret (t :: ts) end.
Fixpoint elab_cases (bs : list (pattern * expr)) : em (list itree) :=
  match bs with
  | [] => eret []
  | (p, e) :: r => let+ tp := elab_pat p in let+ te := f e in let+ ts := elab_cases r in eret (tp :: te :: ts)
  end.
End Lists.
(** src/codegen/mod.rs:4788-5161 [elaborate_expr]; 5163-5181 [elaborate_expr_lambda] is
    written out. *)
Fixpoint elab_expr (e : expr) {struct e} : em itree :=
  let lam e := match e with
               | ELambda _ b => let+ h := index in let+ t := elab_expr b in eret (Tn h [t])
               | _ => efail
               end in
  let+ i := index in
  match e with
  | EVar _ | EBool _ | EU _ _ => eret (Tn i [])
  | ENumeric n => let+ t := elab_num n in eret (Tn i [t])
  | ETuple es => let+ ts := mapE elab_expr es in eret (Tn i ts)
  | ETupleProj a _ | ERecordProj a _ | EVariant _ a | EUnary _ a | EAs _ a | EAsChar a | EBytes _ _ a =>
    let+ t := elab_expr a in eret (Tn i [t])
  | ERecord fs => let+ ts := elab_fields elab_expr fs in eret (Tn i ts)
  | ESeq es => let+ _ := index in let+ ts := mapE elab_expr es in eret (Tn i ts)
  | EMatch h bs => let+ th := elab_expr h in let+ ts := elab_cases elab_expr bs in eret (Tn i (th :: ts))
  | EDestructure h p b => let+ th := elab_expr h in let+ tp := elab_pat p in let+ tb := elab_expr b in eret (Tn i [th; tp; tb])
  | ELambda _ _ => efail
  | EIntRel _ a b | EArith _ a b | ESeqIx a b | EEnumFromTo a b | EDup a b =>
    let+ ta := elab_expr a in let+ tb := elab_expr b in eret (Tn i [ta; tb])
  | EAppend a b => let+ ta := elab_expr a in let+ tb := elab_expr b in let+ _ := index in eret (Tn i [ta; tb])
  | ESeqLength a => let+ t := elab_expr a in let+ _ := index in eret (Tn i [t])
  | ESubSeq a b c | ESubSeqInflate a b c =>
    let+ ta := elab_expr a in let+ tb := elab_expr b in let+ tc := elab_expr c in let+ _ := index in eret (Tn i [ta; tb; tc])
  | EFlatMap f a => let+ tf := lam f in let+ ta := elab_expr a in let+ _ := index in eret (Tn i [tf; ta])
  | EFlatMapAccum f z _ a =>
    let+ tf := lam f in let+ tz := elab_expr z in let+ ta := elab_expr a in let+ _ := index in let+ _ := index in eret (Tn i [tf; tz; ta])
  | ELeftFold f z _ a => let+ tf := lam f in let+ tz := elab_expr z in let+ ta := elab_expr a in let+ _ := index in eret (Tn i [tf; tz; ta])
  | EFindByKey _ k q a => let+ tk := lam k in let+ tq := elab_expr q in let+ ta := elab_expr a in let+ _ := index in eret (Tn i [tk; tq; ta])
  | EFlatMapList f _ a => let+ tf := lam f in let+ ta := elab_expr a in let+ _ := index in let+ _ := index in eret (Tn i [tf; ta])
  | ELiftOption (Some a) => let+ t := elab_expr a in eret (Tn i [t])
  | ELiftOption None => let+ _ := index in eret (Tn i [])
  end.
(** src/codegen/mod.rs:5163-5181 [elaborate_expr_lambda]: the node has the type of the
    argument, its child the type of the result. *)
Definition elab_lam (e : expr) : em itree :=
  match e with
  | ELambda _ b => let+ h := index in let+ t := elab_expr b in eret (Tn h [t])
  | _ => efail
  end.

(** ** Formats *)

(** src/codegen/mod.rs:5183-5192 [elaborate_view_expr]: the trees of its expressions *)
Fixpoint elab_view (v : viewexpr) : em (list itree) :=
  match v with
  | VEVar _ => eret []
  | VEOffset w e => let+ ts := elab_view w in let+ t := elab_expr e in eret (ts ++ [t])
  end.
(** src/codegen/mod.rs:4115-4133 [elaborate_view_format] *)
Definition elab_vf (vf : viewformat) : em itree :=
  match vf with
  | VFCapture e | VFReadArray e _ => let+ i := index in let+ t := elab_expr e in eret (Tn i [t])
  | VFReify => let+ i := index in eret (Tn i [])
  end.
(** src/codegen/mod.rs:4095-4113 [elaborate_dynamic_format] *)
Definition elab_dyn (d : dynformat) : em itree :=
  match d with
  | DHuffman codes values =>
    let+ i := index in
    let+ t := elab_expr codes in
    let+ _ := index in
    let+ ts := match values with Some e => let+ t := elab_expr e in let+ _ := index in eret [t] | None => eret [] end in
    eret (Tn i (t :: ts))
  end.

(** src/codegen/mod.rs:5279-5325 [TypedDynScope] *)
Definition dscope := list (label * itree).
Section Formats.
Variable f : dscope -> format -> em itree.
Fixpoint elab_fcases (D : dscope) (bs : list (pattern * format)) : em (list itree) :=
  match bs with
  | [] => eret []
  | (p, e) :: r => let+ tp := elab_pat p in let+ te := f D e in let+ ts := elab_fcases D r in eret (tp :: te :: ts)
  end.
End Formats.

Section Module.
Variable ds : list (item * list vtype).

Section Level.
(** The typed tree of a level: src/codegen/mod.rs:4280-4288 *)
Variable level : nat -> em itree.
(** src/codegen/mod.rs:4264-4268 *)
Fixpoint elab_args (ps : list (label * vtype)) (es : list expr) : em (list itree) :=
  match ps, es with
  | (_, t) :: ps', e :: es' => let+ te := elab_expr e in let+ _ := skip_declared t in let+ ts := elab_args ps' es' in eret (te :: ts)
  | _, _ => eret []
  end.
(** src/codegen/mod.rs:4272-4278 *)
Fixpoint elab_views (xs : list label) (vs : list viewexpr) : em (list itree) :=
  match xs, vs with
  | _ :: xs', v :: vs' => let+ t := elab_view v in let+ ts := elab_views xs' vs' in eret (t ++ ts)
  | _, _ => eret []
  end.
(** src/codegen/mod.rs:4250-4725 [elaborate_format]; 4210-4248
    [elaborate_format_union] is written out. *)
Fixpoint elab_format (D : dscope) (F : format) {struct F} : em itree :=
  let+ i := index in
  match F with
  | FItemVar k args views =>
    let+ it := elift (nth_error ds k) in
    let+ ta := elab_args (combine (it_args (fst it)) (snd it)) args in
    let+ tv := elab_views (it_views (fst it)) views in
    let+ tl := level k in
    eret (Tn i (ta ++ tv ++ [tl]))
  | FForEach e _ f => let+ te := elab_expr e in let+ _ := index in let+ tf := elab_format D f in eret (Tn i [te; tf])
  | FFail | FEndOfInput | FSkipRemainder | FAlign _ | FPos | FByte _ => eret (Tn i [])
  | FDecodeBytes e f | FRepeatCount e f | FMaybe e f | FSlice e f | FLet _ e f =>
    let+ te := elab_expr e in let+ tf := elab_format D f in eret (Tn i [te; tf])
  | FParseFromView w f => let+ tw := elab_view w in let+ tf := elab_format D f in eret (Tn i (tw ++ [tf]))
  | FVariant _ f | FRepeat f | FRepeat1 f | FPeek f | FPeekNot f | FBits f | FLetView _ f | FHint f | FPhantom f =>
    let+ tf := elab_format D f in eret (Tn i [tf])
  | FUnion fs | FUnionNondet fs =>
    let+ ts := mapE (fun b => match b with
                              | FVariant _ f => let+ tf := elab_format D f in eret (match f with FFail => [] | _ => [Tn i [tf]] end)
                              | _ => let+ tf := elab_format D b in eret [tf]
                              end) fs in
    eret (Tn i (concat ts))
  | FTuple fs => let+ ts := mapE (elab_format D) fs in eret (Tn i ts)
  | FSequence fs => let+ _ := index in match fs with [] => efail | _ => let+ ts := mapE (elab_format D) fs in eret (Tn i ts) end
  | FRepeatBetween e1 e2 f | FWithRelativeOffset e1 e2 f =>
    let+ t1 := elab_expr e1 in let+ t2 := elab_expr e2 in let+ tf := elab_format D f in eret (Tn i [t1; t2; tf])
  | FRepeatUntilLast e f | FRepeatUntilSeq e f => let+ te := elab_lam e in let+ tf := elab_format D f in eret (Tn i [te; tf])
  | FAccumUntil e1 e2 e0 _ f =>
    let+ t1 := elab_lam e1 in let+ t2 := elab_lam e2 in let+ t0 := elab_expr e0 in let+ tf := elab_format D f in eret (Tn i [t1; t2; t0; tf])
  | FMap f e | FWhere f e _ => let+ tf := elab_format D f in let+ te := elab_lam e in eret (Tn i [tf; te])
  | FPermit f e => let+ tf := elab_format D f in let+ te := elab_expr e in eret (Tn i [tf; te])
  | FCompute e => let+ te := elab_expr e in eret (Tn i [te])
  | FMatch e bs => let+ te := elab_expr e in let+ ts := elab_fcases elab_format D bs in eret (Tn i (te :: ts))
  | FDynamic x d f => let+ td := elab_dyn d in let+ tf := elab_format ((x, td) :: D) f in eret (Tn i [td; tf])
  | FApply x => let+ td := elift (assoc x D) in eret (Tn i [td])
  | FLetFormat f _ g | FMonadSeq f g => let+ tf := elab_format D f in let+ tg := elab_format D g in eret (Tn i [tf; tg])
  | FLiftedOption (Some f) => let+ tf := elab_format D f in eret (Tn i [tf])
  | FLiftedOption None => let+ _ := index in eret (Tn i [])
  | FWithView w vf => let+ tw := elab_view w in let+ tf := elab_vf vf in eret (Tn i (tw ++ [tf]))
  end.
End Level.

Fixpoint tget (k : nat) (l : list (nat * itree)) : option itree :=
  match l with [] => None | (j, t) :: r => if k =? j then Some t else tget k r end.
(** src/codegen/mod.rs:4280-4288: [n] bounds the nesting of calls. *)
Fixpoint elab_level (n : nat) (k : nat) {struct n} : em itree :=
  fun g =>
    match tget k (forms g) with
    | Some t => Some (t, g)
    | None =>
      match n with
      | O => None
      | S n' =>
        match nth_error ds k with
        | None => None
        | Some it =>
          match elab_format (elab_level n') [] (it_format (fst it)) g with
          | Some (t, g1) => Some (t, ES (cnt g1) ((k, t) :: forms g1))
          | None => None
          end
        end
      end
    end.
(** src/codegen/mod.rs:5194-5232 [elaborate_module]: the levels that have no tree yet,
    in their order. A level that is elaborated here is not recorded. *)
Fixpoint elab_rest (n : nat) (ks : list nat) : em (list itree) :=
  match ks with
  | [] => eret []
  | k :: r => fun g =>
    match tget k (forms g) with
    | Some _ => elab_rest n r g
    | None => (let+ it := elift (nth_error ds k) in
               let+ t := elab_format (elab_level n) [] (it_format (fst it)) in
               let+ ts := elab_rest n r in eret (t :: ts)) g
    end
  end.
Definition elab_module (n : nat) (f : format) : option (itree * list itree) :=
  match (let+ t := elab_format (elab_level n) [] f in let+ ts := elab_rest n (seq 0 (length ds)) in eret (t, ts)) (ES 0 []) with
  | Some (r, _) => Some r
  | None => None
  end.
End Module.

(** ** Inference for a module *)

Section Infer.
Variable ask : list request -> nat -> option numrep.
Variable ds : list (item * list vtype).
(** src/typecheck.rs:3771-3798 [infer_module]: the levels that have no variable yet, in
    their order. A level that is inferred here is not recorded. *)
Fixpoint gen_rest (n : nat) (ks : list nat) : gm (list nat) :=
  match ks with
  | [] => gret []
  | k :: r => fun g =>
    match nget k (lvls g) with
    | Some _ => gen_rest n r g
    | None => (let* it := glift (nth_error ds k) in
               let* v := gen_format ask ds (gen_level ask ds n) (Ctx [] [] []) (it_format (fst it)) in
               let* vs := gen_rest n r in gret (v :: vs)) g
    end
  end.
Definition gen_module (n : nat) (f : format) : gm (nat * list nat) :=
  let* v := gen_format ask ds (gen_level ask ds n) (Ctx [] [] []) f in
  let* vs := gen_rest n (seq 0 (length ds)) in gret (v, vs).
End Infer.
(** The requests made for a module: the variable of the format, those of the levels it
    does not call, and the requests. *)
Definition module_requests (ho : hash_order) (n depth : nat) (ds : list (item * list vtype)) (f : format) : option (nat * list nat * list request) :=
  match gen_module (engine ho n) ds depth f (GS 0 [] []) with
  | Some (r, g) => Some (r, rev (reqs g))
  | None => None
  end.
