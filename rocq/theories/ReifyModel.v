(** Model of the last step of type inference in src/typecheck.rs: reading the type of
    a variable off the state that unification leaves. *)
From Verif Require Import Base BoundsModel NumericModel ValueModel BaseSetModel UnifyModel.
Open Scope nat_scope.

(** src/valuetype.rs:416-430 [AugValueType], without [Any] and [NumericHole], which
    reification does not produce. *)
Inductive avt :=
| AEmpty | AView | ABool | AChar
| AInt (p : mrep)
| ATuple (ts : list avt)
| ARecord (fs : list (label * avt))
| AUnion (bs : list (label * avt))
| ASeq (t : avt) (hint : nat)
| AOption (t : avt)
| APhantom (t : avt).
(** src/valuetype.rs:436-447 [From<BaseType> for AugValueType] *)
Definition avt_of_base (b : basetype) : avt :=
  match b with TBool => ABool | TChar => AChar | TU w => AInt (MR false w) end.

(** A type, none, a panic, or the recursion going deeper than the fuel given. *)
Inductive rres (A : Type) := ROk (a : A) | RNone | RPanic | RFuel.
Arguments ROk {A}. Arguments RNone {A}. Arguments RPanic {A}. Arguments RFuel {A}.
Definition rbindR {A B} (r : rres A) (k : A -> rres B) : rres B :=
  match r with ROk a => k a | RNone => RNone | RPanic => RPanic | RFuel => RFuel end.
Section Loops.
Context {A B : Type}.
Fixpoint mapR (f : A -> rres B) (l : list A) : rres (list B) :=
  match l with [] => ROk [] | a :: l' => rbindR (f a) (fun b => rbindR (mapR f l') (fun bs => ROk (b :: bs))) end.
Fixpoint foldR (f : B -> A -> rres B) (acc : B) (l : list A) : rres B :=
  match l with [] => ROk acc | a :: l' => rbindR (f acc a) (fun acc' => foldR f acc' l') end.
End Loops.
(** [any], which stops at the first success *)
Section Any.
Context {A : Type} (f : A -> rres bool).
Fixpoint anyR (l : list A) : rres bool :=
  match l with [] => ROk false | a :: l' => rbindR (f a) (fun b : bool => if b then ROk true else anyR l') end.
End Any.

(** src/typecheck.rs:444-453 [VType] *)
Inductive vtype :=
| VBase (bs : baseset)
| VInt (is : intset)
| VAbstract (t : utype)
| VTuple (ts : list utype)
| VRecord (fs : list (label * utype))
| VUnion (id : nat).

(** src/typecheck.rs:1599-1621 [proj_shape_to_vtype]; the positions come in rising
    order. [UType::seq] is a sequence with the default hint (src/typecheck.rs:351-353,
    src/valuetype.rs:108-120), [Constructed], the first. *)
Definition flat_step (flat : list utype) (p : N * nat) : list utype :=
  flat ++ repeat UHole (N.to_nat (fst p) - length flat) ++ [UVar (snd p)].
Definition proj_shape_to_vtype (p : proj) : vtype :=
  match p with
  | PTuple m => VTuple (fold_left flat_step m [])
  | PRecord m => VRecord (map (fun f => (fst f, UVar (snd f))) m)
  | PSeq v => VAbstract (USeq (UVar v) 0)
  | POpt v => VAbstract (UOption (UVar v))
  end.

Section Reify.
Variable ho : hash_order.

(** src/typecheck.rs:1202-1208 [is_infinite_type]; [occurs] has fuel [n]. *)
Fixpoint is_infinite_type (n : nat) (st : state) (t : utype) {struct t} : rres bool :=
  match t with
  | UVar v => match occurs ho n st v with UOk _ _ => ROk false | UErr => ROk true | UPanic => RPanic | UFuel => RFuel end
  | UTuple ts => anyR (is_infinite_type n st) ts
  | URecord fs => anyR (fun f : label * utype => let (_, t0) := f in is_infinite_type n st t0) fs
  | USeq t0 _ | UOption t0 | UPhantom t0 => is_infinite_type n st t0
  | UEmpty | UHole | UView | UBase _ | UInt _ => ROk false
  end.
(** src/typecheck.rs:941-958 [to_whnf_vtype]; the failure of its assertion is a
    panic. *)
Fixpoint to_whnf_vtype (n : nat) (st : state) (t : utype) {struct n} : rres vtype :=
  match n with
  | O => RFuel
  | S n' =>
    rbindR (is_infinite_type n st t) (fun b : bool =>
    if b then RPanic
    else match t with
         | UVar v =>
           match canonical st v with
           | None => RPanic
           | Some v0 =>
             match get_cons st v0 with
             | None => RPanic
             | Some (Invariant (CEquiv ut)) => to_whnf_vtype n' st ut
             | Some (Invariant (CElem bs)) => ROk (VBase bs)
             | Some (Invariant (CProj ps)) => ROk (proj_shape_to_vtype ps)
             | Some (Invariant (CNum is)) => ROk (VInt is)
             | Some (Variant id) => ROk (VUnion id)
             | Some Indefinite => ROk (VAbstract (UVar v0))
             end
           end
         | _ => ROk (VAbstract t)
         end)
  end.
(** src/typecheck.rs:3021-3033 [substitute_uvar_vtype]; the error of the occurs check
    is [RNone], the absence of a substitution [ROk None]. *)
Definition substitute_uvar_vtype (n : nat) (st : state) (v : nat) : rres (option vtype) :=
  match occurs ho n st v with
  | UErr => RNone
  | UPanic => RPanic
  | UFuel => RFuel
  | UOk _ _ =>
    match canonical st v with
    | None => RPanic
    | Some c =>
      match get_cons st c with
      | None => RPanic
      | Some Indefinite => ROk None
      | Some (Variant id) => ROk (Some (VUnion id))
      | Some (Invariant (CEquiv ut)) => rbindR (to_whnf_vtype n st ut) (fun vt => ROk (Some vt))
      | Some (Invariant (CElem bs)) => ROk (Some (VBase bs))
      | Some (Invariant (CNum is)) => ROk (Some (VInt is))
      | Some (Invariant (CProj ps)) => ROk (Some (proj_shape_to_vtype ps))
      end
    end
  end.

Definition of_solution {A} (r : tcres A) (f : A -> avt) : rres avt :=
  match r with TOk a => ROk (f a) | TErr => RNone | TPanic => RPanic end.
(** src/typecheck.rs:3876-3887 [reify_union] with what is done to the type of each
    variant; a [BTreeMap] is a list in the order of its keys. *)
Definition is_uninhabited (a : avt) : bool := match a with AEmpty => true | _ => false end.
Definition branch_step (reify : utype -> rres avt) (acc : list (label * avt)) (p : label * utype) : rres (list (label * avt)) :=
  rbindR (reify (snd p)) (fun a => ROk (if is_uninhabited a then acc else minsert (fst p) a acc)).
Definition reify_union (reify : utype -> rres avt) (st : state) (id : nat) : rres avt :=
  match vget id (vms st) with
  | None => RPanic
  | Some vm => rbindR (foldR (branch_step reify) [] (shuffle ho vm)) (fun bs => ROk (AUnion bs))
  end.
(** src/typecheck.rs:3814-3874 [reify] *)
Fixpoint reify (n : nat) (st : state) (t : utype) {struct n} : rres avt :=
  match n with
  | O => RFuel
  | S n' =>
    match t with
    | UHole => RNone
    | UView => ROk AView
    | UInt p => ROk (AInt p)
    | UVar uv =>
      match canonical st uv with
      | None => RPanic
      | Some v =>
        rbindR (substitute_uvar_vtype n' st v) (fun ot =>
        match ot with
        | Some (VBase bs) => of_solution (bs_unique_solution bs) avt_of_base
        | Some (VInt is) => of_solution (is_unique_solution is) AInt
        | Some (VAbstract ut) => reify n' st ut
        | Some (VUnion id) => reify_union (reify n' st) st id
        | Some (VTuple _) | Some (VRecord _) => RPanic
        | None => match get_cons st v with
                  | Some (Variant id) => reify_union (reify n' st) st id
                  | _ => RNone
                  end
        end)
      end
    | UBase b => ROk (avt_of_base b)
    | UEmpty => ROk AEmpty
    | UTuple ts => rbindR (mapR (reify n' st) ts) (fun vs => ROk (ATuple vs))
    | URecord fs =>
      rbindR (mapR (fun f => rbindR (reify n' st (snd f)) (fun a => ROk (fst f, a))) fs) (fun vs => ROk (ARecord vs))
    | USeq t0 h => rbindR (reify n' st t0) (fun a => ROk (ASeq a h))
    | UOption t0 => rbindR (reify n' st t0) (fun a => ROk (AOption a))
    | UPhantom t0 => rbindR (reify n' st t0) (fun a => ROk (APhantom a))
    end
  end.
End Reify.
