(** Model of the unification engine of src/typecheck.rs: meta-variables, their
    aliases and constraints, and the operations that equate types. *)
From Coq Require Import Permutation.
From Verif Require Import Base BoundsModel NumericModel ValueModel BaseSetModel.
Open Scope nat_scope.

(** ** Types and constraints *)

(** src/typecheck.rs:330-347 [UType]. A [UVar] is its index, an [IntType]
    its [PrimInt]; the borrow hint of a sequence is its position in the declaration
    (src/valuetype.rs:108-120), by which hints are ordered. *)
Inductive utype :=
| UEmpty | UHole | UView
| UVar (v : nat)
| UBase (b : basetype)
| UTuple (ts : list utype)
| URecord (fs : list (label * utype))
| USeq (t : utype) (hint : nat)
| UOption (t : utype)
| UPhantom (t : utype)
| UInt (p : mrep).

(** src/typecheck.rs:659-664 [ProjShape]; the maps are lists of pairs in the
    order of their keys. *)
Inductive proj :=
| PTuple (m : list (N * nat))
| PRecord (m : list (label * nat))
| PSeq (v : nat)
| POpt (v : nat).

(** src/typecheck.rs:619-628 [Constraint] *)
Inductive constr :=
| CEquiv (t : utype)
| CElem (bs : baseset)
| CProj (p : proj)
| CNum (is : intset).

(** src/typecheck.rs:600-608 [Constraints]; a [VMId] is its number. *)
Inductive constrs := Indefinite | Variant (id : nat) | Invariant (c : constr).

(** src/typecheck.rs:459-464 [Alias]; the set of forward references is a
    list. *)
Inductive alias := Ground | BackRef (i : nat) | Canonical (fwd : list nat).

(** src/typecheck.rs:537 [VarMap]: a list of pairs. *)
Definition varmap := list (label * utype).

(** src/typecheck.rs:700-712 [TypeChecker] and 545-588 [VarMapMap]. The map of
    format levels is not used by the operations modelled. [again] is not in the
    code: it records that an operation came back to a variable that it was in the
    middle of unifying. *)
Record state := St {
  cons : list constrs;
  als : list alias;
  vms : list (nat * varmap);
  next_vm : nat;
  again : bool }.

(** The order in which hash tables are gone through. *)
Record hash_order := HO {
  shuffle : forall A : Type, list A -> list A;
  shuffle_perm : forall A (l : list A), Permutation (shuffle A l) l }.
Arguments shuffle _ {A}.

(** ** Maps *)

(** Look-up and insertion in a map kept in the order of its keys. *)
Fixpoint mget {A} (k : N) (m : list (N * A)) : option A :=
  match m with [] => None | (k', a) :: r => if (k =? k')%N then Some a else mget k r end.
Fixpoint minsert {A} (k : N) (a : A) (m : list (N * A)) : list (N * A) :=
  match m with
  | [] => [(k, a)]
  | (k', a') :: r => if (k =? k')%N then (k, a) :: r
                     else if (k <? k')%N then (k, a) :: (k', a') :: r
                     else (k', a') :: minsert k a r
  end.
Fixpoint vget (id : nat) (m : list (nat * varmap)) : option varmap :=
  match m with [] => None | (k, a) :: r => if id =? k then Some a else vget id r end.
Fixpoint vset (id : nat) (vm : varmap) (m : list (nat * varmap)) : list (nat * varmap) :=
  match m with [] => [(id, vm)] | (k, a) :: r => if id =? k then (k, vm) :: r else (k, a) :: vset id vm r end.
Definition vremove (id : nat) (m : list (nat * varmap)) : list (nat * varmap) :=
  filter (fun p => negb (id =? fst p)) m.

(** ** Equality ([derive(PartialEq)]) *)

Section ListEqb.
Context {A : Type} (eqb : A -> A -> bool).
Fixpoint list_eqb (a b : list A) : bool :=
  match a, b with
  | [], [] => true
  | x :: a', y :: b' => eqb x y && list_eqb a' b'
  | _, _ => false
  end.
End ListEqb.

Fixpoint utype_eqb (a b : utype) {struct a} : bool :=
  match a, b with
  | UEmpty, UEmpty | UHole, UHole | UView, UView => true
  | UVar v, UVar w => v =? w
  | UBase x, UBase y => basetype_eqb x y
  | UTuple xs, UTuple ys => list_eqb utype_eqb xs ys
  | URecord xs, URecord ys =>
    (fix go (xs : list (label * utype)) (ys : list (label * utype)) : bool :=
       match xs, ys with
       | [], [] => true
       | (l, x) :: xs', (k, y) :: ys' => (l =? k)%N && utype_eqb x y && go xs' ys'
       | _, _ => false
       end) xs ys
  | USeq x h, USeq y k => utype_eqb x y && (h =? k)
  | UOption x, UOption y | UPhantom x, UPhantom y => utype_eqb x y
  | UInt p, UInt q => mrep_eqb p q
  | _, _ => false
  end.

Definition rank_eqb (a b : rank) : bool :=
  match a, b with None, None => true | Some x, Some y => x =? y | _, _ => false end.
Definition baseset_eqb (a b : baseset) : bool :=
  match a, b with
  | BSingle x, BSingle y => basetype_eqb x y
  | BU s, BU t => list_eqb rank_eqb s t
  | _, _ => false
  end.
Definition intset_eqb (a b : intset) : bool :=
  match a, b with
  | ISingle x, ISingle y => mrep_eqb x y
  | IZ s, IZ t => list_eqb rank_eqb s t
  | _, _ => false
  end.
Definition entry_eqb (a b : N * nat) : bool := (fst a =? fst b)%N && (snd a =? snd b).
Definition proj_eqb (a b : proj) : bool :=
  match a, b with
  | PTuple m, PTuple m' | PRecord m, PRecord m' => list_eqb entry_eqb m m'
  | PSeq v, PSeq w | POpt v, POpt w => v =? w
  | _, _ => false
  end.
Definition constr_eqb (a b : constr) : bool :=
  match a, b with
  | CEquiv t, CEquiv u => utype_eqb t u
  | CElem s, CElem t => baseset_eqb s t
  | CProj p, CProj q => proj_eqb p q
  | CNum s, CNum t => intset_eqb s t
  | _, _ => false
  end.

(** ** Results *)

(** The outcome of an operation on the state: success, a type error, a panic, or
    the recursion going deeper than the fuel given. The state after an error is not
    modelled: inference stops. *)
Inductive ures (A : Type) := UOk (st : state) (a : A) | UErr | UPanic | UFuel.
Arguments UOk {A}. Arguments UErr {A}. Arguments UPanic {A}. Arguments UFuel {A}.

Definition ubind {A B} (r : ures A) (k : A -> state -> ures B) : ures B :=
  match r with UOk st a => k a st | UErr => UErr | UPanic => UPanic | UFuel => UFuel end.
Definition of_tc {A} (r : tcres A) (st : state) : ures A :=
  match r with TOk a => UOk st a | TErr => UErr | TPanic => UPanic end.
Definition of_opt {A} (r : option A) (st : state) : ures A :=
  match r with Some a => UOk st a | None => UPanic end.

Section Loops.
Context {A B C : Type}.
(** A loop over two lists in step that collects results. *)
Fixpoint map2U (f : A -> B -> state -> ures C) (la : list A) (lb : list B) (st : state) : ures (list C) :=
  match la, lb with
  | a :: la', b :: lb' =>
    ubind (f a b st) (fun c st1 => ubind (map2U f la' lb' st1) (fun cs st2 => UOk st2 (c :: cs)))
  | _, _ => UOk st []
  end.
(** A loop over a list with an accumulator. *)
Fixpoint foldU (f : B -> A -> state -> ures B) (acc : B) (l : list A) (st : state) : ures B :=
  match l with
  | [] => UOk st acc
  | a :: l' => ubind (f acc a st) (fun acc' st' => foldU f acc' l' st')
  end.
End Loops.

(** ** Access to the state *)

Definition get_cons (st : state) (i : nat) : option constrs := nth_error (cons st) i.
Definition get_als (st : state) (i : nat) : option alias := nth_error (als st) i.
Definition set_cons (i : nat) (c : constrs) (st : state) : state :=
  St (set_nth i c (cons st)) (als st) (vms st) (next_vm st) (again st).
Definition set_als (i : nat) (a : alias) (st : state) : state :=
  St (cons st) (set_nth i a (als st)) (vms st) (next_vm st) (again st).
Definition set_vms (m : list (nat * varmap)) (st : state) : state :=
  St (cons st) (als st) m (next_vm st) (again st).
(** Remember that a variable being unified was reached again (not in the code). *)
Definition note_again (b : bool) (st : state) : state :=
  St (cons st) (als st) (vms st) (next_vm st) (b || again st).
Definition mem_nat (i : nat) (l : list nat) : bool := existsb (Nat.eqb i) l.

(** src/typecheck.rs:3333-3338 [get_canonical_uvar] *)
Definition canonical (st : state) (v : nat) : option nat :=
  match get_als st v with
  | Some (BackRef i) => Some i
  | Some _ => Some v
  | None => None
  end.

(** src/typecheck.rs:760-765 [get_new_uvar] *)
Definition new_uvar (st : state) : state :=
  St (cons st ++ [Indefinite]) (als st ++ [Ground]) (vms st) (next_vm st) (again st).
(** src/typecheck.rs:717-730, [new] of [TypeChecker] *)
Definition empty_state : state := St [] [] [] 0 false.

(** ** Aliases *)

(** src/typecheck.rs:499-510 [add_forward_ref]; [None] is the panic. *)
Definition add_forward_ref (tgt : nat) (a : alias) : option alias :=
  match a with
  | Ground => Some (Canonical [tgt])
  | BackRef _ => None
  | Canonical fwd => Some (Canonical (if mem_nat tgt fwd then fwd else tgt :: fwd))
  end.
(** src/typecheck.rs:518-523 [iter_fwd_refs] *)
Definition fwd_refs (a : alias) : list nat := match a with Canonical l => l | _ => [] end.
(** src/typecheck.rs:526-531 [contains_fwd_ref] *)
Definition contains_fwd_ref (a : alias) (tgt : nat) : bool := mem_nat tgt (fwd_refs a).

(** src/typecheck.rs:3251-3254 [repoint] *)
Definition repoint (lo hi : nat) (st : state) : option state :=
  match get_als st hi with
  | None => None
  | Some _ =>
    let st1 := set_als hi (BackRef lo) st in
    match get_als st1 lo with
    | None => None
    | Some a => match add_forward_ref hi a with
                | Some a' => Some (set_als lo a' st1)
                | None => None
                end
    end
  end.

(** src/typecheck.rs:3226-3239 [recanonicalize], up to the call of
    [transfer_constraints]. *)
Section Recanonicalize.
Variable ho : hash_order.
Fixpoint repoint_all (a1 : nat) (l : list nat) (st : state) : option state :=
  match l with
  | [] => Some st
  | a :: l' =>
    match get_als st a1 with
    | None => None
    | Some x => if contains_fwd_ref x a then None
                else match repoint a1 a st with
                     | Some st' => repoint_all a1 l' st'
                     | None => None
                     end
    end
  end.
Definition recanonicalize (a1 a2 : nat) (st : state) : option state :=
  match get_als st a2 with
  | None => None
  | Some tmp =>
    match repoint_all a1 (shuffle ho (fwd_refs tmp)) (set_als a2 (BackRef a1) st) with
    | None => None
    | Some st1 =>
      match get_als st1 a1 with
      | None => None
      | Some a => match add_forward_ref a2 a with
                  | Some a' => Some (set_als a1 a' st1)
                  | None => None
                  end
      end
    end
  end.
End Recanonicalize.

(** src/typecheck.rs:3052-3210 [unify_var_pair], except for the transfer of the
    constraints: which pair of canonical variables is merged and how; [Done] when
    the two are aliases already. The debug assertions are panics. *)
Inductive merge := Done | Repoint (lo hi : nat) | Recanon (lo hi : nat) | MPanic.
Definition merge_of (st : state) (v1 v2 : nat) : merge :=
  if v1 =? v2 then match get_als st v1 with Some _ => Done | None => MPanic end
  else
    match get_als st v1, get_als st v2 with
    | Some x1, Some x2 =>
      let nonempty i := match get_als st i with Some (Canonical (_ :: _)) => true | _ => false end in
      let has i j := match get_als st i with Some a => contains_fwd_ref a j | None => false end in
      match x1, x2 with
      | Ground, Ground => if v1 <? v2 then Repoint v1 v2 else Repoint v2 v1
      | Ground, BackRef c =>
        if c <? v1 then Repoint c v1
        else if v1 <? c then (if nonempty c && negb (has c v1) then Recanon v1 c else MPanic)
        else MPanic
      | BackRef c, Ground =>
        if c <? v2 then Repoint c v2
        else if v2 <? c then (if nonempty c && negb (has c v2) then Recanon v2 c else MPanic)
        else MPanic
      | Ground, Canonical _ =>
        if v1 <? v2 then (if has v2 v1 then MPanic else Recanon v1 v2) else Repoint v2 v1
      | Canonical _, Ground =>
        if v2 <? v1 then (if has v1 v2 then MPanic else Recanon v2 v1) else Repoint v1 v2
      | BackRef i1, BackRef i2 =>
        if i1 <? i2 then Recanon i1 i2
        else if i2 <? i1 then Recanon i2 i1
        else if has i1 v1 && has i1 v2 then Done else MPanic
      | BackRef tgt, Canonical fwd =>
        match mem_nat v1 fwd, tgt =? v2 with
        | true, true => Done
        | false, false => if tgt <? v2 then Recanon tgt v2 else Recanon v2 tgt
        | _, _ => MPanic
        end
      | Canonical fwd, BackRef tgt =>
        match mem_nat v2 fwd, tgt =? v1 with
        | true, true => Done
        | false, false => if v1 <? tgt then Recanon v1 tgt else Recanon tgt v1
        | _, _ => MPanic
        end
      | Canonical _, Canonical _ => if v1 <? v2 then Recanon v1 v2 else Recanon v2 v1
      end
    | _, _ => MPanic
    end.

(** src/typecheck.rs:3349-3364 [is_aliased]; [None] is an index out of range. *)
Definition is_aliased (st : state) (v v1 : nat) : option bool :=
  if v =? v1 then Some true
  else match get_als st v, get_als st v1 with
       | Some a, Some a1 =>
         Some (match a, a1 with
               | Ground, _ | _, Ground => false
               | BackRef t1, BackRef t2 => t1 =? t2
               | BackRef t, Canonical _ => t =? v1
               | Canonical _, BackRef t => t =? v
               | Canonical _, Canonical _ => false
               end)
       | _, _ => None
       end.

(** ** Sets as constraints *)

(** src/typecheck/base_set.rs:78-86 [BaseSet::to_constraint] *)
Definition bs_constraint (s : baseset) : constr :=
  match s with
  | BSingle b => CEquiv (UBase b)
  | BU u => match uint_as_singleton u with Some b => CEquiv (UBase b) | None => CElem s end
  end.
(** src/typecheck/base_set.rs:167-175 [IntSet::to_constraint] *)
Definition is_constraint (s : intset) : constr :=
  match s with
  | ISingle p => CEquiv (UInt p)
  | IZ z => match prim_as_singleton z with Some p => CEquiv (UInt p) | None => CNum s end
  end.
Definition tc_map {A B} (f : A -> B) (r : tcres A) : tcres B :=
  match r with TOk a => TOk (f a) | TErr => TErr | TPanic => TPanic end.

(** src/typecheck.rs:1075-1086 [unify_primint_baseset] *)
Definition unify_primint_baseset (p : mrep) (bs : baseset) : tcres constr :=
  if bs_is_empty bs then TErr
  else match is_of_bs bs with
       | TOk ps => if is_contains ps p then TOk (CNum (ISingle p)) else TErr
       | TErr => TErr
       | TPanic => TPanic
       end.
(** src/typecheck.rs:1855-1862 [unify_primint_basetype] *)
Definition unify_primint_basetype (p : mrep) (b : basetype) : tcres utype :=
  match prim_of_base b with
  | Some p0 => if prim_eqb p p0 then TOk (UBase b) else TErr
  | None => TErr
  end.
(** src/typecheck.rs:2185-2206 [unify_baseset_intset], as built by default (the
    feature [__unify_mixed_to_int] off). *)
Definition unify_baseset_intset (b : baseset) (i : intset) : tcres constr :=
  if bs_is_empty b then TErr
  else if is_is_empty i then TErr
  else match bs_of_is i with
       | TOk other => tc_map CElem (bs_unify b other)
       | TErr => TErr
       | TPanic => TPanic
       end.
(** src/typecheck.rs:2209-2217 [unify_basetype_intset] *)
Definition unify_basetype_intset (b : basetype) (i : intset) : tcres constr :=
  match prim_of_base b with
  | None => TErr
  | Some p => match is_unify i (ISingle p) with
              | TOk r => if is_is_empty r then TErr else TOk (is_constraint r)
              | TErr => TErr
              | TPanic => TPanic
              end
  end.

(** src/typecheck.rs:634-639 [is_vacuous] *)
Definition is_vacuous (c : constr) : bool :=
  match c with CEquiv UHole | CEquiv UEmpty => true | _ => false end.

(** ** Occurs checks *)

(** src/typecheck.rs:1217-1281 [occurs_in_constraints] and [occurs_in]: success, an
    infinite type, a panic, or no end. *)
Section Occurs.
Variable ho : hash_order.
Section Each.
Context {A : Type} (f : A -> ures unit).
(** A loop that stops at the first error. *)
Fixpoint eachU (st : state) (l : list A) : ures unit :=
  match l with [] => UOk st tt | a :: l' => ubind (f a) (fun _ _ => eachU st l') end.
End Each.
Fixpoint occurs_in (n : nat) (st : state) (v : nat) (t : utype) {struct n} : ures unit :=
  match n with
  | O => UFuel
  | S n' =>
    match t with
    | UHole | UEmpty | UView | UInt _ | UBase _ => UOk st tt
    | UVar v1 =>
      match is_aliased st v v1 with
      | None => UPanic
      | Some true => UErr
      | Some false =>
        match canonical st v1 with
        | None => UPanic
        | Some c => match get_cons st c with
                    | None => UPanic
                    | Some cs => occurs_in_constraints n' st v cs
                    end
        end
      end
    | UTuple ts => eachU (occurs_in n' st v) st ts
    | URecord fs => eachU (fun p => occurs_in n' st v (snd p)) st fs
    | USeq t0 _ | UOption t0 | UPhantom t0 => occurs_in n' st v t0
    end
  end
with occurs_in_constraints (n : nat) (st : state) (v : nat) (cs : constrs) {struct n} : ures unit :=
  match n with
  | O => UFuel
  | S n' =>
    match cs with
    | Indefinite => UOk st tt
    | Variant id =>
      match vget id (vms st) with
      | None => UPanic
      | Some vm => eachU (fun p => occurs_in n' st v (snd p)) st (shuffle ho vm)
      end
    | Invariant (CElem _) | Invariant (CNum _) => UOk st tt
    | Invariant (CEquiv t) => occurs_in n' st v t
    | Invariant (CProj (PTuple m)) | Invariant (CProj (PRecord m)) =>
      eachU (fun p => occurs_in n' st v (UVar (snd p))) st m
    | Invariant (CProj (PSeq w)) | Invariant (CProj (POpt w)) => occurs_in n' st v (UVar w)
    end
  end.
(** src/typecheck.rs:1211-1213 [occurs] *)
Definition occurs (n : nat) (st : state) (v : nat) : ures unit :=
  match get_cons st v with
  | None => UPanic
  | Some cs => occurs_in_constraints n st v cs
  end.
End Occurs.

(** ** Unification *)

(** The two keys sets' union: [HashSet::union]. *)
Definition union_keys {A} (m1 m2 : list (N * A)) : list N :=
  map fst m1 ++ filter (fun k => match mget k m1 with Some _ => false | None => true end) (map fst m2).

(** src/typecheck.rs:1937-1948 and 1967-1978: one round of the merge of two maps of
    projections. *)
Definition merge_entry (pair : nat -> nat -> state -> ures unit) (m1 m2 : list (N * nat))
  (acc : list (N * nat)) (k : N) (st : state) : ures (list (N * nat)) :=
  match mget k m1, mget k m2 with
  | Some a, Some b => ubind (pair a b st) (fun _ st1 => UOk st1 (minsert k (Nat.min a b) acc))
  | Some a, None | None, Some a => UOk st (minsert k a acc)
  | None, None => UPanic
  end.

(** src/typecheck.rs:2031-2042 and 2061-2066: one round of the loop that unifies the
    projected variables with the components of a record or tuple type. *)
Definition field_entry (vu : nat -> utype -> state -> ures unit) (m : list (N * nat))
  (_ : unit) (f : N * utype) (st : state) : ures unit :=
  match mget (fst f) m with
  | Some v => vu v (snd f) st
  | None => UOk st tt
  end.
(** [keys_ut.is_superset(&keys_p)] *)
Definition covers (m : list (N * nat)) (fs : list (N * utype)) : bool :=
  forallb (fun p => existsb (fun f => (fst p =? fst f)%N) fs) m.
(** The components of a tuple under their positions. *)
Definition indexed (ts : list utype) : list (N * utype) :=
  map (fun p => (N.of_nat (fst p), snd p)) (enumerate 0 ts).

Section Unify.
Variable ho : hash_order.

(** [busy] lists the canonical variables whose constraints are being unified; the
    code has no such list, it only serves to set [again]. *)
Fixpoint unify_utype (n : nat) (busy : list nat) (l r : utype) (st : state) {struct n} : ures utype :=
  (** src/typecheck.rs:1632-1741 [unify_utype] *)
  match n with
  | O => UFuel
  | S n' =>
    match l, r with
    | UHole, UHole => UOk st l
    | UHole, _ => UOk st r
    | _, UHole => UOk st l
    | UEmpty, _ => UOk st r
    | _, UEmpty => UOk st l
    | UView, UView => UOk st l
    | USeq e1 h1, USeq e2 h2 =>
      if utype_eqb e1 e2 then (if h1 <=? h2 then UOk st l else UOk st r)
      else ubind (unify_utype n' busy e1 e2 st) (fun e st1 => UOk st1 (USeq e (Nat.min h1 h2)))
    | UOption o1, UOption o2 =>
      if utype_eqb o1 o2 then UOk st l
      else ubind (unify_utype n' busy o1 o2 st) (fun o st1 => UOk st1 (UOption o))
    | UPhantom p1, UPhantom p2 =>
      if utype_eqb p1 p2 then UOk st l
      else ubind (unify_utype n' busy p1 p2 st) (fun p st1 => UOk st1 (UPhantom p))
    | UBase b1, UBase b2 => if basetype_eqb b1 b2 then UOk st l else UErr
    | UTuple ts1, UTuple ts2 =>
      if negb (length ts1 =? length ts2) then UErr
      else if list_eqb utype_eqb ts1 ts2 then UOk st l
      else ubind (map2U (unify_utype n' busy) ts1 ts2 st) (fun ts st1 => UOk st1 (UTuple ts))
    | URecord fs1, URecord fs2 =>
      if negb (length fs1 =? length fs2) then UErr
      else if utype_eqb l r then UOk st l
      else ubind (map2U (fun f1 f2 st0 =>
                    if (fst f1 =? fst f2)%N
                    then ubind (unify_utype n' busy (snd f1) (snd f2) st0) (fun t st1 => UOk st1 (fst f1, t))
                    else UErr) fs1 fs2 st) (fun fs st1 => UOk st1 (URecord fs))
    | UVar v1, UVar v2 =>
      ubind (unify_var_pair n' busy v1 v2 st) (fun _ st1 => UOk st1 (UVar (Nat.min v1 v2)))
    | UInt p1, UInt p2 => if mrep_eqb p1 p2 then UOk st l else UErr
    | UInt p, UBase b | UBase b, UInt p => of_tc (unify_primint_basetype p b) st
    | UVar v, t | t, UVar v =>
      ubind (unify_var_constraint n' busy v (CEquiv t) st) (fun _ st1 =>
      ubind (occurs ho n' st1 v) (fun _ _ => UOk st1 (UVar v)))
    | _, _ => UErr
    end
  end
with unify_var_constraint (n : nat) (busy : list nat) (v : nat) (c : constr) (st : state) {struct n} : ures constr :=
  (** src/typecheck.rs:1385-1417 [unify_var_constraint] *)
  match n with
  | O => UFuel
  | S n' =>
    match canonical st v with
    | None => UPanic
    | Some can =>
      match get_cons st can with
      | None => UPanic
      | Some Indefinite =>
        UOk (note_again (mem_nat can busy) (set_cons can (Invariant c) st)) c
      | Some (Variant _) => UErr
      | Some (Invariant c1) =>
        if constr_eqb c1 c then UOk (note_again (mem_nat can busy) st) c1
        else ubind (unify_constraint_pair n' (can :: busy) c1 c st) (fun ret st1 =>
             UOk (note_again (mem_nat can busy) (set_cons can (Invariant ret) st1)) ret)
      end
    end
  end
with unify_constraint_pair (n : nat) (busy : list nat) (c1 c2 : constr) (st : state) {struct n} : ures constr :=
  (** src/typecheck.rs:1911-2145 [unify_constraint_pair], with
      [unify_utype_baseset] (1775-1793) and [unify_utype_intset] (1809-1825)
      inlined. *)
  match n with
  | O => UFuel
  | S n' =>
    match c1, c2 with
    | CEquiv t1, CEquiv t2 =>
      if utype_eqb t1 t2 then UOk st c1
      else ubind (unify_utype n' busy t1 t2 st) (fun t0 st1 => UOk st1 (CEquiv t0))
    | CElem b1, CElem b2 => of_tc (tc_map bs_constraint (bs_unify b1 b2)) st
    | CProj p1, CProj p2 =>
      match p1, p2 with
      | PTuple m1, PTuple m2 =>
        if list_eqb entry_eqb m1 m2 then UOk st c1
        else ubind (foldU (merge_entry (unify_var_pair n' busy) m1 m2) [] (shuffle ho (union_keys m1 m2)) st)
                   (fun m st1 => UOk st1 (CProj (PTuple m)))
      | PRecord m1, PRecord m2 =>
        if list_eqb entry_eqb m1 m2 then UOk st c1
        else ubind (foldU (merge_entry (unify_var_pair n' busy) m1 m2) [] (shuffle ho (union_keys m1 m2)) st)
                   (fun m st1 => UOk st1 (CProj (PRecord m)))
      | PSeq v1, PSeq v2 => ubind (unify_var_pair n' busy v1 v2 st) (fun _ st1 => UOk st1 (CProj (PSeq v1)))
      | POpt v1, POpt v2 => ubind (unify_var_pair n' busy v1 v2 st) (fun _ st1 => UOk st1 (CProj (POpt v1)))
      | _, _ => UErr
      end
    | CEquiv t, CElem bs | CElem bs, CEquiv t =>
      match t with
      | UVar v => unify_var_constraint n' busy v (bs_constraint bs) st
      | UInt p => of_tc (unify_primint_baseset p bs) st
      | UBase b => of_tc (tc_map bs_constraint (bs_unify bs (BSingle b))) st
      | UHole => UOk st (bs_constraint bs)
      | _ => UErr
      end
    | CProj p, CEquiv t | CEquiv t, CProj p =>
      match p, t with
      | _, UVar v => unify_var_constraint n' busy v (CProj p) st
      | PRecord m, URecord fs =>
        ubind (foldU (field_entry (unify_var_utype n' busy) m) tt fs st) (fun _ st1 =>
        if covers m fs then UOk st1 (CEquiv t) else UErr)
      | PTuple m, UTuple ts =>
        ubind (foldU (field_entry (unify_var_utype n' busy) m) tt (indexed ts) st) (fun _ st1 =>
        if covers m (indexed ts) then UOk st1 (CEquiv t) else UErr)
      | PSeq v, USeq t0 _ => ubind (unify_var_utype n' busy v t0 st) (fun _ st1 => UOk st1 (CEquiv t))
      | POpt v, UOption t0 => ubind (unify_var_utype n' busy v t0 st) (fun _ st1 => UOk st1 (CEquiv t))
      | _, _ => UPanic
      end
    | CElem _, CProj _ | CNum _, CProj _ | CProj _, CElem _ | CProj _, CNum _ => UErr
    | CNum i1, CNum i2 =>
      if intset_eqb i1 i2 then UOk st c1 else of_tc (tc_map CNum (is_unify i1 i2)) st
    | CEquiv t, CNum i | CNum i, CEquiv t =>
      match t with
      | UVar v => unify_var_constraint n' busy v (is_constraint i) st
      | UInt p => of_tc (tc_map is_constraint (is_unify i (ISingle p))) st
      | UBase b => of_tc (unify_basetype_intset b i) st
      | UHole => UOk st (is_constraint i)
      | _ => UErr
      end
    | CElem b, CNum i | CNum i, CElem b => of_tc (unify_baseset_intset b i) st
    end
  end
with unify_var_utype (n : nat) (busy : list nat) (v : nat) (t : utype) (st : state) {struct n} : ures unit :=
  (** src/typecheck.rs:1744-1756 [unify_var_utype] *)
  match n with
  | O => UFuel
  | S n' =>
    match t with
    | UVar v2 => unify_var_pair n' busy v v2 st
    | _ => ubind (unify_var_constraint n' busy v (CEquiv t) st) (fun _ st1 => UOk st1 tt)
    end
  end
with unify_var_pair (n : nat) (busy : list nat) (v1 v2 : nat) (st : state) {struct n} : ures unit :=
  (** src/typecheck.rs:3052-3210 [unify_var_pair] *)
  match n with
  | O => UFuel
  | S n' =>
    match merge_of st v1 v2 with
    | Done => UOk st tt
    | MPanic => UPanic
    | Repoint lo hi =>
      match repoint lo hi st with
      | None => UPanic
      | Some st1 => transfer_constraints n' busy lo hi (note_again (mem_nat lo busy || mem_nat hi busy) st1)
      end
    | Recanon lo hi =>
      match recanonicalize ho lo hi st with
      | None => UPanic
      | Some st1 => transfer_constraints n' busy lo hi (note_again (mem_nat lo busy || mem_nat hi busy) st1)
      end
    end
  end
with transfer_constraints (n : nat) (busy : list nat) (a1 a2 : nat) (st : state) {struct n} : ures unit :=
  (** src/typecheck.rs:3262-3315 [transfer_constraints] *)
  match n with
  | O => UFuel
  | S n' =>
    if a1 =? a2 then UOk st tt
    else
      match get_cons st a1, get_cons st a2 with
      | Some Indefinite, Some Indefinite => UOk st tt
      | Some Indefinite, Some c2 => UOk (set_cons a1 c2 st) tt
      | Some c1, Some Indefinite => UOk (set_cons a2 c1 st) tt
      | Some (Variant id1), Some (Variant id2) => unify_varmaps n' busy a1 id1 a2 id2 st
      | Some (Variant _), Some (Invariant c) => if is_vacuous c then UOk st tt else UErr
      | Some (Invariant c), Some (Variant _) => if is_vacuous c then UOk st tt else UErr
      | Some (Invariant c1), Some (Invariant c2) =>
        ubind (unify_constraint_pair n' (a1 :: busy) c1 c2 st) (fun c0 st1 =>
        UOk (set_cons a2 (Invariant c0) (set_cons a1 (Invariant c0) st1)) tt)
      | _, _ => UPanic
      end
  end
with unify_varmaps (n : nat) (busy : list nat) (v1 id1 v2 id2 : nat) (st : state) {struct n} : ures unit :=
  (** src/typecheck.rs:2147-2182 [unify_varmaps], with [repoint_vmid]
      (1623-1630). *)
  match n with
  | O => UFuel
  | S n' =>
    if id1 =? id2 then UOk st tt
    else
      let lo := Nat.min id1 id2 in
      let hi := Nat.max id1 id2 in
      match vget hi (vms st) with
      | None => UPanic
      | Some vm_hi =>
        ubind (foldU (fun _ e st0 =>
                 match vget lo (vms st0) with
                 | None => UPanic
                 | Some vm_lo =>
                   match mget (fst e) vm_lo with
                   | Some t_lo =>
                     ubind (unify_utype n' (v1 :: busy) t_lo (snd e) st0) (fun t st1 =>
                     match vget lo (vms st1) with
                     | None => UPanic
                     | Some vm => UOk (set_vms (vset lo (minsert (fst e) t vm) (vms st1)) st1) tt
                     end)
                   | None => UOk (set_vms (vset lo (minsert (fst e) (snd e) vm_lo) (vms st0)) st0) tt
                   end
                 end) tt (shuffle ho vm_hi) (set_vms (vset hi [] (vms st)) st)) (fun _ st1 =>
        match vget hi (vms st1) with
        | None => UPanic
        | Some _ =>
          let st2 := set_vms (vremove hi (vms st1)) st1 in
          match get_cons st2 v1, get_cons st2 v2 with
          | Some (Variant _), Some (Variant _) =>
            UOk (set_cons v2 (Variant lo) (set_cons v1 (Variant lo) st2)) tt
          | _, _ => UPanic
          end
        end)
      end
  end.

(** ** Operations of inference on a variable *)

(** src/typecheck.rs:1837-1841 [unify_var_baseset] and 1827-1831 [unify_var_intset] *)
Definition unify_var_baseset (n : nat) (v : nat) (bs : baseset) (st : state) : ures constr :=
  unify_var_constraint n [] v (bs_constraint bs) st.
Definition unify_var_intset (n : nat) (v : nat) (is : intset) (st : state) : ures constr :=
  unify_var_constraint n [] v (is_constraint is) st.

Section Proj.
(** src/typecheck.rs:1421-1457 [unify_var_proj_index], 1461-1512
    [unify_var_proj_field], 1516-1557 [unify_var_proj_param] and 1561-1597
    [unify_var_proj_elem]. *)
Variable n : nat.
Definition unify_var_proj_index (tv ix iv : nat) (st : state) : ures unit :=
  match canonical st tv with
  | None => UPanic
  | Some can =>
    match get_cons st can with
    | Some Indefinite =>
      ubind (unify_var_constraint n [] tv (CProj (PTuple [(N.of_nat ix, iv)])) st) (fun _ st1 => UOk st1 tt)
    | Some (Invariant (CEquiv (UTuple ts))) =>
      match nth_error ts ix with
      | None => UPanic
      | Some t => unify_var_utype n [] iv t st
      end
    | Some (Invariant (CProj (PTuple m))) =>
      match mget (N.of_nat ix) m with
      | Some other => unify_var_pair n [] iv other st
      | None => UOk (set_cons can (Invariant (CProj (PTuple (minsert (N.of_nat ix) iv m)))) st) tt
      end
    | _ => UPanic
    end
  end.
Definition find_field (f : label) (fs : list (label * utype)) : option utype := mget f fs.
Fixpoint unify_var_proj_field (k : nat) (rv : nat) (f : label) (fv : nat) (st : state) : ures unit :=
  match k with
  | O => UFuel
  | S k' =>
    match canonical st rv with
    | None => UPanic
    | Some can =>
      match get_cons st can with
      | Some Indefinite =>
        ubind (unify_var_constraint n [] rv (CProj (PRecord [(f, fv)])) st) (fun _ st1 => UOk st1 tt)
      | Some (Invariant (CEquiv (URecord fs))) =>
        match find_field f fs with
        | None => UPanic
        | Some t => unify_var_utype n [] fv t st
        end
      | Some (Invariant (CEquiv (UVar v))) => unify_var_proj_field k' v f fv st
      | Some (Invariant (CProj (PRecord m))) =>
        match mget f m with
        | Some other => unify_var_pair n [] fv other st
        | None => UOk (set_cons can (Invariant (CProj (PRecord (minsert f fv m)))) st) tt
        end
      | _ => UPanic
      end
    end
  end.
Definition unify_var_proj_param (ov pv : nat) (st : state) : ures unit :=
  match canonical st ov with
  | None => UPanic
  | Some can =>
    match get_cons st can with
    | Some Indefinite =>
      ubind (unify_var_constraint n [] ov (CProj (POpt pv)) st) (fun _ st1 => UOk st1 tt)
    | Some (Invariant (CEquiv (UOption t))) => unify_var_utype n [] pv t st
    | Some (Invariant (CProj (POpt other))) => unify_var_pair n [] pv other st
    | _ => UPanic
    end
  end.
Definition unify_var_proj_elem (sv ev : nat) (st : state) : ures unit :=
  match canonical st sv with
  | None => UPanic
  | Some can =>
    match get_cons st can with
    | Some Indefinite =>
      ubind (unify_var_constraint n [] sv (CProj (PSeq ev)) st) (fun _ st1 => UOk st1 tt)
    | Some (Invariant (CEquiv (USeq t _))) => unify_var_utype n [] ev t st
    | Some (Invariant (CProj (PSeq other))) => unify_var_pair n [] ev other st
    | _ => UPanic
    end
  end.

(** src/typecheck.rs:1330-1373 [set_uvar_vmid]. The debug assertion, that the new
    map has the variants of the old one, is a panic. *)
Definition set_uvar_vmid (v id : nat) (st : state) : ures unit :=
  match vget id (vms st) with
  | None => UPanic
  | Some new_vm =>
    match get_cons st v with
    | None => UPanic
    | Some (Variant old) =>
      let ok := match vget old (vms st) with
                | None => true
                | Some old_vm => forallb (fun p => match mget (fst p) new_vm with Some _ => true | None => false end) old_vm
                end in
      if ok then UOk (set_cons v (Variant id) st) tt else UPanic
    | Some (Invariant _) => UErr
    | Some Indefinite => UOk (set_cons v (Variant id) st) tt
    end
  end.
(** src/typecheck.rs:1291-1328 [add_uvar_variant] *)
Definition add_uvar_variant (v : nat) (cname : label) (inner : utype) (st : state) : ures unit :=
  match canonical st v with
  | None => UPanic
  | Some cv =>
    match get_cons st cv with
    | None => UPanic
    | Some Indefinite =>
      let id := next_vm st in
      let st1 := St (cons st) (als st) (vset id [(cname, inner)] (vms st)) (S id) (again st) in
      ubind (set_uvar_vmid cv id st1) (fun _ st2 =>
      match get_als st2 cv with
      | None => UPanic
      | Some a => foldU (fun _ ix st3 => set_uvar_vmid ix id st3) tt (shuffle ho (fwd_refs a)) st2
      end)
    | Some (Variant id) =>
      match vget id (vms st) with
      | None => UPanic
      | Some vm =>
        match mget cname vm with
        | Some prior =>
          ubind (unify_utype n [cv] prior inner st) (fun t st1 =>
          match vget id (vms st1) with
          | None => UPanic
          | Some vm1 =>
            match mget cname vm1 with
            | None => UPanic
            | Some t1 => if utype_eqb t t1 then UOk st1 tt
                         else UOk (set_vms (vset id (minsert cname t vm1) (vms st1)) st1) tt
            end
          end)
        | None => UOk (set_vms (vset id (minsert cname inner vm) (vms st)) st) tt
        end
      end
    | Some (Invariant _) => UPanic
    end
  end.
End Proj.

(** ** Histories *)

(** What inference asks of the engine. *)
Inductive request :=
| RNew
| RPair (v1 v2 : nat)
| RType (v : nat) (t : utype)
| RTypes (t1 t2 : utype)
| RBaseset (v : nat) (bs : baseset)
| RIntset (v : nat) (is : intset)
| RVariant (v : nat) (l : label) (t : utype)
| RIndex (v : nat) (ix : nat) (w : nat)
| RField (v : nat) (f : label) (w : nat)
| RElem (v w : nat)
| RParam (v w : nat).

Definition perform (n : nat) (r : request) (st : state) : ures unit :=
  let drop {A} (x : ures A) := ubind x (fun _ st1 => UOk st1 tt) in
  match r with
  | RNew => UOk (new_uvar st) tt
  | RPair v1 v2 => unify_var_pair n [] v1 v2 st
  | RType v t => unify_var_utype n [] v t st
  | RTypes t1 t2 => drop (unify_utype n [] t1 t2 st)
  | RBaseset v bs => drop (unify_var_baseset n v bs st)
  | RIntset v is => drop (unify_var_intset n v is st)
  | RVariant v l t => add_uvar_variant n v l t st
  | RIndex v ix w => unify_var_proj_index n v ix w st
  | RField v f w => unify_var_proj_field n n v f w st
  | RElem v w => unify_var_proj_elem n v w st
  | RParam v w => unify_var_proj_param n v w st
  end.
Definition perform_all (n : nat) (rs : list request) (st : state) : ures unit :=
  foldU (fun _ r st0 => perform n r st0) tt rs st.
End Unify.
