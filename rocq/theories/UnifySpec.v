(** What the unification engine's types, constraints and requests say of the types
    that are assigned to meta-variables. *)
From Verif Require Import Base BoundsModel NumericModel ValueModel BaseSetModel BaseSetSpec UnifyModel.
Open Scope nat_scope.

(** Types without variables. *)
Inductive gtype :=
| GInt (p : mrep) | GBool | GChar | GView
| GTuple (gs : list gtype)
| GRecord (fs : list (label * gtype))
| GUnion (bs : list (label * gtype))
| GSeq (g : gtype) | GOption (g : gtype) | GPhantom (g : gtype).

(** An assignment of types to the meta-variables. *)
Definition assignment := nat -> gtype.

Definition ground_base (b : basetype) : gtype :=
  match b with TBool => GBool | TU w => GInt (MR false w) | TChar => GChar end.

Section Assigned.
Variable s : assignment.

(** [fits t g]: under the assignment, [t] can be the type [g]. The unknown type and
    the type without values fit every type; hints about sequences say nothing of
    the type. *)
Fixpoint fits (t : utype) (g : gtype) {struct t} : Prop :=
  match t with
  | UHole | UEmpty => True
  | UView => g = GView
  | UVar v => s v = g
  | UBase b => g = ground_base b
  | UInt p => g = GInt p
  | UTuple ts => exists gs, g = GTuple gs /\
      (fix go (ts : list utype) (gs : list gtype) : Prop :=
         match ts, gs with
         | [], [] => True
         | t :: ts', g :: gs' => fits t g /\ go ts' gs'
         | _, _ => False
         end) ts gs
  | URecord fs => exists gs, g = GRecord gs /\
      (fix go (fs : list (label * utype)) (gs : list (label * gtype)) : Prop :=
         match fs, gs with
         | [], [] => True
         | (l, t) :: fs', (k, g) :: gs' => l = k /\ fits t g /\ go fs' gs'
         | _, _ => False
         end) fs gs
  | USeq t _ => exists g0, g = GSeq g0 /\ fits t g0
  | UOption t => exists g0, g = GOption g0 /\ fits t g0
  | UPhantom t => exists g0, g = GPhantom g0 /\ fits t g0
  end.

(** A type with the projections of a shape. *)
Definition has_shape (p : proj) (g : gtype) : Prop :=
  match p with
  | PTuple m => exists gs, g = GTuple gs /\
      forall k v, mget k m = Some v -> nth_error gs (N.to_nat k) = Some (s v)
  | PRecord m => exists fs, g = GRecord fs /\ forall k v, mget k m = Some v -> mget k fs = Some (s v)
  | PSeq v => g = GSeq (s v)
  | POpt v => g = GOption (s v)
  end.

(** A type that is as a constraint says. *)
Definition obeys (c : constr) (g : gtype) : Prop :=
  match c with
  | CEquiv t => fits t g
  | CElem bs => exists b, in_bs bs b /\ g = ground_base b
  | CNum is => exists p, in_is is p /\ g = GInt p
  | CProj p => has_shape p g
  end.

(** A union that has the variants listed. *)
Definition has_variants (vm : varmap) (g : gtype) : Prop :=
  exists bs, g = GUnion bs /\
    forall l t, In (l, t) vm -> exists g0, mget l bs = Some g0 /\ fits t g0.

(** The assignment is one that a state of the engine describes: aliases have the
    same type, and that type is as the constraint of their canonical variable
    says. *)
Definition allowed (st : state) (cs : constrs) (g : gtype) : Prop :=
  match cs with
  | Indefinite => True
  | Variant id => exists vm, vget id (vms st) = Some vm /\ has_variants vm g
  | Invariant c => obeys c g
  end.
Definition solves (st : state) : Prop :=
  (forall v c, canonical st v = Some c -> s v = s c) /\
  (forall v cs, canonical st v = Some v -> get_cons st v = Some cs -> allowed st cs (s v)).

(** What each request asks of the assignment. *)
Definition meets (r : request) : Prop :=
  match r with
  | RNew => True
  | RPair v1 v2 => s v1 = s v2
  | RType v t => fits t (s v)
  | RTypes t1 t2 => exists g, fits t1 g /\ fits t2 g
  | RBaseset v bs => exists b, in_bs bs b /\ s v = ground_base b
  | RIntset v is => exists p, in_is is p /\ s v = GInt p
  | RVariant v l t => exists bs g, s v = GUnion bs /\ mget l bs = Some g /\ fits t g
  | RIndex v ix w => exists gs, s v = GTuple gs /\ nth_error gs ix = Some (s w)
  | RField v f w => exists fs, s v = GRecord fs /\ mget f fs = Some (s w)
  | RElem v w => s v = GSeq (s w)
  | RParam v w => s v = GOption (s w)
  end.
End Assigned.

(** Types without unknown or empty parts, with distinct field names and only
    variables below [n]. *)
Fixpoint proper (n : nat) (t : utype) {struct t} : Prop :=
  match t with
  | UHole | UEmpty => False
  | UView | UBase _ | UInt _ => True
  | UVar v => v < n
  | UTuple ts =>
      (fix go (ts : list utype) : Prop := match ts with [] => True | t :: ts' => proper n t /\ go ts' end) ts
  | URecord fs => NoDup (map fst fs) /\
      (fix go (fs : list (label * utype)) : Prop :=
         match fs with [] => True | (_, t) :: fs' => proper n t /\ go fs' end) fs
  | USeq t _ | UOption t | UPhantom t => proper n t
  end.

(** Requests that only speak of the [n] variables there are, with such types and
    well-formed sets. *)
Definition proper_request (n : nat) (r : request) : Prop :=
  match r with
  | RNew => True
  | RPair v w | RIndex v _ w | RField v _ w | RElem v w | RParam v w => v < n /\ w < n
  | RType v t | RVariant v _ t => v < n /\ proper n t
  | RTypes t1 t2 => proper n t1 /\ proper n t2
  | RBaseset v bs => v < n /\ bs_ok bs
  | RIntset v is => v < n /\ is_ok is
  end.
(** A history of such requests, from a number of variables. *)
Fixpoint proper_history (n : nat) (rs : list request) : Prop :=
  match rs with
  | [] => True
  | r :: rs' => proper_request n r /\ proper_history (match r with RNew => S n | _ => n end) rs'
  end.
