(** Model of src/typecheck/inference.rs: the inference of the machine types of a
    numeric expression, whose outcome the elaborator (src/numeric/elaborator.rs) reads.
    The table of aliases, [repoint] and [recanonicalize] are those of UnifyModel: the
    code is the same (src/typecheck.rs:459-532 is shared, and inference.rs:266-269 and
    489-501 repeat src/typecheck.rs:3251-3254 and 3226-3239). *)
From Verif Require Import Base BoundsModel NumericModel ValueModel BaseSetModel UnifyModel NumCodeModel.
Open Scope nat_scope.

(** ** Constraints *)

(** src/typecheck/inference.rs:115-119 [enum Constraint]. Simplified: [Equiv] is only
    ever made of an integer type (203-208 and 571-577 are the only places that make
    one), never of a variable, so that the cases of 503-539 [unify_utype] for variables
    are left out. *)
Inductive ncon := NEquiv (t : mrep) | NEncomp (b : zbounds).
(** src/typecheck/inference.rs:36-41 [enum Constraints] *)
Inductive ncons := NIndef | NInv (c : ncon).
(** [derive(PartialEq)] *)
Definition ncon_eqb (a b : ncon) : bool :=
  match a, b with
  | NEquiv x, NEquiv y => mrep_eqb x y
  | NEncomp x, NEncomp y => ((zmin x =? zmin y) && (zmax x =? zmax y))%Z
  | _, _ => false
  end.
(** src/typecheck/inference.rs:144-158 [is_satisfied_by], which always knows the answer
    of these constraints *)
Definition satisfied_by (c : ncon) (t : mrep) : outcome bool :=
  match c with
  | NEquiv x => Val (mrep_eqb x t)
  | NEncomp b => zb_is_encompassed_by b (as_bounds t)
  end.
(** src/typecheck/inference.rs:161-183 [get_unique_solution]; the errors are [None] *)
Definition unique_solution (c : ncon) : outcome (option mrep) :=
  omap (fun l => match l with [u] => Some u | _ => None end)
       (ofoldM (fun acc p => omap (fun ok : bool => if ok then acc ++ [p] else acc) (satisfied_by c p)) [] prim_ints).

(** src/typecheck/inference.rs:541-563 [unify_utype_bounds], for an integer type *)
Definition unify_int_bounds (t : mrep) (b : zbounds) : tcres ncon :=
  match zb_is_encompassed_by b (as_bounds t) with
  | Val true => TOk (NEquiv t)
  | Val false => TErr
  | Panic => TPanic
  end.
(** src/typecheck/inference.rs:583-606 [unify_constraint_pair], with 530-537 of
    [unify_utype] *)
Definition ncon_unify (c1 c2 : ncon) : tcres ncon :=
  match c1, c2 with
  | NEquiv a, NEquiv b => if mrep_eqb a b then TOk (NEquiv a) else TErr
  | NEquiv a, NEncomp b | NEncomp b, NEquiv a => unify_int_bounds a b
  | NEncomp a, NEncomp b => match zb_unify a b with Val c => TOk (NEncomp c) | Panic => TPanic end
  end.

(** ** The engine *)

(** src/typecheck/inference.rs:188-193 [struct InferenceEngine]; of the [state] of
    UnifyModel only the aliases are used. *)
Record engine := Eng { ecs : list ncons; eal : state }.
(** src/typecheck/inference.rs:196-202 [new] *)
Definition engine0 : engine := Eng [] empty_state.
(** src/typecheck/inference.rs:210-215 [get_new_nvar]: the new variable is the number
    of variables so far. *)
Definition new_nvar (st : engine) : engine := Eng (ecs st ++ [NIndef]) (new_uvar (eal st)).

(** An operation's outcome; the engine after an error is not modelled. *)
Inductive eres (A : Type) := EOk (st : engine) (a : A) | EErr | EPanic.
Arguments EOk {A}. Arguments EErr {A}. Arguments EPanic {A}.
Definition ebind {A B} (r : eres A) (k : A -> engine -> eres B) : eres B :=
  match r with EOk st a => k a st | EErr => EErr | EPanic => EPanic end.

Definition set_ecs (i : nat) (c : ncons) (st : engine) : engine := Eng (set_nth i c (ecs st)) (eal st).

(** src/typecheck/inference.rs:233-256 [unify_var_constraint] *)
Definition constrain (v : nat) (c : ncon) (st : engine) : eres unit :=
  match canonical (eal st) v with
  | None => EPanic
  | Some i =>
    match nth_error (ecs st) i with
    | None => EPanic
    | Some NIndef => EOk (set_ecs i (NInv c) st) tt
    | Some (NInv prior) =>
      if ncon_eqb prior c then EOk st tt
      else match ncon_unify prior c with
           | TOk c0 => EOk (set_ecs i (NInv c0) st) tt
           | TErr => EErr
           | TPanic => EPanic
           end
    end
  end.
(** src/typecheck/inference.rs:571-577 [unify_var_rep], 566-569 [unify_var_utype] *)
Definition constrain_rep (v : nat) (r : numrep) (st : engine) : eres unit :=
  match r with Auto => EOk st tt | Concrete t => constrain v (NEquiv t) st end.

(** src/typecheck/inference.rs:281-302 [transfer_constraints] *)
Definition transfer (a1 a2 : nat) (st : engine) : eres unit :=
  if a1 =? a2 then EOk st tt
  else
    match nth_error (ecs st) a1, nth_error (ecs st) a2 with
    | Some NIndef, Some NIndef => EOk st tt
    | Some NIndef, Some c => EOk (set_ecs a1 c st) tt
    | Some c, Some NIndef => EOk (set_ecs a2 c st) tt
    | Some (NInv c1), Some (NInv c2) =>
      match ncon_unify c1 c2 with
      | TOk c0 => EOk (set_ecs a2 (NInv c0) (set_ecs a1 (NInv c0) st)) tt
      | TErr => EErr
      | TPanic => EPanic
      end
    | _, _ => EPanic
    end.

(** src/typecheck/inference.rs:324-487 [unify_var_pair], except for the transfer of the
    constraints. It differs from src/typecheck.rs:3052-3210 in one debug assertion
    (353-356): that [v2] is not among the variables that refer to the canonical one,
    where the other has [v1]. *)
Definition nmerge_of (st : state) (v1 v2 : nat) : merge :=
  match get_als st v1, get_als st v2 with
  | Some Ground, Some (BackRef c) =>
    if (v1 =? v2) || negb (v1 <? c) then merge_of st v1 v2
    else match get_als st c with
         | Some (Canonical (x :: fwd)) => if mem_nat v2 (x :: fwd) then MPanic else Recanon v1 c
         | _ => MPanic
         end
  | _, _ => merge_of st v1 v2
  end.

Section Engine.
Variable ho : hash_order.

Definition unite (v1 v2 : nat) (st : engine) : eres unit :=
  match nmerge_of (eal st) v1 v2 with
  | Done => EOk st tt
  | MPanic => EPanic
  | Repoint lo hi =>
    match repoint lo hi (eal st) with
    | None => EPanic
    | Some al => transfer lo hi (Eng (ecs st) al)
    end
  | Recanon lo hi =>
    match recanonicalize ho lo hi (eal st) with
    | None => EPanic
    | Some al => transfer lo hi (Eng (ecs st) al)
    end
  end.

(** src/typecheck/inference.rs:610-760 [infer_var_expr]: the variable and the
    representation of the expression *)
Fixpoint infer_num (e : nexpr) (st : engine) : eres (nat * numrep) :=
  match e with
  | NVar _ => EErr
  | NConst c =>
    let v := length (ecs st) in
    match tc_rep c with
    | Auto => ebind (constrain v (NEncomp (ZB (tc_val c) (tc_val c))) (new_nvar st)) (fun _ st => EOk st (v, Auto))
    | Concrete r => ebind (constrain v (NEquiv r) (new_nvar st)) (fun _ st => EOk st (v, Concrete r))
    end
  | NBin _ cast a b =>
    let v := length (ecs st) in
    ebind (infer_num a (new_nvar st)) (fun x st =>
    ebind (infer_num b st) (fun y st =>
    let (lv, lr) := x in
    let (rv, rr) := y in
    match lr, rr with
    | Auto, Auto =>
      ebind (unite v lv st) (fun _ st =>
      ebind (unite v rv st) (fun _ st =>
      match cast with
      | Some r => ebind (constrain_rep v (Concrete r) st) (fun _ st => EOk st (v, Concrete r))
      | None => EOk st (v, Auto)
      end))
    | _, _ =>
      if numrep_eqb lr rr then
        match cast with
        | Some r => ebind (constrain_rep v (Concrete r) st) (fun _ st => EOk st (v, Concrete r))
        | None => ebind (constrain_rep v lr st) (fun _ st => EOk st (v, lr))
        end
      else
        match cast with
        | Some r =>
          ebind (constrain_rep v (Concrete r) st) (fun _ st =>
          ebind (match lr with Auto => unite v lv st | _ => EOk st tt end) (fun _ st =>
          ebind (match rr with Auto => unite v rv st | _ => EOk st tt end) (fun _ st =>
          EOk st (v, Concrete r))))
        | None =>
          match lr, rr with
          | Auto, _ =>
            ebind (constrain_rep v rr st) (fun _ st =>
            ebind (constrain_rep lv rr st) (fun _ st => EOk st (v, rr)))
          | _, Auto =>
            ebind (constrain_rep v lr st) (fun _ st =>
            ebind (constrain_rep rv lr st) (fun _ st => EOk st (v, lr)))
          | _, _ => EErr
          end
        end
    end))
  | NUn _ cast a =>
    let v := length (ecs st) in
    ebind (infer_num a (new_nvar st)) (fun x st =>
    let (iv, ir) := x in
    match ir with
    | Auto =>
      ebind (unite v iv st) (fun _ st =>
      match cast with
      | Some r => ebind (constrain_rep v (Concrete r) st) (fun _ st => EOk st (v, Concrete r))
      | None => EOk st (v, Auto)
      end)
    | _ =>
      match cast with
      | Some r => ebind (constrain_rep v (Concrete r) st) (fun _ st => EOk st (v, Concrete r))
      | None => ebind (constrain_rep v ir st) (fun _ st => EOk st (v, ir))
      end
    end)
  | NCast out _ a =>
    let v := length (ecs st) in
    ebind (infer_num a (new_nvar st)) (fun x st =>
    let (iv, ir) := x in
    ebind (match ir with Auto => constrain_rep iv (Concrete out) st | _ => EOk st tt end) (fun _ st =>
    ebind (constrain_rep v (Concrete out) st) (fun _ st => EOk st (v, Concrete out))))
  end.

(** src/typecheck/inference.rs:821-823 [reify], 796-818 [reify_err], 782-791
    [substitute_nvar_nvtype], 762-780 [to_whnf_vtype]; [None] is an error *)
Definition reify_num (st : engine) (v : nat) : option mrep :=
  match canonical (eal st) v with
  | None => None
  | Some i =>
    match nth_error (ecs st) i with
    | Some (NInv (NEquiv t)) => Some t
    | Some (NInv (NEncomp b)) => match unique_solution (NEncomp b) with Val r => r | Panic => None end
    | _ => None
    end
  end.

(** src/numeric/elaborator.rs:548-555 [new] and 632-682 [elaborate_expr] with the engine
    of an inference of the expression: the typed tree, or [None] if there was an error *)
Definition infer_types (e : nexpr) : option ntree :=
  match infer_num e engine0 with
  | EOk st _ => option_map fst (elab_tree (reify_num st) e 0)
  | _ => None
  end.
End Engine.
