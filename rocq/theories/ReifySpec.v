(** What a reported type says. *)
From Verif Require Import Base BoundsModel NumericModel ValueModel BaseSetModel BaseSetSpec UnifyModel UnifySpec ReifyModel.
Open Scope nat_scope.

(** The type that is reported, without the hints of sequences; the type without values
    is the union of nothing. *)
Fixpoint plain (a : avt) : gtype :=
  match a with
  | AEmpty => GUnion []
  | AView => GView
  | ABool => GBool
  | AChar => GChar
  | AInt p => GInt p
  | ATuple ts => GTuple (map plain ts)
  | ARecord fs => GRecord (map (fun f : label * avt => let (l, t) := f in (l, plain t)) fs)
  | AUnion bs => GUnion (map (fun f : label * avt => let (l, t) := f in (l, plain t)) bs)
  | ASeq t _ => GSeq (plain t)
  | AOption t => GOption (plain t)
  | APhantom t => GPhantom (plain t)
  end.

(** A state in which some variable is known by projections of a tuple or record only. *)
Definition projected (st : state) (v : nat) : Prop :=
  exists m, get_cons st v = Some (Invariant (CProj (PTuple m))) \/ get_cons st v = Some (Invariant (CProj (PRecord m))).
