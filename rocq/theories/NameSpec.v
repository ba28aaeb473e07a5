(** * What names of generated types are meant to be

    Independent of how names are kept and handed out: a history of steps of the
    elaborator visits places, and each place has a spelling. *)
From Coq Require Import String Ascii Bool DecimalString List Arith.
From Verif Require Import NameModel.
Import ListNotations.
Open Scope list_scope.
Open Scope nat_scope.

(** No explicitly given name among the atoms. *)
Definition nameless (p : path) : Prop := forall l, ~ In (Explicit l) p.

(** The place that a path denotes: the part of it from the innermost explicitly
    given name on, or all of it if no name was given. *)
Inductive place : path -> path -> Prop :=
| PlaceNamed pre l inner : nameless inner -> place (pre ++ Explicit l :: inner) (Explicit l :: inner)
| PlaceNameless p : nameless p -> place p p.

(** The visits of a history that starts on path [p]: which declaration was asked
    for in which place.  There are no visits, in the sense that the relation
    does not hold, for a history that leaves more atoms than it entered. *)
Inductive visits : path -> list op -> list (decl * path) -> Prop :=
| VEnd p : visits p [] []
| VEnter p a ops vs : visits (p ++ [a]) ops vs -> visits p (OPush a :: ops) vs
| VLeave p a ops vs : visits p ops vs -> visits (p ++ [a]) (OEscape :: ops) vs
| VNext p n ops vs :
    visits (p ++ [Positional (S n)]) ops vs -> visits (p ++ [Positional n]) (OIncrement :: ops) vs
| VFirst p ops vs :
    (forall q n, p <> q ++ [Positional n]) ->
    visits (p ++ [Positional 0]) ops vs -> visits p (OIncrement :: ops) vs
| VAsk p q d ops vs :
    place p q -> visits p ops vs -> visits p (ORequest d :: ops) ((d, q) :: vs).

(** The spelling of a place: what its atoms show, joined by underscores, without
    those that show nothing. *)
Definition spelling (p : path) : name :=
  String.concat "_" (filter (fun s => if string_dec s "" then false else true) (map show p)).

(** The spelling marked as the [n]th one more of its kind. *)
Definition marked (s : name) (n : nat) : name := (s ++ "__dupX" ++ decimal n)%string.

(** What a place may be called. *)
Definition called (p : path) (s : name) : Prop :=
  s = spelling p \/ exists n, 0 < n /\ s = marked (spelling p) n.

(** No two declarations were asked for in the same place. *)
Definition one_each (vs : list (decl * path)) : Prop :=
  forall d d' p, In (d, p) vs -> In (d', p) vs -> d = d'.

(** No place is spelt as if it were marked. *)
Definition unmarked (vs : list (decl * path)) : Prop :=
  forall d p s n, In (d, p) vs -> 0 < n -> spelling p <> marked s n.

(** An identifier of letters, digits and underscores, not starting with a digit. *)
Definition letter (c : ascii) : bool :=
  let n := nat_of_ascii c in
  ((65 <=? n) && (n <=? 90)) || ((97 <=? n) && (n <=? 122)) || (n =? 95).

Definition digit (c : ascii) : bool :=
  let n := nat_of_ascii c in (48 <=? n) && (n <=? 57).

Fixpoint chars (P : ascii -> bool) (s : string) : bool :=
  match s with
  | EmptyString => true
  | String c s' => P c && chars P s'
  end.

Definition identifier (s : string) : bool :=
  match s with
  | EmptyString => false
  | String c s' => letter c && chars (fun c => letter c || digit c) s'
  end.
