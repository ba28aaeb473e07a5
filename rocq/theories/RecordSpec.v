(** What record formats describe. *)
From Coq Require Import String.
From Verif Require Import Base BoundsModel DataModel NumericModel ValueModel FormatModel DecoderModel FormatSpec RecordModel.
Open Scope nat_scope.

(** The fields are decoded one after the other from [i] to [k], each in the scope of
    the named ones before it; [rs] are the fields that are kept, with their values.
    [R s f i j v] says what is decoded by [f] in scope [s]. *)
Inductive Fields (R : scope format -> format -> nat -> nat -> value -> Prop) :
  scope format -> list rfield -> nat -> nat -> list (label * value) -> Prop :=
| FieldsNil s i : Fields R s [] i i []
| FieldsDropped s f fs i j k v rs : R s f i j v -> Fields R s fs j k rs -> Fields R s ((None, f) :: fs) i k rs
| FieldsLocal s x f fs i j k v rs : R s f i j v -> Fields R (SSingle s x v) fs j k rs ->
    Fields R s ((Some (x, false), f) :: fs) i k rs
| FieldsKept s x f fs i j k v rs : R s f i j v -> Fields R (SSingle s x v) fs j k rs ->
    Fields R s ((Some (x, true), f) :: fs) i k ((x, v) :: rs).

(** The value of a record: the unit without any field. *)
Definition record_value (rs : list (label * value)) : value :=
  match rs with [] => VTuple [] | _ => VRecord rs end.

(** The name of a field. *)
Definition name_of (f : rfield) : option label := match fst f with Some (x, _) => Some x | None => None end.
Definition kept (f : rfield) : bool := match fst f with Some (_, true) => true | _ => false end.
(** No name of a kept field is given to a later one. *)
Fixpoint no_reuse (fs : list rfield) : Prop :=
  match fs with
  | [] => True
  | (Some (x, true), _) :: rest => Forall (fun g => name_of g <> Some x) rest /\ no_reuse rest
  | _ :: rest => no_reuse rest
  end.
(** All names are different. *)
Fixpoint all_different (fs : list rfield) : Prop :=
  match fs with
  | [] => True
  | f :: rest => (forall x, name_of f = Some x -> Forall (fun g => name_of g <> Some x) rest) /\ all_different rest
  end.

(** What is asked of the parts of [pseudo_record]: all are decoded in order, and the
    value is that of the last. *)
Inductive Steps (R : scope format -> format -> nat -> nat -> value -> Prop) :
  scope format -> list (option label * format) -> format -> nat -> nat -> value -> Prop :=
| StepsNil s f i j v : R s f i j v -> Steps R s [] f i j v
| StepsDropped s g gs f i j k w v : R s g i j w -> Steps R s gs f j k v -> Steps R s ((None, g) :: gs) f i k v
| StepsNamed s x g gs f i j k w v : R s g i j w -> Steps R (SSingle s x w) gs f j k v ->
    Steps R s ((Some x, g) :: gs) f i k v.

(** The fields of a list with the first one named [x] changed by [g]. *)
Fixpoint change_first (x : label) (g : format -> format) (fs : list rfield) : list rfield :=
  match fs with
  | [] => []
  | (l, f) :: rest =>
    match l with
    | Some (y, p) => if N.eqb y x then (l, g f) :: rest else (l, f) :: change_first x g rest
    | None => (l, f) :: change_first x g rest
    end
  end.

(** The bits of a word [n] of [w] bits from the [used]-th, counted from the most
    significant one: [k] of them. *)
Definition bits_from (w n used k : N) : N := ((n / 2 ^ (w - used - k)) mod 2 ^ k)%N.
(** The fields of a word: the flag or the number held by the bits at their place. *)
Fixpoint bit_values (w : bitwidth) (n used : N) (fields : list bit_field) : list (string * value) :=
  match fields with
  | [] => []
  | FlagBit x :: rest => (x, VBool (N.eqb (bits_from (nbits w) n used 1) 1)) :: bit_values w n (used + 1) rest
  | BitsField x k :: rest => (x, VU w (bits_from (nbits w) n used k)) :: bit_values w n (used + k) rest
  | Reserved k _ :: rest => bit_values w n (used + k) rest
  end.
(** The reserved bits that must be zero are. *)
Fixpoint zeros_hold (w : bitwidth) (n used : N) (fields : list bit_field) : bool :=
  match fields with
  | [] => true
  | Reserved k true :: rest => N.eqb (bits_from (nbits w) n used k) 0 && zeros_hold w n (used + k) rest
  | b :: rest => zeros_hold w n (used + field_width b) rest
  end.
(** Names that [record_auto] keeps as they are. *)
Definition ordinary (s : string) : bool := negb (String.prefix "#" s) && negb (String.prefix "_" s).

(** The number written by bytes, least significant first or last. *)
Fixpoint little (bs : list N) : N := match bs with [] => 0%N | b :: bs' => (b + 256 * little bs')%N end.
Definition number (big : bool) (bs : list N) : N := if big then little (rev bs) else little bs.
(** The same bits read as a two's complement number of [w] bits. *)
Definition signed (w : bitwidth) (n : N) : Z :=
  (if N.ltb n (2 ^ (nbits w - 1)) then Z.of_N n else Z.of_N n - Z.of_N (2 ^ nbits w))%Z.
