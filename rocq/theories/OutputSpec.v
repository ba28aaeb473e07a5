(** What should be shown of a decoded value. *)
From Verif Require ByteSetModel.
From Verif Require Import Base BoundsModel DataModel NumericModel ValueModel FormatModel DecoderModel
  FormatSpec RecordModel RecordSpec OutputModel.
Open Scope nat_scope.

(** ** Values that their format implies *)

(** A format has one value if all its readings, of whatever input, at whatever place and in
    whatever scope, give the same one. *)
Definition one_value (M : fmodule) (f : format) : Prop :=
  forall um fl um' fl' s s' buf buf' i i' j j' v v',
    SemN M false um fl s f buf i j v -> SemN M false um' fl' s' f buf' i' j' v' -> v = v'.

(** The formats that the value of a format is directly made of: of a sequence of steps that of
    the last, of a record those of the kept fields. *)
Definition made_of (kind : format -> hint) (f : format) : list format :=
  match f with
  | FItemVar _ _ _ | FFail | FEndOfInput | FAlign _ | FByte _ | FPeekNot _ | FCompute _ | FApply _
  | FPos | FSkipRemainder | FLiftedOption None | FWithView _ _ | FPhantom _ => []
  | FVariant _ f | FRepeat f | FRepeat1 f | FRepeatCount _ f | FRepeatBetween _ _ f
  | FRepeatUntilLast _ f | FRepeatUntilSeq _ f | FAccumUntil _ _ _ _ f | FForEach _ _ f
  | FMaybe _ f | FPeek f | FSlice _ f | FBits f | FWithRelativeOffset _ _ f | FMap f _
  | FWhere f _ _ | FLet _ _ f | FDynamic _ _ f | FDecodeBytes _ f | FLetFormat _ _ f
  | FMonadSeq _ f | FLiftedOption (Some f) | FLetView _ f | FParseFromView _ f | FPermit f _ => [f]
  | FUnion fs | FUnionNondet fs | FTuple fs | FSequence fs => fs
  | FMatch _ bs => map snd bs
  | FHint f =>
      match kind f with
      | HRecord _ =>
          match to_record_format f with
          | Val r => map snd (filter (fun lf => match fst lf with Permanent _ _ => true | _ => false end) r)
          | Panic => []
          end
      | _ => [f]
      end
  end.
(** A format that [f] is made of, near or far, items apart. *)
Inductive Within (parts : format -> list format) : format -> format -> Prop :=
| WithinHere f : Within parts f f
| WithinPart h g f : In g (parts f) -> Within parts h g -> Within parts h f.

(** The record hint is on a record: one made by the constructors of records, with at least one
    kept field and all names different; of the old style, with all fields kept. *)
Definition hints_record (old : bool) (f : format) : Prop :=
  exists fs, f = chain_record [] fs /\ all_different fs /\ existsb kept fs = true /\
    (old = true -> forallb kept fs = true).

(** No value is left open by the format itself: repetitions have a count that is the same in
    every scope, functions do not look at the scope, and no failure is tolerated. *)
Definition settled (kind : format -> hint) (f : format) : Prop :=
  match f with
  | FByte bs => ByteSetModel.wf bs
  | FRepeat _ | FRepeat1 _ | FRepeatBetween _ _ _ | FRepeatUntilLast _ _ | FRepeatUntilSeq _ _
  | FPermit _ _ => False
  | FRepeatCount e _ =>
      forall (s s' : scope format) n n', eval_usize e s = Val n -> eval_usize e s' = Val n' -> n = n'
  | FMap _ e =>
      forall (s s' : scope format) v w w',
        eval_lambda e s v = Val w -> eval_lambda e s' v = Val w' -> w = w'
  | FHint f => match kind f with HRecord old => hints_record old f | _ => True end
  | _ => True
  end.
Definition all_settled (M : fmodule) (kind : format -> hint) (f : format) : Prop :=
  (forall g, Within (made_of kind) g f -> settled kind g) /\
  (forall it g, In it M -> Within (made_of kind) g (it_format it) -> settled kind g).

(** ** The flat listing *)

(** The formats whose values are looked at for the listing: not those below functions and
    conditions. *)
Definition looked_at (kind : format -> hint) (f : format) : list format :=
  match f with FMap _ _ | FWhere _ _ _ => [] | _ => made_of kind f end.
(** No negative peek, no tolerated failure, and record hints on records only *)
Definition listable (kind : format -> hint) (f : format) : Prop :=
  match f with
  | FPeekNot _ | FPermit _ _ => False
  | FHint f => match kind f with HRecord _ => hints_record false f | _ => True end
  | _ => True
  end.
Definition all_listable (M : fmodule) (kind : format -> hint) (f : format) : Prop :=
  (forall g, Within (looked_at kind) g f -> listable kind g) /\
  (forall it g, In it M -> Within (looked_at kind) g (it_format it) -> listable kind g).

(** The module in which the titled items match nothing *)
Fixpoint untitled_from (n : nat) (titled : nat -> bool) (M : fmodule) : fmodule :=
  match M with
  | [] => []
  | it :: M =>
      (if titled n then Item (it_args it) (it_views it) FFail else it)
        :: untitled_from (S n) titled M
  end.
Definition untitled := untitled_from 0.

(** All formats a format is made of, those that only decide or are passed over included *)
Definition all_parts (f : format) : list format :=
  match f with
  | FLetFormat f _ g | FMonadSeq f g => [f; g]
  | FHint f | FPhantom f | FPeekNot f => [f]
  | _ => made_of (fun _ => HCommon) f
  end.
(** No bytes are passed over, and no format is made while decoding *)
Definition reads_itself (f : format) : Prop :=
  match f with FAlign _ | FSkipRemainder | FSlice _ _ | FApply _ => False | _ => True end.
Definition all_read_themselves (M : fmodule) (f : format) : Prop :=
  (forall g, Within all_parts g f -> reads_itself g) /\
  (forall it g, In it M -> Within all_parts g (it_format it) -> reads_itself g).
