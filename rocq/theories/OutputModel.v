(** What is shown of a decoded value: which values the tree output leaves out because
    their format implies them (src/output/tree.rs), and the flat listing
    (src/output/flat.rs). *)
From Verif Require ByteSetModel.
From Verif Require Import Base BoundsModel DataModel NumericModel ValueModel FormatModel RecordModel.
Open Scope nat_scope.

(** src/lib.rs:859-868 [enum StyleHint], without the operation of [Common] *)
Inductive hint := HRecord (old_style : bool) | HAsciiStr | HAsciiChar | HCommon.

Section Output.
(** The module, and the hint of a hinted format: the formats of the model have hints of one
    kind, so which kind a hint is of is asked of what it is put on (simplification: the same
    format has the same hint wherever it has one). *)
Context (M : fmodule) (kind : format -> hint).

(** All of a list, none answered being a panic or no answer in time *)
Section All.
  Context {A : Type} (p : A -> option bool).
  Fixpoint all_some (l : list A) : option bool :=
    match l with
    | [] => Some true
    | x :: l => match p x with Some true => all_some l | r => r end
    end.
End All.

(** ** Values left out of the tree *)

(** src/output/tree.rs:81-90 [is_implied_value_format_old_style_record] *)
Section Old.
  Context (implied : format -> option bool).
  Fixpoint implied_old (f : format) : option bool :=
    match f with
    | FLetFormat g _ inner =>
        match implied g with Some true => implied_old inner | r => r end
    | FCompute _ => Some true
    | _ => None
    end.
End Old.

(** src/output/tree.rs:104-170 [is_implied_value_format], with 92-102
    [is_implied_value_format_new_style_record]; [None] is a panic, or that more fuel is
    needed *)
Fixpoint implied (fuel : nat) (f : format) : option bool :=
  match fuel with
  | 0 => None
  | S fuel =>
      match f with
      | FItemVar level _ _ =>
          match get_item M level with Some it => implied fuel (it_format it) | None => None end
      | FEndOfInput => Some true
      | FPhantom _ => Some true
      | FByte bs => Some (ByteSetModel.len bs =? 1)%N
      | FTuple fs => all_some (implied fuel) fs
      | FPermit f _ => implied fuel f
      | FHint f =>
          match kind f with
          | HCommon | HAsciiChar | HAsciiStr => implied fuel f
          | HRecord true => implied_old (implied fuel) f
          | HRecord false =>
              match to_record_format f with
              | Val r =>
                  all_some (fun lf => match fst lf with
                                      | Permanent _ _ => implied fuel (snd lf)
                                      | _ => Some true
                                      end) r
              | Panic => None
              end
          end
      | FRepeat f | FRepeat1 f | FRepeatCount _ f | FRepeatUntilSeq _ f
      | FRepeatBetween _ _ f | FRepeatUntilLast _ f => implied fuel f
      | FSlice _ f => implied fuel f
      | FFail => Some true
      | FAlign _ => Some true
      | FVariant _ f => implied fuel f
      | FUnion fs | FUnionNondet fs =>
          match fs with [f] => implied fuel f | _ => Some false end
      | FSequence fs => all_some (implied fuel) fs
      | FAccumUntil _ _ _ _ _ => Some false
      | FForEach _ _ _ => Some false
      | FMaybe _ _ => Some false
      | FPeek f => implied fuel f
      | FPeekNot _ => Some true
      | FBits f => implied fuel f
      | FWithRelativeOffset _ _ f => implied fuel f
      | FMap f _ => implied fuel f
      | FWhere f _ _ => implied fuel f
      | FCompute _ => Some false
      | FLet _ _ f => implied fuel f
      | FMatch _ _ => Some false
      | FDynamic _ _ f => implied fuel f
      | FApply _ => Some false
      | FPos => Some false
      | FSkipRemainder => Some true
      | FDecodeBytes _ f => implied fuel f
      | FLetFormat _ _ f => implied fuel f
      | FMonadSeq _ f => implied fuel f
      | FLiftedOption None => Some true
      | FLiftedOption (Some f) => implied fuel f
      | FWithView _ _ => Some false
      | FLetView _ f => implied fuel f
      | FParseFromView _ f => implied fuel f
      end
  end.

(** ** The flat listing *)

(** src/output/flat.rs:20-108 [is_show_format]: whether the item of a level has a name that
    is given a title. The names and titles themselves are left out: a line is the level. *)
Context (titled : nat -> bool).

(** src/output/flat.rs:110-214 [check_covered]: [Some false] is the error, [None] a panic or
    that more fuel is needed. The path is only for the message. *)
Fixpoint covered (fuel : nat) (f : format) : option bool :=
  match fuel with
  | 0 => None
  | S fuel =>
      match f with
      | FItemVar level _ _ =>
          if titled level then Some true
          else match get_item M level with Some it => covered fuel (it_format it) | None => None end
      | FPhantom f => covered fuel f
      | FFail | FEndOfInput | FSkipRemainder | FPos | FAlign _ => Some true
      | FByte _ => Some false
      | FParseFromView _ f | FDecodeBytes _ f => covered fuel f
      | FVariant _ f => covered fuel f
      | FUnion fs | FUnionNondet fs => all_some (covered fuel) fs
      | FTuple fs | FSequence fs => all_some (covered fuel) fs
      | FRepeat f | FRepeat1 f | FRepeatCount _ f | FRepeatBetween _ _ f | FForEach _ _ f
      | FRepeatUntilLast _ f | FRepeatUntilSeq _ f | FAccumUntil _ _ _ _ f => covered fuel f
      | FMaybe _ f => covered fuel f
      | FLiftedOption None => Some true
      | FLiftedOption (Some f) => covered fuel f
      | FPeek f => covered fuel f
      | FPeekNot _ => Some true
      | FSlice _ f => covered fuel f
      | FBits f => covered fuel f
      | FWithRelativeOffset _ _ f => covered fuel f
      | FMap f _ => covered fuel f
      | FWhere f _ _ => covered fuel f
      | FCompute _ => Some true
      | FLet _ _ f => covered fuel f
      | FLetView _ f => covered fuel f
      | FMatch _ bs => all_some (fun b => covered fuel (snd b)) bs
      | FDynamic _ _ f => covered fuel f
      | FApply _ => Some true
      | FMonadSeq f g | FLetFormat f _ g =>
          match covered fuel f with Some true => covered fuel g | r => r end
      | FHint f => covered fuel f
      | FPermit f _ => covered fuel f
      | FWithView _ _ => Some true
      end
  end.

(** The lines of a list of values in turn *)
Section Lines.
  Context {A : Type} (write : A -> option (list nat)).
  Fixpoint lines_of (l : list A) : option (list nat) :=
    match l with
    | [] => Some []
    | x :: l =>
        match write x, lines_of l with Some a, Some b => Some (a ++ b) | _, _ => None end
    end.
End Lines.
(** A list of values and the formats at their indices: indexing panics *)
Fixpoint with_formats (vs : list value) (fs : list format) : list (value * option format) :=
  match vs, fs with
  | [], _ => []
  | v :: vs, [] => (v, None) :: with_formats vs []
  | v :: vs, f :: fs => (v, Some f) :: with_formats vs fs
  end.

(** src/output/flat.rs:221-354 [write_flat] and 356-371 [write_record]; [None] is a panic, or
    that more fuel is needed. Errors of the writer are left out. *)
Fixpoint write_flat (fuel : nat) (v : value) (f : format) : option (list nat) :=
  match fuel with
  | 0 => None
  | S fuel =>
      let each vf := match snd vf with Some f => write_flat fuel (fst vf) f | None => None end in
      match f with
      | FItemVar level _ _ =>
          if titled level then Some [level]
          else match get_item M level with Some it => write_flat fuel v (it_format it) | None => None end
      | FPhantom _ | FFail | FEndOfInput | FSkipRemainder | FAlign _ | FPos | FByte _ => Some []
      | FLiftedOption None => match v with VOption None => Some [] | _ => None end
      | FLiftedOption (Some f) => match v with VOption (Some v) => write_flat fuel v f | _ => None end
      | FVariant l f =>
          match v with
          | VVariant l' v => if (l =? l')%N then write_flat fuel v f else None
          | _ => None
          end
      | FUnion fs | FUnionNondet fs =>
          match v with
          | VBranch k v => match nth_error fs k with Some f => write_flat fuel v f | None => None end
          | _ => None
          end
      | FTuple fs =>
          match v with VTuple vs => lines_of each (with_formats vs fs) | _ => None end
      | FSequence fs =>
          match v with VSeq s => lines_of each (with_formats (sk_to_list s) fs) | _ => None end
      | FRepeat f | FRepeat1 f | FForEach _ _ f | FRepeatCount _ f | FRepeatBetween _ _ f
      | FRepeatUntilLast _ f | FRepeatUntilSeq _ f =>
          match v with VSeq s => lines_of (fun v => write_flat fuel v f) (sk_to_list s) | _ => None end
      | FAccumUntil _ _ _ _ f =>
          match v with
          | VTuple [_; VSeq s] => lines_of (fun v => write_flat fuel v f) (sk_to_list s)
          | _ => None
          end
      | FMaybe _ f =>
          match v with
          | VOption (Some v) => write_flat fuel v f
          | VOption None => Some []
          | _ => None
          end
      | FDecodeBytes _ f | FParseFromView _ f | FPeek f | FPeekNot f | FSlice _ f | FBits f
      | FWithRelativeOffset _ _ f => write_flat fuel v f
      | FMap _ _ | FWhere _ _ _ | FCompute _ => Some []
      | FLet _ _ f | FLetView _ f => write_flat fuel v f
      | FMatch _ bs =>
          match v with
          | VBranch k v => match nth_error bs k with Some b => write_flat fuel v (snd b) | None => None end
          | _ => None
          end
      | FDynamic _ _ f => write_flat fuel v f
      | FApply _ => Some []
      | FLetFormat _ _ f | FMonadSeq _ f => write_flat fuel v f
      | FHint f =>
          match kind f with
          | HRecord _ =>
              match to_record_format f, v with
              | Val r, VRecord fields =>
                  lines_of (fun lv => match lookup_value_field r (fst lv) with
                                      | Some (f, _) => write_flat fuel (snd lv) f
                                      | None => None
                                      end) fields
              | _, _ => None
              end
          | _ => write_flat fuel v f
          end
      | FPermit f _ => write_flat fuel v f
      | FWithView _ _ => Some []
      end
  end.

(** src/output/flat.rs:7-13 [print_decoded_value]: the check is unwrapped *)
Definition print_flat (fuel : nat) (v : value) (f : format) : option (list nat) :=
  match covered fuel f with Some true => write_flat fuel v f | _ => None end.
End Output.
