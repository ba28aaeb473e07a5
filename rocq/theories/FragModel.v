(** Text fragments (src/output.rs) and the drawing of values as trees (src/output/tree.rs). *)
From Coq Require Import Ascii String.
From Verif Require Import Base BoundsModel DataModel NumericModel ValueModel.
Open Scope nat_scope.

(** A text is the list of its characters. *)
Definition text := list N.
Definition str (s : string) : text := map N_of_ascii (list_ascii_of_string s).
Definition newline : N := 10%N.

(** src/output.rs:12-17 [enum Symbol] and 19-29 its [Display] *)
Inductive symbol := Vacuum | Elbow | Pipe | Junction.
Definition symbol_text (s : symbol) : text :=
  match s with
  | Vacuum => [32; 32; 32; 32]%N
  | Pipe => [9474; 32; 32; 32]%N
  | Junction => [9500; 9472; 9472; 32]%N
  | Elbow => [9492; 9472; 9472; 32]%N
  end.

(** src/output.rs:32-47 [enum Fragment]; an atom is the text it is displayed as *)
Inductive fragment :=
| GEmpty
| GSymbol (s : symbol)
| GChar (c : N)
| GString (t : text)
| GAtom (t : text)
| GGroup (f : fragment)
| GCat (f g : fragment)
| GSeq (sep : option fragment) (items : list fragment).

(** src/output.rs:411-446 [Display] *)
Fixpoint render (f : fragment) : text :=
  match f with
  | GEmpty => []
  | GSymbol s => symbol_text s
  | GChar c => [c]
  | GString t | GAtom t => t
  | GGroup f => render f
  | GCat f g => render f ++ render g
  | GSeq sep items =>
      let sep := match sep with Some f => render f | None => [] end in
      match items with
      | [] => []
      | x :: l => render x ++ flat_map (fun y => sep ++ render y) l
      end
  end.

(** src/output.rs:84-86 [is_empty] *)
Definition is_empty (f : fragment) : bool := match f with GEmpty => true | _ => false end.
(** src/output.rs:96-117 [is_vacuous] *)
Fixpoint is_vacuous (f : fragment) : bool :=
  match f with
  | GEmpty => true
  | GSymbol _ | GChar _ => false
  | GString t => match t with [] => true | _ => false end
  | GAtom _ => false
  | GGroup g => is_vacuous g
  | GCat x y => is_vacuous x && is_vacuous y
  | GSeq sep items =>
      match items with
      | [] => true
      | [x] => is_vacuous x
      | _ => match sep with Some s => is_vacuous s | None => true end && forallb is_vacuous items
      end
  end.
(** src/output.rs:124-144 [seq] *)
Definition seq (items : list fragment) (sep : option fragment) : fragment :=
  match items with
  | [] => GEmpty
  | [_] => GSeq None items
  | _ => GSeq (match sep with Some s => if is_vacuous s then None else Some s | None => None end) items
  end.
(** src/output.rs:150-158 [cat] *)
Definition cat (f g : fragment) : fragment :=
  if is_empty f then g else if is_empty g then f else GCat f g.
(** src/output.rs:163-165 [delimit] *)
Definition delimit (f before after : fragment) : fragment := cat (cat before f) after.
(** src/output.rs:204-214 [intervene] *)
Definition intervene (f sep g : fragment) : fragment :=
  if is_vacuous f then g
  else if is_vacuous g then f
  else if is_vacuous sep then cat f g
  else cat (cat f sep) g.
(** src/output.rs:220-224 [append], on the value behind the reference *)
Definition append (f g : fragment) : fragment := cat f g.
(** src/output.rs:233-235 [group] and 238-242 [enclose] *)
Definition group (f : fragment) : fragment := GGroup f.
(** src/output.rs:246-248 [cat_break] *)
Definition cat_break (f : fragment) : fragment := cat f (GChar newline).

(** [str::find] of a newline: the index of the first *)
Fixpoint find_newline (t : text) : option nat :=
  match t with
  | [] => None
  | c :: t => if (c =? newline)%N then Some 0 else match find_newline t with Some n => Some (S n) | None => None end
  end.
(** [Iterator::all] over a list, the last element being told *)
Section AllLast.
  Context {A : Type} (p : bool -> A -> bool).
  Fixpoint all_last (l : list A) : bool :=
    match l with
    | [] => true
    | x :: r => p (match r with [] => true | _ => false end) x && all_last r
    end.
End AllLast.
(** src/output.rs:269-302 [is_single_line]; in the string, characters in place of bytes *)
Fixpoint is_single_line (is_final : bool) (f : fragment) : bool :=
  match f with
  | GEmpty => true
  | GChar c => if (c =? newline)%N then is_final else true
  | GString t =>
      match find_newline t with
      | Some n => if (n =? length t - 1) then is_final else false
      | None => true
      end
  | GSymbol _ => true
  | GAtom _ => true
  | GGroup f => is_single_line is_final f
  | GCat f g => is_single_line false f && is_single_line is_final g
  | GSeq sep items =>
      match sep with
      | Some j => match items with [] => true | _ => is_single_line false j end
      | None => true
      end && all_last (fun last => is_single_line (is_final && last)) items
  end.
(** src/output.rs:310-331 [fits_inline] *)
Fixpoint fits_inline (f : fragment) : bool :=
  match f with
  | GEmpty => true
  | GChar c => negb (c =? newline)%N
  | GString t => negb (existsb (N.eqb newline) t)
  | GSymbol _ => false
  | GAtom _ => true
  | GGroup f => fits_inline f
  | GCat f g => fits_inline f && fits_inline g
  | GSeq sep items =>
      match sep with
      | Some j => match items with [] => true | _ => fits_inline j end
      | None => true
      end && forallb fits_inline items
  end.
(** src/output.rs:336-342 [join_with_wsp] *)
Definition join_with_wsp (f g : fragment) : fragment :=
  if fits_inline g then cat_break (cat (cat f (GChar 32%N)) g) else cat (cat_break f) g.
(** src/output.rs:347-353 [join_with_wsp_eol] *)
Definition join_with_wsp_eol (f g trailer : fragment) : fragment :=
  if fits_inline g then cat_break (cat (cat f (GChar 32%N)) g) else cat (cat_break (cat f trailer)) g.

(** src/output.rs:357-360 [struct FragmentBuilder] *)
Record builder := Builder { frozen : list fragment; active : fragment }.
(** src/output.rs:363-368 [new] *)
Definition new_builder : builder := Builder [] GEmpty.
(** src/output.rs:370-372 [active_mut], followed by [append] *)
Definition append_active (f : fragment) (b : builder) : builder := Builder (frozen b) (append (active b) f).
(** src/output.rs:376-382 [renew] *)
Definition renew (b : builder) : builder :=
  Builder (if is_empty (active b) then frozen b else frozen b ++ [active b]) GEmpty.
(** src/output.rs:386-398 [push] *)
Definition push (f : fragment) (b : builder) : builder :=
  if is_empty (active b) then Builder (frozen b ++ [f]) GEmpty
  else Builder (frozen b ++ active b :: (if is_empty f then [] else [f])) GEmpty.
(** src/output.rs:400-403 [finalize] and 405-408 [finalize_with_sep] *)
Definition finalize (b : builder) : fragment := seq (frozen (renew b)) None.
Definition finalize_with_sep (b : builder) (sep : fragment) : fragment := seq (frozen (renew b)) (Some sep).

(** ** Values drawn without their formats *)

(** src/output/tree.rs:43-46 [enum Column] *)
Inductive column := CBranch | CSpace.

Section Draw.
(** What Rust's own [Display] and [Debug] make of numbers and characters, what [Display] of
    values makes of tolerated failures, and the text of labels *)
Context (show : value -> text) (index : nat -> text) (name : label -> text).

(** src/output/tree.rs:1528-1537 [compile_gutter] *)
Definition compile_gutter (g : list column) : fragment :=
  finalize (fold_left (fun b c =>
    push (match c with CBranch => GSymbol Pipe | CSpace => GSymbol Vacuum end) b) g new_builder).
(** src/output/tree.rs:1712-1730 [compile_field_value], without a format; what follows the
    sign of definition is given for the gutter *)
Definition compile_field_value (c : list column -> fragment) (g : list column) : fragment :=
  group (join_with_wsp (GString (str " :=")) (c g)).
(** src/output/tree.rs:1578-1607 [compile_field_value_continue], without a format *)
Definition field_continue (g : list column) (lc : text * (list column -> fragment)) : fragment :=
  group (finalize (push (compile_field_value (snd lc) (g ++ [CBranch]))
    (push (cat (GSymbol Junction) (GString (fst lc))) (push (compile_gutter g) new_builder)))).
(** src/output/tree.rs:1641-1670 [compile_field_value_last], without a format *)
Definition field_last (g : list column) (lc : text * (list column -> fragment)) : fragment :=
  group (finalize (push (compile_field_value (snd lc) (g ++ [CSpace]))
    (push (cat (GSymbol Elbow) (GString (fst lc))) (push (compile_gutter g) new_builder)))).
(** src/output/tree.rs:1732-1736 [compile_field_skipped] *)
Definition field_skipped (g : list column) : fragment :=
  group (cat (compile_gutter g) (GString (str "~" ++ [newline]))).

(** The fields of an index range, in turn *)
Definition append_all (fs : list fragment) (f : fragment) : fragment := fold_left append fs f.
(** A list without its last element, and that element *)
Fixpoint split_last {A} (x : A) (l : list A) : list A * A :=
  match l with
  | [] => ([], x)
  | y :: l => let (i, z) := split_last y l in (x :: i, z)
  end.
(** src/output/tree.rs:1040-1062 [compile_tuple] and 1448-1464, the last part of
    [compile_record]: all fields but the last, then the last *)
Definition compile_fields (g : list column) (x : text * (list column -> fragment))
    (l : list (text * (list column -> fragment))) : fragment :=
  let (i, z) := split_last x l in
  append (append_all (map (field_continue g) i) GEmpty) (field_last g z).
(** src/output/tree.rs:1199-1226 [compile_seq]; the preview length is 10 (390) *)
Definition preview_len : nat := 10.
Definition compile_seq (g : list column) (l : list (list column -> fragment)) : fragment :=
  match combine (map index (List.seq 0 (length l))) l with
  | [] => GString (str "[]")
  | x :: r =>
      let (i, z) := split_last x r in
      let last_index := length r in
      let (upper, skipped) :=
        if preview_len <? length (x :: r) then (preview_len, negb (preview_len =? last_index))
        else (last_index, false) in
      let f := append_all (map (field_continue g) (firstn upper i)) GEmpty in
      let f := if skipped then append f (field_skipped g) else f in
      append f (field_last g z)
  end.

(** src/output/tree.rs:220-286 [is_atomic_value], without a format and with mapped values
    collapsed *)
Fixpoint is_atomic (v : value) : bool :=
  match v with
  | VChar _ | VBool _ | VU _ _ | VUsize _ | VNumeric _ | VView _ => true
  | VTuple vs => match vs with [] => true | _ => false end
  | VRecord fs => match fs with [] => true | _ => false end
  | VSeq s => sk_len s =? 0
  | VEnumFromTo lo hi => (hi <=? lo)%N
  | VVariant _ v => is_atomic v
  | VMapped _ v => is_atomic v
  | VBranch _ v => is_atomic v
  | VOption None => true
  | VOption (Some v) => is_atomic v
  | VPhantom => true
  | VPermitOk v => is_atomic v
  | VPermitErr (Some v) => is_atomic v
  | VPermitErr None => true
  end.

(** [starts_with("__")] *)
Definition hidden (l : label) : bool :=
  match name l with 95%N :: 95%N :: _ => true | _ => false end.
(** src/decoder/value.rs:329-331 [is_boolean] *)
Definition is_boolean (v : value) : bool := match coerce_mapped v with VBool _ => true | _ => false end.
(** src/output/tree.rs:1467-1479 [compile_bool_flags] *)
Definition compile_bool_flags (fs : list (label * value)) : fragment :=
  cat (GString (str "bool-flags"))
    (delimit (seq (map (fun lv => GString (name (fst lv)))
                   (filter (fun lv => match coerce_mapped (snd lv) with VBool b => b | _ => false end) fs))
                  (Some (GChar 124%N)))
             (GChar 91%N) (GChar 93%N)).

(** src/output/tree.rs:1507-1526 [compile_variant], without a format; whether the value is
    atomic is given *)
Definition compile_variant (l : text) (atomic : bool) (c : list column -> fragment) (g : list column) : fragment :=
  if atomic then
    group (append (append (append GEmpty (GString (str "{ " ++ l ++ str " := "))) (c g)) (GString (str " }")))
  else field_last g (l, c).

(** src/output/tree.rs:812-850 [compile_value], with the flags of 377-386 *)
Fixpoint compile_value (v : value) (g : list column) {struct v} : fragment :=
  match v with
  | VBool true => GString (str "true")
  | VBool false => GString (str "false")
  | VU _ _ | VUsize _ | VNumeric _ | VChar _ => GAtom (show v)
  | VView _ => GString (show v)
  | VTuple vs =>
      match combine (map index (List.seq 0 (length vs))) (map compile_value vs) with
      | [] => GString (str "()")
      | x :: l => compile_fields g x l
      end
  | VSeq (Strict l) => compile_seq g (map compile_value l)
  | VSeq (Dup n x) => compile_seq g (repeat (compile_value x) n)
  | VEnumFromTo lo hi =>
      delimit (intervene (GAtom (show (VUsize lo))) (GString (str "..")) (GAtom (show (VUsize hi))))
        (GChar 91%N) (GChar 93%N)
  | VRecord fs =>
      (** 1427-1440: fields whose names are hidden are left out *)
      let shown := filter (fun lv => negb (hidden (fst lv))) fs in
      match map snd (filter (fun lc => negb (hidden (fst lc)))
                      (map (fun lv => (fst lv, (name (fst lv), compile_value (snd lv)))) fs)) with
      | [] => GString (str "{}")
      | x :: l =>
          if forallb (fun lv => is_boolean (snd lv)) shown then compile_bool_flags shown
          else compile_fields g x l
      end
  | VVariant l v => compile_variant (name l) (is_atomic v) (compile_value v) g
  | VMapped _ v => compile_value v g
  | VBranch _ v => compile_value v g
  | VOption None => GString (str "none")
  | VOption (Some v) => compile_variant (str "some") (is_atomic v) (compile_value v) g
  | VPhantom => delimit (GString (str "PhantomData<_>")) (GChar 60%N) (GChar 62%N)
  | VPermitOk _ | VPermitErr _ => GString (show v)
  end.
End Draw.
