(** What fragments and drawings should read as. *)
From Coq Require Import Ascii String.
From Verif Require Import Base BoundsModel DataModel NumericModel ValueModel FragModel.
Open Scope nat_scope.

(** ** Texts *)

(** Texts with another between each two *)
Fixpoint joined (sep : text) (ts : list text) : text :=
  match ts with
  | [] => []
  | [t] => t
  | t :: ts => t ++ sep ++ joined sep ts
  end.
(** No line ends in a text *)
Definition one_line (t : text) : Prop := ~ In newline t.
(** At most the last character ends a line *)
Definition one_line_ended (t : text) : Prop := one_line t \/ exists u, t = u ++ [newline] /\ one_line u.

(** The parts of a fragment *)
Inductive Part : fragment -> fragment -> Prop :=
| PartHere f : Part f f
| PartGroup h f : Part h f -> Part h (GGroup f)
| PartLeft h f g : Part h f -> Part h (GCat f g)
| PartRight h f g : Part h g -> Part h (GCat f g)
| PartSep h s l : Part h s -> Part h (GSeq (Some s) l)
| PartItem h s f l : In f l -> Part h f -> Part h (GSeq s l).
(** All atoms have a text, and one without line ends, as the code assumes *)
Definition atoms_shown (f : fragment) : Prop := forall t, Part (GAtom t) f -> t <> [].
Definition atoms_one_line (f : fragment) : Prop := forall t, Part (GAtom t) f -> one_line t.
(** Sequences are as the constructor leaves them: of at least one element, and without a
    separator if of one only *)
Definition as_constructed (f : fragment) : Prop :=
  forall s l, Part (GSeq s l) f -> l <> [] /\ (length l = 1 -> s = None).

(** ** Histories of a builder *)
Inductive build := BAppend (f : fragment) | BRenew | BPush (f : fragment).
Definition built (bs : list build) : builder :=
  fold_left (fun b o => match o with
                        | BAppend f => append_active f b
                        | BRenew => renew b
                        | BPush f => push f b
                        end) bs new_builder.
(** What was put in, in order *)
Definition put_in (o : build) : text :=
  match o with BAppend f | BPush f => render f | BRenew => [] end.
(** The pieces that were put in: what is appended continues a piece, the others end it; what is
    pushed is a piece of its own. *)
Fixpoint pieces (open : text) (bs : list build) : list text :=
  match bs with
  | [] => [open]
  | BAppend f :: bs => pieces (open ++ render f) bs
  | BRenew :: bs => open :: pieces [] bs
  | BPush f :: bs => open :: render f :: pieces [] bs
  end.
Definition nonempty (t : text) : bool := match t with [] => false | _ => true end.

(** ** Drawings of trees *)

(** What is shown of a value: a text, or named parts; some parts may be passed over. *)
Inductive node := Leaf (t : text) | Node (parts : list (option (text * node))).

(** A drawing: one line for each part, and the lines of its own parts below it, further to the
    right. The line of the last part has another corner, below which nothing continues. *)
Fixpoint draw (margin : text) (n : node) : text :=
  match n with
  | Leaf t => t
  | Node parts =>
      (fix rows (l : list (option (text * node))) : text :=
         match l with
         | [] => []
         | p :: rest =>
             let last := match rest with [] => true | _ => false end in
             match p with
             | None => margin ++ str "~" ++ [newline]
             | Some (l, n) =>
                 margin ++ symbol_text (if last then Elbow else Junction) ++ l ++ str " :=" ++
                 match n with
                 | Leaf t => str " " ++ t ++ [newline]
                 | Node _ => [newline] ++ draw (margin ++ symbol_text (if last then Vacuum else Pipe)) n
                 end
             end ++ rows rest
         end) parts
  end.
(** The margin below a path *)
Definition margin (g : list column) : text :=
  flat_map (fun c => symbol_text (match c with CBranch => Pipe | CSpace => Vacuum end)) g.

(** A tree that can be read off its drawing: names without spaces and line ends, texts without
    line ends, and in every list of parts a last one that is not passed over. *)
Inductive legible : node -> Prop :=
| LegLeaf t : one_line t -> legible (Leaf t)
| LegNode ps l0 n0 :
    (forall l n, In (Some (l, n)) (ps ++ [Some (l0, n0)]) -> one_line l /\ ~ In 32%N l) ->
    (forall l n, In (Some (l, n)) (ps ++ [Some (l0, n0)]) -> legible n) ->
    legible (Node (ps ++ [Some (l0, n0)])).

Section Shown.
Context (show : value -> text) (index : nat -> text) (name : label -> text).

(** Values that are not made of others: no tuples, records, sequences and ranges, unless
    empty, nor what wraps them *)
Fixpoint elementary (v : value) : bool :=
  match v with
  | VTuple (_ :: _) | VRecord (_ :: _) => false
  | VSeq s => match sk_to_list s with [] => true | _ => false end
  | VEnumFromTo lo hi => negb (lo <? hi)%N
  | VVariant _ v | VMapped _ v | VBranch _ v | VOption (Some v) | VPermitOk v | VPermitErr (Some v) => elementary v
  | _ => true
  end.

(** The parts of a sequence: of more than eleven, the first ten and the last *)
Definition previewed (ns : list node) : list (option (text * node)) :=
  let all := map Some (combine (map index (List.seq 0 (length ns))) ns) in
  if length ns <=? 11 then all
  else firstn 10 all ++ [None] ++ skipn (length ns - 1) all.
Definition seq_node (ns : list node) : node :=
  match ns with [] => Leaf (str "[]") | _ => Node (previewed ns) end.
(** A variant is written in one line if its value is elementary. *)
Definition variant_node (l : text) (atomic : bool) (n : node) : node :=
  match atomic, n with
  | true, Leaf t => Leaf (str "{ " ++ l ++ str " := " ++ t ++ str " }")
  | _, _ => Node [Some (l, n)]
  end.
(** Fields whose names start with two underscores are hidden. *)
Definition concealed (l : label) : bool :=
  if list_eq_dec N.eq_dec (firstn 2 (name l)) (str "__") then true else false.
(** The value of a flag, however it was mapped *)
Fixpoint flag (v : value) : option bool :=
  match v with
  | VBool b => Some b
  | VMapped _ v | VBranch _ v | VPermitOk v => flag v
  | _ => None
  end.
(** What is shown of a value without its format: not how it was mapped or which branch was
    taken, not hidden fields; records of flags by the names of those set. *)
Fixpoint shown (v : value) : node :=
  match v with
  | VBool b => Leaf (str (if b then "true" else "false"))
  | VU _ _ | VUsize _ | VNumeric _ | VChar _ | VView _ | VPermitOk _ | VPermitErr _ => Leaf (show v)
  | VPhantom => Leaf (str "<PhantomData<_>>")
  | VTuple vs =>
      match vs with
      | [] => Leaf (str "()")
      | _ => Node (map Some (combine (map index (List.seq 0 (length vs))) (map shown vs)))
      end
  | VSeq (Strict l) => seq_node (map shown l)
  | VSeq (Dup n x) => seq_node (repeat (shown x) n)
  | VEnumFromTo lo hi => Leaf (str "[" ++ show (VUsize lo) ++ str ".." ++ show (VUsize hi) ++ str "]")
  | VRecord fs =>
      let visible := filter (fun lv => negb (concealed (fst lv))) fs in
      match visible with
      | [] => Leaf (str "{}")
      | _ =>
          if forallb (fun lv => match flag (snd lv) with Some _ => true | None => false end) visible then
            Leaf (str "bool-flags[" ++
                  joined (str "|") (map (fun lv => name (fst lv))
                    (filter (fun lv => match flag (snd lv) with Some b => b | None => false end) visible)) ++
                  str "]")
          else
            Node (map snd (filter (fun ln => negb (concealed (fst ln)))
                   (map (fun lv => (fst lv, Some (name (fst lv), shown (snd lv)))) fs)))
      end
  | VVariant l v => variant_node (name l) (elementary v) (shown v)
  | VOption None => Leaf (str "none")
  | VOption (Some v) => variant_node (str "some") (elementary v) (shown v)
  | VMapped _ v | VBranch _ v => shown v
  end.
End Shown.
