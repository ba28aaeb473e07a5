(** * Names of the types and functions of generated code

    Model of src/codegen/name.rs, src/codegen/path_names.rs, and of the parts
    of src/codegen/mod.rs and src/codegen/rust_ast/mod.rs that settle what the
    generated types and functions are called.

    Simplifications.  A type declaration ([RustTypeDecl]) is a number, equal
    numbers standing for equal declarations: names are only ever looked up by
    declaration, never computed from it.  Ordered and hashed maps are
    association lists, and the one traversal whose result depends on the order
    of a hashed map ([manifest_renaming_table]) takes that order as an
    argument.  [usize] counters do not overflow.  A panic ([unreachable!],
    [unwrap]) is [None]. *)
From Coq Require Import String Ascii Bool DecimalString List Arith Lia.
Import ListNotations.
Open Scope list_scope.
Open Scope nat_scope.

(** src/lib.rs:48 [Label] *)
Definition name := string.
Definition decl := nat.

(** Decimal printing of a [usize], as by [format!("{n}")]. *)
Definition decimal (n : nat) : string := NilZero.string_of_uint (Nat.to_uint n).

(** src/codegen/name.rs:10-41 [Derivation], [NameAtom]; the only derivation is [Lhs] *)
Inductive atom :=
| Explicit (l : name)
| RecordField (l : name)
| Variant (l : name)
| Positional (n : nat)
| Bind (l : name)
| DerivedLhs
| DeadEnd.

Definition atom_eq_dec (a b : atom) : {a = b} + {a <> b}.
Proof. decide equality; (apply string_dec || apply Nat.eq_dec). Defined.

(** src/codegen/name.rs:43-55 [Display for NameAtom]; 15-20 [Derivation::token] *)
Definition show (a : atom) : string :=
  match a with
  | Explicit l => l
  | Positional n => "ix" ++ decimal n
  | RecordField l => l
  | Bind l => l
  | Variant l => l
  | DerivedLhs => "lhs"
  | DeadEnd => "POISON"
  end%string.

(** src/codegen/name.rs:57 [PathLabel]; the innermost atom is the last *)
Definition path := list atom.

Definition path_eq_dec (p q : path) : {p = q} + {p <> q} := list_eq_dec atom_eq_dec p q.

(** src/codegen/name.rs:69-74 : only [y] has atoms left *)
Fixpoint walk_y (ys : list atom) : option bool :=
  match ys with
  | [] => None
  | DeadEnd :: _ => Some false
  | Explicit _ :: _ => Some true
  | _ :: ys' => walk_y ys'
  end.

(** src/codegen/name.rs:75-79 : only [x] has atoms left *)
Fixpoint walk_x (xs : list atom) : option bool :=
  match xs with
  | [] => None
  | DeadEnd :: _ => Some true
  | Explicit _ :: _ => Some false
  | _ :: xs' => walk_x xs'
  end.

(** src/codegen/name.rs:64-97 : the loop, over both paths from their ends;
    [Some b] is a return of [b] from inside, [None] is leaving the loop *)
Fixpoint walk (xs ys : list atom) : option bool :=
  match xs, ys with
  | [], _ => walk_y ys
  | _ :: _, [] => walk_x xs
  | x :: xs', y :: ys' =>
      match x, y with
      | DeadEnd, _ => Some true
      | _, DeadEnd => Some false
      | Explicit lx, Explicit ly => if string_dec lx ly then walk xs' ys' else None
      | Explicit _, _ => Some false
      | _, Explicit _ => Some true
      | _, _ => walk xs' ys'
      end
  end.

(** src/codegen/name.rs:60-100 [is_refinement] *)
Definition is_refinement (x y : path) : bool :=
  match walk (rev x) (rev y) with
  | Some b => b
  | None => length y <? length x
  end.

(** src/codegen/name.rs:111-114 [PHeap]; the set of floating paths as a list *)
Record heap := { fixed : list path; floating : list path }.

(** src/codegen/name.rs:118-123 [PHeap::new] *)
Definition new_heap : heap := {| fixed := []; floating := [] |}.

(** src/codegen/name.rs:130-134, 147-151 : position of a path among the fixed ones *)
Fixpoint position (p : path) (l : list path) : option nat :=
  match l with
  | [] => None
  | q :: l' => if path_eq_dec q p then Some 0 else option_map S (position p l')
  end.

Definition member (p : path) (l : list path) : bool :=
  if in_dec path_eq_dec p l then true else false.

(** src/codegen/name.rs:129-139 [PHeap::get_priority] *)
Definition heap_priority (h : heap) (p : path) : option nat :=
  match position p (fixed h) with
  | Some i => Some i
  | None =>
      if member p (floating h) then Some (length (fixed h) + length (floating h) - 1)
      else None
  end.

(** src/codegen/name.rs:146-162 [PHeap::fix] *)
Definition promote (h : heap) (p : path) : option (nat * heap) :=
  match position p (fixed h) with
  | Some i => Some (i, h)
  | None =>
      if member p (floating h)
      then Some (length (fixed h),
                 {| fixed := fixed h ++ [p];
                    floating := filter (fun q => if path_eq_dec q p then false else true) (floating h) |})
      else None
  end.

(** src/codegen/name.rs:165-169 [PHeap::insert] *)
Definition heap_insert (h : heap) (p : path) : heap :=
  if member p (fixed h) then h
  else if member p (floating h) then h
  else {| fixed := fixed h; floating := p :: floating h |}.

(** Maps keyed by names. *)
Fixpoint lookup {A} (k : name) (t : list (name * A)) : option A :=
  match t with
  | [] => None
  | (k', a) :: t' => if string_dec k' k then Some a else lookup k t'
  end.

Fixpoint store {A} (k : name) (a : A) (t : list (name * A)) : list (name * A) :=
  match t with
  | [] => [(k, a)]
  | (k', a') :: t' => if string_dec k' k then (k', a) :: t' else (k', a') :: store k a t'
  end.

(** src/codegen/name.rs:103-106 [NameCtxt] *)
Record ctxt := { stack : path; table : list (name * heap) }.

(** src/codegen/name.rs:174-179 [NameCtxt::new] *)
Definition new_ctxt : ctxt := {| stack := []; table := [] |}.

(** src/codegen/name.rs:183-187 [push_atom] *)
Definition push_atom (c : ctxt) (a : atom) : ctxt :=
  {| stack := stack c ++ [a]; table := table c |}.

(** src/codegen/name.rs:194-200 [increment_index] *)
Definition increment_index (c : ctxt) : ctxt :=
  match rev (stack c) with
  | Positional n :: r => {| stack := rev r ++ [Positional (S n)]; table := table c |}
  | _ => {| stack := stack c ++ [Positional 0]; table := table c |}
  end.

(** src/codegen/name.rs:207-223 [try_escape], [escape]: panics on the empty stack *)
Definition escape (c : ctxt) : option ctxt :=
  match rev (stack c) with
  | [] => None
  | _ :: r => Some {| stack := rev r; table := table c |}
  end.

(** src/codegen/name.rs:373-380 [underscore_join]; src/output.rs:204-214
    [Fragment::intervene]: a fragment is vacuous when its text is empty *)
Definition underscore_join (tail prefix : string) : string :=
  if string_dec prefix "" then tail
  else if string_dec tail "" then prefix
  else (prefix ++ "_" ++ tail)%string.

(** src/codegen/name.rs:268-276 : the loop of [synthesize_name], from the innermost atom out *)
Fixpoint synthesize_from (buffer : string) (r : list atom) : string :=
  match r with
  | [] => buffer
  | Explicit l :: _ => underscore_join buffer l
  | a :: r' => synthesize_from (underscore_join buffer (show a)) r'
  end.

(** src/codegen/name.rs:266-279 [synthesize_name] *)
Definition synthesize_name (p : path) : name := synthesize_from "" (rev p).

(** src/codegen/name.rs:282-288 : the loop of [trim], down from the innermost atom *)
Fixpoint upto_explicit (r : list atom) : list atom :=
  match r with
  | [] => []
  | Explicit l :: _ => [Explicit l]
  | a :: r' => a :: upto_explicit r'
  end.

(** src/codegen/name.rs:281-289 [trim] *)
Definition trim (p : path) : path := rev (upto_explicit (rev p)).

(** src/codegen/name.rs:364-370 [dedup] *)
Definition dedup (raw : name) (ix : nat) : name :=
  match ix with
  | 0 => raw
  | S _ => (raw ++ "__dupX" ++ decimal ix)%string
  end.

(** src/codegen/name.rs:250-261 [resolve], 334-338 [register_path] *)
Definition register_path (c : ctxt) : path * ctxt :=
  let identifier := synthesize_name (stack c) in
  let loc := trim (stack c) in
  let h := match lookup identifier (table c) with Some h => h | None => new_heap end in
  (loc, {| stack := stack c; table := store identifier (heap_insert h loc) (table c) |}).

(** src/codegen/name.rs:295-319 [find_name_for]; an error is [None] *)
Definition find_name_for (c : ctxt) (loc : path) : option (name * ctxt) :=
  let rawname := synthesize_name loc in
  match lookup rawname (table c) with
  | None => None
  | Some h =>
      match promote h (trim loc) with
      | None => None
      | Some (ix, h') =>
          Some (dedup rawname ix, {| stack := stack c; table := store rawname h' (table c) |})
      end
  end.

(** src/codegen/name.rs:321-330 [NameCtxt::get_priority]; the outer [None] is the panic *)
Definition get_priority (c : ctxt) (loc : path) : option (option nat) :=
  match lookup (synthesize_name loc) (table c) with
  | None => None
  | Some h => Some (heap_priority h (trim loc))
  end.

(** src/codegen/name.rs:343-360 [refine_path]: the path that [x] holds afterwards *)
Definition refine_path (c : ctxt) (x y : path) : option path :=
  if string_dec (synthesize_name x) (synthesize_name y) then
    match get_priority c x, get_priority c y with
    | Some px, Some py =>
        Some (match px, py with
              | Some i, Some j => if j <? i then y else x
              | None, Some _ => y
              | _, None => x
              end)
    | _, _ => None
    end
  else Some (if is_refinement x y then y else x).

(** src/codegen/path_names.rs:8-15 [NameGen] *)
Record gen := {
  ctx : ctxt;
  ctr : nat;
  rev_map : list (decl * (nat * path));
  remap : list (name * path) }.

(** src/codegen/path_names.rs:18-25 [NameGen::new] *)
Definition new_gen : gen := {| ctx := new_ctxt; ctr := 0; rev_map := []; remap := [] |}.

Fixpoint known (d : decl) (t : list (decl * (nat * path))) : option (nat * path) :=
  match t with
  | [] => None
  | (d', v) :: t' => if Nat.eq_dec d' d then Some v else known d t'
  end.

(** src/codegen/path_names.rs:52-107 [get_name] *)
Definition get_name (g : gen) (d : decl) : option ((name * (nat * bool)) * gen) :=
  match known d (rev_map g) with
  | Some (ix, orig_path) =>
      match find_name_for (ctx g) orig_path with
      | None => None
      | Some (nm, c1) =>
          let (path_here, c2) := register_path c1 in
          match lookup nm (remap g) with
          | Some prior =>
              match refine_path c2 prior path_here with
              | None => None
              | Some p =>
                  Some ((nm, (ix, false)),
                        {| ctx := c2; ctr := ctr g; rev_map := rev_map g; remap := store nm p (remap g) |})
              end
          | None =>
              Some ((nm, (ix, false)),
                    {| ctx := c2; ctr := ctr g; rev_map := rev_map g; remap := store nm path_here (remap g) |})
          end
      end
  | None =>
      let (loc, c1) := register_path (ctx g) in
      match find_name_for c1 loc with
      | None => None
      | Some (nm, c2) =>
          Some ((nm, (ctr g, true)),
                {| ctx := c2; ctr := S (ctr g);
                   rev_map := rev_map g ++ [(d, (ctr g, loc))];
                   remap := store nm loc (remap g) |})
      end
  end.

(** src/codegen/path_names.rs:27-40 [manifest_renaming_table]; [order] is the
    order in which the hashed map [name_remap] is traversed *)
Fixpoint manifest (c : ctxt) (order : list (name * path)) : option (list (name * name) * ctxt) :=
  match order with
  | [] => Some ([], c)
  | (k, v) :: rest =>
      match find_name_for c v with
      | None => None
      | Some (rename, c') =>
          match manifest c' rest with
          | None => None
          | Some (t, c'') => Some (store k rename t, c'')
          end
      end
  end.

(** src/codegen/rust_ast/rebind.rs:48-52 : a name is replaced if the table has an entry for it *)
Definition rebind (t : list (name * name)) (n : name) : name :=
  match lookup n t with Some n' => n' | None => n end.

(** src/codegen/mod.rs:3774-3800 : the names that the declared types are emitted under,
    before renaming, in the order of their indices; [rev_map] is in that order *)
Fixpoint emitted (c : ctxt) (ds : list (decl * (nat * path))) : option (list (decl * name) * ctxt) :=
  match ds with
  | [] => Some ([], c)
  | (d, (_, p)) :: ds' =>
      match find_name_for c p with
      | None => None
      | Some (nm, c') =>
          match emitted c' ds' with
          | None => None
          | Some (l, c'') => Some ((d, nm) :: l, c'')
          end
      end
  end.

(** src/codegen/mod.rs:3762-3905 [generate_code], what concerns names of types:
    the table of renamings, and each declared type with its final name *)
Definition finish (g : gen) (order : list (name * path))
  : option (list (name * name) * list (decl * name)) :=
  match manifest (ctx g) order with
  | None => None
  | Some (t, c) =>
      match emitted c (rev_map g) with
      | None => None
      | Some (l, _) => Some (t, map (fun dn => (fst dn, rebind t (snd dn))) l)
      end
  end.

(** What the elaborator does with the names while it walks formats and types:
    src/codegen/mod.rs:137-290 [lift_uvar], 4250-4725 [elaborate_format],
    4788-5180 [elaborate_expr]; [ORequest] is a call of [get_name] *)
Inductive op :=
| OPush (a : atom)
| OIncrement
| OEscape
| ORequest (d : decl).

Definition with_ctx (g : gen) (c : ctxt) : gen :=
  {| ctx := c; ctr := ctr g; rev_map := rev_map g; remap := remap g |}.

(** A history of such steps, with the answers to its requests. *)
Fixpoint run (g : gen) (ops : list op) : option (list (name * (nat * bool)) * gen) :=
  match ops with
  | [] => Some ([], g)
  | OPush a :: ops' => run (with_ctx g (push_atom (ctx g) a)) ops'
  | OIncrement :: ops' => run (with_ctx g (increment_index (ctx g))) ops'
  | OEscape :: ops' =>
      match escape (ctx g) with
      | None => None
      | Some c => run (with_ctx g c) ops'
      end
  | ORequest d :: ops' =>
      match get_name g d with
      | None => None
      | Some (a, g') =>
          match run g' ops' with
          | None => None
          | Some (l, g'') => Some (a :: l, g'')
          end
      end
  end.

(** ** Labels as identifiers *)

(** src/codegen/rust_ast/mod.rs:1043-1049 [is_valid]; characters beyond ASCII are left out *)
Definition is_digit (c : ascii) : bool :=
  (48 <=? nat_of_ascii c) && (nat_of_ascii c <=? 57).

Definition is_valid (ix : nat) (c : ascii) : bool :=
  if ascii_dec c "-" then false
  else if ascii_dec c "." then false
  else if ascii_dec c " " then false
  else if ascii_dec c "009" then false
  else if is_digit c then negb (ix =? 0)
  else true.

(** src/codegen/rust_ast/mod.rs:1020 : every character valid at its index *)
Fixpoint all_valid (ix : nat) (s : string) : bool :=
  match s with
  | EmptyString => true
  | String c s' => is_valid ix c && all_valid (S ix) s'
  end.

(** src/codegen/rust_ast/mod.rs:1030-1035 : the words that [remap] replaces *)
Definition reserved : list string :=
  ["as"; "async"; "await"; "break"; "const"; "continue"; "crate"; "dyn"; "else";
   "enum"; "extern"; "false"; "fn"; "for"; "if"; "impl"; "in"; "let"; "loop";
   "match"; "mod"; "move"; "mut"; "pub"; "ref"; "return"; "self"; "Self";
   "static"; "struct"; "super"; "trait"; "true"; "type"; "unsafe"; "use";
   "where"; "while"; "abstract"; "become"; "box"; "do"; "final"; "macro";
   "override"; "priv"; "try"; "typeof"; "unsized"; "virtual"; "yield"]%string.

(** src/codegen/rust_ast/mod.rs:1028-1040 [remap] *)
Definition escape_word (s : string) : string :=
  if in_dec string_dec s reserved then ("r#" ++ s)%string else s.

(** src/codegen/rust_ast/mod.rs:1053-1071 [replace_bad]: the loop; [len] is the
    number of characters pushed so far *)
Fixpoint replace_from (len : nat) (dashed : bool) (s : string) : string :=
  match s with
  | EmptyString => EmptyString
  | String c s' =>
      if is_digit c && (len =? 0) then String "_" (String c (replace_from (len + 2) false s'))
      else if is_valid len c then String c (replace_from (S len) false s')
      else if dashed then replace_from len dashed s'
      else String "_" (replace_from (S len) true s')
  end.

Definition replace_bad (s : string) : string := replace_from 0 false s.

(** src/codegen/rust_ast/mod.rs:1019-1025 [sanitize_label] *)
Definition sanitize (s : string) : string :=
  if all_valid 0 s then escape_word s else escape_word (replace_bad s).

(** src/codegen/mod.rs:3907-3909 [decoder_fname] *)
Definition decoder_fname (ix : nat) : name := ("Decoder" ++ decimal ix)%string.

(** src/codegen/mod.rs:3860-3875 : the loop that names decoder functions, given
    the first-pass name of the type each of them decodes to, if that has one;
    [used] is [fn_renames]; the result is the grown table of renamings *)
Fixpoint name_functions (used : list name) (t : list (name * name)) (ix : nat)
    (fns : list (option name)) : list (name * name) :=
  match fns with
  | [] => t
  | None :: fns' => name_functions used t (S ix) fns'
  | Some n :: fns' =>
      let replacement := ("Decoder_" ++ sanitize (rebind t n))%string in
      if in_dec string_dec replacement used
      then name_functions used t (S ix) fns'
      else name_functions (replacement :: used) (store (decoder_fname ix) replacement t) (S ix) fns'
  end.

(** src/codegen/mod.rs:3928 : a function starts out as [decoder_fname] of its
    index; 3902 : then the whole program is rebound *)
Definition function_names (t : list (name * name)) (fns : list (option name)) : list name :=
  let t' := name_functions [] t 0 fns in
  map (fun ix => rebind t' (decoder_fname ix)) (seq 0 (length fns)).
