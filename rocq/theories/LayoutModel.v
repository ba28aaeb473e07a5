(** What the code generator works out about the Rust types it declares: which of
    them are [Copy], how large and how aligned they are, and how many bytes of
    input a value is read from (src/codegen/rust_ast/analysis.rs and
    analysis/read_width.rs); and how a value of a type is taken out of a place
    that holds it (src/codegen/rust_ast/resolve.rs).
    The answers are remembered in a table shared by all questions.
    Sizes are unbounded here: the program's are [usize] on a 64-bit machine, and a
    type of 2^64 bytes or more would make it panic or wrap around. *)
From Coq Require Import String.
From Verif Require Import Base.
Open Scope nat_scope.

(** ** Types *)

(** src/codegen/rust_ast/mod.rs:1274-1290 [MachineUint] and 1360-1365 [MachineSint]:
    the width of a machine integer *)
Inductive mint := M8 | M16 | M32 | M64.
(** src/codegen/rust_ast/mod.rs:1293-1299 [enum PrimType] *)
Inductive primty := QUnit | QBool | QChar | QUnsigned (m : mint) | QUsize.
(** src/codegen/rust_ast/mod.rs:697-704 [enum RustType], with 1116-1121 [AtomType],
    1152-1155 [LocalType] and 1442-1449 [CompType] flattened into it. Names, lifetimes
    and the parameters of [Verbatim] and [ReadArray] are dropped: no analysis looks at
    them. [YBorrow true] is [&mut]. *)
Inductive rtype :=
| YPrim (p : primty)
| YSigned (m : mint)
| YVec (t : rtype)
| YRawSlice (t : rtype)
| YOption (t : rtype)
| YResult (t e : rtype)
| YBorrow (mutable : bool) (t : rtype)
| YPhantom (t : rtype)
| YLocal (ix : nat)
| YExternal
| YTuple (ts : list rtype)
| YVerbatim
| YReadArray
| YView.
(** src/codegen/rust_ast/mod.rs:1073-1076 [enum RustVariant], without its name *)
Inductive rvariant := XUnit | XTuple (ts : list rtype).
(** src/codegen/rust_ast/mod.rs:660-663 [enum RustTypeDef] and 984-986 [RustStruct] *)
Inductive rdef :=
| REnum (vs : list rvariant)
| RStruct (fields : list (string * rtype)).

(** src/codegen/rust_ast/analysis/read_width.rs:8-12 [enum ValueWidth] *)
Inductive vwidth := Varying (dyn : bool) | Fixed (n : N).

(** ** The table of answers *)

(** src/codegen/rust_ast/analysis.rs:47-57 [CacheEntry] and 59-62 [SourceContext]: an
    entry with no answer in it and a missing entry are told apart by the program only
    to decide how to store the answer. The answers of [heap_hint] are not modelled. *)
Record cache := {
  c_copy : nat -> option bool;
  c_niches : nat -> option N;
  c_size : nat -> option N;
  c_width : nat -> option vwidth;
  c_align : nat -> option N
}.
(** src/codegen/rust_ast/analysis.rs:126-133 [From<&[RustTypeDecl]>]: the table is empty *)
Definition fresh : cache :=
  {| c_copy _ := None; c_niches _ := None; c_size _ := None; c_width _ := None;
     c_align _ := None |}.

(** The outcome of a question: an answer and the table it leaves, a panic, or no
    answer within the fuel (the program would recur further) *)
Inductive ans (A : Type) :=
| Ans (a : A) (c : cache)
| Panics
| Unfinished.
Arguments Ans {A}. Arguments Panics {A}. Arguments Unfinished {A}.
Definition asking (A : Type) := cache -> ans A.
Definition ret {A} (a : A) : asking A := fun c => Ans a c.
Definition panic {A} : asking A := fun _ => Panics.
Definition bind {A B} (m : asking A) (k : A -> asking B) : asking B :=
  fun c => match m c with
           | Ans a c' => k a c'
           | Panics => Panics
           | Unfinished => Unfinished
           end.
Notation "'ask' x <- m ; k" := (bind m (fun x => k))
  (at level 200, x name, m at level 100, k at level 200).

(** Storing one answer *)
Definition put {X} (f : nat -> option X) (ix : nat) (x : X) : nat -> option X :=
  fun j => if j =? ix then Some x else f j.

(** src/codegen/rust_ast/analysis.rs:64-90 [cache_get!] *)
Definition cache_get {X} (rd : cache -> nat -> option X)
    (wr : cache -> nat -> X -> cache) (defs : list rdef)
    (compute : rdef -> asking X) (ix : nat) : asking X :=
  fun c =>
    match rd c ix with
    | Some x => Ans x c
    | None =>
        match nth_error defs ix with
        | None => Panics
        | Some d =>
            match compute d c with
            | Ans x c' => Ans x (wr c' ix x)
            | Panics => Panics
            | Unfinished => Unfinished
            end
        end
    end.

Definition wr_copy (c : cache) (ix : nat) (x : bool) : cache :=
  {| c_copy := put (c_copy c) ix x; c_niches := c_niches c; c_size := c_size c;
     c_width := c_width c; c_align := c_align c |}.
Definition wr_niches (c : cache) (ix : nat) (x : N) : cache :=
  {| c_copy := c_copy c; c_niches := put (c_niches c) ix x; c_size := c_size c;
     c_width := c_width c; c_align := c_align c |}.
Definition wr_size (c : cache) (ix : nat) (x : N) : cache :=
  {| c_copy := c_copy c; c_niches := c_niches c; c_size := put (c_size c) ix x;
     c_width := c_width c; c_align := c_align c |}.
Definition wr_width (c : cache) (ix : nat) (x : vwidth) : cache :=
  {| c_copy := c_copy c; c_niches := c_niches c; c_size := c_size c;
     c_width := put (c_width c) ix x; c_align := c_align c |}.
Definition wr_align (c : cache) (ix : nat) (x : N) : cache :=
  {| c_copy := c_copy c; c_niches := c_niches c; c_size := c_size c;
     c_width := c_width c; c_align := put (c_align c) ix x |}.

(** The contents of a definition, as the analyses walk them *)
Definition field_types (fields : list (string * rtype)) : list rtype := map snd fields.

(** [Iterator::all] and [Iterator::map] *)
Section Walks.
  Context {A B : Type} (p : A -> asking bool) (f : A -> asking B).
  Fixpoint all_asked (l : list A) : asking bool :=
    match l with
    | [] => ret true
    | x :: l => ask b <- p x; if b then all_asked l else ret false
    end.
  Fixpoint map_asked (l : list A) : asking (list B) :=
    match l with
    | [] => ret []
    | x :: l => ask y <- f x; ask ys <- map_asked l; ret (y :: ys)
    end.
End Walks.

(** ** Copy *)

(** src/codegen/model.rs:11 and 15 *)
Definition read_array_is_copy : bool := true.
Definition view_object_is_copy : bool := true.

(** src/codegen/rust_ast/analysis.rs:211-223 [copy_hint] of [RustType], with 260-269
    [AtomType], 332-340 [PrimType], 374-381 and 415-422 the machine integers, 495-513
    [CompType] and 551-562 [LocalType] *)
Fixpoint copy_type (local : nat -> asking bool) (t : rtype) : asking bool :=
  match t with
  | YPrim _ => ret true
  | YSigned _ => ret true
  | YVec _ => ret false
  | YRawSlice _ => panic
  | YOption t => copy_type local t
  | YResult t e =>
      ask a <- copy_type local t; if a then copy_type local e else ret false
  | YBorrow false _ => ret true
  | YBorrow true _ => panic
  | YPhantom _ => ret true
  | YLocal ix => local ix
  | YExternal => panic
  | YTuple ts => all_asked (copy_type local) ts
  | YVerbatim => panic
  | YReadArray => ret read_array_is_copy
  | YView => ret view_object_is_copy
  end.
(** src/codegen/rust_ast/analysis.rs:685-692 [copy_hint] of [RustVariant] *)
Definition copy_variant (local : nat -> asking bool) (v : rvariant) : asking bool :=
  match v with
  | XUnit => ret true
  | XTuple ts => all_asked (copy_type local) ts
  end.
(** src/codegen/rust_ast/analysis.rs:635-642 [copy_hint] of [RustTypeDef] and 733-739 of
    [RustStruct] *)
Definition copy_def (local : nat -> asking bool) (d : rdef) : asking bool :=
  match d with
  | RStruct fields => all_asked (copy_type local) (field_types fields)
  | REnum vs => all_asked (copy_variant local) vs
  end.
(** src/codegen/rust_ast/analysis.rs:113-115 [get_copy] *)
Fixpoint get_copy (fuel : nat) (defs : list rdef) (ix : nat) : asking bool :=
  match fuel with
  | 0 => fun _ => Unfinished
  | S fuel =>
      cache_get c_copy wr_copy defs (copy_def (get_copy fuel defs)) ix
  end.

(** ** Alignments *)

(** [std::mem::size_of] and [align_of] of a machine integer of the target *)
Definition mint_bytes (m : mint) : N :=
  match m with M8 => 1 | M16 => 2 | M32 => 4 | M64 => 8 end%N.

(** src/codegen/rust_ast/analysis.rs:318-329 [align_hint] of [PrimType]; [one_to_one!] at
    271-282 *)
Definition prim_align (p : primty) : N :=
  match p with
  | QUnit => 1
  | QBool => 1
  | QChar => 4
  | QUnsigned m => mint_bytes m
  | QUsize => 8
  end%N.
(** src/codegen/rust_ast/analysis.rs:305-316 [size_hint] of [PrimType] *)
Definition prim_size (p : primty) : N :=
  match p with
  | QUnit => 0
  | QBool => 1
  | QChar => 4
  | QUnsigned m => mint_bytes m
  | QUsize => 8
  end%N.

(** The largest of a list, at least 1: [.max().unwrap_or(1)] and the loops that start
    from 1. The two differ only where an alignment is 0, which none is. *)
Definition max1 (l : list N) : N := fold_left N.max l 1%N.

(** src/codegen/rust_ast/analysis.rs:189-208 [align_hint] of [RustType], 250-257
    [AtomType], 457-466 [CompType] and 541-548 [LocalType] *)
Fixpoint align_type (local : nat -> asking N) (t : rtype) : asking N :=
  match t with
  | YPrim p => ret (prim_align p)
  | YSigned m => ret (mint_bytes m)
  | YVec _ => ret 8%N
  | YRawSlice _ => panic
  | YOption t => align_type local t
  | YResult _ _ => panic
  | YBorrow _ _ => ret 8%N
  | YPhantom _ => ret 1%N
  | YLocal ix => local ix
  | YExternal => panic
  | YTuple ts => ask l <- map_asked (align_type local) ts; ret (max1 l)
  | YVerbatim => panic
  | YReadArray => ret 8%N
  | YView => ret 8%N
  end.
(** src/codegen/rust_ast/analysis.rs:673-682 [align_hint] of [RustVariant] *)
Definition align_variant (local : nat -> asking N) (v : rvariant) : asking N :=
  match v with
  | XUnit => ret 1%N
  | XTuple ts => ask l <- map_asked (align_type local) ts; ret (max1 l)
  end.
(** src/codegen/rust_ast/analysis.rs:623-632 [align_hint] of [RustTypeDef] and 722-730 of
    [RustStruct] *)
Definition align_def (local : nat -> asking N) (d : rdef) : asking N :=
  match d with
  | RStruct fields =>
      ask l <- map_asked (align_type local) (field_types fields); ret (max1 l)
  | REnum vs => ask l <- map_asked (align_variant local) vs; ret (max1 l)
  end.
(** src/codegen/rust_ast/analysis.rs:109-111 [get_align] *)
Fixpoint get_align (fuel : nat) (defs : list rdef) (ix : nat) : asking N :=
  match fuel with
  | 0 => fun _ => Unfinished
  | S fuel =>
      cache_get c_align wr_align defs (align_def (get_align fuel defs)) ix
  end.

(** ** Niches *)

(** [usize::MAX] *)
Definition usize_max : N := (2 ^ 64 - 1)%N.
(** [usize::saturating_add] and [usize::saturating_mul] *)
Definition sat_add (a b : N) : N := N.min (a + b) usize_max.
Definition sat_mul (a b : N) : N := N.min (a * b) usize_max.

(** src/codegen/rust_ast/analysis.rs:17-21 [niche_product] *)
Definition niche_product (l : list N) : N :=
  (fold_left sat_mul (map (fun x => sat_add x 1) l) 1 - 1)%N.
(** src/codegen/rust_ast/analysis.rs:23-25 [niche_sum] *)
Definition niche_sum (l : list N) : N := fold_left sat_add l 0%N.

(** src/codegen/rust_ast/analysis.rs:289 [UTF16_SCALAR_MAX] *)
Definition utf16_scalar_max : N := 69631%N.
(** src/codegen/rust_ast/analysis.rs:291-302 [niches] of [PrimType] *)
Definition prim_niches (p : primty) : N :=
  match p with
  | QUnit => 0
  | QBool => 254
  | QChar => (2 ^ 32 - 1) - utf16_scalar_max
  | QUsize => 0
  | QUnsigned _ => 0
  end%N.
(** src/codegen/rust_ast/analysis.rs:480-484: the niches of an [Option] of a type without
    niches *)
Definition tag_niches (align : N) : asking N :=
  if ((1 <=? align) && (align <=? 7))%N then ret (2 ^ (8 * align) - 1)%N
  else if (align =? 8)%N then ret usize_max
  else panic.

(** src/codegen/rust_ast/analysis.rs:139-152 [niches] of [RustType], 229-238 [AtomType],
    469-493 [CompType] and 519-529 [LocalType]. [ReadArray] and [ViewObject] are given one
    niche. *)
Fixpoint niches_type (align local : nat -> asking N) (t : rtype) : asking N :=
  match t with
  | YPrim p => ret (prim_niches p)
  | YSigned _ => ret 0%N
  | YVec _ => ret usize_max
  | YRawSlice _ => panic
  | YOption t =>
      ask n <- niches_type align local t;
      if (n =? 0)%N then ask a <- align_type align t; tag_niches a
      else ret (n - 1)%N
  | YResult _ _ => panic
  | YBorrow _ _ => ret 1%N
  | YPhantom _ => ret 0%N
  | YLocal ix => local ix
  | YExternal => panic
  | YTuple ts => ask l <- map_asked (niches_type align local) ts; ret (niche_product l)
  | YVerbatim => ret 0%N
  | YReadArray => ret 1%N
  | YView => ret 1%N
  end.
(** src/codegen/rust_ast/analysis.rs:648-655 [niches] of [RustVariant] *)
Definition niches_variant (align local : nat -> asking N) (v : rvariant) : asking N :=
  match v with
  | XUnit => ret 0%N
  | XTuple ts => ask l <- map_asked (niches_type align local) ts; ret (niche_product l)
  end.
(** src/codegen/rust_ast/analysis.rs:594-602 [niches] of [RustTypeDef] and 698-705 of
    [RustStruct] *)
Definition niches_def (align local : nat -> asking N) (d : rdef) : asking N :=
  match d with
  | RStruct fields =>
      ask l <- map_asked (niches_type align local) (field_types fields);
      ret (niche_product l)
  | REnum vs => ask l <- map_asked (niches_variant align local) vs; ret (niche_sum l)
  end.
(** src/codegen/rust_ast/analysis.rs:97-99 [get_niches] *)
Fixpoint get_niches (fuel : nat) (defs : list rdef) (ix : nat) : asking N :=
  match fuel with
  | 0 => fun _ => Unfinished
  | S fuel =>
      cache_get c_niches wr_niches defs
        (niches_def (get_align fuel defs) (get_niches fuel defs)) ix
  end.

(** ** Sizes *)

(** src/codegen/rust_ast/analysis.rs:741-744 [aligned_size] *)
Definition aligned_size (size align : N) : N :=
  N.ldiff (size + align - 1) (align - 1).

(** src/codegen/rust_ast/analysis.rs:158-166: the sizes of the parts are added up and the
    sum is aligned; the parts' sizes and alignments are asked in turn *)
Definition parts_size (l : list (N * N)) : N :=
  aligned_size (fold_left N.add (map fst l) 0%N) (max1 (map snd l)).

(** src/codegen/rust_ast/analysis.rs:155-187 [size_hint] of [RustType], 241-248
    [AtomType], 440-455 [CompType] and 531-539 [LocalType]. A [Vec] is three words, and a
    reference one even where it points to a slice; a [ReadArray] is five words and a
    [ViewObject] three. *)
Fixpoint size_type (align niches local : nat -> asking N) (t : rtype) : asking N :=
  match t with
  | YPrim p => ret (prim_size p)
  | YSigned m => ret (mint_bytes m)
  | YVec _ => ret 24%N
  | YRawSlice _ => panic
  | YOption t =>
      ask n <- niches_type align niches t;
      if (0 <? n)%N then size_type align niches local t
      else
        ask s <- size_type align niches local t;
        ask a <- align_type align t;
        ret (s + a)%N
  | YResult _ _ => panic
  | YBorrow _ _ => ret 8%N
  | YPhantom _ => ret 0%N
  | YLocal ix => local ix
  | YExternal => panic
  | YTuple ts =>
      ask l <- map_asked (fun t => ask s <- size_type align niches local t;
                                   ask a <- align_type align t; ret (s, a)) ts;
      ret (parts_size l)
  | YVerbatim => panic
  | YReadArray => ret 40%N
  | YView => ret 24%N
  end.
(** The size and then the alignment of each part *)
Definition sized_parts (align niches local : nat -> asking N) (ts : list rtype)
    : asking (list (N * N)) :=
  map_asked (fun t => ask s <- size_type align niches local t;
                      ask a <- align_type align t; ret (s, a)) ts.
(** src/codegen/rust_ast/analysis.rs:658-671 [size_hint] of [RustVariant] *)
Definition size_variant (align niches local : nat -> asking N) (v : rvariant) : asking N :=
  match v with
  | XUnit => ret 0%N
  | XTuple ts => ask l <- sized_parts align niches local ts; ret (parts_size l)
  end.
(** src/codegen/rust_ast/analysis.rs:605-621 [size_hint] of [RustTypeDef] and 708-720 of
    [RustStruct] *)
Definition size_def (align niches local : nat -> asking N) (d : rdef) : asking N :=
  match d with
  | RStruct fields =>
      ask l <- sized_parts align niches local (field_types fields); ret (parts_size l)
  | REnum vs =>
      ask ss <- map_asked (size_variant align niches local) vs;
      ask al <- map_asked (align_variant align) vs;
      ret (aligned_size (fold_left N.max ss 0 + 1) (max1 al))%N
  end.
(** src/codegen/rust_ast/analysis.rs:101-103 [get_size] *)
Fixpoint get_size (fuel : nat) (defs : list rdef) (ix : nat) : asking N :=
  match fuel with
  | 0 => fun _ => Unfinished
  | S fuel =>
      cache_get c_size wr_size defs
        (size_def (get_align fuel defs) (get_niches fuel defs) (get_size fuel defs)) ix
  end.

(** ** Read widths *)

(** src/codegen/rust_ast/analysis/read_width.rs:26-33 [obfuscate], as the flag it leaves *)
Definition dynamic (w : vwidth) : bool :=
  match w with Varying d => d | Fixed _ => false end.
(** src/codegen/rust_ast/analysis/read_width.rs:36-55 [Add] *)
Definition width_add (a b : vwidth) : vwidth :=
  match a, b with
  | Fixed a, Fixed b => Fixed (a + b)%N
  | _, _ => Varying (dynamic a || dynamic b)
  end.
(** src/codegen/rust_ast/analysis/read_width.rs:57-82 [BitAnd] *)
Definition width_and (a b : vwidth) : vwidth :=
  match a, b with
  | Fixed m, Fixed n => if (m =? n)%N then Fixed m else Varying true
  | _, _ => Varying (dynamic a || dynamic b)
  end.
(** src/codegen/rust_ast/analysis/read_width.rs:19-24 [as_fixed] *)
Definition as_fixed (w : vwidth) : option N :=
  match w with Varying _ => None | Fixed n => Some n end.

(** src/codegen/rust_ast/analysis/read_width.rs:125-135 [read_width] of [PrimType] *)
Definition prim_width (p : primty) : vwidth :=
  match p with
  | QUnsigned m => Fixed (mint_bytes m)
  | QUnit => Fixed 0
  | QBool => Varying false
  | QChar => Varying false
  | QUsize => Varying false
  end.
(** src/codegen/rust_ast/analysis/read_width.rs:90-112 [read_width] of [RustType], 114-123
    [AtomType], 148-157 [MachineSint], 159-170 [CompType] and 172-179 [LocalType] *)
Fixpoint width_type (local : nat -> asking vwidth) (t : rtype) : asking vwidth :=
  match t with
  | YPrim p => ret (prim_width p)
  | YSigned m => ret (Fixed (mint_bytes m))
  | YVec _ => ret (Varying true)
  | YRawSlice _ => ret (Varying false)
  | YOption _ => ret (Varying false)
  | YResult _ _ => panic
  | YBorrow _ _ => ret (Varying false)
  | YPhantom _ => ret (Fixed 0)
  | YLocal ix => local ix
  | YExternal => panic
  | YTuple ts =>
      ask l <- map_asked (width_type local) ts; ret (fold_left width_add l (Fixed 0))
  | YVerbatim => panic
  | YReadArray => ret (Varying false)
  | YView => ret (Varying false)
  end.
(** src/codegen/rust_ast/analysis/read_width.rs:206-219 [read_width] of [RustVariant] *)
Definition width_variant (local : nat -> asking vwidth) (v : rvariant) : asking vwidth :=
  match v with
  | XUnit => ret (Fixed 0)
  | XTuple ts =>
      ask l <- map_asked (width_type local) ts; ret (fold_left width_add l (Fixed 0))
  end.
(** src/codegen/rust_ast/analysis/read_width.rs:187-204 [read_width] of [RustTypeDef] and
    221-230 of [RustStruct] *)
Definition width_def (local : nat -> asking vwidth) (d : rdef) : asking vwidth :=
  match d with
  | RStruct fields =>
      ask l <- map_asked (width_type local) (field_types fields);
      ret (fold_left width_add l (Fixed 0))
  | REnum vs =>
      match vs with
      | [] => panic
      | v :: vs =>
          ask w <- width_variant local v;
          ask l <- map_asked (width_variant local) vs;
          ret (fold_left width_and l w)
      end
  end.
(** src/codegen/rust_ast/analysis.rs:105-107 [get_width] *)
Fixpoint get_width (fuel : nat) (defs : list rdef) (ix : nat) : asking vwidth :=
  match fuel with
  | 0 => fun _ => Unfinished
  | S fuel =>
      cache_get c_width wr_width defs (width_def (get_width fuel defs)) ix
  end.

(** ** A run of questions *)

(** The questions put to one [SourceContext] (src/codegen/rust_ast/analysis.rs:97-115;
    src/codegen/mod.rs:3773-3815): about a declared type *)
Inductive question :=
| QCopy (ix : nat)
| QNiches (ix : nat)
| QSize (ix : nat)
| QWidth (ix : nat)
| QAlign (ix : nat).
(** Their answers *)
Inductive reply := AFlag (b : bool) | ANumber (n : N) | AWidth (w : vwidth).

Definition answer (fuel : nat) (defs : list rdef) (q : question) : asking reply :=
  match q with
  | QCopy ix => ask b <- get_copy fuel defs ix; ret (AFlag b)
  | QNiches ix => ask n <- get_niches fuel defs ix; ret (ANumber n)
  | QSize ix => ask n <- get_size fuel defs ix; ret (ANumber n)
  | QWidth ix => ask w <- get_width fuel defs ix; ret (AWidth w)
  | QAlign ix => ask n <- get_align fuel defs ix; ret (ANumber n)
  end.
(** The questions in turn, each on the table the last one left *)
Definition answers (fuel : nat) (defs : list rdef) (qs : list question)
    : asking (list reply) := map_asked (answer fuel defs) qs.

(** src/codegen/mod.rs:3801-3807: [derive(Copy)] is asked of each declaration itself, not
    through the table; the types are declared in order *)
Definition derives (fuel : nat) (defs : list rdef) : asking (list bool) :=
  map_asked (copy_def (get_copy fuel defs)) defs.

(** ** Taking a value out of a place *)

(** src/codegen/rust_ast/mod.rs:1845-1861 [enum Lens]: where a value is, from a place
    whose type is known *)
Inductive lens :=
| LGround (t : rtype)
| LElem (l : lens)
| LField (name : string) (l : lens)
| LPos (ix : nat) (l : lens)
| LParam (l : lens).

(** src/codegen/rust_ast/resolve.rs:378-390 [get_elem] *)
Fixpoint get_elem (t : rtype) : option rtype :=
  match t with
  | YRawSlice t | YVec t => Some t
  | YBorrow _ t => get_elem t
  | _ => None
  end.
(** src/codegen/rust_ast/resolve.rs:345-376 [get_field] and [get_field_def] *)
Fixpoint get_field (defs : list rdef) (name : string) (t : rtype) : option rtype :=
  match t with
  | YLocal ix =>
      match nth_error defs ix with
      | Some (RStruct fields) =>
          match find (fun f => String.eqb (fst f) name) fields with
          | Some (_, t) => Some t
          | None => None
          end
      | _ => None
      end
  | YBorrow _ t => get_field defs name t
  | _ => None
  end.
(** src/codegen/rust_ast/resolve.rs:403-409 [get_pos] *)
Fixpoint get_pos (ix : nat) (t : rtype) : option rtype :=
  match t with
  | YTuple ts => nth_error ts ix
  | YBorrow _ t => get_pos ix t
  | _ => None
  end.
(** src/codegen/rust_ast/resolve.rs:392-401 [get_param] *)
Fixpoint get_param (t : rtype) : option rtype :=
  match t with
  | YOption t => Some t
  | YBorrow _ t => get_param t
  | _ => None
  end.
(** src/codegen/rust_ast/resolve.rs:323-343 [expand_lens]; [None] is a panic *)
Fixpoint expand_lens (defs : list rdef) (l : lens) : option rtype :=
  match l with
  | LGround t => Some t
  | LElem l => match expand_lens defs l with Some t => get_elem t | None => None end
  | LField name l =>
      match expand_lens defs l with Some t => get_field defs name t | None => None end
  | LPos ix l => match expand_lens defs l with Some t => get_pos ix t | None => None end
  | LParam l => match expand_lens defs l with Some t => get_param t | None => None end
  end.

(** src/codegen/rust_ast/resolve.rs:253-321 [solve_type]: whether the value is [Copy] and
    whether it is behind a reference *)
Fixpoint solve_type (local : nat -> asking bool) (t : rtype) : asking (bool * bool) :=
  match t with
  | YPrim _ | YSigned _ => ret (true, false)
  | YLocal ix => ask b <- local ix; ret (b, false)
  | YExternal => panic
  | YVec _ => ret (false, false)
  | YRawSlice t => ask s <- solve_type local t; ret (fst s, false)
  | YOption t | YResult t _ => ask s <- solve_type local t; ret (fst s, false)
  | YBorrow _ t => ask s <- solve_type local t; ret (fst s, true)
  | YPhantom _ => ret (true, false)
  | YTuple ts =>
      ask l <- map_asked (solve_type local) ts; ret (forallb fst l, false)
  | YReadArray => ret (read_array_is_copy, false)
  | YView => ret (view_object_is_copy, false)
  | YVerbatim => panic
  end.
(** src/codegen/rust_ast/mod.rs:1837-1843 [enum OwnedKind], once resolved *)
Inductive owned := Cloned | Copied | Deref.
(** src/codegen/rust_ast/resolve.rs:235-250 [resolve] of [OwnedRustExpr], with 411-414
    [solve_lens] *)
Definition resolve (fuel : nat) (defs : list rdef) (l : lens) : asking owned :=
  match expand_lens defs l with
  | None => panic
  | Some t =>
      ask s <- solve_type (get_copy fuel defs) t;
      ret (if fst s then (if snd s then Deref else Copied) else Cloned)
  end.
