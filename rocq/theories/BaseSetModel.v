(** Model of src/typecheck/base_set.rs: sets of candidate integer types with
    preferences, as they are used by type inference. *)
From Verif Require Import Base BoundsModel NumericModel ValueModel.
Open Scope nat_scope.

(** ** Ranks *)

(** src/typecheck/base_set.rs:259-264 [enum Rank]: [None] is [Excluded] and
    [Some n] is [At(n)]. *)
Definition rank := option nat.
(** src/typecheck/base_set.rs:267-269 [is_excluded] *)
Definition is_excluded (r : rank) : bool := match r with None => true | _ => false end.
(** src/typecheck/base_set.rs:282-292 [Ord::cmp]: lower numbers are greater. *)
Definition rank_cmp (a b : rank) : comparison :=
  match a, b with
  | Some n, Some m => CompOpp (Nat.compare n m)
  | Some _, None => Gt
  | None, Some _ => Lt
  | None, None => Eq
  end.
(** [a >= b] and [a < b] on ranks, from [cmp]. *)
Definition rank_geb (a b : rank) : bool := match rank_cmp a b with Lt => false | _ => true end.
Definition rank_ltb (a b : rank) : bool := match rank_cmp a b with Lt => true | _ => false end.
(** src/typecheck.rs:36-38 [min_max] *)
Definition min_max (a b : rank) : rank * rank := if rank_ltb a b then (a, b) else (b, a).

(** ** Ranked sets *)

(** src/typecheck/base_set.rs:297-300 [struct UintSet] and 488-491 [struct
    PrimIntSet]: arrays of four and of eight ranks; both are lists here, and the
    methods the two have in common are modelled once. *)
Definition rset := list rank.

(** src/typecheck/base_set.rs:420-431 and 609-620 [normalize]; the cast to [u8]
    is exact, there being at most eight members. *)
Definition normalize (s : rset) : rset :=
  map (fun r => match r with
                | None => None
                | Some _ => Some (length (filter (fun r' => rank_geb r' r) s) - 1)
                end) s.

(** src/typecheck/base_set.rs:435-446 and 624-635 [intersection] *)
Definition intersection (a b : rset) : rset :=
  normalize (map (fun p => let '(lo, hi) := min_max (fst p) (snd p) in
                           if is_excluded lo then None else hi)
                 (combine (normalize a) (normalize b))).

(** src/typecheck/base_set.rs:382-392 and 545-559 [is_empty] *)
Definition rs_is_empty (s : rset) : bool := forallb is_excluded s.

(** The elements of a list with their positions from [i] on ([enumerate]). *)
Fixpoint enumerate {A} (i : nat) (s : list A) : list (nat * A) :=
  match s with [] => [] | x :: r => (i, x) :: enumerate (S i) r end.

(** src/typecheck/base_set.rs:401-410 and 573-582 [as_singleton], giving the
    position of the member rather than the member. *)
Definition as_singleton_ix (s : rset) : option nat :=
  match filter (fun p => negb (is_excluded (snd p))) (enumerate 0 (normalize s)) with
  | [(i, _)] => Some i
  | _ => None
  end.

(** src/typecheck/base_set.rs:455-483 and 644-672 [get_unique_solution]: one round
    of the loop over the variables [candidate], [max_rank] and [is_unique], and the
    whole, giving the position of the solution. *)
Definition solution_step (st : option nat * rank * bool) (p : nat * rank) : option nat * rank * bool :=
  let '(candidate, max_rank, is_unique) := st in
  let '(ix, r) := p in
  match r with
  | None => st
  | Some _ =>
    match rank_cmp r max_rank with
    | Gt => (Some ix, r, true)
    | Lt => st
    | Eq => (candidate, max_rank, false)
    end
  end.
Definition unique_solution_ix (s : rset) : option nat :=
  match fold_left solution_step (enumerate 0 (normalize s)) (None, None, true) with
  | (Some ix, _, true) => Some ix
  | _ => None
  end.

(** ** [UintSet] *)

(** The position of a width in the array: [BitWidth as usize]. *)
Definition width_ix (w : bitwidth) : nat := match w with B8 => 0 | B16 => 1 | B32 => 2 | B64 => 3 end.
(** src/typecheck/base_set.rs:306-307 [IX_ORDER] *)
Definition uint_order : list basetype := [TU B8; TU B16; TU B32; TU B64].

(** src/typecheck/base_set.rs:311-329 the constants *)
Definition U_ANY : rset := [Some 3; Some 3; Some 3; Some 3].
Definition U_EMPTY : rset := [None; None; None; None].
Definition U_SHORT8 : rset := [Some 0; Some 1; None; None].
(** src/typecheck/base_set.rs:333-341 [any_default] *)
Definition any_default (w : bitwidth) : rset :=
  match w with
  | B8 => [Some 0; Some 3; Some 3; Some 3]
  | B16 => [Some 3; Some 0; Some 3; Some 3]
  | B32 => [Some 3; Some 3; Some 0; Some 3]
  | B64 => [Some 3; Some 3; Some 3; Some 0]
  end.
(** src/typecheck/base_set.rs:346-354 [at_least] *)
Definition at_least (w : bitwidth) : rset :=
  match w with
  | B8 => [Some 3; Some 3; Some 3; Some 3]
  | B16 => [None; Some 2; Some 2; Some 2]
  | B32 => [None; None; Some 1; Some 1]
  | B64 => [None; None; None; Some 0]
  end.
(** src/typecheck/base_set.rs:358-371 [to_prim_int_set] *)
Definition to_prim_int_set (s : rset) : rset := firstn 4 s ++ [None; None; None; None].

(** src/typecheck/base_set.rs:377-379 [UintSet::contains], with [int_width]
    (704-712), which is [unreachable!] on types that are not integers. *)
Definition uint_contains (s : rset) (b : basetype) : outcome bool :=
  match b with
  | TU w => Val (negb (is_excluded (nth (width_ix w) s None)))
  | _ => Panic
  end.
Definition uint_as_singleton (s : rset) : option basetype :=
  match as_singleton_ix s with Some i => nth_error uint_order i | None => None end.
Definition uint_unique_solution (s : rset) : option basetype :=
  match unique_solution_ix s with Some i => nth_error uint_order i | None => None end.

(** ** [PrimIntSet] *)

(** src/numeric/elaborator.rs:79-88 [PRIM_INTS]; a [PrimInt] is the machine
    representation of the same name. *)
Definition prim_ints : list mrep := [rU8; rU16; rU32; rU64; rI8; rI16; rI32; rI64].
(** src/typecheck/base_set.rs:689-700 [prim_as_index] *)
Definition prim_as_index (p : mrep) : nat :=
  match is_signed p, bit_width p with
  | false, B8 => 0 | false, B16 => 1 | false, B32 => 2 | false, B64 => 3
  | true, B8 => 4 | true, B16 => 5 | true, B32 => 6 | true, B64 => 7
  end.
(** src/typecheck/base_set.rs:524-527 [ANY] and 537-539 [EMPTY] *)
Definition P_ANY : rset := repeat (Some 7) 8.
Definition P_EMPTY : rset := repeat None 8.
(** src/typecheck/base_set.rs:562-564 [PrimIntSet::contains] *)
Definition prim_contains (s : rset) (p : mrep) : bool :=
  negb (is_excluded (nth (prim_as_index p) s None)).
Definition prim_as_singleton (s : rset) : option mrep :=
  match as_singleton_ix s with Some i => nth_error prim_ints i | None => None end.
Definition prim_unique_solution (s : rset) : option mrep :=
  match unique_solution_ix s with Some i => nth_error prim_ints i | None => None end.
(** src/typecheck/base_set.rs:587-590 [to_uint_set] *)
Definition to_uint_set (s : rset) : rset := normalize (firstn 4 s).
(** src/typecheck/base_set.rs:602-604 [remove] *)
Fixpoint set_nth {A} (i : nat) (x : A) (s : list A) : list A :=
  match s, i with
  | [], _ => []
  | _ :: r, O => x :: r
  | y :: r, S i' => y :: set_nth i' x r
  end.
Definition prim_remove (s : rset) (p : mrep) : rset := set_nth (prim_as_index p) None s.

(** ** [BaseSet] and [IntSet] *)

(** src/typecheck/base_set.rs:14-19 [enum BaseSet] *)
Inductive baseset := BSingle (b : basetype) | BU (s : rset).
(** src/typecheck/base_set.rs:116-120 [enum IntSet] *)
Inductive intset := ISingle (p : mrep) | IZ (s : rset).

(** [derive(PartialEq)] on [BaseType] *)
Definition basetype_eqb (a b : basetype) : bool :=
  match a, b with
  | TBool, TBool | TChar, TChar => true
  | TU x, TU y => bw_eqb x y
  | _, _ => false
  end.

(** The result of an operation that can fail and can panic. The error is not
    modelled. *)
Inductive tcres (A : Type) := TOk (a : A) | TErr | TPanic.
Arguments TOk {A}. Arguments TErr {A}. Arguments TPanic {A}.

(** src/typecheck/base_set.rs:23-28 [BaseSet::contains] *)
Definition bs_contains (s : baseset) (b : basetype) : outcome bool :=
  match s with
  | BSingle b' => Val (basetype_eqb b' b)
  | BU u => uint_contains u b
  end.
(** src/typecheck/base_set.rs:31-36 [BaseSet::is_empty] *)
Definition bs_is_empty (s : baseset) : bool :=
  match s with BSingle _ => false | BU u => rs_is_empty u end.
(** src/typecheck/base_set.rs:50-74 [BaseSet::unify] *)
Definition bs_unify (a b : baseset) : tcres baseset :=
  match a, b with
  | BSingle b1, BSingle b2 => if basetype_eqb b1 b2 then TOk a else TErr
  | BU u, BSingle x | BSingle x, BU u =>
    match uint_contains u x with
    | Val true => TOk (BSingle x)
    | Val false => TErr
    | Panic => TPanic
    end
  | BU u1, BU u2 => TOk (BU (intersection u1 u2))
  end.
(** src/typecheck/base_set.rs:99-112 [BaseSet::get_unique_solution] *)
Definition bs_unique_solution (s : baseset) : tcres basetype :=
  match s with
  | BSingle b => TOk b
  | BU u => if rs_is_empty u then TErr
            else match uint_unique_solution u with Some b => TOk b | None => TErr end
  end.

(** [PartialEq] on [PrimInt] *)
Definition prim_eqb (a b : mrep) : bool := mrep_eqb a b.
(** src/typecheck/base_set.rs:129-134 [IntSet::contains] *)
Definition is_contains (s : intset) (p : mrep) : bool :=
  match s with ISingle q => prim_eqb q p | IZ z => prim_contains z p end.
(** src/typecheck/base_set.rs:231-236 [IntSet::is_empty] *)
Definition is_is_empty (s : intset) : bool :=
  match s with ISingle _ => false | IZ z => rs_is_empty z end.
(** src/typecheck/base_set.rs:142-160 [IntSet::from_bounds]; the bounds of a
    machine type are never reversed, so [is_encompassed_by] does not panic. *)
Definition from_bounds (b : zbounds) : outcome intset :=
  obind (ofoldM (fun s p =>
           omap (fun inside : bool => if inside then s else prim_remove s p)
                (zb_is_encompassed_by b (as_bounds p))) P_ANY prim_ints) (fun set =>
  let ret := normalize set in
  Val (match prim_as_singleton ret with Some p => ISingle p | None => IZ ret end)).
(** src/typecheck/base_set.rs:777-786 [PrimInt::try_from(BaseType)] *)
Definition prim_of_base (b : basetype) : option mrep :=
  match b with TU w => Some (MR false w) | _ => None end.
(** src/typecheck/base_set.rs:752-760 [BaseType::try_from(PrimInt)] *)
Definition base_of_prim (p : mrep) : option basetype :=
  if is_signed p then None else Some (TU (bit_width p)).
(** src/typecheck/base_set.rs:178-189 [try_from_base_set] *)
Definition is_of_bs (s : baseset) : tcres intset :=
  match s with
  | BSingle b => match prim_of_base b with Some p => TOk (ISingle p) | None => TErr end
  | BU u => TOk (IZ (to_prim_int_set u))
  end.
(** src/typecheck/base_set.rs:191-199 [to_base_set] *)
Definition bs_of_is (s : intset) : tcres baseset :=
  match s with
  | ISingle p => match base_of_prim p with Some b => TOk (BSingle b) | None => TErr end
  | IZ z => TOk (BU (to_uint_set z))
  end.
(** src/typecheck/base_set.rs:202-228 [IntSet::unify]; the errors are built from
    [to_constraint], which cannot fail. *)
Definition is_unify (a b : intset) : tcres intset :=
  match a with
  | ISingle p => if is_contains b p then TOk (ISingle p) else TErr
  | IZ s0 =>
    match b with
    | ISingle p => if prim_contains s0 p then TOk (ISingle p) else TErr
    | IZ s1 => TOk (IZ (intersection s0 s1))
    end
  end.
(** src/typecheck/base_set.rs:240-253 [IntSet::get_unique_solution] *)
Definition is_unique_solution (s : intset) : tcres mrep :=
  match s with
  | ISingle p => TOk p
  | IZ z => if rs_is_empty z then TErr
            else match prim_unique_solution z with Some p => TOk p | None => TErr end
  end.

(** src/typecheck/base_set.rs:902-910 [Bounds::min_required_width] *)
Definition min_required_width (b : bounds) : bitwidth :=
  let max := match bmax b with Some m => m | None => bmin b end in
  if (max <=? 255)%N then B8
  else if (max <=? 65535)%N then B16
  else if (max <=? 4294967295)%N then B32
  else B64.
