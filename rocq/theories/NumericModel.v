(** Model of src/numeric/core.rs (numeric expressions and their evaluation) and
    src/numeric/eval.rs (operations between machine integer types). *)
From Verif Require Import Base BoundsModel.
Open Scope Z_scope.

(** Labels (Rust strings) are only ever compared for equality; they are numbers
    here. *)
Definition label := N.

(** ** Representations *)

(** src/numeric/core.rs:75-81 [enum BitWidth] *)
Inductive bitwidth := B8 | B16 | B32 | B64.
Definition bw_bits (w : bitwidth) : Z :=
  match w with B8 => 8 | B16 => 16 | B32 => 32 | B64 => 64 end.
(** [derive(Ord)] on [BitWidth]: declaration order. *)
Definition bw_cmp (a b : bitwidth) : comparison := Z.compare (bw_bits a) (bw_bits b).

(** src/numeric/core.rs:115-119 [struct MachineRep], 121-155 its constants *)
Record mrep := MR { is_signed : bool; bit_width : bitwidth }.
Definition rI8 := MR true B8.   Definition rI16 := MR true B16.
Definition rI32 := MR true B32. Definition rI64 := MR true B64.
Definition rU8 := MR false B8.   Definition rU16 := MR false B16.
Definition rU32 := MR false B32. Definition rU64 := MR false B64.

(** src/numeric/core.rs:170-174 [enum NumRep] *)
Inductive numrep := Auto | Concrete (r : mrep).

(** [derive(PartialEq)] *)
Definition bw_eqb (a b : bitwidth) : bool :=
  match a, b with B8, B8 | B16, B16 | B32, B32 | B64, B64 => true | _, _ => false end.
Definition mrep_eqb (a b : mrep) : bool :=
  Bool.eqb (is_signed a) (is_signed b) && bw_eqb (bit_width a) (bit_width b).
Definition numrep_eqb (a b : numrep) : bool :=
  match a, b with Auto, Auto => true | Concrete x, Concrete y => mrep_eqb x y | _, _ => false end.

(** src/numeric/core.rs:211-221 [is_superset] *)
Definition is_superset (a b : mrep) : bool :=
  match is_signed a, is_signed b, bw_cmp (bit_width a) (bit_width b) with
  | true, false, Gt => true
  | x, y, (Eq | Gt) => Bool.eqb x y
  | _, _, Lt => false
  end.

(** src/numeric/core.rs:269-274 [struct Bounds] (of big integers) *)
Record zbounds := ZB { zmin : Z; zmax : Z }.
(** src/numeric/core.rs:297-300 [encompasses]; the [assert!] is a [Panic]. *)
Definition zb_encompasses (a inf : zbounds) : outcome bool :=
  if zmin inf <=? zmax inf then Val ((zmin a <=? zmin inf) && (zmax inf <=? zmax a)) else Panic.
(** src/numeric/core.rs:307-310 [is_encompassed_by] *)
Definition zb_is_encompassed_by (a sup : zbounds) : outcome bool :=
  if zmin sup <=? zmax sup then Val ((zmin sup <=? zmin a) && (zmax a <=? zmax sup)) else Panic.
(** src/numeric/core.rs:312-323 [unify] *)
Definition zb_unify (a b : zbounds) : outcome zbounds :=
  obind (zb_is_encompassed_by a b) (fun x =>
  if x then Val b
  else omap (fun y : bool => if y then a else ZB (Z.min (zmin a) (zmin b)) (Z.max (zmax a) (zmax b)))
            (zb_encompasses a b)).
(** src/numeric/core.rs:325-327 [contains] *)
Definition zb_contains (b : zbounds) (z : Z) : bool := (zmin b <=? z) && (z <=? zmax b).

(** src/numeric/core.rs:340-352 [MachineRep::as_bounds]: [MIN] and [MAX] of the
    Rust integer type. *)
Definition as_bounds (r : mrep) : zbounds :=
  match is_signed r, bit_width r with
  | false, B8 => ZB 0 255
  | false, B16 => ZB 0 65535
  | false, B32 => ZB 0 4294967295
  | false, B64 => ZB 0 18446744073709551615
  | true, B8 => ZB (-128) 127
  | true, B16 => ZB (-32768) 32767
  | true, B32 => ZB (-2147483648) 2147483647
  | true, B64 => ZB (-9223372036854775808) 9223372036854775807
  end.
(** src/numeric/core.rs:366-368 [MachineRep::encompasses] *)
Definition rep_encompasses (a b : mrep) : outcome bool := zb_encompasses (as_bounds a) (as_bounds b).

(** ** Typed constants *)

(** src/numeric/core.rs:392-395 [struct TypedConst] *)
Record tconst := TC { tc_val : Z; tc_rep : numrep }.

(** src/numeric/core.rs:444-452 [is_representable] *)
Definition is_representable (c : tconst) : bool :=
  match tc_rep c with
  | Concrete r => zb_contains (as_bounds r) (tc_val c)
  | Auto => true
  end.
(** [TryFrom<&BigInt>] for a machine type *)
Definition try_into (r : mrep) (z : Z) : option Z :=
  if zb_contains (as_bounds r) z then Some z else None.
(** src/numeric/core.rs:465-472 [as_usize] (64 bits) *)
Definition tc_as_usize (c : tconst) : option N :=
  option_map Z.to_N (try_into rU64 (tc_val c)).
(** src/numeric/core.rs:474-501 [get_as_unsized] at the unsigned type of width
    [w]; also 514-539 [get_as_u8]. [None] is [Err]. *)
Definition get_as_unsigned (w : bitwidth) (c : tconst) : option N :=
  match tc_rep c with
  | Auto => option_map Z.to_N (try_into (MR false w) (tc_val c))
  | Concrete r =>
    if mrep_eqb r (MR false w) then
      if is_representable c then option_map Z.to_N (try_into (MR false w) (tc_val c)) else None
    else None
  end.
(** src/numeric/core.rs:578-585 [pat_matches], without the optional feature
    [pattern_matches_auto_rep]. *)
Definition pat_matches (c : tconst) (n : N) (w : bitwidth) : bool :=
  numrep_eqb (tc_rep c) (Concrete (MR false w)) && (tc_val c =? Z.of_N n).
(** src/numeric/core.rs:608-621 [falls_within] *)
Definition falls_within (c : tconst) (b : bounds) : bool :=
  if tc_val c <? 0 then false
  else (bmin b <=? Z.to_N (tc_val c))%N
       && match bmax b with Some m => (Z.to_N (tc_val c) <=? m)%N | None => true end.

(** src/lib.rs:110-117 [enum IntRel] *)
Inductive int_rel := REq | RNe | RLt | RGt | RLte | RGte.
(** src/numeric/core.rs:639-651 [rel] *)
Definition tc_rel (rel : int_rel) (l r : tconst) : bool :=
  let ord := Z.compare (tc_val l) (tc_val r) in
  match rel with
  | REq => match ord with Eq => true | _ => false end
  | RNe => match ord with Eq => false | _ => true end
  | RLt => match ord with Lt => true | _ => false end
  | RGt => match ord with Gt => true | _ => false end
  | RLte => match ord with Lt | Eq => true | _ => false end
  | RGte => match ord with Gt | Eq => true | _ => false end
  end.

(** ** Bitwise casts *)

(** Rust's [as] between integer types: the value modulo [2^bits], read in the
    signedness of the target. *)
Definition as_cast (out : mrep) (z : Z) : Z :=
  let m := 2 ^ bw_bits (bit_width out) in
  if is_signed out then (z + m / 2) mod m - m / 2 else z mod m.

(** src/numeric/core.rs:1240-1248 [bigint_as!] *)
Definition bigint_as (z : Z) (rin rout : mrep) : outcome Z :=
  match try_into rin z with Some x => Val (as_cast rout x) | None => Panic end.

(** src/numeric/core.rs:1271-1315: the pairs of the table that perform a
    machine cast. *)
Definition cast_table : list (mrep * mrep) :=
  [ (rU8, rI8); (rI8, rU8); (rU16, rI16); (rI16, rU16); (rU32, rI32); (rI32, rU32); (rU64, rI64); (rI64, rU64);
    (rU16, rU8); (rU32, rU8); (rU32, rU16); (rU64, rU8); (rU64, rU16); (rU64, rU32);
    (rI16, rI8); (rI32, rI8); (rI32, rI16); (rI64, rI8); (rI64, rI16); (rI64, rI32);
    (rU16, rI8); (rU32, rI8); (rU32, rI16); (rU64, rI8); (rU64, rI16); (rU64, rI32);
    (rI16, rU8); (rI32, rU8); (rI32, rU16); (rI64, rU8); (rI64, rU16); (rI64, rU32);
    (rI8, rU16); (rI8, rU32); (rI8, rU64); (rI16, rU32); (rI16, rU64); (rI32, rU64) ].
Definition in_cast_table (a b : mrep) : bool :=
  existsb (fun p => mrep_eqb (fst p) a && mrep_eqb (snd p) b) cast_table.

(** src/numeric/core.rs:1262-1331 [bitwise_cast] *)
Definition bitwise_cast (z : Z) (rin : numrep) (rout : mrep) : outcome Z :=
  match rin with
  | Auto => Val z
  | Concrete r0 => if in_cast_table r0 rout then bigint_as z r0 rout else Val z
  end.

(** ** Expressions *)

(** src/numeric/core.rs:20-26 [enum BasicBinOp], 46-56 [enum BasicUnaryOp],
    909-913 [enum CastSemantics] *)
Inductive nbinop := NAdd | NSub | NMul | NDiv | NRem.
Inductive nunop := NNegate | NAbs | NSucc | NPred.
Inductive castsem := Arithmetic | Bitwise.

(** src/numeric/core.rs:949-956 [enum Expr] *)
Inductive nexpr :=
| NConst (c : tconst)
| NBin (op : nbinop) (out : option mrep) (l r : nexpr)
| NUn (op : nunop) (out : option mrep) (e : nexpr)
| NCast (out : mrep) (sem : castsem) (e : nexpr)
| NVar (x : label).

(** src/numeric/core.rs:1010-1020 [iter_vars] *)
Fixpoint iter_vars (e : nexpr) : list label :=
  match e with
  | NVar x => [x]
  | NConst _ => []
  | NBin _ _ l r => iter_vars l ++ iter_vars r
  | NUn _ _ e | NCast _ _ e => iter_vars e
  end.

(** src/numeric/core.rs:1036-1042 [enum EvalError] (payloads not represented),
    with a third outcome for panics. *)
Inductive nerror := DivideByZero | RemainderNonPositive | Ambiguous | UnknownVar | BadVariable.
Inductive nres (A : Type) := NOk (a : A) | NErr (e : nerror) | NPanic.
Arguments NOk {A} a.
Arguments NErr {A} e.
Arguments NPanic {A}.
Definition nbind {A B} (x : nres A) (f : A -> nres B) : nres B :=
  match x with NOk a => f a | NErr e => NErr e | NPanic => NPanic end.
Definition of_outcome {A} (x : outcome A) : nres A :=
  match x with Val a => NOk a | Panic => NPanic end.

(** src/numeric/core.rs:1455-1494, the closure of 1348-1388: the mathematical
    result and its representation. [BigInt]'s division truncates towards zero. *)
Definition bin_apply (op : nbinop) (out : option mrep) (l r : tconst) : nres tconst :=
  nbind
    match op with
    | NAdd => NOk (tc_val l + tc_val r)
    | NSub => NOk (tc_val l - tc_val r)
    | NMul => NOk (tc_val l * tc_val r)
    | NDiv => if tc_val r =? 0 then NErr DivideByZero else NOk (Z.quot (tc_val l) (tc_val r))
    | NRem => if 0 <? tc_val r then NOk (Z.rem (tc_val l) (tc_val r)) else NErr RemainderNonPositive
    end
    (fun raw =>
  nbind
    match out with
    | Some rep => NOk (Concrete rep)
    | None =>
      if numrep_eqb (tc_rep l) (tc_rep r) || numrep_eqb (tc_rep r) Auto then NOk (tc_rep l)
      else if numrep_eqb (tc_rep l) Auto then NOk (tc_rep r)
      else NErr Ambiguous
    end
    (fun rep => NOk (TC raw rep))).

(** src/numeric/core.rs:1498-1527, the closure of 1392-1421 *)
Definition un_apply (op : nunop) (out : option mrep) (c : tconst) : tconst :=
  TC (match op with
      | NNegate => - tc_val c
      | NAbs => Z.abs (tc_val c)
      | NSucc => tc_val c + 1
      | NPred => tc_val c - 1
      end)
     (match out with Some rep => Concrete rep | None => tc_rep c end).

(** src/numeric/core.rs:1531-1543, 1423-1435 *)
Definition cast_apply (out : mrep) (sem : castsem) (c : tconst) : nres tconst :=
  nbind
    match sem with
    | Arithmetic => NOk (tc_val c)
    | Bitwise => of_outcome (bitwise_cast (tc_val c) (tc_rep c) out)
    end
    (fun z => NOk (TC z (Concrete out))).

(** src/numeric/core.rs:1444-1551 [eval]; [look] is the scope: it gives the
    variable as a typed constant, or [UnknownVar] or [BadVariable]. *)
Fixpoint neval (look : label -> nres tconst) (e : nexpr) : nres tconst :=
  match e with
  | NConst c => NOk c
  | NBin op out l r =>
    nbind (neval look l) (fun a => nbind (neval look r) (fun b => bin_apply op out a b))
  | NUn op out e => nbind (neval look e) (fun a => NOk (un_apply op out a))
  | NCast out sem e => nbind (neval look e) (fun a => cast_apply out sem a)
  | NVar x => look x
  end.

(** src/numeric/core.rs:1155-1158 [struct Strict], 1171-1198 [new], [map], [map2] *)
Definition strict (c : tconst) : tconst * bool := (c, is_representable c).

(** src/numeric/core.rs:1336-1442 [eval_strict]. A variable becomes
    [StrictValue::new] of its constant (1074-1095): for the unsigned machine values the
    flag is the constant [true], which is what [is_representable] gives. *)
Fixpoint neval_strict (look : label -> nres tconst) (e : nexpr) : nres (tconst * bool) :=
  match e with
  | NConst c => NOk (strict c)
  | NBin op out l r =>
    nbind (neval_strict look l) (fun a =>
    nbind (neval_strict look r) (fun b =>
    nbind (bin_apply op out (fst a) (fst b)) (fun v =>
    NOk (v, snd a && snd b && is_representable v))))
  | NUn op out e =>
    nbind (neval_strict look e) (fun a =>
    let v := un_apply op out (fst a) in NOk (v, snd a && is_representable v))
  | NCast out sem e =>
    nbind (neval_strict look e) (fun a =>
    nbind (cast_apply out sem (fst a)) (fun v => NOk (v, snd a && is_representable v)))
  | NVar x => nbind (look x) (fun c => NOk (strict c))
  end.

(** src/scope.rs:7-14 [VoidScope]: every variable is unknown. *)
Definition void_look : label -> nres tconst := fun _ => NErr UnknownVar.

(** ** src/numeric/eval.rs *)

(** eval.rs:27-34 [enum Eval]; the lazily computed integer of [Indirect] is
    represented by its value. *)
Inductive meval := MNaN | MDirect (z : Z) | MIndirect (z : Z).

(** The [Checked*] traits on a machine type. [checked_div] and [checked_rem] are
    [None] on a zero divisor and when the quotient overflows. *)
Definition in_rep (r : mrep) (z : Z) : bool := zb_contains (as_bounds r) z.
Definition checked_op (op : nbinop) (r : mrep) (x y : Z) : option Z :=
  match op with
  | NAdd => if in_rep r (x + y) then Some (x + y) else None
  | NSub => if in_rep r (x - y) then Some (x - y) else None
  | NMul => if in_rep r (x * y) then Some (x * y) else None
  | NDiv => if y =? 0 then None else if in_rep r (Z.quot x y) then Some (Z.quot x y) else None
  | NRem => if y =? 0 then None else if in_rep r (Z.quot x y) then Some (Z.rem x y) else None
  end.
(** The same operations on [BigInt] *)
Definition big_op (op : nbinop) (x y : Z) : option Z :=
  match op with
  | NAdd => Some (x + y)
  | NSub => Some (x - y)
  | NMul => Some (x * y)
  | NDiv => if y =? 0 then None else Some (Z.quot x y)
  | NRem => if y =? 0 then None else Some (Z.rem x y)
  end.
Definition is_quotient (op : nbinop) : bool := match op with NDiv | NRem => true | _ => false end.

(** eval.rs:98-207: [homogenous!], [widening!], [mixed_widening!] (a [None] is
    computed again on big integers) and their [_quotient] forms (a [None] is
    [NaN]). The [unwrap] of the lazy computation cannot fail for [+], [-], [*]. *)
Definition bin_fn (op : nbinop) (out : mrep) (x y : Z) : meval :=
  match checked_op op out (as_cast out x) (as_cast out y) with
  | Some z => MDirect z
  | None =>
    if is_quotient op then MNaN
    else match big_op op x y with Some z => MIndirect z | None => MNaN end
  end.

(** eval.rs:210-535: the (left, right, output) types for which a function
    exists: the homogenous types; [widening]: one input type and a strictly
    larger output type; [mixed]: all the listed triples. The five operations
    have the same list. *)
Definition homogenous_table : list (mrep * mrep * mrep) :=
  map (fun t => (t, t, t)) [rU8; rU16; rU32; rU64; rI8; rI16; rI32; rI64].
Definition widening_table : list (mrep * mrep * mrep) :=
  flat_map (fun '(t, outs) => map (fun o => (t, t, o)) outs)
    [ (rU8, [rU16; rU32; rU64; rI16; rI32; rI64]); (rU16, [rU32; rU64; rI32; rI64]); (rU32, [rU64; rI64]);
      (rI8, [rI16; rI32; rI64]); (rI16, [rI32; rI64]); (rI32, [rI64]) ].
Definition mixed_table : list (mrep * mrep * mrep) :=
  flat_map (fun '(l, r, outs) => map (fun o => (l, r, o)) outs)
    [ (rU8, rI8, [rI16; rI32; rI64]); (rI8, rU8, [rI16; rI32; rI64]);
      (rU16, rU8, [rU16; rU32; rU64; rI32; rI64]); (rU8, rU16, [rU16; rU32; rU64; rI32; rI64]);
      (rU16, rI8, [rI32; rI64]); (rI8, rU16, [rI32; rI64]);
      (rI16, rU8, [rI16; rI32; rI64]); (rU8, rI16, [rI16; rI32; rI64]);
      (rI16, rI8, [rI16; rI32; rI64]); (rI8, rI16, [rI16; rI32; rI64]);
      (rU16, rI16, [rI32; rI64]); (rI16, rU16, [rI32; rI64]);
      (rU32, rU8, [rU32; rU64; rI64]); (rU8, rU32, [rU32; rU64; rI64]); (rU32, rI8, [rI64]); (rI8, rU32, [rI64]);
      (rU32, rU16, [rU32; rU64; rI64]); (rU16, rU32, [rU32; rU64; rI64]); (rU32, rI16, [rI64]); (rI16, rU32, [rI64]);
      (rI32, rU8, [rI32; rI64]); (rU8, rI32, [rI32; rI64]); (rI32, rI8, [rI32; rI64]); (rI8, rI32, [rI32; rI64]);
      (rI32, rU16, [rI32; rI64]); (rU16, rI32, [rI32; rI64]); (rI32, rI16, [rI32; rI64]); (rI16, rI32, [rI32; rI64]);
      (rU32, rI32, [rI64]); (rI32, rU32, [rI64]) ].
Definition bin_table := homogenous_table ++ widening_table ++ mixed_table.

(** eval.rs:540-569 [eval_fallback] *)
Definition bin_fallback (op : nbinop) (out : mrep) (x y : Z) : meval :=
  match big_op op x y with
  | Some z => match try_into out z with Some n => MDirect n | None => MIndirect z end
  | None => MNaN
  end.

(** Negation of a machine integer: [iX::MIN] overflows, which panics with
    overflow checks ([checks = true]) and wraps otherwise. *)
Definition machine_neg (checks : bool) (r : mrep) (x : Z) : outcome Z :=
  if in_rep r (- x) then Val (- x) else if checks then Panic else Val (as_cast r (- x)).
(** [num_traits::Signed::abs]: [if x.is_negative() { -x } else { x }] *)
Definition machine_abs (checks : bool) (r : mrep) (x : Z) : outcome Z :=
  if x <? 0 then machine_neg checks r x else Val x.

(** eval.rs:576-593 [negate_as_signed!]: [x as out] is negated at the output type. *)
Definition neg_as_signed (checks : bool) (out : mrep) (x : Z) : outcome meval :=
  omap MDirect (machine_neg checks out (as_cast out x)).
(** eval.rs:599-620 [negate_into_unsigned!], input type [r] *)
Definition neg_into_unsigned (checks : bool) (r out : mrep) (x : Z) : outcome meval :=
  if 0 <? x then Val (MIndirect (- x))
  else if x =? zmin (as_bounds r) then Val (MDirect (as_cast out (zmax (as_bounds r)) + 1))
  else omap (fun y => MDirect (as_cast out y)) (machine_neg checks r x).
(** eval.rs:623-637 [negate_unsigned_unsigned!] *)
Definition neg_unsigned_unsigned (x : Z) : meval := if x =? 0 then MDirect 0 else MIndirect (- x).
(** eval.rs:640-651 [abs_as_signed!], first form *)
Definition abs_same (checks : bool) (r : mrep) (x : Z) : outcome meval :=
  omap (fun t => if t =? zmin (as_bounds r) then MIndirect (Z.abs x) else MDirect t) (machine_abs checks r x).
(** eval.rs:652-662 [abs_as_signed!], second form *)
Definition abs_as_signed (checks : bool) (out : mrep) (x : Z) : outcome meval :=
  omap MDirect (machine_abs checks out (as_cast out x)).
(** eval.rs:666-681 [abs_signed_unsigned!] *)
Definition abs_signed_unsigned (checks : bool) (r out : mrep) (x : Z) : outcome meval :=
  omap (fun t => if t =? zmin (as_bounds r) then MDirect (as_cast out (zmax (as_bounds r)) + 1)
                 else MDirect (as_cast out t)) (machine_abs checks r x).
(** eval.rs:684-703 [abs_unsigned_unsigned!] *)
Definition abs_unsigned_unsigned (out : mrep) (x : Z) : meval := MDirect (as_cast out x).

(** The (input, output) types of each family: eval.rs:708-739 and 756-794 *)
Definition neg_same_table := [rI8; rI16; rI32; rI64].
Definition to_signed_table : list (mrep * mrep) :=
  [ (rU8, rI16); (rU8, rI32); (rU8, rI64); (rU16, rI32); (rU16, rI64); (rU32, rI64);
    (rI8, rI16); (rI8, rI32); (rI8, rI64); (rI16, rI32); (rI16, rI64); (rI32, rI64) ].
Definition signed_unsigned_table : list (mrep * mrep) :=
  [ (rI8, rU8); (rI8, rU16); (rI8, rU32); (rI8, rU64); (rI16, rU16); (rI16, rU32); (rI16, rU64);
    (rI32, rU32); (rI32, rU64); (rI64, rU64) ].
Definition abs_unsigned_table : list (mrep * mrep) :=
  [ (rU8, rU8); (rU16, rU16); (rU32, rU32); (rU64, rU64);
    (rU8, rU16); (rU8, rU32); (rU8, rU64); (rU16, rU32); (rU16, rU64); (rU32, rU64) ].

(** eval.rs:836-846 [direct_cast!], 849-864 [attempt_cast!] and their tables
    869-888 *)
Definition direct_cast (out : mrep) (x : Z) : meval := MDirect (as_cast out x).
Definition attempt_cast (out : mrep) (x : Z) : meval :=
  match try_into out x with Some n => MDirect n | None => MIndirect x end.
Definition direct_cast_table : list (mrep * mrep) :=
  flat_map (fun '(t, outs) => map (fun o => (t, o)) outs)
    [ (rU8, [rU16; rU32; rU64; rI16; rI32; rI64]); (rU16, [rU32; rU64; rI32; rI64]); (rU32, [rU64; rI64]);
      (rI8, [rI16; rI32; rI64]); (rI16, [rI32; rI64]); (rI32, [rI64]) ].
Definition attempt_cast_table : list (mrep * mrep) :=
  flat_map (fun '(t, outs) => map (fun o => (t, o)) outs)
    [ (rU8, [rI8]); (rU16, [rU8; rI8; rI16]); (rU32, [rU8; rU16; rI8; rI16; rI32]);
      (rU64, [rU8; rU16; rU32; rI8; rI16; rI32; rI64]);
      (rI8, [rU8; rU16; rU32; rU64]); (rI16, [rU8; rU16; rU32; rU64; rI8]);
      (rI32, [rU8; rU16; rU32; rU64; rI8; rI16]); (rI64, [rU8; rU16; rU32; rU64; rI8; rI16; rI32]) ].
