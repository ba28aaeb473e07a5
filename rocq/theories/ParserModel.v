(** Model of the runtime that generated parsers are linked against:
    src/parser/offset.rs, src/parser/mod.rs and src/parser/view.rs. *)
From Verif Require Import Base.

(** ** Byte and bit offsets *)

(** offset.rs:5-11 [ByteOffset] *)
Inductive boff := Bytes (n : N) | Bits (starting_byte bits_advanced : N).

(** offset.rs:67-69 [is_bit_mode] *)
Definition is_bit_mode (o : boff) : bool := match o with Bytes _ => false | Bits _ _ => true end.

(** offset.rs:150-162 [as_bytes] *)
Definition as_bytes (o : boff) : N * option N :=
  match o with
  | Bytes n => (n, None)
  | Bits s a => ((s + a / 8)%N, Some (a mod 8)%N)
  end.

(** offset.rs:133-141 [abs_bit_offset]. Simplification: the product is not
    checked for overflow, so buffers are assumed shorter than 2^61 bytes. *)
Definition abs_bit_offset (o : boff) : N :=
  match o with Bytes n => (n * 8)%N | Bits s a => (s * 8 + a)%N end.

(** offset.rs:166-179 [partial_cmp] *)
Definition boff_cmp (x y : boff) : option comparison :=
  let '(n1, o1) := as_bytes x in
  let '(n2, o2) := as_bytes y in
  match (n1 ?= n2)%N with
  | Eq => match o1, o2 with
          | None, None => Some Eq
          | Some m1, Some m2 => Some (m1 ?= m2)%N
          | _, _ => None
          end
  | c => Some c
  end.
(** The operators [>] and [<] derived from it. *)
Definition boff_gt (x y : boff) : bool :=
  match boff_cmp x y with Some Gt => true | _ => false end.
Definition boff_lt (x y : boff) : bool :=
  match boff_cmp x y with Some Lt => true | _ => false end.

(** offset.rs:35-43 [checked_delta]: panics from byte mode to bit mode. *)
Definition checked_delta (x y : boff) : outcome (option N) :=
  let sub a b := if (b <=? a)%N then Some (a - b)%N else None in
  if is_bit_mode x then Val (sub (abs_bit_offset y) (abs_bit_offset x))
  else if is_bit_mode y then Panic
  else Val (sub (fst (as_bytes y)) (fst (as_bytes x))).

(** offset.rs:46-65 [delta]: also panics when the difference is negative. *)
Definition delta (x y : boff) : outcome N :=
  match checked_delta x y with
  | Val (Some d) => Val d
  | Val None => Panic
  | Panic => Panic
  end.

(** offset.rs:71-82 [increment_by]: [usize] addition, checked. *)
Definition increment_by (o : boff) (d : N) : outcome boff :=
  match o with
  | Bytes n => if (n + d <? w64)%N then Val (Bytes (n + d)) else Panic
  | Bits s a => if (a + d <? w64)%N then Val (Bits s (a + d)) else Panic
  end.

(** ** Lenses and the view stack (innermost first) *)

(** offset.rs:294-312 [Lens] *)
Inductive lens :=
| LAlts (checkpoint : boff)
| LPeek (checkpoint : boff)
| LPeekNot (checkpoint : boff)
| LSeek (is_transparent : bool) (checkpoint : boff)
| LSlice (endpoint : boff).

(** offset.rs:344-349 [recover] *)
Definition lens_recover (l : lens) : option boff :=
  match l with LAlts c | LPeekNot c => Some c | _ => None end.
(** offset.rs:355-362 [restore] *)
Definition lens_restore (l : lens) : option boff :=
  match l with LPeek c | LSeek _ c => Some c | _ => None end.

(** offset.rs:204-223 [get_limit_from_slice] and [get_limit], with
    offset.rs:368-381 [get_endpoint] and offset.rs:321-336 [or_else] inlined: a
    slice answers, an opaque seek stops the search, anything else passes it on. *)
Fixpoint get_limit (st : list lens) : option boff :=
  match st with
  | [] => None
  | LSlice e :: _ => Some e
  | LSeek t _ :: rest => if t then get_limit rest else None
  | _ :: rest => get_limit rest
  end.

(** offset.rs:248-261 [restore] *)
Fixpoint stack_restore (st : list lens) : option (boff * list lens) :=
  match st with
  | [] => None
  | l :: rest => match lens_restore l with Some c => Some (c, rest) | None => stack_restore rest end
  end.
(** offset.rs:274-287 [recover] *)
Fixpoint stack_recover (st : list lens) : option (boff * list lens) :=
  match st with
  | [] => None
  | l :: rest => match lens_recover l with Some c => Some (c, rest) | None => stack_recover rest end
  end.

(** ** Parser states and results *)

(** parser/mod.rs:10-13 [Parser] with offset.rs:386-393 [BufferOffset] and
    view.rs:14-17 [View]: the buffer and its position in the original input, the
    current offset, the view stack and the maximal offset. *)
Record pst := Pst { pbuf : list N; pstart : N; pcur : boff; pstk : list lens; pmax : boff }.

(** error.rs:63-89 [ParseError], only as far as this file produces it (payloads
    dropped). *)
Inductive perr :=
| EOverrun | ENegativeIndex | EIncomplete (n : N)
| EBinaryMode | EOutOfBounds | EUnstackable | ESliceOverrun | EMissingSlice
| ENoRestore | ENoRecovery
| ERejected (** every error raised by generated code itself: [FailToken],
      [FalsifiedWhere], [ExcludedBranch], [InsufficientRepeats], [NegatedSuccess]. *).

Inductive pres (A : Type) := POk (a : A) | PErr (e : perr) | PPanic.
Arguments POk {A} a.
Arguments PErr {A} e.
Arguments PPanic {A}.

(** parser/mod.rs:29-35 [new] and parser/mod.rs:18-24 [from]. *)
Definition parser_of_view (buf : list N) (start : N) : pst :=
  Pst buf start (Bytes 0) [] (Bytes (N.of_nat (length buf))).
Definition parser_new (buf : list N) : pst := parser_of_view buf 0.

Definition set_cur (s : pst) (o : boff) : pst := Pst (pbuf s) (pstart s) o (pstk s) (pmax s).
Definition set_stk (s : pst) (k : list lens) : pst := Pst (pbuf s) (pstart s) (pcur s) k (pmax s).

(** offset.rs:657-659 [current_limit] *)
Definition current_limit (s : pst) : boff :=
  match get_limit (pstk s) with Some e => e | None => pmax s end.

(** offset.rs:459-482 [try_increment]: both arms of the [match] compare with the
    current limit and report an overrun. Returns the old offset. *)
Definition try_increment (d : N) (s : pst) : pres boff * pst :=
  match increment_by (pcur s) d with
  | Panic => (PPanic, s)
  | Val after =>
    if boff_gt after (current_limit s) then (PErr EOverrun, s)
    else (POk (pcur s), set_cur s after)
  end.

(** offset.rs:417-448 [seek_to_offset] *)
Definition seek_to_offset (abs : N) (transparent : bool) (s : pst) : pres boff * pst :=
  let dest := Bytes abs in
  if boff_gt dest (pmax s) then (PErr EOverrun, s)
  else if is_bit_mode (pcur s) then (PPanic, s)
  else
    let t := match get_limit (pstk s) with
             | Some m => boff_lt dest m && transparent
             | None => transparent
             end in
    (POk (pcur s), Pst (pbuf s) (pstart s) dest (LSeek t (pcur s) :: pstk s) (pmax s)).

(** offset.rs:552-596 [close_slice]: [cur] does not change while [Alts] lenses
    are popped. On an error the view stack has been emptied by the [swap]. *)
Fixpoint close_slice_stk (cur : boff) (st : list lens) : pres boff * list lens :=
  match st with
  | LSlice e :: rest => if boff_gt cur e then (PErr ESliceOverrun, []) else (POk e, rest)
  | LAlts _ :: rest => close_slice_stk cur rest
  | [] => (PErr EMissingSlice, [])
  | LPeekNot _ :: _ | LPeek _ :: _ | LSeek _ _ :: _ => (PPanic, [])
  end.

(** ** The public operations of [Parser] *)

(** parser/mod.rs:61-68 [advance_by], the argument already a [usize]. *)
Definition p_advance_by (d : N) (s : pst) : pres unit * pst :=
  match try_increment d s with
  | (POk _, s') => (POk tt, s')
  | (PErr e, s') => (PErr e, s')
  | (PPanic, s') => (PPanic, s')
  end.

(** parser/mod.rs:84-107 [advance_or_seek] *)
Definition p_advance_or_seek (dest : N) (s : pst) : pres bool * pst :=
  if (dest <? pstart s)%N then (PErr ENegativeIndex, s)
  else
    let o_dest := (dest - pstart s)%N in
    match checked_delta (pcur s) (Bytes o_dest) with
    | Panic => (PPanic, s)
    | Val (Some d) =>
      let s1 := set_stk s (LPeek (pcur s) :: pstk s) in
      match try_increment d s1 with
      | (POk _, s2) => (POk true, s2)
      | (PErr e, s2) => (PErr e, s2)
      | (PPanic, s2) => (PPanic, s2)
      end
    | Val None =>
      match seek_to_offset o_dest false s with
      | (POk _, s2) => (POk false, s2)
      | (PErr e, s2) => (PErr e, s2)
      | (PPanic, s2) => (PPanic, s2)
      end
    end.

(** parser/mod.rs:109-114 [skip_remainder] *)
Definition p_skip_remainder (s : pst) : pres unit * pst := (POk tt, set_cur s (current_limit s)).

(** parser/mod.rs:123-135 [read_byte] *)
Definition p_read_byte (s : pst) : pres N * pst :=
  match try_increment 1 s with
  | (POk old, s') =>
    let '(ix, sub_bit) := as_bytes old in
    match nth_error (pbuf s') (N.to_nat ix) with
    | None => (PErr EOutOfBounds, s')
    | Some byte =>
      match sub_bit with
      | Some i => (POk (N.shiftr (N.land byte (N.shiftl 1 i)) i), s')
      | None => (POk byte, s')
      end
    end
  | (PErr e, s') => (PErr e, s')
  | (PPanic, s') => (PPanic, s')
  end.

(** parser/mod.rs:164-182 [skip_align]: [% 0] panics; the product is checked. *)
Definition p_skip_align (n : N) (s : pst) : pres unit * pst :=
  if (n =? 0)%N then (PPanic, s)
  else
    let aligned :=
      match pcur s with
      | Bytes k => if (k mod n =? 0)%N then Val (Bytes k)
                   else let a := ((k / n + 1) * n)%N in if (a <? w64)%N then Val (Bytes a) else Panic
      | Bits st k => if (k mod n =? 0)%N then Val (Bits st k)
                     else let a := ((k / n + 1) * n)%N in if (a <? w64)%N then Val (Bits st a) else Panic
      end in
    match obind aligned (delta (pcur s)) with
    | Val d => p_advance_by d s
    | Panic => (PPanic, s)
    end.

(** parser/mod.rs:192-194 [enter_bits_mode] with offset.rs:102-112. *)
Definition p_enter_bits (s : pst) : pres unit * pst :=
  match pcur s with
  | Bytes n => (POk tt, set_cur s (Bits n 0))
  | Bits _ _ => (PErr EBinaryMode, s)
  end.
(** parser/mod.rs:203-205 [escape_bits_mode] with offset.rs:114-131. *)
Definition p_escape_bits (s : pst) : pres N * pst :=
  match pcur s with
  | Bits st a =>
    let n := if (a mod 8 =? 0)%N then (st + a / 8)%N else (st + a / 8 + 1)%N in
    (POk a, set_cur s (Bytes n))
  | Bytes _ => (PErr EBinaryMode, s)
  end.

(** parser/mod.rs:220-235 [start_slice] with offset.rs:527-532
    [open_slice_unchecked]. *)
Definition p_start_slice (size : N) (s : pst) : pres unit * pst :=
  match increment_by (pcur s) size with
  | Panic => (PPanic, s)
  | Val e =>
    if boff_gt e (current_limit s) then (PErr EUnstackable, s)
    else (POk tt, set_stk s (LSlice e :: pstk s))
  end.
(** parser/mod.rs:243-246 [end_slice] *)
Definition p_end_slice (s : pst) : pres unit * pst :=
  match close_slice_stk (pcur s) (pstk s) with
  | (POk e, rest) => (POk tt, Pst (pbuf s) (pstart s) e rest (pmax s))
  | (PErr e, rest) => (PErr e, set_stk s rest)
  | (PPanic, rest) => (PPanic, set_stk s rest)
  end.

(** parser/mod.rs:250-252 [open_peek_context] with offset.rs:599-603. *)
Definition p_open_peek (s : pst) : pres unit * pst := (POk tt, set_stk s (LPeek (pcur s) :: pstk s)).
(** parser/mod.rs:258-261 [close_peek_context] with offset.rs:630-637. *)
Definition p_close_peek (s : pst) : pres unit * pst :=
  match stack_restore (pstk s) with
  | Some (c, rest) => (POk tt, Pst (pbuf s) (pstart s) c rest (pmax s))
  | None => (PErr ENoRestore, set_stk s [])
  end.
(** parser/mod.rs:265-267 [open_peek_not_context] with offset.rs:606-610. *)
Definition p_open_peek_not (s : pst) : pres unit * pst := (POk tt, set_stk s (LPeekNot (pcur s) :: pstk s)).
(** offset.rs:644-651 [recover] *)
Definition p_recover (s : pst) : pres unit * pst :=
  match stack_recover (pstk s) with
  | Some (c, rest) => (POk tt, Pst (pbuf s) (pstart s) c rest (pmax s))
  | None => (PErr ENoRecovery, set_stk s [])
  end.
(** parser/mod.rs:273-276 [close_peek_not_context] *)
Definition p_close_peek_not (s : pst) : pres unit * pst := p_recover s.
(** parser/mod.rs:282-284 [start_alt] with offset.rs:613-617 [open_parallel]. *)
Definition p_start_alt (s : pst) : pres unit * pst := (POk tt, set_stk s (LAlts (pcur s) :: pstk s)).
(** parser/mod.rs:315-321 [next_alt] *)
Definition p_next_alt (is_last : bool) (s : pst) : pres unit * pst :=
  match p_recover s with
  | (POk _, s') => if is_last then (POk tt, s') else p_start_alt s'
  | r => r
  end.

(** parser/mod.rs:326-328 [remaining] with offset.rs:665-667 [rem_local]. *)
Definition p_remaining (s : pst) : pres N * pst :=
  match delta (pcur s) (current_limit s) with
  | Val d => (POk d, s)
  | Panic => (PPanic, s)
  end.
(** parser/mod.rs:334-339 [finish] *)
Definition p_finish (s : pst) : pres unit * pst :=
  match p_remaining s with
  | (POk 0%N, s') => (POk tt, s')
  | (POk n, s') => (PErr (EIncomplete n), s')
  | (PErr e, s') => (PErr e, s')
  | (PPanic, s') => (PPanic, s')
  end.
(** parser/mod.rs:352-360 [get_offset_u64] *)
Definition p_offset_u64 (s : pst) : pres N * pst :=
  match pcur s with Bytes n => (POk n, s) | Bits _ _ => (PPanic, s) end.

(** view.rs:32-44 [offset]: the suffix of the buffer from [k]. *)
Definition view_offset (buf : list N) (start k : N) : option (list N * N) :=
  if (N.of_nat (length buf) <? k)%N then None
  else Some (skipn (N.to_nat k) buf, (start + k)%N).
(** parser/mod.rs:43-48 [view] *)
Definition p_view (s : pst) : pres (list N * N) * pst :=
  match as_bytes (pcur s) with
  | (k, None) =>
    match view_offset (pbuf s) (pstart s) k with
    | Some v => (POk v, s)
    | None => (PPanic, s)
    end
  | (_, Some _) => (PPanic, s)
  end.
(** view.rs:28-30 [read_len] *)
Definition view_read_len (buf : list N) (len : N) : outcome (list N) :=
  if (len <=? N.of_nat (length buf))%N then Val (firstn (N.to_nat len) buf) else Panic.

(** ** Histories: any sequence of operations generated code may perform.
    Results other than [read_byte]'s are dropped; an operation that returns an
    error leaves the state it leaves in the code and the history goes on (the
    caller may recover); a panic ends it. *)
Inductive op :=
| OpRead | OpAdvance (n : N) | OpAdvanceOrSeek (n : N) | OpSkipRemainder | OpAlign (n : N)
| OpEnterBits | OpEscapeBits | OpStartSlice (n : N) | OpEndSlice
| OpOpenPeek | OpClosePeek | OpOpenPeekNot | OpClosePeekNot
| OpStartAlt | OpNextAlt (is_last : bool) | OpRemaining | OpFinish | OpView.

Definition drop {A} (r : pres A * pst) : option pst :=
  match r with (PPanic, _) => None | (_, s) => Some s end.
Definition step (o : op) (s : pst) : option pst :=
  match o with
  | OpRead => drop (p_read_byte s)
  | OpAdvance n => drop (p_advance_by n s)
  | OpAdvanceOrSeek n => drop (p_advance_or_seek n s)
  | OpSkipRemainder => drop (p_skip_remainder s)
  | OpAlign n => drop (p_skip_align n s)
  | OpEnterBits => drop (p_enter_bits s)
  | OpEscapeBits => drop (p_escape_bits s)
  | OpStartSlice n => drop (p_start_slice n s)
  | OpEndSlice => drop (p_end_slice s)
  | OpOpenPeek => drop (p_open_peek s)
  | OpClosePeek => drop (p_close_peek s)
  | OpOpenPeekNot => drop (p_open_peek_not s)
  | OpClosePeekNot => drop (p_close_peek_not s)
  | OpStartAlt => drop (p_start_alt s)
  | OpNextAlt b => drop (p_next_alt b s)
  | OpRemaining => drop (p_remaining s)
  | OpFinish => drop (p_finish s)
  | OpView => drop (p_view s)
  end.
Fixpoint run (h : list op) (s : pst) : option pst :=
  match h with
  | [] => Some s
  | o :: h' => match step o s with Some s' => run h' s' | None => None end
  end.
