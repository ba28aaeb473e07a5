(** Model of src/byte_set.rs (lines 9-338) and of the set-level part of
    src/byte_set/pretty_print.rs (lines 13-202). *)
From Verif Require Import Base.
Open Scope N_scope.

(** src/byte_set.rs:9-13 [struct ByteSet { bits: [u64; 4] }].
    The four [u64] words are unbounded [N]s; [wf] says each is below [2^64]. *)
Record byteset := BS { w0 : N; w1 : N; w2 : N; w3 : N }.

Definition wf (s : byteset) : Prop :=
  w0 s < w64 /\ w1 s < w64 /\ w2 s < w64 /\ w3 s < w64.

(** Bitwise NOT on [u64]. *)
Definition not64 (x : N) : N := N.lxor x (N.ones 64).

(** src/byte_set.rs:15-20 [min_set_bit]: index of the lowest set bit.
    [trailing_zeros] is modelled as a search from bit 0 up. *)
Definition min_set_bit (x : N) : option N := find (N.testbit x) (nrange 0 64).

(** src/byte_set.rs:22-27 [max_set_bit]: [63 - leading_zeros], i.e. log2. *)
Definition max_set_bit (x : N) : option N :=
  if x =? 0 then None else Some (N.log2 x).

(** src/byte_set.rs:29-38 [bit_to_quad]. [overflowing_shl] reports overflow
    when the shift amount is at least 64. *)
Definition bit_to_quad (bit offset : N) : N :=
  if bit <? offset then 0
  else if 64 <=? bit - offset then 0 else N.shiftl 1 (bit - offset).

(** src/byte_set.rs:69-71 [empty] *)
Definition empty : byteset := BS 0 0 0 0.
(** src/byte_set.rs:83-85 [full] *)
Definition full : byteset := BS (N.ones 64) (N.ones 64) (N.ones 64) (N.ones 64).
(** src/byte_set.rs:73-81 [singleton] *)
Definition singleton (b : N) : byteset :=
  BS (bit_to_quad b 0) (bit_to_quad b 64) (bit_to_quad b 128) (bit_to_quad b 192).

(** src/byte_set.rs:122-129 [get_bit_with] *)
Definition get_bit_with {T} (s : byteset) (b : N) (f : N -> N -> T) : T :=
  if b <? 64 then f (w0 s) b
  else if b <? 128 then f (w1 s) (b - 64)
  else if b <? 192 then f (w2 s) (b - 128)
  else f (w3 s) (b - 192).

(** src/byte_set.rs:131-138 [set_bit_with]; the closure over [&mut u64] returns
    the new word. *)
Definition set_bit_with (s : byteset) (b : N) (f : N -> N -> N) : byteset :=
  if b <? 64 then BS (f (w0 s) b) (w1 s) (w2 s) (w3 s)
  else if b <? 128 then BS (w0 s) (f (w1 s) (b - 64)) (w2 s) (w3 s)
  else if b <? 192 then BS (w0 s) (w1 s) (f (w2 s) (b - 128)) (w3 s)
  else BS (w0 s) (w1 s) (w2 s) (f (w3 s) (b - 192)).

(** src/byte_set.rs:140-147 [map_bits] *)
Definition map_bits (s : byteset) (f : N -> N) : byteset :=
  BS (f (w0 s)) (f (w1 s)) (f (w2 s)) (f (w3 s)).
(** src/byte_set.rs:149-156 [zip_bits_with] *)
Definition zip_bits_with (s t : byteset) (f : N -> N -> N) : byteset :=
  BS (f (w0 s) (w0 t)) (f (w1 s) (w1 t)) (f (w2 s) (w2 t)) (f (w3 s) (w3 t)).

(** src/byte_set.rs:173-177 [insert] *)
Definition insert (s : byteset) (b : N) : byteset :=
  set_bit_with s b (fun w i => N.lor w (N.shiftl 1 i)).
(** src/byte_set.rs:179-184 [remove] *)
Definition remove (s : byteset) (b : N) : byteset :=
  set_bit_with s b (fun w i => N.land w (not64 (N.shiftl 1 i))).
(** src/byte_set.rs:186-188 [contains] *)
Definition contains (s : byteset) (b : N) : bool :=
  get_bit_with s b (fun w i => negb (N.land w (N.shiftl 1 i) =? 0)).
(** src/byte_set.rs:190-192 [complement] *)
Definition complement (s : byteset) : byteset := map_bits s not64.
(** src/byte_set.rs:194-196 [difference] *)
Definition difference (s t : byteset) : byteset :=
  zip_bits_with s t (fun a b => N.land a (not64 b)).
(** src/byte_set.rs:198-205 [intersection] *)
Definition intersection (s t : byteset) : byteset :=
  BS (N.land (w0 s) (w0 t)) (N.land (w1 s) (w1 t))
     (N.land (w2 s) (w2 t)) (N.land (w3 s) (w3 t)).
(** src/byte_set.rs:56-63 [union] *)
Definition union (s t : byteset) : byteset :=
  BS (N.lor (w0 s) (w0 t)) (N.lor (w1 s) (w1 t))
     (N.lor (w2 s) (w2 t)) (N.lor (w3 s) (w3 t)).

(** Derived [PartialEq] on the four words (src/byte_set.rs:9). *)
Definition eqb (s t : byteset) : bool :=
  (w0 s =? w0 t) && (w1 s =? w1 t) && (w2 s =? w2 t) && (w3 s =? w3 t).

(** [u64::count_ones]: number of set bits among the 64. *)
Definition count_ones (x : N) : N :=
  N.of_nat (length (filter (N.testbit x) (nrange 0 64))).
(** src/byte_set.rs:158-163 [len] *)
Definition len (s : byteset) : N :=
  count_ones (w0 s) + count_ones (w1 s) + count_ones (w2 s) + count_ones (w3 s).
(** src/byte_set.rs:165-167 [is_empty] *)
Definition is_empty (s : byteset) : bool := eqb s empty.
(** src/byte_set.rs:169-171 [is_full] *)
Definition is_full (s : byteset) : bool := eqb s full.
(** src/byte_set.rs:207-209 [is_disjoint] *)
Definition is_disjoint (s t : byteset) : bool := is_empty (intersection s t).

(** src/byte_set.rs:87-89 [iter]: [(0..=255).filter(contains)] *)
Definition iter (s : byteset) : list N := filter (contains s) (nrange 0 256).

(** src/byte_set.rs:91-105 [min_elem] *)
Definition min_elem (s : byteset) : option N :=
  match min_set_bit (w0 s) with
  | Some i => Some i
  | None => match min_set_bit (w1 s) with
  | Some i => Some (64 + i)
  | None => match min_set_bit (w2 s) with
  | Some i => Some (128 + i)
  | None => match min_set_bit (w3 s) with
  | Some i => Some (192 + i)
  | None => None
  end end end end.

(** src/byte_set.rs:107-121 [max_elem]. The negations of words 2, 1 and 0 are in
    the source. *)
Definition max_elem (s : byteset) : option N :=
  match max_set_bit (w3 s) with
  | Some i => Some (192 + i)
  | None => match max_set_bit (not64 (w2 s)) with
  | Some i => Some (128 + i)
  | None => match max_set_bit (not64 (w1 s)) with
  | Some i => Some (64 + i)
  | None => match max_set_bit (not64 (w0 s)) with
  | Some i => Some i
  | None => None
  end end end end.

(** src/byte_set.rs:212-230 [From<[u8; LEN]>], [From<&[u8]>] and 274-282
    [FromIterator<u8>]: insert one by one. *)
Definition from_list (l : list N) : byteset := fold_left insert l empty.

(** src/byte_set.rs:242-271 [From<RangeInclusive<u8>>] *)
Definition from_range_incl (lo hi : N) : byteset :=
  if lo =? hi then from_list [lo]
  else if hi <? lo then empty
  else
    let start_ix := N.shiftr lo 6 in
    let end_ix := N.shiftr hi 6 in
    let vals := nrange lo (N.to_nat (hi + 1 - lo)) in
    if start_ix =? end_ix then
      let mask := fold_left (fun m i => N.lor m (N.shiftl 1 (N.land i 63))) vals 0 in
      if start_ix =? 0 then BS mask 0 0 0
      else if start_ix =? 1 then BS 0 mask 0 0
      else if start_ix =? 2 then BS 0 0 mask 0
      else BS 0 0 0 mask
    else from_list vals.

(** src/byte_set.rs:232-240 [From<Range<u8>>] *)
Definition from_range (lo hi : N) : byteset :=
  if hi <=? lo then empty else from_range_incl lo (hi - 1).

(** src/byte_set.rs:309-338 [Serialize]: tag and element list. *)
Inductive serialized := Includes (l : list N) | Excludes (l : list N).
Definition serialize (s : byteset) : serialized :=
  if len s <? 128 then Includes (iter s) else Excludes (iter (complement s)).

(** ** pretty_print.rs *)

(** pretty_print.rs:22-28 [bounds]: [unreachable!()] when exactly one of
    min/max is present. *)
Definition bounds (s : byteset) : outcome (option (N * N)) :=
  match min_elem s, max_elem s with
  | Some a, Some b => Val (Some (a, b))
  | None, None => Val None
  | _, _ => Panic
  end.

(** pretty_print.rs:31-36 [span]: [max as u32 - min as u32 + 1]; the subtraction
    panics on underflow (debug build). *)
Definition span (s : byteset) : outcome N :=
  match min_elem s, max_elem s with
  | Some a, Some b => if b <? a then Panic else Val (b - a + 1)
  | _, _ => Val 0
  end.

(** pretty_print.rs:38-42 [contains_range] *)
Definition contains_range (s : byteset) (lo hi : N) : bool :=
  let r := from_range_incl lo hi in
  len (intersection s r) =? len r.

(** pretty_print.rs:44-46 [is_contiguous] *)
Definition is_contiguous (s : byteset) : outcome bool :=
  match span s with Val n => Val (n =? len s) | Panic => Panic end.

(** pretty_print.rs:48-65 [find_enclosing_range]: the two [while] loops, each
    bounded by the 256 bytes. *)
Fixpoint go_down (s : byteset) (fuel : nat) (lo : N) : N :=
  match fuel with
  | O => lo
  | S k => if (0 <? lo) && contains s (lo - 1) then go_down s k (lo - 1) else lo
  end.
Fixpoint go_up (s : byteset) (fuel : nat) (hi : N) : N :=
  match fuel with
  | O => hi
  | S k => if (hi <? 255) && contains s (hi + 1) then go_up s k (hi + 1) else hi
  end.
Definition find_enclosing_range (s : byteset) (b : N) : option (N * N) :=
  if contains s b then Some (go_down s 256 b, go_up s 256 b) else None.

(** pretty_print.rs:69-86 [partition_ranges], the [while let] loop. Each round
    removes at least one element, so 256 rounds suffice; [None] is out of fuel.
    The ranked map is modelled as the list of the [(lo, hi)] ranges found, in
    the order found. *)
Fixpoint partition_loop (fuel : nat) (s : byteset) : option (list (N * N)) :=
  match fuel with
  | O => None
  | S k =>
    match min_elem s with
    | None => Some []
    | Some b =>
      match find_enclosing_range s b with
      | None => None
      | Some (lo, hi) =>
        match partition_loop k (difference s (from_range_incl lo hi)) with
        | Some rest => Some ((lo, hi) :: rest)
        | None => None
        end
      end
    end
  end.

(** What [Display] prints, up to the concrete glyphs: tokens whose meaning is a
    set of bytes. pretty_print.rs:95-195: [TNamed] stands for one of the named
    sets ("U8", "ASCII", ...), the list token for "{..}" / "[= x]" / "∅",
    [TCompl] for "∁({..})" / "[!= x]" / "U8", [TRange] for "⟦lo,hi⟧"; several
    tokens are joined by "∪". *)
Inductive token :=
  | TNamed (s : byteset) | TList (l : list N) | TCompl (l : list N) | TRange (lo hi : N).

(** src/helper.rs:1861-1889 and 1922-1938: the named sets, in the order in which
    [as_token] (pretty_print.rs:95-107) tries them: full, VALID_ASCII,
    ASCII_CHAR_STRICT, ASCII_DECIMAL_RANGE, ASCII_HEX_ANY, ASCII_HEX_LOWER,
    ASCII_HEX_UPPER, ASCII_OCTAL_RANGE. *)
Definition named_sets : list byteset :=
  [ full;
    BS (N.ones 64) (N.ones 64) 0 0;
    BS (N.lor 18446744069414584320
         (N.lor (N.lor (N.shiftl 1 10) (N.shiftl 1 13)) (N.shiftl 1 9))) (N.ones 64) 0 0;
    from_range_incl 48 57;
    from_list (nrange 48 10 ++ nrange 65 6 ++ nrange 97 6);
    from_list (nrange 48 10 ++ nrange 97 6);
    from_list (nrange 48 10 ++ nrange 65 6);
    from_range_incl 48 55 ].

(** pretty_print.rs:95-107 [as_token] *)
Definition as_token (s : byteset) : option token :=
  match find (eqb s) named_sets with Some t => Some (TNamed t) | None => None end.

(** pretty_print.rs:163-195 [__str_raw] *)
Definition str_raw (s : byteset) : token :=
  if len s <? 128 then TList (iter s) else TCompl (iter (complement s)).

(** pretty_print.rs:121-134 [as_range_string] (the [bounds().unwrap()] is
    modelled by [Panic] when there are none). *)
Definition as_range_string (s : byteset) : outcome (option token) :=
  match is_contiguous s with
  | Panic => Panic
  | Val false => Val None
  | Val true =>
    if (len s =? 0) || (len s =? 1) || (len s =? 255) || (len s =? 256)
    then Val (Some (str_raw s))
    else match bounds s with
         | Val (Some (lo, hi)) => Val (Some (TRange lo hi))
         | _ => Panic
         end
  end.

(** pretty_print.rs:136-161 [str_fallback], THRESHOLD = 4: ranges of at least
    four elements are printed as ranges, the others are collected. Rank order
    is dropped (the printed union is order-insensitive). [rank] is a [u8]:
    lines 78 and 146 compute [hi - lo + 1] and [lo + rank - 1] in [u8]
    arithmetic, which panics (overflow checks on) as soon as an intermediate
    value reaches 256. *)
Definition rank_overflow (p : N * N) : bool :=
  let rank := snd p - fst p + 1 in
  (256 <=? rank) || ((4 <=? rank) && (256 <=? fst p + rank)).
Definition str_fallback (s : byteset) : outcome (list token) :=
  match is_contiguous s with
  | Panic | Val true => Panic
  | Val false =>
    match partition_loop 257 s with
    | None => Panic
    | Some parts =>
      if existsb rank_overflow parts then Panic else
      let big := filter (fun p => 4 <=? (snd p - fst p + 1)) parts in
      let small := filter (fun p => negb (4 <=? (snd p - fst p + 1))) parts in
      let overflow :=
        fold_left (fun acc p =>
          fold_left insert (nrange (fst p) (N.to_nat (snd p + 1 - fst p))) acc)
          small empty in
      let toks := map (fun p => TRange (fst p) (snd p)) big in
      Val (if is_empty overflow then toks else toks ++ [str_raw overflow])
    end
  end.

(** pretty_print.rs:109-119 [to_best_string], 198-202 [Display]. *)
Definition display (s : byteset) : outcome (list token) :=
  match as_token s with
  | Some t => Val [t]
  | None =>
    match as_range_string s with
    | Panic => Panic
    | Val (Some t) => Val [t]
    | Val None => str_fallback s
    end
  end.
