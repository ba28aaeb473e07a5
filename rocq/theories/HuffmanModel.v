(** Huffman decoding: construction of the codes from a table of code lengths
    (src/prelude.rs and, in the same words, src/decoder.rs), the decoding tree of
    the generated-code runtime, and the decoding loop. *)
From Verif Require Import Base ParserModel.

(** [v[i] = x] on a vector; [None] when out of range (a panic). *)
Fixpoint upd {A} (l : list A) (i : nat) (x : A) : option (list A) :=
  match l, i with
  | [], _ => None
  | _ :: l', O => Some (x :: l')
  | y :: l', S i' => option_map (cons y) (upd l' i' x)
  end.
Definition get {A} (l : list A) (i : nat) : outcome A :=
  match nth_error l i with Some x => Val x | None => Panic end.
Definition set {A} (l : list A) (i : nat) (x : A) : outcome (list A) :=
  match upd l i x with Some l' => Val l' | None => Panic end.
(** [usize] addition, panicking on overflow. *)
Definition add64 (a b : N) : outcome N := if (a + b <? w64)%N then Val (a + b)%N else Panic.

(** prelude.rs:453-461 [bit_range] (decoder.rs:1810-1818 likewise): the [nbits]
    low bits of [value], most significant first. [1 << r] panics from [r = 64] on. *)
Definition bit_of (value : N) (r : nat) : N := if N.testbit value (N.of_nat r) then 1%N else 0%N.
Definition bit_range (nbits : nat) (value : N) : outcome (list N) :=
  if nbits <=? 64 then Val (map (fun i => bit_of value (nbits - 1 - i)) (seq 0 nbits)) else Panic.

(** prelude.rs:305-309 (decoder.rs:1774-1778) [bl_count] *)
Fixpoint count_lengths (lengths : list nat) (bl : list N) : outcome (list N) :=
  match lengths with
  | [] => Val bl
  | len :: rest =>
    obind (get bl len) (fun c => obind (add64 c 1) (fun c' => obind (set bl len c') (count_lengths rest)))
  end.

(** prelude.rs:315-318 (decoder.rs:1784-1787) [next_code]: the loop over [bits],
    [n] iterations left. [<< 1] drops the top bit. *)
Fixpoint first_codes (n bits : nat) (code : N) (bl next : list N) : outcome (list N) :=
  match n with
  | O => Val next
  | S n' =>
    obind (get bl (bits - 1)) (fun c =>
    obind (add64 code c) (fun s =>
    let code' := (N.shiftl s 1 mod w64)%N in
    obind (set next bits code') (first_codes n' (S bits) code' bl)))
  end.

(** prelude.rs:322-327 (decoder.rs:1791-1806) [enumerate]: what is pushed for
    each symbol, in order. [n.try_into().unwrap()] panics above [u16::MAX]. *)
Fixpoint assign (n : N) (lengths : list nat) (next : list N) : outcome (list (list N * N)) :=
  match lengths with
  | [] => Val []
  | len :: rest =>
    if Nat.eqb len 0 then assign (n + 1) rest next
    else
      obind (get next len) (fun c =>
      obind (bit_range len c) (fun code =>
      if (65535 <? n)%N then Panic
      else
        obind (add64 c 1) (fun c' =>
        obind (set next len c') (fun next' =>
        obind (assign (n + 1) rest next') (fun l => Val ((code, n) :: l))))))
  end.

(** prelude.rs:301-329 [make_huffman_decoder], decoder.rs:1772-1808
    [make_huffman_codes]: the codes. In the Rust code of the runtime the pushes
    happen inside the last loop; here they come after it. *)
Definition huffman_codes (lengths : list nat) : outcome (list (list N * N)) :=
  match lengths with
  | [] => Panic
  | _ =>
    let max_length := list_max lengths in
    obind (count_lengths lengths (repeat 0%N (max_length + 1))) (fun bl =>
    obind (set bl 0 0%N) (fun bl =>
    obind (first_codes max_length 1 0 bl (repeat 0%N (max_length + 1))) (fun next =>
    assign 0 lengths next)))
  end.

(** prelude.rs:341-349 [HuffmanNode] *)
Inductive hnode := HEmpty | HLeaf (v : N) | HBranch (zero one : hnode).

(** prelude.rs:363-395 [insert]: [None] is the collision error; the digits are
    0 and 1 ([unreachable!] otherwise, not represented: they come from
    [bit_range]). *)
Fixpoint hinsert (t : hnode) (suffix : list N) (v : N) : option hnode :=
  match t, suffix with
  | HEmpty, [] => Some (HLeaf v)
  | _, [] => None
  | HLeaf _, _ :: _ => None
  | HEmpty, b :: suffix' =>
    option_map (fun c => if N.eqb b 0 then HBranch c HEmpty else HBranch HEmpty c) (hinsert HEmpty suffix' v)
  | HBranch l r, b :: suffix' =>
    if N.eqb b 0 then option_map (fun l' => HBranch l' r) (hinsert l suffix' v)
    else option_map (fun r' => HBranch l r') (hinsert r suffix' v)
  end.

(** prelude.rs:427-429 [push] in the loop of [make_huffman_decoder] *)
Fixpoint hbuild (t : hnode) (codes : list (list N * N)) : option hnode :=
  match codes with
  | [] => Some t
  | (c, v) :: rest => match hinsert t c v with Some t' => hbuild t' rest | None => None end
  end.

(** prelude.rs:298-330 [make_huffman_decoder]: [None] is the collision error. *)
Definition make_huffman_decoder (lengths : list nat) : outcome (option hnode) :=
  omap (hbuild HEmpty) (huffman_codes lengths).

(** prelude.rs:431-448 [parse_one] with 397-403 [follow]: the loop is structural
    in the tree. A value other than 0 and 1 (byte mode) indexes out of bounds. *)
Fixpoint parse_one (t : hnode) (s : pst) : pres N * pst :=
  match t with
  | HLeaf v => (POk v, s)
  | HEmpty =>
    match p_read_byte s with
    | (POk _, s') => (PErr ERejected, s')
    | (PErr e, s') => (PErr e, s')
    | (PPanic, s') => (PPanic, s')
    end
  | HBranch l r =>
    match p_read_byte s with
    | (POk b, s') => if (b =? 0)%N then parse_one l s' else if (b =? 1)%N then parse_one r s' else (PPanic, s')
    | (PErr e, s') => (PErr e, s')
    | (PPanic, s') => (PPanic, s')
    end
  end.

(** prelude.rs:271-280 [new_lengths]: [values[i]] for [i] beyond [values] and
    [new_lengths[values[i]]] out of range panic. *)
Fixpoint reorder_loop (lengths values : list nat) (new : list nat) : outcome (list nat) :=
  match lengths, values with
  | [], _ => Val new
  | _ :: _, [] => Panic
  | l :: ls, v :: vs => obind (set new v l) (reorder_loop ls vs)
  end.
Definition reorder (lengths values : list nat) : outcome (list nat) :=
  reorder_loop lengths values (repeat 0 (length values)).

(** prelude.rs:261-282 [parse_huffman] with 289-297 [join_fallible]: a collision
    is reported when the closure is run. *)
Definition parse_huffman (lengths : list nat) (code_values : option (list nat)) : outcome (pst -> pres N * pst) :=
  obind (match code_values with None => Val lengths | Some vs => reorder lengths vs end) (fun ls =>
  omap (fun d => match d with
                 | Some t => parse_one t
                 | None => fun s => (PErr ERejected, s)
                 end) (make_huffman_decoder ls)).
