(** Model of the small data structures the decoder is built on:
    src/decoder/seq_kind.rs, src/decoder/search.rs, src/read.rs,
    src/util.rs (module with_err), and the back-reference and byte-composition
    helpers of src/prelude.rs. *)
From Verif Require Import Base.

(** ** src/decoder/seq_kind.rs *)

(** seq_kind.rs:10-13 [enum SeqKind]. Lengths are [nat]; that a [Vec] has fewer
    than 2^63 elements is not represented. *)
Inductive seqkind (A : Type) := Strict (l : list A) | Dup (n : nat) (x : A).
Arguments Strict {A} l.
Arguments Dup {A} n x.

Section SeqKind.
Context {A : Type}.

(** seq_kind.rs:104-109 [len] *)
Definition sk_len (s : seqkind A) : nat :=
  match s with Strict l => length l | Dup n _ => n end.
(** seq_kind.rs:116-121 [is_empty] *)
Definition sk_is_empty (s : seqkind A) : bool :=
  match s with Strict l => match l with [] => true | _ => false end | Dup n _ => Nat.eqb n 0 end.
(** seq_kind.rs:124-129 [into_vec]; also 162-167 [iter], the two [IntoIterator]s:
    [repeat_n] yields [n] copies. *)
Definition sk_to_list (s : seqkind A) : list A :=
  match s with Strict l => l | Dup n x => repeat x n end.
(** seq_kind.rs:133-138 [get] *)
Definition sk_get (s : seqkind A) (i : nat) : option A :=
  match s with
  | Strict l => nth_error l i
  | Dup n x => if i <? n then Some x else None
  end.
(** seq_kind.rs:184-191 [Index] *)
Definition sk_index (s : seqkind A) (i : nat) : outcome A :=
  match sk_get s i with Some x => Val x | None => Panic end.
(** seq_kind.rs:142-160 [sub_seq]: [&vs[start..]] panics if [start > len], then
    [&tmp[..len]] panics if [len > tmp.len()]. *)
Definition sk_sub_seq (s : seqkind A) (start len : nat) : outcome (seqkind A) :=
  match s with
  | Strict l =>
    if start <=? length l then
      let tmp := skipn start l in
      if len <=? length tmp then Val (Strict (firstn len tmp)) else Panic
    else Panic
  | Dup n x => if start + len <=? n then Val (Dup len x) else Panic
  end.
(** seq_kind.rs:169-181 [append] *)
Definition sk_append (s t : seqkind A) : seqkind A :=
  if sk_is_empty s then t
  else if sk_is_empty t then s
  else Strict (sk_to_list s ++ sk_to_list t).
End SeqKind.

(** seq_kind.rs:51-61 [sub_range]: a sub-range of an integer range; the
    assertion uses a strict comparison. *)
Definition sub_range (lo hi start len : nat) : outcome (nat * nat) :=
  if start + len <? hi - lo then Val (lo + start, lo + start + len) else Panic.

(** ** src/decoder/search.rs

    Generic in the key type and in the (possibly panicking) comparison of the
    query with a key; [key i] evaluates the key of element [i] (the [KeyCache]
    only avoids evaluating twice and is not represented). *)
Section Search.
Context {K : Type} (cmp : K -> outcome comparison).

(** search.rs:112-126, the [while] loop. [None] is out of fuel; [mid - 1] on
    [mid = 0] underflows. *)
Fixpoint bsearch (key : nat -> outcome K) (fuel lower upper : nat) : option (outcome (option nat)) :=
  match fuel with
  | O => None
  | S fuel' =>
    if upper <? lower then Some (Val None)
    else
      let mid := (lower + upper) / 2 in
      match obind (key mid) cmp with
      | Panic => Some Panic
      | Val Lt => if mid =? 0 then Some Panic else bsearch key fuel' lower (mid - 1)
      | Val Eq => Some (Val (Some mid))
      | Val Gt => bsearch key fuel' (mid + 1) upper
      end
  end.

(** search.rs:54-127 [find_index_by_key_sorted]; [cmp k] is
    [query.compare_as_key(k)]. *)
Definition find_sorted (len : nat) (key : nat -> outcome K) : option (outcome (option nat)) :=
  if len =? 0 then Some (Val None)
  else match obind (key 0) cmp with
  | Panic => Some Panic
  | Val Lt => Some (Val None)
  | Val Eq => Some (Val (Some 0))
  | Val Gt =>
    if len <=? 1 then Some (Val None)
    else match obind (key (len - 1)) cmp with
    | Panic => Some Panic
    | Val Gt => Some (Val None)
    | Val Eq => Some (Val (Some (len - 1)))
    | Val Lt =>
      if len <=? 2 then Some (Val None)
      else bsearch key (S len) 0 (len - 1)
    end
  end.

(** search.rs:129-147 [find_index_by_key_unsorted]; [eqk k] is [query.eq_key(k)]. *)
Fixpoint find_unsorted {V} (eqk : K -> outcome bool) (ev : V -> outcome K) (ix : nat) (l : list V)
  : outcome (option nat) :=
  match l with
  | [] => Val None
  | v :: l' =>
    match obind (ev v) eqk with
    | Panic => Panic
    | Val true => Val (Some ix)
    | Val false => find_unsorted eqk ev (S ix) l'
    end
  end.
End Search.

(** ** src/read.rs *)

(** read.rs:4-8 [struct ReadCtxt] *)
Record rctx := RC { rinput : list N; roff : nat }.
(** read.rs:22-25 [new] *)
Definition rc_new (l : list N) : rctx := RC l 0.
(** read.rs:27-29 [remaining]: [&input[offset..]] *)
Definition rc_remaining (c : rctx) : outcome (list N) :=
  if roff c <=? length (rinput c) then Val (skipn (roff c) (rinput c)) else Panic.
(** read.rs:33-39 [seek_to] *)
Definition rc_seek_to (c : rctx) (n : N) : option rctx :=
  if (n <=? N.of_nat (length (rinput c)))%N then Some (RC (rinput c) (N.to_nat n)) else None.
(** read.rs:49-63 [split_at]; [self.offset + n] is a [usize] addition, which
    panics on overflow (and wraps when overflow checks are off). *)
Definition rc_split_at (c : rctx) (n : N) : outcome (option (rctx * rctx)) :=
  if (w64 <=? N.of_nat (roff c) + n)%N then Panic
  else if (N.of_nat (roff c) + n <=? N.of_nat (length (rinput c)))%N then
    Val (Some (RC (firstn (roff c + N.to_nat n) (rinput c)) (roff c),
               RC (rinput c) (roff c + N.to_nat n)))
  else Val None.
(** [split_at] as compiled without overflow checks: the addition wraps. *)
Definition rc_split_at_wrapping (c : rctx) (n : N) : option (rctx * rctx) :=
  let e := ((N.of_nat (roff c) + n) mod w64)%N in
  if (e <=? N.of_nat (length (rinput c)))%N then
    Some (RC (firstn (N.to_nat e) (rinput c)) (roff c), RC (rinput c) (N.to_nat e))
  else None.
(** read.rs:65-71 [skip_remainder] *)
Definition rc_skip_remainder (c : rctx) : rctx := RC (rinput c) (length (rinput c)).
(** read.rs:75-88 [read_byte] *)
Definition rc_read_byte (c : rctx) : option (N * rctx) :=
  match nth_error (rinput c) (roff c) with
  | Some b => Some (b, RC (rinput c) (roff c + 1))
  | None => None
  end.
(** [uN::from_be_bytes], [uN::from_le_bytes] *)
Definition from_be_bytes (l : list N) : N := fold_left (fun acc b => (256 * acc + b)%N) l 0%N.
Definition from_le_bytes (l : list N) : N := fold_right (fun b acc => (b + 256 * acc)%N) 0%N l.
(** read.rs:90-136 [read_u16be], [read_u32be], [read_u64be]: one text for the
    three widths, [sz] = 2, 4, 8. *)
Definition rc_read_be (sz : nat) (c : rctx) : option (N * rctx) :=
  if roff c + sz <=? length (rinput c) then
    Some (from_be_bytes (firstn sz (skipn (roff c) (rinput c))), RC (rinput c) (roff c + sz))
  else None.

(** ** Back-references *)

(** src/decoder.rs:292-307 [Expr::SubSeqInflate] on a [SeqKind], and
    src/prelude.rs:480-498 [slice_ext] in its last arm: element [i + start] of the
    history, or an element produced earlier. The loop is run for [n] more
    elements with [out] already produced. *)
Fixpoint inflate_loop {A} (hist : list A) (start n : nat) (out : list A) : outcome (list A) :=
  match n with
  | O => Val out
  | S n' =>
    let i := length out in
    match (if i + start <? length hist then nth_error hist (i + start)
           else nth_error out (i + start - length hist)) with
    | Some x => inflate_loop hist start n' (out ++ [x])
    | None => Panic
    end
  end.
Definition sub_seq_inflate {A} (hist : list A) (start len : nat) : outcome (list A) :=
  inflate_loop hist start len [].

(** src/prelude.rs:480-498 [slice_ext] on [start..end_]: a plain slice when it
    fits ([&vs[range]] panics when [start > end]), the loop above otherwise. *)
Definition slice_ext {A} (vs : list A) (start end_ : nat) : outcome (list A) :=
  if end_ <=? length vs then
    if start <=? end_ then Val (firstn (end_ - start) (skipn start vs)) else Panic
  else sub_seq_inflate vs start (end_ - start).

(** src/prelude.rs:467-478 [extend_from_within_ext] on [start..end_]. *)
Fixpoint push_loop {A} (n i : nat) (vs : list A) : outcome (list A) :=
  match n with
  | O => Val vs
  | S n' => match nth_error vs i with
            | Some x => push_loop n' (S i) (vs ++ [x])
            | None => Panic
            end
  end.
Definition extend_from_within_ext {A} (vs : list A) (start end_ : nat) : outcome (list A) :=
  if end_ <=? length vs then
    if start <=? end_ then Val (vs ++ firstn (end_ - start) (skipn start vs)) else Panic
  else push_loop (end_ - start) start vs.

(** ** src/util.rs, module with_err *)

(** util.rs:99-102 [struct WithErr] *)
Record with_err (T E : Type) := WE { we_value : T; we_errs : list E }.
Arguments WE {T E}.
Arguments we_value {T E}.
Arguments we_errs {T E}.
(** util.rs:218 [EResult]: [Result<WithErr<T, E0>, E1>] *)
Definition eresult (T E0 E1 : Type) : Type := (with_err T E0 + E1)%type.

Section WithErr.
Context {E0 E1 : Type}.
(** util.rs:106-111 [new], 114-119 [with_err] *)
Definition we_new {T} (x : T) : with_err T E0 := WE x [].
Definition we_with_err {T} (x : T) (e : E0) : with_err T E0 := WE x [e].
(** util.rs:127-132 [map] *)
Definition we_map {T U} (f : T -> U) (w : with_err T E0) : with_err U E0 := WE (f (we_value w)) (we_errs w).
(** util.rs:139-144 [join] *)
Definition we_join {T U} (w : with_err T E0) (f : T -> eresult U E0 E1) : eresult U E0 E1 :=
  match f (we_value w) with
  | inr e => inr e
  | inl r => inl (WE (we_value r) (we_errs r ++ we_errs w))
  end.
(** util.rs:152-165 [fold] *)
Fixpoint we_fold_from {T U} (f : U -> T -> eresult U E0 E1) (acc : with_err U E0) (l : list T) : eresult U E0 E1 :=
  match l with
  | [] => inl acc
  | x :: l' =>
    match f (we_value acc) x with
    | inr e => inr e
    | inl r => we_fold_from f (WE (we_value r) (we_errs r ++ we_errs acc)) l'
    end
  end.
Definition we_fold {T U} (init : U) (l : list T) (f : U -> T -> eresult U E0 E1) : eresult U E0 E1 :=
  we_fold_from f (we_new init) l.
(** util.rs:184-186 [has_errs], 189-195 [into_strict] *)
Definition we_has_errs {T} (w : with_err T E0) : bool := negb (match we_errs w with [] => true | _ => false end).
Definition we_into_strict {T} (w : with_err T E0) : T + list E0 :=
  match we_errs w with [] => inl (we_value w) | es => inr es end.
(** util.rs:206-209 [lift]: returns the value and the extended outer vector. *)
Definition we_lift {T} (w : with_err T E0) (outer : list E0) : T * list E0 :=
  (we_value w, outer ++ we_errs w).
(** util.rs:221-235 [downgrade_error_with] *)
Definition downgrade_error_with {T} (v : eresult T E0 E0) (default : T) : with_err T E0 :=
  match v with inl w => w | inr e => we_with_err default e end.
End WithErr.

(** ** src/prelude.rs:216-242 [u16le] .. [u64be] *)
Definition u_be (l : list N) : N := from_be_bytes l.
Definition u_le (l : list N) : N := from_le_bytes l.

(** src/prelude.rs:501-525 [repeat_between_finished] *)
Definition repeat_between_finished (out_of_reps : bool) (len min max : nat) : outcome (bool + unit) :=
  if max <? min then Panic
  else if max <? len then Panic
  else if out_of_reps && (len <? min) then Val (inr tt)
  else Val (inl (out_of_reps || (len =? max))).
