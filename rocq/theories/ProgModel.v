(** The control structure of generated parsers (src/codegen/mod.rs): which
    operations of the runtime the emitted code calls, in which order, and where
    errors are caught. Everything else the emitted code does (arithmetic on
    parsed values, building results, deciding what to parse next) is an arbitrary
    function in the continuation of [Bind]. *)
From Verif Require Import Base ParserModel.

Inductive prog : Type -> Type :=
| Ret {A} (a : A) : prog A
| Bind {A B} (p : prog A) (k : A -> prog B) : prog B
(** codegen/mod.rs:2754-2754 [SimpleLogic]: [return Err(..)] *)
| Fail {A} : prog A
(** a panic in emitted code (arithmetic overflow, failed irrefutable match) *)
| Boom {A} : prog A
(** codegen/mod.rs:2804-2828 [read_byte], followed by [?] *)
| Read : prog N
(** codegen/model.rs:309-311 [rem_bytes] *)
| Remaining : prog N
(** codegen/mod.rs:2755-2755 [ExpectEnd] *)
| Finish : prog unit
(** codegen/mod.rs:2790-2792 [SkipToNextMultiple] *)
| Align (n : N) : prog unit
(** codegen/mod.rs:2757-2759 [SkipRemainder] *)
| SkipRem : prog unit
(** codegen/mod.rs:2793-2803 [YieldCurrentOffsetAs] *)
| Offset : prog N
(** codegen/mod.rs:2848-2857 [LetView] *)
| GetView : prog (list N * N)
(** codegen/mod.rs:2886-2903 [Slice] *)
| Slice {A} (n : N) (p : prog A) : prog A
(** codegen/mod.rs:2904-2911 [Peek] *)
| Peek {A} (p : prog A) : prog A
(** codegen/mod.rs:2912-2937 [OffsetPeek], the target already added up *)
| OffsetPeek {A} (target : N) (p : prog A) : prog A
(** codegen/mod.rs:2938-2949 [PeekNot] *)
| PeekNot {A} (p : prog A) : prog unit
(** codegen/mod.rs:2950-2958 [Bits] *)
| BitsOf {A} (p : prog A) : prog A
(** codegen/mod.rs:3464-3519 [Alts] *)
| Alts {A} (l : branches A) : prog A
(** codegen/mod.rs:3550-3595 [DecodeBytes] and [ParseView]: a fresh parser on
    another buffer; the current one is not touched. *)
| OnView {A} (buf : list N) (start : N) (p : prog A) : prog A
(** codegen/mod.rs:3608-3632 [Permit]: [None] stands for the caught error. *)
| Catch {A} (p : prog A) : prog (option A)
with branches : Type -> Type :=
| BLast {A} (p : prog A) : branches A
| BMore {A} (p : prog A) (rest : branches A) : branches A.

Definition is_last {A} (l : branches A) : bool := match l with BLast _ => true | BMore _ _ => false end.

Definition then_ {A B} (r : pres A * pst) (k : A -> pst -> pres B * pst) : pres B * pst :=
  match r with
  | (POk a, s) => k a s
  | (PErr e, s) => (PErr e, s)
  | (PPanic, s) => (PPanic, s)
  end.

(** Execution: the result and the state the parser is left in (also on errors,
    since an enclosing construct may catch them). *)
Fixpoint exec {A} (p : prog A) (s : pst) : pres A * pst :=
  match p in prog A return pres A * pst with
  | Ret a => (POk a, s)
  | Bind p k => then_ (exec p s) (fun a s1 => exec (k a) s1)
  | Fail => (PErr ERejected, s)
  | Boom => (PPanic, s)
  | Read => p_read_byte s
  | Remaining => p_remaining s
  | Finish => p_finish s
  | Align n => p_skip_align n s
  | SkipRem => p_skip_remainder s
  | Offset => p_offset_u64 s
  | GetView => p_view s
  | Slice n p =>
    then_ (p_start_slice n s) (fun _ s1 =>
    then_ (exec p s1) (fun a s2 =>
    then_ (p_end_slice s2) (fun _ s3 => (POk a, s3))))
  | Peek p =>
    then_ (p_open_peek s) (fun _ s1 =>
    then_ (exec p s1) (fun a s2 =>
    then_ (p_close_peek s2) (fun _ s3 => (POk a, s3))))
  | OffsetPeek n p =>
    then_ (p_advance_or_seek n s) (fun _ s1 =>
    then_ (exec p s1) (fun a s2 =>
    then_ (p_close_peek s2) (fun _ s3 => (POk a, s3))))
  | PeekNot p =>
    then_ (p_open_peek_not s) (fun _ s1 =>
      match exec p s1 with
      | (POk _, s2) => (PErr ERejected, s2)
      | (PErr _, s2) => p_close_peek_not s2
      | (PPanic, s2) => (PPanic, s2)
      end)
  | BitsOf p =>
    then_ (p_enter_bits s) (fun _ s1 =>
    then_ (exec p s1) (fun a s2 =>
    then_ (p_escape_bits s2) (fun _ s3 => (POk a, s3))))
  | Alts l => then_ (p_start_alt s) (fun _ s1 => exec_branches l s1)
  | OnView buf start p =>
    match exec p (parser_of_view buf start) with
    | (r, _) => (r, s)
    end
  | Catch p =>
    match exec p s with
    | (POk a, s1) => (POk (Some a), s1)
    | (PErr _, s1) => (POk None, s1)
    | (PPanic, s1) => (PPanic, s1)
    end
  end
with exec_branches {A} (l : branches A) (s : pst) : pres A * pst :=
  match l in branches A return pres A * pst with
  | BLast p => exec p s
  | BMore p rest =>
    match exec p s with
    | (PErr _, s1) => then_ (p_next_alt (is_last rest) s1) (fun _ s2 => exec_branches rest s2)
    | r => r
    end
  end.
