(** C14-C20: the runtime that generated parsers run on. *)
From Verif Require Import Base ParserModel ParserProofs ProgModel ProgProofs.
Open Scope N_scope.

(** A state some sequence of runtime calls reaches from a fresh parser; and one
    reached without ever entering bit mode. *)
Definition reachable (buf : list N) (start : N) (s : pst) : Prop :=
  exists h, run h (parser_of_view buf start) = Some s.
Definition reachable_bytes (buf : list N) (start : N) (s : pst) : Prop :=
  exists h, ~ In OpEnterBits h /\ run h (parser_of_view buf start) = Some s.

(** ** C14. [open_slices] are the end points of the slices that are open and not
    hidden by a seek. Byte mode: the byte read is the one at the cursor, the
    cursor moves by one, and the whole byte lies before the end of every open
    slice. *)
Theorem C14_read_byte buf start s ix b s' :
  reachable buf start s -> pcur s = Bytes ix -> p_read_byte s = (POk b, s') ->
  nth_error buf (N.to_nat ix) = Some b /\ pcur s' = Bytes (ix + 1) /\
  forall e, In e (open_slices (pstk s)) -> (ix + 1) * 8 <= abs_bit_offset e.
Proof.
  intros [h R] C H. pose proof (read_byte_ok buf start h s b s' R H) as X. now rewrite C in X.
Qed.
Print Assumptions C14_read_byte.
(** Bit mode: the bit read is in the buffer, but only its byte is at most the
    byte an open slice ends in. Missing: the bit lies before the end of the
    slice, which is false. *)
Theorem C14_read_bit_partial buf start s k i b s' :
  reachable buf start s -> pcur s = Bits k i -> p_read_byte s = (POk b, s') ->
  (exists byte, nth_error buf (N.to_nat (k + i / 8)) = Some byte /\
     b = N.b2n (N.testbit byte (i mod 8))) /\ pcur s' = Bits k (i + 1) /\
  forall e, In e (open_slices (pstk s)) -> k + i / 8 <= byte_of e.
Proof.
  intros [h R] C H. pose proof (read_byte_ok buf start h s b s' R H) as X. rewrite C in X.
  destruct X as (byte & X1 & X2 & X3 & X4). eauto.
Qed.
Print Assumptions C14_read_bit_partial.
(** A slice of one byte, bit mode, nine reads: the ninth reads byte 1. *)
Theorem C14_read_bit_refuted : exists buf start s b s' e,
  reachable buf start s /\ p_read_byte s = (POk b, s') /\
  In e (open_slices (pstk s)) /\ abs_bit_offset e <= abs_bit_offset (pcur s).
Proof.
  set (h := [OpStartSlice 1; OpEnterBits] ++ repeat OpRead 8).
  exists [0; 1], 0. destruct (run h (parser_of_view [0; 1] 0)) as [s|] eqn:E; [|vm_compute in E; discriminate].
  exists s. vm_compute in E. injection E as <-. exists 1. eexists. exists (Bytes 1).
  split; [exists h; vm_compute; reflexivity|]. split; [vm_compute; reflexivity|].
  split; [now left|vm_compute; discriminate].
Qed.
Print Assumptions C14_read_bit_refuted.
Example C14_example :
  let s := snd (p_read_byte (snd (p_start_slice 2 (parser_new [10; 20; 30])))) in
  reachable [10; 20; 30] 0 s /\ pcur s = Bytes 1 /\ open_slices (pstk s) = [Bytes 2] /\
  fst (p_read_byte s) = POk 20 /\ fst (p_read_byte (snd (p_read_byte s))) = PErr EOverrun.
Proof. split; [exists [OpStartSlice 2; OpRead]; vm_compute; reflexivity|]. vm_compute. auto. Qed.

(** ** C15. Parsing inside a peek context, whatever the program inside does, leaves
    the parser in exactly the state it was in: same offset and mode, same open
    contexts. [fine]/[safe] exclude [Permit] inside, a one-branch alternation
    inside a branch of another, and alternations one of whose branches contains
    another alternation in non-final position or a negative lookahead (see the
    refutations below). *)
Theorem C15_peek_partial A (p : prog A) s a s' :
  fine p -> exec (Peek p) s = (POk a, s') -> s' = s.
Proof. exact (peek_restores A p s a s'). Qed.
Print Assumptions C15_peek_partial.
Theorem C15_offset_peek_partial A n (p : prog A) s a s' :
  fine p -> exec (OffsetPeek n p) s = (POk a, s') -> s' = s.
Proof. exact (offset_peek_restores A n p s a s'). Qed.
Print Assumptions C15_offset_peek_partial.
Theorem C15_peek_not_partial A (p : prog A) s a s' :
  safe p -> exec (PeekNot p) s = (POk a, s') -> s' = s.
Proof. exact (peek_not_restores A p s a s'). Qed.
Print Assumptions C15_peek_not_partial.

(** Reading a given byte, or failing. *)
Definition is_byte (n : N) : prog N := Bind Read (fun b => if b =? n then Ret b else Fail).
Definition seq2 {A B} (p : prog A) (q : prog B) : prog B := Bind p (fun _ => q).

(** Not for every program: the negative lookahead of [0 (0 | 1) 2] on [0 1 3]
    does not restore the offset. *)
Definition leaky : prog N :=
  seq2 (is_byte 0) (seq2 (Alts (BMore (is_byte 1) (BLast (is_byte 9)))) (is_byte 2)).
Theorem C15_peek_not_refuted : exists (p : prog N) s s',
  reachable [0; 1; 3] 0 s /\ exec (PeekNot p) s = (POk tt, s') /\ pcur s = Bytes 0 /\ pcur s' = Bytes 1.
Proof.
  exists leaky, (parser_of_view [0; 1; 3] 0). eexists. split; [exists []; reflexivity|]. vm_compute. auto.
Qed.
Print Assumptions C15_peek_not_refuted.
Example C15_example :
  let p := seq2 Read (Alts (BMore (is_byte 7) (BLast (Slice 1 Read)))) in
  fine p /\ exec (Peek p) (parser_new [1; 2; 3]) = (POk 2, parser_new [1; 2; 3]) /\
  fst (exec (seq2 p Offset) (parser_new [1; 2; 3])) = POk 2.
Proof. cbn. repeat split; intros; auto; destruct (_ =? _); cbn; auto. Qed.

(** ** C16. When the first branch fails, what happens next is exactly what would
    happen if the parser, in the state in which the alternation was entered, had
    been asked to try the remaining branches. Byte-mode programs, [safe] branch. *)
Theorem C16_alternatives_partial A (p : prog A) (rest : branches A) buf start s e s1 :
  reachable_bytes buf start s -> no_bits p -> safe p ->
  exec p (snd (p_start_alt s)) = (PErr e, s1) ->
  exec (Alts (BMore p rest)) s = from_branch rest s.
Proof.
  intros (h & NB & R) N S H. destruct (alts_rewind A p rest s e s1 S H) as [X|(_ & X)]; [exact X|].
  exfalso. apply X. split; [exact N|]. exists buf, start. eapply invb_run; eauto. apply invb_new.
Qed.
Print Assumptions C16_alternatives_partial.
(** With bit mode allowed: either that, or the whole alternation fails with a
    recovery error. *)
Theorem C16_alternatives_bits_partial A (p : prog A) (rest : branches A) s e s1 :
  safe p -> exec p (snd (p_start_alt s)) = (PErr e, s1) ->
  exec (Alts (BMore p rest)) s = from_branch rest s \/
  fst (exec (Alts (BMore p rest)) s) = PErr ENoRecovery.
Proof. intros S H. destruct (alts_rewind A p rest s e s1 S H) as [X|(X & _)]; auto. Qed.
Print Assumptions C16_alternatives_bits_partial.
(** A branch that contains an alternation that succeeded before the branch fails
    makes the next branch start in the middle: (0 (1|9) 2) | (0 1 3) on [0 1 3]. *)
Theorem C16_alternatives_refuted : exists (p q : prog N) s s1,
  reachable_bytes [0; 1; 3] 0 s /\ no_bits p /\ exec p (snd (p_start_alt s)) = (PErr ERejected, s1) /\
  fst (exec q s) = POk 3 /\ fst (exec (Alts (BMore p (BLast q))) s) = PErr ERejected.
Proof.
  exists leaky, (seq2 (is_byte 0) (seq2 (is_byte 1) (is_byte 3))), (parser_of_view [0; 1; 3] 0). eexists.
  split; [exists []; split; [intros []|reflexivity]|].
  split; [cbn; repeat split; intros; try destruct (_ =? _); cbn; auto|]. vm_compute. auto.
Qed.
Print Assumptions C16_alternatives_refuted.
(** Likewise after a negative lookahead that found what it should not have:
    (0 !1 x) | (0 1 3) on [0 1 3]. *)
Theorem C16_peek_not_refuted : exists (p q : prog N) s s1,
  reachable_bytes [0; 1; 3] 0 s /\ no_bits p /\ exec p (snd (p_start_alt s)) = (PErr ERejected, s1) /\
  fst (exec q s) = POk 3 /\ fst (exec (Alts (BMore p (BLast q))) s) = PErr ERejected.
Proof.
  exists (seq2 (is_byte 0) (seq2 (PeekNot (is_byte 1)) Read)),
    (seq2 (is_byte 0) (seq2 (is_byte 1) (is_byte 3))), (parser_of_view [0; 1; 3] 0). eexists.
  split; [exists []; split; [intros []|reflexivity]|].
  split; [cbn; repeat split; intros; try destruct (_ =? _); cbn; auto|]. vm_compute. auto.
Qed.
Print Assumptions C16_peek_not_refuted.
(** And a branch that overruns a slice in bit mode makes the whole alternation
    fail: slice(1, nine bits) | 0 on [0 0]. *)
Fixpoint bits_n (n : nat) : prog N :=
  match n with O => Ret 0 | S k => Bind Read (fun _ => bits_n k) end.
Theorem C16_bits_refuted : exists (p q : prog N) s s1,
  reachable_bytes [0; 0] 0 s /\ safe p /\ exec p (snd (p_start_alt s)) = (PErr ESliceOverrun, s1) /\
  fst (exec q s) = POk 0 /\ fst (exec (Alts (BMore p (BLast q))) s) = PErr ENoRecovery.
Proof.
  exists (Slice 1 (BitsOf (bits_n 9))),
    (is_byte 0), (parser_of_view [0; 0] 0). eexists.
  split; [exists []; split; [intros []|reflexivity]|].
  split; [cbn; repeat split; intros; auto|]. vm_compute. auto.
Qed.
Print Assumptions C16_bits_refuted.
Example C16_example :
  let p := seq2 (is_byte 0) (Slice 1 (is_byte 2)) in
  let s := parser_new [0; 1] in
  no_bits p /\ safe p /\ (exists s1, exec p (snd (p_start_alt s)) = (PErr ERejected, s1) /\ pcur s1 <> pcur s) /\
  fst (exec (Alts (BMore p (BLast (seq2 (is_byte 0) (is_byte 1))))) s) = POk 1.
Proof.
  split; [cbn; repeat split; intros; try destruct (_ =? _); cbn; auto|].
  split; [cbn; repeat split; intros; try destruct (_ =? _); cbn; auto|].
  split; [eexists; split; [vm_compute; reflexivity|discriminate]|reflexivity].
Qed.

(** ** C17. Entering bit mode at byte [k] and reading [n] bits that are available
    gives them least significant first; leaving bit mode resumes at the first
    byte no bit of which has been read. *)
Theorem C17_bits s k L n :
  pcur s = Bytes k -> current_limit s = Bytes L -> L <= N.of_nat (length (pbuf s)) ->
  k * 8 + N.of_nat n <= L * 8 -> L * 8 < w64 ->
  exists s1 bits s2 s3,
    p_enter_bits s = (POk tt, s1) /\ read_n n s1 = Some (bits, s2) /\ length bits = n /\
    (forall j, (j < n)%nat -> exists byte,
      nth_error (pbuf s) (N.to_nat (k + N.of_nat j / 8)) = Some byte /\
      nth_error bits j = Some (N.b2n (N.testbit byte (N.of_nat j mod 8)))) /\
    p_escape_bits s2 = (POk (N.of_nat n), s3) /\
    pstk s3 = pstk s /\ pcur s3 = Bytes (k + (N.of_nat n + 7) / 8).
Proof. exact (bits_spec s k L n). Qed.
Print Assumptions C17_bits.
Example C17_example : let s := parser_new [5; 129] in
  pcur s = Bytes 0 /\ current_limit s = Bytes 2 /\
  option_map fst (read_n 9 (snd (p_enter_bits s))) = Some [1; 0; 1; 0; 0; 0; 0; 0; 1].
Proof. vm_compute. auto. Qed.

(** ** C18 *)
Theorem C18_remaining_partial buf start s :
  N.of_nat (length buf) + 1 < w64 -> reachable_bytes buf start s ->
  exists r, p_remaining s = (POk r, s) /\
    (forall d, fst (p_advance_by d s) = POk tt <-> d <= r) /\
    (r = 0 <-> fst (p_read_byte s) = PErr EOverrun) /\
    (r = 0 <-> fst (p_finish s) = POk tt).
Proof. intros Hb (h & NB & R). exact (remaining_spec buf start h s Hb NB R). Qed.
Print Assumptions C18_remaining_partial.
(** In bit mode the runtime can be read past the end of a slice, after which
    asking for the remaining length panics. *)
Theorem C18_remaining_refuted : exists buf start s,
  reachable buf start s /\ fst (p_remaining s) = PPanic.
Proof.
  set (h := [OpStartSlice 1; OpEnterBits] ++ repeat OpRead 9).
  exists [0; 1], 0. destruct (run h (parser_of_view [0; 1] 0)) as [s|] eqn:E; [|vm_compute in E; discriminate].
  exists s. vm_compute in E. injection E as <-. split; [exists h; vm_compute; reflexivity|reflexivity].
Qed.
Print Assumptions C18_remaining_refuted.
Example C18_example : exists s, reachable_bytes [1; 2; 3; 4] 0 s /\ p_remaining s = (POk 2, s).
Proof.
  destruct (run [OpRead; OpStartSlice 3; OpRead] (parser_of_view [1; 2; 3; 4] 0)) as [s|] eqn:E; [|vm_compute in E; discriminate].
  exists s. vm_compute in E. injection E as <-. split; [|reflexivity]. exists [OpRead; OpStartSlice 3; OpRead]. split; [|vm_compute; reflexivity].
  intros [H|[H|[H|[]]]]; discriminate.
Qed.

(** ** C19. [pos_of] is the number of bytes since the start of the buffer, or of
    bits since bit mode was entered. *)
Theorem C19_align n s s' : p_skip_align n s = (POk tt, s') ->
  pstk s' = pstk s /\ same_mode (pcur s) (pcur s') /\ pos_of (pcur s') mod n = 0 /\
  pos_of (pcur s) <= pos_of (pcur s') /\
  forall m, pos_of (pcur s) <= m -> m mod n = 0 -> pos_of (pcur s') <= m.
Proof. exact (align_spec n s s'). Qed.
Print Assumptions C19_align.
(** The interpreter skips the same number of positions. *)
Theorem C19_interpreter_agrees n s s' : n <> 0 -> p_skip_align n s = (POk tt, s') ->
  pos_of (pcur s') = pos_of (pcur s) + interp_skip n (pos_of (pcur s)).
Proof.
  intros Hn H. destruct (align_spec n s s' H) as (_ & _ & A & B & C). now apply align_agrees.
Qed.
Print Assumptions C19_interpreter_agrees.
(** It succeeds whenever the target is within the limit. *)
Theorem C19_succeeds buf start s n :
  N.of_nat (length buf) + 1 < w64 -> reachable_bytes buf start s -> n <> 0 ->
  pos_of (pcur s) + n < w64 ->
  (fst (p_skip_align n s) = POk tt <->
   exists r, p_remaining s = (POk r, s) /\ interp_skip n (pos_of (pcur s)) <= r).
Proof. intros Hb (h & NB & R). exact (align_succeeds buf start h s n Hb NB R). Qed.
Print Assumptions C19_succeeds.
Example C19_example : exists s', p_skip_align 4 (snd (p_read_byte (parser_new [1; 2; 3; 4; 5]))) = (POk tt, s') /\
  pcur s' = Bytes 4.
Proof. eexists. vm_compute. auto. Qed.

(** ** C20 *)
Theorem C20_open buf start s n :
  reachable_bytes buf start s -> pos_of (pcur s) + n < w64 ->
  (fst (p_start_slice n s) = POk tt <-> exists r, p_remaining s = (POk r, s) /\ n <= r).
Proof.
  intros (h & NB & R). apply (slice_opens buf start). eapply invb_run; eauto. apply invb_new.
Qed.
Print Assumptions C20_open.
(** Inside, exactly [n] bytes remain. *)
Theorem C20_inside buf start s n s1 :
  reachable_bytes buf start s -> p_start_slice n s = (POk tt, s1) -> fst (p_remaining s1) = POk n.
Proof.
  intros (h & NB & R) H. eapply slice_inside; [|exact H]. eapply invb_run; eauto. apply invb_new.
Qed.
Print Assumptions C20_inside.
(** If the program inside succeeds, the slice succeeds, at the opening offset
    plus [n], with everything else (in particular the open contexts, hence the
    limit) as before. *)
Theorem C20_close_partial A n (p : prog A) buf start s s1 a s2 :
  reachable_bytes buf start s -> no_bits p -> fine p ->
  p_start_slice n s = (POk tt, s1) -> exec p s1 = (POk a, s2) ->
  exec (Slice n p) s = (POk a, set_cur s (Bytes (pos_of (pcur s) + n))).
Proof.
  intros (h & NB & R). apply (slice_closes A n p buf start). eapply invb_run; eauto. apply invb_new.
Qed.
Print Assumptions C20_close_partial.
(** In any mode, a slice that succeeds ends there. *)
Theorem C20_close_any_partial A n (p : prog A) s a s' : fine p -> exec (Slice n p) s = (POk a, s') ->
  exists e, increment_by (pcur s) n = Val e /\ s' = set_cur s e.
Proof. exact (slice_result A n p s a s'). Qed.
Print Assumptions C20_close_any_partial.
(** Without [fine]: after [Permit] caught an error raised inside a peek, closing
    the slice hits an unreachable! (a panic). *)
Theorem C20_permit_refuted : exists (p : prog (option N)) s s1,
  reachable_bytes [0; 0] 0 s /\ no_bits p /\ p_start_slice 1 s = (POk tt, s1) /\
  fst (exec p s1) = POk None /\ fst (exec (Slice 1 p) s) = PPanic.
Proof.
  exists (Catch (Peek (is_byte 1))), (parser_of_view [0; 0] 0). eexists.
  split; [exists []; split; [intros []|reflexivity]|].
  split; [cbn; repeat split; intros; try destruct (_ =? _); cbn; auto|].
  split; [reflexivity|]. vm_compute. auto.
Qed.
Print Assumptions C20_permit_refuted.
Example C20_example :
  let p := seq2 (Alts (BMore (is_byte 7) (BLast Read))) (Peek Read) in
  let s := snd (p_read_byte (parser_new [1; 2; 3; 4; 5])) in
  no_bits p /\ fine p /\
  exec (Slice 3 p) s = (POk 3, set_cur s (Bytes 4)).
Proof.
  split; [cbn; repeat split; intros; try destruct (_ =? _); cbn; auto|].
  split; [cbn; repeat split; intros; try destruct (_ =? _); cbn; auto|]. reflexivity.
Qed.
