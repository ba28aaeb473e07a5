(** Property C25 (what is accepted belongs to the format), for formats whose meaning
    depends on failure. *)
From Verif Require ByteSetModel HuffmanModel.
From Verif Require Import Base BoundsModel DataModel NumericModel ValueModel FormatModel MatchTreeModel DecoderModel
  DecoderProofs DecoderProps FormatSpec ExactSpec NegativeSpec CompileProofs SoundProofs MatchBoundsProofs MatchTreeProofs
  LookaheadProofs CompleteProofs ExactProps NegativeProofs.
Open Scope nat_scope.

Section Props.
(** Any construction of lookahead trees that follows the code; any equality of
    continuations that only identifies equal ones. *)
Context (bld : fmodule -> list format -> next -> outcome (option mtree)).
Context (Hbld : forall m fs n t, bld m fs n = Val (Some t) -> Build LReal m fs n t).
Context (eqb : next -> next -> bool) (Heqb : forall a b, eqb a b = true -> a = b) (m : fmodule).

(** What a compiled format accepts is described by the format, where wherever a
    negative peek was passed its format matches nothing there ([refused]), and
    wherever a failure was tolerated or a branch of an ordered choice passed over
    that format or branch matches nothing there ([given_up]). Missing: formats
    under a negative peek whose lookahead is not exact, and formats whose failure
    depends on what comes after (both refuted below). *)
Theorem C25_failures_partial : forall f fuel P pfuel input v c' es,
  compile_program bld eqb m fuel f = Some (COk P) ->
  run bld P pfuel (rc_new input) = ROk v c' es ->
  SemN m false (refused bld m) (given_up bld m) SEmpty f input 0 (roff c') v.
Proof.
  intros f fuel P pfuel input v c' es HP Hr.
  destruct (compile_program_ok bld eqb Heqb m fuel f P HP) as (Call & HL & d & Hd & HC).
  unfold run in Hr. destruct P as [|d0 P']; [discriminate|]. cbn in Hd. injection Hd as ->.
  eapply (sound_negative bld (d :: P') m (Hbld m) Call HL pfuel f NEmpty d SEmpty SEmpty (rc_new input)); eauto.
  - constructor.
  - unfold in_range, rc_new. cbn. lia.
Qed.
(** Read on the formats themselves: a passed negative peek, the branch an ordered
    choice takes, a failure reported by a tolerant format. *)
Theorem C25_peek_not_partial : forall g fuel P pfuel input v c' es,
  compile_program bld eqb m fuel (FPeekNot g) = Some (COk P) -> run bld P pfuel (rc_new input) = ROk v c' es ->
  usable input -> exactly bld m true g ->
  roff c' = 0 /\ v = VUnit /\ forall j w, ~ Sem m true SEmpty g input 0 j w.
Proof.
  intros g fuel P pfuel input v c' es HP Hr Hu HE. pose proof (C25_failures_partial _ _ _ _ _ _ _ _ HP Hr) as H.
  inversion H; subst. split; [congruence|]. split; [reflexivity|]. match goal with F : refused _ _ _ _ _ _ |- _ => now apply F end.
Qed.
Theorem C25_ordered_partial : forall fs fuel P pfuel input v c' es,
  compile_program bld eqb m fuel (FUnionNondet fs) = Some (COk P) -> run bld P pfuel (rc_new input) = ROk v c' es ->
  usable input -> Forall (direct bld m) fs ->
  exists k g w, v = VBranch k w /\ nth_error fs k = Some g /\
    SemN m false (refused bld m) (given_up bld m) SEmpty g input 0 (roff c') w /\
    forall k' g', k' < k -> nth_error fs k' = Some g' -> forall j w', ~ Sem m true SEmpty g' input 0 j w'.
Proof.
  intros fs fuel P pfuel input v c' es HP Hr Hu HE. pose proof (C25_failures_partial _ _ _ _ _ _ _ _ HP Hr) as H.
  inversion H; subst. eexists _, _, _. split; [reflexivity|]. split; [eassumption|]. split; [eassumption|].
  match goal with F : Forall _ (firstn k fs) |- _ => rename F into Hf end.
  intros k' g' Hk' Hn. rewrite Forall_forall in Hf, HE. apply (Hf g'); [|exact Hu|].
  - clear - Hk' Hn. revert k k' Hk' Hn. induction fs as [|x fs IH]; intros k [|k'] Hk' Hn; try discriminate; (destruct k; [lia|]); cbn in *.
    + left. congruence.
    + right. eapply IH; [|exact Hn]. lia.
  - apply HE. eapply nth_error_In; eauto.
Qed.
Theorem C25_tolerated_partial : forall g e fuel P pfuel input w c' es,
  compile_program bld eqb m fuel (FPermit g e) = Some (COk P) -> run bld P pfuel (rc_new input) = ROk (VPermitErr w) c' es ->
  usable input -> direct bld m g ->
  roff c' = 0 /\ forall j u, ~ Sem m true SEmpty g input 0 j u.
Proof.
  intros g e fuel P pfuel input w c' es HP Hr Hu HE. pose proof (C25_failures_partial _ _ _ _ _ _ _ _ HP Hr) as H.
  inversion H; subst. split; [congruence|]. match goal with F : given_up _ _ _ _ _ _ |- _ => now apply F end.
Qed.
End Props.
Print Assumptions C25_failures_partial.
Print Assumptions C25_peek_not_partial.
Print Assumptions C25_ordered_partial.
Print Assumptions C25_tolerated_partial.

(** ** Refutations *)

(** Not "0" nor "012", before "013". The lookahead for these two branches looks at
    the byte after "0" and refuses "013"; so the negative peek accepts it. *)
Theorem C25_peek_not_refuted : exists g input v,
  outcome_of [] (FPeekNot g) input = Some (ROk VUnit (rc_new input) []) /\ usable input /\ Sem [] true SEmpty g input 0 1 v.
Proof.
  exists prefixes, [0; 1; 3]%N, (VBranch 0 (VU B8 0%N)). split; [vm_compute; reflexivity|].
  split; [split; [repeat constructor|reflexivity]|]. eapply SemUnion with (k := 0); [reflexivity|]. constructor; reflexivity.
Qed.
(** An ordered choice gives up on its first branch, "0" or "012", although "0" is
    there; and the tolerant format reports a failure. *)
Theorem C25_ordered_refuted : exists g h input v w c es,
  outcome_of [] (FUnionNondet [g; h]) input = Some (ROk (VBranch 1 w) c []) /\
  outcome_of [] (FPermit g (EU B8 7)) input = Some (ROk (VPermitErr (Some (VU B8 7%N))) (rc_new input) es) /\
  usable input /\ Sem [] true SEmpty g input 0 1 v.
Proof.
  exists prefixes, any_byte, [0; 1; 3]%N, (VBranch 0 (VU B8 0%N)). eexists _, _, _. split; [vm_compute; reflexivity|]. split; [vm_compute; reflexivity|].
  split; [split; [repeat constructor|reflexivity]|]. eapply SemUnion with (k := 0); [reflexivity|]. constructor; reflexivity.
Qed.
Print Assumptions C25_peek_not_refuted.
Print Assumptions C25_ordered_refuted.

(** Two bytes that are not "01"; then a byte at most 4 or else any number of bytes. *)
Definition word : format :=
  FTuple [FPeekNot (FUnion [FTuple [byte_is 0; byte_is 1]; FTuple [byte_is 0; byte_is 2]]); any_byte;
          FUnionNondet [byte_is 4; FTuple [any_byte; any_byte]]; FPermit (byte_is 9) (EU B8 7)].
Example C25_failures_nonvacuous :
  exactly (build_exec 50) [] true (FUnion [FTuple [byte_is 0; byte_is 1]; FTuple [byte_is 0; byte_is 2]]) /\
  direct (build_exec 50) [] (byte_is 4) /\ direct (build_exec 50) [] (FTuple [any_byte; any_byte]) /\ direct (build_exec 50) [] (byte_is 9) /\
  (exists v c es, outcome_of [] word [0; 3; 5; 8]%N = Some (ROk v c es) /\ roff c = 3) /\
  fails [] word [0; 2; 5; 8]%N.
Proof.
  split; [exists 50, 50; vm_compute; reflexivity|]. split; [exact I|]. split; [repeat split|]. split; [exact I|]. split.
  - eexists _, _, _. split; [vm_compute; reflexivity|reflexivity].
  - apply fails_intro. vm_compute. reflexivity.
Qed.
