(** C74 and C75: what the tree output leaves out, and the flat listing. *)
From Verif Require ByteSetModel ByteSetProofs.
From Verif Require Import Base BoundsModel DataModel NumericModel ValueModel FormatModel MatchTreeModel
  DecoderModel FormatSpec RecordModel RecordSpec RecordProofs DecoderProps FormatProps ExactProps
  OutputModel OutputSpec OutputProofs OutputFlat.
Open Scope nat_scope.

(** ** C74: values left out of the tree *)

(** A value that the tree output leaves out as implied by its format is so: any two readings
    of the format, of any inputs and in any scopes, have the same value. Missing: that
    repetitions without a count, functions of the scope and tolerated failures are kept
    (refuted below). *)
Theorem C74_implied_partial M kind fuel f :
  all_settled M kind f -> implied M kind fuel f = Some true -> one_value M f.
Proof. intros H E. eapply implied_same; eassumption. Qed.

(** In terms of the decoders: whatever two inputs are decoded by the format, the values are
    equal. *)
Theorem C74_decoded_partial bld eqb (Heqb : forall a b, eqb a b = true -> a = b)
  M kind fuel f cfuel P pfuel pfuel' input input' v v' c c' es es' :
  all_settled M kind f -> implied M kind fuel f = Some true ->
  compile_program bld eqb M cfuel f = Some (COk P) ->
  run bld P pfuel (rc_new input) = ROk v c es ->
  run bld P pfuel' (rc_new input') = ROk v' c' es' -> v = v'.
Proof.
  intros H E HP R R'.
  eapply (implied_same M kind fuel f E H);
    eapply C25_belongs_partial; eassumption.
Qed.

(** Repetitions count: of zeros, the number is lost. *)
Theorem C74_repeat_refuted : exists f input input' v v' c c' es es',
  implied [] (fun _ => HCommon) 9 f = Some true /\
  outcome_of [] f input = Some (ROk v c es) /\ outcome_of [] f input' = Some (ROk v' c' es') /\
  v <> v'.
Proof.
  exists (FRepeat (byte_is 0)), [0]%N, [0; 0]%N, (VSeq (Strict [VU B8 0])), (VSeq (Strict [VU B8 0; VU B8 0])),
    (RC [0]%N 1), (RC [0; 0]%N 2), [], [].
  refine (conj _ (conj _ (conj _ _))); try (vm_compute; reflexivity). discriminate.
Qed.
(** A function may bring in what was read elsewhere: of [u8 x; [0] mapped to x], the second
    part is left out. *)
Theorem C74_map_refuted : exists f input input' v v' c c' es es',
  implied [] (fun _ => HCommon) 9 f = Some true /\
  outcome_of [] f input = Some (ROk v c es) /\ outcome_of [] f input' = Some (ROk v' c' es') /\
  v <> v'.
Proof.
  exists (FLetFormat any_byte 1%N (FMap (byte_is 0) (ELambda 2%N (EVar 1%N)))), [5; 0]%N, [6; 0]%N,
    (VMapped (VU B8 0) (VU B8 5)), (VMapped (VU B8 0) (VU B8 6)), (RC [5; 0]%N 2), (RC [6; 0]%N 2), [], [].
  refine (conj _ (conj _ (conj _ _))); try (vm_compute; reflexivity). discriminate.
Qed.
(** A tolerated failure is not told from a success. *)
Theorem C74_permit_refuted : exists f input input' v v' c c' es es',
  implied [] (fun _ => HCommon) 9 f = Some true /\
  outcome_of [] f input = Some (ROk v c es) /\ outcome_of [] f input' = Some (ROk v' c' es') /\
  v <> v'.
Proof.
  refine (let f := FPermit (byte_is 0) (EU B8 7) in _).
  destruct (outcome_of [] f [0]%N) as [[v c es| | |]|] eqn:E1; vm_compute in E1; try discriminate.
  destruct (outcome_of [] f [1]%N) as [[v' c' es'| | |]|] eqn:E2; vm_compute in E2; try discriminate.
  exists f, [0]%N, [1]%N, v, v', c, c', es, es'.
  refine (conj _ (conj _ (conj _ _))); try (vm_compute; reflexivity).
  - vm_compute. exact E1.
  - vm_compute. exact E2.
  - injection E1 as <- _ _. injection E2 as <- _ _. discriminate.
Qed.

(** A record of a signature, padding and a count of zeros: implied, and decoded. *)
Definition sig_record : format :=
  FHint (chain_record [] [(Some (1%N, true), FTuple [byte_is 7; byte_is 8]); (None, any_byte);
    (Some (2%N, true), FRepeatCount (EU B8 2) (byte_is 0)); (Some (3%N, false), any_byte)]).
Definition sig_kind (f : format) : hint :=
  match f with FLetFormat _ _ _ => HRecord false | _ => HCommon end.
Example C74_nonvacuous :
  all_settled [] sig_kind sig_record /\ implied [] sig_kind 9 sig_record = Some true /\
  exists v, outcome_of [] sig_record [7; 8; 3; 0; 0; 4]%N = Some (ROk v (RC [7; 8; 3; 0; 0; 4]%N 6) []) /\
    v = VRecord [(1%N, VTuple [VU B8 7; VU B8 8]); (2%N, VSeq (Strict [VU B8 0; VU B8 0]))].
Proof.
  refine (conj _ (conj _ _)).
  - split; [|intros it g []].
    assert (Hw : forall b, (b < 256)%N -> ByteSetModel.wf (ByteSetModel.insert ByteSetModel.empty b)).
    { intros b Hb. apply ByteSetProofs.wf_insert; [apply ByteSetProofs.wf_empty|exact Hb]. }
    intros g Hg.
    repeat (match goal with H : Within _ _ _ |- _ => inversion H; clear H; subst end; cbn -[ByteSetModel.insert] in *;
      repeat match goal with H : _ \/ _ |- _ => destruct H as [H|H] | H : False |- _ => destruct H end; subst);
    cbn -[ByteSetModel.insert]; auto; try (apply Hw; lia).
    + exists [(Some (1%N, true), FTuple [byte_is 7; byte_is 8]); (None, any_byte);
        (Some (2%N, true), FRepeatCount (EU B8 2) (byte_is 0)); (Some (3%N, false), any_byte)].
      refine (conj eq_refl (conj _ (conj eq_refl _))); [|discriminate].
      cbn. repeat split; intros x [= <-]; repeat constructor; discriminate.
    + intros _ _ n n' [= <-] [= <-]. reflexivity.
  - vm_compute. reflexivity.
  - exists (VRecord [(1%N, VTuple [VU B8 7; VU B8 8]); (2%N, VSeq (Strict [VU B8 0; VU B8 0]))]).
    split; [vm_compute; reflexivity|reflexivity].
Qed.

Print Assumptions C74_implied_partial.
Print Assumptions C74_decoded_partial.
Print Assumptions C74_repeat_refuted.
Print Assumptions C74_map_refuted.
Print Assumptions C74_permit_refuted.

(** ** C75: the flat listing *)

(** A decoded value is listed without a panic, if the format passes the check that comes
    first. Missing: negative peeks, tolerated failures and hints on what is not a record with a
    kept field (refuted below). *)
Theorem C75_listed_partial bld eqb (Heqb : forall a b, eqb a b = true -> a = b)
  M kind titled fuel f cfuel P pfuel input v c es :
  all_listable M kind f -> covered M titled fuel f = Some true ->
  compile_program bld eqb M cfuel f = Some (COk P) ->
  run bld P pfuel (rc_new input) = ROk v c es ->
  exists n lines, forall fuel', n <= fuel' -> print_flat M kind titled fuel' v f = Some lines.
Proof.
  intros [H1 H2] Hc HP Hr.
  pose proof (C25_belongs_partial bld eqb Heqb M f cfuel P pfuel input v c es HP Hr) as HS.
  destruct (proj1 (reading_P M kind titled false anything anything H2 _ _ _ _ _ _ HS) H1) as (n & lines & Hw).
  exists (Nat.max n fuel), lines. intros fuel' Hf. unfold print_flat.
  rewrite (covered_mono _ _ _ _ _ Hc) by lia. apply Hw. lia.
Qed.

(** When a format passes the check, bytes of the input are only consumed by titled items: a
    reading that uses none of them consumes nothing. Missing: formats that pass over bytes, and
    decoders made while decoding (refuted below for slices). *)
Theorem C75_covered_partial M titled fuel f strict s buf i j v :
  all_read_themselves M f -> covered M titled fuel f = Some true ->
  Sem (untitled titled M) strict s f buf i j v -> j = i.
Proof. intros [H1 H2] Hc HS. exact (covered_still M titled strict _ _ H2 _ _ _ _ _ _ HS fuel Hc H1). Qed.
(** In terms of the decoders: with the titled items failing, what is still accepted is accepted
    without consuming a byte. *)
Theorem C75_consumed_partial bld eqb (Heqb : forall a b, eqb a b = true -> a = b)
  M titled fuel f cfuel P pfuel input v c es :
  all_read_themselves M f -> covered M titled fuel f = Some true ->
  compile_program bld eqb (untitled titled M) cfuel f = Some (COk P) ->
  run bld P pfuel (rc_new input) = ROk v c es -> roff c = 0.
Proof.
  intros H Hc HP Hr. eapply C75_covered_partial; [exact H|exact Hc|].
  eapply C25_belongs_partial; eassumption.
Qed.

(** A slice is covered if what is inside is, although the rest of it is consumed and not
    listed. *)
Theorem C75_slice_refuted : exists f input v c es,
  covered [] (fun _ => false) 9 f = Some true /\
  outcome_of [] f input = Some (ROk v c es) /\ roff c = 1 /\
  print_flat [] (fun _ => HCommon) (fun _ => false) 9 v f = Some [].
Proof.
  exists (FSlice (EU B8 1) (FTuple [])), [5]%N, (VTuple []), (RC [5]%N 1), [].
  refine (conj _ (conj _ (conj _ _))); vm_compute; reflexivity.
Qed.
(** Titled items below functions and conditions, and of steps whose value is not that of the
    whole, are covered and not listed. *)
Definition titled_byte : fmodule := [Item [] [] any_byte].
Theorem C75_unlisted_refuted : forall f,
  In f [FMap (FItemVar 0 [] []) (ELambda 1%N (EVar 1%N)); FWhere (FItemVar 0 [] []) (ELambda 1%N (EBool true)) false;
        FMonadSeq (FItemVar 0 [] []) (FTuple [])] ->
  covered titled_byte (fun _ => true) 9 f = Some true /\
  exists v c es, outcome_of titled_byte f [5]%N = Some (ROk v c es) /\ roff c = 1 /\
    print_flat titled_byte (fun _ => HCommon) (fun _ => true) 9 v f = Some [].
Proof.
  intros f [<-|[<-|[<-|[]]]]; (split; [vm_compute; reflexivity|]);
    [exists (VMapped (VU B8 5) (VU B8 5))|exists (VU B8 5)|exists (VTuple [])];
    exists (RC [5]%N 1), []; refine (conj _ (conj _ _)); vm_compute; reflexivity.
Qed.
(** The listing panics, although the check passed: at the value of a negative peek of a
    repetition, at a tolerated success, and at a hint on a record that keeps no field. *)
Theorem C75_panic_refuted : forall fk,
  In fk [(FPeekNot (FVariant 1%N (FItemVar 0 [] [])), fun _ : format => HCommon);
         (FPermit (FVariant 1%N (FItemVar 0 [] [])) (EU B8 0), fun _ => HCommon);
         (FHint (chain_record [] [(Some (1%N, false), FItemVar 0 [] [])]), fun _ => HRecord false)] ->
  covered titled_byte (fun _ => true) 9 (fst fk) = Some true /\
  exists input v c es, outcome_of titled_byte (fst fk) input = Some (ROk v c es) /\
    forall fuel, print_flat titled_byte (snd fk) (fun _ => true) fuel v (fst fk) = None.
Proof.
  intros fk [<-|[<-|[<-|[]]]]; (split; [vm_compute; reflexivity|]);
    [exists [], (VTuple []), (RC [] 0), []|exists [5]%N, (VPermitOk (VVariant 1%N (VU B8 5))), (RC [5]%N 1), []
    |exists [5]%N, (VTuple []), (RC [5]%N 1), []];
    (split; [vm_compute; reflexivity|]); intros fuel; unfold print_flat;
    destruct (covered _ _ _ _) as [[|]|]; try reflexivity;
    destruct fuel as [|[|fuel]]; reflexivity.
Qed.

(** A sequence of chunks, each a title and a count, then titled data, in a record. *)
Definition chunk_module : fmodule :=
  [Item [] [] any_byte; Item [1%N] [] (FRepeatCount (EVar 1%N) any_byte)].
Definition chunk_format : format :=
  FRepeat (FHint (chain_record [] [(Some (1%N, true), FItemVar 0 [] []); (Some (2%N, true), FItemVar 1 [EVar 1%N] [])])).
Example C75_nonvacuous :
  all_listable chunk_module sig_kind chunk_format /\ all_read_themselves chunk_module chunk_format /\
  covered chunk_module (fun _ => true) 9 chunk_format = Some true /\
  exists v c, outcome_of chunk_module chunk_format [1; 5; 0; 2; 6; 7]%N = Some (ROk v c []) /\ roff c = 6 /\
    print_flat chunk_module sig_kind (fun _ => true) 9 v chunk_format = Some [0; 1; 0; 1; 0; 1].
Proof.
  refine (conj _ (conj _ (conj _ _))).
  - split; [|intros it g Hi].
    + intros g Hg.
      repeat (match goal with H : Within _ _ _ |- _ => inversion H; clear H; subst end; cbn in *;
        repeat match goal with H : _ \/ _ |- _ => destruct H as [H|H] | H : False |- _ => destruct H end; subst);
      cbn; auto.
      exists [(Some (1%N, true), FItemVar 0 [] []); (Some (2%N, true), FItemVar 1 [EVar 1%N] [])].
      refine (conj eq_refl (conj _ (conj eq_refl _))); [|discriminate].
      cbn. repeat split; intros x [= <-]; repeat constructor; discriminate.
    + destruct Hi as [<-|[<-|[]]]; intros Hg; 
      repeat (match goal with H : Within _ _ _ |- _ => inversion H; clear H; subst end; cbn in *;
        repeat match goal with H : _ \/ _ |- _ => destruct H as [H|H] | H : False |- _ => destruct H end; subst);
      cbn; auto.
  - split; [|intros it g Hi; destruct Hi as [<-|[<-|[]]]; revert g]; intros g Hg;
      repeat (match goal with H : Within _ _ _ |- _ => inversion H; clear H; subst end; cbn in *;
        repeat match goal with H : _ \/ _ |- _ => destruct H as [H|H] | H : False |- _ => destruct H end; subst);
      cbn; auto.
  - vm_compute. reflexivity.
  - exists (VSeq (Strict [
      VRecord [(1%N, VU B8 1); (2%N, VSeq (Strict [VU B8 5]))]; VRecord [(1%N, VU B8 0); (2%N, VSeq (Strict []))];
      VRecord [(1%N, VU B8 2); (2%N, VSeq (Strict [VU B8 6; VU B8 7]))]])), (RC [1; 5; 0; 2; 6; 7]%N 6).
    refine (conj _ (conj _ _)); vm_compute; reflexivity.
Qed.
(** An untitled byte is refused. *)
Example C75_refuses :
  covered chunk_module (fun n => n =? 0) 9 chunk_format = Some false /\
  forall v, print_flat chunk_module sig_kind (fun n => n =? 0) 9 v chunk_format = None.
Proof. split; [vm_compute; reflexivity|]. intros v. unfold print_flat. replace (covered _ _ _ _) with (Some false); [reflexivity|vm_compute; reflexivity]. Qed.

Print Assumptions C75_listed_partial.
Print Assumptions C75_covered_partial.
Print Assumptions C75_consumed_partial.
Print Assumptions C75_slice_refuted.
Print Assumptions C75_unlisted_refuted.
Print Assumptions C75_panic_refuted.
