(** Properties of the code generator's own compiler: C66 (the decoders it turns into
    code decode as the interpreter does), C67 (its lookahead trees choose as the
    interpreter's do). *)
From Coq Require Import String.
From Verif Require ByteSetModel.
From Verif Require Import Base BoundsModel DataModel NumericModel ValueModel FormatModel MatchTreeModel DecoderModel DecoderProofs DecoderProps
  MatchBoundsProofs FormatSpec ExactSpec ExactProps ProgModel ParserModel RecordModel CodegenModel CodegenSpec CodegenProps
  TypedModel TypedSpec TypedInd TypedTree TypedCompile TypedProofs.
Open Scope nat_scope.

(** ** C67 *)

Lemma sound_sim m n : sound_next m n -> nsim m n (plain_next n).
Proof.
  induction n; cbn [sound_next plain_next]; intros H; try (destruct H as [H1 H2]);
    try (constructor; auto; fail);
    try (constructor; auto; match goal with f : mformat |- _ => destruct f; constructor; assumption | f : mformats |- _ => destruct f; constructor; assumption end).
Qed.

(** The lookahead tree built for alternatives before formats with types exists when
    the one before the same formats without types does, and on every input both
    choose the same alternative. Missing: the nodes that [alike] and
    [inhabited_set] leave out (refuted below). *)
Theorem C67_same_choice_partial : forall m k fs n,
  bounded_items m -> module_wide bytes_inhabited m -> Forall (everywhere bytes_inhabited) fs -> sound_next m n ->
  ((exists t, tbuild_exec k m fs n = Val (Some t)) <-> (exists t, build_exec k m fs (plain_next n) = Val (Some t))) /\
  (forall t t', tbuild_exec k m fs n = Val (Some t) -> build_exec k m fs (plain_next n) = Val (Some t') -> same_choice t t').
Proof. intros m k fs n HB HM Hf Hn. exact (build_rel m HB HM k fs n (plain_next n) Hf (sound_sim m n Hn)). Qed.
(** A typed format may be empty (so that its repetition is refused) when the format
    may. *)
Theorem C67_nullable_partial : forall m f, bounded_items m -> sound_typed m f -> tis_nullable f = is_nullable m (forget f).
Proof. intros m f HB Hf. now apply nullable_items. Qed.

(** ** C66 *)

(** Elaboration gives a typed format whose plain format is the one elaborated, with
    the module's formats at its calls. *)
Theorem C66_elaborated_partial : forall m ty n f T,
  module_wide (called_fully m) m -> module_wide no_dead_variant m -> everywhere (called_fully m) f -> everywhere no_dead_variant f ->
  dressed m ty n f = Some T -> forget T = f /\ teverywhere (call_follows m) T.
Proof.
  intros m ty n f T HC HD Hf Hd H. refine (dress_ok m ty (dress_level m ty n) _ f Hf Hd T H).
  intros level def Hl. now apply (dressed_ok m ty n).
Qed.

(** The program compiled for code generation and the interpreter's decode every input
    alike: the same value at the same place with the same soft errors, or the same
    error, or both panic; unless the interpreter needs more steps. Missing: optional
    formats that end in a choice ([maybe_settled]) and the nodes that [alike] leaves
    out (both refuted below). *)
Theorem C66_agree_partial : forall m k T extra teqb eqb fuel fuel' P P',
  (forall a b, teqb a b = true -> a = b) -> (forall a b, eqb a b = true -> a = b) ->
  bounded_items m -> module_wide bytes_inhabited m ->
  Forall (fun f => sound_typed m f /\ teverywhere (maybe_settled (waits (build_exec k) m)) f) (T :: map snd extra) ->
  tcompile_program (build_exec k) (tbuild_exec k) teqb m fuel T extra = Some (COk P) ->
  compile_program (build_exec k) eqb m fuel' (forget T) = Some (COk P') ->
  forall n c, DecoderModel.run (build_exec k) P' n c <> RFuel -> DecoderModel.run (build_exec k) P n c = DecoderModel.run (build_exec k) P' n c.
Proof.
  intros m k T extra teqb eqb fuel fuel' P P' Ht He HB HM HF HP HP' n c Hn. inversion HF as [|? ? HT HX]; subst.
  destruct (programs_rel (build_exec k) (tbuild_exec k) m (waits (build_exec k) m)
    (fun fs tn nx t t' Hf Hs => proj2 (build_rel m HB HM k fs tn nx Hf Hs) t t')
    ltac:(intros level it Hi Hd; unfold waits; now rewrite Hi, Hd)
    eqb He teqb Ht fuel fuel' T extra P P' HT) with (k := n) (c := c) as [E|E]; auto; [|contradiction].
  clear - HX. induction extra as [|x r IH]; cbn in HX; inversion HX; subst; constructor; auto.
Qed.
(** With C53: what the interpreter decodes, the code generated from the program compiled
    for code generation parses to the same value without wrappers, and it stops at the
    same place. *)
Theorem C66_generated_partial : forall m k T extra teqb eqb fuel fuel' P P' ex uses n input v c es,
  (forall a b, teqb a b = true -> a = b) -> (forall a b, eqb a b = true -> a = b) ->
  bounded_items m -> module_wide bytes_inhabited m ->
  Forall (fun f => sound_typed m f /\ teverywhere (maybe_settled (waits (build_exec k) m)) f) (T :: map snd extra) ->
  tcompile_program (build_exec k) (tbuild_exec k) teqb m fuel T extra = Some (COk P) ->
  compile_program (build_exec k) eqb m fuel' (forget T) = Some (COk P') ->
  program_supported P false ex uses = true -> small input ->
  DecoderModel.run (build_exec k) P' n (rc_new input) = ROk v c es ->
  exists w st', generated P n input = (POk w, st') /\ erases v w /\ pcur st' = Bytes (N.of_nat (roff c)).
Proof.
  intros m k T extra teqb eqb fuel fuel' P P' ex uses n input v c es Ht He HB HM HF HP HP' HS Hi Hr.
  eapply C53_decoded_partial; [exact HS|exact Hi|]. rewrite <- Hr.
  eapply C66_agree_partial; try eassumption. rewrite Hr. discriminate.
Qed.
(** What the interpreter rejects, it rejects. *)
Theorem C66_generated_rejects_partial : forall m k T extra teqb eqb fuel fuel' P P' uses n input e,
  (forall a b, teqb a b = true -> a = b) -> (forall a b, eqb a b = true -> a = b) ->
  bounded_items m -> module_wide bytes_inhabited m ->
  Forall (fun f => sound_typed m f /\ teverywhere (maybe_settled (waits (build_exec k) m)) f) (T :: map snd extra) ->
  tcompile_program (build_exec k) (tbuild_exec k) teqb m fuel T extra = Some (COk P) ->
  compile_program (build_exec k) eqb m fuel' (forget T) = Some (COk P') ->
  program_supported P false true uses = true -> small input ->
  DecoderModel.run (build_exec k) P' n (rc_new input) = RErr e ->
  exists e' st', generated P n input = (PErr e', st').
Proof.
  intros m k T extra teqb eqb fuel fuel' P P' uses n input e Ht He HB HM HF HP HP' HS Hi Hr.
  eapply C54_rejected_partial; [exact HS|exact Hi|]. rewrite <- Hr.
  eapply C66_agree_partial; try eassumption. rewrite Hr. discriminate.
Qed.

(** ** Where the two differ *)

Definition no_teqb (_ _ : tnext) : bool := false.
Definition elaborated (m : fmodule) (f : format) : tformat := match dressed m (fun _ => 0) 5 f with Some T => T | None => GFail end.
Definition compiled_typed (m : fmodule) (f : format) : option (cres program) :=
  tcompile_program (build_exec 50) (tbuild_exec 50) no_teqb m 10 (elaborated m f) [].
(** What the program compiled for code generation decodes, and the interpreter. *)
Definition typed_outcome (f : format) (input : list N) : option (dres value) :=
  match compiled_typed [] f with Some (COk P) => Some (DecoderModel.run (build_exec 50) P 50 (rc_new input)) | _ => None end.
Definition typed_refused (f : format) : Prop := compiled_typed [] f = Some CErr.
(** [Maybe(true, a* )] before [ab]: the interpreter compiles the optional format as if
    nothing followed it, so on [ab] it takes the [a]; the code generator compiles it
    before what follows, so it takes nothing. *)
Definition ex_maybe : format := FTuple [FMaybe (EBool true) (FRepeat (byte_is 97)); byte_is 97; byte_is 98].
Theorem C66_maybe_refuted :
  exists T, forget T = ex_maybe /\ sound_typed [] T /\
    (exists v c, typed_outcome ex_maybe [97; 98]%N = Some (ROk v c [])) /\
    (exists e, interpreted ex_maybe [97; 98]%N = Some (RErr e)).
Proof.
  exists (elaborated [] ex_maybe). split; [vm_compute; reflexivity|]. split.
  { split; intros g Hg; vm_compute in Hg;
      repeat (destruct Hg as [<- | Hg]; [try exact I; try (split; [repeat split; reflexivity|reflexivity])|]); destruct Hg. }
  split; [do 2 eexists|eexists]; vm_compute; reflexivity.
Qed.
(** Alignment to a multiple of one skips nothing. The interpreter's lookahead sees what
    follows it, the code generator's does not: on [ace] the first picks the first
    alternative and accepts, the second the other and rejects. *)
Definition ex_align : format :=
  FTuple [FUnion [byte_is 97; FTuple [byte_is 97; byte_is 99; byte_is 100]]; FAlign 1; byte_is 99; byte_is 101].
Theorem C66_align_refuted :
  (exists e, typed_outcome ex_align [97; 99; 101]%N = Some (RErr e)) /\
  (exists v c, interpreted ex_align [97; 99; 101]%N = Some (ROk v c [])).
Proof. split; [eexists|do 2 eexists]; vm_compute; reflexivity. Qed.
(** A count that is a converted constant has no static bounds in the code generator:
    repeating [RepeatCount(AsU32(2), byte)] is refused there as the repetition of what
    may be empty, and the interpreter decodes it. *)
Definition ex_count : format := FRepeat (FRepeatCount (EAs B32 (EU B8 2)) any_byte).
Theorem C66_count_refuted : typed_refused ex_count /\ exists v c, interpreted ex_count [97; 99]%N = Some (ROk v c []).
Proof. split; [|do 2 eexists]; vm_compute; reflexivity. Qed.
(** The reverse for negative lookahead whose reach is unbounded. *)
Theorem C66_peeknot_refuted :
  (exists P, compiled_typed [] (FPeekNot FSkipRemainder) = Some (COk P)) /\ 
  compile_program (build_exec 50) no_eqb [] 10 (FPeekNot FSkipRemainder) = Some CErr.
Proof. split; [eexists|]; vm_compute; reflexivity. Qed.
(** A variant that always fails is dropped from its alternatives, which moves the
    branches after it. *)
Definition ex_dead : format := FUnion [FVariant (intern "a") FFail; FVariant (intern "b") any_byte].
Theorem C66_dead_variant_refuted :
  forget (elaborated [] ex_dead) <> ex_dead /\
  (exists v c, typed_outcome ex_dead [5]%N = Some (ROk (VBranch 0 v) c [])) /\
  (exists v c, interpreted ex_dead [5]%N = Some (ROk (VBranch 1 v) c [])).
Proof. split; [vm_compute; discriminate|split; do 2 eexists; vm_compute; reflexivity]. Qed.

(** ** The hypotheses are met *)

(** The format of C54's example (ordered choice, negative lookahead, views, bits,
    relative offsets, a call) after an optional byte, a repetition that stops before
    what follows it, and a choice decided by lookahead. *)
Definition ex_typed : format := FTuple
  [FMaybe (EBool true) (byte_is 3); FRepeat (byte_is 1);
   FUnion [FTuple [byte_is 5; byte_is 6]; FVariant (intern "b") (FTuple [byte_is 5; byte_is 7])]; ex_generated].
Definition ex_T : tformat := elaborated ex_module ex_typed.
Definition ex_P : program := match compiled_typed ex_module ex_typed with Some (COk P) => P | _ => [] end.
Definition ex_typed_input : list N := [3; 1; 1; 5; 7]%N ++ ex_accepted.
Definition ex_typed_rejected : list N := [3; 1; 1; 5; 7]%N ++ ex_rejected.
Local Ltac parts := 
  intros g Hg; vm_compute in Hg;
  repeat (destruct Hg as [<- | Hg];
    [first [exact I | reflexivity | split; [repeat split; reflexivity|reflexivity]
           | eexists; repeat split; reflexivity
           | idtac]|]); destruct Hg.
Lemma ex_T_sound : sound_typed ex_module ex_T /\ teverywhere (maybe_settled (waits (build_exec 50) ex_module)) ex_T.
Proof. split; [split|]; parts. Qed.
Lemma ex_module_bounded : bounded_items ex_module.
Proof. repeat constructor. eexists. vm_compute. reflexivity. Qed.
Lemma ex_module_bytes : module_wide bytes_inhabited ex_module.
Proof.
  intros level it Hi. destruct level as [|level]; [|destruct level; discriminate Hi]. inversion Hi; subst it.
  intros g Hg; vm_compute in Hg; repeat (destruct Hg as [<- | Hg]; [first [exact I | split; [repeat split; reflexivity|reflexivity]]|]); destruct Hg.
Qed.
Lemma ex_called : module_wide (called_fully ex_module) ex_module /\ module_wide no_dead_variant ex_module /\
  everywhere (called_fully ex_module) ex_typed /\ everywhere no_dead_variant ex_typed.
Proof.
  split; [|split; [|split]];
    try (intros level it Hi; destruct level as [|level]; [|destruct level; discriminate Hi]; inversion Hi; subst it);
    intros g Hg; vm_compute in Hg;
    repeat (destruct Hg as [<- | Hg];
      [first [exact I
             | intros it Hi; inversion Hi; subst it; split; reflexivity
             | intros l Hl; repeat (destruct Hl as [Hl | Hl]; [discriminate Hl|]); destruct Hl]|]); destruct Hg.
Qed.
Example C66_nonvacuous :
  dressed ex_module (fun _ => 0) 5 ex_typed = Some ex_T /\ forget ex_T = ex_typed /\
  bounded_items ex_module /\ module_wide bytes_inhabited ex_module /\
  Forall (fun f => sound_typed ex_module f /\ teverywhere (maybe_settled (waits (build_exec 50) ex_module)) f) [ex_T] /\
  tcompile_program (build_exec 50) (tbuild_exec 50) no_teqb ex_module 10 ex_T [] = Some (COk ex_P) /\
  compile_program (build_exec 50) no_eqb ex_module 10 (forget ex_T) = Some (COk (compiled ex_module ex_typed)) /\
  program_supported ex_P false false [(top false, 0); (top false, 1)] = true /\ small ex_typed_input /\ small ex_typed_rejected /\
  (exists v, DecoderModel.run (build_exec 50) (compiled ex_module ex_typed) 50 (rc_new ex_typed_input) = ROk v (RC ex_typed_input 16) []) /\
  (exists e, DecoderModel.run (build_exec 50) (compiled ex_module ex_typed) 50 (rc_new ex_typed_rejected) = RErr e) /\
  (exists w st', generated ex_P 50 ex_typed_input = (POk w, st')).
Proof.
  split; [vm_compute; reflexivity|]. split; [vm_compute; reflexivity|].
  split; [exact ex_module_bounded|]. split; [exact ex_module_bytes|]. split; [constructor; [exact ex_T_sound|constructor]|].
  split; [vm_compute; reflexivity|]. split; [vm_compute; reflexivity|]. split; [vm_compute; reflexivity|].
  split; [split; [repeat constructor|reflexivity]|]. split; [split; [repeat constructor|reflexivity]|].
  split; [eexists; vm_compute; reflexivity|]. split; [eexists; vm_compute; reflexivity|].
  do 2 eexists; vm_compute; reflexivity.
Qed.
(** Without the repetition, which ends at the end of the input. *)
Definition ex_strict : format := FTuple
  [FMaybe (EBool true) (byte_is 3);
   FUnion [FTuple [byte_is 5; byte_is 6]; FVariant (intern "b") (FTuple [byte_is 5; byte_is 7])]; ex_generated].
Definition ex_strict_P : program := match compiled_typed ex_module ex_strict with Some (COk P) => P | _ => [] end.
Example C66_rejects_nonvacuous :
  forget (elaborated ex_module ex_strict) = ex_strict /\ Forall (fun f => sound_typed ex_module f /\ teverywhere (maybe_settled (waits (build_exec 50) ex_module)) f) [elaborated ex_module ex_strict] /\
  tcompile_program (build_exec 50) (tbuild_exec 50) no_teqb ex_module 10 (elaborated ex_module ex_strict) [] = Some (COk ex_strict_P) /\
  compile_program (build_exec 50) no_eqb ex_module 10 (forget (elaborated ex_module ex_strict)) = Some (COk (compiled ex_module ex_strict)) /\
  program_supported ex_strict_P false true [(top true, 0); (top true, 1)] = true /\ small ([3; 5; 7]%N ++ ex_rejected) /\
  (exists e, DecoderModel.run (build_exec 50) (compiled ex_module ex_strict) 50 (rc_new ([3; 5; 7]%N ++ ex_rejected)) = RErr e) /\
  (exists e st', generated ex_strict_P 50 ([3; 5; 7]%N ++ ex_rejected) = (PErr e, st')).
Proof.
  split; [vm_compute; reflexivity|]. split; [constructor; [split; [split|]; parts|constructor]|].
  split; [vm_compute; reflexivity|]. split; [vm_compute; reflexivity|]. split; [vm_compute; reflexivity|].
  split; [split; [repeat constructor|reflexivity]|]. split; [eexists; vm_compute; reflexivity|].
  do 2 eexists; vm_compute; reflexivity.
Qed.
(** The optional byte, the repetition and the choice before the call. *)
Example C67_nonvacuous :
  let fs := [FTuple [byte_is 5; byte_is 6]; FTuple [byte_is 5; byte_is 7]; byte_is 9] in
  let n := XRepeat (MT' (GByte (ByteSetModel.insert ByteSetModel.empty 8))) (XCat (MT' ex_T) XEmpty) in
  bounded_items ex_module /\ module_wide bytes_inhabited ex_module /\ Forall (everywhere bytes_inhabited) fs /\ sound_next ex_module n /\
  (exists t t', tbuild_exec 50 ex_module fs n = Val (Some t) /\ build_exec 50 ex_module fs (plain_next n) = Val (Some t') /\
    mt_matches t [5; 7]%N = Some 1 /\ mt_matches t' [5; 7]%N = Some 1) /\
  tis_nullable (GRepeat 0 ex_T) = Val true /\ tis_nullable ex_T = Val false /\ is_nullable ex_module (forget ex_T) = Val false.
Proof.
  cbv zeta. split; [exact ex_module_bounded|]. split; [exact ex_module_bytes|]. split.
  { repeat (constructor; [intros g Hg; vm_compute in Hg; repeat (destruct Hg as [<- | Hg]; [first [exact I | split; [repeat split; reflexivity|reflexivity]]|]); destruct Hg|]). constructor. }
  split. { split; [split; parts|split; [exact (proj1 ex_T_sound)|exact I]]. }
  split; [do 2 eexists; repeat split; vm_compute; reflexivity|]. repeat split; vm_compute; reflexivity.
Qed.

Print Assumptions C67_same_choice_partial.
Print Assumptions C67_nullable_partial.
Print Assumptions C66_elaborated_partial.
Print Assumptions C66_agree_partial.
Print Assumptions C66_generated_partial.
Print Assumptions C66_generated_rejects_partial.
Print Assumptions C66_maybe_refuted.
Print Assumptions C66_align_refuted.
Print Assumptions C66_count_refuted.
Print Assumptions C66_peeknot_refuted.
Print Assumptions C66_dead_variant_refuted.
