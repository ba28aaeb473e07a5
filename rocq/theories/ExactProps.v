(** Properties C26 (what belongs to a compiled format is decoded) and C27 (compiled
    formats are unambiguous). *)
From Verif Require ByteSetModel HuffmanModel.
From Verif Require Import Base BoundsModel DataModel NumericModel ValueModel FormatModel MatchTreeModel DecoderModel
  DecoderProofs DecoderProps FormatSpec LookaheadSpec ExactSpec CompileProofs SoundProofs MatchBoundsProofs MatchTreeProofs
  LookaheadProofs LookaheadProps CompleteProofs CodeTreeProofs DynProofs.
Open Scope nat_scope.

Section Props.
(** Any construction of lookahead trees that follows the code, whatever the
    iteration order of hash sets; any equality of continuations that only
    identifies equal ones. *)
Context (bld : fmodule -> list format -> next -> outcome (option mtree)).
Context (Hbld : forall m fs n t, bld m fs n = Val (Some t) -> Build LReal m fs n t).
Context (eqb : next -> next -> bool) (Heqb : forall a b, eqb a b = true -> a = b) (m : fmodule).

(** If the lookahead is also decided when it may not approximate ([exactb], with
    [o = true] when nothing is known of what comes after the format), every string
    the format describes ([Sem], strict) is decoded, to the value the format gives
    it. Formats made from Huffman tables while decoding are included if [dyn]; in the
    strict semantics their tables do not have too many codes ([enough_codes]).
    Missing: formats whose lookahead is not decided (refuted below), and in the
    strict semantics those that depend on failure (ordered choice, negative peek,
    bounded repetition, tolerated failure). *)
Theorem C26_decodes_partial : forall (dyn : bool), (dyn = true -> builds_codes bld) -> forall (o : bool) lfuel depth f fuel P input j v,
  compile_program bld eqb m fuel f = Some (COk P) -> exactb bld m dyn lfuel depth o f NEmpty = true ->
  usable input -> Sem m true SEmpty f input 0 j v -> (o = true \/ j = length input) ->
  exists pfuel es, run bld P pfuel (rc_new input) = ROk v (RC input j) es.
Proof.
  intros dyn Hdyn o lfuel depth f fuel P input j v HP HE Hu HS Ho.
  destruct (compile_program_ok bld eqb Heqb m fuel f P HP) as (Call & HL & d & Hd & HC).
  destruct (complete bld P m dyn (Hbld m) Call HL (checked bld m dyn)) with (drel := code_decoder bld) (s := @SEmpty format) (f := f) (buf := input) (i := 0) (j := j) (v := v) (o := o) (n := NEmpty) (d := d) (s' := @SEmpty decoder)
    as (F & es & Hr); auto.
  - intros o1 l n it i H1 _ H2. eapply checked_closed; eassumption.
  - intros Hd1. exact (made bld (Hdyn Hd1)).
  - intros _. exact (decodes bld P m (Hbld [])).
  - eapply exactb_sound_gen; eauto.
  - constructor.
  - lia.
  - destruct Ho as [->| ->]; [now left|right; lia].
  - exists F, es. unfold run. destruct P as [|d0 P']; [discriminate|]. cbn in Hd. injection Hd as ->. now apply Hr.
Qed.
(** For [regular] formats (those for which the lookahead does not approximate), the
    success of the compiler is enough: every input that the format describes
    entirely is decoded. Conditions, options and items that are compiled without
    their continuation must be exact without it ([alone]). *)
Theorem C26_regular_partial : forall f fuel P input v,
  module_wide (good_node bld m) m -> everywhere (good_node bld m) f ->
  compile_program bld eqb m fuel f = Some (COk P) ->
  usable input -> Sem m true SEmpty f input 0 (length input) v ->
  exists pfuel es, run bld P pfuel (rc_new input) = ROk v (RC input (length input)) es.
Proof.
  intros f fuel P input v HM Hf HP Hu HS.
  destruct (compile_program_ok bld eqb Heqb m fuel f P HP) as (Call & HL & d & Hd & HC).
  destruct (complete bld P m false (Hbld m) Call HL (item_exact bld m)) with (drel := code_decoder bld) (s := @SEmpty format) (f := f) (buf := input) (i := 0) (j := length input) (v := v) (o := false) (n := NEmpty) (d := d) (s' := @SEmpty decoder)
    as (F & es & Hr); auto.
  - intros. eapply item_exact_closed; eauto.
  - discriminate.
  - discriminate.
  - eapply regular_exact; eauto. exact I.
  - constructor.
  - lia.
  - now right.
  - exists F, es. unfold run. destruct P as [|d0 P']; [discriminate|]. cbn in Hd. injection Hd as ->. now apply Hr.
Qed.

Lemma run_det P n1 n2 c v1 c1 e1 v2 c2 e2 : run bld P n1 c = ROk v1 c1 e1 -> run bld P n2 c = ROk v2 c2 e2 -> v1 = v2 /\ c1 = c2.
Proof.
  unfold run. destruct P as [|d P]; [discriminate|]. intros H1 H2.
  pose proof (parse_det bld (d :: P) n1 n2 SEmpty d c) as H. rewrite H1, H2 in H.
  assert (E : ROk v1 c1 e1 = ROk v2 c2 e2) by (apply H; discriminate). now injection E.
Qed.
(** Under the same conditions no string has two values, and (when nothing is known
    of what comes after) no two prefixes of a string belong to the format. *)
Theorem C27_unambiguous_partial : forall (dyn : bool), (dyn = true -> builds_codes bld) -> forall (o : bool) lfuel depth f fuel P input j v j' v',
  compile_program bld eqb m fuel f = Some (COk P) -> exactb bld m dyn lfuel depth o f NEmpty = true -> usable input ->
  Sem m true SEmpty f input 0 j v -> (o = true \/ j = length input) ->
  Sem m true SEmpty f input 0 j' v' -> (o = true \/ j' = length input) ->
  j = j' /\ v = v'.
Proof.
  intros dyn Hdyn o lfuel depth f fuel P input j v j' v' HP HE Hu H1 O1 H2 O2.
  destruct (C26_decodes_partial dyn Hdyn _ _ _ _ _ _ _ _ _ HP HE Hu H1 O1) as (n1 & e1 & R1).
  destruct (C26_decodes_partial dyn Hdyn _ _ _ _ _ _ _ _ _ HP HE Hu H2 O2) as (n2 & e2 & R2).
  destruct (run_det _ _ _ _ _ _ _ _ _ _ R1 R2) as [E1 E2]. injection E2 as E2. auto.
Qed.
Theorem C27_regular_partial : forall f fuel P input v v',
  module_wide (good_node bld m) m -> everywhere (good_node bld m) f ->
  compile_program bld eqb m fuel f = Some (COk P) -> usable input ->
  Sem m true SEmpty f input 0 (length input) v -> Sem m true SEmpty f input 0 (length input) v' -> v = v'.
Proof.
  intros f fuel P input v v' HM Hf HP Hu H1 H2.
  destruct (C26_regular_partial _ _ _ _ _ HM Hf HP Hu H1) as (n1 & e1 & R1).
  destruct (C26_regular_partial _ _ _ _ _ HM Hf HP Hu H2) as (n2 & e2 & R2).
  now destruct (run_det _ _ _ _ _ _ _ _ _ _ R1 R2) as [E1 _].
Qed.
End Props.
Print Assumptions C26_decodes_partial.
Print Assumptions C26_regular_partial.
Print Assumptions C27_unambiguous_partial.
Print Assumptions C27_regular_partial.

(** The construction that follows the code in the order of the list does cope with
    the codes of Huffman tables. *)
Theorem C26_codes : forall k, builds_codes (build_exec (4 + k)).
Proof. exact exec_builds. Qed.
Print Assumptions C26_codes.

(** ** Refutations *)

Lemma exec_follows fuel m fs n t : build_exec fuel m fs n = Val (Some t) -> Build LReal m fs n t.
Proof. apply build_Build. Qed.
(** The format compiles, and decoding the input with it gives [r], or an error. *)
Definition outcome_of (m : fmodule) (f : format) (input : list N) : option (dres value) :=
  match compile_program (build_exec 50) no_eqb m 10 f with
  | Some (COk P) => Some (run (build_exec 50) P 50 (rc_new input))
  | _ => None
  end.
Definition fails (m : fmodule) (f : format) (input : list N) : Prop := exists e, outcome_of m f input = Some (RErr e).
Lemma fails_intro m f input : match outcome_of m f input with Some (RErr _) => true | _ => false end = true -> fails m f input.
Proof. unfold fails. destruct (outcome_of m f input) as [[| | |]|]; try discriminate. eauto. Qed.
(** "0" or "012" on "013": the prefix "0" belongs to the format. *)
Definition prefixes : format := FUnion [byte_is 0; FTuple [byte_is 0; byte_is 1; byte_is 2]].
Theorem C26_prefix_refuted : exists f input j v,
  Sem [] true SEmpty f input 0 j v /\ usable input /\ fails [] f input.
Proof.
  exists prefixes, [0; 1; 3]%N, 1, (VBranch 0 (VU B8 0%N)). split; [|split].
  - eapply SemUnion with (k := 0); [reflexivity|]. now apply m_byte.
  - split; [repeat constructor|reflexivity].
  - apply fails_intro. vm_compute. reflexivity.
Qed.
(** The same format followed by "13" is decoded when written in place, and is not
    when it is an item of the module: naming a part of a format changes what is
    accepted. *)
Definition named : fmodule := [Item [] [] prefixes].
Theorem C26_item_refuted : exists m f g input v,
  Sem m true SEmpty f input 0 (length input) v /\ Sem m true SEmpty g input 0 (length input) v /\ usable input /\
  get_item m 0 = Some (Item [] [] prefixes) /\
  f = FTuple [FItemVar 0 [] []; byte_is 1; byte_is 3] /\ g = FTuple [prefixes; byte_is 1; byte_is 3] /\
  fails m f input /\ outcome_of m g input = Some (ROk v (RC input (length input)) []).
Proof.
  set (v := VTuple [VBranch 0 (VU B8 0%N); VU B8 1%N; VU B8 3%N]).
  assert (Hp : forall s, Sem named true s prefixes [0; 1; 3]%N 0 1 (VBranch 0 (VU B8 0%N))).
  { intros s. eapply SemUnion with (k := 0); [reflexivity|]. constructor; reflexivity. }
  assert (Ht : Chain (fun f i j v => Sem named true SEmpty f [0; 1; 3]%N i j v) [byte_is 1; byte_is 3] 1 3 [VU B8 1%N; VU B8 3%N]).
  { econstructor; [constructor; reflexivity|]. econstructor; [constructor; reflexivity|]. constructor. }
  exists named, (FTuple [FItemVar 0 [] []; byte_is 1; byte_is 3]), (FTuple [prefixes; byte_is 1; byte_is 3]), [0; 1; 3]%N, v.
  repeat split.
  - econstructor. econstructor; [|exact Ht]. eapply SemItem; [reflexivity|reflexivity|]. apply Hp.
  - econstructor. econstructor; [|exact Ht]. apply Hp.
  - repeat constructor.
  - apply fails_intro. vm_compute. reflexivity.
Qed.
(** Padding may be any bytes: an ambiguous format that compiles. *)
Theorem C27_refuted : exists f input v v',
  outcome_of [] f input <> None /\ usable input /\ v <> v' /\
  Sem [] true SEmpty f input 0 (length input) v /\ Sem [] true SEmpty f input 0 (length input) v'.
Proof.
  exists (FUnion [FTuple [byte_is 0; FAlign 2]; FTuple [byte_is 0; byte_is 5]]), [0; 5]%N,
    (VBranch 0 (VTuple [VU B8 0%N; VUnit])), (VBranch 1 (VTuple [VU B8 0%N; VU B8 5%N])).
  split; [vm_compute; discriminate|]. split; [split; [repeat constructor|reflexivity]|]. split; [discriminate|]. split.
  - eapply SemUnion with (k := 0); [reflexivity|]. constructor. econstructor; [apply m_byte; [reflexivity|lia]|]. econstructor; [|constructor].
    apply SemAlign; cbn; lia || discriminate.
  - eapply SemUnion with (k := 1); [reflexivity|]. constructor. econstructor; [apply m_byte; [reflexivity|lia]|].
    econstructor; [apply m_byte; [reflexivity|lia]|constructor].
Qed.
Print Assumptions C26_prefix_refuted.
Print Assumptions C26_item_refuted.
Print Assumptions C27_refuted.

(** ** The hypotheses are met *)

(** A length, that many records, a tagged union, then zeros up to a byte that
    is four, and a byte left over; an item of the module for the records. *)
Definition ex_module : fmodule := [Item [1%N] [] (FTuple [any_byte; FCompute (EVar 1%N)])].
Definition ex_format : format :=
  FLetFormat any_byte 1%N (FTuple [
    FRepeatCount (EVar 1%N) (FItemVar 0 [EVar 1%N] []);
    FUnion [FTuple [byte_is 1; FSlice (EU B8 2) (FRepeat any_byte)]; FVariant 7%N (FRepeat1 (byte_is 2))];
    FRepeat (byte_is 0);
    FPeek (byte_is 4); byte_not 2]).
Definition ex_input : list N := [2; 9; 9; 1; 5; 6; 0; 0; 4; 4]%N.
Definition ex_value : value := VTuple
  [VSeq (Strict [VTuple [VU B8 9; VU B8 2]; VTuple [VU B8 9; VU B8 2]]);
   VBranch 0 (VTuple [VU B8 1; VSeq (Strict [VU B8 5; VU B8 6])]);
   VSeq (Strict [VU B8 0; VU B8 0]); VU B8 4; VU B8 4].
Local Ltac byte := apply SemByte; reflexivity.
Example C26_nonvacuous :
  exactb (build_exec 50) ex_module false 50 3 true ex_format NEmpty = true /\ usable ex_input /\
  Sem ex_module true SEmpty ex_format ex_input 0 9 ex_value /\
  outcome_of ex_module ex_format ex_input = Some (ROk ex_value (RC ex_input 9) []).
Proof.
  split; [vm_compute; reflexivity|]. split; [split; [repeat constructor|reflexivity]|]. split; [|vm_compute; reflexivity].
  eapply SemLetFormat; [byte|]. apply SemTuple.
  eapply ChCons. { eapply (SemRepeatCount _ _ _ _ _ _ _ 2%N); [reflexivity|].
    eapply ChCons. { eapply SemItem; [reflexivity|reflexivity|]. apply SemTuple. eapply ChCons; [byte|]. eapply ChCons; [now apply SemCompute|constructor]. }
    eapply ChCons. { eapply SemItem; [reflexivity|reflexivity|]. apply SemTuple. eapply ChCons; [byte|]. eapply ChCons; [now apply SemCompute|constructor]. }
    constructor. }
  eapply ChCons. { eapply (SemUnion _ _ _ _ _ _ 0); [reflexivity|]. apply SemTuple. eapply ChCons; [byte|].
    eapply ChCons; [|constructor]. eapply (SemSlice _ _ _ _ _ _ _ 2%N _ _ 6); [reflexivity|cbn; lia| |reflexivity].
    apply (SemRepeat _ _ _ _ _ _ 2). eapply ChCons; [byte|]. eapply ChCons; [byte|]. constructor. }
  eapply ChCons. { apply (SemRepeat _ _ _ _ _ _ 2). eapply ChCons; [byte|]. eapply ChCons; [byte|]. constructor. }
  eapply ChCons. { eapply SemPeek. byte. }
  eapply ChCons; [byte|constructor].
Qed.
(** The nodes of a format made of bytes, tuples, unions and repetitions are regular. *)
Definition ex_regular : format := FTuple [FRepeat (byte_not 0); byte_is 0; FUnion [byte_is 1; FTuple [byte_is 2; FRepeat any_byte]]].
Example C26_regular_nonvacuous :
  everywhere (good_node (build_exec 50) []) ex_regular /\
  Sem [] true SEmpty ex_regular [5; 0; 2; 7]%N 0 4
    (VTuple [VSeq (Strict [VU B8 5]); VU B8 0; VBranch 1 (VTuple [VU B8 2; VSeq (Strict [VU B8 7])])]) /\
  outcome_of [] ex_regular [5; 0; 2; 7]%N <> None.
Proof.
  split; [|split; [|vm_compute; discriminate]].
  - intros g Hg. cbn in Hg. repeat (destruct Hg as [<-|Hg]; [split; exact I|]). contradiction.
  - apply SemTuple. eapply ChCons. { apply (SemRepeat _ _ _ _ _ _ 1). eapply ChCons; [byte|constructor]. }
    eapply ChCons; [byte|]. eapply ChCons; [|constructor]. eapply (SemUnion _ _ _ _ _ _ 1); [reflexivity|]. apply SemTuple.
    eapply ChCons; [byte|]. eapply ChCons; [|constructor]. apply (SemRepeat _ _ _ _ _ _ 1). eapply ChCons; [byte|constructor].
Qed.
