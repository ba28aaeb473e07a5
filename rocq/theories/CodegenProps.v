(** Properties of generated parsers: C53 (they return what the interpreter decodes),
    C54 (they reject what it rejects), C55 (their byte tests and lookahead), C56
    (expressions do not see how a value was obtained). *)
From Coq Require Import String.
From Verif Require ByteSetModel ByteSetProofs ByteSetProps HuffmanModel.
From Verif Require Import Base BoundsModel DataModel NumericModel ValueModel FormatModel MatchTreeModel DecoderModel
  DecoderProofs DecoderProps FormatSpec LookaheadSpec ExactSpec LookaheadProps ExactProps ParserModel ProgModel RecordModel
  CodegenModel CodegenSpec CodegenErase CodegenTree CodegenSim CodegenOps CodegenProofs.
Open Scope nat_scope.

Lemma mode_eqb_eq a b : mode_eqb a b = true -> a = b.
Proof.
  destruct a, b. unfold mode_eqb. simpl. intros H. repeat (apply andb_prop in H as [H ?]).
  repeat match goal with X : Bool.eqb _ _ = true |- _ => apply Bool.eqb_prop in X end. congruence.
Qed.
Lemma used_in uses md n : used uses md n = true -> In (md, n) uses.
Proof.
  unfold used. intros H. apply existsb_exists in H as ([md' n'] & Hi & H). apply andb_prop in H as [H1 H2].
  apply mode_eqb_eq in H1. apply Nat.eqb_eq in H2. simpl in *. now subst.
Qed.
Lemma program_closed P lossy ex uses : program_supported P lossy ex uses = true ->
  closed P lossy (used uses) /\ match P with d :: _ => supported P lossy (used uses) (top ex) d = true | [] => False end.
Proof.
  intros H. apply andb_prop in H as [H1 H2].
  assert (C : forall md n, used uses md n = true -> match nth_error P n with Some d => supported P lossy (used uses) md d = true | None => False end).
  { intros md n Hn. apply used_in in Hn. rewrite forallb_forall in H2. specialize (H2 _ Hn). simpl in H2.
    destruct (nth_error P n); [auto|discriminate]. }
  split.
  - intros md n d Hn Hd. specialize (C md n Hn). now rewrite Hd in C.
  - specialize (C _ _ H1). destruct P; auto.
Qed.

Section Props.
(** The construction of lookahead trees: only used for formats made while decoding. *)
Context (bld : fmodule -> list format -> next -> outcome (option mtree)).

Lemma top_sim P lossy ex uses fuel input : program_supported P lossy ex uses = true -> small input ->
  match DecoderModel.run bld P fuel (rc_new input) with
  | ROk v c _ => (exists w st', generated P fuel input = (POk w, st') /\ erases v w /\ pcur st' = Bytes (N.of_nat (roff c))) \/
                 lossy = true /\ fst (generated P fuel input) = PPanic
  | RErr _ => ex = true -> (exists e st', generated P fuel input = (PErr e, st')) \/ lossy = true /\ fst (generated P fuel input) = PPanic
  | _ => True
  end.
Proof.
  intros HP Hi. destruct (program_closed _ _ _ _ HP) as [HC HS]. unfold DecoderModel.run, generated. destruct P as [|d P]; [contradiction|].
  pose proof (follows bld (d :: P) lossy (used uses) HC fuel (top ex) SEmpty SEmpty d (rc_new input) (parser_new input) HS) as F.
  assert (R : scopes_related (@SEmpty decoder) (@SEmpty unit)) by (split; intros x v; discriminate).
  specialize (F R (sees_of_buffer (top ex) input Hi)). unfold sim in F.
  destruct (parse bld (d :: P) fuel SEmpty d (rc_new input)) as [v c es|e| |]; auto.
  - destruct F as [(w & st' & E & Hr & Hs & G)|[Hl Hp]]; [left|now right].
    exists w, st'. split; auto. split; auto. destruct Hs as (_ & _ & H0 & k & L & Ek & _ & _ & _ & Eo & _).
    rewrite Ek. f_equal. rewrite (H0 eq_refl) in Eo. cbn in Eo. now rewrite Eo.
  - intros Hex. destruct (F Hex) as [(e' & st' & E & _)|[Hl Hp]]; [left|right]; eauto.
Qed.

(** ** C53 *)

(** If the interpreter decodes an input, the generated parser accepts it, with the
    same value without wrappers, and stops at the same place. Missing: the decoders
    and combinations [program_supported] leaves out (most are refuted below), and
    formats made while decoding. *)
Theorem C53_decoded_partial : forall P ex uses fuel input v c es,
  program_supported P false ex uses = true -> small input ->
  DecoderModel.run bld P fuel (rc_new input) = ROk v c es ->
  exists w st', generated P fuel input = (POk w, st') /\ erases v w /\ pcur st' = Bytes (N.of_nat (roff c)).
Proof.
  intros P ex uses fuel input v c es HP Hi Hr. pose proof (top_sim P false ex uses fuel input HP Hi) as H. rewrite Hr in H.
  destruct H as [H|[H _]]; [exact H|discriminate].
Qed.
(** With offsets of any integer type and parsing of computed bytes, the generated
    parser can also panic, and nothing else. *)
Theorem C53_decoded_or_panics_partial : forall P ex uses fuel input v c es,
  program_supported P true ex uses = true -> small input ->
  DecoderModel.run bld P fuel (rc_new input) = ROk v c es ->
  (exists w st', generated P fuel input = (POk w, st') /\ erases v w /\ pcur st' = Bytes (N.of_nat (roff c))) \/
  fst (generated P fuel input) = PPanic.
Proof.
  intros P ex uses fuel input v c es HP Hi Hr. pose proof (top_sim P true ex uses fuel input HP Hi) as H. rewrite Hr in H.
  destruct H as [H|[_ H]]; auto.
Qed.

(** ** C54 *)

(** If the interpreter rejects an input, so does the generated parser. *)
Theorem C54_rejected_partial : forall P uses fuel input e,
  program_supported P false true uses = true -> small input ->
  DecoderModel.run bld P fuel (rc_new input) = RErr e ->
  exists e' st', generated P fuel input = (PErr e', st').
Proof.
  intros P uses fuel input e HP Hi Hr. pose proof (top_sim P false true uses fuel input HP Hi) as H. rewrite Hr in H.
  destruct (H eq_refl) as [H'|[H' _]]; [exact H'|discriminate].
Qed.
(** What the generated parser accepts, the interpreter decodes to the same value,
    unless it panics or does not finish. *)
Theorem C54_accepted_partial : forall P lossy uses fuel input w st',
  program_supported P lossy true uses = true -> small input ->
  generated P fuel input = (POk w, st') ->
  match DecoderModel.run bld P fuel (rc_new input) with
  | ROk v c _ => erases v w /\ pcur st' = Bytes (N.of_nat (roff c))
  | RErr _ => False
  | RPanic | RFuel => True
  end.
Proof.
  intros P lossy uses fuel input w st' HP Hi Hg. pose proof (top_sim P lossy true uses fuel input HP Hi) as H.
  destruct (DecoderModel.run bld P fuel (rc_new input)) as [v c es|e| |]; auto; rewrite Hg in H.
  - destruct H as [(w' & st2 & E & Hr & Hc)|[_ E]]; [|discriminate]. now injection E as <- <-.
  - destruct (H eq_refl) as [(e' & st2 & E)|[_ E]]; discriminate.
Qed.
End Props.

(** A string that a format describes is parsed by the code generated for it. *)
Theorem C53_described_partial : forall m (dyn : bool) f fuel P ex uses (o : bool) lfuel depth input j v,
  compile_program (build_exec 50) no_eqb m fuel f = Some (COk P) ->
  exactb (build_exec 50) m dyn lfuel depth o f NEmpty = true ->
  program_supported P false ex uses = true -> small input ->
  Sem m true SEmpty f input 0 j v -> (o = true \/ j = length input) ->
  exists pfuel w st', generated P pfuel input = (POk w, st') /\ erases v w /\ pcur st' = Bytes (N.of_nat j).
Proof.
  intros m dyn f fuel P ex uses o lfuel depth input j v HP HE HS Hi HD Ho.
  assert (Hu : usable input) by (destruct Hi; split; [auto|lia]).
  destruct (C26_decodes_partial (build_exec 50) (exec_follows 50) no_eqb ltac:(discriminate) m dyn (fun _ => C26_codes 46) o lfuel depth f fuel P input j v HP HE Hu HD Ho)
    as (pfuel & es & Hr).
  destruct (C53_decoded_partial _ _ _ _ _ _ _ _ _ HS Hi Hr) as (w & st' & H). exists pfuel, w, st'. exact H.
Qed.

(** ** C55 *)

(** The test generated for a byte set holds for the bytes of the set. *)
Theorem C55_byte_test : forall bs c b, criterion_of bs = Val c -> (b < 256)%N ->
  satisfies c b = ByteSetModel.contains bs b.
Proof. intros bs c b H Hb. exact (criterion_spec bs c H b Hb). Qed.
(** There is one for every set but the empty one, for which generating code panics. *)
Lemma all_or_one (f : N -> bool) n : (forall b, (b < N.of_nat n)%N -> f b = true) \/ exists b, (b < N.of_nat n)%N /\ f b = false.
Proof.
  induction n as [|n [IH|(b & Hb & E)]].
  - left. intros b Hb. lia.
  - destruct (f (N.of_nat n)) eqn:E; [left|right; exists (N.of_nat n); split; [lia|auto]].
    intros b Hb. destruct (N.eq_dec b (N.of_nat n)) as [->|]; [auto|apply IH; lia].
  - right. exists b. split; [lia|auto].
Qed.
Lemma filter_length_le {A} (f : A -> bool) l : length (filter f l) <= length l.
Proof. induction l as [|x l IH]; simpl; [lia|]. destruct (f x); simpl; lia. Qed.
Lemma filter_all {A} (f : A -> bool) l : length (filter f l) = length l -> forall a, In a l -> f a = true.
Proof.
  induction l as [|x l IH]; simpl; intros H a Ha; [contradiction|]. pose proof (filter_length_le f l) as L.
  destruct (f x) eqn:E; simpl in H; [|lia]. destruct Ha as [<-|Ha]; auto.
Qed.
Lemma len_range n bs : ByteSetModel.iter bs = filter (ByteSetModel.contains bs) (nrange 0 n) ->
  (ByteSetModel.len bs <= N.of_nat n)%N /\
  ((exists b, (b < N.of_nat n)%N /\ ByteSetModel.contains bs b = true) -> (1 <= ByteSetModel.len bs)%N) /\
  ((exists b, (b < N.of_nat n)%N /\ ByteSetModel.contains bs b = false) -> (ByteSetModel.len bs < N.of_nat n)%N) /\
  (ByteSetModel.len bs = 0%N \/ exists b, (b < N.of_nat n)%N /\ ByteSetModel.contains bs b = true).
Proof.
  intros E. rewrite ByteSetProofs.len_iter, E. pose proof (filter_length_le (ByteSetModel.contains bs) (nrange 0 n)) as L.
  rewrite length_nrange in L. split; [lia|]. split; [|split].
  - intros (b & Hb & Eb). assert (I : In b (filter (ByteSetModel.contains bs) (nrange 0 n))) by (apply filter_In; split; [now apply in_nrange|auto]).
    destruct (filter _ _); [contradiction|]. simpl. lia.
  - intros (b & Hb & Eb). destruct (Nat.eq_dec (length (filter (ByteSetModel.contains bs) (nrange 0 n))) n) as [F|F]; [|lia].
    exfalso. rewrite <- (length_nrange 0 n) in F at 2. pose proof (filter_all _ _ F b (proj2 (in_nrange b n) Hb)). congruence.
  - destruct (filter (ByteSetModel.contains bs) (nrange 0 n)) as [|b r] eqn:F; [now left|right].
    assert (I : In b (filter (ByteSetModel.contains bs) (nrange 0 n))) by (rewrite F; now left).
    apply filter_In in I as [I1 I2]. exists b. split; [now apply in_nrange|auto].
Qed.
Lemma iter_range bs : exists n, N.of_nat n = 256%N /\ ByteSetModel.iter bs = filter (ByteSetModel.contains bs) (nrange 0 n).
Proof. exists 256. split; [reflexivity|]. unfold ByteSetModel.iter. reflexivity. Qed.
Theorem C55_byte_test_exists : forall bs, ByteSetModel.wf bs ->
  ((exists c, criterion_of bs = Val c) <-> (exists b, (b < 256)%N /\ ByteSetModel.contains bs b = true)).
Proof.
  intros bs Hw. destruct (iter_range bs) as (n & En & Ei). destruct (len_range n bs Ei) as (L1 & L2 & L3 & L4). pose proof (all_or_one (ByteSetModel.contains bs) n) as A0. rewrite En in *. clear Ei.
  unfold criterion_of. destruct (ByteSetModel.is_full bs) eqn:F.
  { split; [intros _|eauto]. exists 0%N. split; [reflexivity|]. apply ByteSetProofs.eqb_eq in F. subst. now apply ByteSetProofs.contains_full. }
  assert (NF : exists b, (b < 256)%N /\ ByteSetModel.contains bs b = false).
  { destruct A0 as [A|A]; [|exact A].
    pose proof (proj2 (proj2 (ByteSetProps.C02_empty_full bs Hw)) A). congruence. }
  specialize (L3 NF). cbv zeta. split.
  - intros [c E]. destruct L4 as [L4|L4]; [|exact L4]. rewrite L4 in E. discriminate.
  - intros Hb. specialize (L2 Hb).
    destruct (N.eqb_spec (ByteSetModel.len bs) 1).
    { pose proof (ByteSetProofs.min_elem_spec bs) as M. destruct (ByteSetModel.min_elem bs); [eauto|].
      destruct Hb as (b & Hb & Eb). rewrite M in Eb by auto. discriminate. }
    destruct (N.eqb_spec (ByteSetModel.len bs) 255).
    { pose proof (ByteSetProofs.min_elem_spec (ByteSetModel.complement bs)) as M.
      destruct (ByteSetModel.min_elem (ByteSetModel.complement bs)); [eauto|].
      destruct NF as (b & Hb' & Eb). specialize (M b Hb'). rewrite ByteSetProofs.contains_complement, Eb in M by auto. discriminate. }
    destruct (N.leb_spec 2 (ByteSetModel.len bs)); [|lia]. destruct (N.leb_spec (ByteSetModel.len bs) 254); [|lia]. simpl. eauto.
Qed.
(** The generated lookahead chooses what the tree says for the input left, and
    leaves the parser as it was. Missing: trees with a node that both accepts and
    has branches (refuted below); bits and slices, for which see [C53]. *)
Theorem C55_lookahead_partial : forall t input off, decisive t = true -> small input -> off <= length input ->
  let st := set_cur (parser_new input) (Bytes (N.of_nat off)) in
  match mt_matches t (skipn off input) with
  | Some i => exec (invoke_tree t) st = (POk i, st)
  | None => exists e st', exec (invoke_tree t) st = (PErr e, st')
  end.
Proof.
  intros t input off Hd Hi Ho st.
  assert (Hs : sees (top true) (RC input off) st).
  { split; [reflexivity|]. split; [exact Hi|]. split; [reflexivity|]. exists off, (length input). cbn. repeat split; auto. now rewrite firstn_all. }
  pose proof (invoke_spec (top true) t (RC input off) st Hs Hd) as H. unfold tree_matches in H. cbn [roff rinput] in H.
  destruct (mt_matches t (skipn off input)); [exact H|]. destruct H as (e & st' & H & _). eauto.
Qed.

(** ** C56 *)

(** An expression evaluated on values without wrappers gives the value without
    wrappers. Missing: patterns that look inside a part of a value (refuted in
    C35), variables with the names of generated code (refuted below). *)
Theorem C56_expressions_partial : forall (D D' : Type) (e : expr) (s : scope D) (sg : scope D') v, tidy e = true ->
  (forall x u, reserved x = false -> get_value x s = Some u -> exists w, get_value x sg = Some w /\ erases u w) ->
  eval e s = Val v -> exists w, eval e sg = Val w /\ erases v w.
Proof. intros D D' e s sg v He Hs. exact (eval_related s sg Hs e He v). Qed.

Print Assumptions C53_decoded_partial.
Print Assumptions C53_decoded_or_panics_partial.
Print Assumptions C53_described_partial.
Print Assumptions C54_rejected_partial.
Print Assumptions C54_accepted_partial.
Print Assumptions C55_byte_test.
Print Assumptions C55_byte_test_exists.
Print Assumptions C55_lookahead_partial.
Print Assumptions C56_expressions_partial.

(** ** Refutations *)

(** The format compiles; what its generated parser does with the input. *)
Definition emitted (f : format) (input : list N) : option (pres value) :=
  match compile_program (build_exec 50) no_eqb [] 10 f with
  | Some (COk P) => Some (fst (generated P 50 input))
  | _ => None
  end.
Definition interpreted (f : format) (input : list N) : option (dres value) := outcome_of [] f input.
Definition vx : label := intern "x".
(** An optional byte at the end of the input: the generated lookahead fails. *)
Theorem C53_end_of_input_refuted : exists f input v,
  interpreted f input = Some (ROk v (rc_new input) []) /\ emitted f input = Some (PErr EOverrun).
Proof. exists (FUnion [byte_is 1; FEmpty]), [], (VBranch 1 VUnit). split; vm_compute; reflexivity. Qed.
(** With two bytes to choose from, also before another byte. *)
Theorem C53_no_branch_refuted : exists f input v,
  interpreted f input = Some (ROk v (rc_new input) []) /\ emitted f input = Some (PErr ERejected).
Proof. exists (FUnion [byte_is 1; byte_is 2; FEmpty]), [3]%N, (VBranch 2 VUnit). split; vm_compute; reflexivity. Qed.
(** One or more bytes: the generated parser accepts none. *)
Theorem C54_repeat1_refuted : exists f e v,
  interpreted f [] = Some (RErr e) /\ emitted f [] = Some (POk v).
Proof. exists (FRepeat1 (byte_is 1)), (KOverbyte 0), (vlist []). split; vm_compute; reflexivity. Qed.
(** Two or three bytes: the generated parser accepts none. *)
Theorem C54_between_refuted : exists f v, emitted f [] = Some (POk v) /\ f = FRepeatBetween (EU B8 2) (EU B8 3) (byte_is 1) /\ v = vlist [].
Proof. do 2 eexists. split; [|split; reflexivity]. vm_compute. reflexivity. Qed.
(** After a tolerated failure the generated parser goes on where it failed. *)
Theorem C53_permit_refuted : exists f input v w c es,
  interpreted f input = Some (ROk v c es) /\ emitted f input = Some (POk w) /\
  v = VTuple [VPermitErr (Some (VBool false)); VU B8 1] /\ w = VTuple [VBool false; VU B8 4].
Proof.
  exists (FTuple [FPermit (FTuple [byte_is 1; byte_is 2]) (EBool false); any_byte]), [1; 3; 4]%N. do 4 eexists.
  split; [vm_compute; reflexivity|]. split; [vm_compute; reflexivity|]. split; reflexivity.
Qed.
(** In a view the generated parser counts from where the view begins. *)
Theorem C53_position_in_view_refuted : exists f input v w c,
  interpreted f input = Some (ROk v c []) /\ emitted f input = Some (POk w) /\
  v = VTuple [VU B8 1; VU B64 1] /\ w = VTuple [VU B8 1; VU B64 0].
Proof.
  exists (FTuple [any_byte; FLetView vx (FParseFromView (VEVar vx) FPos)]), [1; 3; 4]%N. do 3 eexists.
  split; [vm_compute; reflexivity|]. split; [vm_compute; reflexivity|]. split; reflexivity.
Qed.
Theorem C53_align_in_view_refuted : exists f input v w c,
  interpreted f input = Some (ROk v c []) /\ emitted f input = Some (POk w) /\
  v = VTuple [VU B8 1; VTuple [VUnit; VU B8 4]] /\ w = VTuple [VU B8 1; VTuple [VUnit; VU B8 3]].
Proof.
  exists (FTuple [any_byte; FLetView vx (FParseFromView (VEVar vx) (FTuple [FAlign 2; any_byte]))]), [1; 3; 4]%N. do 3 eexists.
  split; [vm_compute; reflexivity|]. split; [vm_compute; reflexivity|]. split; reflexivity.
Qed.
(** A view taken in a slice of one byte gives two. *)
Theorem C54_view_in_slice_refuted : exists f input e w,
  interpreted f input = Some (RErr e) /\ emitted f input = Some (POk w) /\ w = vlist [VU B8 1; VU B8 3].
Proof.
  exists (FSlice (EU B8 1) (FLetView vx (FWithView (VEVar vx) (VFCapture (EU B8 2))))), [1; 3; 4]%N, (KOverbyte 1). eexists.
  split; [vm_compute; reflexivity|]. split; [vm_compute; reflexivity|]. reflexivity.
Qed.
(** Going back from a slice, the generated parser sees what follows the slice. *)
Theorem C53_back_from_slice_refuted : exists f input v w c,
  interpreted f input = Some (ROk v c []) /\ emitted f input = Some (POk w) /\
  v = VTuple [VU B8 1; vlist [VU B8 1; VU B8 3]] /\ w = VTuple [VU B8 1; vlist [VU B8 1; VU B8 3; VU B8 4]].
Proof.
  exists (FTuple [any_byte; FSlice (EU B8 1) (FWithRelativeOffset (EU B8 0) (EU B8 0) (FRepeat any_byte))]), [1; 3; 4]%N. do 3 eexists.
  split; [vm_compute; reflexivity|]. split; [vm_compute; reflexivity|]. split; reflexivity.
Qed.
(** Nine bits of a slice of one byte. *)
Theorem C54_bits_in_slice_refuted : exists f input e w,
  interpreted f input = Some (RErr e) /\ emitted f input = Some (POk w) /\
  w = vlist (map (VU B8) [1; 0; 0; 0; 0; 0; 0; 0; 1]%N).
Proof.
  exists (FSlice (EU B8 1) (FBits (FPeek (FRepeatCount (EU B8 9) any_byte)))), [1; 3; 4]%N, (KOverbyte 8). eexists.
  split; [vm_compute; reflexivity|]. split; [vm_compute; reflexivity|]. reflexivity.
Qed.
(** Skipping the rest of the bits, and bits of bits, fail in generated code. *)
Theorem C53_skip_bits_refuted : exists f input v c,
  interpreted f input = Some (ROk v c []) /\ emitted f input = Some (PErr EBinaryMode) /\ f = FBits (FTuple [any_byte; FSkipRemainder]).
Proof. do 4 eexists. split; [|split; [|reflexivity]]; [instantiate (3 := [1; 3; 4]%N); vm_compute; reflexivity|vm_compute; reflexivity]. Qed.
Theorem C53_nested_bits_refuted : exists f input v c,
  interpreted f input = Some (ROk v c []) /\ emitted f input = Some (PErr EBinaryMode) /\ f = FBits (FBits any_byte).
Proof. do 4 eexists. split; [|split; [|reflexivity]]; [instantiate (3 := [1; 3; 4]%N); vm_compute; reflexivity|vm_compute; reflexivity]. Qed.
(** An offset computed in one byte overflows. *)
Theorem C53_offset_type_refuted : exists f input v c,
  interpreted f input = Some (ROk v c []) /\ emitted f input = Some PPanic /\
  f = FLetFormat any_byte vx (FWithRelativeOffset (EVar vx) (EU B8 156) any_byte) /\ v = VU B8 0.
Proof.
  exists (FLetFormat any_byte vx (FWithRelativeOffset (EVar vx) (EU B8 156) any_byte)), (100 :: repeat 0 300)%N, (VU B8 0). eexists.
  split; [vm_compute; reflexivity|]. split; [vm_compute; reflexivity|]. split; reflexivity.
Qed.
(** Capturing more than there is panics. *)
Theorem C54_capture_refuted : exists f input e,
  interpreted f input = Some (RErr e) /\ emitted f input = Some PPanic /\ f = FLetView vx (FWithView (VEVar vx) (VFCapture (EU B8 4))).
Proof. exists (FLetView vx (FWithView (VEVar vx) (VFCapture (EU B8 4)))), [1; 3; 4]%N. eexists. split; [|split; [|reflexivity]]; vm_compute; reflexivity. Qed.
(** A byte equal to the one before it, which is called [inner]: in generated code
    [inner] is the byte that is tested. *)
Theorem C54_hygiene_refuted : exists f input e w,
  interpreted f input = Some (RErr e) /\ emitted f input = Some (POk w) /\ input = [1; 3]%N /\
  f = FLetFormat any_byte (intern "inner") (FWhere any_byte (ELambda vx (EIntRel REq (EVar vx) (EVar (intern "inner")))) true).
Proof.
  exists (FLetFormat any_byte (intern "inner") (FWhere any_byte (ELambda vx (EIntRel REq (EVar vx) (EVar (intern "inner")))) true)), [1; 3]%N.
  do 2 eexists. split; [vm_compute; reflexivity|]. split; [vm_compute; reflexivity|]. split; reflexivity.
Qed.
(** In a slice the variable [sz] is the size of the slice. *)
Theorem C53_hygiene_refuted : exists f input v w c,
  interpreted f input = Some (ROk v c []) /\ emitted f input = Some (POk w) /\
  v = VTuple [VU B8 3; VU B8 7] /\ w = VTuple [VU B8 3; VUsize 1] /\
  f = FLetFormat any_byte (intern "sz") (FSlice (EU B8 1) (FTuple [any_byte; FCompute (EVar (intern "sz"))])).
Proof.
  exists (FLetFormat any_byte (intern "sz") (FSlice (EU B8 1) (FTuple [any_byte; FCompute (EVar (intern "sz"))]))), [7; 3]%N.
  do 3 eexists. split; [vm_compute; reflexivity|]. split; [vm_compute; reflexivity|]. repeat split; reflexivity.
Qed.
(** A pattern inside a tuple does not match an alternative in the interpreter. *)
Theorem C53_patterns_refuted : exists f input v w c,
  interpreted f input = Some (ROk v c []) /\ emitted f input = Some (POk w) /\ v = VBranch 1 (VBool false) /\ w = VBool true.
Proof.
  exists (FLetFormat (FTuple [FUnion [byte_is 1; byte_is 2]]) vx
    (FMatch (EVar vx) [(PTuple [PU B8 1], FCompute (EBool true)); (PWildcard, FCompute (EBool false))])), [1]%N.
  do 3 eexists. split; [vm_compute; reflexivity|]. split; [vm_compute; reflexivity|]. split; reflexivity.
Qed.
(** The tree of an optional byte: nothing on the empty input, and an error. *)
Theorem C55_lookahead_refuted : exists t, mt_matches t [] = Some 1 /\
  exists st', exec (invoke_tree t) (parser_new []) = (PErr EOverrun, st').
Proof.
  exists (MT (Some 1) [(ByteSetModel.insert ByteSetModel.empty 7, MT (Some 0) [])]). split; [reflexivity|]. eexists. vm_compute. reflexivity.
Qed.
Print Assumptions C53_end_of_input_refuted.
Print Assumptions C53_no_branch_refuted.
Print Assumptions C53_permit_refuted.
Print Assumptions C53_position_in_view_refuted.
Print Assumptions C53_align_in_view_refuted.
Print Assumptions C53_back_from_slice_refuted.
Print Assumptions C53_skip_bits_refuted.
Print Assumptions C53_nested_bits_refuted.
Print Assumptions C53_offset_type_refuted.
Print Assumptions C53_hygiene_refuted.
Print Assumptions C53_patterns_refuted.
Print Assumptions C54_repeat1_refuted.
Print Assumptions C54_between_refuted.
Print Assumptions C54_view_in_slice_refuted.
Print Assumptions C54_bits_in_slice_refuted.
Print Assumptions C54_capture_refuted.
Print Assumptions C54_hygiene_refuted.
Print Assumptions C55_lookahead_refuted.

(** ** The hypotheses are met *)

Definition compiled (m : fmodule) (f : format) : program :=
  match compile_program (build_exec 50) no_eqb m 10 f with Some (COk P) => P | _ => [] end.
(** The format of [C26_nonvacuous]: a count, records, a union, slices, repetitions. *)
Example C53_nonvacuous :
  compile_program (build_exec 50) no_eqb ex_module 10 ex_format = Some (COk (compiled ex_module ex_format)) /\
  program_supported (compiled ex_module ex_format) false false [(top false, 0); (top false, 1)] = true /\
  small ex_input /\
  DecoderModel.run (build_exec 50) (compiled ex_module ex_format) 50 (rc_new ex_input) = ROk ex_value (RC ex_input 9) [] /\
  exists st', generated (compiled ex_module ex_format) 50 ex_input = (POk (VTuple
    [VSeq (Strict [VTuple [VU B8 9; VU B8 2]; VTuple [VU B8 9; VU B8 2]]);
     VTuple [VU B8 1; VSeq (Strict [VU B8 5; VU B8 6])];
     VSeq (Strict [VU B8 0; VU B8 0]); VU B8 4; VU B8 4]), st') /\ pcur st' = Bytes 9.
Proof.
  split; [vm_compute; reflexivity|]. split; [vm_compute; reflexivity|]. split; [split; [repeat constructor|reflexivity]|].
  split; [vm_compute; reflexivity|]. eexists. split; vm_compute; reflexivity.
Qed.
(** Ordered choice, negative peek, views, bits, relative offsets, maps, conditions. *)
Definition vy : label := intern "y".
Definition ex_generated : format :=
  FLetFormat any_byte vx (FTuple [
    FRepeatCount (EVar vx) (FItemVar 0 [EVar vx] []);
    FUnion [FTuple [byte_is 1; FSlice (EU B8 2) (FRepeat any_byte)]; FVariant 7%N (byte_is 2)];
    FRepeatUntilLast (ELambda vy (EIntRel REq (EVar vy) (EU B8 0))) any_byte;
    FUnionNondet [FTuple [byte_is 4; byte_is 5]; FTuple [byte_is 4; FPeekNot (byte_is 6); any_byte]];
    FLetView vy (FParseFromView (VEVar vy) (FBits (FRepeatCount (EU B8 3) any_byte)));
    FWithRelativeOffset (EU B64 0) (EU B64 1) any_byte;
    FWhere (FMap any_byte (ELambda vy (EArith AAdd (EVar vy) (EVar vx)))) (ELambda vy (EIntRel RGt (EVar vy) (EVar vx))) true;
    FPos; FEndOfInput]).
Definition ex_accepted : list N := [2; 9; 9; 1; 5; 6; 8; 0; 4; 7; 3]%N.
Definition ex_rejected : list N := [2; 9; 9; 1; 5; 6; 8; 0; 4; 6; 3]%N.
Example C54_nonvacuous :
  compile_program (build_exec 50) no_eqb ex_module 10 ex_generated = Some (COk (compiled ex_module ex_generated)) /\
  program_supported (compiled ex_module ex_generated) false true [(top true, 0); (top true, 1)] = true /\
  small ex_accepted /\ small ex_rejected /\
  (exists v, DecoderModel.run (build_exec 50) (compiled ex_module ex_generated) 50 (rc_new ex_accepted) = ROk v (RC ex_accepted 11) []) /\
  (exists e, DecoderModel.run (build_exec 50) (compiled ex_module ex_generated) 50 (rc_new ex_rejected) = RErr e) /\
  (exists st', generated (compiled ex_module ex_generated) 50 ex_accepted = (POk (VTuple
    [vlist [VTuple [VU B8 9; VU B8 2]; VTuple [VU B8 9; VU B8 2]];
     VTuple [VU B8 1; vlist [VU B8 5; VU B8 6]]; vlist [VU B8 8; VU B8 0];
     VTuple [VU B8 4; VUnit; VU B8 7]; vlist [VU B8 1; VU B8 1; VU B8 0]; VU B8 9; VU B8 5; VU B64 11; VUnit]), st')) /\
  exists e st', generated (compiled ex_module ex_generated) 50 ex_rejected = (PErr e, st').
Proof.
  split; [vm_compute; reflexivity|]. split; [vm_compute; reflexivity|]. split; [split; [repeat constructor|reflexivity]|].
  split; [split; [repeat constructor|reflexivity]|]. split; [eexists; vm_compute; reflexivity|]. split; [eexists; vm_compute; reflexivity|].
  split; [eexists; vm_compute; reflexivity|]. do 2 eexists. vm_compute. reflexivity.
Qed.
Example C55_nonvacuous :
  let t := MT None [(ByteSetModel.insert ByteSetModel.empty 7, MT (Some 0) []); (ByteSetModel.insert ByteSetModel.empty 9, MT None [(ByteSetModel.full, MT (Some 1) [])])] in
  decisive t = true /\ mt_matches t [9; 4]%N = Some 1 /\ mt_matches t [9]%N = None /\ mt_matches t [7]%N = Some 0 /\
  criterion_of ByteSetModel.empty = Panic /\ criterion_of (ByteSetModel.complement (ByteSetModel.insert ByteSetModel.empty 9)) = Val (COtherThan 9).
Proof. cbv zeta. repeat split; vm_compute; reflexivity. Qed.
Example C56_nonvacuous :
  let e := EMatch (EVar vx) [(PTuple [PBinding vy; PWildcard], EArith AAdd (EVar vy) (EU B8 1))] in
  tidy e = true /\
  eval e (SSingle (@SEmpty unit) vx (VBranch 1 (VTuple [VMapped (VU B8 0) (VU B8 4); VUnit]))) = Val (VU B8 5) /\
  eval e (SSingle (@SEmpty unit) vx (VTuple [VU B8 4; VUnit])) = Val (VU B8 5).
Proof. cbv zeta. repeat split; vm_compute; reflexivity. Qed.
