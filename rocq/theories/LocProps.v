(** Properties C43 (decoding with locations computes the same), C44 (what the
    locations say) and C45 (joining and ordering locations). *)
From Coq Require Import Permutation.
From Verif Require ByteSetModel HuffmanModel.
From Verif Require Import Base BoundsModel DataModel NumericModel ValueModel ValueProofs FormatModel MatchTreeModel
  DecoderModel DecoderProofs DecoderProps CompileProofs MatchBoundsProofs LocModel LocSpec LocProofs LocAgreeProofs LocPlaceProofs LocSpanProofs.
Open Scope nat_scope.

Section Props.
Context (bld : fmodule -> list format -> next -> outcome (option mtree)).
Context (eqb : next -> next -> bool) (Heqb : forall a b, eqb a b = true -> a = b) (m : fmodule).

(** ** C43 *)

(** The interpreter with locations and the plain one, run on the same compiled
    format and input, both succeed with the same value, final cursor and tolerated
    errors, or both fail with the same error. Missing: panics are not compared, and
    formats with tolerated failures, patterns deeper than one constructor, or machine-integer
    patterns next to numeric expressions are not covered ([loc_node]); all are refuted below. *)
Theorem C43_agrees_partial : forall num f fuel P pfuel c,
  module_wide (fun g => loc_node num g = true) m -> everywhere (fun g => loc_node num g = true) f ->
  compile_program bld eqb m fuel f = Some (COk P) ->
  same_result (run bld P pfuel c) (run_with_loc bld P pfuel c).
Proof. intros num f fuel P pfuel c HM Hf HC. now apply (run_agrees num bld eqb m fuel f P). Qed.

(** ** C44 *)

(** The location of what a reading or collecting format yields is exactly what it
    consumed: it starts where the cursor was and ends where the cursor is. This
    includes records, through alternatives, items, maps and conditions. *)
Theorem C44_spans : forall f fuel P pfuel input p c' es,
  Spans m f -> compile_program bld eqb m fuel f = Some (COk P) ->
  run_with_loc bld P pfuel (rc_new input) = ROk p c' es ->
  get_loc p = LBuf 0 (roff c') /\ roff c' <= length input.
Proof.
  intros f fuel P pfuel input p c' es HS HC HR.
  assert (Hc : in_range (rc_new input)) by (unfold in_range; cbn; lia).
  pose proof (run_spans bld eqb m fuel f P Heqb HS HC pfuel (rc_new input) Hc) as R. rewrite HR in R. cbn in R. rewrite Nat.sub_0_r in R.
  split; [exact R|]. unfold run_with_loc in HR. destruct P as [|d P'] eqn:E; [discriminate|]. rewrite <- E in HR.
  pose proof (q_parse_adv bld P pfuel QSEmpty d (rc_new input) Hc) as A. rewrite HR in A. apply A.
Qed.
(** Every location in the result, at any depth, lies in the input. Missing: record
    expressions, whose location can end past the input, and formats that read from
    a derived buffer ([FBits], [FDecodeBytes]); both refuted below. *)
Theorem C44_in_input_partial : forall f fuel P pfuel input p c' es,
  (let ok g := (one_buffer g && forallb no_record (node_exprs g))%bool = true in module_wide ok m /\ everywhere ok f) ->
  compile_program bld eqb m fuel f = Some (COk P) ->
  run_with_loc bld P pfuel (rc_new input) = ROk p c' es ->
  forall x, In x (parts p) -> in_buffer input (get_loc x).
Proof. intros f fuel P pfuel input p c' es Hok HC HR x Hx. exact (run_in_buffer bld eqb Heqb m fuel f P HC input Hok pfuel p c' es HR x Hx). Qed.
(** Every scalar with a location is the number at that location of the input, and
    the tuples and sequences are located in the input. Missing: mapped values, whose image is given the
    location of its source, and derived buffers; refuted below. *)
Theorem C44_read_there_partial : forall f fuel P pfuel input p c' es,
  (let ok g := (one_buffer g && unmapped g)%bool = true in module_wide ok m /\ everywhere ok f) ->
  compile_program bld eqb m fuel f = Some (COk P) ->
  run_with_loc bld P pfuel (rc_new input) = ROk p c' es ->
  forall x, In x (parts p) ->
  read_there input x /\ match x with QTuple l _ | QSeq l _ => in_buffer input l | _ => True end.
Proof. intros f fuel P pfuel input p c' es Hok HC HR x Hx. exact (run_read_there bld eqb Heqb m fuel f P HC input Hok pfuel p c' es HR x Hx). Qed.
End Props.
Print Assumptions C43_agrees_partial.
Print Assumptions C44_spans.
Print Assumptions C44_in_input_partial.
Print Assumptions C44_read_there_partial.

(** ** C45 *)

(** Joining is commutative and associative, and a synthesized location is neutral. *)
Theorem C45_join : forall a b c,
  loc_join a b = loc_join b a /\ loc_join a (loc_join b c) = loc_join (loc_join a b) c /\ loc_join LSynth a = a /\ loc_join a LSynth = a.
Proof. intros a b c. split; [apply join_comm|]. split; [apply join_assoc|apply join_synth]. Qed.
(** Accumulating locations that, in some order and leaving out the synthesized
    ones, cover [o] to [o'] without gap or overlap gives exactly that span,
    whatever the order they are accumulated in. *)
Theorem C45_adjacent : forall ls sorted o o', Permutation ls sorted -> contiguous o sorted o' ->
  loc_accum ls = if forallb (fun l => match l with LSynth => true | _ => false end) sorted then LSynth else LBuf o (o' - o).
Proof. intros ls sorted o o' HP HC. rewrite (accum_perm _ _ HP). now apply accum_contiguous. Qed.
(** Locations are totally ordered, and every location in the input is before a
    synthesized one. *)
Theorem C45_order : forall a b c,
  (loc_cmp a b = Eq <-> a = b) /\ loc_cmp b a = CompOpp (loc_cmp a b) /\
  (loc_cmp a b = Lt -> loc_cmp b c = Lt -> loc_cmp a c = Lt) /\
  (forall o n, loc_cmp (LBuf o n) LSynth = Lt) /\
  (forall o n o' n', loc_cmp (LBuf o n) (LBuf o' n') = Lt <-> o < o' \/ (o = o' /\ n < n')).
Proof.
  intros a b c. split; [apply loc_cmp_eq|]. split; [apply loc_cmp_sym|]. split; [apply loc_cmp_trans|]. split; [reflexivity|].
  intros o n o' n'. cbn. destruct (Nat.compare_spec o o'), (Nat.compare_spec n n'); split; try discriminate; try lia; auto.
Qed.
Print Assumptions C45_join.
Print Assumptions C45_adjacent.
Print Assumptions C45_order.
(** With a gap, the join is a location that covers neither part's end. *)
Theorem C45_gap_refuted : exists a b o n, loc_join a b = LBuf o n /\ exists o' n', b = LBuf o' n' /\ o + n < o' + n'.
Proof. exists (LBuf 0 1), (LBuf 5 1), 0, 2. split; [reflexivity|]. exists 5, 1. split; [reflexivity|lia]. Qed.

(** ** Where agreement and locations fail *)

Definition go_loc (f : format) (input : list N) : option (dres pval) :=
  match compile_program (build_exec 50) no_eqb [] 10 f with
  | Some (COk P) => Some (run_with_loc (build_exec 50) P 50 (rc_new input))
  | _ => None
  end.
Definition is_five (e : expr) (p : pattern) : format := FCompute (EMatch e [(p, EBool true); (PWildcard, EBool false)]).
(** The value of a permitted failure is matched by the pattern of its default in
    one interpreter only. *)
Theorem C43_permit_refuted : exists f input b v c e,
  go f input = Some (ROk (VBool b) c [e]) /\ go_loc f input = Some (ROk (QFlat LSynth (VBool v)) c [e]) /\ b <> v.
Proof.
  exists (FLetFormat (FPermit (byte_is 0) (EU B8 5)) 1%N (is_five (EVar 1%N) (PU B8 5))), [1]%N.
  eexists true, false, _, _. split; [vm_compute; reflexivity|]. split; [vm_compute; reflexivity|discriminate].
Qed.
(** A pattern inside a tuple sees a mapped value in one interpreter only. *)
Theorem C43_nested_refuted : exists f input b v c,
  go f input = Some (ROk (VBool b) c []) /\ go_loc f input = Some (ROk (QFlat LSynth (VBool v)) c []) /\ b <> v.
Proof.
  exists (FLetFormat (FMap any_byte (ELambda 9%N (EVar 9%N))) 1%N
          (FLetFormat (FTuple [FCompute (EVar 1%N)]) 2%N (is_five (EVar 2%N) (PTuple [PU B8 5])))), [5]%N.
  eexists true, false, _. split; [vm_compute; reflexivity|]. split; [vm_compute; reflexivity|discriminate].
Qed.
(** A machine-integer pattern matches a numeric value in one interpreter only. *)
Theorem C43_numeric_refuted : exists f input b v c,
  go f input = Some (ROk (VBool b) c []) /\ go_loc f input = Some (ROk (QFlat LSynth (VBool v)) c []) /\ b <> v.
Proof.
  exists (is_five (ENumeric (NConst (TC 5 (Concrete rU8)))) (PU B8 5)), [].
  eexists true, false, _. split; [vm_compute; reflexivity|]. split; [vm_compute; reflexivity|discriminate].
Qed.
(** A loop over a mapped sequence, and a record without fields: one interpreter
    panics where the other succeeds. *)
Theorem C43_panic_refuted : exists f g input v w c,
  go f input = Some (ROk v c []) /\ go_loc f input = Some RPanic /\
  go g input = Some (ROk w (rc_new input) []) /\ go_loc g input = Some RPanic.
Proof.
  exists (FLetFormat (FMap (FRepeatCount (EU B8 2) any_byte) (ELambda 9%N (EVar 9%N))) 1%N (FForEach (EVar 1%N) 2%N (FCompute (EVar 2%N)))),
    (FCompute (ERecord [])), [3; 4]%N.
  eexists _, _, _. split; [vm_compute; reflexivity|]. split; [vm_compute; reflexivity|]. split; vm_compute; reflexivity.
Qed.
(** The location of a repetition that ends by a condition on the sequence has length
    zero, whatever it consumed. *)
Theorem C44_until_refuted : exists f input p c,
  go_loc f input = Some (ROk p c []) /\ get_loc p = LBuf 0 0 /\ roff c = 2.
Proof.
  exists (FRepeatUntilSeq (ELambda 9%N (EIntRel REq (ESeqLength (EVar 9%N)) (EU B32 2))) any_byte), [3; 4]%N.
  eexists _, _. split; [vm_compute; reflexivity|]. split; reflexivity.
Qed.
(** A record that mentions a value twice has a location that ends past the input. *)
Theorem C44_record_refuted : exists f input p c,
  go_loc f input = Some (ROk p c []) /\ get_loc p = LBuf 0 2 /\ length input = 1.
Proof.
  exists (FLetFormat any_byte 1%N (FCompute (ERecord [(1%N, EVar 1%N); (2%N, EVar 1%N)]))), [3]%N.
  eexists _, _. split; [vm_compute; reflexivity|]. split; reflexivity.
Qed.
(** Locations of what is read from decoded bytes or from bits are not locations in
    the input. *)
Theorem C44_buffer_refuted : exists f g input p q c,
  go_loc f input = Some (ROk p (rc_new input) []) /\ get_loc p = LBuf 0 2 /\
  go_loc g input = Some (ROk q c []) /\ get_loc q = LBuf 0 8 /\ length input = 1.
Proof.
  exists (FDecodeBytes (ESeq [EU B8 1; EU B8 2]) (FTuple [any_byte; any_byte])),
    (FBits (FRepeatCount (EU B8 8) any_byte)), [3]%N.
  eexists _, _, _. split; [vm_compute; reflexivity|]. split; [reflexivity|]. split; [vm_compute; reflexivity|]. split; reflexivity.
Qed.
(** A mapped value carries a location at which it cannot be read. *)
Theorem C44_mapped_refuted : exists f input p c,
  go_loc f input = Some (ROk p c []) /\ exists x, In x (parts p) /\ ~ read_there input x.
Proof.
  exists (FMap any_byte (ELambda 9%N (EU B16 7))), [3]%N. eexists _, _. split; [vm_compute; reflexivity|].
  exists (QFlat (LBuf 0 1) (VU B16 7)). split; [cbn; tauto|]. intros (_ & w & _ & E). cbn in E. now injection E.
Qed.
Print Assumptions C45_gap_refuted.
Print Assumptions C43_permit_refuted.
Print Assumptions C43_nested_refuted.
Print Assumptions C43_numeric_refuted.
Print Assumptions C43_panic_refuted.
Print Assumptions C44_until_refuted.
Print Assumptions C44_record_refuted.
Print Assumptions C44_buffer_refuted.
Print Assumptions C44_mapped_refuted.

(** Attaching locations to a value, synthetic or those of another value, and removing
    them gives the value back, with its provenance; repeated elements are spelt out. *)
Theorem C43_conversion : forall p v, to_value (from_evaluated v) = spelt v /\ to_value (inherit p v) = spelt v.
Proof. intros p v. split; [apply to_from|]. unfold inherit. rewrite to_value_translate. apply to_from. Qed.
Example C43_conversion_nonvacuous : let v := VBranch 1 (VMapped (VPermitOk (VU B8 3)) (VSeq (Dup 2 (VVariant 4%N (VU B8 6))))) in
  spelt v = VBranch 1 (VMapped (VPermitOk (VU B8 3)) (VSeq (Strict [VVariant 4%N (VU B8 6); VVariant 4%N (VU B8 6)]))) /\ plain (spelt v) = plain v /\ plain v <> spelt v.
Proof. repeat split; discriminate. Qed.

(** ** The hypotheses are met *)

(** A count, that many bytes doubled, and the rest up to a zero, as a record. *)
Definition loc_module : fmodule := [Item [1%N] [] (FRepeatCount (EVar 1%N) (FMap any_byte (ELambda 9%N (EArith AAdd (EVar 9%N) (EVar 9%N)))))].
Definition loc_format : format :=
  record_of [(1%N, any_byte); (2%N, FItemVar 0 [EVar 1%N] []); (3%N, FUnion [FVariant 4%N (byte_is 0); FVariant 5%N (FTuple [byte_not 0; any_byte])])].
Definition loc_input : list N := [2; 10; 20; 7; 8; 9]%N.
Ltac nodes := intros g Hg; cbn in Hg; repeat (destruct Hg as [<-|Hg]; [reflexivity|]); contradiction.
Example C43_nonvacuous :
  module_wide (fun g => loc_node false g = true) loc_module /\ everywhere (fun g => loc_node false g = true) loc_format /\
  Spans loc_module loc_format /\
  exists P v p es, compile_program (build_exec 50) no_eqb loc_module 10 loc_format = Some (COk P) /\
    run (build_exec 50) P 50 (rc_new loc_input) = ROk v (RC loc_input 5) es /\
    run_with_loc (build_exec 50) P 50 (rc_new loc_input) = ROk p (RC loc_input 5) es /\
    get_loc p = LBuf 0 5.
Proof.
  split. { intros [|k] it H; cbn in H; [|destruct k; discriminate]; injection H as <-. nodes. }
  split. { cbv zeta; nodes. }
  split. { apply SpRecord; [discriminate| |].
    - repeat constructor; cbn; intuition discriminate.
    - repeat constructor; cbn [snd]. eapply SpItem; [reflexivity|]. constructor. }
  eexists _, _, _, _. split; [vm_compute; reflexivity|]. split; [vm_compute; reflexivity|]. split; [vm_compute; reflexivity|reflexivity].
Qed.
Example C44_nonvacuous :
  (let ok g := (one_buffer g && forallb no_record (node_exprs g))%bool = true in module_wide ok loc_module /\ everywhere ok (FLetFormat any_byte 1%N (FItemVar 0 [EVar 1%N] []))) /\
  (let ok g := (one_buffer g && unmapped g)%bool = true in everywhere ok (record_of [(1%N, any_byte); (3%N, FUnion [FVariant 4%N (byte_is 0); FVariant 5%N (FTuple [byte_not 0; any_byte])])])) /\
  exists p c, go_loc (record_of [(1%N, any_byte); (3%N, FUnion [FVariant 4%N (byte_is 0); FVariant 5%N (FTuple [byte_not 0; any_byte])])]) [7; 8; 9]%N = Some (ROk p c []) /\
    In (QFlat (LBuf 2 1) (VU B8 9)) (parts p).
Proof.
  split. { split; [intros [|k] it H; cbn in H; [|destruct k; discriminate]; injection H as <-; nodes|nodes]. }
  split. { cbv zeta; nodes. }
  eexists _, _. split; [vm_compute; reflexivity|]. cbn. intuition.
Qed.
Example C45_nonvacuous : exists ls sorted, Permutation ls sorted /\ contiguous 3 sorted 9 /\ ls <> sorted /\ loc_accum ls = LBuf 3 6.
Proof.
  exists [LBuf 5 4; LSynth; LBuf 3 2], [LBuf 3 2; LSynth; LBuf 5 4]. split; [|split; [cbn; auto|split; [discriminate|reflexivity]]].
  apply Permutation_sym. change (Permutation (LBuf 3 2 :: [LSynth] ++ [LBuf 5 4]) ([LBuf 5 4; LSynth] ++ [LBuf 3 2])).
  apply perm_trans with ([LBuf 5 4] ++ LBuf 3 2 :: [LSynth]).
  - apply (Permutation_middle [LBuf 3 2; LSynth] [] (LBuf 5 4)) || (cbn; apply perm_trans with [LBuf 3 2; LBuf 5 4; LSynth]; [apply perm_skip, perm_swap|apply perm_swap]).
  - cbn. apply perm_skip, perm_swap.
Qed.
Print Assumptions C43_conversion.
