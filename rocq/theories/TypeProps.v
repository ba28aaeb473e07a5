(** Properties of the types inferred when formats are defined: C46 (a decoded value
    has the inferred type), C47 (the type of alternatives). *)
From Coq Require Import Sorted Permutation.
From Verif Require ByteSetModel HuffmanModel.
From Verif Require Import Base BoundsModel DataModel NumericModel ValueModel ValueProofs ValueProps FormatModel MatchTreeModel DecoderModel DecoderProps FormatSpec
  CompileProofs MatchBoundsProofs FormatProps ExactProps TypeModel TypeSpec TypeUnifyProofs TypeValueProofs TypeProofs.
Open Scope nat_scope.

(** ** C46 *)

Section Props.
Context (bld : fmodule -> list format -> next -> outcome (option mtree)).
Context (eqb : next -> next -> bool) (Heqb : forall a b, eqb a b = true -> a = b).

(** A module whose definitions are all accepted, and a format it gives a type to:
    whatever the compiled format decodes has that type. Missing: where the code
    only tests that what it finds unifies with what is declared, the declared type
    must be ground; there is no accumulation, nor flat-map over the list made so
    far; and integers need only have some integer type (all of these are refuted
    below, the last for the exact type of each integer). *)
Theorem C46_typed_partial : forall ds sigs f T fuel P pfuel input v c es,
  Forall (fun d => forallb ground (snd d) = true) ds ->
  module_wide (fun g => declared_node g = true) (map fst ds) -> everywhere (fun g => declared_node g = true) f ->
  define_all false [] ds = Some sigs -> infer_format false sigs [] f = IOk T ->
  compile_program bld eqb (map fst ds) fuel f = Some (COk P) -> run bld P pfuel (rc_new input) = ROk v c es ->
  has_type false v T.
Proof.
  intros ds sigs f T fuel P pfuel input v c es Hg Hm Hf HD HT HP Hr.
  destruct (accepted_up ds sigs f T Hg Hm Hf HD HT) as [H1 H2].
  eapply (program_typed bld eqb Heqb false); eauto. discriminate.
Qed.

(** The same with the exact width and sign of every integer, where no value comes
    from a constant of open type, a range or the current position. *)
Theorem C46_exact_partial : forall ds sigs f T fuel P pfuel input v c es,
  Forall (fun d => forallb ground (snd d) = true) ds ->
  (let ok g := (declared_node g && typed_node g)%bool = true in module_wide ok (map fst ds) /\ everywhere ok f) ->
  define_all false [] ds = Some sigs -> infer_format false sigs [] f = IOk T ->
  compile_program bld eqb (map fst ds) fuel f = Some (COk P) -> run bld P pfuel (rc_new input) = ROk v c es ->
  has_type true v T.
Proof.
  intros ds sigs f T fuel P pfuel input v c es Hg [Hm Hf] HD HT HP Hr.
  assert (K : forall g, (declared_node g && typed_node g)%bool = true -> declared_node g = true /\ typed_node g = true) by (intros g; apply andb_true_iff).
  destruct (accepted_up ds sigs f T Hg) as [H1 H2]; auto.
  { intros k it Hk g Hi. apply K. eapply Hm; eauto. }
  { intros g Hi. apply K. auto. }
  eapply (program_typed bld eqb Heqb true); eauto. intros _. split.
  { intros k it Hk g Hi. apply K. eapply Hm; eauto. }
  { intros g Hi. apply K. auto. }
Qed.

(** With the tests the code leaves out (that a declared type covers the type found,
    and that an update is typed in its own scope) no restriction on declarations is
    needed. *)
Theorem C46_careful_partial : forall ds sigs f T fuel P pfuel input v c es,
  define_all true [] ds = Some sigs -> infer_format true sigs [] f = IOk T ->
  compile_program bld eqb (map fst ds) fuel f = Some (COk P) -> run bld P pfuel (rc_new input) = ROk v c es ->
  has_type false v T.
Proof. intros. eapply (program_typed bld eqb Heqb false); eauto. discriminate. Qed.
(** Those tests only reject more: what passes them has the same type in the code. *)
Theorem C46_careful_agrees : forall ds sigs f T,
  define_all true [] ds = Some sigs -> infer_format true sigs [] f = IOk T ->
  define_all false [] ds = Some sigs /\ infer_format false sigs [] f = IOk T.
Proof. exact accepted_down. Qed.
End Props.

(** ** Refutations of C46 *)

(** [accepted ds f T]: the code accepts the definitions and gives [f] the type [T]. *)
Definition accepted (ds : list (item * list vtype)) (f : format) (T : vtype) : Prop :=
  exists sigs, define_all false [] ds = Some sigs /\ infer_format false sigs [] f = IOk T.

(** An argument of a union type is accepted with an alternative that the
    parameter's type does not have. *)
Theorem C46_argument_refuted : exists ds f T input v c,
  accepted ds f T /\ outcome_of (map fst ds) f input = Some (ROk v c []) /\ ~ has_type false v T.
Proof.
  exists [(Item [1%N] [] (FCompute (EVar 1%N)), [TUnion [(5%N, TBase (TU B8))]])], (FItemVar 0 [EVariant 6%N (EBool true)] []), (TUnion [(5%N, TBase (TU B8))]), [].
  eexists _, _. split; [eexists; split; vm_compute; reflexivity|]. split; [vm_compute; reflexivity|]. cbn. intros (bs & u & [= <-] & H & _). discriminate H.
Qed.
(** The position next to a byte: both are typed as bytes. *)
Theorem C46_position_refuted : exists f T input v c,
  accepted [] f T /\ outcome_of [] f input = Some (ROk v c []) /\ ~ has_type true v T.
Proof.
  exists (FSequence [any_byte; FPos]), (TSeq (TBase (TU B8))), [7%N].
  eexists _, _. split; [eexists; split; vm_compute; reflexivity|]. split; [vm_compute; reflexivity|].
  cbn. intros (u & [= <-] & _ & [[=]|[[=] _]] & _).
Qed.
(** A range between two bytes is typed as bytes; its elements are native integers. *)
Theorem C46_range_refuted : exists f T input v c,
  accepted [] f T /\ outcome_of [] f input = Some (ROk v c []) /\ ~ has_type true v T.
Proof.
  exists (FForEach (EEnumFromTo (EU B8 0) (EU B8 2)) 1%N (FCompute (EVar 1%N))), (TSeq (TBase (TU B8))), [].
  eexists _, _. split; [eexists; split; vm_compute; reflexivity|]. split; [vm_compute; reflexivity|].
  cbn. intros (u & [= <-] & [[=] _] & _).
Qed.
(** The declared element type of a flat-map over the list made so far is not
    compared with the elements. *)
Theorem C46_hint_refuted : exists f T input v c,
  accepted [] f T /\ outcome_of [] f input = Some (ROk v c []) /\ ~ has_type false v T.
Proof.
  exists (FCompute (EFlatMapList (ELambda 1%N (ESeq [ETupleProj (EVar 1%N) 0])) (TBase TBool) (ESeq [EU B8 1; EU B8 2]))),
    (TSeq (TSeq (TBase TBool))), [].
  eexists _, _. split; [eexists; split; vm_compute; reflexivity|]. split; [vm_compute; reflexivity|].
  cbn. intros (u & [= <-] & _ & (w & [= <-] & (? & [=] & _) & _) & _).
Qed.
(** The update of an accumulation is typed with the condition's argument in scope,
    and evaluated without it. *)
Theorem C46_accumulate_refuted : exists f T input v c,
  accepted [] f T /\ outcome_of [] f input = Some (ROk v c []) /\ ~ has_type false v T.
Proof.
  exists (FLet 1%N (ETuple [EBool true]) (FAccumUntil (ELambda 1%N (EMatch (ESeqLength (ETupleProj (EVar 1%N) 1)) [(PU B32 1, EBool true); (PWildcard, EBool false)]))
    (ELambda 2%N (ETupleProj (EVar 1%N) 0)) (EU B8 0) (TBase (TU B8)) any_byte)), (TTuple [TBase (TU B8); TSeq (TBase (TU B8))]), [7%N].
  eexists _, _. split; [eexists; split; vm_compute; reflexivity|]. split; [vm_compute; reflexivity|].
  cbn. intros (ts & [= <-] & [=] & _).
Qed.
(** A character pattern is never accepted, even for characters. *)
Theorem C46_char_pattern_refuted : exists e f, infer_format false [] [] (FMatch e [(PWildcard, f)]) = IOk (TTuple []) /\
  (exists c, eval e (@SEmpty format) = Val (VChar c)) /\ forall c, infer_format false [] [] (FMatch e [(PChar c, f)]) = IPanic.
Proof. exists (EAsChar (EU B8 65)), (FTuple []). split; [reflexivity|]. split; [exists 65%N; vm_compute; reflexivity|reflexivity]. Qed.
(** Having a type does not prevent a panic: arithmetic on two integers with an
    explicit sign. *)
Theorem C46_panic_refuted : exists f T, accepted [] f T /\ outcome_of [] f [] = Some RPanic.
Proof.
  exists (FCompute (EArith AAdd (ENumeric (NConst (TC 1 (Concrete (MR true B8))))) (ENumeric (NConst (TC 1 (Concrete (MR true B8))))))), (TSigned B8).
  split; [eexists; split; vm_compute; reflexivity|vm_compute; reflexivity].
Qed.

(** ** C47 *)

(** Unifying two types gives the least type above both, and fails exactly when no
    type is above both. ([wf_type] holds of every type: it says that the
    alternatives of a union are kept sorted by name.) *)
Theorem C47_least : forall a b, wf_type a -> wf_type b ->
  (forall r, unify a b = Some r -> wf_type r /\ sub a r /\ sub b r /\ forall x, sub a x -> sub b x -> sub r x) /\
  (unify a b = None -> forall x, ~ (sub a x /\ sub b x)).
Proof.
  intros a b Wa Wb. split.
  - intros r U. destruct (unify_ub a b r Wa Wb U) as [A B]. split; [eapply unify_wf; [| |exact U]; assumption|]. split; [exact A|]. split; [exact B|].
    intros x Sa Sb. destruct (unify_least a b x Wa Wb Sa Sb) as (r' & U' & S). congruence.
  - intros U x [Sa Sb]. destruct (unify_least a b x Wa Wb Sa Sb) as (r' & U' & S). congruence.
Qed.
(** That order is one. *)
Theorem C47_order : (forall a, wf_type a -> sub a a) /\ (forall a b c, sub a b -> sub b c -> sub a c) /\
  (forall a b, wf_type a -> wf_type b -> sub a b -> sub b a -> a = b).
Proof. split; [exact sub_refl|split; [exact sub_trans|exact sub_antisym]]. Qed.
(** A value of a type has every type above it. *)
Theorem C47_values : forall exact a b c v, unify a b = Some c -> has_type exact v a \/ has_type exact v b -> has_type exact v c.
Proof. intros exact a b c v. apply ht_unify. Qed.
(** The type of alternatives does not depend on their order, nor whether they have
    one; the same for the elements of a sequence and the branches of a match. *)
Theorem C47_permuted : forall careful sigs G fs fs' ts T,
  Forall2 (fun f t => infer_format careful sigs G f = IOk t /\ wf_type t) fs ts -> Permutation fs fs' ->
  (infer_format careful sigs G (FUnion fs) = IOk T <-> infer_format careful sigs G (FUnion fs') = IOk T) /\
  (infer_format careful sigs G (FSequence fs) = IOk T <-> infer_format careful sigs G (FSequence fs') = IOk T).
Proof. exact union_permuted. Qed.

(** A length, that many bytes passed to a level that matches on each, in a record. *)
Definition typed_module : list (item * list vtype) :=
  [(Item [1%N] [] (FRepeatCount (EVar 1%N) (FMap any_byte (ELambda 9%N (EMatch (EVar 9%N) [(PU B8 0, EVariant 20%N (ETuple [])); (PBinding 8%N, EVariant 21%N (EVar 8%N))])))),
    [TBase (TU B8)])].
Definition typed_format : format :=
  FLetFormat any_byte 1%N (FLetFormat (FItemVar 0 [EVar 1%N] []) 2%N (FCompute (ERecord [(1%N, EVar 1%N); (2%N, EVar 2%N)]))).
Example C46_nonvacuous :
  Forall (fun d => forallb ground (snd d) = true) typed_module /\
  (let ok g := (declared_node g && typed_node g)%bool = true in module_wide ok (map fst typed_module) /\ everywhere ok typed_format) /\
  accepted typed_module typed_format (TRecord [(1%N, TBase (TU B8)); (2%N, TSeq (TUnion [(20%N, TTuple []); (21%N, TBase (TU B8))]))]) /\
  exists v c, outcome_of (map fst typed_module) typed_format [2; 0; 7; 9]%N = Some (ROk v c []) /\
    erase v = VRecord [(1%N, VU B8 2); (2%N, VSeq (Strict [VVariant 20%N (VTuple []); VVariant 21%N (VU B8 7)]))].
Proof.
  split; [repeat constructor|]. split.
  { split; [intros [|k] it H; cbn in H; [|destruct k; discriminate]; injection H as <-|]; intros g Hg; cbn in Hg; repeat (destruct Hg as [<-|Hg]; [reflexivity|]); contradiction. }
  split; [eexists; split; vm_compute; reflexivity|]. eexists _, _. split; vm_compute; reflexivity.
Qed.
Example C46_careful_nonvacuous : exists sigs T, define_all true [] typed_module = Some sigs /\ infer_format true sigs [] typed_format = IOk T.
Proof. eexists _, _. split; vm_compute; reflexivity. Qed.
Example C47_nonvacuous :
  let a := TUnion [(1%N, TSeq TAny); (3%N, TBase (TU B8))] in
  let b := TUnion [(1%N, TSeq (TBase TBool)); (2%N, TNumericHole)] in
  wf_type a /\ wf_type b /\ unify a b = Some (TUnion [(1%N, TSeq (TBase TBool)); (2%N, TNumericHole); (3%N, TBase (TU B8))]) /\
  unify a (TUnion [(3%N, TBase TBool)]) = None.
Proof. repeat split; repeat constructor. Qed.
Example C47_permuted_nonvacuous :
  let fs := [FVariant 2%N any_byte; FVariant 1%N FPos; FVariant 1%N any_byte] in
  (exists ts, Forall2 (fun f t => infer_format false [] [] f = IOk t /\ wf_type t) fs ts) /\
  infer_format false [] [] (FUnion fs) = IOk (TUnion [(1%N, TBase (TU B8)); (2%N, TBase (TU B8))]).
Proof. split; [|reflexivity]. eexists. repeat constructor. Qed.

Print Assumptions C46_typed_partial.
Print Assumptions C46_exact_partial.
Print Assumptions C46_careful_partial.
Print Assumptions C46_careful_agrees.
Print Assumptions C46_argument_refuted.
Print Assumptions C46_position_refuted.
Print Assumptions C46_range_refuted.
Print Assumptions C46_hint_refuted.
Print Assumptions C46_accumulate_refuted.
Print Assumptions C46_char_pattern_refuted.
Print Assumptions C46_panic_refuted.
Print Assumptions C47_least.
Print Assumptions C47_order.
Print Assumptions C47_values.
Print Assumptions C47_permuted.
