(** Properties that relate compiled decoders to the formats they come from:
    C22 (bytes consumed within the static bounds), C25 (what is accepted belongs
    to the format). *)
From Verif Require ByteSetModel HuffmanModel.
From Verif Require Import Base BoundsModel BoundsProofs DataModel NumericModel ValueModel ValueProofs ValueProps
  FormatModel MatchTreeModel DecoderModel DecoderProofs DecoderProps FormatSpec FormatInd CompileProofs SoundProofs MatchBoundsProofs.
Open Scope nat_scope.

Section Props.
(** Any construction of lookahead trees; any equality of continuations that only
    identifies equal ones. *)
Context (bld : fmodule -> list format -> next -> outcome (option mtree)).
Context (eqb : next -> next -> bool) (Heqb : forall a b, eqb a b = true -> a = b) (m : fmodule).

(** ** C25 *)

(** What a compiled format accepts is described by the format, with the value
    returned ([FormatSpec.Sem], not strict). Missing: in that description a
    negative peek imposes no condition, and a tolerated failure need not come from
    a failure (see NegativeProps for these). *)
Theorem C25_belongs_partial : forall f fuel P pfuel input v c' es,
  compile_program bld eqb m fuel f = Some (COk P) ->
  run bld P pfuel (rc_new input) = ROk v c' es ->
  Sem m false SEmpty f input 0 (roff c') v.
Proof.
  intros f fuel P pfuel input v c' es HP Hr.
  destruct (compile_program_ok bld eqb Heqb m fuel f P HP) as (Call & HL & d & Hd & HC).
  unfold run in Hr. destruct P as [|d0 P']; [discriminate|]. cbn in Hd. injection Hd as ->.
  eapply (sound bld (d :: P') m Call HL pfuel m Call f NEmpty d SEmpty SEmpty (rc_new input)); eauto.
  - constructor.
  - unfold in_range, rc_new. cbn. lia.
Qed.

(** ** C22 *)

(** No tolerated failure, and no bit operation in counts and sizes. *)
Definition plain (g : format) : Prop :=
  match g with
  | FPermit _ _ => False
  | FRepeatCount e _ | FSlice e _ => no_bitops e
  | FRepeatBetween e1 e2 _ => no_bitops e1 /\ no_bitops e2
  | _ => True
  end.
Lemma no_bitops_trusted e : no_bitops e -> trusted e.
Proof.
  intros He D s n b Hn Hb.
  assert (Hv : evaluates_to e s n).
  { unfold eval_usize, eval_value, evaluates_to in *. destruct (eval e s) as [v|]; [|discriminate]. exists v. auto. }
  destruct (C06_arithmetic e s n b He Hv Hb) as [H1 H2]. split; [exact H1|].
  destruct (bmax b) as [mx|]; [now apply H2|exact I].
Qed.
Lemma plain_ok g : plain g -> bounded_ok g.
Proof. destruct g; cbn; auto using no_bitops_trusted. intros [? ?]; auto using no_bitops_trusted. Qed.

(** What a format describes has a length within the static bounds, in any scope
    whose formats were bound by dynamic formats. Missing: tolerated failures and
    bit operations in counts (both refuted below). *)
Theorem C22_described_partial : forall strict s f buf i j v b,
  module_wide plain m -> everywhere plain f ->
  (forall x g, get_decoder x s = Some g -> exists l, huffman_format l = Val g) ->
  Sem m strict s f buf i j v -> match_bounds (item_bounds m) f = Val b ->
  i <= j /\ (bmin b <= N.of_nat (j - i))%N /\ (forall n, bmax b = Some n -> (N.of_nat (j - i) <= n)%N).
Proof.
  intros strict s f buf i j v b HM Hf Hs H Hb.
  destruct (bounds_sound m strict) with (s := s) (f := f) (buf := buf) (i := i) (j := j) (v := v) as [L F]; auto.
  - intros k it Hk g Hg. apply plain_ok. eapply HM; eauto.
  - intros g Hg. apply plain_ok. auto.
  - split; [exact L|]. destruct (F b Hb) as [F1 F2]. split; [exact F1|]. intros n En. now rewrite En in F2.
Qed.
(** A compiled format consumes a number of bytes within its static bounds. *)
Theorem C22_consumed_partial : forall f fuel P pfuel input v c' es b,
  module_wide plain m -> everywhere plain f ->
  compile_program bld eqb m fuel f = Some (COk P) ->
  run bld P pfuel (rc_new input) = ROk v c' es ->
  match_bounds (item_bounds m) f = Val b ->
  (bmin b <= N.of_nat (roff c'))%N /\ (forall n, bmax b = Some n -> (N.of_nat (roff c') <= n)%N).
Proof.
  intros f fuel P pfuel input v c' es b HM Hf HP Hr Hb.
  apply (C22_described_partial false SEmpty f input 0 (roff c') v b) in HM; auto.
  - rewrite Nat.sub_0_r in HM. tauto.
  - discriminate.
  - eapply C25_belongs_partial; eauto.
Qed.
End Props.
Print Assumptions C25_belongs_partial.
Print Assumptions C22_described_partial.
Print Assumptions C22_consumed_partial.

(** The run of a compiled format that ends outside of its static bounds. *)
Definition out_of_bounds (f : format) (input : list N) : Prop :=
  exists v c' b, go f input = Some (ROk v c' []) /\ match_bounds (item_bounds []) f = Val b /\ bcontains b (N.of_nat (roff c')) = false.
(** Two bytes, or a tolerated failure: nothing consumed. *)
Theorem C22_permit_refuted : exists f input v c' es b, go f input = Some (ROk v c' es) /\
  match_bounds (item_bounds []) f = Val b /\ bcontains b (N.of_nat (roff c')) = false.
Proof.
  exists (FPermit (FTuple [any_byte; any_byte]) (EU B8 0)), [1]%N.
  eexists _, _, _, _. split; [vm_compute; reflexivity|split; vm_compute; reflexivity].
Qed.
(** A slice of [5 & x] bytes, where x is a byte read before. *)
Theorem C22_bitops_refuted : exists f input, out_of_bounds f input.
Proof.
  exists (FLetFormat any_byte 1%N (FSlice (EArith ABitAnd (EU B8 5) (EAs B8 (EVar 1%N))) FPos)), [5; 0; 0; 0; 0; 0]%N.
  eexists _, _, _. split; [vm_compute; reflexivity|split; vm_compute; reflexivity].
Qed.
Print Assumptions C22_permit_refuted.
Print Assumptions C22_bitops_refuted.

(** A length-prefixed array of 16-bit numbers, then zeros, then a different byte. *)
Definition sample : format :=
  FLetFormat any_byte 1%N (FTuple [FRepeatCount (EVar 1%N) (FTuple [any_byte; any_byte]); FRepeat (byte_is 0); byte_not 0]).
Example C22_nonvacuous : everywhere plain sample /\ match_bounds (item_bounds []) sample = Val (bat_least 2) /\
  exists v c', go sample [1; 2; 3; 0; 0; 9; 9]%N = Some (ROk v c' []) /\ roff c' = 6.
Proof.
  split; [|split; [reflexivity|]].
  - intros g Hg. cbn in Hg. repeat destruct Hg as [<-|Hg]; cbn; auto. destruct Hg.
  - eexists _, _. split; vm_compute; reflexivity.
Qed.
