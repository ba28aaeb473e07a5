(** Properties C29 (decoding terminates) and C30 (bounded repetition). *)
From Verif Require ByteSetModel HuffmanModel.
From Verif Require Import Base BoundsModel BoundsProofs DataModel NumericModel ValueModel ValueProofs ValueProps FormatModel MatchTreeModel
  DecoderModel DecoderProofs DecoderProps FormatSpec FormatInd CompileProofs SoundProofs MatchBoundsProofs FormatProps TermProofs
  LookaheadProps.
Open Scope nat_scope.

Section Props.
Context (bld : fmodule -> list format -> next -> outcome (option mtree)).
Context (eqb : next -> next -> bool) (Heqb : forall a b, eqb a b = true -> a = b) (m : fmodule).

(** ** C29 *)

(** Decoding with a compiled format terminates on every input: there is a bound on
    the recursion depth and on the number of iterations of every loop such that
    the result is a value, an error or a panic. The items of the module only use
    earlier ones ([ordered]). Missing: tolerated failures and bit operations in
    counts ([plain]); the bodies of loops with a stopping condition must also be
    non-nullable, which the compiler does not check ([steady]); both refuted below. *)
Theorem C29_terminates_partial : forall f fuel P input,
  ordered m -> module_wide plain m -> everywhere plain f -> module_wide (steady m) m -> everywhere (steady m) f ->
  compile_program bld eqb m fuel f = Some (COk P) ->
  exists pfuel, run bld P pfuel (rc_new input) <> RFuel.
Proof.
  intros f fuel P input HO HM Hf HS Hsf HP.
  destruct (compile_program_ok bld eqb Heqb m fuel f P HP) as (Call & HL & d & Hd & HC).
  unfold run. destruct P as [|d0 P']; [discriminate|]. cbn in Hd. injection Hd as ->.
  eapply (terminates bld (d :: P') m Call HL) with (f := f) (n := NEmpty); auto.
  - intros k it Hk g Hg. apply plain_ok. eapply HM; eauto.
  - intros g Hg. apply plain_ok. auto.
  - exists SEmpty. split; [constructor|apply dyn_empty].
  - unfold in_range, rc_new. cbn. lia.
Qed.
(** A repetition that the compiler accepts makes at most as many iterations as
    there are bytes. *)
Theorem C29_iterations_partial : forall f fuel P pfuel input v c' es,
  module_wide plain m -> everywhere plain f ->
  compile_program bld eqb m fuel (FRepeat f) = Some (COk P) ->
  run bld P pfuel (rc_new input) = ROk v c' es ->
  exists vs, v = VSeq (Strict vs) /\ length vs <= roff c' /\ roff c' <= length input.
Proof.
  intros f fuel P pfuel input v c' es HM Hf HP Hr.
  pose proof (C25_belongs_partial bld eqb Heqb m _ _ _ _ _ _ _ _ HP Hr) as HS.
  destruct (compile_program_ok bld eqb Heqb m fuel _ P HP) as (Call & HL & d & Hd & HC). inversion HC; subst.
  assert (Ha : radv (rc_new input) (run bld P pfuel (rc_new input))).
  { unfold run. destruct P; [exact I|]. apply parse_adv. unfold in_range, rc_new; cbn; lia. }
  rewrite Hr in Ha. destruct Ha as (_ & _ & Ha). cbn in Ha. inversion HS; subst. exists vs. split; [reflexivity|]. split; [|exact Ha].
  match goal with H : is_nullable _ _ = _, C : Chain _ _ _ _ _ |- _ => rename H into Hn0; rename C into HCh end.
  unfold is_nullable in Hn0. destruct (match_bounds (item_bounds m) f) as [b|] eqn:Eb; [|discriminate].
  cbn in Hn0. injection Hn0 as Hn0. apply N.eqb_neq in Hn0.
  apply (chain_total _ _ _ _ _ b) in HCh; [destruct HCh as (_ & HCh & _)|].
  - unfold len in HCh. assert (N.of_nat (length vs) <= bmin b * N.of_nat (length vs))%N; [|lia].
    rewrite <- (N.mul_1_l (N.of_nat (length vs))) at 1. apply N.mul_le_mono_r. lia.
  - intros a i j v0 Hin HSa. apply repeat_spec in Hin. subst a. rewrite <- Eb. eapply bounds_sound; eauto.
    + intros k it Hk g Hg. apply plain_ok. eapply HM; eauto.
    + apply dyn_empty.
    + intros g Hg. apply plain_ok. auto.
Qed.

(** ** C30 *)

(** What is decoded by a bounded repetition is made of at least [min] and at most
    [max] elements. Missing: that the decoder takes as many as there are; in fact
    it takes none or [max]. *)
Theorem C30_count_partial : forall e1 e2 f fuel P pfuel input v c' es,
  compile_program bld eqb m fuel (FRepeatBetween e1 e2 f) = Some (COk P) ->
  run bld P pfuel (rc_new input) = ROk v c' es ->
  exists min max n vs, eval_usize e1 (@SEmpty format) = Val min /\ eval_usize e2 (@SEmpty format) = Val max /\
    v = VSeq (Strict vs) /\ length vs = n /\ (min <= N.of_nat n <= max)%N /\
    Chain (fun f i j v => Sem m false SEmpty f input i j v) (repeat f n) 0 (roff c') vs.
Proof.
  intros e1 e2 f fuel P pfuel input v c' es HP Hr.
  pose proof (C25_belongs_partial bld eqb Heqb m _ _ _ _ _ _ _ _ HP Hr) as HS. inversion HS; subst.
  match goal with C : Chain _ _ _ _ _ |- _ => pose proof (Chain_repeat_count _ _ _ _ _ _ C) end.
  exists n1, n2, n, vs. auto 10.
Qed.
Lemma between_all p (s : scope decoder) (d : decoder) t mn mx c0 fuel : forall len c vs c' es,
  pbetween p s d t mn mx c0 len fuel c = ROk vs c' es -> (N.of_nat len <= mx)%N ->
  vs = [] /\ tree_matches t c0 = Some 0 \/ N.of_nat (len + length vs) = mx.
Proof.
  induction fuel as [|fuel IH]; intros len c vs c' es H Hl; cbn [pbetween] in H; [discriminate|].
  destruct (tree_matches t c0) as [i|] eqn:Et; [|discriminate].
  destruct (Nat.eqb_spec i 0) as [->|Hi]; cbn [orb] in H.
  - destruct (N.ltb _ _); [discriminate|]. injection H as <- <- <-. auto.
  - destruct (N.eqb_spec (N.of_nat len) mx) as [E|E].
    + destruct (N.ltb _ _); [discriminate|]. injection H as <- <- <-. right. cbn. lia.
    + apply rbind_ok in H as (v & c1 & e1 & e2 & H1 & H2 & ->). apply rmap_ok in H2 as (ws & H2 & ->).
      apply IH in H2; [|lia]. destruct H2 as [[_ H2]|H2]; [rewrite H2 in Et; congruence|]. right. cbn [length]. lia.
Qed.
(** What it really does: nothing, or exactly [max] elements. *)
Theorem C30_none_or_max : forall e1 e2 f fuel P pfuel input vs c' es,
  compile_program bld eqb m fuel (FRepeatBetween e1 e2 f) = Some (COk P) ->
  run bld P pfuel (rc_new input) = ROk (VSeq (Strict vs)) c' es ->
  exists max, eval_usize e2 (@SEmpty format) = Val max /\ (vs = [] \/ N.of_nat (length vs) = max).
Proof.
  intros e1 e2 f fuel P pfuel input vs c' es HP Hr.
  destruct (compile_program_ok bld eqb Heqb m fuel _ P HP) as (Call & HL & d & Hd & HC). inversion HC; subst.
  unfold run in Hr. destruct P as [|d' P']; [discriminate|]. cbn in Hd. injection Hd as ->.
  destruct pfuel as [|pfuel]; [discriminate|]. cbn [parse] in Hr.
  apply rlet_ok in Hr as (mn & Emn & Hr). apply rlet_ok in Hr as (mx & Emx & Hr). apply rmap_ok in Hr as (ws & Hr & Ev). injection Ev as <-.
  exists mx. split; [rewrite <- (srel_usize (drel bld) (@SEmpty decoder) SEmpty); [exact Emx|constructor]|].
  apply between_all in Hr; [|lia]. cbn in Hr. destruct Hr as [[? _]|Hr]; auto.
Qed.
End Props.
Print Assumptions C29_terminates_partial.
Print Assumptions C29_iterations_partial.
Print Assumptions C30_count_partial.
Print Assumptions C30_none_or_max.

(** ** Refutations *)

(** The compiled format does not terminate on the input, whatever the fuel. *)
Definition diverges (f : format) (input : list N) : Prop := exists P,
  compile_program (build_exec 50) no_eqb [] 10 f = Some (COk P) /\ forall pfuel, run (build_exec 50) P pfuel (rc_new input) = RFuel.
(** A loop with a stopping condition over a body that consumes nothing compiles. *)
Definition until_never : format := FRepeatUntilLast (ELambda 1%N (EBool false)) (FTuple []).
Theorem C29_until_refuted : exists f input, everywhere plain f /\ diverges f input.
Proof.
  exists until_never, [1; 2]%N. split; [intros g [<-|[<-|[]]]; exact I|].
  exists [DRepeatUntilLast (ELambda 1%N (EBool false)) (DTuple [])]. split; [vm_compute; reflexivity|].
  intros [|pfuel]; [reflexivity|]. cbn [run parse].
  set (p := parse _ _ _).
  assert (H : forall k acc c, puntil_done p SEmpty (DTuple []) (fun _ v => lambda_bool (ELambda 1%N (EBool false)) (@SEmpty decoder) v) acc k c = RFuel).
  { induction k as [|k IH]; intros acc c; [reflexivity|]. cbn [puntil_done]. unfold p at 1. destruct pfuel as [|pfuel]; [reflexivity|].
    cbn [parse map pseq rmap rbind]. replace (lambda_bool _ _ _) with (Val false) by reflexivity. cbn [rlet]. fold p. now rewrite IH. }
  now rewrite H.
Qed.
(** A repetition whose body tolerates the failure of (0, 1): its static minimum is
    two bytes, so that the compiler accepts it. *)
Definition permit_body : format := FPermit (FTuple [byte_is 0; byte_is 1]) (EU B8 0).
Definition permit_prog : program :=
  Eval vm_compute in match compile_program (build_exec 50) no_eqb [] 10 (FRepeat permit_body) with Some (COk P) => P | _ => [] end.
Theorem C29_permit_refuted : exists f input, is_nullable [] f = Val false /\ diverges (FRepeat f) input.
Proof.
  exists permit_body, [0; 2]%N. split; [reflexivity|].
  exists permit_prog. split; [vm_compute; reflexivity|].
  destruct permit_prog as [|[] ?] eqn:EP; try discriminate. injection EP as <- <- <-.
  intros [|pfuel]; [reflexivity|]. cbn [run]. cbn [parse].
  match goal with |- rmap _ (pwhile _ _ ?d ?t _ _) = _ => set (t0 := t); set (d0 := d) end.
  set (P0 := [DWhile t0 d0]).
  assert (Hb : forall k, rle (parse (build_exec 50) P0 k SEmpty d0 (rc_new [0; 2]%N)) (parse (build_exec 50) P0 5 SEmpty d0 (rc_new [0; 2]%N))).
  { intros k. destruct (Nat.le_ge_cases k 5) as [L|L]; [now apply parse_le|]. right. apply parse_mono; [exact L|]. vm_compute. discriminate. }
  assert (H : forall k, pwhile (parse (build_exec 50) P0 pfuel) SEmpty d0 t0 k (rc_new [0; 2]%N) = RFuel).
  { induction k as [|k IH]; [reflexivity|]. cbn [pwhile].
    replace (tree_matches t0 (rc_new [0; 2]%N)) with (Some 0) by (vm_compute; reflexivity).
    destruct (Hb pfuel) as [->| ->]; [reflexivity|].
    match goal with |- rbind ?r _ = _ => let x := eval vm_compute in r in replace r with x by (vm_compute; reflexivity) end.
    cbn [rbind]. fold (rc_new [0; 2]%N). change (RC [0; 2]%N 0) with (rc_new [0; 2]%N). now rewrite IH. }
  now rewrite H.
Qed.
(** Up to two zeros then a one: a single zero is not enough. *)
Theorem C30_refuted : exists f input v n1 n2 g,
  f = FTuple [FRepeatBetween (EU B8 n1) (EU B8 n2) g; byte_is 1] /\
  Sem [] false SEmpty f input 0 (length input) v /\ go f input = Some (RErr (KUnexpected 1 (ByteSetModel.insert ByteSetModel.empty 0) 2)).
Proof.
  exists (FTuple [FRepeatBetween (EU B8 0) (EU B8 2) (byte_is 0); byte_is 1]), [0; 1]%N.
  eexists _, 0%N, 2%N, (byte_is 0). split; [reflexivity|]. split; [|vm_compute; reflexivity].
  apply SemTuple. eapply ChCons. { eapply (SemRepeatBetween _ _ _ _ _ _ _ _ 0%N 2%N 1); [reflexivity|reflexivity|reflexivity|lia|].
    eapply ChCons; [apply SemByte; reflexivity|constructor]. }
  eapply ChCons; [apply SemByte; reflexivity|constructor].
Qed.
(** With equal bounds, a body that needs lookahead past its end makes the compiler
    panic. *)
Theorem C30_compile_refuted : exists n g,
  compile_program (build_exec 50) no_eqb [] 10 (FRepeatBetween (EU B8 n) (EU B8 n) g) = Some CPanic /\
  compile_program (build_exec 50) no_eqb [] 10 (FTuple [g; byte_is 2]) <> Some CPanic.
Proof.
  exists 1%N, (FUnion [byte_is 0; FTuple [byte_is 0; byte_is 1]]). split; [vm_compute; reflexivity|vm_compute; discriminate].
Qed.
Print Assumptions C30_compile_refuted.
Print Assumptions C29_until_refuted.
Print Assumptions C29_permit_refuted.
Print Assumptions C30_refuted.

(** ** The hypotheses are met *)

Definition term_module : fmodule := [Item [] [] (FRepeat (byte_is 0)); Item [] [] (FTuple [FItemVar 0 [] []; byte_not 0])].
Definition term_format : format := FRepeat (FTuple [FItemVar 1 [] []; byte_is 9]).
Example C29_nonvacuous :
  ordered term_module /\ module_wide plain term_module /\ everywhere plain term_format /\
  module_wide (steady term_module) term_module /\ everywhere (steady term_module) term_format /\
  exists P v, compile_program (build_exec 50) no_eqb term_module 10 term_format = Some (COk P) /\
    run (build_exec 50) P 50 (rc_new [0; 0; 7; 9; 5; 9]%N) = ROk v (RC [0; 0; 7; 9; 5; 9]%N 6) [].
Proof.
  split. { intros [|[|k]] it H; cbn in H; [| |destruct k; discriminate]; injection H as <-; intros g Hg; cbn in Hg;
    repeat (destruct Hg as [<-|Hg]; [cbn; (exact I || lia)|]); contradiction. }
  split. { intros [|[|k]] it H; cbn in H; [| |destruct k; discriminate]; injection H as <-; intros g Hg; cbn in Hg;
    repeat (destruct Hg as [<-|Hg]; [exact I|]); contradiction. }
  split. { intros g Hg; cbn in Hg; repeat (destruct Hg as [<-|Hg]; [exact I|]); contradiction. }
  split. { intros [|[|k]] it H; cbn in H; [| |destruct k; discriminate]; injection H as <-; intros g Hg; cbn in Hg;
    repeat (destruct Hg as [<-|Hg]; [exact I|]); contradiction. }
  split. { intros g Hg; cbn in Hg; repeat (destruct Hg as [<-|Hg]; [exact I|]); contradiction. }
  eexists _, _. split; [vm_compute; reflexivity|vm_compute; reflexivity].
Qed.
(** Two or three zeros then a one, with three. *)
Example C30_nonvacuous : exists v, go (FTuple [FRepeatBetween (EU B8 2) (EU B8 3) (byte_is 0); byte_is 1]) [0; 0; 0; 1]%N = Some (ROk v (RC [0; 0; 0; 1]%N 4) []).
Proof. eexists. vm_compute. reflexivity. Qed.
