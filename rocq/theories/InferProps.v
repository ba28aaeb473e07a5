(** C62: types inferred by constraints are types of the values that are decoded. *)
From Verif Require ByteSetModel.
From Verif Require Import Base BoundsModel DataModel NumericModel BaseSetModel BaseSetSpec UnifyModel UnifyAlias UnifyComplete UnifyRequests UnifyProps ReifyModel ReifySpec ReifyProps
  TypeModel ValueModel ValueProofs ValueWfProofs FormatModel MatchTreeModel DecoderModel FormatSpec MatchBoundsProofs UnifySpec UnifyBase InferModel InferSpec.
From Verif Require Import TypeSpec FormatProps ExactProps InferSafe InferWf InferProofs.
From Verif Require Import ReifySpec.
From Verif Require BaseSetProps.
Open Scope nat_scope.

(** ** What the engine answers *)

Lemma numrep_sound s st v p : wf st -> solves s st -> get_var_numrep st v = Some (Concrete p) -> s v = GInt p.
Proof.
  intros W [S1 S2] E. unfold get_var_numrep in E. destruct (canonical st v) as [c|] eqn:Ec; [|discriminate E].
  destruct (wf_canon st v W (canon_lt_wf _ _ _ W Ec)) as (c' & E1 & E2 & _). rewrite Ec in E1. injection E1 as <-. rewrite (S1 _ _ Ec).
  destruct (get_cons st c) as [[|id|k]|] eqn:Ek; try discriminate E. pose proof (S2 _ _ E2 Ek) as A. cbn [allowed] in A. pose proof (w_con _ W _ _ Ek) as PC.
  assert (B : forall b, option_map Concrete (prim_of_base b) = Some (Concrete p) -> ground_base b = GInt p) by (intros [|w|]; cbn; intros X; try discriminate X; injection X as <-; reflexivity).
  destruct k as [t|bs|pj|is]; try discriminate E.
  - destruct t; try discriminate E; cbn in A; [now rewrite A; apply B|]. injection E as <-. exact A.
  - destruct A as (b & Hb & ->). destruct bs as [b0|u]; [cbn in Hb; subst b; now apply B|].
    destruct (uint_as_singleton u) as [b0|] eqn:Es; [|destruct (rs_is_empty u); discriminate E].
    apply (BaseSetProps.C59_singleton u PC) in Es as [Es _]. apply Es in Hb. subst b. now apply B.
  - destruct A as (q & Hq & ->). destruct is as [q0|z]; [cbn in Hq; congruence|].
    destruct (prim_as_singleton z) as [q0|] eqn:Es; [|destruct (rs_is_empty z); discriminate E]. injection E as <-. f_equal. apply (proj1 (BaseSetProps.C59_singleton_int z PC q0) Es). exact Hq.
Qed.

Lemma engine_sound ho n s rs v p : Forall (meets s) rs -> proper_history 0 (rev rs) -> engine ho n rs v = Some (Concrete p) -> s v = GInt p.
Proof.
  intros M P E. unfold engine in E. destruct (perform_all ho n (rev rs) empty_state) as [st []| | |] eqn:Ep; try discriminate E.
  assert (M' : Forall (meets s) (rev rs)) by (rewrite Forall_forall in *; intros r Hr; apply M, in_rev, Hr).
  apply (numrep_sound s st v p); [apply (met_pre _ _ _ _ _ P Ep M')|apply (proj1 (C60_exact_partial ho n _ st P Ep s) M')|exact E].
Qed.

(** ** The reported type *)

Lemma plain_type exact v : forall a, has_type exact v (vt (plain a)) -> has_type exact v (into_vtype a).
Proof.
  assert (NUM : forall a, is_numeric (vt (plain a)) = true -> vt (plain a) = into_vtype a) by (intros [] X; try discriminate X; reflexivity).
  induction v using value_ind'; intros A0 HT; cbn [has_type] in *; auto.
  all: try (destruct HT as [HT|[E HT]]; [|right; split; [exact E|rewrite <- NUM by exact HT; exact HT]]; left).
  - destruct A0 as [| | | |[[] ?]| | | | | |]; try discriminate HT; exact HT.
  - destruct A0 as [| | | |[[] ?]| | | | | |]; try discriminate HT; exact HT.
  - destruct A0 as [| | | |[[] ?]| | | | | |]; try discriminate HT; exact HT.
  - destruct HT as [E HT]. split; [exact E|]. rewrite <- NUM; exact HT.
  - destruct HT as (r & E & HT). exists r. split; [exact E|]. rewrite <- NUM; [exact HT|]. rewrite HT. destruct r as [[] ?]; reflexivity.
  - destruct A0 as [| | | |[[] ?]| | | | | |]; try discriminate HT; exact HT.
  - destruct HT as (u & HT). destruct A0 as [| | | |[[] ?]| | | | | |]; try discriminate HT. eexists. reflexivity.
  - destruct HT as (E & u & HT & Hu). split; [exact E|]. destruct A0 as [| | | |[[] ?]| | | | | |]; try discriminate HT. injection HT as <-. eexists. split; [reflexivity|]. rewrite <- NUM; exact Hu.
  - destruct HT as (u & HT). destruct A0 as [| | | |[[] ?]| | | | | |]; try discriminate HT. eexists. reflexivity.
  - destruct HT as (u & HT & Hu). destruct A0 as [| | | |[[] ?]| | | | | |]; try discriminate HT. injection HT as <-. eexists. split; [reflexivity|]. auto.
  - destruct HT as (u & HT & Hu). destruct A0 as [| | | |[[] ?]|ts0| | | | |]; try discriminate HT. injection HT as <-. eexists. split; [reflexivity|].
    revert ts0 Hu. induction H as [|v vs Hv _ IH]; intros [|t ts] Hu; cbn in Hu |- *; try tauto. destruct Hu as [H1 H2]. split; [apply Hv, H1|apply IH, H2].
  - destruct HT as (u & HT & Hu). destruct A0 as [| | | |[[] ?]| |fs0| | | |]; try discriminate HT. injection HT as <-. eexists. split; [reflexivity|].
    revert fs0 Hu. induction H as [|[k v] vs Hv _ IH]; intros [|[l t] ts] Hu; cbn in Hu |- *; try tauto. destruct Hu as [[H1 H1'] H2]. split; [split; [exact H1|apply Hv, H1']|apply IH, H2].
  - destruct HT as (bs & u & HT & Ha & Hu). destruct A0 as [| | | |[[] ?]| | |bs0| | |]; try discriminate HT; injection HT as <-; [discriminate Ha|]. eexists. 
    assert (K : exists t, u = vt (plain t) /\ assoc l (map (fun f : label * avt => let (l, t) := f in (l, into_vtype t)) bs0) = Some (into_vtype t)).
    { clear - Ha. induction bs0 as [|[k t] bs IH]; cbn in Ha |- *; [discriminate Ha|]. destruct (N.eqb l k); [injection Ha as <-; eauto|auto]. }
    destruct K as (t & -> & Kt). exists (into_vtype t). split; [reflexivity|]. auto.
  - destruct HT as (u & HT & Hu). destruct A0 as [| | | |[[] ?]| | | |t0 h| |]; try discriminate HT. injection HT as <-. eexists. split; [reflexivity|].
    induction H as [|v vs Hv _ IH]; cbn in Hu |- *; [exact I|]. destruct Hu as [H1 H2]. split; [apply Hv, H1|apply IH, H2].
  - destruct HT as (u & HT & Hu). destruct A0 as [| | | |[[] ?]| | | | | |]; try discriminate HT. injection HT as <-. eexists. split; [reflexivity|]. auto.
Qed.

(** ** C62 *)

Section Programs.
(** Any construction of lookahead trees; any equality of continuations that only
    identifies equal ones; any order of the engine's hash tables and any fuel. *)
Context (bld : fmodule -> list format -> next -> outcome (option mtree)).
Context (eqb : next -> next -> bool) (Heqb : forall a b, eqb a b = true -> a = b).
Context (ho : hash_order) (n depth : nat).

(** Whatever types the requests made for a format allow its variables to have, the
    format has the type of its variable by the rules of [InferSpec], and so do the
    items it calls. Missing: formats that are not tidy. *)
Theorem C62_rules_partial : forall ds f v rs s,
  tidy_module ds -> tidy_format ds f -> requests ho n depth ds f = Some (v, rs) -> Forall (meets s) rs ->
  exists L, ftype ds L [] [] f (s v) /\ module_types ds L.
Proof.
  intros ds f v rs s Hm Hf E M. unfold requests in E. destruct (gen_format _ _ _ _ _ _) as [[v' g]|] eqn:Eg; [|discriminate E]. injection E as -> <-.
  exists (LV s (lvls g)). eapply infer_rules; [intros; eapply engine_sound; eassumption| |exact Hf|exact Eg| |].
  - intros k it tys Hk. destruct (Hm _ _ _ Hk) as (H1 & H2 & H3). auto.
  - rewrite Forall_forall in *. intros r Hr. apply M. rewrite <- in_rev. exact Hr.
  - eapply infer_proper; [|exact Hf|exact Eg]. intros k it tys Hk. destruct (Hm _ _ _ Hk) as (H1 & H2 & H3). auto.
Qed.
(** Then what a compiled format decodes has that type. With [exact = true] integers
    have exactly the integer type said, if all integers are sized; otherwise they may
    have any integer type. *)
Theorem C62_assigned_partial : forall exact ds f v rs s fuel P pfuel input w c es,
  tidy_module ds -> tidy_format ds f -> (exact = true -> sized_module ds /\ sized_format f) ->
  requests ho n depth ds f = Some (v, rs) -> Forall (meets s) rs ->
  compile_program bld eqb (map fst ds) fuel f = Some (COk P) -> run bld P pfuel (rc_new input) = ROk w c es ->
  has_type exact w (vt (s v)).
Proof.
  intros exact ds f v rs s fuel P pfuel input w c es Hm Hf He E M HP Hr. destruct (C62_rules_partial ds f v rs s Hm Hf E M) as (L & HT & HM).
  pose proof (C25_belongs_partial bld eqb Heqb (map fst ds) f fuel P pfuel input w c es HP Hr) as HS.
  eapply (sem_safe exact ds false L HM); [|exact HS| |exact HT|].
  - intros k it Hk X. destruct (He X) as [H1 _]. exact (H1 _ _ Hk).
  - intros X. apply (He X).
  - split; [|intros x T g H; discriminate H]. intros x T w0 H. discriminate H.
Qed.
(** The type that is reported is one such type, unless the requests allow none. *)
Theorem C62_reported_partial : forall exact ds f v rs T fuel P pfuel input w c es,
  tidy_module ds -> tidy_format ds f -> (exact = true -> sized_module ds /\ sized_format f) ->
  requests ho n depth ds f = Some (v, rs) -> (exists s, Forall (meets s) rs) ->
  typecheck ho n depth ds f = Some (Some T) ->
  compile_program bld eqb (map fst ds) fuel f = Some (COk P) -> run bld P pfuel (rc_new input) = ROk w c es ->
  has_type exact w T.
Proof.
  intros exact ds f v rs T fuel P pfuel input w c es Hm Hf He E MS ET HP Hr. unfold typecheck in ET. rewrite E in ET.
  destruct (perform_all ho n rs empty_state) as [st []| | |] eqn:Ep; try discriminate ET. destruct (reify ho n st (UVar v)) as [a| | |] eqn:Er; try discriminate ET. injection ET as <-.
  assert (PH : proper_history 0 rs).
  { unfold requests in E. destruct (gen_format _ _ _ _ _ _) as [[v' g]|] eqn:Eg; [|discriminate E]. injection E as -> <-.
    eapply infer_proper; [|exact Hf|exact Eg]. intros k it tys Hk. destruct (Hm _ _ _ Hk) as (H1 & H2 & H3). auto. }
  destruct (C61_reported_together_partial ho n rs st PH Ep MS) as (s & M & K).
  assert (V : v < length (cons st)).
  { destruct MS as (s0 & M0). pose proof (met_pre _ _ _ _ _ PH Ep M0) as PR. destruct n as [|n']; [discriminate Er|]. cbn [reify] in Er. destruct (canonical st v) eqn:Ec; [|discriminate Er].
    exact (canon_lt_wf _ _ _ (p_wf _ _ PR) Ec). }
  apply plain_type. specialize (K ho n (UVar v) a V Er). cbn in K. rewrite <- K. eapply C62_assigned_partial; eassumption.
Qed.
End Programs.

(** If nothing is left to be resolved and every variable gets a type, the requests can
    be met and what is decoded has the type reported. *)
Theorem C62_checked_partial : forall bld eqb, (forall a b, eqb a b = true -> a = b) ->
  forall ho n depth exact ds f v rs st T fuel P pfuel input w c es,
  tidy_module ds -> tidy_format ds f -> (exact = true -> sized_module ds /\ sized_format f) ->
  requests ho n depth ds f = Some (v, rs) -> perform_all ho n rs empty_state = UOk st tt -> again st = false ->
  (forall x, x < length (cons st) -> exists a, reify ho n st (UVar x) = ReifyModel.ROk a) ->
  typecheck ho n depth ds f = Some (Some T) ->
  compile_program bld eqb (map fst ds) fuel f = Some (COk P) -> run bld P pfuel (rc_new input) = ROk w c es ->
  has_type exact w T.
Proof.
  intros bld eqb Heqb ho n depth exact ds f v rs st T fuel P pfuel input w c es Hm Hf He E Ep A AR. eapply C62_reported_partial; try eassumption.
  assert (PH : proper_history 0 rs).
  { unfold requests in E. destruct (gen_format _ _ _ _ _ _) as [[v' g]|] eqn:Eg; [|discriminate E]. injection E as -> <-.
    eapply infer_proper; [|exact Hf|exact Eg]. intros k it tys Hk. destruct (Hm _ _ _ Hk) as (H1 & H2 & H3). auto. }
  eexists. refine (C61_reported_meets_partial ho n rs st PH Ep A ho n (fun x => match reify ho n st (UVar x) with ReifyModel.ROk a => a | _ => ABool end) _).
  intros x Hx. destruct (AR x Hx) as [a ->]. reflexivity.
Qed.

(** ** Examples *)

(** A length, that many bytes passed to an item that matches on each, in a record. *)
Definition any_byte : format := FByte ByteSetModel.full.
Definition inferred_module : list (item * list vtype) :=
  [(Item [1%N] [] (FRepeatCount (EVar 1%N) (FMap any_byte (ELambda 9%N (EMatch (EVar 9%N) [(ValueModel.PU B8 0, EVariant 20%N (ETuple [])); (PBinding 8%N, EVariant 21%N (EVar 8%N))])))),
    [TBase (TU B8)])].
Definition inferred_format : format :=
  FLetFormat any_byte 1%N (FLetFormat (FItemVar 0 [EVar 1%N] []) 2%N (FCompute (ERecord [(1%N, EVar 1%N); (2%N, EVar 2%N)]))).
Lemma inferred_tidy : tidy_module inferred_module /\ tidy_format inferred_module inferred_format /\ sized_module inferred_module /\ sized_format inferred_format.
Proof.
  refine (conj _ (conj _ (conj _ _))).
  - intros [|k] it tys H; cbn in H; [|destruct k; discriminate]. injection H as <- <-. split; [reflexivity|]. split; [reflexivity|].
    intros g Hg; cbn in Hg; repeat (destruct Hg as [<-|Hg]; [reflexivity|]); contradiction.
  - intros g Hg; cbn in Hg; repeat (destruct Hg as [<-|Hg]; [reflexivity|]); contradiction.
  - intros [|k] it H; cbn in H; [|destruct k; discriminate]. injection H as <-. intros g Hg; cbn in Hg; repeat (destruct Hg as [<-|Hg]; [reflexivity|]); contradiction.
  - intros g Hg; cbn in Hg; repeat (destruct Hg as [<-|Hg]; [reflexivity|]); contradiction.
Qed.
Lemma all_reported ho n st :
  forallb (fun x => match reify ho n st (UVar x) with ReifyModel.ROk _ => true | _ => false end) (seq 0 (length (cons st))) = true ->
  forall x, x < length (cons st) -> exists a, reify ho n st (UVar x) = ReifyModel.ROk a.
Proof. intros H x Hx. rewrite forallb_forall in H. specialize (H x). rewrite in_seq in H. specialize (H ltac:(lia)). destruct reify; try discriminate H. eauto. Qed.
Example C62_nonvacuous :
  exists v rs st,
    requests in_order 60 5 inferred_module inferred_format = Some (v, rs) /\ length rs = 48 /\
    perform_all in_order 60 rs empty_state = UOk st tt /\ again st = false /\
    (forall x, x < length (cons st) -> exists a, reify in_order 60 st (UVar x) = ReifyModel.ROk a) /\
    typecheck in_order 60 5 inferred_module inferred_format =
      Some (Some (TRecord [(1%N, TBase (TU B8)); (2%N, TSeq (TUnion [(20%N, TTuple []); (21%N, TBase (TU B8))]))])) /\
    exists w c, outcome_of (map fst inferred_module) inferred_format [2; 0; 7; 9]%N = Some (ROk w c []) /\
      erase w = VRecord [(1%N, VU B8 2); (2%N, VSeq (Strict [VVariant 20%N (VTuple []); VVariant 21%N (VU B8 7)]))].
Proof.
  set (q := requests in_order 60 5 inferred_module inferred_format). set (v := match q with Some x => fst x | None => 0 end). set (rs := match q with Some x => snd x | None => [] end).
  set (st := match perform_all in_order 60 rs empty_state with UOk st _ => st | _ => empty_state end). exists v, rs, st.
  split; [vm_compute; reflexivity|]. split; [vm_compute; reflexivity|]. split; [vm_compute; reflexivity|]. split; [vm_compute; reflexivity|]. split.
  { apply all_reported. vm_compute. reflexivity. }
  split; [vm_compute; reflexivity|]. eexists _, _. split; vm_compute; reflexivity.
Qed.

(** ** Where it fails *)

(** What is reported for a format, and what it decodes. *)
Definition reports (ds : list (item * list vtype)) (f : format) (T : vtype) : Prop := typecheck in_order 60 5 ds f = Some (Some T).
Definition decodes (ds : list (item * list vtype)) (f : format) (input : list N) (w : value) : Prop :=
  exists c, outcome_of (map fst ds) f input = Some (ROk w c []).

(** The fields of a record are typed with the earlier fields in scope, but computed
    without them: [let a = true in {a: 1, b: a}] has type [{a: u8, b: u8}] and the value
    [{a: 1, b: true}]. *)
Theorem C62_record_refuted : exists f T w, reports [] f T /\ decodes [] f [] w /\ ~ has_type false w T.
Proof.
  exists (FLet 1%N (EBool true) (FCompute (ERecord [(1%N, EU B8 1); (2%N, EVar 1%N)]))). eexists _, _.
  split; [vm_compute; reflexivity|]. split; [eexists; vm_compute; reflexivity|]. cbn. intros (fs & E & H). injection E as <-. cbn in H. destruct H as (_ & (_ & H) & _). discriminate H.
Qed.
(** An item whose parameter is declared with an open type gets the type of its first
    use everywhere: here a pair of bytes is reported and the second is a boolean. *)
Theorem C62_any_refuted : exists it f T w, reports [(it, [TAny])] f T /\ decodes [(it, [TAny])] f [] w /\ ~ has_type false w T.
Proof.
  exists (Item [3%N] [] (FCompute (EVar 3%N))), (FTuple [FItemVar 0 [EU B8 1] []; FItemVar 0 [EBool true] []]). eexists _, _.
  split; [vm_compute; reflexivity|]. split; [eexists; vm_compute; reflexivity|]. cbn. intros (fs & E & H). injection E as <-. cbn in H. destruct H as (_ & H & _). discriminate H.
Qed.
(** The same with a parameter declared as a union: its variants have only to be among
    those of the argument. *)
Theorem C62_union_refuted : exists it t f T w, reports [(it, [TUnion [(7%N, t)]])] f T /\ decodes [(it, [TUnion [(7%N, t)]])] f [] w /\ ~ has_type false w T.
Proof.
  exists (Item [3%N] [] (FCompute (EVar 3%N))), (TBase (TU B8)), (FTuple [FItemVar 0 [EVariant 7%N (EU B8 1)] []; FItemVar 0 [EVariant 8%N (EBool true)] []]). eexists _, _.
  split; [vm_compute; reflexivity|]. split; [eexists; vm_compute; reflexivity|]. cbn. intros (fs & E & H). injection E as <-. cbn in H. destruct H as (_ & H & _). destruct H as (bs & u & E & H & _). injection E as <-. discriminate H.
Qed.
(** Lengths have whatever integer type they are used at, and values of type [u32]: the
    sequence of a length and a byte is reported as a sequence of bytes. *)
Theorem C62_length_refuted : exists f T w, reports [] f T /\ decodes [] f [] w /\ has_type false w T /\ ~ has_type true w T.
Proof.
  exists (FCompute (ESeq [ESeqLength (ESeq [EBool true]); EU B8 1])). eexists _, _.
  split; [vm_compute; reflexivity|]. split; [eexists; vm_compute; reflexivity|]. split; cbn.
  - eexists. split; [reflexivity|]. auto.
  - intros (u & E & H & _). injection E as <-. destruct H as [H|[H _]]; discriminate H.
Qed.
(** A position is reported as [u64], and as [u8] where the alternative is a byte. *)
Theorem C62_position_refuted : exists f T w, reports [] f T /\ decodes [] f [] w /\ has_type false w T /\ ~ has_type true w T.
Proof.
  exists (FUnion [FPos; any_byte]). eexists _, _.
  split; [vm_compute; reflexivity|]. split; [eexists; vm_compute; reflexivity|]. split; cbn.
  - auto.
  - intros [H|[H _]]; discriminate H.
Qed.

Print Assumptions C62_rules_partial.
Print Assumptions C62_assigned_partial.
Print Assumptions C62_reported_partial.
Print Assumptions C62_checked_partial.
Print Assumptions C62_record_refuted.
Print Assumptions C62_any_refuted.
Print Assumptions C62_union_refuted.
Print Assumptions C62_length_refuted.
Print Assumptions C62_position_refuted.
