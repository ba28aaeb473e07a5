(** C61: the types that inference reports. *)
From Coq Require Import Permutation.
From Verif Require Import Base BoundsModel NumericModel ValueModel BaseSetModel BaseSetSpec UnifyModel UnifySpec.
From Verif Require Import UnifyAlias UnifyBase UnifyProofs UnifyComplete UnifyRequests UnifyProps ReifyModel ReifySpec ReifyProofs ReifySolve ReifyRead ReifyAll.
Open Scope nat_scope.

Lemma sorted_empty : vm_sorted empty_state.
Proof. intros id vm. discriminate. Qed.
Lemma after_history ho n rs st : perform_all ho n rs empty_state = UOk st tt -> vm_sorted st.
Proof. intro E. pose proof (history_keeps ho n rs empty_state) as K. rewrite E in K. exact (K sorted_empty). Qed.
Lemma met_pre ho n rs st s : proper_history 0 rs -> perform_all ho n rs empty_state = UOk st tt -> Forall (meets s) rs -> pre s st.
Proof.
  intros P E M. destruct (history_complete ho s rs M) as [k H]. specialize (H n empty_state (empty_pre s) P). rewrite E in H. exact H.
Qed.

(** When a type is reported for every variable, the reported types meet every
    request that was made. *)
Theorem C61_reported_meets_partial :
  forall ho n rs st, proper_history 0 rs -> perform_all ho n rs empty_state = UOk st tt -> again st = false ->
  forall ho' n' (r : nat -> avt), (forall v, v < length (cons st) -> reify ho' n' st (UVar v) = ROk (r v)) ->
  Forall (meets (fun v => plain (r v))) rs.
Proof.
  intros ho n rs st P E A ho' n' r H. apply (C60_accepted_is_met_partial ho n rs st P E A). apply sat_solves.
  destruct (history_sound ho n rs empty_state st empty_wf P E A) as [W _].
  exact (reported_sat ho' st W (after_history _ _ _ _ E) n' r H).
Qed.
(** When some assignment meets the requests, all types that are reported, of
    variables and of other types, are those of one assignment that does. *)
Theorem C61_reported_together_partial :
  forall ho n rs st, proper_history 0 rs -> perform_all ho n rs empty_state = UOk st tt -> (exists s, Forall (meets s) rs) ->
  exists s, Forall (meets s) rs /\
    forall ho' n' t a, proper (length (cons st)) t -> reify ho' n' st t = ROk a -> fits s t (plain a).
Proof.
  intros ho n rs st P E [s0 M]. pose proof (met_pre _ _ _ _ _ P E M) as PR. pose proof (after_history _ _ _ _ E) as SR.
  exists (A st s0 false). split.
  - apply (C60_exact_partial ho n rs st P E). split; [apply PR|]. apply sat_solves, A_sat; auto.
  - intros ho' n' t a PT ER. destruct (reify_ok ho' st s0 PR SR false n' t a PT ER) as [_ ->]. exact (inst_fits _ _ _ PT).
Qed.
(** Then a type that is not reported is open: two assignments that meet the requests
    give it two types. *)
Theorem C61_unreported_open_partial :
  forall ho n rs st, proper_history 0 rs -> perform_all ho n rs empty_state = UOk st tt -> (exists s, Forall (meets s) rs) ->
  forall ho' n' t, proper (length (cons st)) t -> reify ho' n' st t = RNone ->
  exists s s' g g', Forall (meets s) rs /\ Forall (meets s') rs /\ fits s t g /\ fits s' t g' /\ g <> g'.
Proof.
  intros ho n rs st P E [s0 M] ho' n' t PT ER. pose proof (met_pre _ _ _ _ _ P E M) as PR. pose proof (after_history _ _ _ _ E) as SR.
  assert (K : forall i, Forall (meets (A st s0 i)) rs).
  { intro i. apply (C60_exact_partial ho n rs st P E). split; [apply PR|]. apply sat_solves, A_sat; auto. }
  exists (A st s0 false), (A st s0 true), (inst (A st s0 false) t), (inst (A st s0 true) t).
  split; [apply K|]. split; [apply K|]. split; [exact (inst_fits _ _ _ PT)|]. split; [exact (inst_fits _ _ _ PT)|].
  exact (reify_none ho' st s0 PR n' t PT ER).
Qed.
(** Then reading also ends, without a panic, if no variable is left that is known by
    projections of a tuple or a record only, and no variable has another map of
    variants than the canonical variable of its class. *)
Theorem C61_ends_partial :
  forall ho n rs st, proper_history 0 rs -> perform_all ho n rs empty_state = UOk st tt -> (exists s, Forall (meets s) rs) ->
  (forall v, ~ projected st v) ->
  (forall v c id, canonical st v = Some c -> get_cons st v = Some (Variant id) -> get_cons st c = Some (Variant id)) ->
  forall ho' t, proper (length (cons st)) t ->
  exists k, forall n', k <= n' -> reify ho' n' st t = RNone \/ exists a, reify ho' n' st t = ROk a.
Proof.
  intros ho n rs st P E [s0 M] NP ST ho' t PT. pose proof (met_pre _ _ _ _ _ P E M) as PR.
  exists (4 * size (inst s0 t) + 4). intros n' L.
  pose proof (reify_fine ho' st s0 PR NP ST n' t _ PT (inst_fits _ _ s0 PT)) as F.
  destruct (reify ho' n' st t) as [a| | |]; cbn in F; eauto; [destruct F|destruct (is_var t); lia].
Qed.
(** The order in which hash tables are gone through does not change what is
    reported. *)
Theorem C61_order_partial :
  forall ho n rs st, proper_history 0 rs -> perform_all ho n rs empty_state = UOk st tt -> (exists s, Forall (meets s) rs) ->
  forall ho1 ho2 n1 n2 t a1 a2, proper (length (cons st)) t ->
  reify ho1 n1 st t = ROk a1 -> reify ho2 n2 st t = ROk a2 -> plain a1 = plain a2.
Proof.
  intros ho n rs st P E S ho1 ho2 n1 n2 t a1 a2 PT E1 E2. destruct (C61_reported_together_partial ho n rs st P E S) as [s [_ H]].
  exact (fits_fun s _ t PT _ _ (H _ _ _ _ PT E1) (H _ _ _ _ PT E2)).
Qed.

(** ** Cases that meet the hypotheses *)

(** The history of the unification engine's example, with the one free variable
    settled. *)
Definition ex_reified : list request := ex_good ++ [RElem 5 1].
Example ex_reified_proper : proper_history 0 ex_reified.
Proof. vm_compute. repeat (apply conj || exact I || reflexivity || apply Nat.ltb_lt, eq_refl). Qed.
Definition small := MR false B16.
Definition ex_u : avt := AUnion [(7%N, ATuple [AInt small; AChar])].
Definition ex_types (v : nat) : avt :=
  match v with 0 | 2 => ATuple [AInt small; ex_u] | 1 => ex_u | 3 | 4 => AInt small | _ => ASeq ex_u 0 end.
Example ex_all_reported : exists st, perform_all in_order 50 ex_reified empty_state = UOk st tt /\ again st = false /\
  forall v, v < length (cons st) -> reify backwards 50 st (UVar v) = ROk (ex_types v).
Proof.
  eexists. split; [vm_compute; reflexivity|]. split; [reflexivity|]. intros v L. cbn in L.
  do 6 (destruct v as [|v]; [vm_compute; reflexivity|]). lia.
Qed.
Example ex_reified_met : Forall (meets (fun v => plain (ex_types v))) ex_reified.
Proof.
  destruct ex_all_reported as [st [E [A H]]]. exact (C61_reported_meets_partial _ _ _ _ ex_reified_proper E A _ _ _ H).
Qed.
(** In the history as it was, that variable has no type. *)
Example ex_open : exists st, perform_all in_order 50 ex_good empty_state = UOk st tt /\ reify in_order 50 st (UVar 5) = RNone /\
  reify in_order 50 st (UTuple [UVar 4; UVar 1]) = ROk (ATuple [AInt small; ex_u]) /\
  (forall v, ~ projected st v) /\
  (forall v c id, canonical st v = Some c -> get_cons st v = Some (Variant id) -> get_cons st c = Some (Variant id)).
Proof.
  eexists. split; [vm_compute; reflexivity|]. split; [vm_compute; reflexivity|]. split; [vm_compute; reflexivity|]. split.
  - intros v [m [H|H]]; do 6 (destruct v as [|v]; [discriminate|]); cbn in H; destruct v; discriminate.
  - intros v c id C G. do 6 (destruct v as [|v]; [first [discriminate | injection C as <-; exact G]|]). destruct v; discriminate.
Qed.

(** ** What does not hold *)

(** A type is reported though no assignment meets the requests: the contradiction is
    about another variable. *)
Theorem C61_contradiction_refuted :
  exists rs st a, proper_history 0 rs /\ perform_all in_order 50 rs empty_state = UOk st tt /\ again st = false /\
    reify in_order 50 st (UVar 1) = ROk a /\ forall s, ~ Forall (meets s) rs.
Proof.
  exists [RNew; RNew; RType 1 (UBase TBool); RType 0 (UTuple [UVar 0])]. eexists. exists ABool.
  split; [vm_compute; repeat (apply conj || exact I || reflexivity || apply Nat.ltb_lt, eq_refl)|]. split; [vm_compute; reflexivity|]. split; [reflexivity|]. split; [reflexivity|].
  intros s M. inversion M as [|? ? _ M1]; subst. inversion M1 as [|? ? _ M2]; subst. inversion M2 as [|? ? _ M3]; subst. inversion M3 as [|? ? K _]; subst.
  cbn in K. destruct K as [[|g [|]] [E F]]; try tauto. destruct F as [F _].
  assert (size (s 0) = size (GTuple [g])) as X by congruence. cbn in X. subst g. lia.
Qed.
(** Reading panics though the requests can be met: a variable is known by a projection
    only. *)
Theorem C61_projection_refuted :
  exists rs st, proper_history 0 rs /\ perform_all in_order 50 rs empty_state = UOk st tt /\ (exists s, Forall (meets s) rs) /\
    forall n, reify in_order (20 + n) st (UVar 0) = RPanic.
Proof.
  exists [RNew; RNew; RType 1 (UBase TBool); RIndex 0 0 1]. eexists. split; [vm_compute; repeat (apply conj || exact I || reflexivity || apply Nat.ltb_lt, eq_refl)|]. split; [vm_compute; reflexivity|]. split.
  - exists (fun v => match v with 0 => GTuple [GBool] | _ => GBool end). repeat apply Forall_cons; try apply Forall_nil; cbn; auto. exists [GBool]. split; reflexivity.
  - intro n. reflexivity.
Qed.
(** Reading panics though the requests can be met and fix every type: two unions are
    unified, and the last variable of the second keeps the map of variants that was
    removed. *)
Theorem C61_lost_map_refuted :
  exists rs st, proper_history 0 rs /\ perform_all in_order 50 rs empty_state = UOk st tt /\
    (exists s, Forall (meets s) rs) /\ (forall v, ~ projected st v) /\
    (forall n, reify in_order (20 + n) st (UVar 3) = ROk (AUnion [(7%N, ABool); (8%N, AChar)])) /\
    forall n, reify in_order (20 + n) st (UVar 4) = RPanic.
Proof.
  exists [RNew; RNew; RNew; RNew; RNew; RPair 0 1; RPair 2 3; RVariant 0 7%N (UBase TBool); RVariant 2 8%N (UBase TChar); RPair 0 2; RType 4 (UTuple [UVar 3])].
  eexists. split; [vm_compute; repeat (apply conj || exact I || reflexivity || apply Nat.ltb_lt, eq_refl)|]. split; [vm_compute; reflexivity|]. split.
  - set (u := GUnion [(7%N, GBool); (8%N, GChar)]). exists (fun v => match v with 4 => GTuple [u] | _ => u end).
    repeat apply Forall_cons; try apply Forall_nil; cbn; auto.
    + exists [(7%N, GBool); (8%N, GChar)], GBool. repeat split.
    + exists [(7%N, GBool); (8%N, GChar)], GChar. repeat split.
    + exists [u]. repeat split.
  - split; [|split; intro n; reflexivity]. intros v [m [H|H]]; do 5 (destruct v as [|v]; [discriminate|]); cbn in H; destruct v; discriminate.
Qed.
(** A variant that was only given the empty type is left out of the union that is
    reported. *)
Theorem C61_empty_variant_refuted :
  exists rs st a, perform_all in_order 50 rs empty_state = UOk st tt /\ again st = false /\
    reify in_order 50 st (UVar 0) = ROk a /\ ~ Forall (meets (fun _ => plain a)) rs /\ exists s, Forall (meets s) rs.
Proof.
  exists [RNew; RVariant 0 7%N UEmpty]. eexists. exists (AUnion []). split; [vm_compute; reflexivity|]. split; [reflexivity|]. split; [reflexivity|]. split.
  - intro M. inversion M as [|? ? _ M1]; subst. inversion M1 as [|? ? K _]; subst. destruct K as [bs [g [E [G _]]]]. cbn in E. injection E as <-. discriminate.
  - exists (fun _ => GUnion [(7%N, GBool)]). repeat apply Forall_cons; try apply Forall_nil; cbn; auto. eexists. eexists. split; [reflexivity|]. split; reflexivity.
Qed.

Print Assumptions C61_reported_meets_partial.
Print Assumptions C61_reported_together_partial.
Print Assumptions C61_unreported_open_partial.
Print Assumptions C61_ends_partial.
Print Assumptions C61_order_partial.
Print Assumptions C61_contradiction_refuted.
Print Assumptions C61_projection_refuted.
Print Assumptions C61_lost_map_refuted.
Print Assumptions C61_empty_variant_refuted.
