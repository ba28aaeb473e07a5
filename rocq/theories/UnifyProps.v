(** C60: what the unification engine accepts is what has a solution, and the
    solutions are kept exactly. *)
From Coq Require Import Permutation.
From Verif Require Import Base BoundsModel NumericModel ValueModel BaseSetModel BaseSetSpec UnifyModel UnifySpec.
From Verif Require Import UnifyAlias UnifyBase UnifyProofs UnifyComplete UnifyRequests.
Open Scope nat_scope.

(** A history that was carried out without a variable being reached again while it
    is unified: the assignments its final state describes meet every request. *)
Theorem C60_accepted_is_met_partial :
  forall ho n rs st, proper_history 0 rs -> perform_all ho n rs empty_state = UOk st tt -> again st = false ->
  forall s, solves s st -> Forall (meets s) rs.
Proof.
  intros ho n rs st P E A s H. destruct (history_sound ho n rs empty_state st empty_wf P E A) as [_ F]. apply (F s), sat_solves, H.
Qed.
(** A history that some assignment meets is neither refused nor does it panic, is
    carried out in finitely many steps whatever the order of hash tables, and the
    assignment is one the final state describes. *)
Theorem C60_met_is_accepted_partial :
  forall s rs, proper_history 0 rs -> Forall (meets s) rs ->
  forall ho, exists k, forall n, k <= n -> exists st, perform_all ho n rs empty_state = UOk st tt /\ again st = false /\ solves s st.
Proof.
  intros s rs P M ho. destruct (history_complete ho s rs M) as [k H]. exists k. intros n L. specialize (H n empty_state (empty_pre s) P).
  destruct (perform_all ho n rs empty_state) as [st []| | |]; try (destruct H; fail); [|lia].
  exists st. split; [reflexivity|]. split; [apply H|]. apply sat_solves. apply (p_sat _ _ H).
Qed.
(** What is refused, or ends in a panic, no assignment meets. *)
Theorem C60_refused_has_none_partial :
  forall ho n rs, proper_history 0 rs -> (perform_all ho n rs empty_state = UErr \/ perform_all ho n rs empty_state = UPanic) ->
  forall s, ~ Forall (meets s) rs.
Proof.
  intros ho n rs P E s M. destruct (history_complete ho s rs M) as [k H]. specialize (H n empty_state (empty_pre s) P).
  destruct E as [E|E]; rewrite E in H; exact H.
Qed.
(** The two together. *)
Theorem C60_exact_partial :
  forall ho n rs st, proper_history 0 rs -> perform_all ho n rs empty_state = UOk st tt ->
  forall s, Forall (meets s) rs <-> again st = false /\ solves s st.
Proof.
  intros ho n rs st P E s. split.
  - intro M. destruct (history_complete ho s rs M) as [k H]. specialize (H n empty_state (empty_pre s) P). rewrite E in H.
    split; [apply H|]. apply sat_solves. apply (p_sat _ _ H).
  - intros [A H]. eapply C60_accepted_is_met_partial; eauto.
Qed.
(** Neither the order in which hash tables are gone through nor the order in which
    the requests are made changes what is known of the variables. *)
Theorem C60_order_partial :
  forall ho ho' n n' rs rs' st st', proper_history 0 rs -> proper_history 0 rs' -> (forall r, In r rs <-> In r rs') ->
  perform_all ho n rs empty_state = UOk st tt -> perform_all ho' n' rs' empty_state = UOk st' tt ->
  again st = false -> again st' = false -> forall s, solves s st <-> solves s st'.
Proof.
  intros ho ho' n n' rs rs' st st' P P' S E E' A A' s.
  pose proof (C60_exact_partial ho n rs st P E s) as X. pose proof (C60_exact_partial ho' n' rs' st' P' E' s) as X'.
  rewrite !Forall_forall in X, X'.
  assert (K : (forall r, In r rs -> meets s r) <-> (forall r, In r rs' -> meets s r)) by (split; intros H r I; apply H, S, I).
  tauto.
Qed.

(** ** Cases that meet the hypotheses *)

Definition in_order : hash_order := HO (fun _ l => l) (fun _ l => Permutation_refl l).
Definition backwards : hash_order := HO (fun _ l => rev l) (fun _ l => Permutation_sym (Permutation_rev l)).
(** A pair of a small number and a union, taken apart before it is known to be a
    pair. *)
Definition ex_history : list request :=
  [RNew; RNew; RNew; RNew; RIndex 0 1 1; RType 2 (UTuple [UVar 3; UVar 1]); RBaseset 3 (BU U_SHORT8);
   RVariant 1 7%N (UTuple [UVar 3; UBase TChar]); RPair 2 0; RNew; RIndex 0 0 4; RType 4 (UBase (TU B16)); RNew;
   RVariant 1 7%N (UTuple [UVar 5; UVar 5]); RNew].
Definition ex_good : list request := firstn 13 ex_history.
Definition ex_sol (v : nat) : gtype :=
  let u := GUnion [(7%N, GTuple [GInt (MR false B16); GChar])] in
  match v with 0 | 2 => GTuple [GInt (MR false B16); u] | 1 => u | 3 | 4 => GInt (MR false B16) | _ => GBool end.
Example ex_proper : proper_history 0 ex_history.
Proof. vm_compute. repeat (apply conj || exact I || reflexivity || apply Nat.ltb_lt, eq_refl). Qed.
Example ex_proper_good : proper_history 0 ex_good.
Proof. vm_compute. repeat (apply conj || exact I || reflexivity || apply Nat.ltb_lt, eq_refl). Qed.
Example ex_met : Forall (meets ex_sol) ex_good.
Proof.
  repeat apply Forall_cons; try apply Forall_nil; cbn; auto.
  - eexists. split; reflexivity.
  - eexists. split; [reflexivity|]. repeat split.
  - exists (TU B16). split; [exists B16, 1; split; reflexivity|reflexivity].
  - eexists. eexists. split; [reflexivity|]. split; [reflexivity|]. eexists. split; [reflexivity|]. repeat split.
  - eexists. split; reflexivity.
Qed.
Example ex_accepted : exists st, perform_all in_order 50 ex_good empty_state = UOk st tt /\ again st = false.
Proof. eexists. split; [vm_compute; reflexivity|reflexivity]. Qed.
Example ex_accepted_backwards : exists st, perform_all backwards 50 ex_good empty_state = UOk st tt /\ again st = false.
Proof. eexists. split; [vm_compute; reflexivity|reflexivity]. Qed.
(** The last union of the full history has a number where it had a character. *)
Example ex_refused : perform_all in_order 50 ex_history empty_state = UErr.
Proof. vm_compute. reflexivity. Qed.

(** ** What does not hold *)

(** A history is carried out though no assignment meets it: a variable is made a part
    of its own type without an occurs check. *)
Theorem C60_cyclic_refuted :
  exists rs st, proper_history 0 rs /\ perform_all in_order 50 rs empty_state = UOk st tt /\ again st = false /\ forall s, ~ Forall (meets s) rs.
Proof.
  exists [RNew; RType 0 (UTuple [UVar 0])]. eexists. split; [cbn; auto with arith|]. split; [vm_compute; reflexivity|]. split; [reflexivity|].
  intros s M. inversion M as [|? ? _ M1]; subst. inversion M1 as [|? ? K _]; subst. cbn in K. destruct K as [[|g [|]] [E F]]; try tauto. destruct F as [F _].
  assert (size (s 0) = size (GTuple [g])) as X by congruence. cbn in X. subst g. lia.
Qed.
(** Likewise for two sets of candidate types without a common one. *)
Theorem C60_disjoint_refuted :
  exists rs st, proper_history 0 rs /\ perform_all in_order 50 rs empty_state = UOk st tt /\ again st = false /\ forall s, ~ Forall (meets s) rs.
Proof.
  exists [RNew; RBaseset 0 (BU U_SHORT8); RBaseset 0 (BU (at_least B32))]. eexists. split; [cbn; auto with arith|]. split; [vm_compute; reflexivity|]. split; [reflexivity|].
  intros s M. inversion M as [|? ? _ M1]; subst. inversion M1 as [|? ? K1 M2]; subst. inversion M2 as [|? ? K2 _]; subst. cbn in K1, K2.
  destruct K1 as [b1 [[w1 [n1 [-> H1]]] E1]]. destruct K2 as [b2 [[w2 [n2 [-> H2]]] E2]]. rewrite E1 in E2. injection E2 as <-.
  destruct w1; vm_compute in H1, H2; discriminate.
Qed.
(** A mismatch of kinds ends in a panic rather than in an error. *)
Theorem C60_panics_refuted :
  exists rs rs' rs'', proper_history 0 rs /\ proper_history 0 rs' /\ proper_history 0 rs'' /\
    perform_all in_order 50 rs empty_state = UPanic /\ perform_all in_order 50 rs' empty_state = UPanic /\
    perform_all in_order 50 rs'' empty_state = UPanic.
Proof.
  exists [RNew; RNew; RType 0 (UBase TBool); RIndex 0 0 1], [RNew; RNew; RIndex 0 0 1; RType 0 (UBase TBool)],
    [RNew; RType 0 (UBase TBool); RVariant 0 1%N (UBase TBool)].
  repeat split; cbn; auto with arith.
Qed.
(** With the type without values: a union is refused it although every type fits it,
    and a union that is unified with a variable of that type loses its variants. *)
Theorem C60_empty_refused_refuted :
  exists rs s, Forall (meets s) rs /\ perform_all in_order 50 rs empty_state = UErr.
Proof.
  exists [RNew; RVariant 0 1%N (UBase TBool); RType 0 UEmpty], (fun _ => GUnion [(1%N, GBool)]). split; [|vm_compute; reflexivity].
  repeat apply Forall_cons; try apply Forall_nil; cbn; auto. exists [(1%N, GBool)], GBool. auto.
Qed.
Theorem C60_empty_forgets_refuted :
  exists rs st s, perform_all in_order 50 rs empty_state = UOk st tt /\ again st = false /\ solves s st /\ ~ Forall (meets s) rs.
Proof.
  exists [RNew; RNew; RVariant 1 1%N (UBase TBool); RType 0 UEmpty; RPair 0 1]. eexists. exists (fun _ => GBool).
  split; [vm_compute; reflexivity|]. split; [reflexivity|]. split.
  - split; [reflexivity|]. intros [|[|v]] cs; cbn; try discriminate. + intros _ E. injection E as <-. exact I. + destruct v; discriminate.
  - intro M. inversion M as [|? ? _ M1]; subst. inversion M1 as [|? ? _ M2]; subst. inversion M2 as [|? ? K _]; subst.
    destruct K as [bs [g [E _]]]. discriminate.
Qed.
(** With an unknown part of a type: the link between a projection and the part is
    lost. *)
Theorem C60_hole_forgets_refuted :
  exists rs st s, perform_all in_order 50 rs empty_state = UOk st tt /\ again st = false /\ solves s st /\ ~ Forall (meets s) rs.
Proof.
  exists [RNew; RNew; RIndex 0 0 1; RType 0 (UTuple [UHole]); RType 0 (UTuple [UBase TBool])]. eexists.
  exists (fun v => match v with 0 => GTuple [GBool] | _ => GChar end).
  split; [vm_compute; reflexivity|]. split; [reflexivity|]. split.
  - split; [intros [|[|[|v]]] c; cbn; try discriminate; intro E; injection E as <-; reflexivity|].
    intros [|[|v]] cs; cbn; [intros _ E; injection E as <-..|destruct v; discriminate]; cbn; [|exact I]. exists [GBool]. repeat split.
  - intro M. inversion M as [|? ? _ M1]; subst. inversion M1 as [|? ? _ M2]; subst. inversion M2 as [|? ? K _]; subst.
    destruct K as [gs [E F]]. injection E as <-. discriminate.
Qed.

Print Assumptions C60_accepted_is_met_partial.
Print Assumptions C60_met_is_accepted_partial.
Print Assumptions C60_refused_has_none_partial.
Print Assumptions C60_exact_partial.
Print Assumptions C60_order_partial.
Print Assumptions C60_cyclic_refuted.
Print Assumptions C60_disjoint_refuted.
Print Assumptions C60_panics_refuted.
Print Assumptions C60_empty_refused_refuted.
Print Assumptions C60_empty_forgets_refuted.
Print Assumptions C60_hole_forgets_refuted.
