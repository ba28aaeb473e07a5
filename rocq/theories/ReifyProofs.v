(** Reading types off the state: maps stay in order, the reported types are a
    solution, and reading ends. *)
From Coq Require Import Permutation.
From Verif Require Import Base BoundsModel NumericModel ValueModel BaseSetModel BaseSetSpec BaseSetProofs BaseSetProps UnifyModel UnifySpec UnifyAlias UnifyBase UnifyProofs UnifyComplete UnifyRequests ReifyModel ReifySpec.
Open Scope nat_scope.

(** ** The maps of variants stay in order *)
Definition vm_sorted (st : state) : Prop := forall id vm, vget id (vms st) = Some vm -> ksorted vm.
Definition keeps {A} (st : state) (r : ures A) : Prop :=
  match r with UOk st' _ => vm_sorted st -> vm_sorted st' | _ => True end.
Lemma keeps_bind {A B} st (r : ures A) (k : A -> state -> ures B) : keeps st r -> (forall a st1, keeps st1 (k a st1)) -> keeps st (ubind r k).
Proof. intros H K. destruct r as [st1 a| | |]; cbn; auto. specialize (K a st1). destruct (k a st1); cbn in *; auto. Qed.
Lemma keeps_fold {A B} (f : B -> A -> state -> ures B) : (forall b a st, keeps st (f b a st)) -> forall l b st, keeps st (foldU f b l st).
Proof. intros H l. induction l as [|a l IH]; intros b st; cbn [foldU]; [cbn; auto|]. apply keeps_bind; auto. Qed.
Lemma keeps_map2 {A B C} (f : A -> B -> state -> ures C) : (forall a b st, keeps st (f a b st)) -> forall la lb st, keeps st (map2U f la lb st).
Proof.
  intros H la. induction la as [|a la IH]; intros [|b lb] st; cbn [map2U]; try (cbn; auto; fail).
  apply keeps_bind; auto. intros c st1. apply keeps_bind; auto. cbn. auto.
Qed.
Lemma keeps_tc {A} (r : tcres A) st : keeps st (of_tc r st).
Proof. destruct r; cbn; auto. Qed.
Lemma keeps_from {A} st st1 (r : ures A) : (vm_sorted st -> vm_sorted st1) -> keeps st1 r -> keeps st r.
Proof. destruct r; cbn; auto. Qed.
Lemma sorted_set st id vm : vm_sorted st -> ksorted vm -> vm_sorted (set_vms (vset id vm (vms st)) st).
Proof.
  intros S K i m. cbn. rewrite vget_set. destruct (i =? id); [|apply S]. intro E. injection E as <-. exact K.
Qed.
Lemma sorted_vms st st' : vms st' = vms st -> vm_sorted st -> vm_sorted st'.
Proof. unfold vm_sorted. intros ->. auto. Qed.
Lemma repoint_vms lo hi st st1 : repoint lo hi st = Some st1 -> vms st1 = vms st.
Proof.
  unfold repoint. destruct (get_als st hi) as [ah|]; [|discriminate]. cbv zeta. destruct (get_als _ lo) as [a|]; [|discriminate].
  destruct (add_forward_ref hi a); [|discriminate]. intro E. injection E as <-. reflexivity.
Qed.
Lemma repoint_all_vms lo l : forall st st1, repoint_all lo l st = Some st1 -> vms st1 = vms st.
Proof.
  induction l as [|a l IH]; intros st st1; cbn [repoint_all]; [intro E; injection E as <-; reflexivity|].
  destruct (get_als st lo) as [x|]; [|discriminate]. destruct (contains_fwd_ref x a); [discriminate|].
  destruct (repoint lo a st) as [st0|] eqn:E0; [|discriminate]. intro E. rewrite (IH _ _ E). exact (repoint_vms _ _ _ _ E0).
Qed.
Lemma recanonicalize_vms ho lo hi st st1 : recanonicalize ho lo hi st = Some st1 -> vms st1 = vms st.
Proof.
  unfold recanonicalize. destruct (get_als st hi); [|discriminate]. destruct (repoint_all _ _ _) as [st0|] eqn:E0; [|discriminate].
  destruct (get_als _ lo) as [a0|]; [|discriminate].
  destruct (add_forward_ref hi a0); [|discriminate]. intro E. injection E as <-. cbn. rewrite (repoint_all_vms _ _ _ _ E0). reflexivity.
Qed.
Ltac keeps_step IH :=
  intros;
  match goal with
  | |- keeps _ UErr => exact I
  | |- keeps _ UPanic => exact I
  | |- keeps _ UFuel => exact I
  | |- keeps _ (of_tc _ _) => apply keeps_tc
  | |- keeps _ (ubind (occurs _ _ _ _) _) => destruct (occurs _ _ _ _); cbn; auto
  | |- keeps _ (ubind _ _) => apply keeps_bind
  | |- keeps _ (foldU _ _ _ _) => apply keeps_fold
  | |- keeps _ (map2U _ _ _ _) => apply keeps_map2
  | |- keeps _ (unify_utype _ _ _ _ _ _) => apply IH
  | |- keeps _ (unify_var_constraint _ _ _ _ _ _) => apply IH
  | |- keeps _ (unify_constraint_pair _ _ _ _ _ _) => apply IH
  | |- keeps _ (unify_var_utype _ _ _ _ _ _) => apply IH
  | |- keeps _ (unify_var_pair _ _ _ _ _ _) => apply IH
  | |- keeps _ (transfer_constraints _ _ _ _ _ _) => apply IH
  | |- keeps _ (unify_varmaps _ _ _ _ _ _ _ _) => apply IH
  | |- keeps _ (merge_entry _ _ _ _ _ _) => unfold merge_entry
  | |- keeps _ (field_entry _ _ _ _ _) => unfold field_entry
  | |- keeps _ (if ?b then _ else _) => destruct b
  | |- keeps _ (match ?x with _ => _ end) => destruct x eqn:?
  | |- keeps _ (UOk (set_vms (vset _ (minsert _ _ _) _) _) _) =>
      let S := fresh in intro S; apply sorted_set; [exact S|]; apply ksorted_insert; eapply S; eassumption
  | |- keeps _ (UOk _ _) => cbn; intros; try assumption
  end.
Lemma keeps_all ho n :
  (forall B l r st, keeps st (unify_utype ho n B l r st)) /\
  (forall B v c st, keeps st (unify_var_constraint ho n B v c st)) /\
  (forall B c1 c2 st, keeps st (unify_constraint_pair ho n B c1 c2 st)) /\
  (forall B v t st, keeps st (unify_var_utype ho n B v t st)) /\
  (forall B v w st, keeps st (unify_var_pair ho n B v w st)) /\
  (forall B a b st, keeps st (transfer_constraints ho n B a b st)) /\
  (forall B a i b j st, keeps st (unify_varmaps ho n B a i b j st)).
Proof.
  induction n as [|n IH]; [repeat split; intros; exact I|].
  split; [|split; [|split; [|split; [|split; [|split]]]]].
  - intros B l r st. ucbn. destruct l, r; repeat keeps_step IH.
  - intros B v c st. ucbn. repeat keeps_step IH.
  - intros B c1 c2 st. ucbn. destruct c1, c2; repeat keeps_step IH.
  - intros B v t st. ucbn. destruct t; repeat keeps_step IH.
  - intros B v w st. ucbn. destruct (merge_of st v w) as [|lo hi|lo hi|]; repeat keeps_step IH.
    + eapply keeps_from; [|apply IH]. apply sorted_vms. exact (repoint_vms _ _ _ _ Heqo).
    + eapply keeps_from; [|apply IH]. apply sorted_vms. exact (recanonicalize_vms _ _ _ _ _ Heqo).
  - intros B a b st. ucbn. repeat keeps_step IH.
  - intros B a i b j st. ucbn. cbv zeta. destruct (i =? j); repeat keeps_step IH.
    + apply (keeps_from _ (set_vms (vset (Nat.max i j) [] (vms st)) st)). { intro S. apply sorted_set; [exact S|exact I]. }
      repeat keeps_step IH.
    + intros k m. cbn. rewrite vget_remove. destruct (k =? Nat.max i j); [discriminate|apply H].
Qed.
Lemma set_vmid_keeps v id st : keeps st (set_uvar_vmid v id st).
Proof.
  unfold set_uvar_vmid. destruct (vget id (vms st)) as [vm|]; [|exact I]. destruct (get_cons st v) as [[|o|c]|]; cbn; auto.
  destruct (match vget o (vms st) with Some _ => _ | None => _ end); cbn; auto.
Qed.
Lemma perform_keeps ho n r st : keeps st (perform ho n r st).
Proof.
  destruct r; cbn [perform].
  - cbn. auto.
  - apply (keeps_all ho n).
  - apply (keeps_all ho n).
  - apply keeps_bind; [apply (keeps_all ho n)|cbn; auto].
  - apply keeps_bind; [apply (keeps_all ho n)|cbn; auto].
  - apply keeps_bind; [apply (keeps_all ho n)|cbn; auto].
  - unfold add_uvar_variant. destruct (canonical st v) as [cv|]; [|exact I]. destruct (get_cons st cv) as [[|id|c]|]; try exact I.
    + match goal with |- keeps st (ubind (set_uvar_vmid cv ?i ?s1) ?k) => apply (keeps_from st s1) end.
      { intros S i m. cbn. rewrite vget_set. destruct (i =? _); [|apply S]. intro E. injection E as <-. split; [intros ? []|exact I]. }
      apply keeps_bind; [apply set_vmid_keeps|]. intros [] st1. destruct (get_als st1 cv); [|exact I]. apply keeps_fold. intros. apply set_vmid_keeps.
    + destruct (vget id (vms st)) as [vm|] eqn:Ev; [|exact I]. destruct (mget l vm).
      * apply keeps_bind; [apply (keeps_all ho n)|].
        intros a st1. destruct (vget id (vms st1)) as [vm1|] eqn:E1; [|exact I]. destruct (mget l vm1); [|exact I].
        destruct (utype_eqb a u0); [cbn; auto|]. intro S. apply sorted_set; [exact S|]. apply ksorted_insert. eauto.
      * intro S. apply sorted_set; [exact S|]. apply ksorted_insert. eauto.
  - unfold unify_var_proj_index. destruct (canonical st v) as [cv|]; [|exact I]. destruct (get_cons st cv) as [[|id|[[]| |[]|]]|]; try exact I.
    + apply keeps_bind; [apply (keeps_all ho n)|cbn; auto].
    + destruct (nth_error ts ix); [apply (keeps_all ho n)|exact I].
    + destruct (mget _ m); [apply (keeps_all ho n)|cbn; auto].
  - generalize n at 2 as k. intro k. revert v. induction k as [|k IH]; intro v; [exact I|]. cbn [unify_var_proj_field].
    destruct (canonical st v) as [cv|]; [|exact I]. destruct (get_cons st cv) as [[|id|[[]| |[]|]]|]; try exact I.
    + apply keeps_bind; [apply (keeps_all ho n)|cbn; auto].
    + apply IH.
    + destruct (find_field f fs); [apply (keeps_all ho n)|exact I].
    + destruct (mget _ m); [apply (keeps_all ho n)|cbn; auto].
  - unfold unify_var_proj_elem. destruct (canonical st v) as [cv|]; [|exact I]. destruct (get_cons st cv) as [[|id|[[]| |[]|]]|]; try exact I; try apply (keeps_all ho n).
    apply keeps_bind; [apply (keeps_all ho n)|cbn; auto].
  - unfold unify_var_proj_param. destruct (canonical st v) as [cv|]; [|exact I]. destruct (get_cons st cv) as [[|id|[[]| |[]|]]|]; try exact I; try apply (keeps_all ho n).
    apply keeps_bind; [apply (keeps_all ho n)|cbn; auto].
Qed.
Lemma history_keeps ho n rs st : keeps st (perform_all ho n rs st).
Proof. unfold perform_all. apply keeps_fold. intros. apply perform_keeps. Qed.
