(** What one request does to the engine's solutions. *)
From Coq Require Import Permutation.
From Verif Require Import Base BoundsModel NumericModel ValueModel BaseSetModel BaseSetSpec BaseSetProofs BaseSetProps UnifyModel UnifySpec UnifyAlias UnifyBase UnifyProofs UnifyComplete.
Open Scope nat_scope.

Section Requests.
Variable ho : hash_order.
Notation N_ st := (length (cons st)).

(** ** Requests that are one call *)
Lemma mono_call n v w c t t' st :
  mono st (unify_var_pair ho n [] v w st) /\ mono st (unify_var_utype ho n [] v t st) /\ mono st (unify_utype ho n [] t t' st) /\ mono st (unify_var_constraint ho n [] v c st).
Proof. destruct (mono_all ho n) as [A [B [_ [C [D _]]]]]. auto. Qed.

Lemma set_vmid_mono v id st : mono st (set_uvar_vmid v id st).
Proof.
  unfold set_uvar_vmid. destruct (vget id (vms st)) as [vm|]; [|exact I]. destruct (get_cons st v) as [[|o|c]|]; cbn; auto.
  destruct (match vget o (vms st) with Some _ => _ | None => _ end); cbn; auto.
Qed.
Lemma perform_mono n r st : mono st (perform ho n r st).
Proof.
  destruct r; cbn [perform].
  - cbn. auto.
  - apply (mono_all ho n).
  - apply (mono_all ho n).
  - apply mono_bind; [apply (mono_all ho n)|cbn; auto].
  - apply mono_bind; [apply (mono_all ho n)|cbn; auto].
  - apply mono_bind; [apply (mono_all ho n)|cbn; auto].
  - unfold add_uvar_variant. destruct (canonical st v) as [cv|]; [|exact I]. destruct (get_cons st cv) as [[|id|c]|]; try exact I.
    + match goal with |- mono st (ubind (set_uvar_vmid cv ?i ?s1) ?k) => apply (mono_from st s1); [auto|] end.
      apply mono_bind; [apply set_vmid_mono|]. intros [] st1. destruct (get_als st1 cv); [|exact I]. apply mono_fold. intros. apply set_vmid_mono.
    + destruct (vget id (vms st)) as [vm|]; [|exact I]. destruct (mget l vm); [|cbn; auto]. apply mono_bind; [apply (mono_all ho n)|].
      intros a st1. destruct (vget id (vms st1)) as [vm1|]; [|exact I]. destruct (mget l vm1); [|exact I]. destruct (utype_eqb a u0); cbn; auto.
  - unfold unify_var_proj_index. destruct (canonical st v) as [cv|]; [|exact I]. destruct (get_cons st cv) as [[|id|[[]| |[]|]]|]; try exact I.
    + apply mono_bind; [apply (mono_all ho n)|cbn; auto].
    + destruct (nth_error ts ix); [apply (mono_all ho n)|exact I].
    + destruct (mget _ m); [apply (mono_all ho n)|cbn; auto].
  - generalize n at 2 as k. intro k. revert v. induction k as [|k IH]; intro v; [exact I|]. cbn [unify_var_proj_field].
    destruct (canonical st v) as [cv|]; [|exact I]. destruct (get_cons st cv) as [[|id|[[]| |[]|]]|]; try exact I.
    + apply mono_bind; [apply (mono_all ho n)|cbn; auto].
    + apply IH.
    + destruct (find_field f fs); [apply (mono_all ho n)|exact I].
    + destruct (mget _ m); [apply (mono_all ho n)|cbn; auto].
  - unfold unify_var_proj_elem. destruct (canonical st v) as [cv|]; [|exact I]. destruct (get_cons st cv) as [[|id|[[]| |[]|]]|]; try exact I; try apply (mono_all ho n).
    apply mono_bind; [apply (mono_all ho n)|cbn; auto].
  - unfold unify_var_proj_param. destruct (canonical st v) as [cv|]; [|exact I]. destruct (get_cons st cv) as [[|id|[[]| |[]|]]|]; try exact I; try apply (mono_all ho n).
    apply mono_bind; [apply (mono_all ho n)|cbn; auto].
Qed.

(** ** New variables *)
Lemma new_get_cons st v : get_cons (new_uvar st) v = if v =? N_ st then Some Indefinite else get_cons st v.
Proof.
  unfold get_cons, new_uvar. cbn [cons]. destruct (Nat.eqb_spec v (N_ st)) as [->|NE].
  - rewrite nth_error_app2, Nat.sub_diag; auto.
  - destruct (Nat.lt_ge_cases v (N_ st)); [apply nth_error_app1; assumption|].
    rewrite nth_error_app2 by assumption. destruct (v - N_ st) as [|k] eqn:E; [lia|]. cbn. rewrite (proj2 (nth_error_None (cons st) v)) by assumption. destruct k; reflexivity.
Qed.
Lemma new_get_als st v : length (als st) = N_ st -> get_als (new_uvar st) v = if v =? N_ st then Some Ground else get_als st v.
Proof.
  intro L. unfold get_als, new_uvar. cbn [als]. destruct (Nat.eqb_spec v (N_ st)) as [->|NE].
  - rewrite nth_error_app2, L, Nat.sub_diag by lia. auto.
  - destruct (Nat.lt_ge_cases v (N_ st)); [apply nth_error_app1; lia|].
    rewrite nth_error_app2 by lia. destruct (v - length (als st)) as [|k] eqn:E; [lia|]. cbn. rewrite (proj2 (nth_error_None (als st) v)) by lia. destruct k; reflexivity.
Qed.
Lemma new_canon st v : length (als st) = N_ st -> canonical (new_uvar st) v = if v =? N_ st then Some (N_ st) else canonical st v.
Proof.
  intro L. unfold canonical. rewrite new_get_als by exact L. destruct (Nat.eqb_spec v (N_ st)) as [->|]; reflexivity.
Qed.
Lemma proper_le n m t : n <= m -> proper n t -> proper m t.
Proof.
  intro L. induction t using utype_ind2; cbn; auto; try lia.
  - induction H as [|t ts HT _ IH]; [auto|]. intros [A B]. split; [auto|exact (IH B)].
  - intros [ND A]. split; [exact ND|]. revert A. clear ND. induction H as [|[l t] ts HT _ IH]; [auto|]. intros [A B]. cbn in HT. split; [auto|exact (IH B)].
Qed.
Lemma proper_c_le n m c : n <= m -> proper_c n c -> proper_c m c.
Proof.
  intro L. destruct c as [t|b|[p|p|v|v]|i]; cbn; auto; try lia.
  - intros [A B]. split; [eapply proper_le; eauto|exact B].
  - intros [A B]. split; [|exact B]. intros k v E. specialize (A k v E). lia.
  - intros [A B]. split; [|exact B]. intros k v E. specialize (A k v E). lia.
Qed.
Lemma new_wf st : wf st -> wf (new_uvar st) /\ N_ (new_uvar st) = S (N_ st).
Proof.
  intro W. assert (LEN : N_ (new_uvar st) = S (N_ st)) by (cbn; rewrite app_length; cbn; lia). split; [|exact LEN].
  pose proof (w_len _ W) as LA.
  assert (OUT : forall i a, get_als st i = Some a -> i <> N_ st). { intros i a E ->. unfold get_als in E. assert (N_ st < length (als st)) by (apply nth_error_Some; congruence). lia. }
  assert (OUTC : forall v c, canonical st v = Some c -> v <> N_ st /\ c <> N_ st).
  { intros v c E. split; intros ->; [apply canon_lt in E; lia|]. apply (canon_idem _ _ _ (w_awf _ W)) in E. apply canon_lt in E. lia. }
  assert (G : forall i x, get_cons (new_uvar st) i = Some x -> x <> Indefinite -> get_cons st i = Some x /\ i <> N_ st).
  { intros i x. rewrite new_get_cons. destruct (Nat.eqb_spec i (N_ st)); [intros E; injection E as <-; congruence|auto]. }
  constructor; rewrite ?LEN.
  - cbn. rewrite app_length. cbn. lia.
  - constructor.
    + intros i j. rewrite !new_get_als by exact LA. destruct (Nat.eqb_spec i (N_ st)); [discriminate|]. intro E.
      destruct (a_back _ (w_awf _ W) _ _ E) as [fwd [E1 I1]]. destruct (Nat.eqb_spec j (N_ st)) as [->|]; [destruct (OUT _ _ E1 eq_refl)|eauto].
    + intros i fwd k. rewrite !new_get_als by exact LA. destruct (Nat.eqb_spec i (N_ st)); [discriminate|]. intros E I.
      pose proof (a_fwd _ (w_awf _ W) _ _ _ E I) as E1. destruct (Nat.eqb_spec k (N_ st)) as [->|]; [destruct (OUT _ _ E1 eq_refl)|exact E1].
    + intros i fwd. rewrite new_get_als by exact LA. destruct (Nat.eqb_spec i (N_ st)); [discriminate|]. apply (a_nodup _ (w_awf _ W)).
  - intros i c E. destruct (G _ _ E ltac:(discriminate)) as [E1 _]. eapply proper_c_le; [|exact (w_con _ W _ _ E1)]. lia.
  - intros id vm l t E I. eapply proper_le; [|exact (w_vm _ W _ _ _ _ E I)]. lia.
  - intros i id E. destruct (G _ _ E ltac:(discriminate)) as [E1 _]. exact (w_id _ W _ _ E1).
  - exact (w_ids _ W).
  - intros i j id E1 E2. destruct (G _ _ E1 ltac:(discriminate)) as [F1 N1]. destruct (G _ _ E2 ltac:(discriminate)) as [F2 N2].
    rewrite !new_canon by exact LA. destruct (Nat.eqb_spec i (N_ st)); [contradiction|]. destruct (Nat.eqb_spec j (N_ st)); [contradiction|]. exact (w_own _ W _ _ _ F1 F2).
  - intros i c x. rewrite new_canon by exact LA. destruct (Nat.eqb_spec i (N_ st)) as [->|NE].
    + intros _. rewrite new_get_cons, Nat.eqb_refl. intro E. injection E as <-. exact I.
    + intros C E. rewrite new_get_cons in E. destruct (Nat.eqb_spec i (N_ st)); [contradiction|]. pose proof (w_kind _ W _ _ _ C E) as K.
      destruct (OUTC _ _ C) as [_ NC]. destruct x; auto; destruct K as [k K]; exists k; rewrite new_get_cons; destruct (Nat.eqb_spec c (N_ st)); congruence.
  - intros i id. rewrite new_canon by exact LA. destruct (Nat.eqb_spec i (N_ st)) as [->|NE].
    + intros _. rewrite new_get_cons, Nat.eqb_refl. discriminate.
    + intros C E. rewrite new_get_cons in E. destruct (Nat.eqb_spec i (N_ st)); [contradiction|]. exact (w_ex _ W _ _ C E).
Qed.
Lemma new_sat s st : wf st -> sat [] s (new_uvar st) <-> sat [] s st.
Proof.
  intro W. pose proof (w_len _ W) as LA. split; intros [A B]; split.
  - intros v c E. apply A. rewrite new_canon by exact LA. destruct (Nat.eqb_spec v (N_ st)) as [->|]; [|exact E]. apply canon_lt in E. lia.
  - intros v cs E NI G. apply (allowed_vms s (new_uvar st) st); [reflexivity|]. apply B; auto.
    + rewrite new_canon by exact LA. destruct (Nat.eqb_spec v (N_ st)) as [->|]; [|exact E]. reflexivity.
    + rewrite new_get_cons. destruct (Nat.eqb_spec v (N_ st)) as [->|]; [|exact G]. apply canon_lt in E. lia.
  - intros v c. rewrite new_canon by exact LA. destruct (Nat.eqb_spec v (N_ st)) as [->|]; [intro E; injection E as <-; reflexivity|apply A].
  - intros v cs. rewrite new_canon, new_get_cons by exact LA. destruct (Nat.eqb_spec v (N_ st)) as [->|].
    + intros _ _ E. injection E as <-. exact I.
    + intros E NI G. apply (allowed_vms s st (new_uvar st)); [reflexivity|]. apply B; auto.
Qed.

(** ** Projections *)
Lemma sound_here s st B v can cs : sat B s st -> canonical st v = Some can -> wf st -> ~ In can B -> get_cons st can = Some cs -> s v = s can /\ allowed s st cs (s can).
Proof. intros [A C] E W NI G. split; [exact (A _ _ E)|]. apply C; auto. exact (canon_idem _ _ _ (w_awf _ W) E). Qed.

(** What a projection request does, once the variable's class is known. *)
Definition asks (st : state) (r : ures unit) (Q : assignment -> Prop) : Prop := sound [] st r (fun _ => True) (fun s _ => Q s).
Lemma asks_weaken st r (Q Q' : assignment -> Prop) : asks st r Q -> (forall s, sat [] s st -> Q s -> Q' s) -> asks st r Q'.
Proof. intros H K st' a E A. destruct (H st' a E A) as [W [S [P F]]]. split; [exact W|]. split; [exact S|]. split; [exact P|]. intros s Hs. destruct (F s Hs). auto. Qed.

Lemma asks_vc n v c st : wf st -> proper_c (N_ st) c -> asks st (ubind (unify_var_constraint ho n [] v c st) (fun _ st1 => UOk st1 tt)) (fun s => obeys s c (s v)).
Proof.
  intros W P. eapply sound_bind; [apply (proj1 (proj2 (soundness ho n))); auto|cbn; auto|]. intros ? st1 W1 S1 _. apply sound_ok; auto.
Qed.
Lemma asks_vu n v t st : wf st -> proper (N_ st) t -> asks st (unify_var_utype ho n [] v t st) (fun s => fits s t (s v)).
Proof. intros W P. apply (soundness ho n); auto. Qed.
Lemma asks_vp n v w st : wf st -> asks st (unify_var_pair ho n [] v w st) (fun s => s v = s w).
Proof. intros W. apply (soundness ho n); auto. Qed.
Lemma asks_set st v can c0 c : wf st -> canonical st v = Some can -> get_cons st can = Some (Invariant c0) -> proper_c (N_ st) c ->
  (forall s g, obeys s c g -> obeys s c0 g) -> asks st (UOk (set_cons can (Invariant c) st) tt) (fun s => obeys s c (s v)).
Proof.
  intros W C G P H st' [] E A. injection E as <-. pose proof (canon_idem _ _ _ (w_awf _ W) C) as CC.
  split; [eapply wf_set_inv; eauto|]. split; [eapply step_set; [apply step_refl|exact CC|intros []]|]. split; [exact I|]. intros s Hs.
  assert (O : obeys s c (s can)). { apply (proj2 Hs can (Invariant c)); auto. rewrite cons_set_cons, Nat.eqb_refl, G. reflexivity. }
  split; [|rewrite (proj1 Hs v can C); exact O].
  apply sat_close with (x := can).
  - eapply sat_change; [| |apply sat_incl with (B := []); [intros ? []|exact Hs]]; [reflexivity|].
    intros w cs Ew NI Gw. rewrite cons_set_cons. destruct (Nat.eqb_spec can w) as [->|]; [destruct NI; left; reflexivity|]. auto.
  - intros cs _ Q. rewrite G in Q. injection Q as <-. apply H. exact O.
Qed.

Lemma one_below n (k : N) v : v < n -> vars_below n [(k, v)] /\ ksorted [(k, v)].
Proof. intro L. split; [|cbn; tauto]. intros k' v'. cbn. destruct (k' =? k)%N; [|discriminate]. intro E. injection E as <-. exact L. Qed.
Lemma insert_below n (k : N) v m : v < n -> vars_below n m /\ ksorted m -> vars_below n (minsert k v m) /\ ksorted (minsert k v m).
Proof.
  intros L [A B]. split; [|now apply ksorted_insert]. intros k' v'. rewrite mget_insert. destruct (k' =? k)%N; [|apply A]. intro E. injection E as <-. exact L.
Qed.

Lemma index_asks n v ix w st : wf st -> v < N_ st -> w < N_ st -> asks st (unify_var_proj_index ho n v ix w st) (fun s => meets s (RIndex v ix w)).
Proof.
  intros W LV LW. unfold unify_var_proj_index. destruct (canonical st v) as [can|] eqn:C; [|apply sound_panic].
  destruct (get_cons st can) as [[|id|[[]| |[]|]]|] eqn:G; try apply sound_panic.
  - eapply asks_weaken; [apply asks_vc; [exact W|exact (one_below _ _ _ LW)]|]. intros s _ [gs [E H]]. exists gs. split; [exact E|].
    specialize (H (N.of_nat ix) w). cbn [mget] in H. rewrite N.eqb_refl, Nat2N.id in H. auto.
  - destruct (nth_error ts ix) as [t|] eqn:ET; [|apply sound_panic].
    pose proof (w_con _ W _ _ G) as [PT _]. apply proper_tuple in PT. rewrite Forall_forall in PT. pose proof (PT _ (nth_error_In _ _ ET)) as Pt.
    eapply asks_weaken; [apply asks_vu; auto|]. intros s Hs F.
    destruct (sound_here s st [] v can _ Hs C W (fun x => x) G) as [E O]. cbn [allowed obeys] in O. apply fits_tuple in O. destruct O as [gs [Eg O]].
    destruct (Forall2_nth _ _ _ O _ _ ET) as [g0 [E0 F0]]. exists gs. split; [congruence|]. rewrite E0. f_equal. exact (fits_fun s _ t Pt _ _ F0 F).
  - destruct (mget (N.of_nat ix) m) as [o|] eqn:EM.
    + eapply asks_weaken; [apply asks_vp; auto|]. intros s Hs F.
      destruct (sound_here s st [] v can _ Hs C W (fun x => x) G) as [E [gs [Eg O]]]. exists gs. split; [congruence|].
      specialize (O _ _ EM). rewrite Nat2N.id in O. congruence.
    + eapply asks_weaken; [eapply asks_set; eauto|].
      * apply insert_below; [exact LW|exact (w_con _ W _ _ G)].
      * intros s g [gs [Eg O]]. exists gs. split; [exact Eg|]. intros k x Ek. apply O. rewrite mget_insert. destruct (N.eqb_spec k (N.of_nat ix)) as [->|]; [congruence|exact Ek].
      * intros s _ [gs [Eg O]]. exists gs. split; [exact Eg|]. specialize (O (N.of_nat ix) w). rewrite mget_insert, N.eqb_refl, Nat2N.id in O. auto.
Qed.
Lemma field_asks n k v f w st : wf st -> v < N_ st -> w < N_ st -> asks st (unify_var_proj_field ho n k v f w st) (fun s => meets s (RField v f w)).
Proof.
  intros W LV LW. destruct k as [|k]; [apply sound_fuel|]. cbn [unify_var_proj_field]. destruct (canonical st v) as [can|] eqn:C; [|apply sound_panic].
  destruct (get_cons st can) as [[|id|[[]| |[]|]]|] eqn:G; try apply sound_panic.
  - eapply asks_weaken; [apply asks_vc; [exact W|exact (one_below _ _ _ LW)]|]. intros s _ [gs [E H]]. exists gs. split; [exact E|].
    specialize (H f w). cbn [mget] in H. rewrite N.eqb_refl in H. auto.
  - pose proof (w_con _ W _ _ G) as [_ X]. discriminate.
  - unfold find_field. destruct (mget f fs) as [t|] eqn:ET; [|apply sound_panic].
    pose proof (w_con _ W _ _ G) as [PT _]. apply proper_record in PT. destruct PT as [_ PT]. rewrite Forall_forall in PT. pose proof (PT _ (mget_in _ _ _ ET)) as Pt. cbn in Pt.
    eapply asks_weaken; [apply asks_vu; auto|]. intros s Hs F.
    destruct (sound_here s st [] v can _ Hs C W (fun x => x) G) as [E O]. cbn [allowed obeys] in O. apply fits_record in O. destruct O as [gs [Eg O]].
    destruct (Forall2_get _ _ _ O _ _ ET) as [g0 [E0 F0]]. exists gs. split; [congruence|]. rewrite E0. f_equal. exact (fits_fun s _ t Pt _ _ F0 F).
  - destruct (mget f m) as [o|] eqn:EM.
    + eapply asks_weaken; [apply asks_vp; auto|]. intros s Hs F.
      destruct (sound_here s st [] v can _ Hs C W (fun x => x) G) as [E [gs [Eg O]]]. exists gs. split; [congruence|].
      specialize (O _ _ EM). congruence.
    + eapply asks_weaken; [eapply asks_set; eauto|].
      * apply insert_below; [exact LW|exact (w_con _ W _ _ G)].
      * intros s g [gs [Eg O]]. exists gs. split; [exact Eg|]. intros k' x Ek. apply O. rewrite mget_insert. destruct (N.eqb_spec k' f) as [->|]; [congruence|exact Ek].
      * intros s _ [gs [Eg O]]. exists gs. split; [exact Eg|]. specialize (O f w). rewrite mget_insert, N.eqb_refl in O. auto.
Qed.
Lemma elem_asks n v w st : wf st -> v < N_ st -> w < N_ st -> asks st (unify_var_proj_elem ho n v w st) (fun s => meets s (RElem v w)).
Proof.
  intros W LV LW. unfold unify_var_proj_elem. destruct (canonical st v) as [can|] eqn:C; [|apply sound_panic].
  destruct (get_cons st can) as [[|id|[[]| |[]|]]|] eqn:G; try apply sound_panic.
  - eapply asks_weaken; [apply asks_vc; [exact W|exact LW]|]. auto.
  - pose proof (w_con _ W _ _ G) as [PT _]. eapply asks_weaken; [apply asks_vu; auto|]. intros s Hs F.
    destruct (sound_here s st [] v can _ Hs C W (fun x => x) G) as [E [g0 [Eg O]]]. cbn. rewrite E, Eg. f_equal. exact (fits_fun s _ t PT _ _ O F).
  - eapply asks_weaken; [apply asks_vp; auto|]. intros s Hs F. destruct (sound_here s st [] v can _ Hs C W (fun x => x) G) as [E O]. cbn in *. congruence.
Qed.
Lemma param_asks n v w st : wf st -> v < N_ st -> w < N_ st -> asks st (unify_var_proj_param ho n v w st) (fun s => meets s (RParam v w)).
Proof.
  intros W LV LW. unfold unify_var_proj_param. destruct (canonical st v) as [can|] eqn:C; [|apply sound_panic].
  destruct (get_cons st can) as [[|id|[[]| |[]|]]|] eqn:G; try apply sound_panic.
  - eapply asks_weaken; [apply asks_vc; [exact W|exact LW]|]. auto.
  - pose proof (w_con _ W _ _ G) as [PT _]. eapply asks_weaken; [apply asks_vu; auto|]. intros s Hs F.
    destruct (sound_here s st [] v can _ Hs C W (fun x => x) G) as [E [g0 [Eg O]]]. cbn. rewrite E, Eg. f_equal. exact (fits_fun s _ t PT _ _ O F).
  - eapply asks_weaken; [apply asks_vp; auto|]. intros s Hs F. destruct (sound_here s st [] v can _ Hs C W (fun x => x) G) as [E O]. cbn in *. congruence.
Qed.

(** ** Variants *)
(** The class of a variable without constraints becomes a union with one variant. *)
Lemma new_union st cv l t : wf st -> canonical st cv = Some cv -> get_cons st cv = Some Indefinite -> proper (N_ st) t ->
  let id := next_vm st in
  let st1 := St (cons st) (als st) (vset id [(l, t)] (vms st)) (S id) (again st) in
  wf (set_cons cv (Variant id) st1).
Proof.
  intros W C G P id st1.
  assert (GC : forall x, get_cons (set_cons cv (Variant id) st1) x = if cv =? x then Some (Variant id) else get_cons st x).
  { intro x. rewrite cons_set_cons. change (get_cons st1 x) with (get_cons st x). destruct (Nat.eqb_spec cv x) as [<-|]; [rewrite G|]; reflexivity. }
  assert (LEN : N_ (set_cons cv (Variant id) st1) = N_ st) by apply sn_length.
  assert (OLD : forall x k, get_cons st x = Some (Variant k) -> k <> id) by (intros x k E ->; apply (w_id _ W) in E; unfold id in E; lia).
  constructor; rewrite ?LEN.
  - exact (w_len _ W).
  - destruct (w_awf _ W). constructor; auto.
  - intros i c. rewrite GC. destruct (cv =? i); [discriminate|]. apply (w_con _ W).
  - intros k vm a b. cbn. rewrite vget_set. destruct (k =? id); [|apply (w_vm _ W)]. intro E. injection E as <-. intros [E|[]]. injection E as <- <-. exact P.
  - intros i k. rewrite GC. change (next_vm (set_cons cv (Variant id) st1)) with (S id). destruct (cv =? i); [intro E; injection E as <-; lia|].
    intro E. apply (w_id _ W) in E. unfold id. lia.
  - intros k vm. cbn. rewrite vget_set. destruct (Nat.eqb_spec k id) as [->|]; [lia|]. intro E. apply (w_ids _ W) in E. unfold id. lia.
  - intros i j k. rewrite !GC. change (canonical (set_cons cv (Variant id) st1)) with (canonical st). destruct (Nat.eqb_spec cv i) as [<-|]; destruct (Nat.eqb_spec cv j) as [<-|]; auto.
    + intros E1 E2. injection E1 as <-. destruct (OLD _ _ E2 eq_refl).
    + intros E1 E2. injection E2 as <-. destruct (OLD _ _ E1 eq_refl).
    + apply (w_own _ W).
  - intros i c x. change (canonical (set_cons cv (Variant id) st1)) with (canonical st). rewrite !GC. intro Ec. destruct (Nat.eqb_spec cv i) as [<-|NI].
    + intro E. injection E as <-. rewrite C in Ec. injection Ec as <-. rewrite Nat.eqb_refl. eauto.
    + intro E. pose proof (w_kind _ W _ _ _ Ec E) as K. destruct (Nat.eqb_spec cv c) as [<-|]; [|exact K].
      rewrite G in K. destruct x; auto; destruct K; discriminate.
  - intros i k. change (canonical (set_cons cv (Variant id) st1)) with (canonical st). rewrite GC. cbn. rewrite vget_set. intro Ec. destruct (Nat.eqb_spec cv i) as [<-|NI].
    + intro E. injection E as <-. rewrite Nat.eqb_refl. eauto.
    + intro E. destruct (Nat.eqb_spec k id) as [->|]; [eauto|]. exact (w_ex _ W _ _ Ec E).
Qed.

(** Setting the other members of the class. *)
Lemma set_members id vm cv : forall l st, wf st -> get_cons st cv = Some (Variant id) -> vget id (vms st) = Some vm ->
  (forall x, In x l -> canonical st x = Some cv) -> (forall x k, In x l -> get_cons st x = Some (Variant k) -> k = id) ->
  (forall x c, In x l -> get_cons st x <> Some (Invariant c)) -> ksorted vm ->
  exists st', foldU (fun _ ix st3 => set_uvar_vmid ix id st3) tt l st = UOk st' tt /\ wf st' /\ N_ st' = N_ st /\ again st' = again st /\
    vms st' = vms st /\ (forall x, canonical st' x = canonical st x) /\
    (forall x, get_cons st' x = get_cons st x \/ In x l /\ get_cons st' x = Some (Variant id)).
Proof.
  induction l as [|x l IH]; intros st W G V HC HV HI KS.
  - exists st. cbn. repeat (split; [auto|]). auto.
  - cbn [foldU]. assert (L : x < N_ st) by exact (canon_lt_wf _ _ _ W (HC x (or_introl eq_refl))). destruct (cons_range st x L) as [cs Gx].
    assert (STEP : set_uvar_vmid x id st = UOk (set_cons x (Variant id) st) tt).
    { unfold set_uvar_vmid. rewrite V, Gx. destruct cs as [|k|c]; [reflexivity| |destruct (HI x c (or_introl eq_refl) Gx)].
      rewrite (HV x k (or_introl eq_refl) Gx), V. rewrite (proj2 (forallb_forall _ vm)); [reflexivity|].
      intros e I. rewrite (ksorted_get _ _ KS I). reflexivity. }
    rewrite STEP. cbn [ubind].
    assert (W1 : wf (set_cons x (Variant id) st)) by (eapply wf_set_var; [exact W|exact (HC x (or_introl eq_refl))|exact G]).
    assert (GC : forall y, get_cons (set_cons x (Variant id) st) y = if x =? y then Some (Variant id) else get_cons st y).
    { intro y. rewrite cons_set_cons. destruct (Nat.eqb_spec x y) as [<-|]; [rewrite Gx|]; reflexivity. }
    destruct (IH (set_cons x (Variant id) st) W1) as [st' [E [W' [L' [A' [V' [C' G']]]]]]]; auto.
    + rewrite GC. destruct (x =? cv); auto.
    + intros y I. apply HC. right. exact I.
    + intros y k I. rewrite GC. destruct (x =? y); [congruence|]. apply HV. right. exact I.
    + intros y c I. rewrite GC. destruct (x =? y); [discriminate|]. apply HI. right. exact I.
    + exists st'. rewrite E. split; [reflexivity|]. split; [exact W'|]. split; [rewrite L'; apply sn_length|]. split; [exact A'|]. split; [exact V'|]. split; [exact C'|].
      intro y. destruct (G' y) as [E'|[I E']]; [|right; split; [right; exact I|exact E']].
      rewrite E', GC. destruct (Nat.eqb_spec x y) as [<-|]; [right; split; [left; reflexivity|reflexivity]|left; reflexivity].
Qed.

Lemma fwd_class st cv a x : wf st -> canonical st cv = Some cv -> get_als st cv = Some a -> In x (fwd_refs a) -> canonical st x = Some cv.
Proof.
  intros W C E I. destruct a as [|j|f]; cbn in I; try tauto. pose proof (a_fwd _ (w_awf _ W) _ _ _ E I) as K. unfold canonical. rewrite K. reflexivity.
Qed.

(** The outcome when the class had no constraints. *)
Lemma variant_new n v cv l t st : wf st -> canonical st v = Some cv -> get_cons st cv = Some Indefinite -> proper (N_ st) t ->
  exists st', add_uvar_variant ho n v l t st = UOk st' tt /\ wf st' /\ N_ st' = N_ st /\ again st' = again st /\
    (forall x, canonical st' x = canonical st x) /\ get_cons st' cv = Some (Variant (next_vm st)) /\
    (forall x, canonical st x <> Some cv -> get_cons st' x = get_cons st x) /\
    (forall x, get_cons st' x = get_cons st x \/ get_cons st' x = Some (Variant (next_vm st))) /\
    (forall k, vget k (vms st') = if k =? next_vm st then Some [(l, t)] else vget k (vms st)).
Proof.
  intros W C G P. pose proof (canon_idem _ _ _ (w_awf _ W) C) as CC.
  unfold add_uvar_variant. rewrite C, G. cbv zeta. set (id := next_vm st). set (st1 := St (cons st) (als st) (vset id [(l, t)] (vms st)) (S id) (again st)).
  assert (V1 : vget id (vms st1) = Some [(l, t)]) by (cbn; rewrite vget_set, Nat.eqb_refl; reflexivity).
  assert (STEP : set_uvar_vmid cv id st1 = UOk (set_cons cv (Variant id) st1) tt).
  { unfold set_uvar_vmid. rewrite V1. change (get_cons st1 cv) with (get_cons st cv). rewrite G. reflexivity. }
  rewrite STEP. cbn [ubind]. pose proof (new_union st cv l t W CC G P) as W2. cbv zeta in W2. fold id in W2. fold st1 in W2.
  set (st2 := set_cons cv (Variant id) st1) in *.
  assert (GC : forall x, get_cons st2 x = if cv =? x then Some (Variant id) else get_cons st x).
  { intro x. unfold st2. rewrite cons_set_cons. change (get_cons st1 x) with (get_cons st x). destruct (Nat.eqb_spec cv x) as [<-|]; [rewrite G|]; reflexivity. }
  change (get_als st2 cv) with (get_als st cv). destruct (get_als st cv) as [a|] eqn:EA; [|unfold canonical in CC; rewrite EA in CC; discriminate].
  assert (CLS : forall x, In x (shuffle ho (fwd_refs a)) -> canonical st x = Some cv).
  { intros x I. eapply fwd_class; eauto. eapply Permutation_in; [apply shuffle_perm|exact I]. }
  assert (IND : forall x, canonical st x = Some cv -> get_cons st x = Some Indefinite).
  { intros x Cx. destruct (cons_range st x (canon_lt_wf _ _ _ W Cx)) as [y Gy]. pose proof (w_kind _ W _ _ _ Cx Gy) as K. rewrite G in K.
    destruct y; [exact Gy|destruct K; discriminate|destruct K; discriminate]. }
  destruct (set_members id [(l, t)] cv (shuffle ho (fwd_refs a)) st2 W2) as [st' [E [W' [L' [A' [V' [C' G']]]]]]].
  - rewrite GC, Nat.eqb_refl. reflexivity.
  - exact V1.
  - exact CLS.
  - intros x k I. rewrite GC, (IND x (CLS x I)). destruct (cv =? x); congruence.
  - intros x c I. rewrite GC, (IND x (CLS x I)). destruct (cv =? x); discriminate.
  - cbn. tauto.
  - exists st'. split; [exact E|]. split; [exact W'|]. split; [rewrite L'; apply sn_length|]. split; [exact A'|]. split; [exact C'|]. split; [|split; [|split]].
    + destruct (G' cv) as [X|[_ X]]; rewrite X; [|reflexivity]. rewrite GC, Nat.eqb_refl. reflexivity.
    + intros x NX. destruct (G' x) as [X|[I X]]; [|destruct NX; exact (CLS x I)]. rewrite X, GC. destruct (Nat.eqb_spec cv x) as [<-|]; [contradiction|reflexivity].
    + intros x. destruct (G' x) as [X|[I X]]; [|auto]. rewrite X, GC. destruct (Nat.eqb_spec cv x) as [<-|]; auto.
    + intro k. rewrite V'. cbn. rewrite vget_set. reflexivity.
Qed.

Lemma utype_eqb_refl t : utype_eqb t t = true.
Proof.
  induction t using utype_ind2; cbn; auto; try apply Nat.eqb_refl.
  - apply basetype_eqb_eq. reflexivity.
  - induction H as [|t ts E H IH]; cbn; auto. rewrite E. exact IH.
  - induction H as [|[l t] ts E H IH]; cbn; auto. cbn in E. rewrite N.eqb_refl, E. exact IH.
  - rewrite IHt. apply Nat.eqb_refl.
  - apply mrep_eqb_eq. reflexivity.
Qed.
(** A type without unknown parts is a type. *)
Lemma fits_some s n t : proper n t -> exists g, fits s t g.
Proof.
  induction t using utype_ind2; intro P; try (destruct P; fail); try (cbn; eauto; fail).
  - assert (X : exists gs, Forall2 (fits s) ts gs).
    { apply proper_tuple in P. induction ts as [|t ts IH]; [exists []; constructor|]. inversion H; subst. inversion P; subst. destruct IH as [gs G]; auto. destruct H2 as [g F]; auto. exists (g :: gs). constructor; auto. }
    destruct X as [gs F]. exists (GTuple gs). apply fits_tuple. eauto.
  - assert (X : exists gs, Forall2 (fits_f s) fs gs).
    { apply proper_record in P. destruct P as [_ P]. induction fs as [|[l t] ts IH]; [exists []; constructor|]. inversion H; subst. inversion P; subst. destruct IH as [gs G]; auto. destruct H2 as [g F]; auto. exists ((l, g) :: gs). constructor; auto. split; auto. }
    destruct X as [gs F]. exists (GRecord gs). apply fits_record. eauto.
  - destruct (IHt P) as [g F]. exists (GSeq g). cbn. eauto.
  - destruct (IHt P) as [g F]. exists (GOption g). cbn. eauto.
  - destruct (IHt P) as [g F]. exists (GPhantom g). cbn. eauto.
Qed.
(** The map of a class is written. *)
Lemma own_write st cv id vm vm' : wf st -> canonical st cv = Some cv -> get_cons st cv = Some (Variant id) -> vget id (vms st) = Some vm ->
  (forall k t, In (k, t) vm' -> proper (N_ st) t) ->
  let st' := set_vms (vset id vm' (vms st)) st in
  wf st' /\ (forall s, sat [] s st' -> sat [cv] s st /\ has_variants s vm' (s cv)) /\
  (forall s, satA s st -> has_variants s vm' (s cv) -> satA s st').
Proof.
  intros W C G V P st'.
  assert (OWN : forall x, get_cons st x = Some (Variant id) -> canonical st x = Some cv) by (intros x E; rewrite (w_own _ W _ _ _ E G); exact C).
  split; [|split].
  - apply wf_set_vms; [exact W| |].
    + intros k vm0. rewrite vget_set. destruct (Nat.eqb_spec k id) as [->|].
      * intro E. injection E as <-. split; [exact (w_ids _ W _ _ V)|exact P].
      * intro E. split; [exact (w_ids _ W _ _ E)|]. intros k' t. exact (w_vm _ W _ _ k' t E).
    + intros x k Ex Gx. rewrite vget_set. destruct (k =? id); eauto. exact (w_ex _ W _ _ Ex Gx).
  - intros s Hs. split.
    + eapply sat_change; [| |apply sat_incl with (B := []); [intros ? []|exact Hs]]; [reflexivity|]. intros x cs Ex NI Gx. split; [exact Gx|].
      intros k ->. cbn. rewrite vget_set. destruct (Nat.eqb_spec k id) as [->|]; [|reflexivity].
      rewrite (OWN _ Gx) in Ex. injection Ex as <-. destruct NI. left. reflexivity.
    + destruct (proj2 Hs cv (Variant id) C (fun x => x) G) as [vm0 [E0 K]]. cbn in E0. rewrite vget_set, Nat.eqb_refl in E0. injection E0 as <-. exact K.
  - intros s [[A B] D] H. split; [split|]; [exact A| |exact D].
    intros x cs Ex NI Gx. change (canonical st x = Some x) in Ex. change (get_cons st x = Some cs) in Gx. pose proof (B x cs Ex NI Gx) as K.
    destruct cs as [|k|c]; try exact K. cbn [allowed] in K |- *. unfold st'. cbn [vms set_vms]. rewrite vget_set. destruct (Nat.eqb_spec k id) as [->|]; [|exact K].
    exists vm'. split; [reflexivity|]. rewrite (OWN _ Gx) in Ex. injection Ex as <-. exact H.
Qed.

Lemma variant_sound n v l t st : wf st -> v < N_ st -> proper (N_ st) t ->
  forall st', add_uvar_variant ho n v l t st = UOk st' tt -> again st' = false ->
  wf st' /\ N_ st' = N_ st /\ forall s, sat [] s st' -> sat [] s st /\ meets s (RVariant v l t).
Proof.
  intros W L P st' E A. destruct (wf_canon st v W L) as [cv [C [CC LC]]]. destruct (cons_range st cv LC) as [cs G].
  destruct cs as [|id|c]; [| |unfold add_uvar_variant in E; rewrite C, G in E; discriminate].
  - destruct (variant_new n v cv l t st W C G P) as [st0 [E0 [W0 [N0 [A0 [C0 [G0 [GO [_ V0]]]]]]]]]. rewrite E in E0. injection E0 as <-.
    split; [exact W0|]. split; [exact N0|]. intros s Hs. split.
    + apply sat_close with (x := cv).
      * eapply sat_change; [| |apply sat_incl with (B := []); [intros ? []|exact Hs]]; [intro x; symmetry; apply C0|].
        intros x cs Ex NI Gx. split. { rewrite GO; [exact Gx|]. rewrite Ex. intro X. injection X as ->. apply NI. left. reflexivity. }
        intros k ->. rewrite V0. destruct (Nat.eqb_spec k (next_vm st)) as [->|]; [|reflexivity]. apply (w_id _ W) in Gx. lia.
      * intros cs _ Q. rewrite G in Q. injection Q as <-. exact I.
    + assert (Cv : canonical st' cv = Some cv) by (rewrite C0; exact CC).
      destruct (proj2 Hs cv _ Cv (fun x => x) G0) as [vm [Ev [bs [Eb H]]]]. rewrite V0, Nat.eqb_refl in Ev. injection Ev as <-.
      destruct (H l t (or_introl eq_refl)) as [g [Eg Fg]]. exists bs, g. rewrite (proj1 Hs v cv) by (rewrite C0; exact C). auto.
  - unfold add_uvar_variant in E. rewrite C, G in E. destruct (w_ex _ W _ _ CC G) as [vm V]. rewrite V in E.
    assert (PVM : forall k t, In (k, t) vm -> proper (N_ st) t) by (intros k t0; exact (w_vm _ W _ _ k t0 V)).
    destruct (mget l vm) as [prior|] eqn:EM.
    + destruct (unify_utype ho n [cv] prior t st) as [st1 t1| | |] eqn:EU; cbn [ubind] in E; try discriminate.
      assert (A1 : again st1 = false). { destruct (vget id (vms st1)) as [vm1|]; [|discriminate]. destruct (mget l vm1); [|discriminate]. destruct (utype_eqb t1 u); injection E as <-; exact A. }
      pose proof (PVM _ _ (mget_in _ _ _ EM)) as PP.
      destruct (proj1 (soundness ho n) [cv] prior t st W PP P st1 t1 EU A1) as [W1 [S1 [[PT1 _] F1]]].
      destruct (s_frame _ _ _ S1 cv cv (or_introl eq_refl) CC) as [C1 [G1 V1]]. specialize (V1 _ G). rewrite G in G1. rewrite V in V1.
      rewrite V1, EM in E.
      assert (BACK : forall s bs g0, sat [cv] s st1 -> s cv = GUnion bs -> mget l bs = Some g0 -> fits s t1 g0 ->
         (forall k t', In (k, t') vm -> k <> l \/ t' <> prior -> exists g, mget k bs = Some g /\ fits s t' g) ->
         sat [] s st /\ meets s (RVariant v l t)).
      { intros s bs g0 Hs Eb Eg Ft H. destruct (F1 s Hs) as [Hs0 HF]. destruct (HF _ Ft) as [Fp Fi]. split.
        - apply sat_close with (x := cv); [exact Hs0|]. intros cs _ Q. rewrite G in Q. injection Q as <-. exists vm. split; [exact V|]. exists bs. split; [exact Eb|].
          intros k t' I. destruct (N.eq_dec k l) as [->|]; [|auto]. destruct (utype_eqb t' prior) eqn:EQ; [apply utype_eqb_sound in EQ; subst; eauto|].
          apply (H _ _ I). right. intros ->. assert (X : utype_eqb prior prior = true) by apply utype_eqb_refl. congruence.
        - exists bs, g0. rewrite (proj1 Hs0 v cv C). auto. }
      destruct (utype_eqb t1 prior) eqn:EQ; injection E as <-.
      * apply utype_eqb_sound in EQ. subst t1. split; [exact W1|]. split; [exact (s_len _ _ _ S1)|]. intros s Hs.
        destruct (proj2 Hs cv _ C1 (fun x => x) G1) as [vm0 [E0 [bs [Eb H]]]]. rewrite V1 in E0. injection E0 as <-.
        destruct (H l prior (mget_in _ _ _ EM)) as [g0 [Eg Fg]]. eapply BACK; eauto. eapply sat_incl; [|exact Hs]. intros ? [].
      * destruct (own_write st1 cv id vm (minsert l t1 vm) W1 C1 G1 V1) as [W2 [H2 _]].
        { intros k t' I. rewrite (s_len _ _ _ S1). apply minsert_in in I. destruct I as [I|I]; [injection I as -> ->; exact PT1|exact (PVM _ _ I)]. }
        split; [exact W2|]. split; [exact (s_len _ _ _ S1)|]. intros s Hs. destruct (H2 s Hs) as [Hs1 [bs [Eb H]]].
        destruct (H l t1 (minsert_new _ _ _)) as [g0 [Eg Fg]]. eapply BACK; eauto.
        intros k t' I NE. destruct (minsert_old l t1 vm k t' I) as [J|[-> J]]; [auto|]. rewrite EM in J. injection J as <-. destruct NE; congruence.
    + injection E as <-. destruct (own_write st cv id vm (minsert l t vm) W CC G V) as [W2 [H2 _]].
      { intros k t' I. apply minsert_in in I. destruct I as [I|I]; [injection I as -> ->; exact P|exact (PVM _ _ I)]. }
      split; [exact W2|]. split; [reflexivity|]. intros s Hs. destruct (H2 s Hs) as [Hs1 [bs [Eb H]]]. split.
      * apply sat_close with (x := cv); [exact Hs1|]. intros cs _ Q. rewrite G in Q. injection Q as <-. exists vm. split; [exact V|]. exists bs. split; [exact Eb|].
        intros k t' I. destruct (minsert_old l t vm k t' I) as [J|[-> J]]; [auto|congruence].
      * destruct (H l t (minsert_new _ _ _)) as [g0 [Eg Fg]]. exists bs, g0. rewrite (proj1 Hs1 v cv C). auto.
Qed.

(** ** Soundness of a request *)
Definition after (r : request) (n : nat) : nat := match r with RNew => S n | _ => n end.
Theorem perform_sound n r st : wf st -> proper_request (N_ st) r ->
  forall st', perform ho n r st = UOk st' tt -> again st' = false ->
  wf st' /\ N_ st' = after r (N_ st) /\ forall s, sat [] s st' -> sat [] s st /\ meets s r.
Proof.
  intros W PR st' E A.
  assert (ASK : forall (x : ures unit) Q, asks st x Q -> x = UOk st' tt -> wf st' /\ N_ st' = N_ st /\ forall s, sat [] s st' -> sat [] s st /\ Q s).
  { intros x Q H EX. destruct (H st' tt EX A) as [W' [S' [_ F]]]. split; [exact W'|]. split; [exact (s_len _ _ _ S')|exact F]. }
  destruct r; cbn [perform after proper_request] in *.
  - injection E as <-. destruct (new_wf st W) as [W' L']. split; [exact W'|]. split; [exact L'|]. intros s Hs. split; [apply new_sat; auto|exact I].
  - eapply ASK; [|exact E]. apply asks_vp; auto.
  - eapply ASK; [|exact E]. apply asks_vu; tauto.
  - destruct PR as [P1 P2]. eapply ASK; [|exact E]. unfold asks. eapply sound_bind; [apply (soundness ho n); auto|cbn; auto|].
    intros t0 st1 W1 S1 [P0 _]. apply sound_ok; auto. intros s _ H. cbn.
    assert (X : exists g, fits s t0 g) by (apply (fits_some s (N_ st)); exact P0). destruct X as [g F]. exists g. auto.
  - destruct PR as [P1 P2]. eapply ASK; [|exact E]. unfold asks, unify_var_baseset. eapply asks_weaken; [apply asks_vc; [exact W|now apply bs_constraint_proper]|].
    intros s _ O. apply bs_constraint_obeys in O; auto.
  - destruct PR as [P1 P2]. eapply ASK; [|exact E]. unfold asks, unify_var_intset. eapply asks_weaken; [apply asks_vc; [exact W|now apply is_constraint_proper]|].
    intros s _ O. apply is_constraint_obeys in O; auto.
  - eapply variant_sound; eauto; tauto.
  - eapply ASK; [|exact E]. apply index_asks; tauto.
  - eapply ASK; [|exact E]. apply field_asks; tauto.
  - eapply ASK; [|exact E]. apply elem_asks; tauto.
  - eapply ASK; [|exact E]. apply param_asks; tauto.
Qed.

(** ** Completeness of a request *)
Section Complete.
Variable s : assignment.
Notation pre := (pre s).
Notation comp := (comp s).

Lemma nothing_above k : above s [] k. Proof. intros b []. Qed.
Lemma comp_vc n v c st : pre st -> v < N_ st -> proper_c (N_ st) c -> obeys s c (s v) ->
  comp (10 * size (s v) + 3 <= n) (ubind (unify_var_constraint ho n [] v c st) (fun _ st1 => UOk st1 tt)) (fun _ => True).
Proof.
  intros P L PC O. eapply comp_bind; [apply (proj1 (proj2 (soundness ho n)) []); [apply P|exact PC]|apply (proj1 (proj2 (completeness ho s n))); auto; apply nothing_above|].
  intros c0 st1 P1 _ _ _. apply comp_ok; auto.
Qed.
Lemma comp_vu n v t st : pre st -> v < N_ st -> proper (N_ st) t -> fits s t (s v) ->
  comp (10 * size (s v) + 5 <= n) (unify_var_utype ho n [] v t st) (fun _ => True).
Proof. intros P L PT F. apply (proj1 (proj2 (proj2 (proj2 (completeness ho s n))))); auto. apply nothing_above. Qed.
Lemma comp_vp n v w st : pre st -> v < N_ st -> w < N_ st -> s v = s w ->
  comp (10 * size (s v) + 4 <= n) (unify_var_pair ho n [] v w st) (fun _ => True).
Proof. intros P L PT F. apply (proj1 (proj2 (proj2 (proj2 (proj2 (completeness ho s n)))))); auto. apply nothing_above. Qed.

(** What the constraint of a variable's class says. *)
Lemma pre_class st v : pre st -> v < N_ st -> exists can cs, canonical st v = Some can /\ canonical st can = Some can /\ get_cons st can = Some cs /\
  s v = s can /\ allowed s st cs (s can) /\ can < N_ st /\ match cs with Invariant c => proper_c (N_ st) c | _ => True end.
Proof.
  intros P L. destruct (wf_canon st v (p_wf _ _ P) L) as [can [C [CC LC]]]. destruct (cons_range st can LC) as [cs G].
  exists can, cs. split; [exact C|]. split; [exact CC|]. split; [exact G|]. split; [exact (pre_alias _ _ _ _ P C)|]. split; [exact (pre_con _ _ _ _ P CC G)|]. split; [exact LC|].
  destruct cs; auto. exact (w_con _ (p_wf _ _ P) _ _ G).
Qed.
Ltac clash AL Ev := exfalso; rewrite Ev in AL; cbn [allowed obeys fits has_shape] in AL; unfold has_variants in AL;
  repeat match type of AL with
         | exists _, _ => let x := fresh "x" in let K := fresh "K" in destruct AL as [x AL]
         | _ /\ _ => let K := fresh "K" in first [destruct AL as [AL _]; discriminate AL | destruct AL as [_ AL]]
         end; first [discriminate AL | match type of AL with _ = ground_base ?b => destruct b; discriminate AL end].

Lemma comp_set st can c : pre st -> obeys s c (s can) -> comp True (UOk (set_cons can (Invariant c) st) tt) (fun _ => True).
Proof. intros P O. cbn. split; [exact (p_again _ _ P)|]. split; [apply satA_set_inv; [exact (p_sat _ _ P)|exact O]|exact I]. Qed.

Lemma comp_index n v ix w st : pre st -> v < N_ st -> w < N_ st -> meets s (RIndex v ix w) ->
  comp (10 * size (s v) + 5 <= n) (unify_var_proj_index ho n v ix w st) (fun _ => True).
Proof.
  intros P LV LW [gs [Ev Ew]]. assert (SZ : size (s w) < size (s v)). { rewrite Ev. apply size_tuple. eapply nth_error_In. exact Ew. }
  destruct (pre_class st v P LV) as [can [cs [C [CC [G [EQ [AL [LC PC]]]]]]]]. unfold unify_var_proj_index. rewrite C, G. rewrite EQ in Ev.
  destruct cs as [|id|[[]| |[]|]]; try (destruct PC as [[] _]; fail); try (destruct PC; discriminate); try (clash AL Ev; fail).
  - eapply comp_weaken; [apply comp_vc; auto; [exact (one_below _ _ _ LW)|]|lia|auto]. rewrite EQ. exists gs. split; [exact Ev|]. cbn [mget]. intros k x.
    destruct (N.eqb_spec k (N.of_nat ix)) as [->|]; [|discriminate]. intro E. injection E as <-. rewrite Nat2N.id. exact Ew.
  - cbn [allowed obeys] in AL. apply fits_tuple in AL. destruct AL as [gs' [Eg F]]. rewrite Ev in Eg. injection Eg as <-.
    destruct (nth_error ts ix) as [t|] eqn:ET.
    + destruct (Forall2_nth _ _ _ F _ _ ET) as [g0 [E0 F0]]. rewrite Ew in E0. injection E0 as <-. destruct PC as [PT _]. apply proper_tuple in PT. rewrite Forall_forall in PT.
      eapply comp_weaken; [apply comp_vu; auto; exact (PT _ (nth_error_In _ _ ET))|lia|auto].
    + apply nth_error_None in ET. rewrite (Forall2_len F) in ET. apply nth_error_None in ET. congruence.
  - cbn [allowed obeys has_shape] in AL. destruct AL as [gs' [Eg F]]. rewrite Ev in Eg. injection Eg as <-.
    destruct (mget (N.of_nat ix) m) as [o|] eqn:EM.
    + pose proof (F _ _ EM) as E0. rewrite Nat2N.id in E0. eapply comp_weaken; [apply comp_vp; auto; [exact (proj1 PC _ _ EM)|congruence]|lia|auto].
    + eapply comp_weaken; [apply comp_set; [exact P|]|auto|auto]. exists gs. split; [exact Ev|]. intros k x. rewrite mget_insert.
      destruct (N.eqb_spec k (N.of_nat ix)) as [->|]; [|apply F]. intro E. injection E as <-. rewrite Nat2N.id. exact Ew.
Qed.
Lemma comp_field n v f w st : pre st -> v < N_ st -> w < N_ st -> meets s (RField v f w) ->
  comp (10 * size (s v) + 5 <= n) (unify_var_proj_field ho n n v f w st) (fun _ => True).
Proof.
  intros P LV LW [gs [Ev Ew]]. assert (SZ : size (s w) < size (s v)). { rewrite Ev. apply mget_in in Ew. exact (size_record _ _ Ew). }
  destruct (pre_class st v P LV) as [can [cs [C [CC [G [EQ [AL [LC PC]]]]]]]]. destruct n as [|k]; [cbn; lia|]. generalize (S k) as n. intro n.
  cut (forall k, comp (10 * size (s v) + 5 <= n) (unify_var_proj_field ho n (S k) v f w st) (fun _ => True)).
  { intro H. destruct n as [|n']; [cbn; lia|apply H]. }
  clear k. intro k. cbn [unify_var_proj_field]. rewrite C, G. rewrite EQ in Ev.
  destruct cs as [|id|[[]| |[]|]]; try (destruct PC as [[] _]; fail); try (destruct PC; discriminate); try (clash AL Ev; fail).
  - eapply comp_weaken; [apply comp_vc; auto; [exact (one_below _ _ _ LW)|]|lia|auto]. rewrite EQ. exists gs. split; [exact Ev|]. cbn [mget]. intros k' x.
    destruct (N.eqb_spec k' f) as [->|]; [|discriminate]. intro E. injection E as <-. exact Ew.
  - cbn [allowed obeys] in AL. apply fits_record in AL. destruct AL as [gs' [Eg F]]. rewrite Ev in Eg. injection Eg as <-.
    unfold find_field. destruct (mget f fs) as [t|] eqn:ET.
    + destruct (Forall2_get _ _ _ F _ _ ET) as [g0 [E0 F0]]. rewrite Ew in E0. injection E0 as <-. destruct PC as [PT _]. apply proper_record in PT. destruct PT as [_ PT]. rewrite Forall_forall in PT.
      eapply comp_weaken; [apply comp_vu; auto; exact (PT _ (mget_in _ _ _ ET))|lia|auto].
    + destruct (fits_key _ _ _ _ _ F Ew) as [t I]. destruct (mget_none _ _ ET _ I).
  - cbn [allowed obeys has_shape] in AL. destruct AL as [gs' [Eg F]]. rewrite Ev in Eg. injection Eg as <-.
    destruct (mget f m) as [o|] eqn:EM.
    + pose proof (F _ _ EM) as E0. eapply comp_weaken; [apply comp_vp; auto; [exact (proj1 PC _ _ EM)|congruence]|lia|auto].
    + eapply comp_weaken; [apply comp_set; [exact P|]|auto|auto]. exists gs. split; [exact Ev|]. intros k' x. rewrite mget_insert.
      destruct (N.eqb_spec k' f) as [->|]; [|apply F]. intro E. injection E as <-. exact Ew.
Qed.
Lemma comp_elem_r n v w st : pre st -> v < N_ st -> w < N_ st -> meets s (RElem v w) ->
  comp (10 * size (s v) + 5 <= n) (unify_var_proj_elem ho n v w st) (fun _ => True).
Proof.
  intros P LV LW Ev. cbn in Ev. assert (SZ : size (s w) < size (s v)) by (rewrite Ev; cbn; lia).
  destruct (pre_class st v P LV) as [can [cs [C [CC [G [EQ [AL [LC PC]]]]]]]]. unfold unify_var_proj_elem. rewrite C, G. rewrite EQ in Ev.
  destruct cs as [|id|[[]| |[]|]]; try (destruct PC as [[] _]; fail); try (destruct PC; discriminate); try (clash AL Ev; fail).
  - eapply comp_weaken; [apply comp_vc; auto; cbn; congruence|lia|auto].
  - destruct AL as [g0 [E0 F0]]. rewrite Ev in E0. injection E0 as <-. eapply comp_weaken; [apply comp_vu; auto; exact (proj1 PC)|lia|auto].
  - cbn in AL. eapply comp_weaken; [apply comp_vp; auto; congruence|lia|auto].
Qed.
Lemma comp_param_r n v w st : pre st -> v < N_ st -> w < N_ st -> meets s (RParam v w) ->
  comp (10 * size (s v) + 5 <= n) (unify_var_proj_param ho n v w st) (fun _ => True).
Proof.
  intros P LV LW Ev. cbn in Ev. assert (SZ : size (s w) < size (s v)) by (rewrite Ev; cbn; lia).
  destruct (pre_class st v P LV) as [can [cs [C [CC [G [EQ [AL [LC PC]]]]]]]]. unfold unify_var_proj_param. rewrite C, G. rewrite EQ in Ev.
  destruct cs as [|id|[[]| |[]|]]; try (destruct PC as [[] _]; fail); try (destruct PC; discriminate); try (clash AL Ev; fail).
  - eapply comp_weaken; [apply comp_vc; auto; cbn; congruence|lia|auto].
  - destruct AL as [g0 [E0 F0]]. rewrite Ev in E0. injection E0 as <-. eapply comp_weaken; [apply comp_vu; auto; exact (proj1 PC)|lia|auto].
  - cbn in AL. eapply comp_weaken; [apply comp_vp; auto; congruence|lia|auto].
Qed.
Lemma comp_variant n v l t st : pre st -> v < N_ st -> proper (N_ st) t -> meets s (RVariant v l t) ->
  comp (10 * size (s v) + 5 <= n) (add_uvar_variant ho n v l t st) (fun _ => True).
Proof.
  intros P LV PT [bs [g [Ev [Eg Fg]]]]. assert (SZ : size g < size (s v)). { rewrite Ev. apply mget_in in Eg. exact (size_union _ _ Eg). }
  destruct (pre_class st v P LV) as [cv [cs [C [CC [G [EQ [AL [LC PC]]]]]]]]. pose proof (p_wf _ _ P) as W.
  destruct cs as [|id|c].
  - destruct (variant_new n v cv l t st W C G PT) as [st' [E [W' [N' [A' [C' [G' [GO [GG V']]]]]]]]]. rewrite E. cbn.
    split; [rewrite A'; exact (p_again _ _ P)|]. split; [|exact I]. destruct (p_sat _ _ P) as [[A B] D]. split; [split|].
    + intros x c. rewrite C'. apply A.
    + intros x cs Ex NI Gx. rewrite C' in Ex. destruct (Nat.eq_dec x cv) as [->|NE].
      * rewrite G' in Gx. injection Gx as <-. exists [(l, t)]. rewrite V', Nat.eqb_refl. split; [reflexivity|]. exists bs. split; [congruence|].
        intros k t' [X|[]]. injection X as <- <-. eauto.
      * rewrite GO in Gx by congruence. eapply allowed_vms; [|exact (B x cs Ex NI Gx)]. intros k ->. rewrite V'. destruct (Nat.eqb_spec k (next_vm st)) as [->|]; [|reflexivity].
        apply (w_id _ W) in Gx. lia.
    + intros x c Gx. destruct (GG x) as [X|X]; rewrite X in Gx; [exact (D _ _ Gx)|discriminate].
  - unfold add_uvar_variant. rewrite C, G. destruct AL as [vm [V [bs' [Eb H]]]]. assert (bs' = bs) by congruence. subst bs'. rewrite V.
    assert (PVM : forall k t, In (k, t) vm -> proper (N_ st) t) by (intros k t0; exact (w_vm _ W _ _ k t0 V)).
    destruct (mget l vm) as [prior|] eqn:EM.
    + pose proof (PVM _ _ (mget_in _ _ _ EM)) as PP. destruct (H _ _ (mget_in _ _ _ EM)) as [g' [Eg' Fp]]. rewrite Eg in Eg'. injection Eg' as <-.
      assert (HC : comp (10 * size (s v) + 5 <= n) (unify_utype ho n [cv] prior t st) (fun t0 => fits s t0 g)).
      { eapply comp_weaken; [apply (proj1 (completeness ho s n)); eauto; intros b [<-|[]]; rewrite <- EQ|destruct (vary prior t); lia|auto]. destruct (vary prior t); lia. }
      pose proof (proj1 (soundness ho n) [cv] prior t st W PP PT) as HS.
      destruct (unify_utype ho n [cv] prior t st) as [st1 t1| | |]; cbn [ubind]; try exact HC.
      destruct HC as [A1 [SA1 F1]]. destruct (HS st1 t1 eq_refl A1) as [W1 [S1 [[PT1 _] _]]].
      destruct (s_frame _ _ _ S1 cv cv (or_introl eq_refl) CC) as [C1 [G1 V1]]. specialize (V1 _ G). rewrite G in G1. rewrite V in V1.
      rewrite V1, EM. destruct (utype_eqb t1 prior); [cbn; auto|].
      destruct (own_write st1 cv id vm (minsert l t1 vm) W1 C1 G1 V1) as [W2 [_ H2]].
      { intros k t' I. rewrite (s_len _ _ _ S1). apply minsert_in in I. destruct I as [I|I]; [injection I as -> ->; exact PT1|exact (PVM _ _ I)]. }
      cbn. split; [exact A1|]. split; [|exact I]. apply H2; auto. exists bs. split; [congruence|]. intros k t' J. apply minsert_in in J.
      destruct J as [J|J]; [injection J as -> ->; eauto|auto].
    + destruct (own_write st cv id vm (minsert l t vm) W CC G V) as [W2 [_ H2]].
      { intros k t' I. apply minsert_in in I. destruct I as [I|I]; [injection I as -> ->; exact PT|exact (PVM _ _ I)]. }
      cbn. split; [exact (p_again _ _ P)|]. split; [|exact I]. apply H2; [exact (p_sat _ _ P)|]. exists bs. split; [congruence|]. intros k t' J. apply minsert_in in J.
      destruct J as [J|J]; [injection J as -> ->; eauto|auto].
  - exfalso. cbn in AL. rewrite <- EQ, Ev in AL. exact (no_union s _ _ _ PC AL).
Qed.

(** The fuel that suffices depends on the request and the assignment alone. *)
Theorem perform_complete r : meets s r -> exists k, forall n st, pre st -> proper_request (N_ st) r ->
  comp (k <= n) (perform ho n r st) (fun _ => True).
Proof.
  intro M. destruct r; cbn [perform proper_request].
  - exists 0. intros n st P _. cbn. split; [exact (p_again _ _ P)|]. split; [|exact I]. destruct (p_sat _ _ P) as [A D]. split; [apply new_sat; [apply P|exact A]|].
    intros i c. rewrite new_get_cons. destruct (i =? N_ st); [discriminate|apply D].
  - exists (10 * size (s v1) + 4). intros n st P [L1 L2]. apply comp_vp; auto.
  - exists (10 * size (s v) + 5). intros n st P [L1 L2]. apply comp_vu; auto.
  - destruct M as [g [F1 F2]]. exists (10 * size g + 5). intros n st P [P1 P2].
    eapply comp_bind; [apply (proj1 (soundness ho n) []); [apply P|exact P1|exact P2]|eapply comp_weaken; [apply (proj1 (completeness ho s n)); eauto; apply nothing_above|destruct (vary t1 t2); lia|intros ? HQ; exact HQ]|].
    intros t0 st1 Q1 _ _ _. apply comp_ok; auto.
  - exists (10 * size (s v) + 3). intros n st P [L1 L2]. apply comp_vc; auto; [now apply bs_constraint_proper|]. apply bs_constraint_obeys; auto.
  - exists (10 * size (s v) + 3). intros n st P [L1 L2]. apply comp_vc; auto; [now apply is_constraint_proper|]. apply is_constraint_obeys; auto.
  - exists (10 * size (s v) + 5). intros n st P [L1 L2]. apply comp_variant; auto.
  - exists (10 * size (s v) + 5). intros n st P [L1 L2]. apply comp_index; auto.
  - exists (10 * size (s v) + 5). intros n st P [L1 L2]. apply comp_field; auto.
  - exists (10 * size (s v) + 5). intros n st P [L1 L2]. apply comp_elem_r; auto.
  - exists (10 * size (s v) + 5). intros n st P [L1 L2]. apply comp_param_r; auto.
Qed.
End Complete.

(** ** Histories *)
Theorem history_sound n : forall rs st st', wf st -> proper_history (N_ st) rs -> perform_all ho n rs st = UOk st' tt -> again st' = false ->
  wf st' /\ forall s, sat [] s st' -> sat [] s st /\ Forall (meets s) rs.
Proof.
  induction rs as [|r rs IH]; intros st st' W P E A; cbn [perform_all foldU] in E.
  - injection E as <-. split; [exact W|]. auto.
  - destruct P as [PR PH]. unfold perform_all in E. cbn [foldU] in E. destruct (perform ho n r st) as [st1 []| | |] eqn:EP; cbn [ubind] in E; try discriminate.
    assert (A1 : again st1 = false). { eapply mono_false; [|exact E|exact A]. apply mono_fold. intros. apply perform_mono. }
    destruct (perform_sound n r st W PR st1 EP A1) as [W1 [L1 F1]].
    destruct (IH st1 st' W1) as [W' F']; auto. { rewrite L1. destruct r; exact PH. }
    split; [exact W'|]. intros s Hs. destruct (F' s Hs) as [Hs1 HF]. destruct (F1 s Hs1). auto.
Qed.
Theorem history_complete s : forall rs, Forall (meets s) rs -> exists k, forall n st, pre s st -> proper_history (N_ st) rs ->
  match perform_all ho n rs st with
  | UOk st' _ => pre s st'
  | UFuel => n < k
  | UErr | UPanic => False
  end.
Proof.
  induction rs as [|r rs IH]; intro M.
  - exists 0. intros n st P _. cbn. exact P.
  - inversion M as [|? ? M1 M2]; subst. destruct (IH M2) as [k2 H2]. destruct (perform_complete s r M1) as [k1 H1].
    exists (Nat.max k1 k2). intros n st P [PR PH]. unfold perform_all. cbn [foldU]. specialize (H1 n st P PR). pose proof (perform_sound n r st (p_wf _ _ P) PR) as S1.
    destruct (perform ho n r st) as [st1 []| | |]; cbn [ubind comp] in H1 |- *; auto; [|lia].
    destruct H1 as [A1 [SA1 _]]. destruct (S1 st1 eq_refl A1) as [W1 [L1 _]].
    assert (P1 : pre s st1) by (constructor; auto).
    specialize (H2 n st1 P1). rewrite L1 in H2. assert (PH' : proper_history (after r (N_ st)) rs) by (destruct r; exact PH). specialize (H2 PH').
    unfold perform_all in H2. destruct (foldU _ tt rs st1); auto. lia.
Qed.
Lemma empty_wf : wf empty_state.
Proof.
  assert (G : forall i, get_cons empty_state i = None) by (intros [|]; reflexivity). assert (GA : forall i, get_als empty_state i = None) by (intros [|]; reflexivity).
  constructor; try (intros; rewrite G in *; discriminate); try reflexivity; try discriminate.
  - constructor; intros; rewrite GA in *; discriminate.
Qed.
Lemma empty_sat s : sat [] s empty_state.
Proof.
  assert (G : forall i, get_cons empty_state i = None) by (intros [|]; reflexivity). assert (GA : forall i, canonical empty_state i = None) by (intros [|]; reflexivity).
  split; intros; rewrite GA in *; discriminate.
Qed.
Lemma empty_pre s : pre s empty_state.
Proof.
  constructor; [exact empty_wf|reflexivity|]. split; [apply empty_sat|]. intros [|] c; discriminate.
Qed.
End Requests.
