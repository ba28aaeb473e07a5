(** Completeness of unification: what has a solution is not refused, and no solution
    is lost. *)
From Coq Require Import Permutation.
From Verif Require Import Base BoundsModel NumericModel ValueModel BaseSetModel BaseSetSpec BaseSetProofs BaseSetProps UnifyModel UnifySpec UnifyAlias UnifyBase UnifyProofs.
Open Scope nat_scope.

(** ** The size of a type *)
Fixpoint size (g : gtype) : nat :=
  match g with
  | GTuple gs => S (list_sum (map size gs))
  | GRecord fs | GUnion fs => S (list_sum (map (fun f => size (snd f)) fs))
  | GSeq g | GOption g | GPhantom g => S (size g)
  | _ => 1
  end.
Lemma list_sum_in l x : In x l -> x <= list_sum l.
Proof. induction l as [|y l IH]; cbn; [tauto|]. intros [->|I]; [lia|]. apply IH in I. unfold list_sum in *. lia. Qed.
Lemma size_tuple gs g : In g gs -> size g < size (GTuple gs).
Proof. intro I. cbn. apply (in_map size) in I. apply list_sum_in in I. lia. Qed.
Lemma size_record fs f : In f fs -> size (snd f) < size (GRecord fs).
Proof. intro I. cbn. apply (in_map (fun f : label * gtype => size (snd f))) in I. apply list_sum_in in I. lia. Qed.
Lemma size_union fs f : In f fs -> size (snd f) < size (GUnion fs).
Proof. intro I. cbn. apply (in_map (fun f : label * gtype => size (snd f))) in I. apply list_sum_in in I. lia. Qed.

Lemma Forall2_len {A B} {R : A -> B -> Prop} {la lb} : Forall2 R la lb -> length la = length lb.
Proof. induction 1; cbn; congruence. Qed.

Section Complete.
Variable ho : hash_order.
Variable s : assignment.
Notation N_ st := (length (cons st)).

Definition satA (st : state) : Prop :=
  sat [] s st /\ forall i c, get_cons st i = Some (Invariant c) -> obeys s c (s i).
Record pre (st : state) : Prop := { p_wf : wf st; p_again : again st = false; p_sat : satA st }.

Lemma pre_alias st v c : pre st -> canonical st v = Some c -> s v = s c.
Proof. intros P E. exact (proj1 (proj1 (p_sat _ P)) v c E). Qed.
Lemma pre_con st v cs : pre st -> canonical st v = Some v -> get_cons st v = Some cs -> allowed s st cs (s v).
Proof. intros P E G. apply (proj2 (proj1 (p_sat _ P))); auto. Qed.

(** Results that are not refusals. [F] says that there was fuel enough. *)
Definition comp {A} (F : Prop) (r : ures A) (Q : A -> Prop) : Prop :=
  match r with
  | UOk st' a => again st' = false /\ satA st' /\ Q a
  | UFuel => ~ F
  | UErr | UPanic => False
  end.
Lemma comp_ok {A} F st (a : A) (Q : A -> Prop) : pre st -> Q a -> comp F (UOk st a) Q.
Proof. intros [W A0 H] HQ. cbn. auto. Qed.
Lemma comp_weaken {A} (F F' : Prop) (r : ures A) (Q Q' : A -> Prop) : comp F r Q -> (F' -> F) -> (forall a, Q a -> Q' a) -> comp F' r Q'.
Proof. destruct r; cbn; intuition. Qed.
Lemma comp_bind {A C} B F st (r : ures A) (k : A -> state -> ures C) P Q0 (Q : A -> Prop) (Q' : C -> Prop) :
  sound B st r P Q0 -> comp F r Q ->
  (forall a st1, pre st1 -> step B st st1 -> P a -> Q a -> comp F (k a st1) Q') -> comp F (ubind r k) Q'.
Proof.
  intros HS HC HK. destruct r as [st1 a| | |]; cbn in HC |- *; auto. destruct HC as [A1 [S1 Q1]].
  destruct (HS st1 a eq_refl A1) as [W1 [T1 [P1 _]]]. apply HK; auto. constructor; auto.
Qed.
Lemma comp_tc F st (r : tcres constr) P Q g : pre st -> tc_meet s (N_ st) r P Q -> P g -> Q g -> comp F (of_tc r st) (fun c => obeys s c g).
Proof.
  intros PR H HP HQ. destruct r as [c| |]; cbn in H |- *.
  - destruct PR. split; [assumption|]. split; [assumption|]. apply H. auto.
  - exact (H g (conj HP HQ)).
  - exact (H g (conj HP HQ)).
Qed.

(** ** Occurs checks *)
Definition fine (F : Prop) (r : ures unit) : Prop := match r with UOk _ _ => True | UFuel => ~ F | _ => False end.
Lemma fine_each {A} F (f : A -> ures unit) st l : (forall a, In a l -> fine F (f a)) -> fine F (eachU f st l).
Proof.
  induction l as [|a l IH]; intro H; cbn [eachU]; [exact I|]. pose proof (H a (or_introl eq_refl)) as H1.
  destruct (f a); cbn in *; auto.
Qed.
Lemma fine_weaken (F F' : Prop) r : fine F r -> (F' -> F) -> fine F' r.
Proof. destruct r; cbn; intuition. Qed.

Lemma fits_sub_tuple ts g t : fits s (UTuple ts) g -> In t ts -> exists g0, fits s t g0 /\ size g0 < size g.
Proof.
  intros F I. apply fits_tuple in F. destruct F as [gs [-> F]]. apply In_nth_error in I. destruct I as [i E].
  destruct (Forall2_nth _ _ _ F _ _ E) as [g0 [E0 F0]]. exists g0. split; [exact F0|]. apply size_tuple. eapply nth_error_In. exact E0.
Qed.
Lemma fits_sub_record fs g f : fits s (URecord fs) g -> In f fs -> exists g0, fits s (snd f) g0 /\ size g0 < size g.
Proof.
  intros F I. apply fits_record in F. destruct F as [gs [-> F]].
  assert (H : exists h, In h gs /\ fits_f s f h).
  { clear - F I. induction F; [destruct I|]. destruct I as [->|I]; [exists y; cbn; auto|]. destruct (IHF I) as [h [J K]]. exists h. cbn. auto. }
  destruct H as [h [J [_ K]]]. exists (snd h). split; [exact K|]. apply size_record. exact J.
Qed.
(** The components that a projection names are smaller. *)
Lemma shape_sub p g w : has_shape s p g ->
  match p with
  | PTuple m | PRecord m => exists k, mget k m = Some w
  | PSeq v | POpt v => w = v
  end -> size (s w) < size g.
Proof.
  destruct p as [m|m|v|v]; cbn.
  - intros [gs [-> H]] [k E]. apply H in E. apply size_tuple. eapply nth_error_In. exact E.
  - intros [fs [-> H]] [k E]. apply H in E. apply mget_in in E. exact (size_record _ _ E).
  - intros -> ->. cbn. lia.
  - intros -> ->. cbn. lia.
Qed.

Lemma occ_all n :
  (forall st v t g, pre st -> v < N_ st -> proper (N_ st) t -> fits s t g ->
     (if is_var t then size g < size (s v) else size g <= size (s v)) ->
     fine (3 * size g + (if is_var t then 3 else 1) <= n) (occurs_in ho n st v t)) /\
  (forall st v c cs, pre st -> v < N_ st -> (match cs with Invariant k => proper_c (N_ st) k /\ obeys s k (s c) | Variant _ => allowed s st cs (s c) | Indefinite => True end) ->
     size (s c) <= size (s v) -> fine (3 * size (s c) + 2 <= n) (occurs_in_constraints ho n st v cs)).
Proof.
  induction n as [|n [IH1 IH2]]; split; intros.
  - cbn [occurs_in fine]. destruct (is_var t); lia.
  - cbn [occurs_in_constraints fine]. lia.
  - cbn [occurs_in]. destruct t; try (destruct H1; fail); try exact I; cbn [is_var] in H3 |- *.
    + cbn in H1, H2. subst g.
      destruct (wf_canon st v (p_wf _ H) H0) as [cv [Cv _]]. destruct (wf_canon st v0 (p_wf _ H) H1) as [c0 [C0 [C00 L0]]].
      destruct (is_aliased_spec st v v0 cv c0 (w_awf _ (p_wf _ H)) Cv C0) as [b [EA [K1 K2]]]. rewrite EA. destruct b.
      * exfalso. specialize (K1 eq_refl). subst c0. rewrite (pre_alias _ _ _ H Cv), (pre_alias _ _ _ H C0) in H3. lia.
      * rewrite C0. destruct (cons_range st c0 L0) as [cs G]. rewrite G. pose proof (pre_alias _ _ _ H C0) as EQ. rewrite EQ in H3 |- *.
        pose proof (pre_con _ _ _ H C00 G) as AL.
        eapply fine_weaken; [apply (IH2 st v c0); auto; [|lia]|lia].
        destruct cs; auto. split; [exact (w_con _ (p_wf _ H) _ _ G)|exact AL].
    + apply fine_each. intros t I. destruct (fits_sub_tuple _ _ _ H2 I) as [g0 [F0 L0]].
      apply proper_tuple in H1. rewrite Forall_forall in H1.
      eapply fine_weaken; [apply (IH1 st v t g0); auto; destruct (is_var t); lia|destruct (is_var t); lia].
    + apply fine_each. intros f I. destruct (fits_sub_record _ _ _ H2 I) as [g0 [F0 L0]].
      apply proper_record in H1. destruct H1 as [_ H1]. rewrite Forall_forall in H1.
      eapply fine_weaken; [apply (IH1 st v (snd f) g0); auto; destruct (is_var (snd f)); lia|destruct (is_var (snd f)); lia].
    + cbn in H1, H2. destruct H2 as [g0 [-> F0]]. cbn [size] in *. eapply fine_weaken; [apply (IH1 st v t g0); auto; destruct (is_var t); lia|destruct (is_var t); lia].
    + cbn in H1, H2. destruct H2 as [g0 [-> F0]]. cbn [size] in *. eapply fine_weaken; [apply (IH1 st v t g0); auto; destruct (is_var t); lia|destruct (is_var t); lia].
    + cbn in H1, H2. destruct H2 as [g0 [-> F0]]. cbn [size] in *. eapply fine_weaken; [apply (IH1 st v t g0); auto; destruct (is_var t); lia|destruct (is_var t); lia].
  - cbn [occurs_in_constraints]. destruct cs as [|id|k].
    + exact I.
    + destruct H1 as [vm [E HV]]. rewrite E. apply fine_each. intros [l t] IN.
      assert (IN' : In (l, t) vm) by (eapply Permutation_in; [apply shuffle_perm|exact IN]).
      destruct HV as [bs [EB HV]]. destruct (HV _ _ IN') as [g0 [Eg F0]]. apply mget_in in Eg. apply size_union in Eg. rewrite <- EB in Eg. cbn [snd] in *.
      pose proof (w_vm _ (p_wf _ H) _ _ _ _ E IN').
      eapply fine_weaken; [apply (IH1 st v t g0); auto; destruct (is_var t); lia|destruct (is_var t); lia].
    + destruct H1 as [PC O]. destruct k as [t|bs|p|is].
      * destruct PC as [PT V]. cbn in O. eapply fine_weaken; [apply (IH1 st v t (s c)); auto; rewrite V; lia|rewrite V; lia].
      * exact I.
      * assert (EACH : forall w, size (s w) < size (s c) -> w < N_ st -> fine (3 * size (s c) + 2 <= S n) (occurs_in ho n st v (UVar w))).
        { intros w LW LN. eapply fine_weaken; [apply (IH1 st v (UVar w) (s w)); auto; cbn; auto; lia|cbn; lia]. }
        cbn in O. destruct p as [m|m|w|w].
        -- destruct PC as [PV PS]. apply fine_each. intros e IN. pose proof (ksorted_get _ _ PS IN) as G.
           apply EACH; [apply (shape_sub (PTuple m)); [exact O|eauto]|exact (PV _ _ G)].
        -- destruct PC as [PV PS]. apply fine_each. intros e IN. pose proof (ksorted_get _ _ PS IN) as G.
           apply EACH; [apply (shape_sub (PRecord m)); [exact O|eauto]|exact (PV _ _ G)].
        -- apply EACH; [exact (shape_sub _ _ w O eq_refl)|exact PC].
        -- apply EACH; [exact (shape_sub _ _ w O eq_refl)|exact PC].
      * exact I.
Qed.

Lemma no_union n c bs : proper_c n c -> ~ obeys s c (GUnion bs).
Proof.
  destruct c as [t|b|p|i]; cbn.
  - intros [P V] F. destruct t; cbn in *; try discriminate; try tauto; try (destruct F as [? [? _]]; discriminate). destruct b; discriminate.
  - intros _ [b0 [_ E]]. destruct b0; discriminate.
  - destruct p; cbn; intros _ F; try discriminate; destruct F as [? [? _]]; discriminate.
  - intros _ [q [_ E]]. discriminate.
Qed.
Lemma occ_top n st v t : pre st -> v < N_ st -> proper_c (N_ st) (CEquiv t) -> fits s t (s v) -> fine (3 * size (s v) + 2 <= n) (occurs ho n st v).
Proof.
  intros P L PT F. unfold occurs. destruct (cons_range st v L) as [cs G]. rewrite G.
  apply (proj2 (occ_all n) st v v); auto. destruct cs as [|id|k]; auto.
  - destruct (wf_canon st v (p_wf _ P) L) as [c [C [CC _]]]. exfalso.
    destruct (w_kind _ (p_wf _ P) _ _ _ C G) as [id' G'].
    destruct (pre_con _ _ _ P CC G') as [vm [_ [bs [E _]]]]. rewrite <- (pre_alias _ _ _ P C) in E.
    apply (no_union _ (CEquiv t) bs PT). cbn. rewrite <- E. exact F.
  - split; [exact (w_con _ (p_wf _ P) _ _ G)|exact (proj2 (p_sat _ P) _ _ G)].
Qed.

(** ** The induction *)
Definition above (B : list nat) (k : nat) : Prop := forall b, In b B -> k <= size (s b).
Definition vary (l r : utype) : bool := is_var l || is_var r.
Definition C_ut n := forall B l r st g, pre st -> proper (N_ st) l -> proper (N_ st) r -> fits s l g -> fits s r g ->
  above B (if vary l r then S (size g) else size g) ->
  comp (10 * size g + (if vary l r then 5 else 1) <= n) (unify_utype ho n B l r st) (fun t0 => fits s t0 g).
Definition C_vc n := forall B v c st, pre st -> v < N_ st -> proper_c (N_ st) c -> obeys s c (s v) -> above B (S (size (s v))) ->
  comp (10 * size (s v) + 3 <= n) (unify_var_constraint ho n B v c st) (fun _ => True).
Definition C_pair n := forall B c1 c2 st g, pre st -> proper_c (N_ st) c1 -> proper_c (N_ st) c2 -> obeys s c1 g -> obeys s c2 g -> above B (size g) ->
  comp (10 * size g + 2 <= n) (unify_constraint_pair ho n B c1 c2 st) (fun c0 => obeys s c0 g).
Definition C_vu n := forall B v t st, pre st -> v < N_ st -> proper (N_ st) t -> fits s t (s v) -> above B (S (size (s v))) ->
  comp (10 * size (s v) + 5 <= n) (unify_var_utype ho n B v t st) (fun _ => True).
Definition C_vp n := forall B v w st, pre st -> v < N_ st -> w < N_ st -> s v = s w -> above B (S (size (s v))) ->
  comp (10 * size (s v) + 4 <= n) (unify_var_pair ho n B v w st) (fun _ => True).
Definition C_tr n := forall B lo hi st st1, pre st -> merged lo hi st st1 -> s lo = s hi -> above B (S (size (s lo))) ->
  comp (10 * size (s lo) + 3 <= n) (transfer_constraints ho n B lo hi st1) (fun _ => True).
Definition C_vm n := forall B lo i hi j st st1, pre st -> merged lo hi st st1 -> s lo = s hi -> above B (S (size (s lo))) ->
  get_cons st lo = Some (Variant i) -> get_cons st hi = Some (Variant j) ->
  comp (10 * size (s lo) + 2 <= n) (unify_varmaps ho n B lo i hi j st1) (fun _ => True).

Lemma above_le B k k' : above B k -> k' <= k -> above B k'.
Proof. intros H L b I. specialize (H b I). lia. Qed.
Lemma above_cons B a k : above B k -> k <= size (s a) -> above (a :: B) k.
Proof. intros H L b [<-|I]; auto. Qed.
Lemma above_out B v : above B (S (size (s v))) -> forall c, s v = s c -> ~ In c B.
Proof. intros H c E I. specialize (H c I). rewrite <- E in H. lia. Qed.

Lemma satA_set_inv st i c : satA st -> obeys s c (s i) -> satA (set_cons i (Invariant c) st).
Proof.
  intros [[A C] D] O. split; [split|].
  - exact A.
  - intros v cs E NI G. rewrite cons_set_cons in G. destruct (Nat.eqb_spec i v) as [<-|].
    + destruct (get_cons st i); [|discriminate]. injection G as <-. exact O.
    + exact (C v cs E NI G).
  - intros j k G. rewrite cons_set_cons in G. destruct (Nat.eqb_spec i j) as [<-|].
    + destruct (get_cons st i); [|discriminate]. injection G as <-. exact O.
    + exact (D j k G).
Qed.
Lemma satA_set_var st i id : satA st -> allowed s st (Variant id) (s i) -> satA (set_cons i (Variant id) st).
Proof.
  intros [[A C] D] O. split; [split|].
  - exact A.
  - intros v cs E NI G. rewrite cons_set_cons in G. destruct (Nat.eqb_spec i v) as [<-|].
    + destruct (get_cons st i); [|discriminate]. injection G as <-. exact O.
    + exact (C v cs E NI G).
  - intros j k G. rewrite cons_set_cons in G. destruct (Nat.eqb_spec i j) as [<-|].
    + destruct (get_cons st i); discriminate.
    + exact (D j k G).
Qed.
Lemma satA_merged lo hi st st1 : satA st -> merged lo hi st st1 -> s lo = s hi -> satA st1.
Proof.
  intros [[A C] D] M E.
  assert (GC : forall i, get_cons st1 i = get_cons st i) by (intro i; unfold get_cons; rewrite (m_cons _ _ _ _ M); reflexivity).
  split; [split|].
  - intros v c. rewrite (m_canon _ _ _ _ M). destruct (canonical st v) as [c0|] eqn:E0; [|discriminate]. pose proof (A _ _ E0).
    destruct (Nat.eqb_spec c0 hi) as [->|]; intro X; injection X as <-; congruence.
  - intros v cs Ev NI G. rewrite GC in G. apply allowed_vms with (st := st). { intros id _. rewrite (m_vms _ _ _ _ M). reflexivity. }
    apply C; auto. rewrite (m_canon _ _ _ _ M) in Ev. destruct (canonical st v) as [c0|] eqn:E0; [|discriminate].
    destruct (Nat.eqb_spec c0 hi) as [->|]; injection Ev as <-; [|reflexivity]. rewrite (m_lo _ _ _ _ M) in E0. congruence.
  - intros i c. rewrite GC. apply D.
Qed.

Lemma S_all n : S_ut ho n /\ S_vc ho n /\ S_pair ho n /\ S_vu ho n /\ S_vp ho n /\ S_tr ho n /\ S_vm ho n.
Proof. apply soundness. Qed.
Ltac sound_by := first
  [ apply (proj1 (S_all _)) | apply (proj1 (proj2 (S_all _))) | apply (proj1 (proj2 (proj2 (S_all _)))) | apply (proj1 (proj2 (proj2 (proj2 (S_all _)))))
  | apply (proj1 (proj2 (proj2 (proj2 (proj2 (S_all _))))))].

Lemma comp_map2 {A1 A2 C} B NN F (f : A1 -> A2 -> state -> ures C) (PC : A1 -> A2 -> C -> Prop) (Ra : A1 -> gtype -> Prop) (Rb : A2 -> gtype -> Prop) (Rc : C -> gtype -> Prop) :
  forall la lb gs st, Forall2 Ra la gs -> Forall2 Rb lb gs -> pre st -> N_ st = NN ->
  (forall a b st, In a la -> In b lb -> wf st -> N_ st = NN -> sound B st (f a b st) (PC a b) (fun _ _ => True)) ->
  (forall a b g st, In a la -> In b lb -> In g gs -> Ra a g -> Rb b g -> pre st -> N_ st = NN -> comp F (f a b st) (fun c => Rc c g)) ->
  comp F (map2U f la lb st) (fun cs => Forall2 Rc cs gs).
Proof.
  intros la. induction la as [|a la IH]; intros lb gs st FA FB P E HS HC; inversion FA; subst; inversion FB; subst; cbn [map2U].
  - apply comp_ok; auto.
  - eapply comp_bind; [apply HS; cbn; auto; apply P|apply HC; cbn; eauto|]. intros c st1 P1 S1 _ Q1.
    assert (E1 : N_ st1 = N_ st) by exact (s_len _ _ _ S1).
    assert (IHC : comp F (map2U f la l st1) (fun cs => Forall2 Rc cs l')).
    { apply IH; auto; intros; [apply HS|apply HC]; cbn; auto. }
    destruct (map2U f la l st1); cbn in IHC |- *; intuition.
Qed.

Lemma complete_vu n : C_vc n -> C_vp n -> C_vu (S n).
Proof.
  intros IC IV B v t st P L PT F AB. rewrite unify_var_utype_S.
  destruct t; try (destruct PT; fail);
  try (eapply comp_bind; [sound_by; [apply P|split; [exact PT|reflexivity]]|eapply comp_weaken; [apply IC; auto; split; auto|lia|intros ? HQ; exact HQ]|]; intros c st1 P1 _ _ _; apply comp_ok; auto; fail).
  cbn in F, PT. eapply comp_weaken; [apply IV; auto|lia|auto].
Qed.

Lemma ut_var_c n B v t st : C_vc n -> pre st -> v < N_ st -> proper (N_ st) t -> is_var t = false -> fits s t (s v) -> above B (S (size (s v))) ->
  comp (10 * size (s v) + 5 <= S n)
    (ubind (unify_var_constraint ho n B v (CEquiv t) st) (fun _ st1 => ubind (occurs ho n st1 v) (fun _ _ => UOk st1 (UVar v)))) (fun t0 => fits s t0 (s v)).
Proof.
  intros IC P L PT V F AB. eapply comp_bind; [sound_by; [apply P|split; auto]|eapply comp_weaken; [apply IC; auto; split; auto|lia|intros ? HQ; exact HQ]|].
  intros c st1 P1 S1 _ _. assert (O : fine (3 * size (s v) + 2 <= n) (occurs ho n st1 v)).
  { eapply occ_top; eauto; [rewrite (s_len _ _ _ S1); exact L|]. split; [rewrite (s_len _ _ _ S1); exact PT|exact V]. }
  destruct (occurs ho n st1 v); cbn [ubind]; try (destruct O; fail); [apply comp_ok; cbn; auto|]. cbn in O |- *. lia.
Qed.

Lemma complete_ut n : C_ut n -> C_vc n -> C_vp n -> C_ut (S n).
Proof.
  intros IU IC IV B l r st g P PL PR FL FR AB. rewrite unify_utype_S.
  destruct l; try (destruct PL; fail); destruct r; try (destruct PR; fail);
    try (cbn in FL; subst g; apply (ut_var_c n B); auto; fail);
    try (cbn in FR; subst g; apply (ut_var_c n B); auto; fail);
    cbn [vary is_var orb] in AB |- *.
  all: try (exfalso; cbn in FL, FR; repeat match goal with H : exists _, _ |- _ => destruct H as [? [? ?]] | b : basetype |- _ => destruct b end; subst; cbn in *; congruence).
  - apply comp_ok; auto.
  - cbn in FL, FR, PL, PR. subst g. eapply comp_bind; [sound_by; apply P|eapply comp_weaken; [apply IV; auto|lia|intros ? HQ; exact HQ]|].
    intros [] st1 P1 S1 _ _. apply comp_ok; auto. cbn. destruct (Nat.min_spec v v0) as [[_ ->]|[_ ->]]; auto.
  - cbn in FL, FR. subst g. apply ground_base_inj in FR. subst. rewrite (proj2 (basetype_eqb_eq b0 b0) eq_refl). apply comp_ok; cbn; auto.
  - cbn in FL, FR. subst g. pose proof (meet_int_base p b) as H. destruct (unify_primint_basetype p b); cbn [of_tc]; [|congruence|congruence].
    destruct H as [-> _]. apply comp_ok; cbn; auto.
  - pose proof FL as FL0. apply fits_tuple in FL. apply fits_tuple in FR. destruct FL as [gs [-> FL]]. destruct FR as [gs' [E FR]]. injection E as <-.
    apply proper_tuple in PL. apply proper_tuple in PR. rewrite Forall_forall in PL, PR.
    assert (LEN : length ts = length ts0). { rewrite (Forall2_len FL), (Forall2_len FR). reflexivity. }
    rewrite (proj2 (Nat.eqb_eq _ _) LEN). cbn [negb]. destruct (list_eqb utype_eqb ts ts0); [apply comp_ok; auto|].
    eapply comp_bind with (P := fun _ => True) (Q := fun ts' => Forall2 (fits s) ts' gs) (Q0 := fun _ _ => True) (B := B).
    + eapply sound_weaken; [apply (sound_map2 B (N_ st)) with (P := fun _ _ _ => True) (Q := fun _ _ _ _ => True); auto|auto|auto].
      * apply mono_all.
      * apply P.
      * intros a b st0 Ia Ib W0 E0. eapply sound_weaken; [sound_by; auto; rewrite E0; auto|auto|auto].
    + apply (comp_map2 B (N_ st)) with (PC := fun _ _ _ => True) (Ra := fits s) (Rb := fits s); auto.
      * intros a b st0 Ia Ib W0 E0. eapply sound_weaken; [sound_by; auto; rewrite E0; auto|auto|auto].
      * intros a b g st0 Ia Ib Ig Fa Fb P0 E0. pose proof (size_tuple _ _ Ig) as SZ.
        eapply comp_weaken; [apply IU; eauto; rewrite ?E0; auto| |auto].
        -- eapply above_le; [exact AB|]. destruct (vary a b); lia.
        -- destruct (vary a b); lia.
    + intros ts' st1 P1 S1 _ F'. apply comp_ok; auto. apply fits_tuple. eauto.
  - pose proof FL as FL0. apply fits_record in FL. apply fits_record in FR. destruct FL as [gs [-> FL]]. destruct FR as [gs' [E FR]]. injection E as <-.
    apply proper_record in PL. apply proper_record in PR. destruct PL as [_ PL]. destruct PR as [_ PR]. rewrite Forall_forall in PL, PR.
    assert (LEN : length fs = length fs0). { rewrite (Forall2_len FL), (Forall2_len FR). reflexivity. }
    rewrite (proj2 (Nat.eqb_eq _ _) LEN). cbn [negb]. destruct (utype_eqb (URecord fs) (URecord fs0)); [apply comp_ok; auto|].
    assert (HS : forall (a b : label * utype) st0, In a fs -> In b fs0 -> wf st0 -> N_ st0 = N_ st ->
        sound B st0 (if (fst a =? fst b)%N then ubind (unify_utype ho n B (snd a) (snd b) st0) (fun t st1 => UOk st1 (fst a, t)) else UErr) (fun _ => True) (fun _ _ => True)).
    { intros a b st0 Ia Ib W0 E0. destruct (fst a =? fst b)%N; [|apply sound_err].
      eapply sound_bind; [sound_by; auto; rewrite E0; auto|cbn; auto|]. intros t st1 W1 S1 _. apply sound_ok; auto. }
    eapply comp_bind with (P := fun _ => True) (Q := fun ts' => exists hs, Forall2 (fun c h => fits_f s c h) ts' hs /\ hs = gs) (Q0 := fun _ _ => True) (B := B).
    + eapply sound_weaken; [apply (sound_map2 B (N_ st)) with (P := fun _ _ _ => True) (Q := fun _ _ _ _ => True); auto|auto|auto].
      * intros a b st0. destruct (fst a =? fst b)%N; [|exact I]. apply mono_bind; [apply mono_all|cbn; auto].
      * apply P.
    + assert (LOOP : forall la lb hs st0, Forall2 (fits_f s) la hs -> Forall2 (fits_f s) lb hs ->
         (forall x, In x la -> In x fs) -> (forall x, In x lb -> In x fs0) -> (forall h, In h hs -> In h gs) -> pre st0 -> N_ st0 = N_ st ->
         comp (10 * size (GRecord gs) + 1 <= S n) (map2U (A:=label*utype) (B:=label*utype) (C:=label*utype) (fun f1 f2 st0 =>
                    if (fst f1 =? fst f2)%N
                    then ubind (unify_utype ho n B (snd f1) (snd f2) st0) (fun t st1 => UOk st1 (fst f1, t))
                    else UErr) la lb st0) (fun cs => Forall2 (fits_f s) cs hs)).
      { induction la as [|a la IHl]; intros lb hs st0 Fa Fb Ia Ib Ih P0 E0.
        - inversion Fa; subst; inversion Fb; subst. apply comp_ok; auto.
        - inversion Fa as [|a' y la' l' [N1 F1] H3]; subst. inversion Fb as [|x y' l l'' [N2 F2] H5]; subst. cbn [map2U]. rewrite (proj2 (N.eqb_eq (fst a) (fst x)) ltac:(congruence)).
          assert (IL : comp (10 * size (GRecord gs) + 1 <= S n) (unify_utype ho n B (snd a) (snd x) st0) (fun t0 => fits s t0 (snd y))).
          { assert (SZ : size (snd y) < size (GRecord gs)) by (apply size_record; apply Ih; left; reflexivity).
            eapply comp_weaken; [apply IU; eauto; rewrite ?E0; [apply PL; apply Ia|apply PR; apply Ib|]; try (left; reflexivity)| |auto].
            - eapply above_le; [exact AB|]. destruct (vary (snd a) (snd x)); lia.
            - destruct (vary (snd a) (snd x)); lia. }
          assert (SU : sound B st0 (unify_utype ho n B (snd a) (snd x) st0) (fun _ => True) (fun _ _ => True)).
          { eapply sound_weaken; [sound_by; [apply P0|rewrite E0; apply PL; apply Ia; left; reflexivity|rewrite E0; apply PR; apply Ib; left; reflexivity]|auto|auto]. }
          destruct (unify_utype ho n B (snd a) (snd x) st0) as [st1 t1| | |]; cbn [ubind]; try exact IL.
          destruct IL as [A1 [SA1 F3]]. destruct (SU st1 t1 eq_refl A1) as [W1 [S1 _]].
          assert (P1 : pre st1) by (constructor; auto).
          assert (IR := IHl l l' st1 H3 H5). specialize (IR ltac:(intros; apply Ia; right; assumption) ltac:(intros; apply Ib; right; assumption) ltac:(intros; apply Ih; right; assumption) P1).
          rewrite (s_len _ _ _ S1) in IR. specialize (IR E0).
          destruct (map2U _ la l st1) as [st2 cs| | |]; cbn [ubind comp] in IR |- *; try exact IR. destruct IR as [A2 [SA2 F4]]. split; [exact A2|]. split; [exact SA2|].
          constructor; [split; [exact N1|exact F3]|exact F4]. }
      eapply comp_weaken; [apply (LOOP fs fs0 gs st); auto|auto|]. intros cs F'. exists gs. auto.
    + intros ts' st1 P1 S1 _ [hs [F' ->]]. apply comp_ok; auto. apply fits_record. eauto.
  - cbn in FL, FR. destruct FL as [g0 [-> FL]]. destruct FR as [g1 [E FR]]. injection E as <-. cbn [size] in AB |- *.
    destruct (utype_eqb l r). { destruct (hint <=? hint0); apply comp_ok; cbn; eauto. }
    eapply comp_bind; [sound_by; auto; apply P|eapply comp_weaken; [apply IU; eauto| |intros a Ha; exact Ha]|].
    + eapply above_le; [exact AB|]. destruct (vary l r); lia.
    + destruct (vary l r); lia.
    + intros t st1 P1 S1 _ F'. apply comp_ok; cbn; eauto.
  - cbn in FL, FR. destruct FL as [g0 [-> FL]]. destruct FR as [g1 [E FR]]. injection E as <-. cbn [size] in AB |- *.
    destruct (utype_eqb l r). { apply comp_ok; cbn; eauto. }
    eapply comp_bind; [sound_by; auto; apply P|eapply comp_weaken; [apply IU; eauto| |intros a Ha; exact Ha]|].
    + eapply above_le; [exact AB|]. destruct (vary l r); lia.
    + destruct (vary l r); lia.
    + intros t st1 P1 S1 _ F'. apply comp_ok; cbn; eauto.
  - cbn in FL, FR. destruct FL as [g0 [-> FL]]. destruct FR as [g1 [E FR]]. injection E as <-. cbn [size] in AB |- *.
    destruct (utype_eqb l r). { apply comp_ok; cbn; eauto. }
    eapply comp_bind; [sound_by; auto; apply P|eapply comp_weaken; [apply IU; eauto| |intros a Ha; exact Ha]|].
    + eapply above_le; [exact AB|]. destruct (vary l r); lia.
    + destruct (vary l r); lia.
    + intros t st1 P1 S1 _ F'. apply comp_ok; cbn; eauto.
  - cbn in FL, FR. subst g. pose proof (meet_int_base p b) as H. destruct (unify_primint_basetype p b); cbn [of_tc]; [|congruence|congruence].
    destruct H as [-> _]. apply comp_ok; cbn; auto.
  - cbn in FL, FR. subst g. injection FR as <-. rewrite (proj2 (mrep_eqb_eq p p) eq_refl). apply comp_ok; cbn; auto.
Qed.

Lemma complete_vc n : C_pair n -> C_vc (S n).
Proof.
  intros IP B v c st P L PC O AB. rewrite unify_var_constraint_S. pose proof (p_wf _ P) as W.
  destruct (wf_canon st v W L) as [can [C [CC LC]]]. rewrite C. destruct (cons_range st can LC) as [cs G]. rewrite G.
  pose proof (pre_alias _ _ _ P C) as EQ. rewrite EQ in O, AB |- *.
  assert (NB : mem_nat can B = false) by (apply mem_nat_out; eapply above_out; eauto).
  rewrite NB. destruct cs as [|id|c1].
  - rewrite note_false. cbn [comp]. split; [exact (p_again _ P)|]. split; [|exact I]. apply satA_set_inv; [exact (p_sat _ P)|exact O].
  - destruct (pre_con _ _ _ P CC G) as [vm [_ [bs [E _]]]]. rewrite E in O. exact (no_union _ _ _ PC O).
  - pose proof (w_con _ W _ _ G) as PC1. pose proof (proj2 (p_sat _ P) _ _ G) as O1.
    destruct (constr_eqb c1 c); [rewrite note_false; apply comp_ok; auto|].
    assert (H : comp (10 * size (s can) + 3 <= S n) (unify_constraint_pair ho n (can :: B) c1 c st) (fun c0 => obeys s c0 (s can))).
    { eapply comp_weaken; [apply IP; eauto; apply above_cons; [eapply above_le; [exact AB|lia]|lia]|lia|auto]. }
    destruct (unify_constraint_pair ho n (can :: B) c1 c st) as [st1 r| | |]; cbn [ubind]; try exact H.
    rewrite note_false. destruct H as [A1 [SA Or]]. cbn [comp]. split; [exact A1|]. split; [|exact I]. apply satA_set_inv; auto.
Qed.

Lemma comp_fold {A C} B NN F (f : C -> A -> state -> ures C) : forall l acc st,
  (forall acc a st, In a l -> wf st -> N_ st = NN -> sound B st (f acc a st) (fun _ => True) (fun _ _ => True)) ->
  (forall acc a st, In a l -> pre st -> N_ st = NN -> comp F (f acc a st) (fun _ => True)) ->
  pre st -> N_ st = NN -> comp F (foldU f acc l st) (fun _ => True).
Proof.
  induction l as [|a l IH]; intros acc st HS HC P E; cbn [foldU]; [apply comp_ok; auto|].
  eapply comp_bind; [apply HS; cbn; auto; apply P|apply HC; cbn; auto|]. intros acc1 st1 P1 S1 _ _.
  apply IH; auto; [intros; apply HS; cbn; auto|intros; apply HC; cbn; auto|]. rewrite (s_len _ _ _ S1). exact E.
Qed.

Lemma fits_member fs gs k t : NoDup (map fst fs) -> Forall2 (fits_f s) fs gs -> In (k, t) fs -> exists g, mget k gs = Some g /\ fits s t g.
Proof.
  intros ND F I. eapply Forall2_get; [exact F|]. clear F. induction fs as [|[k' t'] fs IH]; cbn in *; [tauto|].
  inversion ND as [|? ? NI ND']; subst. destruct I as [X|I]; [injection X as -> ->; rewrite N.eqb_refl; reflexivity|].
  destruct (N.eqb_spec k k') as [->|]; [|auto]. destruct NI. apply (in_map fst) in I. exact I.
Qed.
Lemma fits_key fs gs k g : Forall2 (fits_f s) fs gs -> mget k gs = Some g -> exists t, In (k, t) fs.
Proof.
  induction 1 as [|[l t] [l' g'] fs gs [E F] _ IH]; cbn in *; [discriminate|]. subst l'. destruct (N.eqb_spec k l) as [->|].
  - intros _. exists t. auto.
  - intro G. destruct (IH G) as [t0 I]. exists t0. auto.
Qed.
Lemma covers_true m fs gs : ksorted m -> (forall k v, mget k m = Some v -> exists t, In (k, t) fs) -> gs = fs -> covers m fs = true.
Proof.
  intros K H _. unfold covers. apply forallb_forall. intros e I. apply existsb_exists.
  destruct (H (fst e) (snd e)) as [t J]. { apply (ksorted_get m e K I). }
  exists (fst e, t). split; [exact J|apply N.eqb_refl].
Qed.

Lemma comp_elem n F B t bs st g : pre st -> proper (N_ st) t -> is_var t = false -> bs_ok bs -> fits s t g -> obeys s (CElem bs) g ->
  comp F (match t with
      | UVar v => unify_var_constraint ho n B v (bs_constraint bs) st
      | UInt p => of_tc (unify_primint_baseset p bs) st
      | UBase b => of_tc (tc_map bs_constraint (bs_unify bs (BSingle b))) st
      | UHole => UOk st (bs_constraint bs)
      | _ => UErr
      end) (fun c0 => obeys s c0 g).
Proof.
  intros P PT V K FT O. destruct t; try discriminate; try (destruct PT; fail).
  all: try (exfalso; cbn in FT, O; destruct O as [b [_ O]]; destruct b; subst; try discriminate; destruct FT as [? [? _]]; discriminate).
  - eapply comp_tc; [exact P|apply meet_base_elem; exact K|exact FT|exact O].
  - eapply comp_tc; [exact P|apply meet_int_elem; exact K|exact FT|exact O].
Qed.
Lemma comp_num n F B t i st g : pre st -> proper (N_ st) t -> is_var t = false -> is_ok i -> fits s t g -> obeys s (CNum i) g ->
  comp F (match t with
      | UVar v => unify_var_constraint ho n B v (is_constraint i) st
      | UInt p => of_tc (tc_map is_constraint (is_unify i (ISingle p))) st
      | UBase b => of_tc (unify_basetype_intset b i) st
      | UHole => UOk st (is_constraint i)
      | _ => UErr
      end) (fun c0 => obeys s c0 g).
Proof.
  intros P PT V K FT O. destruct t; try discriminate; try (destruct PT; fail).
  all: try (exfalso; cbn in FT, O; destruct O as [b [_ O]]; subst; try discriminate; destruct FT as [? [? _]]; discriminate).
  - eapply comp_tc; [exact P|apply meet_base_num; exact K|exact FT|exact O].
  - eapply comp_tc; [exact P|apply meet_int_num; exact K|exact FT|exact O].
Qed.

Lemma comp_fields n B m fs st g : C_vu n -> pre st -> vars_below (N_ st) m -> Forall (fun f => proper (N_ st) (snd f)) fs ->
  above B (size g) -> (forall k t v, In (k, t) fs -> mget k m = Some v -> fits s t (s v) /\ size (s v) < size g) ->
  comp (10 * size g + 2 <= S n) (foldU (field_entry (unify_var_utype ho n B) m) tt fs st) (fun _ => True).
Proof.
  intros IV P VB PF AB H. rewrite Forall_forall in PF. apply (comp_fold B (N_ st)); auto.
  - intros [] [k t] st0 I W0 E0. unfold field_entry. cbn [fst snd]. destruct (mget k m) as [v|]; [|apply sound_ok; auto].
    eapply sound_weaken; [sound_by; [exact W0|rewrite E0; exact (PF _ I)]|auto|auto].
  - intros [] [k t] st0 I P0 E0. unfold field_entry. cbn [fst snd]. destruct (mget k m) as [v|] eqn:G; [|apply comp_ok; auto].
    destruct (H _ _ _ I G) as [F SZ].
    eapply comp_weaken; [apply IV; auto; [rewrite E0; exact (VB _ _ G)|rewrite E0; exact (PF _ I)|eapply above_le; [exact AB|lia]]|lia|auto].
Qed.

Lemma comp_proj n B p t st g : C_vu n -> pre st -> proper_c (N_ st) (CProj p) -> proper (N_ st) t -> is_var t = false ->
  has_shape s p g -> fits s t g -> above B (size g) ->
  comp (10 * size g + 2 <= S n)
      (match p, t with
      | _, UVar v => unify_var_constraint ho n B v (CProj p) st
      | PRecord m, URecord fs =>
        ubind (foldU (field_entry (unify_var_utype ho n B) m) tt fs st) (fun _ st1 =>
        if covers m fs then UOk st1 (CEquiv t) else UErr)
      | PTuple m, UTuple ts =>
        ubind (foldU (field_entry (unify_var_utype ho n B) m) tt (indexed ts) st) (fun _ st1 =>
        if covers m (indexed ts) then UOk st1 (CEquiv t) else UErr)
      | PSeq v, USeq t0 _ => ubind (unify_var_utype ho n B v t0 st) (fun _ st1 => UOk st1 (CEquiv t))
      | POpt v, UOption t0 => ubind (unify_var_utype ho n B v t0 st) (fun _ st1 => UOk st1 (CEquiv t))
      | _, _ => UPanic
      end) (fun c0 => obeys s c0 g).
Proof.
  intros IV P PP PT V HS FT AB.
  assert (SU : forall v t st0, wf st0 -> N_ st0 = N_ st -> v < N_ st -> proper (N_ st) t ->
     sound B st0 (unify_var_utype ho n B v t st0) (fun _ => True) (fun s _ => fits s t (s v))).
  { intros v t0 st0 W0 E0 L P0. sound_by; [exact W0|rewrite E0; exact P0]. }
  assert (MU : forall v t st0, mono st0 (unify_var_utype ho n B v t st0)) by apply mono_all.
  destruct p as [m|m|v|v], t; try discriminate; try (destruct PT; fail).
  all: try (exfalso; cbn in HS, FT; repeat match goal with H : exists _, _ |- _ => destruct H as [? [? ?]] | b : basetype |- _ => destruct b end; subst; cbn in *; congruence).
  - pose proof FT as FT0. apply fits_tuple in FT. destruct FT as [gs [-> FT]]. destruct HS as [gs' [E HS]]. injection E as <-.
    destruct PP as [VB KS]. pose proof (indexed_proper _ _ PT) as PI.
    eapply comp_bind.
    + apply (sound_fields B (N_ st)); eauto. apply P.
    + apply comp_fields; auto. intros k t v I G. apply indexed_in in I. apply HS in G. destruct (Forall2_nth _ _ _ FT _ _ I) as [g0 [E0 F0]].
      rewrite G in E0. injection E0 as <-. split; [exact F0|]. apply size_tuple. eapply nth_error_In. exact G.
    + intros [] st1 P1 S1 _ _. rewrite (covers_true m (indexed ts) (indexed ts)); auto; [apply comp_ok; auto|].
      intros k v G. apply HS in G. assert (L : N.to_nat k < length ts). { rewrite (Forall2_len FT). apply nth_error_Some. congruence. }
      apply nth_error_Some in L. destruct (nth_error ts (N.to_nat k)) as [t|] eqn:Et; [|congruence]. exists t. apply indexed_in. exact Et.
  - pose proof FT as FT0. apply fits_record in FT. destruct FT as [gs [-> FT]]. destruct HS as [gs' [E HS]]. injection E as <-.
    destruct PP as [VB KS]. apply proper_record in PT. destruct PT as [ND PI].
    eapply comp_bind.
    + apply (sound_fields B (N_ st)); eauto. apply P.
    + apply comp_fields; auto. intros k t v I G. apply HS in G. destruct (fits_member _ _ _ _ ND FT I) as [g0 [E0 F0]].
      rewrite G in E0. injection E0 as <-. split; [exact F0|]. apply mget_in in G. exact (size_record _ _ G).
    + intros [] st1 P1 S1 _ _. rewrite (covers_true m fs fs); auto; [apply comp_ok; auto|].
      intros k v G. apply HS in G. exact (fits_key _ _ _ _ FT G).
  - cbn in HS, FT. subst g. destruct FT as [g0 [E FT]]. injection E as <-. cbn [size] in AB |- *.
    eapply comp_bind; [apply SU; auto; apply P|eapply comp_weaken; [apply IV; auto|lia|intros ? HQ; exact HQ]|].
    intros [] st1 P1 S1 _ _. apply comp_ok; auto. cbn. eauto.
  - cbn in HS, FT. subst g. destruct FT as [g0 [E FT]]. injection E as <-. cbn [size] in AB |- *.
    eapply comp_bind; [apply SU; auto; apply P|eapply comp_weaken; [apply IV; auto|lia|intros ? HQ; exact HQ]|].
    intros [] st1 P1 S1 _ _. apply comp_ok; auto. cbn. eauto.
Qed.

Lemma joined_of (m1 m2 : list (N * nat)) m k w (R : N -> gtype -> Prop) :
  (forall k, mget k m = if existsb (N.eqb k) (shuffle ho (union_keys m1 m2)) then joined m1 m2 k else mget k []) ->
  (forall k v, mget k m1 = Some v -> R k (s v)) -> (forall k v, mget k m2 = Some v -> R k (s v)) -> mget k m = Some w -> R k (s w).
Proof.
  intros H H1 H2 G. rewrite H in G. destruct (existsb _ _); [|discriminate]. unfold joined in G.
  destruct (mget k m1) as [a|] eqn:E1; destruct (mget k m2) as [b|] eqn:E2; try discriminate; injection G as <-; auto.
  destruct (Nat.min_spec a b) as [[_ ->]|[_ ->]]; auto.
Qed.
Lemma comp_merge n B m1 m2 st g : C_vp n -> pre st -> vars_below (N_ st) m1 -> vars_below (N_ st) m2 -> above B (size g) ->
  (forall k a b, mget k m1 = Some a -> mget k m2 = Some b -> s a = s b /\ size (s a) < size g) ->
  comp (10 * size g + 2 <= S n) (foldU (merge_entry (unify_var_pair ho n B) m1 m2) [] (shuffle ho (union_keys m1 m2)) st) (fun _ => True).
Proof.
  intros IP P V1 V2 AB H. apply (comp_fold B (N_ st)); auto.
  - intros acc k st0 I W0 E0. unfold merge_entry. destruct (mget k m1) as [a|], (mget k m2) as [b|]; try (apply sound_ok; auto; fail); [|apply sound_panic].
    eapply sound_bind; [sound_by; exact W0|cbn; auto|]. intros [] st1 W1 S1 _. apply sound_ok; auto.
  - intros acc k st0 I P0 E0. unfold merge_entry.
    assert (K : existsb (N.eqb k) (union_keys m1 m2) = true).
    { apply existsb_exists. exists k. split; [eapply Permutation_in; [apply shuffle_perm|exact I]|apply N.eqb_refl]. }
    apply union_keys_in in K.
    destruct (mget k m1) as [a|] eqn:G1; destruct (mget k m2) as [b|] eqn:G2; try (apply comp_ok; auto; fail).
    + destruct (H _ _ _ G1 G2) as [EQ SZ]. eapply comp_bind; [sound_by; apply P0| |].
      * eapply comp_weaken; [apply IP; auto; [rewrite E0; exact (V1 _ _ G1)|rewrite E0; exact (V2 _ _ G2)|eapply above_le; [exact AB|lia]]|lia|intros ? HQ; exact HQ].
      * intros [] st1 P1 S1 _ _. apply comp_ok; auto.
    + destruct K as [[? K]|[? K]]; discriminate.
Qed.

Lemma complete_pair n : C_ut n -> C_vu n -> C_vp n -> C_pair (S n).
Proof.
  intros IU IV IP B c1 c2 st g P P1 P2 O1 O2 AB. rewrite unify_constraint_pair_S.
  destruct c1 as [t1|b1|p1|i1], c2 as [t2|b2|p2|i2].
  all: try (exfalso; cbn in O1, O2; repeat match goal with H : exists _, _ |- _ => destruct H as [? [? ?]] | b : basetype |- _ => destruct b end; subst;
            match goal with p : proj |- _ => destruct p end; cbn in *; repeat match goal with H : exists _, _ |- _ => destruct H as [? [? ?]] end; congruence).
  - destruct (utype_eqb t1 t2); [apply comp_ok; auto|]. destruct P1 as [P11 P12]. destruct P2 as [P21 P22].
    assert (VR : vary t1 t2 = false) by (unfold vary; rewrite P12, P22; reflexivity).
    eapply comp_bind; [sound_by; [apply P|exact P11|exact P21]|eapply comp_weaken; [apply (IU B t1 t2 st g); auto; rewrite VR; exact AB|rewrite VR; lia|intros ? HQ; exact HQ]|].
    intros t0 st1 Q1 S1 _ F0. apply comp_ok; auto.
  - destruct P1. apply (comp_elem n); auto.
  - destruct P1. apply comp_proj; auto.
  - destruct P1. apply (comp_num n); auto.
  - destruct P2. apply (comp_elem n); auto.
  - eapply comp_tc; [exact P|apply meet_elem; auto|exact O1|exact O2].
  - eapply comp_tc; [exact P|apply meet_elem_num; auto|exact O1|exact O2].
  - destruct P2. apply comp_proj; auto.
  - assert (SP : forall a b st0, wf st0 -> N_ st0 = N_ st -> a < N_ st -> b < N_ st ->
     sound B st0 (unify_var_pair ho n B a b st0) (fun _ => True) (fun s _ => s a = s b)) by (intros; sound_by; assumption).
    assert (MP : forall a b st0, mono st0 (unify_var_pair ho n B a b st0)) by apply mono_all.
    destruct p1 as [m1|m1|v1|v1], p2 as [m2|m2|v2|v2]; cbn [proper_c] in P1, P2.
    all: try (exfalso; cbn in O1, O2; repeat match goal with H : exists _, _ |- _ => destruct H as [? [? ?]] end; congruence).
    + destruct (list_eqb entry_eqb m1 m2); [apply comp_ok; auto|]. destruct O1 as [gs [-> O1]]. destruct O2 as [gs' [E O2]]. injection E as <-.
      eapply comp_bind; [apply (sound_merge B (N_ st)); try exact (proj1 P1); try exact (proj1 P2); auto; apply P| |].
      * apply comp_merge; try exact (proj1 P1); try exact (proj1 P2); auto. intros k a b G1 G2. apply O1 in G1. apply O2 in G2.
        split; [congruence|]. apply size_tuple. eapply nth_error_In. exact G1.
      * intros m st1 Q1 S1 [K _] _. apply comp_ok; auto. exists gs. split; [reflexivity|]. intros k w G.
        apply (joined_of m1 m2 m k w (fun k g => nth_error gs (N.to_nat k) = Some g)); auto.
    + destruct (list_eqb entry_eqb m1 m2); [apply comp_ok; auto|]. destruct O1 as [gs [-> O1]]. destruct O2 as [gs' [E O2]]. injection E as <-.
      eapply comp_bind; [apply (sound_merge B (N_ st)); try exact (proj1 P1); try exact (proj1 P2); auto; apply P| |].
      * apply comp_merge; try exact (proj1 P1); try exact (proj1 P2); auto. intros k a b G1 G2. apply O1 in G1. apply O2 in G2.
        split; [congruence|]. apply mget_in in G1. exact (size_record _ _ G1).
      * intros m st1 Q1 S1 [K _] _. apply comp_ok; auto. exists gs. split; [reflexivity|]. intros k w G.
        apply (joined_of m1 m2 m k w (fun k g => mget k gs = Some g)); auto.
    + cbn in O1, O2. subst g. injection O2 as O2. cbn [size] in AB |- *. eapply comp_bind; [apply SP; auto; apply P| |].
      * eapply comp_weaken; [apply IP; auto|lia|intros ? HQ; exact HQ].
      * intros [] st1 Q1 S1 _ _. apply comp_ok; cbn; auto.
    + cbn in O1, O2. subst g. injection O2 as O2. cbn [size] in AB |- *. eapply comp_bind; [apply SP; auto; apply P| |].
      * eapply comp_weaken; [apply IP; auto|lia|intros ? HQ; exact HQ].
      * intros [] st1 Q1 S1 _ _. apply comp_ok; cbn; auto.
  - destruct P2. apply (comp_num n); auto.
  - eapply comp_tc; [exact P|apply meet_elem_num; auto|exact O2|exact O1].
  - destruct (intset_eqb i1 i2); [apply comp_ok; auto|]. eapply comp_tc; [exact P|apply meet_num; auto|exact O1|exact O2].
Qed.

Lemma complete_vp n : C_tr n -> C_vp (S n).
Proof.
  intros IT B v w st P LV LW EQ AB. rewrite unify_var_pair_S. pose proof (p_wf _ P) as W.
  destruct (wf_canon st v W LV) as [c1 [C1 [I1 _]]]. destruct (wf_canon st w W LW) as [c2 [C2 [I2 _]]].
  pose proof (merge_of_spec st v w c1 c2 (w_awf _ W) C1 C2) as M.
  pose proof (pre_alias _ _ _ P C1) as E1. pose proof (pre_alias _ _ _ P C2) as E2.
  assert (FIN : forall lo hi st1, merged lo hi st st1 -> lo = c1 /\ hi = c2 \/ lo = c2 /\ hi = c1 ->
     comp (10 * size (s v) + 4 <= S n) (transfer_constraints ho n B lo hi (note_again (mem_nat lo B || mem_nat hi B) st1)) (fun _ => True)).
  { intros lo hi st1 MG K. assert (KL : s v = s lo /\ s v = s hi) by (destruct K as [[-> ->]|[-> ->]]; split; congruence). destruct KL as [KL KH].
    rewrite (proj2 (mem_nat_out lo B)) by (eapply above_out; eauto). rewrite (proj2 (mem_nat_out hi B)) by (eapply above_out; eauto).
    cbn [orb]. rewrite note_false. rewrite KL in AB |- *. eapply comp_weaken; [eapply IT; eauto; congruence|lia|auto]. }
  destruct (merge_of st v w) as [|lo hi|lo hi|]; [apply comp_ok; auto| | |destruct M].
  - destruct M as [G [NE K]].
    destruct (repoint_spec lo hi st) as [st1 [R MG]]; auto. { exact (w_awf _ W). } { destruct K as [[-> _]|[-> _]]; assumption. }
    rewrite R. exact (FIN lo hi st1 MG K).
  - destruct M as [NE K].
    destruct (recanonicalize_spec ho lo hi st) as [st1 [R MG]]; auto. { exact (w_awf _ W). } { destruct K as [[-> _]|[-> _]]; assumption. } { destruct K as [[_ ->]|[_ ->]]; assumption. }
    rewrite R. exact (FIN lo hi st1 MG K).
Qed.

Lemma complete_tr n : C_pair n -> C_vm n -> C_tr (S n).
Proof.
  intros IP IV B lo hi st st1 P M EQ AB. rewrite transfer_constraints_S. pose proof (p_wf _ P) as W.
  destruct (Nat.eqb_spec lo hi) as [X|_]; [destruct (m_ne _ _ _ _ M X)|].
  assert (GC : forall i, get_cons st1 i = get_cons st i) by (intro i; unfold get_cons; rewrite (m_cons _ _ _ _ M); reflexivity).
  assert (LL : lo < N_ st) by exact (canon_lt_wf _ _ _ W (m_lo _ _ _ _ M)).
  assert (LH : hi < N_ st) by exact (canon_lt_wf _ _ _ W (m_hi _ _ _ _ M)).
  destruct (cons_range st lo LL) as [cl Gl]. destruct (cons_range st hi LH) as [ch Gh].
  pose proof (pre_con _ _ _ P (m_lo _ _ _ _ M) Gl) as Al. pose proof (pre_con _ _ _ P (m_hi _ _ _ _ M) Gh) as Ah.
  pose proof (satA_merged _ _ _ _ (p_sat _ P) M EQ) as SA.
  assert (AG : again st1 = false) by (rewrite (m_again _ _ _ _ M); exact (p_again _ P)).
  assert (AV : forall cs g, allowed s st cs g -> allowed s st1 cs g).
  { intros cs g. apply allowed_vms. intros. rewrite (m_vms _ _ _ _ M). reflexivity. }
  rewrite !GC, Gl, Gh.
  destruct cl as [|id1|c1]; destruct ch as [|id2|c2].
  - cbn [comp]. auto.
  - cbn [comp]. split; [exact AG|]. split; [|exact I]. apply satA_set_var; [exact SA|]. apply AV. rewrite EQ. exact Ah.
  - cbn [comp]. split; [exact AG|]. split; [|exact I]. apply satA_set_inv; [exact SA|]. rewrite EQ. exact Ah.
  - cbn [comp]. split; [exact AG|]. split; [|exact I]. apply satA_set_var; [exact SA|]. apply AV. rewrite <- EQ. exact Al.
  - eapply comp_weaken; [eapply IV; eauto|lia|auto].
  - destruct Al as [vm [_ [bs [E _]]]]. cbn in Ah. rewrite <- EQ, E in Ah. destruct (no_union _ _ _ (w_con _ W _ _ Gh) Ah).
  - cbn [comp]. split; [exact AG|]. split; [|exact I]. apply satA_set_inv; [exact SA|]. rewrite <- EQ. exact Al.
  - destruct Ah as [vm [_ [bs [E _]]]]. cbn in Al. rewrite EQ, E in Al. destruct (no_union _ _ _ (w_con _ W _ _ Gl) Al).
  - assert (W1 : wf st1) by (eapply wf_merged; eauto 7).
    assert (K1 : proper_c (N_ st1) c1) by (rewrite (m_cons _ _ _ _ M); exact (w_con _ W _ _ Gl)).
    assert (K2 : proper_c (N_ st1) c2) by (rewrite (m_cons _ _ _ _ M); exact (w_con _ W _ _ Gh)).
    assert (H : comp (10 * size (s lo) + 3 <= S n) (unify_constraint_pair ho n (lo :: B) c1 c2 st1) (fun c0 => obeys s c0 (s lo))).
    { eapply comp_weaken; [apply IP with (g := s lo); auto; [constructor; auto|cbn in Ah; rewrite EQ; exact Ah|apply above_cons; [eapply above_le; [exact AB|lia]|lia]]|lia|auto]. }
    destruct (unify_constraint_pair ho n (lo :: B) c1 c2 st1) as [st2 c0| | |]; cbn [ubind]; try exact H.
    destruct H as [A2 [SA2 O]]. cbn [comp]. split; [exact A2|]. split; [|exact I].
    apply satA_set_inv; [apply satA_set_inv; [exact SA2|exact O]|]. rewrite <- EQ. exact O.
Qed.

(** ** Unions *)
Section VarmapLoop.
Variables (lo i hi j l h : nat).
Hypothesis LH : l = i /\ h = j \/ l = j /\ h = i.
Hypothesis NE : l <> h.
Variable bs : list (label * gtype).
Hypothesis EBS : s lo = GUnion bs.

Lemma satA_write vm st vm' : vm_inv lo i hi j l h vm st -> satA st -> (forall k t, In (k, t) vm' -> covered s bs k t) ->
  satA (set_vms (vset l vm' (vms st)) st).
Proof.
  intros V [[A C] D] H. split; [split|].
  - exact A.
  - intros v cs E NI G. change (canonical st v = Some v) in E. change (get_cons st v = Some cs) in G. pose proof (C v cs E NI G) as K.
    destruct cs as [|id|c]; try exact K. cbn [allowed] in K |- *. cbn [vms set_vms]. rewrite vget_set. destruct (Nat.eqb_spec id l) as [->|]; [|exact K].
    exists vm'. split; [reflexivity|]. exists bs. split; [|exact H].
    rewrite (vm_own lo i hi j l h LH NE vm st v V (or_introl G)) in E. injection E as <-. exact EBS.
  - exact D.
Qed.

Lemma vm_loop_c n B : C_ut n -> above B (S (size (s lo))) -> forall es vm st, vm_inv lo i hi j l h vm st -> pre st ->
  (forall k t, In (k, t) es -> proper (N_ st) t) ->
  (forall k t, In (k, t) vm -> covered s bs k t) -> (forall k t, In (k, t) es -> covered s bs k t) ->
  match foldU (vm_body ho lo l n B) tt es st with
  | UOk st' _ => pre st' /\ exists vm', vm_inv lo i hi j l h vm' st' /\ forall k t, In (k, t) vm' -> covered s bs k t
  | UFuel => ~ (10 * size (s lo) + 2 <= S n)
  | UErr | UPanic => False
  end.
Proof.
  intros IU AB es. assert (NB : ~ In lo B) by (eapply above_out; eauto).
  induction es as [|[k t] es IH]; intros vm st V P PE CV CE; cbn [foldU].
  - split; [exact P|]. exists vm. auto.
  - pose proof (p_wf _ P) as W.
    assert (ROUND : match vm_body ho lo l n B tt (k, t) st with
      | UOk st2 _ => pre st2 /\ N_ st2 = N_ st /\ exists vm2, vm_inv lo i hi j l h vm2 st2 /\ forall k t, In (k, t) vm2 -> covered s bs k t
      | UFuel => ~ (10 * size (s lo) + 2 <= S n)
      | UErr | UPanic => False
      end).
    { unfold vm_body. rewrite (v_l _ _ _ _ _ _ _ _ V). cbn [fst snd].
      destruct (CE k t (or_introl eq_refl)) as [g0 [Eg Ft]].
      destruct (mget k vm) as [tl|] eqn:EM.
      - assert (PTL : proper (N_ st) tl) by exact (w_vm _ W _ _ _ _ (v_l _ _ _ _ _ _ _ _ V) (mget_in _ _ _ EM)).
        destruct (CV k tl (mget_in _ _ _ EM)) as [g1 [Eg1 Fl]]. rewrite Eg in Eg1. injection Eg1 as <-.
        assert (SZ : size g0 < size (s lo)). { rewrite EBS. apply mget_in in Eg. exact (size_union _ _ Eg). }
        assert (HC : comp (10 * size (s lo) + 2 <= S n) (unify_utype ho n (lo :: B) tl t st) (fun t0 => fits s t0 g0)).
        { eapply comp_weaken; [apply (IU (lo :: B) tl t st g0); auto; [apply (PE k); left; reflexivity|]| |auto].
          - apply above_cons; [eapply above_le; [exact AB|]|]; destruct (vary tl t); lia.
          - destruct (vary tl t); lia. }
        pose proof (proj1 (S_all n) (lo :: B) tl t st W PTL (PE k t (or_introl eq_refl))) as HS.
        destruct (unify_utype ho n (lo :: B) tl t st) as [st1 t1| | |]; cbn [ubind]; try exact HC.
        destruct HC as [A1 [SA1 F1]]. destruct (HS st1 t1 eq_refl A1) as [W1 [S1 [[PT1 _] _]]].
        destruct (s_frame _ _ _ S1 lo lo (or_introl eq_refl) (v_lo _ _ _ _ _ _ _ _ V)) as [CL [GL VL]].
        destruct (s_frame _ _ _ S1 lo hi (or_introl eq_refl) (v_hi _ _ _ _ _ _ _ _ V)) as [CH [GH VH]].
        specialize (VL _ (v_gl _ _ _ _ _ _ _ _ V)). specialize (VH _ (v_gh _ _ _ _ _ _ _ _ V)).
        rewrite (v_gl _ _ _ _ _ _ _ _ V) in GL. rewrite (v_gh _ _ _ _ _ _ _ _ V) in GH.
        assert (VLL : vget l (vms st1) = Some vm /\ vget h (vms st1) = Some []).
        { rewrite <- (v_l _ _ _ _ _ _ _ _ V), <- (v_h _ _ _ _ _ _ _ _ V). destruct LH as [[-> ->]|[-> ->]]; auto. }
        destruct VLL as [VLL VHH]. rewrite VLL.
        assert (V1 : vm_inv lo i hi j l h vm st1) by (constructor; auto).
        destruct (vm_write lo i hi j l h LH NE B vm st1 (minsert k t1 vm) V1 NB) as [V2 _].
        { intros k' t' I. rewrite (s_len _ _ _ S1). apply minsert_in in I. destruct I as [I|I]; [injection I as -> ->; exact PT1|].
          exact (w_vm _ W _ _ _ _ (v_l _ _ _ _ _ _ _ _ V) I). }
        assert (CV2 : forall k' t', In (k', t') (minsert k t1 vm) -> covered s bs k' t').
        { intros k' t' I. apply minsert_in in I. destruct I as [I|I]; [injection I as -> ->; exists g0; auto|auto]. }
        split; [constructor; [exact (v_wf _ _ _ _ _ _ _ _ V2)|exact A1|exact (satA_write vm st1 _ V1 SA1 CV2)]|].
        split; [exact (s_len _ _ _ S1)|]. exists (minsert k t1 vm). auto.
      - destruct (vm_write lo i hi j l h LH NE B vm st (minsert k t vm) V NB) as [V2 _].
        { intros k' t' I. apply minsert_in in I. destruct I as [I|I]; [injection I as -> ->; apply (PE k t); left; reflexivity|].
          exact (w_vm _ W _ _ _ _ (v_l _ _ _ _ _ _ _ _ V) I). }
        assert (CV2 : forall k' t', In (k', t') (minsert k t vm) -> covered s bs k' t').
        { intros k' t' I. apply minsert_in in I. destruct I as [I|I]; [injection I as -> ->; exists g0; auto|auto]. }
        split; [constructor; [exact (v_wf _ _ _ _ _ _ _ _ V2)|exact (p_again _ P)|exact (satA_write vm st _ V (p_sat _ P) CV2)]|].
        split; [reflexivity|]. exists (minsert k t vm). auto. }
    destruct (vm_body ho lo l n B tt (k, t) st) as [st2 []| | |]; cbn [ubind]; try exact ROUND.
    destruct ROUND as [P2 [E2 [vm2 [V2 CV2]]]]. apply (IH vm2 st2 V2 P2); auto.
    + intros k' t' I. rewrite E2. apply (PE k' t'). right. exact I.
    + intros k' t' I. apply CE. right. exact I.
Qed.
End VarmapLoop.

Lemma complete_vm n : C_ut n -> C_vm (S n).
Proof.
  intros IU B lo i hi j st st1 P M EQ AB Gl Gh. rewrite unify_varmaps_S. pose proof (p_wf _ P) as W.
  assert (NIJ : i <> j).
  { intros ->. pose proof (w_own _ W _ _ _ Gl Gh) as X. rewrite (m_lo _ _ _ _ M), (m_hi _ _ _ _ M) in X. injection X as X. exact (m_ne _ _ _ _ M X). }
  destruct (Nat.eqb_spec i j) as [X|_]; [contradiction|]. cbv zeta.
  set (l := Nat.min i j) in *. set (h := Nat.max i j) in *.
  assert (LH : l = i /\ h = j \/ l = j /\ h = i) by (unfold l, h; lia).
  assert (NE : l <> h) by (unfold l, h; lia).
  assert (GC : forall x, get_cons st1 x = get_cons st x) by (intro x; unfold get_cons; rewrite (m_cons _ _ _ _ M); reflexivity).
  assert (W1 : wf st1) by (eapply wf_merged; eauto 7).
  assert (CL : canonical st1 lo = Some lo). { rewrite (m_canon _ _ _ _ M), (m_lo _ _ _ _ M). destruct (Nat.eqb_spec lo hi); [|reflexivity]. destruct (m_ne _ _ _ _ M e). }
  assert (CH : canonical st1 hi = Some lo). { rewrite (m_canon _ _ _ _ M), (m_hi _ _ _ _ M), Nat.eqb_refl. reflexivity. }
  destruct (pre_con _ _ _ P (m_lo _ _ _ _ M) Gl) as [vi [Evi [bs [Ebs HVi]]]].
  destruct (pre_con _ _ _ P (m_hi _ _ _ _ M) Gh) as [vj [Evj [bs' [Ebs' HVj]]]].
  assert (EB : bs' = bs) by congruence. subst bs'.
  assert (EV : exists vl vh, vget l (vms st) = Some vl /\ vget h (vms st) = Some vh /\
     (forall k t, In (k, t) vl -> covered s bs k t) /\ (forall k t, In (k, t) vh -> covered s bs k t)).
  { destruct LH as [[-> ->]|[-> ->]]; [exists vi, vj|exists vj, vi]; auto. }
  destruct EV as [vl [vh [El [Eh [CVL CVH]]]]]. rewrite (m_vms _ _ _ _ M), Eh.
  set (st2 := set_vms (vset h [] (vms st)) st1) in *.
  assert (W2 : wf st2).
  { apply wf_set_vms; [exact W1| |].
    - intros id vm. rewrite vget_set. rewrite (m_next _ _ _ _ M), (m_cons _ _ _ _ M). destruct (Nat.eqb_spec id h) as [->|].
      + intro X. injection X as <-. split; [exact (w_ids _ W _ _ Eh)|]. intros k t [].
      + intro X. split; [exact (w_ids _ W _ _ X)|]. intros k t. exact (w_vm _ W _ _ k t X).
    - intros x id Ex Gx. rewrite vget_set. destruct (id =? h); eauto. rewrite <- (m_vms _ _ _ _ M). exact (w_ex _ W1 _ _ Ex Gx). }
  assert (V2 : vm_inv lo i hi j l h vl st2).
  { constructor; auto.
    - rewrite <- GC in Gl. exact Gl.
    - rewrite <- GC in Gh. exact Gh.
    - cbn. rewrite vget_set. destruct (Nat.eqb_spec l h); [contradiction|exact El].
    - cbn. rewrite vget_set, Nat.eqb_refl. reflexivity. }
  assert (P2 : pre st2).
  { constructor; [exact W2|cbn; rewrite (m_again _ _ _ _ M); exact (p_again _ P)|].
    destruct (satA_merged _ _ _ _ (p_sat _ P) M EQ) as [[A C] D]. split; [split|].
    - exact A.
    - intros v cs E NI G. change (canonical st1 v = Some v) in E. change (get_cons st1 v = Some cs) in G. pose proof (C v cs E NI G) as K.
      destruct cs as [|id|c]; try exact K. cbn [allowed] in K |- *. unfold st2. cbn [vms set_vms]. rewrite vget_set.
      rewrite (m_vms _ _ _ _ M) in K. destruct (Nat.eqb_spec id h) as [->|]; [|exact K].
      exists []. split; [reflexivity|]. exists bs. split; [|intros ? ? []].
      assert (KX : canonical st1 v = Some lo) by (apply (vm_own lo i hi j l h LH NE vl st2 v V2); right; exact G). rewrite E in KX. injection KX as ->. exact Ebs.
    - exact D. }
  pose proof (vm_loop_c lo i hi j l h LH NE bs Ebs n B IU AB (shuffle ho vh) vl st2 V2 P2) as HL.
  match goal with |- comp _ (ubind ?x _) _ => change x with (foldU (vm_body ho lo l n B) tt (shuffle ho vh) st2) end.
  destruct (foldU (vm_body ho lo l n B) tt (shuffle ho vh) st2) as [st3 []| | |]; cbn [ubind].
  2,3,4: cbn [comp]; apply HL; auto; try (intros k t I; apply CVH; eapply Permutation_in; [apply shuffle_perm|exact I]).
  2,3,4: intros k t I; change (N_ st2) with (N_ st1); rewrite (m_cons _ _ _ _ M); eapply (w_vm _ W); [exact Eh|]; eapply Permutation_in; [apply shuffle_perm|exact I].
  destruct HL as [P3 [vm3 [V3 CV3]]]; auto.
  { intros k t I; change (N_ st2) with (N_ st1); rewrite (m_cons _ _ _ _ M); eapply (w_vm _ W); [exact Eh|]; eapply Permutation_in; [apply shuffle_perm|exact I]. }
  { intros k t I. apply CVH. eapply Permutation_in; [apply shuffle_perm|exact I]. }
  rewrite (v_h _ _ _ _ _ _ _ _ V3).
  change (get_cons (set_vms (vremove h (vms st3)) st3) lo) with (get_cons st3 lo). change (get_cons (set_vms (vremove h (vms st3)) st3) hi) with (get_cons st3 hi).
  rewrite (v_gl _ _ _ _ _ _ _ _ V3), (v_gh _ _ _ _ _ _ _ _ V3). cbn [comp]. split; [exact (p_again _ P3)|]. split; [|exact I].
  set (st4 := set_vms (vremove h (vms st3)) st3).
  assert (V4 : vget l (vms st4) = Some vm3). { cbn. rewrite vget_remove. destruct (Nat.eqb_spec l h); [contradiction|]. exact (v_l _ _ _ _ _ _ _ _ V3). }
  assert (GCF : forall x, get_cons (set_cons hi (Variant l) (set_cons lo (Variant l) st4)) x = if hi =? x then Some (Variant l) else if lo =? x then Some (Variant l) else get_cons st3 x).
  { intro x. rewrite !cons_set_cons. change (get_cons st4 x) with (get_cons st3 x).
    destruct (Nat.eqb_spec hi x) as [<-|N1].
    - destruct (Nat.eqb_spec lo hi) as [X|]; [destruct (m_ne _ _ _ _ M X)|]. rewrite (v_gh _ _ _ _ _ _ _ _ V3). reflexivity.
    - destruct (Nat.eqb_spec lo x) as [<-|]; [|reflexivity]. rewrite (v_gl _ _ _ _ _ _ _ _ V3). reflexivity. }
  destruct (p_sat _ P3) as [[A C] D]. split; [split|].
  - exact A.
  - intros v cs E NI G. change (canonical st3 v = Some v) in E. rewrite GCF in G.
    assert (OKL : allowed s (set_cons hi (Variant l) (set_cons lo (Variant l) st4)) (Variant l) (s lo)).
    { exists vm3. split; [exact V4|]. exists bs. auto. }
    destruct (Nat.eqb_spec hi v) as [<-|]. { injection G as <-. rewrite <- EQ. exact OKL. }
    destruct (Nat.eqb_spec lo v) as [<-|NLO]. { injection G as <-. exact OKL. }
    pose proof (C v cs E NI G) as K. eapply allowed_vms; [|exact K]. intros id ->. cbn. rewrite vget_remove.
    destruct (Nat.eqb_spec id h) as [->|]; [|reflexivity]. rewrite (vm_own lo i hi j l h LH NE vm3 st3 v V3 (or_intror G)) in E. injection E as <-. congruence.
  - intros x c. rewrite GCF. destruct (hi =? x); [discriminate|]. destruct (lo =? x); [discriminate|]. apply D.
Qed.

Theorem completeness n : C_ut n /\ C_vc n /\ C_pair n /\ C_vu n /\ C_vp n /\ C_tr n /\ C_vm n.
Proof.
  induction n as [|n [IU [IC [IP [IV [IW [IT IM]]]]]]].
  - refine (conj _ (conj _ (conj _ (conj _ (conj _ (conj _ _)))))); intro; intros; cbn [comp unify_utype unify_var_constraint unify_constraint_pair unify_var_utype unify_var_pair transfer_constraints unify_varmaps]; try lia.
    destruct (vary _ _); lia.
  - split; [apply complete_ut; auto|]. split; [apply complete_vc; auto|]. split; [apply complete_pair; auto|]. split; [apply complete_vu; auto|].
    split; [apply complete_vp; auto|]. split; [apply complete_tr; auto|]. apply complete_vm; auto.
Qed.
End Complete.
