(** The engine's tables say what assignments of types are allowed; each step allows
    those that it should. *)
From Verif Require Import Base BoundsModel NumericModel ValueModel BaseSetModel BaseSetSpec BaseSetProofs UnifyModel UnifySpec UnifyAlias NumCodeModel NumInferModel NumInferSpec.
Open Scope nat_scope.

(** ** Constraints *)
Definition csat (c : ncon) (t : mrep) : Prop :=
  match c with
  | NEquiv x => t = x
  | NEncomp b => (zmin (as_bounds t) <= zmin b /\ zmax b <= zmax (as_bounds t))%Z
  end.
Definition isat (c : ncons) (t : mrep) : Prop := match c with NIndef => True | NInv c => csat c t end.
Definition sane (c : ncon) : Prop := match c with NEquiv _ => True | NEncomp b => (zmin b <= zmax b)%Z end.
Definition isane (c : ncons) : Prop := match c with NIndef => True | NInv c => sane c end.

Lemma bounds_sane t : (zmin (as_bounds t) <= zmax (as_bounds t))%Z.
Proof. destruct t as [[] []]; cbn; lia. Qed.
Lemma encompassed_spec b t : zb_is_encompassed_by b (as_bounds t) =
  Val ((zmin (as_bounds t) <=? zmin b) && (zmax b <=? zmax (as_bounds t)))%Z.
Proof. unfold zb_is_encompassed_by. pose proof (bounds_sane t). destruct (Z.leb_spec (zmin (as_bounds t)) (zmax (as_bounds t))); [reflexivity|lia]. Qed.
Lemma holds_bounds t z : holds t z <-> csat (NEncomp (ZB z z)) t.
Proof. unfold holds. destruct t as [[] []]; cbn; lia. Qed.
Lemma ncon_eqb_eq a b : ncon_eqb a b = true -> a = b.
Proof.
  destruct a as [x|[x1 x2]], b as [y|[y1 y2]]; cbn; try discriminate.
  - intro H. apply mrep_eqb_eq in H. congruence.
  - intro H. f_equal. f_equal; lia.
Qed.

Lemma ncon_unify_spec c1 c2 : sane c1 -> sane c2 ->
  match ncon_unify c1 c2 with
  | TOk c => sane c /\ forall t, csat c t <-> csat c1 t /\ csat c2 t
  | TErr => forall t, csat c1 t -> csat c2 t -> False
  | TPanic => False
  end.
Proof.
  intros S1 S2. destruct c1 as [x|b1], c2 as [y|b2]; cbn [ncon_unify].
  - destruct (mrep_eqb x y) eqn:E.
    + apply mrep_eqb_eq in E. subst. split; [exact I|]. cbn. tauto.
    + cbn. intros t -> ->. rewrite (proj2 (mrep_eqb_eq y y) eq_refl) in E. discriminate.
  - unfold unify_int_bounds. rewrite encompassed_spec. destruct (_ && _)%bool eqn:E; cbn [csat].
    + split; [exact I|]. intro t. split; [intros ->; split; [reflexivity|lia]|tauto].
    + intros t -> H. lia.
  - unfold unify_int_bounds. rewrite encompassed_spec. destruct (_ && _)%bool eqn:E; cbn [csat].
    + split; [exact I|]. intro t. split; [intros ->; split; [lia|reflexivity]|tauto].
    + intros t H ->. lia.
  - cbn [sane] in *. unfold zb_unify, zb_is_encompassed_by, zb_encompasses.
    destruct (Z.leb_spec (zmin b2) (zmax b2)); [|lia]. cbn [obind].
    destruct ((zmin b2 <=? zmin b1) && (zmax b1 <=? zmax b2))%Z eqn:E1.
    + split; [exact S2|]. intro t. cbn. lia.
    + cbn [omap obind]. destruct ((zmin b1 <=? zmin b2) && (zmax b2 <=? zmax b1))%Z eqn:E2; cbn.
      * split; [exact S1|]. intro t. lia.
      * split; [lia|]. intro t. lia.
Qed.

(** ** Unique solutions *)
Lemma prim_all t : In t prim_ints.
Proof. destruct t as [[] []]; cbn; tauto. Qed.
Lemma prim_nodup : NoDup prim_ints.
Proof. repeat constructor; cbn; intuition discriminate. Qed.
Definition satb (c : ncon) (t : mrep) : bool := match satisfied_by c t with Val b => b | Panic => false end.
Lemma satisfied_val c t : satisfied_by c t = Val (satb c t).
Proof. unfold satb. destruct c; cbn [satisfied_by]; [reflexivity|]. rewrite encompassed_spec. reflexivity. Qed.
Lemma satb_spec c t : satb c t = true <-> csat c t.
Proof.
  unfold satb. destruct c as [x|b]; cbn [satisfied_by csat].
  - rewrite mrep_eqb_eq. split; congruence.
  - rewrite encompassed_spec. lia.
Qed.
Lemma solutions_filter c : forall l acc,
  ofoldM (fun acc p => omap (fun ok : bool => if ok then acc ++ [p] else acc) (satisfied_by c p)) acc l = Val (acc ++ filter (satb c) l).
Proof.
  induction l as [|p l IH]; intros acc; cbn [ofoldM filter]; [rewrite app_nil_r; reflexivity|].
  rewrite satisfied_val. cbn [omap obind]. destruct (satb c p).
  - refine (eq_trans (IH _) _). rewrite <- app_assoc. reflexivity.
  - apply IH.
Qed.
Lemma unique_solution_spec c : exists r, unique_solution c = Val r /\
  (forall t, r = Some t <-> csat c t /\ forall t', csat c t' -> t' = t).
Proof.
  unfold unique_solution. rewrite solutions_filter. cbn [omap obind app]. eexists. split; [reflexivity|].
  assert (IN : forall t, In t (filter (satb c) prim_ints) <-> csat c t).
  { intro t. rewrite filter_In, satb_spec. pose proof (prim_all t). tauto. }
  pose proof (NoDup_filter (satb c) prim_nodup) as ND.
  intro t. destruct (filter (satb c) prim_ints) as [|u [|w l]].
  - split; [discriminate|]. intros [H _]. apply IN in H. destruct H.
  - split.
    + intro E. injection E as ->. split; [apply IN; left; reflexivity|]. intros t' H. apply IN in H. destruct H as [H|[]]. congruence.
    + intros [H _]. apply IN in H. destruct H as [->|[]]. reflexivity.
  - split; [discriminate|]. intros [H U]. exfalso.
    assert (u = t) by (apply U, IN; left; reflexivity). assert (w = t) by (apply U, IN; right; left; reflexivity).
    inversion ND as [|? ? NI]; subst. apply NI. left. reflexivity.
Qed.

(** ** Assignments *)
Definition sat (st : engine) (r : nat -> mrep) : Prop :=
  forall v c, canonical (eal st) v = Some c ->
    r v = r c /\ forall k, nth_error (ecs st) c = Some k -> isat k (r c).
Record ewf (st : engine) : Prop := {
  e_awf : awf (eal st);
  e_len : length (ecs st) = length (als (eal st));
  e_sane : forall i c, nth_error (ecs st) i = Some c -> isane c }.

Lemma new_canon st v : canonical (new_uvar st) v = if v =? length (als st) then Some v else canonical st v.
Proof.
  unfold canonical, get_als, new_uvar. cbn [als]. destruct (Nat.eqb_spec v (length (als st))) as [->|N].
  - rewrite nth_error_app2, Nat.sub_diag by lia. reflexivity.
  - destruct (Nat.lt_ge_cases v (length (als st))) as [L|G].
    + rewrite nth_error_app1 by lia. reflexivity.
    + rewrite (proj2 (nth_error_None _ v)) by (rewrite app_length; cbn; lia). rewrite (proj2 (nth_error_None _ v)) by lia. reflexivity.
Qed.
Lemma new_als st v : get_als (new_uvar st) v = if v =? length (als st) then Some Ground else get_als st v.
Proof.
  unfold get_als, new_uvar. cbn [als]. destruct (Nat.eqb_spec v (length (als st))) as [->|N].
  - rewrite nth_error_app2, Nat.sub_diag by lia. reflexivity.
  - destruct (Nat.lt_ge_cases v (length (als st))) as [L|G].
    + rewrite nth_error_app1 by lia. reflexivity.
    + rewrite (proj2 (nth_error_None _ v)) by (rewrite app_length; cbn; lia). rewrite (proj2 (nth_error_None _ v)) by lia. reflexivity.
Qed.
Lemma als_lt st v a : get_als st v = Some a -> v < length (als st).
Proof. unfold get_als. intro H. apply nth_error_Some. congruence. Qed.
Lemma new_ewf st : ewf st -> ewf (new_nvar st).
Proof.
  intros [[B F D] L S]. constructor.
  - constructor; cbn [new_nvar eal].
    + intros i j. rewrite new_als. destruct (i =? _); [discriminate|]. intro H. destruct (B _ _ H) as [fwd [G I]].
      exists fwd. rewrite new_als. pose proof (als_lt _ _ _ G). destruct (Nat.eqb_spec j (length (als (eal st)))); [lia|]. auto.
    + intros i fwd k. rewrite new_als. destruct (i =? _); [discriminate|]. intros H I. pose proof (F _ _ _ H I) as G.
      rewrite new_als. pose proof (als_lt _ _ _ G). destruct (Nat.eqb_spec k (length (als (eal st)))); [lia|]. auto.
    + intros i fwd. rewrite new_als. destruct (i =? _); [discriminate|]. apply D.
  - cbn. rewrite !app_length, L. reflexivity.
  - intros i c H. cbn in H. destruct (Nat.lt_ge_cases i (length (ecs st))) as [H1|H1].
    + rewrite nth_error_app1 in H by lia. exact (S _ _ H).
    + rewrite nth_error_app2 in H by lia. destruct (i - length (ecs st)) as [|[|m]]; cbn in H; try discriminate. injection H as <-. exact I.
Qed.
Lemma canon_val_lt st v c : awf st -> canonical st v = Some c -> c < length (als st).
Proof. intros W H. eapply canon_lt. exact (canon_idem _ _ _ W H). Qed.
Lemma new_sat st r : ewf st -> (sat (new_nvar st) r <-> sat st r).
Proof.
  intros [W L S]. unfold sat, new_nvar. cbn [eal ecs]. split; intros H v c C.
  - assert (v < length (als (eal st))) by (eapply canon_lt; eauto).
    destruct (H v c) as [H1 H2].
    { rewrite new_canon. destruct (Nat.eqb_spec v (length (als (eal st)))); [lia|exact C]. }
    split; [exact H1|]. intros k K. apply H2. rewrite nth_error_app1; [exact K|]. pose proof (canon_val_lt _ _ _ W C). lia.
  - rewrite new_canon in C. destruct (Nat.eqb_spec v (length (als (eal st)))) as [->|N].
    + injection C as <-. split; [reflexivity|]. intros k K. rewrite nth_error_app2 in K by lia.
      rewrite L, Nat.sub_diag in K. cbn in K. injection K as <-. exact I.
    + destruct (H v c C) as [H1 H2]. split; [exact H1|]. intros k K. apply H2. rewrite nth_error_app1 in K; [exact K|]. pose proof (canon_val_lt _ _ _ W C). lia.
Qed.

(** One constraint at a canonical variable replaced *)
Lemma set_sat st i c c0 (P : mrep -> Prop) r : ewf st -> canonical (eal st) i = Some i -> nth_error (ecs st) i = Some c0 ->
  (forall t, isat c t <-> isat c0 t /\ P t) -> (sat (set_ecs i c st) r <-> sat st r /\ P (r i)).
Proof.
  intros W C N E. unfold sat, set_ecs. cbn [eal ecs]. split.
  - intro H. assert (Hi : isat c (r i)).
    { apply (proj2 (H i i C)). rewrite sn_same; [reflexivity|]. apply nth_error_Some. congruence. }
    split; [|apply E, Hi]. intros v d D. destruct (H v d D) as [H1 H2]. split; [exact H1|]. intros k K.
    destruct (Nat.eq_dec i d) as [->|NE].
    + assert (k = c0) by congruence. subst k. apply E, Hi.
    + apply H2. rewrite sn_other by exact NE. exact K.
  - intros [H HP] v d D. destruct (H v d D) as [H1 H2]. split; [exact H1|]. intros k K.
    rewrite sn_get in K. destruct (Nat.eqb_spec i d) as [<-|NE]; [|exact (H2 _ K)].
    rewrite N in K. injection K as <-. apply E. split; [exact (H2 _ N)|exact HP].
Qed.
Lemma set_ewf st i c : ewf st -> isane c -> ewf (set_ecs i c st).
Proof.
  intros [W L S] H. constructor; cbn [set_ecs eal ecs]; [exact W|rewrite sn_length; exact L|].
  intros j d. rewrite sn_get. destruct (i =? j); [|apply S]. destruct (nth_error (ecs st) j); [|discriminate]. intro E. injection E as <-. exact H.
Qed.

Definition step (st : engine) (P : (nat -> mrep) -> Prop) (res : eres unit) : Prop :=
  match res with
  | EOk st' _ => ewf st' /\ length (ecs st') = length (ecs st) /\ (forall r, sat st' r <-> sat st r /\ P r)
  | EErr => forall r, sat st r -> P r -> False
  | EPanic => False
  end.
Definition same_aliases (st : engine) (res : eres unit) : Prop :=
  match res with EOk st' _ => eal st' = eal st | _ => True end.

Lemma canon_ecs st v : ewf st -> v < length (ecs st) -> exists i k,
  canonical (eal st) v = Some i /\ canonical (eal st) i = Some i /\ nth_error (ecs st) i = Some k /\ isane k.
Proof.
  intros W L. rewrite (e_len _ W) in L. destruct (canon_range _ _ L) as [i C]. pose proof (canon_idem _ _ _ (e_awf _ W) C) as CI.
  pose proof (canon_lt _ _ _ CI) as LI. rewrite <- (e_len _ W) in LI.
  destruct (nth_error (ecs st) i) as [k|] eqn:E; [|apply nth_error_None in E; lia].
  exists i, k. repeat split; auto. exact (e_sane _ W _ _ E).
Qed.

Lemma constrain_spec st v c : ewf st -> v < length (ecs st) -> sane c ->
  step st (fun r => csat c (r v)) (constrain v c st) /\ same_aliases st (constrain v c st).
Proof.
  intros W L S. destruct (canon_ecs _ _ W L) as [i [k [C [CI [K SK]]]]]. unfold constrain. rewrite C, K.
  assert (V : forall r, sat st r -> r v = r i) by (intros r H; exact (proj1 (H _ _ C))).
  assert (G : forall c', (forall t, isat c' t <-> isat k t /\ csat c t) -> isane c' ->
    step st (fun r => csat c (r v)) (EOk (set_ecs i c' st) tt)).
  { intros c' E SC. split; [apply set_ewf; auto|]. split; [cbn; apply sn_length|]. intro r.
    rewrite (set_sat _ _ _ _ (csat c) r W CI K E). split; intros [H1 H2]; (split; [exact H1|]); rewrite ?(V r H1) in *; auto. }
  destruct k as [|prior].
  - split; [|reflexivity]. apply G; [|exact S]. intro t. cbn. tauto.
  - destruct (ncon_eqb prior c) eqn:E.
    + apply ncon_eqb_eq in E. subst prior. split; [|reflexivity]. split; [exact W|]. split; [reflexivity|].
      intro r. split; [|tauto]. intro H. split; [exact H|]. rewrite (V r H). exact (proj2 (H _ _ C) _ K).
    + pose proof (ncon_unify_spec prior c SK S) as U. destruct (ncon_unify prior c) as [c0| |]; [| |destruct U].
      * split; [|reflexivity]. destruct U as [U1 U2]. apply G; [exact U2|exact U1].
      * split; [|exact I]. intros r H P. rewrite (V r H) in P. exact (U _ (proj2 (H _ _ C) _ K) P).
Qed.
Lemma constrain_rep_spec st v t : ewf st -> v < length (ecs st) ->
  step st (fun r => r v = t) (constrain_rep v (Concrete t) st) /\ same_aliases st (constrain_rep v (Concrete t) st).
Proof. intros W L. exact (constrain_spec st v (NEquiv t) W L I). Qed.

(** ** Uniting two canonical variables *)
Lemma nmerge_canonical st lo hi : awf st -> canonical st lo = Some lo -> canonical st hi = Some hi -> lo < hi ->
  (nmerge_of st lo hi = Repoint lo hi /\ get_als st hi = Some Ground) \/ nmerge_of st lo hi = Recanon lo hi.
Proof.
  intros W L H N.
  assert (E : lo =? hi = false) by (apply Nat.eqb_neq; lia).
  assert (LT : lo <? hi = true) by (apply Nat.ltb_lt; lia).
  assert (GT : hi <? lo = false) by (apply Nat.ltb_ge; lia).
  unfold nmerge_of, merge_of. rewrite E.
  destruct (canon_self _ _ W L) as [A|[f A]], (canon_self _ _ W H) as [B|[g B]]; rewrite A, B, ?LT, ?GT; auto.
  cbn [contains_fwd_ref fwd_refs]. unfold contains_fwd_ref. cbn [fwd_refs].
  destruct (mem_nat lo g) eqn:M; auto. apply mem_nat_in in M. pose proof (a_fwd _ W _ _ _ B M). congruence.
Qed.

Lemma transfer_spec st al lo hi : ewf st -> merged lo hi (eal st) al ->
  step st (fun r => r lo = r hi) (transfer lo hi (Eng (ecs st) al)) /\
  match transfer lo hi (Eng (ecs st) al) with EOk st' _ => eal st' = al | _ => True end.
Proof.
  intros W M. unfold transfer. cbn [ecs].
  destruct (Nat.eqb_spec lo hi) as [E|_]; [destruct (m_ne _ _ _ _ M E)|].
  assert (G : forall i, canonical (eal st) i = Some i -> exists k, nth_error (ecs st) i = Some k /\ isane k).
  { intros i C. pose proof (canon_lt _ _ _ C) as L. rewrite <- (e_len _ W) in L.
    destruct (nth_error (ecs st) i) as [k|] eqn:E; [|apply nth_error_None in E; lia]. exists k. split; auto. exact (e_sane _ W _ _ E). }
  destruct (G _ (m_lo _ _ _ _ M)) as [k1 [K1 S1]], (G _ (m_hi _ _ _ _ M)) as [k2 [K2 S2]]. rewrite K1, K2.
  pose proof (m_ne _ _ _ _ M) as NE.
  (* what matters: the constraint at [lo] becomes both, others stay *)
  assert (F : forall cs, length cs = length (ecs st) -> (forall i c, nth_error cs i = Some c -> isane c) ->
     (forall i, i <> lo -> i <> hi -> nth_error cs i = nth_error (ecs st) i) ->
     (exists c, nth_error cs lo = Some c /\ forall t, isat c t <-> isat k1 t /\ isat k2 t) ->
     step st (fun r => r lo = r hi) (EOk (Eng cs al) tt)).
  { intros cs LC SC OC [c [CL CE]]. split.
    { constructor; cbn [eal ecs]; [exact (m_awf _ _ _ _ M)|rewrite LC, (m_len _ _ _ _ M); exact (e_len _ W)|exact SC]. }
    split; [exact LC|]. intro r. unfold sat. cbn [eal ecs]. split.
    - intro H.
      assert (Hlo : canonical al lo = Some lo).
      { rewrite (m_canon _ _ _ _ M), (m_lo _ _ _ _ M). destruct (Nat.eqb_spec lo hi); [congruence|reflexivity]. }
      assert (Hhi : canonical al hi = Some lo).
      { rewrite (m_canon _ _ _ _ M), (m_hi _ _ _ _ M), Nat.eqb_refl. reflexivity. }
      pose proof (proj1 (H _ _ Hhi)) as EQ. pose proof (proj2 (H _ _ Hlo) _ CL) as IS. apply CE in IS.
      split; [|congruence]. intros v d D. assert (D' := m_canon _ _ _ _ M v). rewrite D in D'.
      destruct (Nat.eqb_spec d hi) as [->|ND].
      + destruct (H _ _ D') as [H1 _]. split; [congruence|]. intros k K. rewrite K2 in K. injection K as <-. rewrite EQ. tauto.
      + destruct (H _ _ D') as [H1 H2]. split; [exact H1|]. intros k K. destruct (Nat.eq_dec d lo) as [->|NL].
        * rewrite K1 in K. injection K as <-. tauto.
        * apply H2. rewrite OC by auto. exact K.
    - intros [H EQ] v d D. rewrite (m_canon _ _ _ _ M) in D. destruct (canonical (eal st) v) as [d0|] eqn:D0; [|discriminate].
      destruct (H _ _ D0) as [H1 H2].
      assert (HL : forall k, nth_error cs lo = Some k -> isat k (r lo)).
      { intros k K. rewrite CL in K. injection K as <-. apply CE. split.
        - exact (proj2 (H _ _ (m_lo _ _ _ _ M)) _ K1).
        - rewrite EQ. exact (proj2 (H _ _ (m_hi _ _ _ _ M)) _ K2). }
      destruct (Nat.eqb_spec d0 hi) as [->|ND]; injection D as <-.
      + split; [congruence|exact HL].
      + split; [exact H1|]. destruct (Nat.eq_dec d0 lo) as [->|NL]; [exact HL|]. intros k K. apply H2. rewrite <- OC by auto. exact K. }
  assert (LO : lo < length (ecs st)) by (apply nth_error_Some; congruence).
  assert (HI : hi < length (ecs st)) by (apply nth_error_Some; congruence).
  assert (SS : forall i c, isane c -> forall cs, (forall j d, nth_error cs j = Some d -> isane d) -> forall j d, nth_error (set_nth i c cs) j = Some d -> isane d).
  { intros i c SC cs SCS j d. rewrite sn_get. destruct (i =? j); [|apply SCS]. destruct (nth_error cs j); [|discriminate]. intro E. injection E as <-. exact SC. }
  destruct k1 as [|c1], k2 as [|c2]; (split; [|try reflexivity]).
  - apply F; auto. { exact (e_sane _ W). } exists NIndef. split; [exact K1|]. cbn. tauto.
  - unfold set_ecs. cbn [ecs eal]. apply F; [apply sn_length|apply SS; [auto; exact I|exact (e_sane _ W)]|intros; apply sn_other; auto|].
    exists (NInv c2). split; [apply sn_same; exact LO|]. cbn. tauto.
  - unfold set_ecs. cbn [ecs eal]. apply F; [apply sn_length|apply SS; [auto; exact I|exact (e_sane _ W)]|intros; apply sn_other; auto|].
    exists (NInv c1). split; [rewrite sn_other by auto; exact K1|]. cbn. tauto.
  - pose proof (ncon_unify_spec c1 c2 S1 S2) as U. destruct (ncon_unify c1 c2) as [c0| |]; [| |destruct U].
    + destruct U as [U1 U2]. unfold set_ecs. cbn [ecs eal]. apply F.
      * rewrite !sn_length. reflexivity.
      * apply SS; auto. apply SS; [auto; exact I|exact (e_sane _ W)].
      * intros. rewrite !sn_other by auto. reflexivity.
      * exists (NInv c0). split; [rewrite sn_other by auto; apply sn_same; exact LO|exact U2].
    + intros r H EQ. apply (U (r lo)).
      * exact (proj2 (H _ _ (m_lo _ _ _ _ M)) _ K1).
      * rewrite EQ. exact (proj2 (H _ _ (m_hi _ _ _ _ M)) _ K2).
  - destruct (ncon_unify c1 c2); try exact I. reflexivity.
Qed.

Section Unite.
Variable ho : hash_order.
Lemma unite_spec st lo hi : ewf st -> canonical (eal st) lo = Some lo -> canonical (eal st) hi = Some hi -> lo < hi ->
  step st (fun r => r lo = r hi) (unite ho lo hi st) /\
  match unite ho lo hi st with
  | EOk st' _ => forall x, canonical (eal st') x = match canonical (eal st) x with
                   Some c => if c =? hi then Some lo else Some c | None => None end
  | _ => True
  end.
Proof.
  intros W L H N. unfold unite.
  assert (G : forall al, merged lo hi (eal st) al ->
    step st (fun r => r lo = r hi) (transfer lo hi (Eng (ecs st) al)) /\
    match transfer lo hi (Eng (ecs st) al) with
    | EOk st' _ => forall x, canonical (eal st') x = match canonical (eal st) x with
                     Some c => if c =? hi then Some lo else Some c | None => None end
    | _ => True end).
  { intros al M. destruct (transfer_spec st al lo hi W M) as [T1 T2]. split; [exact T1|].
    destruct (transfer lo hi _); auto. rewrite T2. exact (m_canon _ _ _ _ M). }
  destruct (nmerge_canonical _ _ _ (e_awf _ W) L H N) as [[-> A]| ->].
  - destruct (repoint_spec lo hi (eal st) (e_awf _ W) L A ltac:(lia)) as [al [-> M]]. exact (G al M).
  - destruct (recanonicalize_spec ho lo hi (eal st) (e_awf _ W) L H ltac:(lia)) as [al [-> M]]. exact (G al M).
Qed.
End Unite.
