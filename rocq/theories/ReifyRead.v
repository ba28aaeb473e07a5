(** What is read off a state with a solution: types of two assignments that agree
    where a type is reported, and differ where none is. *)
From Coq Require Import Permutation.
From Verif Require Import Base BoundsModel NumericModel ValueModel BaseSetModel BaseSetSpec BaseSetProofs BaseSetProps UnifyModel UnifySpec UnifyAlias UnifyBase UnifyProofs UnifyComplete UnifyRequests ReifyModel ReifySpec ReifyProofs ReifySolve.
Open Scope nat_scope.

(** ** Members of sets of candidates *)
Definition widths := [B8; B16; B32; B64].
Lemma widths_all w : In w widths.
Proof. destruct w; cbn; auto. Qed.
Lemma prim_ints_all p : In p prim_ints.
Proof. destruct p as [[] []]; cbn; auto 10. Qed.
Definition members_b (bs : baseset) : list basetype :=
  match bs with BSingle b => [b] | BU u => map TU (filter (fun w => has u (width_ix w)) widths) end.
Definition members_i (is : intset) : list mrep :=
  match is with ISingle p => [p] | IZ z => filter (fun p => has z (prim_as_index p)) prim_ints end.
Lemma members_b_in bs b : In b (members_b bs) <-> in_bs bs b.
Proof.
  destruct bs as [b'|u]; cbn [members_b in_bs]; [cbn; intuition congruence|]. rewrite in_map_iff. split.
  - intros [w [<- I]]. apply filter_In in I. change (in_bs (BU u) (TU w)). apply in_bs_has. apply I.
  - intros [w [n [-> R]]]. exists w. split; [reflexivity|]. apply filter_In. split; [apply widths_all|]. apply in_bs_has. exists w, n. auto.
Qed.
Lemma members_i_in is p : In p (members_i is) <-> in_is is p.
Proof.
  destruct is as [b'|u]; cbn [members_i]; [cbn; intuition congruence|]. rewrite in_is_has, filter_In. intuition auto using prim_ints_all.
Qed.
Lemma members_b_nodup bs : NoDup (members_b bs).
Proof.
  destruct bs as [b'|u]; cbn [members_b]; [repeat constructor; cbn; tauto|]. apply FinFun.Injective_map_NoDup; [congruence|]. apply NoDup_filter.
  repeat constructor; cbn; intuition discriminate.
Qed.
Lemma members_i_nodup is : NoDup (members_i is).
Proof.
  destruct is as [b'|u]; cbn [members_i]; [repeat constructor; cbn; tauto|]. apply NoDup_filter.
  repeat constructor; cbn; intuition discriminate.
Qed.
Lemma solution_member bs b : bs_ok bs -> bs_unique_solution bs = TOk b -> in_bs bs b.
Proof.
  destruct bs as [b'|u]; cbn [bs_unique_solution]; intros K E; [cbn; congruence|]. destruct (rs_is_empty u); [discriminate|].
  destruct (uint_unique_solution u) as [b'|] eqn:E1; [|discriminate]. injection E as ->. apply (C59_solution u K) in E1.
  destruct E1 as [w [n [-> [R _]]]]. exists w, n. auto.
Qed.
Lemma solution_member_int is p : is_ok is -> is_unique_solution is = TOk p -> in_is is p.
Proof.
  destruct is as [b'|u]; cbn [is_unique_solution]; intros K E; [cbn; congruence|]. destruct (rs_is_empty u); [discriminate|].
  destruct (prim_unique_solution u) as [b'|] eqn:E1; [|discriminate]. injection E as ->. apply (C59_solution_int u K) in E1.
  destruct E1 as [n [R _]]. exists n. auto.
Qed.
Lemma two_members {A} (l : list A) d : l <> [] -> (forall x, l <> [x]) -> NoDup l -> In (nth 0 l d) l /\ In (nth 1 l d) l /\ nth 0 l d <> nth 1 l d.
Proof.
  destruct l as [|a [|b l]]; intros H1 H2 H3; [congruence|destruct (H2 a); reflexivity|]. cbn. inversion H3 as [|? ? N _]; subst. cbn in N. intuition congruence.
Qed.
Lemma undetermined bs b d : bs_ok bs -> in_bs bs b -> (forall x, bs_unique_solution bs <> TOk x) ->
  in_bs bs (nth 0 (members_b bs) d) /\ in_bs bs (nth 1 (members_b bs) d) /\ nth 0 (members_b bs) d <> nth 1 (members_b bs) d.
Proof.
  intros K I U. rewrite <- !members_b_in. apply two_members; [| |apply members_b_nodup].
  - apply members_b_in in I. intro E. rewrite E in I. destruct I.
  - intros x E. assert (ONE : forall y, in_bs bs y -> y = x) by (intros y Iy; apply members_b_in in Iy; rewrite E in Iy; destruct Iy as [<-|[]]; reflexivity).
    destruct bs as [b'|u]; [exact (U b' eq_refl)|]. cbn [bs_unique_solution] in U.
    assert (EM : rs_is_empty u = false). { destruct (rs_is_empty u) eqn:EE; auto. destruct (proj1 (C59_empty (BU u) K) EE b I). }
    rewrite EM in U. assert (X : uint_unique_solution u = Some x). 2: { rewrite X in U. exact (U x eq_refl). }
    pose proof (ONE b I) as ->. destruct I as [w [n [EW R]]]. apply (C59_solution u K). exists w, n. split; [exact EW|]. split; [exact R|].
    intros w' m N R'. exfalso. apply N. assert (Q : TU w' = x) by (apply ONE; exists w', m; auto). congruence.
Qed.
Lemma undetermined_int is p d : is_ok is -> in_is is p -> (forall x, is_unique_solution is <> TOk x) ->
  in_is is (nth 0 (members_i is) d) /\ in_is is (nth 1 (members_i is) d) /\ nth 0 (members_i is) d <> nth 1 (members_i is) d.
Proof.
  intros K I U. rewrite <- !members_i_in. apply two_members; [| |apply members_i_nodup].
  - apply members_i_in in I. intro E. rewrite E in I. destruct I.
  - intros x E. assert (ONE : forall y, in_is is y -> y = x) by (intros y Iy; apply members_i_in in Iy; rewrite E in Iy; destruct Iy as [<-|[]]; reflexivity).
    destruct is as [b'|u]; [exact (U b' eq_refl)|]. cbn [is_unique_solution] in U.
    assert (EM : rs_is_empty u = false). { destruct (rs_is_empty u) eqn:EE; auto. destruct (proj1 (C59_empty_int (IZ u) K) EE p I). }
    rewrite EM in U. assert (X : prim_unique_solution u = Some x). 2: { rewrite X in U. exact (U x eq_refl). }
    pose proof (ONE p I) as ->. destruct I as [n R]. apply (C59_solution_int u K). exists n. split; [exact R|].
    intros w' m N R'. exfalso. apply N. apply ONE. exists m. exact R'.
Qed.

(** ** Maps *)
Lemma mget_map {A B} (h : A -> B) k m : mget k (map (fun p => (fst p, h (snd p))) m) = option_map h (mget k m).
Proof. induction m as [|[k' a] m IH]; cbn; [reflexivity|]. destruct (k =? k')%N; auto. Qed.
Lemma ksorted_map {A B} (h : A -> B) m : ksorted m -> ksorted (map (fun p => (fst p, h (snd p))) m).
Proof.
  induction m as [|e m IH]; cbn; [auto|]. intros [H1 H2]. split; auto. intros e' I. apply in_map_iff in I. destruct I as [x [<- I]]. cbn. auto.
Qed.
Lemma ksorted_nodup {A} (m : list (N * A)) : ksorted m -> NoDup (map fst m).
Proof.
  induction m as [|e m IH]; cbn; [constructor|]. intros [H1 H2]. constructor; auto. intro I. apply in_map_iff in I. destruct I as [x [E I]].
  specialize (H1 _ I). rewrite E in H1. lia.
Qed.
Lemma ksorted_ext {A} (a : list (N * A)) : forall b, ksorted a -> ksorted b -> (forall k, mget k a = mget k b) -> a = b.
Proof.
  induction a as [|[k x] a IH]; intros [|[k' y] b] SA SB H; auto.
  - specialize (H k'). cbn in H. rewrite N.eqb_refl in H. discriminate.
  - specialize (H k). cbn in H. rewrite N.eqb_refl in H. discriminate.
  - cbn in SA, SB. destruct SA as [A1 A2], SB as [B1 B2].
    assert (K : k = k').
    { pose proof (H k) as E1. pose proof (H k') as E2. cbn in E1, E2. rewrite N.eqb_refl in E1, E2.
      destruct (N.eqb_spec k k') as [|NE]; [assumption|]. destruct (N.eqb_spec k' k) as [|_]; [congruence|].
      symmetry in E1. apply mget_in in E1. apply mget_in in E2. apply B1 in E1. apply A1 in E2. cbn in E1, E2. lia. }
    subst k'. assert (x = y) as <-. { specialize (H k). cbn in H. rewrite N.eqb_refl in H. congruence. }
    f_equal. apply IH; auto. intro q. specialize (H q). cbn in H. destruct (N.eqb_spec q k) as [QK|]; [|exact H]. subst q.
    assert (NA : forall l : list (N * A), (forall e, In e l -> (fst (k, x) < fst e)%N) -> mget k l = None).
    { intros l L. destruct (mget k l) eqn:E; auto. apply mget_in in E. apply L in E. cbn in E. lia. }
    rewrite !NA; auto.
Qed.
Lemma nodup_get {A} (m : list (N * A)) k a : NoDup (map fst m) -> In (k, a) m -> mget k m = Some a.
Proof.
  induction m as [|[k' a'] m IH]; cbn; intros ND I; [destruct I|]. inversion ND as [|? ? N1 N2]; subst. destruct I as [E|I].
  - injection E as -> ->. rewrite N.eqb_refl. reflexivity.
  - destruct (N.eqb_spec k k') as [->|]; [|auto]. destruct N1. apply (in_map fst) in I. exact I.
Qed.
Lemma perm_get {A} (m m' : list (N * A)) : Permutation m m' -> NoDup (map fst m') -> forall k, mget k m = mget k m'.
Proof.
  intros P ND k. assert (ND' : NoDup (map fst m)). { eapply Permutation_NoDup; [|exact ND]. apply Permutation_map, Permutation_sym, P. }
  destruct (mget k m') as [a|] eqn:E.
  - apply nodup_get; auto. apply mget_in in E. eapply Permutation_in; [apply Permutation_sym, P|exact E].
  - destruct (mget k m) as [a|] eqn:E'; auto. apply mget_in in E'. destruct (mget_none _ _ E a). eapply Permutation_in; eauto.
Qed.
Lemma fold_branches (f : utype -> rres avt) (h : utype -> gtype) l : forall acc bs,
  (forall k t a, In (k, t) l -> f t = ROk a -> a <> AEmpty /\ plain a = h t) -> foldR (branch_step f) acc l = ROk bs -> ksorted acc -> NoDup (map fst l) ->
  ksorted bs /\ forall k, option_map plain (mget k bs) = match mget k l with Some t => Some (h t) | None => option_map plain (mget k acc) end.
Proof.
  induction l as [|[k0 t0] l IH]; intros acc bs H E S ND; cbn [foldR] in E.
  - injection E as <-. auto.
  - unfold branch_step at 1 in E. cbn [fst snd] in E. destruct (f t0) as [a| | |] eqn:E0; cbn [rbindR] in E; try discriminate.
    destruct (H k0 t0 a (or_introl eq_refl) E0) as [NE PL]. assert (is_uninhabited a = false) as U by (destruct a; cbn; congruence). rewrite U in E.
    inversion ND as [|? ? N1 N2]; subst.
    destruct (IH _ bs (fun k t a I => H k t a (or_intror I)) E (ksorted_insert _ _ _ S) N2) as [S' G]. split; [exact S'|]. intro k. rewrite G. cbn.
    rewrite mget_insert. destruct (N.eqb_spec k k0) as [->|NK].
    + destruct (mget k0 l) as [t|] eqn:EM; [|cbn; congruence]. destruct N1. apply mget_in in EM. apply (in_map fst) in EM. exact EM.
    + reflexivity.
Qed.
Lemma fold_none (f : utype -> rres avt) l : forall acc, foldR (branch_step f) acc l = RNone -> exists k t, In (k, t) l /\ f t = RNone.
Proof.
  induction l as [|[k0 t0] l IH]; intros acc; cbn [foldR]; [discriminate|]. unfold branch_step at 1. cbn [fst snd].
  destruct (f t0) as [a| | |] eqn:E0; cbn [rbindR]; try discriminate.
  - intro E. destruct (IH _ E) as [k [t [I J]]]. exists k, t. cbn. auto.
  - intros _. exists k0, t0. cbn. auto.
Qed.
Lemma mapR_ok {A B} (f : A -> rres B) l : forall bs, mapR f l = ROk bs -> Forall2 (fun a b => f a = ROk b) l bs.
Proof.
  induction l as [|a l IH]; intros bs; cbn; [intro E; injection E as <-; constructor|].
  destruct (f a) as [b| | |] eqn:E0; cbn; try discriminate. destruct (mapR f l); cbn; try discriminate. intro E. injection E as <-. constructor; auto.
Qed.
Lemma mapR_none {A B} (f : A -> rres B) l : mapR f l = RNone -> exists a, In a l /\ f a = RNone.
Proof.
  induction l as [|a l IH]; cbn; [discriminate|]. destruct (f a) as [b| | |] eqn:E0; cbn; try discriminate; [|eauto].
  destruct (mapR f l); cbn; try discriminate. intros _. destruct (IH eq_refl) as [x [I E]]. eauto.
Qed.

(** ** What is substituted, and unions *)
Section Wf.
Variable ho : hash_order.
Variable st : state.
Hypothesis W : wf st.
Notation N_ := (length (cons st)).
Definition seen (cs : constrs) : option vtype :=
  match cs with
  | Indefinite => None
  | Variant id => Some (VUnion id)
  | Invariant (CEquiv t) => Some (VAbstract t)
  | Invariant (CElem bs) => Some (VBase bs)
  | Invariant (CNum is) => Some (VInt is)
  | Invariant (CProj p) => Some (proj_shape_to_vtype p)
  end.
Lemma whnf_ok n t vt : is_var t = false -> to_whnf_vtype ho n st t = ROk vt -> vt = VAbstract t.
Proof.
  destruct n; cbn [to_whnf_vtype]; [discriminate|]. destruct (is_infinite_type ho (S n) st t) as [[]| | |]; cbn [rbindR]; try discriminate.
  intro V. destruct t; cbn in V; try discriminate; intro E; injection E as <-; reflexivity.
Qed.
Lemma infinite_none n t : is_infinite_type ho n st t <> RNone.
Proof.
  induction t using utype_ind2; cbn; try discriminate; auto.
  - destruct (occurs ho n st v); discriminate.
  - induction H as [|t ts HT _ IH]; cbn; [discriminate|]. destruct (is_infinite_type ho n st t) as [[]| | |]; cbn; auto; discriminate.
  - induction H as [|[l t] ts HT _ IH]; cbn; [discriminate|]. cbn in HT. destruct (is_infinite_type ho n st t) as [[]| | |]; cbn; auto; discriminate.
Qed.
Lemma whnf_none n t : is_var t = false -> to_whnf_vtype ho n st t <> RNone.
Proof.
  intro V. destruct n; cbn [to_whnf_vtype]; [discriminate|]. pose proof (infinite_none (S n) t).
  destruct (is_infinite_type ho (S n) st t) as [[]| | |]; cbn [rbindR]; try congruence. destruct t; cbn in V; discriminate.
Qed.
Lemma subst_ok n c ot : canonical st c = Some c -> substitute_uvar_vtype ho n st c = ROk ot -> exists cs, get_cons st c = Some cs /\ ot = seen cs.
Proof.
  intros CC. unfold substitute_uvar_vtype. destruct (occurs ho n st c); try discriminate. rewrite CC.
  destruct (get_cons st c) as [cs|] eqn:G; [|discriminate]. intro E. exists cs. split; [reflexivity|].
  destruct cs as [|id|[t|bs|p|is]]; cbn; try congruence. pose proof (w_con _ W _ _ G) as [_ V].
  destruct (to_whnf_vtype ho n st t) as [vt| | |] eqn:ET; cbn in E; try discriminate. apply whnf_ok in ET; congruence.
Qed.
Hypothesis SRT : vm_sorted st.
Lemma union_plain n id vm a f : vget id (vms st) = Some vm ->
  (forall t a, proper N_ t -> reify ho n st t = ROk a -> a <> AEmpty /\ plain a = inst f t) ->
  reify_union ho (reify ho n st) st id = ROk a -> a <> AEmpty /\ plain a = GUnion (map (inst_f f) vm).
Proof.
  intros E H. unfold reify_union. rewrite E. destruct (foldR _ _ _) as [bs| | |] eqn:EF; cbn [rbindR]; try discriminate. intro Q. injection Q as <-.
  split; [discriminate|].
  assert (SV := SRT _ _ E). assert (P : Permutation (shuffle ho vm) vm) by apply shuffle_perm.
  assert (ND : NoDup (map fst (shuffle ho vm))). { eapply Permutation_NoDup; [apply Permutation_map, Permutation_sym, P|]. apply ksorted_nodup, SV. }
  destruct (fold_branches _ (inst f) _ _ _ (fun k t a I => H t a (w_vm _ W _ _ _ _ E (Permutation_in _ P I))) EF I ND) as [S G].
  cbn [plain]. f_equal. transitivity (map (fun p : label * avt => (fst p, plain (snd p))) bs); [apply map_ext; intros []; reflexivity|].
  apply ksorted_ext; [apply ksorted_map, S|apply (ksorted_map (inst f)), SV|]. intro k. unfold inst_f. rewrite !mget_map, G, (perm_get _ _ P (ksorted_nodup _ SV)).
  destruct (mget k vm); reflexivity.
Qed.
Lemma avt_base b : avt_of_base b <> AEmpty /\ plain (avt_of_base b) = ground_base b.
Proof. destruct b; cbn; split; (discriminate || reflexivity). Qed.
End Wf.

(** ** The two assignments *)
Section Read.
Variable ho : hash_order.
Variable st : state.
Variable s0 : assignment.
Hypothesis PRE : pre s0 st.
Hypothesis SRT : vm_sorted st.
Notation N_ := (length (cons st)).
Definition choice (i : bool) (c : nat) : gtype :=
  match get_cons st c with
  | Some Indefinite => if i then GChar else GBool
  | Some (Invariant (CElem bs)) =>
    match bs_unique_solution bs with TOk b => ground_base b | _ => ground_base (nth (if i then 1 else 0) (members_b bs) TBool) end
  | Some (Invariant (CNum is)) =>
    match is_unique_solution is with TOk p => GInt p | _ => GInt (nth (if i then 1 else 0) (members_i is) rU8) end
  | _ => s0 c
  end.
Definition A (i : bool) : assignment := asg st (choice i) s0.
Let W : wf st := p_wf _ _ PRE.
Let SAT : sat [] s0 st := proj1 (p_sat _ _ PRE).

Lemma choice_ok i : leaf_ok st (choice i).
Proof.
  intros c cs CC G. pose proof (proj2 SAT _ _ CC (fun x => x) G) as O. unfold choice. rewrite G.
  destruct cs as [|id|[t|bs|[m|m|w|w]|is]]; auto; pose proof (w_con _ W _ _ G) as PC; cbn in O.
  - destruct O as [b [I _]]. destruct (bs_unique_solution bs) as [x| |] eqn:E.
    + exists x. split; [apply solution_member; auto|reflexivity].
    + destruct (undetermined bs b TBool PC I) as [U1 [U2 _]]; [congruence|]. destruct i; eauto.
    + destruct (undetermined bs b TBool PC I) as [U1 [U2 _]]; [congruence|]. destruct i; eauto.
  - destruct O as [gs [E H]]. exists gs. split; [exact E|]. intros k w M. apply H in M. apply nth_error_Some. congruence.
  - destruct O as [fs [E H]]. exists fs. split; [exact E|]. intros k w M. apply H in M. eauto.
  - destruct O as [b [I _]]. destruct (is_unique_solution is) as [x| |] eqn:E.
    + exists x. split; [apply solution_member_int; auto|reflexivity].
    + destruct (undetermined_int is b rU8 PC I) as [U1 [U2 _]]; [congruence|]. destruct i; eauto.
    + destruct (undetermined_int is b rU8 PC I) as [U1 [U2 _]]; [congruence|]. destruct i; eauto.
Qed.
Theorem A_sat i : sat [] (A i) st.
Proof. apply asg_sat; auto using choice_ok. Qed.
Lemma A_eq i v c : canonical st v = Some c -> A i v = body st (choice i) c (A i).
Proof. apply asg_eq; auto. Qed.

Lemma occ_any n v : v < N_ -> (forall c id, canonical st v = Some c -> get_cons st v = Some (Variant id) -> get_cons st c = Some (Variant id)) ->
  fine (3 * size (s0 v) + 2 <= n) (occurs ho n st v).
Proof.
  intros L K. unfold occurs. destruct (cons_range st v L) as [cs G]. rewrite G.
  apply (proj2 (occ_all ho s0 n) st v v); auto. destruct cs as [|id|k]; auto.
  - destruct (wf_canon st v W L) as [c [C [CC _]]]. rewrite (pre_alias _ _ _ _ PRE C). exact (pre_con _ _ _ _ PRE CC (K c id C G)).
  - split; [exact (w_con _ W _ _ G)|exact (proj2 (p_sat _ _ PRE) _ _ G)].
Qed.
Lemma subst_none n c : canonical st c = Some c -> substitute_uvar_vtype ho n st c <> RNone.
Proof.
  intros CC. pose proof (occ_any n c (canon_lt_wf _ _ _ W CC)) as F. unfold substitute_uvar_vtype. destruct (occurs ho n st c); cbn in F; try discriminate.
  - rewrite CC. destruct (get_cons st c) as [cs|] eqn:G; [|discriminate]. destruct cs as [|id|[t|bs|p|is]]; try discriminate.
    pose proof (w_con _ W _ _ G) as [_ V]. pose proof (whnf_none ho st n t V). destruct (to_whnf_vtype ho n st t); cbn; congruence.
  - exfalso. apply F. intros c' id C G. congruence.
Qed.

(** ** Reported types *)
Theorem reify_ok i n : forall t a, proper N_ t -> reify ho n st t = ROk a -> a <> AEmpty /\ plain a = inst (A i) t.
Proof.
  induction n as [|n IH]; intros t a P E; [discriminate|]. cbn [reify] in E. destruct t as [| | |v|b|ts|fs|t h|t|t|p]; try (destruct P; fail).
  - injection E as <-. split; [discriminate|reflexivity].
  - destruct (canonical st v) as [c|] eqn:C; [|discriminate]. pose proof (canon_idem _ _ _ (w_awf _ W) C) as CC.
    destruct (substitute_uvar_vtype ho n st c) as [ot| | |] eqn:ES; cbn [rbindR] in E; try discriminate.
    destruct (subst_ok ho st W _ _ _ CC ES) as [cs [G ->]]. cbn [inst]. rewrite (A_eq i v c C). unfold body. rewrite G.
    destruct cs as [|id|[t|bs|[m|m|w|w]|is]]; cbn [seen proj_shape_to_vtype] in E.
    + rewrite G in E. discriminate.
    + destruct (w_ex _ W _ _ CC G) as [vm EV]. rewrite EV. exact (union_plain ho st W SRT n id vm a _ EV IH E).
    + apply (IH t a); [|exact E]. apply (w_con _ W _ _ G).
    + unfold choice. rewrite G. destruct (bs_unique_solution bs) as [b| |]; cbn in E; try discriminate. injection E as <-. apply avt_base.
    + discriminate.
    + discriminate.
    + destruct (IH (USeq (UVar w) 0) a) as [I1 I2]; [|exact E|split; [exact I1|rewrite I2; reflexivity]]. exact (w_con _ W _ _ G).
    + destruct (IH (UOption (UVar w)) a) as [I1 I2]; [|exact E|split; [exact I1|rewrite I2; reflexivity]]. exact (w_con _ W _ _ G).
    + unfold choice. rewrite G. destruct (is_unique_solution is) as [b| |]; cbn in E; try discriminate. injection E as <-. split; [discriminate|reflexivity].
  - injection E as <-. apply avt_base.
  - destruct (mapR (reify ho n st) ts) as [vs| | |] eqn:EM; cbn [rbindR] in E; try discriminate. injection E as <-. split; [discriminate|].
    apply mapR_ok in EM. cbn [plain inst]. f_equal. apply proper_tuple in P. clear -EM P IH.
    induction EM as [|t b ts vs E _ IHM]; cbn; [reflexivity|]. inversion P; subst. f_equal; auto. apply (IH t b); auto.
  - destruct (mapR _ fs) as [vs| | |] eqn:EM; cbn [rbindR] in E; try discriminate. injection E as <-. split; [discriminate|].
    apply mapR_ok in EM. rewrite inst_record. cbn [plain]. f_equal. apply proper_record in P. destruct P as [_ P]. clear -EM P IH.
    induction EM as [|t b ts vs E _ IHM]; cbn; [reflexivity|]. inversion P; subst. f_equal; auto.
    destruct (reify ho n st (snd t)) as [x| | |] eqn:ER; cbn in E; try discriminate. injection E as <-. unfold inst_f. f_equal. apply (IH _ x); auto.
  - destruct (reify ho n st t) as [x| | |] eqn:ER; cbn [rbindR] in E; try discriminate. injection E as <-. split; [discriminate|]. cbn [plain inst]. f_equal. apply (IH _ x); auto.
  - destruct (reify ho n st t) as [x| | |] eqn:ER; cbn [rbindR] in E; try discriminate. injection E as <-. split; [discriminate|]. cbn [plain inst]. f_equal. apply (IH _ x); auto.
  - destruct (reify ho n st t) as [x| | |] eqn:ER; cbn [rbindR] in E; try discriminate. injection E as <-. split; [discriminate|]. cbn [plain inst]. f_equal. apply (IH _ x); auto.
  - injection E as <-. split; [discriminate|reflexivity].
Qed.

(** ** Types that are not reported *)
Lemma map_differs {X Y} (f g : X -> Y) l x : In x l -> f x <> g x -> map f l <> map g l.
Proof.
  induction l as [|a l IH]; cbn; [tauto|]. intros [->|I] N E; injection E as E1 E2; [exact (N E1)|exact (IH I N E2)].
Qed.
Theorem reify_none n : forall t, proper N_ t -> reify ho n st t = RNone -> inst (A false) t <> inst (A true) t.
Proof.
  induction n as [|n IH]; intros t P E; [discriminate|]. cbn [reify] in E. destruct t as [| | |v|b|ts|fs|t h|t|t|p]; try (destruct P; fail); try discriminate.
  - destruct (canonical st v) as [c|] eqn:C; [|discriminate]. pose proof (canon_idem _ _ _ (w_awf _ W) C) as CC.
    destruct (substitute_uvar_vtype ho n st c) as [ot| | |] eqn:ES; cbn [rbindR] in E; try discriminate; [|destruct (subst_none _ _ CC ES)].
    destruct (subst_ok ho st W _ _ _ CC ES) as [cs [G ->]]. cbn [inst]. rewrite (A_eq false v c C), (A_eq true v c C). unfold body. rewrite G.
    pose proof (proj2 SAT _ _ CC (fun x => x) G) as O.
    destruct cs as [|id|[t|bs|[m|m|w|w]|is]]; cbn [seen proj_shape_to_vtype] in E.
    + unfold choice. rewrite G. discriminate.
    + destruct (w_ex _ W _ _ CC G) as [vm EV]. rewrite EV. unfold reify_union in E. rewrite EV in E.
      destruct (foldR _ _ _) as [| | |] eqn:EF; cbn [rbindR] in E; try discriminate. apply fold_none in EF. destruct EF as [k [t [I ER]]].
      assert (I' : In (k, t) vm) by (eapply Permutation_in; [apply shuffle_perm|exact I]).
      intro Q. injection Q as Q. revert Q. apply (map_differs _ _ _ _ I'). unfold inst_f. cbn [fst snd].
      intro Q. injection Q as Q. exact (IH t (w_vm _ W _ _ _ _ EV I') ER Q).
    + apply (IH t); [|exact E]. apply (w_con _ W _ _ G).
    + unfold choice. rewrite G. destruct O as [b [I _]]. pose proof (w_con _ W _ _ G) as PC. destruct (bs_unique_solution bs) as [x| |] eqn:EU; cbn in E; try discriminate.
      destruct (undetermined bs b TBool PC I) as [_ [_ U]]; [congruence|]. intro Q. apply ground_base_inj in Q. exact (U Q).
    + discriminate.
    + discriminate.
    + intro Q. apply (IH (USeq (UVar w) 0)); auto. exact (w_con _ W _ _ G).
    + intro Q. apply (IH (UOption (UVar w))); auto. exact (w_con _ W _ _ G).
    + unfold choice. rewrite G. destruct O as [b [I _]]. pose proof (w_con _ W _ _ G) as PC. destruct (is_unique_solution is) as [x| |] eqn:EU; cbn in E; try discriminate.
      destruct (undetermined_int is b rU8 PC I) as [_ [_ U]]; [congruence|]. intro Q. injection Q as Q. exact (U Q).
  - destruct (mapR (reify ho n st) ts) as [vs| | |] eqn:EM; cbn [rbindR] in E; try discriminate.
    apply mapR_none in EM. destruct EM as [t [I ER]]. apply proper_tuple in P. rewrite Forall_forall in P. cbn [inst].
    intro Q. injection Q as Q. revert Q. apply (map_differs _ _ _ _ I). apply IH; auto.
  - destruct (mapR _ fs) as [vs| | |] eqn:EM; cbn [rbindR] in E; try discriminate.
    apply mapR_none in EM. destruct EM as [t [I ER]]. apply proper_record in P. destruct P as [_ P]. rewrite Forall_forall in P. rewrite !inst_record.
    destruct (reify ho n st (snd t)) as [| | |] eqn:ER'; cbn in ER; try discriminate.
    intro Q. injection Q as Q. revert Q. apply (map_differs _ _ _ _ I). unfold inst_f. intro Q. injection Q as Q. exact (IH _ (P _ I) ER' Q).
  - destruct (reify ho n st t) as [x| | |] eqn:ER; cbn [rbindR] in E; try discriminate. cbn [inst]. intro Q. injection Q as Q. exact (IH t P ER Q).
  - destruct (reify ho n st t) as [x| | |] eqn:ER; cbn [rbindR] in E; try discriminate. cbn [inst]. intro Q. injection Q as Q. exact (IH t P ER Q).
  - destruct (reify ho n st t) as [x| | |] eqn:ER; cbn [rbindR] in E; try discriminate. cbn [inst]. intro Q. injection Q as Q. exact (IH t P ER Q).
Qed.

(** ** Reading ends *)
Hypothesis NOP : forall v, ~ projected st v.
Hypothesis SET : forall v c id, canonical st v = Some c -> get_cons st v = Some (Variant id) -> get_cons st c = Some (Variant id).
Lemma infinite_fine n t : forall g, proper N_ t -> fits s0 t g ->
  match is_infinite_type ho n st t with ROk b => b = false | RFuel => n < 3 * size g + 2 | RNone | RPanic => False end.
Proof.
  induction t using utype_ind2; intros g P F; try (destruct P; fail); cbn [is_infinite_type]; auto.
  - cbn in P, F. subst g. pose proof (occ_any n v P (SET v)) as O. destruct (occurs ho n st v); cbn in O; try reflexivity; (destruct O; fail) || lia.
  - assert (K : forall t, In t ts -> match is_infinite_type ho n st t with ROk b => b = false | RFuel => n < 3 * size g + 2 | RNone | RPanic => False end).
    { intros t I. destruct (fits_sub_tuple _ _ _ _ F I) as [g0 [F0 L0]]. apply proper_tuple in P. rewrite Forall_forall in P, H.
      specialize (H t I g0 (P _ I) F0). destruct (is_infinite_type ho n st t); auto. lia. }
    clear - K. induction ts as [|t ts IH]; cbn; [reflexivity|]. pose proof (K t (or_introl eq_refl)) as K1.
    destruct (is_infinite_type ho n st t); cbn; auto. subst a. apply IH. intros t' I. apply K. cbn. auto.
  - assert (K : forall t, In t fs -> match is_infinite_type ho n st (snd t) with ROk b => b = false | RFuel => n < 3 * size g + 2 | RNone | RPanic => False end).
    { intros t I. destruct (fits_sub_record _ _ _ _ F I) as [g0 [F0 L0]]. apply proper_record in P. destruct P as [_ P]. rewrite Forall_forall in P, H.
      specialize (H t I g0 (P _ I) F0). destruct (is_infinite_type ho n st (snd t)); auto. lia. }
    clear - K. induction fs as [|[l t] ts IH]; cbn; [reflexivity|]. pose proof (K (l, t) (or_introl eq_refl)) as K1. cbn in K1.
    destruct (is_infinite_type ho n st t); cbn; auto. subst a. apply IH. intros t' I. apply K. cbn. auto.
  - cbn in P, F. destruct F as [g0 [-> F]]. specialize (IHt g0 P F). destruct (is_infinite_type ho n st t); auto. cbn [size]. lia.
  - cbn in P, F. destruct F as [g0 [-> F]]. specialize (IHt g0 P F). destruct (is_infinite_type ho n st t); auto. cbn [size]. lia.
  - cbn in P, F. destruct F as [g0 [-> F]]. specialize (IHt g0 P F). destruct (is_infinite_type ho n st t); auto. cbn [size]. lia.
Qed.
Definition ends {X} (k n : nat) (r : rres X) : Prop := match r with RFuel => n < k | RPanic => False | _ => True end.
Lemma subst_fine n c : canonical st c = Some c -> ends (3 * size (s0 c) + 2) n (substitute_uvar_vtype ho n st c).
Proof.
  intro CC. assert (L := canon_lt_wf _ _ _ W CC). pose proof (occ_any n c L (SET c)) as O. unfold substitute_uvar_vtype.
  destruct (occurs ho n st c); cbn in O; [|destruct O; fail|destruct O; fail|cbn; lia]. rewrite CC. destruct (cons_range st c L) as [cs G]. rewrite G.
  destruct cs as [|id|[t|bs|p|is]]; cbn; auto. pose proof (pre_con _ _ _ _ PRE CC G) as F. cbn in F. destruct (w_con _ W _ _ G) as [PT V].
  destruct n as [|n]; cbn [to_whnf_vtype]; [cbn; lia|]. pose proof (infinite_fine (S n) t _ PT F) as K.
  destruct (is_infinite_type ho (S n) st t) as [b| | |]; cbn [rbindR ends]; try (destruct K; fail); try exact I; [|exact K]. subst b. destruct t; cbn in V |- *; auto; discriminate.
Qed.
Lemma mapR_fine {X Y} k n (f : X -> rres Y) l : (forall x, In x l -> ends k n (f x)) -> ends k n (mapR f l).
Proof.
  induction l as [|x l IH]; intro H; cbn; auto. pose proof (H x (or_introl eq_refl)) as H1. destruct (f x); cbn in *; auto.
  assert (H2 : ends k n (mapR f l)) by (apply IH; auto). destruct (mapR f l); cbn in *; auto.
Qed.
Lemma foldR_fine {X Y} k n (f : Y -> X -> rres Y) l : (forall y x, In x l -> ends k n (f y x)) -> forall y, ends k n (foldR f y l).
Proof.
  induction l as [|x l IH]; intros H y; cbn; auto. pose proof (H y x (or_introl eq_refl)) as H1. destruct (f y x); cbn in *; auto.
Qed.
Lemma ends_bind {X Y} k n (r : rres X) (f : X -> rres Y) : ends k n r -> (forall x, ends k n (f x)) -> ends k n (rbindR r f).
Proof. destruct r; cbn; auto. Qed.
Lemma ends_weaken {X} k k' n n' (r : rres X) : ends k n r -> (n < k -> n' < k') -> ends k' n' r.
Proof. destruct r; cbn; auto. Qed.
Theorem reify_fine n : forall t g, proper N_ t -> fits s0 t g -> ends (4 * size g + (if is_var t then 4 else 2)) n (reify ho n st t).
Proof.
  induction n as [|n IH]; intros t g P F; [cbn; destruct (is_var t); lia|].
  assert (SUB : forall t0 g0, proper N_ t0 -> fits s0 t0 g0 -> size g0 < size g -> ends (4 * size g + 2) (S n) (reify ho n st t0)).
  { intros t0 g0 P0 F0 L0. eapply ends_weaken; [exact (IH t0 g0 P0 F0)|]. destruct (is_var t0); lia. }
  cbn [reify]. destruct t as [| | |v|b|ts|fs|t h|t|t|p]; try (destruct P; fail); try exact I; cbn [is_var].
  - cbn in P, F. destruct (wf_canon _ _ W P) as [c [C [CC LC]]]. rewrite C. pose proof (pre_alias _ _ _ _ PRE C) as EQ. subst g. rewrite EQ in *.
    pose proof (subst_fine n c CC) as K. destruct (substitute_uvar_vtype ho n st c) as [ot| | |] eqn:ES; cbn [rbindR]; cbn in K; [|exact I|destruct K|cbn; lia].
    destruct (subst_ok ho st W _ _ _ CC ES) as [cs [G ->]]. pose proof (pre_con _ _ _ _ PRE CC G) as AL.
    destruct cs as [|id|[t|bs|[m|m|w|w]|is]]; cbn [seen proj_shape_to_vtype].
    + rewrite G. exact I.
    + destruct AL as [vm [EV [bs [EB HV]]]]. unfold reify_union. rewrite EV. apply ends_bind; [|intro; exact I]. apply foldR_fine. intros y [k t] IN.
      assert (IN' : In (k, t) vm) by (eapply Permutation_in; [apply shuffle_perm|exact IN]).
      destruct (HV _ _ IN') as [g0 [Eg F0]]. apply mget_in in Eg. apply size_union in Eg. rewrite <- EB in Eg. cbn [snd] in Eg.
      unfold branch_step. cbn [fst snd]. apply ends_bind; [|intro; exact I].
      eapply ends_weaken; [exact (SUB t g0 (w_vm _ W _ _ _ _ EV IN') F0 Eg)|lia].
    + destruct (w_con _ W _ _ G) as [PT V]. eapply ends_weaken; [exact (IH t (s0 c) PT AL)|]. rewrite V. lia.
    + unfold of_solution. destruct bs as [b|u]; cbn [bs_unique_solution]; [exact I|]. destruct (rs_is_empty u); [exact I|]. destruct (uint_unique_solution u); exact I.
    + destruct (NOP c). exists m. auto.
    + destruct (NOP c). exists m. auto.
    + eapply ends_weaken; [apply (IH (USeq (UVar w) 0) (s0 c)); [exact (w_con _ W _ _ G)|cbn; eauto]|]. cbn [is_var]. lia.
    + eapply ends_weaken; [apply (IH (UOption (UVar w)) (s0 c)); [exact (w_con _ W _ _ G)|cbn; eauto]|]. cbn [is_var]. lia.
    + unfold of_solution. destruct is as [b|u]; cbn [is_unique_solution]; [exact I|]. destruct (rs_is_empty u); [exact I|]. destruct (prim_unique_solution u); exact I.
  - apply ends_bind; [|intro; exact I]. apply mapR_fine. intros t IN. destruct (fits_sub_tuple _ _ _ _ F IN) as [g0 [F0 L0]].
    apply proper_tuple in P. rewrite Forall_forall in P. exact (SUB t g0 (P _ IN) F0 L0).
  - apply ends_bind; [|intro; exact I]. apply mapR_fine. intros t IN. destruct (fits_sub_record _ _ _ _ F IN) as [g0 [F0 L0]].
    apply proper_record in P. destruct P as [_ P]. rewrite Forall_forall in P. apply ends_bind; [|intro; exact I]. exact (SUB _ g0 (P _ IN) F0 L0).
  - cbn in P, F. destruct F as [g0 [-> F]]. apply ends_bind; [|intro; exact I]. apply (SUB t g0); auto. 
  - cbn in P, F. destruct F as [g0 [-> F]]. apply ends_bind; [|intro; exact I]. apply (SUB t g0); auto.
  - cbn in P, F. destruct F as [g0 [-> F]]. apply ends_bind; [|intro; exact I]. apply (SUB t g0); auto.
Qed.
End Read.
