(** When every variable has a reported type, these types are a solution. *)
From Coq Require Import Permutation.
From Verif Require Import Base BoundsModel NumericModel ValueModel BaseSetModel BaseSetSpec BaseSetProofs BaseSetProps UnifyModel UnifySpec UnifyAlias UnifyBase UnifyProofs UnifyComplete UnifyRequests ReifyModel ReifySpec ReifyProofs ReifySolve ReifyRead.
Open Scope nat_scope.

(** ** More fuel changes nothing *)
Section Fuel.
Variable ho : hash_order.
Variable st : state.
Lemma each_mono {X} (f f' : X -> ures unit) l : forall st0, (forall x st1, f x = UOk st1 tt -> f' x = UOk st1 tt) -> forall st1, eachU f st0 l = UOk st1 tt -> eachU f' st0 l = UOk st1 tt.
Proof.
  induction l as [|x l IH]; intros st0 H st1; cbn [eachU]; auto. destruct (f x) as [st2 []| | |] eqn:E; cbn [ubind]; try discriminate.
  rewrite (H _ _ E). cbn [ubind]. auto.
Qed.
Lemma occurs_mono n :
  (forall v t st1, occurs_in ho n st v t = UOk st1 tt -> occurs_in ho (S n) st v t = UOk st1 tt) /\
  (forall v cs st1, occurs_in_constraints ho n st v cs = UOk st1 tt -> occurs_in_constraints ho (S n) st v cs = UOk st1 tt).
Proof.
  induction n as [|n [IH1 IH2]]; split; try (intros; discriminate).
  - intros v t st1. cbn [occurs_in]. destruct t; auto.
    + destruct (is_aliased st v v0) as [[]|]; auto. destruct (canonical st v0); auto. destruct (get_cons st n0); auto. apply IH2.
    + apply each_mono. intros. apply IH1. assumption.
    + apply each_mono. intros. apply IH1. assumption.
    + apply IH1.
    + apply IH1.
    + apply IH1.
  - intros v cs st1. cbn [occurs_in_constraints]. destruct cs as [|id|[t|bs|[m|m|w|w]|is]]; auto; try apply IH1.
    + destruct (vget id (vms st)); auto. apply each_mono. intros x st0 H. exact (IH1 _ _ _ H).
    + apply each_mono. intros x st0 H. exact (IH1 _ _ _ H).
    + apply each_mono. intros x st0 H. exact (IH1 _ _ _ H).
Qed.
Lemma occurs_more n v st1 : occurs ho n st v = UOk st1 tt -> occurs ho (S n) st v = UOk st1 tt.
Proof. unfold occurs. destruct (get_cons st v); auto. apply (proj2 (occurs_mono n)). Qed.
Lemma infinite_more n t : is_infinite_type ho n st t = ROk false -> is_infinite_type ho (S n) st t = ROk false.
Proof.
  induction t using utype_ind2; cbn [is_infinite_type]; auto.
  - destruct (occurs ho n st v) as [st1 []| | |] eqn:E; try discriminate. rewrite (occurs_more _ _ _ E). auto.
  - induction H as [|t ts HT _ IH]; cbn [anyR]; auto. destruct (is_infinite_type ho n st t) as [[]| | |]; cbn [rbindR]; try discriminate.
    rewrite HT by reflexivity. cbn [rbindR]. auto.
  - induction H as [|[l t] ts HT _ IH]; cbn [anyR]; auto. cbn [snd] in HT. destruct (is_infinite_type ho n st t) as [[]| | |]; cbn [rbindR]; try discriminate.
    rewrite HT by reflexivity. cbn [rbindR]. auto.
Qed.
Lemma whnf_more n : forall t vt, to_whnf_vtype ho n st t = ROk vt -> to_whnf_vtype ho (S n) st t = ROk vt.
Proof.
  induction n as [|n IH]; intros t vt E; [discriminate|]. change (to_whnf_vtype ho (S (S n)) st t) with
    (rbindR (is_infinite_type ho (S (S n)) st t) (fun b : bool =>
    if b then RPanic
    else match t with
         | UVar v =>
           match canonical st v with
           | None => RPanic
           | Some v0 =>
             match get_cons st v0 with
             | None => RPanic
             | Some (Invariant (CEquiv ut)) => to_whnf_vtype ho (S n) st ut
             | Some (Invariant (CElem bs)) => ROk (VBase bs)
             | Some (Invariant (CProj ps)) => ROk (proj_shape_to_vtype ps)
             | Some (Invariant (CNum is)) => ROk (VInt is)
             | Some (Variant id) => ROk (VUnion id)
             | Some Indefinite => ROk (VAbstract (UVar v0))
             end
           end
         | _ => ROk (VAbstract t)
         end)).
  cbn [to_whnf_vtype] in E. destruct (is_infinite_type ho (S n) st t) as [[]| | |] eqn:EI; cbn [rbindR] in E; try discriminate.
  rewrite (infinite_more _ _ EI). cbn [rbindR]. destruct t; auto. destruct (canonical st v) as [c|]; auto. destruct (get_cons st c) as [[|id|[t|bs|p|is]]|]; auto.
Qed.
Lemma subst_more n v ot : substitute_uvar_vtype ho n st v = ROk ot -> substitute_uvar_vtype ho (S n) st v = ROk ot.
Proof.
  unfold substitute_uvar_vtype. destruct (occurs ho n st v) as [st1 []| | |] eqn:E; try discriminate. rewrite (occurs_more _ _ _ E).
  destruct (canonical st v) as [c|]; auto. destruct (get_cons st c) as [[|id|[t|bs|p|is]]|]; auto.
  destruct (to_whnf_vtype ho n st t) as [vt| | |] eqn:ET; cbn [rbindR]; try discriminate. rewrite (whnf_more _ _ _ ET). auto.
Qed.
Lemma mapR_more {X Y} (f f' : X -> rres Y) l : (forall x y, f x = ROk y -> f' x = ROk y) -> forall ys, mapR f l = ROk ys -> mapR f' l = ROk ys.
Proof.
  intro H. induction l as [|x l IH]; intros ys; cbn [mapR]; auto. destruct (f x) as [y| | |] eqn:E; cbn [rbindR]; try discriminate.
  rewrite (H _ _ E). cbn [rbindR]. destruct (mapR f l) as [zs| | |]; cbn [rbindR]; try discriminate. rewrite (IH zs eq_refl). auto.
Qed.
Lemma union_more (f f' : utype -> rres avt) id a : (forall t a, f t = ROk a -> f' t = ROk a) -> reify_union ho f st id = ROk a -> reify_union ho f' st id = ROk a.
Proof.
  intro H. unfold reify_union. destruct (vget id (vms st)) as [vm|]; auto. generalize (@nil (label * avt)) as acc. generalize (shuffle ho vm) as l.
  induction l as [|[k t] l IH]; intro acc; cbn [foldR]; auto. unfold branch_step at 1 3. cbn [fst snd].
  destruct (f t) as [x| | |] eqn:E; cbn [rbindR]; try discriminate. rewrite (H _ _ E). cbn [rbindR]. apply IH.
Qed.
Lemma bind_more {X Y} (r r' : rres X) (k : X -> rres Y) y : (forall x, r = ROk x -> r' = ROk x) -> rbindR r k = ROk y -> rbindR r' k = ROk y.
Proof. intros H. destruct r; cbn [rbindR]; try discriminate. rewrite (H _ eq_refl). auto. Qed.
Lemma reify_S n t : reify ho (S n) st t =
    match t with
    | UHole => RNone
    | UView => ROk AView
    | UInt p => ROk (AInt p)
    | UVar uv =>
      match canonical st uv with
      | None => RPanic
      | Some v =>
        rbindR (substitute_uvar_vtype ho n st v) (fun ot =>
        match ot with
        | Some (VBase bs) => of_solution (bs_unique_solution bs) avt_of_base
        | Some (VInt is) => of_solution (is_unique_solution is) AInt
        | Some (VAbstract ut) => reify ho n st ut
        | Some (VUnion id) => reify_union ho (reify ho n st) st id
        | Some (VTuple _) | Some (VRecord _) => RPanic
        | None => match get_cons st v with
                  | Some (Variant id) => reify_union ho (reify ho n st) st id
                  | _ => RNone
                  end
        end)
      end
    | UBase b => ROk (avt_of_base b)
    | UEmpty => ROk AEmpty
    | UTuple ts => rbindR (mapR (reify ho n st) ts) (fun vs => ROk (ATuple vs))
    | URecord fs =>
      rbindR (mapR (fun f => rbindR (reify ho n st (snd f)) (fun a => ROk (fst f, a))) fs) (fun vs => ROk (ARecord vs))
    | USeq t0 h => rbindR (reify ho n st t0) (fun a => ROk (ASeq a h))
    | UOption t0 => rbindR (reify ho n st t0) (fun a => ROk (AOption a))
    | UPhantom t0 => rbindR (reify ho n st t0) (fun a => ROk (APhantom a))
    end.
Proof. reflexivity. Qed.
Lemma reify_more n : forall t a, reify ho n st t = ROk a -> reify ho (S n) st t = ROk a.
Proof.
  induction n as [|n IH]; intros t a E; [discriminate|]. rewrite reify_S in E. rewrite reify_S. destruct t; auto.
  - destruct (canonical st v) as [c|]; auto. destruct (substitute_uvar_vtype ho n st c) as [ot| | |] eqn:ES; cbn [rbindR] in E; try discriminate.
    rewrite (subst_more _ _ _ ES). cbn [rbindR]. destruct ot as [[]|]; auto.
    + revert E. apply union_more, IH.
    + destruct (get_cons st c) as [[]|]; auto. revert E. apply union_more, IH.
  - revert E. apply bind_more. intro vs. apply mapR_more, IH.
  - revert E. apply bind_more. intro vs. apply mapR_more. intros x y. apply bind_more. intro. apply IH.
  - revert E. apply bind_more. intro. apply IH.
  - revert E. apply bind_more. intro. apply IH.
  - revert E. apply bind_more. intro. apply IH.
Qed.
Lemma reify_le n m t a : n <= m -> reify ho n st t = ROk a -> reify ho m st t = ROk a.
Proof. induction 1; auto. intro E. apply reify_more. auto. Qed.
End Fuel.

(** ** The reported types are a solution *)
Section All.
Variable ho : hash_order.
Variable st : state.
Hypothesis W : wf st.
Hypothesis SRT : vm_sorted st.
Notation N_ := (length (cons st)).
Lemma compound_plain n f : (forall t a, proper N_ t -> reify ho n st t = ROk a -> a <> AEmpty /\ plain a = inst f t) ->
  forall t a, proper N_ t -> is_var t = false -> reify ho (S n) st t = ROk a -> a <> AEmpty /\ plain a = inst f t.
Proof.
  intros IH t a P V E. cbn [reify] in E. destruct t as [| | |v|b|ts|fs|t h|t|t|p]; try (destruct P; fail); try discriminate.
  - injection E as <-. split; [discriminate|reflexivity].
  - injection E as <-. apply avt_base.
  - destruct (mapR (reify ho n st) ts) as [vs| | |] eqn:EM; cbn [rbindR] in E; try discriminate. injection E as <-. split; [discriminate|].
    apply mapR_ok in EM. cbn [plain inst]. f_equal. apply proper_tuple in P. clear -EM P IH.
    induction EM as [|t b ts vs E _ IHM]; cbn; [reflexivity|]. inversion P; subst. f_equal; auto. apply (IH t b); auto.
  - destruct (mapR _ fs) as [vs| | |] eqn:EM; cbn [rbindR] in E; try discriminate. injection E as <-. split; [discriminate|].
    apply mapR_ok in EM. rewrite inst_record. cbn [plain]. f_equal. apply proper_record in P. destruct P as [_ P]. clear -EM P IH.
    induction EM as [|t b ts vs E _ IHM]; cbn; [reflexivity|]. inversion P; subst. f_equal; auto.
    destruct (reify ho n st (snd t)) as [x| | |] eqn:ER; cbn in E; try discriminate. injection E as <-. unfold inst_f. f_equal. apply (IH _ x); auto.
  - destruct (reify ho n st t) as [x| | |] eqn:ER; cbn [rbindR] in E; try discriminate. injection E as <-. split; [discriminate|]. cbn [plain inst]. f_equal. apply (IH _ x); auto.
  - destruct (reify ho n st t) as [x| | |] eqn:ER; cbn [rbindR] in E; try discriminate. injection E as <-. split; [discriminate|]. cbn [plain inst]. f_equal. apply (IH _ x); auto.
  - destruct (reify ho n st t) as [x| | |] eqn:ER; cbn [rbindR] in E; try discriminate. injection E as <-. split; [discriminate|]. cbn [plain inst]. f_equal. apply (IH _ x); auto.
  - injection E as <-. split; [discriminate|reflexivity].
Qed.
(** A variable whose type is reported. *)
Lemma var_plain n f v a : (forall t a, proper N_ t -> reify ho n st t = ROk a -> a <> AEmpty /\ plain a = inst f t) ->
  reify ho (S n) st (UVar v) = ROk a -> a <> AEmpty /\ exists c cs, canonical st v = Some c /\ get_cons st c = Some cs /\ allowed f st cs (plain a).
Proof.
  intros IH E. cbn [reify] in E. destruct (canonical st v) as [c|] eqn:C; [|discriminate]. pose proof (canon_idem _ _ _ (w_awf _ W) C) as CC.
  destruct (substitute_uvar_vtype ho n st c) as [ot| | |] eqn:ES; cbn [rbindR] in E; try discriminate.
  destruct (subst_ok ho st W _ _ _ CC ES) as [cs [G ->]].
  assert (H : a <> AEmpty /\ allowed f st cs (plain a)). 2: { split; [apply H|]. exists c, cs. split; [reflexivity|]. split; [exact G|apply H]. }
  destruct cs as [|id|[t|bs|[m|m|w|w]|is]]; cbn [seen proj_shape_to_vtype] in E; try discriminate.
  - rewrite G in E. discriminate.
  - destruct (w_ex _ W _ _ CC G) as [vm EV]. destruct (union_plain ho st W SRT n id vm a f EV IH E) as [NE PL]. split; [exact NE|]. rewrite PL. cbn.
    exists vm. split; [exact EV|]. eexists. split; [reflexivity|]. intros l t IN. exists (inst f t). split; [|exact (inst_fits _ _ _ (w_vm _ W _ _ _ _ EV IN))].
    pose proof (ksorted_get _ _ (SRT _ _ EV) IN) as GE. cbn in GE. unfold inst_f. rewrite mget_map, GE. reflexivity.
  - destruct (w_con _ W _ _ G) as [PT V]. destruct (IH t a PT E) as [NE PL]. split; [exact NE|]. cbn. rewrite PL. exact (inst_fits _ _ _ PT).
  - destruct (bs_unique_solution bs) as [b| |] eqn:EB; cbn in E; try discriminate. injection E as <-. destruct (avt_base b) as [NE PL]. split; [exact NE|]. rewrite PL.
    exists b. split; [|reflexivity]. apply solution_member; auto. exact (w_con _ W _ _ G).
  - destruct (IH (USeq (UVar w) 0) a (w_con _ W _ _ G) E) as [NE PL]. split; [exact NE|]. rewrite PL. reflexivity.
  - destruct (IH (UOption (UVar w)) a (w_con _ W _ _ G) E) as [NE PL]. split; [exact NE|]. rewrite PL. reflexivity.
  - destruct (is_unique_solution is) as [b| |] eqn:EB; cbn in E; try discriminate. injection E as <-. split; [discriminate|].
    exists b. split; [|reflexivity]. apply solution_member_int; auto. exact (w_con _ W _ _ G).
Qed.
Variables (n : nat) (r : nat -> avt).
Hypothesis ALL : forall v, v < N_ -> reify ho n st (UVar v) = ROk (r v).
Definition reported (v : nat) : gtype := plain (r v).
Lemma all_plain k : k <= n -> forall t a, proper N_ t -> reify ho k st t = ROk a -> a <> AEmpty /\ plain a = inst reported t.
Proof.
  induction k as [|k IH]; intros L t a P E; [discriminate|]. assert (IH' := IH (Nat.le_trans _ _ _ (Nat.le_succ_diag_r k) L)).
  destruct (is_var t) eqn:V; [|apply (compound_plain k); auto]. destruct t; try discriminate. cbn in P.
  destruct (var_plain k reported v a IH' E) as [NE _]. split; [exact NE|]. cbn [inst]. unfold reported.
  apply (reify_le _ _ _ n) in E; [|exact L]. rewrite (ALL v P) in E. congruence.
Qed.
Theorem reported_sat : sat [] reported st.
Proof.
  split.
  - intros v c C. unfold reported. f_equal. pose proof (canon_idem _ _ _ (w_awf _ W) C) as CC. pose proof (canon_lt_wf _ _ _ W C) as L. pose proof (canon_lt_wf _ _ _ W CC) as LC.
    pose proof (ALL _ L) as E. pose proof (ALL _ LC) as E'. destruct n as [|n']; [discriminate|]. rewrite reify_S, C in E. rewrite reify_S, CC in E'. congruence.
  - intros v cs CC _ G. pose proof (canon_lt_wf _ _ _ W CC) as L. pose proof (ALL _ L) as E. pose proof all_plain as AP. destruct n as [|n']; [discriminate|].
    destruct (var_plain n' reported v (r v)) as [_ [c [cs' [C [G' AL]]]]]; [|exact E|].
    + apply AP. auto.
    + assert (c = v) by congruence. subst c. rewrite G in G'. injection G' as <-. exact AL.
Qed.
End All.
