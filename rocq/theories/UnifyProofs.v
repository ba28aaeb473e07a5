(** Soundness of unification: what a finished operation's state describes is what the
    state before it described and what was asked. *)
From Coq Require Import Permutation.
From Verif Require Import Base BoundsModel NumericModel ValueModel BaseSetModel BaseSetSpec BaseSetProofs BaseSetProps UnifyModel UnifySpec UnifyAlias UnifyBase.
Open Scope nat_scope.

(** ** The record of a return to a variable is never lost *)
Definition mono {A} (st : state) (r : ures A) : Prop :=
  match r with UOk st' _ => again st = true -> again st' = true | _ => True end.
Lemma mono_bind {A B} st (r : ures A) (k : A -> state -> ures B) : mono st r -> (forall a st1, mono st1 (k a st1)) -> mono st (ubind r k).
Proof.
  intros H K. destruct r as [st1 a| | |]; cbn; auto. specialize (K a st1). destruct (k a st1); cbn in *; auto.
Qed.
Lemma mono_fold {A B} (f : B -> A -> state -> ures B) : (forall b a st, mono st (f b a st)) -> forall l b st, mono st (foldU f b l st).
Proof. intros H l. induction l as [|a l IH]; intros b st; cbn [foldU]; [cbn; auto|]. apply mono_bind; auto. Qed.
Lemma mono_map2 {A B C} (f : A -> B -> state -> ures C) : (forall a b st, mono st (f a b st)) -> forall la lb st, mono st (map2U f la lb st).
Proof.
  intros H la. induction la as [|a la IH]; intros [|b lb] st; cbn [map2U]; try (cbn; auto; fail).
  apply mono_bind; auto. intros c st1. apply mono_bind; auto. cbn. auto.
Qed.
Lemma mono_tc {A} (r : tcres A) st : mono st (of_tc r st).
Proof. destruct r; cbn; auto. Qed.
Lemma mono_false {A} st (r : ures A) st' a : mono st r -> r = UOk st' a -> again st' = false -> again st = false.
Proof. intros H -> E. cbn in H. destruct (again st); auto. rewrite H in E; auto. Qed.

(** The definitions, one step unfolded. *)
Lemma unify_utype_S ho n (busy : list nat) (l r : utype) st : unify_utype ho (S n) busy l r st =
    match l, r with
    | UHole, UHole => UOk st l
    | UHole, _ => UOk st r
    | _, UHole => UOk st l
    | UEmpty, _ => UOk st r
    | _, UEmpty => UOk st l
    | UView, UView => UOk st l
    | USeq e1 h1, USeq e2 h2 =>
      if utype_eqb e1 e2 then (if h1 <=? h2 then UOk st l else UOk st r)
      else ubind (unify_utype ho n busy e1 e2 st) (fun e st1 => UOk st1 (USeq e (Nat.min h1 h2)))
    | UOption o1, UOption o2 =>
      if utype_eqb o1 o2 then UOk st l
      else ubind (unify_utype ho n busy o1 o2 st) (fun o st1 => UOk st1 (UOption o))
    | UPhantom p1, UPhantom p2 =>
      if utype_eqb p1 p2 then UOk st l
      else ubind (unify_utype ho n busy p1 p2 st) (fun p st1 => UOk st1 (UPhantom p))
    | UBase b1, UBase b2 => if basetype_eqb b1 b2 then UOk st l else UErr
    | UTuple ts1, UTuple ts2 =>
      if negb (length ts1 =? length ts2) then UErr
      else if list_eqb utype_eqb ts1 ts2 then UOk st l
      else ubind (map2U (unify_utype ho n busy) ts1 ts2 st) (fun ts st1 => UOk st1 (UTuple ts))
    | URecord fs1, URecord fs2 =>
      if negb (length fs1 =? length fs2) then UErr
      else if utype_eqb l r then UOk st l
      else ubind (map2U (fun f1 f2 st0 =>
                    if (fst f1 =? fst f2)%N
                    then ubind (unify_utype ho n busy (snd f1) (snd f2) st0) (fun t st1 => UOk st1 (fst f1, t))
                    else UErr) fs1 fs2 st) (fun fs st1 => UOk st1 (URecord fs))
    | UVar v1, UVar v2 =>
      ubind (unify_var_pair ho n busy v1 v2 st) (fun _ st1 => UOk st1 (UVar (Nat.min v1 v2)))
    | UInt p1, UInt p2 => if mrep_eqb p1 p2 then UOk st l else UErr
    | UInt p, UBase b | UBase b, UInt p => of_tc (unify_primint_basetype p b) st
    | UVar v, t | t, UVar v =>
      ubind (unify_var_constraint ho n busy v (CEquiv t) st) (fun _ st1 =>
      ubind (occurs ho n st1 v) (fun _ _ => UOk st1 (UVar v)))
    | _, _ => UErr
    end.
Proof. reflexivity. Qed.
Lemma unify_var_constraint_S ho n (busy : list nat) (v : nat) (c : constr) st : unify_var_constraint ho (S n) busy v c st =
    match canonical st v with
    | None => UPanic
    | Some can =>
      match get_cons st can with
      | None => UPanic
      | Some Indefinite =>
        UOk (note_again (mem_nat can busy) (set_cons can (Invariant c) st)) c
      | Some (Variant _) => UErr
      | Some (Invariant c1) =>
        if constr_eqb c1 c then UOk (note_again (mem_nat can busy) st) c1
        else ubind (unify_constraint_pair ho n (can :: busy) c1 c st) (fun ret st1 =>
             UOk (note_again (mem_nat can busy) (set_cons can (Invariant ret) st1)) ret)
      end
    end.
Proof. reflexivity. Qed.
Lemma unify_constraint_pair_S ho n (busy : list nat) (c1 c2 : constr) st : unify_constraint_pair ho (S n) busy c1 c2 st =
    match c1, c2 with
    | CEquiv t1, CEquiv t2 =>
      if utype_eqb t1 t2 then UOk st c1
      else ubind (unify_utype ho n busy t1 t2 st) (fun t0 st1 => UOk st1 (CEquiv t0))
    | CElem b1, CElem b2 => of_tc (tc_map bs_constraint (bs_unify b1 b2)) st
    | CProj p1, CProj p2 =>
      match p1, p2 with
      | PTuple m1, PTuple m2 =>
        if list_eqb entry_eqb m1 m2 then UOk st c1
        else ubind (foldU (merge_entry (unify_var_pair ho n busy) m1 m2) [] (shuffle ho (union_keys m1 m2)) st)
                   (fun m st1 => UOk st1 (CProj (PTuple m)))
      | PRecord m1, PRecord m2 =>
        if list_eqb entry_eqb m1 m2 then UOk st c1
        else ubind (foldU (merge_entry (unify_var_pair ho n busy) m1 m2) [] (shuffle ho (union_keys m1 m2)) st)
                   (fun m st1 => UOk st1 (CProj (PRecord m)))
      | PSeq v1, PSeq v2 => ubind (unify_var_pair ho n busy v1 v2 st) (fun _ st1 => UOk st1 (CProj (PSeq v1)))
      | POpt v1, POpt v2 => ubind (unify_var_pair ho n busy v1 v2 st) (fun _ st1 => UOk st1 (CProj (POpt v1)))
      | _, _ => UErr
      end
    | CEquiv t, CElem bs | CElem bs, CEquiv t =>
      match t with
      | UVar v => unify_var_constraint ho n busy v (bs_constraint bs) st
      | UInt p => of_tc (unify_primint_baseset p bs) st
      | UBase b => of_tc (tc_map bs_constraint (bs_unify bs (BSingle b))) st
      | UHole => UOk st (bs_constraint bs)
      | _ => UErr
      end
    | CProj p, CEquiv t | CEquiv t, CProj p =>
      match p, t with
      | _, UVar v => unify_var_constraint ho n busy v (CProj p) st
      | PRecord m, URecord fs =>
        ubind (foldU (field_entry (unify_var_utype ho n busy) m) tt fs st) (fun _ st1 =>
        if covers m fs then UOk st1 (CEquiv t) else UErr)
      | PTuple m, UTuple ts =>
        ubind (foldU (field_entry (unify_var_utype ho n busy) m) tt (indexed ts) st) (fun _ st1 =>
        if covers m (indexed ts) then UOk st1 (CEquiv t) else UErr)
      | PSeq v, USeq t0 _ => ubind (unify_var_utype ho n busy v t0 st) (fun _ st1 => UOk st1 (CEquiv t))
      | POpt v, UOption t0 => ubind (unify_var_utype ho n busy v t0 st) (fun _ st1 => UOk st1 (CEquiv t))
      | _, _ => UPanic
      end
    | CElem _, CProj _ | CNum _, CProj _ | CProj _, CElem _ | CProj _, CNum _ => UErr
    | CNum i1, CNum i2 =>
      if intset_eqb i1 i2 then UOk st c1 else of_tc (tc_map CNum (is_unify i1 i2)) st
    | CEquiv t, CNum i | CNum i, CEquiv t =>
      match t with
      | UVar v => unify_var_constraint ho n busy v (is_constraint i) st
      | UInt p => of_tc (tc_map is_constraint (is_unify i (ISingle p))) st
      | UBase b => of_tc (unify_basetype_intset b i) st
      | UHole => UOk st (is_constraint i)
      | _ => UErr
      end
    | CElem b, CNum i | CNum i, CElem b => of_tc (unify_baseset_intset b i) st
    end.
Proof. reflexivity. Qed.
Lemma unify_var_utype_S ho n (busy : list nat) (v : nat) (t : utype) st : unify_var_utype ho (S n) busy v t st =
    match t with
    | UVar v2 => unify_var_pair ho n busy v v2 st
    | _ => ubind (unify_var_constraint ho n busy v (CEquiv t) st) (fun _ st1 => UOk st1 tt)
    end.
Proof. reflexivity. Qed.
Lemma unify_var_pair_S ho n (busy : list nat) (v1 v2 : nat) st : unify_var_pair ho (S n) busy v1 v2 st =
    match merge_of st v1 v2 with
    | Done => UOk st tt
    | MPanic => UPanic
    | Repoint lo hi =>
      match repoint lo hi st with
      | None => UPanic
      | Some st1 => transfer_constraints ho n busy lo hi (note_again (mem_nat lo busy || mem_nat hi busy) st1)
      end
    | Recanon lo hi =>
      match recanonicalize ho lo hi st with
      | None => UPanic
      | Some st1 => transfer_constraints ho n busy lo hi (note_again (mem_nat lo busy || mem_nat hi busy) st1)
      end
    end.
Proof. reflexivity. Qed.
Lemma transfer_constraints_S ho n (busy : list nat) (a1 a2 : nat) st : transfer_constraints ho (S n) busy a1 a2 st =
    if a1 =? a2 then UOk st tt
    else
      match get_cons st a1, get_cons st a2 with
      | Some Indefinite, Some Indefinite => UOk st tt
      | Some Indefinite, Some c2 => UOk (set_cons a1 c2 st) tt
      | Some c1, Some Indefinite => UOk (set_cons a2 c1 st) tt
      | Some (Variant id1), Some (Variant id2) => unify_varmaps ho n busy a1 id1 a2 id2 st
      | Some (Variant _), Some (Invariant c) => if is_vacuous c then UOk st tt else UErr
      | Some (Invariant c), Some (Variant _) => if is_vacuous c then UOk st tt else UErr
      | Some (Invariant c1), Some (Invariant c2) =>
        ubind (unify_constraint_pair ho n (a1 :: busy) c1 c2 st) (fun c0 st1 =>
        UOk (set_cons a2 (Invariant c0) (set_cons a1 (Invariant c0) st1)) tt)
      | _, _ => UPanic
      end.
Proof. reflexivity. Qed.
Lemma unify_varmaps_S ho n (busy : list nat) (v1 id1 v2 id2 : nat) st : unify_varmaps ho (S n) busy v1 id1 v2 id2 st =
    if id1 =? id2 then UOk st tt
    else
      let lo := Nat.min id1 id2 in
      let hi := Nat.max id1 id2 in
      match vget hi (vms st) with
      | None => UPanic
      | Some vm_hi =>
        ubind (foldU (fun _ e st0 =>
                 match vget lo (vms st0) with
                 | None => UPanic
                 | Some vm_lo =>
                   match mget (fst e) vm_lo with
                   | Some t_lo =>
                     ubind (unify_utype ho n (v1 :: busy) t_lo (snd e) st0) (fun t st1 =>
                     match vget lo (vms st1) with
                     | None => UPanic
                     | Some vm => UOk (set_vms (vset lo (minsert (fst e) t vm) (vms st1)) st1) tt
                     end)
                   | None => UOk (set_vms (vset lo (minsert (fst e) (snd e) vm_lo) (vms st0)) st0) tt
                   end
                 end) tt (shuffle ho vm_hi) (set_vms (vset hi [] (vms st)) st)) (fun _ st1 =>
        match vget hi (vms st1) with
        | None => UPanic
        | Some _ =>
          let st2 := set_vms (vremove hi (vms st1)) st1 in
          match get_cons st2 v1, get_cons st2 v2 with
          | Some (Variant _), Some (Variant _) =>
            UOk (set_cons v2 (Variant lo) (set_cons v1 (Variant lo) st2)) tt
          | _, _ => UPanic
          end
        end)
      end.
Proof. reflexivity. Qed.

Ltac ucbn := rewrite ?unify_utype_S, ?unify_var_constraint_S, ?unify_constraint_pair_S, ?unify_var_utype_S, ?unify_var_pair_S, ?transfer_constraints_S, ?unify_varmaps_S.

Section Sound.
Variable ho : hash_order.

Ltac mono_step IH :=
  match goal with
  | |- forall _, _ => intro
  | |- mono _ UErr => exact I
  | |- mono _ UPanic => exact I
  | |- mono _ UFuel => exact I
  | |- mono _ (of_tc _ _) => apply mono_tc
  | |- mono _ (ubind (occurs _ _ _ _) _) => destruct (occurs _ _ _ _); cbn; auto
  | |- mono _ (ubind _ _) => apply mono_bind
  | |- mono _ (foldU _ _ _ _) => apply mono_fold
  | |- mono _ (map2U _ _ _ _) => apply mono_map2
  | |- mono _ (unify_utype _ _ _ _ _ _) => apply IH
  | |- mono _ (unify_var_constraint _ _ _ _ _ _) => apply IH
  | |- mono _ (unify_constraint_pair _ _ _ _ _ _) => apply IH
  | |- mono _ (unify_var_utype _ _ _ _ _ _) => apply IH
  | |- mono _ (unify_var_pair _ _ _ _ _ _) => apply IH
  | |- mono _ (transfer_constraints _ _ _ _ _ _) => apply IH
  | |- mono _ (unify_varmaps _ _ _ _ _ _ _ _) => apply IH
  | |- mono _ (merge_entry _ _ _ _ _ _) => unfold merge_entry
  | |- mono _ (field_entry _ _ _ _ _) => unfold field_entry
  | |- mono _ (if ?b then _ else _) => destruct b
  | |- mono _ (match ?x with _ => _ end) => destruct x eqn:?
  | |- mono _ (UOk _ _) => cbn; intros; try assumption; try (match goal with H : again _ = true |- _ => rewrite H; apply orb_true_r end)
  end.

Lemma repoint_again lo hi st st1 : repoint lo hi st = Some st1 -> again st1 = again st.
Proof.
  unfold repoint. destruct (get_als st hi) as [ah|]; [|discriminate]. cbv zeta. destruct (get_als _ lo) as [a|]; [|discriminate].
  destruct (add_forward_ref hi a); [|discriminate]. intro E. injection E as <-. reflexivity.
Qed.
Lemma repoint_all_again lo l : forall st st1, repoint_all lo l st = Some st1 -> again st1 = again st.
Proof.
  induction l as [|a l IH]; intros st st1; cbn [repoint_all]; [intro E; injection E as <-; reflexivity|].
  destruct (get_als st lo) as [x|]; [|discriminate]. destruct (contains_fwd_ref x a); [discriminate|].
  destruct (repoint lo a st) as [st0|] eqn:E0; [|discriminate]. intro E. rewrite (IH _ _ E). exact (repoint_again _ _ _ _ E0).
Qed.
Lemma recanonicalize_again lo hi st st1 : recanonicalize ho lo hi st = Some st1 -> again st1 = again st.
Proof.
  unfold recanonicalize. destruct (get_als st hi); [|discriminate]. destruct (repoint_all _ _ _) as [st0|] eqn:E0; [|discriminate].
  destruct (get_als _ lo) as [a0|]; [|discriminate].
  destruct (add_forward_ref hi a0); [|discriminate]. intro E. injection E as <-. cbn. rewrite (repoint_all_again _ _ _ _ E0). reflexivity.
Qed.
Lemma mono_from {A} st st1 (r : ures A) : (again st = true -> again st1 = true) -> mono st1 r -> mono st r.
Proof. destruct r; cbn; auto. Qed.

Lemma mono_all n :
  (forall B l r st, mono st (unify_utype ho n B l r st)) /\
  (forall B v c st, mono st (unify_var_constraint ho n B v c st)) /\
  (forall B c1 c2 st, mono st (unify_constraint_pair ho n B c1 c2 st)) /\
  (forall B v t st, mono st (unify_var_utype ho n B v t st)) /\
  (forall B v w st, mono st (unify_var_pair ho n B v w st)) /\
  (forall B a b st, mono st (transfer_constraints ho n B a b st)) /\
  (forall B a i b j st, mono st (unify_varmaps ho n B a i b j st)).
Proof.
  induction n as [|n IH]; [repeat split; intros; exact I|].
  split; [|split; [|split; [|split; [|split; [|split]]]]].
  - intros B l r st. ucbn. destruct l, r; repeat mono_step IH.
  - intros B v c st. ucbn. repeat mono_step IH.
  - intros B c1 c2 st. ucbn. destruct c1, c2; repeat mono_step IH.
  - intros B v t st. ucbn. destruct t; repeat mono_step IH.
  - intros B v w st. ucbn. destruct (merge_of st v w) as [|lo hi|lo hi|]; repeat mono_step IH.
    + eapply mono_from; [|apply IH]. cbn. rewrite (repoint_again _ _ _ _ Heqo). intros ->. apply orb_true_r.
    + eapply mono_from; [|apply IH]. cbn. rewrite (recanonicalize_again _ _ _ _ Heqo). intros ->. apply orb_true_r.
  - intros B a b st. ucbn. repeat mono_step IH.
  - intros B a i b j st. ucbn. cbv zeta. destruct (i =? j); repeat mono_step IH.
    apply (mono_from _ (set_vms (vset (Nat.max i j) [] (vms st)) st)); [auto|]. repeat mono_step IH.
Qed.

(** ** Sound results *)
Definition sound {A} (B : list nat) (st : state) (r : ures A) (P : A -> Prop) (Q : assignment -> A -> Prop) : Prop :=
  forall st' a, r = UOk st' a -> again st' = false ->
    wf st' /\ step B st st' /\ P a /\ forall s, sat B s st' -> sat B s st /\ Q s a.

Lemma sound_ok {A} B st (a : A) (P : A -> Prop) (Q : assignment -> A -> Prop) :
  wf st -> P a -> (forall s, sat B s st -> Q s a) -> sound B st (UOk st a) P Q.
Proof. intros W HP HQ st' a' E _. injection E as <- <-. split; [exact W|]. split; [apply step_refl|]. split; auto. Qed.
Lemma sound_err {A} B st P Q : sound B st (@UErr A) P Q.
Proof. intros st' a E. discriminate. Qed.
Lemma sound_panic {A} B st P Q : sound B st (@UPanic A) P Q.
Proof. intros st' a E. discriminate. Qed.
Lemma sound_fuel {A} B st P Q : sound B st (@UFuel A) P Q.
Proof. intros st' a E. discriminate. Qed.
Lemma sound_bind {A C} B st (r : ures A) (k : A -> state -> ures C) P Q (P' : C -> Prop) (Q' : assignment -> C -> Prop) :
  sound B st r P Q -> (forall a st1, mono st1 (k a st1)) ->
  (forall a st1, wf st1 -> step B st st1 -> P a -> sound B st1 (k a st1) P' (fun s b => Q s a -> Q' s b)) ->
  sound B st (ubind r k) P' Q'.
Proof.
  intros H M K st' c E G. destruct r as [st1 a| | |]; try discriminate. cbn [ubind] in E.
  assert (G1 : again st1 = false) by exact (mono_false _ _ _ _ (M a st1) E G).
  destruct (H st1 a eq_refl G1) as [W1 [S1 [P1 F1]]].
  destruct (K a st1 W1 S1 P1 st' c E G) as [W2 [S2 [P2 F2]]].
  split; [exact W2|]. split; [exact (step_trans _ _ _ _ S1 S2)|]. split; [exact P2|].
  intros s Hs. destruct (F2 s Hs) as [Hs1 HQ]. destruct (F1 s Hs1) as [Hs0 HQ0]. auto.
Qed.
Lemma sound_weaken {A} B st (r : ures A) (P P' : A -> Prop) (Q Q' : assignment -> A -> Prop) :
  sound B st r P Q -> (forall a, P a -> P' a) -> (forall s a, P a -> Q s a -> Q' s a) -> sound B st r P' Q'.
Proof.
  intros H HP HQ st' a E G. destruct (H st' a E G) as [W [S [Pa F]]]. split; [exact W|]. split; [exact S|]. split; auto.
  intros s Hs. destruct (F s Hs). split; auto.
Qed.
Lemma sound_tc B st (r : tcres constr) (P0 Q0 : assignment -> gtype -> Prop) : wf st -> (forall s, tc_meet s (length (cons st)) r (P0 s) (Q0 s)) ->
  sound B st (of_tc r st) (proper_c (length (cons st))) (fun s c0 => forall g, obeys s c0 g -> P0 s g /\ Q0 s g).
Proof.
  intros W H. destruct r as [c| |]; cbn [of_tc]; [|apply sound_err|apply sound_panic].
  apply sound_ok; auto.
  - exact (proj1 (H (fun _ => GView))).
  - intros s _ g. apply (proj2 (H s)).
Qed.

(** ** Loops *)
Inductive Forall3 {A B C} (R : A -> B -> C -> Prop) : list A -> list B -> list C -> Prop :=
| F3_nil : Forall3 R [] [] []
| F3_cons a b c la lb lc : R a b c -> Forall3 R la lb lc -> Forall3 R (a :: la) (b :: lb) (c :: lc).

Lemma sound_map2 {A1 A2 C} B N (f : A1 -> A2 -> state -> ures C) (P : A1 -> A2 -> C -> Prop) (Q : assignment -> A1 -> A2 -> C -> Prop) :
  (forall a b st, mono st (f a b st)) ->
  forall la lb st, length la = length lb -> wf st -> length (cons st) = N ->
  (forall a b st, In a la -> In b lb -> wf st -> length (cons st) = N -> sound B st (f a b st) (P a b) (fun s c => Q s a b c)) ->
  sound B st (map2U f la lb st) (Forall3 P la lb) (fun s cs => Forall3 (Q s) la lb cs).
Proof.
  intros M la. induction la as [|a la IH]; intros [|b lb] st L W E H; try discriminate; cbn [map2U].
  - apply sound_ok; auto; constructor.
  - eapply sound_bind; [apply H; cbn; auto| |].
    + intros c st1. apply mono_bind; [apply mono_map2; exact M|]. intros; cbn; auto.
    + intros c st1 W1 S1 P1. eapply sound_bind.
      * apply IH; auto. { rewrite (s_len _ _ _ S1). exact E. } intros; apply H; cbn; auto.
      * cbn. auto.
      * intros cs st2 W2 S2 P2. apply sound_ok; auto. { constructor; auto. } intros s _ F1 F2. constructor; auto.
Qed.

Definition joined (m1 m2 : list (N * nat)) (k : N) : option nat :=
  match mget k m1, mget k m2 with
  | Some a, Some b => Some (Nat.min a b)
  | Some a, None | None, Some a => Some a
  | None, None => None
  end.
Lemma sound_merge B N pair m1 m2 :
  (forall a b st, mono st (pair a b st)) ->
  (forall a b st, wf st -> length (cons st) = N -> a < N -> b < N -> sound B st (pair a b st) (fun _ => True) (fun s _ => s a = s b)) ->
  vars_below N m1 -> vars_below N m2 ->
  forall ks acc st, wf st -> length (cons st) = N ->
  sound B st (foldU (merge_entry pair m1 m2) acc ks st)
    (fun acc' => (forall k, mget k acc' = if existsb (N.eqb k) ks then joined m1 m2 k else mget k acc) /\ (ksorted acc -> ksorted acc'))
    (fun s _ => forall k a b, In k ks -> mget k m1 = Some a -> mget k m2 = Some b -> s a = s b).
Proof.
  intros M H V1 V2 ks. induction ks as [|k ks IH]; intros acc st W E; cbn [foldU].
  - apply sound_ok; auto. intros s _ k a b [].
  - eapply sound_bind with (P := fun acc1 => (forall k', mget k' acc1 = if (k' =? k)%N then joined m1 m2 k else mget k' acc) /\ (ksorted acc -> ksorted acc1))
      (Q := fun s _ => forall a b, mget k m1 = Some a -> mget k m2 = Some b -> s a = s b).
    + unfold merge_entry. unfold joined. destruct (mget k m1) as [a|] eqn:E1; destruct (mget k m2) as [b|] eqn:E2.
      * eapply sound_bind; [apply H; auto; [exact (V1 _ _ E1)|exact (V2 _ _ E2)]|cbn; auto|].
        intros [] st1 W1 S1 _. apply sound_ok; auto. { split; [intro k'; apply mget_insert|apply ksorted_insert]. }
        intros s _ HQ a' b' A1 A2. congruence.
      * apply sound_ok; auto. { split; [intro k'; apply mget_insert|apply ksorted_insert]. } discriminate.
      * apply sound_ok; auto. { split; [intro k'; apply mget_insert|apply ksorted_insert]. } discriminate.
      * apply sound_panic.
    + intros acc1 st1. apply mono_fold. intros b a st2. unfold merge_entry. destruct (mget a m1), (mget a m2); try (cbn; auto; fail).
      apply mono_bind; [apply M|]. cbn; auto.
    + intros acc1 st1 W1 S1 [P1 P3]. eapply sound_weaken; [apply IH; auto; rewrite (s_len _ _ _ S1); exact E| |].
      * intros acc2 [H2 H3]. split; [|auto]. intro k'. rewrite H2. cbn [existsb]. rewrite P1. destruct (N.eqb_spec k' k) as [->|]; cbn [orb]; [|reflexivity].
        destruct (existsb (N.eqb k) ks); reflexivity.
      * intros s acc2 _ H2 H1 k' a b [<-|I]; eauto.
Qed.
Lemma sound_fields B N vu m :
  (forall v t st, mono st (vu v t st)) ->
  (forall v t st, wf st -> length (cons st) = N -> v < N -> proper N t -> sound B st (vu v t st) (fun _ => True) (fun s _ => fits s t (s v))) ->
  vars_below N m ->
  forall fs st, Forall (fun f => proper N (snd f)) fs -> wf st -> length (cons st) = N ->
  sound B st (foldU (field_entry vu m) tt fs st) (fun _ => True)
    (fun s _ => forall k t v, In (k, t) fs -> mget k m = Some v -> fits s t (s v)).
Proof.
  intros M H V fs. induction fs as [|[k t] fs IH]; intros st P W E; cbn [foldU].
  - apply sound_ok; auto. intros s _ k t v [].
  - inversion P as [|? ? P1 P2]; subst. eapply sound_bind with (P := fun _ => True) (Q := fun s _ => forall v, mget k m = Some v -> fits s t (s v)).
    + unfold field_entry. cbn [fst snd]. destruct (mget k m) as [v|] eqn:Ev.
      * eapply sound_weaken; [apply H; auto; exact (V _ _ Ev)|auto|]. intros s a _ F v' E'. congruence.
      * apply sound_ok; auto. discriminate.
    + intros acc1 st1. apply mono_fold. intros b a st2. unfold field_entry. destruct (mget (fst a) m); [apply M|cbn; auto].
    + intros [] st1 W1 S1 _. eapply sound_weaken; [apply IH; auto; rewrite (s_len _ _ _ S1); auto|auto|].
      intros s [] _ H2 H1 k' t' v [X|I] G; [injection X as <- <-|]; eauto.
Qed.

(** ** Projections and full types *)
Lemma Forall2_get s fs gs : Forall2 (fits_f s) fs gs -> forall k t, mget k fs = Some t -> exists g, mget k gs = Some g /\ fits s t g.
Proof.
  induction 1 as [|[l t] [l' g] fs gs [E F] _ IH]; intros k t0; cbn in *; [discriminate|]. subst l'.
  destruct (k =? l)%N; [|apply IH]. intro X. injection X as <-. eauto.
Qed.
Lemma Forall2_nth s ts gs : Forall2 (fits s) ts gs -> forall i t, nth_error ts i = Some t -> exists g, nth_error gs i = Some g /\ fits s t g.
Proof.
  induction 1; intros [|i] t0; cbn; try discriminate; [|apply IHForall2]. intro X. injection X as <-. eauto.
Qed.
Lemma enumerate_in {A} (l : list A) : forall i k a, In (k, a) (enumerate i l) <-> i <= k /\ nth_error l (k - i) = Some a.
Proof.
  induction l as [|x l IH]; intros i k a; cbn.
  - split; [tauto|]. intros [_ E]. destruct (k - i); discriminate.
  - rewrite IH. split.
    + intros [E|[L E]]; [injection E as <- <-; rewrite Nat.sub_diag; auto|]. replace (k - i) with (S (k - S i)) by lia. split; [lia|exact E].
    + intros [L E]. destruct (Nat.eq_dec i k) as [<-|N].
      * rewrite Nat.sub_diag in E. cbn in E. injection E as <-. auto.
      * right. replace (k - i) with (S (k - S i)) in E by lia. split; [lia|exact E].
Qed.
Lemma indexed_in ts k t : In (k, t) (indexed ts) <-> nth_error ts (N.to_nat k) = Some t.
Proof.
  unfold indexed. rewrite in_map_iff. split.
  - intros [[i x] [E I]]. cbn in E. injection E as <- <-. apply enumerate_in in I. rewrite Nat2N.id. rewrite Nat.sub_0_r in I. tauto.
  - intro E. exists (N.to_nat k, t). cbn. rewrite N2Nat.id. split; [reflexivity|]. apply enumerate_in. rewrite Nat.sub_0_r. split; [lia|exact E].
Qed.
Lemma covers_in m fs k v : covers m fs = true -> mget k m = Some v -> exists t, In (k, t) fs.
Proof.
  unfold covers. rewrite forallb_forall. intros H G. apply mget_in in G. apply H in G. apply existsb_exists in G.
  destruct G as [[k' t] [I E]]. cbn in E. apply N.eqb_eq in E. subst k'. eauto.
Qed.
Lemma mget_dec {A} k (m : list (N * A)) a : In (k, a) m -> exists b, mget k m = Some b.
Proof. intro I. destruct (mget k m) eqn:E; eauto. destruct (mget_none _ _ E a I). Qed.

Lemma record_shape s n m fs g : proper n (URecord fs) -> covers m fs = true ->
  (forall k t v, In (k, t) fs -> mget k m = Some v -> fits s t (s v)) -> fits s (URecord fs) g -> has_shape s (PRecord m) g.
Proof.
  intros P C H F. apply fits_record in F. destruct F as [gs [-> F]]. cbn. exists gs. split; [reflexivity|].
  intros k v E. destruct (covers_in _ _ _ _ C E) as [t0 I0]. destruct (mget_dec _ _ _ I0) as [t Et].
  destruct (Forall2_get _ _ _ F _ _ Et) as [g [Eg Fg]]. rewrite Eg. f_equal. apply mget_in in Et.
  apply proper_record in P. destruct P as [_ P]. rewrite Forall_forall in P.
  eapply fits_fun; [exact (P _ Et)|exact Fg|]. exact (H _ _ _ Et E).
Qed.
Lemma tuple_shape s n m ts g : proper n (UTuple ts) -> covers m (indexed ts) = true ->
  (forall k t v, In (k, t) (indexed ts) -> mget k m = Some v -> fits s t (s v)) -> fits s (UTuple ts) g -> has_shape s (PTuple m) g.
Proof.
  intros P C H F. apply fits_tuple in F. destruct F as [gs [-> F]]. cbn. exists gs. split; [reflexivity|].
  intros k v E. destruct (covers_in _ _ _ _ C E) as [t I]. pose proof I as J. apply indexed_in in J.
  destruct (Forall2_nth _ _ _ F _ _ J) as [g [Eg Fg]]. rewrite Eg. f_equal.
  apply proper_tuple in P. rewrite Forall_forall in P. apply nth_error_In in J.
  eapply fits_fun; [exact (P _ J)|exact Fg|]. exact (H _ _ _ I E).
Qed.
Lemma indexed_proper n ts : proper n (UTuple ts) -> Forall (fun f => proper n (snd f)) (indexed ts).
Proof.
  intro P. apply proper_tuple in P. rewrite Forall_forall in *. intros [k t] I. apply indexed_in in I. apply P. eapply nth_error_In. exact I.
Qed.

Lemma union_keys_in {A} (m1 m2 : list (N * A)) k : existsb (N.eqb k) (union_keys m1 m2) = true <-> (exists a, mget k m1 = Some a) \/ (exists a, mget k m2 = Some a).
Proof.
  rewrite existsb_exists. unfold union_keys. split.
  - intros [x [I E]]. apply N.eqb_eq in E. subst x. apply in_app_or in I. destruct I as [I|I].
    + apply in_map_iff in I. destruct I as [[k' a] [E I]]. cbn in E. subst k'. left. eapply mget_dec. exact I.
    + apply filter_In in I. destruct I as [I _]. apply in_map_iff in I. destruct I as [[k' a] [E I]]. cbn in E. subst k'. right. eapply mget_dec. exact I.
  - intro H. exists k. split; [|apply N.eqb_refl]. apply in_or_app.
    destruct (mget k m1) as [a|] eqn:E1. { left. apply in_map_iff. exists (k, a). split; [reflexivity|]. now apply mget_in. }
    destruct H as [[a E]|[a E]]; [discriminate|]. right. apply filter_In. rewrite E1. split; [|reflexivity].
    apply in_map_iff. exists (k, a). split; [reflexivity|]. now apply mget_in.
Qed.
Lemma existsb_perm (k : N) l l' : Permutation l l' -> existsb (N.eqb k) l = existsb (N.eqb k) l'.
Proof.
  intro P. destruct (existsb (N.eqb k) l') eqn:E.
  - apply existsb_exists in E. destruct E as [x [I E]]. apply existsb_exists. exists x. split; [|exact E]. eapply Permutation_in; [symmetry; exact P|exact I].
  - destruct (existsb (N.eqb k) l) eqn:E'; [|reflexivity]. apply existsb_exists in E'. destruct E' as [x [I E']].
    assert (existsb (N.eqb k) l' = true); [|congruence]. apply existsb_exists. exists x. split; [|exact E']. eapply Permutation_in; [exact P|exact I].
Qed.

(** The map that the merge of two maps of projections yields. *)
Lemma joined_below n m1 m2 m : vars_below n m1 -> vars_below n m2 ->
  (forall k, mget k m = if existsb (N.eqb k) (shuffle ho (union_keys m1 m2)) then joined m1 m2 k else mget k []) ->
  vars_below n m /\
  forall s : assignment, (forall k a b, In k (shuffle ho (union_keys m1 m2)) -> mget k m1 = Some a -> mget k m2 = Some b -> s a = s b) ->
  (forall k v, mget k m1 = Some v -> exists w, mget k m = Some w /\ s w = s v) /\
  (forall k v, mget k m2 = Some v -> exists w, mget k m = Some w /\ s w = s v).
Proof.
  intros V1 V2 H.
  assert (H' : forall k, mget k m = joined m1 m2 k).
  { intro k. rewrite H. rewrite (existsb_perm _ _ _ (shuffle_perm ho _ _)).
    destruct (existsb (N.eqb k) (union_keys m1 m2)) eqn:E; [reflexivity|]. unfold joined. cbn.
    destruct (mget k m1) eqn:E1. { rewrite (proj2 (union_keys_in m1 m2 k)) in E; [discriminate|eauto]. }
    destruct (mget k m2) eqn:E2; [|reflexivity]. rewrite (proj2 (union_keys_in m1 m2 k)) in E; [discriminate|eauto]. }
  split.
  - intros k v. rewrite H'. unfold joined. destruct (mget k m1) eqn:E1; destruct (mget k m2) eqn:E2; intro X; try discriminate; injection X as <-; eauto.
    apply V1 in E1. lia.
  - intros s HS.
    assert (HE : forall k a b, mget k m1 = Some a -> mget k m2 = Some b -> s a = s b).
    { intros k a b E1 E2. eapply HS; eauto. eapply Permutation_in; [symmetry; apply shuffle_perm|].
      assert (X : existsb (N.eqb k) (union_keys m1 m2) = true) by (apply union_keys_in; eauto).
      apply existsb_exists in X. destruct X as [x [I E]]. apply N.eqb_eq in E. subst. exact I. }
    split; intros k v E; rewrite H'; unfold joined; rewrite E.
    + destruct (mget k m2) eqn:E2; [|eauto]. eexists; split; [reflexivity|]. specialize (HE _ _ _ E E2).
      destruct (Nat.min_spec v n0) as [[_ ->]|[_ ->]]; auto.
    + destruct (mget k m1) eqn:E1; [|eauto]. eexists; split; [reflexivity|]. specialize (HE _ _ _ E1 E).
      destruct (Nat.min_spec n0 v) as [[_ ->]|[_ ->]]; auto.
Qed.

(** ** The induction *)
Notation N_ st := (length (cons st)).
Definition S_ut n := forall B l r st, wf st -> proper (N_ st) l -> proper (N_ st) r ->
  sound B st (unify_utype ho n B l r st)
    (fun t0 => proper (N_ st) t0 /\ (is_var l = false -> is_var r = false -> is_var t0 = false))
    (fun s t0 => forall g, fits s t0 g -> fits s l g /\ fits s r g).
Definition S_vc n := forall B v c st, wf st -> proper_c (N_ st) c ->
  sound B st (unify_var_constraint ho n B v c st) (fun _ => True) (fun s _ => obeys s c (s v)).
Definition S_pair n := forall B c1 c2 st, wf st -> proper_c (N_ st) c1 -> proper_c (N_ st) c2 ->
  sound B st (unify_constraint_pair ho n B c1 c2 st) (proper_c (N_ st))
    (fun s c0 => forall g, obeys s c0 g -> obeys s c1 g /\ obeys s c2 g).
Definition S_vu n := forall B v t st, wf st -> proper (N_ st) t ->
  sound B st (unify_var_utype ho n B v t st) (fun _ => True) (fun s _ => fits s t (s v)).
Definition S_vp n := forall B v w st, wf st -> sound B st (unify_var_pair ho n B v w st) (fun _ => True) (fun s _ => s v = s w).
Definition S_tr n := forall B lo hi st st1, wf st -> merged lo hi st st1 -> ~ In lo B -> ~ In hi B ->
  sound B st (transfer_constraints ho n B lo hi st1) (fun _ => True) (fun s _ => s lo = s hi).
Definition S_vm n := forall B lo i hi j st st1, wf st -> merged lo hi st st1 -> ~ In lo B -> ~ In hi B ->
  get_cons st lo = Some (Variant i) -> get_cons st hi = Some (Variant j) ->
  sound B st (unify_varmaps ho n B lo i hi j st1) (fun _ => True) (fun s _ => s lo = s hi).

Lemma ut_var n B v t st : S_vc n -> wf st -> proper (N_ st) t -> is_var t = false ->
  sound B st (ubind (unify_var_constraint ho n B v (CEquiv t) st) (fun _ st1 => ubind (occurs ho n st1 v) (fun _ _ => UOk st1 (UVar v))))
    (fun t0 => t0 = UVar v) (fun s _ => fits s t (s v)).
Proof.
  intros H W P V. eapply sound_bind; [apply H; [exact W|split; auto]| |].
  - intros c st1. destruct (occurs ho n st1 v); cbn; auto.
  - intros c st1 W1 S1 _. destruct (occurs ho n st1 v); cbn [ubind]; try (intros ? ? ?; discriminate).
    apply sound_ok; auto.
Qed.
Lemma ut_var_r n B v t st : S_vc n -> wf st -> v < N_ st -> proper (N_ st) t -> is_var t = false ->
  sound B st (ubind (unify_var_constraint ho n B v (CEquiv t) st) (fun _ st1 => ubind (occurs ho n st1 v) (fun _ _ => UOk st1 (UVar v))))
    (fun t0 => proper (N_ st) t0 /\ (is_var (UVar v) = false -> is_var t = false -> is_var t0 = false))
    (fun s t0 => forall g, fits s t0 g -> fits s (UVar v) g /\ fits s t g).
Proof.
  intros H W L P V. eapply sound_weaken; [apply ut_var; auto| |].
  - intros t0 ->. split; [exact L|]. discriminate.
  - intros s t0 -> F g E. cbn in E. subst g. split; [reflexivity|exact F].
Qed.
Lemma ut_var_l n B v t st : S_vc n -> wf st -> v < N_ st -> proper (N_ st) t -> is_var t = false ->
  sound B st (ubind (unify_var_constraint ho n B v (CEquiv t) st) (fun _ st1 => ubind (occurs ho n st1 v) (fun _ _ => UOk st1 (UVar v))))
    (fun t0 => proper (N_ st) t0 /\ (is_var t = false -> is_var (UVar v) = false -> is_var t0 = false))
    (fun s t0 => forall g, fits s t0 g -> fits s t g /\ fits s (UVar v) g).
Proof.
  intros H W L P V. eapply sound_weaken; [apply ut_var; auto| |].
  - intros t0 ->. split; [exact L|]. discriminate.
  - intros s t0 -> F g E. cbn in E. subst g. split; [exact F|reflexivity].
Qed.
Lemma same_ok n B t st : wf st -> proper n t -> n = N_ st ->
  sound B st (UOk st t) (fun t0 => proper (N_ st) t0 /\ (is_var t = false -> is_var t = false -> is_var t0 = false))
   (fun s t0 => forall g, fits s t0 g -> fits s t g /\ fits s t g).
Proof. intros W P ->. apply sound_ok; auto. Qed.

Lemma Forall3_proper {A B} n (la : list A) (lb : list B) ts : Forall3 (fun _ _ c => proper n c) la lb ts -> Forall (proper n) ts.
Proof. induction 1; constructor; auto. Qed.
Lemma Forall3_fits s la lb lc : Forall3 (fun a b c => forall g, fits s c g -> fits s a g /\ fits s b g) la lb lc ->
  forall gs, Forall2 (fits s) lc gs -> Forall2 (fits s) la gs /\ Forall2 (fits s) lb gs.
Proof.
  induction 1; intros gs F; inversion F; subst; [split; constructor|]. destruct (IHForall3 _ H5). destruct (H _ H3). split; constructor; auto.
Qed.
Lemma Forall3_names {A2} n (la : list (label * utype)) (lb : list A2) (lc : list (label * utype)) :
  Forall3 (fun a _ c => fst c = fst a /\ proper n (snd c)) la lb lc -> map fst lc = map fst la /\ Forall (fun f => proper n (snd f)) lc.
Proof. induction 1; [split; constructor|]. destruct H, IHForall3. split; cbn; [congruence|constructor; auto]. Qed.
Lemma Forall3_fields s la lb lc : Forall3 (fun a b c => fst c = fst a /\ fst a = fst b /\ forall g, fits s (snd c) g -> fits s (snd a) g /\ fits s (snd b) g) la lb lc ->
  forall gs, Forall2 (fits_f s) lc gs -> Forall2 (fits_f s) la gs /\ Forall2 (fits_f s) lb gs.
Proof.
  induction 1; intros gs F; inversion F; subst; [split; constructor|]. destruct (IHForall3 _ H5). destruct H as [E1 [E2 H]].
  destruct H3 as [E3 F3]. destruct (H _ F3). split; constructor; auto; split; auto; congruence.
Qed.

Lemma sound_ut n : S_ut n -> S_vc n -> S_vp n -> S_ut (S n).
Proof.
  intros IU IC IV B l r st W PL PR. rewrite unify_utype_S.
  destruct l; try (destruct PL; fail); destruct r; try (destruct PR; fail); try apply sound_err;
    try (apply (ut_var_l n B); auto; fail); try (apply (ut_var_r n B); auto; fail).
  - apply (same_ok (N_ st)); auto.
  - eapply sound_bind; [apply IV; exact W|cbn; auto|]. intros [] st1 W1 S1 _. apply sound_ok; auto.
    + cbn in *. split; [lia|discriminate].
    + intros s _ E g F. cbn in *. destruct (Nat.min_spec v v0) as [[_ X]|[_ X]]; rewrite X in F; split; congruence.
  - destruct (basetype_eqb b b0) eqn:E; [|apply sound_err]. apply basetype_eqb_eq in E. subst. apply (same_ok (N_ st)); auto.
  - pose proof (meet_int_base p b) as H. destruct (unify_primint_basetype p b); cbn [of_tc]; [|apply sound_err|apply sound_panic].
    destruct H as [-> E]. apply sound_ok; auto. cbn. intros s _ g ->. auto.
  - destruct (Nat.eqb_spec (length ts) (length ts0)) as [L|L]; cbn [negb]; [|apply sound_err].
    destruct (list_eqb utype_eqb ts ts0) eqn:E.
    { apply (list_eqb_all _ utype_eqb_sound) in E. subst. apply (same_ok (N_ st)); auto. }
    apply proper_tuple in PL. apply proper_tuple in PR. rewrite Forall_forall in PL, PR.
    eapply sound_bind.
    + apply (sound_map2 B (N_ st)) with (P := fun _ _ c => proper (N_ st) c) (Q := fun s a b c => forall g, fits s c g -> fits s a g /\ fits s b g); auto.
      * apply mono_all.
      * intros a b st0 Ia Ib W0 E0. eapply sound_weaken; [apply IU; auto; rewrite E0; auto| |].
        -- rewrite E0. intros c [Hc _]. exact Hc.
        -- auto.
    + intros; cbn; auto.
    + intros ts' st1 W1 S1 F1. apply sound_ok; auto.
      * split; [|reflexivity]. apply proper_tuple. exact (Forall3_proper _ _ _ _ F1).
      * intros s _ F3 g F. apply fits_tuple in F. destruct F as [gs [-> F]]. destruct (Forall3_fits _ _ _ _ F3 _ F).
        split; apply fits_tuple; eauto.
  - destruct (Nat.eqb_spec (length fs) (length fs0)) as [L|L]; cbn [negb]; [|apply sound_err].
    destruct (utype_eqb (URecord fs) (URecord fs0)) eqn:E.
    { apply utype_eqb_sound in E. injection E as ->. apply (same_ok (N_ st)); auto. }
    clear E. apply proper_record in PL. apply proper_record in PR. destruct PL as [ND PL]. destruct PR as [_ PR]. rewrite Forall_forall in PL, PR.
    eapply sound_bind.
    + apply (sound_map2 B (N_ st)) with (P := fun a _ c => fst c = fst a /\ proper (N_ st) (snd c))
        (Q := fun s a b c => fst c = fst a /\ fst a = fst b /\ forall g, fits s (snd c) g -> fits s (snd a) g /\ fits s (snd b) g); auto.
      * intros a b st0. destruct (fst a =? fst b)%N; [|exact I]. apply mono_bind; [apply mono_all|]. cbn; auto.
      * intros a b st0 Ia Ib W0 E0. destruct (N.eqb_spec (fst a) (fst b)) as [EN|]; [|apply sound_err].
        eapply sound_bind; [apply IU; auto; rewrite E0; auto|cbn; auto|].
        intros t st1 W1 S1 [P1 _]. apply sound_ok; auto. cbn. rewrite <- E0. auto.
    + intros; cbn; auto.
    + intros ts' st1 W1 S1 F1. destruct (Forall3_names _ _ _ _ F1) as [NM FP]. apply sound_ok; auto.
      * split; [|reflexivity]. apply proper_record. rewrite NM. auto.
      * intros s _ F3 g F. apply fits_record in F. destruct F as [gs [-> F]]. destruct (Forall3_fields _ _ _ _ F3 _ F).
        split; apply fits_record; eauto.
  - destruct (utype_eqb l r) eqn:E.
    { apply utype_eqb_sound in E. subst. destruct (hint <=? hint0); apply sound_ok; auto; intros s _ g F; cbn in *; auto. }
    eapply sound_bind; [apply IU; auto|cbn; auto|]. intros t st1 W1 S1 [P1 _]. apply sound_ok; auto.
    intros s _ H g [g0 [-> F]]. destruct (H _ F). cbn. split; exists g0; auto.
  - destruct (utype_eqb l r) eqn:E.
    { apply utype_eqb_sound in E. subst. apply (same_ok (N_ st)); auto. }
    eapply sound_bind; [apply IU; auto|cbn; auto|]. intros t st1 W1 S1 [P1 _]. apply sound_ok; auto.
    intros s _ H g [g0 [-> F]]. destruct (H _ F). cbn. split; exists g0; auto.
  - destruct (utype_eqb l r) eqn:E.
    { apply utype_eqb_sound in E. subst. apply (same_ok (N_ st)); auto. }
    eapply sound_bind; [apply IU; auto|cbn; auto|]. intros t st1 W1 S1 [P1 _]. apply sound_ok; auto.
    intros s _ H g [g0 [-> F]]. destruct (H _ F). cbn. split; exists g0; auto.
  - pose proof (meet_int_base p b) as H. destruct (unify_primint_basetype p b); cbn [of_tc]; [|apply sound_err|apply sound_panic].
    destruct H as [-> E]. apply sound_ok; auto. cbn. intros s _ g ->. auto.
  - destruct (mrep_eqb p p0) eqn:E; [|apply sound_err]. apply mrep_eqb_eq in E. subst. apply (same_ok (N_ st)); auto.
Qed.

Lemma sound_vu n : S_vc n -> S_vp n -> S_vu (S n).
Proof.
  intros IC IV B v t st W P. rewrite unify_var_utype_S. destruct t; try (destruct P; fail);
  try (eapply sound_bind; [apply IC; [exact W|split; [exact P|reflexivity]]|cbn; auto|]; intros c st1 W1 S1 _; apply sound_ok; auto; fail).
  eapply sound_weaken; [apply IV; exact W|auto|]. intros s [] _ E. cbn. symmetry. exact E.
Qed.

Lemma sound_vc n : S_pair n -> S_vc (S n).
Proof.
  intros IP B v c st W P st' ret. rewrite unify_var_constraint_S. destruct (canonical st v) as [can|] eqn:Ec; [|discriminate].
  assert (Ecc : canonical st can = Some can) by exact (canon_idem _ _ _ (w_awf _ W) Ec).
  destruct (get_cons st can) as [[|id|c1]|] eqn:G; try discriminate.
  - intros E A. injection E as <- <-. cbn in A. apply orb_false_iff in A. destruct A as [NB A]. rewrite NB, note_false.
    apply mem_nat_out in NB.
    split; [eapply wf_set_inv; eauto|]. split; [eapply step_set; eauto using step_refl|]. split; [exact I|].
    intros s Hs. assert (O : obeys s c (s can)).
    { apply (proj2 Hs can (Invariant c) Ecc NB). rewrite cons_set_cons, Nat.eqb_refl, G. reflexivity. }
    split.
    + apply sat_close with (x := can).
      * eapply sat_change; [| |apply sat_incl with (B := B); [intros; right; assumption|exact Hs]]; [reflexivity|].
        intros w cs Ew NI Gw. rewrite cons_set_cons. destruct (Nat.eqb_spec can w) as [->|]; [destruct NI; left; reflexivity|]. auto.
      * intros cs _ Q. rewrite G in Q. injection Q as <-. exact I.
    + rewrite (proj1 Hs v can Ec). exact O.
  - destruct (constr_eqb c1 c) eqn:EQ.
    + intros E A. injection E as <- <-. cbn in A. apply orb_false_iff in A. destruct A as [NB A]. rewrite NB, note_false.
      apply mem_nat_out in NB. apply constr_eqb_sound in EQ. subst c1.
      split; [exact W|]. split; [apply step_refl|]. split; [exact I|]. intros s Hs. split; [exact Hs|].
      rewrite (proj1 Hs v can Ec). exact (proj2 Hs can (Invariant c) Ecc NB G).
    + destruct (unify_constraint_pair ho n (can :: B) c1 c st) as [st1 r| | |] eqn:EP; cbn [ubind]; try discriminate.
      intros E A. injection E as <- <-. cbn in A. apply orb_false_iff in A. destruct A as [NB A]. rewrite NB, note_false.
      apply mem_nat_out in NB.
      destruct (IP (can :: B) c1 c st W (w_con _ W _ _ G) P st1 r EP A) as [W1 [S1 [P1 F1]]].
      destruct (s_frame _ _ _ S1 can can (or_introl eq_refl) Ecc) as [C1 [G1 _]]. rewrite G in G1.
      split. { eapply wf_set_inv; eauto. rewrite (s_len _ _ _ S1). exact P1. }
      split. { eapply step_set; eauto. exact (step_weaken _ _ _ _ S1). }
      split; [exact I|]. intros s Hs.
      assert (O : obeys s r (s can)).
      { apply (proj2 Hs can (Invariant r) C1 NB). rewrite cons_set_cons, Nat.eqb_refl, G1. reflexivity. }
      destruct (F1 s) as [Hs0 HQ].
      { eapply sat_change; [| |apply sat_incl with (B := B); [intros; right; assumption|exact Hs]]; [reflexivity|].
        intros w cs Ew NI Gw. rewrite cons_set_cons. destruct (Nat.eqb_spec can w) as [->|]; [destruct NI; left; reflexivity|]. auto. }
      destruct (HQ _ O) as [O1 O2]. split; [|rewrite (proj1 Hs0 v can Ec); exact O2].
      apply sat_close with (x := can); [exact Hs0|]. intros cs _ Q. rewrite G in Q. injection Q as <-. exact O1.
Qed.

Lemma pair_elem n B t bs st : S_vc n -> wf st -> proper (N_ st) t -> is_var t = false -> bs_ok bs ->
  sound B st
    (match t with
      | UVar v => unify_var_constraint ho n B v (bs_constraint bs) st
      | UInt p => of_tc (unify_primint_baseset p bs) st
      | UBase b => of_tc (tc_map bs_constraint (bs_unify bs (BSingle b))) st
      | UHole => UOk st (bs_constraint bs)
      | _ => UErr
      end) (proper_c (N_ st)) (fun s c0 => forall g, obeys s c0 g -> obeys s (CEquiv t) g /\ obeys s (CElem bs) g).
Proof.
  intros IC W P V K. destruct t; try apply sound_err; try discriminate; try (destruct P; fail).
  - apply (sound_tc B st _ (fun s => obeys s (CEquiv (UBase b))) (fun s => obeys s (CElem bs))); auto. intro s. apply meet_base_elem. exact K.
  - apply (sound_tc B st _ (fun s => obeys s (CEquiv (UInt p))) (fun s => obeys s (CElem bs))); auto. intro s. apply meet_int_elem. exact K.
Qed.
Lemma pair_num n B t i st : S_vc n -> wf st -> proper (N_ st) t -> is_var t = false -> is_ok i ->
  sound B st
    (match t with
      | UVar v => unify_var_constraint ho n B v (is_constraint i) st
      | UInt p => of_tc (tc_map is_constraint (is_unify i (ISingle p))) st
      | UBase b => of_tc (unify_basetype_intset b i) st
      | UHole => UOk st (is_constraint i)
      | _ => UErr
      end) (proper_c (N_ st)) (fun s c0 => forall g, obeys s c0 g -> obeys s (CEquiv t) g /\ obeys s (CNum i) g).
Proof.
  intros IC W P V K. destruct t; try apply sound_err; try discriminate; try (destruct P; fail).
  - apply (sound_tc B st _ (fun s => obeys s (CEquiv (UBase b))) (fun s => obeys s (CNum i))); auto. intro s. apply meet_base_num. exact K.
  - apply (sound_tc B st _ (fun s => obeys s (CEquiv (UInt p))) (fun s => obeys s (CNum i))); auto. intro s. apply meet_int_num. exact K.
Qed.
Lemma pair_proj n B p t st : S_vu n -> wf st -> proper_c (N_ st) (CProj p) -> proper (N_ st) t -> is_var t = false ->
  sound B st
      (match p, t with
      | _, UVar v => unify_var_constraint ho n B v (CProj p) st
      | PRecord m, URecord fs =>
        ubind (foldU (field_entry (unify_var_utype ho n B) m) tt fs st) (fun _ st1 =>
        if covers m fs then UOk st1 (CEquiv t) else UErr)
      | PTuple m, UTuple ts =>
        ubind (foldU (field_entry (unify_var_utype ho n B) m) tt (indexed ts) st) (fun _ st1 =>
        if covers m (indexed ts) then UOk st1 (CEquiv t) else UErr)
      | PSeq v, USeq t0 _ => ubind (unify_var_utype ho n B v t0 st) (fun _ st1 => UOk st1 (CEquiv t))
      | POpt v, UOption t0 => ubind (unify_var_utype ho n B v t0 st) (fun _ st1 => UOk st1 (CEquiv t))
      | _, _ => UPanic
      end) (fun c0 => c0 = CEquiv t) (fun s c0 => forall g, obeys s c0 g -> obeys s (CProj p) g /\ obeys s (CEquiv t) g).
Proof.
  intros IV W PP PT V.
  assert (VU : forall v t st0, wf st0 -> N_ st0 = N_ st -> v < N_ st -> proper (N_ st) t ->
     sound B st0 (unify_var_utype ho n B v t st0) (fun _ => True) (fun s _ => fits s t (s v))).
  { intros v t0 st0 W0 E0 L P0. apply IV; auto. rewrite E0. exact P0. }
  destruct p as [m|m|v|v], t; try discriminate; try apply sound_panic.
  - eapply sound_bind.
    + apply (sound_fields B (N_ st)); auto. { apply mono_all. } { exact (proj1 PP). } apply indexed_proper. exact PT.
    + intros [] st1. destruct (covers m (indexed ts)); cbn; auto.
    + intros [] st1 W1 S1 _. destruct (covers m (indexed ts)) eqn:C; [|apply sound_err]. apply sound_ok; auto.
      intros s _ H g F. split; [|exact F]. exact (tuple_shape s _ m ts g PT C H F).
  - eapply sound_bind.
    + apply (sound_fields B (N_ st)); auto. { apply mono_all. } { exact (proj1 PP). } apply proper_record in PT. tauto.
    + intros [] st1. destruct (covers m fs); cbn; auto.
    + intros [] st1 W1 S1 _. destruct (covers m fs) eqn:C; [|apply sound_err]. apply sound_ok; auto.
      intros s _ H g F. split; [|exact F]. exact (record_shape s _ m fs g PT C H F).
  - eapply sound_bind; [apply VU; auto|cbn; auto|]. intros [] st1 W1 S1 _. apply sound_ok; auto.
    intros s _ H g F. split; [|exact F]. destruct F as [g0 [-> F]]. cbn. f_equal. exact (fits_fun s _ t PT _ _ F H).
  - eapply sound_bind; [apply VU; auto|cbn; auto|]. intros [] st1 W1 S1 _. apply sound_ok; auto.
    intros s _ H g F. split; [|exact F]. destruct F as [g0 [-> F]]. cbn. f_equal. exact (fits_fun s _ t PT _ _ F H).
Qed.

Lemma sound_pair n : S_ut n -> S_vc n -> S_vu n -> S_vp n -> S_pair (S n).
Proof.
  intros IU IC IV IP B c1 c2 st W P1 P2. rewrite unify_constraint_pair_S.
  destruct c1 as [t1|b1|p1|i1], c2 as [t2|b2|p2|i2]; try apply sound_err.
  - cbn in P1, P2. destruct (utype_eqb t1 t2) eqn:E.
    { apply utype_eqb_sound in E. subst. apply sound_ok; auto. }
    eapply sound_bind; [apply IU; tauto|cbn; auto|]. intros t0 st1 W1 S1 [K1 K2]. apply sound_ok; auto.
    cbn. destruct P1, P2; auto.
  - destruct P1 as [P11 P12]. apply (pair_elem n); auto.
  - destruct P1 as [P11 P12]. eapply sound_weaken; [apply (pair_proj n); eauto| |].
    + intros c0 ->. cbn. auto.
    + intros s c0 _ H g O. destruct (H g O). auto.
  - destruct P1 as [P11 P12]. apply (pair_num n); auto.
  - destruct P2 as [P21 P22]. eapply sound_weaken; [apply (pair_elem n); eauto|auto|]. intros s c0 _ H g O. destruct (H g O). auto.
  - apply (sound_tc B st _ (fun s => obeys s (CElem b1)) (fun s => obeys s (CElem b2))); auto. intro s. apply meet_elem; auto.
  - apply (sound_tc B st _ (fun s => obeys s (CElem b1)) (fun s => obeys s (CNum i2))); auto. intro s. apply meet_elem_num; auto.
  - destruct P2 as [P21 P22]. eapply sound_weaken; [apply (pair_proj n); eauto| |auto].
    intros c0 ->. cbn. auto.
  - assert (VP : forall a b st0, wf st0 -> N_ st0 = N_ st -> a < N_ st -> b < N_ st ->
     sound B st0 (unify_var_pair ho n B a b st0) (fun _ => True) (fun s _ => s a = s b)) by (intros; apply IP; auto).
    assert (MP : forall a b st0, mono st0 (unify_var_pair ho n B a b st0)) by apply mono_all.
    destruct p1 as [m1|m1|v1|v1], p2 as [m2|m2|v2|v2]; try apply sound_err; cbn in P1, P2.
    + destruct (list_eqb entry_eqb m1 m2) eqn:E.
      { apply (list_eqb_all _ entry_eqb_sound) in E. subst. apply sound_ok; auto. }
      eapply sound_bind; [apply (sound_merge B (N_ st)); try exact (proj1 P1); try exact (proj1 P2); auto|cbn; auto|].
      intros m st1 W1 S1 [K K3]. destruct (joined_below _ m1 m2 m (proj1 P1) (proj1 P2) K) as [K1 K2]. apply sound_ok; [auto|split; [exact K1|apply K3; exact I]|].
      intros s _ H g [gs [-> F]]. destruct (K2 s H) as [H1 H2]. cbn. split; exists gs; (split; [reflexivity|]).
      * intros k v E'. destruct (H1 _ _ E') as [w [Ew Es]]. rewrite <- Es. auto.
      * intros k v E'. destruct (H2 _ _ E') as [w [Ew Es]]. rewrite <- Es. auto.
    + destruct (list_eqb entry_eqb m1 m2) eqn:E.
      { apply (list_eqb_all _ entry_eqb_sound) in E. subst. apply sound_ok; auto. }
      eapply sound_bind; [apply (sound_merge B (N_ st)); try exact (proj1 P1); try exact (proj1 P2); auto|cbn; auto|].
      intros m st1 W1 S1 [K K3]. destruct (joined_below _ m1 m2 m (proj1 P1) (proj1 P2) K) as [K1 K2]. apply sound_ok; [auto|split; [exact K1|apply K3; exact I]|].
      intros s _ H g [gs [-> F]]. destruct (K2 s H) as [H1 H2]. cbn. split; exists gs; (split; [reflexivity|]).
      * intros k v E'. destruct (H1 _ _ E') as [w [Ew Es]]. rewrite <- Es. auto.
      * intros k v E'. destruct (H2 _ _ E') as [w [Ew Es]]. rewrite <- Es. auto.
    + eapply sound_bind; [apply VP; auto|cbn; auto|]. intros [] st1 W1 S1 _. apply sound_ok; auto.
      intros s _ E g O. cbn in *. rewrite <- E. auto.
    + eapply sound_bind; [apply VP; auto|cbn; auto|]. intros [] st1 W1 S1 _. apply sound_ok; auto.
      intros s _ E g O. cbn in *. rewrite <- E. auto.
  - destruct P2 as [P21 P22]. eapply sound_weaken; [apply (pair_num n); eauto|auto|]. intros s c0 _ H g O. destruct (H g O). auto.
  - eapply sound_weaken; [apply (sound_tc B st _ (fun s => obeys s (CElem b2)) (fun s => obeys s (CNum i1))); auto; intro s; apply meet_elem_num; auto|auto|].
    intros s c0 _ H g O. destruct (H g O). auto.
  - destruct (intset_eqb i1 i2) eqn:E. { apply intset_eqb_sound in E. subst. apply sound_ok; auto. }
    apply (sound_tc B st _ (fun s => obeys s (CNum i1)) (fun s => obeys s (CNum i2))); auto. intro s. apply meet_num; auto.
Qed.

Lemma sound_vp n : S_tr n -> S_vp (S n).
Proof.
  intros IT B v w st W st' [] E A. rewrite unify_var_pair_S in E.
  assert (CV : exists c1 c2, canonical st v = Some c1 /\ canonical st w = Some c2).
  { unfold canonical. unfold merge_of in E. destruct (Nat.eqb_spec v w) as [->|].
    - destruct (get_als st w) as [[]|]; try discriminate; eauto.
    - destruct (get_als st v) as [[]|]; try discriminate; destruct (get_als st w) as [[]|]; try discriminate; eauto. }
  destruct CV as [c1 [c2 [C1 C2]]]. pose proof (merge_of_spec st v w c1 c2 (w_awf _ W) C1 C2) as M.
  assert (I1 := canon_idem _ _ _ (w_awf _ W) C1). assert (I2 := canon_idem _ _ _ (w_awf _ W) C2).
  assert (FIN : forall lo hi st1, merged lo hi st st1 -> lo = c1 /\ hi = c2 \/ lo = c2 /\ hi = c1 ->
     transfer_constraints ho n B lo hi (note_again (mem_nat lo B || mem_nat hi B) st1) = UOk st' tt ->
     wf st' /\ step B st st' /\ True /\ (forall s, sat B s st' -> sat B s st /\ s v = s w)).
  { intros lo hi st1 MG K T.
    assert (A1 : again (note_again (mem_nat lo B || mem_nat hi B) st1) = false).
    { eapply mono_false; [|exact T|exact A]; apply (mono_all n). }
    cbn in A1. apply orb_false_iff in A1. destruct A1 as [A1 _]. rewrite A1, note_false in T. apply orb_false_iff in A1. destruct A1 as [L H].
    apply mem_nat_out in L. apply mem_nat_out in H.
    destruct (IT B lo hi st st1 W MG L H st' tt T A) as [W' [S' [_ F]]].
    split; [exact W'|]. split; [exact S'|]. split; [exact I|]. intros s Hs. destruct (F s Hs) as [Hs0 EQ]. split; [exact Hs0|].
    rewrite (proj1 Hs0 _ _ C1), (proj1 Hs0 _ _ C2). destruct K as [[-> ->]|[-> ->]]; congruence. }
  destruct (merge_of st v w) as [|lo hi|lo hi|]; try discriminate.
  - subst c2. injection E as <-. split; [exact W|]. split; [apply step_refl|]. split; [exact I|]. intros s Hs. split; [exact Hs|].
    rewrite (proj1 Hs _ _ C1), (proj1 Hs _ _ C2). reflexivity.
  - destruct M as [G [NE K]].
    destruct (repoint_spec lo hi st) as [st1 [R MG]]; auto. { exact (w_awf _ W). } { destruct K as [[-> _]|[-> _]]; assumption. }
    rewrite R in E. exact (FIN lo hi st1 MG K E).
  - destruct M as [NE K].
    destruct (recanonicalize_spec ho lo hi st) as [st1 [R MG]]; auto. { exact (w_awf _ W). } { destruct K as [[-> _]|[-> _]]; assumption. } { destruct K as [[_ ->]|[_ ->]]; assumption. }
    rewrite R in E. exact (FIN lo hi st1 MG K E).
Qed.

Lemma sat_one B lo s st st1 cs : ~ In lo B -> canonical st1 lo = Some lo ->
  (forall v, v <> lo -> canonical st1 v = Some v -> get_cons st1 v = get_cons st v) ->
  (forall v, canonical st v = canonical st1 v) -> vms st = vms st1 -> get_cons st1 lo = Some cs ->
  sat B s st1 -> sat (lo :: B) s st /\ allowed s st1 cs (s lo).
Proof.
  intros NB CL H1 H2 H3 G Hs. split; [|exact (proj2 Hs _ _ CL NB G)].
  eapply sat_change; [exact H2| |apply sat_incl with (B := B); [intros; right; assumption|exact Hs]].
  intros v cs' E NI Gv. rewrite H2 in E. rewrite H1; auto.
  - rewrite H3. auto.
  - intros ->. apply NI. left. reflexivity.
Qed.

Lemma sound_tr n : S_pair n -> S_vm n -> S_tr (S n).
Proof.
  intros IP IV B lo hi st st1 W M NL NH st' [] E A. rewrite transfer_constraints_S in E.
  destruct (Nat.eqb_spec lo hi) as [X|_]; [destruct (m_ne _ _ _ _ M X)|].
  assert (GC : forall i, get_cons st1 i = get_cons st i) by (intro i; unfold get_cons; rewrite (m_cons _ _ _ _ M); reflexivity).
  assert (S1 : step B st st1) by exact (step_merged _ _ _ _ _ M NH).
  assert (CL : canonical st1 lo = Some lo). { rewrite (m_canon _ _ _ _ M), (m_lo _ _ _ _ M). destruct (Nat.eqb_spec lo hi); [|reflexivity]. destruct (m_ne _ _ _ _ M e). }
  assert (CH : canonical st1 hi = Some lo). { rewrite (m_canon _ _ _ _ M), (m_hi _ _ _ _ M), Nat.eqb_refl. reflexivity. }
  assert (HNC : canonical st1 hi <> Some hi). { rewrite CH. intro X. injection X as X. exact (m_ne _ _ _ _ M X). }
  (* from the two constraints, seen at the merged variable, back to the state before *)
  assert (BACK : forall s c1 c2, get_cons st lo = Some c1 -> get_cons st hi = Some c2 -> sat (lo :: B) s st1 ->
     allowed s st c1 (s lo) -> allowed s st c2 (s lo) -> sat B s st /\ s lo = s hi).
  { intros s c1 c2 G1 G2 Hs A1 A2. destruct (sat_merged _ _ _ _ _ _ M Hs) as [H EQ]. split; [|exact EQ].
    apply sat_close with (x := lo).
    - apply sat_close with (x := hi); [exact H|]. intros cs _ Q. rewrite G2 in Q. injection Q as <-. rewrite <- EQ. exact A2.
    - intros cs _ Q. rewrite G1 in Q. injection Q as <-. exact A1. }
  assert (LL : lo < N_ st) by exact (canon_lt_wf _ _ _ W (m_lo _ _ _ _ M)).
  assert (LH : hi < N_ st) by exact (canon_lt_wf _ _ _ W (m_hi _ _ _ _ M)).
  destruct (cons_range st lo LL) as [cl Gl]. destruct (cons_range st hi LH) as [ch Gh].
  rewrite !GC, Gl, Gh in E.
  destruct cl as [|id1|c1]; destruct ch as [|id2|c2]; try discriminate.
  - injection E as <-. split; [eapply wf_merged; eauto|]. split; [exact S1|]. split; [exact I|]. intros s Hs.
    eapply BACK; eauto; try exact I. eapply sat_incl; [|exact Hs]. intros; right; assumption.
  - injection E as <-. split; [eapply wf_take; eauto; discriminate|]. split; [eapply step_set; [exact S1|exact (m_lo _ _ _ _ M)|exact NL]|]. split; [exact I|].
    intros s Hs. destruct (sat_one B lo s st1 (set_cons lo (Variant id2) st1) (Variant id2)) as [H1 H2]; auto.
    + intros v NE _. rewrite cons_set_cons. destruct (Nat.eqb_spec lo v); [congruence|reflexivity].
    + rewrite cons_set_cons, Nat.eqb_refl, GC, Gl. reflexivity.
    + eapply BACK; eauto; [exact I|]. cbn in *. rewrite (m_vms _ _ _ _ M) in H2. exact H2.
  - injection E as <-. split; [eapply wf_take; eauto; discriminate|]. split; [eapply step_set; [exact S1|exact (m_lo _ _ _ _ M)|exact NL]|]. split; [exact I|].
    intros s Hs. destruct (sat_one B lo s st1 (set_cons lo (Invariant c2) st1) (Invariant c2)) as [H1 H2]; auto.
    + intros v NE _. rewrite cons_set_cons. destruct (Nat.eqb_spec lo v); [congruence|reflexivity].
    + rewrite cons_set_cons, Nat.eqb_refl, GC, Gl. reflexivity.
    + eapply BACK; eauto. exact I.
  - injection E as <-. assert (W1 : wf st1) by (eapply wf_merged; eauto).
    split. { eapply wf_set_var; eauto. rewrite GC. exact Gl. }
    split; [eapply step_set; [exact S1|exact (m_hi _ _ _ _ M)|exact NH]|]. split; [exact I|].
    intros s Hs. destruct (sat_one B lo s st1 (set_cons hi (Variant id1) st1) (Variant id1)) as [H1 H2]; auto.
    + intros v NE Ev. rewrite cons_set_cons. destruct (Nat.eqb_spec hi v) as [<-|]; [|reflexivity]. destruct (HNC Ev).
    + rewrite cons_set_cons, GC. destruct (Nat.eqb_spec hi lo) as [X|]; [destruct (m_ne _ _ _ _ M (eq_sym X))|exact Gl].
    + eapply BACK; eauto; [|exact I]. cbn in *. rewrite (m_vms _ _ _ _ M) in H2. exact H2.
  - exact (IV B lo id1 hi id2 st st1 W M NL NH Gl Gh st' tt E A).
  - pose proof (w_con _ W _ _ Gh) as K. destruct c2 as [[]| | |]; try discriminate; cbn in K; destruct K as [[] _].
  - injection E as <-. assert (W1 : wf st1) by (eapply wf_merged; eauto).
    split. { eapply wf_set_inv; [exact W1|exact CH| |]. { rewrite (s_len _ _ _ S1). exact (w_con _ W _ _ Gl). } left. exists c1. rewrite GC. exact Gl. }
    split; [eapply step_set; [exact S1|exact (m_hi _ _ _ _ M)|exact NH]|]. split; [exact I|].
    intros s Hs. destruct (sat_one B lo s st1 (set_cons hi (Invariant c1) st1) (Invariant c1)) as [H1 H2]; auto.
    + intros v NE Ev. rewrite cons_set_cons. destruct (Nat.eqb_spec hi v) as [<-|]; [|reflexivity]. destruct (HNC Ev).
    + rewrite cons_set_cons, GC. destruct (Nat.eqb_spec hi lo) as [X|]; [destruct (m_ne _ _ _ _ M (eq_sym X))|exact Gl].
    + eapply BACK; eauto. exact I.
  - pose proof (w_con _ W _ _ Gl) as K. destruct c1 as [[]| | |]; try discriminate; cbn in K; destruct K as [[] _].
  - assert (W1 : wf st1) by (eapply wf_merged; eauto 7).
    destruct (unify_constraint_pair ho n (lo :: B) c1 c2 st1) as [st2 c0| | |] eqn:EP; cbn [ubind] in E; try discriminate. injection E as <-.
    assert (K1 : proper_c (N_ st1) c1) by (rewrite (s_len _ _ _ S1); exact (w_con _ W _ _ Gl)).
    assert (K2 : proper_c (N_ st1) c2) by (rewrite (s_len _ _ _ S1); exact (w_con _ W _ _ Gh)).
    destruct (IP (lo :: B) c1 c2 st1 W1 K1 K2 st2 c0 EP A) as [W2 [S2 [P2 F2]]].
    destruct (s_frame _ _ _ S2 lo lo (or_introl eq_refl) CL) as [CL2 [GL2 _]]. rewrite GC, Gl in GL2.
    destruct (s_frame _ _ _ S2 lo hi (or_introl eq_refl) CH) as [CH2 [GH2 _]]. rewrite GC, Gh in GH2.
    assert (P2' : proper_c (N_ st2) c0) by (rewrite (s_len _ _ _ S2); exact P2).
    assert (W3 : wf (set_cons lo (Invariant c0) st2)) by (eapply wf_set_inv; eauto).
    assert (GL3 : get_cons (set_cons lo (Invariant c0) st2) lo = Some (Invariant c0)) by (rewrite cons_set_cons, Nat.eqb_refl, GL2; reflexivity).
    split. { eapply wf_set_inv; [exact W3|exact CH2| |]. { cbn. rewrite sn_length. exact P2'. } eauto. }
    split.
    { eapply step_set; [|exact (m_hi _ _ _ _ M)|exact NH]. eapply step_set; [|exact (m_lo _ _ _ _ M)|exact NL].
      eapply step_trans; [exact S1|]. exact (step_weaken _ _ _ _ S2). }
    split; [exact I|]. intros s Hs.
    destruct (sat_one B lo s st2 (set_cons hi (Invariant c0) (set_cons lo (Invariant c0) st2)) (Invariant c0)) as [H1 H2]; auto.
    + intros v NE Ev. rewrite !cons_set_cons. destruct (Nat.eqb_spec hi v) as [<-|].
      * change (canonical st2 hi = Some hi) in Ev. congruence.
      * destruct (Nat.eqb_spec lo v); [congruence|reflexivity].
    + rewrite cons_set_cons. destruct (Nat.eqb_spec hi lo) as [X|]; [destruct (m_ne _ _ _ _ M (eq_sym X))|exact GL3].
    + destruct (F2 s H1) as [H3 H4]. destruct (H4 _ H2) as [O1 O2]. eapply BACK; eauto.
Qed.

(** The loop over the variants of the union that is given up. *)
Definition covered (s : assignment) (bs : list (label * gtype)) (l : label) (t : utype) : Prop :=
  exists g0, mget l bs = Some g0 /\ fits s t g0.
Record vm_inv (lo i hi j l h : nat) (vm : varmap) (st : state) : Prop := {
  v_wf : wf st;
  v_lo : canonical st lo = Some lo;
  v_hi : canonical st hi = Some lo;
  v_gl : get_cons st lo = Some (Variant i);
  v_gh : get_cons st hi = Some (Variant j);
  v_l : vget l (vms st) = Some vm;
  v_h : vget h (vms st) = Some [] }.
Section VarmapLoop.
Variables (lo i hi j l h : nat).
Hypothesis LH : l = i /\ h = j \/ l = j /\ h = i.
Hypothesis NE : l <> h.

Lemma vm_own vm st k : vm_inv lo i hi j l h vm st -> (get_cons st k = Some (Variant l) \/ get_cons st k = Some (Variant h)) -> canonical st k = Some lo.
Proof.
  intros V G. assert (H : get_cons st k = Some (Variant i) \/ get_cons st k = Some (Variant j)).
  { destruct LH as [[-> ->]|[-> ->]]; tauto. }
  destruct H as [H|H].
  - rewrite (w_own _ (v_wf _ _ _ _ _ _ _ _ V) _ _ _ H (v_gl _ _ _ _ _ _ _ _ V)). exact (v_lo _ _ _ _ _ _ _ _ V).
  - rewrite (w_own _ (v_wf _ _ _ _ _ _ _ _ V) _ _ _ H (v_gh _ _ _ _ _ _ _ _ V)). exact (v_hi _ _ _ _ _ _ _ _ V).
Qed.
(** Writing the map that is kept. *)
Lemma vm_write B vm st vm' : vm_inv lo i hi j l h vm st -> ~ In lo B ->
  (forall k t, In (k, t) vm' -> proper (N_ st) t) ->
  vm_inv lo i hi j l h vm' (set_vms (vset l vm' (vms st)) st) /\ step B st (set_vms (vset l vm' (vms st)) st) /\
  (forall s, sat (lo :: B) s (set_vms (vset l vm' (vms st)) st) -> sat (lo :: B) s st).
Proof.
  intros V NB P. pose proof (v_wf _ _ _ _ _ _ _ _ V) as W. split; [|split].
  - constructor.
    + apply wf_set_vms; [exact W| |].
      * intros id vm0. rewrite vget_set. destruct (Nat.eqb_spec id l) as [->|].
        -- intro E. injection E as <-. split; [exact (w_ids _ W _ _ (v_l _ _ _ _ _ _ _ _ V))|exact P].
        -- intro E. split; [exact (w_ids _ W _ _ E)|]. intros k t. exact (w_vm _ W _ _ k t E).
      * intros x id Ex Gx. rewrite vget_set. destruct (id =? l); eauto. exact (w_ex _ W _ _ Ex Gx).
    + exact (v_lo _ _ _ _ _ _ _ _ V).
    + exact (v_hi _ _ _ _ _ _ _ _ V).
    + exact (v_gl _ _ _ _ _ _ _ _ V).
    + exact (v_gh _ _ _ _ _ _ _ _ V).
    + cbn. rewrite vget_set, Nat.eqb_refl. reflexivity.
    + cbn. rewrite vget_set. destruct (Nat.eqb_spec h l); [congruence|]. exact (v_h _ _ _ _ _ _ _ _ V).
  - apply step_set_vms; [apply step_refl|]. intros b x id Ib Ex Gx. rewrite vget_set. destruct (Nat.eqb_spec id l) as [->|]; [|reflexivity].
    rewrite (vm_own _ _ _ V (or_introl Gx)) in Ex. injection Ex as <-. contradiction.
  - intros s Hs. eapply sat_change; [| |exact Hs]; [reflexivity|]. intros v cs Ev NI Gv. split; [exact Gv|].
    intros id ->. cbn. rewrite vget_set. destruct (Nat.eqb_spec id l) as [->|]; [|reflexivity].
    rewrite (vm_own _ _ _ V (or_introl Gv)) in Ev. injection Ev as <-. destruct NI. left. reflexivity.
Qed.

Definition vm_body n B := fun (_ : unit) (e : label * utype) st0 =>
                 match vget l (vms st0) with
                 | None => UPanic
                 | Some vm_lo =>
                   match mget (fst e) vm_lo with
                   | Some t_lo =>
                     ubind (unify_utype ho n (lo :: B) t_lo (snd e) st0) (fun t st1 =>
                     match vget l (vms st1) with
                     | None => UPanic
                     | Some vm => UOk (set_vms (vset l (minsert (fst e) t vm) (vms st1)) st1) tt
                     end)
                   | None => UOk (set_vms (vset l (minsert (fst e) (snd e) vm_lo) (vms st0)) st0) tt
                   end
                 end.
Lemma mono_vm_body n B u e st : mono st (vm_body n B u e st).
Proof.
  unfold vm_body. destruct (vget l (vms st)) as [vm|]; [|exact I]. destruct (mget (fst e) vm); [|cbn; auto].
  apply mono_bind; [apply (mono_all n)|]. intros a st1. destruct (vget l (vms st1)); cbn; auto.
Qed.
Lemma vm_loop n B : S_ut n -> ~ In lo B -> forall es vm st st', vm_inv lo i hi j l h vm st ->
  (forall k t, In (k, t) es -> proper (N_ st) t) ->
  foldU (vm_body n B) tt es st = UOk st' tt -> again st' = false ->
  exists vm', vm_inv lo i hi j l h vm' st' /\ step B st st' /\
    forall s, sat (lo :: B) s st' -> sat (lo :: B) s st /\
      forall bs, (forall k t, In (k, t) vm' -> covered s bs k t) ->
        (forall k t, In (k, t) vm -> covered s bs k t) /\ (forall k t, In (k, t) es -> covered s bs k t).
Proof.
  intros IU NB es. induction es as [|[k t] es IH]; intros vm st st' V P E A; cbn [foldU] in E.
  - injection E as <-. exists vm. split; [exact V|]. split; [apply step_refl|]. intros s Hs. split; [exact Hs|]. intros bs H. split; [exact H|]. intros k t [].
  - destruct (vm_body n B tt (k, t) st) as [st2 []| | |] eqn:EB; cbn [ubind] in E; try discriminate.
    assert (A2 : again st2 = false). { eapply mono_false; [|exact E|exact A]. apply mono_fold. apply mono_vm_body. }
    assert (ROUND : exists vm2, vm_inv lo i hi j l h vm2 st2 /\ step B st st2 /\
      forall s, sat (lo :: B) s st2 -> sat (lo :: B) s st /\
        forall bs, (forall k t, In (k, t) vm2 -> covered s bs k t) ->
          (forall k t, In (k, t) vm -> covered s bs k t) /\ covered s bs k t).
    { unfold vm_body in EB. pose proof (v_wf _ _ _ _ _ _ _ _ V) as W. rewrite (v_l _ _ _ _ _ _ _ _ V) in EB. cbn [fst snd] in EB.
      destruct (mget k vm) as [tl|] eqn:EM.
      - destruct (unify_utype ho n (lo :: B) tl t st) as [st1 t1| | |] eqn:EU; cbn [ubind] in EB; try discriminate.
        assert (A1 : again st1 = false). { destruct (vget l (vms st1)); [|discriminate]. injection EB as <-. exact A2. }
        assert (PTL : proper (N_ st) tl) by exact (w_vm _ W _ _ _ _ (v_l _ _ _ _ _ _ _ _ V) (mget_in _ _ _ EM)).
        destruct (IU (lo :: B) tl t st W PTL (P k t (or_introl eq_refl)) st1 t1 EU A1) as [W1 [S1 [[PT1 _] F1]]].
        destruct (s_frame _ _ _ S1 lo lo (or_introl eq_refl) (v_lo _ _ _ _ _ _ _ _ V)) as [CL [GL VL]].
        destruct (s_frame _ _ _ S1 lo hi (or_introl eq_refl) (v_hi _ _ _ _ _ _ _ _ V)) as [CH [GH VH]].
        specialize (VL _ (v_gl _ _ _ _ _ _ _ _ V)). specialize (VH _ (v_gh _ _ _ _ _ _ _ _ V)).
        rewrite (v_gl _ _ _ _ _ _ _ _ V) in GL. rewrite (v_gh _ _ _ _ _ _ _ _ V) in GH.
        assert (VLL : vget l (vms st1) = Some vm /\ vget h (vms st1) = Some []).
        { rewrite <- (v_l _ _ _ _ _ _ _ _ V), <- (v_h _ _ _ _ _ _ _ _ V). destruct LH as [[-> ->]|[-> ->]]; auto. }
        destruct VLL as [VLL VHH]. rewrite VLL in EB. injection EB as <-.
        assert (V1 : vm_inv lo i hi j l h vm st1) by (constructor; auto).
        destruct (vm_write B vm st1 (minsert k t1 vm) V1 NB) as [V2 [S2 F2]].
        { intros k' t' I. rewrite (s_len _ _ _ S1). apply minsert_in in I. destruct I as [I|I]; [injection I as -> ->; exact PT1|].
          exact (w_vm _ W _ _ _ _ (v_l _ _ _ _ _ _ _ _ V) I). }
        exists (minsert k t1 vm). split; [exact V2|]. split; [exact (step_trans _ _ _ _ (step_weaken _ _ _ _ S1) S2)|].
        intros s Hs. destruct (F1 s (F2 s Hs)) as [Hs0 HF]. split; [exact Hs0|]. intros bs HC.
        destruct (HC k t1 (minsert_new _ _ _)) as [g0 [Eg Fg]]. destruct (HF g0 Fg) as [Fl Ft].
        split; [|exists g0; auto]. intros k' t' I. destruct (minsert_old k t1 vm k' t' I) as [J|[-> J]]; [auto|].
        rewrite EM in J. injection J as <-. exists g0. auto.
      - injection EB as <-.
        destruct (vm_write B vm st (minsert k t vm) V NB) as [V2 [S2 F2]].
        { intros k' t' I. apply minsert_in in I. destruct I as [I|I]; [injection I as -> ->; apply (P k t); left; reflexivity|].
          exact (w_vm _ W _ _ _ _ (v_l _ _ _ _ _ _ _ _ V) I). }
        exists (minsert k t vm). split; [exact V2|]. split; [exact S2|]. intros s Hs. split; [exact (F2 s Hs)|]. intros bs HC.
        split; [|exact (HC k t (minsert_new _ _ _))]. intros k' t' I. destruct (minsert_old k t vm k' t' I) as [J|[-> J]]; [auto|congruence]. }
    destruct ROUND as [vm2 [V2 [S2 F2]]].
    destruct (IH vm2 st2 st' V2) as [vm' [V' [S' F']]]; auto. { intros k' t' I. rewrite (s_len _ _ _ S2). apply (P k' t'). right. exact I. }
    exists vm'. split; [exact V'|]. split; [exact (step_trans _ _ _ _ S2 S')|]. intros s Hs. destruct (F' s Hs) as [Hs2 H2]. destruct (F2 s Hs2) as [Hs0 H0].
    split; [exact Hs0|]. intros bs HC. destruct (H2 bs HC) as [H3 H4]. destruct (H0 bs H3) as [H5 H6]. split; [exact H5|].
    intros k' t' [X|I]; [injection X as <- <-; exact H6|auto].
Qed.

(** The end: one map is dropped and both variables name the other. *)
Lemma vm_final B vm st : vm_inv lo i hi j l h vm st -> lo <> hi -> ~ In lo B ->
  let st' := set_cons hi (Variant l) (set_cons lo (Variant l) (set_vms (vremove h (vms st)) st)) in
  wf st' /\ (forall s, sat B s st' -> sat (lo :: B) s st /\ has_variants s vm (s lo)).
Proof.
  intros V NLH NB st'. pose proof (v_wf _ _ _ _ _ _ _ _ V) as W.
  assert (GC : forall x, get_cons st' x = if hi =? x then Some (Variant l) else if lo =? x then Some (Variant l) else get_cons st x).
  { intro x. unfold st'. rewrite !cons_set_cons.
    change (get_cons (set_vms (vremove h (vms st)) st) x) with (get_cons st x).
    destruct (Nat.eqb_spec hi x) as [<-|N1].
    - destruct (Nat.eqb_spec lo hi); [congruence|]. rewrite (v_gh _ _ _ _ _ _ _ _ V). reflexivity.
    - destruct (Nat.eqb_spec lo x) as [<-|]; [|reflexivity]. rewrite (v_gl _ _ _ _ _ _ _ _ V). reflexivity. }
  assert (CC : forall x, canonical st' x = canonical st x) by reflexivity.
  assert (LEN : N_ st' = N_ st) by (unfold st'; cbn; rewrite !sn_length; reflexivity).
  assert (VG : forall id, vget id (vms st') = if id =? h then None else vget id (vms st)) by (intro id; apply vget_remove).
  assert (G : forall x id, get_cons st' x = Some (Variant id) -> id = l /\ canonical st x = Some lo \/ get_cons st x = Some (Variant id)).
  { intros x id. rewrite GC. destruct (Nat.eqb_spec hi x) as [<-|].
    - intro E. injection E as <-. left. split; [reflexivity|exact (v_hi _ _ _ _ _ _ _ _ V)].
    - destruct (Nat.eqb_spec lo x) as [<-|]; [|auto]. intro E. injection E as <-. left. split; [reflexivity|exact (v_lo _ _ _ _ _ _ _ _ V)]. }
  assert (KX : forall x, canonical st x = Some lo -> exists id, get_cons st' lo = Some (Variant id)).
  { intros x _. exists l. rewrite GC, Nat.eqb_refl. destruct (hi =? lo); reflexivity. }
  split.
  - constructor; rewrite ?LEN.
    + exact (w_len _ W).
    + destruct (w_awf _ W). constructor; auto.
    + intros x c. rewrite GC. destruct (hi =? x); [discriminate|]. destruct (lo =? x); [discriminate|]. apply (w_con _ W).
    + intros id vm0 k t. rewrite VG. destruct (id =? h); [discriminate|]. apply (w_vm _ W).
    + intros x id E. destruct (G _ _ E) as [[-> _]|E']; [exact (w_ids _ W _ _ (v_l _ _ _ _ _ _ _ _ V))|exact (w_id _ W _ _ E')].
    + intros id vm0. rewrite VG. destruct (id =? h); [discriminate|]. apply (w_ids _ W).
    + intros x y id Ex Ey. rewrite !CC.
      assert (Z : forall z, get_cons st' z = Some (Variant id) -> id = l -> canonical st z = Some lo).
      { intros z Ez ->. destruct (G _ _ Ez) as [[_ K]|K]; [exact K|]. exact (vm_own _ _ _ V (or_introl K)). }
      destruct (Nat.eq_dec id l) as [EL|NL]; [rewrite (Z x), (Z y); auto|].
      destruct (G _ _ Ex) as [[K _]|K]; [contradiction|]. destruct (G _ _ Ey) as [[K' _]|K']; [contradiction|]. exact (w_own _ W _ _ _ K K').
    + intros x c cs Ec Gx. rewrite CC in Ec. destruct (Nat.eq_dec c lo) as [->|NC].
      * destruct cs as [|id|c0]; auto; [exact (KX _ Ec)|]. rewrite GC in Gx.
        destruct (hi =? x); [discriminate|]. destruct (lo =? x); [discriminate|].
        destruct (w_kind _ W _ _ _ Ec Gx) as [c1 X]. rewrite (v_gl _ _ _ _ _ _ _ _ V) in X. discriminate.
      * assert (Nx : hi <> x /\ lo <> x). { split; intros ->; [rewrite (v_hi _ _ _ _ _ _ _ _ V) in Ec|rewrite (v_lo _ _ _ _ _ _ _ _ V) in Ec]; congruence. }
        assert (Nc : hi <> c). { intros ->. pose proof (canon_idem _ _ _ (w_awf _ W) Ec) as X. rewrite (v_hi _ _ _ _ _ _ _ _ V) in X. congruence. }
        rewrite GC in Gx. destruct (Nat.eqb_spec hi x); [tauto|]. destruct (Nat.eqb_spec lo x); [tauto|].
        pose proof (w_kind _ W _ _ _ Ec Gx) as K. rewrite GC. destruct (Nat.eqb_spec hi c); [tauto|]. destruct (Nat.eqb_spec lo c); [congruence|]. exact K.
    + intros x id Ec Gx. rewrite CC in Ec. rewrite VG. destruct (G _ _ Gx) as [[-> _]|K].
      * destruct (Nat.eqb_spec l h); [contradiction|]. exists vm. exact (v_l _ _ _ _ _ _ _ _ V).
      * destruct (Nat.eqb_spec id h) as [->|]; [|exact (w_ex _ W _ _ Ec K)].
        exfalso. rewrite (vm_own _ _ _ V (or_intror K)) in Ec. injection Ec as ->.
        rewrite GC, Nat.eqb_refl in Gx. destruct (hi =? x); congruence.
  - intros s Hs. split.
    + eapply sat_change; [| |apply sat_incl with (B := B); [intros; right; assumption|exact Hs]]; [reflexivity|].
      intros v cs Ev NI Gv. assert (NV : v <> lo) by (intros ->; apply NI; left; reflexivity).
      assert (NV2 : v <> hi). { intros ->. rewrite (v_hi _ _ _ _ _ _ _ _ V) in Ev. injection Ev as ->. congruence. }
      split.
      * rewrite GC. destruct (Nat.eqb_spec hi v); [congruence|]. destruct (Nat.eqb_spec lo v); [congruence|]. exact Gv.
      * intros id ->. rewrite VG. destruct (Nat.eqb_spec id h) as [->|]; [|reflexivity].
        rewrite (vm_own _ _ _ V (or_intror Gv)) in Ev. injection Ev as <-. congruence.
    + assert (GL : get_cons st' lo = Some (Variant l)). { rewrite GC, Nat.eqb_refl. destruct (hi =? lo); reflexivity. }
      pose proof (proj2 Hs lo _ (v_lo _ _ _ _ _ _ _ _ V) NB GL) as K. cbn [allowed] in K. destruct K as [vm0 [E0 K]].
      rewrite VG in E0. destruct (Nat.eqb_spec l h); [contradiction|]. rewrite (v_l _ _ _ _ _ _ _ _ V) in E0. injection E0 as <-. exact K.
Qed.
End VarmapLoop.

Lemma sound_vm n : S_ut n -> S_vm (S n).
Proof.
  intros IU B lo i hi j st st1 W M NL NH Gl Gh st' [] E A. rewrite unify_varmaps_S in E.
  assert (NIJ : i <> j).
  { intros ->. pose proof (w_own _ W _ _ _ Gl Gh) as X. rewrite (m_lo _ _ _ _ M), (m_hi _ _ _ _ M) in X. injection X as X. exact (m_ne _ _ _ _ M X). }
  destruct (Nat.eqb_spec i j) as [X|_]; [contradiction|]. cbv zeta in E.
  set (l := Nat.min i j) in *. set (h := Nat.max i j) in *.
  assert (LH : l = i /\ h = j \/ l = j /\ h = i) by (unfold l, h; lia).
  assert (NE : l <> h) by (unfold l, h; lia).
  assert (GC : forall x, get_cons st1 x = get_cons st x) by (intro x; unfold get_cons; rewrite (m_cons _ _ _ _ M); reflexivity).
  assert (W1 : wf st1) by (eapply wf_merged; eauto 7).
  assert (CL : canonical st1 lo = Some lo). { rewrite (m_canon _ _ _ _ M), (m_lo _ _ _ _ M). destruct (Nat.eqb_spec lo hi); [|reflexivity]. destruct (m_ne _ _ _ _ M e). }
  assert (CH : canonical st1 hi = Some lo). { rewrite (m_canon _ _ _ _ M), (m_hi _ _ _ _ M), Nat.eqb_refl. reflexivity. }
  destruct (w_ex _ W _ _ (m_lo _ _ _ _ M) Gl) as [vi Evi]. destruct (w_ex _ W _ _ (m_hi _ _ _ _ M) Gh) as [vj Evj].
  assert (EV : exists vl vh, vget l (vms st) = Some vl /\ vget h (vms st) = Some vh).
  { destruct LH as [[-> ->]|[-> ->]]; eauto. }
  destruct EV as [vl [vh [El Eh]]]. rewrite (m_vms _ _ _ _ M), Eh in E.
  set (st2 := set_vms (vset h [] (vms st)) st1) in *.
  assert (W2 : wf st2).
  { apply wf_set_vms; [exact W1| |].
    - intros id vm. rewrite vget_set. rewrite (m_next _ _ _ _ M), (m_cons _ _ _ _ M). destruct (Nat.eqb_spec id h) as [->|].
      + intro X. injection X as <-. split; [exact (w_ids _ W _ _ Eh)|]. intros k t [].
      + intro X. split; [exact (w_ids _ W _ _ X)|]. intros k t. exact (w_vm _ W _ _ k t X).
    - intros x id Ex Gx. rewrite vget_set. destruct (id =? h); eauto. rewrite <- (m_vms _ _ _ _ M). exact (w_ex _ W1 _ _ Ex Gx). }
  assert (V2 : vm_inv lo i hi j l h vl st2).
  { constructor; auto.
    - rewrite <- GC in Gl. exact Gl.
    - rewrite <- GC in Gh. exact Gh.
    - cbn. rewrite vget_set. destruct (Nat.eqb_spec l h); [contradiction|exact El].
    - cbn. rewrite vget_set, Nat.eqb_refl. reflexivity. }
  assert (S2 : step B st st2).
  { apply step_set_vms; [exact (step_merged _ _ _ _ _ M NH)|]. intros b x id Ib Ex Gx. rewrite vget_set, (m_vms _ _ _ _ M).
    destruct (Nat.eqb_spec id h) as [->|]; [|reflexivity].
    assert (K : canonical st1 x = Some lo) by (apply (vm_own lo i hi j l h LH NE vl st2 x V2); right; exact Gx).
    rewrite Ex in K. injection K as ->. contradiction. }
  match type of E with ubind ?x _ = _ => destruct x as [st3 []| | |] eqn:EF end; cbn [ubind] in E; try discriminate.
  change (foldU (vm_body lo l n B) tt (shuffle ho vh) st2 = UOk st3 tt) in EF.
  destruct (vget h (vms st3)) as [vh3|]; [|discriminate].
  set (st4 := set_vms (vremove h (vms st3)) st3) in *.
  destruct (get_cons st4 lo) as [[|a|a]|]; try discriminate. destruct (get_cons st4 hi) as [[|b|b]|]; try discriminate.
  injection E as <-.
  destruct (vm_loop lo i hi j l h LH NE n B IU NL (shuffle ho vh) vl st2 st3 V2) as [vm3 [V3 [S3 F3]]]; auto.
  { intros k t I. change (N_ st2) with (N_ st1). rewrite (m_cons _ _ _ _ M). eapply (w_vm _ W); [exact Eh|].
    eapply Permutation_in; [apply shuffle_perm|exact I]. }
  destruct (vm_final lo i hi j l h LH NE B vm3 st3 V3 (m_ne _ _ _ _ M) NL) as [W4 F4].
  split; [exact W4|]. split.
  { eapply step_set; [|exact (m_hi _ _ _ _ M)|exact NH]. eapply step_set; [|exact (m_lo _ _ _ _ M)|exact NL].
    apply step_set_vms; [exact (step_trans _ _ _ _ S2 S3)|]. intros b0 x id Ib Ex Gx. rewrite vget_remove. destruct (Nat.eqb_spec id h) as [->|]; [|reflexivity].
    pose proof (vm_own lo i hi j l h LH NE vm3 st3 x V3 (or_intror Gx)) as K. rewrite Ex in K. injection K as ->. contradiction. }
  split; [exact I|]. intros s Hs. destruct (F4 s Hs) as [Hs3 [bs [Ebs HV]]]. destruct (F3 s Hs3) as [Hs2 H2].
  destruct (H2 bs HV) as [HL HH].
  assert (Hs1 : sat (lo :: B) s st1).
  { eapply sat_change; [| |exact Hs2]; [reflexivity|]. intros v cs Ev NI Gv. split; [exact Gv|]. intros id ->. cbn. rewrite vget_set, (m_vms _ _ _ _ M).
    destruct (Nat.eqb_spec id h) as [->|]; [|reflexivity].
    assert (K : canonical st1 v = Some lo) by (apply (vm_own lo i hi j l h LH NE vl st2 v V2); right; exact Gv). rewrite Ev in K. injection K as ->. destruct NI. left. reflexivity. }
  destruct (sat_merged _ _ _ _ _ _ M Hs1) as [H EQ]. split; [|exact EQ].
  assert (HV2 : forall id, id = l \/ id = h -> exists vm, vget id (vms st) = Some vm /\ has_variants s vm (s lo)).
  { intros id [-> | ->]; [exists vl|exists vh]; (split; [assumption|]); exists bs; (split; [exact Ebs|]); [exact HL|].
    intros k t I. apply HH. eapply Permutation_in; [symmetry; apply shuffle_perm|exact I]. }
  apply sat_close with (x := lo).
  - apply sat_close with (x := hi); [exact H|]. intros cs _ Q. rewrite Gh in Q. injection Q as <-. rewrite <- EQ. apply HV2. destruct LH as [[-> ->]|[-> ->]]; auto.
  - intros cs _ Q. rewrite Gl in Q. injection Q as <-. apply HV2. destruct LH as [[-> ->]|[-> ->]]; auto.
Qed.

Theorem soundness n : S_ut n /\ S_vc n /\ S_pair n /\ S_vu n /\ S_vp n /\ S_tr n /\ S_vm n.
Proof.
  induction n as [|n [IU [IC [IP [IV [IW [IT IM]]]]]]].
  - assert (Z : forall A B st P Q, sound B st (@UFuel A) P Q) by (intros; apply sound_fuel).
    refine (conj _ (conj _ (conj _ (conj _ (conj _ (conj _ _)))))); intro; intros; apply Z.
  - split; [apply sound_ut; auto|]. split; [apply sound_vc; auto|]. split; [apply sound_pair; auto|]. split; [apply sound_vu; auto|].
    split; [apply sound_vp; auto|]. split; [apply sound_tr; auto|]. apply sound_vm; auto.
Qed.
End Sound.
