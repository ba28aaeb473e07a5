From Coq Require Import String.
From Verif Require Import Base BoundsModel NumericModel NumericProofs NumericProps NumCodeModel NumCodeSpec.
Open Scope list_scope.
Open Scope Z_scope.

(** ** The table of functions *)

Definition reps : list mrep := [rU8; rU16; rU32; rU64; rI8; rI16; rI32; rI64].
Lemma reps_all r : In r reps. Proof. destruct r as [[] []]; cbn; tauto. Qed.
Definition binops := [NAdd; NSub; NMul; NDiv; NRem].
Lemma binops_all op : In op binops. Proof. destruct op; cbn; tauto. Qed.
Definition nfun_dec (a b : nfun) : {a = b} + {a <> b}.
Proof. repeat decide equality. Defined.
Definition found (f : string) (d : option nfun) : bool :=
  match lookup_fun f functions, d with
  | None, None => true
  | Some a, Some b => if nfun_dec a b then true else false
  | _, _ => false
  end.
Lemma found_eq f d : found f d = true -> lookup_fun f functions = d.
Proof. unfold found. destruct (lookup_fun f functions), d; try discriminate; [|reflexivity]. destruct (nfun_dec n n0); [congruence|discriminate]. Qed.

Lemma encompasses_eq a b : encompasses a b = is_superset a b.
Proof. unfold encompasses. now rewrite encompasses_superset. Qed.
Lemma superset_within a b : is_superset a b = true <-> within b a.
Proof. exact (C40_superset a b). Qed.
Lemma superset_out a b : is_superset a b = false <-> ~ within b a.
Proof. rewrite <- superset_within. destruct (is_superset a b); split; congruence. Qed.

Definition missing_b (l r o : mrep) : bool :=
  negb (mrep_eqb l r) && is_superset o l && is_superset o r && (bw_eqb (bit_width l) B64 || bw_eqb (bit_width r) B64).
Lemma missing_b_iff l r o : missing_b l r o = true <-> missing_binary l r o.
Proof.
  unfold missing_b, missing_binary. rewrite !andb_true_iff, orb_true_iff, negb_true_iff, !bw_eqb_eq, !superset_within.
  assert (mrep_eqb l r = false <-> l <> r) as -> by (rewrite <- (mrep_eqb_eq l r); destruct (mrep_eqb l r); split; congruence). tauto.
Qed.
Definition in_bin_table (l r o : mrep) : bool := existsb (fun t => let '(a, b, c) := t in mrep_eqb a l && mrep_eqb b r && mrep_eqb c o) bin_table.
Lemma in_bin_table_in l r o : in_bin_table l r o = true -> In (l, r, o) bin_table.
Proof.
  intros H. apply existsb_exists in H. destruct H as ([[a b] c] & Hin & E). rewrite !andb_true_iff, !mrep_eqb_eq in E.
  destruct E as [[-> ->] ->]. exact Hin.
Qed.
Definition bin_entry (op : nbinop) (l r o : mrep) : bool :=
  let c := classify_binary l r o in
  match c with
  | BPure _ | BHomWide _ _ | BHetWide _ _ _ =>
    if missing_b l r o then found (binary_fname op c) None
    else found (binary_fname op c) (Some (FBin op l r o)) && in_bin_table l r o
  | BHomLossy a b => mrep_eqb a l && mrep_eqb a r && mrep_eqb b o && negb (missing_b l r o)
  | BHetLossy a b c => mrep_eqb a l && mrep_eqb b r && mrep_eqb c o && negb (missing_b l r o)
  end.
Lemma bin_entries : forallb (fun op => forallb (fun l => forallb (fun r => forallb (bin_entry op l r) reps) reps) reps) binops = true.
Proof. vm_compute. reflexivity. Qed.
Lemma bin_entry_all op l r o : bin_entry op l r o = true.
Proof.
  pose proof bin_entries as H. rewrite forallb_forall in H. specialize (H op (binops_all op)).
  rewrite forallb_forall in H. specialize (H l (reps_all l)). rewrite forallb_forall in H. specialize (H r (reps_all r)).
  rewrite forallb_forall in H. exact (H o (reps_all o)).
Qed.
(** The code of a binary operation *)
Lemma bin_code op l r o :
  (missing_b l r o = false /\ In (l, r, o) bin_table /\ exists f, lookup_fun f functions = Some (FBin op l r o) /\
    forall t out x y, synthesize (TBin t (l, r, o) op out x y) = RInvoke2 f (synthesize x) (synthesize y)) \/
  (missing_b l r o = true /\ exists f, lookup_fun f functions = None /\
    forall t out x y, synthesize (TBin t (l, r, o) op out x y) = RInvoke2 f (synthesize x) (synthesize y)) \/
  (missing_b l r o = false /\ exists h, forall t out x y, synthesize (TBin t (l, r, o) op out x y) = RFallback2 l r o (synthesize x) (synthesize y) h op).
Proof.
  pose proof (bin_entry_all op l r o) as H. unfold bin_entry in H. cbn [synthesize].
  destruct (classify_binary l r o) as [t|t u|t u v|t u|t u v] eqn:E.
  1-3: destruct (missing_b l r o) eqn:M;
    [right; left; split; [reflexivity|]; eexists; split; [apply found_eq; exact H|reflexivity]
    |left; apply andb_true_iff in H; destruct H as [H1 H2]; split; [reflexivity|]; split; [apply in_bin_table_in; exact H2|]; eexists; split; [apply found_eq; exact H1|reflexivity]].
  - rewrite !andb_true_iff, !mrep_eqb_eq, negb_true_iff in H. destruct H as [[[-> Hr] ->] M]. subst r. right; right. split; [exact M|]. eexists. reflexivity.
  - rewrite !andb_true_iff, !mrep_eqb_eq, negb_true_iff in H. destruct H as [[[-> ->] ->] M]. right; right. split; [exact M|]. eexists. reflexivity.
Qed.

(** ** Unary operations and casts *)

Definition unops := [NNegate; NAbs; NSucc; NPred].
Lemma unops_all op : In op unops. Proof. destruct op; cbn; tauto. Qed.
Definition missing_u (op : nunop) (i o : mrep) : bool :=
  match op with
  | NSucc | NPred => true
  | NAbs => false
  | NNegate => negb (is_signed i) && is_signed o && negb (is_superset o i)
  end.
Lemma missing_u_iff op i o : missing_u op i o = true <-> missing_unary op i o.
Proof.
  destruct op; cbn [missing_u missing_unary]; try (split; [discriminate|tauto]); try tauto.
  rewrite !andb_true_iff, !negb_true_iff, superset_out. tauto.
Qed.
Definition family (op : nunop) (i o : mrep) : option nfun :=
  match op, is_signed i, is_signed o with
  | NNegate, _, true => Some (FNegSigned i o)
  | NNegate, true, false => Some (FNegInto i o)
  | NNegate, false, false => Some (FNegUnsigned i o)
  | NAbs, true, true => Some (if mrep_eqb i o then FAbsSame i else FAbsSigned i o)
  | NAbs, true, false => Some (FAbsInto i o)
  | NAbs, false, true => Some (FAbsSigned i o)
  | NAbs, false, false => Some (FAbsUnsigned i o)
  | _, _, _ => None
  end.
Definition in_pairs (i o : mrep) (t : list (mrep * mrep)) : bool := existsb (fun p => mrep_eqb (fst p) i && mrep_eqb (snd p) o) t.
Lemma in_pairs_in i o t : in_pairs i o t = true -> In (i, o) t.
Proof. intros H. apply existsb_exists in H. destruct H as ([a b] & Hin & E). cbn in E. rewrite andb_true_iff, !mrep_eqb_eq in E. destruct E as [-> ->]. exact Hin. Qed.
Definition in_rows (d : nfun) : bool :=
  match d with
  | FNegSigned i o => if mrep_eqb i o then existsb (mrep_eqb i) neg_same_table else in_pairs i o to_signed_table
  | FNegInto i o | FAbsInto i o => in_pairs i o signed_unsigned_table
  | FNegUnsigned i o => negb (is_signed i) && negb (is_signed o)
  | FAbsSame i => existsb (mrep_eqb i) neg_same_table
  | FAbsSigned i o => in_pairs i o to_signed_table
  | FAbsUnsigned i o => in_pairs i o abs_unsigned_table
  | FDirect i o => in_pairs i o direct_cast_table
  | FAttempt _ _ => true
  | FBin _ _ _ _ => false
  end.
Definition un_entry (op : nunop) (i o : mrep) : bool :=
  let c := classify_unary (Some op) i o in
  match c with
  | UPure _ | UNonLossy _ _ =>
    if missing_u op i o then found (unary_fname op c) None
    else found (unary_fname op c) (family op i o) && match family op i o with Some d => in_rows d | None => false end
  | ULossy a b => mrep_eqb a i && mrep_eqb b o && match op with NSucc | NPred => true | _ => negb (missing_u op i o) end
  end.
Lemma un_entries : forallb (fun op => forallb (fun i => forallb (un_entry op i) reps) reps) unops = true.
Proof. vm_compute. reflexivity. Qed.
Lemma un_entry_all op i o : un_entry op i o = true.
Proof.
  pose proof un_entries as H. rewrite forallb_forall in H. specialize (H op (unops_all op)).
  rewrite forallb_forall in H. specialize (H i (reps_all i)). rewrite forallb_forall in H. exact (H o (reps_all o)).
Qed.
Lemma un_code op i o :
  (missing_u op i o = false /\ exists d f, family op i o = Some d /\ in_rows d = true /\ lookup_fun f functions = Some d /\
    forall t out x, synthesize (TUn t (i, o) op out x) = RInvoke1 f (synthesize x)) \/
  (missing_u op i o = true /\ exists f, lookup_fun f functions = None /\
    forall t out x, synthesize (TUn t (i, o) op out x) = RInvoke1 f (synthesize x)) \/
  (exists h, (missing_u op i o = true -> op = NSucc \/ op = NPred) /\
    forall t out x, synthesize (TUn t (i, o) op out x) = RFallback1 i o (synthesize x) h op).
Proof.
  pose proof (un_entry_all op i o) as H. unfold un_entry in H. cbn [synthesize].
  destruct (classify_unary (Some op) i o) as [t|t u|t u] eqn:E.
  1-2: destruct (missing_u op i o) eqn:M;
    [right; left; split; [reflexivity|]; eexists; split; [apply found_eq; exact H|reflexivity]
    |left; apply andb_true_iff in H; destruct H as [H1 H2]; split; [reflexivity|]; destruct (family op i o) as [d|]; [|discriminate H2];
     exists d; eexists; split; [reflexivity|]; split; [exact H2|]; split; [apply found_eq; exact H1|reflexivity]].
  rewrite !andb_true_iff, !mrep_eqb_eq in H. destruct H as [[-> ->] M]. right; right. eexists. split; [|reflexivity].
  intros K. destruct op; auto; rewrite K in M; discriminate M.
Qed.
(** What the functions return *)
Lemma same_table i : existsb (mrep_eqb i) neg_same_table = true -> In i neg_same_table.
Proof. intros H. apply existsb_exists in H. destruct H as (r & Hin & E). apply mrep_eqb_eq in E. now subst. Qed.
Lemma family_run checks op i o d x : family op i o = Some d -> in_rows d = true -> in_rep i x = true ->
  run_fun1 checks d x = Val (unary_result o (exactly1 op x)) \/
  (x = zmin (as_bounds i) /\ is_signed i = true /\
    ((op = NNegate /\ i = o) \/ (op = NAbs /\ checks = true /\ run_fun1 checks d x = Panic /\ (i = o \/ is_signed o = false)))).
Proof.
  intros E Hr Hx.
  destruct op; cbn [family] in E; try discriminate E.
  - (* negate *) cbn [exactly1]. destruct (is_signed i) eqn:Si, (is_signed o) eqn:So; injection E as <-; cbn [in_rows run_fun1] in *.
    + destruct (mrep_eqb i o) eqn:Eio.
      * apply mrep_eqb_eq in Eio. subst o. destruct (Z.eq_dec x (zmin (as_bounds i))) as [K|K]; [right; auto|left].
        apply neg_same_ok; [apply same_table; exact Hr|exact Hx|exact K].
      * left. eapply neg_to_signed_ok; [apply in_pairs_in; exact Hr|exact Hx].
    + left. eapply neg_into_unsigned_ok; [apply in_pairs_in; exact Hr|exact Hx].
    + left. assert (mrep_eqb i o = false) as Q. { destruct (mrep_eqb i o) eqn:Q; [|reflexivity]. apply mrep_eqb_eq in Q. subst. congruence. }
      rewrite Q in Hr. eapply neg_to_signed_ok; [apply in_pairs_in; exact Hr|exact Hx].
    + left. f_equal. apply (neg_unsigned_ok i o x); assumption.
  - (* abs *) cbn [exactly1]. destruct (is_signed i) eqn:Si, (is_signed o) eqn:So; injection E as <-.
    + destruct (mrep_eqb i o) eqn:Eio; cbn [in_rows run_fun1] in *.
      * apply mrep_eqb_eq in Eio. subst o. destruct (abs_same_ok i x (same_table _ Hr) Hx) as [A B]. destruct checks; [|left; exact A].
        destruct (Z.eq_dec x (zmin (as_bounds i))) as [K|K]; [right|left; exact (B K)]. split; [exact K|]. split; [reflexivity|]. right.
        split; [reflexivity|]. split; [reflexivity|]. split; [|left; reflexivity]. subst x. clear - Hr. apply same_table in Hr. cbn in Hr. destruct Hr as [<-|[<-|[<-|[<-|[]]]]]; reflexivity.
      * left. eapply abs_to_signed_ok; [apply in_pairs_in; exact Hr|exact Hx].
    + cbn [in_rows run_fun1] in *. apply in_pairs_in in Hr. destruct (abs_signed_unsigned_ok i o x Hr Hx) as [A B]. destruct checks; [|left; exact A].
      destruct (Z.eq_dec x (zmin (as_bounds i))) as [K|K]; [right|left; exact (B K)]. split; [exact K|]. split; [reflexivity|]. right.
      split; [reflexivity|]. split; [reflexivity|]. split; [|right; reflexivity]. subst x. clear - Si. destruct i as [[] []]; try discriminate Si; reflexivity.
    + cbn [in_rows run_fun1] in *. left. eapply abs_to_signed_ok; [apply in_pairs_in; exact Hr|exact Hx].
    + cbn [in_rows run_fun1] in *. left. f_equal. eapply abs_unsigned_ok; [apply in_pairs_in; exact Hr|exact Hx].
Qed.

Definition cast_entry (i o : mrep) : bool :=
  match classify_unary None i o with
  | UPure _ => mrep_eqb i o
  | UNonLossy a b => mrep_eqb a i && mrep_eqb b o && negb (mrep_eqb i o) && found (cast_fname a b) (Some (FDirect i o)) && in_rows (FDirect i o)
  | ULossy a b => mrep_eqb a i && mrep_eqb b o && negb (mrep_eqb i o) && found (cast_fname a b) (Some (FAttempt i o))
  end.
Lemma cast_entries : forallb (fun i => forallb (cast_entry i) reps) reps = true.
Proof. vm_compute. reflexivity. Qed.
Lemma cast_code i o :
  (i = o /\ forall t out x, synthesize (TCast t (i, o) out Arithmetic x) = synthesize x) \/
  (exists d f, (d = FDirect i o /\ in_rows d = true \/ d = FAttempt i o) /\ lookup_fun f functions = Some d /\
    forall t out x, synthesize (TCast t (i, o) out Arithmetic x) = RInvoke1 f (synthesize x)).
Proof.
  pose proof cast_entries as H. rewrite forallb_forall in H. specialize (H i (reps_all i)). rewrite forallb_forall in H. specialize (H o (reps_all o)).
  unfold cast_entry in H. cbn [synthesize]. destruct (classify_unary None i o) as [t|t u|t u].
  - left. apply mrep_eqb_eq in H. split; [exact H|reflexivity].
  - right. rewrite !andb_true_iff, !mrep_eqb_eq in H. destruct H as [[[[-> ->] _] H1] H2]. exists (FDirect i o). eexists. split; [left; split; [reflexivity|exact H2]|]. split; [apply found_eq; exact H1|reflexivity].
  - right. rewrite !andb_true_iff, !mrep_eqb_eq in H. destruct H as [[[-> ->] _] H1]. exists (FAttempt i o). eexists. split; [right; reflexivity|]. split; [apply found_eq; exact H1|reflexivity].
Qed.
Lemma cast_run checks i o d x : (d = FDirect i o /\ in_rows d = true \/ d = FAttempt i o) -> in_rep i x = true -> run_fun1 checks d x = Val (unary_result o x).
Proof.
  intros [[-> H]| ->] Hx; cbn [run_fun1]; f_equal.
  - eapply direct_cast_ok; [apply in_pairs_in; exact H|exact Hx].
  - apply attempt_cast_ok.
Qed.

(** ** Compiling *)

Lemma eqb_refl r : mrep_eqb r r = true. Proof. now apply mrep_eqb_eq. Qed.
Lemma params_family op i o d : family op i o = Some d -> in_rows d = true -> nfun_params d = [i] /\ nfun_result d = o.
Proof.
  intros E H. destruct op; cbn [family] in E; try discriminate E; destruct (is_signed i), (is_signed o); try destruct (mrep_eqb i o) eqn:Q; injection E as <-; cbn; auto.
  apply mrep_eqb_eq in Q. subst. auto.
Qed.
Lemma compiles vt e : well_signed vt e -> (available e -> rtype vt (synthesize e) = Some (ntype e)) /\ (forall t, rtype vt (synthesize e) = Some t -> available e /\ t = ntype e).
Proof.
  induction e as [t c|t s op out l IHl r IHr|t s op out e IH|t s out sem e IH|t x]; cbn [well_signed available ntype].
  - intros _. cbn [synthesize rtype]. split.
    + intros H. apply fits_in in H. now rewrite H.
    + intros u. destruct (in_rep t (tc_val c)) eqn:E; [|discriminate]. intros H. injection H as <-. split; [now apply fits_in|reflexivity].
  - intros (-> & Hl & Hr). destruct (IHl Hl) as [L1 L2]. destruct (IHr Hr) as [R1 R2]. clear IHl IHr.
    rewrite <- (missing_b_iff (ntype l) (ntype r) t).
    destruct (bin_code op (ntype l) (ntype r) t) as [(M & _ & f & Ef & E)|[(M & f & Ef & E)|(M & h & E)]]; rewrite E, M; cbn [rtype].
    + rewrite Ef. cbn [nfun_params nfun_result]. split.
      * intros (_ & A & B). rewrite (L1 A), (R1 B), !eqb_refl. reflexivity.
      * intros u. destruct (rtype vt (synthesize l)) as [tl|] eqn:El; [|discriminate]. destruct (rtype vt (synthesize r)) as [tr|] eqn:Er; [|discriminate].
        destruct (L2 _ eq_refl) as [A _]. destruct (R2 _ eq_refl) as [B _]. destruct (_ && _)%bool; [|discriminate]. intros H. injection H as <-.
        split; [|reflexivity]. split; [rewrite <- missing_b_iff; congruence|]. auto.
    + rewrite Ef. split; [intros (K & _); now elim K|]. intros u H. discriminate H.
    + split.
      * intros (_ & A & B). rewrite (L1 A), (R1 B), !eqb_refl. reflexivity.
      * intros u. destruct (rtype vt (synthesize l)) as [tl|] eqn:El; [|discriminate]. destruct (rtype vt (synthesize r)) as [tr|] eqn:Er; [|discriminate].
        destruct (L2 _ eq_refl) as [A _]. destruct (R2 _ eq_refl) as [B _]. destruct (_ && _)%bool; [|discriminate]. intros H. injection H as <-.
        split; [|reflexivity]. split; [rewrite <- missing_b_iff; congruence|]. auto.
  - intros (-> & He). destruct (IH He) as [A1 A2]. clear IH. rewrite <- (missing_u_iff op (ntype e) t).
    destruct (un_code op (ntype e) t) as [(M & d & f & Fd & Rd & Ef & E)|[(M & f & Ef & E)|(h & M & E)]]; rewrite E; cbn [rtype].
    + rewrite M, Ef. destruct (params_family _ _ _ _ Fd Rd) as [-> ->]. split.
      * intros (_ & A). rewrite (A1 A), eqb_refl. reflexivity.
      * intros u. destruct (rtype vt (synthesize e)) as [te|] eqn:Ee; [|discriminate]. destruct (A2 _ eq_refl) as [A _]. destruct (mrep_eqb _ _); [|discriminate].
        intros H. injection H as <-. split; [|reflexivity]. split; [rewrite <- missing_u_iff; congruence|exact A].
    + rewrite Ef, M. split; [intros (K & _); now elim K|]. intros u H. discriminate H.
    + split.
      * intros (K & A). rewrite (A1 A). destruct op; cbn [missing_u] in *; try (now elim K); rewrite eqb_refl; reflexivity.
      * intros u. destruct (rtype vt (synthesize e)) as [te|] eqn:Ee; [|destruct op; discriminate]. destruct (A2 _ eq_refl) as [A _].
        intros H. assert (K : t = u) by (destruct op; try discriminate H; destruct (mrep_eqb _ _); congruence). subst u.
        split; [|reflexivity]. split; [|exact A]. rewrite <- missing_u_iff. intros Q. destruct (M Q) as [-> | ->]; discriminate H.
  - intros (-> & He). destruct (IH He) as [A1 A2]. clear IH. destruct sem.
    + destruct (cast_code (ntype e) t) as [(Q & E)|(d & f & Fd & Ef & E)]; rewrite E; cbn [rtype].
      * rewrite <- Q. split; [exact A1|]. intros u H. apply A2, H.
      * rewrite Ef. assert (nfun_params d = [ntype e] /\ nfun_result d = t) as [-> ->] by (destruct Fd as [[-> _]| ->]; auto). split.
        -- intros A. rewrite (A1 A), eqb_refl. reflexivity.
        -- intros u. destruct (rtype vt (synthesize e)) as [te|] eqn:Ee; [|discriminate]. destruct (A2 _ eq_refl) as [A _]. destruct (mrep_eqb _ _); [|discriminate].
           intros H. injection H as <-. auto.
    + cbn [synthesize rtype]. split.
      * intros A. rewrite (A1 A). reflexivity.
      * intros u. destruct (rtype vt (synthesize e)) as [te|] eqn:Ee; [|discriminate]. destruct (A2 _ eq_refl) as [A _]. intros H. injection H as <-. auto.
  - intros H. cbn [synthesize rtype]. split; [intros _; exact H|]. intros u K. split; [exact I|congruence].
Qed.

(** ** Running *)

Lemma computes_fits neg env e z : Computes neg env e z -> fits (ntype e) z.
Proof. intros H. inversion H; subst; cbn [ntype]; assumption. Qed.
Lemma unary_ret o z w : unwrap_eval (Val (unary_result o z)) = RRet w <-> z = w /\ fits o z.
Proof.
  unfold unary_result. rewrite <- fits_in. destruct (in_rep o z) eqn:E; cbn [unwrap_eval]; split.
  - intros H. injection H as <-. auto.
  - intros [<- _]. reflexivity.
  - discriminate.
  - intros [_ H]. discriminate H.
Qed.
Lemma machine_ret op o x y w : unwrap_eval (Val (machine_result op o x y)) = RRet w <-> exactly true op x y w /\ fits o w.
Proof.
  assert (G : forall z, unwrap_eval (Val (if in_rep o z then MDirect z else MIndirect z)) = RRet w <-> z = w /\ fits o w).
  { intros z. rewrite <- fits_in. destruct (in_rep o z) eqn:E; cbn [unwrap_eval]; split.
    - intros H. injection H as <-. auto.
    - intros [-> _]. reflexivity.
    - discriminate.
    - intros [-> H]. congruence. }
  unfold machine_result, exactly. destruct op; cbn [big_op].
  1-3: rewrite G; intuition congruence.
  all: destruct (y =? 0) eqn:Y; [apply Z.eqb_eq in Y; split; [discriminate|intros [[H _] _]; contradiction]|].
  all: apply Z.eqb_neq in Y; rewrite G; intuition congruence.
Qed.
(** A remainder by -1 and a quotient out of range fail. *)
Lemma bin_fn_min op o x y : is_quotient op = true -> in_rep o x = true -> in_rep o y = true -> min_over_minus_one o x y -> bin_fn op o x y = MNaN.
Proof.
  intros Hq Hx Hy (Hs & -> & ->). unfold bin_fn. rewrite (as_cast_id _ _ Hx), (as_cast_id _ _ Hy).
  destruct o as [[] []]; cbn in Hs; try discriminate Hs; destruct op; cbn in Hq; try discriminate Hq; reflexivity.
Qed.
Lemma min_dec o x y : {min_over_minus_one o x y} + {~ min_over_minus_one o x y}.
Proof. unfold min_over_minus_one. destruct (Bool.bool_dec (is_signed o) true), (Z.eq_dec x (zmin (as_bounds o))), (Z.eq_dec y (-1)); tauto. Qed.
Lemma bin_run op l r o x y w : In (l, r, o) bin_table -> fits l x -> fits r y ->
  (unwrap_eval (Val (bin_fn op o x y)) = RRet w -> exactly true op x y w /\ fits o w) /\
  (exactly false op x y w -> fits o w -> unwrap_eval (Val (bin_fn op o x y)) = RRet w).
Proof.
  intros T Hx Hy. destruct (bin_table_ok _ _ _ T) as [T1 T2].
  assert (X : in_rep o x = true) by (apply (proj1 (is_superset_iff _ _) T1), fits_in, Hx).
  assert (Y : in_rep o y = true) by (apply (proj1 (is_superset_iff _ _) T2), fits_in, Hy).
  apply fits_in in Hx, Hy.
  assert (W : exactly false op x y w -> exactly true op x y w) by (destruct op; cbn; auto; intros [A B]; split; [lia|exact B]).
  destruct (is_quotient op) eqn:Q; [destruct (min_dec o x y) as [M|M]|].
  - rewrite (bin_fn_min op o x y Q X Y M). split; [discriminate|]. intros E F. exfalso. destruct M as (Hs & -> & ->). destruct op; cbn in Q; try discriminate Q; cbn in E.
    + destruct E as [_ ->]. apply fits_in in F. clear - F Hs. destruct o as [[] []]; cbn in Hs; try discriminate Hs; vm_compute in F; discriminate F.
    + destruct E as [E _]. lia.
  - rewrite (bin_fn_ok op l r o x y T Hx Hy) by auto. split; [apply machine_ret|]. intros E F. apply machine_ret. auto.
  - rewrite (bin_fn_ok op l r o x y T Hx Hy) by congruence. split; [apply machine_ret|]. intros E F. apply machine_ret. auto.
Qed.
Lemma rthen_ret a k w : rthen a k = RRet w <-> exists z, a = RRet z /\ k z = RRet w.
Proof. destruct a as [z| |]; cbn [rthen]; split; intros H; try discriminate H; try (destruct H as (z' & H & _); discriminate H); eauto. destruct H as (z' & [= <-] & H). exact H. Qed.

Lemma own_neg_true r x : is_signed r = true -> x = zmin (as_bounds r) -> neg_as_signed true r x = Panic.
Proof. intros Hs ->. destruct r as [[] []]; try discriminate Hs; reflexivity. Qed.
Lemma family_neg_own i d : is_signed i = true -> family NNegate i i = Some d -> d = FNegSigned i i.
Proof. intros Hs. cbn [family]. rewrite Hs. congruence. Qed.

Lemma run_sound vt env checks e : well_signed vt e -> available e -> (forall x t, vt x = Some t -> fits t (env x)) ->
  (checks = true \/ nowhere own_negation e) -> forall z, rrun checks env (synthesize e) = RRet z -> Computes true env e z.
Proof.
  intros W A Hv. revert W A. induction e as [t c|t s op out l IHl r IHr|t s op out e IH|t s out sem e IH|t x]; cbn [well_signed available]; intros W A Hc z H.
  - cbn in H. injection H as <-. now constructor.
  - destruct W as (-> & Wl & Wr). destruct A as (Nm & Al & Ar). rewrite <- missing_b_iff in Nm.
    assert (Cl : checks = true \/ nowhere own_negation l) by (destruct Hc as [Hc|(_ & B & C)]; auto).
    assert (Cr : checks = true \/ nowhere own_negation r) by (destruct Hc as [Hc|(_ & B & C)]; auto).
    destruct (bin_code op (ntype l) (ntype r) t) as [(M & T & f & Ef & E)|[(M & f & Ef & E)|(M & h & E)]]; rewrite E in H; [|congruence|]; cbn [rrun] in H.
    + rewrite rthen_ret in H. destruct H as (x & Hx & H). rewrite rthen_ret in H. destruct H as (y & Hy & H). rewrite Ef in H. cbn [run_fun2] in H.
      pose proof (IHl Wl Al Cl x Hx) as C1. pose proof (IHr Wr Ar Cr y Hy) as C2.
      destruct (bin_run op _ _ _ x y z T (computes_fits _ _ _ _ C1) (computes_fits _ _ _ _ C2)) as [K _]. destruct (K H). econstructor; eassumption.
    + rewrite rthen_ret in H. destruct H as (x & Hx & H). rewrite rthen_ret in H. destruct H as (y & Hy & H). rewrite bin_fallback_ok in H. apply machine_ret in H.
      destruct H. econstructor; [apply IHl|apply IHr| |]; eassumption.
  - destruct W as (-> & We). destruct A as (Nm & Ae). rewrite <- missing_u_iff in Nm.
    assert (Ce : checks = true \/ nowhere own_negation e) by (destruct Hc as [Hc|(_ & B)]; auto).
    destruct (un_code op (ntype e) t) as [(M & d & f & Fd & Rd & Ef & E)|[(M & f & Ef & E)|(h & M & E)]]; rewrite E in H; [|congruence|]; cbn [rrun] in H.
    + rewrite rthen_ret in H. destruct H as (x & Hx & H). rewrite Ef in H. pose proof (IH We Ae Ce x Hx) as C1. pose proof (computes_fits _ _ _ _ C1) as F1. apply fits_in in F1.
      destruct (family_run checks op _ _ _ x Fd Rd F1) as [K|(Kx & Ks & [(-> & Ki)|(-> & -> & Kp & _)])].
      * rewrite K in H. apply unary_ret in H. destruct H as [<- F]. now constructor.
      * exfalso. rewrite Ki in *. destruct Hc as [-> |(N & _)].
        -- pose proof (family_neg_own _ _ Ks Fd) as ->. cbn [run_fun1] in H. rewrite (own_neg_true t x Ks Kx) in H. discriminate H.
        -- apply N. cbn. auto.
      * rewrite Kp in H. discriminate H.
    + rewrite rthen_ret in H. destruct H as (x & Hx & H). unfold un_fallback in H. rewrite attempt_cast_ok in H. apply unary_ret in H. destruct H as [<- F].
      apply (c_un true env t (ntype e, t) op out e x); [apply IH; assumption|exact F].
  - destruct W as (-> & We). assert (Ce : checks = true \/ nowhere own_negation e) by (destruct Hc as [Hc|(_ & B)]; auto). destruct sem.
    + destruct (cast_code (ntype e) t) as [(Q & E)|(d & f & Fd & Ef & E)]; rewrite E in H.
      * pose proof (IH We A Ce z H) as C1. constructor; [exact C1|]. rewrite <- Q. exact (computes_fits _ _ _ _ C1).
      * cbn [rrun] in H. rewrite rthen_ret in H. destruct H as (x & Hx & H). rewrite Ef in H. pose proof (IH We A Ce x Hx) as C1. pose proof (computes_fits _ _ _ _ C1) as F1. apply fits_in in F1.
        rewrite (cast_run checks _ _ _ x Fd F1) in H. apply unary_ret in H. destruct H as [<- F]. now constructor.
    + cbn [synthesize rrun] in H. rewrite rthen_ret in H. destruct H as (x & Hx & H). injection H as <-. econstructor; [apply IH; eassumption|apply fits_in, as_cast_in|apply as_cast_congr].
  - cbn in H. injection H as <-. constructor. auto.
Qed.

Lemma run_complete vt env checks e : well_signed vt e -> available e ->
  (checks = false \/ nowhere unsigned_abs e) -> forall z, Computes false env e z -> rrun checks env (synthesize e) = RRet z.
Proof.
  induction e as [t c|t s op out l IHl r IHr|t s op out e IH|t s out sem e IH|t x]; cbn [well_signed available]; intros W A Hc z H; inversion H; subst.
  - reflexivity.
  - destruct W as (-> & Wl & Wr). destruct A as (Nm & Al & Ar). rewrite <- missing_b_iff in Nm.
    assert (Cl : checks = false \/ nowhere unsigned_abs l) by (destruct Hc as [Hc|(_ & B & C)]; auto).
    assert (Cr : checks = false \/ nowhere unsigned_abs r) by (destruct Hc as [Hc|(_ & B & C)]; auto).
    match goal with X : Computes false env l _ |- _ => rename X into C1 end. match goal with X : Computes false env r _ |- _ => rename X into C2 end.
    pose proof (IHl Wl Al Cl _ C1) as E1. pose proof (IHr Wr Ar Cr _ C2) as E2.
    destruct (bin_code op (ntype l) (ntype r) t) as [(M & T & f & Ef & E)|[(M & f & Ef & E)|(M & h & E)]]; rewrite E; [|congruence|]; cbn [rrun].
    + rewrite E1, E2. cbn [rthen]. rewrite Ef. cbn [run_fun2]. eapply bin_run; eauto using computes_fits.
    + rewrite E1, E2. cbn [rthen]. rewrite bin_fallback_ok. apply machine_ret. split; [|assumption].
      match goal with X : exactly false _ _ _ _ |- _ => revert X end. destruct op; cbn; auto. intros [B ->]. split; [lia|reflexivity].
  - destruct W as (-> & We). destruct A as (Nm & Ae). rewrite <- missing_u_iff in Nm.
    assert (Ce : checks = false \/ nowhere unsigned_abs e) by (destruct Hc as [Hc|(_ & B)]; auto).
    match goal with X : Computes false env e _ |- _ => rename X into C1 end. match goal with X : fits t _ |- _ => rename X into F end.
    pose proof (IH We Ae Ce _ C1) as E1. pose proof (computes_fits _ _ _ _ C1) as F1. apply fits_in in F1.
    destruct (un_code op (ntype e) t) as [(M & d & f & Fd & Rd & Ef & E)|[(M & f & Ef & E)|(h & M & E)]]; rewrite E; [|congruence|]; cbn [rrun].
    + rewrite E1. cbn [rthen]. rewrite Ef.
      destruct (family_run checks op _ _ _ _ Fd Rd F1) as [K|(Kx & Ks & [(-> & Ki)|(-> & -> & Kp & Ko)])].
      * rewrite K. apply unary_ret. auto.
      * exfalso. cbn [exactly1] in F. rewrite Ki in *. apply fits_in in F. clear - F Kx Ks. subst. destruct t as [[] []]; try discriminate Ks; vm_compute in F; discriminate F.
      * exfalso. destruct Ko as [Ki|Ko].
        -- cbn [exactly1] in F. rewrite Ki in *. apply fits_in in F. clear - F Kx Ks. subst. destruct t as [[] []]; try discriminate Ks; vm_compute in F; discriminate F.
        -- destruct Hc as [Hc|(N & _)]; [discriminate Hc|]. apply N. cbn. auto.
    + rewrite E1. cbn [rthen]. unfold un_fallback. rewrite attempt_cast_ok. apply unary_ret. auto.
  - destruct W as (-> & We). assert (Ce : checks = false \/ nowhere unsigned_abs e) by (destruct Hc as [Hc|(_ & B)]; auto).
    match goal with X : Computes false env e _ |- _ => rename X into C1 end. pose proof (IH We A Ce _ C1) as E1. pose proof (computes_fits _ _ _ _ C1) as F1. apply fits_in in F1.
    destruct (cast_code (ntype e) t) as [(Q & E)|(d & f & Fd & Ef & E)]; rewrite E; [exact E1|]. cbn [rrun]. rewrite E1. cbn [rthen]. rewrite Ef, (cast_run checks _ _ _ z Fd F1).
    apply unary_ret. auto.
  - destruct W as (-> & We). assert (Ce : checks = false \/ nowhere unsigned_abs e) by (destruct Hc as [Hc|(_ & B)]; auto).
    match goal with X : Computes false env e _ |- _ => rename X into C1 end. cbn [synthesize rrun]. rewrite (IH We A Ce _ C1). cbn [rthen]. f_equal.
    apply (in_rep_congr_unique t); [apply as_cast_in|apply fits_in; assumption|]. rewrite as_cast_congr. congruence.
  - reflexivity.
Qed.

(** Panics *)
Lemma machine_neg_unchecked r x : machine_neg false r x <> Panic.
Proof. unfold machine_neg. repeat match goal with |- context [if ?b then _ else _] => destruct b end; discriminate. Qed.
Lemma machine_abs_unchecked r x : machine_abs false r x <> Panic.
Proof. unfold machine_abs. repeat match goal with |- context [if ?b then _ else _] => destruct b end; try discriminate; apply machine_neg_unchecked. Qed.
Lemma omap_panic {A B} (f : A -> B) o : o <> Panic -> omap f o <> Panic.
Proof. destruct o; [discriminate|congruence]. Qed.
Lemma fun1_unchecked op i o d x : family op i o = Some d -> run_fun1 false d x <> Panic.
Proof.
  intros E. destruct op; cbn [family] in E; try discriminate E; destruct (is_signed i), (is_signed o); try destruct (mrep_eqb i o); injection E as <-; cbn [run_fun1];
    try discriminate; unfold neg_as_signed, abs_same, abs_as_signed, abs_signed_unsigned; try (apply omap_panic; first [apply machine_neg_unchecked|apply machine_abs_unchecked]).
  all: unfold neg_into_unsigned; destruct (0 <? x); [discriminate|]; destruct (x =? _); [discriminate|]; apply omap_panic, machine_neg_unchecked.
Qed.
Lemma unwrap_crash m : unwrap_eval m = RCrash -> m = Panic.
Proof. destruct m as [[| |]|]; cbn; congruence. Qed.
Lemma rthen_crash a k : rthen a k = RCrash -> a = RCrash \/ exists z, a = RRet z /\ k z = RCrash.
Proof. destruct a; cbn [rthen]; eauto; discriminate. Qed.
Lemma own_sub vt env checks e : well_signed vt e -> available e -> (forall x t, vt x = Some t -> fits t (env x)) -> (checks = false \/ nowhere may_overflow e) ->
  rrun checks env (synthesize e) <> RCrash /\ (forall z, rrun checks env (synthesize e) = RRet z -> fits (ntype e) z).
Proof.
  intros W A Hv. revert W A. induction e as [t c|t s op out l IHl r IHr|t s op out e IH|t s out sem e IH|t x]; cbn [well_signed available ntype]; intros W A Hc.
  - cbn. split; [discriminate|]. intros z [= <-]. exact A.
  - destruct W as (-> & Wl & Wr). destruct A as (Nm & Al & Ar). rewrite <- missing_b_iff in Nm.
    destruct (IHl Wl Al) as [L1 L2]; [destruct Hc as [Hc|(_ & B & C)]; auto|]. destruct (IHr Wr Ar) as [R1 R2]; [destruct Hc as [Hc|(_ & B & C)]; auto|].
    destruct (bin_code op (ntype l) (ntype r) t) as [(M & T & f & Ef & E)|[(M & f & Ef & E)|(M & h & E)]]; rewrite E; [|congruence|]; cbn [rrun].
    + split.
      * intros H. apply rthen_crash in H. destruct H as [H|(x & Hx & H)]; [contradiction|]. apply rthen_crash in H. destruct H as [H|(y & Hy & H)]; [contradiction|].
        rewrite Ef in H. apply unwrap_crash in H. discriminate H.
      * intros z H. rewrite rthen_ret in H. destruct H as (x & Hx & H). rewrite rthen_ret in H. destruct H as (y & Hy & H). rewrite Ef in H. cbn [run_fun2] in H.
        destruct (bin_run op _ _ _ x y z T (L2 _ Hx) (R2 _ Hy)) as [K _]. apply K, H.
    + split.
      * intros H. apply rthen_crash in H. destruct H as [H|(x & Hx & H)]; [contradiction|]. apply rthen_crash in H. destruct H as [H|(y & Hy & H)]; [contradiction|].
        apply unwrap_crash in H. discriminate H.
      * intros z H. rewrite rthen_ret in H. destruct H as (x & Hx & H). rewrite rthen_ret in H. destruct H as (y & Hy & H). rewrite bin_fallback_ok in H. apply machine_ret in H. apply H.
  - destruct W as (-> & We). destruct A as (Nm & Ae). rewrite <- missing_u_iff in Nm.
    destruct (IH We Ae) as [L1 L2]; [destruct Hc as [Hc|(_ & B)]; auto|].
    destruct (un_code op (ntype e) t) as [(M & d & f & Fd & Rd & Ef & E)|[(M & f & Ef & E)|(h & M & E)]]; rewrite E; [|congruence|]; cbn [rrun].
    + split.
      * intros H. apply rthen_crash in H. destruct H as [H|(x & Hx & H)]; [contradiction|]. rewrite Ef in H. apply unwrap_crash in H.
        pose proof (L2 _ Hx) as F1. apply fits_in in F1.
        destruct (family_run checks op _ _ _ x Fd Rd F1) as [K|(Kx & Ks & K)]; [rewrite K in H; discriminate H|].
        destruct Hc as [-> |(N & _)]; [exact (fun1_unchecked _ _ _ _ _ Fd H)|]. apply N. cbn. destruct K as [(-> & Ki)|(-> & _ & _ & Ko)]; split; auto.
      * intros z H. rewrite rthen_ret in H. destruct H as (x & Hx & H). rewrite Ef in H. pose proof (L2 _ Hx) as F1. apply fits_in in F1.
        destruct (family_run checks op _ _ _ x Fd Rd F1) as [K|(Kx & Ks & [(-> & Ki)|(-> & _ & K & _)])].
        -- rewrite K in H. apply unary_ret in H. destruct H as [<- H]. exact H.
        -- rewrite Ki in *. pose proof (family_neg_own _ _ Ks Fd) as ->. cbn [run_fun1] in H. unfold neg_as_signed in H.
           apply fits_in. revert H. clear. unfold machine_neg. destruct (in_rep t (- as_cast t x)) eqn:Q; cbn.
           ++ intros [= <-]. exact Q.
           ++ destruct checks; cbn; [discriminate|]. intros [= <-]. apply as_cast_in.
        -- rewrite K in H. discriminate H.
    + split.
      * intros H. apply rthen_crash in H. destruct H as [H|(x & Hx & H)]; [contradiction|]. apply unwrap_crash in H. discriminate H.
      * intros z H. rewrite rthen_ret in H. destruct H as (x & Hx & H). unfold un_fallback in H. rewrite attempt_cast_ok in H. apply unary_ret in H. destruct H as [<- H]. exact H.
  - destruct W as (-> & We). destruct (IH We A) as [L1 L2]; [destruct Hc as [Hc|(_ & B)]; auto|]. destruct sem.
    + destruct (cast_code (ntype e) t) as [(Q & E)|(d & f & Fd & Ef & E)]; rewrite E; [rewrite <- Q; auto|]. cbn [rrun]. split.
      * intros H. apply rthen_crash in H. destruct H as [H|(x & Hx & H)]; [contradiction|]. rewrite Ef in H. apply unwrap_crash in H.
        rewrite (cast_run checks _ _ _ x Fd (proj2 (fits_in _ _) (L2 _ Hx))) in H. discriminate H.
      * intros z H. rewrite rthen_ret in H. destruct H as (x & Hx & H). rewrite Ef in H.
        rewrite (cast_run checks _ _ _ x Fd (proj2 (fits_in _ _) (L2 _ Hx))) in H. apply unary_ret in H. destruct H as [<- H]. exact H.
    + cbn [synthesize rrun]. split.
      * intros H. apply rthen_crash in H. destruct H as [H|(x & Hx & H)]; [contradiction|discriminate H].
      * intros z H. rewrite rthen_ret in H. destruct H as (x & Hx & [= <-]). apply fits_in, as_cast_in.
  - cbn. split; [discriminate|]. intros z [= <-]. auto.
Qed.

(** ** The interpreter *)

Lemma unsigned_rem env e z : nowhere signed_remainder e -> Computes true env e z -> Computes false env e z.
Proof.
  intros N H. revert N. induction H as [t c F|t x F|t s op out l r x y z Hl IHl Hr IHr E F|t s op out e x H IH F|t s out e x H IH F|t s out e x z H IH F C]; intros N; cbn [nowhere] in N; econstructor; try (now apply IH, N); try eassumption.
  - now apply IHl, N.
  - now apply IHr, N.
  - destruct op; cbn [exactly] in *; auto. destruct E as [E ->]. split; [|reflexivity]. destruct N as (N & _). cbn in N.
    apply computes_fits in Hr. unfold NumericProps.fits in Hr. destruct (is_signed (ntype r)); [now elim N|]. clear - E Hr. lia.
Qed.
Lemma rem_weaker env e z : Computes false env e z -> Computes true env e z.
Proof.
  induction 1; econstructor; eauto. destruct op; cbn [exactly] in *; auto. match goal with X : 0 < _ /\ _ |- _ => destruct X end. split; [lia|assumption].
Qed.
Lemma follows_rep vr e r : Follows vr e r -> r = Auto \/ r = Concrete (ntype e).
Proof.
  induction 1; cbn [ntype]; auto.
  - destruct IHFollows1 as [-> | ->]; [|right; congruence]. destruct IHFollows2 as [-> | ->]; [auto|right; congruence].
  - destruct IHFollows as [-> | ->]; [auto|right; congruence].
Qed.
Section Interp.
Context (vr : label -> numrep) (env : label -> Z) (look : label -> option (Z * numrep)).
Context (Hl : forall x p, vr x = Concrete p -> look x = Some (env x, Concrete p)).
Lemma computes_means e rep z : Follows vr e rep -> Computes false env e z -> Means look (nerase e) z rep.
Proof.
  intros HF. revert z. induction HF as [t w r Hr|t x Hx|t op l r rl rr FL IHL FR IHR Tl Tr|t op l r rl rr FL IHL FR IHR|t op e r F IH T|t op e r F IH|t sem e r F IH T]; intros z HC; inversion HC; subst; cbn [nerase].
  - constructor.
  - constructor. now apply Hl.
  - eapply m_bin; [apply IHL; eassumption|apply IHR; eassumption|destruct op; assumption|].
    destruct (follows_rep _ _ _ FL) as [-> | ->]; [auto|]. destruct (follows_rep _ _ _ FR) as [-> | ->]; [auto|]. left. split; [congruence|reflexivity].
  - eapply m_bin; [apply IHL; eassumption|apply IHR; eassumption|destruct op; assumption|reflexivity].
  - eapply (m_un look op None); [apply IH; eassumption|]. destruct op; reflexivity.
  - eapply (m_un look op (Some t)); [apply IH; eassumption|]. destruct op; reflexivity.
  - eapply m_arith. apply IH. eassumption.
  - match goal with X : Computes false env e _ |- _ => pose proof (computes_fits _ _ _ _ X) as Fx; pose proof (IH _ X) as M end.
    destruct (follows_rep _ _ _ F) as [-> | ->].
    + rewrite (T eq_refl) in Fx. replace z with x by (apply (in_rep_congr_unique t); [now apply fits_in|now apply fits_in|congruence]). now apply m_bits_auto.
    + eapply m_bits; [exact M|assumption|assumption|assumption].
Qed.
Lemma means_computes e rep z : Follows vr e rep -> (forall p, part p e -> exists w r, Means look (nerase p) w r /\ NumericProps.fits (ntype p) w) ->
  forall r', Means look (nerase e) z r' -> Computes false env e z.
Proof.
  assert (U : forall e z z' r r', Means look e z r -> Means look e z' r' -> z = z').
  { intros e0 z0 z' r r' A B. apply C38_eval_exact in A, B. congruence. }
  intros HF. revert z. induction HF as [t w r Hr|t x Hx|t op l r rl rr FL IHL FR IHR Tl Tr|t op l r rl rr FL IHL FR IHR|t op e r F IH T|t op e r F IH|t sem e r F IH T]; intros z HP r' HM.
  all: destruct (HP _ (p_self _)) as (w0 & r0 & M0 & F0); rewrite (U _ _ _ _ _ M0 HM) in F0; clear M0 w0 r0; cbn [ntype] in F0; cbn [nerase] in HM; inversion HM; subst.
  - constructor. exact F0.
  - rewrite (Hl _ _ Hx) in H0. injection H0 as <- <-. constructor. exact F0.
  - econstructor; [eapply IHL; [|eassumption]; intros; apply HP; now constructor|eapply IHR; [|eassumption]; intros; apply HP; now constructor|destruct op; assumption|exact F0].
  - econstructor; [eapply IHL; [|eassumption]; intros; apply HP; now constructor|eapply IHR; [|eassumption]; intros; apply HP; now constructor|destruct op; assumption|exact F0].
  - replace (match op with NNegate => - x | NAbs => Z.abs x | NSucc => x + 1 | NPred => x - 1 end) with (exactly1 op x) in * by reflexivity.
    constructor; [eapply IH; [|eassumption]; intros; apply HP; now constructor|exact F0].
  - replace (match op with NNegate => - x | NAbs => Z.abs x | NSucc => x + 1 | NPred => x - 1 end) with (exactly1 op x) in * by reflexivity.
    constructor; [eapply IH; [|eassumption]; intros; apply HP; now constructor|exact F0].
  - constructor; [eapply IH; [|eassumption]; intros; apply HP; now constructor|exact F0].
  - econstructor; [eapply IH; [|eassumption]; intros; apply HP; now constructor|exact F0|assumption].
  - econstructor; [eapply IH; [|eassumption]; intros; apply HP; now constructor|exact F0|reflexivity].
  - econstructor; [eapply IH; [|eassumption]; intros; apply HP; now constructor|exact F0|reflexivity].
Qed.
Lemma computes_parts e rep z p : Follows vr e rep -> Computes false env e z -> part p e -> exists w r, Means look (nerase p) w r /\ NumericProps.fits (ntype p) w.
Proof.
  intros HF HC HP. revert rep z HF HC. induction HP; intros rep z HF HC.
  - exists z, rep. split; [eapply computes_means; eassumption|eapply computes_fits; eassumption].
  - inversion HC; subst. inversion HF; subst; eapply IHHP; eassumption.
  - inversion HC; subst. inversion HF; subst; eapply IHHP; eassumption.
  - inversion HC; subst. inversion HF; subst; eapply IHHP; eassumption.
  - inversion HF; subst; inversion HC; subst; eapply IHHP; eassumption.
Qed.
End Interp.

(** The tree is a tree of the expression. *)
Lemma elab_erase ty e : forall i t j, elab_tree ty e i = Some (t, j) -> nerase t = e.
Proof.
  induction e as [c|op out a IHa b IHb|op out a IHa|r cs a IHa|x]; intros i t j E; cbn [elab_tree] in E.
  - destruct (ty i); [|discriminate E]. injection E as <- _. reflexivity.
  - destruct (elab_tree ty a (S i)) as [[ta k]|] eqn:Ea; [|discriminate E]. destruct (elab_tree ty b k) as [[tb m]|] eqn:Eb; [|discriminate E]. destruct (ty i); [|discriminate E]. injection E as <- _.
    cbn. now rewrite (IHa _ _ _ Ea), (IHb _ _ _ Eb).
  - destruct (elab_tree ty a (S i)) as [[ta k]|] eqn:Ea; [|discriminate E]. destruct (ty i); [|discriminate E]. injection E as <- _. cbn. now rewrite (IHa _ _ _ Ea).
  - destruct (elab_tree ty a (S i)) as [[ta k]|] eqn:Ea; [|discriminate E]. destruct (ty i); [|discriminate E]. injection E as <- _. cbn. now rewrite (IHa _ _ _ Ea).
  - destruct (ty i); [|discriminate E]. injection E as <- _. reflexivity.
Qed.
