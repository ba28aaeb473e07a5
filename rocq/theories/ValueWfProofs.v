(** Evaluation keeps machine integers in range and characters valid. *)
From Verif Require Import Base BoundsModel BoundsProofs DataModel DataProofs NumericModel NumericProofs ValueModel ValueProofs.
Open Scope nat_scope.

(** A value whose machine integers fit their width and whose characters are
    Unicode scalar values, at every depth. *)
Fixpoint wfv (v : value) : Prop :=
  match v with
  | VU w n => (n < 2 ^ nbits w)%N
  | VUsize n => (n < 2 ^ 64)%N
  | VEnumFromTo lo hi => (lo < 2 ^ 64)%N /\ (hi < 2 ^ 64)%N
  | VChar c => (c < 55296 \/ 57344 <= c <= 1114111)%N
  | VOption (Some v') | VVariant _ v' | VBranch _ v' | VPermitOk v' | VPermitErr (Some v') => wfv v'
  | VMapped a b => wfv a /\ wfv b
  | VTuple vs | VSeq (Strict vs) => fold_right (fun v P => wfv v /\ P) True vs
  | VRecord fs => fold_right (fun f P => match f with (_, v) => wfv v /\ P end) True fs
  | VSeq (Dup _ v') => wfv v'
  | VBool _ | VNumeric _ | VView _ | VPhantom | VOption None | VPermitErr None => True
  end.
(** Literals fit their width. *)
Fixpoint wfe (e : expr) {struct e} : Prop :=
  match e with
  | EU w n => (n < 2 ^ nbits w)%N
  | EVar _ | EBool _ | ENumeric _ | ELiftOption None => True
  | ERecord fs => fold_right (fun f P => match f with (_, e) => wfe e /\ P end) True fs
  | ELambda _ a | EUnary _ a | ETupleProj a _ | ERecordProj a _ | EVariant _ a
  | EAs _ a | EAsChar a | EBytes _ _ a | ESeqLength a | ELiftOption (Some a) => wfe a
  | EArith _ a b | EIntRel _ a b | EAppend a b | EDup a b | EEnumFromTo a b | ESeqIx a b
  | EFlatMap a b | EFlatMapList a _ b | EDestructure a _ b => wfe a /\ wfe b
  | ETuple es | ESeq es => fold_right (fun e P => wfe e /\ P) True es
  | EMatch h bs => wfe h /\ fold_right (fun b P => match b with (_, e) => wfe e /\ P end) True bs
  | ESubSeq a b c | ESubSeqInflate a b c | EFlatMapAccum a b _ c | ELeftFold a b _ c
  | EFindByKey _ a b c => wfe a /\ wfe b /\ wfe c
  end.
Definition wfs {D} (s : scope D) : Prop := forall x v, get_value x s = Some v -> wfv v.

Lemma fold_all {A} (P : A -> Prop) l : fold_right (fun v Q => P v /\ Q) True l <-> Forall P l.
Proof.
  induction l; cbn; split; intros H; auto.
  - destruct H as [H1 H2]. constructor; tauto.
  - inversion H; subst. tauto.
Qed.
Lemma fold_all2 {A B} (P : B -> Prop) (l : list (A * B)) :
  fold_right (fun f Q => match f with (_, v) => P v /\ Q end) True l <-> Forall (fun f => P (snd f)) l.
Proof.
  induction l as [|[a b] l IH]; cbn; split; intros H; auto.
  - destruct H as [H1 H2]. constructor; cbn; tauto.
  - inversion H; subst. cbn in *. tauto.
Qed.
Lemma wfv_seq s : wfv (VSeq s) -> Forall wfv (sk_to_list s).
Proof.
  destruct s as [l|n x]; cbn.
  - now rewrite fold_all.
  - intros H. apply Forall_forall. intros y Hy. apply repeat_spec in Hy. now subst.
Qed.
Lemma wfv_strict l : Forall wfv l -> wfv (VSeq (Strict l)).
Proof. cbn. now rewrite fold_all. Qed.
Lemma wfv_tuple l : Forall wfv l <-> wfv (VTuple l).
Proof. cbn. now rewrite fold_all. Qed.
Lemma wfv_coerce_mapped v : wfv v -> wfv (coerce_mapped v).
Proof. induction v using value_ind'; cbn; auto. tauto. Qed.
Lemma wfv_coerce_nominal v : wfv v -> wfv (coerce_nominal v).
Proof. induction v using value_ind'; cbn; auto. tauto. Qed.

Lemma wf_fit w n m : fit w n = Val m -> (m < 2 ^ nbits w)%N /\ m = n.
Proof. unfold fit. fold (modulus w). destruct (N.ltb_spec n (modulus w)); [|discriminate]. intros [= <-]. auto. Qed.
Lemma lor_lt a b n : (a < 2 ^ n -> b < 2 ^ n -> N.lor a b < 2 ^ n)%N.
Proof.
  intros Ha Hb. destruct (N.eq_0_gt_0_cases (N.lor a b)) as [->|H0]; [apply N.neq_0_lt_0, N.pow_nonzero; lia|].
  apply N.log2_lt_pow2; [exact H0|]. rewrite N.log2_lor.
  assert (H : forall c, (c < 2 ^ n)%N -> (c = 0 \/ N.log2 c < n)%N).
  { intros c Hc. destruct (N.eq_0_gt_0_cases c); [auto|right]. now apply N.log2_lt_pow2. }
  destruct (H a Ha) as [->|H1], (H b Hb) as [->|H2]; rewrite ?N.lor_0_l, ?N.lor_0_r in *; cbn; try lia.
Qed.
Lemma land_le a b : (N.land a b <= a)%N.
Proof. apply subbits_le. intros i. rewrite N.land_spec, andb_true_iff. tauto. Qed.

Lemma wf_arith_apply w op x y z : (x < 2 ^ nbits w -> y < 2 ^ nbits w -> arith_apply w op x y = Val z -> z < 2 ^ nbits w)%N.
Proof.
  intros Hx Hy H. destruct op; cbn [arith_apply] in H; try discriminate.
  - apply wf_fit in H. tauto.
  - destruct (N.leb y x); [|discriminate]. injection H as <-. lia.
  - apply wf_fit in H. tauto.
  - destruct (N.eqb_spec y 0); [discriminate|]. injection H as <-. eapply N.le_lt_trans; [|exact Hx]. now apply N.div_le_upper_bound; [|nia].
  - destruct (N.eqb_spec y 0); [discriminate|]. injection H as <-. eapply N.le_lt_trans; [|exact Hx]. now apply N.mod_le.
  - injection H as <-. eapply N.le_lt_trans; [apply land_le|exact Hx].
  - injection H as <-. now apply lor_lt.
  - destruct (N.ltb _ _); [|discriminate]. injection H as <-. apply N.mod_lt. apply N.pow_nonzero. lia.
  - destruct (N.ltb _ _); [|discriminate]. injection H as <-. eapply N.le_lt_trans; [|exact Hx].
    rewrite N.shiftr_div_pow2. apply N.div_le_upper_bound; [apply N.pow_nonzero; lia|].
    rewrite <- (N.mul_1_l x) at 1. apply N.mul_le_mono_r. apply N.lt_pred_le. cbn. apply N.neq_0_lt_0, N.pow_nonzero. lia.
Qed.
Lemma wf_arith op a b v : wfv a -> wfv b -> value_arith op a b = Val v -> wfv v.
Proof.
  intros Ha Hb H.
  assert (G : (exists p q, v = VBool p /\ q = true) \/ match a, b with
      | VU wl x, VU wr y => if bw_eqb wl wr then omap (VU wl) (arith_apply wl op x y) else Panic
      | VUsize x, VUsize y => omap VUsize (arith_apply B64 op x y)
      | _, _ => Panic end = Val v).
  { destruct op; cbn [value_arith] in H; try (right; exact H); left; destruct a, b; try discriminate; injection H as <-; eexists _, true; split; reflexivity. }
  destruct G as [(p & _ & -> & _)|G]; [exact I|].
  destruct a as [|w1 x| |x| | | | | | | | | | | | |]; try discriminate;
    destruct b as [|w2 y| |y| | | | | | | | | | | | |]; try discriminate.
  - destruct (bw_eqb w1 w2) eqn:E; [|discriminate]. apply bw_eqb_eq in E. subst w2.
    destruct (arith_apply w1 op x y) as [z|] eqn:Ea; [|discriminate]. injection G as <-. exact (wf_arith_apply w1 op x y z Ha Hb Ea).
  - destruct (arith_apply B64 op x y) as [z|] eqn:Ea; [|discriminate]. injection G as <-.
    exact (wf_arith_apply B64 op x y z Ha Hb Ea).
Qed.
Lemma wf_unary op a v : wfv a -> value_unary op a = Val v -> wfv v.
Proof.
  intros Ha H. destruct op; cbn [value_unary] in H; destruct a as [|w1 x| |x| | | | | | | | | | | | |]; try discriminate.
  - injection H as <-. exact I.
  - destruct (unary_apply w1 UIntSucc x) as [z|] eqn:E; [|discriminate]. injection H as <-. apply wf_fit in E. cbn. tauto.
  - destruct (unary_apply B64 UIntSucc x) as [z|] eqn:E; [|discriminate]. injection H as <-. apply wf_fit in E. exact (proj1 E).
  - destruct (unary_apply w1 UIntPred x) as [z|] eqn:E; [|discriminate]. injection H as <-. cbn in *. destruct (N.eqb x 0); [discriminate|]. injection E as <-. lia.
  - destruct (unary_apply B64 UIntPred x) as [z|] eqn:E; [|discriminate]. injection H as <-. cbn [unary_apply] in E.
    destruct (N.eqb x 0); [discriminate|]. injection E as <-. cbn [wfv] in *. lia.
Qed.
Lemma wf_as w a v : value_as w a = Val v -> wfv v.
Proof.
  destruct a; try discriminate; cbn; (destruct (fit w n) as [m|] eqn:E; [|discriminate]); intros [= <-]; apply wf_fit in E; cbn; tauto.
Qed.
Lemma char_scalar n c : char_from_u32 n = Some c -> (c < 55296 \/ 57344 <= c <= 1114111)%N.
Proof. unfold char_from_u32. destruct (_ || _) eqn:E; [|discriminate]. intros [= <-]. lia. Qed.
Lemma wf_char a v : wfv a -> value_as_char a = Val v -> wfv v.
Proof.
  assert (C : forall n, wfv (VChar (match char_from_u32 n with Some c => c | None => replacement_char end))).
  { intros n. cbn. destruct (char_from_u32 n) eqn:E; [now apply char_scalar in E|unfold replacement_char; lia]. }
  intros Ha H. destruct a as [|w1 x| |x| | | | | | | | | | | | |]; try discriminate; cbn in H.
  - destruct w1; try (destruct (N.ltb x _); [injection H as <-; apply C|discriminate]).
    injection H as <-. change (x < 256)%N in Ha. cbn. lia.
  - destruct (N.ltb x _); [injection H as <-; apply C|discriminate].
Qed.
Lemma bytes_of_wf vs bs : Forall wfv vs -> bytes_of vs = Some bs -> Forall (fun b => (b < 256)%N) bs.
Proof.
  intros H. revert bs. induction H as [|v vs Hv Hvs IH]; cbn; intros bs E; [injection E as <-; constructor|].
  destruct v as [|[] x| |x| | | | | | | | | | | | |]; try discriminate. destruct (bytes_of vs); [|discriminate].
  injection E as <-. constructor; auto.
Qed.
Lemma from_be_bound l : Forall (fun b => (b < 256)%N) l -> (from_be_bytes l < 256 ^ N.of_nat (length l))%N.
Proof. intros H. rewrite from_be_le, <- rev_length. apply from_le_bound. apply Forall_forall. intros x Hx. rewrite <- in_rev in Hx. rewrite Forall_forall in H. auto. Qed.
Lemma wf_from_bytes be w a v : wfv a -> value_from_bytes be w a = Val v -> wfv v.
Proof.
  intros Ha H. unfold value_from_bytes in H. destruct a; try discriminate. cbn [unwrap_tuple obind] in H.
  apply wfv_tuple in Ha. destruct (bytes_of vs) as [bs|] eqn:E; [|discriminate].
  destruct (Nat.eqb_spec (length bs) (N.to_nat (nbits w / 8))) as [L|]; [|discriminate]. injection H as <-.
  pose proof (bytes_of_wf _ _ Ha E) as Hb. pose proof (from_be_bound bs Hb) as B1. pose proof (from_le_bound bs Hb) as B2.
  rewrite L in B1, B2. cbn [wfv]. destruct w; destruct be; try exact B1; exact B2.
Qed.

Lemma omapM_wf {A B} (P : B -> Prop) (f : A -> outcome B) l : (forall x y, In x l -> f x = Val y -> P y) ->
  forall r, omapM f l = Val r -> Forall P r.
Proof.
  induction l as [|a l IH]; cbn; intros H r E; [injection E as <-; constructor|].
  destruct (f a) as [y|] eqn:Ea; [|discriminate]. cbn [obind] in E.
  destruct (omapM f l) as [ys|] eqn:El; [|discriminate]. injection E as <-. constructor; eauto.
Qed.
Lemma ofoldM_wf {A B} (P : B -> Prop) (f : B -> A -> outcome B) l : (forall acc x y, P acc -> In x l -> f acc x = Val y -> P y) ->
  forall acc r, P acc -> ofoldM f acc l = Val r -> P r.
Proof.
  induction l as [|a l IH]; cbn; intros H acc r Hacc E; [injection E as <-; exact Hacc|].
  destruct (f acc a) as [y|] eqn:Ea; [|discriminate]. cbn [obind] in E. eapply IH; [| |exact E]; eauto.
Qed.

Lemma wfs_matches {D} (s s' : scope D) p v : wfs s -> wfv v -> vmatches v s p = Some s' -> wfs s'.
Proof.
  unfold vmatches. intros Hs Hv H. apply wfv_coerce_nominal in Hv. revert H Hv. generalize (coerce_nominal v). clear v. intros v H Hv.
  destruct (matches_inner p v []) as [bs|] eqn:E; [|discriminate]. injection H as <-.
  assert (Hbs : Forall (fun b => wfv (snd b)) bs).
  { apply matches_iff in E.
    assert (G : (forall p v bs, Matches p v bs -> wfv v -> Forall (fun b => wfv (snd b)) bs)).
    { clear. induction p as [y| |b|w n|b|z|b|c|ps IH|l p IH|ps IH| |p IH] using pattern_ind'; intros v bs M Hv;
        inversion M; subst; try (constructor; cbn; [exact Hv|constructor]); try constructor.
      - apply wfv_tuple in Hv. revert vs bss H0 Hv M. induction ps as [|p ps IHps]; intros; inversion H0; subst; cbn; [constructor|].
        inversion IH; subst. inversion Hv; subst. apply Forall_app. split; [eauto|]. eapply IHps; eauto. now constructor.
      - eapply IH; eauto.
      - apply wfv_seq in Hv. clear M. revert H0 Hv. generalize (sk_to_list s). intros vs H0 Hv. revert vs bss H0 Hv.
        induction ps as [|p ps IHps]; intros; inversion H0; subst; cbn; [constructor|].
        inversion IH; subst. inversion Hv; subst. apply Forall_app. split; [eauto|]. eapply IHps; eauto.
      - eapply IH; eauto. }
    eapply G; eauto. }
  intros x u Hx. cbn in Hx.
  destruct (scan_value x _) as [u'|] eqn:Es; [|eapply Hs; eauto]. injection Hx as <-.
  assert (Hin : In (x, EntVal u') (rev (map (fun b => (fst b, EntVal (snd b))) bs))).
  { revert Es. generalize (rev (map (fun b : label * value => (fst b, EntVal (snd b))) bs)). intros l. induction l as [|[n [c|w]] l IH]; cbn; [discriminate|auto|].
    destruct (N.eqb_spec n x); [intros [= <-]; subst; auto|auto]. }
  apply in_rev, in_map_iff in Hin. destruct Hin as ([y w] & [= _ <-] & Hin). rewrite Forall_forall in Hbs. exact (Hbs _ Hin).
Qed.
Lemma wfs_single {D} (s : scope D) x v : wfs s -> wfv v -> wfs (SSingle s x v).
Proof. intros Hs Hv y u. cbn. destruct (N.eqb x y); [intros [= <-]; exact Hv|apply Hs]. Qed.

Definition wf_eval (e : expr) : Prop := forall D (s : scope D) v, wfe e -> wfs s -> eval e s = Val v -> wfv v.
Definition wf_body (e : expr) : Prop := forall x b, e = ELambda x b -> wf_eval b.

Lemma omap_val {A B} (f : A -> B) o r : omap f o = Val r -> exists x, o = Val x /\ r = f x.
Proof. destruct o; cbn; [intros [= <-]; eauto|discriminate]. Qed.
Lemma obind_val {A B} (f : A -> outcome B) o r : obind o f = Val r -> exists x, o = Val x /\ f x = Val r.
Proof. destruct o; cbn; [eauto|discriminate]. Qed.

Ltac inv_o := repeat match goal with
  | H : omap _ _ = Val _ |- _ => apply omap_val in H; destruct H as (? & H & ->)
  | H : obind _ _ = Val _ |- _ => let E := fresh "E" in apply obind_val in H; destruct H as (? & E & H)
  | H : Val _ = Val _ |- _ => injection H as <-
  end.

Lemma wf_usize v n : wfv v -> unwrap_usize v = Val n -> (n < 2 ^ 64)%N.
Proof.
  intros Hv H. destruct v; try discriminate.
  - injection H as <-. cbn in Hv. eapply N.lt_le_trans; [exact Hv|]. apply N.pow_le_mono_r; [lia|apply nbits_le].
  - injection H as <-. exact Hv.
  - cbn in H. destruct (tc_as_usize c) as [m|] eqn:E; [|discriminate]. injection H as <-.
    unfold tc_as_usize, try_into in E. destruct (zb_contains (as_bounds rU64) (tc_val c)) eqn:R; [|discriminate]. injection E as <-.
    apply zb_contains_iff in R. change (2 ^ 64)%N with 18446744073709551616%N. cbn in R. lia.
Qed.
Lemma wf_range lo hi : (lo < 2 ^ 64)%N -> (hi < 2 ^ 64)%N -> Forall wfv (range_values lo hi).
Proof.
  intros H1 H2. unfold range_values. apply Forall_forall. intros v Hv. apply in_map_iff in Hv.
  destruct Hv as (n & <- & Hn). apply in_nrange in Hn. cbn [wfv]. lia.
Qed.
Lemma wf_vseq v q : wfv v -> seq_of v = Val q -> Forall wfv (vseq_list q) /\ match q with SVals s => wfv (VSeq s) | SRange lo hi => (lo < 2 ^ 64)%N /\ (hi < 2 ^ 64)%N end.
Proof.
  intros Hv H. apply wfv_coerce_mapped in Hv. unfold seq_of in H. destruct (coerce_mapped v); try discriminate; injection H as <-; cbn [vseq_list].
  - split; [apply wf_range; cbn [wfv] in Hv; tauto|exact Hv].
  - split; [now apply wfv_seq|exact Hv].
Qed.
Lemma wf_nth vs i v : Forall wfv vs -> nth_error vs i = Some v -> wfv v.
Proof. intros H E. apply nth_error_In in E. rewrite Forall_forall in H. auto. Qed.
Lemma wf_sk_index s i v : wfv (VSeq s) -> sk_index s i = Val v -> wfv v.
Proof.
  intros Hs H. apply wfv_seq in Hs. unfold sk_index in H. rewrite sk_get_spec in H.
  destruct (nth_error _ _) eqn:E; [|discriminate]. injection H as <-. eapply wf_nth; eauto.
Qed.
Lemma wf_inflate hist start n : Forall wfv hist -> forall out r, Forall wfv out -> inflate_loop hist start n out = Val r -> Forall wfv r.
Proof.
  intros Hh. induction n; cbn [inflate_loop]; intros out r Ho E; [injection E as <-; exact Ho|].
  destruct (Nat.ltb (length out + start) (length hist)).
  - destruct (nth_error hist _) eqn:En; [|discriminate]. eapply IHn; [|exact E]. apply Forall_app. split; [exact Ho|]. constructor; [|constructor]. exact (wf_nth _ _ _ Hh En).
  - destruct (nth_error out _) eqn:En; [|discriminate]. eapply IHn; [|exact E]. apply Forall_app. split; [exact Ho|]. constructor; [|constructor]. exact (wf_nth _ _ _ Ho En).
Qed.
Lemma Forall_firstn' {A} (P : A -> Prop) n l : Forall P l -> Forall P (firstn n l).
Proof. intros H. apply Forall_forall. intros x Hx. rewrite Forall_forall in H. apply H. rewrite <- (firstn_skipn n l). apply in_app_iff. auto. Qed.
Lemma Forall_skipn' {A} (P : A -> Prop) n l : Forall P l -> Forall P (skipn n l).
Proof. intros H. apply Forall_forall. intros x Hx. rewrite Forall_forall in H. apply H. rewrite <- (firstn_skipn n l). apply in_app_iff. auto. Qed.

Lemma wf_sub_seq s a b t : wfv (VSeq s) -> sk_sub_seq s a b = Val t -> wfv (VSeq t).
Proof.
  intros Hs. destruct s as [l|n x]; cbn [sk_sub_seq].
  - destruct (Nat.leb a (length l)); [|discriminate]. destruct (Nat.leb _ _); [|discriminate]. intros [= <-].
    apply wfv_strict. apply Forall_firstn', Forall_skipn'. exact (wfv_seq _ Hs).
  - destruct (Nat.leb _ _); [|discriminate]. intros [= <-]. exact Hs.
Qed.
Lemma wf_append s t : wfv (VSeq s) -> wfv (VSeq t) -> wfv (VSeq (sk_append s t)).
Proof.
  intros Hs Ht. unfold sk_append. destruct (sk_is_empty s); [exact Ht|]. destruct (sk_is_empty t); [exact Hs|].
  apply wfv_strict. apply Forall_app. split; now apply wfv_seq.
Qed.
Lemma wf_int_rel r a b v : value_int_rel r a b = Val v -> wfv v.
Proof.
  intros H. destruct a, b; cbn in H; try discriminate; try (injection H as <-; exact I).
  - destruct (bw_eqb w w0); [injection H as <-; exact I|discriminate].
  - destruct (get_as_unsigned w c); [injection H as <-; exact I|discriminate].
  - destruct (get_as_unsigned w c); [injection H as <-; exact I|discriminate].
Qed.

Lemma wf_lambda {D} f (s : scope D) arg v : wf_body f -> wfe f -> wfs s -> wfv arg ->
  match f with ELambda x body => omap coerce_mapped (eval body (SSingle s x arg)) | _ => Panic end = Val v -> wfv v.
Proof.
  intros Hb Hf Hs Ha H. destruct f; try discriminate. inv_o. apply wfv_coerce_mapped.
  eapply (Hb _ _ eq_refl); [exact Hf| |exact H]. now apply wfs_single.
Qed.

Ltac fwd := repeat match goal with
  | HE : eval ?e ?s = Val ?x, HP : wf_eval ?e, Hw : wfe ?e, Hs : wfs ?s |- _ =>
    let G := fresh "G" in pose proof (HP _ _ _ Hw Hs HE) as G;
    let G2 := fresh "G" in pose proof (wfv_coerce_mapped _ G) as G2; clear HE
  end.
Ltac ands := repeat match goal with H : _ /\ _ |- _ => destruct H end.

Lemma wf_strict_seq v q : wfv v -> strict_seq v = Val q -> Forall wfv (sk_to_list q) /\ wfv (VSeq q).
Proof. intros Hv H. destruct v; try discriminate. injection H as <-. split; [now apply wfv_seq|exact Hv]. Qed.
Lemma wf_pair a b : wfv a -> wfv b -> wfv (VTuple [a; b]).
Proof. cbn. tauto. Qed.
Lemma in_wf vs v : Forall wfv vs -> In v vs -> wfv v.
Proof. intros H Hi. rewrite Forall_forall in H. auto. Qed.

Lemma eval_wf e : wf_eval e /\ wf_body e.
Proof.
  induction e using expr_ind'; (split; [intros D s v Hw Hs H0|intros x0 b0 E0; try discriminate; injection E0 as <- <-; tauto]);
    cbn [wfe] in Hw; cbn [eval] in H0; ands; inv_o; fwd.
  - (* var *) destruct (get_value x s) eqn:E; [|discriminate]. injection H0 as <-. eapply Hs; eauto.
  - exact I.
  - exact Hw.
  - (* tuple *) apply wfv_tuple. apply fold_all in Hw. eapply omapM_wf; [|exact H0]. intros e y Hin Ey. cbn in Ey. inv_o.
    apply wfv_coerce_mapped. rewrite Forall_forall in *. destruct (H e Hin). eauto.
  - destruct (coerce_mapped x); try discriminate; cbn in H0.
    + destruct (nth_error vs i) eqn:En; [|discriminate]. injection H0 as <-. apply wfv_tuple in G0. exact (wf_nth _ _ _ G0 En).
    + inv_o. exact I.
  - (* record *) cbn [wfv]. apply fold_all2. apply fold_all2 in Hw. eapply omapM_wf; [|exact H0]. intros [l e] y Hin Ey. cbn in Ey. inv_o.
    cbn [snd]. rewrite Forall_forall in *. destruct (H _ Hin) as [HH _]. eapply HH; [exact (Hw _ Hin)|exact Hs|exact Ey].
  - destruct (coerce_mapped x); try discriminate; cbn in H0.
    + destruct (assoc l fs) eqn:En; [|discriminate]. injection H0 as <-. cbn [wfv] in G0. apply fold_all2 in G0.
      clear -G0 En. induction fs as [|[l' u] fs IH]; cbn in En; [discriminate|]. inversion G0; subst.
      destruct (N.eqb l l'); [injection En as <-; assumption|auto].
    + inv_o. exact I.
  - cbn [wfv]. assumption.
  - apply wfv_strict. apply fold_all in Hw. eapply omapM_wf; [|exact H0]. intros e y Hin Ey. cbn in Ey. inv_o.
    apply wfv_coerce_mapped. rewrite Forall_forall in *. destruct (H e Hin). eauto.
  - destruct (neval _ _); try discriminate. inv_o. exact I.
  - (* match *)
    match goal with HX : fold_right _ _ _ |- _ => apply fold_all2 in HX; rename HX into HF end.
    revert H0. induction bs as [|[p b] bs IH]; intros H0; [discriminate|]. inversion H; subst. inversion HF; subst. cbn [snd] in *.
    cbn in H0. destruct (vmatches x s p) as [s'|] eqn:Em.
    + inv_o. apply wfv_coerce_mapped. ands. match goal with HP : wf_eval b |- _ => eapply HP; [assumption| |exact H0] end. eapply wfs_matches; [exact Hs| |exact Em]; assumption.
    + apply IH; assumption.
  - destruct (vmatches x s p) as [s'|] eqn:Em; [|discriminate].
    inv_o. apply wfv_coerce_mapped. match goal with HP : wf_eval e2 |- _ => eapply HP; [assumption| |exact H0] end. eapply wfs_matches; [exact Hs| |exact Em]; assumption.
  - discriminate.
  - eapply wf_int_rel; eauto.
  - eapply wf_arith; [| |exact H0]; assumption.
  - eapply wf_unary; [|exact H0]; assumption.
  - eapply wf_as; eauto.
  - eapply wf_char; [|exact H0]; assumption.
  - eapply wf_from_bytes; [|exact H0]; assumption.
  - cbn [wfv]. unfold as_u32. change (2 ^ nbits B32)%N with 4294967296%N. apply N.mod_lt. discriminate.
  - (* sub_seq *)
    match goal with HQ : seq_of ?u = Val ?q, Hu : wfv ?u |- _ => destruct (wf_vseq _ _ Hu HQ) as [Q1 Q2]; destruct q as [sq|lo hi] end; cbn [seq_sub] in H0.
    + inv_o. eapply wf_sub_seq; eauto.
    + inv_o. unfold sub_range in H0. match type of H0 with (if ?c then _ else _) = _ => destruct c eqn:Ec; [|discriminate] end. injection H0 as <-. cbn [fst snd wfv]. lia.
  - (* ix *)
    match goal with HQ : seq_of ?u = Val ?q, Hu : wfv ?u |- _ => destruct (wf_vseq _ _ Hu HQ) as [Q1 Q2]; destruct q as [sq|lo hi] end; cbn [seq_ix] in H0.
    + eapply wf_sk_index; eauto.
    + match type of H0 with (if ?c then _ else _) = _ => destruct c eqn:Ec; [|discriminate] end. injection H0 as <-. cbn [wfv]. lia.
  - (* inflate *)
    match goal with HQ : seq_of ?u = Val ?q, Hu : wfv ?u |- _ => destruct (wf_vseq _ _ Hu HQ) as [Q1 _] end. unfold seq_inflate in H0. inv_o.
    apply wfv_strict. eapply wf_inflate; [exact Q1|constructor|exact H0].
  - (* flat_map *)
    match goal with HQ : seq_of ?u = Val ?q, Hu : wfv ?u |- _ => destruct (wf_vseq _ _ Hu HQ) as [Q1 _] end.
    apply wfv_strict.
    assert (HF : Forall (Forall wfv) x1).
    { eapply omapM_wf; [|exact H0]. intros a y Hin Ey. cbv beta in Ey. inv_o.
      match goal with HL : match e1 with ELambda _ _ => _ | _ => _ end = Val _ |- _ => apply wf_lambda in HL; try assumption; [|exact (in_wf _ _ Q1 Hin)] end.
      destruct x2; try discriminate; cbn in Ey; injection Ey as <-; [apply wf_range; cbn [wfv] in *; tauto|now apply wfv_seq]. }
    clear -HF. induction HF; cbn; [constructor|]. apply Forall_app. auto.
  - (* flat_map_accum *)
    match goal with HQ : strict_seq ?u = Val ?q, Hu : wfv ?u |- _ => destruct (wf_strict_seq _ _ Hu HQ) as [Q1 _] end.
    apply wfv_strict.
    assert (HF : wfv (fst x2) /\ Forall wfv (snd x2)).
    { eapply (ofoldM_wf (fun st : value * list value => wfv (fst st) /\ Forall wfv (snd st))); [| |exact H0]; [|split; [assumption|constructor]].
      intros [acc out] a y [Ha Ho] Hin Ey. cbn [fst snd] in *. inv_o.
      match goal with HL : match e1 with ELambda _ _ => _ | _ => _ end = Val _ |- _ => apply wf_lambda in HL; try assumption; [|apply wf_pair; [assumption|exact (in_wf _ _ Q1 Hin)]] end.
      match goal with HP : accum_pair ?r = Val ?pr |- _ => unfold accum_pair in HP; destruct r; try discriminate; cbn in HP;
        destruct vs as [|a1 [|[] [|]]]; try discriminate; injection HP as <- end. cbn [fst snd].
      match goal with HV : wfv (VTuple _) |- _ => apply wfv_tuple in HV; inversion HV as [|? ? W1 W2]; inversion W2; subst end.
      split; [assumption|]. apply Forall_app. split; [assumption|]. now apply wfv_seq. }
    exact (proj2 HF).
  - (* flat_map_list *)
    match goal with HQ : strict_seq ?u = Val ?q, Hu : wfv ?u |- _ => destruct (wf_strict_seq _ _ Hu HQ) as [Q1 _] end.
    apply wfv_strict. eapply (ofoldM_wf (Forall wfv)); [| |exact H0]; [|constructor].
    intros acc a y Ha Hin Ey. cbv beta in Ey. inv_o.
    match goal with HL : match e1 with ELambda _ _ => _ | _ => _ end = Val _ |- _ => apply wf_lambda in HL; try assumption; [|apply wf_pair; [now apply wfv_strict|exact (in_wf _ _ Q1 Hin)]] end.
    match goal with HQ : strict_seq ?u = Val ?q, Hu : wfv ?u |- Forall wfv (acc ++ sk_to_list ?q) => destruct (wf_strict_seq _ _ Hu HQ) as [Q3 _] end.
    apply Forall_app. auto.
  - (* find *)
    match goal with HQ : strict_seq ?u = Val ?q, Hu : wfv ?u |- _ => destruct (wf_strict_seq _ _ Hu HQ) as [_ Q1] end.
    destruct b.
    + match type of H0 with match ?c with Some _ => _ | None => _ end = _ => destruct c; [|discriminate] end. inv_o.
      match goal with o : option nat |- _ => destruct o end; inv_o; [|exact I]. cbn [wfv]. eapply wf_sk_index; eauto.
    + inv_o. match goal with o : option nat |- _ => destruct o end; inv_o; [|exact I]. cbn [wfv]. eapply wf_sk_index; eauto.
  - cbn [wfv]. split; match goal with HU : unwrap_usize ?a = Val ?n |- (?n < _)%N => eapply wf_usize; [|exact HU]; assumption end.
  - (* fold *)
    match goal with HQ : strict_seq ?u = Val ?q, Hu : wfv ?u |- _ => destruct (wf_strict_seq _ _ Hu HQ) as [Q1 _] end.
    eapply (ofoldM_wf wfv); [| |exact H0]; [|assumption].
    intros acc a y Ha Hin Ey. cbv beta in Ey. eapply wf_lambda; [| | | |exact Ey]; try assumption.
    apply wf_pair; [assumption|exact (in_wf _ _ Q1 Hin)].
  - cbn [wfv]. assumption.
  - exact I.
  - cbn [wfv]. assumption.
  - (* append *)
    match goal with HQ : seq_of ?u = Val ?q, Hu : wfv ?u, HQ2 : seq_of ?u2 = Val ?q2, Hu2 : wfv ?u2 |- _ =>
      tryif constr_eq q q2 then fail else (destruct (wf_vseq _ _ Hu HQ) as [_ Q1]; destruct (wf_vseq _ _ Hu2 HQ2) as [_ Q2]) end.
    match type of H0 with (if ?c then _ else _) = _ => destruct c end; [inv_o; assumption|].
    match type of H0 with (if ?c then _ else _) = _ => destruct c end; [inv_o; assumption|].
    inv_o. destruct x1, x2; try discriminate. cbn in H0. injection H0 as <-. now apply wf_append.
Qed.
