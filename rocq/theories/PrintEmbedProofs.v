(** Format expressions, translated, printed and read, keep their values. *)
From Coq Require Import String.
From Verif Require Import Base NumericModel ValueModel RecordModel PrintModel PrintSpec PrintReadProofs PrintProofs.
Open Scope nat_scope.

(** ** What the translation makes can be printed *)

Lemma embed_arith t op a b x : embed t (EArith op a b) = Some x -> exists xa xb, embed t a = Some xa /\ embed t b = Some xb
  /\ x = match op with ASub => XCall (XName n_try_sub) [xa; xb; XLit (LInt B64 t)] | _ => XBin (arith_infix op) xa xb end.
Proof. cbn. destruct (embed t a), (embed t b); try discriminate. intros [= <-]. eauto. Qed.
Lemma embed_rel t r a b x : embed t (EIntRel r a b) = Some x -> exists xa xb, embed t a = Some xa /\ embed t b = Some xb
  /\ x = XBin (rel_infix r) xa xb.
Proof. cbn. destruct (embed t a), (embed t b); try discriminate. intros [= <-]. eauto. Qed.
Lemma embed_unary t op a x : embed t (EUnary op a) = Some x -> exists xa, embed t a = Some xa
  /\ x = match op with UBoolNot => XNot xa | UIntPred => XCall (XName n_pred) [xa] | UIntSucc => XCall (XName n_succ) [xa] end.
Proof. cbn. destruct (embed t a); try discriminate. intros [= <-]. eauto. Qed.
Lemma embed_as t w a x : embed t (EAs w a) = Some x -> exists xa, embed t a = Some xa /\ x = XCast xa (width_type w).
Proof. cbn. destruct (embed t a); try discriminate. intros [= <-]. eauto. Qed.

Lemma embed_chain t op : regroups op = true -> forall e x, embed t e = Some x -> regroups_right op x = true.
Proof.
  intros Ho. assert (Go : match op with OAdd | OBitOr | OBitAnd | OOr | OAnd => True | _ => False end) by (destruct op; easy).
  induction e; intros z He; try discriminate He.
  - now injection He as <-.
  - now injection He as <-.
  - now injection He as <-.
  - apply embed_rel in He as (xa & xb & Ea & Eb & ->). cbn. clear - Go. destruct op, r; try contradiction; reflexivity.
  - apply embed_arith in He as (xa & xb & Ea & Eb & ->). specialize (IHe1 _ Ea). clear - Go IHe1. destruct op0; cbn; try reflexivity;
      destruct op; try contradiction; cbn; auto.
  - apply embed_unary in He as (xa & Ea & ->). destruct op0; reflexivity.
  - apply embed_as in He as (xa & Ea & ->). reflexivity.
Qed.
Lemma embed_numeric t e x : embed t e = Some x -> numeric e = true -> not_logical x = true.
Proof.
  intros He Hn. destruct e; try discriminate He; try (injection He as <-; reflexivity); try discriminate Hn.
  - apply embed_arith in He as (xa & xb & Ea & Eb & ->). destruct op; try discriminate; reflexivity.
  - apply embed_unary in He as (xa & Ea & ->). destruct op; reflexivity.
  - apply embed_as in He as (xa & Ea & ->). reflexivity.
Qed.
Lemma embed_right t op e x : embed t e = Some x -> op <> ASub -> no_regroup op e = true -> regroups_right (arith_infix op) x = true.
Proof.
  intros He Hs Hn. destruct (regroups (arith_infix op)) eqn:Er; [eapply embed_chain; eauto|].
  destruct e; try discriminate He; try (injection He as <-; reflexivity).
  - apply embed_rel in He as (xa & xb & Ea & Eb & ->). cbn. destruct op, r; try discriminate; try contradiction; reflexivity.
  - apply embed_arith in He as (xa & xb & Ea & Eb & ->). destruct op, op0; try discriminate; try contradiction; reflexivity.
  - apply embed_unary in He as (xa & Ea & ->). destruct op0; reflexivity.
  - apply embed_as in He as (xa & Ea & ->). reflexivity.
Qed.
Lemma numeric_right r x : not_logical x = true -> regroups_right (rel_infix r) x = true.
Proof. destruct x; try reflexivity. cbn. destruct op, r; try discriminate; reflexivity. Qed.
Lemma embed_printable t : forall e x, embed t e = Some x -> arithmetic e = true -> printable_up_to_grouping x = true.
Proof.
  unfold printable_up_to_grouping. fix IH 1. intros e x He Ha. destruct e; try discriminate He; try (injection He as <-; reflexivity).
  - cbn in Ha. apply embed_rel in He as (xa & xb & Ea & Eb & ->). bsplit. cbn [printable_with].
    rewrite (IH _ _ Ea), (IH _ _ Eb) by assumption. rewrite numeric_right by (eapply embed_numeric; eauto).
    rewrite !(embed_numeric t _ _ Ea), !(embed_numeric t _ _ Eb) by assumption. destruct r; reflexivity.
  - cbn in Ha. apply embed_arith in He as (xa & xb & Ea & Eb & ->). bsplit.
    destruct op; cbn [printable_with forallb callable];
      try (rewrite (IH _ _ Ea), (IH _ _ Eb) by assumption; rewrite (embed_right t _ _ _ Eb) by (try discriminate; assumption); reflexivity).
    rewrite (IH _ _ Ea), (IH _ _ Eb) by assumption. reflexivity.
  - cbn in Ha. apply embed_unary in He as (xa & Ea & ->). destruct op; cbn [printable_with forallb callable]; rewrite (IH _ _ Ea) by assumption; reflexivity.
  - cbn in Ha. apply embed_as in He as (xa & Ea & ->). cbn [printable_with]. now apply (IH _ _ Ea).
Qed.

(** ** Rust's operations may be regrouped *)
Lemma bw_eqb_eq a b : bw_eqb a b = true <-> a = b.
Proof. destruct a, b; cbn; split; congruence. Qed.
Lemma rust_regroups op x y z : regroups op = true -> rust_bin op x (rust_bin op y z) = rust_bin op (rust_bin op x y) z.
Proof.
  intros Ho.
  assert (Arith : forall (f : bitwidth -> N -> N -> outcome N) (g : outcome value -> outcome value -> outcome value),
    (forall x y, g x y = obind x (fun u => obind y (fun v => match u, v with
       | VU wa a, VU wb b => if bw_eqb wa wb then omap (VU wa) (f wa a b) else Panic | _, _ => Panic end))) ->
    (forall w a b c, obind (f w b c) (f w a) = obind (f w a b) (fun d => f w d c)) ->
    g x (g y z) = g (g x y) z).
  { intros f g Hg Hf. rewrite !Hg. destruct x as [u|]; [|reflexivity]. cbn [obind]. destruct y as [v|]; [|reflexivity]. cbn [obind].
    destruct z as [t|].
    - cbn [obind]. destruct u as [ | wa na | | | | | | | | | | | | | | | ]; destruct v as [ | wb nb | | | | | | | | | | | | | | | ]; try reflexivity;
        try (destruct t as [ | wc nc | | | | | | | | | | | | | | | ]; try reflexivity; destruct (bw_eqb wb wc); try reflexivity; destruct (f wb nb nc); reflexivity);
        try (destruct (bw_eqb wa wb); try reflexivity; destruct (f wa na nb); reflexivity).
      destruct t as [ | wc nc | | | | | | | | | | | | | | | ]; try (destruct (bw_eqb wa wb); try reflexivity; destruct (f wa na nb); reflexivity).
      destruct (bw_eqb wb wc) eqn:E2; destruct (bw_eqb wa wb) eqn:E1.
      + apply bw_eqb_eq in E1, E2. subst wb wc. specialize (Hf wa na nb nc).
        destruct (f wa nb nc) as [bc|]; destruct (f wa na nb) as [ab|]; cbn [obind omap] in *; rewrite ?(proj2 (bw_eqb_eq wa wa) eq_refl); try rewrite Hf; try reflexivity.
        now rewrite <- Hf.
      + destruct (f wb nb nc); cbn [omap obind]; [rewrite E1|]; reflexivity.
      + destruct (f wa na nb); cbn [omap obind]; [|reflexivity]. apply bw_eqb_eq in E1. subst wb. now rewrite E2.
      + reflexivity.
    - cbn [obind]. destruct u as [ | wa na | | | | | | | | | | | | | | | ]; try reflexivity; destruct v as [ | wb nb | | | | | | | | | | | | | | | ]; try reflexivity.
      destruct (bw_eqb wa wb); [|reflexivity]. destruct (f wa na nb); reflexivity. }
  destruct op; try discriminate.
  - apply (Arith (fun w a b => int_op w OAdd a b) (rust_bin OAdd)); [reflexivity|].
    intros w a b c. unfold int_op. generalize (2 ^ nbits w)%N. intros M.
    destruct (N.ltb_spec (b + c) M); destruct (N.ltb_spec (a + b) M); cbn [obind]; try reflexivity.
    + now rewrite N.add_assoc.
    + destruct (N.ltb_spec (a + (b + c)) M); [lia|reflexivity].
    + destruct (N.ltb_spec (a + b + c) M); [lia|reflexivity].
  - apply (Arith (fun w a b => int_op w OBitOr a b) (rust_bin OBitOr)); [reflexivity|]. intros w a b c. cbn. now rewrite N.lor_assoc.
  - apply (Arith (fun w a b => int_op w OBitAnd a b) (rust_bin OBitAnd)); [reflexivity|]. intros w a b c. cbn. now rewrite N.land_assoc.
  - destruct x as [u|]; [|reflexivity]. destruct u as [[]| | | | | | | | | | | | | | | | ]; try reflexivity.
    destruct y as [v|]; [|reflexivity]. destruct v as [[]| | | | | | | | | | | | | | | | ]; try reflexivity.
    destruct z as [t|]; [|reflexivity]. destruct t; reflexivity.
  - destruct x as [u|]; [|reflexivity]. destruct u as [[]| | | | | | | | | | | | | | | | ]; try reflexivity.
    destruct y as [v|]; [|reflexivity]. destruct v as [[]| | | | | | | | | | | | | | | | ]; try reflexivity.
    destruct z as [t|]; [|reflexivity]. destruct t; reflexivity.
Qed.

Lemma rust_regroupable env : regroupable (rust_meaning env).
Proof. intros op Ho [a x] [b y] [c z]. cbn. now rewrite rust_regroups. Qed.

(** ** Values *)
Lemma arith_op_eq_dec (a b : arith_op) : {a = b} + {a <> b}.
Proof. decide equality. Defined.
Section Values.
Context (s : scope value) (t : N).
Let vars_ok (e : expr) : Prop := forall y v, In y (variables e) -> eval_value (EVar y) s = Val v -> machine_value v.
Let env (y : label) : outcome value := eval_value (EVar y) s.

(** What the two evaluations may be *)
Definition agree (e : expr) (i g : outcome value) : Prop := forall v, i = Val v -> machine_value v
  /\ (g = Val v \/ (g = Panic /\ shifts_by_constants e = false)).

Lemma rust_eval_bin op a b : rust_eval env (XBin op a b) = rust_bin op (rust_eval env a) (rust_eval env b).
Proof. reflexivity. Qed.
Lemma machine_coerce v : machine_value v -> coerce_mapped v = v.
Proof. intros [(w & n & ->)|(b & ->)]; reflexivity. Qed.

Lemma arith_int w op l r : op <> ABoolOr -> op <> ABoolAnd ->
  (match op with AShl | AShr => N.ltb r 4294967296 = true | _ => True end) ->
  arith_apply w op l r = int_op w (arith_infix op) l r.
Proof.
  intros N1 N2 Hs. destruct op; cbn [arith_apply int_op arith_infix]; try reflexivity; try contradiction.
  - unfold as_u32. rewrite N.mod_small by (now apply N.ltb_lt). rewrite N.shiftl_mul_pow2. reflexivity.
  - unfold as_u32. rewrite N.mod_small by (now apply N.ltb_lt). now rewrite N.shiftr_div_pow2.
Qed.
Lemma shift_large w op l r : (op = AShl \/ op = AShr) -> N.ltb r 4294967296 = false -> int_op w (arith_infix op) l r = Panic.
Proof.
  intros Ho Hr. apply N.ltb_ge in Hr. assert (H : N.ltb r (nbits w) = false) by (apply N.ltb_ge; destruct w; cbn; lia).
  destruct Ho as [-> | ->]; cbn [int_op arith_infix]; now rewrite H.
Qed.
Lemma compare_arith op a b : int_compare (arith_infix op) a b = None.
Proof. destruct op; reflexivity. Qed.

Lemma arith_agrees op x y v : machine_value x -> machine_value y -> value_arith op x y = Val v -> machine_value v
  /\ (rust_bin (arith_infix op) (Val x) (Val y) = Val v
      \/ (rust_bin (arith_infix op) (Val x) (Val y) = Panic /\ (op = AShl \/ op = AShr)
          /\ (forall w n, y = VU w n -> N.ltb n 4294967296 = false))).
Proof.
  intros Hx Hy Hv.
  destruct (arith_op_eq_dec op ABoolOr) as [->|N1].
  { destruct Hx as [(w & n & ->)|(b & ->)]; [discriminate|]. destruct Hy as [(w & n & ->)|(c & ->)]; [discriminate|].
    injection Hv as <-. split; [right; eauto|]. left. destruct b; reflexivity. }
  destruct (arith_op_eq_dec op ABoolAnd) as [->|N2].
  { destruct Hx as [(w & n & ->)|(b & ->)]; [discriminate|]. destruct Hy as [(w & n & ->)|(c & ->)]; [discriminate|].
    injection Hv as <-. split; [right; eauto|]. left. destruct b; reflexivity. }
  assert (E : value_arith op x y = match x, y with VU wl a, VU wr b => if bw_eqb wl wr then omap (VU wl) (arith_apply wl op a b) else Panic
    | VUsize a, VUsize b => omap VUsize (arith_apply B64 op a b) | _, _ => Panic end) by (destruct op; try reflexivity; contradiction).
  rewrite E in Hv. clear E.
  destruct Hx as [(w & n & ->)|(b & ->)]; [|discriminate]. destruct Hy as [(w' & k & ->)|(c & ->)]; [|discriminate].
  destruct (bw_eqb w w') eqn:Ew; [|discriminate].
  assert (G : rust_bin (arith_infix op) (Val (VU w n)) (Val (VU w' k)) = omap (VU w) (int_op w (arith_infix op) n k)).
  { unfold rust_bin. cbn [obind]. rewrite Ew, compare_arith. destruct op; try reflexivity; contradiction. }
  rewrite G. split.
  { left. destruct (arith_apply w op n k); [|discriminate]. injection Hv as <-. eauto. }
  destruct (N.ltb k 4294967296) eqn:Ek.
  - left. rewrite <- arith_int; auto. now destruct op.
  - assert (D : (op = AShl \/ op = AShr) \/ (op <> AShl /\ op <> AShr)) by (destruct op; auto; right; split; discriminate).
    destruct D as [D|[D1 D2]].
    + right. rewrite shift_large by assumption. repeat split; auto. intros ? ? [= <- <-]. assumption.
    + left. rewrite <- arith_int; auto. destruct op; try contradiction; exact I.
Qed.
Lemma agree_values : forall e x, vars_ok e -> arithmetic e = true -> embed t e = Some x -> agree e (eval_value e s) (rust_eval env x).
Proof.
  induction e; intros z Hvars Ha He; try discriminate He.
  - injection He as <-. intros v Hv. split; [eapply Hvars; cbn; eauto|]. left. exact Hv.
  - injection He as <-. intros v [= <-]. split; [right; eauto|now left].
  - injection He as <-. intros v [= <-]. split; [left; eauto|now left].
  - cbn in Ha. bsplit. apply embed_rel in He as (xa & xb & Ea & Eb & ->). intros v Hv.
    unfold eval_value in Hv. cbn [eval] in Hv. fold (eval_value e1 s) in Hv. fold (eval_value e2 s) in Hv.
    destruct (eval_value e1 s) as [u|] eqn:E1; [|discriminate]. cbn [obind] in Hv.
    destruct (eval_value e2 s) as [u'|] eqn:E2; [|discriminate]. cbn [obind] in Hv.
    destruct (IHe1 _ ltac:(intros y0 v0 Hy; apply Hvars; cbn; apply in_or_app; auto) ltac:(assumption) Ea _ eq_refl) as [M1 R1]. destruct (IHe2 _ ltac:(intros y0 v0 Hy; apply Hvars; cbn; apply in_or_app; auto) ltac:(assumption) Eb _ eq_refl) as [M2 R2].
    destruct M1 as [(w & n & ->)|(b & ->)]; [|discriminate]. destruct M2 as [(w' & k & ->)|(b & ->)]; [|discriminate].
    cbn [value_int_rel] in Hv. destruct (bw_eqb w w') eqn:Ew; [|discriminate]. cbn in Hv. injection Hv as <-.
    split; [right; eauto|]. rewrite rust_eval_bin. cbn [shifts_by_constants].
    destruct R1 as [->|[-> F]]; [|right; rewrite F; split; [destruct r|]; reflexivity].
    destruct R2 as [->|[-> F]]; [|right; rewrite F, andb_false_r; split; [destruct r|]; reflexivity].
    left. destruct r; cbn; rewrite Ew; reflexivity.
  - cbn in Ha. bsplit. apply embed_arith in He as (xa & xb & Ea & Eb & ->). intros v Hv.
    unfold eval_value in Hv. cbn [eval] in Hv. fold (eval_value e1 s) in Hv. fold (eval_value e2 s) in Hv.
    destruct (eval_value e1 s) as [u|] eqn:E1; [|discriminate]. cbn [obind] in Hv.
    destruct (eval_value e2 s) as [u'|] eqn:E2; [|discriminate]. cbn [obind] in Hv.
    destruct (IHe1 _ ltac:(intros y0 v0 Hy; apply Hvars; cbn; apply in_or_app; auto) ltac:(assumption) Ea _ eq_refl) as [M1 R1]. destruct (IHe2 _ ltac:(intros y0 v0 Hy; apply Hvars; cbn; apply in_or_app; auto) ltac:(assumption) Eb _ eq_refl) as [M2 R2].
    destruct (value_arith op u u') as [r|] eqn:Er; [|discriminate]. cbn [omap] in Hv. injection Hv as <-.
    destruct (arith_agrees op u u' r M1 M2 Er) as [Mr Rr]. rewrite (machine_coerce r Mr). split; [exact Mr|].
    assert (G : rust_eval env match op with ASub => XCall (XName n_try_sub) [xa; xb; XLit (LInt B64 t)] | _ => XBin (arith_infix op) xa xb end
      = rust_bin (arith_infix op) (rust_eval env xa) (rust_eval env xb)) by (destruct op; reflexivity).
    rewrite G. clear G. cbn [shifts_by_constants].
    destruct R1 as [->|[-> F]]; [|right; rewrite F, andb_false_r; split; [destruct op|]; reflexivity].
    destruct R2 as [->|[-> F]].
    + destruct Rr as [->|[-> [Ho Hk]]]; [now left|]. right. split; [reflexivity|].
      destruct e2; try (destruct Ho as [-> | ->]; reflexivity).
      cbn in E2. injection E2 as <-. specialize (Hk _ _ eq_refl). destruct Ho as [-> | ->]; now rewrite Hk.
    + assert (S : (match op with AShl | AShr => match e2 with EU _ n => N.ltb n 4294967296 | _ => false end | _ => shifts_by_constants e2 end) = false).
      { destruct op; try exact F; destruct e2; try reflexivity; discriminate F. }
      rewrite S. destruct op; try (right; split; reflexivity).
      * destruct M1 as [(w & n & ->)|(b & ->)]; [right; split; reflexivity|]. destruct M2 as [(w' & k & ->)|(c & ->)]; [discriminate Er|].
        cbn in Er. injection Er as <-. destruct b; [left|right; split]; reflexivity.
      * destruct M1 as [(w & n & ->)|(b & ->)]; [right; split; reflexivity|]. destruct M2 as [(w' & k & ->)|(c & ->)]; [discriminate Er|].
        cbn in Er. injection Er as <-. destruct b; [right; split|left]; reflexivity.
  - cbn in Ha. apply embed_unary in He as (xa & Ea & ->). intros v Hv.
    unfold eval_value in Hv. cbn [eval] in Hv. fold (eval_value e s) in Hv.
    destruct (eval_value e s) as [u|] eqn:E1; [|discriminate]. cbn [obind] in Hv.
    destruct (IHe _ Hvars Ha Ea _ eq_refl) as [M1 R1]. cbn [shifts_by_constants].
    destruct (value_unary op u) as [r|] eqn:Er; [|discriminate]. cbn [omap] in Hv. injection Hv as <-.
    destruct op; cbn [value_unary] in Er; cbv iota.
    + destruct M1 as [(w & n & ->)|(b & ->)]; [discriminate|]. injection Er as <-. split; [right; eexists; reflexivity|].
      change (rust_eval env (XNot xa)) with (rust_not (rust_eval env xa)). destruct R1 as [->|[-> F]]; [left|right]; auto.
    + destruct M1 as [(w & n & ->)|(b & ->)]; [|discriminate].
      change (rust_eval env (XCall (XName n_succ) [xa])) with (rust_call (Some n_succ) [rust_eval env xa]).
      cbn [unary_apply] in Er. unfold fit in Er. destruct (N.ltb (n + 1) (modulus w)) eqn:En; [|discriminate]. cbn [omap] in Er. injection Er as <-.
      split; [left; eexists _, _; reflexivity|]. destruct R1 as [->|[-> F]]; [left|right; auto].
      unfold rust_call. cbn [obind]. change (N.eqb n_succ (intern "try_sub!")) with false. change (N.eqb n_succ (intern "succ")) with true.
      unfold rust_bin. cbn [obind int_compare int_op]. rewrite (proj2 (bw_eqb_eq w w) eq_refl).
      unfold modulus in En. now rewrite En.
    + destruct M1 as [(w & n & ->)|(b & ->)]; [|discriminate].
      change (rust_eval env (XCall (XName n_pred) [xa])) with (rust_call (Some n_pred) [rust_eval env xa]).
      cbn [unary_apply] in Er. destruct (N.eqb n 0) eqn:En; [discriminate|]. cbn [omap] in Er. injection Er as <-.
      split; [left; eexists _, _; reflexivity|]. destruct R1 as [->|[-> F]]; [left|right; auto].
      unfold rust_call. cbn [obind]. change (N.eqb n_pred (intern "try_sub!")) with false. change (N.eqb n_pred (intern "succ")) with false.
      change (N.eqb n_pred (intern "pred")) with true. unfold rust_bin. cbn [obind int_compare int_op].
      rewrite (proj2 (bw_eqb_eq w w) eq_refl). apply N.eqb_neq in En. destruct (N.leb_spec 1 n); [reflexivity|lia].
  - cbn in Ha. apply embed_as in He as (xa & Ea & ->). intros v Hv.
    unfold eval_value in Hv. cbn [eval] in Hv. fold (eval_value e s) in Hv.
    destruct (eval_value e s) as [u|] eqn:E1; [|discriminate]. cbn [obind] in Hv.
    destruct (IHe _ Hvars Ha Ea _ eq_refl) as [M1 R1]. cbn [shifts_by_constants].
    destruct M1 as [(w' & n & ->)|(b & ->)]; [|discriminate]. cbn [value_as] in Hv. unfold fit in Hv.
    destruct (N.ltb n (modulus w)) eqn:En; [|discriminate]. cbn [omap] in Hv. injection Hv as <-. split; [left; eexists _, _; reflexivity|].
    change (rust_eval env (XCast xa (width_type w))) with (rust_cast (rust_eval env xa) (width_type w)).
    destruct R1 as [->|[-> F]]; [left|right; auto]. unfold rust_cast. cbn [obind].
    assert (T : type_width (width_type w) = Some w) by (destruct w; vm_compute; reflexivity). rewrite T.
    apply N.ltb_lt in En. now rewrite N.mod_small.
Qed.
End Values.
