(** Printed expressions are read back. *)
From Coq Require Import String.
From Verif Require Import Base NumericModel ValueModel RecordModel PrintModel PrintSpec PrintReadProofs.
Open Scope nat_scope.

(** ** Induction over Rust expressions *)
Section Ind.
Context (P : rexpr -> Prop).
Context (Hname : forall n, P (XName n)) (Hlit : forall l, P (XLit l))
  (Htuple : forall es, Forall P es -> P (XTuple es)) (Harray : forall es, Forall P es -> P (XArray es))
  (Hmethod : forall x n args, P x -> Forall P args -> P (XMethod x n args))
  (Hfield : forall x n, P x -> P (XField x n))
  (Hcall : forall f args, P f -> Forall P args -> P (XCall f args))
  (Hindex : forall x i, P x -> P i -> P (XIndex x i))
  (Hslice : forall x a b, P x -> P a -> P b -> P (XSlice x a b))
  (Htry : forall x, P x -> P (XTry x)) (Hderef : forall x, P x -> P (XDeref x))
  (Hborrow : forall x, P x -> P (XBorrow x)) (Hbm : forall x, P x -> P (XBorrowMut x))
  (Hnot : forall x, P x -> P (XNot x)) (Hcast : forall x t, P x -> P (XCast x t))
  (Hbin : forall op a b, P a -> P b -> P (XBin op a b))
  (Hrange : forall a b, P a -> P b -> P (XRange a b))
  (Hclosure : forall v b, P b -> P (XClosure v b)).
Fixpoint rexpr_ind' (e : rexpr) : P e :=
  let all := fix all (es : list rexpr) : Forall P es :=
    match es with [] => Forall_nil _ | e :: es' => Forall_cons _ (rexpr_ind' e) (all es') end in
  match e with
  | XName n => Hname n
  | XLit l => Hlit l
  | XTuple es => Htuple es (all es)
  | XArray es => Harray es (all es)
  | XMethod x n args => Hmethod x n args (rexpr_ind' x) (all args)
  | XField x n => Hfield x n (rexpr_ind' x)
  | XCall f args => Hcall f args (rexpr_ind' f) (all args)
  | XIndex x i => Hindex x i (rexpr_ind' x) (rexpr_ind' i)
  | XSlice x a b => Hslice x a b (rexpr_ind' x) (rexpr_ind' a) (rexpr_ind' b)
  | XTry x => Htry x (rexpr_ind' x)
  | XDeref x => Hderef x (rexpr_ind' x)
  | XBorrow x => Hborrow x (rexpr_ind' x)
  | XBorrowMut x => Hbm x (rexpr_ind' x)
  | XNot x => Hnot x (rexpr_ind' x)
  | XCast x t => Hcast x t (rexpr_ind' x)
  | XBin op a b => Hbin op a b (rexpr_ind' a) (rexpr_ind' b)
  | XRange a b => Hrange a b (rexpr_ind' a) (rexpr_ind' b)
  | XClosure v b => Hclosure v b (rexpr_ind' b)
  end.
End Ind.

(** ** What printed text is read as *)

Lemma infix_eqb_spec a b : infix_eqb a b = true <-> a = b.
Proof. split; [|intros ->; destruct b; reflexivity]. destruct a, b; try reflexivity; discriminate. Qed.

Fixpoint graft (op : infix) (a b : rexpr) : rexpr :=
  match b with
  | XBin op' y z => if infix_eqb op op' then XBin op (graft op a y) z else XBin op a b
  | _ => XBin op a b
  end.
Fixpoint regrouped (e : rexpr) : rexpr :=
  match e with
  | XName _ | XLit _ => e
  | XTuple es => XTuple (map regrouped es)
  | XArray es => XArray (map regrouped es)
  | XMethod x n args => XMethod (regrouped x) n (map regrouped args)
  | XField x n => XField (regrouped x) n
  | XCall f args => XCall (regrouped f) (map regrouped args)
  | XIndex x i => XIndex (regrouped x) (regrouped i)
  | XSlice x a b => XIndex (regrouped x) (XRange (regrouped a) (regrouped b))
  | XTry x => XTry (regrouped x)
  | XDeref x => XDeref (regrouped x)
  | XBorrow x => XBorrow (regrouped x)
  | XBorrowMut x => XBorrowMut (regrouped x)
  | XNot x => XNot (regrouped x)
  | XCast x t => XCast (regrouped x) t
  | XBin op a b => if regroups op then graft op (regrouped a) (regrouped b) else XBin op (regrouped a) (regrouped b)
  | XRange a b => XRange (regrouped a) (regrouped b)
  | XClosure v b => XClosure v (regrouped b)
  end.

Lemma graft_assoc op a b c : graft op (graft op a b) c = graft op a (graft op b c).
Proof.
  induction c; cbn [graft]; try (now rewrite (proj2 (infix_eqb_spec op op) eq_refl)).
  destruct (infix_eqb op op0) eqn:E; cbn [graft]; rewrite (proj2 (infix_eqb_spec op op) eq_refl); [now rewrite IHc1|reflexivity].
Qed.
Lemma graft_head op a b : exists x y, graft op a b = XBin op x y.
Proof. destruct b; cbn; eauto. destruct (infix_eqb op op0); eauto. Qed.
(** The first constructor of what is read is that of what was printed. *)
Lemma regrouped_bin e op x y : regrouped e = XBin op x y -> exists a b, e = XBin op a b.
Proof.
  destruct e; cbn; try discriminate. destruct (regroups op0).
  - destruct (graft_head op0 (regrouped e1) (regrouped e2)) as (u & v & ->). intros [= <- _ _]. eauto.
  - intros [= <- _ _]. eauto.
Qed.
Lemma graft_other op a e : (forall x y, e <> XBin op x y) -> graft op a (regrouped e) = XBin op a (regrouped e).
Proof.
  intros H. destruct (regrouped e) eqn:E; try reflexivity. cbn.
  destruct (infix_eqb op op0) eqn:Eo; [|reflexivity]. apply infix_eqb_spec in Eo. subst op0.
  apply regrouped_bin in E as (u & v & ->). now destruct (H u v).
Qed.

(** ** Where parentheses are written *)

Definition paren (current cutoff : precedence) : bool :=
  match relate current cutoff with Disjoint | Superior => true | _ => false end.
Definition parens (p : precedence) (e : rexpr) : bool :=
  match e with
  | XMethod _ _ _ => paren p Projection
  | XCall _ _ => paren p INVOKE
  | XNot _ => paren p LOGICAL_NEGATE
  | XCast _ _ => paren p CAST_INFIX
  | XBin op _ _ => paren p (infix_prec op)
  | XRange _ _ => paren p Top
  | XClosure _ _ => paren p ARROW
  | _ => false
  end.
Definition own (e : rexpr) : nat :=
  match e with
  | XName _ | XLit _ | XTuple _ | XArray _ => 14
  | XMethod _ _ _ | XField _ _ | XCall _ _ | XIndex _ _ | XSlice _ _ _ | XTry _ => 13
  | XDeref _ | XBorrow _ | XBorrowMut _ | XNot _ => 12
  | XCast _ _ => 11
  | XBin op _ _ => strength op
  | XRange _ _ => 1
  | XClosure _ _ => 0
  end.
Definition out (p : precedence) (e : rexpr) : nat := if parens p e then 14 else own e.

Lemma reads_down l l' w e : l' <= l -> reads l w e -> reads l' w e.
Proof.
  intros Hl H. remember (l - l') as d eqn:Ed. revert l' Hl Ed. induction d as [|d IH]; intros l' Hl Ed.
  - now replace l' with l by lia.
  - apply R_stronger. apply IH; lia.
Qed.
Lemma reads_cond frag p q e l : reads l frag e -> reads (if paren p q then 14 else l) (cond_paren frag p q) e.
Proof.
  unfold paren, cond_paren. intros H. assert (H0 : reads 0 frag e) by (revert H; apply reads_down; lia).
  destruct (relate p q); try exact H; now apply R_parentheses.
Qed.

(** The contexts of operands *)
Definition operand (p : precedence) : bool := match p with Calculus _ | Top => false | _ => true end.
Lemma operand_infix op : operand (infix_prec op) = true.
Proof. destruct op; reflexivity. Qed.
Lemma last_not_type (w : list token) t : (forall ty, t <> TTy ty) -> ~ ends_in_type (w ++ [t]).
Proof. intros H (u & ty & E). apply app_inj_tail in E as (_ & E). now apply (H ty). Qed.
Lemma type_tail t w : w <> [] -> ends_in_type (t :: w) -> ends_in_type w.
Proof.
  intros Hw (u & ty & E). destruct u as [|t' u]; cbn in E; [injection E as _ E; contradiction|].
  injection E as _ E. now exists u, ty.
Qed.
Lemma type_apptail u w : w <> [] -> ends_in_type (u ++ w) -> ends_in_type w.
Proof.
  intros Hw. induction u as [|t u IH]; cbn; [auto|]. intros H. apply IH. revert H. apply type_tail.
  intros E. apply app_eq_nil in E as (_ & E). contradiction.
Qed.
Lemma cond_not_type frag p q : ~ ends_in_type frag \/ paren p q = true -> ~ ends_in_type (cond_paren frag p q).
Proof.
  unfold paren, cond_paren. intros H. assert (Hp : ~ ends_in_type (sym "(" :: frag ++ [sym ")"])).
  { change (sym "(" :: frag ++ [sym ")"]) with ((sym "(" :: frag) ++ [sym ")"]). apply last_not_type. discriminate. }
  destruct (relate p q); auto; destruct H as [H|H]; auto; discriminate.
Qed.
Lemma show_nonempty p e : show p e <> [].
Proof.
  destruct e; cbn; try discriminate; try (unfold cond_paren; destruct (relate _ _)); try discriminate;
    try (destruct es as [|? [|? ?]]; discriminate);
    intros E; apply app_eq_nil in E as (_ & E); discriminate.
Qed.
Ltac ends_sym := match goal with
  | |- ends_in_type (?t :: ?w ++ [?c]) -> False => change
      (~ ends_in_type ((t :: w) ++ [c])); apply last_not_type; discriminate
  | |- ~ ends_in_type (?t :: ?w ++ [?c]) => change (t :: w ++ [c]) with ((t :: w) ++ [c]); apply last_not_type; discriminate
  end.
Lemma show_not_type e : forall p, operand p = true -> ~ ends_in_type (show p e).
Proof.
  induction e using rexpr_ind'; intros p Hp; cbn [show].
  - apply (last_not_type []). discriminate.
  - apply (last_not_type []). discriminate.
  - destruct es as [|e1 [|e2 es]]; [apply (last_not_type [sym "("]); discriminate| |
      apply (last_not_type (sym "(" :: show_items (show Top) (e1 :: e2 :: es))); discriminate].
    intros (u & ty & E). change (sym "(" :: show Top e1 ++ [sym ","; sym ")"]) with ((sym "(" :: show Top e1) ++ ([sym ","] ++ [sym ")"])) in E.
    rewrite app_assoc in E. apply app_inj_tail in E as (_ & E). discriminate.
  - ends_sym.
  - apply cond_not_type. left. intros E. apply type_apptail in E; [|discriminate].
    revert E. change (sym "." :: TId n :: sym "(" :: show_items (show Top) args ++ [sym ")"]) with ((sym "." :: TId n :: sym "(" :: show_items (show Top) args) ++ [sym ")"]). apply last_not_type. discriminate.
  - change [sym "."; TId n] with ([sym "."] ++ [TId n]). rewrite app_assoc. apply last_not_type. discriminate.
  - apply cond_not_type. left. intros E. apply type_apptail in E; [|discriminate].
    revert E. change (sym "(" :: show_items (show Top) args ++ [sym ")"]) with ((sym "(" :: show_items (show Top) args) ++ [sym ")"]). apply last_not_type. discriminate.
  - intros E. apply type_apptail in E; [|discriminate]. revert E. ends_sym.
  - intros E. apply type_apptail in E; [|discriminate]. revert E.
    change (sym "[" :: show Atomic e2 ++ sym ".." :: show Atomic e3 ++ [sym "]"]) with ((sym "[" :: show Atomic e2) ++ ((sym ".." :: show Atomic e3) ++ [sym "]"])).
    rewrite app_assoc. apply last_not_type. discriminate.
  - apply last_not_type. discriminate.
  - intros E. apply type_tail in E; [|apply show_nonempty]. revert E. now apply IHe.
  - intros E. apply type_tail in E; [|apply show_nonempty]. revert E. now apply IHe.
  - intros E. apply type_tail in E; [|apply show_nonempty]. revert E. now apply IHe.
  - apply cond_not_type. left. intros E. apply type_tail in E; [|apply show_nonempty]. revert E. now apply IHe.
  - apply cond_not_type. right. destruct p; try discriminate; reflexivity.
  - apply cond_not_type. left. intros E. apply type_apptail in E; [|discriminate]. apply type_tail in E; [|apply show_nonempty].
    revert E. apply IHe2. apply operand_infix.
  - apply cond_not_type. right. destruct p; try discriminate; reflexivity.
  - apply cond_not_type. right. destruct p; try discriminate; reflexivity.
Qed.

(** ** The levels needed are the levels printed *)
Lemma left_level op e : comparison op = false -> strength op <= out (infix_prec op) e.
Proof. destruct op; try discriminate; intros _; destruct e; cbn; try lia; destruct op; cbn; lia. Qed.
Lemma right_level op e : comparison op = false -> not_nested op e = true -> S (strength op) <= out (infix_prec op) e.
Proof. destruct op; try discriminate; intros _; destruct e; cbn; try lia; destruct op; cbn; try lia; discriminate. Qed.
Lemma compare_level_ok op e : comparison op = true -> not_logical e = true -> S (strength op) <= out (infix_prec op) e.
Proof. destruct op; try discriminate; intros _; destruct e; cbn; try lia; destruct op; cbn; try lia; discriminate. Qed.
Lemma receiver_level e : not_borrow e = true -> 13 <= out Projection e.
Proof. destruct e; cbn; try lia; try discriminate; destruct op; cbn; lia. Qed.
Lemma prefix_level e : 12 <= out PTR_PREFIX e.
Proof. destruct e; cbn; try lia; destruct op; cbn; lia. Qed.
Lemma atomic_level e : 12 <= out Atomic e.
Proof. destruct e; cbn; try lia; destruct op; cbn; lia. Qed.
Lemma callee_level e : callable e = true -> 13 <= out INVOKE e.
Proof. destruct e; cbn; try lia; try discriminate. Qed.
Lemma endpoint_level e : endpoint e = true -> 2 <= out Top e.
Proof. destruct e; cbn; try lia; try discriminate; destruct op; cbn; lia. Qed.
Lemma callee_not_field e : callable e = true -> ~ ends_in_field (show INVOKE e).
Proof.
  assert (L : forall u s, ~ ends_in_field (u ++ [sym s])).
  { intros u s (v & n & E). change [sym "."; TId n] with ([sym "."] ++ [TId n]) in E. rewrite app_assoc in E. apply app_inj_tail in E as (_ & E). discriminate. }
  assert (A : forall u t w s, u ++ t :: w ++ [sym s] = (u ++ t :: w) ++ [sym s]) by (intros; now rewrite <- app_assoc).
  destruct e; try discriminate; intros _; cbn [show].
  - intros (u & m & E). destruct u as [|? [|? ?]]; discriminate.
  - change (~ ends_in_field (show Projection e ++ sym "." :: (TId name :: sym "(" :: show_items (show Top) args) ++ [sym ")"])).
    rewrite (A (show Projection e) (sym ".") (TId name :: sym "(" :: show_items (show Top) args) ")"%string). apply L.
  - change (~ ends_in_field (show INVOKE e ++ sym "(" :: show_items (show Top) args ++ [sym ")"])). rewrite (A (show INVOKE e) (sym "(") (show_items (show Top) args) ")"%string). apply L.
  - rewrite (A (show Projection e1) (sym "[") (show Top e2) "]"%string). apply L.
  - apply L.
  - apply (L (sym "(" :: sym "|" :: TId v :: sym "|" :: show ARROW e)).
Qed.

(** ** Printed text is read as what was printed, up to grouping *)

Definition reads_back (e : rexpr) : Prop := forall p, reads (out p e) (show p e) (regrouped e).
Definition chains (e : rexpr) : Prop := forall op wa a,
  regroups op = true -> regroups_right op e = true -> reads (strength op) wa a ->
  reads (strength op) (wa ++ sym (infix_token op) :: show (infix_prec op) e) (graft op a (regrouped e)).

Lemma paren_congruent op : paren (infix_prec op) (infix_prec op) = false.
Proof. destruct op; reflexivity. Qed.
Lemma cond_none f op : cond_paren f (infix_prec op) (infix_prec op) = f.
Proof. destruct op; reflexivity. Qed.
Lemma regroups_not_compare op : regroups op = true -> comparison op = false /\ ~ angle op.
Proof. unfold angle. destruct op; try discriminate; intros _; (split; [reflexivity|intros [H|H]; discriminate]). Qed.
(** Not a chain: the operand stands by itself. *)
Lemma chains_other e op wa a : reads_back e -> regroups op = true -> not_nested op e = true ->
  (forall x y, e <> XBin op x y) -> reads (strength op) wa a ->
  reads (strength op) (wa ++ sym (infix_token op) :: show (infix_prec op) e) (graft op a (regrouped e)).
Proof.
  intros Hb Hr Hn Hne Ha. destruct (regroups_not_compare op Hr) as (Hc & Hg). rewrite graft_other by exact Hne.
  apply R_left; auto. eapply reads_down; [|exact (Hb (infix_prec op))]. now apply right_level.
Qed.
Lemma items_back es : Forall reads_back es -> reads_items (show_items (show Top) es) (map regrouped es).
Proof.
  induction 1 as [|e es H Hes IH]; [constructor|].
  assert (H0 : reads 0 (show Top e) (regrouped e)) by (eapply reads_down; [|exact (H Top)]; lia).
  destruct es as [|e' es]; [now constructor|]. cbn [show_items map] in *. apply R_more; auto. discriminate.
Qed.
Lemma forallb_and {A} (f : A -> bool) (P : A -> Prop) l :
  Forall (fun x => f x = true -> P x) l -> forallb f l = true -> Forall P l.
Proof. induction 1; cbn; [constructor|]. intros E. apply andb_prop in E as (E1 & E2). constructor; auto. Qed.
Ltac bsplit := repeat match goal with H : (_ && _)%bool = true |- _ => apply andb_prop in H as (?H & ?H) end.

Ltac back := eapply reads_down; [|match goal with B : reads_back ?x |- reads _ (show ?p ?x) _ => exact (B p) end].
Theorem prints_back e : printable_up_to_grouping e = true -> reads_back e /\ chains e.
Proof.
  unfold printable_up_to_grouping.
  assert (Plain : forall e, (forall op x y, e <> XBin op x y) -> reads_back e -> reads_back e /\ chains e).
  { intros e' Hne Hb. split; [exact Hb|]. intros op wa a Hr Hg Ha. apply chains_other; auto. destruct e'; try reflexivity. now destruct (Hne op0 e'1 e'2). }
  induction e using rexpr_ind'; intros Hp; cbn [printable_with] in Hp; bsplit;
    repeat match goal with IH : ?b = true -> reads_back ?x /\ _ , H : ?b = true |- _ => specialize (IH H) as (?B & ?C) end.
  - apply Plain; [discriminate|]. intros p. apply R_name.
  - apply Plain; [discriminate|]. intros p. apply R_literal.
  - apply Plain; [discriminate|]. intros p. cbn [show regrouped out parens own].
    assert (F : Forall reads_back es) by (eapply forallb_and; [|exact Hp]; eapply Forall_impl; [|exact H]; cbv beta; intros x Hx Hb; now apply Hx).
    destruct es as [|e1 [|e2 es]].
    + apply (R_tuple [] []); [constructor|discriminate].
    + apply R_one. inversion F; subst. eapply reads_down; [|exact (H2 Top)]; lia.
    + apply R_tuple; [now apply items_back|]. rewrite map_length. cbn. lia.
  - apply Plain; [discriminate|]. intros p. cbn [show regrouped out parens own].
    assert (F : Forall reads_back es) by (eapply forallb_and; [|exact Hp]; eapply Forall_impl; [|exact H]; cbv beta; intros x Hx Hb; now apply Hx).
    apply R_array. now apply items_back.
  - apply Plain; [discriminate|]. intros p. cbn [show regrouped]. unfold out. cbn [parens own]. apply reads_cond.
    assert (F : Forall reads_back args) by (eapply forallb_and; [|eassumption]; eapply Forall_impl; [|exact H]; cbv beta; intros x Hx Hb; now apply Hx).
    apply R_method; [|now apply items_back]. back. now apply receiver_level.
  - apply Plain; [discriminate|]. intros p. cbn [show regrouped out parens own].
    apply R_field. back. now apply receiver_level.
  - apply Plain; [discriminate|]. intros p. cbn [show regrouped]. unfold out. cbn [parens own]. apply reads_cond.
    assert (F : Forall reads_back args) by (eapply forallb_and; [|eassumption]; eapply Forall_impl; [|exact H]; cbv beta; intros x Hx Hb; now apply Hx).
    apply R_call; [|now apply callee_not_field|now apply items_back]. back. now apply callee_level.
  - apply Plain; [discriminate|]. intros p. cbn [show regrouped out parens own].
    apply R_index; [back; now apply receiver_level|]. back; lia.
  - apply Plain; [discriminate|]. intros p. cbn [show regrouped out parens own].
    replace (show Atomic e2 ++ sym ".." :: show Atomic e3 ++ [sym "]"]) with ((show Atomic e2 ++ sym ".." :: show Atomic e3) ++ [sym "]"])
      by (now rewrite <- app_assoc).
    apply R_index; [back; now apply receiver_level|].
    apply R_stronger, R_range; (eapply reads_down; [|match goal with B : reads_back ?x |- reads _ (show _ ?x) _ => exact (B Atomic) end]);
      match goal with |- _ <= out Atomic ?x => pose proof (atomic_level x); lia end.
  - apply Plain; [discriminate|]. intros p. cbn [show regrouped]. apply R_try. back. now apply receiver_level.
  - apply Plain; [discriminate|]. intros p. cbn [show regrouped]. apply R_deref. back. apply prefix_level.
  - apply Plain; [discriminate|]. intros p. cbn [show regrouped]. apply R_borrow. back. apply prefix_level.
  - apply Plain; [discriminate|]. intros p. cbn [show regrouped]. apply R_borrow_mut. back. apply prefix_level.
  - apply Plain; [discriminate|]. intros p. cbn [show regrouped]. unfold out. cbn [parens own]. apply reads_cond.
    apply R_not. back. apply prefix_level.
  - apply Plain; [discriminate|]. intros p. cbn [show regrouped]. unfold out. cbn [parens own]. apply reads_cond.
    apply R_cast. back. pose proof (atomic_level e). lia.
  - rename e1 into x1, e2 into x2.
    match goal with B : reads_back x1, C : chains x1, B' : reads_back x2, C' : chains x2 |- _ =>
      rename B into B1, C into C1, B' into B2, C' into C2 end.
    match goal with H : regroups_right op x2 = true |- _ => rename H into HR end.
    match goal with H : (if comparison op then _ else _) = true |- _ => rename H into HC end.
    rename x1 into e1, x2 into e2.
    assert (Body : reads (strength op) (show (infix_prec op) e1 ++ sym (infix_token op) :: show (infix_prec op) e2) (regrouped (XBin op e1 e2))).
    { cbn [regrouped]. destruct (comparison op) eqn:Ec.
      - apply andb_prop in HC as (L1 & L2). replace (regroups op) with false by (destruct op; try discriminate; reflexivity).
        apply R_compare; auto.
        + intros _. apply show_not_type, operand_infix.
        + eapply reads_down; [|exact (B1 (infix_prec op))]. now apply compare_level_ok.
        + eapply reads_down; [|exact (B2 (infix_prec op))]. now apply compare_level_ok.
      - assert (RL : reads (strength op) (show (infix_prec op) e1) (regrouped e1)) by (eapply reads_down; [|exact (B1 (infix_prec op))]; now apply left_level).
        destruct (regroups op) eqn:Er; [apply C2; auto|].
        apply R_left; auto; [intros _; apply show_not_type, operand_infix|].
        eapply reads_down; [|exact (B2 (infix_prec op))]. apply right_level; auto.
        destruct e2; try reflexivity. cbn in *. rewrite Er in HR. destruct (infix_eqb op op0); [discriminate|exact HR]. }
    assert (Back : reads_back (XBin op e1 e2)).
    { intros p. cbn [show]. unfold out. cbn [parens own]. now apply reads_cond. }
    split; [exact Back|]. intros op' wa a Hr Hg Ha.
    destruct (infix_eqb op' op) eqn:Eo.
    + assert (Hg1 : regroups_right op' e1 = true).
      { change ((if infix_eqb op' op then regroups op' && regroups_right op' e1 else negb (same_class op' op)) = true) in Hg.
        rewrite Eo in Hg. apply andb_prop in Hg as (_ & Hg). exact Hg. }
      apply infix_eqb_spec in Eo. subst op'. cbn [show regrouped]. rewrite cond_none, Hr. rewrite <- graft_assoc.
      change (sym (infix_token op) :: show (infix_prec op) e1 ++ sym (infix_token op) :: show (infix_prec op) e2)
        with ((sym (infix_token op) :: show (infix_prec op) e1) ++ sym (infix_token op) :: show (infix_prec op) e2).
      rewrite app_assoc. apply C2; auto.
    + apply chains_other; auto.
      * change ((if infix_eqb op' op then regroups op' && regroups_right op' e1 else negb (same_class op' op)) = true) in Hg. now rewrite Eo in Hg.
      * intros x y [= -> _ _]. rewrite (proj2 (infix_eqb_spec op' op') eq_refl) in Eo. discriminate.
  - apply Plain; [discriminate|]. intros p. cbn [show regrouped]. unfold out. cbn [parens own]. apply reads_cond.
    apply R_range; (eapply reads_down; [|match goal with B : reads_back ?x |- reads _ (show _ ?x) _ => exact (B Top) end]); now apply endpoint_level.
  - apply Plain; [discriminate|]. intros p. cbn [show regrouped]. unfold out. cbn [parens own]. apply reads_cond.
    apply R_closure. back. lia.
Qed.

(** ** Printed exactly *)
Lemma not_nested_right op e : not_nested op e = true -> regroups_right op e = true.
Proof.
  destruct e; try reflexivity. cbn. intros H. destruct (infix_eqb op op0) eqn:E; [|exact H].
  apply infix_eqb_spec in E. subst. destruct op0; discriminate.
Qed.
Lemma forallb_impl {A} (f g : A -> bool) l : Forall (fun x => f x = true -> g x = true) l -> forallb f l = true -> forallb g l = true.
Proof. induction 1; cbn; [reflexivity|]. intros E. apply andb_prop in E as (E1 & E2). now rewrite H, IHForall. Qed.
Lemma printable_weaker e : printable e = true -> printable_up_to_grouping e = true.
Proof.
  unfold printable, printable_up_to_grouping.
  induction e using rexpr_ind'; cbn [printable_with]; intros Hp; auto; bsplit;
    repeat match goal with IH : ?a = true -> _, H : ?a = true |- _ => specialize (IH H) end;
    repeat match goal with H : forallb _ ?l = true |- _ => eapply forallb_impl in H; [|eassumption] end;
    repeat match goal with H : ?a = true |- context [?a] => rewrite H end; auto.
  match goal with H : not_nested _ _ = true |- _ => apply not_nested_right in H; rewrite H end. reflexivity.
Qed.
Lemma map_same (f : rexpr -> rexpr) l : Forall (fun x => f x = x) l -> map f l = l.
Proof. induction 1; cbn; congruence. Qed.
Lemma printable_same e : printable e = true -> regrouped e = e.
Proof.
  unfold printable.
  induction e using rexpr_ind'; cbn [printable_with regrouped]; intros Hp; auto; bsplit;
    repeat match goal with IH : ?a = true -> _, H : ?a = true |- _ => specialize (IH H) end;
    repeat match goal with H : forallb _ ?l = true |- _ =>
      apply (forallb_and _ (fun x => regrouped x = x)) in H; [|assumption]; apply map_same in H; rewrite H end;
    try congruence.
  rewrite IHe1, IHe2. destruct (regroups op); [|reflexivity].
  destruct e2; try reflexivity. cbn. destruct (infix_eqb op op0) eqn:E; [|reflexivity].
  apply infix_eqb_spec in E. subst. cbn in Hp. destruct op0; discriminate.
Qed.

(** ** Regrouping keeps meanings *)
Lemma denote_graft {D} (m : meaning D) op a b : regroupable m -> regroups op = true ->
  denote m (graft op a b) = m_bin D m op (denote m a) (denote m b).
Proof.
  intros Hm Ho. induction b; cbn [graft]; try reflexivity. destruct (infix_eqb op op0) eqn:E; [|reflexivity].
  apply infix_eqb_spec in E. subst op0. cbn [denote]. rewrite IHb1. symmetry. now apply Hm.
Qed.
Lemma denote_regrouped {D} (m : meaning D) e : regroupable m -> denote m (regrouped e) = denote m e.
Proof.
  intros Hm. induction e using rexpr_ind'; cbn [regrouped denote]; try congruence;
    try (rewrite map_map; do 2 f_equal; [congruence|]; apply map_ext_Forall; assumption).
  - rewrite map_map. f_equal. apply map_ext_Forall; assumption.
  - rewrite map_map. f_equal. apply map_ext_Forall; assumption.
  - rewrite map_map, IHe. f_equal. apply map_ext_Forall; assumption.
  - rewrite map_map, IHe. f_equal. apply map_ext_Forall; assumption.
  - destruct (regroups op) eqn:Er; [rewrite denote_graft by auto|cbn [denote]]; congruence.
Qed.
