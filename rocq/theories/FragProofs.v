(** Proofs about fragments. *)
From Coq Require Import Ascii String.
From Verif Require Import Base BoundsModel DataModel NumericModel ValueModel FragModel FragSpec.
Open Scope nat_scope.

Section Ind.
Context (P : fragment -> Prop).
Context (H0 : P GEmpty) (H1 : forall s, P (GSymbol s)) (H2 : forall c, P (GChar c))
  (H3 : forall t, P (GString t)) (H4 : forall t, P (GAtom t)) (H5 : forall f, P f -> P (GGroup f))
  (H6 : forall f g, P f -> P g -> P (GCat f g))
  (H7 : forall s l, (forall f, s = Some f -> P f) -> Forall P l -> P (GSeq s l)).
Fixpoint fragment_ind' (f : fragment) : P f :=
  match f with
  | GEmpty => H0
  | GSymbol s => H1 s
  | GChar c => H2 c
  | GString t => H3 t
  | GAtom t => H4 t
  | GGroup f => H5 f (fragment_ind' f)
  | GCat f g => H6 f g (fragment_ind' f) (fragment_ind' g)
  | GSeq s l =>
      H7 s l (match s as s0 return forall f, s0 = Some f -> P f with
              | Some g => fun f E => eq_ind g P (fragment_ind' g) f (f_equal (fun o => match o with Some x => x | None => g end) E)
              | None => fun f E => match E with end
              end)
        ((fix go l := match l return Forall P l with [] => Forall_nil _ | x :: l => Forall_cons x (fragment_ind' x) (go l) end) l)
  end.
End Ind.

(** ** Texts *)

Lemma joined_cons sep t ts : joined sep (t :: ts) = t ++ flat_map (fun u => sep ++ u) ts.
Proof.
  revert t. induction ts as [|u ts IH]; intros t; [now rewrite app_nil_r|].
  change (joined sep (t :: u :: ts)) with (t ++ sep ++ joined sep (u :: ts)). rewrite IH. cbn. now rewrite <- app_assoc.
Qed.
Lemma render_GSeq s l :
  render (GSeq s l) = joined (match s with Some f => render f | None => [] end) (map render l).
Proof.
  destruct l as [|x l]; [reflexivity|]. cbn [render map]. rewrite joined_cons. f_equal.
  induction l as [|y l IH]; [reflexivity|]. cbn. now rewrite IH.
Qed.
Lemma joined_nil ts : joined [] ts = List.concat ts.
Proof. destruct ts as [|t ts]; [reflexivity|]. rewrite joined_cons. cbn. reflexivity. Qed.
Lemma joined_empty sep ts : joined sep ts = [] <-> Forall (fun t => t = []) ts /\ (2 <= length ts -> sep = []).
Proof.
  destruct ts as [|t ts]; [split; [split; [constructor|cbn; lia]|reflexivity]|]. rewrite joined_cons.
  split.
  - intros E. apply app_eq_nil in E. destruct E as [-> E]. split.
    + constructor; [reflexivity|]. induction ts as [|u ts IH]; [constructor|]. cbn in E.
      apply app_eq_nil in E. destruct E as [E1 E2]. apply app_eq_nil in E1. constructor; [tauto|auto].
    + destruct ts as [|u ts]; [cbn; lia|]. intros _. cbn in E.
      apply app_eq_nil in E. destruct E as [E _]. apply app_eq_nil in E. tauto.
  - intros [H1 H2]. inversion H1 as [|? ? -> H3]; subst. cbn. destruct ts as [|u ts]; [reflexivity|].
    rewrite H2 by (cbn; lia). clear H1 H2. induction H3 as [|w ws -> _ IH]; [reflexivity|]. exact IH.
Qed.

Lemma render_cat f g : render (cat f g) = render f ++ render g.
Proof. unfold cat. destruct f, g; cbn; rewrite ?app_nil_r; reflexivity. Qed.

(** ** Vacuity *)

Lemma part_group f : forall h, Part h f -> Part h (GGroup f). Proof. intros; now constructor. Qed.

Lemma vacuous_nil f : is_vacuous f = true -> render f = [].
Proof.
  induction f as [|s|c|t|t|f IH|f g IHf IHg|s l IHs IHl] using fragment_ind'; cbn [is_vacuous render]; try discriminate; auto.
  - destruct t; [reflexivity|discriminate].
  - intros E. apply andb_true_iff in E. destruct E as [E1 E2]. now rewrite IHf, IHg.
  - intros E. change (render (GSeq s l) = []). rewrite render_GSeq. apply joined_empty.
    destruct l as [|x [|y l]].
    + split; [constructor|cbn; lia].
    + inversion IHl; subst. split; [repeat constructor; auto|cbn; lia].
    + apply andb_true_iff in E. destruct E as [E1 E2]. split.
      * rewrite Forall_map. rewrite Forall_forall in IHl. rewrite forallb_forall in E2. apply Forall_forall. auto.
      * intros _. destruct s as [s|]; [|reflexivity]. now apply IHs.
Qed.
Lemma nil_vacuous f : atoms_shown f -> render f = [] -> is_vacuous f = true.
Proof.
  induction f as [|s|c|t|t|f IH|f g IHf IHg|s l IHs IHl] using fragment_ind'; cbn [is_vacuous render]; intros Ha; try discriminate; auto.
  - destruct s; discriminate.
  - now intros ->.
  - intros E. destruct (Ha t); [constructor|exact E].
  - apply IH. intros t Ht. apply Ha. now constructor.
  - intros E. apply app_eq_nil in E. destruct E as [E1 E2]. rewrite IHf, IHg; auto; intros t Ht; apply Ha;
      [now apply PartRight|now apply PartLeft].
  - intros E. change (render (GSeq s l) = []) in E. rewrite render_GSeq in E. apply joined_empty in E. destruct E as [E1 E2].
    rewrite Forall_map in E1. rewrite Forall_forall in E1, IHl.
    assert (Hl : forall x, In x l -> is_vacuous x = true).
    { intros x Hx. apply IHl; auto. intros t Ht. apply Ha. eapply PartItem; eassumption. }
    destruct l as [|x [|y l]]; [reflexivity|apply Hl; now left|].
    apply andb_true_iff. split.
    + destruct s as [s|]; [|reflexivity]. apply IHs; [reflexivity| |apply E2; cbn; lia].
      intros t Ht. apply Ha. now apply PartSep.
    + apply forallb_forall. exact Hl.
Qed.

Lemma render_seq l sep :
  render (seq l sep) = joined (match sep with Some f => render f | None => [] end) (map render l).
Proof.
  destruct l as [|x [|y l]]; unfold seq; [reflexivity| |].
  - rewrite render_GSeq. destruct sep; reflexivity.
  - rewrite render_GSeq. destruct sep as [f|]; [|reflexivity].
    destruct (is_vacuous f) eqn:E; [|reflexivity]. now rewrite (vacuous_nil _ E).
Qed.
Lemma render_seq_none l : render (seq l None) = flat_map render l.
Proof. now rewrite render_seq, joined_nil, flat_map_concat_map. Qed.

Lemma render_intervene f sep g : atoms_shown f -> atoms_shown g ->
  render (intervene f sep g) =
  match render f, render g with [], t => t | t, [] => t | t, u => t ++ render sep ++ u end.
Proof.
  intros Hf Hg. unfold intervene.
  destruct (is_vacuous f) eqn:Ef.
  { rewrite (vacuous_nil _ Ef). reflexivity. }
  destruct (render f) as [|a t] eqn:Rf; [rewrite (nil_vacuous _ Hf Rf) in Ef; discriminate|].
  destruct (is_vacuous g) eqn:Eg.
  { rewrite (vacuous_nil _ Eg). exact Rf. }
  destruct (render g) as [|b u] eqn:Rg; [rewrite (nil_vacuous _ Hg Rg) in Eg; discriminate|].
  destruct (is_vacuous sep) eqn:Es.
  - rewrite render_cat, Rf, Rg, (vacuous_nil _ Es). reflexivity.
  - rewrite !render_cat, Rf, Rg, <- !app_assoc. reflexivity.
Qed.

(** ** Lines *)

Lemma one_line_app t u : one_line (t ++ u) <-> one_line t /\ one_line u.
Proof. unfold one_line. rewrite in_app_iff. tauto. Qed.
Lemma one_line_joined sep ts : one_line sep -> Forall one_line ts -> one_line (joined sep ts).
Proof.
  intros Hs. destruct 1 as [|t ts Ht H]; [intros []|]. rewrite joined_cons. apply one_line_app. split; [exact Ht|].
  induction H as [|u us Hu _ IH]; [intros []|]. cbn. rewrite !one_line_app. auto.
Qed.
Lemma find_newline_spec t :
  match find_newline t with
  | None => one_line t
  | Some n => n < length t /\ one_line (firstn n t) /\ (n = length t - 1 -> t = firstn n t ++ [newline])
  end.
Proof.
  induction t as [|c t IH]; [intros []|]. cbn [find_newline]. destruct (N.eqb_spec c newline) as [->|Hc].
  - cbn. split; [lia|]. split; [intros []|]. destruct t; [reflexivity|cbn; lia].
  - destruct (find_newline t) as [n|].
    + destruct IH as (H1 & H2 & H3). cbn [length firstn]. split; [lia|]. split.
      * intros [->|H]; [now apply Hc|auto].
      * intros E. cbn. f_equal. apply H3. lia.
    + intros [->|H]; [now apply Hc|auto].
Qed.
Lemma joined_snoc sep ts t : ts <> [] -> joined sep (ts ++ [t]) = joined sep ts ++ sep ++ t.
Proof.
  destruct ts as [|u ts]; [congruence|]. intros _. cbn [app]. rewrite !joined_cons, flat_map_app. cbn.
  now rewrite app_nil_r, app_assoc.
Qed.
Lemma single_line_sound f : atoms_one_line f ->
  (is_single_line false f = true -> one_line (render f)) /\
  (is_single_line true f = true -> one_line_ended (render f)).
Proof.
  induction f as [|s|c|t|t|f IH|f g IHf IHg|s l IHs IHl] using fragment_ind'; intros Ha.
  - split; intros _; [|left]; intros [].
  - assert (one_line (symbol_text s)) by (destruct s; intros H; repeat (destruct H as [H|H]; [discriminate|]); destruct H).
    split; intros _; [|left]; assumption.
  - cbn. destruct (N.eqb_spec c newline) as [->|Hc].
    + split; [discriminate|]. intros _. right. exists []. split; [reflexivity|intros []].
    + assert (one_line [c]) by (intros [->|[]]; now apply Hc). split; intros _; [|left]; assumption.
  - cbn. pose proof (find_newline_spec t) as F. destruct (find_newline t) as [n|].
    + destruct F as (F1 & F2 & F3). destruct (Nat.eqb_spec n (length t - 1)) as [E|E]; [|split; discriminate].
      split; [discriminate|]. intros _. right. eauto.
    + split; intros _; [|left]; assumption.
  - assert (one_line t) by (apply Ha; constructor). split; intros _; [|left]; assumption.
  - apply IH. intros t Ht. apply Ha. now constructor.
  - destruct IHf as [F1 F2]; [intros t Ht; apply Ha; now apply PartLeft|].
    destruct IHg as [G1 G2]; [intros t Ht; apply Ha; now apply PartRight|].
    cbn. split; intros E; apply andb_true_iff in E; destruct E as [E1 E2].
    + apply one_line_app. auto.
    + destruct (G2 E2) as [H|(u & -> & H)].
      * left. apply one_line_app. auto.
      * right. exists (render f ++ u). rewrite app_assoc. split; [reflexivity|]. apply one_line_app. auto.
  - rewrite render_GSeq. cbn [is_single_line].
    assert (Hs : match s with Some j => match l with [] => true | _ => is_single_line false j end | None => true end = true ->
                 l <> [] -> one_line (match s with Some f => render f | None => [] end)).
    { destruct s as [s|]; [|intros _ _ []]. destruct l; [congruence|]. intros E _. apply (IHs s eq_refl); [|exact E].
      intros t Ht. apply Ha. now apply PartSep. }
    assert (Hl : Forall (fun f => (is_single_line false f = true -> one_line (render f)) /\
                 (is_single_line true f = true -> one_line_ended (render f))) l).
    { rewrite Forall_forall in IHl |- *. intros f Hf. apply IHl; [exact Hf|]. intros t Ht. apply Ha. eapply PartItem; eassumption. }
    clear IHl IHs Ha. split; intros E; apply andb_true_iff in E; destruct E as [E1 E2].
    + destruct l as [|x l]; [intros []|]. apply one_line_joined; [apply Hs; [exact E1|discriminate]|].
      rewrite Forall_map. clear E1 Hs. revert Hl E2. generalize (x :: l). clear. intros l.
      induction 1 as [|f l [F _] _ IH]; intros E; [constructor|]. cbn in E. apply andb_true_iff in E. constructor; [|apply IH]; tauto.
    + destruct l as [|x l]; [left; intros []|].
      specialize (Hs E1 ltac:(discriminate)). clear E1.
      assert (X : exists i z, x :: l = i ++ [z]) by (destruct (@exists_last _ (x :: l) ltac:(discriminate)) as (i & z & E); eauto).
      destruct X as (i & z & E). rewrite E in *. clear E x l.
      apply Forall_app in Hl. destruct Hl as [Hi Hz]. inversion Hz as [|? ? [_ Z] _]; subst. clear Hz.
      assert (X : Forall (fun f => is_single_line false f = true) i /\ is_single_line true z = true).
      { clear -E2. induction i as [|y i IH]; cbn in E2.
        - rewrite andb_true_r in E2. auto.
        - apply andb_true_iff in E2. destruct E2 as [E3 E4]. specialize (IH E4). split; [|tauto].
          constructor; [|tauto]. destruct (i ++ [z]) eqn:Ei; [destruct i; discriminate|exact E3]. }
      destruct X as [X1 X2].
      assert (Ti : Forall one_line (map render i)).
      { rewrite Forall_map. rewrite Forall_forall in *. intros f Hf. apply (proj1 (Hi f Hf)). auto. }
      rewrite map_app. cbn [map].
      assert (W : one_line (joined (match s with Some f => render f | None => [] end) (map render i))) by now apply one_line_joined.
      destruct i as [|y i].
      * cbn. now apply Z.
      * rewrite joined_snoc by discriminate. destruct (Z X2) as [H|(u & -> & H)].
        -- left. rewrite !one_line_app. auto.
        -- right. eexists. rewrite !app_assoc. split; [reflexivity|]. rewrite !one_line_app. auto.
Qed.

Lemma existsb_newline t : negb (existsb (N.eqb newline) t) = true <-> one_line t.
Proof.
  unfold one_line. rewrite negb_true_iff. rewrite <- not_true_iff_false, existsb_exists. split.
  - intros H X. apply H. exists newline. split; [exact X|apply N.eqb_refl].
  - intros H (x & Hx & E). apply N.eqb_eq in E. subst x. auto.
Qed.
Lemma part_seq h s l : Part h (GSeq s l) ->
  h = GSeq s l \/ (exists j, s = Some j /\ Part h j) \/ exists f, In f l /\ Part h f.
Proof. inversion 1; subst; eauto 6. Qed.
Lemma fits_text f : atoms_one_line f -> fits_inline f = true -> one_line (render f).
Proof.
  induction f as [|s|c|t|t|f IH|f g IHf IHg|s l IHs IHl] using fragment_ind'; cbn [fits_inline]; intros Ha E; try discriminate.
  - intros [].
  - cbn. apply negb_true_iff, N.eqb_neq in E. intros [X|[]]. congruence.
  - now apply existsb_newline.
  - apply Ha. constructor.
  - apply IH; [|exact E]. intros t Ht. apply Ha. now constructor.
  - apply andb_true_iff in E. cbn. apply one_line_app. split; [apply IHf|apply IHg]; try tauto; intros t Ht; apply Ha;
      [now apply PartLeft|now apply PartRight].
  - apply andb_true_iff in E. destruct E as [E1 E2]. rewrite render_GSeq.
    destruct l as [|x l]; [intros []|]. apply one_line_joined.
    + destruct s as [j|]; [|intros []]. apply IHs; [reflexivity| |exact E1]. intros t Ht. apply Ha. now apply PartSep.
    + rewrite Forall_map. rewrite Forall_forall in IHl |- *. rewrite forallb_forall in E2. intros f Hf. apply IHl; auto.
      intros t Ht. apply Ha. eapply PartItem; eassumption.
Qed.
Lemma fits_symbols f : as_constructed f -> fits_inline f = true -> forall s, ~ Part (GSymbol s) f.
Proof.
  induction f as [|s|c|t|t|f IH|f g IHf IHg|s l IHs IHl] using fragment_ind'; cbn [fits_inline]; intros Ha E y Hy; try discriminate;
    try (inversion Hy; fail).
  - inversion Hy; subst. revert H1. apply IH; [|exact E]. intros ? ? X. apply Ha. now constructor.
  - apply andb_true_iff in E. inversion Hy as [| | h ? ? X | h ? ? X | |]; subst; revert X; [apply IHf|apply IHg]; try tauto;
      intros ? ? X; apply Ha; [now apply PartLeft|now apply PartRight].
  - apply andb_true_iff in E. destruct E as [E1 E2].
    apply part_seq in Hy. destruct Hy as [Hy|[(j & -> & Hy)|(f & Hf & Hy)]]; [discriminate| |].
    + destruct (Ha (Some j) l (PartHere _)) as [Hl _]. destruct l as [|x l]; [congruence|].
      revert Hy. apply IHs; [reflexivity| |exact E1]. intros ? ? X. apply Ha. now apply PartSep.
    + rewrite Forall_forall in IHl. rewrite forallb_forall in E2. revert Hy. apply IHl; auto.
      intros ? ? X. apply Ha. eapply PartItem; eassumption.
Qed.
Lemma one_line_joined_inv sep ts : one_line (joined sep ts) -> Forall one_line ts /\ (2 <= length ts -> one_line sep).
Proof.
  destruct ts as [|t ts]; [split; [constructor|cbn; lia]|]. rewrite joined_cons, one_line_app. intros [H1 H2]. split.
  - constructor; [exact H1|]. induction ts as [|u ts IH]; [constructor|]. cbn in H2. rewrite !one_line_app in H2. constructor; tauto.
  - destruct ts as [|u ts]; [cbn; lia|]. intros _. cbn in H2. rewrite !one_line_app in H2. tauto.
Qed.
Lemma fits_complete f : as_constructed f -> one_line (render f) -> (forall s, ~ Part (GSymbol s) f) -> fits_inline f = true.
Proof.
  induction f as [|s|c|t|t|f IH|f g IHf IHg|s l IHs IHl] using fragment_ind'; cbn [fits_inline]; intros Ha E Hs; auto.
  - destruct (Hs s). constructor.
  - cbn in E. apply negb_true_iff, N.eqb_neq. intros ->. apply E. now left.
  - now apply existsb_newline.
  - apply IH; [intros ? ? X; apply Ha; now apply PartGroup|exact E|intros ? X; eapply Hs; apply PartGroup; exact X].
  - cbn in E. rewrite one_line_app in E. apply andb_true_iff. split; [apply IHf|apply IHg]; try tauto;
      try (intros ? ? X; apply Ha; first [now apply PartLeft|now apply PartRight]);
      intros ? X; eapply Hs; first [apply PartLeft; exact X|apply PartRight; exact X].
  - rewrite render_GSeq in E. apply one_line_joined_inv in E. destruct E as [E1 E2]. rewrite map_length in E2.
    destruct (Ha s l (PartHere _)) as [Hl H1]. apply andb_true_iff. split.
    + destruct s as [j|]; [|reflexivity]. destruct l as [|x [|y l]]; [reflexivity|discriminate (H1 eq_refl)|].
      apply IHs; [reflexivity| |apply E2; cbn; lia|].
      * intros ? ? X. apply Ha. now apply PartSep.
      * intros ? X. eapply Hs. apply PartSep. exact X.
    + apply forallb_forall. intros f Hf. rewrite Forall_map in E1. rewrite Forall_forall in IHl, E1. apply IHl; auto.
      * intros ? ? X. apply Ha. eapply PartItem; eassumption.
      * intros ? X. eapply Hs. eapply PartItem; eassumption.
Qed.

Lemma render_join f g :
  render (join_with_wsp f g) =
  if fits_inline g then render f ++ [32%N] ++ render g ++ [newline] else render f ++ [newline] ++ render g.
Proof. unfold join_with_wsp, cat_break. destruct (fits_inline g); rewrite !render_cat, <- ?app_assoc; reflexivity. Qed.

(** ** Builders *)

Lemma finalize_text b : render (finalize b) = flat_map render (frozen b) ++ render (active b).
Proof.
  unfold finalize, renew. rewrite render_seq_none. cbn [frozen].
  destruct (is_empty (active b)) eqn:E.
  - destruct (active b); try discriminate. cbn. now rewrite app_nil_r.
  - rewrite flat_map_app. cbn. now rewrite app_nil_r.
Qed.
Definition step (b : builder) (o : build) : builder :=
  match o with BAppend f => append_active f b | BRenew => renew b | BPush f => push f b end.
Lemma step_text b o : render (finalize (step b o)) = render (finalize b) ++ put_in o.
Proof.
  rewrite !finalize_text. destruct b as [fr ac]. destruct o as [f| |f]; cbn [step append_active renew push frozen active put_in].
  - unfold append. now rewrite render_cat, app_assoc.
  - rewrite !app_nil_r. destruct (is_empty ac) eqn:E; [destruct ac; try discriminate; cbn; now rewrite app_nil_r|].
    rewrite flat_map_app. cbn. now rewrite app_nil_r.
  - unfold push; cbn [frozen active]. destruct (is_empty ac) eqn:E.
    + destruct ac; try discriminate. cbn [frozen active render]. rewrite flat_map_app. cbn. now rewrite !app_nil_r.
    + cbn [frozen active render]. rewrite flat_map_app. destruct (is_empty f) eqn:Ef.
      * destruct f; try discriminate. cbn. now rewrite !app_nil_r.
      * cbn. rewrite !app_nil_r, app_assoc. reflexivity.
Qed.
Lemma built_text bs : render (finalize (built bs)) = flat_map put_in bs.
Proof.
  unfold built. change (render (finalize (fold_left step bs new_builder)) = flat_map put_in bs).
  assert (H : forall b, render (finalize (fold_left step bs b)) = render (finalize b) ++ flat_map put_in bs).
  { induction bs as [|o bs IH]; intros b; cbn [fold_left flat_map]; [now rewrite app_nil_r|].
    now rewrite IH, step_text, <- app_assoc. }
  rewrite H. reflexivity.
Qed.

(** Nothing is put in that is not there. *)
Definition put_something (o : build) : Prop :=
  match o with BAppend f | BPush f => render f <> [] | BRenew => True end.
Definition kept_text (b : builder) : Prop :=
  Forall (fun f => render f <> []) (frozen b) /\ (is_empty (active b) = false -> render (active b) <> []).
Lemma built_pieces bs : Forall put_something bs -> forall b, kept_text b -> forall sep,
  render (finalize_with_sep (fold_left step bs b) sep) =
  joined (render sep) (map render (frozen b) ++ filter nonempty (pieces (render (active b)) bs)).
Proof.
  induction 1 as [|o bs Ho _ IH]; intros [fr ac] [K1 K2] sep; cbn [frozen active] in *.
  - cbn [fold_left pieces filter]. unfold finalize_with_sep, renew. rewrite render_seq. cbn [frozen active].
    destruct (is_empty ac) eqn:E.
    + destruct ac; try discriminate. cbn. now rewrite app_nil_r.
    + rewrite map_app. cbn. specialize (K2 eq_refl). destruct (render ac); [congruence|reflexivity].
  - cbn [fold_left]. destruct o as [f| |f]; cbn [step pieces put_something] in *.
    + rewrite IH.
      * cbn [append_active frozen active]. unfold append. now rewrite render_cat.
      * split; cbn [append_active frozen active]; [exact K1|]. intros _. unfold append. rewrite render_cat.
        destruct (render f); [congruence|]. destruct (render ac); discriminate.
    + rewrite IH.
      * unfold renew. cbn [frozen active render]. destruct (is_empty ac) eqn:E.
        -- destruct ac; try discriminate. reflexivity.
        -- specialize (K2 eq_refl). rewrite map_app, <- app_assoc. cbn. destruct (render ac); [congruence|reflexivity].
      * split; cbn; [|discriminate]. destruct (is_empty ac) eqn:E; [exact K1|]. apply Forall_app. split; [exact K1|].
        constructor; [auto|constructor].
    + rewrite IH.
      * unfold push. cbn [frozen active]. destruct (is_empty ac) eqn:E; cbn [frozen active].
        -- destruct ac; try discriminate. rewrite map_app, <- app_assoc. cbn. destruct (render f); [congruence|reflexivity].
        -- specialize (K2 eq_refl). rewrite map_app, <- app_assoc. destruct (is_empty f) eqn:Ef; [destruct f; try discriminate; cbn in Ho; congruence|].
           cbn. destruct (render ac); [congruence|]. cbn. destruct (render f); [congruence|reflexivity].
      * unfold push. cbn [frozen active]. split; destruct (is_empty ac) eqn:E; cbn; try discriminate.
        -- apply Forall_app. split; [exact K1|]. constructor; [exact Ho|constructor].
        -- apply Forall_app. split; [exact K1|]. constructor; [auto|]. destruct (is_empty f); constructor; [exact Ho|constructor].
Qed.
