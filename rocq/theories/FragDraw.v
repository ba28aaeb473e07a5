(** Proofs about the drawing of values. *)
From Coq Require Import Ascii String.
From Verif Require Import Base BoundsModel DataModel NumericModel ValueModel ValueProofs FragModel FragSpec FragProofs.
Open Scope nat_scope.

Definition row (m : text) (last : bool) (p : option (text * node)) : text :=
  match p with
  | None => m ++ str "~" ++ [newline]
  | Some (l, n) =>
      m ++ symbol_text (if last then Elbow else Junction) ++ l ++ str " :=" ++
      match n with
      | Leaf t => str " " ++ t ++ [newline]
      | Node _ => [newline] ++ draw (m ++ symbol_text (if last then Vacuum else Pipe)) n
      end
  end.
Fixpoint rows (m : text) (l : list (option (text * node))) : text :=
  match l with
  | [] => []
  | p :: rest => row m (match rest with [] => true | _ => false end) p ++ rows m rest
  end.
Lemma draw_node m l : draw m (Node l) = rows m l.
Proof.
  induction l as [|p l IH]; [reflexivity|]. cbn [rows]. rewrite <- IH. destruct p as [[x n]|]; [|reflexivity].
  destruct l; reflexivity.
Qed.
Lemma rows_snoc m ps p : rows m (ps ++ [p]) = flat_map (row m false) ps ++ row m true p.
Proof.
  induction ps as [|q ps IH]; cbn [app rows flat_map]; [now rewrite app_nil_r|].
  rewrite IH, <- app_assoc. destruct (ps ++ [p]) eqn:E; [destruct ps; discriminate|reflexivity].
Qed.

(** ** The picture *)

Lemma margin_app g h : margin (g ++ h) = margin g ++ margin h.
Proof. apply flat_map_app. Qed.
Lemma gutter_text g : render (compile_gutter g) = margin g.
Proof.
  unfold compile_gutter.
  replace (fold_left _ g new_builder) with
    (built (map (fun c => BPush (match c with CBranch => GSymbol Pipe | CSpace => GSymbol Vacuum end)) g)).
  - rewrite built_text. unfold margin. rewrite flat_map_concat_map, map_map, <- flat_map_concat_map.
    apply flat_map_ext. intros [|]; reflexivity.
  - unfold built. generalize new_builder. induction g as [|c g IH]; intros b; [reflexivity|]. cbn [map fold_left]. apply IH.
Qed.
Lemma fits_cat f g : fits_inline (cat f g) = fits_inline f && fits_inline g.
Proof. unfold cat. destruct f, g; cbn; rewrite ?andb_true_r; reflexivity. Qed.

Definition is_leaf (n : node) : bool := match n with Leaf _ => true | Node _ => false end.
Definition pictures (c : list column -> fragment) (n : node) : Prop :=
  forall g, render (c g) = draw (margin g) n /\ fits_inline (c g) = is_leaf n.
Definition labelled (lc : text * (list column -> fragment)) (ln : text * node) : Prop :=
  fst lc = fst ln /\ pictures (snd lc) (snd ln).

Lemma value_text c n g : pictures c n ->
  render (compile_field_value c g) =
  str " :=" ++ match n with Leaf t => str " " ++ t ++ [newline] | Node _ => [newline] ++ draw (margin g) n end.
Proof.
  intros H. destruct (H g) as [H1 H2]. unfold compile_field_value, group. cbn [render]. rewrite render_join, H2, H1.
  destruct n; reflexivity.
Qed.
Lemma continue_text g lc ln : labelled lc ln ->
  render (field_continue g lc) = row (margin g) false (Some ln) /\ fits_inline (field_continue g lc) = false.
Proof.
  intros [H1 H2]. split.
  - unfold field_continue, group. cbn [render].
    change (render (finalize (built [BPush (compile_gutter g); BPush (cat (GSymbol Junction) (GString (fst lc)));
      BPush (compile_field_value (snd lc) (g ++ [CBranch]))])) = row (margin g) false (Some ln)).
    rewrite built_text. cbn [flat_map put_in]. rewrite gutter_text, render_cat, (value_text _ _ _ H2), H1, margin_app.
    destruct ln as [l n]. cbn [fst snd row]. rewrite app_nil_r, <- !app_assoc. reflexivity.
  - unfold field_continue, finalize, renew, push. cbn. apply andb_false_r.
Qed.
Lemma last_text g lc ln : labelled lc ln ->
  render (field_last g lc) = row (margin g) true (Some ln) /\ fits_inline (field_last g lc) = false.
Proof.
  intros [H1 H2]. split.
  - unfold field_last, group. cbn [render].
    change (render (finalize (built [BPush (compile_gutter g); BPush (cat (GSymbol Elbow) (GString (fst lc)));
      BPush (compile_field_value (snd lc) (g ++ [CSpace]))])) = row (margin g) true (Some ln)).
    rewrite built_text. cbn [flat_map put_in]. rewrite gutter_text, render_cat, (value_text _ _ _ H2), H1, margin_app.
    destruct ln as [l n]. cbn [fst snd row]. rewrite app_nil_r, <- !app_assoc. reflexivity.
  - unfold field_last, finalize, renew, push. cbn. apply andb_false_r.
Qed.
Lemma skipped_text g : render (field_skipped g) = row (margin g) false None.
Proof. unfold field_skipped, group. cbn [render]. now rewrite render_cat, gutter_text. Qed.

Lemma append_all_text fs : forall f, render (append_all fs f) = render f ++ flat_map render fs.
Proof.
  unfold append_all. induction fs as [|x fs IH]; intros f; cbn [fold_left flat_map]; [now rewrite app_nil_r|].
  rewrite IH. unfold append. now rewrite render_cat, app_assoc.
Qed.
Lemma split_last_spec {A} (l : list A) : forall x, let (i, z) := split_last x l in x :: l = i ++ [z].
Proof.
  induction l as [|y l IH]; intros x; cbn [split_last]; [reflexivity|]. specialize (IH y).
  destruct (split_last y l) as [i z]. cbn. now rewrite IH.
Qed.
Lemma continues_text g i i' : Forall2 labelled i i' ->
  flat_map render (map (field_continue g) i) = flat_map (row (margin g) false) (map Some i').
Proof.
  induction 1 as [|lc ln i i' H _ IH]; [reflexivity|]. cbn [map flat_map]. rewrite IH. f_equal. now apply continue_text.
Qed.
Lemma Forall2_snoc {A B} (R : A -> B -> Prop) i z l : Forall2 R (i ++ [z]) l ->
  exists i' z', l = i' ++ [z'] /\ Forall2 R i i' /\ R z z'.
Proof.
  intros H. apply Forall2_app_inv_l in H. destruct H as (i' & k & H1 & H2 & ->).
  inversion H2 as [|? z' ? ? H3 H4]; subst. inversion H4; subst. eauto 6.
Qed.
Lemma fields_text g x l lns : Forall2 labelled (x :: l) lns ->
  render (compile_fields g x l) = rows (margin g) (map Some lns) /\ fits_inline (compile_fields g x l) = false.
Proof.
  intros H. unfold compile_fields. pose proof (split_last_spec l x) as E. destruct (split_last x l) as [i z].
  rewrite E in H. apply Forall2_snoc in H. destruct H as (i' & z' & -> & Hi & Hz).
  unfold append. rewrite render_cat, fits_cat, append_all_text. destruct (last_text g _ _ Hz) as [-> ->].
  rewrite (continues_text _ _ _ Hi), map_app. change (map Some [z']) with [Some z']. rewrite rows_snoc. split; [reflexivity|apply andb_false_r].
Qed.

Section Values.
Context (show : value -> text) (index : nat -> text) (name : label -> text).
Context (Hshow : forall v, one_line (show v)) (Hname : forall l, one_line (name l)).

Lemma combine_labelled (ks : list text) cs ns : Forall2 pictures cs ns ->
  Forall2 labelled (combine ks cs) (combine ks ns).
Proof.
  intros H. revert ks. induction H as [|c n cs ns H _ IH]; intros [|k ks]; cbn; constructor; auto. now split.
Qed.
Lemma F2_length {A B} (R : A -> B -> Prop) l m : Forall2 R l m -> length l = length m.
Proof. induction 1; cbn; congruence. Qed.

Lemma seq_text cs ns : Forall2 pictures cs ns -> pictures (fun g => compile_seq index g cs) (seq_node index ns).
Proof.
  intros H g. pose proof (F2_length _ _ _ H) as HL.
  pose proof (combine_labelled (map index (List.seq 0 (length cs))) _ _ H) as HC.
  unfold compile_seq. destruct (combine (map index (List.seq 0 (length cs))) cs) as [|x r] eqn:E.
  { assert (E' : length (combine (map index (List.seq 0 (length cs))) cs) = 0) by now rewrite E.
    rewrite combine_length, map_length, seq_length in E'. destruct cs; [|cbn in E'; lia].
    inversion H; subst. split; reflexivity. }
  assert (HN : length (x :: r) = length ns).
  { rewrite <- E, combine_length, map_length, seq_length. lia. }
  destruct ns as [|n0 ns0]; [discriminate HN|]. remember (n0 :: ns0) as ns eqn:Ens.
  assert (Es : seq_node index ns = Node (previewed index ns)) by now subst ns. rewrite Es. clear Es.
  pose proof (split_last_spec r x) as Ex. destruct (split_last x r) as [i z].
  rewrite Ex in HC. apply Forall2_snoc in HC. destruct HC as (i' & z' & Eall & Hi & Hz).
  rewrite HL in Eall.
  pose proof (F2_length _ _ _ Hi) as Hii.
  assert (Hlen : length ns = S (length i)).
  { rewrite <- HN, Ex, app_length. cbn. lia. }
  assert (Hr : length r = length i).
  { cbn [length] in HN. lia. }
  rewrite draw_node. unfold previewed. rewrite Eall, HN, Hlen, Hr. unfold preview_len.
  assert (Wall : forall u, i = u -> render (append (append_all (map (field_continue g) u) GEmpty) (field_last g z)) =
    rows (margin g) (map Some (i' ++ [z'])) /\
    fits_inline (append (append_all (map (field_continue g) u) GEmpty) (field_last g z)) = false).
  { intros u <-. unfold append. rewrite render_cat, fits_cat, append_all_text. destruct (last_text g _ _ Hz) as [-> ->].
    rewrite (continues_text _ _ _ Hi), map_app. change (map Some [z']) with [Some z']. rewrite rows_snoc. split; [reflexivity|apply andb_false_r]. }
  cbn [is_leaf].
  destruct (10 <? S (length i)) eqn:E1.
  - apply Nat.ltb_lt in E1. destruct (Nat.eqb_spec 10 (length i)) as [E2|E2]; cbn [negb].
    + replace (S (length i) <=? 11) with true by (symmetry; apply Nat.leb_le; lia).
      apply Wall. rewrite firstn_all2; [reflexivity|lia].
    + replace (S (length i) <=? 11) with false by (symmetry; apply Nat.leb_gt; lia).
      unfold append. rewrite !render_cat, !fits_cat, append_all_text, skipped_text. destruct (last_text g _ _ Hz) as [-> ->].
      split; [|apply andb_false_r].
      replace (S (length i) - 1) with (length i) by lia.
      rewrite map_app, firstn_app, skipn_app, !map_length, <- Hii.
      replace (10 - length i) with 0 by lia. rewrite Nat.sub_diag.
      rewrite (skipn_all2 (map Some i')) by (rewrite map_length; lia).
      change (firstn 0 (map Some [z'])) with (@nil (option (text * node))).
      change ([] ++ skipn 0 (map Some [z'])) with [Some z']. rewrite app_nil_r.
      rewrite app_assoc, rows_snoc, flat_map_app.
      rewrite firstn_map. rewrite <- (continues_text g (firstn 10 i) (firstn 10 i')).
      * cbn [flat_map render]. rewrite app_nil_r, <- !app_assoc. reflexivity.
      * clear -Hi. revert Hi. generalize 10. revert i'. induction i as [|a i IH]; intros i' k Hi; inversion Hi; subst; destruct k; cbn; constructor; auto.
  - apply Nat.ltb_ge in E1.
    replace (S (length i) <=? 11) with true by (symmetry; apply Nat.leb_le; lia).
    apply Wall. rewrite firstn_all2; [reflexivity|lia].
Qed.

Lemma atomic_elementary v : is_atomic v = elementary v.
Proof.
  induction v as [| | | | | | |lo hi| | |vs _|fs _| |vs _|n v _| | | | |] using value_ind'; cbn; auto.
  - destruct (N.leb_spec hi lo), (N.ltb_spec lo hi); auto; lia.
  - now destruct vs.
  - now destruct n.
Qed.
Lemma elementary_leaf v : elementary v = true -> exists t, shown show index name v = Leaf t.
Proof.
  induction v as [b| | | | | | |lo hi| |v IH|vs _|fs _|l v IH|vs _|n v _| o v _ IH| n v IH| | |] using value_ind'; cbn; intros E; eauto.
  - destruct (IH E) as [t ->]. rewrite E. cbn. eauto.
  - destruct vs; [eauto|discriminate].
  - destruct fs; [cbn; eauto|discriminate].
  - destruct (IH E) as [t ->]. rewrite E. cbn. eauto.
  - destruct vs; [cbn; eauto|discriminate].
  - destruct n; [cbn; eauto|discriminate].
Qed.

Lemma variant_text l v c :
  one_line l -> pictures c (shown show index name v) ->
  pictures (compile_variant l (is_atomic v) c) (variant_node l (elementary v) (shown show index name v)).
Proof.
  intros Hl H g. unfold compile_variant. rewrite atomic_elementary. destruct (elementary v) eqn:E.
  - destruct (elementary_leaf v E) as [t Et]. destruct (H g) as [H1 H2]. rewrite Et in *. cbn [variant_node].
    unfold group, append. cbn [render fits_inline]. rewrite !render_cat, !fits_cat, H1, H2. cbn [render draw is_leaf].
    split.
    + cbn [app]. rewrite <- !app_assoc. reflexivity.
    + assert (X : fits_inline (GString (str "{ " ++ l ++ str " := ")) = true).
      { apply existsb_newline. apply one_line_app. split; [intros X; cbn in X; intuition discriminate|].
        apply one_line_app. split; [exact Hl|intros X; cbn in X; intuition discriminate]. }
      rewrite X. reflexivity.
  - cbn [variant_node]. rewrite draw_node.
    destruct (last_text g (l, c) (l, shown show index name v)) as [H1 H2]; [now split|].
    rewrite H1, H2. cbn [rows]. rewrite app_nil_r. split; reflexivity.
Qed.

Lemma concealed_hidden l : concealed name l = hidden name l.
Proof.
  unfold concealed, hidden. change (str "__") with [95; 95]%N. destruct (name l) as [|a [|b t]]; cbn [firstn].
  - reflexivity.
  - destruct (list_eq_dec N.eq_dec [a] [95; 95]%N) as [E|_]; [discriminate E|]. repeat (destruct a as [|a]; try reflexivity).
    repeat (destruct a as [a|a|]; try reflexivity).
  - destruct (list_eq_dec N.eq_dec [a; b] [95; 95]%N) as [E|N]; [injection E as -> ->; reflexivity|].
    destruct (N.eq_dec a 95) as [->|Na].
    + assert (Nb : b <> 95%N) by congruence. clear N.
      destruct b as [|b]; [reflexivity|]. repeat (destruct b as [b|b|]; try reflexivity). now contradiction Nb.
    + clear N. destruct a as [|a]; [reflexivity|]. repeat (destruct a as [a|a|]; try reflexivity). now contradiction Na.
Qed.
Lemma flag_value v : match flag v with Some b => b | None => false end = match coerce_mapped v with VBool b => b | _ => false end.
Proof. induction v; cbn [flag coerce_mapped]; auto. Qed.
Lemma flag_boolean v : match flag v with Some _ => true | None => false end = is_boolean v.
Proof. unfold is_boolean. induction v; cbn [flag coerce_mapped]; auto. Qed.
Lemma forallb_ext' {A} (f g : A -> bool) : (forall x, f x = g x) -> forall l, forallb f l = forallb g l.
Proof. intros H l. induction l as [|a l IH]; [reflexivity|]. cbn. now rewrite H, IH. Qed.

Theorem compile_shown v : pictures (compile_value show index name v) (shown show index name v).
Proof.
  induction v as [b|w n|c|n|c|o| |lo hi| |v IH|vs IH|fs IH|l v IH|vs IH|n v IH|o v _ IH|n v IH|v _| |v _] using value_ind'.
  all: try (intros g; split; [reflexivity|]; cbn; try reflexivity; apply existsb_newline; apply Hshow).
  - intros g. destruct b; split; reflexivity.
  - intros g. split; [|reflexivity]. cbn. rewrite <- ?app_assoc. reflexivity.
  - cbn [compile_value shown]. apply variant_text; [intros X; cbn in X; intuition discriminate|exact IH].
  - intros g. cbn [compile_value shown].
    assert (HC : Forall2 pictures (map (compile_value show index name) vs) (map (shown show index name) vs)).
    { clear -IH. induction IH; constructor; auto. }
    apply (combine_labelled (map index (List.seq 0 (length vs)))) in HC.
    destruct vs as [|v0 vs]; [split; reflexivity|]. cbn [length List.seq map combine] in HC |- *.
    rewrite draw_node. exact (fields_text g _ _ _ HC).
  - intros g. cbn [compile_value shown].
    rewrite (filter_ext (fun lv : label * value => negb (concealed name (fst lv))) (fun lv => negb (hidden name (fst lv))))
      by (intros lv; now rewrite concealed_hidden).
    rewrite (filter_ext (fun ln : label * option (text * node) => negb (concealed name (fst ln))) (fun ln => negb (hidden name (fst ln))))
      by (intros lv; now rewrite concealed_hidden).
    set (vis := filter (fun lv => negb (hidden name (fst lv))) fs).
    rewrite (forallb_ext' (fun lv : label * value => match flag (snd lv) with Some _ => true | None => false end) (fun lv => is_boolean (snd lv)))
      by (intros lv; now rewrite flag_boolean).
    rewrite (filter_ext (fun lv : label * value => match flag (snd lv) with Some b => b | None => false end)
      (fun lv => match coerce_mapped (snd lv) with VBool b => b | _ => false end)) by (intros lv; now rewrite flag_value).
    assert (HC : Forall2 labelled
       (map snd (filter (fun lc => negb (hidden name (fst lc))) (map (fun lv => (fst lv, (name (fst lv), compile_value show index name (snd lv)))) fs)))
       (map (fun lv => (name (fst lv), shown show index name (snd lv))) vis)).
    { unfold vis. clear vis. induction IH as [|[l v] fs H _ IH]; cbn; [constructor|].
      destruct (hidden name l); cbn; [exact IH|]. constructor; [|exact IH]. split; [reflexivity|exact H]. }
    assert (HN : map snd (filter (fun ln => negb (hidden name (fst ln)))
                   (map (fun lv => (fst lv, Some (name (fst lv), shown show index name (snd lv)))) fs)) =
                 map Some (map (fun lv => (name (fst lv), shown show index name (snd lv))) vis)).
    { unfold vis. clear. induction fs as [|[l v] fs IH]; cbn; [reflexivity|]. destruct (hidden name l); cbn; [exact IH|]. now rewrite IH. }
    rewrite HN. clear HN. destruct (map snd (filter _ _)) as [|x l] eqn:E.
    + clearbody vis. destruct vis; [split; reflexivity|inversion HC].
    + assert (Hv : vis <> []) by (intros E'; rewrite E' in HC; inversion HC).
      clearbody vis. destruct vis as [|p vis'] eqn:Ev; [congruence|]. rewrite <- Ev in *.
      destruct (forallb _ vis) eqn:Eb.
      * unfold compile_bool_flags. rewrite render_cat, fits_cat. unfold delimit. rewrite !render_cat, !fits_cat, render_seq, map_map.
        split.
        -- cbn [render draw]. rewrite <- !app_assoc. reflexivity.
        -- cbn [is_leaf fits_inline]. rewrite !andb_true_r. apply andb_true_iff. split; [reflexivity|].
           apply andb_true_iff. split; [reflexivity|].
           assert (G : forall ls, fits_inline (seq (map (fun lv : label * value => GString (name (fst lv))) ls) (Some (GChar 124%N))) = true).
           { intros ls. assert (F : forallb fits_inline (map (fun lv : label * value => GString (name (fst lv))) ls) = true).
             { apply forallb_forall. intros f Hf. apply in_map_iff in Hf. destruct Hf as (lv & <- & _). apply existsb_newline, Hname. }
             destruct (map _ ls) as [|a [|b t]]; [reflexivity|exact F|exact F]. }
           apply G.
      * rewrite draw_node. apply fields_text. exact HC.
  - cbn [compile_value shown]. apply variant_text; [apply Hname|exact IH].
  - cbn [compile_value shown]. apply seq_text. clear -IH. induction IH; constructor; auto.
  - cbn [compile_value shown]. apply seq_text. induction n; constructor; auto.
  - exact IH.
  - exact IH.
Qed.
End Values.
