(** Trees can be read off their drawings. *)
From Coq Require Import Ascii String.
From Verif Require Import Base BoundsModel DataModel NumericModel ValueModel ValueProofs FragModel FragSpec FragProofs FragDraw.
Open Scope nat_scope.

Lemma split_at {A} (c : A) l : forall l' X X', ~ In c l -> ~ In c l' -> l ++ c :: X = l' ++ c :: X' -> l = l' /\ X = X'.
Proof.
  induction l as [|a l IH]; intros [|a' l'] X X' H H' E; cbn in E.
  - injection E as ->. auto.
  - injection E as -> _. destruct H'. now left.
  - injection E as -> _. destruct H. now left.
  - injection E as -> E. destruct (IH l' X X') as [-> ->]; auto; intros Y; [apply H|apply H']; now right.
Qed.

Inductive ends : list (option (text * node)) -> Prop :=
| EndsHere l n : ends [Some (l, n)]
| EndsMore p q : ends q -> ends (p :: q).
Lemma ends_snoc ps l n : ends (ps ++ [Some (l, n)]).
Proof. induction ps; cbn; now constructor. Qed.

Definition tidy (q : list (option (text * node))) : Prop :=
  forall l n, In (Some (l, n)) q -> (one_line l /\ ~ In 32%N l) /\ legible n.
Definition unique (n : node) : Prop := forall n' m r r', legible n' -> is_leaf n = false -> is_leaf n' = false ->
  draw m n ++ r = draw m n' ++ r' -> n = n' /\ r = r'.

Lemma row_unique m b l n l' n' r r' :
  ~ In 32%N l -> ~ In 32%N l' -> legible n -> legible n' -> unique n ->
  row m b (Some (l, n)) ++ r = row m b (Some (l', n')) ++ r' -> l = l' /\ n = n' /\ r = r'.
Proof.
  intros Hl Hl' Hn Hn' U E. cbn [row] in E. rewrite <- !app_assoc in E.
  apply app_inv_head in E. apply app_inv_head in E.
  change (str " :=") with [32; 58; 61]%N in E. cbn [app] in E.
  apply split_at in E; [|assumption|assumption]. destruct E as [-> E]. injection E as E.
  destruct n as [t|ps], n' as [t'|ps']; cbn [app str] in E.
  - change (str " ") with [32%N] in E. cbn [app] in E. injection E as E. rewrite <- !app_assoc in E. cbn [app] in E.
    inversion Hn; inversion Hn'; subst. apply split_at in E; [|assumption|assumption]. destruct E as [-> ->]. auto.
  - discriminate E.
  - discriminate E.
  - injection E as E. destruct (U (Node ps') _ _ _ Hn' eq_refl eq_refl E) as [-> ->]. auto.
Qed.
Lemma rows_unique q : ends q -> (forall l n, In (Some (l, n)) q -> unique n) -> tidy q ->
  forall q' m r r', ends q' -> tidy q' -> rows m q ++ r = rows m q' ++ r' -> q = q' /\ r = r'.
Proof.
  induction 1 as [l n|p q Hq IH]; intros HU HT q' m r r' Hq' HT' E; destruct Hq' as [l' n'|p' q' Hq'].
  - cbn [rows] in E. rewrite !app_nil_r in E.
    destruct (HT l n (or_introl eq_refl)) as [[_ H1] H2]. destruct (HT' l' n' (or_introl eq_refl)) as [[_ H1'] H2'].
    apply row_unique in E; auto; [|eapply HU; now left]. destruct E as (-> & -> & ->). auto.
  - cbn [rows] in E. rewrite app_nil_r in E. destruct q' as [|q0 q']; [inversion Hq'|].
    destruct p' as [[l' n']|]; cbn [row] in E; rewrite <- !app_assoc in E; apply app_inv_head in E; discriminate E.
  - cbn [rows] in E. rewrite app_nil_r in E. destruct q as [|q0 q]; [inversion Hq|].
    destruct p as [[l n]|]; cbn [row] in E; rewrite <- !app_assoc in E; apply app_inv_head in E; discriminate E.
  - cbn [rows] in E. destruct q as [|q0 q]; [inversion Hq|]. destruct q' as [|q0' q']; [inversion Hq'|].
    remember (q0 :: q) as t. remember (q0' :: q') as t'. clear Heqt Heqt'. rewrite <- !app_assoc in E.
    assert (X : p = p' /\ rows m t ++ r = rows m t' ++ r').
    { destruct p as [[l n]|], p' as [[l' n']|].
      - destruct (HT l n (or_introl eq_refl)) as [[_ H1] H2]. destruct (HT' l' n' (or_introl eq_refl)) as [[_ H1'] H2'].
        apply row_unique in E; auto; [|eapply HU; now left]. destruct E as (-> & -> & ->). auto.
      - cbn [row] in E; rewrite <- !app_assoc in E; apply app_inv_head in E; discriminate E.
      - cbn [row] in E; rewrite <- !app_assoc in E; apply app_inv_head in E; discriminate E.
      - apply app_inv_head in E. auto. }
    destruct X as [-> X]. apply IH in X; auto.
    + destruct X as [-> ->]. auto.
    + intros l n Hn. eapply HU. right. exact Hn.
    + intros l n Hn. apply HT. now right.
    + intros l n Hn. apply HT'. now right.
Qed.
Lemma legible_unique n : legible n -> unique n.
Proof.
  induction 1 as [t Ht|ps l0 n0 HN HL IH]; intros n' m r r' Hn' E1 E2 E; [discriminate|].
  destruct Hn' as [|ps' l0' n0' HN' HL']; [discriminate|]. rewrite !draw_node in E.
  apply rows_unique in E; [destruct E as [-> ->]; auto| | | | |].
  - apply ends_snoc.
  - exact IH.
  - intros l n Hn. split; [apply HN with n|apply HL with l]; exact Hn.
  - apply ends_snoc.
  - intros l n Hn. split; [apply HN' with n|apply HL' with l]; exact Hn.
Qed.
Lemma node_newline m n : legible n -> is_leaf n = false -> In newline (draw m n).
Proof.
  destruct 1 as [|ps l n]; [discriminate|]. intros _. rewrite draw_node, rows_snoc. apply in_app_iff. right.
  cbn [row]. rewrite !in_app_iff. right. right. right. right. destruct n; rewrite !in_app_iff; cbn; tauto.
Qed.
Theorem draw_unique m n n' : legible n -> legible n' -> draw m n = draw m n' -> n = n'.
Proof.
  intros H H' E. destruct (is_leaf n) eqn:L, (is_leaf n') eqn:L'.
  - destruct n, n'; try discriminate. cbn in E. now subst.
  - pose proof (node_newline m n' H' L') as X. rewrite <- E in X. destruct n; [|discriminate]. inversion H; subst. contradiction.
  - pose proof (node_newline m n H L) as X. rewrite E in X. destruct n'; [|discriminate]. inversion H'; subst. contradiction.
  - assert (E' : draw m n ++ [] = draw m n' ++ []) by now rewrite E. apply (legible_unique n H n' m [] []) in E'; tauto.
Qed.

Section Shown.
Context (show : value -> text) (index : nat -> text) (name : label -> text).
Context (Hshow : forall v, one_line (show v)) (Hname : forall l, one_line (name l) /\ ~ In 32%N (name l))
  (Hindex : forall i, one_line (index i) /\ ~ In 32%N (index i)).
Local Notation sh := (shown show index name).

Lemma legible_parts q : tidy q -> (exists ps l n, q = ps ++ [Some (l, n)]) -> legible (Node q).
Proof. intros H (ps & l & n & ->). constructor; intros; eapply H; eassumption. Qed.
Lemma named_ends (lns : list (text * node)) : lns <> [] -> exists ps l n, map Some lns = ps ++ [Some (l, n)].
Proof.
  intros H. destruct (exists_last H) as (i & [l n] & ->). exists (map Some i), l, n. apply map_app.
Qed.
Lemma combine_tidy k ns : Forall legible ns -> tidy (map Some (combine (map index (List.seq k (length ns))) ns)).
Proof.
  intros H l n Hn. apply in_map_iff in Hn. destruct Hn as (x & [= ->] & Hn).
  rewrite Forall_forall in H. split; [|apply H; eapply in_combine_r; exact Hn].
  apply in_combine_l in Hn. apply in_map_iff in Hn. destruct Hn as (i & <- & _). apply Hindex.
Qed.
Lemma seq_legible ns : Forall legible ns -> legible (seq_node index ns).
Proof.
  intros H. destruct ns as [|n0 ns0]; [constructor; intros X; cbn in X; intuition discriminate|].
  cbn [seq_node]. remember (n0 :: ns0) as ns eqn:En. pose proof (combine_tidy 0 ns H) as T.
  set (lns := combine (map index (List.seq 0 (length ns))) ns) in *.
  assert (Hl : length lns = length ns) by (unfold lns; rewrite combine_length, map_length, seq_length; lia).
  assert (Hn : lns <> []) by (intros E; rewrite E in Hl; subst ns; discriminate).
  unfold previewed. fold lns. destruct (length ns <=? 11) eqn:E.
  - apply legible_parts; [exact T|]. now apply named_ends.
  - apply Nat.leb_gt in E. apply legible_parts.
    + intros l n X. rewrite !in_app_iff in X. destruct X as [X|[X|X]].
      * apply T. rewrite <- (firstn_skipn 10). apply in_app_iff. now left.
      * destruct X as [X|[]]; discriminate.
      * apply T. rewrite <- (firstn_skipn (length ns - 1)). apply in_app_iff. now right.
    + assert (X : exists l n, skipn (length ns - 1) (map Some lns) = [Some (l, n)]).
      { destruct (exists_last Hn) as (i & [l n] & Ei). rewrite Ei in *. rewrite app_length in Hl. cbn in Hl.
        exists l, n. rewrite map_app, skipn_app, map_length, skipn_all2 by (rewrite map_length; lia).
        replace (length ns - 1 - length i) with 0 by lia. reflexivity. }
      destruct X as (l & n & ->). exists (firstn 10 (map Some lns) ++ [None]), l, n. now rewrite <- app_assoc.
Qed.
Lemma variant_legible l b n : one_line l /\ ~ In 32%N l -> legible n -> legible (variant_node l b n).
Proof.
  intros Hl Hn.
  assert (X : legible (Node [Some (l, n)])).
  { apply (LegNode [] l n); cbn; intros ? ? [[= <- <-]|[]]; assumption. }
  destruct b; cbn [variant_node]; [|exact X]. destruct n as [t|]; [|exact X]. inversion Hn; subst.
  constructor. rewrite !one_line_app. repeat split; try tauto; intros Y; cbn in Y; intuition discriminate.
Qed.
Theorem shown_legible v : legible (sh v).
Proof.
  assert (HS : forall s, one_line (str s) -> legible (Leaf (str s))) by (intros; now constructor).
  induction v as [b|w n|c|n|c|o| |lo hi| |v IH|vs IH|fs IH|l v IH|vs IH|n v IH|o v _ IH|n v IH|v _| |v _] using value_ind';
    cbn [shown]; try (constructor; apply Hshow; fail);
    try (apply HS; intros X; cbn in X; intuition discriminate; fail); auto.
  - apply HS. destruct b; intros X; cbn in X; intuition discriminate.
  - constructor. rewrite !one_line_app. repeat split; try apply Hshow; intros X; cbn in X; intuition discriminate.
  - apply variant_legible; [|exact IH]. split; intros X; cbn in X; intuition discriminate.
  - destruct vs as [|v0 vs]; [apply HS; intros X; cbn in X; intuition discriminate|].
    remember (v0 :: vs) as l eqn:E.
    assert (H : Forall legible (map sh l)) by now rewrite Forall_map.
    apply legible_parts.
    + pose proof (combine_tidy 0 _ H) as T. rewrite map_length in T. exact T.
    + apply named_ends. subst l. discriminate.
  - set (vis := filter (fun lv => negb (concealed name (fst lv))) fs).
    assert (HN : map snd (filter (fun ln => negb (concealed name (fst ln)))
                   (map (fun lv => (fst lv, Some (name (fst lv), sh (snd lv)))) fs)) =
                 map Some (map (fun lv => (name (fst lv), sh (snd lv))) vis)).
    { unfold vis. clear. induction fs as [|[l v] fs IH]; cbn; [reflexivity|]. destruct (concealed name l); cbn; [exact IH|]. now rewrite IH. }
    assert (HV : Forall (fun lv => legible (sh (snd lv))) vis).
    { rewrite Forall_forall in IH |- *. intros lv X. apply filter_In in X. apply IH. tauto. }
    rewrite HN. clear HN. clearbody vis. clear IH fs.
    destruct vis as [|p vis'] eqn:Ev; [apply HS; intros X; cbn in X; intuition discriminate|]. rewrite <- Ev in *.
    destruct (forallb _ vis).
    + constructor. rewrite !one_line_app. repeat split; try (intros X; cbn in X; intuition discriminate; fail).
      apply one_line_joined; [intros X; cbn in X; intuition discriminate|]. rewrite Forall_map. apply Forall_forall. intros; apply Hname.
    + apply legible_parts.
      * intros l n X. apply in_map_iff in X. destruct X as (x & [= ->] & X). apply in_map_iff in X.
        destruct X as (lv & [= <- <-] & X). rewrite Forall_forall in HV. split; [apply Hname|auto].
      * apply named_ends. rewrite Ev. discriminate.
  - apply variant_legible; [apply Hname|exact IH].
  - apply seq_legible. now rewrite Forall_map.
  - apply seq_legible. apply Forall_forall. intros x X. apply repeat_spec in X. now subst.
Qed.
End Shown.
