(** * Names of generated types: proofs *)
From Coq Require Import String Ascii Bool DecimalString DecimalNat List Arith Lia Permutation.
From Verif Require Import NameModel NameSpec.
Import ListNotations.
Open Scope list_scope.
Open Scope nat_scope.

(** ** Places *)

Lemma upto_nameless r : (forall l, ~ In (Explicit l) r) -> upto_explicit r = r.
Proof.
  induction r as [|a r IH]; intros H; [reflexivity|].
  destruct a; cbn; try (f_equal; apply IH; intros l' Hl; exact (H l' (or_intror Hl))).
  exfalso. exact (H l (or_introl eq_refl)).
Qed.

Lemma upto_named r l s : (forall l, ~ In (Explicit l) r) ->
  upto_explicit (r ++ Explicit l :: s) = r ++ [Explicit l].
Proof.
  induction r as [|a r IH]; intros H; [reflexivity|].
  destruct a; cbn; try (f_equal; apply IH; intros l' Hl; exact (H l' (or_intror Hl))).
  exfalso. exact (H l0 (or_introl eq_refl)).
Qed.

Lemma nameless_rev p : nameless p -> forall l, ~ In (Explicit l) (rev p).
Proof. intros H l Hl. apply in_rev in Hl. exact (H l Hl). Qed.

Lemma place_trim p q : place p q -> q = trim p.
Proof.
  intros H. destruct H as [pre l inner H|p H]; unfold trim.
  - rewrite rev_app_distr. cbn. rewrite <- app_assoc. cbn.
    rewrite upto_named by (apply nameless_rev; exact H).
    rewrite rev_app_distr. cbn. rewrite rev_involutive. reflexivity.
  - rewrite upto_nameless by (apply nameless_rev; exact H). rewrite rev_involutive. reflexivity.
Qed.

Lemma innermost p :
  nameless p \/ exists pre l inner, p = pre ++ Explicit l :: inner /\ nameless inner.
Proof.
  induction p as [|a p IH].
  - left. intros l [].
  - destruct IH as [H|[pre [l [inner [-> H]]]]].
    + destruct a as [l|l|l|n|l| |].
      1: right; exists [], l, p; split; [reflexivity|exact H].
      all: left; intros l' [E|Hl]; [discriminate E|exact (H l' Hl)].
    + right. exists (a :: pre), l, inner. split; [reflexivity|exact H].
Qed.

Lemma place_total p : exists q, place p q.
Proof.
  destruct (innermost p) as [H|[pre [l [inner [-> H]]]]].
  - exists p. constructor. exact H.
  - exists (Explicit l :: inner). constructor. exact H.
Qed.

Lemma trim_place p : place p (trim p).
Proof. destruct (place_total p) as [q H]. rewrite <- (place_trim _ _ H). exact H. Qed.

Lemma trim_idem p : trim (trim p) = trim p.
Proof.
  destruct (place_total p) as [q H]. rewrite <- (place_trim _ _ H). symmetry. apply place_trim.
  destruct H as [pre l inner H|p H].
  - exact (PlaceNamed [] l inner H).
  - constructor. exact H.
Qed.

(** ** Spellings *)

Definition shown (s : string) : bool := if string_dec s "" then false else true.
Definition join (l : list string) : string := String.concat "_" (filter shown l).

Lemma concat_cons s l : l <> [] -> String.concat "_" (s :: l) = (s ++ "_" ++ String.concat "_" l)%string.
Proof. destruct l; [contradiction|reflexivity]. Qed.

Lemma append_empty (s t : string) : (s ++ t)%string = ""%string -> s = ""%string.
Proof. destruct s; [reflexivity|discriminate]. Qed.

Lemma join_empty l : join l = ""%string -> filter shown l = [].
Proof.
  unfold join. induction l as [|s l IH]; [reflexivity|]. cbn [filter].
  unfold shown at 1 3. destruct (string_dec s "") as [->|H]; [exact IH|].
  intros E. exfalso. apply H. destruct (filter shown l) as [|t r].
  - exact E.
  - rewrite concat_cons in E by discriminate. exact (append_empty _ _ E).
Qed.

Lemma join_cons s l : underscore_join (join l) s = join (s :: l).
Proof.
  unfold underscore_join. destruct (string_dec s "") as [->|H].
  - reflexivity.
  - destruct (string_dec (join l) "") as [E|E].
    + unfold join. cbn [filter]. unfold shown at 1. destruct (string_dec s ""); [contradiction|].
      rewrite (join_empty _ E). reflexivity.
    + unfold join at 2. cbn [filter]. unfold shown at 1. destruct (string_dec s ""); [contradiction|].
      rewrite concat_cons; [reflexivity|]. intros E'. apply E. unfold join. rewrite E'. reflexivity.
Qed.

Lemma synthesize_join r : forall l,
  synthesize_from (join l) r = join (map show (rev (upto_explicit r)) ++ l).
Proof.
  induction r as [|a r IH]; intros l; [reflexivity|].
  destruct a; cbn [synthesize_from upto_explicit];
    try (rewrite join_cons, IH; cbn [rev]; rewrite map_app, <- app_assoc; reflexivity).
  rewrite join_cons. reflexivity.
Qed.

Lemma synthesize_spelling p : synthesize_name p = spelling (trim p).
Proof.
  unfold synthesize_name. change ""%string with (join []). rewrite synthesize_join, app_nil_r.
  reflexivity.
Qed.

Lemma synthesize_trim p : synthesize_name (trim p) = synthesize_name p.
Proof. rewrite !synthesize_spelling, trim_idem. reflexivity. Qed.

(** ** Marks *)

Lemma append_assoc (s t u : string) : ((s ++ t) ++ u = s ++ t ++ u)%string.
Proof. induction s; cbn; [reflexivity|]. rewrite IHs. reflexivity. Qed.

Lemma digits_of_uint u : chars digit (NilEmpty.string_of_uint u) = true.
Proof. induction u; cbn [NilEmpty.string_of_uint chars]; try reflexivity; rewrite IHu; reflexivity. Qed.

Lemma decimal_digits n : chars digit (decimal n) = true.
Proof.
  unfold decimal, NilZero.string_of_uint. destruct (Nat.to_uint n) eqn:E; [reflexivity|..];
    apply digits_of_uint.
Qed.

Lemma decimal_inj n m : decimal n = decimal m -> n = m.
Proof.
  unfold decimal. intros H.
  assert (Hz : forall k, Nat.to_uint k <> Decimal.Nil).
  { intros k E. pose proof (Unsigned.of_to k) as H0. rewrite E in H0. cbn in H0. subst k. discriminate E. }
  apply (f_equal NilZero.uint_of_string) in H.
  rewrite !NilZero.usu in H by apply Hz. injection H as H.
  apply Unsigned.to_uint_inj. exact H.
Qed.


Lemma not_digits s a : chars digit (s ++ String "X" a) = false.
Proof.
  induction s as [|c s IH]; [reflexivity|]. cbn [append chars]. rewrite IH. apply andb_false_r.
Qed.

Lemma append_digits (s t : string) a b :
  chars digit a = true -> chars digit b = true ->
  (s ++ String "X" a = t ++ String "X" b)%string -> s = t /\ a = b.
Proof.
  revert t. induction s as [|c s IH]; intros t Ha Hb H; destruct t as [|c' t]; cbn [append] in H.
  - injection H as H. split; [reflexivity|exact H].
  - injection H as <- H. rewrite H, not_digits in Ha. discriminate Ha.
  - injection H as -> H. rewrite <- H, not_digits in Hb. discriminate Hb.
  - injection H as -> H. destruct (IH t Ha Hb H) as [-> ->]. split; reflexivity.
Qed.

Lemma append_cancel (a b t : string) : (a ++ t = b ++ t)%string -> a = b.
Proof.
  assert (L : forall x y : string, String.length (x ++ y) = String.length x + String.length y).
  { induction x; cbn; intros; [reflexivity|]. rewrite IHx. reflexivity. }
  revert b. induction a as [|c a IH]; intros b H; destruct b as [|c' b]; cbn in *.
  - reflexivity.
  - exfalso. apply (f_equal String.length) in H. cbn in H. rewrite L in H. lia.
  - exfalso. apply (f_equal String.length) in H. cbn in H. rewrite L in H. lia.
  - injection H as -> H. f_equal. exact (IH b H).
Qed.

Lemma marked_inj s t n m : marked s n = marked t m -> s = t /\ n = m.
Proof.
  unfold marked. intros H.
  change ("__dupX" ++ decimal n)%string with ("__dup" ++ String "X" (decimal n))%string in H.
  change ("__dupX" ++ decimal m)%string with ("__dup" ++ String "X" (decimal m))%string in H.
  rewrite <- !append_assoc in H.
  destruct (append_digits _ _ _ _ (decimal_digits n) (decimal_digits m) H) as [H1 H2].
  split; [exact (append_cancel _ _ _ H1)|exact (decimal_inj _ _ H2)].
Qed.

Lemma dedup_called p i : called p (dedup (spelling p) i).
Proof.
  destruct i; [left; reflexivity|]. right. exists (S i). split; [lia|reflexivity].
Qed.

Lemma dedup_inj s t i j :
  (forall u n, 0 < n -> s <> marked u n) -> (forall u n, 0 < n -> t <> marked u n) ->
  dedup s i = dedup t j -> s = t /\ i = j.
Proof.
  intros Hs Ht. destruct i as [|i], j as [|j]; cbn [dedup]; intros H.
  - split; [exact H|reflexivity].
  - exfalso. apply (Hs t (S j)); [lia|exact H].
  - exfalso. apply (Ht s (S i)); [lia|]. symmetry. exact H.
  - exact (marked_inj _ _ _ _ H).
Qed.

(** ** Tables *)

Lemma lookup_store_same {A} k (a : A) t : lookup k (store k a t) = Some a.
Proof.
  induction t as [|[k' a'] t IH]; cbn.
  - destruct (string_dec k k); [reflexivity|contradiction].
  - destruct (string_dec k' k) as [->|H]; cbn.
    + destruct (string_dec k k); [reflexivity|contradiction].
    + destruct (string_dec k' k); [contradiction|exact IH].
Qed.

Lemma lookup_store_other {A} k k' (a : A) t : k <> k' -> lookup k (store k' a t) = lookup k t.
Proof.
  intros H. induction t as [|[k'' a'] t IH]; cbn.
  - destruct (string_dec k' k); [congruence|reflexivity].
  - destruct (string_dec k'' k') as [->|H']; cbn.
    + destruct (string_dec k' k); [congruence|reflexivity].
    + destruct (string_dec k'' k); [reflexivity|exact IH].
Qed.

Lemma store_same {A} k (a : A) t : lookup k t = Some a -> store k a t = t.
Proof.
  induction t as [|[k' a'] t IH]; cbn; [discriminate|].
  destruct (string_dec k' k) as [->|H].
  - intros E. injection E as ->. reflexivity.
  - intros E. rewrite (IH E). reflexivity.
Qed.

Lemma store_keys {A} k (a : A) t k' : In k' (map fst (store k a t)) -> k' = k \/ In k' (map fst t).
Proof.
  induction t as [|[k'' a'] t IH]; cbn.
  - intros [->|[]]. left. reflexivity.
  - destruct (string_dec k'' k) as [->|H]; cbn.
    + intros [->|H]; [left; reflexivity|right; right; exact H].
    + intros [->|H']; [right; left; reflexivity|]. destruct (IH H') as [->|H'']; [left; reflexivity|].
      right. right. exact H''.
Qed.

Lemma store_nodup {A} k (a : A) t : NoDup (map fst t) -> NoDup (map fst (store k a t)).
Proof.
  induction t as [|[k' a'] t IH]; cbn; intros H.
  - constructor; [intros []|constructor].
  - inversion H as [|x l H1 H2]; subst. destruct (string_dec k' k) as [->|Hk]; cbn.
    + exact H.
    + constructor; [|exact (IH H2)]. intros Hin. destruct (store_keys _ _ _ _ Hin) as [->|Hin'].
      * exact (Hk eq_refl).
      * exact (H1 Hin').
Qed.

Lemma lookup_in {A} k (a : A) t : lookup k t = Some a -> In (k, a) t.
Proof.
  induction t as [|[k' a'] t IH]; cbn; [discriminate|].
  destruct (string_dec k' k) as [->|H].
  - intros E. injection E as ->. left. reflexivity.
  - intros E. right. exact (IH E).
Qed.

Lemma in_lookup {A} k (a : A) t : NoDup (map fst t) -> In (k, a) t -> lookup k t = Some a.
Proof.
  induction t as [|[k' a'] t IH]; cbn; intros Hd Hin; [contradiction|].
  inversion Hd as [|x l H1 H2]; subst. destruct Hin as [E|Hin].
  - injection E as -> ->. destruct (string_dec k k); [reflexivity|contradiction].
  - destruct (string_dec k' k) as [->|H]; [|exact (IH H2 Hin)].
    exfalso. apply H1. exact (in_map fst _ _ Hin).
Qed.

(** ** Heaps *)

Lemma member_spec p l : member p l = true <-> In p l.
Proof. unfold member. destruct (in_dec path_eq_dec p l); split; intros; (assumption || reflexivity || discriminate || contradiction). Qed.

Lemma position_nth p l i : position p l = Some i -> nth_error l i = Some p.
Proof.
  revert i. induction l as [|q l IH]; intros i; cbn; [discriminate|].
  destruct (path_eq_dec q p) as [->|H].
  - intros E. injection E as <-. reflexivity.
  - destruct (position p l) as [j|]; [|discriminate]. intros E. injection E as <-. exact (IH j eq_refl).
Qed.

Lemma position_some p l : In p l -> exists i, position p l = Some i.
Proof.
  induction l as [|q l IH]; [intros []|]. cbn. destruct (path_eq_dec q p) as [->|H].
  - intros _. exists 0. reflexivity.
  - intros [->|Hin]; [contradiction|]. destruct (IH Hin) as [i ->]. exists (S i). reflexivity.
Qed.

Lemma position_app p l l' i : position p l = Some i -> position p (l ++ l') = Some i.
Proof.
  revert i. induction l as [|q l IH]; intros i; cbn; [discriminate|].
  destruct (path_eq_dec q p); [trivial|]. destruct (position p l) as [j|]; [|discriminate].
  intros E. rewrite (IH j eq_refl). exact E.
Qed.

Lemma position_last p l : position p l = None -> position p (l ++ [p]) = Some (length l).
Proof.
  induction l as [|q l IH]; cbn.
  - destruct (path_eq_dec p p); [reflexivity|contradiction].
  - destruct (path_eq_dec q p); [discriminate|]. destruct (position p l); [discriminate|].
    intros _. rewrite (IH eq_refl). reflexivity.
Qed.

(** ** What contexts say of places *)

Definition held (h : heap) (p : path) : Prop := In p (fixed h) \/ In p (floating h).

Definition registered (c : ctxt) (p : path) : Prop :=
  exists h, lookup (synthesize_name p) (table c) = Some h /\ held h p.

Definition named (c : ctxt) (p : path) (k : name) : Prop :=
  exists h i, lookup (synthesize_name p) (table c) = Some h /\ position p (fixed h) = Some i /\
    k = dedup (synthesize_name p) i.

Definition grows (c c' : ctxt) : Prop :=
  (forall p, registered c p -> registered c' p) /\ (forall p k, named c p k -> named c' p k).

Lemma grows_refl c : grows c c.
Proof. split; trivial. Qed.

Lemma grows_trans a b c : grows a b -> grows b c -> grows a c.
Proof. intros [H1 H2] [H3 H4]. split; eauto. Qed.

Lemma grows_table c c' : table c' = table c -> grows c c'.
Proof.
  intros E. split.
  - intros p [h H]. exists h. rewrite E. exact H.
  - intros p k [h [i H]]. exists h, i. rewrite E. exact H.
Qed.

Lemma named_fun c p k k' : named c p k -> named c p k' -> k = k'.
Proof. intros [h [i [H1 [H2 ->]]]] [h' [i' [H3 [H4 ->]]]]. congruence. Qed.

Lemma named_inj c p q k :
  (forall u n, 0 < n -> synthesize_name p <> marked u n) ->
  (forall u n, 0 < n -> synthesize_name q <> marked u n) ->
  named c p k -> named c q k -> p = q.
Proof.
  intros Hp Hq [h [i [H1 [H2 E1]]]] [h' [i' [H3 [H4 E2]]]].
  rewrite E1 in E2. destruct (dedup_inj _ _ _ _ Hp Hq E2) as [E ->].
  rewrite E in H1. assert (h = h') by congruence. subst h'.
  apply position_nth in H2, H4. congruence.
Qed.

(** Replacing a heap by one that has grown. *)
Definition heap_grows (h h' : heap) : Prop :=
  (forall p, held h p -> held h' p) /\
  (forall p i, position p (fixed h) = Some i -> position p (fixed h') = Some i).

Lemma store_grows c c' k h h' :
  match lookup k (table c) with Some h0 => h0 | None => new_heap end = h ->
  heap_grows h h' -> table c' = store k h' (table c) -> grows c c'.
Proof.
  intros Hl [Hh Hp] Ht. split.
  - intros p [h0 [H1 H2]]. unfold registered. rewrite Ht.
    destruct (string_dec (synthesize_name p) k) as [E|E].
    + exists h'. rewrite E, lookup_store_same. split; [reflexivity|]. apply Hh.
      rewrite E in H1. rewrite H1 in Hl. subst h0. exact H2.
    + exists h0. rewrite lookup_store_other by exact E. split; assumption.
  - intros p n [h0 [i [H1 [H2 E2]]]]. unfold named. rewrite Ht.
    destruct (string_dec (synthesize_name p) k) as [E|E].
    + exists h', i. rewrite E, lookup_store_same. rewrite E in H1, E2. rewrite H1 in Hl. subst h0.
      split; [reflexivity|]. split; [exact (Hp _ _ H2)|exact E2].
    + exists h0, i. rewrite lookup_store_other by exact E. repeat split; assumption.
Qed.

Lemma promote_spec h p : held h p ->
  exists i h', promote h p = Some (i, h') /\ position p (fixed h') = Some i /\ heap_grows h h'.
Proof.
  intros H. unfold promote. destruct (position p (fixed h)) as [i|] eqn:E.
  - exists i, h. split; [reflexivity|]. split; [exact E|]. split; trivial.
  - assert (Hf : member p (floating h) = true).
    { destruct H as [H|H]; [|apply member_spec; exact H].
      destruct (position_some _ _ H) as [i Hi]. congruence. }
    rewrite Hf. eexists _, _. split; [reflexivity|]. cbn [fixed floating].
    split; [exact (position_last _ _ E)|]. split.
    + intros q Hq. unfold held. cbn [fixed floating]. destruct (path_eq_dec q p) as [->|Hn].
      * left. apply in_or_app. right. left. reflexivity.
      * destruct Hq as [Hq|Hq]; [left; apply in_or_app; left; exact Hq|].
        right. apply filter_In. split; [exact Hq|]. destruct (path_eq_dec q p); [contradiction|reflexivity].
    + intros q i Hi. exact (position_app _ _ _ _ Hi).
Qed.

Lemma find_spec c p : trim p = p -> registered c p ->
  exists k c', find_name_for c p = Some (k, c') /\ stack c' = stack c /\ named c' p k /\ grows c c'.
Proof.
  intros Ht [h [Hl Hh]]. unfold find_name_for. rewrite Hl, Ht.
  destruct (promote_spec h p Hh) as [i [h' [-> [Hi Hg]]]].
  eexists _, _. split; [reflexivity|]. split; [reflexivity|]. split.
  - exists h', i. cbn [table]. rewrite lookup_store_same. split; [reflexivity|]. split; [exact Hi|reflexivity].
  - apply (store_grows c _ (synthesize_name p) h h'); [rewrite Hl; reflexivity|exact Hg|reflexivity].
Qed.

Lemma ctxt_eta c : {| stack := stack c; table := table c |} = c.
Proof. destruct c. reflexivity. Qed.

Lemma find_named c p k : trim p = p -> named c p k -> find_name_for c p = Some (k, c).
Proof.
  intros Ht [h [i [Hl [Hi ->]]]]. unfold find_name_for, promote. rewrite Hl, Ht, Hi.
  rewrite (store_same _ _ _ Hl), ctxt_eta. reflexivity.
Qed.

Lemma register_spec c :
  exists c', register_path c = (trim (stack c), c') /\ stack c' = stack c /\
    registered c' (trim (stack c)) /\ grows c c'.
Proof.
  unfold register_path. eexists. split; [reflexivity|]. cbn [stack]. split; [reflexivity|].
  set (h := match lookup _ _ with Some h => h | None => new_heap end).
  assert (Hi : held (heap_insert h (trim (stack c))) (trim (stack c)) /\
               heap_grows h (heap_insert h (trim (stack c)))).
  { unfold heap_insert. destruct (member (trim (stack c)) (fixed h)) eqn:E1.
    - apply member_spec in E1. split; [left; exact E1|split; trivial].
    - destruct (member (trim (stack c)) (floating h)) eqn:E2.
      + apply member_spec in E2. split; [right; exact E2|split; trivial].
      + split; [right; left; reflexivity|]. split; [|trivial].
        intros q [Hq|Hq]; [left; exact Hq|right; right; exact Hq]. }
  destruct Hi as [Hi Hg]. split.
  - eexists. rewrite synthesize_trim. cbn [table]. rewrite lookup_store_same. split; [reflexivity|exact Hi].
  - eapply store_grows; [reflexivity|exact Hg|reflexivity].
Qed.

Lemma refine_spec c x y : trim x = x -> trim y = y -> registered c x -> registered c y ->
  exists p, refine_path c x y = Some p /\ (p = x \/ p = y).
Proof.
  intros Hx Hy [hx [Lx _]] [hy [Ly _]]. unfold refine_path.
  destruct (string_dec (synthesize_name x) (synthesize_name y)) as [E|E].
  - unfold get_priority. rewrite Lx, Ly.
    destruct (heap_priority hx (trim x)) as [i|], (heap_priority hy (trim y)) as [j|].
    + destruct (j <? i); eexists; split; auto.
    + eexists; split; auto.
    + eexists; split; auto.
    + eexists; split; auto.
  - destruct (is_refinement x y); eexists; split; auto.
Qed.

(** ** The state after a history *)

Record inv (g : gen) (vs : list (decl * path)) : Prop := {
  i_reg : forall d p, In (d, p) vs -> registered (ctx g) p /\ trim p = p;
  i_orig : forall d ix p, known d (rev_map g) = Some (ix, p) ->
    In (d, p) vs /\ exists k, named (ctx g) p k;
  i_all : forall d p, In (d, p) vs -> exists v, known d (rev_map g) = Some v;
  i_remap : forall k p, lookup k (remap g) = Some p ->
    exists d ix p0, known d (rev_map g) = Some (ix, p0) /\ named (ctx g) p0 k /\ In (d, p) vs;
  i_entry : forall d ix p k, known d (rev_map g) = Some (ix, p) -> named (ctx g) p k ->
    exists q, lookup k (remap g) = Some q;
  i_index : map (fun e => fst (snd e)) (rev_map g) = seq 0 (ctr g);
  i_decls : NoDup (map fst (rev_map g));
  i_keys : NoDup (map fst (remap g)) }.

Lemma known_app d t e :
  known d (t ++ [e]) =
  match known d t with
  | Some v => Some v
  | None => if Nat.eq_dec (fst e) d then Some (snd e) else None
  end.
Proof.
  induction t as [|[d' v] t IH]; cbn.
  - destruct e as [d' v]. reflexivity.
  - destruct (Nat.eq_dec d' d); [reflexivity|exact IH].
Qed.

Lemma known_in d v t : known d t = Some v -> In (d, v) t.
Proof.
  induction t as [|[d' v'] t IH]; cbn; [discriminate|].
  destruct (Nat.eq_dec d' d) as [->|H].
  - intros E. injection E as ->. left. reflexivity.
  - intros E. right. exact (IH E).
Qed.

Lemma in_known d v t : NoDup (map fst t) -> In (d, v) t -> known d t = Some v.
Proof.
  induction t as [|[d' v'] t IH]; cbn; intros Hd Hin; [contradiction|].
  inversion Hd as [|x l H1 H2]; subst. destruct Hin as [E|Hin].
  - injection E as -> ->. destruct (Nat.eq_dec d d); [reflexivity|contradiction].
  - destruct (Nat.eq_dec d' d) as [->|H]; [|exact (IH H2 Hin)].
    exfalso. apply H1. exact (in_map fst _ _ Hin).
Qed.

Lemma known_none d t : known d t = None -> ~ In d (map fst t).
Proof.
  induction t as [|[d' v'] t IH]; cbn; [intros _ []|].
  destruct (Nat.eq_dec d' d) as [->|H]; [discriminate|].
  intros E [E'|Hin]; [contradiction|]. exact (IH E Hin).
Qed.

Lemma inv_new : inv new_gen [].
Proof.
  constructor; cbn; try (intros; (contradiction || discriminate)); try reflexivity; constructor.
Qed.

Lemma inv_ctx g vs c : table c = table (ctx g) -> inv g vs -> inv (with_ctx g c) vs.
Proof.
  intros E [H1 H2 H3 H4 H5 H6 H7 H8].
  destruct (grows_table (ctx g) c E) as [G1 G2].
  destruct (grows_table c (ctx g) (eq_sym E)) as [_ G3].
  constructor; cbn [ctx ctr rev_map remap with_ctx]; try assumption.
  - intros d p Hin. destruct (H1 d p Hin) as [R T]. split; [exact (G1 p R)|exact T].
  - intros d ix p Hk. destruct (H2 d ix p Hk) as [Hin [k Hn]]. split; [exact Hin|]. exists k. exact (G2 p k Hn).
  - intros k p Hl. destruct (H4 k p Hl) as [d [ix [p0 [A [B C]]]]]. exists d, ix, p0.
    split; [exact A|]. split; [exact (G2 p0 k B)|exact C].
  - intros d ix p k Hk Hn. exact (H5 d ix p k Hk (G3 p k Hn)).
Qed.

(** What an answer says: the index and the name the declaration is known by. *)
Definition answers (g : gen) (d : decl) (a : name * (nat * bool)) : Prop :=
  exists p, known d (rev_map g) = Some (fst (snd a), p) /\ named (ctx g) p (fst a).

Definition keeps (g g' : gen) : Prop :=
  grows (ctx g) (ctx g') /\ forall d v, known d (rev_map g) = Some v -> known d (rev_map g') = Some v.

Lemma keeps_trans a b c : keeps a b -> keeps b c -> keeps a c.
Proof. intros [H1 H2] [H3 H4]. split; [exact (grows_trans _ _ _ H1 H3)|auto]. Qed.

Lemma answers_keep g g' d a : keeps g g' -> answers g d a -> answers g' d a.
Proof. intros [[_ H1] H2] [p [A B]]. exists p. split; [exact (H2 _ _ A)|exact (H1 _ _ B)]. Qed.

Lemma named_back c c' p k k' : grows c c' -> named c p k -> named c' p k' -> k' = k.
Proof. intros [_ G] H1 H2. exact (named_fun _ _ _ _ H2 (G p k H1)). Qed.

Lemma get_name_spec g vs d : inv g vs ->
  exists a g', get_name g d = Some (a, g') /\ stack (ctx g') = stack (ctx g) /\
    inv g' (vs ++ [(d, trim (stack (ctx g)))]) /\ keeps g g' /\ answers g' d a /\
    (snd (snd a) = true <-> ~ exists p, In (d, p) vs).
Proof.
  intros I. unfold get_name. set (here := trim (stack (ctx g))).
  destruct (known d (rev_map g)) as [[ix p0]|] eqn:K.
  - destruct (i_orig _ _ I _ _ _ K) as [Hin [k Hk]].
    destruct (i_reg _ _ I _ _ Hin) as [_ T0].
    rewrite (find_named _ _ _ T0 Hk).
    destruct (register_spec (ctx g)) as [c2 [-> [S2 [R2 G2]]]]. fold here in R2 |- *.
    destruct (i_entry _ _ I _ _ _ _ K Hk) as [prior Hp]. rewrite Hp.
    destruct (i_remap _ _ I _ _ Hp) as [d1 [ix1 [p1 [K1 [N1 Hin1]]]]].
    destruct (i_reg _ _ I _ _ Hin1) as [R1 T1].
    destruct (refine_spec c2 prior here T1 (trim_idem _) (proj1 G2 _ R1) R2) as [p [-> Hpp]].
    eexists _, _. split; [reflexivity|]. cbn [ctx stack rev_map]. split; [exact S2|].
    assert (KE : keeps g {| ctx := c2; ctr := ctr g; rev_map := rev_map g; remap := store k p (remap g) |}).
    { split; [exact G2|trivial]. }
    split; [|split; [exact KE|split]].
    + constructor; cbn [ctx ctr rev_map remap].
      * intros d' q Hq. apply in_app_or in Hq. destruct Hq as [Hq|[E|[]]].
        -- destruct (i_reg _ _ I _ _ Hq) as [A B]. split; [exact (proj1 G2 _ A)|exact B].
        -- injection E as <- <-. split; [exact R2|apply trim_idem].
      * intros d' ix' q Hq. destruct (i_orig _ _ I _ _ _ Hq) as [A [k' B]].
        split; [apply in_or_app; left; exact A|]. exists k'. exact (proj2 G2 _ _ B).
      * intros d' q Hq. apply in_app_or in Hq. destruct Hq as [Hq|[E|[]]].
        -- exact (i_all _ _ I _ _ Hq).
        -- injection E as <- <-. exists (ix, p0). exact K.
      * intros k' q Hq. destruct (string_dec k' k) as [->|Hn].
        -- rewrite lookup_store_same in Hq. injection Hq as <-. destruct Hpp as [-> | ->].
           ++ exists d1, ix1, p1. split; [exact K1|]. split; [exact (proj2 G2 _ _ N1)|].
              apply in_or_app. left. exact Hin1.
           ++ exists d, ix, p0. split; [exact K|]. split; [exact (proj2 G2 _ _ Hk)|].
              apply in_or_app. right. left. reflexivity.
        -- rewrite lookup_store_other in Hq by exact Hn.
           destruct (i_remap _ _ I _ _ Hq) as [d' [ix' [p' [A [B C]]]]].
           exists d', ix', p'. split; [exact A|]. split; [exact (proj2 G2 _ _ B)|].
           apply in_or_app. left. exact C.
      * intros d' ix' q k' Hq Hn. destruct (string_dec k' k) as [->|Hne].
        -- exists p. apply lookup_store_same.
        -- rewrite lookup_store_other by exact Hne.
           destruct (i_orig _ _ I _ _ _ Hq) as [_ [k'' B]].
           rewrite (named_back _ _ _ _ _ G2 B Hn). exact (i_entry _ _ I _ _ _ _ Hq B).
      * exact (i_index _ _ I).
      * exact (i_decls _ _ I).
      * apply store_nodup. exact (i_keys _ _ I).
    + exists p0. cbn. split; [exact K|exact (proj2 G2 _ _ Hk)].
    + cbn. split; [discriminate|]. intros H. exfalso. apply H. exists p0. exact Hin.
  - destruct (register_spec (ctx g)) as [c1 [-> [S1 [R1 G1]]]]. fold here in R1 |- *.
    destruct (find_spec c1 here (trim_idem _) R1) as [k [c2 [-> [S2 [N2 G2]]]]].
    pose proof (grows_trans _ _ _ G1 G2) as G.
    eexists _, _. split; [reflexivity|]. cbn [ctx stack rev_map]. split; [congruence|].
    assert (KE : keeps g {| ctx := c2; ctr := S (ctr g); rev_map := rev_map g ++ [(d, (ctr g, here))];
                            remap := store k here (remap g) |}).
    { split; [exact G|]. intros d' v Hv. cbn. rewrite known_app, Hv. reflexivity. }
    assert (KD : known d (rev_map g ++ [(d, (ctr g, here))]) = Some (ctr g, here)).
    { rewrite known_app, K. cbn [fst snd]. destruct (Nat.eq_dec d d); [reflexivity|contradiction]. }
    assert (KO : forall d' ix' q, known d' (rev_map g ++ [(d, (ctr g, here))]) = Some (ix', q) ->
      known d' (rev_map g) = Some (ix', q) \/ (d' = d /\ ix' = ctr g /\ q = here)).
    { intros d' ix' q Hq. rewrite known_app in Hq. destruct (known d' (rev_map g)) as [v|].
      - left. exact Hq.
      - right. cbn [fst snd] in Hq. destruct (Nat.eq_dec d d') as [<-|]; [|discriminate]. injection Hq as <- <-.
        repeat split. }
    split; [|split; [exact KE|split]].
    + constructor; cbn [ctx ctr rev_map remap].
      * intros d' q Hq. apply in_app_or in Hq. destruct Hq as [Hq|[E|[]]].
        -- destruct (i_reg _ _ I _ _ Hq) as [A B]. split; [exact (proj1 G _ A)|exact B].
        -- injection E as <- <-. split; [exact (proj1 G2 _ R1)|apply trim_idem].
      * intros d' ix' q Hq. destruct (KO _ _ _ Hq) as [Ho|(-> & -> & ->)].
        -- destruct (i_orig _ _ I _ _ _ Ho) as [A [k' B]].
           split; [apply in_or_app; left; exact A|]. exists k'. exact (proj2 G _ _ B).
        -- split; [apply in_or_app; right; left; reflexivity|]. exists k. exact N2.
      * intros d' q Hq. apply in_app_or in Hq. destruct Hq as [Hq|[E|[]]].
        -- destruct (i_all _ _ I _ _ Hq) as [v Hv]. exists v. rewrite known_app, Hv. reflexivity.
        -- injection E as <- <-. exists (ctr g, here). exact KD.
      * intros k' q Hq. destruct (string_dec k' k) as [->|Hn].
        -- rewrite lookup_store_same in Hq. injection Hq as <-.
           exists d, (ctr g), here. split; [exact KD|]. split; [exact N2|].
           apply in_or_app. right. left. reflexivity.
        -- rewrite lookup_store_other in Hq by exact Hn.
           destruct (i_remap _ _ I _ _ Hq) as [d' [ix' [p' [A [B C]]]]].
           exists d', ix', p'. split; [rewrite known_app, A; reflexivity|]. split; [exact (proj2 G _ _ B)|].
           apply in_or_app. left. exact C.
      * intros d' ix' q k' Hq Hn. destruct (string_dec k' k) as [->|Hne].
        -- exists here. apply lookup_store_same.
        -- rewrite lookup_store_other by exact Hne. destruct (KO _ _ _ Hq) as [Ho|(-> & -> & ->)].
           ++ destruct (i_orig _ _ I _ _ _ Ho) as [_ [k'' B]].
              rewrite (named_back _ _ _ _ _ G B Hn). exact (i_entry _ _ I _ _ _ _ Ho B).
           ++ exfalso. exact (Hne (named_fun _ _ _ _ Hn N2)).
      * rewrite map_app, (i_index _ _ I). cbn [map fst snd]. rewrite seq_S. reflexivity.
      * rewrite map_app. cbn [map fst]. apply NoDup_Add with (a := d) (l := map fst (rev_map g)).
        -- rewrite <- (app_nil_r (map fst (rev_map g))) at 1. apply Add_app.
        -- split; [exact (i_decls _ _ I)|exact (known_none _ _ K)].
      * apply store_nodup. exact (i_keys _ _ I).
    + exists here. split; [exact KD|exact N2].
    + cbn. split; [|reflexivity]. intros _ [p Hp]. destruct (i_all _ _ I _ _ Hp) as [v Hv]. congruence.
Qed.

(** ** Histories *)

Section Histories.
(** A further invariant [J], kept as long as the visits meet [H]. *)
Variable H : list (decl * path) -> Prop.
Variable J : gen -> list (decl * path) -> Prop.
Hypothesis H_prefix : forall vs vs', H (vs ++ vs') -> H vs.
Hypothesis J_ctx : forall g vs c, table c = table (ctx g) -> J g vs -> J (with_ctx g c) vs.
Hypothesis J_name : forall g vs d a g', inv g vs -> J g vs ->
  H (vs ++ [(d, trim (stack (ctx g)))]) -> get_name g d = Some (a, g') ->
  J g' (vs ++ [(d, trim (stack (ctx g)))]).

Lemma run_spec ops : forall p vs', visits p ops vs' -> forall g vs, stack (ctx g) = p ->
  inv g vs -> J g vs -> H (vs ++ vs') ->
  exists ans g', run g ops = Some (ans, g') /\ inv g' (vs ++ vs') /\ J g' (vs ++ vs') /\ keeps g g' /\
    Forall2 (fun v a => answers g' (fst v) a) vs' ans /\
    (forall i d q a, nth_error vs' i = Some (d, q) -> nth_error ans i = Some a ->
      (snd (snd a) = true <-> ~ exists r, In (d, r) (vs ++ firstn i vs'))).
Proof.
  assert (KR : forall g c, table c = table (ctx g) -> keeps g (with_ctx g c)).
  { intros g c E. split; [exact (grows_table _ _ E)|trivial]. }
  intros p vs' V. induction V as [p|p a ops vs' V IH|p a ops vs' V IH|p n ops vs' V IH
                                 |p ops vs' Hp V IH|p q d ops vs' P V IH];
    intros g vs Hs I HJ HH; cbn [run].
  - exists [], g. rewrite app_nil_r. split; [reflexivity|]. split; [exact I|]. split; [exact HJ|].
    split; [split; [apply grows_refl|trivial]|]. split; [constructor|].
    intros i d q a E. destruct i; discriminate E.
  - set (c := push_atom (ctx g) a).
    destruct (IH (with_ctx g c) vs) as [ans [g' [E [I' [J' [K' R]]]]]].
    + cbn. rewrite Hs. reflexivity.
    + apply inv_ctx; [reflexivity|exact I].
    + apply J_ctx; [reflexivity|exact HJ].
    + exact HH.
    + exists ans, g'. split; [exact E|]. split; [exact I'|]. split; [exact J'|]. split; [|exact R].
      eapply keeps_trans; [apply (KR g c); reflexivity|exact K'].
  - unfold escape. rewrite Hs, rev_app_distr. cbn [rev app].
    set (c := {| stack := rev (rev p); table := table (ctx g) |}).
    destruct (IH (with_ctx g c) vs) as [ans [g' [E [I' [J' [K' R]]]]]].
    + cbn. apply rev_involutive.
    + apply inv_ctx; [reflexivity|exact I].
    + apply J_ctx; [reflexivity|exact HJ].
    + exact HH.
    + exists ans, g'. split; [exact E|]. split; [exact I'|]. split; [exact J'|]. split; [|exact R].
      eapply keeps_trans; [apply (KR g c); reflexivity|exact K'].
  - assert (Hc : increment_index (ctx g) = {| stack := p ++ [Positional (S n)]; table := table (ctx g) |}).
    { unfold increment_index. rewrite Hs, rev_app_distr. cbn [rev app]. rewrite rev_involutive. reflexivity. }
    rewrite Hc. set (c := {| stack := p ++ [Positional (S n)]; table := table (ctx g) |}).
    destruct (IH (with_ctx g c) vs) as [ans [g' [E [I' [J' [K' R]]]]]].
    + reflexivity.
    + apply inv_ctx; [reflexivity|exact I].
    + apply J_ctx; [reflexivity|exact HJ].
    + exact HH.
    + exists ans, g'. split; [exact E|]. split; [exact I'|]. split; [exact J'|]. split; [|exact R].
      eapply keeps_trans; [apply (KR g c); reflexivity|exact K'].
  - assert (Hc : increment_index (ctx g) = {| stack := p ++ [Positional 0]; table := table (ctx g) |}).
    { unfold increment_index. rewrite Hs.
      destruct (rev p) as [|b r] eqn:Er; [reflexivity|]. destruct b; try reflexivity. exfalso.
      apply (Hp (rev r) n). rewrite <- (rev_involutive p), Er. reflexivity. }
    rewrite Hc. set (c := {| stack := p ++ [Positional 0]; table := table (ctx g) |}).
    destruct (IH (with_ctx g c) vs) as [ans [g' [E [I' [J' [K' R]]]]]].
    + reflexivity.
    + apply inv_ctx; [reflexivity|exact I].
    + apply J_ctx; [reflexivity|exact HJ].
    + exact HH.
    + exists ans, g'. split; [exact E|]. split; [exact I'|]. split; [exact J'|]. split; [|exact R].
      eapply keeps_trans; [apply (KR g c); reflexivity|exact K'].
  - destruct (get_name_spec g vs d I) as [a [g1 [E1 [S1 [I1 [K1 [A1 F1]]]]]]].
    assert (Hq : trim (stack (ctx g)) = q) by (rewrite Hs; symmetry; exact (place_trim _ _ P)).
    rewrite Hq in I1.
    assert (HH1 : H ((vs ++ [(d, q)]) ++ vs')) by (rewrite <- app_assoc; exact HH).
    assert (J1 : J g1 (vs ++ [(d, q)])).
    { rewrite <- Hq. apply (J_name g vs d a g1 I HJ); [|exact E1]. rewrite Hq.
      exact (H_prefix _ _ HH1). }
    rewrite E1.
    destruct (IH g1 (vs ++ [(d, q)])) as [ans [g' [E [I' [J' [K' [R F]]]]]]].
    + congruence.
    + exact I1.
    + exact J1.
    + exact HH1.
    + rewrite E. rewrite <- app_assoc in I', J'. exists (a :: ans), g'. split; [reflexivity|].
      split; [exact I'|]. split; [exact J'|]. split; [exact (keeps_trans _ _ _ K1 K')|]. split.
      * constructor; [exact (answers_keep _ _ _ _ K' A1)|exact R].
      * intros [|i] d' q' a' Hv Ha; cbn in Hv, Ha.
        -- injection Hv as <- <-. injection Ha as <-. cbn [firstn]. rewrite app_nil_r. exact F1.
        -- cbn [firstn]. specialize (F i d' q' a' Hv Ha). rewrite <- app_assoc in F. exact F.
Qed.
End Histories.

(** ** The table of renamings and the emitted names *)

Lemma manifest_spec order : forall c,
  NoDup (map fst order) ->
  (forall k v, In (k, v) order -> trim v = v /\ registered c v) ->
  exists t c', manifest c order = Some (t, c') /\ grows c c' /\
    (forall k v, In (k, v) order -> exists n, lookup k t = Some n /\ named c' v n) /\
    (forall k, ~ In k (map fst order) -> lookup k t = None).
Proof.
  induction order as [|[k v] order IH]; intros c Hd Hr; cbn [manifest].
  - exists [], c. split; [reflexivity|]. split; [apply grows_refl|]. split; [intros ? ? []|]. reflexivity.
  - inversion Hd as [|x l Hn Hd']; subst.
    destruct (Hr k v (or_introl eq_refl)) as [T R].
    destruct (find_spec c v T R) as [n [c1 [-> [_ [N1 G1]]]]].
    destruct (IH c1 Hd') as [t [c2 [-> [G2 [L2 O2]]]]].
    { intros k' v' Hin. destruct (Hr k' v' (or_intror Hin)) as [T' R']. split; [exact T'|exact (proj1 G1 _ R')]. }
    eexists _, _. split; [reflexivity|]. split; [exact (grows_trans _ _ _ G1 G2)|]. split.
    + intros k' v' [E|Hin].
      * injection E as <- <-. exists n. split; [apply lookup_store_same|exact (proj2 G2 _ _ N1)].
      * destruct (L2 k' v' Hin) as [n' [A B]]. exists n'. split; [|exact B].
        rewrite lookup_store_other; [exact A|]. intros ->. apply Hn. exact (in_map fst _ _ Hin).
    + intros k' Hk. cbn in Hk. rewrite lookup_store_other; [apply O2|]; intuition congruence.
Qed.

Lemma emitted_spec ds : forall c,
  (forall d ix p, In (d, (ix, p)) ds -> trim p = p /\ exists k, named c p k) ->
  exists l, emitted c ds = Some (l, c) /\ map fst l = map fst ds /\
    (forall d n, In (d, n) l <-> exists ix p, In (d, (ix, p)) ds /\ named c p n).
Proof.
  induction ds as [|[d [ix p]] ds IH]; intros c Hn; cbn [emitted].
  - exists []. split; [reflexivity|]. split; [reflexivity|]. intros d n. split; [intros []|].
    intros [ix [p [[] _]]].
  - destruct (Hn d ix p (or_introl eq_refl)) as [T [k K]]. rewrite (find_named _ _ _ T K).
    destruct (IH c) as [l [-> [M L]]].
    { intros d' ix' p' Hin. exact (Hn d' ix' p' (or_intror Hin)). }
    eexists. split; [reflexivity|]. split; [cbn; rewrite M; reflexivity|]. intros d' n. split.
    + intros [E|Hin].
      * injection E as <- <-. exists ix, p. split; [left; reflexivity|exact K].
      * destruct (proj1 (L d' n) Hin) as [ix' [p' [A B]]]. exists ix', p'. split; [right; exact A|exact B].
    + intros [ix' [p' [[E|Hin] B]]].
      * injection E as <- <- <-. left. f_equal. exact (named_fun _ _ _ _ K B).
      * right. apply L. exists ix', p'. split; [exact Hin|exact B].
Qed.

Lemma finish_spec g vs order : inv g vs -> Permutation order (remap g) ->
  exists t l c', finish g order = Some (t, l) /\ grows (ctx g) c' /\
    map fst l = map fst (rev_map g) /\
    (forall d n, In (d, n) l <-> exists ix p0 k q, known d (rev_map g) = Some (ix, p0) /\
      named (ctx g) p0 k /\ lookup k (remap g) = Some q /\ lookup k t = Some n /\ named c' q n).
Proof.
  intros I Hp. unfold finish.
  assert (Hd : NoDup (map fst order)).
  { eapply Permutation_NoDup; [apply Permutation_sym, Permutation_map; exact Hp|exact (i_keys _ _ I)]. }
  assert (Hin : forall k v, In (k, v) order <-> lookup k (remap g) = Some v).
  { intros k v. split.
    - intros H. apply in_lookup; [exact (i_keys _ _ I)|]. exact (Permutation_in _ Hp H).
    - intros H. apply (Permutation_in _ (Permutation_sym Hp)). exact (lookup_in _ _ _ H). }
  destruct (manifest_spec order (ctx g) Hd) as [t [c' [-> [G [L O]]]]].
  { intros k v Hk. apply Hin in Hk. destruct (i_remap _ _ I _ _ Hk) as [d [_ [_ [_ [_ Hv]]]]].
    destruct (i_reg _ _ I _ _ Hv) as [A B]. split; assumption. }
  destruct (emitted_spec (rev_map g) c') as [l [-> [M E]]].
  { intros d ix p Hk. apply (in_known _ _ _ (i_decls _ _ I)) in Hk.
    destruct (i_orig _ _ I _ _ _ Hk) as [Hv [k N]]. destruct (i_reg _ _ I _ _ Hv) as [_ T].
    split; [exact T|]. exists k. exact (proj2 G _ _ N). }
  eexists _, _, c'. split; [reflexivity|]. split; [exact G|]. split.
  { rewrite map_map. cbn [fst]. rewrite <- M. reflexivity. }
  intros d n. split.
  - intros H. apply in_map_iff in H. destruct H as [[d' k] [Heq Hdk]]. cbn [fst snd] in Heq.
    injection Heq as -> Hk. apply E in Hdk. destruct Hdk as [ix [p0 [A B]]].
    apply (in_known _ _ _ (i_decls _ _ I)) in A.
    destruct (i_orig _ _ I _ _ _ A) as [_ [k' N]].
    pose proof (named_back _ _ _ _ _ G N B) as ->.
    destruct (i_entry _ _ I _ _ _ _ A N) as [q Q].
    destruct (L k' q (proj2 (Hin k' q) Q)) as [n' [T Nq]].
    unfold rebind in Hk. rewrite T in Hk. subst n'.
    exists ix, p0, k', q. repeat split; assumption.
  - intros [ix [p0 [k [q [A [N [Q [T Nq]]]]]]]]. apply in_map_iff. exists (d, k). split.
    + cbn. unfold rebind. rewrite T. reflexivity.
    + apply E. exists ix, p0. split; [exact (known_in _ _ _ A)|exact (proj2 G _ _ N)].
Qed.

(** ** Places with names of their own *)

Lemma unmarked_name vs d p : unmarked vs -> In (d, p) vs -> trim p = p ->
  forall u n, 0 < n -> synthesize_name p <> marked u n.
Proof. intros Hu Hin T u n Hn. rewrite synthesize_spelling, T. exact (Hu d p u n Hin Hn). Qed.

Lemma owner g vs d d' ix ix' p p' k : inv g vs -> one_each vs -> unmarked vs ->
  known d (rev_map g) = Some (ix, p) -> named (ctx g) p k ->
  known d' (rev_map g) = Some (ix', p') -> named (ctx g) p' k -> d = d'.
Proof.
  intros I Ho Hu K N K' N'.
  destruct (i_orig _ _ I _ _ _ K) as [Hin _]. destruct (i_orig _ _ I _ _ _ K') as [Hin' _].
  assert (p = p').
  { apply (named_inj (ctx g) p p' k); [| |exact N|exact N'].
    - apply (unmarked_name vs d); [exact Hu|exact Hin|exact (proj2 (i_reg _ _ I _ _ Hin))].
    - apply (unmarked_name vs d'); [exact Hu|exact Hin'|exact (proj2 (i_reg _ _ I _ _ Hin'))]. }
  subst p'. exact (Ho _ _ _ Hin Hin').
Qed.

Lemma trim_named_last p l : trim (p ++ [Explicit l]) = [Explicit l].
Proof. unfold trim. rewrite rev_app_distr. reflexivity. Qed.

Lemma refines_explicit l y : trim y = y -> is_refinement [Explicit l] y = true -> exists l', y = [Explicit l'].
Proof.
  intros T. unfold is_refinement. destruct y as [|a y] using rev_ind; [discriminate|]. clear IHy.
  rewrite rev_app_distr. cbn [rev app walk]. destruct a as [l0|l0|l0|n|l0| |]; try discriminate.
  intros _. exists l0. rewrite trim_named_last in T. symmetry. exact T.
Qed.

Lemma unrefined_explicit x l : trim x = x -> is_refinement x [Explicit l] = false -> exists l', x = [Explicit l'].
Proof.
  intros T. unfold is_refinement. destruct x as [|a x] using rev_ind; [discriminate|]. clear IHx.
  rewrite rev_app_distr. cbn [rev app walk]. destruct a as [l0|l0|l0|n|l0| |]; try discriminate.
  intros _. exists l0. rewrite trim_named_last in T. symmetry. exact T.
Qed.

(** No two places of one declaration are spelt alike. *)
Definition spelt_apart (vs : list (decl * path)) : Prop :=
  forall d p q, In (d, p) vs -> In (d, q) vs -> spelling p = spelling q -> p = q.

Section Kept.
(** A kind of place that is not given up for another, and for which others are given up. *)
Variable good : path -> Prop.
Hypothesis good_kept : forall x y, good x -> trim y = y -> is_refinement x y = true -> good y.
Hypothesis good_taken : forall x y, good y -> trim x = x -> is_refinement x y = false -> good x.

Definition own_name (g : gen) (vs : list (decl * path)) : Prop :=
  forall d ix p0 k p q, known d (rev_map g) = Some (ix, p0) -> named (ctx g) p0 k ->
    lookup k (remap g) = Some p -> In (d, q) vs -> good q -> good p.

Definition sorted_out (vs : list (decl * path)) : Prop := one_each vs /\ unmarked vs /\ spelt_apart vs.

Lemma sorted_out_prefix vs vs' : sorted_out (vs ++ vs') -> sorted_out vs.
Proof.
  intros [H1 [H2 H3]]. refine (conj _ (conj _ _)).
  - intros d d' p A B. exact (H1 d d' p (in_or_app _ _ _ (or_introl A)) (in_or_app _ _ _ (or_introl B))).
  - intros d p s n A. exact (H2 d p s n (in_or_app _ _ _ (or_introl A))).
  - intros d p q A B. exact (H3 d p q (in_or_app _ _ _ (or_introl A)) (in_or_app _ _ _ (or_introl B))).
Qed.

Lemma own_ctx g vs c : table c = table (ctx g) -> own_name g vs -> own_name (with_ctx g c) vs.
Proof.
  intros E HJ d ix p0 k p q K N. apply (HJ d ix p0 k p q K). cbn in N.
  exact (proj2 (grows_table c (ctx g) (eq_sym E)) _ _ N).
Qed.

Lemma refine_same c x y p : synthesize_name x = synthesize_name y -> refine_path c x y = Some p -> p = x \/ p = y.
Proof.
  intros E. unfold refine_path. destruct (string_dec _ _); [|contradiction].
  destruct (get_priority c x) as [[i|]|], (get_priority c y) as [[j|]|]; try discriminate;
    intros H; injection H as <-; auto. destruct (j <? i); auto.
Qed.

Lemma own_step g vs d a g' : inv g vs -> own_name g vs ->
  sorted_out (vs ++ [(d, trim (stack (ctx g)))]) -> get_name g d = Some (a, g') ->
  own_name g' (vs ++ [(d, trim (stack (ctx g)))]).
Proof.
  intros I HJ SO E.
  destruct (get_name_spec g vs d I) as [a1 [g1 [E1 [_ [I1 [_ [_ _]]]]]]].
  rewrite E in E1. injection E1 as <- <-.
  set (here := trim (stack (ctx g))) in *. pose proof (sorted_out_prefix _ _ SO) as SO0.
  destruct SO as [O1 [U1 A1]]. destruct SO0 as [O0 [U0 A0]].
  intros d' ix' p0' k' p l K' N' L' Hin' Gl.
  assert (OW : forall d1 ix1 p1, known d1 (rev_map g') = Some (ix1, p1) -> named (ctx g') p1 k' -> d1 = d').
  { intros d1 ix1 p1 K1 N1. exact (owner g' _ d1 d' ix1 ix' p1 p0' k' I1 O1 U1 K1 N1 K' N'). }
  assert (Tp : trim p = p /\ In (d', p) (vs ++ [(d, here)])).
  { destruct (i_remap _ _ I1 _ _ L') as [d1 [ix1 [p1 [K1 [N1 Hp]]]]].
    rewrite (OW _ _ _ K1 N1) in Hp. split; [exact (proj2 (i_reg _ _ I1 _ _ Hp))|exact Hp]. }
  unfold get_name in E. destruct (known d (rev_map g)) as [[ix p0]|] eqn:K.
  - destruct (i_orig _ _ I _ _ _ K) as [Hin [k Hk]].
    rewrite (find_named _ _ _ (proj2 (i_reg _ _ I _ _ Hin)) Hk) in E.
    destruct (register_spec (ctx g)) as [c2 [Er [S2 [R2 G2]]]]. rewrite Er in E. fold here in E, R2.
    destruct (i_entry _ _ I _ _ _ _ K Hk) as [prior Hp]. rewrite Hp in E.
    destruct (refine_path c2 prior here) as [p'|] eqn:Ep; [|discriminate]. injection E as <- <-.
    cbn [ctx rev_map remap] in *.
    destruct (i_orig _ _ I _ _ _ K') as [_ [k'' B]].
    pose proof (named_back _ _ _ _ _ G2 B N') as ->.
    destruct (string_dec k'' k) as [->|Hne].
    + rewrite lookup_store_same in L'. injection L' as ->.
      assert (d = d') by exact (OW d ix p0 K (proj2 G2 _ _ Hk)). subst d'.
      destruct (i_remap _ _ I _ _ Hp) as [d1 [ix1 [p1 [K1 [N1 Hpr]]]]].
      assert (d1 = d) by exact (OW d1 ix1 p1 K1 (proj2 G2 _ _ N1)). subst d1.
      pose proof (proj2 (i_reg _ _ I _ _ Hpr)) as Tpr.
      unfold refine_path in Ep.
      destruct (string_dec (synthesize_name prior) (synthesize_name here)) as [Es|Es].
      * assert (prior = here).
        { apply (A1 d).
          - apply in_or_app. left. exact Hpr.
          - apply in_or_app. right. left. reflexivity.
          - rewrite !synthesize_spelling, Tpr in Es. unfold here in Es |- *. rewrite trim_idem in Es. exact Es. }
        subst prior.
        assert (p = here).
        { destruct (get_priority c2 here) as [[i|]|]; try discriminate; injection Ep as <-; try reflexivity.
          destruct (i <? i); reflexivity. }
        subst p. apply in_app_or in Hin'. destruct Hin' as [Ho|[Ho|[]]].
        -- exact (HJ d ix p0 k here l K Hk Hp Ho Gl).
        -- injection Ho as ->. exact Gl.
      * apply in_app_or in Hin'. destruct Hin' as [Ho|[Ho|[]]].
        -- pose proof (HJ d ix p0 k prior l K Hk Hp Ho Gl) as Gp.
           destruct (is_refinement prior here) eqn:Ei; injection Ep as <-.
           ++ exact (good_kept _ _ Gp (trim_idem _) Ei).
           ++ exact Gp.
        -- injection Ho as Ho. rewrite Ho in Ep.
           destruct (is_refinement prior l) eqn:Ei; injection Ep as <-.
           ++ exact Gl.
           ++ exact (good_taken _ _ Gl Tpr Ei).
    + rewrite lookup_store_other in L' by exact Hne.
      apply in_app_or in Hin'. destruct Hin' as [Ho|[Ho|[]]].
      * exact (HJ d' ix' p0' k'' p l K' B L' Ho Gl).
      * injection Ho as -> _. exfalso. apply Hne. rewrite K in K'. injection K' as _ ->.
        exact (named_fun _ _ _ _ B Hk).
  - destruct (register_spec (ctx g)) as [c1 [Er [S1 [R1 G1]]]]. rewrite Er in E. fold here in E, R1.
    destruct (find_spec c1 here (trim_idem _) R1) as [k [c2 [Ef [S2 [N2 G2]]]]]. rewrite Ef in E.
    injection E as <- <-. cbn [ctx rev_map remap] in *.
    pose proof (grows_trans _ _ _ G1 G2) as G.
    assert (KD : known d (rev_map g ++ [(d, (ctr g, here))]) = Some (ctr g, here)).
    { rewrite known_app, K. cbn [fst snd]. destruct (Nat.eq_dec d d); [reflexivity|contradiction]. }
    assert (NI : ~ In (d, l) vs).
    { intros Hd. destruct (i_all _ _ I _ _ Hd) as [v Hv]. congruence. }
    destruct (string_dec k' k) as [->|Hne].
    + rewrite lookup_store_same in L'. injection L' as <-.
      assert (d = d') by exact (OW d _ _ KD N2). subst d'.
      apply in_app_or in Hin'. destruct Hin' as [Ho|[Ho|[]]]; [contradiction|].
      injection Ho as ->. exact Gl.
    + rewrite lookup_store_other in L' by exact Hne.
      assert (Hdd : d' <> d).
      { intros ->. rewrite KD in K'. injection K' as <- <-. exact (Hne (named_fun _ _ _ _ N' N2)). }
      apply in_app_or in Hin'. destruct Hin' as [Ho|[Ho|[]]]; [|congruence].
      rewrite known_app in K'. destruct (known d' (rev_map g)) as [v|] eqn:Kv.
      * injection K' as ->. destruct (i_orig _ _ I _ _ _ Kv) as [_ [k'' B]].
        pose proof (named_back _ _ _ _ _ G B N') as ->. exact (HJ d' ix' p0' k'' p l Kv B L' Ho Gl).
      * cbn [fst snd] in K'. destruct (Nat.eq_dec d d'); [congruence|discriminate].
Qed.

(** ** From histories to emitted names *)

Lemma run_new ops vs : visits [] ops vs ->
  exists ans g', run new_gen ops = Some (ans, g') /\ inv g' vs /\
    Forall2 (fun v a => answers g' (fst v) a) vs ans /\
    (forall i d q a, nth_error vs i = Some (d, q) -> nth_error ans i = Some a ->
      (snd (snd a) = true <-> ~ exists r, In (d, r) (firstn i vs))).
Proof.
  intros V.
  destruct (run_spec (fun _ => True) (fun _ _ => True)
    (fun _ _ _ => I) (fun _ _ _ _ _ => I) (fun _ _ _ _ _ _ _ _ _ => I)
    ops [] vs V new_gen [] eq_refl inv_new I I) as [ans [g' [E [I1 [_ [_ [A F]]]]]]].
  exists ans, g'. split; [exact E|]. split; [exact I1|]. split; [exact A|exact F].
Qed.

Lemma run_own ops vs ans g : visits [] ops vs -> sorted_out vs -> run new_gen ops = Some (ans, g) ->
  own_name g vs.
Proof.
  intros V SO E.
  destruct (run_spec sorted_out own_name sorted_out_prefix own_ctx own_step
    ops [] vs V new_gen [] eq_refl inv_new) as [ans' [g' [E' [_ [J' _]]]]].
  - intros d ix p0 k p l K. discriminate K.
  - exact SO.
  - rewrite E in E'. injection E' as <- <-. exact J'.
Qed.

End Kept.

Lemma run_own_explicit ops vs ans g : visits [] ops vs -> sorted_out vs -> run new_gen ops = Some (ans, g) ->
  own_name (fun p => exists l, p = [Explicit l]) g vs.
Proof.
  apply run_own.
  - intros x y [l ->]. apply refines_explicit.
  - intros x y [l ->]. apply unrefined_explicit.
Qed.

Lemma live_kept x y : ~ (exists r, x = r ++ [DeadEnd]) -> is_refinement x y = true -> ~ exists r, y = r ++ [DeadEnd].
Proof.
  intros Hx H [r ->]. unfold is_refinement in H. rewrite rev_app_distr in H. cbn [rev app] in H.
  destruct x as [|a x] using rev_ind; [discriminate H|]. clear IHx.
  rewrite rev_app_distr in H. cbn [rev app walk] in H.
  destruct a; try discriminate H. apply Hx. exists x. reflexivity.
Qed.

Lemma live_taken x y : ~ (exists r, y = r ++ [DeadEnd]) -> is_refinement x y = false -> ~ exists r, x = r ++ [DeadEnd].
Proof.
  intros Hy H [r ->]. unfold is_refinement in H. rewrite rev_app_distr in H. cbn [rev app] in H.
  destruct (rev y); discriminate H.
Qed.

Lemma run_own_live ops vs ans g : visits [] ops vs -> sorted_out vs -> run new_gen ops = Some (ans, g) ->
  own_name (fun p => ~ exists r, p = r ++ [DeadEnd]) g vs.
Proof.
  apply run_own.
  - intros x y Hx _. exact (live_kept x y Hx).
  - intros x y Hy _. exact (live_taken x y Hy).
Qed.

Lemma run_inv ops vs ans g : visits [] ops vs -> run new_gen ops = Some (ans, g) ->
  inv g vs /\ Forall2 (fun v a => answers g (fst v) a) vs ans /\
    (forall i d q a, nth_error vs i = Some (d, q) -> nth_error ans i = Some a ->
      (snd (snd a) = true <-> ~ exists r, In (d, r) (firstn i vs))).
Proof.
  intros V E. destruct (run_new ops vs V) as [ans' [g' [E' R]]]. rewrite E in E'. injection E' as <- <-.
  exact R.
Qed.

Lemma Forall2_nth {A B} (R : A -> B -> Prop) l l' i a b :
  Forall2 R l l' -> nth_error l i = Some a -> nth_error l' i = Some b -> R a b.
Proof.
  intros HF. revert i. induction HF as [|x y l l' Hxy HF IH]; intros [|i] Ha Hb; cbn in *; try discriminate.
  - congruence.
  - exact (IH i Ha Hb).
Qed.

Lemma known_index g vs d ix p : inv g vs -> known d (rev_map g) = Some (ix, p) ->
  nth_error (map fst (rev_map g)) ix = Some d.
Proof.
  intros I K. apply known_in in K. destruct (In_nth_error _ _ K) as [n Hn].
  assert (n = ix).
  { pose proof (map_nth_error (fun e => fst (snd e)) _ _ Hn) as H. cbn in H.
    rewrite (i_index _ _ I) in H.
    assert (Hlt : n < ctr g).
    { rewrite <- (seq_length (ctr g) 0). apply nth_error_Some. rewrite H. discriminate. }
    pose proof (nth_error_nth _ _ 0 H) as H'. rewrite seq_nth in H' by exact Hlt. exact H'. }
  subst n. exact (map_nth_error fst _ _ Hn).
Qed.

(** ** Identifiers *)

Definition usable (c : ascii) : bool :=
  if ascii_dec c "-" then false
  else if ascii_dec c "." then false
  else if ascii_dec c " " then false
  else if ascii_dec c "009" then false
  else true.

Lemma is_valid_usable n c : is_valid n c = usable c && negb (is_digit c && (n =? 0)).
Proof.
  unfold is_valid, usable. repeat (destruct (ascii_dec _ _); [reflexivity|]).
  destruct (is_digit c); reflexivity.
Qed.

Lemma all_valid_S n s : all_valid (S n) s = chars usable s.
Proof.
  revert n. induction s as [|c s IH]; intros n; [reflexivity|]. cbn [all_valid chars].
  rewrite is_valid_usable, IH. cbn [Nat.eqb]. rewrite andb_false_r, andb_true_r. reflexivity.
Qed.

Definition starts_digit (s : string) : bool :=
  match s with EmptyString => false | String c _ => is_digit c end.

Lemma all_valid_0 s : all_valid 0 s = chars usable s && negb (starts_digit s).
Proof.
  destruct s as [|c s]; [reflexivity|]. cbn [all_valid chars starts_digit].
  rewrite is_valid_usable, all_valid_S. cbn [Nat.eqb]. rewrite andb_true_r.
  destruct (usable c), (chars usable s), (is_digit c); reflexivity.
Qed.

Lemma digit_usable c : is_digit c = true -> usable c = true.
Proof.
  intros H. unfold usable.
  repeat (destruct (ascii_dec _ _) as [->|]; [discriminate H|]). reflexivity.
Qed.

Lemma replace_usable s : forall n d, chars usable (replace_from n d s) = true.
Proof.
  induction s as [|c s IH]; intros n d; [reflexivity|]. cbn [replace_from].
  destruct (is_digit c && (n =? 0)) eqn:E1.
  - apply andb_true_iff in E1. destruct E1 as [E1 _]. cbn [chars].
    rewrite (digit_usable _ E1), IH. reflexivity.
  - rewrite is_valid_usable, E1. cbn [negb]. rewrite andb_true_r.
    destruct (usable c) eqn:E2; [cbn [chars]; rewrite E2; apply IH|].
    destruct d; [apply IH|]. cbn [chars]. rewrite IH. reflexivity.
Qed.

Lemma replace_start s : forall d, starts_digit (replace_from 0 d s) = false.
Proof.
  induction s as [|c s IH]; intros d; [reflexivity|]. cbn [replace_from].
  destruct (is_digit c && (0 =? 0)) eqn:E1; [reflexivity|].
  rewrite is_valid_usable, E1. cbn [negb]. rewrite andb_true_r.
  destruct (usable c); [cbn [starts_digit]; rewrite andb_true_r in E1; exact E1|].
  destruct d; [apply IH|reflexivity].
Qed.

Lemma escape_valid s : all_valid 0 s = true -> all_valid 0 (escape_word s) = true.
Proof.
  intros H. unfold escape_word. destruct (in_dec string_dec s reserved); [|exact H].
  rewrite all_valid_0 in *. apply andb_true_iff in H. destruct H as [H _].
  cbn [append chars]. rewrite H. reflexivity.
Qed.

Lemma sanitize_valid s : all_valid 0 (sanitize s) = true.
Proof.
  unfold sanitize. destruct (all_valid 0 s) eqn:E; apply escape_valid; [exact E|].
  rewrite all_valid_0. unfold replace_bad. rewrite replace_usable, replace_start. reflexivity.
Qed.

Lemma escape_free s : ~ In (escape_word s) reserved.
Proof.
  unfold escape_word. destruct (in_dec string_dec s reserved) as [H|H]; [|exact H].
  intros H'. cbn [append] in H'. unfold reserved in H'. cbn [In] in H'.
  repeat (destruct H' as [H'|H']; [discriminate H'|]). exact H'.
Qed.

Lemma sanitize_free s : ~ In (sanitize s) reserved.
Proof. unfold sanitize. destruct (all_valid 0 s); apply escape_free. Qed.

Lemma sanitize_fixed s : all_valid 0 s = true -> ~ In s reserved -> sanitize s = s.
Proof.
  intros H1 H2. unfold sanitize. rewrite H1. unfold escape_word.
  destruct (in_dec string_dec s reserved); [contradiction|reflexivity].
Qed.

Lemma letter_valid c : letter c || digit c = true -> usable c = true.
Proof.
  intros H. unfold usable.
  repeat (destruct (ascii_dec _ _) as [->|]; [discriminate H|]). reflexivity.
Qed.

Lemma letter_not_digit c : letter c = true -> is_digit c = false.
Proof.
  unfold letter, is_digit. intros H. apply andb_false_iff.
  rewrite !orb_true_iff, !andb_true_iff, !Nat.leb_le, Nat.eqb_eq in H. rewrite !Nat.leb_gt. lia.
Qed.

Lemma identifier_valid s : identifier s = true -> all_valid 0 s = true.
Proof.
  destruct s as [|c s]; [discriminate|]. cbn [identifier]. intros H.
  apply andb_true_iff in H. destruct H as [H1 H2]. rewrite all_valid_0. cbn [starts_digit chars].
  rewrite (letter_not_digit _ H1), (letter_valid c) by (rewrite H1; reflexivity).
  cbn [negb]. rewrite andb_true_r. cbn [andb]. clear H1.
  induction s as [|c' s IH]; [reflexivity|]. cbn [chars] in *. apply andb_true_iff in H2. destruct H2 as [H2 H3].
  rewrite (letter_valid _ H2). exact (IH H3).
Qed.

Lemma hash_not_identifier s : identifier ("r#" ++ s) = false.
Proof. reflexivity. Qed.

Lemma sanitize_inj s t : identifier s = true -> identifier t = true -> sanitize s = sanitize t -> s = t.
Proof.
  intros Hs Ht. unfold sanitize. rewrite (identifier_valid _ Hs), (identifier_valid _ Ht). unfold escape_word.
  destruct (in_dec string_dec s reserved), (in_dec string_dec t reserved); intros E.
  - cbn [append] in E. injection E as E. exact E.
  - rewrite <- E in Ht. discriminate Ht.
  - rewrite E in Hs. discriminate Hs.
  - exact E.
Qed.

(** ** Names of functions *)

Lemma fname_inj i j : decoder_fname i = decoder_fname j -> i = j.
Proof. unfold decoder_fname. cbn [append]. intros H. injection H as H. exact (decimal_inj _ _ H). Qed.

Definition fn_state (used : list name) (t : list (name * name)) (ix : nat) : Prop :=
  (forall i r, lookup (decoder_fname i) t = Some r ->
    i < ix /\ In r used /\ exists s, r = ("Decoder_" ++ sanitize s)%string) /\
  (forall i j r, lookup (decoder_fname i) t = Some r -> lookup (decoder_fname j) t = Some r -> i = j).

Lemma name_functions_spec fns : forall used t ix, fn_state used t ix ->
  exists used', fn_state used' (name_functions used t ix fns) (ix + length fns).
Proof.
  induction fns as [|[n|] fns IH]; intros used t ix St; cbn [name_functions length].
  - exists used. rewrite Nat.add_0_r. exact St.
  - rewrite <- Nat.add_succ_comm. set (r := ("Decoder_" ++ sanitize (rebind t n))%string).
    destruct St as [S1 S2]. destruct (in_dec string_dec r used) as [H|H]; apply IH.
    + split; [|exact S2]. intros i r' Hi. destruct (S1 i r' Hi) as [A B]. split; [lia|exact B].
    + assert (L : forall i r', lookup (decoder_fname i) (store (decoder_fname ix) r t) = Some r' ->
        (i = ix /\ r' = r) \/ (i <> ix /\ lookup (decoder_fname i) t = Some r')).
      { intros i r' Hi. destruct (Nat.eq_dec i ix) as [->|Hn].
        - rewrite lookup_store_same in Hi. injection Hi as <-. left. split; reflexivity.
        - rewrite lookup_store_other in Hi; [right; split; assumption|].
          intros E. exact (Hn (fname_inj _ _ E)). }
      split.
      * intros i r' Hi. destruct (L i r' Hi) as [[-> ->]|[_ Hi']].
        -- split; [lia|]. split; [left; reflexivity|]. exists (rebind t n). reflexivity.
        -- destruct (S1 i r' Hi') as [A [B C]]. split; [lia|]. split; [right; exact B|exact C].
      * intros i j r' Hi Hj. destruct (L i r' Hi) as [[-> ->]|[Hn Hi']], (L j _ Hj) as [[-> Er]|[Hn' Hj']].
        -- reflexivity.
        -- exfalso. apply H. exact (proj1 (proj2 (S1 j r Hj'))).
        -- subst r'. exfalso. apply H. exact (proj1 (proj2 (S1 i r Hi'))).
        -- exact (S2 i j r' Hi' Hj').
  - rewrite <- Nat.add_succ_comm. apply IH. destruct St as [S1 S2]. split; [|exact S2].
    intros i r' Hi. destruct (S1 i r' Hi) as [A B]. split; [lia|exact B].
Qed.

Lemma decimal_head n s : decimal n <> String "_" s.
Proof. intros E. pose proof (decimal_digits n) as H. rewrite E in H. discriminate H. Qed.

Lemma function_names_distinct t fns : (forall i, lookup (decoder_fname i) t = None) ->
  NoDup (function_names t fns).
Proof.
  intros H. unfold function_names.
  destruct (name_functions_spec fns [] t 0) as [used [S1 S2]].
  { split; intros; rewrite H in *; discriminate. }
  set (t' := name_functions [] t 0 fns) in *. clearbody t'.
  apply FinFun.Injective_map_NoDup; [|apply seq_NoDup].
  intros i j. unfold rebind.
  destruct (lookup (decoder_fname i) t') as [r|] eqn:Ei, (lookup (decoder_fname j) t') as [r'|] eqn:Ej.
  - intros <-. exact (S2 i j r Ei Ej).
  - intros ->. destruct (S1 i _ Ei) as [_ [_ [s Es]]]. unfold decoder_fname in Es. cbn [append] in Es.
    injection Es as Es. destruct (decimal_head _ _ Es).
  - intros <-. destruct (S1 j _ Ej) as [_ [_ [s Es]]]. unfold decoder_fname in Es. cbn [append] in Es.
    injection Es as Es. destruct (decimal_head _ _ Es).
  - exact (fname_inj i j).
Qed.

Lemma chars_append P s t : chars P (s ++ t) = chars P s && chars P t.
Proof. induction s as [|c s IH]; [reflexivity|]. cbn [append chars]. rewrite IH. apply andb_assoc. Qed.

Lemma chars_mono (P Q : ascii -> bool) s : (forall c, P c = true -> Q c = true) -> chars P s = true -> chars Q s = true.
Proof.
  intros H. induction s as [|c s IH]; [reflexivity|]. cbn [chars]. intros E. apply andb_true_iff in E.
  destruct E as [E1 E2]. rewrite (H _ E1), (IH E2). reflexivity.
Qed.

Lemma decoder_printed s : chars usable s = true -> sanitize ("Decoder" ++ s) = ("Decoder" ++ s)%string.
Proof.
  intros H. apply sanitize_fixed.
  - rewrite all_valid_0. cbn [append chars starts_digit]. rewrite H. reflexivity.
  - intros H'. cbn [append] in H'. unfold reserved in H'. cbn [In] in H'.
    repeat (destruct H' as [H'|H']; [discriminate H'|]). exact H'.
Qed.

Lemma function_names_printed t fns : (forall i, lookup (decoder_fname i) t = None) ->
  map sanitize (function_names t fns) = function_names t fns.
Proof.
  intros H. unfold function_names. rewrite map_map.
  destruct (name_functions_spec fns [] t 0) as [used [S1 S2]].
  { split; intros; rewrite H in *; discriminate. }
  set (t' := name_functions [] t 0 fns) in *. clearbody t'.
  apply map_ext. intros i. unfold rebind.
  destruct (lookup (decoder_fname i) t') as [r|] eqn:Ei.
  - destruct (S1 i _ Ei) as [_ [_ [s ->]]].
    change ("Decoder_" ++ sanitize s)%string with ("Decoder" ++ String "_" (sanitize s))%string.
    apply decoder_printed. cbn [chars]. pose proof (sanitize_valid s) as V. rewrite all_valid_0 in V.
    apply andb_true_iff in V. rewrite (proj1 V). reflexivity.
  - apply decoder_printed. eapply chars_mono; [|apply decimal_digits]. intros c Hc.
    exact (digit_usable c Hc).
Qed.
