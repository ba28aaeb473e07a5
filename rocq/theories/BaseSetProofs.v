(** Proofs about the ranked sets of candidate integer types. *)
From Verif Require Import Base BoundsModel NumericModel ValueModel BaseSetModel.
Open Scope nat_scope.

(** The member at a position. *)
Definition ranked (s : rset) (i : nat) : rank := nth i s None.
Definition has (s : rset) (i : nat) : bool := negb (is_excluded (ranked s i)).

Lemma normalize_length : forall s, length (normalize s) = length s.
Proof. intros. unfold normalize. apply map_length. Qed.

Definition norm1 (s : rset) (r : rank) : rank :=
  match r with None => None
  | Some _ => Some (length (filter (fun r' => rank_geb r' r) s) - 1) end.

Lemma ranked_normalize : forall s i, ranked (normalize s) i = norm1 s (ranked s i).
Proof.
  intros. change (nth i (map (norm1 s) s) (norm1 s None) = norm1 s (nth i s None)). apply map_nth.
Qed.

Lemma has_normalize : forall s i, has (normalize s) i = has s i.
Proof.
  intros. unfold has. rewrite ranked_normalize. destruct (ranked s i); reflexivity.
Qed.

Lemma rank_geb_some : forall r n, rank_geb r (Some n) = match r with Some m => m <=? n | None => false end.
Proof.
  intros [m|] n; [|reflexivity]. unfold rank_geb, rank_cmp.
  destruct (Nat.compare_spec m n); destruct (Nat.leb_spec m n); cbn [CompOpp]; try reflexivity; lia.
Qed.

(** The number of members at least as preferred as a given one. *)
Definition upto (s : rset) (n : nat) : nat :=
  length (filter (fun r => match r with Some m => m <=? n | None => false end) s).

Lemma norm1_some : forall s n, norm1 s (Some n) = Some (upto s n - 1).
Proof.
  intros. unfold norm1, upto. do 3 f_equal. 
  apply filter_ext. intro r. apply rank_geb_some.
Qed.

Lemma upto_mono : forall s n m, n <= m -> upto s n <= upto s m.
Proof.
  intros s n m H. unfold upto. induction s as [|r s IH]; [reflexivity|]. cbn [filter].
  destruct r as [k|]; [|exact IH].
  destruct (Nat.leb_spec k n); destruct (Nat.leb_spec k m); cbn [length]; lia.
Qed.

Lemma upto_strict : forall s n m, n < m -> In (Some m) s -> upto s n < upto s m.
Proof.
  intros s n m H. unfold upto. induction s as [|r s IH]; [intros []|]. cbn [filter In].
  intros [E|I].
  - subst r. pose proof (upto_mono s n m ltac:(lia)) as M. unfold upto in M.
    destruct (Nat.leb_spec m n); [lia|]. destruct (Nat.leb_spec m m); [|lia].
    cbn [length]. lia.
  - specialize (IH I). destruct r as [k|]; [|exact IH].
    destruct (Nat.leb_spec k n); destruct (Nat.leb_spec k m); cbn [length]; lia.
Qed.

Lemma upto_pos : forall s n, In (Some n) s -> 0 < upto s n.
Proof.
  intros s n I. unfold upto. destruct (filter _ s) eqn:F; [|cbn; lia]. exfalso.
  assert (In (Some n) []) as H; [|destruct H]. rewrite <- F. apply filter_In. split; [exact I|].
  apply Nat.leb_refl.
Qed.

Lemma ranked_in : forall s i n, ranked s i = Some n -> In (Some n) s.
Proof.
  intros s i n H. unfold ranked in H. destruct (Nat.lt_ge_cases i (length s)) as [L|L].
  - rewrite <- H. apply nth_In. exact L.
  - rewrite nth_overflow in H by exact L. discriminate.
Qed.

(** Normalising keeps the order of preference. *)
Lemma normalize_order : forall s i j n m,
  ranked s i = Some n -> ranked s j = Some m ->
  exists n' m', ranked (normalize s) i = Some n' /\ ranked (normalize s) j = Some m' /\
                (n' < m' <-> n < m).
Proof.
  intros s i j n m Hi Hj. rewrite !ranked_normalize, Hi, Hj, !norm1_some.
  exists (upto s n - 1), (upto s m - 1). split; [reflexivity|]. split; [reflexivity|].
  pose proof (upto_pos _ _ (ranked_in _ _ _ Hi)). pose proof (upto_pos _ _ (ranked_in _ _ _ Hj)).
  split.
  - intro L. destruct (Nat.lt_ge_cases n m) as [K|K]; [exact K|].
    pose proof (upto_mono s m n K). lia.
  - intro L. pose proof (upto_strict s n m L (ranked_in _ _ _ Hj)). lia.
Qed.

(** ** Intersection *)

Definition inter1 (a b : rank) : rank :=
  let '(lo, hi) := min_max a b in if is_excluded lo then None else hi.

Lemma inter1_eq : forall a b, inter1 a b =
  match a, b with Some n, Some m => Some (Nat.min n m) | _, _ => None end.
Proof.
  intros [n|] [m|]; unfold inter1, min_max, rank_ltb, rank_cmp; cbn [is_excluded]; try reflexivity.
  destruct (Nat.compare_spec n m) as [E|E|E]; cbn [CompOpp is_excluded]; f_equal; lia.
Qed.

Lemma ranked_inter : forall a b i, length a = length b ->
  ranked (intersection a b) i =
  norm1 (map (fun p => inter1 (fst p) (snd p)) (combine (normalize a) (normalize b)))
        (inter1 (norm1 a (ranked a i)) (norm1 b (ranked b i))).
Proof.
  intros a b i L. unfold intersection. rewrite ranked_normalize. f_equal.
  pose (f := fun p : rank * rank => inter1 (fst p) (snd p)).
  change (nth i (map f (combine (normalize a) (normalize b))) (f (None, None)) =
          inter1 (norm1 a (ranked a i)) (norm1 b (ranked b i))).
  rewrite (map_nth f). unfold f. rewrite combine_nth by (rewrite !normalize_length; exact L).
  cbn [fst snd]. f_equal; [apply (ranked_normalize a i)|apply (ranked_normalize b i)].
Qed.

Lemma has_intersection : forall a b i, length a = length b ->
  has (intersection a b) i = has a i && has b i.
Proof.
  intros a b i L. unfold has. rewrite ranked_inter by exact L.
  destruct (ranked a i) as [n|]; destruct (ranked b i) as [m|]; rewrite ?norm1_some; cbn [norm1];
    rewrite inter1_eq; reflexivity.
Qed.

Lemma intersection_length : forall a b, length a = length b -> length (intersection a b) = length a.
Proof.
  intros a b L. unfold intersection. rewrite normalize_length, map_length, combine_length, !normalize_length. lia.
Qed.

Lemma rset_ext : forall a b : rset, length a = length b -> (forall i, ranked a i = ranked b i) -> a = b.
Proof. intros a b L H. apply (nth_ext _ _ None None); [exact L|]. intros. apply H. Qed.

Lemma combine_swap : forall {A B} (a : list A) (b : list B),
  combine b a = map (fun p => (snd p, fst p)) (combine a b).
Proof.
  induction a as [|x a IH]; intros [|y b]; cbn; try reflexivity. rewrite IH. reflexivity.
Qed.

Lemma intersection_comm : forall a b, length a = length b -> intersection a b = intersection b a.
Proof.
  intros a b L. unfold intersection. f_equal.
  rewrite (combine_swap (normalize a) (normalize b)), map_map. apply map_ext. intros [x y].
  cbn [fst snd]. change (inter1 x y = inter1 y x). rewrite !inter1_eq.
  destruct x, y; try reflexivity. f_equal. lia.
Qed.

(** ** Normalising twice *)

Lemma filter_map_len : forall {A B} (f : A -> B) (p : B -> bool) (l : list A),
  length (filter p (map f l)) = length (filter (fun x => p (f x)) l).
Proof.
  induction l as [|x l IH]; [reflexivity|]. cbn. destruct (p (f x)); cbn; rewrite IH; reflexivity.
Qed.

Lemma filter_ext_in_len : forall {A} (p q : A -> bool) (l : list A),
  (forall x, In x l -> p x = q x) -> length (filter p l) = length (filter q l).
Proof.
  induction l as [|x l IH]; intro H; [reflexivity|]. cbn.
  rewrite (H x (or_introl eq_refl)). destruct (q x); cbn; rewrite IH; auto; intros; apply H; right; auto.
Qed.

Lemma upto_normalize : forall s n, In (Some n) s -> upto (normalize s) (upto s n - 1) = upto s n.
Proof.
  intros s n I. unfold upto at 1. change (normalize s) with (map (norm1 s) s).
  rewrite filter_map_len. unfold upto at 2. apply filter_ext_in_len.
  intros [m|] Im; [|reflexivity]. rewrite norm1_some.
  pose proof (upto_pos _ _ I) as P1. pose proof (upto_pos _ _ Im) as P2.
  destruct (Nat.leb_spec m n) as [K|K].
  - apply Nat.leb_le. pose proof (upto_mono s m n K). lia.
  - apply Nat.leb_gt. pose proof (upto_strict s n m K Im). lia.
Qed.

Lemma normalize_idem : forall s, normalize (normalize s) = normalize s.
Proof.
  intro s. apply rset_ext; [rewrite !normalize_length; reflexivity|]. intro i.
  rewrite !ranked_normalize. destruct (ranked s i) as [n|] eqn:E; [|reflexivity].
  rewrite !norm1_some. rewrite (upto_normalize s n (ranked_in _ _ _ E)). reflexivity.
Qed.

(** ** Emptiness, singletons, unique solutions *)

Lemma is_empty_spec : forall s, rs_is_empty s = true <-> (forall i, has s i = false).
Proof.
  intro s. unfold rs_is_empty. rewrite forallb_forall. split.
  - intros H i. unfold has, ranked. destruct (Nat.lt_ge_cases i (length s)) as [L|L].
    + rewrite (H _ (nth_In s None L)). reflexivity.
    + rewrite nth_overflow by exact L. reflexivity.
  - intros H r I. destruct (In_nth s r None I) as [i [L E]]. specialize (H i).
    unfold has, ranked in H. rewrite E in H. destruct (is_excluded r); [reflexivity|discriminate].
Qed.

Lemma enumerate_in : forall {A} (s : list A) k i x d,
  In (i, x) (enumerate k s) <-> (k <= i < k + length s /\ nth (i - k) s d = x).
Proof.
  induction s as [|y s IH]; intros k i x d; cbn [enumerate In length].
  - split; [intros []|lia].
  - rewrite (IH (S k) i x d). split.
    + intros [E|[L E]].
      * injection E as <- <-. rewrite Nat.sub_diag. split; [lia|reflexivity].
      * replace (i - k) with (S (i - S k)) by lia. split; [lia|exact E].
    + intros [L E]. destruct (Nat.eq_dec i k) as [->|N].
      * left. rewrite Nat.sub_diag in E. cbn in E. subst. reflexivity.
      * right. replace (i - k) with (S (i - S k)) in E by lia. split; [lia|exact E].
Qed.

Lemma enumerate_nodup : forall {A} (s : list A) k, NoDup (map fst (enumerate k s)).
Proof.
  assert (forall {A} (s : list A) k i, In i (map fst (enumerate k s)) -> k <= i) as G.
  { intros A s. induction s as [|y s IH]; intros k i; cbn; [intros []|].
    intros [<-|I]; [lia|]. specialize (IH _ _ I). lia. }
  intros A s. induction s as [|y s IH]; intro k; cbn; constructor.
  - intro I. apply G in I. lia.
  - apply IH.
Qed.

Lemma as_singleton_spec : forall s i,
  as_singleton_ix s = Some i <-> (forall j, has s j = true <-> j = i).
Proof.
  intros s i. unfold as_singleton_ix.
  set (F := filter _ _).
  assert (HF : forall j r, In (j, r) F <-> (ranked (normalize s) j = r /\ has s j = true)).
  { intros j r. unfold F. rewrite filter_In. rewrite (enumerate_in (normalize s) 0 j r None).
    rewrite Nat.sub_0_r. cbn [snd]. fold (ranked (normalize s) j). rewrite <- has_normalize. unfold has.
    split.
    - intros [[_ E] H]. rewrite E. auto.
    - intros [E H]. rewrite E in H. repeat split; auto; [lia|].
      destruct (Nat.lt_ge_cases j (0 + length (normalize s))) as [L|L]; [exact L|].
      unfold ranked in E. rewrite nth_overflow in E by (cbn in L; exact L). subst r. discriminate. }
  assert (ND : NoDup (map fst F)).
  { unfold F. pose proof (enumerate_nodup (normalize s) 0) as N. revert N.
    generalize (enumerate 0 (normalize s)). intros l N. induction l as [|x l IH]; [constructor|].
    cbn in *. inversion N as [|a b N1 N2]; subst. destruct (negb _); [|auto]. cbn. constructor; auto.
    intro I. apply N1. clear - I. apply in_map_iff in I. destruct I as [y [E I]]. apply filter_In in I.
    apply in_map_iff. exists y. tauto. }
  destruct F as [|[k r] F'] eqn:EF.
  - split; [discriminate|]. intro H. exfalso.
    assert (has s i = true) as Hi by (apply H; reflexivity).
    destruct (proj2 (HF i _) (conj eq_refl Hi)).
  - assert (has s k = true) as Hk by (apply (HF k r); left; reflexivity).
    destruct F' as [|[k' r'] F''].
    + split.
      * injection 1 as <-. intro j. split; [|intros ->; exact Hk].
        intro Hj. destruct (proj2 (HF j _) (conj eq_refl Hj)) as [E|[]]. congruence.
      * intro H. f_equal. apply H. exact Hk.
    + split; [discriminate|]. intro H. exfalso.
      assert (has s k' = true) as Hk' by (apply (HF k' r'); right; left; reflexivity).
      apply H in Hk. apply H in Hk'. subst.
      cbn in ND. inversion ND as [|? ? N1 N2]. apply N1. left. reflexivity.
Qed.

(** What the loop of [get_unique_solution] knows after a prefix. *)
Definition loop_inv (P : nat -> rank -> Prop) (st : option nat * rank * bool) : Prop :=
  match st with
  | (None, r, u) => r = None /\ u = true /\ forall i n, ~ P i (Some n)
  | (Some c, r, u) =>
    exists n, r = Some n /\ P c (Some n) /\ (forall i m, P i (Some m) -> n <= m) /\
      (u = true <-> (forall i m, P i (Some m) -> i <> c -> n < m))
  end.

Lemma solution_step_inv : forall P st i r,
  (forall r', ~ P i r') -> loop_inv P st ->
  loop_inv (fun j q => P j q \/ (j = i /\ q = r)) (solution_step st (i, r)).
Proof.
  intros P [[c mr] u] i r Hi I. unfold solution_step.
  destruct r as [n|].
  2:{ destruct c as [c|]; cbn in *.
      - destruct I as [k [E [Pc [Hle Hu]]]]. exists k. repeat split; auto.
        + intros j m [H|[_ H]]; [eauto|discriminate].
        + intro U. rewrite Hu in U. intros j m [H|[_ H]]; [eauto|discriminate].
        + intro U. apply Hu. intros j m H. apply U. left. exact H.
      - destruct I as [E [U N]]. repeat split; auto. intros j m [H|[_ H]]; [eapply N; eauto|discriminate]. }
  destruct c as [c|]; cbn in I.
  - destruct I as [k [E [Pc [Hle Hu]]]]. subst mr. unfold rank_cmp.
    assert (c <> i) as Nci by (intros ->; eapply Hi; eauto).
    destruct (Nat.compare_spec n k) as [E|E|E]; cbn [CompOpp loop_inv].
    + subst n. exists k. repeat split; auto.
      * intros j m [H|[_ H]]; [eauto|injection H as ->; lia].
      * discriminate.
      * intro U. specialize (U i k (or_intror (conj eq_refl eq_refl)) (fun E => Nci (eq_sym E))). lia.
    + exists n. repeat split; auto.
      * intros j m [H|[_ H]]; [specialize (Hle _ _ H); lia|injection H as ->; lia].
      * intros _ j m [H|[-> H]] N; [specialize (Hle _ _ H); lia|congruence].
    + exists k. repeat split; auto.
      * intros j m [H|[_ H]]; [eauto|injection H as ->; lia].
      * intros U j m [H|[_ H]] N; [apply (proj1 Hu U _ _ H N)|injection H as ->; lia].
      * intro U. apply Hu. intros j m H. apply U. left. exact H.
  - destruct I as [-> [-> N]]. cbn [rank_cmp loop_inv]. exists n. repeat split; auto.
    + intros j m [H|[_ H]]; [destruct (N _ _ H)|injection H as ->; lia].
    + intros _ j m [H|[-> H]] Nj; [destruct (N _ _ H)|congruence].
Qed.

Lemma loop_inv_ext : forall P Q st, (forall i r, P i r <-> Q i r) -> loop_inv P st -> loop_inv Q st.
Proof.
  intros P Q [[[c|] r] u] H; cbn.
  - intros [n [E [Pc [Hle Hu]]]]. exists n. repeat split; auto.
    + apply H. exact Pc.
    + intros i m K. apply H in K. eauto.
    + intros U i m K N. apply H in K. apply (proj1 Hu U _ _ K N).
    + intro U. apply Hu. intros i m K N. apply H in K. eapply U; eauto.
  - intros [E [U N]]. repeat split; auto. intros i n K. apply H in K. eapply N; eauto.
Qed.

Lemma solution_fold_inv : forall s k P st,
  (forall i r, k <= i -> ~ P i r) -> loop_inv P st ->
  loop_inv (fun i r => P i r \/ In (i, r) (enumerate k s)) (fold_left solution_step (enumerate k s) st).
Proof.
  induction s as [|r s IH]; intros k P st Hk I; cbn [enumerate fold_left].
  - eapply loop_inv_ext; [|exact I]. cbn. tauto.
  - eapply loop_inv_ext; [|apply (IH (S k) (fun j q => P j q \/ (j = k /\ q = r)))].
    + intros i q. cbn [In]. split; intros H; [destruct H as [[H|[-> ->]]|H]|destruct H as [H|[H|H]]]; auto.
      injection H as -> ->. auto.
    + intros i q L [H|[-> _]]; [eapply Hk; [|exact H]; lia|lia].
    + apply solution_step_inv; [|exact I]. intros q. apply Hk. lia.
Qed.

(** The position chosen is that of the one member preferred to all others. *)
Lemma unique_solution_spec : forall s i,
  unique_solution_ix s = Some i <->
  exists n, ranked s i = Some n /\ forall j m, j <> i -> ranked s j = Some m -> n < m.
Proof.
  intros s i. unfold unique_solution_ix.
  pose proof (solution_fold_inv (normalize s) 0 (fun _ _ => False) (None, None, true)) as I.
  specialize (I (fun _ _ _ H => H)).
  assert (loop_inv (fun _ _ => False) (None, None, true)) as I0 by (cbn; repeat split; auto).
  specialize (I I0). clear I0.
  assert (HE : forall j n, In (j, Some n) (enumerate 0 (normalize s)) <-> ranked (normalize s) j = Some n).
  { intros j n. rewrite (enumerate_in (normalize s) 0 j (Some n) None), Nat.sub_0_r. unfold ranked. split; [tauto|].
    intro E. split; [|exact E]. split; [lia|].
    destruct (Nat.lt_ge_cases j (0 + length (normalize s))) as [L|L]; [exact L|].
    rewrite nth_overflow in E by exact L. discriminate. }
  assert (ORD : forall j k n m, ranked s j = Some n -> ranked s k = Some m ->
            exists n' m', ranked (normalize s) j = Some n' /\ ranked (normalize s) k = Some m' /\ (n' < m' <-> n < m))
    by (intros; apply normalize_order; assumption).
  assert (BACK : forall j n', ranked (normalize s) j = Some n' -> exists n, ranked s j = Some n).
  { intros j n' E. rewrite ranked_normalize in E. destruct (ranked s j) as [n|]; [eauto|discriminate]. }
  destruct (fold_left _ _ _) as [[[c|] r] u]; cbn in I.
  - destruct I as [n' [-> [[[]|Pc] [Hle Hu]]]]. apply HE in Pc.
    destruct (BACK _ _ Pc) as [n Ec].
    destruct u.
    + split.
      * injection 1 as <-. exists n. split; [exact Ec|]. intros j m N Ej.
        destruct (ORD c j n m Ec Ej) as [a [b [Ea [Eb O]]]]. apply O.
        assert (a = n') by congruence. subst a. apply (proj1 Hu eq_refl j b); [|exact N].
        right. apply HE. exact Eb.
      * intros [k [Ei Hi]]. destruct (Nat.eq_dec i c) as [->|N]; [reflexivity|]. exfalso.
        specialize (Hi c n (fun E => N (eq_sym E)) Ec).
        destruct (ORD i c k n Ei Ec) as [a [b [Ea [Eb O]]]].
        assert (b = n') by congruence. subst b.
        specialize (Hle i a (or_intror (proj2 (HE _ _) Ea))). lia.
    + split; [discriminate|]. intros [k [Ei Hi]]. exfalso.
      assert (false = true); [|discriminate]. apply Hu.
      assert (i = c) as ->.
      { destruct (Nat.eq_dec i c) as [E|N]; [exact E|]. exfalso.
        specialize (Hi c n (fun E => N (eq_sym E)) Ec).
        destruct (ORD i c k n Ei Ec) as [a [b [Ea [Eb O]]]].
        assert (b = n') by congruence. subst b.
        specialize (Hle i a (or_intror (proj2 (HE _ _) Ea))). lia. }
      assert (k = n) by congruence. subst k.
      intros j b [[]|Hj] N. apply HE in Hj. destruct (BACK _ _ Hj) as [m Ej].
      specialize (Hi j m N Ej). destruct (ORD c j n m Ec Ej) as [a [b' [Ea [Eb O]]]].
      assert (b' = b) by congruence. assert (a = n') by congruence. subst. apply O. exact Hi.
  - split; [discriminate|]. intros [k [Ei _]]. exfalso. destruct I as [_ [_ I]].
    destruct (ORD i i k k Ei Ei) as [a [b [Ea _]]]. apply (I i a). right. apply HE. exact Ea.
Qed.

(** ** From positions to types *)

Lemma width_order : forall w, nth_error uint_order (width_ix w) = Some (TU w).
Proof. intros []; reflexivity. Qed.
Lemma prim_order : forall p, nth_error prim_ints (prim_as_index p) = Some p.
Proof. intros [[] []]; reflexivity. Qed.
Lemma prim_index_inj : forall p q, prim_as_index p = prim_as_index q -> p = q.
Proof. intros [[] []] [[] []]; cbn; intro H; try discriminate; reflexivity. Qed.
Lemma prim_index_lt : forall p, prim_as_index p < 8.
Proof. intros [[] []]; cbn; lia. Qed.
Lemma width_ix_inj : forall v w, width_ix v = width_ix w -> v = w.
Proof. intros [] []; cbn; intro H; try discriminate; reflexivity. Qed.
Lemma width_ix_lt : forall w, width_ix w < 4.
Proof. intros []; cbn; lia. Qed.
Lemma width_at : forall i, i < 4 -> exists w, i = width_ix w.
Proof.
  intros i L. do 4 (destruct i as [|i]; [eexists; match goal with |- ?n = _ =>
    match n with 0 => instantiate (1 := B8) | 1 => instantiate (1 := B16)
    | 2 => instantiate (1 := B32) | 3 => instantiate (1 := B64) end end; reflexivity|]). lia.
Qed.
Lemma prim_at : forall i, i < 8 -> exists p, i = prim_as_index p.
Proof.
  intros i L. destruct (nth_error prim_ints i) as [p|] eqn:E.
  - exists p. do 8 (destruct i as [|i]; [cbn in E; injection E as <-; reflexivity|]). lia.
  - apply nth_error_None in E. cbn in E. lia.
Qed.
Lemma has_out : forall s i, length s <= i -> has s i = false.
Proof. intros. unfold has, ranked. rewrite nth_overflow by assumption. reflexivity. Qed.

Lemma mrep_eqb_eq : forall p q, mrep_eqb p q = true <-> p = q.
Proof. intros [[] []] [[] []]; cbn; split; intro H; try discriminate; reflexivity. Qed.
Lemma bw_eqb_eq : forall p q, bw_eqb p q = true <-> p = q.
Proof. intros [] []; cbn; split; intro H; try discriminate; reflexivity. Qed.
Lemma basetype_eqb_eq : forall a b, basetype_eqb a b = true <-> a = b.
Proof.
  intros [|v|] [|w|]; cbn; split; intro H; try discriminate; try reflexivity.
  - apply bw_eqb_eq in H. congruence.
  - apply bw_eqb_eq. congruence.
Qed.
