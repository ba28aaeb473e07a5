(** C59: sets of candidate integer types with preferences. *)
From Coq Require Import Permutation.
From Verif Require Import Base BoundsModel NumericModel ValueModel BaseSetModel BaseSetSpec BaseSetProofs.
Open Scope nat_scope.

Lemma u_rank_eq : forall s w, u_rank s w = ranked s (width_ix w).
Proof. intros s []; reflexivity. Qed.
Lemma p_rank_eq : forall s p, p_rank s p = ranked s (prim_as_index p).
Proof. intros s [[] []]; reflexivity. Qed.
Lemma uint_contains_has : forall s w, uint_contains s (TU w) = Val (has s (width_ix w)).
Proof. reflexivity. Qed.
Lemma prim_contains_has : forall s p, prim_contains s p = has s (prim_as_index p).
Proof. reflexivity. Qed.
Lemma has_rank : forall s i, has s i = true <-> exists n, ranked s i = Some n.
Proof.
  intros. unfold has. destruct (ranked s i); cbn; split; intro H; try discriminate; eauto.
  destruct H. discriminate.
Qed.
Lemma in_bs_has : forall u w, in_bs (BU u) (TU w) <-> has u (width_ix w) = true.
Proof.
  intros. cbn. rewrite has_rank. split.
  - intros [w' [n [E H]]]. injection E as <-. rewrite u_rank_eq in H. eauto.
  - intros [n H]. exists w, n. rewrite u_rank_eq. auto.
Qed.
Lemma in_is_has : forall z p, in_is (IZ z) p <-> has z (prim_as_index p) = true.
Proof. intros. cbn. rewrite has_rank. setoid_rewrite p_rank_eq. reflexivity. Qed.

(** The membership test agrees with membership; on a type that is no integer it
    panics for sets of unsigned types. *)
Theorem C59_contains : forall s b,
  match bs_contains s b with
  | Val true => in_bs s b
  | Val false => ~ in_bs s b
  | Panic => (exists u, s = BU u) /\ (b = TBool \/ b = TChar)
  end.
Proof.
  intros [b'|u] b; cbn [bs_contains].
  - destruct (basetype_eqb b' b) eqn:E.
    + apply basetype_eqb_eq in E. cbn. congruence.
    + cbn. intros ->. rewrite (proj2 (basetype_eqb_eq _ _) eq_refl) in E. discriminate.
  - destruct b as [|w|]; cbn [uint_contains]; try (split; eauto; fail).
    change (negb (is_excluded (nth (width_ix w) u None))) with (has u (width_ix w)).
    destruct (has u (width_ix w)) eqn:H.
    + apply in_bs_has. exact H.
    + intro I. apply in_bs_has in I. congruence.
Qed.
Theorem C59_contains_int : forall s p, is_contains s p = true <-> in_is s p.
Proof.
  intros [q|z] p; cbn [is_contains].
  - unfold prim_eqb. rewrite mrep_eqb_eq. cbn. split; congruence.
  - rewrite prim_contains_has. symmetry. apply in_is_has.
Qed.

(** Unifying two sets of candidate base types keeps the common members, and fails
    only when there are none. *)
Theorem C59_unify : forall a b, bs_ok a -> bs_ok b ->
  match bs_unify a b with
  | TOk r => bs_ok r /\ forall x, in_bs r x <-> in_bs a x /\ in_bs b x
  | TErr => forall x, ~ (in_bs a x /\ in_bs b x)
  | TPanic => forall x, ~ (in_bs a x /\ in_bs b x)
  end.
Proof.
  assert (US : forall u x, match uint_contains u x with
             | Val true => in_bs (BU u) x | _ => ~ in_bs (BU u) x end).
  { intros u x. pose proof (C59_contains (BU u) x) as H. cbn [bs_contains] in H.
    destruct (uint_contains u x) as [[]|]; auto. destruct H as [_ [->| ->]]; cbn; intros [w [n [E _]]]; discriminate. }
  intros [b1|u1] [b2|u2] Ha Hb; cbn [bs_unify].
  - destruct (basetype_eqb b1 b2) eqn:E.
    + apply basetype_eqb_eq in E. subst. split; [exact I|]. cbn. intro x. tauto.
    + intros x [H1 H2]. cbn in H1, H2. subst. rewrite (proj2 (basetype_eqb_eq _ _) eq_refl) in E. discriminate.
  - specialize (US u2 b1). destruct (uint_contains u2 b1) as [[]|].
    + split; [exact I|]. intro x. change (x = b1 <-> x = b1 /\ in_bs (BU u2) x). split; [intros ->; auto|tauto].
    + intros x [H1 H2]. change (x = b1) in H1. subst x. contradiction.
    + intros x [H1 H2]. change (x = b1) in H1. subst x. contradiction.
  - specialize (US u1 b2). destruct (uint_contains u1 b2) as [[]|].
    + split; [exact I|]. intro x. change (x = b2 <-> in_bs (BU u1) x /\ x = b2). split; [intros ->; auto|tauto].
    + intros x [H2 H1]. change (x = b2) in H1. subst x. contradiction.
    + intros x [H2 H1]. change (x = b2) in H1. subst x. contradiction.
  - cbn in Ha, Hb. split.
    + cbn. rewrite intersection_length; congruence.
    + intros [|w|].
      * split; [intros [w [n [E _]]]; discriminate|intros [[w [n [E _]]] _]; discriminate].
      * rewrite !in_bs_has, has_intersection by congruence. apply andb_true_iff.
      * split; [intros [w [n [E _]]]; discriminate|intros [[w [n [E _]]] _]; discriminate].
Qed.
Example C59_unify_example :
  bs_unify (BU U_SHORT8) (BU (any_default B16)) = TOk (BU [Some 1; Some 1; None; None]) /\
  bs_unify (BU (at_least B32)) (BSingle (TU B8)) = TErr.
Proof. split; reflexivity. Qed.

(** The same for sets of integer types, where nothing panics. *)
Theorem C59_unify_int : forall a b, is_ok a -> is_ok b ->
  match is_unify a b with
  | TOk r => is_ok r /\ forall x, in_is r x <-> in_is a x /\ in_is b x
  | TErr => forall x, ~ (in_is a x /\ in_is b x)
  | TPanic => False
  end.
Proof.
  intros [p|z] b Ha Hb; cbn [is_unify].
  - destruct (is_contains b p) eqn:E.
    + apply C59_contains_int in E. split; [exact I|]. intro x. cbn [in_is]. split; [intros ->; auto|tauto].
    + intros x [H1 H2]. cbn [in_is] in H1. subst. apply C59_contains_int in H2. congruence.
  - destruct b as [p|z'].
    + destruct (prim_contains z p) eqn:E.
      * rewrite prim_contains_has, <- in_is_has in E. split; [exact I|]. intro x.
        change (x = p <-> in_is (IZ z) x /\ x = p). split; [intros ->; auto|tauto].
      * intros x [H1 H2]. change (x = p) in H2. subst. rewrite in_is_has, <- prim_contains_has in H1. congruence.
    + cbn in Ha, Hb. split; [cbn; rewrite intersection_length; congruence|]. intro x.
      rewrite !in_is_has, has_intersection by congruence. apply andb_true_iff.
Qed.

(** The solution chosen is the one member preferred to all others; there is none
    exactly when no member is. *)
Theorem C59_solution : forall s, length s = 4 -> forall b,
  uint_unique_solution s = Some b <->
  exists w n, b = TU w /\ u_rank s w = Some n /\
    forall w' m, w' <> w -> u_rank s w' = Some m -> n < m.
Proof.
  intros s L b. unfold uint_unique_solution. split.
  - destruct (unique_solution_ix s) as [i|] eqn:E; [|discriminate].
    apply unique_solution_spec in E. destruct E as [n [E H]]. intro B.
    assert (i < 4) as Li.
    { destruct (Nat.lt_ge_cases i 4) as [K|K]; [exact K|]. unfold ranked in E. rewrite nth_overflow in E by lia. discriminate. }
    destruct (width_at i Li) as [w ->]. rewrite width_order in B. injection B as <-.
    exists w, n. rewrite u_rank_eq. repeat split; auto. intros w' m N Ew. rewrite u_rank_eq in Ew.
    apply (H (width_ix w')); [|exact Ew]. intro K. apply N. apply width_ix_inj. exact K.
  - intros [w [n [-> [E H]]]]. rewrite u_rank_eq in E.
    assert (unique_solution_ix s = Some (width_ix w)) as ->; [|apply width_order].
    apply unique_solution_spec. exists n. split; [exact E|]. intros j m N Ej.
    destruct (Nat.lt_ge_cases j 4) as [K|K].
    + destruct (width_at j K) as [w' ->]. apply (H w'); [congruence|rewrite u_rank_eq; exact Ej].
    + unfold ranked in Ej. rewrite nth_overflow in Ej by lia. discriminate.
Qed.
Example C59_solution_example :
  uint_unique_solution U_SHORT8 = Some (TU B8) /\ uint_unique_solution (at_least B16) = None /\
  uint_unique_solution (at_least B64) = Some (TU B64).
Proof. repeat split. Qed.
Theorem C59_solution_int : forall s, length s = 8 -> forall p,
  prim_unique_solution s = Some p <->
  exists n, p_rank s p = Some n /\ forall q m, q <> p -> p_rank s q = Some m -> n < m.
Proof.
  intros s L b. unfold prim_unique_solution. split.
  - destruct (unique_solution_ix s) as [i|] eqn:E; [|discriminate].
    apply unique_solution_spec in E. destruct E as [n [E H]]. intro B.
    assert (i < 8) as Li.
    { destruct (Nat.lt_ge_cases i 8) as [K|K]; [exact K|]. unfold ranked in E. rewrite nth_overflow in E by lia. discriminate. }
    destruct (prim_at i Li) as [w ->]. rewrite prim_order in B. injection B as <-.
    exists n. rewrite p_rank_eq. repeat split; auto. intros w' m N Ew. rewrite p_rank_eq in Ew.
    apply (H (prim_as_index w')); [|exact Ew]. intro K. apply N. apply prim_index_inj. exact K.
  - intros [n [E H]]. rewrite p_rank_eq in E.
    assert (unique_solution_ix s = Some (prim_as_index b)) as ->; [|apply prim_order].
    apply unique_solution_spec. exists n. split; [exact E|]. intros j m N Ej.
    destruct (Nat.lt_ge_cases j 8) as [K|K].
    + destruct (prim_at j K) as [w' ->]. apply (H w'); [congruence|rewrite p_rank_eq; exact Ej].
    + unfold ranked in Ej. rewrite nth_overflow in Ej by lia. discriminate.
Qed.

(** A default admits every width and is what is chosen when nothing else is known, or
    only a set of widths, none preferred to another, that it is among. *)
Theorem C59_default : forall w,
  (forall w', in_bs (BU (any_default w)) (TU w')) /\ uint_unique_solution (any_default w) = Some (TU w) /\
  forall s r, length s = 4 -> (forall w' n, u_rank s w' = Some n -> n = r) -> in_bs (BU s) (TU w) ->
    exists u, bs_unify (BU s) (BU (any_default w)) = TOk (BU u) /\ uint_unique_solution u = Some (TU w).
Proof.
  intros w. split; [intros w'; exists w'; destruct w, w'; eexists; split; reflexivity|]. split; [destruct w; reflexivity|].
  intros s r L H (w0 & n & E & Hn). injection E as <-. destruct s as [|a [|b [|c [|d [|]]]]]; try discriminate L. clear L.
  pose proof (H B8) as H8. pose proof (H B16) as H16. pose proof (H B32) as H32. pose proof (H B64) as H64. clear H. cbn in H8, H16, H32, H64.
  assert (K : forall o : option nat, (forall n, o = Some n -> n = r) -> o = None \/ o = Some r) by (intros [m|] X; [right; now rewrite (X m eq_refl)|now left]).
  eexists. split; [reflexivity|].
  assert (N : normalize [a; b; c; d] = normalize (map (option_map (fun _ => 0)) [a; b; c; d])).
  { destruct (K a H8) as [-> | ->], (K b H16) as [-> | ->], (K c H32) as [-> | ->], (K d H64) as [-> | ->]; unfold normalize, rank_geb, rank_cmp; cbn; rewrite ?Nat.compare_refl; reflexivity. }
  unfold intersection. rewrite N. destruct w, a, b, c, d; try discriminate Hn; vm_compute; reflexivity.
Qed.
(** A set is turned into a definite type exactly when it has one member, and is
    found empty exactly when it has none. *)
Theorem C59_singleton : forall s, length s = 4 -> forall b,
  uint_as_singleton s = Some b <-> (forall x, in_bs (BU s) x <-> x = b) /\ exists w, b = TU w.
Proof.
  intros s L b. unfold uint_as_singleton. split.
  - destruct (as_singleton_ix s) as [i|] eqn:E; [|discriminate]. intro B.
    pose proof (proj1 (as_singleton_spec s i) E) as H.
    assert (i < 4) as Li.
    { destruct (Nat.lt_ge_cases i 4) as [K|K]; [exact K|]. 
      pose proof (proj2 (H i) eq_refl) as C. rewrite has_out in C by lia. discriminate. }
    destruct (width_at i Li) as [w ->]. rewrite width_order in B. injection B as <-. split; [|eauto].
    intros [|w'|].
    + split; [intros [v [n [C _]]]; discriminate|discriminate].
    + rewrite in_bs_has, H. split; [intro K; f_equal; apply width_ix_inj; exact K|congruence].
    + split; [intros [v [n [C _]]]; discriminate|discriminate].
  - intros [H [w ->]].
    assert (as_singleton_ix s = Some (width_ix w)) as ->; [|apply width_order].
    apply as_singleton_spec. intro j. destruct (Nat.lt_ge_cases j 4) as [K|K].
    + destruct (width_at j K) as [w' ->]. rewrite <- in_bs_has, H. split; [congruence|].
      intro E. f_equal. apply width_ix_inj. exact E.
    + rewrite has_out by lia. split; [discriminate|]. intros ->. pose proof (width_ix_lt w). lia.
Qed.
Theorem C59_singleton_int : forall s, length s = 8 -> forall p,
  prim_as_singleton s = Some p <-> (forall x, in_is (IZ s) x <-> x = p).
Proof.
  intros s L b. unfold prim_as_singleton. split.
  - destruct (as_singleton_ix s) as [i|] eqn:E; [|discriminate]. intro B.
    pose proof (proj1 (as_singleton_spec s i) E) as H.
    assert (i < 8) as Li.
    { destruct (Nat.lt_ge_cases i 8) as [K|K]; [exact K|]. 
      pose proof (proj2 (H i) eq_refl) as C. rewrite has_out in C by lia. discriminate. }
    destruct (prim_at i Li) as [w ->]. rewrite prim_order in B. injection B as <-.
    intro x. rewrite in_is_has, H. split; [apply prim_index_inj|congruence].
  - intros H.
    assert (as_singleton_ix s = Some (prim_as_index b)) as ->; [|apply prim_order].
    apply as_singleton_spec. intro j. destruct (Nat.lt_ge_cases j 8) as [K|K].
    + destruct (prim_at j K) as [w' ->]. rewrite <- in_is_has, H. split; [congruence|]. apply prim_index_inj.
    + rewrite has_out by lia. split; [discriminate|]. intros ->. pose proof (prim_index_lt b). lia.
Qed.
Theorem C59_empty : forall s, bs_ok s -> (bs_is_empty s = true <-> forall x, ~ in_bs s x).
Proof.
  intros [b|u] L; cbn [bs_is_empty].
  - split; [discriminate|]. intro H. destruct (H b). reflexivity.
  - rewrite is_empty_spec. split.
    + intros H [|w|] I; try (destruct I as [v [n [C _]]]; discriminate). apply in_bs_has in I. rewrite H in I. discriminate.
    + intros H i. destruct (has u i) eqn:E; [|reflexivity]. exfalso.
      destruct (Nat.lt_ge_cases i 4) as [K|K].
      * destruct (width_at i K) as [w ->]. apply (H (TU w)). apply in_bs_has. exact E.
      * rewrite has_out in E by (cbn in L; lia). discriminate.
Qed.
Theorem C59_empty_int : forall s, is_ok s -> (is_is_empty s = true <-> forall x, ~ in_is s x).
Proof.
  intros [b|u] L; cbn [is_is_empty].
  - split; [discriminate|]. intro H. destruct (H b). reflexivity.
  - rewrite is_empty_spec. split.
    + intros H x I. apply in_is_has in I. rewrite H in I. discriminate.
    + intros H i. destruct (has u i) eqn:E; [|reflexivity]. exfalso.
      destruct (Nat.lt_ge_cases i 8) as [K|K].
      * destruct (prim_at i K) as [w ->]. apply (H w). apply in_is_has. exact E.
      * rewrite has_out in E by (cbn in L; lia). discriminate.
Qed.

(** Unification takes its arguments in either order. *)
Theorem C59_commutes : forall a b, bs_ok a -> bs_ok b -> bs_unify a b = bs_unify b a.
Proof.
  intros [b1|u1] [b2|u2] Ha Hb; cbn [bs_unify]; auto.
  - destruct (basetype_eqb b1 b2) eqn:E.
    + apply basetype_eqb_eq in E. subst. rewrite (proj2 (basetype_eqb_eq b2 b2) eq_refl). reflexivity.
    + destruct (basetype_eqb b2 b1) eqn:E2; [|reflexivity]. apply basetype_eqb_eq in E2. subst.
      rewrite (proj2 (basetype_eqb_eq b1 b1) eq_refl) in E. discriminate.
  - cbn in Ha, Hb. rewrite intersection_comm by congruence. reflexivity.
Qed.
Theorem C59_commutes_int : forall a b, is_ok a -> is_ok b -> is_unify a b = is_unify b a.
Proof.
  intros [p|z] [q|z'] Ha Hb; cbn [is_unify is_contains]; auto.
  - unfold prim_eqb. destruct (mrep_eqb q p) eqn:E.
    + apply mrep_eqb_eq in E. subst. rewrite (proj2 (mrep_eqb_eq p p) eq_refl). reflexivity.
    + destruct (mrep_eqb p q) eqn:E2; [|reflexivity]. apply mrep_eqb_eq in E2. subst.
      rewrite (proj2 (mrep_eqb_eq q q) eq_refl) in E. discriminate.
  - cbn in Ha, Hb. rewrite intersection_comm by congruence. reflexivity.
Qed.

(** Normalising changes neither the members nor which of two is preferred, and
    doing it twice changes nothing more. *)
Theorem C59_normalize : forall s, length s = 4 ->
  normalize (normalize s) = normalize s /\
  forall v w, match u_rank s v, u_rank s w with
    | Some n, Some m => exists n' m', u_rank (normalize s) v = Some n' /\
        u_rank (normalize s) w = Some m' /\ (n' < m' <-> n < m)
    | None, _ => u_rank (normalize s) v = None
    | _, None => u_rank (normalize s) w = None
    end.
Proof.
  intros s L. split; [apply normalize_idem|]. intros v w. rewrite !u_rank_eq.
  destruct (ranked s (width_ix v)) as [n|] eqn:E1.
  - destruct (ranked s (width_ix w)) as [m|] eqn:E2.
    + apply normalize_order; assumption.
    + rewrite ranked_normalize, E2. reflexivity.
  - rewrite ranked_normalize, E1. reflexivity.
Qed.
Example C59_normalize_example : normalize [Some 7; None; Some 2; Some 7] = [Some 2; None; Some 0; Some 2].
Proof. reflexivity. Qed.

(** The candidates for a constant or a range are exactly the integer types that
    hold all its values. *)
Lemma set_nth_rank : forall (s : rset) i j, length s = 8 -> i < 8 ->
  ranked (set_nth i None s) j = if Nat.eqb i j then None else ranked s j.
Proof.
  intros s i j _ _. unfold ranked. revert i j. induction s as [|r s IH]; intros [|i] [|j]; cbn; auto.
  destruct (i =? j); reflexivity.
Qed.
Lemma set_nth_length : forall {A} (s : list A) i x, length (set_nth i x s) = length s.
Proof. intros A. induction s as [|r s IH]; intros [|i] x; cbn; auto. Qed.
Lemma bounds_hold : forall p lo hi, (lo <= hi)%Z ->
  exists b, zb_is_encompassed_by (ZB lo hi) (as_bounds p) = Val b /\
            (b = true <-> forall z, (lo <= z <= hi)%Z -> holds p z).
Proof.
  intros p lo hi L. unfold zb_is_encompassed_by, holds.
  assert (zmin (as_bounds p) <= zmax (as_bounds p))%Z as W by (destruct p as [[] []]; cbn; lia).
  apply Z.leb_le in W. rewrite W. eexists; split; [reflexivity|]. cbn [zmin zmax].
  assert (forall a b, ((a <=? lo) && (hi <=? b - 1) = true)%Z <-> (forall z, lo <= z <= hi -> a <= z < b)%Z) as G.
  { intros a b. rewrite andb_true_iff, !Z.leb_le. split; [lia|]. intro H.
    pose proof (H lo ltac:(lia)). pose proof (H hi ltac:(lia)). lia. }
  destruct p as [[] w]; cbn [is_signed bit_width].
  - specialize (G (- 2 ^ (bw_bits w - 1)) (2 ^ (bw_bits w - 1)))%Z. destruct w; exact G.
  - specialize (G 0 (2 ^ bw_bits w))%Z. destruct w; exact G.
Qed.
Theorem C59_from_bounds : forall lo hi, (lo <= hi)%Z ->
  exists s, from_bounds (ZB lo hi) = Val s /\ is_ok s /\
    forall p, in_is s p <-> forall z, (lo <= z <= hi)%Z -> holds p z.
Proof.
  intros lo hi L. unfold from_bounds.
  assert (G : forall ps acc, NoDup ps -> length acc = 8 ->
    exists s, ofoldM (fun s p => omap (fun inside : bool => if inside then s else prim_remove s p)
                        (zb_is_encompassed_by (ZB lo hi) (as_bounds p))) acc ps = Val s /\ length s = 8 /\
      forall q, has s (prim_as_index q) = true <->
        has acc (prim_as_index q) = true /\ (In q ps -> forall z, (lo <= z <= hi)%Z -> holds q z)).
  { induction ps as [|p ps IH]; intros acc ND La; cbn [ofoldM].
    - exists acc. repeat split; auto; [intros []|intros [H _]; exact H].
    - inversion ND as [|? ? N1 N2]; subst.
      destruct (bounds_hold p lo hi L) as [b [-> Hb]]. cbn [omap obind].
      destruct (IH (if b then acc else prim_remove acc p) N2) as [s [E [Ls Hs]]].
      { destruct b; [exact La|]. unfold prim_remove. rewrite set_nth_length. exact La. }
      exists s. split; [exact E|]. split; [exact Ls|]. intro q. rewrite Hs. cbn [In].
      destruct b.
      + split.
        * intros [H1 H2]. split; [exact H1|]. intros [<-|I]; [apply Hb; reflexivity|auto].
        * intros [H1 H2]. split; auto.
      + unfold prim_remove, has at 1. rewrite set_nth_rank by (auto using prim_index_lt).
        destruct (Nat.eqb_spec (prim_as_index p) (prim_as_index q)) as [K|K].
        * apply prim_index_inj in K. subst q. cbn. split; [intros [C _]; discriminate|].
          intros [_ H]. assert (false = true) as C; [|discriminate C]. apply Hb. apply H. left. reflexivity.
        * fold (has acc (prim_as_index q)). split.
          -- intros [H1 H2]. split; [exact H1|]. intros [->|I]; [congruence|auto].
          -- intros [H1 H2]. split; auto. }
  destruct (G prim_ints P_ANY) as [s [E [Ls Hs]]].
  { repeat constructor; cbn; intuition discriminate. }
  { reflexivity. }
  rewrite E. cbn [obind].
  assert (ALL : forall q, In q prim_ints) by (intros [[] []]; cbn; tauto).
  assert (HN : forall q, has (normalize s) (prim_as_index q) = true <-> forall z, (lo <= z <= hi)%Z -> holds q z).
  { intro q. rewrite has_normalize, Hs. split; [intros [_ H]; auto|]. intro H. split; auto.
    destruct q as [[] []]; reflexivity. }
  destruct (prim_as_singleton (normalize s)) as [p|] eqn:S; eexists; (split; [reflexivity|]).
  - split; [exact I|]. intro q. rewrite <- HN, <- in_is_has.
    symmetry. apply (C59_singleton_int (normalize s)); [rewrite normalize_length; exact Ls|exact S].
  - split; [cbn; rewrite normalize_length; exact Ls|]. intro q. rewrite in_is_has. apply HN.
Qed.
Example C59_from_bounds_example :
  from_bounds (ZB (-1) 200) = Val (IZ [None; None; None; None; None; Some 2; Some 2; Some 2]) /\
  from_bounds (ZB 0 (2 ^ 64 - 1)) = Val (ISingle rU64).
Proof. split; vm_compute; reflexivity. Qed.

(** The candidates for an integer pattern with a greatest value are the unsigned
    types that hold it. *)
Theorem C59_pattern_width : forall b m, bmax b = Some m -> (m < 2 ^ 64)%N -> forall w,
  (exists n, u_rank (at_least (min_required_width b)) w = Some n) <-> holds (MR false w) (Z.of_N m).
Proof.
  intros b m E Hm w. unfold min_required_width, holds. rewrite E. cbn [is_signed bit_width].
  assert (H64 : (m < 18446744073709551616)%N) by exact Hm. clear Hm.
  destruct (N.leb_spec m 255); [|destruct (N.leb_spec m 65535); [|destruct (N.leb_spec m 4294967295)]];
    destruct w; cbn; split; intro H9; try (destruct H9; discriminate); try (eexists; reflexivity); try lia.
Qed.
Example C59_pattern_width_example :
  uint_unique_solution (at_least (min_required_width (Bnd 0 (Some 4294967296%N)))) = Some (TU B64).
Proof. reflexivity. Qed.

(** Converting between the two kinds of sets keeps exactly the types both can
    name. *)
Theorem C59_to_int : forall s, bs_ok s ->
  match is_of_bs s with
  | TOk r => is_ok r /\ forall p, in_is r p <-> (is_signed p = false /\ in_bs s (TU (bit_width p)))
  | TErr => forall w, ~ in_bs s (TU w)
  | TPanic => False
  end.
Proof.
  intros [b|u] L; cbn [is_of_bs].
  - destruct b as [|w|]; cbn [prim_of_base].
    + cbn. intros w C. discriminate.
    + split; [exact I|]. cbn. intros [sg w']. cbn. split.
      * injection 1 as -> ->. auto.
      * intros [-> E]. congruence.
    + cbn. intros w C. discriminate.
  - cbn in L. do 4 (destruct u as [|? u]; [discriminate|]). destruct u; [|discriminate].
    split; [reflexivity|]. intros [[] w]; rewrite in_is_has.
    + cbn [is_signed bit_width]. split; [|intros [C _]; discriminate]. destruct w; discriminate.
    + cbn [is_signed bit_width]. rewrite in_bs_has. destruct w; cbn; tauto.
Qed.
Theorem C59_to_base : forall s, is_ok s ->
  match bs_of_is s with
  | TOk r => bs_ok r /\ forall b, in_bs r b <-> exists w, b = TU w /\ in_is s (MR false w)
  | TErr => forall w, ~ in_is s (MR false w)
  | TPanic => False
  end.
Proof.
  intros [p|z] L; cbn [bs_of_is].
  - destruct p as [[] w]; cbn.
    + intros w' C. discriminate.
    + split; [exact I|]. intro b. split; [intros ->; eauto|]. intros [w' [-> E]]. congruence.
  - cbn in L. do 8 (destruct z as [|? z]; [discriminate|]). destruct z; [|discriminate].
    unfold to_uint_set. cbn [firstn]. split; [reflexivity|].
    assert (forall w, has (normalize [r; r0; r1; r2]) (width_ix w) = has [r; r0; r1; r2; r3; r4; r5; r6] (prim_as_index (MR false w))) as K
      by (intro w; rewrite has_normalize; destruct w; reflexivity).
    intros [|w|].
    + split; [intros [w [n [C _]]]; discriminate|intros [w [C _]]; discriminate].
    + rewrite in_bs_has, K, <- in_is_has. split; [eauto|]. intros [w' [E H]]. injection E as <-. exact H.
    + split; [intros [w [n [C _]]]; discriminate|intros [w [C _]]; discriminate].
Qed.

(** The preferences depend on the order in which constraints arrive: of three
    constraints that inference itself imposes (16-bit default, twice a 64-bit
    default), one order yields a solution and another none. *)
Theorem C59_order_refuted :
  exists l l' : list rset, Permutation l l' /\ (forall s, In s l -> s = any_default B16 \/ s = any_default B64) /\
    uint_unique_solution (fold_left intersection l U_ANY) = Some (TU B64) /\
    uint_unique_solution (fold_left intersection l' U_ANY) = None.
Proof.
  exists [any_default B16; any_default B64; any_default B64], [any_default B64; any_default B64; any_default B16].
  split.
  - eapply perm_trans; [apply perm_swap|]. apply perm_skip. apply perm_swap.
  - split; [|split; reflexivity]. intros s [<-|[<-|[<-|[]]]]; auto.
Qed.
(** Unifying a set of unsigned types with a type that is no integer panics rather
    than failing. *)
Theorem C59_unify_panics_refuted :
  exists a b, bs_ok a /\ bs_ok b /\ bs_unify a b = TPanic.
Proof. exists (BU U_ANY), (BSingle TBool). repeat split. Qed.
(** Two disjoint sets unify to the empty set rather than failing. *)
Theorem C59_unify_empty_refuted :
  exists a b r, bs_ok a /\ bs_ok b /\ bs_unify a b = TOk r /\ forall x, ~ in_bs r x.
Proof.
  exists (BU U_SHORT8), (BU (at_least B64)), (BU U_EMPTY). repeat split. intros x [w [n [_ H]]].
  destruct w; discriminate.
Qed.

Print Assumptions C59_contains.
Print Assumptions C59_unify.
Print Assumptions C59_unify_int.
Print Assumptions C59_solution.
Print Assumptions C59_solution_int.
Print Assumptions C59_default.
Print Assumptions C59_singleton.
Print Assumptions C59_from_bounds.
Print Assumptions C59_order_refuted.
Print Assumptions C59_contains_int.
Print Assumptions C59_singleton_int.
Print Assumptions C59_empty.
Print Assumptions C59_empty_int.
Print Assumptions C59_commutes.
Print Assumptions C59_commutes_int.
Print Assumptions C59_normalize.
Print Assumptions C59_pattern_width.
Print Assumptions C59_to_int.
Print Assumptions C59_to_base.
Print Assumptions C59_unify_panics_refuted.
Print Assumptions C59_unify_empty_refuted.
