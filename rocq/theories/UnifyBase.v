(** Lemmas on types, assignments and well-formed states of the unification engine. *)
From Coq Require Import Permutation.
From Verif Require Import Base BoundsModel NumericModel ValueModel BaseSetModel BaseSetSpec BaseSetProofs BaseSetProps UnifyModel UnifySpec UnifyAlias.
Open Scope nat_scope.

(** ** Types *)
Section Ind.
Variable P : utype -> Prop.
Hypotheses (He : P UEmpty) (Hh : P UHole) (Hw : P UView) (Hv : forall v, P (UVar v)) (Hb : forall b, P (UBase b))
  (Ht : forall ts, Forall P ts -> P (UTuple ts))
  (Hr : forall fs, Forall (fun f => P (snd f)) fs -> P (URecord fs))
  (Hs : forall t h, P t -> P (USeq t h)) (Ho : forall t, P t -> P (UOption t)) (Hp : forall t, P t -> P (UPhantom t))
  (Hi : forall p, P (UInt p)).
Fixpoint utype_ind2 (t : utype) : P t :=
  match t with
  | UEmpty => He | UHole => Hh | UView => Hw | UVar v => Hv v | UBase b => Hb b
  | UTuple ts => Ht ts ((fix go ts : Forall P ts := match ts with [] => Forall_nil _ | t :: ts' => Forall_cons _ (utype_ind2 t) (go ts') end) ts)
  | URecord fs => Hr fs ((fix go fs : Forall (fun f => P (snd f)) fs :=
                           match fs with [] => Forall_nil _ | f :: fs' => Forall_cons _ (utype_ind2 (snd f)) (go fs') end) fs)
  | USeq t h => Hs t h (utype_ind2 t) | UOption t => Ho t (utype_ind2 t) | UPhantom t => Hp t (utype_ind2 t)
  | UInt p => Hi p
  end.
End Ind.

Definition is_var (t : utype) : bool := match t with UVar _ => true | _ => false end.

Lemma fits_tuple s ts g : fits s (UTuple ts) g <-> exists gs, g = GTuple gs /\ Forall2 (fits s) ts gs.
Proof.
  cbn. split; intros [gs [-> H]]; exists gs; (split; [reflexivity|]).
  - revert gs H; induction ts as [|t ts IH]; intros [|g gs] H; cbn in *; try tauto; [constructor|].
    destruct H. constructor; auto.
  - revert gs H; induction ts as [|t ts IH]; intros [|g gs] H; cbn in *; inversion H; subst; auto.
    split; [assumption|]. apply IH. assumption.
Qed.
Definition fits_f (s : assignment) (f : label * utype) (h : label * gtype) : Prop := fst f = fst h /\ fits s (snd f) (snd h).
Lemma fits_record s fs g : fits s (URecord fs) g <-> exists gs, g = GRecord gs /\ Forall2 (fits_f s) fs gs.
Proof.
  cbn. split; intros [gs [-> H]]; exists gs; (split; [reflexivity|]).
  - revert gs H; induction fs as [|[l t] fs IH]; intros [|[k g] gs] H; cbn in *; try tauto; [constructor|].
    destruct H as [-> [H1 H2]]. constructor; auto. split; auto.
  - revert gs H; induction fs as [|[l t] fs IH]; intros [|[k g] gs] H; cbn in *; inversion H as [|? ? ? ? [E F] G]; subst; cbn in *; auto.
    split; [assumption|]. split; [assumption|]. apply IH. assumption.
Qed.
Lemma proper_tuple n ts : proper n (UTuple ts) <-> Forall (proper n) ts.
Proof.
  cbn. induction ts as [|t ts IH]; cbn; [split; auto|]. rewrite IH. split; [intros []; auto|]. intro H. inversion H; auto.
Qed.
Lemma proper_record n fs : proper n (URecord fs) <-> NoDup (map fst fs) /\ Forall (fun f => proper n (snd f)) fs.
Proof.
  cbn. apply and_iff_compat_l. induction fs as [|[l t] ts IH]; cbn; [split; auto|]. rewrite IH. split; [intros []; auto|]. intro H. inversion H; auto.
Qed.

(** A type without unknown parts is one type only. *)
Lemma fits_fun s n t : proper n t -> forall g g', fits s t g -> fits s t g' -> g = g'.
Proof.
  induction t using utype_ind2; intros PR g g' F F'.
  - destruct PR. 
  - destruct PR.
  - cbn in *. congruence.
  - cbn in *. congruence.
  - cbn in *. congruence.
  - apply fits_tuple in F. apply fits_tuple in F'. destruct F as [gs [-> F]]. destruct F' as [gs' [-> F']]. f_equal.
    apply proper_tuple in PR. revert gs gs' F F'. induction ts as [|t ts IH]; intros gs gs' F F'; inversion F; inversion F'; subst; auto.
    inversion H; subst. inversion PR; subst. f_equal; auto. 
  - apply fits_record in F. apply fits_record in F'. destruct F as [gs [-> F]]. destruct F' as [gs' [-> F']]. f_equal.
    apply proper_record in PR. destruct PR as [_ PR]. revert gs gs' F F'. induction fs as [|t ts IH]; intros gs gs' F F'; inversion F; inversion F'; subst; auto.
    inversion H; subst. inversion PR; subst. f_equal; auto. destruct H2, H7. destruct y, y0; cbn in *. f_equal; [congruence|auto].
  - cbn in *. destruct F as [a [-> F]]. destruct F' as [b [-> F']]. f_equal. eauto.
  - cbn in *. destruct F as [a [-> F]]. destruct F' as [b [-> F']]. f_equal. eauto.
  - cbn in *. destruct F as [a [-> F]]. destruct F' as [b [-> F']]. f_equal. eauto.
  - cbn in *. congruence.
Qed.

Lemma list_eqb_sound {A} (eqb : A -> A -> bool) l : Forall (fun a => forall b, eqb a b = true -> a = b) l -> forall l', list_eqb eqb l l' = true -> l = l'.
Proof.
  induction 1 as [|a l H HF IH]; intros [|b l']; cbn; try discriminate; auto.
  intro E. apply andb_true_iff in E. destruct E. f_equal; auto.
Qed.
Lemma utype_eqb_sound a : forall b, utype_eqb a b = true -> a = b.
Proof.
  induction a using utype_ind2; intros b' E; destruct b'; cbn in E; try discriminate; auto.
  - apply Nat.eqb_eq in E. congruence.
  - apply basetype_eqb_eq in E. congruence.
  - f_equal. exact (list_eqb_sound _ _ H _ E).
  - f_equal. revert fs0 E. induction H as [|[l t] fs HH HF IH]; intros [|[k u] gs] E; cbn in *; try discriminate; auto.
    apply andb_true_iff in E. destruct E as [E E3]. apply andb_true_iff in E. destruct E as [E1 E2].
    apply N.eqb_eq in E1. f_equal; auto. f_equal; auto.
  - apply andb_true_iff in E. destruct E as [E1 E2]. apply Nat.eqb_eq in E2. f_equal; auto.
  - f_equal. auto.
  - f_equal. auto.
  - apply mrep_eqb_eq in E. congruence.
Qed.
Lemma list_eqb_all {A} (eqb : A -> A -> bool) : (forall a b, eqb a b = true -> a = b) -> forall l l', list_eqb eqb l l' = true -> l = l'.
Proof. intros H l. apply list_eqb_sound. apply Forall_forall. intros; auto. Qed.
Lemma entry_eqb_sound a b : entry_eqb a b = true -> a = b.
Proof. destruct a, b. unfold entry_eqb. cbn. rewrite andb_true_iff, N.eqb_eq, Nat.eqb_eq. intros []. congruence. Qed.
Lemma rank_eqb_sound a b : rank_eqb a b = true -> a = b.
Proof. destruct a, b; cbn; try discriminate; auto. rewrite Nat.eqb_eq. congruence. Qed.
Lemma intset_eqb_sound a b : intset_eqb a b = true -> a = b.
Proof.
  destruct a, b; cbn; try discriminate.
  - rewrite mrep_eqb_eq. congruence.
  - intro E. apply (list_eqb_all _ rank_eqb_sound) in E. congruence.
Qed.
Lemma constr_eqb_sound a b : constr_eqb a b = true -> a = b.
Proof.
  destruct a, b; cbn; try discriminate.
  - intro E. apply utype_eqb_sound in E. congruence.
  - destruct bs, bs0; cbn; try discriminate.
    + rewrite basetype_eqb_eq. congruence.
    + intro E. apply (list_eqb_all _ rank_eqb_sound) in E. congruence.
  - destruct p, p0; cbn; try discriminate; try (rewrite Nat.eqb_eq; congruence); intro E; apply (list_eqb_all _ entry_eqb_sound) in E; congruence.
  - intro E. apply intset_eqb_sound in E. congruence.
Qed.

(** ** Constraints *)
Definition vars_below (n : nat) (m : list (N * nat)) : Prop := forall k v, mget k m = Some v -> v < n.
Fixpoint ksorted {A} (m : list (N * A)) : Prop :=
  match m with [] => True | e :: r => (forall e', In e' r -> (fst e < fst e')%N) /\ ksorted r end.
Lemma ksorted_insert {A} k (a : A) m : ksorted m -> ksorted (minsert k a m).
Proof.
  induction m as [|[k' a'] m IH]; cbn; [tauto|]. intros [H1 H2]. destruct (N.eqb_spec k k') as [->|NE].
  - cbn. auto.
  - destruct (N.ltb_spec k k').
    + cbn. split; [|auto]. intros e [<-|I]; [exact H|]. specialize (H1 _ I). cbn in *. lia.
    + cbn. split; [|auto]. intros e I. apply minsert_in in I. destruct I as [->|I]; [cbn; lia|auto].
Qed.
Lemma ksorted_get {A} (m : list (N * A)) e : ksorted m -> In e m -> mget (fst e) m = Some (snd e).
Proof.
  induction m as [|[k a] m IH]; cbn; [tauto|]. intros [H1 H2] [<-|I]; cbn.
  - rewrite N.eqb_refl. reflexivity.
  - specialize (H1 _ I). cbn in H1. destruct (N.eqb_spec (fst e) k); [lia|auto].
Qed.
Definition proper_c (n : nat) (c : constr) : Prop :=
  match c with
  | CEquiv t => proper n t /\ is_var t = false
  | CElem bs => bs_ok bs
  | CNum is => is_ok is
  | CProj (PTuple m) | CProj (PRecord m) => vars_below n m /\ ksorted m
  | CProj (PSeq v) | CProj (POpt v) => v < n
  end.

Lemma bs_constraint_obeys s bs : bs_ok bs -> forall g, obeys s (bs_constraint bs) g <-> exists b, in_bs bs b /\ g = ground_base b.
Proof.
  intros K g. destruct bs as [b|u]; cbn [bs_constraint].
  - cbn. split; [intros ->; eauto|intros [b' [-> ->]]; reflexivity].
  - destruct (uint_as_singleton u) as [b|] eqn:E; [|reflexivity].
    pose proof (proj1 (C59_singleton u K b) E) as E0. clear E. rename E0 into E. destruct E as [E _]. cbn [obeys fits]. split.
    + intros ->. exists b. split; [apply E|]; reflexivity.
    + intros [b' [I ->]]. apply E in I. congruence.
Qed.
Lemma is_constraint_obeys s is : is_ok is -> forall g, obeys s (is_constraint is) g <-> exists p, in_is is p /\ g = GInt p.
Proof.
  intros K g. destruct is as [b|u]; cbn [is_constraint].
  - cbn. split; [intros ->; eauto|intros [b' [-> ->]]; reflexivity].
  - destruct (prim_as_singleton u) as [b|] eqn:E; [|reflexivity].
    pose proof (proj1 (C59_singleton_int u K b) E) as E0. clear E. rename E0 into E. cbn [obeys fits]. split.
    + intros ->. exists b. split; [apply E|]; reflexivity.
    + intros [b' [I ->]]. apply E in I. congruence.
Qed.
Lemma bs_constraint_proper n bs : bs_ok bs -> proper_c n (bs_constraint bs).
Proof. intro K. destruct bs as [b|u]; cbn; auto. destruct (uint_as_singleton u); cbn; auto. Qed.
Lemma is_constraint_proper n is : is_ok is -> proper_c n (is_constraint is).
Proof. intro K. destruct is as [b|u]; cbn; auto. destruct (prim_as_singleton u); cbn; auto. Qed.
Lemma ground_base_inj a b : ground_base a = ground_base b -> a = b.
Proof. destruct a, b; cbn; congruence. Qed.
Lemma ground_base_prim b p : prim_of_base b = Some p <-> ground_base b = GInt p.
Proof. destruct b; cbn; split; congruence. Qed.

(** Constraints on base types alone: what unification of two of them yields. *)
Definition tc_meet (s : assignment) (n : nat) (r : tcres constr) (P Q : gtype -> Prop) : Prop :=
  match r with
  | TOk c => proper_c n c /\ forall g, obeys s c g <-> P g /\ Q g
  | TErr | TPanic => forall g, ~ (P g /\ Q g)
  end.
Lemma meet_elem s n a b : bs_ok a -> bs_ok b ->
  tc_meet s n (tc_map bs_constraint (bs_unify a b)) (obeys s (CElem a)) (obeys s (CElem b)).
Proof.
  intros A B. pose proof (C59_unify a b A B) as H. destruct (bs_unify a b) as [r| |]; cbn [tc_map tc_meet].
  - destruct H as [K H]. split; [now apply bs_constraint_proper|]. intro g. rewrite bs_constraint_obeys by exact K. cbn. split.
    + intros [x [I ->]]. apply H in I. destruct I. split; exists x; auto.
    + intros [[x [I ->]] [y [J E]]]. apply ground_base_inj in E. subst y. exists x. split; [apply H; auto|reflexivity].
  - intros g [[x [I ->]] [y [J E]]]. apply ground_base_inj in E. subst y. exact (H x (conj I J)).
  - intros g [[x [I ->]] [y [J E]]]. apply ground_base_inj in E. subst y. exact (H x (conj I J)).
Qed.
Lemma meet_base_elem s n b bs : bs_ok bs ->
  tc_meet s n (tc_map bs_constraint (bs_unify bs (BSingle b))) (obeys s (CEquiv (UBase b))) (obeys s (CElem bs)).
Proof.
  intro B. pose proof (meet_elem s n bs (BSingle b) B I) as H. destruct (tc_map _ _); cbn [tc_meet] in *.
  - destruct H as [K H]. split; [exact K|]. intro g. rewrite H. cbn. split.
    + intros [H1 [x [-> ->]]]. auto.
    + intros [-> H1]. eauto.
  - intros g [G1 G2]. apply (H g). split; [exact G2|]. cbn in *. eauto.
  - intros g [G1 G2]. apply (H g). split; [exact G2|]. cbn in *. eauto.
Qed.
Lemma meet_int_elem s n p bs : bs_ok bs ->
  tc_meet s n (unify_primint_baseset p bs) (obeys s (CEquiv (UInt p))) (obeys s (CElem bs)).
Proof.
  intro B. unfold unify_primint_baseset. destruct (bs_is_empty bs) eqn:E.
  - cbn. intros g [_ [b [I _]]].
    revert b I. apply (C59_empty bs B). assumption.
  - pose proof (C59_to_int bs B) as H. destruct (is_of_bs bs) as [ps| |]; cbn [tc_meet].
    + destruct H as [K H]. destruct (is_contains ps p) eqn:EC; cbn [tc_meet].
      * apply C59_contains_int in EC. split; [exact I|]. intro g. apply H in EC. cbn. split.
        -- intros [q [-> ->]]. split; [reflexivity|]. exists (TU (bit_width p)). destruct p as [[] w]; cbn in *; intuition congruence.
        -- intros [-> _]. eauto.
      * intros g [G1 [b [G2 G3]]]. cbn in G1. assert (in_is ps p); [|apply C59_contains_int in H0; congruence].
        apply H. subst g. destruct b; cbn in G3; try discriminate. injection G3 as ->. cbn. auto.
    + intros g [G1 [b [G2 G3]]]. cbn in G1. subst g. destruct b; cbn in G3; try discriminate. exact (H _ G2).
    + destruct H.
Qed.
Lemma meet_num s n a b : is_ok a -> is_ok b ->
  tc_meet s n (tc_map CNum (is_unify a b)) (obeys s (CNum a)) (obeys s (CNum b)).
Proof.
  intros A B. pose proof (C59_unify_int a b A B) as H. destruct (is_unify a b) as [r| |]; cbn [tc_map tc_meet].
  - destruct H as [K H]. split; [exact K|]. intro g. cbn. split.
    + intros [x [I ->]]. apply H in I. destruct I. split; exists x; auto.
    + intros [[x [I ->]] [y [J E]]]. injection E as <-. exists x. split; [apply H; auto|reflexivity].
  - intros g [[x [I ->]] [y [J E]]]. injection E as <-. exact (H x (conj I J)).
  - destruct H.
Qed.
Lemma meet_int_num s n p i : is_ok i ->
  tc_meet s n (tc_map is_constraint (is_unify i (ISingle p))) (obeys s (CEquiv (UInt p))) (obeys s (CNum i)).
Proof.
  intro B. pose proof (C59_unify_int i (ISingle p) B I) as H. destruct (is_unify i (ISingle p)) as [r| |]; cbn [tc_map tc_meet].
  - destruct H as [K H]. split; [now apply is_constraint_proper|]. intro g. rewrite is_constraint_obeys by exact K. cbn. split.
    + intros [x [J ->]]. apply H in J. destruct J as [J1 J2]. cbn in J2. subst. eauto.
    + intros [-> [x [J E]]]. injection E as ->. exists x. split; [apply H; cbn; auto|reflexivity].
  - intros g [G1 [x [G2 G3]]]. cbn in G1. subst g. injection G3 as ->. apply (H x). cbn. auto.
  - destruct H.
Qed.
Lemma meet_base_num s n b i : is_ok i ->
  tc_meet s n (unify_basetype_intset b i) (obeys s (CEquiv (UBase b))) (obeys s (CNum i)).
Proof.
  intro B. unfold unify_basetype_intset. destruct (prim_of_base b) as [p|] eqn:E.
  - apply ground_base_prim in E. pose proof (C59_unify_int i (ISingle p) B I) as H. destruct (is_unify i (ISingle p)) as [r| |]; cbn [tc_meet].
    + destruct H as [K H]. destruct (is_is_empty r) eqn:EE; cbn [tc_meet].
      * intros g [G1 [x [G2 G3]]]. cbn in G1. apply (proj1 (C59_empty_int r K) EE p). apply H. cbn. split; [|reflexivity]. congruence.
      * split; [now apply is_constraint_proper|]. intro g. rewrite is_constraint_obeys by exact K. cbn. rewrite E. split.
        -- intros [x [J ->]]. apply H in J. destruct J as [J1 J2]. cbn in J2. subst. eauto.
        -- intros [-> [x [J E']]]. injection E' as ->. exists x. split; [apply H; cbn; auto|reflexivity].
    + intros g [G1 [x [G2 G3]]]. cbn in G1. rewrite E in G1. apply (H x). cbn. split; congruence.
    + destruct H.
  - cbn. intros g [-> [p [_ G]]]. apply ground_base_prim in G. congruence.
Qed.
Lemma meet_elem_num s n b i : bs_ok b -> is_ok i ->
  tc_meet s n (unify_baseset_intset b i) (obeys s (CElem b)) (obeys s (CNum i)).
Proof.
  intros A B. unfold unify_baseset_intset. destruct (bs_is_empty b) eqn:E.
  { cbn. intros g [[x [J _]] _]. exact (proj1 (C59_empty b A) E x J). }
  destruct (is_is_empty i) eqn:E2.
  { cbn. intros g [_ [x [J _]]]. exact (proj1 (C59_empty_int i B) E2 x J). }
  pose proof (C59_to_base i B) as H. destruct (bs_of_is i) as [o| |]; cbn [tc_meet].
  - destruct H as [K H]. pose proof (C59_unify b o A K) as U. destruct (bs_unify b o) as [r| |]; cbn [tc_map tc_meet].
    + destruct U as [KU U]. split; [exact KU|]. intro g. cbn. split.
      * intros [x [J ->]]. apply U in J. destruct J as [J1 J2]. split; [eauto|]. apply H in J2. destruct J2 as [w [-> J2]]. cbn. eauto.
      * intros [[x [J ->]] [p [J2 J3]]]. exists x. split; [|reflexivity]. apply U. split; [exact J|].
        destruct x; cbn in J3; try discriminate. injection J3 as <-. apply H. eauto.
    + intros g [[x [J ->]] [p [J2 J3]]]. apply (U x). split; [exact J|]. destruct x; cbn in J3; try discriminate. injection J3 as <-. apply H. eauto.
    + intros g [[x [J ->]] [p [J2 J3]]]. apply (U x). split; [exact J|]. destruct x; cbn in J3; try discriminate. injection J3 as <-. apply H. eauto.
  - intros g [[x [J ->]] [p [J2 J3]]]. destruct x; cbn in J3; try discriminate. injection J3 as <-. exact (H _ J2).
  - destruct H.
Qed.
Lemma meet_int_base p b : 
  match unify_primint_basetype p b with
  | TOk t => t = UBase b /\ ground_base b = GInt p
  | _ => ground_base b <> GInt p
  end.
Proof.
  unfold unify_primint_basetype. destruct (prim_of_base b) as [q|] eqn:E.
  - unfold prim_eqb. apply ground_base_prim in E. destruct (mrep_eqb p q) eqn:EE.
    + apply mrep_eqb_eq in EE. subst. auto.
    + rewrite E. intro X. injection X as ->. rewrite (proj2 (mrep_eqb_eq p p) eq_refl) in EE. discriminate.
  - intro X. apply ground_base_prim in X. congruence.
Qed.
Lemma tc_meet_sym s n r P Q : tc_meet s n r P Q -> tc_meet s n r Q P.
Proof.
  destruct r; cbn.
  - intros [K H]. split; [exact K|]. intro g. rewrite H. tauto.
  - intros H g G. apply (H g). tauto.
  - intros H g G. apply (H g). tauto.
Qed.

(** ** Well-formed states *)
Record wf (st : state) : Prop := {
  w_len : length (als st) = length (cons st);
  w_awf : awf st;
  w_con : forall i c, get_cons st i = Some (Invariant c) -> proper_c (length (cons st)) c;
  w_vm : forall id vm l t, vget id (vms st) = Some vm -> In (l, t) vm -> proper (length (cons st)) t;
  w_id : forall i id, get_cons st i = Some (Variant id) -> id < next_vm st;
  w_ids : forall id vm, vget id (vms st) = Some vm -> id < next_vm st;
  w_own : forall i j id, get_cons st i = Some (Variant id) -> get_cons st j = Some (Variant id) ->
            canonical st i = canonical st j;
  w_kind : forall i c x, canonical st i = Some c -> get_cons st i = Some x ->
            match x with
            | Indefinite => True
            | Variant _ => exists id, get_cons st c = Some (Variant id)
            | Invariant _ => exists k, get_cons st c = Some (Invariant k)
            end;
  w_ex : forall i id, canonical st i = Some i -> get_cons st i = Some (Variant id) -> exists vm, vget id (vms st) = Some vm }.

Lemma cons_range st i : i < length (cons st) -> exists c, get_cons st i = Some c.
Proof. intro L. unfold get_cons. destruct (nth_error (cons st) i) eqn:E; eauto. apply nth_error_None in E. lia. Qed.
Lemma cons_lt st i c : get_cons st i = Some c -> i < length (cons st).
Proof. unfold get_cons. intro E. apply nth_error_Some. congruence. Qed.
Lemma wf_canon st v : wf st -> v < length (cons st) -> exists c, canonical st v = Some c /\ canonical st c = Some c /\ c < length (cons st).
Proof.
  intros W L. destruct (canon_range st v) as [c E]. { rewrite (w_len _ W). exact L. }
  exists c. split; [exact E|]. assert (canonical st c = Some c) as E2 by exact (canon_idem _ _ _ (w_awf _ W) E).
  split; [exact E2|]. apply canon_lt in E2. rewrite (w_len _ W) in E2. exact E2.
Qed.
Lemma canon_lt_wf st v c : wf st -> canonical st v = Some c -> v < length (cons st).
Proof. intros W E. apply canon_lt in E. rewrite (w_len _ W) in E. exact E. Qed.

Lemma wf_note b st : wf st -> wf (note_again b st).
Proof. intros [A [B1 B2 B3] C D E F G H I]. constructor; try constructor; auto. Qed.

Lemma wf_set_inv st i c can : wf st -> canonical st i = Some can -> proper_c (length (cons st)) c ->
  (exists c0, get_cons st can = Some (Invariant c0)) \/ i = can /\ get_cons st can = Some Indefinite ->
  wf (set_cons i (Invariant c) st).
Proof.
  intros W E P K.
  assert (LEN : length (cons (set_cons i (Invariant c) st)) = length (cons st)) by apply sn_length.
  assert (G : forall j id, get_cons (set_cons i (Invariant c) st) j = Some (Variant id) -> get_cons st j = Some (Variant id) /\ i <> j).
  { intros j id. rewrite cons_set_cons. destruct (Nat.eqb_spec i j); auto. destruct (get_cons st j); discriminate. }
  constructor; rewrite ?LEN.
  - exact (w_len _ W).
  - destruct (w_awf _ W). constructor; auto.
  - intros j d. rewrite cons_set_cons. destruct (i =? j); [|apply (w_con _ W)].
    destruct (get_cons st j); intro Q; [|discriminate]. injection Q as <-. exact P.
  - exact (w_vm _ W).
  - intros j id Q. apply G in Q. exact (w_id _ W _ _ (proj1 Q)).
  - exact (w_ids _ W).
  - intros j k id Q R. apply G in Q. apply G in R. exact (w_own _ W _ _ _ (proj1 Q) (proj1 R)).
  - intros j d x Ec Q. change (canonical st j = Some d) in Ec.
    assert (KD : forall d', canonical st d' = Some d' -> (exists k, get_cons st d' = Some (Invariant k)) -> exists k, get_cons (set_cons i (Invariant c) st) d' = Some (Invariant k)).
    { intros d' _ [k Kk]. rewrite cons_set_cons, Kk. destruct (i =? d'); eauto. }
    rewrite cons_set_cons in Q. destruct (Nat.eqb_spec i j) as [<-|N].
    + destruct (get_cons st i) eqn:Ei; [|discriminate]. injection Q as <-. rewrite E in Ec. injection Ec as <-.
      destruct K as [K|[<- K]]; [apply KD; auto; exact (canon_idem _ _ _ (w_awf _ W) E)|].
      rewrite cons_set_cons, Nat.eqb_refl, K. eauto.
    + pose proof (w_kind _ W _ _ _ Ec Q) as H. destruct x; auto.
      * destruct H as [id' H]. exists id'. rewrite cons_set_cons. destruct (Nat.eqb_spec i d) as [<-|]; auto.
        (* the canonical variable itself is a union *)
        exfalso. assert (canonical st i = Some i) as Ei by exact (canon_idem _ _ _ (w_awf _ W) Ec).
        rewrite Ei in E. injection E as <-. destruct K as [[k K]|[_ K]]; congruence.
      * apply KD; auto. exact (canon_idem _ _ _ (w_awf _ W) Ec).
  - intros j id Ec Q. apply G in Q. exact (w_ex _ W _ _ Ec (proj1 Q)).
Qed.
Lemma wf_set_var st i id can : wf st -> canonical st i = Some can -> get_cons st can = Some (Variant id) ->
  wf (set_cons i (Variant id) st).
Proof.
  intros W E K.
  assert (LEN : length (cons (set_cons i (Variant id) st)) = length (cons st)) by apply sn_length.
  assert (Ecan : canonical st can = Some can) by exact (canon_idem _ _ _ (w_awf _ W) E).
  assert (G : forall j id', get_cons (set_cons i (Variant id) st) j = Some (Variant id') ->
     get_cons st j = Some (Variant id') \/ j = i /\ id' = id).
  { intros j id'. rewrite cons_set_cons. destruct (Nat.eqb_spec i j) as [->|]; auto. destruct (get_cons st j); [|discriminate].
    intro Q. injection Q as <-. auto. }
  constructor; rewrite ?LEN.
  - exact (w_len _ W).
  - destruct (w_awf _ W). constructor; auto.
  - intros j d. rewrite cons_set_cons. destruct (i =? j); [|apply (w_con _ W)]. destruct (get_cons st j); discriminate.
  - exact (w_vm _ W).
  - intros j id' Q. destruct (G _ _ Q) as [R|[-> ->]]; [exact (w_id _ W _ _ R)|exact (w_id _ W _ _ K)].
  - exact (w_ids _ W).
  - intros j k id' Q R. change (canonical st j = canonical st k).
    assert (Z : forall j, get_cons (set_cons i (Variant id) st) j = Some (Variant id') -> exists j', get_cons st j' = Some (Variant id') /\ canonical st j' = canonical st j).
    { intros j0 Q0. destruct (G _ _ Q0) as [X|[-> ->]]; eauto. exists can. split; [exact K|]. congruence. }
    destruct (Z _ Q) as [j' [Q1 Q2]]. destruct (Z _ R) as [k' [R1 R2]]. rewrite <- Q2, <- R2. exact (w_own _ W _ _ _ Q1 R1).
  - intros j d x Ec Q. change (canonical st j = Some d) in Ec.
    assert (KD : (exists k, get_cons st d = Some (Variant k)) -> exists k, get_cons (set_cons i (Variant id) st) d = Some (Variant k)).
    { intros [k Kk]. rewrite cons_set_cons, Kk. destruct (i =? d); eauto. }
    rewrite cons_set_cons in Q. destruct (Nat.eqb_spec i j) as [<-|N].
    + destruct (get_cons st i) eqn:Ei; [|discriminate]. injection Q as <-. rewrite E in Ec. injection Ec as <-. apply KD. eauto.
    + pose proof (w_kind _ W _ _ _ Ec Q) as H. destruct x; auto.
      destruct H as [k H]. exists k. rewrite cons_set_cons. destruct (Nat.eqb_spec i d) as [<-|]; auto.
      exfalso. assert (canonical st i = Some i) as Ei by exact (canon_idem _ _ _ (w_awf _ W) Ec).
      rewrite Ei in E. injection E as <-. congruence.
  - intros j id' Ec Q. change (canonical st j = Some j) in Ec. destruct (G _ _ Q) as [R|[-> ->]].
    + exact (w_ex _ W _ _ Ec R).
    + rewrite E in Ec. injection Ec as ->. exact (w_ex _ W _ _ Ecan K).
Qed.
Lemma wf_set_vms st m : wf st ->
  (forall id vm, vget id m = Some vm -> id < next_vm st /\ forall l t, In (l, t) vm -> proper (length (cons st)) t) ->
  (forall i id, canonical st i = Some i -> get_cons st i = Some (Variant id) -> exists vm, vget id m = Some vm) ->
  wf (set_vms m st).
Proof.
  intros [A B C D E F G H I] M1 M2. constructor; auto.
  - destruct B; constructor; auto.
  - intros id vm l t Q. exact (proj2 (M1 id vm Q) l t).
  - intros id vm Q. exact (proj1 (M1 id vm Q)).
Qed.

(** Merging two classes whose constraints are of the same kind. *)
Lemma wf_merged lo hi st st1 : wf st -> merged lo hi st st1 ->
  (get_cons st hi = Some Indefinite \/ (exists a b, get_cons st lo = Some (Variant a) /\ get_cons st hi = Some (Variant b)) \/
   (exists a b, get_cons st lo = Some (Invariant a) /\ get_cons st hi = Some (Invariant b))) -> wf st1.
Proof.
  intros W M K. pose proof (m_cons _ _ _ _ M) as C.
  assert (GC : forall i, get_cons st1 i = get_cons st i) by (intro i; unfold get_cons; rewrite C; reflexivity).
  assert (CC : forall i d, canonical st1 i = Some d -> exists d0, canonical st i = Some d0 /\ (d0 = hi /\ d = lo \/ d0 <> hi /\ d = d0)).
  { intros i d. rewrite (m_canon _ _ _ _ M). destruct (canonical st i) as [d0|]; [|discriminate].
    destruct (Nat.eqb_spec d0 hi); intro Q; injection Q as <-; eauto. }
  constructor.
  - rewrite (m_len _ _ _ _ M), C. exact (w_len _ W).
  - exact (m_awf _ _ _ _ M).
  - intros i c Q. rewrite C. rewrite GC in Q. exact (w_con _ W _ _ Q).
  - intros id vm l t. rewrite (m_vms _ _ _ _ M), C. exact (w_vm _ W id vm l t).
  - intros i id Q. rewrite (m_next _ _ _ _ M). rewrite GC in Q. exact (w_id _ W _ _ Q).
  - intros id vm. rewrite (m_vms _ _ _ _ M), (m_next _ _ _ _ M). exact (w_ids _ W id vm).
  - intros i j id Q R. rewrite GC in Q, R. rewrite !(m_canon _ _ _ _ M), (w_own _ W _ _ _ Q R). reflexivity.
  - intros i d x Ec Q. rewrite GC in Q. destruct (CC _ _ Ec) as [d0 [Ec0 [[-> ->]|[N ->]]]].
    + pose proof (w_kind _ W _ _ _ Ec0 Q) as H. rewrite GC.
      destruct K as [K|[[a [b [K1 K2]]]|[a [b [K1 K2]]]]]; destruct x; auto; destruct H as [k H]; try congruence; eauto.
    + rewrite GC. exact (w_kind _ W _ _ _ Ec0 Q).
  - intros i id Ec Q. rewrite GC in Q. rewrite (m_vms _ _ _ _ M). destruct (CC _ _ Ec) as [d0 [Ec0 [[-> ->]|[N ->]]]].
    + exact (w_ex _ W _ _ (m_lo _ _ _ _ M) Q).
    + exact (w_ex _ W _ _ Ec0 Q).
Qed.
(** Merging into a class without constraints, which takes over those of the other. *)
Lemma wf_take lo hi st st1 c2 : wf st -> merged lo hi st st1 -> get_cons st lo = Some Indefinite -> get_cons st hi = Some c2 ->
  c2 <> Indefinite -> wf (set_cons lo c2 st1).
Proof.
  intros W M KL KH NI. pose proof (m_cons _ _ _ _ M) as C.
  assert (GC : forall i, get_cons st1 i = get_cons st i) by (intro i; unfold get_cons; rewrite C; reflexivity).
  assert (GS : forall i, get_cons (set_cons lo c2 st1) i = if lo =? i then Some c2 else get_cons st i).
  { intro i. rewrite cons_set_cons, GC. destruct (Nat.eqb_spec lo i) as [<-|]; auto. rewrite KL. reflexivity. }
  assert (LEN : length (cons (set_cons lo c2 st1)) = length (cons st)). { cbn. rewrite sn_length, C. reflexivity. }
  assert (CC : forall i d, canonical st1 i = Some d -> exists d0, canonical st i = Some d0 /\ (d0 = hi /\ d = lo \/ d0 <> hi /\ d = d0)).
  { intros i d. rewrite (m_canon _ _ _ _ M). destruct (canonical st i) as [d0|]; [|discriminate].
    destruct (Nat.eqb_spec d0 hi); intro Q; injection Q as <-; eauto. }
  (* every entry stands, in the old state, for one of an index of the same class *)
  assert (Z : forall i x, get_cons (set_cons lo c2 st1) i = Some x -> exists j, get_cons st j = Some x /\ canonical st1 j = canonical st1 i).
  { intros i x. rewrite GS. destruct (Nat.eqb_spec lo i) as [<-|]; eauto. intro Q. injection Q as <-. exists hi. split; [exact KH|].
    rewrite !(m_canon _ _ _ _ M), (m_hi _ _ _ _ M), (m_lo _ _ _ _ M), Nat.eqb_refl.
    destruct (Nat.eqb_spec lo hi); [|reflexivity]. destruct (m_ne _ _ _ _ M e). }
  constructor; rewrite ?LEN.
  - cbn. rewrite (m_len _ _ _ _ M). exact (w_len _ W).
  - destruct (m_awf _ _ _ _ M). constructor; auto.
  - intros i c Q. destruct (Z _ _ Q) as [j [Q' _]]. exact (w_con _ W _ _ Q').
  - intros id vm l t. cbn. rewrite (m_vms _ _ _ _ M). exact (w_vm _ W id vm l t).
  - intros i id Q. destruct (Z _ _ Q) as [j [Q' _]]. cbn. rewrite (m_next _ _ _ _ M). exact (w_id _ W _ _ Q').
  - intros id vm. cbn. rewrite (m_vms _ _ _ _ M), (m_next _ _ _ _ M). exact (w_ids _ W id vm).
  - intros i j id Q R. destruct (Z _ _ Q) as [i' [Q1 Q2]]. destruct (Z _ _ R) as [j' [R1 R2]].
    change (canonical st1 i = canonical st1 j). rewrite <- Q2, <- R2. rewrite !(m_canon _ _ _ _ M), (w_own _ W _ _ _ Q1 R1). reflexivity.
  - intros i d x Ec Q. change (canonical st1 i = Some d) in Ec. destruct (CC _ _ Ec) as [d0 [Ec0 H]].
    rewrite GS in Q. rewrite GS.
    destruct H as [[-> ->]|[N ->]].
    + rewrite Nat.eqb_refl. destruct (Nat.eqb_spec lo i) as [<-|NL].
      { rewrite (m_lo _ _ _ _ M) in Ec0. injection Ec0 as E0. destruct (m_ne _ _ _ _ M E0). }
      pose proof (w_kind _ W _ _ _ Ec0 Q) as H. rewrite KH in H. exact H.
    + destruct (Nat.eqb_spec lo i) as [<-|NL].
      * injection Q as <-. rewrite (m_lo _ _ _ _ M) in Ec0. injection Ec0 as <-. rewrite Nat.eqb_refl. destruct c2; eauto.
      * pose proof (w_kind _ W _ _ _ Ec0 Q) as H. destruct (Nat.eqb_spec lo d0) as [<-|]; [|exact H].
        rewrite KL in H. destruct x; auto; destruct H; discriminate.
  - intros i id Ec Q. change (canonical st1 i = Some i) in Ec. cbn. rewrite (m_vms _ _ _ _ M). rewrite GS in Q.
    destruct (Nat.eqb_spec lo i) as [<-|NL].
    + injection Q as ->. exact (w_ex _ W _ _ (m_hi _ _ _ _ M) KH).
    + destruct (CC _ _ Ec) as [d0 [Ec0 [[-> ->]|[N ->]]]]; [congruence|]. exact (w_ex _ W _ _ Ec0 Q).
Qed.

(** ** Solutions while some canonical variables are being unified *)
Definition sat (B : list nat) (s : assignment) (st : state) : Prop :=
  (forall v c, canonical st v = Some c -> s v = s c) /\
  (forall v cs, canonical st v = Some v -> ~ In v B -> get_cons st v = Some cs -> allowed s st cs (s v)).
Lemma sat_solves s st : sat [] s st <-> solves s st.
Proof. unfold sat, solves. split; intros [A B]; split; auto. Qed.

Definition frame (B : list nat) (st st' : state) : Prop :=
  forall b i, In b B -> canonical st i = Some b ->
    canonical st' i = Some b /\ get_cons st' i = get_cons st i /\
    forall id, get_cons st i = Some (Variant id) -> vget id (vms st') = vget id (vms st).
Record step (B : list nat) (st st' : state) : Prop := {
  s_len : length (cons st') = length (cons st);
  s_next : next_vm st' = next_vm st;
  s_merge : forall i j, canonical st i = canonical st j -> canonical st' i = canonical st' j;
  s_frame : frame B st st' }.
Lemma step_refl B st : step B st st.
Proof. constructor; auto. intros b i _ E. auto. Qed.
Lemma step_trans B st st1 st2 : step B st st1 -> step B st1 st2 -> step B st st2.
Proof.
  intros [L1 N1 M1 F1] [L2 N2 M2 F2]. constructor; auto; try congruence.
  intros b i I E. destruct (F1 b i I E) as [A1 [A2 A3]]. destruct (F2 b i I A1) as [B1 [B2 B3]].
  split; [exact B1|]. split; [congruence|]. intros id Q. rewrite (B3 id) by congruence. auto.
Qed.
Lemma step_weaken a B st st' : step (a :: B) st st' -> step B st st'.
Proof. intros [L N M F]. constructor; auto. intros b i I. apply F. right. exact I. Qed.
Lemma step_set B st st1 i c ci : step B st st1 -> canonical st i = Some ci -> ~ In ci B -> step B st (set_cons i c st1).
Proof.
  intros [L N M F] E NI. constructor; auto.
  - cbn. rewrite sn_length. exact L.
  - intros b j I Ej. destruct (F b j I Ej) as [A1 [A2 A3]]. split; [exact A1|]. split; [|exact A3].
    rewrite cons_set_cons. destruct (Nat.eqb_spec i j) as [->|]; [|exact A2]. rewrite E in Ej. injection Ej as ->. contradiction.
Qed.
Lemma step_set_vms B st st1 m : step B st st1 ->
  (forall b i id, In b B -> canonical st1 i = Some b -> get_cons st1 i = Some (Variant id) -> vget id m = vget id (vms st1)) ->
  step B st (set_vms m st1).
Proof.
  intros [L N M F] H. constructor; auto.
  intros b j I Ej. destruct (F b j I Ej) as [A1 [A2 A3]]. split; [exact A1|]. split; [exact A2|].
  intros id Q. cbn. rewrite (H b j id) by (auto; congruence). auto.
Qed.
Lemma step_merged B lo hi st st1 : merged lo hi st st1 -> ~ In hi B -> step B st st1.
Proof.
  intros M NI. pose proof (m_cons _ _ _ _ M) as C. constructor.
  - rewrite C. reflexivity.
  - exact (m_next _ _ _ _ M).
  - intros i j E. rewrite !(m_canon _ _ _ _ M), E. reflexivity.
  - intros b i I E. rewrite (m_canon _ _ _ _ M), E. destruct (Nat.eqb_spec b hi) as [->|]; [contradiction|].
    split; [reflexivity|]. unfold get_cons. rewrite C. split; [reflexivity|]. rewrite (m_vms _ _ _ _ M). auto.
Qed.

Lemma sat_incl B B' s st : (forall x, In x B -> In x B') -> sat B s st -> sat B' s st.
Proof. intros H [A C]. split; auto. Qed.
Lemma sat_close x B s st : sat (x :: B) s st ->
  (forall cs, canonical st x = Some x -> get_cons st x = Some cs -> allowed s st cs (s x)) -> sat B s st.
Proof.
  intros [A C] H. split; auto. intros v cs E NI G. destruct (Nat.eq_dec x v) as [<-|N]; auto.
  apply C; auto. intros [->|I]; auto.
Qed.
Lemma allowed_vms s st st' cs g : (forall id, cs = Variant id -> vget id (vms st') = vget id (vms st)) -> allowed s st cs g -> allowed s st' cs g.
Proof. destruct cs as [|id|c]; cbn; auto. intros H. rewrite (H id eq_refl). auto. Qed.
(** A change that the variables not set aside do not see. *)
Lemma sat_change B s st st' :
  (forall v, canonical st v = canonical st' v) ->
  (forall v cs, canonical st v = Some v -> ~ In v B -> get_cons st v = Some cs ->
     get_cons st' v = Some cs /\ forall id, cs = Variant id -> vget id (vms st) = vget id (vms st')) ->
  sat B s st' -> sat B s st.
Proof.
  intros H1 H2 [A C]. split.
  - intros v c E. apply A. rewrite <- H1. exact E.
  - intros v cs E NI G. destruct (H2 v cs E NI G) as [G' V]. apply allowed_vms with (st := st').
    + intros id ->. symmetry. rewrite (V id eq_refl). reflexivity.
    + apply C; auto. rewrite <- H1. exact E.
Qed.
Lemma sat_merged B lo hi s st st1 : merged lo hi st st1 -> sat (lo :: B) s st1 -> sat (hi :: lo :: B) s st /\ s lo = s hi.
Proof.
  intros M [A C].
  assert (E : s lo = s hi). { symmetry. apply A. rewrite (m_canon _ _ _ _ M), (m_hi _ _ _ _ M), Nat.eqb_refl. reflexivity. }
  split; [|exact E]. split.
  - intros v c Ec. pose proof (m_canon _ _ _ _ M v) as K. rewrite Ec in K. destruct (Nat.eqb_spec c hi) as [->|].
    + rewrite <- E. auto.
    + auto.
  - intros v cs Ec NI G. apply allowed_vms with (st := st1).
    + intros id _. rewrite (m_vms _ _ _ _ M). reflexivity.
    + apply C.
      * rewrite (m_canon _ _ _ _ M), Ec. destruct (Nat.eqb_spec v hi) as [->|]; auto. destruct NI. left. reflexivity.
      * intro I. apply NI. right. exact I.
      * unfold get_cons. rewrite (m_cons _ _ _ _ M). exact G.
Qed.
