(** Assignments built from a state: what is not fixed by the constraints is chosen,
    the rest is computed. *)
From Coq Require Import Permutation.
From Verif Require Import Base BoundsModel NumericModel ValueModel BaseSetModel BaseSetSpec BaseSetProofs BaseSetProps UnifyModel UnifySpec UnifyAlias UnifyBase UnifyProofs UnifyComplete UnifyRequests ReifyModel ReifySpec ReifyProofs.
Open Scope nat_scope.

(** ** Types with their variables replaced *)
Fixpoint inst (f : nat -> gtype) (t : utype) : gtype :=
  match t with
  | UHole | UEmpty | UView => GView
  | UVar v => f v
  | UBase b => ground_base b
  | UInt p => GInt p
  | UTuple ts => GTuple (map (inst f) ts)
  | URecord fs => GRecord (map (fun p : label * utype => let (l, t0) := p in (l, inst f t0)) fs)
  | USeq t0 _ => GSeq (inst f t0)
  | UOption t0 => GOption (inst f t0)
  | UPhantom t0 => GPhantom (inst f t0)
  end.
Definition inst_f (f : nat -> gtype) (p : label * utype) : label * gtype := (fst p, inst f (snd p)).
Lemma inst_record f fs : inst f (URecord fs) = GRecord (map (inst_f f) fs).
Proof. cbn. f_equal. apply map_ext. intros [l t]. reflexivity. Qed.
Lemma inst_fits n t f : proper n t -> fits f t (inst f t).
Proof.
  induction t using utype_ind2; intro P; try (destruct P; fail); try reflexivity.
  - apply fits_tuple. exists (map (inst f) ts). split; [reflexivity|]. apply proper_tuple in P.
    induction ts as [|t ts IH]; cbn; constructor; inversion P; inversion H; subst; auto.
  - apply fits_record. rewrite inst_record. eexists. split; [reflexivity|]. apply proper_record in P. destruct P as [_ P].
    induction fs as [|t ts IH]; cbn [map]; constructor; inversion P; inversion H; subst; auto. split; cbn; auto.
  - cbn. eauto.
  - cbn. eauto.
  - cbn. eauto.
Qed.
Lemma fits_inst n t f g : proper n t -> fits f t g -> g = inst f t.
Proof. intros P F. eapply fits_fun; [exact P|exact F|apply (inst_fits _ _ _ P)]. Qed.
Lemma inst_ext s n t : forall f f' g, proper n t -> fits s t g ->
  (forall w, w < n -> (if is_var t then size (s w) <= size g else size (s w) < size g) -> f w = f' w) -> inst f t = inst f' t.
Proof.
  assert (WK : forall f f' t g0 g, size g0 < size g -> (forall w, w < n -> size (s w) < size g -> f w = f' w) -> forall w : nat, w < n -> (if is_var t then size (s w) <= size g0 else size (s w) < size g0) -> f w = f' w :> gtype).
  { intros f f' t0 g0 g L H w Lw K. apply H; auto. destruct (is_var t0); lia. }
  induction t using utype_ind2; intros f f' g P F K; try (destruct P; fail); try reflexivity.
  - cbn in P, F, K |- *. apply K; auto. rewrite F. lia.
  - cbn [is_var] in K. cbn [inst]. f_equal. apply map_ext_in. intros t I. destruct (fits_sub_tuple _ _ _ _ F I) as [g0 [F0 L0]].
    apply proper_tuple in P. rewrite Forall_forall in P, H. exact (H t I f f' g0 (P _ I) F0 (WK _ _ _ _ _ L0 K)).
  - cbn [is_var] in K. rewrite !inst_record. f_equal. apply map_ext_in. intros t I. destruct (fits_sub_record _ _ _ _ F I) as [g0 [F0 L0]].
    apply proper_record in P. destruct P as [_ P]. rewrite Forall_forall in P, H. unfold inst_f. f_equal.
    exact (H t I f f' g0 (P _ I) F0 (WK _ _ _ _ _ L0 K)).
  - cbn in P, F, K |- *. destruct F as [g0 [-> F]]. f_equal. apply (IHt f f' g0); auto. apply (WK _ _ _ _ (GSeq g0)); auto.
  - cbn in P, F, K |- *. destruct F as [g0 [-> F]]. f_equal. apply (IHt f f' g0); auto. apply (WK _ _ _ _ (GSeq g0)); auto.
  - cbn in P, F, K |- *. destruct F as [g0 [-> F]]. f_equal. apply (IHt f f' g0); auto. apply (WK _ _ _ _ (GSeq g0)); auto.
Qed.

(** ** Components replaced *)
Definition put_t (m : list (N * nat)) (f : nat -> gtype) (gs : list gtype) : list gtype :=
  map (fun p => match mget (N.of_nat (fst p)) m with Some w => f w | None => snd p end) (combine (seq 0 (length gs)) gs).
Definition put_r (m : list (N * nat)) (f : nat -> gtype) (fs : list (label * gtype)) : list (label * gtype) :=
  map (fun p => (fst p, match mget (fst p) m with Some w => f w | None => snd p end)) fs.
Lemma put_t_nth m f gs k w : mget k m = Some w -> N.to_nat k < length gs -> nth_error (put_t m f gs) (N.to_nat k) = Some (f w).
Proof.
  intros E L. unfold put_t. rewrite nth_error_map.
  assert (H : forall (l : list gtype) a i, i < length l -> exists g, nth_error (combine (seq a (length l)) l) i = Some (a + i, g)).
  { induction l as [|x l IH]; cbn; intros a i Li; [lia|]. destruct i as [|i]; cbn; [exists x; rewrite Nat.add_0_r; reflexivity|].
    destruct (IH (S a) i) as [g Eg]; [lia|]. exists g. rewrite Eg, Nat.add_succ_r. reflexivity. }
  destruct (H gs 0 _ L) as [g ->]. cbn. rewrite N2Nat.id, E. reflexivity.
Qed.
Lemma put_r_get m f fs k w g : mget k m = Some w -> mget k fs = Some g -> mget k (put_r m f fs) = Some (f w).
Proof.
  intros E. unfold put_r. induction fs as [|[k' a] fs IH]; cbn; [discriminate|]. destruct (N.eqb_spec k k') as [<-|]; [rewrite E; auto|auto].
Qed.
Lemma put_t_ext m f f' gs : (forall k w, mget k m = Some w -> f w = f' w) -> put_t m f gs = put_t m f' gs.
Proof. intro H. apply map_ext. intros [i g]. cbn. destruct (mget (N.of_nat i) m) eqn:E; eauto. Qed.
Lemma put_r_ext m f f' fs : (forall k w, mget k m = Some w -> f w = f' w) -> put_r m f fs = put_r m f' fs.
Proof. intro H. apply map_ext. intros [i g]. cbn. f_equal. destruct (mget i m) eqn:E; eauto. Qed.

(** ** The assignment built *)
Section Build.
Variable st : state.
Variable leaf : nat -> gtype.
Notation N_ := (length (cons st)).
Definition body (c : nat) (f : nat -> gtype) : gtype :=
  match get_cons st c with
  | Some (Invariant (CEquiv t)) => inst f t
  | Some (Invariant (CProj (PSeq w))) => GSeq (f w)
  | Some (Invariant (CProj (POpt w))) => GOption (f w)
  | Some (Invariant (CProj (PTuple m))) => match leaf c with GTuple gs => GTuple (put_t m f gs) | g => g end
  | Some (Invariant (CProj (PRecord m))) => match leaf c with GRecord fs => GRecord (put_r m f fs) | g => g end
  | Some (Variant id) =>
    match vget id (vms st) with Some vm => GUnion (map (inst_f f) vm) | None => leaf c end
  | _ => leaf c
  end.
Fixpoint build (n : nat) (v : nat) : gtype :=
  match n with
  | O => GView
  | S n' => match canonical st v with None => leaf v | Some c => body c (build n') end
  end.

Variable s0 : assignment.
Hypothesis W : wf st.
Hypothesis SAT : sat [] s0 st.

Lemma body_ext c f f' : canonical st c = Some c -> (forall w, w < N_ -> size (s0 w) < size (s0 c) -> f w = f' w) -> body c f = body c f'.
Proof.
  intros CC K. unfold body. destruct (get_cons st c) as [[|id|k]|] eqn:G; auto.
  - destruct (vget id (vms st)) as [vm|] eqn:E; auto. pose proof (proj2 SAT _ _ CC (fun x => x) G) as [vm' [E' [bs [EB HV]]]].
    rewrite E in E'. injection E' as <-. f_equal. apply map_ext_in. intros [l t] I. destruct (HV _ _ I) as [g0 [Eg F0]].
    apply mget_in in Eg. apply size_union in Eg. rewrite <- EB in Eg. cbn [snd] in Eg. unfold inst_f. cbn [fst snd]. f_equal.
    apply (inst_ext s0 N_ t f f' g0); auto; [exact (w_vm _ W _ _ _ _ E I)|]. intros w Lw L. apply K; auto. destruct (is_var t); lia.
  - pose proof (proj2 SAT _ _ CC (fun x => x) G) as O. pose proof (w_con _ W _ _ G) as PC. cbn in O.
    destruct k as [t|bs|[m|m|w|w]|is]; auto.
    + destruct PC as [PT V]. apply (inst_ext s0 N_ t f f' (s0 c)); auto. rewrite V. auto.
    + destruct (leaf c); auto. f_equal. apply put_t_ext. intros k w E. apply K; [exact (proj1 PC _ _ E)|]. apply (shape_sub s0 (PTuple m)); eauto.
    + destruct (leaf c); auto. f_equal. apply put_r_ext. intros k w E. apply K; [exact (proj1 PC _ _ E)|]. apply (shape_sub s0 (PRecord m)); eauto.
    + f_equal. apply K; [exact PC|]. apply (shape_sub s0 (PSeq w)); eauto.
    + f_equal. apply K; [exact PC|]. apply (shape_sub s0 (POpt w)); eauto.
Qed.
Lemma build_stable n : forall n' v, v < N_ -> size (s0 v) < n -> size (s0 v) < n' -> build n v = build n' v.
Proof.
  induction n as [|n IH]; intros n' v LV L L'; [lia|]. destruct n' as [|n']; [lia|]. cbn [build].
  destruct (wf_canon _ _ W LV) as [c [C [CC LC]]]. rewrite C. apply body_ext; auto.
  intros w Lw Lt. pose proof (proj1 SAT _ _ C) as E. apply IH; auto; rewrite E in *; lia.
Qed.
Definition asg (v : nat) : gtype := build (S (size (s0 v))) v.
Lemma asg_eq v c : canonical st v = Some c -> asg v = body c asg.
Proof.
  intro C. unfold asg at 1. cbn [build]. rewrite C. pose proof (canon_idem _ _ _ (w_awf _ W) C) as CC.
  apply body_ext; auto. intros w Lw Lt. pose proof (proj1 SAT _ _ C) as E. apply build_stable; auto. rewrite E. lia.
Qed.

(** What is asked of the choices. *)
Definition leaf_ok : Prop := forall c cs, canonical st c = Some c -> get_cons st c = Some cs ->
  match cs with
  | Invariant (CElem bs) => exists b, in_bs bs b /\ leaf c = ground_base b
  | Invariant (CNum is) => exists p, in_is is p /\ leaf c = GInt p
  | Invariant (CProj (PTuple m)) => exists gs, leaf c = GTuple gs /\ forall k w, mget k m = Some w -> N.to_nat k < length gs
  | Invariant (CProj (PRecord m)) => exists fs, leaf c = GRecord fs /\ forall k w, mget k m = Some w -> exists g, mget k fs = Some g
  | _ => True
  end.
Hypothesis LOK : leaf_ok.
Hypothesis SRT : vm_sorted st.

Lemma asg_sat : sat [] asg st.
Proof.
  split.
  - intros v c C. rewrite (asg_eq v c C). symmetry. apply asg_eq. exact (canon_idem _ _ _ (w_awf _ W) C).
  - intros v cs CC _ G. rewrite (asg_eq v v CC). pose proof (LOK v cs CC G) as L. unfold body. rewrite G.
    destruct cs as [|id|k]; [exact I| |].
    + cbn. destruct (w_ex _ W _ _ CC G) as [vm E]. rewrite E. exists vm. split; [reflexivity|]. exists (map (inst_f asg) vm). split; [reflexivity|].
      intros l t IN. exists (inst asg t). split; [|exact (inst_fits _ _ _ (w_vm _ W _ _ _ _ E IN))].
      pose proof (ksorted_get _ _ (SRT _ _ E) IN) as GE. cbn in GE. clear - GE. induction vm as [|[k u] vm IH]; cbn in *; [discriminate|].
      destruct (l =? k)%N; [congruence|auto].
    + pose proof (w_con _ W _ _ G) as PC. cbn [allowed]. destruct k as [t|bs|[m|m|w|w]|is].
      * cbn [obeys]. exact (inst_fits _ _ _ (proj1 PC)).
      * exact L.
      * destruct L as [gs [-> L]]. cbn [obeys has_shape]. eexists. split; [reflexivity|]. intros k w E. apply put_t_nth; eauto.
      * destruct L as [gs [-> L]]. cbn [obeys has_shape]. eexists. split; [reflexivity|]. intros k w E. destruct (L k w E) as [g Eg]. eapply put_r_get; eauto.
      * reflexivity.
      * reflexivity.
      * exact L.
Qed.
End Build.
