(** Unification computes the least upper bound. *)
From Coq Require Import Sorted Permutation.
From Verif Require ByteSetModel.
From Verif Require Import Base BoundsModel DataModel NumericModel ValueModel FormatModel TypeModel TypeSpec.
Open Scope nat_scope.

Section Ind.
Context (P : vtype -> Prop).
Context (Hany : P TAny) (Hempty : P TEmpty) (Hview : P TViewObj) (Hph : forall t, P t -> P (TPhantom t))
  (Hbase : forall b, P (TBase b)) (Hhole : P TNumericHole) (Hsig : forall w, P (TSigned w))
  (Htup : forall ts, Forall P ts -> P (TTuple ts)) (Hrec : forall fs, Forall (fun f => P (snd f)) fs -> P (TRecord fs))
  (Hun : forall fs, Forall (fun f => P (snd f)) fs -> P (TUnion fs)) (Hseq : forall t, P t -> P (TSeq t)) (Hopt : forall t, P t -> P (TOption t)).
Fixpoint vtype_ind' (t : vtype) : P t :=
  match t with
  | TAny => Hany | TEmpty => Hempty | TViewObj => Hview | TPhantom t => Hph t (vtype_ind' t)
  | TBase b => Hbase b | TNumericHole => Hhole | TSigned w => Hsig w
  | TTuple ts => Htup ts ((fix go l : Forall P l := match l with [] => Forall_nil _ | x :: r => Forall_cons x (vtype_ind' x) (go r) end) ts)
  | TRecord fs => Hrec fs ((fix go l : Forall (fun f => P (snd f)) l :=
      match l with [] => Forall_nil _ | f :: r => Forall_cons f (match f as f0 return P (snd f0) with (_, x) => vtype_ind' x end) (go r) end) fs)
  | TUnion fs => Hun fs ((fix go l : Forall (fun f => P (snd f)) l :=
      match l with [] => Forall_nil _ | f :: r => Forall_cons f (match f as f0 return P (snd f0) with (_, x) => vtype_ind' x end) (go r) end) fs)
  | TSeq t => Hseq t (vtype_ind' t) | TOption t => Hopt t (vtype_ind' t)
  end.
End Ind.

(** ** The list forms of the definitions *)

Definition fsub (f g : label * vtype) : Prop := fst f = fst g /\ sub (snd f) (snd g).
Definition covered (ys : list (label * vtype)) (f : label * vtype) : Prop := exists y, assoc (fst f) ys = Some y /\ sub (snd f) y.
Lemma sub_tuple xs b : sub (TTuple xs) b <-> exists ys, b = TTuple ys /\ Forall2 sub xs ys.
Proof.
  cbn. split; intros (ys & -> & H); exists ys; split; auto; clear -H.
  - revert ys H. induction xs as [|x xs IH]; intros [|y ys] H; try contradiction; constructor; try apply IH; apply H.
  - induction H; auto.
Qed.
Lemma sub_record xs b : sub (TRecord xs) b <-> exists ys, b = TRecord ys /\ Forall2 fsub xs ys.
Proof.
  cbn. split; intros (ys & -> & H); exists ys; split; auto; clear -H.
  - revert ys H. induction xs as [|[l x] xs IH]; intros [|[m y] ys] H; try contradiction; constructor; try apply IH; apply H.
  - induction H as [|[l x] [m y] xs ys H1 H2 IH]; auto.
Qed.
Lemma sub_union xs b : sub (TUnion xs) b <-> exists ys, b = TUnion ys /\ Forall (covered ys) xs.
Proof.
  cbn. split; intros (ys & -> & H); exists ys; split; auto; clear -H.
  - induction xs as [|[l x] xs IH]; constructor; [apply H|apply IH, H].
  - induction H as [|[l x] xs H1 H2 IH]; auto.
Qed.
Lemma wf_tuple xs : wf_type (TTuple xs) <-> Forall wf_type xs.
Proof.
  cbn. split; intros H.
  - induction xs as [|x xs IH]; constructor; [apply H|apply IH, H].
  - induction H as [|x xs H1 H2 IH]; auto.
Qed.
Lemma wf_record xs : wf_type (TRecord xs) <-> Forall (fun f => wf_type (snd f)) xs.
Proof.
  cbn. split; intros H.
  - induction xs as [|[l x] xs IH]; constructor; [apply H|apply IH, H].
  - induction H as [|[l x] xs H1 H2 IH]; auto.
Qed.
Lemma wf_union xs : wf_type (TUnion xs) <-> StronglySorted N.lt (map fst xs) /\ Forall (fun f => wf_type (snd f)) xs.
Proof. rewrite <- wf_record. reflexivity. Qed.

Fixpoint utuples (xs ys : list vtype) : option (list vtype) :=
  match xs, ys with
  | [], [] => Some []
  | x :: xs', y :: ys' =>
    match unify x y with Some t => option_map (cons t) (utuples xs' ys') | None => None end
  | _, _ => None
  end.
Fixpoint ufields (xs ys : list (label * vtype)) : option (list (label * vtype)) :=
  match xs, ys with
  | [], [] => Some []
  | (l, x) :: xs', (m, y) :: ys' =>
    if N.eqb l m then
      match unify x y with Some t => option_map (cons (l, t)) (ufields xs' ys') | None => None end
    else None
  | _, _ => None
  end.
Fixpoint uunions (xs ys : list (label * vtype)) : option (list (label * vtype)) :=
  match xs with
  | [] => Some ys
  | (l, x) :: xs' =>
    match assoc l ys with
    | Some y => match unify x y with Some t => option_map (tm_insert l t) (uunions xs' ys) | None => None end
    | None => option_map (tm_insert l x) (uunions xs' ys)
    end
  end.
Lemma unify_tuple xs ys : unify (TTuple xs) (TTuple ys) = option_map TTuple (utuples xs ys).
Proof. reflexivity. Qed.
Lemma unify_record xs ys : unify (TRecord xs) (TRecord ys) = option_map TRecord (ufields xs ys).
Proof. reflexivity. Qed.
Lemma unify_union xs ys : unify (TUnion xs) (TUnion ys) = option_map TUnion (uunions xs ys).
Proof. reflexivity. Qed.

(** ** Maps *)

Lemma assoc_in {A} l (m : list (label * A)) x : assoc l m = Some x -> In (l, x) m.
Proof.
  induction m as [|[k y] m IH]; cbn; [discriminate|]. destruct (N.eqb_spec l k) as [->|Hn]; [intros [= ->]; auto|auto].
Qed.
Lemma sorted_assoc {A} (m : list (label * A)) : StronglySorted N.lt (map fst m) -> forall l x, In (l, x) m -> assoc l m = Some x.
Proof.
  induction m as [|[k y] m IH]; cbn; intros HS l x HI; [contradiction|]. apply StronglySorted_inv in HS. destruct HS as [HS HF].
  destruct HI as [[= -> ->]|HI]; [now rewrite N.eqb_refl|].
  destruct (N.eqb_spec l k) as [->|Hn]; [|now apply IH].
  rewrite Forall_forall in HF. specialize (HF k (in_map fst m (k, x) HI)). lia.
Qed.
Lemma assoc_none {A} l (m : list (label * A)) : (forall x, ~ In (l, x) m) -> assoc l m = None.
Proof. intros H. destruct (assoc l m) eqn:E; [|reflexivity]. apply assoc_in in E. now apply H in E. Qed.
Lemma assoc_insert {A} l (x : A) m k : assoc k (tm_insert l x m) = if N.eqb k l then Some x else assoc k m.
Proof.
  induction m as [|[j y] m IH]; cbn; [reflexivity|].
  destruct (N.compare_spec l j) as [->|Hlt|Hgt]; cbn.
  - destruct (N.eqb k j); reflexivity.
  - reflexivity.
  - rewrite IH. destruct (N.eqb_spec k j), (N.eqb_spec k l); try reflexivity. lia.
Qed.
Lemma insert_keys {A} l (x : A) m k : In k (map fst (tm_insert l x m)) <-> k = l \/ In k (map fst m).
Proof.
  induction m as [|[j y] m IH]; cbn; [intuition|].
  destruct (N.compare_spec l j) as [->|Hlt|Hgt]; cbn; try rewrite IH; intuition.
Qed.
Lemma insert_sorted {A} l (x : A) m : StronglySorted N.lt (map fst m) -> StronglySorted N.lt (map fst (tm_insert l x m)).
Proof.
  induction m as [|[j y] m IH]; cbn; intros HS; [repeat constructor|].
  apply StronglySorted_inv in HS. destruct HS as [HS HF].
  destruct (N.compare_spec l j) as [->|Hlt|Hgt]; cbn.
  - now constructor.
  - constructor; [now constructor|]. constructor; [lia|]. eapply Forall_impl; [|exact HF]. cbn. intros; lia.
  - constructor; [now apply IH|]. rewrite Forall_forall in *. intros k Hk. apply insert_keys in Hk. destruct Hk as [->|Hk]; [lia|now apply HF].
Qed.
Lemma insert_in {A} l (x : A) m f : In f (tm_insert l x m) -> f = (l, x) \/ In f m.
Proof.
  induction m as [|[j y] m IH]; cbn; [intuition|].
  destruct (N.compare_spec l j) as [->|Hlt|Hgt]; cbn; intuition.
Qed.
Lemma sorted_ext {A} (m n : list (label * A)) : StronglySorted N.lt (map fst m) -> StronglySorted N.lt (map fst n) ->
  (forall l, assoc l m = assoc l n) -> m = n.
Proof.
  revert n. induction m as [|[k x] m IH]; intros [|[j y] n] Hm Hn H.
  - reflexivity.
  - specialize (H j). cbn in H. rewrite N.eqb_refl in H. discriminate.
  - specialize (H k). cbn in H. rewrite N.eqb_refl in H. discriminate.
  - cbn in Hm, Hn. apply StronglySorted_inv in Hm, Hn. destruct Hm as [Hm Fm], Hn as [Hn Fn]. rewrite Forall_forall in Fm, Fn.
    assert (k = j) as ->.
    { pose proof (H k) as H1. pose proof (H j) as H2. cbn in H1, H2. rewrite N.eqb_refl in H1, H2.
      destruct (N.eqb_spec k j) as [E|E]; [exact E|]. destruct (N.eqb_spec j k) as [E'|E']; [congruence|].
      symmetry in H1. apply assoc_in in H1, H2. apply (in_map fst) in H1, H2. apply Fn in H1. apply Fm in H2. cbn in *. lia. }
    pose proof (H j) as H1. cbn in H1. rewrite N.eqb_refl in H1. injection H1 as ->. f_equal. apply IH; auto.
    intros l. pose proof (H l) as Hl. cbn in Hl. destruct (N.eqb_spec l j) as [E|E]; [subst l|exact Hl].
    rewrite !assoc_none; auto; intros z Hz; apply (in_map fst) in Hz; [apply Fn in Hz|apply Fm in Hz]; cbn in Hz; lia.
Qed.

(** ** The order *)

Lemma sub_refl a : wf_type a -> sub a a.
Proof.
  induction a as [| | |t IH|b| |w|ts IH|fs IH|fs IH|t IH|t IH] using vtype_ind'; intros W; try (cbn; (reflexivity || discriminate || eauto); fail).
  - apply sub_tuple. exists ts. split; auto. apply wf_tuple in W. revert W. induction IH; intros W; constructor; inversion W; subst; auto.
  - apply sub_record. exists fs. split; auto. apply wf_record in W. revert W. induction IH; intros W; constructor; inversion W; subst; auto. split; auto.
  - apply sub_union. exists fs. split; auto. apply wf_union in W. destruct W as [HS W]. rewrite Forall_forall in *.
    intros [l x] HI. exists x. cbn. split; [now apply sorted_assoc|]. apply (IH _ HI), (W _ HI).
Qed.
Lemma sub_any b : sub b TAny -> b = TAny.
Proof. destruct b; cbn; intros H; try reflexivity; try discriminate; try (destruct H as (? & ? & _); discriminate). now contradiction H. Qed.
Lemma sub_numeric a b : is_numeric a = true -> sub a b -> is_numeric b = true.
Proof. destruct a as [| | | |[]| | | | | | |]; cbn; intros H S; try discriminate; now subst. Qed.
Lemma Forall2_sub_trans xs : Forall (fun a => forall b c, sub a b -> sub b c -> sub a c) xs -> forall ys zs, Forall2 sub xs ys -> Forall2 sub ys zs -> Forall2 sub xs zs.
Proof.
  induction 1 as [|x xs H1 H2 IH]; intros ys zs A B; inversion A; subst; inversion B; subst; constructor; eauto.
Qed.
Lemma sub_trans a : forall b c, sub a b -> sub b c -> sub a c.
Proof.
  induction a as [| | |t IH|b0| |w|ts IH|fs IH|fs IH|t IH|t IH] using vtype_ind'; intros b c S1 S2; cbn in S1; subst; auto.
  - cbn in *. intros ->. now apply sub_any in S2.
  - destruct S1 as (y & -> & S1). cbn in S2. destruct S2 as (z & -> & S2). cbn. eauto.
  - cbn. now apply sub_numeric in S2.
  - apply sub_tuple in S1. destruct S1 as (ys & -> & S1). apply sub_tuple in S2. destruct S2 as (zs & -> & S2).
    apply sub_tuple. exists zs. split; auto. eapply Forall2_sub_trans; eauto.
  - apply sub_record in S1. destruct S1 as (ys & -> & S1). apply sub_record in S2. destruct S2 as (zs & -> & S2).
    apply sub_record. exists zs. split; auto. clear -IH S1 S2. revert ys zs S1 S2.
    induction IH as [|x xs H1 H2 IH]; intros ys zs A B; inversion A as [|? ? ? ? C]; subst; inversion B as [|? ? ? ? D]; subst; constructor; eauto.
    destruct C as [C1 C2], D as [D1 D2]. split; [congruence|eauto].
  - apply sub_union in S1. destruct S1 as (ys & -> & S1). apply sub_union in S2. destruct S2 as (zs & -> & S2).
    apply sub_union. exists zs. split; auto. rewrite Forall_forall in *. intros [l x] HI.
    destruct (S1 _ HI) as (y & E & A). apply assoc_in in E. destruct (S2 _ E) as (z & F & B). exists z. split; [exact F|]. exact (IH _ HI y z A B).
  - destruct S1 as (y & -> & S1). cbn in S2. destruct S2 as (z & -> & S2). cbn. eauto.
  - destruct S1 as (y & -> & S1). cbn in S2. destruct S2 as (z & -> & S2). cbn. eauto.
Qed.
Lemma sub_antisym a : forall b, wf_type a -> wf_type b -> sub a b -> sub b a -> a = b.
Proof.
  induction a as [| | |t IH|b0| |w|ts IH|fs IH|fs IH|t IH|t IH] using vtype_ind'; intros b Wa Wb S1 S2.
  - symmetry. now apply sub_any.
  - destruct b; cbn in S1, S2; try reflexivity; try discriminate; try (destruct S2 as (? & ? & _); discriminate). now contradiction S1.
  - cbn in S1. congruence.
  - destruct S1 as (y & -> & S1). cbn in S2. destruct S2 as (z & [= <-] & S2). f_equal. apply IH; auto.
  - cbn in S1. congruence.
  - destruct b as [| | | |[]| | | | | | |]; cbn in S1, S2; try discriminate; reflexivity.
  - cbn in S1. congruence.
  - apply sub_tuple in S1. destruct S1 as (ys & -> & S1). apply sub_tuple in S2. destruct S2 as (zs & [= <-] & S2). f_equal.
    apply wf_tuple in Wa, Wb. clear -IH S1 S2 Wa Wb. revert ys S1 S2 Wa Wb.
    induction IH as [|x xs H1 H2 IH]; intros ys A B Wa Wb; inversion A; subst; [reflexivity|].
    inversion B; inversion Wa; inversion Wb; subst. f_equal; auto.
  - apply sub_record in S1. destruct S1 as (ys & -> & S1). apply sub_record in S2. destruct S2 as (zs & [= <-] & S2). f_equal.
    apply wf_record in Wa, Wb. clear -IH S1 S2 Wa Wb. revert ys S1 S2 Wa Wb.
    induction IH as [|[l x] xs H1 H2 IH]; intros ys A B Wa Wb; inversion A as [|? [m y] ? ? [C1 C2]]; subst; [reflexivity|].
    inversion B as [|? ? ? ? [D1 D2]]; inversion Wa; inversion Wb; subst. cbn in *. subst. f_equal; [f_equal|]; auto.
  - apply sub_union in S1. destruct S1 as (ys & -> & S1). apply sub_union in S2. destruct S2 as (zs & [= <-] & S2). f_equal.
    apply wf_union in Wa, Wb. destruct Wa as [Sa Wa], Wb as [Sb Wb]. apply sorted_ext; auto. rewrite Forall_forall in *. intros l.
    destruct (assoc l fs) as [x|] eqn:E.
    + apply assoc_in in E. destruct (S1 _ E) as (y & F & A). cbn in F, A. rewrite F. apply assoc_in in F. destruct (S2 _ F) as (x' & G & B).
      cbn in G, B. rewrite (sorted_assoc _ Sa _ _ E) in G. injection G as <-. f_equal. exact (IH _ E y (Wa _ E) (Wb _ F) A B).
    + destruct (assoc l ys) as [y|] eqn:F; [|reflexivity]. apply assoc_in in F. destruct (S2 _ F) as (x' & G & B). cbn in G. congruence.
  - destruct S1 as (y & -> & S1). cbn in S2. destruct S2 as (z & [= <-] & S2). f_equal. apply IH; auto.
  - destruct S1 as (y & -> & S1). cbn in S2. destruct S2 as (z & [= <-] & S2). f_equal. apply IH; auto.
Qed.

(** ** Unification *)

Lemma bw_eqb_true a b : bw_eqb a b = true <-> a = b.
Proof. destruct a, b; cbn; split; congruence. Qed.
Lemma basetype_eqb_true a b : basetype_eqb a b = true <-> a = b.
Proof. destruct a, b; cbn; try rewrite bw_eqb_true; split; congruence. Qed.

Lemma uunions_assoc xs : StronglySorted N.lt (map fst xs) -> forall ys zs, uunions xs ys = Some zs -> forall l,
  match assoc l xs, assoc l ys with
  | Some x, Some y => exists z, unify x y = Some z /\ assoc l zs = Some z
  | Some x, None => assoc l zs = Some x
  | None, o => assoc l zs = o
  end.
Proof.
  induction xs as [|[k x] xs IH]; cbn; intros HS ys zs H l; [injection H as ->; reflexivity|].
  apply StronglySorted_inv in HS. destruct HS as [HS HF].
  assert (HN : assoc k xs = None).
  { apply assoc_none. intros y Hy. apply (in_map fst) in Hy. rewrite Forall_forall in HF. apply HF in Hy. cbn in Hy. lia. }
  destruct (assoc k ys) as [y|] eqn:E.
  - destruct (unify x y) as [t|] eqn:U; [|discriminate]. destruct (uunions xs ys) as [ws|] eqn:F; [|discriminate]. injection H as <-.
    specialize (IH HS ys ws F l). rewrite assoc_insert. destruct (N.eqb_spec l k) as [->|Hn]; [|exact IH]. rewrite E. eauto.
  - destruct (uunions xs ys) as [ws|] eqn:F; [|discriminate]. injection H as <-.
    specialize (IH HS ys ws F l). rewrite assoc_insert. destruct (N.eqb_spec l k) as [->|Hn]; [|exact IH]. now rewrite E.
Qed.
Lemma unify_wf a : forall b r, wf_type a -> wf_type b -> unify a b = Some r -> wf_type r.
Proof.
  induction a as [| | |t IH|b0| |w|ts IH|fs IH|fs IH|t IH|t IH] using vtype_ind'; intros b r Wa Wb U;
    (destruct b; cbn [unify] in U;
     try (injection U as <-; assumption); try discriminate;
     try (match type of U with (if ?c then _ else _) = _ => destruct c end; [injection U as <-; exact I || assumption|discriminate]);
     try (match type of U with option_map _ (unify ?x ?y) = _ => destruct (unify x y) as [u|] eqn:E; [injection U as <-; refine (IH _ _ _ _ E); [exact Wa|exact Wb]|discriminate] end)).
  - change (option_map TTuple (utuples ts ts0) = Some r) in U. destruct (utuples ts ts0) as [us|] eqn:E; [|discriminate]. injection U as <-.
    apply wf_tuple in Wa, Wb. apply wf_tuple. clear -IH Wa Wb E. revert ts0 us Wa Wb E.
    induction IH as [|x xs H1 H2 IH]; intros [|y ys] us Wa Wb E; cbn in E; try discriminate; [injection E as <-; constructor|].
    destruct (unify x y) eqn:U; [|discriminate]. destruct (utuples xs ys) eqn:F; [|discriminate]. injection E as <-.
    inversion Wa; inversion Wb; subst. constructor; eauto.
  - change (option_map TRecord (ufields fs fs0) = Some r) in U. destruct (ufields fs fs0) as [us|] eqn:E; [|discriminate]. injection U as <-.
    apply wf_record in Wa, Wb. apply wf_record. clear -IH Wa Wb E. revert fs0 us Wa Wb E.
    induction IH as [|[l x] xs H1 H2 IH]; intros [|[m y] ys] us Wa Wb E; cbn in E; try discriminate; [injection E as <-; constructor|].
    destruct (N.eqb l m); [|discriminate].
    destruct (unify x y) eqn:U; [|discriminate]. destruct (ufields xs ys) eqn:F; [|discriminate]. injection E as <-.
    inversion Wa; inversion Wb; subst. constructor; cbn in *; eauto.
  - change (option_map TUnion (uunions fs bs) = Some r) in U. destruct (uunions fs bs) as [us|] eqn:E; [|discriminate]. injection U as <-.
    apply wf_union in Wa, Wb. apply wf_union. destruct Wa as [_ Wa]. clear -IH Wa Wb E. revert us E.
    induction IH as [|[l x] xs H1 H2 IH]; intros us E; cbn in E; [injection E as <-; exact Wb|].
    inversion Wa as [|? ? W1 W2]; subst. cbn in H1, W1. destruct Wb as [Sb Wb].
    destruct (assoc l bs) as [y|] eqn:A; [destruct (unify x y) as [t|] eqn:U; [|discriminate]|];
      (destruct (uunions xs bs) as [ws|] eqn:F; [|discriminate]; injection E as <-; destruct (IH W2 ws eq_refl) as [S1 S2];
       split; [now apply insert_sorted|]; rewrite Forall_forall in *; intros f Hf; apply insert_in in Hf; destruct Hf as [->|Hf]; [cbn|now apply S2]).
    + apply assoc_in in A. exact (H1 y t W1 (Wb _ A) U).
    + exact W1.
Qed.
Lemma unify_ub a : forall b r, wf_type a -> wf_type b -> unify a b = Some r -> sub a r /\ sub b r.
Proof.
  induction a as [| | |t IH|b0| |w|ts IH|fs IH|fs IH|t IH|t IH] using vtype_ind'; intros b r Wa Wb U.
  - injection U as <-. split; [exact I|now apply sub_refl].
  - destruct b; cbn [unify] in U; injection U as <-; (split; [cbn; congruence|]); try exact I; now apply sub_refl.
  - destruct b; cbn [unify] in U; try discriminate; try (cbn [is_numeric] in U; discriminate); injection U as <-; cbn; intuition discriminate.
  - destruct b; cbn [unify] in U; try discriminate; try (cbn [is_numeric] in U; discriminate).
    + injection U as <-. split; [now apply sub_refl|exact I].
    + injection U as <-. split; [now apply sub_refl|discriminate].
    + destruct (unify t b) as [u|] eqn:E; [|discriminate]. injection U as <-. destruct (IH b u Wa Wb E). cbn. split; eauto.
  - destruct b; cbn [unify] in U; try discriminate; try (cbn [is_numeric] in U; discriminate); try (injection U as <-; cbn; intuition discriminate).
    + destruct (basetype_eqb b0 b) eqn:E; [|discriminate]. injection U as <-. apply basetype_eqb_true in E. subst. cbn; auto.
    + destruct (is_numeric (TBase b0)) eqn:E; [|discriminate]. injection U as <-. cbn; auto.
  - destruct b; cbn [unify] in U; try discriminate; try (cbn [is_numeric] in U; discriminate); try (injection U as <-; cbn; intuition discriminate).
    + destruct (is_numeric (TBase b)) eqn:E; [|discriminate]. injection U as <-. split; [exact E|reflexivity].
  - destruct b; cbn [unify] in U; try discriminate; try (cbn [is_numeric] in U; discriminate); try (injection U as <-; cbn; intuition discriminate).
    destruct (bw_eqb w w0) eqn:E; [|discriminate]. injection U as <-. apply bw_eqb_true in E. subst. cbn; auto.
  - destruct b; cbn [unify] in U; try discriminate; try (cbn [is_numeric] in U; discriminate).
    + injection U as <-. split; [now apply sub_refl|exact I].
    + injection U as <-. split; [now apply sub_refl|discriminate].
    + change (option_map TTuple (utuples ts ts0) = Some r) in U. destruct (utuples ts ts0) as [us|] eqn:E; [|discriminate]. injection U as <-.
      apply wf_tuple in Wa, Wb. rewrite !sub_tuple.
      enough (Forall2 sub ts us /\ Forall2 sub ts0 us) as [A B] by (split; eauto).
      clear -IH Wa Wb E. revert ts0 us Wa Wb E.
      induction IH as [|x xs H1 H2 IH]; intros [|y ys] us Wa Wb E; cbn in E; try discriminate; [injection E as <-; split; constructor|].
      destruct (unify x y) eqn:U; [|discriminate]. destruct (utuples xs ys) eqn:F; [|discriminate]. injection E as <-.
      inversion Wa; inversion Wb; subst. destruct (H1 y v) as [A B]; auto. destruct (IH ys l) as [C D]; auto.
  - destruct b; cbn [unify] in U; try discriminate; try (cbn [is_numeric] in U; discriminate).
    + injection U as <-. split; [now apply sub_refl|exact I].
    + injection U as <-. split; [now apply sub_refl|discriminate].
    + change (option_map TRecord (ufields fs fs0) = Some r) in U. destruct (ufields fs fs0) as [us|] eqn:E; [|discriminate]. injection U as <-.
      apply wf_record in Wa, Wb. rewrite !sub_record.
      enough (Forall2 fsub fs us /\ Forall2 fsub fs0 us) as [A B] by (split; eauto).
      clear -IH Wa Wb E. revert fs0 us Wa Wb E.
      induction IH as [|[l x] xs H1 H2 IH]; intros [|[m y] ys] us Wa Wb E; cbn in E; try discriminate; [injection E as <-; split; constructor|].
      destruct (N.eqb_spec l m) as [->|]; [|discriminate].
      destruct (unify x y) as [v|] eqn:U; [|discriminate]. destruct (ufields xs ys) as [ws|] eqn:F; [|discriminate]. injection E as <-.
      inversion Wa; inversion Wb; subst. destruct (H1 y v) as [A B]; auto. destruct (IH ys ws) as [C D]; auto. split; constructor; auto; split; auto.
  - destruct b; cbn [unify] in U; try discriminate; try (cbn [is_numeric] in U; discriminate).
    + injection U as <-. split; [now apply sub_refl|exact I].
    + injection U as <-. split; [now apply sub_refl|discriminate].
    + change (option_map TUnion (uunions fs bs) = Some r) in U. destruct (uunions fs bs) as [us|] eqn:E; [|discriminate]. injection U as <-.
      apply wf_union in Wa, Wb. destruct Wa as [Sa Wa], Wb as [Sb Wb]. pose proof (uunions_assoc fs Sa bs us E) as HA. rewrite !sub_union. rewrite Forall_forall in *.
      split; exists us; (split; [reflexivity|]); rewrite Forall_forall; intros [l x] HI; specialize (HA l); unfold covered; cbn.
      * rewrite (sorted_assoc _ Sa _ _ HI) in HA. destruct (assoc l bs) as [y|] eqn:F.
        -- destruct HA as (z & U & A). exists z. split; [exact A|]. apply assoc_in in F. apply (IH _ HI y z (Wa _ HI) (Wb _ F) U).
        -- exists x. split; [exact HA|]. apply sub_refl, (Wa _ HI).
      * rewrite (sorted_assoc _ Sb _ _ HI) in HA. destruct (assoc l fs) as [y|] eqn:F.
        -- destruct HA as (z & U & A). exists z. split; [exact A|]. apply assoc_in in F. apply (IH _ F x z (Wa _ F) (Wb _ HI) U).
        -- exists x. split; [exact HA|]. apply sub_refl, (Wb _ HI).
  - destruct b; cbn [unify] in U; try discriminate; try (cbn [is_numeric] in U; discriminate).
    + injection U as <-. split; [now apply sub_refl|exact I].
    + injection U as <-. split; [now apply sub_refl|discriminate].
    + destruct (unify t b) as [u|] eqn:E; [|discriminate]. injection U as <-. destruct (IH b u Wa Wb E). cbn. split; eauto.
  - destruct b; cbn [unify] in U; try discriminate; try (cbn [is_numeric] in U; discriminate).
    + injection U as <-. split; [now apply sub_refl|exact I].
    + injection U as <-. split; [now apply sub_refl|discriminate].
    + destruct (unify t b) as [u|] eqn:E; [|discriminate]. injection U as <-. destruct (IH b u Wa Wb E). cbn. split; eauto.
Qed.
Lemma unify_least a : forall b x, wf_type a -> wf_type b -> sub a x -> sub b x -> exists r, unify a b = Some r /\ sub r x.
Proof.
  induction a as [| | |t IH|b0| |w|ts IH|fs IH|fs IH|t IH|t IH] using vtype_ind'; intros b x Wa Wb Sa Sb.
  - exists b. split; auto.
  - destruct b; cbn [unify]; eauto.
  - destruct b; cbn [unify]; eauto; cbn in Sa, Sb; subst; try discriminate; try (destruct Sb as (? & ? & _); discriminate).
  - destruct b; cbn [unify]; eauto; cbn in Sa, Sb; destruct Sa as (y & -> & Sa); try discriminate; try (cbn in Sb; discriminate); try (destruct Sb as (z & [= <-] & Sb)).
    destruct (IH b y Wa Wb Sa Sb) as (r & -> & S). eexists. split; [reflexivity|]. cbn. eauto.
  - destruct b; cbn [unify]; eauto; cbn in Sa; subst; cbn in Sb; try discriminate; try (destruct Sb as (? & ? & _); discriminate).
    + injection Sb as ->. rewrite (proj2 (basetype_eqb_true b b) eq_refl). eauto. exists (TBase b). cbn; auto.
    + cbn [is_numeric]. rewrite Sb. exists (TBase b0). cbn; auto.
  - destruct b; cbn [unify]; eauto; cbn in Sa, Sb; subst; try discriminate; try (destruct Sb as (? & -> & _); discriminate).
    + cbn [is_numeric] in *. rewrite Sa. exists (TBase b). cbn; auto.
    + exists TNumericHole. cbn. auto.
    + exists (TSigned w). cbn. auto.
  - destruct b; cbn [unify]; eauto; cbn in Sa; subst; cbn in Sb; try discriminate; try (destruct Sb as (? & ? & _); discriminate).
    + exists (TSigned w). cbn; auto.
    + injection Sb as ->. rewrite (proj2 (bw_eqb_true w0 w0) eq_refl). exists (TSigned w0). cbn; auto.
  - destruct b; cbn [unify]; eauto; try (exfalso; apply sub_tuple in Sa; destruct Sa as (ys & -> & Sa); cbn in Sb; try discriminate; (destruct Sb as (? & ? & _); discriminate) || fail).
    apply sub_tuple in Sa, Sb. destruct Sa as (ys & -> & Sa), Sb as (ys' & [= <-] & Sb). apply wf_tuple in Wa, Wb.
    enough (exists us, utuples ts ts0 = Some us /\ Forall2 sub us ys) as (us & E & S).
    { exists (TTuple us). split; [|apply sub_tuple; eauto]. change (option_map TTuple (utuples ts ts0) = Some (TTuple us)). now rewrite E. }
    clear -IH Wa Wb Sa Sb. revert ts0 ys Wa Wb Sa Sb.
    induction IH as [|x xs H1 H2 IH]; intros zs ys Wa Wb Sa Sb; inversion Sa; subst; inversion Sb; subst; cbn.
    + exists []. auto.
    + inversion Wa; inversion Wb; subst. edestruct (H1 x0) as (r & -> & Sr); eauto. edestruct (IH l) as (us & -> & Su); eauto. cbn. eauto.
  - destruct b; cbn [unify]; eauto; try (exfalso; apply sub_record in Sa; destruct Sa as (ys & -> & Sa); cbn in Sb; try discriminate; (destruct Sb as (? & ? & _); discriminate) || fail).
    apply sub_record in Sa, Sb. destruct Sa as (ys & -> & Sa), Sb as (ys' & [= <-] & Sb). apply wf_record in Wa, Wb.
    enough (exists us, ufields fs fs0 = Some us /\ Forall2 fsub us ys) as (us & E & S).
    { exists (TRecord us). split; [|apply sub_record; eauto]. change (option_map TRecord (ufields fs fs0) = Some (TRecord us)). now rewrite E. }
    clear -IH Wa Wb Sa Sb. revert fs0 ys Wa Wb Sa Sb.
    induction IH as [|[l x] xs H1 H2 IH]; intros zs ys Wa Wb Sa Sb; inversion Sa as [|? [m y] ? ? [A1 A2]]; subst; inversion Sb as [|[n z] ? ? ? [B1 B2]]; subst; cbn.
    + exists []. auto.
    + cbn in *. subst. rewrite N.eqb_refl. inversion Wa; inversion Wb; subst. destruct (H1 z y) as (r & -> & Sr); auto. edestruct (IH l0) as (us & -> & Su); eauto.
      cbn. eexists. split; [reflexivity|]. constructor; auto. split; auto.
  - destruct b; cbn [unify]; eauto; try (exfalso; apply sub_union in Sa; destruct Sa as (ys & -> & Sa); cbn in Sb; try discriminate; (destruct Sb as (? & ? & _); discriminate) || fail).
    apply sub_union in Sa, Sb. destruct Sa as (ys & -> & Sa), Sb as (ys' & [= <-] & Sb). apply wf_union in Wa, Wb. destruct Wa as [_ Wa], Wb as [_ Wb].
    enough (exists us, uunions fs bs = Some us /\ Forall (covered ys) us) as (us & E & S).
    { exists (TUnion us). split; [|apply sub_union; eauto]. change (option_map TUnion (uunions fs bs) = Some (TUnion us)). now rewrite E. }
    clear -IH Wa Wb Sa Sb. revert Wa Sa.
    induction IH as [|[l x] xs H1 H2 IH]; intros Wa Sa; cbn; [eauto|].
    inversion Wa as [|? ? W1 W2]; subst. inversion Sa as [|? ? S1 S2]; subst. destruct (IH W2 S2) as (us & -> & Su). destruct S1 as (y & E & S1). cbn in *.
    destruct (assoc l bs) as [z|] eqn:F.
    + apply assoc_in in F. rewrite Forall_forall in Wb, Sb. destruct (Sb _ F) as (y' & E' & S3). cbn in E', S3. rewrite E in E'. injection E' as <-.
      destruct (H1 z y W1 (Wb _ F) S1 S3) as (r & -> & Sr). cbn. eexists. split; [reflexivity|].
      rewrite Forall_forall in *. intros f Hf. apply insert_in in Hf. destruct Hf as [->|Hf]; [exists y; auto|now apply Su].
    + cbn. eexists. split; [reflexivity|].
      rewrite Forall_forall in *. intros f Hf. apply insert_in in Hf. destruct Hf as [->|Hf]; [exists y; auto|now apply Su].
  - destruct b; cbn [unify]; eauto; cbn in Sa, Sb; destruct Sa as (y & -> & Sa); try discriminate; try (cbn in Sb; discriminate); try (destruct Sb as (z & [= <-] & Sb)).
    destruct (IH b y Wa Wb Sa Sb) as (r & -> & S). eexists. split; [reflexivity|]. cbn. eauto.
  - destruct b; cbn [unify]; eauto; cbn in Sa, Sb; destruct Sa as (y & -> & Sa); try discriminate; try (cbn in Sb; discriminate); try (destruct Sb as (z & [= <-] & Sb)).
    destruct (IH b y Wa Wb Sa Sb) as (r & -> & S). eexists. split; [reflexivity|]. cbn. eauto.
Qed.

(** ** Consequences *)

Lemma unify_comm a b : wf_type a -> wf_type b -> unify a b = unify b a.
Proof.
  intros Wa Wb. destruct (unify a b) as [r|] eqn:E.
  - destruct (unify_ub a b r Wa Wb E) as [A B]. destruct (unify_least b a r Wb Wa B A) as (r' & F & S). rewrite F. f_equal.
    destruct (unify_ub b a r' Wb Wa F) as [C D]. destruct (unify_least a b r' Wa Wb D C) as (r2 & G & S2). rewrite E in G. injection G as <-.
    exact (sub_antisym r r' (unify_wf _ _ _ Wa Wb E) (unify_wf _ _ _ Wb Wa F) S2 S).
  - destruct (unify b a) as [r|] eqn:F; [|reflexivity]. destruct (unify_ub b a r Wb Wa F) as [A B].
    destruct (unify_least a b r Wa Wb B A) as (r' & G & _). congruence.
Qed.
Definition ounify (a b : option vtype) : option vtype :=
  match a, b with Some x, Some y => unify x y | _, _ => None end.
Lemma unify_assoc a b c : wf_type a -> wf_type b -> wf_type c -> ounify (unify a b) (Some c) = ounify (Some a) (unify b c).
Proof.
  intros Wa Wb Wc.
  assert (L : forall r, ounify (unify a b) (Some c) = Some r -> wf_type r /\ sub a r /\ sub b r /\ sub c r /\ forall x, sub a x -> sub b x -> sub c x -> sub r x).
  { intros r H. destruct (unify a b) as [ab|] eqn:E; [|discriminate]. cbn in H. pose proof (unify_wf _ _ _ Wa Wb E) as Wab.
    destruct (unify_ub a b ab Wa Wb E) as [A B]. destruct (unify_ub ab c r Wab Wc H) as [C D].
    split; [exact (unify_wf _ _ _ Wab Wc H)|]. split; [eapply sub_trans; eauto|]. split; [eapply sub_trans; eauto|]. split; [exact D|].
    intros x X Y Z. destruct (unify_least a b x Wa Wb X Y) as (r' & F & S). rewrite E in F. injection F as <-.
    destruct (unify_least ab c x Wab Wc S Z) as (r2 & G & S2). congruence. }
  assert (R : forall r, ounify (Some a) (unify b c) = Some r -> wf_type r /\ sub a r /\ sub b r /\ sub c r /\ forall x, sub a x -> sub b x -> sub c x -> sub r x).
  { intros r H. destruct (unify b c) as [bc|] eqn:E; [|discriminate]. cbn in H. pose proof (unify_wf _ _ _ Wb Wc E) as Wbc.
    destruct (unify_ub b c bc Wb Wc E) as [A B]. destruct (unify_ub a bc r Wa Wbc H) as [C D].
    split; [exact (unify_wf _ _ _ Wa Wbc H)|]. split; [exact C|]. split; [eapply sub_trans; eauto|]. split; [eapply sub_trans; eauto|].
    intros x X Y Z. destruct (unify_least b c x Wb Wc Y Z) as (r' & F & S). rewrite E in F. injection F as <-.
    destruct (unify_least a bc x Wa Wbc X S) as (r2 & G & S2). congruence. }
  destruct (ounify (unify a b) (Some c)) as [r|] eqn:E.
  - destruct (L r eq_refl) as (W & A & B & C & Lr). destruct (unify_least b c r Wb Wc B C) as (bc & F & S).
    destruct (unify_least a bc r Wa (unify_wf _ _ _ Wb Wc F) A S) as (r2 & G & S2). rewrite F in *. cbn in *. rewrite G in *. f_equal.
    destruct (R r2 eq_refl) as (W2 & A2 & B2 & C2 & _). exact (sub_antisym r r2 W W2 (Lr r2 A2 B2 C2) S2).
  - change (None = ounify (Some a) (unify b c)). destruct (ounify (Some a) (unify b c)) as [r|] eqn:G; [|reflexivity].
    destruct (R r eq_refl) as (W & A & B & C & _). destruct (unify_least a b r Wa Wb A B) as (ab & H & S). rewrite H in E. cbn in E.
    destruct (unify_least ab c r (unify_wf _ _ _ Wa Wb H) Wc S C) as (r2 & I & _). congruence.
Qed.
