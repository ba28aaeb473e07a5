(** Values keep their types: unification, patterns and expressions. *)
From Coq Require Import Sorted.
From Verif Require ByteSetModel.
From Verif Require Import Base BoundsModel DataModel DataProofs NumericModel ValueModel ValueProofs ValueWfProofs FormatModel TypeModel TypeSpec TypeUnifyProofs.
Open Scope nat_scope.

Section Typed.
Context (exact : bool).
Notation ht := (has_type exact).

(** ** Structured values *)

Lemma ht_tuple vs t : ht (VTuple vs) t <-> exists ts, t = TTuple ts /\ Forall2 ht vs ts.
Proof.
  cbn [has_type]. split; intros (ts & -> & H); exists ts; split; auto; clear -H.
  - revert ts H. induction vs as [|x xs IH]; intros [|y ys] H; try contradiction; constructor; try apply IH; apply H.
  - induction H; auto.
Qed.
Definition fht (f : label * value) (g : label * vtype) : Prop := fst f = fst g /\ ht (snd f) (snd g).
Lemma ht_record vs t : ht (VRecord vs) t <-> exists ts, t = TRecord ts /\ Forall2 fht vs ts.
Proof.
  cbn [has_type]. split; intros (ts & -> & H); exists ts; split; auto; clear -H.
  - revert ts H. induction vs as [|[l x] xs IH]; intros [|[m y] ys] H; try contradiction; constructor; try apply IH; apply H.
  - induction H as [|[l x] [m y] xs ys [? ?] ? ?]; auto.
Qed.
Lemma ht_strict vs t : ht (VSeq (Strict vs)) t <-> exists u, t = TSeq u /\ Forall (fun v => ht v u) vs.
Proof.
  cbn [has_type]. split; intros (u & -> & H); exists u; split; auto; clear -H.
  - induction vs as [|x xs IH]; constructor; [apply H|apply IH, H].
  - induction H; auto.
Qed.
Lemma ht_seq s t : ht (VSeq s) t -> exists u, t = TSeq u /\ Forall (fun v => ht v u) (sk_to_list s).
Proof.
  destruct s as [l|n v]; [apply ht_strict|]. cbn [has_type sk_to_list]. intros (u & -> & H). exists u. split; auto.
  apply Forall_forall. intros x Hx. now apply repeat_spec in Hx as ->.
Qed.
Lemma ht_coerce v t : ht v t -> ht (coerce_mapped v) t.
Proof. induction v; cbn; auto. Qed.
Lemma ht_nominal v t : ht v t -> ht (coerce_nominal v) t.
Proof. induction v using value_ind'; cbn; auto. Qed.

(** ** Unification *)

Lemma unify_num a b c : unify a b = Some c -> is_numeric a = true \/ is_numeric b = true -> is_numeric c = true.
Proof.
  intros U [H|H].
  - destruct a as [| | | |[]| | | | | | |]; try (cbn in H; discriminate H); destruct b as [| | | |[]| | | | | | |]; cbn in U; try discriminate U;
      try (destruct (bw_eqb _ _); [|discriminate U]); injection U as <-; reflexivity.
  - destruct b as [| | | |[]| | | | | | |]; try (cbn in H; discriminate H); destruct a as [| | | |[]| | | | | | |]; cbn in U; try discriminate U;
      try (destruct (bw_eqb _ _); [|discriminate U]); injection U as <-; reflexivity.
Qed.
(** A type with no unknown part is not changed. *)
Definition rigid (t : vtype) : Prop := match t with TBase _ | TSigned _ | TViewObj => True | _ => False end.
Lemma unify_rigid_l a b c : rigid a -> unify a b = Some c -> c = a.
Proof.
  intros R U. destruct a as [| | | |x| |x| | | | |]; try contradiction; destruct b; cbn in U; try discriminate U;
    try (destruct x; discriminate U); try (now injection U as <-).
  - destruct (basetype_eqb _ _) eqn:E; [|discriminate U]. now injection U as <-.
  - destruct x; [discriminate U| |discriminate U]. now injection U as <-.
  - destruct (bw_eqb _ _) eqn:E; [|discriminate U]. now injection U as <-.
Qed.
Lemma unify_rigid_r a b c : rigid b -> unify a b = Some c -> c = b.
Proof.
  intros R U. destruct b as [| | | |x| |x| | | | |]; try contradiction; destruct a; cbn in U; try discriminate U;
    try (destruct x; discriminate U); try (now injection U as <-).
  - destruct (basetype_eqb _ _) eqn:E; [|discriminate U]. apply basetype_eqb_true in E. subst. now injection U as <-.
  - destruct x; [discriminate U| |discriminate U]. now injection U as <-.
  - destruct (bw_eqb _ _) eqn:E; [|discriminate U]. apply bw_eqb_true in E. subst. now injection U as <-.
Qed.
Lemma type_of_mrep_rigid r : rigid (type_of_mrep r).
Proof. unfold type_of_mrep. destruct (is_signed r); exact I. Qed.

(** One of the two sides is kept, or both are parts of the result. *)
Lemma unify_tuple_l xs b c : unify (TTuple xs) b = Some c -> c = TTuple xs \/ exists ys zs, b = TTuple ys /\ c = TTuple zs /\ utuples xs ys = Some zs.
Proof.
  destruct b; intros U; try (cbn in U; discriminate U); try (left; now injection U as <-).
  rewrite unify_tuple in U. destruct (utuples xs ts) as [zs|] eqn:E; [|discriminate U]. injection U as <-. right. eauto.
Qed.
Lemma unify_tuple_r a ys c : unify a (TTuple ys) = Some c -> c = TTuple ys \/ exists xs zs, a = TTuple xs /\ c = TTuple zs /\ utuples xs ys = Some zs.
Proof.
  destruct a; intros U; try (cbn in U; discriminate U); try (left; now injection U as <-).
  rewrite unify_tuple in U. destruct (utuples ts ys) as [zs|] eqn:E; [|discriminate U]. injection U as <-. right. eauto.
Qed.
Lemma unify_record_l xs b c : unify (TRecord xs) b = Some c -> c = TRecord xs \/ exists ys zs, b = TRecord ys /\ c = TRecord zs /\ ufields xs ys = Some zs.
Proof.
  destruct b; intros U; try (cbn in U; discriminate U); try (left; now injection U as <-).
  rewrite unify_record in U. destruct (ufields xs fs) as [zs|] eqn:E; [|discriminate U]. injection U as <-. right. eauto.
Qed.
Lemma unify_record_r a ys c : unify a (TRecord ys) = Some c -> c = TRecord ys \/ exists xs zs, a = TRecord xs /\ c = TRecord zs /\ ufields xs ys = Some zs.
Proof.
  destruct a; intros U; try (cbn in U; discriminate U); try (left; now injection U as <-).
  rewrite unify_record in U. destruct (ufields fs ys) as [zs|] eqn:E; [|discriminate U]. injection U as <-. right. eauto.
Qed.
Lemma unify_union_l xs b c : unify (TUnion xs) b = Some c -> c = TUnion xs \/ exists ys zs, b = TUnion ys /\ c = TUnion zs /\ uunions xs ys = Some zs.
Proof.
  destruct b; intros U; try (cbn in U; discriminate U); try (left; now injection U as <-).
  rewrite unify_union in U. destruct (uunions xs bs) as [zs|] eqn:E; [|discriminate U]. injection U as <-. right. eauto.
Qed.
Lemma unify_union_r a ys c : unify a (TUnion ys) = Some c -> c = TUnion ys \/ exists xs zs, a = TUnion xs /\ c = TUnion zs /\ uunions xs ys = Some zs.
Proof.
  destruct a; intros U; try (cbn in U; discriminate U); try (left; now injection U as <-).
  rewrite unify_union in U. destruct (uunions bs ys) as [zs|] eqn:E; [|discriminate U]. injection U as <-. right. eauto.
Qed.
Ltac unary := intros b c U; destruct b; cbn in U; try discriminate U; try (left; now injection U as <-);
  match type of U with option_map _ ?x = _ => destruct x as [z|] eqn:E; [|discriminate U] end; injection U as <-; right; eauto.
Lemma unify_seq_l x : forall b c, unify (TSeq x) b = Some c -> c = TSeq x \/ exists y z, b = TSeq y /\ c = TSeq z /\ unify x y = Some z.
Proof. unary. Qed.
Lemma unify_seq_r y : forall a c, unify a (TSeq y) = Some c -> c = TSeq y \/ exists x z, a = TSeq x /\ c = TSeq z /\ unify x y = Some z.
Proof. unary. Qed.
Lemma unify_option_l x : forall b c, unify (TOption x) b = Some c -> c = TOption x \/ exists y z, b = TOption y /\ c = TOption z /\ unify x y = Some z.
Proof. unary. Qed.
Lemma unify_option_r y : forall a c, unify a (TOption y) = Some c -> c = TOption y \/ exists x z, a = TOption x /\ c = TOption z /\ unify x y = Some z.
Proof. unary. Qed.
Lemma unify_phantom_l x : forall b c, unify (TPhantom x) b = Some c -> c = TPhantom x \/ exists y z, b = TPhantom y /\ c = TPhantom z /\ unify x y = Some z.
Proof. unary. Qed.
Lemma unify_phantom_r y : forall a c, unify a (TPhantom y) = Some c -> c = TPhantom y \/ exists x z, a = TPhantom x /\ c = TPhantom z /\ unify x y = Some z.
Proof. unary. Qed.

(** The entry of a name in the union of two unions *)
Lemma uunions_find xs : forall ys zs, uunions xs ys = Some zs -> forall l,
  match assoc l xs, assoc l ys with
  | Some x, Some y => exists z, unify x y = Some z /\ assoc l zs = Some z
  | Some x, None => assoc l zs = Some x
  | None, o => assoc l zs = o
  end.
Proof.
  induction xs as [|[k x] xs IH]; intros ys zs U l; cbn [uunions] in U.
  - injection U as <-. cbn. reflexivity.
  - cbn [assoc]. destruct (assoc k ys) as [y|] eqn:Ey.
    + destruct (unify x y) as [t|] eqn:Et; [|discriminate U]. destruct (uunions xs ys) as [ws|] eqn:Ew; [|discriminate U]. injection U as <-.
      specialize (IH ys ws Ew l). rewrite assoc_insert. destruct (N.eqb_spec l k) as [E|E]; [subst l; rewrite Ey; eauto|]. exact IH.
    + destruct (uunions xs ys) as [ws|] eqn:Ew; [|discriminate U]. injection U as <-.
      specialize (IH ys ws Ew l). rewrite assoc_insert. destruct (N.eqb_spec l k) as [E|E]; [subst l; now rewrite Ey|]. exact IH.
Qed.

Lemma ht_unify v : forall a b c, unify a b = Some c -> ht v a \/ ht v b -> ht v c.
Proof.
  induction v using value_ind'; intros ty1 ty2 ty3 U HH.
  - destruct HH as [->| ->]; [apply unify_rigid_l in U|apply unify_rigid_r in U]; try exact I; now subst.
  - destruct HH as [[->|[X Y]]|[->|[X Y]]].
    + apply unify_rigid_l in U; [|exact I]. subst. now left.
    + right. split; [exact X|]. eapply unify_num; eauto.
    + apply unify_rigid_r in U; [|exact I]. subst. now left.
    + right. split; [exact X|]. eapply unify_num; eauto.
  - destruct HH as [->| ->]; [apply unify_rigid_l in U|apply unify_rigid_r in U]; try exact I; now subst.
  - destruct HH as [[X Y]|[X Y]]; (split; [exact X|]; eapply unify_num; eauto).
  - destruct HH as [[(r & R & ->)|[X Y]]|[(r & R & ->)|[X Y]]].
    + apply unify_rigid_l in U; [|apply type_of_mrep_rigid]. subst. left. eauto.
    + right. split; [exact X|]. eapply unify_num; eauto.
    + apply unify_rigid_r in U; [|apply type_of_mrep_rigid]. subst. left. eauto.
    + right. split; [exact X|]. eapply unify_num; eauto.
  - destruct HH as [->| ->]; [apply unify_rigid_l in U|apply unify_rigid_r in U]; try exact I; now subst.
  - destruct HH as [[u ->]|[u ->]]; [apply unify_phantom_l in U|apply unify_phantom_r in U]; destruct U as [->|(? & ? & _ & -> & _)]; cbn; eauto.
  - destruct HH as [(X & u & -> & Y)|(X & u & -> & Y)]; (split; [exact X|]).
    + apply unify_seq_l in U. destruct U as [->|(y & z & -> & -> & U)]; eexists; split; eauto. eapply unify_num; eauto.
    + apply unify_seq_r in U. destruct U as [->|(y & z & -> & -> & U)]; eexists; split; eauto. eapply unify_num; eauto.
  - destruct HH as [[u ->]|[u ->]]; [apply unify_option_l in U|apply unify_option_r in U]; destruct U as [->|(? & ? & _ & -> & _)]; cbn; eauto.
  - destruct HH as [(u & -> & Y)|(u & -> & Y)].
    + apply unify_option_l in U. destruct U as [->|(y & z & -> & -> & U)]; eexists; split; eauto.
    + apply unify_option_r in U. destruct U as [->|(y & z & -> & -> & U)]; eexists; split; eauto.
  - apply ht_tuple. rewrite !ht_tuple in HH. destruct HH as [(ts & -> & Y)|(ts & -> & Y)].
    + apply unify_tuple_l in U. destruct U as [->|(ys & zs & -> & -> & U)]; [eauto|]. eexists. split; eauto.
      revert ts ys zs Y U. induction H as [|v vs Hv Hvs IH]; intros ts ys zs Y U; inversion Y as [|? ? ? l']; subst; destruct ys as [|y0 ys]; cbn in U; try discriminate U.
      * injection U as <-. constructor.
      * match type of U with match ?x with _ => _ end = _ => destruct x as [t|] eqn:E; [|discriminate U] end.
        destruct (utuples l' ys) as [r|] eqn:F; [|discriminate U]. injection U as <-. constructor; eauto.
    + apply unify_tuple_r in U. destruct U as [->|(ys & zs & -> & -> & U)]; [eauto|]. eexists. split; eauto.
      revert ts ys zs Y U. induction H as [|v vs Hv Hvs IH]; intros ts ys zs Y U; inversion Y; subst; destruct ys as [|y' ys]; cbn in U; try discriminate U.
      * injection U as <-. constructor.
      * match type of U with match ?x with _ => _ end = _ => destruct x as [t|] eqn:E; [|discriminate U] end.
        destruct (utuples ys l') as [r|] eqn:F; [|discriminate U]. injection U as <-. constructor; eauto.
  - apply ht_record. rewrite !ht_record in HH. destruct HH as [(ts & -> & Y)|(ts & -> & Y)].
    + apply unify_record_l in U. destruct U as [->|(ys & zs & -> & -> & U)]; [eauto|]. eexists. split; eauto.
      revert ts ys zs Y U. induction H as [|[n v] vs Hv Hvs IH]; intros ts ys zs Y U; inversion Y as [|? [n1 t1] ? ? [E1 E2]]; subst; destruct ys as [|[m y] ys]; cbn in U; try discriminate U.
      * injection U as <-. constructor.
      * destruct (N.eqb n1 m); [|discriminate U].
        match type of U with match ?x with _ => _ end = _ => destruct x as [t|] eqn:E; [|discriminate U] end.
        match type of U with option_map _ ?x = _ => destruct x as [r|] eqn:F; [|discriminate U] end. injection U as <-. constructor; [split; [exact E1|]|]; eauto.
    + apply unify_record_r in U. destruct U as [->|(ys & zs & -> & -> & U)]; [eauto|]. eexists. split; eauto.
      revert ts ys zs Y U. induction H as [|[n v] vs Hv Hvs IH]; intros ts ys zs Y U; inversion Y as [|? [n1 t1] ? ? [E1 E2]]; subst; destruct ys as [|[m y] ys]; cbn in U; try discriminate U.
      * injection U as <-. constructor.
      * destruct (N.eqb_spec m n1) as [En|En]; [|discriminate U].
        match type of U with match ?x with _ => _ end = _ => destruct x as [t|] eqn:E; [|discriminate U] end.
        match type of U with option_map _ ?x = _ => destruct x as [r|] eqn:F; [|discriminate U] end. injection U as <-. cbn in *. constructor; [split; cbn; [congruence|]|]; eauto.
  - destruct HH as [(bs & u & -> & A & Y)|(bs & u & -> & A & Y)].
    + apply unify_union_l in U. destruct U as [->|(ys & zs & -> & -> & U)]; [cbn; eauto|]. pose proof (uunions_find _ _ _ U l) as F. rewrite A in F.
      destruct (assoc l ys); [destruct F as (z & F1 & F2); exists zs, z|exists zs, u]; repeat split; auto. eapply IHv; eauto.
    + apply unify_union_r in U. destruct U as [->|(xs & zs & -> & -> & U)]; [cbn; eauto|]. pose proof (uunions_find _ _ _ U l) as F. rewrite A in F.
      destruct (assoc l xs); [destruct F as (z & F1 & F2); exists zs, z|exists zs, u]; repeat split; auto. eapply IHv; eauto.
  - apply ht_strict. rewrite !ht_strict in HH. destruct HH as [(u & -> & Y)|(u & -> & Y)].
    + apply unify_seq_l in U. destruct U as [->|(y & z & -> & -> & U)]; eexists; split; eauto.
      rewrite Forall_forall in *. intros x Hx. eapply H; eauto.
    + apply unify_seq_r in U. destruct U as [->|(y & z & -> & -> & U)]; eexists; split; eauto.
      rewrite Forall_forall in *. intros x Hx. eapply H; eauto.
  - destruct HH as [(u & -> & Y)|(u & -> & Y)].
    + apply unify_seq_l in U. destruct U as [->|(y & z & -> & -> & U)]; eexists; split; eauto.
    + apply unify_seq_r in U. destruct U as [->|(y & z & -> & -> & U)]; eexists; split; eauto.
  - cbn in *. eauto.
  - cbn in *. eauto.
  - cbn in *. eauto.
  - exact I.
  - cbn in *. eauto.
Qed.
Lemma ht_unify_i v a b c : unify_i a b = IOk c -> ht v a \/ ht v b -> ht v c.
Proof. unfold unify_i. destruct (unify a b) eqn:E; [|discriminate]. intros [= <-]. eapply ht_unify, E. Qed.

Lemma vtype_eqb_true a : forall b, vtype_eqb a b = true -> a = b.
Proof.
  induction a as [| | |t IH|b0| |w|ts IH|fs IH|fs IH|t IH|t IH] using vtype_ind'; intros b E; destruct b; cbn in E; try discriminate E; try reflexivity.
  - f_equal. auto.
  - f_equal. now apply basetype_eqb_true.
  - f_equal. now apply bw_eqb_true.
  - f_equal. revert ts0 E. induction IH as [|x xs Hx H IH]; intros [|y ys] E; try discriminate E; [reflexivity|].
    apply andb_true_iff in E. destruct E as [E1 E2]. f_equal; auto.
  - f_equal. revert fs0 E. induction IH as [|[l x] xs Hx H IH]; intros [|[m y] ys] E; try discriminate E; [reflexivity|].
    apply andb_true_iff in E. destruct E as [E1 E2]. apply andb_true_iff in E1. destruct E1 as [E1 E3]. apply N.eqb_eq in E1. subst. f_equal; [f_equal; auto|auto].
  - f_equal. revert bs E. induction IH as [|[l x] xs Hx H IH]; intros [|[m y] ys] E; try discriminate E; [reflexivity|].
    apply andb_true_iff in E. destruct E as [E1 E2]. apply andb_true_iff in E1. destruct E1 as [E1 E3]. apply N.eqb_eq in E1. subst. f_equal; [f_equal; auto|auto].
  - f_equal. auto.
  - f_equal. auto.
Qed.
Lemma ht_covers v d f : covers true d f = IOk tt -> ht v f -> ht v d.
Proof.
  unfold covers, guard. cbn. destruct (unify f d) as [u|] eqn:E; [|discriminate]. destruct (vtype_eqb u d) eqn:F; [|discriminate]. intros _ H.
  apply vtype_eqb_true in F. subst. eapply ht_unify; eauto.
Qed.

(** ** Scopes and patterns *)

Definition vals_ok {D} (G : tscope) (s : scope D) : Prop :=
  forall x T v, get_type G x = Some (KValue T) -> get_value x s = Some v -> ht v T.
Lemma vals_single {D} G (s : scope D) x T v : vals_ok G s -> ht v T -> vals_ok ((x, KValue T) :: G) (SSingle s x v).
Proof.
  intros H Hv y U w. cbn. rewrite (N.eqb_sym y x). destruct (N.eqb x y); [|apply H]. intros [= <-] [= <-]. exact Hv.
Qed.
Definition ent_kind (e : label * vov) (k : label * vkind) : Prop :=
  fst e = fst k /\ match snd e, snd k with EntVal v, KValue t => ht v t | EntView _, KView => True | _, _ => False end.
Lemma Forall2_rev {A B} (R : A -> B -> Prop) l m : Forall2 R l m -> Forall2 R (rev l) (rev m).
Proof. induction 1; cbn; [constructor|]. apply Forall2_app; auto. Qed.
Lemma vals_multi {D} G (s : scope D) es ks : vals_ok G s -> Forall2 ent_kind es ks -> vals_ok (rev ks ++ G) (SMulti s es).
Proof.
  intros H HF y U w. cbn. apply Forall2_rev in HF. revert HF. generalize (rev es), (rev ks). clear es ks. intros es ks HF.
  induction HF as [|[n e] [m k] es ks [E1 E2] HF IH]; cbn.
  - apply H.
  - cbn in E1. subst m. rewrite (N.eqb_sym y n). destruct e as [c|v], k as [t| |t]; try contradiction; cbn; destruct (N.eqb n y); auto; try discriminate.
    intros [= <-] [= <-]. exact E2.
Qed.

Definition pbind (b : label * value) (k : label * vkind) : Prop :=
  fst b = fst k /\ match snd k with KValue t => ht (snd b) t | _ => False end.
Lemma build_scope_binds p : forall t G G' v acc bs, build_scope p t G = IOk G' -> ht v t -> matches_inner p v acc = Some bs ->
  exists ks ns, G' = rev ks ++ G /\ bs = acc ++ ns /\ Forall2 pbind ns ks.
Proof.
  assert (W : forall (b : bool) (G : tscope) (acc bs : binds), (if b then Some acc else None) = Some bs ->
    exists ks ns, G = rev ks ++ G /\ bs = acc ++ ns /\ Forall2 pbind ns ks).
  { intros [] G acc bs E; [|discriminate E]. injection E as <-. exists [], []. repeat split; [now rewrite app_nil_r|constructor]. }
  assert (Z : forall (G : tscope) (acc : binds), exists ks ns, G = rev ks ++ G /\ acc = acc ++ ns /\ Forall2 pbind ns ks).
  { intros. exists [], []. repeat split; [now rewrite app_nil_r|constructor]. }
  induction p as [y| |b|w n|b|z|b|c|ps IH|l p IH|ps IH| |p IH] using pattern_ind'; intros t G G' v acc bs B Hv E.
  - injection B as <-. injection E as <-. exists [(y, KValue t)], [(y, v)]. repeat split. repeat constructor. exact Hv.
  - injection B as <-. injection E as <-. apply Z.
  - destruct t as [| | | |[]| | | | | | |]; try discriminate B. injection B as <-. cbn in E. destruct v; try discriminate E. eapply W, E.
  - destruct t as [| | | |[]| | | | | | |]; try discriminate B. cbn in B. destruct (bw_eqb _ _); [|discriminate B]. injection B as <-.
    cbn in E. destruct v; try discriminate E; eapply W, E.
  - destruct t as [| | | |[]| | | | | | |]; try discriminate B. injection B as <-. cbn in E. destruct v; try discriminate E; eapply W, E.
  - cbn [build_scope] in B. destruct (is_numeric t); [|discriminate B]. injection B as <-. cbn in E. destruct v; try discriminate E; eapply W, E.
  - cbn [build_scope] in B. destruct (is_numeric t); [|discriminate B]. injection B as <-. cbn in E. destruct v; try discriminate E; eapply W, E.
  - discriminate B.
  - cbn [matches_inner] in E. destruct v; try discriminate E. apply ht_tuple in Hv. destruct Hv as (ts & -> & Hv). cbn [build_scope] in B.
    destruct (Nat.eqb (length ps) (length ts)) eqn:L; [|discriminate B]. destruct (Nat.eqb (length ps) (length vs)); [|discriminate E]. clear L.
    revert ts vs G acc B Hv E. induction IH as [|p ps Hp IHf IH2]; intros ts vs G acc B Hv E.
    + injection B as <-. injection E as <-. apply Z.
    + inversion Hv as [|v t vs' ts' H1 H2]; subst.
      * injection B as <-. injection E as <-. apply Z.
      * cbn in E. destruct (matches_inner p v acc) as [acc'|] eqn:E1; [|discriminate E].
        destruct (build_scope p t G) as [G1| |] eqn:B1; try discriminate B. cbn in B.
        destruct (Hp _ _ _ _ _ _ B1 H1 E1) as (k1 & n1 & -> & -> & F1). destruct (IH2 _ _ _ _ B H2 E) as (k2 & n2 & -> & -> & F2).
        exists (k1 ++ k2), (n1 ++ n2). rewrite rev_app_distr, <- !app_assoc. repeat split. now apply Forall2_app.
  - cbn [matches_inner] in E. destruct v; try discriminate E. destruct Hv as (us & u & -> & A & Hv). cbn [build_scope] in B.
    destruct (N.eqb_spec l l0) as [El|El]; [subst l0|discriminate E]. rewrite A in B. eapply IH; eauto.
  - cbn [matches_inner] in E. destruct v; try discriminate E. apply ht_seq in Hv. destruct Hv as (u & -> & Hv). cbn [build_scope] in B.
    destruct (Nat.eqb_spec (length ps) (sk_len s)) as [Ln|]; [|discriminate E]. rewrite sk_len_spec in Ln. revert B Hv E Ln. generalize (sk_to_list s). intros vs B Hv E Ln.
    assert (L : forall vs G acc, (fix go (ps : list pattern) (G : tscope) : ires tscope :=
         match ps with [] => IOk G | p :: ps' => ibind (build_scope p u G) (go ps') end) ps G = IOk G' ->
         Forall (fun v => ht v u) vs -> length ps = length vs -> match_list matches_inner ps vs acc = Some bs ->
         exists ks ns, G' = rev ks ++ G /\ bs = acc ++ ns /\ Forall2 pbind ns ks).
    { clear vs B Hv E Ln. intros vs G0 acc0. revert vs G0 acc0. induction IH as [|p ps Hp IHf IH2]; intros vs G0 acc0 B Hv L E.
      - injection B as <-. injection E as <-. apply Z.
      - destruct Hv as [|v vs H1 H2]; [discriminate L|].
        cbn in E. destruct (matches_inner p v acc0) as [acc'|] eqn:E1; [|discriminate E].
        destruct (build_scope p u G0) as [G1| |] eqn:B1; try discriminate B. cbn in B.
        destruct (Hp _ _ _ _ _ _ B1 H1 E1) as (k1 & n1 & -> & -> & F1). destruct (IH2 _ _ _ B H2 ltac:(cbn in L; lia) E) as (k2 & n2 & -> & -> & F2).
        exists (k1 ++ k2), (n1 ++ n2). rewrite rev_app_distr, <- !app_assoc. repeat split. now apply Forall2_app. }
    eapply L; eauto.
  - destruct t; try discriminate B. injection B as <-. cbn in E. destruct v as [| | | | | | | |[]| | | | | | | |]; try discriminate E. injection E as <-. apply Z.
  - cbn in E. destruct v as [| | | | | | | |[v|]| | | | | | | |]; try discriminate E. destruct Hv as (u & -> & Hv). eapply IH; eauto.
Qed.

Lemma matches_binds {D} p t G G' v (s s' : scope D) : build_scope p t G = IOk G' -> ht v t -> vmatches v s p = Some s' ->
  exists ks ns, G' = rev ks ++ G /\ s' = SMulti s (map (fun b => (fst b, EntVal (snd b))) ns) /\ Forall2 pbind ns ks.
Proof.
  intros B Hv E. unfold vmatches in E. destruct (matches_inner p (coerce_nominal v) []) as [bs|] eqn:Em; [|discriminate E]. injection E as <-.
  destruct (build_scope_binds _ _ _ _ _ _ _ B (ht_nominal _ _ Hv) Em) as (ks & ns & -> & -> & F). eauto.
Qed.
Lemma vals_matches {D} p t G G' v (s s' : scope D) : vals_ok G s -> build_scope p t G = IOk G' -> ht v t -> vmatches v s p = Some s' -> vals_ok G' s'.
Proof.
  intros H B Hv E. destruct (matches_binds _ _ _ _ _ _ _ B Hv E) as (ks & ns & -> & -> & F). apply vals_multi; [exact H|].
  clear -F. induction F as [|[x v] [y k] ns ks [E1 E2] F IH]; cbn; constructor; auto. cbn in *. split; [exact E1|]. cbn. now destruct k.
Qed.

(** ** Numeric expressions *)

Definition cond (b : bool) : Prop := exact = true -> b = true.
Lemma cond_and a b : cond (a && b) -> cond a /\ cond b.
Proof. intros H. split; intros X; specialize (H X); apply andb_true_iff in H; tauto. Qed.
Lemma cond_all {A} (f : A -> bool) l : cond (forallb f l) -> Forall (fun x => cond (f x)) l.
Proof. intros H. apply Forall_forall. intros x Hx X. specialize (H X). rewrite forallb_forall in H. auto. Qed.

Lemma ibind_ok {A B} (x : ires A) (f : A -> ires B) r : ibind x f = IOk r -> exists a, x = IOk a /\ f a = IOk r.
Proof. destruct x; cbn; try discriminate. eauto. Qed.
Lemma guard_ok b u : guard b = IOk u -> b = true.
Proof. destruct b; [reflexivity|discriminate]. Qed.

Lemma ht_num_rep c d t : tc_rep c = tc_rep d -> ht (VNumeric c) t -> ht (VNumeric d) t.
Proof. cbn. now intros ->. Qed.
Lemma tc_of_value_ok v c t : tc_of_value v = NOk c -> ht v t -> ht (VNumeric c) t.
Proof.
  induction v using value_ind'; cbn [tc_of_value]; intros E Hv; try discriminate E; auto.
  - injection E as <-. destruct Hv as [->|Hv]; [left|right; exact Hv]. exists (MR false w). split; reflexivity.
  - injection E as <-. right. exact Hv.
  - injection E as <-. exact Hv.
Qed.
Lemma num_ok n : forall {D} G (s : scope D) T c, cond (typed_num n) -> infer_num G n = IOk T -> vals_ok G s ->
  neval (num_look s) n = NOk c -> ht (VNumeric c) T.
Proof.
  induction n as [c0|op out a IHa b IHb|op out a IHa|r cs a IHa|x]; intros D G s T c Hc HT Hs E; cbn [infer_num neval typed_num] in *.
  - injection HT as <-. injection E as <-. cbn. unfold cond in Hc. destruct (tc_rep c0) as [|r]; [|left; cbn; eauto]. right. split; [|reflexivity].
    destruct exact; [discriminate (Hc eq_refl)|reflexivity].
  - destruct (neval (num_look s) a) as [ca| |] eqn:Ea; try discriminate E. destruct (neval (num_look s) b) as [cb| |] eqn:Eb; try discriminate E.
    cbn [nbind] in E. unfold bin_apply in E. match type of E with nbind ?x _ = _ => destruct x as [raw| |]; try discriminate E end. cbn [nbind] in E.
    destruct out as [r|].
    + injection HT as <-. injection E as <-. left. cbn. eauto.
    + apply ibind_ok in HT as (ta & Ha & HT). apply ibind_ok in HT as (tb & Hb & HT). apply cond_and in Hc as [Hca Hcb].
      pose proof (IHa _ _ _ _ _ Hca Ha Hs Ea) as A. pose proof (IHb _ _ _ _ _ Hcb Hb Hs Eb) as B.
      destruct (_ || _)%bool; [injection E as <-; eapply ht_unify_i; [exact HT|left; eapply ht_num_rep; [|exact A]; reflexivity]|].
      destruct (numrep_eqb _ _); [|discriminate E]. injection E as <-. eapply ht_unify_i; [exact HT|right; eapply ht_num_rep; [|exact B]; reflexivity].
  - destruct (neval (num_look s) a) as [ca| |] eqn:Ea; try discriminate E. injection E as <-. destruct out as [r|].
    + injection HT as <-. left. cbn. eauto.
    + eapply ht_num_rep; [|eapply IHa; eauto]. reflexivity.
  - injection HT as <-. destruct (neval (num_look s) a) as [ca| |]; try discriminate E. cbn [nbind] in E. unfold cast_apply in E.
    match type of E with nbind ?x _ = _ => destruct x; try discriminate E end. injection E as <-. left. cbn. eauto.
  - unfold num_look in E. destruct (get_value x s) as [v|] eqn:Ev; [|discriminate E]. unfold tvar in HT. destruct (get_type G x) as [[t| |t]|] eqn:Et; try discriminate HT.
    injection HT as <-. eapply tc_of_value_ok; [exact E|]. eapply Hs; eauto.
Qed.

(** ** Expressions *)

Definition ok_eval (e : expr) : Prop := forall D G (s : scope D) T v, cond (typed_expr e) -> infer_expr true G e = IOk T -> vals_ok G s ->
  eval e s = Val v -> ht v T.
Definition ok_body (e : expr) : Prop := forall x b, e = ELambda x b -> ok_eval b.

Lemma imapM_ok {A B} (f : A -> ires B) l r : imapM f l = IOk r -> Forall2 (fun x y => f x = IOk y) l r.
Proof.
  revert r. induction l as [|x l IH]; cbn; intros r E; [injection E as <-; constructor|].
  apply ibind_ok in E as (y & E1 & E). apply ibind_ok in E as (ys & E2 & E). injection E as <-. constructor; auto.
Qed.
Lemma omapM_ok {A B} (f : A -> outcome B) l r : omapM f l = Val r -> Forall2 (fun x y => f x = Val y) l r.
Proof.
  revert r. induction l as [|x l IH]; cbn; intros r E; [injection E as <-; constructor|].
  apply obind_val in E as (y & E1 & E). apply obind_val in E as (ys & E2 & E). injection E as <-. constructor; auto.
Qed.
Lemma Forall2_join {A B C} (R : A -> B -> Prop) (S : A -> C -> Prop) (T : B -> C -> Prop) l m n :
  Forall2 R l m -> Forall2 S l n -> (forall a b c, In a l -> R a b -> S a c -> T b c) -> Forall2 T m n.
Proof.
  intros H. revert n. induction H as [|a b l m H1 H2 IH]; intros n HS HT; inversion HS; subst; constructor.
  - eapply HT; eauto. now left.
  - apply IH; [assumption|]. intros. eapply HT; eauto. now right.
Qed.
(** The common type of several *)
Lemma fold_unify {A} (h : A -> ires vtype) l : forall t T, ifoldM (fun t x => ibind (h x) (fun u => unify_i t u)) t l = IOk T ->
  (forall v, ht v t -> ht v T) /\ forall x, In x l -> exists u, h x = IOk u /\ forall v, ht v u -> ht v T.
Proof.
  induction l as [|x l IH]; cbn [ifoldM]; intros t T E; [injection E as <-; split; [auto|intros ? []]|].
  apply ibind_ok in E as (t1 & E1 & E). apply ibind_ok in E1 as (u & Eu & E1). destruct (IH _ _ E) as [A1 A2].
  assert (B : forall v, ht v t1 -> ht v T) by exact A1. split.
  - intros v Hv. apply B. eapply ht_unify_i; eauto.
  - intros y [<-|Hy]; [|auto]. exists u. split; [exact Eu|]. intros v Hv. apply B. eapply ht_unify_i; eauto.
Qed.
Lemma ifoldM_ext {A S} (f g : S -> A -> ires S) l : (forall s x, f s x = g s x) -> forall s, ifoldM f s l = ifoldM g s l.
Proof. intros H. induction l as [|x l IH]; cbn; intros s; [reflexivity|]. rewrite H. destruct (g s x); cbn; auto. Qed.

Lemma ht_nth vs t i v : Forall2 ht vs t -> nth_error vs i = Some v -> exists u, nth_error t i = Some u /\ ht v u.
Proof. intros H. revert i. induction H; intros [|i]; cbn; try discriminate; [intros [= <-]; eauto|auto]. Qed.
Lemma ht_assoc fs t l v : Forall2 fht fs t -> assoc l fs = Some v -> exists u, assoc l t = Some u /\ ht v u.
Proof.
  induction 1 as [|[n x] [m y] fs t [E1 E2] H IH]; cbn; [discriminate|]. cbn in E1. subst m. destruct (N.eqb l n); [intros [= <-]; eauto|auto].
Qed.
Lemma ht_range lo hi t : exact = false -> is_numeric t = true -> Forall (fun v => ht v t) (range_values lo hi).
Proof. intros X H. apply Forall_forall. intros v Hv. apply in_map_iff in Hv as (n & <- & _). split; auto. Qed.
Lemma ht_vseq v q t : ht v t -> seq_of v = Val q -> exists u, t = TSeq u /\ Forall (fun v => ht v u) (vseq_list q) /\
  match q with SVals s => ht (VSeq s) (TSeq u) | SRange _ _ => exact = false /\ is_numeric u = true end.
Proof.
  intros Hv E. apply ht_coerce in Hv. unfold seq_of in E. destruct (coerce_mapped v); try discriminate E; injection E as <-.
  - destruct Hv as (X & u & -> & Y). exists u. split; [reflexivity|]. split; [now apply ht_range|auto].
  - destruct (ht_seq _ _ Hv) as (u & -> & F). exists u. auto.
Qed.
Lemma ht_index s i t v : Forall (fun v => ht v t) (sk_to_list s) -> sk_index s i = Val v -> ht v t.
Proof.
  intros H E. unfold sk_index in E. rewrite sk_get_spec in E. destruct (nth_error _ _) eqn:En; [|discriminate]. injection E as <-.
  rewrite Forall_forall in H. eapply H, nth_error_In, En.
Qed.
Lemma ht_sub s a b r t : ht (VSeq s) t -> sk_sub_seq s a b = Val r -> ht (VSeq r) t.
Proof.
  intros Hs. destruct s as [l|n x]; cbn [sk_sub_seq].
  - destruct (Nat.leb a (length l)); [|discriminate]. destruct (Nat.leb _ _); [|discriminate]. intros [= <-].
    apply ht_strict. apply ht_strict in Hs. destruct Hs as (u & -> & F). exists u. split; [reflexivity|]. now apply Forall_firstn', Forall_skipn'.
  - destruct (Nat.leb _ _); [|discriminate]. intros [= <-]. exact Hs.
Qed.
Lemma ht_inflate hist start t n : Forall (fun v => ht v t) hist -> forall out r, Forall (fun v => ht v t) out -> inflate_loop hist start n out = Val r -> Forall (fun v => ht v t) r.
Proof.
  intros Hh. induction n; cbn [inflate_loop]; intros out r Ho E; [injection E as <-; exact Ho|].
  destruct (Nat.ltb (length out + start) (length hist));
    (destruct (nth_error _ _) eqn:En in E; [|discriminate]; eapply IHn; [|exact E]; apply Forall_app; split; [exact Ho|]; constructor; [|constructor];
     apply nth_error_In in En; rewrite Forall_forall in *; auto).
Qed.
Lemma ht_append s t u : ht (VSeq s) (TSeq u) -> ht (VSeq t) (TSeq u) -> ht (VSeq (sk_append s t)) (TSeq u).
Proof.
  intros Hs Ht. unfold sk_append. destruct (sk_is_empty s); [exact Ht|]. destruct (sk_is_empty t); [exact Hs|].
  apply ht_strict. exists u. split; [reflexivity|]. apply ht_seq in Hs as (? & [= <-] & ?). apply ht_seq in Ht as (? & [= <-] & ?). now apply Forall_app.
Qed.
Lemma ht_int_rel r a b v : value_int_rel r a b = Val v -> ht v (TBase TBool).
Proof.
  intros H. destruct a, b; cbn in H; try discriminate; try (injection H as <-; reflexivity).
  - destruct (bw_eqb w w0); [injection H as <-; reflexivity|discriminate].
  - destruct (get_as_unsigned w c); [injection H as <-; reflexivity|discriminate].
  - destruct (get_as_unsigned w c); [injection H as <-; reflexivity|discriminate].
Qed.
Lemma ht_lambda {D} f G (s : scope D) arg ta v T : ok_body f -> cond (typed_expr f) -> vals_ok G s -> ht arg ta ->
  match f with ELambda x b => infer_expr true ((x, KValue ta) :: G) b | _ => IErr end = IOk T ->
  match f with ELambda x body => omap coerce_mapped (eval body (SSingle s x arg)) | _ => Panic end = Val v -> ht v T.
Proof.
  intros Hb Hc Hs Ha HT E. destruct f; try discriminate. apply omap_val in E as (w & E & ->). apply ht_coerce.
  eapply (Hb _ _ eq_refl); [exact Hc|exact HT| |exact E]. now apply vals_single.
Qed.
Lemma ofoldM_inv {A B} (P : B -> Prop) (f : B -> A -> outcome B) l : (forall acc x y, P acc -> In x l -> f acc x = Val y -> P y) ->
  forall acc r, P acc -> ofoldM f acc l = Val r -> P r.
Proof. apply ofoldM_wf. Qed.
Lemma ht_strict_seq v q t : ht v t -> strict_seq v = Val q -> exists u, t = TSeq u /\ Forall (fun v => ht v u) (sk_to_list q) /\ ht (VSeq q) t.
Proof. intros Hv E. destruct v; try discriminate E. injection E as <-. destruct (ht_seq _ _ Hv) as (u & -> & F). eauto. Qed.
Lemma ht_pair a b t u : ht a t -> ht b u -> ht (VTuple [a; b]) (TTuple [t; u]).
Proof. intros. apply ht_tuple. eexists. split; [reflexivity|]. repeat constructor; auto. Qed.

Ltac inv_i := repeat match goal with
  | H : ibind _ _ = IOk _ |- _ => let E := fresh "J" in apply ibind_ok in H; destruct H as (? & E & H)
  | H : IOk _ = IOk _ |- _ => injection H as <-
  end.
Ltac inv_v := repeat match goal with
  | H : omap _ _ = Val _ |- _ => apply omap_val in H; destruct H as (? & H & ->)
  | H : obind _ _ = Val _ |- _ => let E := fresh "E" in apply obind_val in H; destruct H as (? & E & H)
  | H : Val _ = Val _ |- _ => injection H as <-
  end.
Ltac conds := repeat match goal with H : cond (_ && _) |- _ => apply cond_and in H; destruct H end.
Ltac fwd := repeat match goal with
  | HE : eval ?e ?s = Val ?x, HP : ok_eval ?e, Hc : cond (typed_expr ?e), HT : infer_expr true ?G ?e = IOk ?t, Hs : vals_ok ?G ?s |- _ =>
    let G := fresh "W" in pose proof (HP _ _ _ _ _ Hc HT Hs HE) as G;
    let G2 := fresh "W" in pose proof (ht_coerce _ _ G) as G2; clear HE
  end.
Lemma eval_ok e : ok_eval e /\ ok_body e.
Proof.
  induction e using expr_ind'; (split; [intros D G s T v Hc HT Hs E|intros x0 b0 E0; try discriminate; injection E0 as <- <-; tauto]);
    repeat match goal with H : ok_eval _ /\ ok_body _ |- _ => destruct H end;
    cbn [typed_expr] in Hc; cbn [eval] in E; cbn [infer_expr] in HT; conds.
  - (* var *) destruct (get_value x s) eqn:Ev; [|discriminate]. injection E as <-. unfold tvar in HT. destruct (get_type G x) as [[t| |t]|] eqn:Et; try discriminate HT.
    injection HT as <-. eapply Hs; eauto.
  - injection HT as <-. injection E as <-. reflexivity.
  - injection HT as <-. injection E as <-. now left.
  - (* tuple *) inv_i. inv_v. apply ht_tuple. eexists. split; [reflexivity|]. apply imapM_ok in J. apply omapM_ok in E.
    eapply Forall2_join; [exact E|exact J|]. intros e y t Hin Ey Et. cbn beta in Ey, Et. inv_v. apply ht_coerce. apply cond_all in Hc. rewrite Forall_forall in *.
    destruct (H e Hin) as [He _]. eapply He; eauto.
  - (* projection *) inv_i. inv_v. fwd. destruct x as [| | | | | | |ts| | | |]; try discriminate HT. destruct (nth_error ts i) as [u|] eqn:Eu; [|discriminate HT]. injection HT as <-.
    destruct (coerce_mapped x0); try discriminate E; cbn in E; [|injection E as <-; exact I].
    destruct (nth_error vs i) eqn:En; [|discriminate E]. injection E as <-. apply ht_tuple in W0 as (? & [= <-] & F).
    destruct (ht_nth _ _ _ _ F En) as (u' & Eu' & Hu). congruence.
  - (* record *) inv_i. inv_v. apply ht_record. eexists. split; [reflexivity|]. apply imapM_ok in J. apply omapM_ok in E.
    eapply Forall2_join; [exact E|exact J|]. intros [l e] y [l' t] Hin Ey Et. cbn beta iota in Ey, Et. inv_v. apply ibind_ok in Et as (t' & Et & Et2). injection Et2 as <- <-. split; [reflexivity|]. cbn [fst snd].
    apply cond_all in Hc. rewrite Forall_forall in *. destruct (H _ Hin) as [He _]. eapply He; eauto. exact (Hc _ Hin).
  - (* field *) inv_i. inv_v. fwd. unfold type_record_proj in HT. destruct x as [| | | | | | | |ts| | |]; try discriminate HT. destruct (assoc l ts) as [u|] eqn:Eu; [|discriminate HT]. injection HT as <-.
    destruct (coerce_mapped x0); try discriminate E; cbn in E; [|injection E as <-; exact I].
    destruct (assoc l fs) eqn:En; [|discriminate E]. injection E as <-. apply ht_record in W0 as (? & [= <-] & F).
    destruct (ht_assoc _ _ _ _ F En) as (u' & Eu' & Hu). congruence.
  - (* variant *) inv_i. inv_v. fwd. cbn. do 2 eexists. split; [reflexivity|]. cbn. rewrite N.eqb_refl. split; [reflexivity|assumption].
  - (* seq *) inv_i. inv_v. apply ht_strict. eexists. split; [reflexivity|]. destruct (fold_unify _ _ _ _ J) as [_ F].
    apply Forall_forall. intros y Hy. apply omapM_ok in E.
    assert (Hex : exists e, In e es /\ omap coerce_mapped (eval e s) = Val y).
    { clear -E Hy. induction E as [|a b l m E1 E2 IH]; [contradiction|]. destruct Hy as [<-|Hy]; [exists a; cbn; auto|]. destruct (IH Hy) as (e & He & Ee). exists e. cbn. auto. }
    destruct Hex as (e & He & Ee). inv_v. destruct (F e He) as (u & Eu & Fu). apply ht_coerce, Fu. apply cond_all in Hc. rewrite Forall_forall in *.
    destruct (H e He) as [Hq _]. eapply Hq; eauto.
  - (* numeric *) destruct (neval (num_look s) n) as [c| |] eqn:En; try discriminate E. injection E as <-. eapply num_ok; eauto.
  - (* match *) match type of HT with match bs with [] => _ | _ :: _ => ?y end = _ => assert (HT' : y = IOk T) by (destruct bs; [discriminate HT|exact HT]); clear HT; rename HT' into HT end.
    inv_i. inv_v. fwd.
    assert (F : ifoldM (fun t b => ibind ((fun b : pattern * expr => ibind (build_scope (fst b) x G) (fun G' => infer_expr true G' (snd b))) b) (fun u => unify_i t u)) TAny bs = IOk T)
      by (erewrite ifoldM_ext; [exact HT|]; intros t [p b]; reflexivity).
    apply fold_unify in F as [_ F]. match goal with X : cond (forallb _ bs) |- _ => apply cond_all in X; rename X into Hb end.
    clear HT. induction bs as [|[p b] bs IH]; [discriminate E|]. inversion H as [|? ? [Hp _] Hps]; subst. inversion Hb as [|? ? Hcb Hbs]; subst.
    destruct (vmatches x0 s p) as [s'|] eqn:Em.
    + inv_v. destruct (F (p, b) (or_introl eq_refl)) as (u & Eu & Fu). cbn [fst snd] in Eu. apply ibind_ok in Eu as (G' & EG & Eu). apply ht_coerce, Fu. cbn [snd] in Hp.
      refine (Hp _ G' s' u _ Hcb Eu _ E). eapply vals_matches; [exact Hs|exact EG|exact W|exact Em].
    + apply IH; auto. intros y Hy. apply F. now right.
  - (* destructure *) inv_i. inv_v. fwd. destruct (vmatches x1 s p) as [s'|] eqn:Em; [|discriminate E]. inv_v. apply ht_coerce.
    match goal with X : ok_eval e2 |- _ => eapply X; eauto end. eapply vals_matches; [exact Hs|eassumption|exact W|exact Em].
  - discriminate E.
  - (* rel *) inv_i. inv_v. eapply ht_int_rel; eauto.
  - (* arith *)
    assert (A : (op = ABoolAnd \/ op = ABoolOr) \/ (cond (typed_expr e1 && typed_expr e2) /\
      ibind (infer_expr true G e1) (fun ta => ibind (infer_expr true G e2) (fun tb =>
        match unify ta tb with Some t => if is_numeric t then IOk t else IErr | None => IErr end)) = IOk T))
      by (destruct op; auto).
    inv_v. destruct A as [[-> | ->]|[Hc' HT']].
    + inv_i. destruct (_ && _)%bool; [|discriminate HT]. injection HT as <-. cbn in E. do 2 (match type of E with match ?a with _ => _ end = _ => destruct a; try discriminate E end). now injection E as <-.
    + inv_i. destruct (_ && _)%bool; [|discriminate HT]. injection HT as <-. cbn in E. do 2 (match type of E with match ?a with _ => _ end = _ => destruct a; try discriminate E end). now injection E as <-.
    + clear Hc HT. conds. apply ibind_ok in HT' as (ta & Ha & HT). apply ibind_ok in HT as (tb & Hb & HT). destruct (unify ta tb) as [t|] eqn:U; [|discriminate HT].
      destruct (is_numeric t) eqn:Nt; [|discriminate HT]. injection HT as <-.
      pose proof (ht_unify _ _ _ _ U (or_introl (ht_coerce _ _ (H1 _ _ _ _ _ H3 Ha Hs E0)))) as A.
      assert (R : (exists w n, coerce_mapped x0 = VU w n /\ exists m, v = VU w m) \/ (exists n m, coerce_mapped x0 = VUsize n /\ v = VUsize m) \/ op = ABoolAnd \/ op = ABoolOr).
      { destruct (coerce_mapped x0) as [|w n| |n| | | | | | | | | | | | |]; destruct op; try discriminate E; auto;
          destruct (coerce_mapped x1) as [|w' n'| |n'| | | | | | | | | | | | |]; try discriminate E; cbn [value_arith] in E;
          try (destruct (bw_eqb _ _); [|discriminate E]); apply omap_val in E as (m & _ & ->); eauto 7. }
      destruct R as [(w & n & Ex & m & ->)|[(n & m & Ex & ->)|R]].
      * rewrite Ex in A. exact A.
      * rewrite Ex in A. exact A.
      * exfalso. destruct R as [-> | ->]; cbn in E; destruct (coerce_mapped x0) eqn:Ex; try discriminate E; cbn in A; subst t; discriminate Nt.
  - (* unary *) inv_v. destruct op.
    + inv_i. destruct (is_bool x) eqn:B; [|discriminate HT]. injection HT as <-. cbn in E. destruct (coerce_mapped x0); try discriminate E. injection E as <-.
      destruct x as [| | | |[]| | | | | | |]; try discriminate B. reflexivity.
    + inv_i. fwd. destruct (is_numeric x); [|discriminate HT]. injection HT as <-. cbn [value_unary] in E. destruct (coerce_mapped x0); try discriminate E; apply omap_val in E as (m & _ & ->); exact W0.
    + inv_i. fwd. destruct (is_numeric x); [|discriminate HT]. injection HT as <-. cbn [value_unary] in E. destruct (coerce_mapped x0); try discriminate E; apply omap_val in E as (m & _ & ->); exact W0.
  - (* as *) inv_i. inv_v. destruct (is_numeric x); [|discriminate HT]. injection HT as <-.
    match type of E with value_as _ ?y = _ => destruct y; try discriminate E end; cbn [value_as] in E; apply omap_val in E as (m & _ & ->); now left.
  - (* char *) inv_i. inv_v. destruct (is_numeric x); [|discriminate HT]. injection HT as <-.
    match type of E with value_as_char ?y = _ => destruct y as [|[]| | | | | | | | | | | | | | |]; try discriminate E end; cbn [value_as_char] in E;
      try (destruct (N.ltb _ _); [|discriminate E]); now injection E as <-.
  - (* bytes *) inv_i. inv_v. destruct x as [| | | | | | |ts| | | |]; try discriminate HT. destruct (_ && _)%bool; [|discriminate HT]. injection HT as <-.
    unfold value_from_bytes in E. inv_v. match type of E with match ?y with _ => _ end = _ => destruct y; [|discriminate E] end.
    destruct (Nat.eqb _ _); [|discriminate E]. injection E as <-. now left.
  - (* length *) inv_i. inv_v. now left.
  - (* sub *) inv_i. inv_v. fwd. destruct x as [| | | | | | | | | |t|]; try discriminate HT. inv_i.
    match goal with X : seq_of ?y = Val _, Z : ht ?y _ |- _ => destruct (ht_vseq _ _ _ Z X) as (u & [= <-] & F & Q) end.
    destruct x1 as [sq|lo hi]; cbn [seq_sub] in E; inv_v; [eapply ht_sub; eauto|]. cbn. split; [apply Q|]. exists t. split; [reflexivity|apply Q].
  - (* index *) inv_i. inv_v. fwd. destruct (is_u B32 _); [|discriminate HT]. injection HT as <-. 
    match goal with X : seq_of ?y = Val _, Z : ht ?y _ |- _ => destruct (ht_vseq _ _ _ Z X) as (u & -> & F & Q) end.
    match goal with X : elem_type _ = IOk _ |- _ => injection X as <- end.
    match type of E with seq_ix ?q _ = _ => destruct q as [sq|lo hi] end; cbn [seq_ix] in E; [eapply ht_index; eauto|].
    destruct (N.ltb _ _); [|discriminate E]. injection E as <-. exact Q.
  - (* inflate *) inv_i. inv_v. fwd. destruct x as [| | | | | | | | | |t|]; try discriminate HT. inv_i.
    match goal with X : seq_of ?y = Val _, Z : ht ?y _ |- _ => destruct (ht_vseq _ _ _ Z X) as (u & [= <-] & F & Q) end.
    unfold seq_inflate in E. inv_v. apply ht_strict. exists t. split; [reflexivity|]. eapply ht_inflate; [exact F| |exact E]. constructor.
  - (* flat map *) inv_i. inv_v. fwd.
    match goal with X : seq_of ?y = Val _, Z : ht ?y _ |- _ => destruct (ht_vseq _ _ _ Z X) as (u & -> & F & Q) end.
    match goal with X : elem_type (TSeq u) = IOk _ |- _ => injection X as <- end.
    match goal with X : elem_type ?y = IOk _ |- _ => destruct y as [| | | | | | | | | |r|]; try discriminate X; clear X end.
    apply ht_strict. exists r. split; [reflexivity|]. match type of E with omapM _ (vseq_list ?y) = Val ?z => rename y into qs; rename z into ls end. apply omapM_ok in E.
    assert (A : Forall (Forall (fun v => ht v r)) ls).
    { apply Forall_forall. intros ys Hys.
      assert (Hex : exists a, In a (vseq_list qs) /\ obind match e1 with ELambda y b => omap coerce_mapped (eval b (SSingle s y a)) | _ => Panic end flat_elems = Val ys).
      { clear -E Hys. induction E as [|a b l m E1 E2 IH]; [contradiction|]. destruct Hys as [<-|Hys]; [exists a; cbn; auto|]. destruct (IH Hys) as (a' & ? & ?). exists a'. cbn. auto. }
      destruct Hex as (a & Ha & Ea). inv_v. rewrite Forall_forall in F.
      match goal with X : match e1 with ELambda _ _ => _ | _ => _ end = Val ?w |- _ => assert (B : ht w (TSeq r)) by (eapply ht_lambda; [| | |exact (F a Ha)| |exact X]; eassumption); clear X end.
      match type of Ea with flat_elems ?w = _ => destruct w; try discriminate Ea end; injection Ea as <-.
      - destruct B as (X & w & [= <-] & Y). now apply ht_range.
      - apply ht_seq in B as (w & [= <-] & B). exact B. }
    clear -A. induction A; cbn; [constructor|]. apply Forall_app. auto.
  - (* flat map accum *) inv_i. inv_v. fwd.
    match goal with X : strict_seq ?y = Val _, Z : ht ?y _ |- _ => destruct (ht_strict_seq _ _ _ Z X) as (u & -> & F & _) end.
    match goal with X : elem_type (TSeq u) = IOk _ |- _ => injection X as <- end.
    match type of HT with match ?y with _ => _ end = _ => destruct y as [| | | | | | |[|ra [|[| | | | | | | | | |r2|] [|]]]| | | |]; try discriminate HT end. inv_i.
    apply ht_strict. exists r2. split; [reflexivity|].
    match type of E with ofoldM _ (_, []) _ = Val ?w => rename w into st end.
    match goal with X : covers true ?y ra = IOk ?z |- _ => destruct z; rename y into acc; rename X into Hcov end.
    assert (HF : ht (fst st) acc /\ Forall (fun v => ht v r2) (snd st)).
    { eapply (ofoldM_inv (fun st : value * list value => ht (fst st) acc /\ Forall (fun v => ht v r2) (snd st))); [| |exact E].
      - intros [a out] y z [Ha Ho] Hin Ey. cbn [fst snd] in *. inv_v. rewrite Forall_forall in F.
        match goal with X : match e1 with ELambda _ _ => _ | _ => _ end = Val ?w |- _ => assert (B : ht w (TTuple [ra; TSeq r2])) by (eapply ht_lambda; [| | |exact (ht_pair _ _ _ _ Ha (F y Hin))| |exact X]; eassumption); clear X end.
        match goal with X : accum_pair ?w = Val ?pr |- _ => unfold accum_pair in X; destruct w; try discriminate X; cbn in X; destruct vs as [|a1 [|[] [|]]]; try discriminate X; injection X as <- end.
        apply ht_tuple in B as (ts & [= <-] & B). inversion B as [|? ? ? ? B1 B2]; subst. inversion B2 as [|? ? ? ? B3 B4]; subst. cbn [fst snd].
        split; [eapply ht_covers; eauto|]. apply Forall_app. split; [exact Ho|]. apply ht_seq in B3 as (? & [= <-] & B3). exact B3.
      - split; [|constructor]. cbn [fst]. match goal with X : unify_i _ _ = IOk acc |- _ => eapply ht_unify_i; [exact X|left; eassumption] end. }
    apply HF.
  - (* flat map list *) inv_i. inv_v. fwd.
    match goal with X : strict_seq ?y = Val _, Z : ht ?y _ |- _ => destruct (ht_strict_seq _ _ _ Z X) as (u & -> & F & _) end.
    match goal with X : elem_type (TSeq u) = IOk _ |- _ => injection X as <- end.
    match goal with X : elem_type ?y = IOk ?z |- _ => destruct y as [| | | | | | | | | |r|]; try discriminate X; injection X as <- end.
    match goal with X : covers true _ r = IOk ?z |- _ => destruct z; rename X into Hcov end.
    apply ht_strict. exists r. split; [reflexivity|].
    eapply (ofoldM_inv (Forall (fun v => ht v r))); [| |exact E]; [|constructor].
    intros acc y z Ha Hin Ey. cbv beta in Ey. inv_v. rewrite Forall_forall in F.
    assert (Hacc : ht (VSeq (Strict acc)) (TSeq t)) by (apply ht_strict; exists t; split; [reflexivity|]; eapply Forall_impl; [|exact Ha]; intros ? ?; eapply ht_covers; eauto).
    match goal with X : match e1 with ELambda _ _ => _ | _ => _ end = Val ?w |- _ => assert (B : ht w (TSeq r)) by (eapply ht_lambda; [| | |exact (ht_pair _ _ _ _ Hacc (F y Hin))| |exact X]; eassumption); clear X end.
    match goal with X : strict_seq ?w = Val _, B : ht ?w (TSeq r) |- _ => destruct (ht_strict_seq _ _ _ B X) as (? & [= <-] & B' & _) end. apply Forall_app. split; assumption.
  - (* find *) inv_i. inv_v. fwd.
    match goal with X : strict_seq ?y = Val _, Z : ht ?y _ |- _ => destruct (ht_strict_seq _ _ _ Z X) as (u & -> & F & _) end.
    match goal with X : elem_type (TSeq u) = IOk _ |- _ => injection X as <- end.
    destruct (is_base_num _); [|discriminate HT]. injection HT as <-.
    destruct b.
    + match type of E with match ?c with Some _ => _ | None => _ end = _ => destruct c; [|discriminate E] end. inv_v.
      match goal with o : option nat |- _ => destruct o end; inv_v; cbn; [|eauto]. eexists. split; [reflexivity|]. eapply ht_index; eauto.
    + inv_v. match goal with o : option nat |- _ => destruct o end; inv_v; cbn; [|eauto]. eexists. split; [reflexivity|]. eapply ht_index; eauto.
  - (* range *) inv_i. inv_v. destruct (is_numeric x) eqn:N1; [|discriminate HT]. inv_i. cbn. split.
    + unfold cond in Hc. destruct exact; [discriminate (Hc eq_refl)|reflexivity].
    + eexists. split; [reflexivity|]. match goal with X : unify_i ?a ?b = IOk _ |- _ => unfold unify_i in X; destruct (unify a b) eqn:U; [|discriminate X]; injection X as <- end.
      eapply unify_num; eauto.
  - (* fold *) inv_i. inv_v. fwd.
    match goal with X : strict_seq ?y = Val _, Z : ht ?y _ |- _ => destruct (ht_strict_seq _ _ _ Z X) as (u & -> & F & _) end.
    match goal with X : elem_type (TSeq u) = IOk _ |- _ => injection X as <- end.
    match goal with X : covers true ?y ?r = IOk ?z |- _ => destruct z; rename y into acc; rename r into tr; rename X into Hcov end.
    assert (B : ht v acc).
    { eapply (ofoldM_inv (fun v => ht v acc)); [| |exact E].
      - intros a y z Ha Hin Ey. rewrite Forall_forall in F. eapply ht_covers; [exact Hcov|]. eapply ht_lambda; [| | |exact (ht_pair _ _ _ _ Ha (F y Hin))| |exact Ey]; eassumption.
      - match goal with X : unify_i _ _ = IOk acc |- _ => eapply ht_unify_i; [exact X|left; eassumption] end. }
    match goal with X : unify_i tr acc = IOk _ |- _ => eapply ht_unify_i; [exact X|right; exact B] end.
  - (* dup *) inv_i. destruct (is_u B32 _); [|discriminate HT]. inv_i. inv_v. fwd. cbn. eauto.
  - inv_i. inv_v. cbn. eauto.
  - inv_i. inv_v. fwd. cbn. eauto.
  - (* append *) inv_i. inv_v. fwd. destruct x as [| | | | | | | | | |t1|]; try discriminate HT. destruct x0 as [| | | | | | | | | |t2|]; try discriminate HT. inv_i.
    match goal with X : seq_of x1 = Val ?y |- _ => destruct (ht_vseq x1 y (TSeq t1) ltac:(assumption) X) as (? & [= <-] & _ & Q1) end.
    match goal with X : seq_of x2 = Val ?y |- _ => destruct (ht_vseq x2 y (TSeq t2) ltac:(assumption) X) as (? & [= <-] & _ & Q2) end.
    match goal with X : unify_i t1 t2 = IOk ?y |- _ => unfold unify_i in X; destruct (unify t1 t2) as [t|] eqn:U; [|discriminate X]; injection X as <- end.
    assert (US : unify (TSeq t1) (TSeq t2) = Some (TSeq t)) by (cbn; now rewrite U).
    match type of E with (if ?c then _ else _) = _ => destruct c end; [injection E as <-; eapply ht_unify; [exact US|right; assumption]|].
    match type of E with (if ?c then _ else _) = _ => destruct c end; [injection E as <-; eapply ht_unify; [exact US|left; assumption]|].
    inv_v. unfold vseq_append in E. destruct x3 as [q1|], x4 as [q2|]; try discriminate E. injection E as <-.
    apply ht_append; (eapply ht_unify; [exact US|]); auto.
Qed.
End Typed.
