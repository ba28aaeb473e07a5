From Coq Require Import String.
From Verif Require Import Base LayoutModel LayoutSpec LayoutProofs.
Open Scope nat_scope.

Scheme structural_mut := Induction for structural Sort Prop
  with structurals_mut := Induction for structurals Sort Prop.
Scheme copyable_mut := Induction for copyable Sort Prop
  with copyables_mut := Induction for copyables Sort Prop.
Scheme aligned_mut := Minimality for aligned Sort Prop
  with aligneds_mut := Minimality for aligneds Sort Prop.
Scheme spare_mut := Minimality for spare Sort Prop
  with spares_mut := Minimality for spares Sort Prop
  with variant_spares_mut := Minimality for variant_spares Sort Prop.
Scheme sized_mut := Minimality for sized Sort Prop
  with sizeds_mut := Minimality for sizeds Sort Prop
  with variant_sizeds_mut := Minimality for variant_sizeds Sort Prop.
Scheme takes_mut := Minimality for takes Sort Prop
  with all_take_mut := Minimality for all_take Sort Prop.

Fixpoint rtype_ind' (P : rtype -> Prop)
    (Hp : forall p, P (YPrim p)) (Hs : forall m, P (YSigned m))
    (Hv : forall t, P t -> P (YVec t)) (Hr : forall t, P t -> P (YRawSlice t))
    (Ho : forall t, P t -> P (YOption t))
    (He : forall t e, P t -> P e -> P (YResult t e))
    (Hb : forall b t, P t -> P (YBorrow b t)) (Hph : forall t, P t -> P (YPhantom t))
    (Hl : forall ix, P (YLocal ix)) (Hx : P YExternal)
    (Ht : forall ts, Forall P ts -> P (YTuple ts))
    (Hvb : P YVerbatim) (Ha : P YReadArray) (Hvw : P YView) (t : rtype) : P t :=
  let go := rtype_ind' P Hp Hs Hv Hr Ho He Hb Hph Hl Hx Ht Hvb Ha Hvw in
  match t with
  | YPrim p => Hp p
  | YSigned m => Hs m
  | YVec t => Hv t (go t)
  | YRawSlice t => Hr t (go t)
  | YOption t => Ho t (go t)
  | YResult t e => He t e (go t) (go e)
  | YBorrow b t => Hb b t (go t)
  | YPhantom t => Hph t (go t)
  | YLocal ix => Hl ix
  | YExternal => Hx
  | YTuple ts =>
      Ht ts ((fix all ts : Forall P ts :=
                match ts with [] => Forall_nil _ | t :: ts => Forall_cons _ (go t) (all ts) end) ts)
  | YVerbatim => Hvb
  | YReadArray => Ha
  | YView => Hvw
  end.

Section Memo.
  Variable defs : list rdef.

  (** A width answer means: a fixed width is the only number of bytes taken; and if none is
      answered there are several *)
  Definition width_means (P : N -> Prop) (w : vwidth) : Prop :=
    match w with
    | Fixed n => forall m, P m <-> m = n
    | Varying _ => exists m n, m <> n /\ P m /\ P n
    end.

  (** The answers in the table are right *)
  Record inv (c : cache) : Prop := {
    inv_copy : forall ix b, c_copy c ix = Some b -> b = true <-> copyable defs (YLocal ix);
    inv_align : forall ix a, c_align c ix = Some a -> aligned defs (YLocal ix) a;
    inv_niches : forall ix n, c_niches c ix = Some n -> spare defs (YLocal ix) n;
    inv_size : forall ix s, c_size c ix = Some s -> sized defs (YLocal ix) s;
    inv_width : forall ix w, c_width c ix = Some w -> width_means (takes defs (YLocal ix)) w
  }.
  Lemma inv_fresh : inv fresh.
  Proof. constructor; cbn; discriminate. Qed.

  Definition good {A} (m : asking A) (P : A -> Prop) : Prop :=
    forall c, inv c -> match m c with Ans a c' => inv c' /\ P a | _ => True end.
  Lemma good_ret {A} (a : A) (P : A -> Prop) : P a -> good (ret a) P.
  Proof. intros H c Hc. cbn. auto. Qed.
  Lemma good_panic {A} (P : A -> Prop) : good panic P.
  Proof. intros c Hc. cbn. auto. Qed.
  Lemma good_bind {A B} (m : asking A) (k : A -> asking B) P Q :
    good m P -> (forall a, P a -> good (k a) Q) -> good (bind m k) Q.
  Proof.
    intros Hm Hk c Hc. unfold bind. specialize (Hm c Hc). destruct (m c); auto.
    destruct Hm as [H1 H2]. apply Hk; assumption.
  Qed.
  Lemma good_weaken {A} (m : asking A) (P Q : A -> Prop) :
    good m P -> (forall a, P a -> Q a) -> good m Q.
  Proof.
    intros Hm H c Hc. specialize (Hm c Hc). destruct (m c); auto. destruct Hm. auto.
  Qed.
  Lemma good_map {A B} (f : A -> asking B) (R : A -> B -> Prop) l :
    Forall (fun x => good (f x) (R x)) l -> good (map_asked f l) (Forall2 R l).
  Proof.
    induction 1 as [|x l H _ IH]; cbn [map_asked]; [apply good_ret; constructor|].
    eapply good_bind; [exact H|]. intros y Hy. eapply good_bind; [exact IH|].
    intros ys Hys. apply good_ret. constructor; assumption.
  Qed.
  Lemma good_all {A} (f : A -> asking bool) (R : A -> Prop) l :
    Forall (fun x => good (f x) (fun b => b = true <-> R x)) l ->
    good (all_asked f l) (fun b => b = true <-> Forall R l).
  Proof.
    induction 1 as [|x l H _ IH]; cbn [all_asked].
    - apply good_ret. split; auto.
    - eapply good_bind; [exact H|]. intros [|] Hb.
      + eapply good_weaken; [exact IH|]. cbn. intros b Hl. rewrite Hl. split.
        * intros HF. constructor; [apply Hb; reflexivity|exact HF].
        * intros HF. inversion HF. assumption.
      + apply good_ret. split; [discriminate|]. intros HF. inversion HF; subst.
        apply Hb. assumption.
  Qed.
  Lemma good_cache {X} rd wr compute (P : nat -> X -> Prop) ix :
    (forall c ix x, inv c -> rd c ix = Some x -> P ix x) ->
    (forall c ix x, inv c -> P ix x -> inv (wr c ix x)) ->
    (forall d, nth_error defs ix = Some d -> good (compute d) (P ix)) ->
    good (cache_get rd wr defs compute ix) (P ix).
  Proof.
    intros Hrd Hwr Hc c Hi. unfold cache_get.
    destruct (rd c ix) as [x|] eqn:E; [split; [exact Hi|eauto]|].
    destruct (nth_error defs ix) as [d|] eqn:Ed; [|exact I].
    specialize (Hc d eq_refl c Hi). destruct (compute d c); auto.
    destruct Hc as [H1 H2]. auto.
  Qed.

  Lemma put_some {X} (f : nat -> option X) ix x j y (P : nat -> X -> Prop) :
    (forall j y, f j = Some y -> P j y) -> P ix x -> put f ix x j = Some y -> P j y.
  Proof.
    intros H1 H2. unfold put. destruct (Nat.eqb_spec j ix) as [-> | _]; [|apply H1].
    intros E. injection E as <-. exact H2.
  Qed.

  (** *** Copy *)

  Lemma copyables_Forall ts : copyables defs ts <-> Forall (copyable defs) ts.
  Proof.
    split; [induction 1; constructor; assumption|].
    induction 1; constructor; assumption.
  Qed.
  Definition copy_right (local : nat -> asking bool) : Prop :=
    forall ix, good (local ix) (fun b => b = true <-> copyable defs (YLocal ix)).
  Lemma copy_type_good local t :
    copy_right local -> good (copy_type local t) (fun b => b = true <-> copyable defs t).
  Proof.
    intros Hl. induction t using rtype_ind'; cbn [copy_type];
      try (apply good_ret; split; [intros _; constructor|auto]; fail);
      try (apply good_panic).
    - apply good_ret. split; [discriminate|]. intros H. inversion H.
    - eapply good_weaken; [exact IHt|]. cbn. intros b ->. split; [constructor; assumption|].
      intros H. inversion H. assumption.
    - eapply good_bind; [exact IHt1|]. intros [|] Hb.
      + eapply good_weaken; [exact IHt2|]. cbn. intros b Hb'. rewrite Hb'. split.
        * intros H. constructor; [apply Hb; reflexivity|exact H].
        * intros H. inversion H. assumption.
      + apply good_ret. split; [discriminate|]. intros H. inversion H; subst. apply Hb. assumption.
    - destruct b; [apply good_panic|]. apply good_ret. split; [intros _; constructor|auto].
    - apply Hl.
    - eapply good_weaken; [apply (good_all _ (copyable defs)); exact H|]. cbn. intros b ->.
      rewrite <- copyables_Forall. split; [constructor; assumption|].
      intros HH. inversion HH. assumption.
  Qed.
  Lemma copy_def_good local d :
    copy_right local -> good (copy_def local d) (fun b => b = true <-> Forall (copyable defs) (parts d)).
  Proof.
    intros Hl. destruct d as [vs | fields]; cbn [copy_def parts].
    - eapply good_weaken.
      + apply (good_all _ (fun v => Forall (copyable defs) (contents v))).
        apply Forall_forall. intros v _. destruct v as [|ts]; cbn [copy_variant contents].
        * apply good_ret. split; auto.
        * apply (good_all _ (copyable defs)). apply Forall_forall. intros t _.
          apply copy_type_good. exact Hl.
      + cbn. intros b ->. rewrite Forall_flat_map. reflexivity.
    - apply (good_all _ (copyable defs)). apply Forall_forall. intros t _.
      apply copy_type_good. exact Hl.
  Qed.
  Lemma copyable_local ix d :
    nth_error defs ix = Some d ->
    copyable defs (YLocal ix) <-> Forall (copyable defs) (parts d).
  Proof.
    intros Hd. rewrite <- copyables_Forall. split.
    - intros H. inversion H. congruence.
    - intros H. econstructor; eassumption.
  Qed.
  Lemma get_copy_good fuel : copy_right (get_copy fuel defs).
  Proof.
    induction fuel as [|fuel IH]; intros ix; [intros c _; exact I|]. cbn [get_copy].
    apply (good_cache _ _ _ (fun ix b => b = true <-> copyable defs (YLocal ix))).
    - intros c j x Hc. apply inv_copy. exact Hc.
    - intros c j x Hc Hx. destruct Hc. constructor; auto. cbn. intros k y.
      apply (put_some _ _ _ _ _ (fun ix b => b = true <-> copyable defs (YLocal ix))); auto.
    - intros d Hd. eapply good_weaken; [apply copy_def_good; exact IH|].
      cbn. intros b ->. symmetry. apply copyable_local. exact Hd.
  Qed.

  (** *** Alignments *)

  Lemma scalar_align p : prim_align p = snd (scalar p).
  Proof. destruct p; try reflexivity. Qed.
  Lemma scalar_size p : prim_size p = fst (scalar p).
  Proof. destruct p; try reflexivity. Qed.
  Lemma mint_bytes_spec m : mint_bytes m = int_bytes m.
  Proof. destruct m; reflexivity. Qed.

  Lemma aligneds_Forall2 ts l : aligneds defs ts l <-> Forall2 (aligned defs) ts l.
  Proof. split; induction 1; constructor; assumption. Qed.
  Definition align_right (local : nat -> asking N) : Prop :=
    forall ix, good (local ix) (aligned defs (YLocal ix)).
  Lemma align_type_good local t :
    align_right local -> good (align_type local t) (aligned defs t).
  Proof.
    intros Hl. induction t using rtype_ind'; cbn [align_type];
      try (apply good_ret; constructor; fail); try (apply good_panic).
    - apply good_ret. rewrite scalar_align. constructor.
    - eapply good_weaken; [exact IHt|]. intros a Ha. constructor. exact Ha.
    - apply Hl.
    - eapply good_bind; [apply good_map; exact H|]. intros l HF. apply good_ret.
      econstructor; [apply aligneds_Forall2; exact HF|apply max1_largest].
  Qed.
  Lemma align_parts_good local ts :
    align_right local -> good (map_asked (align_type local) ts) (Forall2 (aligned defs) ts).
  Proof.
    intros Hl. apply good_map. apply Forall_forall. intros t _. apply align_type_good. exact Hl.
  Qed.
  Lemma align_variant_good local v :
    align_right local -> good (align_variant local v)
      (fun a => exists l, Forall2 (aligned defs) (contents v) l /\ largest 1 l a).
  Proof.
    intros Hl. destruct v as [|ts]; cbn [align_variant contents].
    - apply good_ret. exists []. split; [constructor|]. apply (max1_largest []).
    - eapply good_bind; [apply align_parts_good; exact Hl|]. intros l HF. apply good_ret.
      exists l. split; [exact HF|apply max1_largest].
  Qed.
  Lemma variants_aligned vs ms :
    Forall2 (fun v a => exists l, Forall2 (aligned defs) (contents v) l /\ largest 1 l a) vs ms ->
    exists l, aligneds defs (flat_map contents vs) l /\ largest 1 l (max1 ms).
  Proof.
    intros HF.
    assert (exists ls, Forall2 (fun v l => Forall2 (aligned defs) (contents v) l) vs ls /\
                       Forall2 (largest 1) ls ms) as (ls & H1 & H2).
    { induction HF as [|v a vs ms (l & Hl & Ha) _ (ls & IH1 & IH2)].
      - exists []. split; constructor.
      - exists (l :: ls). split; constructor; assumption. }
    exists (concat ls). split; [|apply largest_concat; exact H2].
    apply aligneds_Forall2. clear - H1. induction H1; cbn; [constructor|].
    apply Forall2_app; assumption.
  Qed.
  Lemma align_def_good local ix d :
    align_right local -> nth_error defs ix = Some d ->
    good (align_def local d) (aligned defs (YLocal ix)).
  Proof.
    intros Hl Hd. destruct d as [vs | fields]; cbn [align_def].
    - eapply good_bind.
      + apply good_map. apply Forall_forall. intros v _. apply (align_variant_good local v Hl).
      + intros ms HF. apply good_ret. apply variants_aligned in HF as (l & H1 & H2).
        econstructor; eassumption.
    - eapply good_bind; [apply align_parts_good; exact Hl|]. intros l HF. apply good_ret.
      econstructor; [exact Hd| |apply max1_largest]. apply aligneds_Forall2. exact HF.
  Qed.
  Lemma get_align_good fuel : align_right (get_align fuel defs).
  Proof.
    induction fuel as [|fuel IH]; intros ix; [intros c _; exact I|]. cbn [get_align].
    apply (good_cache _ _ _ (fun ix a => aligned defs (YLocal ix) a)).
    - intros c j x Hc. apply inv_align. exact Hc.
    - intros c j x Hc Hx. destruct Hc. constructor; auto. cbn. intros k y.
      apply (put_some _ _ _ _ _ (fun ix a => aligned defs (YLocal ix) a)); auto.
    - intros d Hd. apply align_def_good; assumption.
  Qed.

  Lemma aligned_cases t a : aligned defs t a -> (a = 1 \/ a = 2 \/ a = 4 \/ a = 8)%N.
  Proof.
    intros H. revert t a H.
    apply (aligned_mut defs
      (fun _ a => a = 1 \/ a = 2 \/ a = 4 \/ a = 8)%N
      (fun _ l => forall a, In a l -> a = 1 \/ a = 2 \/ a = 4 \/ a = 8)%N); try (intros; auto; fail).
    - intros []; cbn; auto. destruct m; cbn; auto.
    - intros []; cbn; auto.
    - intros ix d l a _ _ IH [[<- | H] _]; auto.
    - intros ts l a _ IH [[<- | H] _]; auto.
    - intros a [].
    - intros t ts a l _ IH1 _ IH2 b [<- | H]; auto.
  Qed.
  Lemma aligned_pow2 t a : aligned defs t a -> pow2 a.
  Proof.
    intros H. apply aligned_cases in H as [-> | [-> | [-> | ->]]];
      [exists 0%N|exists 1%N|exists 2%N|exists 3%N]; reflexivity.
  Qed.
  Lemma aligned_det t a : aligned defs t a -> forall a', aligned defs t a' -> a = a'.
  Proof.
    intros H. revert t a H.
    apply (aligned_mut defs
      (fun t a => forall a', aligned defs t a' -> a = a')
      (fun ts l => forall l', aligneds defs ts l' -> l = l'));
      try (intros; match goal with H : aligned _ _ _ |- _ => inversion H end; subst; auto; fail).
    - intros ix d l a Hd _ IH Ha a' H. inversion H; subst.
      assert (d0 = d) by congruence. subst. apply IH in H2. subst.
      eapply largest_det; eassumption.
    - intros ts l a _ IH Ha a' H. inversion H; subst. apply IH in H1. subst.
      eapply largest_det; eassumption.
    - intros l' H. inversion H. reflexivity.
    - intros t ts a l _ IH1 _ IH2 l' H. inversion H; subst. f_equal; auto.
  Qed.
  Lemma aligneds_det ts l l' : aligneds defs ts l -> aligneds defs ts l' -> l = l'.
  Proof.
    intros H. revert l'. induction H; intros l' H'; inversion H'; subst; [reflexivity|].
    f_equal; [eapply aligned_det; eassumption|auto].
  Qed.

  (** *** Niches *)

  Lemma scalar_niches_spec p : prim_niches p = scalar_niches p.
  Proof. destruct p; reflexivity. Qed.
  Lemma spares_Forall2 ts l : spares defs ts l <-> Forall2 (spare defs) ts l.
  Proof. split; induction 1; constructor; assumption. Qed.
  Definition niches_right (local : nat -> asking N) : Prop :=
    forall ix, good (local ix) (spare defs (YLocal ix)).
  Lemma tag_niches_good t a :
    spare defs t 0 -> aligned defs t a -> good (tag_niches a) (spare defs (YOption t)).
  Proof.
    intros Hs Ha. unfold tag_niches.
    destruct (aligned_cases _ _ Ha) as [-> | [-> | [-> | ->]]]; apply good_ret;
      apply (sp_tag defs t _ Hs Ha).
  Qed.
  Lemma niches_type_good align local t :
    align_right align -> niches_right local ->
    good (niches_type align local t) (spare defs t).
  Proof.
    intros Ha Hl. induction t using rtype_ind'; cbn [niches_type];
      try (apply good_ret; constructor; fail); try (apply good_panic).
    - eapply good_bind; [exact IHt|]. intros n Hn. destruct (N.eqb_spec n 0) as [-> | H0].
      + eapply good_bind; [apply align_type_good; exact Ha|]. intros a Hta.
        apply tag_niches_good; assumption.
      + apply good_ret. constructor. replace (N.succ (n - 1)) with n by lia. exact Hn.
    - apply Hl.
    - eapply good_bind; [apply good_map; exact H|]. intros l HF. apply good_ret.
      rewrite niche_product_spec. constructor. apply spares_Forall2. exact HF.
  Qed.
  Lemma niches_parts_good align local ts :
    align_right align -> niches_right local ->
    good (map_asked (niches_type align local) ts) (spares defs ts).
  Proof.
    intros Ha Hl. eapply good_weaken.
    - apply good_map. apply Forall_forall. intros t _.
      apply (niches_type_good align local t Ha Hl).
    - intros l. apply spares_Forall2.
  Qed.
  Lemma niches_variant_good align local v :
    align_right align -> niches_right local ->
    good (niches_variant align local v)
      (fun n => exists l, spares defs (contents v) l /\ n = joint_niches l).
  Proof.
    intros Ha Hl. destruct v as [|ts]; cbn [niches_variant contents].
    - apply good_ret. exists []. split; [constructor|reflexivity].
    - eapply good_bind; [apply niches_parts_good; assumption|]. intros l HF. apply good_ret.
      exists l. split; [exact HF|apply niche_product_spec].
  Qed.
  Lemma niches_def_good align local ix d :
    align_right align -> niches_right local -> nth_error defs ix = Some d ->
    good (niches_def align local d) (spare defs (YLocal ix)).
  Proof.
    intros Ha Hl Hd. destruct d as [vs | fields]; cbn [niches_def].
    - eapply good_bind.
      + apply good_map. apply Forall_forall. intros v _.
        apply (niches_variant_good align local v Ha Hl).
      + intros ns HF. apply good_ret. rewrite niche_sum_spec. econstructor; [exact Hd|].
        clear - HF. induction HF as [|v n vs ns (l & H1 & ->) _ IH]; constructor; assumption.
    - eapply good_bind; [apply niches_parts_good; assumption|]. intros l HF. apply good_ret.
      rewrite niche_product_spec. econstructor; eassumption.
  Qed.
  Lemma get_niches_good fuel : niches_right (get_niches fuel defs).
  Proof.
    induction fuel as [|fuel IH]; intros ix; [intros c _; exact I|]. cbn [get_niches].
    apply (good_cache _ _ _ (fun ix n => spare defs (YLocal ix) n)).
    - intros c j x Hc. apply inv_niches. exact Hc.
    - intros c j x Hc Hx. destruct Hc. constructor; auto. cbn. intros k y.
      apply (put_some _ _ _ _ _ (fun ix a => spare defs (YLocal ix) a)); auto.
    - intros d Hd. apply niches_def_good; auto. apply get_align_good.
  Qed.

  Lemma spare_det t n : spare defs t n -> forall n', spare defs t n' -> n = n'.
  Proof.
    intros H. revert t n H.
    apply (spare_mut defs
      (fun t n => forall n', spare defs t n' -> n = n')
      (fun ts l => forall l', spares defs ts l' -> l = l')
      (fun vs l => forall l', variant_spares defs vs l' -> l = l'));
      try (intros; match goal with H : spare _ _ _ |- _ => inversion H end; subst; auto; fail).
    - intros t n _ IH n' H. inversion H; subst.
      + apply IH in H1. lia.
      + apply IH in H1. lia.
    - intros t a _ IH Ha n' H. inversion H; subst.
      + apply IH in H1. lia.
      + match goal with H' : aligned defs t ?b |- context [?b] =>
          rewrite (aligned_det _ _ Ha _ H') end. reflexivity.
    - intros ix fields l Hd _ IH n' H. inversion H; subst; [|congruence].
      assert (fields0 = fields) by congruence. subst. apply IH in H2. subst. reflexivity.
    - intros ix vs l Hd _ IH n' H. inversion H; subst; [congruence|].
      assert (vs0 = vs) by congruence. subst. apply IH in H2. subst. reflexivity.
    - intros ts l _ IH n' H. inversion H; subst. apply IH in H1. subst. reflexivity.
    - intros l' H. inversion H. reflexivity.
    - intros t ts n l _ IH1 _ IH2 l' H. inversion H; subst. f_equal; auto.
    - intros l' H. inversion H. reflexivity.
    - intros v vs l ns _ IH1 _ IH2 l' H. inversion H; subst. f_equal; auto. f_equal. auto.
  Qed.

  (** *** Sizes *)

  Definition size_right (local : nat -> asking N) : Prop :=
    forall ix, good (local ix) (sized defs (YLocal ix)).
  Definition part_right (t : rtype) (p : N * N) : Prop :=
    sized defs t (fst p) /\ aligned defs t (snd p).
  Lemma sizeds_Forall2 ts l : sizeds defs ts l <-> Forall2 part_right ts l.
  Proof.
    split.
    - induction 1; constructor; [split; assumption|assumption].
    - induction 1 as [|t [s a] ts l [H1 H2] _ IH]; constructor; assumption.
  Qed.
  (** sizes are multiples of alignments *)
  Lemma sized_divide t s : sized defs t s -> forall a, aligned defs t a -> N.divide a s.
  Proof.
    intros H. revert t s H.
    apply (sized_mut defs
      (fun t s => forall a, aligned defs t a -> N.divide a s)
      (fun _ _ => True) (fun _ _ => True)); auto.
    - intros p a H. inversion H; subst. destruct p; cbn; try (exists 1%N; reflexivity).
      exists 0%N. reflexivity. exists 1%N. lia.
    - intros m a H. inversion H; subst. exists 1%N. lia.
    - intros t a H. inversion H; subst. exists 3%N. reflexivity.
    - intros t n s _ _ IH a H. inversion H; subst. auto.
    - intros t a s _ _ IH Ha b H. inversion H; subst.
      rewrite (aligned_det _ _ Ha _ H1). apply N.divide_add_r; [auto|apply N.divide_refl].
    - intros b t a H. inversion H; subst. exists 1%N. reflexivity.
    - intros t a H. inversion H; subst. exists 0%N. reflexivity.
    - intros ix fields ps a s Hd _ _ Ha Hs b Hb. rewrite (aligned_det _ _ Hb _ Ha).
      eapply least_layout_divide. exact Hs.
    - intros ix vs l m a s Hd _ _ _ Ha Hs b Hb. rewrite (aligned_det _ _ Hb _ Ha). apply Hs.
    - intros ts ps a s _ _ Ha Hs b Hb. rewrite (aligned_det _ _ Hb _ Ha).
      eapply least_layout_divide. exact Hs.
    - intros a H. inversion H; subst. exists 5%N. reflexivity.
    - intros a H. inversion H; subst. exists 3%N. reflexivity.
  Qed.
  Lemma parts_regular ts ps :
    Forall2 part_right ts ps ->
    Forall (fun p => pow2 (snd p) /\ N.divide (snd p) (fst p)) ps /\
    aligneds defs ts (map snd ps).
  Proof.
    induction 1 as [|t p ts ps [H1 H2] _ [IH1 IH2]]; [split; constructor|].
    split; constructor; auto. split; [eapply aligned_pow2; eassumption|].
    eapply sized_divide; eassumption.
  Qed.
  Lemma parts_laid ts ps a :
    Forall2 part_right ts ps -> aligned defs (YTuple ts) a -> least_layout ps a (parts_size ps).
  Proof.
    intros HF Ha. apply parts_regular in HF as [H1 H2]. apply parts_size_least; [exact H1|].
    inversion Ha; subst. rewrite (aligneds_det _ _ _ H2 H0). assumption.
  Qed.
  Lemma part_good align niches local t :
    align_right align -> niches_right niches -> size_right local ->
    good (size_type align niches local t) (sized defs t) ->
    good (ask s <- size_type align niches local t;
          ask a <- align_type align t; ret (s, a)) (part_right t).
  Proof.
    intros Ha Hn Hl Ht. eapply good_bind; [exact Ht|]. intros s Hs.
    eapply good_bind; [apply align_type_good; exact Ha|]. intros a Hta.
    apply good_ret. split; assumption.
  Qed.
  Lemma tuple_aligned ts ps :
    Forall2 part_right ts ps -> exists a, aligned defs (YTuple ts) a.
  Proof.
    intros HF. apply parts_regular in HF as [_ H]. exists (max1 (map snd ps)).
    econstructor; [exact H|apply max1_largest].
  Qed.
  Lemma size_type_good align niches local t :
    align_right align -> niches_right niches -> size_right local ->
    good (size_type align niches local t) (sized defs t).
  Proof.
    intros Ha Hn Hl. induction t using rtype_ind'; cbn [size_type];
      try (apply good_ret; constructor; fail); try (apply good_panic).
    - apply good_ret. rewrite scalar_size. constructor.
    - eapply good_bind; [apply niches_type_good; assumption|]. intros n Htn.
      destruct (N.ltb_spec 0 n) as [H0 | H0].
      + eapply good_weaken; [exact IHt|]. intros s Hs. apply (sz_niche defs t (n - 1)); [|exact Hs].
        replace (N.succ (n - 1)) with n by lia. exact Htn.
      + eapply good_bind; [exact IHt|]. intros s Hs.
        eapply good_bind; [apply align_type_good; exact Ha|]. intros a Hta. apply good_ret.
        constructor; [|exact Hs|exact Hta]. replace 0%N with n by lia. exact Htn.
    - apply Hl.
    - eapply good_bind.
      + apply (good_map _ part_right). eapply Forall_impl; [|exact H]. intros t Ht.
        apply part_good; assumption.
      + intros ps HF. apply good_ret. destruct (tuple_aligned _ _ HF) as [a Hta].
        econstructor; [apply sizeds_Forall2; exact HF|exact Hta|].
        eapply parts_laid; eassumption.
  Qed.
  Lemma sized_parts_good align niches local ts :
    align_right align -> niches_right niches -> size_right local ->
    good (sized_parts align niches local ts) (Forall2 part_right ts).
  Proof.
    intros Ha Hn Hl. apply good_map. apply Forall_forall. intros t _.
    apply part_good; auto. apply size_type_good; assumption.
  Qed.
  Definition variant_right (v : rvariant) (s : N) : Prop :=
    exists ps a, sizeds defs (contents v) ps /\ aligned defs (YTuple (contents v)) a /\
                 least_layout ps a s.
  Lemma size_variant_good align niches local v :
    align_right align -> niches_right niches -> size_right local ->
    good (size_variant align niches local v) (variant_right v).
  Proof.
    intros Ha Hn Hl. destruct v as [|ts]; cbn [size_variant].
    - apply good_ret. exists [], 1%N. split; [constructor|]. split.
      + econstructor; [constructor|apply (max1_largest [])].
      + apply (parts_size_least [] 1%N); [constructor|apply (max1_largest [])].
    - eapply good_bind; [apply sized_parts_good; assumption|]. intros ps HF. apply good_ret.
      destruct (tuple_aligned _ _ HF) as [a Hta]. exists ps, a.
      split; [apply sizeds_Forall2; exact HF|]. split; [exact Hta|].
      eapply parts_laid; eassumption.
  Qed.
  Lemma size_def_good align niches local ix d :
    align_right align -> niches_right niches -> size_right local ->
    nth_error defs ix = Some d ->
    good (size_def align niches local d) (sized defs (YLocal ix)).
  Proof.
    intros Ha Hn Hl Hd. destruct d as [vs | fields]; cbn [size_def].
    - eapply good_bind.
      + apply good_map. apply Forall_forall. intros v _.
        apply (size_variant_good align niches local v Ha Hn Hl).
      + intros ss HF. eapply good_bind.
        * apply good_map. apply Forall_forall. intros v _. apply (align_variant_good align v Ha).
        * intros al HA. apply good_ret. apply variants_aligned in HA as (l & H1 & H2).
          assert (HL : aligned defs (YLocal ix) (max1 al)) by (econstructor; eassumption).
          apply (sz_enum defs ix vs ss (fold_left N.max ss 0%N) (max1 al));
            [exact Hd| |apply fold_max_largest|exact HL|].
          -- clear - HF. induction HF as [|v s vs ss (ps & a & G1 & G2 & G3) _ IH];
               [constructor|]. econstructor; eassumption.
          -- apply aligned_size_next. eapply aligned_pow2. exact HL.
    - eapply good_bind; [apply sized_parts_good; assumption|]. intros ps HF. apply good_ret.
      pose proof (parts_regular _ _ HF) as [H1 H2].
      econstructor; [exact Hd|apply sizeds_Forall2; exact HF| |].
      + econstructor; [exact Hd|exact H2|apply max1_largest].
      + apply parts_size_least; [exact H1|apply max1_largest].
  Qed.
  Lemma get_size_good fuel : size_right (get_size fuel defs).
  Proof.
    induction fuel as [|fuel IH]; intros ix; [intros c _; exact I|]. cbn [get_size].
    apply (good_cache _ _ _ (fun ix n => sized defs (YLocal ix) n)).
    - intros c j x Hc. apply inv_size. exact Hc.
    - intros c j x Hc Hx. destruct Hc. constructor; auto. cbn. intros k y.
      apply (put_some _ _ _ _ _ (fun ix a => sized defs (YLocal ix) a)); auto.
    - intros d Hd. apply size_def_good; auto; [apply get_align_good|apply get_niches_good].
  Qed.
  Lemma sized_det t s : sized defs t s -> forall s', sized defs t s' -> s = s'.
  Proof.
    intros H. revert t s H.
    apply (sized_mut defs
      (fun t n => forall n', sized defs t n' -> n = n')
      (fun ts l => forall l', sizeds defs ts l' -> l = l')
      (fun vs l => forall l', variant_sizeds defs vs l' -> l = l'));
      try (intros; match goal with H : sized _ _ _ |- _ => inversion H end; subst; auto; fail).
    - intros t n s Hn _ IH s' H. inversion H; subst; auto.
      pose proof (spare_det _ _ Hn _ H1). lia.
    - intros t a s Hn _ IH Ha s' H. inversion H; subst.
      + pose proof (spare_det _ _ Hn _ H1). lia.
      + f_equal; auto. eapply aligned_det; eassumption.
    - intros ix fields ps a s Hd _ IH Ha Hs s' H. inversion H; subst; [|congruence].
      assert (fields0 = fields) by congruence. subst. apply IH in H2. subst.
      rewrite (aligned_det _ _ Ha _ H3) in Hs. eapply least_layout_det; eassumption.
    - intros ix vs l m a s Hd _ IH Hm Ha Hs s' H. inversion H; subst; [congruence|].
      assert (vs0 = vs) by congruence. subst. apply IH in H2. subst.
      rewrite (aligned_det _ _ Ha _ H4) in Hs.
      rewrite (largest_det _ _ _ _ Hm H3) in Hs. eapply next_multiple_det; eassumption.
    - intros ts ps a s _ IH Ha Hs s' H. inversion H; subst. apply IH in H1. subst.
      rewrite (aligned_det _ _ Ha _ H2) in Hs. eapply least_layout_det; eassumption.
    - intros l' H. inversion H. reflexivity.
    - intros t ts s a l _ IH1 Ha _ IH2 l' H. inversion H; subst. f_equal; auto. f_equal; auto.
      eapply aligned_det; eassumption.
    - intros l' H. inversion H. reflexivity.
    - intros v vs ps a s l _ IH1 Ha Hs _ IH2 l' H. inversion H; subst. f_equal; auto.
      apply IH1 in H2. subst. rewrite (aligned_det _ _ Ha _ H3) in Hs.
      eapply least_layout_det; eassumption.
  Qed.
End Memo.
