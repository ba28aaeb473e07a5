From Coq Require Import String.
From Verif Require Import Base LayoutModel LayoutSpec LayoutProofs LayoutMemo.
Open Scope nat_scope.

(** ** Read widths *)

Lemma means_ext (P Q : N -> Prop) w :
  (forall n, P n <-> Q n) -> width_means P w -> width_means Q w.
Proof.
  intros H. destruct w as [d | n]; cbn.
  - intros (m & n & Hd & H1 & H2). exists m, n. rewrite <- !H. auto.
  - intros HP m. rewrite <- H. apply HP.
Qed.
Lemma means_some P w : width_means P w -> exists n, P n.
Proof.
  destruct w as [d | n]; cbn.
  - intros (m & _ & _ & H & _). eauto.
  - intros H. exists n. apply H. reflexivity.
Qed.
Lemma width_add_means P Q a b :
  width_means P a -> width_means Q b ->
  width_means (fun n => exists x y, P x /\ Q y /\ n = (x + y)%N) (width_add a b).
Proof.
  intros Ha Hb. pose proof (means_some _ _ Ha) as [x0 Hx0].
  pose proof (means_some _ _ Hb) as [y0 Hy0].
  destruct a as [d | m], b as [e | n]; cbn in *.
  - destruct Ha as (x & x' & Hx & H1 & H2). exists (x + y0)%N, (x' + y0)%N.
    split; [lia|]. split; eauto 6.
  - destruct Ha as (x & x' & Hx & H1 & H2). exists (x + y0)%N, (x' + y0)%N.
    split; [lia|]. split; eauto 6.
  - destruct Hb as (x & x' & Hx & H1 & H2). exists (x0 + x)%N, (x0 + x')%N.
    split; [lia|]. split; eauto 6.
  - intros k. split.
    + intros (x & y & H1 & H2 & ->). apply Ha in H1. apply Hb in H2. subst. reflexivity.
    + intros ->. exists m, n. rewrite Ha, Hb. auto.
Qed.
Lemma width_and_means P Q a b :
  width_means P a -> width_means Q b ->
  width_means (fun n => P n \/ Q n) (width_and a b).
Proof.
  intros Ha Hb. destruct a as [d | m], b as [e | n]; cbn in *.
  - destruct Ha as (x & x' & Hx & H1 & H2). exists x, x'. auto.
  - destruct Ha as (x & x' & Hx & H1 & H2). exists x, x'. auto.
  - destruct Hb as (x & x' & Hx & H1 & H2). exists x, x'. auto.
  - destruct (N.eqb_spec m n) as [-> | Hmn]; cbn.
    + intros k. rewrite Ha, Hb. tauto.
    + exists m, n. split; [exact Hmn|].
      split; [left; apply Ha; reflexivity|right; apply Hb; reflexivity].
Qed.

Section Total.
  Variable defs : list rdef.

  Lemma all_take_fold P acc ts l :
    width_means P acc -> Forall2 (fun t w => width_means (takes defs t) w) ts l ->
    width_means (fun n => exists x y, P x /\ all_take defs ts y /\ n = (x + y)%N)
      (fold_left width_add l acc).
  Proof.
    intros HP HF. revert P acc HP. induction HF as [|t w ts l Ht _ IH]; intros P acc HP; cbn.
    - eapply means_ext; [|exact HP]. intros n. split.
      + intros H. exists n, 0%N. split; [exact H|]. split; [constructor|lia].
      + intros (x & y & H1 & H2 & ->). inversion H2; subst. rewrite N.add_0_r. exact H1.
    - eapply means_ext; [|apply (IH _ _ (width_add_means _ _ _ _ HP Ht))]. intros n. cbn. split.
      + intros (x & y & (u & v & H1 & H2 & ->) & H3 & ->). exists u, (v + y)%N.
        split; [exact H1|]. split; [constructor; assumption|lia].
      + intros (x & y & H1 & H2 & ->). inversion H2; subst.
        exists (x + m)%N, n. split; [exists x, m; auto|]. split; [assumption|lia].
  Qed.
  Lemma all_take_means ts l :
    Forall2 (fun t w => width_means (takes defs t) w) ts l ->
    width_means (all_take defs ts) (fold_left width_add l (Fixed 0)).
  Proof.
    intros HF. eapply means_ext; [|apply (all_take_fold (fun n => n = 0%N) (Fixed 0) ts l)].
    - intros n. cbn. split.
      + intros (x & y & -> & H & ->). exact H.
      + intros H. exists 0%N, n. auto.
    - cbn. tauto.
    - exact HF.
  Qed.
  Lemma variants_fold P acc vs l :
    width_means P acc ->
    Forall2 (fun v w => width_means (all_take defs (contents v)) w) vs l ->
    width_means (fun n => P n \/ exists v, In v vs /\ all_take defs (contents v) n)
      (fold_left width_and l acc).
  Proof.
    intros HP HF. revert P acc HP. induction HF as [|v w vs l Hv _ IH]; intros P acc HP; cbn.
    - eapply means_ext; [|exact HP]. intros n. split; [auto|]. intros [H | (v & [] & _)]. exact H.
    - eapply means_ext; [|apply (IH _ _ (width_and_means _ _ _ _ HP Hv))]. intros n. cbn. split.
      + intros [[H | H] | (v' & H1 & H2)]; eauto.
      + intros [H | (v' & [-> | H1] & H2)]; eauto.
  Qed.

  Notation good := (good defs).
  Definition width_right (local : nat -> asking vwidth) : Prop :=
    forall ix, good (local ix) (fun w => width_means (takes defs (YLocal ix)) w).
  Ltac solo :=
    let m := fresh "m" in
    intros m; split; [let H := fresh in intros H; inversion H; reflexivity|intros ->; constructor].
  Ltac any := exists 0%N, 1%N; split; [lia|split; constructor].
  Lemma width_type_good local t :
    width_right local -> good (width_type local t) (fun w => width_means (takes defs t) w).
  Proof.
    intros Hl. induction t using rtype_ind'; cbn [width_type];
      try (apply good_ret; cbn [width_means]; any; fail); try (apply good_panic).
    - apply good_ret. destruct p; cbn [prim_width width_means]; try any.
      + solo.
      + intros k. split; [intros H; inversion H; reflexivity|intros ->]. apply tk_unsigned.
    - apply good_ret. cbn [width_means].
      intros k. split; [intros H; inversion H; reflexivity|intros ->]. apply tk_signed.
    - apply good_ret. cbn [width_means]. solo.
    - apply Hl.
    - eapply good_bind; [apply good_map; exact H|]. intros l HF. apply good_ret.
      eapply means_ext; [|apply all_take_means; exact HF]. intros n. split.
      + intros HH. constructor. exact HH.
      + intros HH. inversion HH. assumption.
  Qed.
  Lemma width_parts_good local ts :
    width_right local ->
    good (map_asked (width_type local) ts) (Forall2 (fun t w => width_means (takes defs t) w) ts).
  Proof.
    intros Hl. apply good_map. apply Forall_forall. intros t _. apply width_type_good. exact Hl.
  Qed.
  Lemma width_variant_good local v :
    width_right local ->
    good (width_variant local v) (fun w => width_means (all_take defs (contents v)) w).
  Proof.
    intros Hl. destruct v as [|ts]; cbn [width_variant contents].
    - apply good_ret. cbn. intros m. split; [intros H; inversion H; reflexivity|].
      intros ->. constructor.
    - eapply good_bind; [apply width_parts_good; exact Hl|]. intros l HF. apply good_ret.
      apply all_take_means. exact HF.
  Qed.
  Lemma width_def_good local ix d :
    width_right local -> nth_error defs ix = Some d ->
    good (width_def local d) (fun w => width_means (takes defs (YLocal ix)) w).
  Proof.
    intros Hl Hd. destruct d as [[|v vs] | fields]; cbn [width_def].
    - apply good_panic.
    - eapply good_bind; [apply width_variant_good; exact Hl|]. intros w Hw.
      eapply good_bind.
      + apply good_map. apply Forall_forall. intros u _. apply (width_variant_good local u Hl).
      + intros l HF. apply good_ret.
        eapply means_ext; [|apply (variants_fold _ _ _ _ Hw HF)]. intros n. cbn. split.
        * intros [H | (u & Hu & H)]; (eapply tk_enum; [exact Hd| |exact H]); cbn; auto.
        * intros H. inversion H; subst; [congruence|].
          assert (vs0 = v :: vs) by congruence. subst.
          destruct H2 as [<- | H2]; eauto.
    - eapply good_bind; [apply width_parts_good; exact Hl|]. intros l HF. apply good_ret.
      eapply means_ext; [|apply all_take_means; exact HF]. intros n. split.
      + intros H. eapply tk_struct; eassumption.
      + intros H. inversion H; subst; [|congruence].
        assert (fields0 = fields) by congruence. subst. assumption.
  Qed.
  Lemma get_width_good fuel : width_right (get_width fuel defs).
  Proof.
    induction fuel as [|fuel IH]; intros ix; [intros c _; exact I|]. cbn [get_width].
    apply (good_cache defs _ _ _ (fun ix w => width_means (takes defs (YLocal ix)) w)).
    - intros c j x Hc. apply inv_width. exact Hc.
    - intros c j x Hc Hx. destruct Hc. constructor; auto. cbn. intros k y.
      apply (put_some _ _ _ _ _ (fun ix w => width_means (takes defs (YLocal ix)) w)); auto.
    - intros d Hd. apply width_def_good; assumption.
  Qed.

  (** ** Every run keeps the table right *)

  Definition reply_right (q : question) (r : reply) : Prop :=
    match q, r with
    | QCopy ix, AFlag b => b = true <-> copyable defs (YLocal ix)
    | QNiches ix, ANumber n => spare defs (YLocal ix) n
    | QSize ix, ANumber s => sized defs (YLocal ix) s
    | QAlign ix, ANumber a => aligned defs (YLocal ix) a
    | QWidth ix, AWidth w => width_means (takes defs (YLocal ix)) w
    | _, _ => False
    end.
  Lemma answer_good fuel q : good (answer fuel defs q) (reply_right q).
  Proof.
    destruct q as [ix|ix|ix|ix|ix]; cbn [answer].
    - eapply good_bind; [apply get_copy_good|]. intros b Hb. apply good_ret. exact Hb.
    - eapply good_bind; [apply get_niches_good|]. intros b Hb. apply good_ret. exact Hb.
    - eapply good_bind; [apply get_size_good|]. intros b Hb. apply good_ret. exact Hb.
    - eapply good_bind; [apply get_width_good|]. intros b Hb. apply good_ret. exact Hb.
    - eapply good_bind; [apply get_align_good|]. intros b Hb. apply good_ret. exact Hb.
  Qed.
  Lemma answers_good fuel qs : good (answers fuel defs qs) (Forall2 reply_right qs).
  Proof. apply good_map. apply Forall_forall. intros q _. apply answer_good. Qed.
  Lemma reachable_inv c : reachable defs c -> inv defs c.
  Proof.
    intros (fuel & qs & l & E). pose proof (answers_good fuel qs fresh (inv_fresh defs)) as H.
    rewrite E in H. apply H.
  Qed.

  (** ** Every question about a structural type is answered *)

  Definition ends {A} (m : asking A) : Prop :=
    forall c, inv defs c -> exists a c', m c = Ans a c'.
  Lemma ends_ret {A} (a : A) : ends (ret a).
  Proof. intros c _. exists a, c. reflexivity. Qed.
  Lemma ends_bind {A B} (m : asking A) (k : A -> asking B) P :
    ends m -> good m P -> (forall a, P a -> ends (k a)) -> ends (bind m k).
  Proof.
    intros Hm Hg Hk c Hc. unfold bind. destruct (Hm c Hc) as (a & c' & E).
    specialize (Hg c Hc). rewrite E in *. destruct Hg as [H1 H2]. apply Hk; assumption.
  Qed.
  Lemma ends_map {A B} (f : A -> asking B) (R : A -> B -> Prop) l :
    Forall (fun x => ends (f x)) l -> Forall (fun x => good (f x) (R x)) l ->
    ends (map_asked f l).
  Proof.
    intros H G. induction H as [|x l H _ IH]; cbn [map_asked]; [apply ends_ret|].
    inversion G; subst. eapply ends_bind; [exact H|eassumption|]. intros y _.
    eapply ends_bind; [apply IH; assumption|apply (good_map defs f R); assumption|].
    intros ys _. apply ends_ret.
  Qed.
  Lemma ends_all {A} (f : A -> asking bool) (R : A -> Prop) l :
    Forall (fun x => ends (f x)) l ->
    Forall (fun x => good (f x) (fun b => b = true <-> R x)) l -> ends (all_asked f l).
  Proof.
    intros H G. induction H as [|x l H _ IH]; cbn [all_asked]; [apply ends_ret|].
    inversion G; subst. eapply ends_bind; [exact H|eassumption|]. intros [|] _.
    - apply IH. assumption.
    - apply ends_ret.
  Qed.
  Lemma ends_cache {X} rd wr (compute : rdef -> asking X) ix d :
    nth_error defs ix = Some d -> ends (compute d) -> ends (cache_get rd wr defs compute ix).
  Proof.
    intros Hd He c Hc. unfold cache_get. destruct (rd c ix) as [x|]; [eauto|].
    rewrite Hd. destruct (He c Hc) as (x & c' & ->). eauto.
  Qed.

  (** no declared enum is empty *)
  Definition inhabited_enums : Prop := forall ix, nth_error defs ix <> Some (REnum []).

  Section Fuel.
    Variable fuel : nat.
    Let gc := get_copy fuel defs.
    Let ga := get_align fuel defs.
    Let gn := get_niches fuel defs.
    Let gs := get_size fuel defs.
    Let gw := get_width fuel defs.
    Record done (t : rtype) : Prop := {
      d_copy : ends (copy_type gc t);
      d_align : ends (align_type ga t);
      d_niches : ends (niches_type ga gn t);
      d_size : ends (size_type ga gn gs t);
      d_width : inhabited_enums -> ends (width_type gw t)
    }.
    Lemma all_copy_good ts :
      Forall (fun t => good (copy_type gc t) (fun b => b = true <-> copyable defs t)) ts.
    Proof. apply Forall_forall. intros t _. apply copy_type_good, get_copy_good. Qed.
    Lemma all_align_good ts : Forall (fun t => good (align_type ga t) (aligned defs t)) ts.
    Proof. apply Forall_forall. intros t _. apply align_type_good, get_align_good. Qed.
    Lemma all_niches_good ts : Forall (fun t => good (niches_type ga gn t) (spare defs t)) ts.
    Proof.
      apply Forall_forall. intros t _.
      apply niches_type_good; [apply get_align_good|apply get_niches_good].
    Qed.
    Lemma size_good t : good (size_type ga gn gs t) (sized defs t).
    Proof.
      apply size_type_good; [apply get_align_good|apply get_niches_good|apply get_size_good].
    Qed.
    Lemma all_width_good ts :
      Forall (fun t => good (width_type gw t) (fun w => width_means (takes defs t) w)) ts.
    Proof. apply Forall_forall. intros t _. apply width_type_good, get_width_good. Qed.
    Lemma part_ends t : done t ->
      ends (ask s <- size_type ga gn gs t; ask a <- align_type ga t; ret (s, a)).
    Proof.
      intros H. eapply ends_bind; [apply d_size; exact H|apply size_good|]. intros s _.
      eapply ends_bind; [apply d_align; exact H|apply align_type_good, get_align_good|].
      intros a _. apply ends_ret.
    Qed.
    Lemma parts_good ts :
      Forall (fun t => good (ask s <- size_type ga gn gs t; ask a <- align_type ga t; ret (s, a))
                            (part_right defs t)) ts.
    Proof.
      apply Forall_forall. intros t _.
      apply part_good; [apply get_align_good|apply get_niches_good|apply get_size_good|].
      apply size_good.
    Qed.
    Lemma sized_parts_ends ts : Forall done ts -> ends (sized_parts ga gn gs ts).
    Proof.
      intros H. unfold sized_parts. eapply ends_map; [|apply parts_good].
      eapply Forall_impl; [|exact H]. intros t Ht. apply part_ends. exact Ht.
    Qed.
    Lemma copies_end ts : Forall done ts -> ends (all_asked (copy_type gc) ts).
    Proof.
      intros H. eapply ends_all; [|apply all_copy_good].
      eapply Forall_impl; [|exact H]. intros t Ht. apply d_copy. exact Ht.
    Qed.
    Lemma aligns_end ts : Forall done ts -> ends (map_asked (align_type ga) ts).
    Proof.
      intros H. eapply ends_map; [|apply all_align_good].
      eapply Forall_impl; [|exact H]. intros t Ht. apply d_align. exact Ht.
    Qed.
    Lemma niches_end ts : Forall done ts -> ends (map_asked (niches_type ga gn) ts).
    Proof.
      intros H. eapply ends_map; [|apply all_niches_good].
      eapply Forall_impl; [|exact H]. intros t Ht. apply d_niches. exact Ht.
    Qed.
    Lemma widths_end ts :
      inhabited_enums -> Forall done ts -> ends (map_asked (width_type gw) ts).
    Proof.
      intros Hi H. eapply ends_map; [|apply all_width_good].
      eapply Forall_impl; [|exact H]. intros t Ht. apply d_width; assumption.
    Qed.
    Lemma ends_then {A B} (m : asking A) P (f : A -> B) :
      ends m -> good m P -> ends (bind m (fun a => ret (f a))).
    Proof. intros H G. eapply ends_bind; [exact H|exact G|]. intros a _. apply ends_ret. Qed.

    Lemma done_simple t :
      (forall c, exists b, copy_type gc t c = Ans b c) ->
      (forall c, exists b, align_type ga t c = Ans b c) ->
      (forall c, exists b, niches_type ga gn t c = Ans b c) ->
      (forall c, exists b, size_type ga gn gs t c = Ans b c) ->
      (forall c, exists b, width_type gw t c = Ans b c) -> done t.
    Proof.
      intros H1 H2 H3 H4 H5. constructor.
      - intros c _. destruct (H1 c) as [b E]. eauto.
      - intros c _. destruct (H2 c) as [b E]. eauto.
      - intros c _. destruct (H3 c) as [b E]. eauto.
      - intros c _. destruct (H4 c) as [b E]. eauto.
      - intros _ c _. destruct (H5 c) as [b E]. eauto.
    Qed.
    Lemma tag_ends t a : aligned defs t a -> ends (tag_niches a).
    Proof.
      intros Ha. unfold tag_niches.
      destruct (aligned_cases _ _ _ Ha) as [-> | [-> | [-> | ->]]]; apply ends_ret.
    Qed.
    Lemma done_option t : done t -> done (YOption t).
    Proof.
      intros H. destruct H as [H1 H2 H3 H4 H5]. constructor; cbn [copy_type align_type width_type].
      - exact H1.
      - exact H2.
      - cbn [niches_type]. eapply ends_bind; [exact H3| |].
        + apply niches_type_good; [apply get_align_good|apply get_niches_good].
        + intros n _. destruct (n =? 0)%N; [|apply ends_ret].
          eapply ends_bind; [exact H2|apply align_type_good, get_align_good|].
          intros a Ha. eapply tag_ends. exact Ha.
      - cbn [size_type]. eapply ends_bind; [exact H3| |].
        + apply niches_type_good; [apply get_align_good|apply get_niches_good].
        + intros n _. destruct (0 <? n)%N; [exact H4|].
          eapply ends_bind; [exact H4|apply size_good|]. intros s _.
          eapply ends_bind; [exact H2|apply align_type_good, get_align_good|].
          intros a _. apply ends_ret.
      - intros _. apply ends_ret.
    Qed.
    Lemma done_tuple ts : Forall done ts -> done (YTuple ts).
    Proof.
      intros H. constructor; cbn [copy_type align_type niches_type size_type width_type].
      - apply copies_end. exact H.
      - eapply ends_then; [apply aligns_end; exact H|apply good_map, all_align_good].
      - eapply ends_then; [apply niches_end; exact H|apply good_map, all_niches_good].
      - eapply ends_then; [apply sized_parts_ends; exact H|apply good_map, parts_good].
      - intros Hi. eapply ends_then; [apply widths_end; assumption|apply good_map, all_width_good].
    Qed.
    Lemma variants_done vs :
      Forall done (flat_map contents vs) -> Forall (fun v => Forall done (contents v)) vs.
    Proof. apply Forall_flat_map. Qed.
    Lemma def_done d :
      Forall done (parts d) ->
      ends (copy_def gc d) /\ ends (align_def ga d) /\ ends (niches_def ga gn d) /\
      ends (size_def ga gn gs d) /\
      (inhabited_enums -> d <> REnum [] -> ends (width_def gw d)).
    Proof.
      intros H. destruct d as [vs | fields]; cbn [parts] in H.
      - apply variants_done in H. cbn [copy_def align_def niches_def size_def].
        assert (Ga : Forall (fun v => good (align_variant ga v)
                   (fun a => exists l, Forall2 (aligned defs) (contents v) l /\ largest 1 l a)) vs)
          by (apply Forall_forall; intros v _; apply align_variant_good, get_align_good).
        assert (Ea : ends (map_asked (align_variant ga) vs)).
        { eapply ends_map; [|exact Ga]. eapply Forall_impl; [|exact H].
          intros [|ts] Hv; cbn [align_variant]; [apply ends_ret|].
          eapply ends_then; [apply aligns_end; exact Hv|apply good_map, all_align_good]. }
        repeat split.
        + eapply (ends_all _ (fun v => Forall (copyable defs) (contents v))).
          * eapply Forall_impl; [|exact H]. intros [|ts] Hv; cbn [copy_variant];
              [apply ends_ret|apply copies_end; exact Hv].
          * apply Forall_forall. intros [|ts] _; cbn [copy_variant contents].
            -- apply good_ret. split; auto.
            -- apply good_all. apply all_copy_good.
        + eapply ends_then; [exact Ea|apply good_map; exact Ga].
        + assert (Gn : Forall (fun v => good (niches_variant ga gn v)
                   (fun n => exists l, spares defs (contents v) l /\ n = joint_niches l)) vs)
            by (apply Forall_forall; intros v _; apply niches_variant_good;
                [apply get_align_good|apply get_niches_good]).
          eapply ends_then; [eapply ends_map; [|exact Gn]|apply good_map; exact Gn].
          eapply Forall_impl; [|exact H]. intros [|ts] Hv; cbn [niches_variant]; [apply ends_ret|].
          eapply ends_then; [apply niches_end; exact Hv|apply good_map, all_niches_good].
        + assert (Gs : Forall (fun v => good (size_variant ga gn gs v) (variant_right defs v)) vs)
            by (apply Forall_forall; intros v _; apply size_variant_good;
                [apply get_align_good|apply get_niches_good|apply get_size_good]).
          eapply ends_bind; [eapply ends_map; [|exact Gs]|apply good_map; exact Gs|].
          * eapply Forall_impl; [|exact H]. intros [|ts] Hv; cbn [size_variant]; [apply ends_ret|].
            eapply ends_then; [apply sized_parts_ends; exact Hv|apply good_map, parts_good].
          * intros ss _. eapply ends_then; [exact Ea|apply good_map; exact Ga].
        + intros Hi Hn. destruct vs as [|v vs]; [congruence|]. cbn [width_def].
          assert (Gw : forall v, good (width_variant gw v)
                     (fun w => width_means (all_take defs (contents v)) w))
            by (intros u; apply width_variant_good, get_width_good).
          assert (Ew : forall u, Forall done (contents u) -> ends (width_variant gw u)).
          { intros [|ts] Hu; cbn [width_variant]; [apply ends_ret|].
            eapply ends_then; [apply widths_end; assumption|apply good_map, all_width_good]. }
          inversion H; subst.
          eapply ends_bind; [apply Ew; assumption|apply Gw|]. intros w _.
          eapply ends_then.
          * eapply (ends_map _ (fun v w => width_means (all_take defs (contents v)) w));
              [|apply Forall_forall; intros; apply Gw].
            eapply Forall_impl; [|eassumption]. intros u Hu. apply Ew. exact Hu.
          * apply (good_map defs _ (fun v w => width_means (all_take defs (contents v)) w)).
            apply Forall_forall. intros; apply Gw.
      - cbn [copy_def align_def niches_def size_def width_def]. repeat split.
        + apply copies_end. exact H.
        + eapply ends_then; [apply aligns_end; exact H|apply good_map, all_align_good].
        + eapply ends_then; [apply niches_end; exact H|apply good_map, all_niches_good].
        + eapply ends_then; [apply sized_parts_ends; exact H|apply good_map, parts_good].
        + intros Hi _. eapply ends_then; [apply widths_end; assumption|apply good_map, all_width_good].
    Qed.
  End Fuel.

  Lemma done_local fuel ix d :
    nth_error defs ix = Some d -> Forall (done fuel) (parts d) -> done (S fuel) (YLocal ix).
  Proof.
    intros Hd H. apply def_done in H as (H1 & H2 & H3 & H4 & H5).
    constructor; cbn [copy_type align_type niches_type size_type width_type
                      get_copy get_align get_niches get_size get_width];
      try (eapply ends_cache; [exact Hd|assumption]).
    intros Hi. eapply ends_cache; [exact Hd|]. apply H5; [exact Hi|].
    intros ->. exact (Hi ix Hd).
  Qed.

  Lemma structural_done t :
    structural defs t -> exists n, forall fuel, n <= fuel -> done fuel t.
  Proof.
    revert t. apply (structural_mut defs
      (fun t _ => exists n, forall fuel, n <= fuel -> done fuel t)
      (fun ts _ => exists n, forall fuel, n <= fuel -> Forall (done fuel) ts));
      try (intros; exists 0; intros; apply done_simple; intros c; eexists; reflexivity).
    - intros t _ [n IH]. exists n. intros fuel Hf. apply done_option. auto.
    - intros ix d Hd _ [n IH]. exists (S n). intros fuel Hf. destruct fuel as [|fuel]; [lia|].
      eapply done_local; [exact Hd|]. apply IH. lia.
    - intros ts _ [n IH]. exists n. intros fuel Hf. apply done_tuple. auto.
    - exists 0. constructor.
    - intros t ts _ [n IH1] _ [m IH2]. exists (Nat.max n m). intros fuel Hf.
      constructor; [apply IH1; lia|apply IH2; lia].
  Qed.

  (** ** Places *)

  Lemma get_elem_spec t u :
    get_elem t = Some u <-> behind t (YVec u) \/ behind t (YRawSlice u).
  Proof.
    induction t; cbn [get_elem];
      try (split; [discriminate|intros [H | H]; inversion H]; fail).
    - split; [intros E; injection E as <-; left; constructor|].
      intros [H | H]; inversion H; reflexivity.
    - split; [intros E; injection E as <-; right; constructor|].
      intros [H | H]; inversion H; reflexivity.
    - rewrite IHt. split.
      + intros [H | H]; [left|right]; constructor; exact H.
      + intros [H | H]; inversion H; auto.
  Qed.
  Lemma get_param_spec t u : get_param t = Some u <-> behind t (YOption u).
  Proof.
    induction t; cbn [get_param]; try (split; [discriminate|intros H; inversion H]; fail).
    - split; [intros E; injection E as <-; constructor|]. intros H; inversion H; reflexivity.
    - rewrite IHt. split; [constructor; assumption|]. intros H; inversion H; assumption.
  Qed.
  Lemma get_pos_spec ix t u :
    get_pos ix t = Some u <-> exists us, behind t (YTuple us) /\ nth_error us ix = Some u.
  Proof.
    induction t; cbn [get_pos];
      try (split; [discriminate|intros (us & H & _); inversion H]; fail).
    - rewrite IHt. split.
      + intros (us & H1 & H2). exists us. split; [constructor; exact H1|exact H2].
      + intros (us & H1 & H2). inversion H1; subst. eauto.
    - split.
      + intros E. exists ts. split; [constructor|exact E].
      + intros (us & H1 & H2). inversion H1; subst. exact H2.
  Qed.
  Lemma find_field name (fields : list (string * rtype)) u :
    (match find (fun f => String.eqb (fst f) name) fields with
     | Some (_, t) => Some t | None => None end) = Some u <->
    exists before after, fields = before ++ (name, u) :: after /\ ~ In name (map fst before).
  Proof.
    induction fields as [|[n t] fields IH]; cbn [find fst].
    - split; [discriminate|]. intros (b & a & H & _). destruct b; discriminate.
    - destruct (String.eqb_spec n name) as [-> | Hn].
      + split.
        * intros E. injection E as <-. exists [], fields. split; [reflexivity|intros []].
        * intros ([|[n' t'] b] & a & E & Hi); cbn in E; injection E; intros; subst; [reflexivity|].
          destruct Hi. left. reflexivity.
      + rewrite IH. split.
        * intros (b & a & -> & Hi). exists ((n, t) :: b), a. split; [reflexivity|].
          intros [H | H]; auto.
        * intros ([|[n' t'] b] & a & E & Hi); cbn in E; injection E; intros; subst; [congruence|].
          exists b, a. split; [reflexivity|]. intros H. apply Hi. right. exact H.
  Qed.
  Lemma get_field_spec name t u :
    get_field defs name t = Some u <->
    exists ix fields before after,
      behind t (YLocal ix) /\ nth_error defs ix = Some (RStruct fields) /\
      fields = before ++ (name, u) :: after /\ ~ In name (map fst before).
  Proof.
    induction t; cbn [get_field];
      try (split; [discriminate|intros (jx & fs & b & a & H & _); inversion H]; fail).
    - rewrite IHt. split.
      + intros (ix & fs & b & a & H1 & H2). exists ix, fs, b, a. split; [constructor; exact H1|exact H2].
      + intros (ix & fs & b & a & H1 & H2). inversion H1; subst. exists ix, fs, b, a. auto.
    - split.
      + destruct (nth_error defs ix) as [[vs | fields]|] eqn:E; try discriminate. intros H.
        apply find_field in H as (b & a & H1 & H2). exists ix, fields, b, a.
        split; [constructor|]. auto.
      + intros (jx & fs & b & a & H1 & H2 & H3 & H4). inversion H1; subst jx. rewrite H2.
        apply find_field. eauto.
  Qed.
  Lemma expand_holds l t : expand_lens defs l = Some t <-> holds defs l t.
  Proof.
    revert t. induction l as [t0|l IH|name l IH|ix l IH|l IH]; intros t; cbn [expand_lens].
    - split; [intros E; injection E as <-; constructor|]. intros H; inversion H; reflexivity.
    - split.
      + destruct (expand_lens defs l) as [t'|] eqn:E; [|discriminate]. intros H.
        apply get_elem_spec in H as [H | H]; [eapply hd_elem|eapply hd_slice];
          solve [apply IH; reflexivity|exact H].
      + intros H. inversion H; subst;
          match goal with H' : holds defs l ?t' |- _ => apply IH in H'; rewrite H' end;
          apply get_elem_spec; auto.
    - split.
      + destruct (expand_lens defs l) as [t'|] eqn:E; [|discriminate]. intros H.
        apply get_field_spec in H as (ix & fs & b & a & H1 & H2 & H3 & H4).
        eapply hd_field; [apply IH; reflexivity|eassumption..].
      + intros H. inversion H; subst.
        match goal with H' : holds defs l ?t' |- _ => apply IH in H'; rewrite H' end.
        apply get_field_spec. eauto 8.
    - split.
      + destruct (expand_lens defs l) as [t'|] eqn:E; [|discriminate]. intros H.
        apply get_pos_spec in H as (us & H1 & H2).
        eapply hd_pos; [apply IH; reflexivity|eassumption..].
      + intros H. inversion H; subst.
        match goal with H' : holds defs l ?t' |- _ => apply IH in H'; rewrite H' end.
        apply get_pos_spec. eauto.
    - split.
      + destruct (expand_lens defs l) as [t'|] eqn:E; [|discriminate]. intros H.
        apply get_param_spec in H. eapply hd_param; [apply IH; reflexivity|eassumption].
      + intros H. inversion H; subst.
        match goal with H' : holds defs l ?t' |- _ => apply IH in H'; rewrite H' end.
        apply get_param_spec. assumption.
  Qed.

  Lemma solve_shared local t :
    copy_right defs local -> shared t = true ->
    good (solve_type local t) (fun s =>
      (fst s = true -> copyable defs t /\ forall b u, t = YBorrow b u -> copyable defs u) /\
      (snd s = true <-> exists u, t = YBorrow false u)).
  Proof.
    intros Hl. induction t using rtype_ind'; cbn [solve_type shared]; intros Hs;
      try discriminate; try (apply good_panic);
      try (apply good_ret; cbn [fst snd]; split;
           [intros _; split; [constructor|discriminate]
           |split; [discriminate|intros (u & Hu); discriminate]]).
    - apply good_ret; cbn [fst snd]. split; [discriminate|].
      split; [discriminate|intros (u & Hu); discriminate].
    - eapply good_bind; [apply IHt; exact Hs|]. intros s [H1 H2]. apply good_ret. cbn [fst snd].
      split; [|split; [discriminate|intros (u & Hu); discriminate]].
      intros H. destruct (H1 H) as [H3 _]. split; [constructor; exact H3|discriminate].
    - apply andb_prop in Hs as [Hb Hs]. destruct b; [discriminate|].
      eapply good_bind; [apply IHt; exact Hs|]. intros s [H1 H2]. apply good_ret. cbn [fst snd].
      split; [|split; [eauto|auto]].
      intros H. destruct (H1 H) as [H3 _]. split; [constructor|].
      intros b u E. injection E as <- <-. exact H3.
    - eapply good_bind; [apply Hl|]. intros b Hb. apply good_ret. cbn [fst snd].
      split; [|split; [discriminate|intros (u & Hu); discriminate]].
      intros H. split; [apply Hb; exact H|discriminate].
    - eapply good_bind.
      + apply (good_map defs _ (fun t s => fst s = true -> copyable defs t)).
        rewrite forallb_forall in Hs. rewrite Forall_forall in *. intros t Ht.
        eapply good_weaken; [apply H; auto|]. cbn. intros s [H1 _] H2. apply H1. exact H2.
      + intros l HF. apply good_ret. cbn [fst snd].
        split; [|split; [discriminate|intros (u & Hu); discriminate]].
        intros Hall. split; [|discriminate]. constructor. apply copyables_Forall.
        clear - HF Hall. induction HF as [|t s ts l H1 _ IH]; [constructor|].
        cbn in Hall. apply andb_prop in Hall as [H2 H3]. constructor; auto.
  Qed.
  Lemma solve_owned local t :
    copy_right defs local -> owned_type t = true ->
    good (solve_type local t) (fun s => (fst s = true <-> copyable defs t) /\ snd s = false).
  Proof.
    intros Hl. induction t using rtype_ind'; cbn [solve_type owned_type]; intros Hs;
      try discriminate; try (apply good_panic);
      try (apply good_ret; cbn [fst snd]; split; [split; [constructor|auto]|reflexivity]; fail).
    - apply good_ret; cbn [fst snd]. split; [|reflexivity]. split; [discriminate|].
      intros H. inversion H.
    - eapply good_bind; [apply IHt; exact Hs|]. intros s [H1 H2]. apply good_ret. cbn [fst snd].
      split; [|reflexivity]. rewrite H1. split; [constructor; assumption|].
      intros H. inversion H. assumption.
    - eapply good_bind; [apply Hl|]. intros b Hb. apply good_ret. cbn [fst snd]. auto.
    - eapply good_bind.
      + apply (good_map defs _ (fun t s => fst s = true <-> copyable defs t)).
        rewrite forallb_forall in Hs. rewrite Forall_forall in *. intros t Ht.
        eapply good_weaken; [apply H; auto|]. cbn. intros s [H1 _]. exact H1.
      + intros l HF. apply good_ret. cbn [fst snd]. split; [|reflexivity].
        transitivity (Forall (copyable defs) ts).
        * clear - HF. induction HF as [|t s ts l H1 _ IH]; [cbn; split; auto|].
          cbn. rewrite andb_true_iff, IH, H1. split.
          -- intros [? ?]. constructor; assumption.
          -- intros H. inversion H. auto.
        * rewrite <- copyables_Forall. split; [constructor; assumption|].
          intros H'. inversion H'. assumption.
  Qed.
  Lemma solve_ends t :
    structural defs t ->
    exists n, forall fuel, n <= fuel -> owned_type t = true ->
      ends (solve_type (get_copy fuel defs) t).
  Proof.
    revert t. apply (structural_mut defs
      (fun t _ => exists n, forall fuel, n <= fuel -> owned_type t = true ->
         ends (solve_type (get_copy fuel defs) t))
      (fun ts _ => exists n, forall fuel, n <= fuel -> forallb owned_type ts = true ->
         Forall (fun t => ends (solve_type (get_copy fuel defs) t)) ts));
      try (intros; exists 0; intros; apply ends_ret).
    - intros t _ [n IH]. exists n. intros fuel Hf Hs. cbn [solve_type owned_type] in *.
      eapply ends_bind; [apply IH; assumption| |intros; apply ends_ret].
      apply solve_owned; [apply get_copy_good|exact Hs].
    - intros t. exists 0. discriminate.
    - intros ix d Hd Hs _. destruct (structural_done (YLocal ix)) as [n Hn];
        [econstructor; eassumption|]. exists n. intros fuel Hf _. cbn [solve_type].
      eapply ends_bind; [apply (d_copy _ _ (Hn fuel Hf))|apply get_copy_good|].
      intros; apply ends_ret.
    - intros ts _ [n IH]. exists n. intros fuel Hf Hs. cbn [solve_type owned_type] in *.
      specialize (IH fuel Hf Hs). rewrite forallb_forall in Hs.
      assert (G : Forall (fun t => good (solve_type (get_copy fuel defs) t)
                (fun s => (fst s = true <-> copyable defs t) /\ snd s = false)) ts).
      { apply Forall_forall. intros t Ht. apply solve_owned; [apply get_copy_good|auto]. }
      eapply ends_bind; [| |intros; apply ends_ret].
      + eapply ends_map; [exact IH|exact G].
      + apply good_map. exact G.
    - exists 0. constructor.
    - intros t ts _ [n IH1] _ [m IH2]. exists (Nat.max n m). intros fuel Hf Hs.
      cbn [forallb] in Hs. apply andb_prop in Hs as [H1 H2].
      constructor; [apply IH1; [lia|exact H1]|apply IH2; [lia|exact H2]].
  Qed.
End Total.
