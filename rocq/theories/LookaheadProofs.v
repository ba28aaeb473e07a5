(** Formats on which the lookahead of the code never approximates. *)
From Verif Require ByteSetModel ByteSetProofs.
From Verif Require Import Base BoundsModel DataModel NumericModel ValueModel FormatModel MatchTreeModel
  DecoderModel FormatSpec LookaheadSpec MatchBoundsProofs MatchTreeProofs.
Open Scope nat_scope.

Section Regular.
Context (m : fmodule).
(** A constant count or size. *)
Definition exact_count (e : expr) : Prop := no_bitopsb e = true /\ exists b k, expr_bounds e = Val b /\ as_exact b = Some k.
(** A node that the lookahead treats exactly. *)
Definition regular (g : format) : Prop :=
  match g with
  | FPhantom _ | FSkipRemainder | FRepeatUntilLast _ _ | FRepeatUntilSeq _ _ | FAccumUntil _ _ _ _ _
  | FPeek _ | FPeekNot _ | FBits _ | FWithRelativeOffset _ _ _ | FApply _ => False
  | FAlign n => n = 1%N
  | FRepeatCount e _ | FSlice e _ => exact_count e
  | FRepeatBetween e1 e2 _ => no_bitopsb e1 = true /\ no_bitopsb e2 = true
  | FForEach _ _ f => exists b, match_bounds (item_bounds m) f = Val b /\ bmin b <> 0%N
  | _ => True
  end.
Fixpoint regular_next (n : next) : Prop :=
  match n with
  | NEmpty => True
  | NUnion a b => regular_next a /\ regular_next b
  | NCat f n => everywhere regular f /\ regular_next n
  | NSequence fs n => Forall (everywhere regular) fs /\ regular_next n
  | NRepeat f n | NRepeatCount _ f n | NRepeatMax _ f n | NRepeatBetween _ _ f n => everywhere regular f /\ regular_next n
  | NSlice _ i n => regular_next i /\ regular_next n
  | NPeek _ _ | NPeekNot _ _ => False
  end.
Context (HM : module_wide regular m).

Definition step_regular (s : step) : Prop := forall bs n, In (bs, n) (s_br s) -> regular_next n.
Lemma union_branch_regular s b : step_regular s -> regular_next (snd b) -> step_regular (union_branch s b).
Proof.
  intros Hs Hb bs n Hin. unfold union_branch in Hin. cbn [s_br] in Hin. unfold add_branch in Hin.
  assert (H : forall l bs0, (forall bs n, In (bs, n) l -> regular_next n) ->
    let '(l', bs', ex) := split_loop (fun n0 => NUnion n0 (snd b)) l bs0 in
    forall bs n, In (bs, n) l' \/ In (bs, n) ex -> regular_next n).
  { clear - Hb. induction l as [|[bs1 n1] l IH]; intros bs0 Hl; cbn [split_loop].
    - intros ? ? [[]|[]].
    - assert (Hl' : forall bs n, In (bs, n) l -> regular_next n) by (intros; eapply Hl; right; eauto).
      assert (H1 : regular_next n1) by (eapply Hl; left; reflexivity).
      destruct (ByteSetModel.is_empty _).
      + specialize (IH bs0 Hl'). destruct (split_loop _ l bs0) as [[l' bs'] ex].
        intros bs n [[[= <- <-]|H]|H]; eauto.
      + specialize (IH (ByteSetModel.difference bs0 (ByteSetModel.intersection bs1 bs0)) Hl').
        destruct (split_loop _ l _) as [[l' bs'] ex].
        intros bs n [[[= <- <-]|H]|H]; [now split|eauto|]. destruct (ByteSetModel.is_empty _); [eauto|].
        destruct H as [[= <- <-]|H]; eauto. }
  specialize (H (s_br s) (fst b) Hs). destruct (split_loop _ (s_br s) (fst b)) as [[l' bs'] ex].
  rewrite !in_app_iff in Hin. destruct Hin as [Hin|[Hin|Hin]]; eauto.
  destruct (ByteSetModel.is_empty bs'); [destruct Hin|]. destruct Hin as [[= <- <-]|[]]. exact Hb.
Qed.
Lemma union_regular s s' : step_regular s -> step_regular s' -> step_regular (s_union s s').
Proof.
  intros Hs Hs'. unfold s_union.
  assert (H : forall l s, step_regular s -> (forall b, In b l -> regular_next (snd b)) -> step_regular (fold_left union_branch l s)).
  { clear. induction l as [|b l IH]; intros s Hs Hl; cbn; [exact Hs|]. apply IH; [|intros; apply Hl; now right].
    apply union_branch_regular; [exact Hs|]. apply Hl. now left. }
  apply H; [exact Hs|]. intros [bs n] Hb. eapply Hs'; eauto.
Qed.
Lemma ofold_regular {A} (F G : A -> outcome step) l : (forall g st, In g l -> F g = Val st -> G g = Val st /\ step_regular st) ->
  forall t0 st, step_regular t0 -> ofoldM (fun t g => omap (s_union t) (F g)) t0 l = Val st ->
  ofoldM (fun t g => omap (s_union t) (G g)) t0 l = Val st /\ step_regular st.
Proof.
  induction l as [|g l IH]; intros H t0 st Ht E; cbn [ofoldM] in *; [injection E as <-; auto|].
  destruct (F g) as [sg|] eqn:Eg; cbn [omap obind] in E; [|discriminate].
  destruct (H g sg (or_introl eq_refl) Eg) as [E1 R1]. rewrite E1. cbn [omap obind].
  apply IH; auto using union_regular. intros; apply H; [now right|auto].
Qed.

Lemma sub_everywhere {g f} : everywhere regular f -> (forall x, In x (subs g) -> In x (subs f)) -> everywhere regular g.
Proof. intros H Hs x Hx. auto. Qed.
Definition reg_all (fuel : nat) : Prop :=
  (forall n st, regular_next n -> from_next m LReal fuel n = Val st -> from_next m LExact fuel n = Val st /\ step_regular st) /\
  (forall k i n st, regular_next i -> regular_next n -> from_slice m LReal fuel k i n = Val st ->
     from_slice m LExact fuel k i n = Val st /\ step_regular st) /\
  (forall f n st, everywhere regular f -> regular_next n -> from_format m LReal fuel f n = Val st ->
     from_format m LExact fuel f n = Val st /\ step_regular st).
Lemma accept_regular : step_regular s_accept. Proof. intros ? ? []. Qed.
Lemma reject_regular : step_regular s_reject. Proof. intros ? ? []. Qed.
Lemma two_regular (x y x' y' : outcome step) st :
  (forall t, x = Val t -> x' = Val t /\ step_regular t) -> (forall t, y = Val t -> y' = Val t /\ step_regular t) ->
  obind x (fun t => omap (s_union t) y) = Val st -> obind x' (fun t => omap (s_union t) y') = Val st /\ step_regular st.
Proof.
  intros Hx Hy H. destruct x as [t1|]; cbn in H; [|discriminate]. destruct (Hx t1 eq_refl) as [-> R1].
  destruct y as [t2|]; cbn in H; [|discriminate]. destruct (Hy t2 eq_refl) as [-> R2]. cbn. injection H as <-.
  split; [reflexivity|]. now apply union_regular.
Qed.
Ltac sub_in := let x := fresh in let Hx := fresh in intros x Hx; cbn [subs]; right; auto; fail.
Lemma from_regular fuel : reg_all fuel.
Proof.
  induction fuel as [|fuel (IHn & IHs & IHf)]; [repeat split; intros; discriminate|]. split; [|split].
  - intros n st Hn H. rewrite from_next_S in *. destruct n; cbn [regular_next] in Hn; try tauto.
    + injection H as <-. split; [reflexivity|apply accept_regular].
    + destruct Hn. eapply two_regular; eauto.
    + destruct Hn. eauto.
    + destruct Hn as [Hf Hn]. destruct fs as [|f fs]; [auto|]. inversion Hf; subst. apply IHf; auto. now split.
    + destruct Hn as [Hf Hn]. eapply two_regular; eauto. intros t. apply IHf; auto. now split.
    + destruct Hn as [Hf Hn]. destruct (N.ltb 0 k); [|auto]. apply IHf; auto. now split.
    + destruct Hn as [Hf Hn]. destruct (N.eqb k 0); [auto|]. eapply two_regular; eauto. intros t. apply IHf; auto. now split.
    + destruct Hn as [Hf Hn]. destruct (N.eqb k m0); [discriminate|]. destruct (N.ltb 0 k).
      * destruct (N.eqb m0 0); [discriminate|]. apply IHf; auto. now split.
      * apply IHn; auto. now split.
    + destruct Hn. eauto.
  - intros k i n st Hi Hn H. rewrite from_slice_S in *. destruct (N.ltb 0 k); [|auto]. cbn [look_inside] in *.
    destruct (from_next m LReal fuel i) as [t|] eqn:E; cbn [omap obind] in H; [|discriminate].
    destruct (IHn _ _ Hi E) as [-> R]. cbn [omap obind]. injection H as <-. split; [reflexivity|].
    destruct (s_br t) as [|b l] eqn:El; intros bs n' Hin; cbn [s_br] in Hin.
    + destruct Hin as [[= <- <-]|[]]. cbn. auto.
    + apply (in_map_iff (fun b : byteset * next => (fst b, NSlice (k - 1) (snd b) n)) (b :: l)) in Hin as ([bs1 n1] & [= <- <-] & Hin). cbn. split; [|exact Hn]. eapply (R bs1). now rewrite El.
  - intros f n st Hf Hn H. rewrite from_format_S in *. cbv zeta in *.
    pose proof (Hf f ltac:(destruct f; cbn; auto)) as Hr.
    destruct f; cbn [regular] in Hr; try tauto;
      try (injection H as <-; split; [reflexivity|apply accept_regular || apply reject_regular]);
      try (apply IHn; auto; fail);
      try (apply IHf; auto; eapply sub_everywhere; [exact Hf|]; sub_in).
    + destruct (get_item m level) as [it|] eqn:Ei; [|discriminate]. apply IHf; auto. exact (HM level it Ei).
    + subst n0. cbn in H |- *. auto.
    + injection H as <-. split; [reflexivity|]. intros b n' [[= <- <-]|[]]. exact Hn.
    + revert H. apply ofold_regular; [|apply reject_regular]. intros g sg Hg. apply IHf; auto.
      eapply sub_everywhere; [exact Hf|]. intros y Hy. cbn [subs]. right. apply in_flat_map. eauto.
    + revert H. apply ofold_regular; [|apply reject_regular]. intros g sg Hg. apply IHf; auto.
      eapply sub_everywhere; [exact Hf|]. intros y Hy. cbn [subs]. right. apply in_flat_map. eauto.
    + assert (Hfs : Forall (everywhere regular) fs).
      { apply Forall_forall. intros g Hg. eapply sub_everywhere; [exact Hf|]. intros y Hy. cbn [subs]. right. apply in_flat_map. eauto. }
      destruct fs as [|g gs]; [auto|]. inversion Hfs; subst. apply IHf; auto. now split.
    + assert (Hfs : Forall (everywhere regular) fs).
      { apply Forall_forall. intros g Hg. eapply sub_everywhere; [exact Hf|]. intros y Hy. cbn [subs]. right. apply in_flat_map. eauto. }
      destruct fs as [|g gs]; [auto|]. inversion Hfs; subst. apply IHf; auto. now split.
    + assert (Hg : everywhere regular f) by (eapply sub_everywhere; [exact Hf|]; sub_in).
      eapply two_regular; eauto. intros t. apply IHf; auto. now split.
    + assert (Hg : everywhere regular f) by (eapply sub_everywhere; [exact Hf|]; sub_in). apply IHf; auto. now split.
    + assert (Hg : everywhere regular f) by (eapply sub_everywhere; [exact Hf|]; sub_in).
      destruct Hr as (Hb & b & k & Eb & Ek). cbn [known] in *. rewrite Hb, Eb in *. cbn [obind] in *. rewrite Ek in *.
      destruct (N.ltb 0 k); [|auto]. apply IHf; auto. now split.
    + assert (Hg : everywhere regular f) by (eapply sub_everywhere; [exact Hf|]; sub_in).
      destruct Hr as (H1 & H2). cbn [known] in *. rewrite H1, H2.
      destruct (expr_bounds emin) as [b1|]; cbn [obind] in *; [|discriminate].
      destruct (expr_bounds emax) as [b2|]; cbn [obind] in *; [|discriminate].
      destruct (as_exact b1) as [k1|]; [|discriminate]. destruct (as_exact b2) as [k2|]; [|discriminate].
      destruct (N.compare k1 k2); [| |discriminate].
      * destruct (N.ltb 0 k1); [|auto]. apply IHf; auto. now split.
      * destruct (N.ltb 0 k1); [apply IHf; auto; now split|]. apply IHn; auto. now split.
    + assert (Hg : everywhere regular f) by (eapply sub_everywhere; [exact Hf|]; sub_in).
      destruct Hr as (b & Eb & Hb). rewrite Eb in *. destruct (from_next m LReal fuel n) as [t|] eqn:En; cbn [obind] in H; [|discriminate].
      destruct (IHn _ _ Hn En) as [-> R]. cbn [obind]. destruct (N.eqb_spec (bmin b) 0); [contradiction|].
      destruct (from_format m LReal fuel f _) as [t2|] eqn:E2; cbn in H; [|discriminate].
      destruct (IHf f (NRepeat f n) t2) as [-> R2]; auto; [now split|]. cbn. injection H as <-. split; [reflexivity|]. now apply union_regular.
    + eapply two_regular; eauto. intros t. apply IHf; auto. eapply sub_everywhere; [exact Hf|]; sub_in.
    + assert (Hg : everywhere regular f) by (eapply sub_everywhere; [exact Hf|]; sub_in).
      destruct Hr as (Hb & b & k & Eb & Ek). cbn [known] in *. rewrite Hb, Eb in *. cbn [obind] in *. rewrite Ek in *.
      apply IHs; auto. cbn. auto.
    + revert H. apply (ofold_regular (fun b : pattern * format => from_format m LReal fuel (snd b) n) (fun b => from_format m LExact fuel (snd b) n)); [|apply reject_regular]. intros g sg Hg. apply IHf; auto.
      eapply sub_everywhere; [exact Hf|]. intros y Hy. cbn [subs]. right. apply in_flat_map. exists g. split; [exact Hg|]. destruct g; exact Hy.
    + apply IHf; auto.
      * eapply sub_everywhere; [exact Hf|]. intros y Hy. cbn [subs]. right. apply in_or_app. now left.
      * split; [|exact Hn]. eapply sub_everywhere; [exact Hf|]. intros y Hy. cbn [subs]. right. apply in_or_app. now right.
    + apply IHf; auto.
      * eapply sub_everywhere; [exact Hf|]. intros y Hy. cbn [subs]. right. apply in_or_app. now left.
      * split; [|exact Hn]. eapply sub_everywhere; [exact Hf|]. intros y Hy. cbn [subs]. right. apply in_or_app. now right.
    + destruct o as [f|]; [|auto]. apply IHf; auto. eapply sub_everywhere; [exact Hf|]; sub_in.
Qed.

Lemma regular_safe depth : forall nexts t, (forall i n, In (i, n) nexts -> regular_next n) ->
  Grow LReal m depth nexts t -> Safe m LExact depth nexts.
Proof.
  induction depth as [|depth IH]; intros nexts t Hr HG; cbn [Grow] in HG; cbn [Safe].
  - destruct HG as [HG|[_ []]]. left. congruence.
  - destruct HG as [HG|(_ & fuel & order & lv & bs & Ho & Em & -> & HF)]; [left; congruence|right].
    destruct (merge_all_spec m LReal fuel order _ _ Em) as (I1 & I2 & I3 & I4 & I5); [intros b0 Hb0; cbn; lia|].
    destruct (from_regular fuel) as (Hx & _). exists fuel. split.
    + intros i n Hi. destruct (I4 i n (proj2 (Ho _) Hi)) as (st & E & _). apply Hx in E as [E _]; [congruence|eauto].
    + intros b nexts' Hb Hn.
      assert (Hsub : forall x, In x nexts' -> In x (lvl (l_br lv) b)).
      { intros [i n'] Hi. destruct (Hn i n' Hi) as (n & st & bs' & Hin & E & Hbr & Hc).
        destruct (I4 i n (proj2 (Ho _) Hin)) as (st' & E' & _ & Hall).
        destruct (Hx n st' (Hr i n Hin) E') as [E2 _]. rewrite E in E2. injection E2 as ->. eauto. }
      apply (Safe_sub m LExact depth (lvl (l_br lv) b)); [exact Hsub|].
      destruct (in_lvl _ b I1 Hb) as [->|(bs' & nx & Hin & Hc & E)].
      * destruct depth; left; discriminate.
      * rewrite E. apply In_nth_error in Hin as (k & Hk).
        assert (Ht : exists tb, nth_error bs k = Some (bs', tb) /\ Grow LReal m depth nx tb).
        { clear - HF Hk. revert k Hk. induction HF as [|[b1 n1] [b2 t2] l l' [E G] HF IHF]; intros [|k] Hk; try discriminate; cbn in *.
          - injection Hk as -> ->. subst b2. eauto.
          - eauto. }
        destruct Ht as (tb & _ & HG). apply (IH nx tb); [|exact HG]. intros i n' Hi. rewrite <- E in Hi.
        destruct (I5 b i n' Hb Hi) as [Hi3|(n3 & st3 & bs3 & J1 & J2 & J3 & J4)]; [destruct Hi3|].
        apply Ho in J1. destruct (Hx n3 st3 (Hr i n3 J1) J2) as [_ R]. eapply R; eauto.
Qed.
End Regular.

(** The construction in one iteration order is one of the constructions. *)
Lemma grow_Grow lk m fuel depth : forall nexts t, grow lk m fuel depth nexts = Val (Some t) -> Grow lk m depth nexts t.
Proof.
  induction depth as [|depth IH]; intros nexts t H; cbn [grow] in H; cbn [Grow].
  - destruct (accepts nexts); [left; congruence|discriminate].
  - destruct (accepts nexts); [left; congruence|right]. split; [reflexivity|].
    destruct (merge_all lk m fuel (Level None []) nexts) as [[lv|]|] eqn:Em; cbn [obind] in H; try discriminate.
    destruct (grow_branches (grow lk m fuel depth) (l_br lv)) as [[bs|]|] eqn:Eg; cbn in H; try discriminate.
    injection H as <-. exists fuel, nexts, lv, bs. repeat split; auto.
    clear Em. revert bs Eg. induction (l_br lv) as [|[b nx] l IHl]; intros bs Eg; cbn in Eg.
    + injection Eg as <-. constructor.
    + destruct (grow lk m fuel depth nx) as [[t|]|] eqn:E; cbn in Eg; try discriminate.
      destruct (grow_branches _ l) as [[bs'|]|]; cbn in Eg; try discriminate. injection Eg as <-. constructor; [|auto].
      cbn. split; [reflexivity|]. eauto.
Qed.
Lemma build_Build lk m fuel fs n t : build lk m fuel fs n = Val (Some t) -> Build lk m fs n t.
Proof. apply grow_Grow. Qed.
Lemma in_start fs n i f : nth_error fs i = Some f -> In (i, NCat f n) (start fs n).
Proof.
  unfold start. intros H. apply in_map_iff. exists (i, f). split; [reflexivity|].
  assert (E : forall k, In (k + i, f) (enumerate k fs)).
  { revert i H. induction fs as [|g fs IH]; intros [|i] H k; try discriminate; cbn in *.
    - injection H as ->. left. f_equal. lia.
    - right. replace (k + S i) with (S k + i) by lia. now apply IH. }
  exact (E 0).
Qed.
