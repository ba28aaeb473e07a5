(** Static bounds: what a format describes has a length within its match bounds. *)
From Verif Require ByteSetModel HuffmanModel HuffmanProofs.
From Verif Require Import Base BoundsModel BoundsProofs DataModel NumericModel ValueModel ValueProofs FormatModel MatchTreeModel
  DecoderModel FormatSpec FormatInd CompileProofs SoundProofs.
Open Scope nat_scope.

(** A format and the formats inside it. *)
Fixpoint subs (f : format) : list format :=
  f ::
  match f with
  | FItemVar _ _ _ | FFail | FEndOfInput | FAlign _ | FByte _ | FCompute _ | FApply _ | FPos | FSkipRemainder
  | FWithView _ _ | FLiftedOption None => []
  | FUnion fs | FUnionNondet fs | FTuple fs | FSequence fs => flat_map subs fs
  | FMatch _ bs => flat_map (fun b => match b with (_, g) => subs g end) bs
  | FVariant _ g | FRepeat g | FRepeat1 g | FRepeatCount _ g | FRepeatBetween _ _ g | FRepeatUntilLast _ g
  | FRepeatUntilSeq _ g | FAccumUntil _ _ _ _ g | FForEach _ _ g | FMaybe _ g | FPeek g | FPeekNot g | FSlice _ g
  | FBits g | FWithRelativeOffset _ _ g | FMap g _ | FWhere g _ _ | FLet _ _ g | FDynamic _ _ g | FDecodeBytes _ g
  | FHint g | FLiftedOption (Some g) | FLetView _ g | FParseFromView _ g | FPhantom g | FPermit g _ => subs g
  | FLetFormat g _ h | FMonadSeq g h => subs g ++ subs h
  end.
Definition everywhere (Q : format -> Prop) (f : format) : Prop := forall g, In g (subs f) -> Q g.
Definition module_wide (Q : format -> Prop) (M : fmodule) : Prop :=
  forall k it, get_item M k = Some it -> everywhere Q (it_format it).

Lemma everywhere_self (Q : format -> Prop) f : everywhere Q f -> Q f.
Proof. intros H. apply H. destruct f; now left. Qed.
Lemma everywhere_list (Q : format -> Prop) (fs : list format) : (forall g, In g (flat_map subs fs) -> Q g) -> Forall (everywhere Q) fs.
Proof. intros H. apply Forall_forall. intros f Hf g Hg. apply H. apply in_flat_map. eauto. Qed.
Lemma everywhere_branches (Q : format -> Prop) (bs : list (pattern * format)) :
  (forall g, In g (flat_map (fun b => match b with (_, g) => subs g end) bs) -> Q g) -> Forall (fun b => everywhere Q (snd b)) bs.
Proof. intros H. apply Forall_forall. intros [p f] Hf g Hg. apply H. apply in_flat_map. exists (p, f). auto. Qed.

(** ** Interval arithmetic *)

Lemma badd_within a b x y : within a x -> within b y -> within (badd a b) (x + y).
Proof.
  intros [Ha1 Ha2] [Hb1 Hb2]. unfold badd, checked_add.
  destruct (N.ltb_spec (bmin a + bmin b) w64); [|cbn [unwrap_or_any]; apply within_any].
  cbn [unwrap_or_any]. split; cbn [bmin bmax]; [lia|].
  destruct (bmax a) as [m1|], (bmax b) as [m2|]; try exact I.
  destruct (N.ltb_spec (m1 + m2) w64); [lia|exact I].
Qed.
(** A total made of [y] parts, each within [a]. *)
Definition total (a : bounds) (y x : N) : Prop :=
  (bmin a * y <= x)%N /\ match bmax a with Some m => (x <= m * y)%N | None => True end.
Lemma bmul_total a b x y : total a y x -> within b y -> within (bmul a b) x.
Proof.
  intros [Ha1 Ha2] [Hb1 Hb2]. unfold bmul, checked_mul.
  destruct (N.ltb_spec (bmin a * bmin b) w64); [|cbn [unwrap_or_any]; apply within_any].
  cbn [unwrap_or_any]. split; cbn [bmin bmax].
  - etransitivity; [|exact Ha1]. apply N.mul_le_mono_l. exact Hb1.
  - destruct (bmax a) as [m1|], (bmax b) as [m2|]; try exact I.
    destruct (N.ltb_spec (m1 * m2) w64); [|exact I]. etransitivity; [exact Ha2|]. apply N.mul_le_mono_l. exact Hb2.
Qed.

Definition len (i j : nat) : N := N.of_nat (j - i).
Definition fits (b : outcome bounds) (i j : nat) : Prop := i <= j /\ forall r, b = Val r -> within r (len i j).

Lemma chain_le {A} (R : A -> nat -> nat -> value -> Prop) l i j vs :
  (forall a i j v, In a l -> R a i j v -> i <= j) -> Chain R l i j vs -> i <= j.
Proof.
  intros H C. induction C as [|a l i j k v vs HR C IH]; [lia|].
  assert (i <= j) by (eapply H; [now left|eauto]). assert (j <= k) by (apply IH; intros; eapply H; [right; eassumption|eassumption]). lia.
Qed.
Lemma chain_total {A} (R : A -> nat -> nat -> value -> Prop) l i j vs b :
  (forall a i j v, In a l -> R a i j v -> fits (Val b) i j) -> Chain R l i j vs -> i <= j /\ total b (N.of_nat (length vs)) (len i j).
Proof.
  intros H C. induction C as [i|a l i j k v vs HR C IH].
  - split; [lia|]. unfold total, len. rewrite Nat.sub_diag. cbn [length]. rewrite N.mul_0_r.
    split; [lia|]. destruct (bmax b); [|exact I]. lia.
  - destruct (H a i j v) as [L F]; [now left|auto|]. destruct (F b eq_refl) as [F1 F2].
    destruct IH as [L' [T1 T2]]; [intros; eapply H; [right; eassumption|eassumption]|].
    split; [lia|]. unfold total, len in *. cbn [length]. rewrite Nnat.Nat2N.inj_succ, N.mul_succ_r.
    replace (k - i) with ((k - j) + (j - i)) by lia. rewrite Nnat.Nat2N.inj_add. split; [lia|].
    destruct (bmax b); [|exact I]. rewrite N.mul_succ_r. lia.
Qed.
Lemma chain_sum (R : format -> nat -> nat -> value -> Prop) (mb : format -> outcome bounds) fs i j vs :
  (forall a i j v, In a fs -> R a i j v -> fits (mb a) i j) -> Chain R fs i j vs ->
  forall bs acc x, omapM mb fs = Val bs -> within acc x -> within (fold_left badd bs acc) (x + len i j).
Proof.
  intros H C. induction C as [i|a l i j k v vs HR C IH]; intros bs acc x Hbs Hacc; cbn [omapM] in Hbs.
  - injection Hbs as <-. cbn. unfold len. rewrite Nat.sub_diag. now rewrite N.add_0_r.
  - destruct (H a i j v) as [L F]; [now left|auto|].
    assert (L' : j <= k).
    { eapply chain_le; [|exact C]. intros a0 i0 j0 v0 Ha HR0. eapply H; [right; eassumption|eassumption]. }
    destruct (mb a) as [b|]; cbn in Hbs; [|discriminate].
    destruct (omapM mb l) as [bs'|] eqn:E; cbn in Hbs; [|discriminate]. injection Hbs as <-. cbn [fold_left].
    replace (x + len i k)%N with ((x + len i j) + len j k)%N by (unfold len; lia).
    apply IH; auto; [intros; eapply H; [right; eassumption|eassumption]|]. apply badd_within; auto.
Qed.
Lemma omapM_nth {A B} (f : A -> outcome B) l bs k a : omapM f l = Val bs -> nth_error l k = Some a ->
  exists b, nth_error bs k = Some b /\ f a = Val b.
Proof.
  revert bs k. induction l as [|x l IH]; intros bs [|k] H Hk; cbn in *; try discriminate.
  - injection Hk as ->. destruct (f a) as [b|]; cbn in H; [|discriminate]. destruct (omapM f l); cbn in H; [|discriminate].
    injection H as <-. eauto.
  - destruct (f x); cbn in H; [|discriminate]. destruct (omapM f l); cbn in H; [|discriminate]. injection H as <-. cbn. eauto.
Qed.
Lemma fold_union_in bs : forall acc x, within acc x -> within (fold_left bunion bs acc) x.
Proof. induction bs as [|b bs IH]; intros acc x H; cbn; [auto|]. apply IH. apply bunion_sound. now left. Qed.
Lemma union_within bs r k b x : reduce_unwrap bunion bs = Val r -> nth_error bs k = Some b -> within b x -> within r x.
Proof.
  destruct bs as [|b0 bs]; cbn; [discriminate|]. intros [= <-] Hk Hx. destruct k as [|k]; cbn in Hk.
  - injection Hk as ->. now apply fold_union_in.
  - revert b0 k Hk. induction bs as [|b1 bs IH]; intros b0 [|k] Hk; cbn in *; try discriminate.
    + injection Hk as ->. apply fold_union_in, bunion_sound. now right.
    + eapply IH; eauto.
Qed.
Lemma first_match_nth {D Dc} v (s : scope D) (bs : list (pattern * Dc)) : forall i k s' d,
  first_match v s i bs = Some (k, s', d) -> exists n p, k = i + n /\ nth_error bs n = Some (p, d) /\ vmatches v s p = Some s'.
Proof.
  induction bs as [|[p x] bs IH]; intros i k s' d H; cbn in H; [discriminate|].
  destruct (vmatches v s p) as [s1|] eqn:E.
  - injection H as <- <- <-. exists 0, p. rewrite Nat.add_0_r. auto.
  - apply IH in H as (n & q & -> & Hn & Hm). exists (S n), q. cbn. rewrite Nat.add_succ_r. auto.
Qed.

(** ** The levels of a module *)

Section Mono.
Lemma omapM_mono {A B} (f g : A -> outcome B) l : Forall (fun a => forall b, f a = Val b -> g a = Val b) l ->
  forall bs, omapM f l = Val bs -> omapM g l = Val bs.
Proof.
  induction 1 as [|x l Hx _ IH]; intros bs H; cbn in *; [auto|]. destruct (f x) as [b|]; cbn in H; [|discriminate].
  rewrite (Hx b eq_refl). cbn. destruct (omapM f l) as [bs'|]; cbn in H; [|discriminate]. now rewrite (IH bs' eq_refl).
Qed.
Lemma nth_error_app_some {A} (l l' : list A) k x : nth_error l k = Some x -> nth_error (l ++ l') k = Some x.
Proof. intros H. rewrite nth_error_app1; [auto|]. apply nth_error_Some. congruence. Qed.
Lemma match_bounds_mono items more f : forall b, match_bounds items f = Val b -> match_bounds (items ++ more) f = Val b.
Proof.
  induction f using format_ind'; intros r Hr; cbn [match_bounds] in *; auto;
    try (match type of Hr with obind (match_bounds items ?g) _ = _ => destruct (match_bounds items g) as [b0|] eqn:E; [|discriminate] end;
         rewrite (IHf b0 eq_refl) || rewrite (IHf1 b0 eq_refl); cbn [obind] in *; auto);
    try (match type of Hr with omap _ (match_bounds items ?g) = _ => destruct (match_bounds items g) as [b0|] eqn:E; [|discriminate] end;
         rewrite (IHf b0 eq_refl); cbn [omap] in *; auto).
  - destruct (nth_error items l) as [b|] eqn:E; [|discriminate]. rewrite (nth_error_app_some _ _ _ _ E). exact Hr.
  - destruct (omapM (match_bounds items) fs) as [bs|] eqn:E; [|discriminate]. erewrite omapM_mono; eauto.
  - destruct (omapM (match_bounds items) fs) as [bs|] eqn:E; [|discriminate]. erewrite omapM_mono; eauto.
  - destruct (omapM (match_bounds items) fs) as [bs|] eqn:E; [|discriminate]. erewrite omapM_mono; eauto.
  - destruct (omapM (match_bounds items) fs) as [bs|] eqn:E; [|discriminate]. erewrite omapM_mono; eauto.
  - match type of Hr with obind ?x _ = _ => destruct x as [bs'|] eqn:E; [|discriminate] end.
    erewrite omapM_mono; [|clear -H|exact E]; [exact Hr|]. eapply Forall_impl; [|exact H]. intros [p g]; cbn; auto.
  - match type of Hr with omap _ (match_bounds items ?g) = _ => destruct (match_bounds items g) as [b1|] eqn:E1; [|discriminate] end.
    rewrite (IHf2 b1 eq_refl). exact Hr.
  - match type of Hr with omap _ (match_bounds items ?g) = _ => destruct (match_bounds items g) as [b1|] eqn:E1; [|discriminate] end.
    rewrite (IHf2 b1 eq_refl). exact Hr.
Qed.

Lemma item_fold (step : list (outcome bounds) -> format -> outcome bounds) (m : fmodule) : forall acc,
  exists l, fold_left (fun acc it => acc ++ [step acc (it_format it)]) m acc = acc ++ l /\ length l = length m /\
    forall k it, nth_error m k = Some it ->
      nth_error l k = Some (step (acc ++ firstn k l) (it_format it)).
Proof.
  induction m as [|x m IH]; intros acc; cbn [fold_left].
  - exists []. split; [now rewrite app_nil_r|]. split; [reflexivity|]. intros [|k]; discriminate.
  - destruct (IH (acc ++ [step acc (it_format x)])) as (l & E & Hl & Hk). exists (step acc (it_format x) :: l).
    split; [rewrite E; now rewrite <- app_assoc|]. split; [cbn; lia|]. intros [|k] it H; cbn in H.
    + injection H as ->. cbn. now rewrite app_nil_r.
    + cbn. rewrite (Hk k it H). now rewrite <- app_assoc.
Qed.
Lemma item_bounds_nth m k it b : nth_error m k = Some it -> nth_error (item_bounds m) k = Some (Val b) ->
  match_bounds (item_bounds m) (it_format it) = Val b.
Proof.
  intros Hit Hb. unfold item_bounds in *. destruct (item_fold (fun acc f => match_bounds acc f) m []) as (l & E & Hl & Hk).
  rewrite E in *. cbn [app] in *. rewrite (Hk k it Hit) in Hb. injection Hb as Hb.
  apply (match_bounds_mono _ (skipn k l)) in Hb. now rewrite firstn_skipn in Hb.
Qed.
Lemma item_bounds_length m : length (item_bounds m) = length m.
Proof. unfold item_bounds. destruct (item_fold (fun acc f => match_bounds acc f) m []) as (l & E & Hl & Hk). now rewrite E. Qed.
End Mono.

(** ** Huffman formats consume at least one bit *)

Lemma huffman_code_nonempty lengths codes c s : HuffmanModel.huffman_codes lengths = Val codes -> In (c, s) codes -> c <> [].
Proof.
  intros H Hin. apply HuffmanProofs.huffman_lengths in H as (_ & H).
  assert (Hl : In (length c) (map (fun p => length (fst p)) codes)) by (apply in_map_iff; exists (c, s); auto).
  rewrite H in Hl. apply filter_In in Hl as [_ Hl]. destruct c; [discriminate|congruence].
Qed.
Lemma chain_bytes M st s buf l : forall i j vs, Chain (fun f i j v => Sem M st s f buf i j v) (map is_bit l) i j vs -> j = i + length l.
Proof.
  induction l as [|b l IH]; intros i j vs H; inversion H as [|? ? ? ? ? ? ? H1 H2]; subst; cbn; [lia|].
  apply IH in H2. unfold is_bit in H1. inversion H1; subst. lia.
Qed.
Lemma huffman_consumes M st s lengths g buf i j v : huffman_format lengths = Val g -> Sem M st s g buf i j v -> i < j.
Proof.
  unfold huffman_format. destruct (HuffmanModel.huffman_codes lengths) as [codes|] eqn:E; [|discriminate].
  intros [= <-] H. inversion H; subst; clear H.
  match goal with Hn : nth_error (map _ codes) _ = Some _, Hs : Sem _ _ _ _ _ _ _ _ |- _ => rename Hn into Hnth; rename Hs into Hsem end.
  apply nth_error_In, in_map_iff in Hnth as ([c sy] & <- & Hin). cbn [fst snd] in Hsem.
  inversion Hsem; subst; clear Hsem. match goal with Hs : Sem _ _ _ (FTuple _) _ _ _ _ |- _ => inversion Hs; subst; clear Hs end.
  match goal with Hc : Chain _ _ _ _ _ |- _ => apply chain_bytes in Hc end.
  pose proof (huffman_code_nonempty _ _ _ _ E Hin). destruct c; [congruence|]. cbn in *. lia.
Qed.

(** ** The theorem *)

(** The bounds of an expression, when known, are right. *)
Definition trusted (e : expr) : Prop := forall D (s : scope D) n b, eval_usize e s = Val n -> expr_bounds e = Val b -> within b n.
(** A tolerated failure ([FPermit]) consumes nothing whatever the bounds of its
    content; counts and sizes must have right bounds. *)
Definition bounded_ok (g : format) : Prop :=
  match g with
  | FPermit _ _ => False
  | FRepeatCount e _ | FSlice e _ => trusted e
  | FRepeatBetween e1 e2 _ => trusted e1 /\ trusted e2
  | _ => True
  end.
Definition dyn_ok (s : scope format) : Prop := forall x g, get_decoder x s = Some g -> exists l, huffman_format l = Val g.

Lemma dyn_multi s es : dyn_ok s -> dyn_ok (SMulti s es). Proof. intros H x g. apply H. Qed.
Lemma dyn_single s x v : dyn_ok s -> dyn_ok (SSingle s x v). Proof. intros H y g. apply H. Qed.
Lemma dyn_view s x c : dyn_ok s -> dyn_ok (SView s x c). Proof. intros H y g. apply H. Qed.
Lemma dyn_empty : dyn_ok SEmpty. Proof. intros x g. discriminate. Qed.
Lemma dyn_bound s x dy g : dyn_ok s -> dyn_format dy s = Val g -> dyn_ok (SDecoder s x g).
Proof.
  intros H Hd y h. cbn. destruct (N.eqb x y); [|apply H]. intros [= <-]. destruct dy as [le ve]. cbn in Hd.
  destruct (obind (eval le s) value_to_vec_usize) as [ls|]; [|discriminate]. cbn in Hd.
  match type of Hd with obind ?x _ = _ => destruct x as [ls'|]; [|discriminate] end. cbn in Hd. eauto.
Qed.
Lemma dyn_call s es vs s' : call_scope s es vs = Val (inl s') -> dyn_ok s'.
Proof.
  unfold call_scope. destruct (call_values s es) as [l|]; cbn; [|discriminate].
  destruct (call_views s vs) as [[l'|e]|]; cbn; try discriminate. intros [= <-]. apply dyn_multi, dyn_empty.
Qed.
Lemma dyn_match v s p s' : dyn_ok s -> vmatches v s p = Some s' -> dyn_ok s'.
Proof.
  intros H. unfold vmatches. destruct (matches_inner _ _ _); cbn; [|discriminate]. intros [= <-]. now apply dyn_multi.
Qed.

Section Bounds.
Context (M : fmodule) (st : bool) (HM : module_wide bounded_ok M).
Notation mb := (match_bounds (item_bounds M)).
Definition bounded (s : scope format) (f : format) (buf : list N) (i j : nat) (v : value) : Prop :=
  dyn_ok s -> everywhere bounded_ok f -> fits (mb f) i j.

Lemma fits_same b i : within b 0 -> fits (Val b) i i.
Proof. intros H. split; [lia|]. intros r [= <-]. unfold len. now rewrite Nat.sub_diag. Qed.
Lemma fits_any i j : i <= j -> fits (Val bany) i j.
Proof. intros H. split; [exact H|]. intros r [= <-]. apply within_any. Qed.
Lemma within0_any : within bany 0. Proof. apply within_any. Qed.
Lemma within00 : within (bexact 0) 0. Proof. split; cbn; lia. Qed.

Lemma chain_ev (s : scope format) f buf n i j vs : dyn_ok s -> everywhere bounded_ok f ->
  Chain (fun f i j v => Sem M st s f buf i j v /\ bounded s f buf i j v) (repeat f n) i j vs ->
  i <= j /\ length vs = n /\ forall b, mb f = Val b -> total b (N.of_nat n) (len i j).
Proof.
  intros Hd He C. assert (Hl := Chain_repeat_count _ _ _ _ _ _ C).
  assert (HR : forall a i j v, In a (repeat f n) -> Sem M st s a buf i j v /\ bounded s a buf i j v -> fits (mb f) i j).
  { intros a i0 j0 v0 Ha [_ Hb]. apply repeat_spec in Ha. subst a. now apply Hb. }
  split; [|split; [exact Hl|]].
  - eapply chain_le; [|exact C]. intros a0 i0 j0 v0 Ha0 HR0. destruct (HR _ _ _ _ Ha0 HR0). assumption.
  - intros b Eb. rewrite <- Hl. eapply chain_total; [|exact C]. rewrite <- Eb. exact HR.
Qed.

Lemma bounds_sound s f buf i j v : Sem M st s f buf i j v -> bounded s f buf i j v.
Proof.
  intros HS. induction HS using Sem_ind'; intros Hd He;
    try (assert (He' : everywhere bounded_ok f) by (intros g0 Hg0; apply He; right; cbn; auto));
    try (apply everywhere_self in He as Hself; cbn [bounded_ok] in Hself);
    cbn [match_bounds]; try (now auto using fits_same, fits_any, within00).
  - (* item *)
    assert (Hf : fits (mb (it_format it)) i j).
    { apply IHHS; [eapply dyn_call; eauto|]. eapply HM; eauto. }
    destruct Hf as [L F]. split; [exact L|]. intros r Hr. apply F.
    destruct (nth_error (item_bounds M) level) as [b|] eqn:E; [|discriminate]. subst b.
    eapply item_bounds_nth; eauto.
  - (* align *)
    destruct (N.eqb_spec n 0); [congruence|]. split; [assumption|]. intros r [= <-]. unfold within, len; cbn. clear H0. split; [apply N.le_0_l|]. lia.
  - split; [lia|]. intros r [= <-]. unfold within, len; cbn [bmin bmax bexact bat_least]; lia.
  - (* union *)
    assert (Hf : everywhere bounded_ok f).
    { assert (Hl : Forall (everywhere bounded_ok) fs) by (apply everywhere_list; intros; apply He; right; auto).
      rewrite Forall_forall in Hl. apply Hl. eapply nth_error_In; eauto. }
    destruct (IHHS Hd Hf) as [L F]. split; [exact L|]. intros r Hr.
    destruct (omapM mb fs) as [bs|] eqn:E; [|discriminate]. cbn in Hr.
    destruct (omapM_nth _ _ _ _ _ E H) as (b & Hb & Eb). eapply union_within; eauto.
  - assert (Hf : everywhere bounded_ok f).
    { assert (Hl : Forall (everywhere bounded_ok) fs) by (apply everywhere_list; intros; apply He; right; auto).
      rewrite Forall_forall in Hl. apply Hl. eapply nth_error_In; eauto. }
    destruct (IHHS Hd Hf) as [L F]. split; [exact L|]. intros r Hr.
    destruct (omapM mb fs) as [bs|] eqn:E; [|discriminate]. cbn in Hr.
    destruct (omapM_nth _ _ _ _ _ E H1) as (b & Hb & Eb). eapply union_within; eauto.
  - (* tuple *)
    assert (Hl : Forall (everywhere bounded_ok) fs) by (apply everywhere_list; intros; apply He; right; auto).
    rewrite Forall_forall in Hl.
    assert (HR : forall a i j v, In a fs -> Sem M st s a buf i j v /\ bounded s a buf i j v -> fits (mb a) i j)
      by (intros a i0 j0 v0 Ha [_ Hb]; apply Hb; auto).
    split; [eapply chain_le; [|exact H]; intros a0 i0 j0 v0 Ha0 HR0; destruct (HR _ _ _ _ Ha0 HR0); assumption|]. intros r Hr.
    destruct (omapM mb fs) as [bs|] eqn:E; [|discriminate]. cbn in Hr. injection Hr as <-.
    destruct H as [i|a l i j k v vs HR1 C]; cbn in E.
    + injection E as <-. cbn. unfold len. rewrite Nat.sub_diag. apply within00.
    + destruct (HR a i j v) as [L F]; [now left|auto|].
      assert (L' : j <= k) by (eapply chain_le; [|exact C]; intros a0 i0 j0 v0 Ha0 HR0; destruct (HR _ _ _ _ (or_intror Ha0) HR0); assumption).
      destruct (mb a) as [b|]; cbn in E; [|discriminate]. destruct (omapM mb l) as [bs'|] eqn:E'; cbn in E; [|discriminate].
      injection E as <-. cbn [reduce_or0]. replace (len i k) with (len i j + len j k)%N by (unfold len; lia).
      eapply chain_sum; [|exact C|exact E'|auto]. intros a0 i0 j0 v0 Ha0 HR0; exact (HR _ _ _ _ (or_intror Ha0) HR0).
  - (* sequence *)
    assert (Hl : Forall (everywhere bounded_ok) fs) by (apply everywhere_list; intros; apply He; right; auto).
    rewrite Forall_forall in Hl.
    assert (HR : forall a i j v, In a fs -> Sem M st s a buf i j v /\ bounded s a buf i j v -> fits (mb a) i j)
      by (intros a i0 j0 v0 Ha [_ Hb]; apply Hb; auto).
    split; [eapply chain_le; [|exact H]; intros a0 i0 j0 v0 Ha0 HR0; destruct (HR _ _ _ _ Ha0 HR0); assumption|]. intros r Hr.
    destruct (omapM mb fs) as [bs|] eqn:E; [|discriminate]. cbn in Hr. injection Hr as <-.
    replace (len i j) with (0 + len i j)%N by lia. eapply chain_sum; [exact HR|exact H|exact E|apply within00].
  - (* repeat *)
    destruct (chain_ev _ _ _ _ _ _ _ Hd He' H) as (L & _ & _). now apply fits_any.
  - destruct (chain_ev _ _ _ _ _ _ _ Hd He' H) as (L & _ & F). split; [exact L|]. intros r Hr.
    destruct (mb f) as [b|]; [|discriminate]. cbn in Hr. injection Hr as <-. eapply bmul_total; [apply F; reflexivity|].
    split; cbn; auto. lia.
  - destruct (chain_ev _ _ _ _ _ _ _ Hd He' H0) as (L & _ & F). split; [exact L|]. intros r Hr.
    destruct (mb f) as [b|]; [|discriminate]. cbn in Hr. destruct (expr_bounds e) as [be|] eqn:Eb; [|discriminate].
    cbn in Hr. injection Hr as <-. eapply bmul_total; [apply F; reflexivity|].
    rewrite Nnat.N2Nat.id. eapply Hself; eauto.
  - destruct (chain_ev _ _ _ _ _ _ _ Hd He' H3) as (L & _ & F). split; [exact L|]. intros r Hr.
    destruct (mb f) as [b|]; [|discriminate]. cbn in Hr.
    destruct (expr_bounds e1) as [be1|] eqn:Eb1; [|discriminate]. cbn in Hr.
    destruct (expr_bounds e2) as [be2|] eqn:Eb2; [|discriminate]. cbn in Hr. injection Hr as <-.
    eapply bmul_total; [apply F; reflexivity|].
    pose proof (proj1 Hself _ s _ _ H0 Eb1) as [W1 W1']. pose proof (proj2 Hself _ s _ _ H1 Eb2) as [W2 W2'].
    unfold within, bunion; cbn [bmin bmax]. destruct (bmax be1), (bmax be2); lia.
  - destruct (chain_ev _ _ _ _ _ _ _ Hd He' H) as (L & Hn & F). split; [exact L|]. intros r Hr.
    destruct (mb f) as [b|]; [|discriminate]. cbn in Hr. injection Hr as <-. eapply bmul_total; [apply F; reflexivity|].
    split; cbn; auto. inversion H0; subst; cbn; lia.
  - destruct (chain_ev _ _ _ _ _ _ _ Hd He' H) as (L & _ & _). now apply fits_any.
  - destruct (chain_ev _ _ _ _ _ _ _ Hd He' H0) as (L & _ & _). now apply fits_any.
  - apply fits_any. eapply chain_le; [|exact H0]. intros a i0 j0 v0 _ [_ Hb]. apply Hb; auto using dyn_single.
  - (* maybe *)
    split; [lia|]. intros r Hr. destruct (mb f) as [b|]; [|discriminate]. cbn in Hr. injection Hr as <-.
    unfold len. rewrite Nat.sub_diag. apply bunion_sound. left. apply within00.
  - destruct (IHHS Hd He') as [L F]. split; [exact L|]. intros r Hr. destruct (mb f) as [b|]; [|discriminate]. cbn in Hr.
    injection Hr as <-. apply bunion_sound. auto.
  - (* slice *)
    split; [lia|]. intros r Hr. unfold len. replace (N.of_nat (i + N.to_nat n - i)) with n by lia. eapply Hself; eauto.
  - (* bits *)
    split; [lia|]. intros r Hr. destruct (IHHS Hd He') as [_ F]. destruct (mb f) as [b|]; [|discriminate]. cbn in Hr.
    injection Hr as <-. specialize (F b eq_refl). unfold len in *. rewrite Nat.sub_0_r in F.
    apply bits_to_bytes_sound in F. replace (N.of_nat _) with ((N.of_nat k + 7) / 8)%N; [exact F|].
    replace (i + (k + 7) / 8 - i) with ((k + 7) / 8) by lia. lia.
  - (* match *)
    apply first_match_nth in H0 as (n & p & -> & Hn & Hm).
    assert (Hf : everywhere bounded_ok f).
    { assert (Hl : Forall (fun b => everywhere bounded_ok (snd b)) bs) by (apply everywhere_branches; intros; apply He; right; auto).
      rewrite Forall_forall in Hl. apply (Hl (p, f)). eapply nth_error_In; eauto. }
    destruct (IHHS (dyn_match _ _ _ _ Hd Hm) Hf) as [L F]. split; [exact L|]. intros r Hr.
    match type of Hr with obind ?x _ = _ => destruct x as [bs'|] eqn:E; [|discriminate] end. cbn in Hr.
    destruct (omapM_nth _ _ _ _ _ E Hn) as (b & Hb & Eb). cbn in Eb. eapply union_within; eauto.
  - apply IHHS; auto. eapply dyn_bound; eauto.
  - (* apply *)
    destruct (Hd _ _ H) as (l & Hg). pose proof (huffman_consumes _ _ _ _ _ _ _ _ _ Hg HS) as L. split; [lia|].
    intros r [= <-]. unfold within, len; cbn [bmin bmax bexact bat_least]; lia.
  - (* let format *)
    assert (H1 : everywhere bounded_ok f) by (intros g0 Hg0; apply He; right; cbn; apply in_or_app; auto).
    assert (H2 : everywhere bounded_ok g) by (intros g0 Hg0; apply He; right; cbn; apply in_or_app; auto).
    destruct (IHHS1 Hd H1) as [L1 F1]. destruct (IHHS2 (dyn_single _ _ _ Hd) H2) as [L2 F2].
    split; [lia|]. intros r Hr. destruct (mb f) as [b1|]; [|discriminate]. cbn in Hr. destruct (mb g) as [b2|]; [|discriminate].
    cbn in Hr. injection Hr as <-. replace (len i k) with (len i j + len j k)%N by (unfold len; lia). apply badd_within; auto.
  - assert (H1 : everywhere bounded_ok f) by (intros g0 Hg0; apply He; right; cbn; apply in_or_app; auto).
    assert (H2 : everywhere bounded_ok g) by (intros g0 Hg0; apply He; right; cbn; apply in_or_app; auto).
    destruct (IHHS1 Hd H1) as [L1 F1]. destruct (IHHS2 Hd H2) as [L2 F2].
    split; [lia|]. intros r Hr. destruct (mb f) as [b1|]; [|discriminate]. cbn in Hr. destruct (mb g) as [b2|]; [|discriminate].
    cbn in Hr. injection Hr as <-. replace (len i k) with (len i j + len j k)%N by (unfold len; lia). apply badd_within; auto.
Qed.
End Bounds.
