(** Locations span what was consumed; joining adjacent locations. *)
From Coq Require Import Permutation.
From Verif Require ByteSetModel HuffmanModel.
From Verif Require Import Base BoundsModel DataModel DataProofs NumericModel ValueModel ValueProofs FormatModel MatchTreeModel
  DecoderModel DecoderProofs CompileProofs MatchBoundsProofs LocModel LocSpec LocProofs LocAgreeProofs LocPlaceProofs.
Open Scope nat_scope.

(** ** Joining *)

Lemma join_comm a b : loc_join a b = loc_join b a.
Proof. destruct a, b; cbn; auto. f_equal; lia. Qed.
Lemma join_assoc a b c : loc_join a (loc_join b c) = loc_join (loc_join a b) c.
Proof. destruct a, b, c; cbn; auto. f_equal; lia. Qed.
Lemma join_synth a : loc_join LSynth a = a /\ loc_join a LSynth = a.
Proof. destruct a; auto. Qed.
Lemma fold_join ls a : fold_left loc_join ls a = loc_join a (loc_accum ls).
Proof.
  unfold loc_accum. revert a. induction ls as [|l ls IH]; intros a; cbn; [now destruct a|]. rewrite IH, (IH (loc_join LSynth l)).
  rewrite join_assoc. f_equal. now destruct l.
Qed.
Lemma accum_cons l ls : loc_accum (l :: ls) = loc_join l (loc_accum ls).
Proof. unfold loc_accum at 1. cbn [fold_left]. rewrite fold_join. now destruct l. Qed.
Lemma accum_app a b : loc_accum (a ++ b) = loc_join (loc_accum a) (loc_accum b).
Proof. unfold loc_accum at 1. rewrite fold_left_app. apply fold_join. Qed.
Lemma accum_perm ls ls' : Permutation ls ls' -> loc_accum ls = loc_accum ls'.
Proof.
  induction 1; [reflexivity| | |congruence]; rewrite ?accum_cons; [now rewrite IHPermutation|]. rewrite !join_assoc. f_equal. apply join_comm.
Qed.
Lemma contiguous_le o ls o' : contiguous o ls o' -> o <= o'.
Proof. revert o. induction ls as [|[|a n] ls IH]; intros o; cbn; [lia| |]; [apply IH|]. intros [_ H]. apply IH in H. lia. Qed.
Lemma accum_contiguous o ls o' : contiguous o ls o' -> loc_accum ls = if forallb (fun l => match l with LSynth => true | _ => false end) ls then LSynth else LBuf o (o' - o).
Proof.
  revert o. induction ls as [|[|a n] ls IH]; intros o H; [reflexivity| |]; rewrite accum_cons; cbn [contiguous forallb andb] in *.
  - rewrite (IH o H). now destruct (forallb _ ls).
  - destruct H as [-> H]. rewrite (IH _ H). pose proof (contiguous_le _ _ _ H). destruct (forallb _ ls) eqn:E; cbn; [|f_equal; lia].
    f_equal. assert (o + n = o').
    { clear - H E. revert H. generalize (o + n) as p. induction ls as [|[|] ls IH]; intros p H; cbn in *; auto; discriminate. }
    lia.
Qed.
Lemma contiguous_app o ls l o' o'' : contiguous o ls o' -> contiguous o' [l] o'' -> contiguous o (ls ++ [l]) o''.
Proof.
  revert o. induction ls as [|[|a n] ls IH]; intros o H H'; cbn in *; [subst; exact H'| |]; [now apply IH|]. destruct H as [-> H]. split; [reflexivity|]. now apply IH.
Qed.

(** ** The order of locations *)

Lemma loc_cmp_eq a b : loc_cmp a b = Eq <-> a = b.
Proof.
  destruct a as [|o n], b as [|o' n']; cbn; try (split; congruence).
  destruct (Nat.compare_spec o o'), (Nat.compare_spec n n'); split; intros H'; try discriminate; try (injection H'; lia); subst; try reflexivity; try lia.
Qed.
Lemma loc_cmp_sym a b : loc_cmp b a = CompOpp (loc_cmp a b).
Proof.
  destruct a as [|o n], b as [|o' n']; cbn; auto. rewrite (Nat.compare_antisym o o'), (Nat.compare_antisym n n'). now destruct (Nat.compare o o').
Qed.
Lemma loc_cmp_trans a b c : loc_cmp a b = Lt -> loc_cmp b c = Lt -> loc_cmp a c = Lt.
Proof.
  destruct a as [|o n], b as [|o' n'], c as [|o2 n2]; cbn; try discriminate; auto.
  destruct (Nat.compare_spec o o'), (Nat.compare_spec o' o2); try discriminate; subst; intros H1 H2;
    repeat match goal with H : Nat.compare _ _ = Lt |- _ => apply Nat.compare_lt_iff in H end;
    match goal with |- match Nat.compare ?a ?b with _ => _ end = _ => destruct (Nat.compare_spec a b) end; try lia; try reflexivity.
  apply Nat.compare_lt_iff. lia.
Qed.

(** ** Cursors only advance *)

Lemma span_adv {A} c n (f : A -> nat -> nat -> pval) r : in_range c -> radv c r -> radv c (spanning n f r).
Proof. intros Hc H. unfold spanning. apply radv_bind; [exact H|]. intros a c' Ha. apply advances_refl. eapply advances_range, Ha. Qed.
Lemma q_radv_view {D A} c (s : qscope D) v (k : rctx -> dres A) : (forall w, radv c (k w)) -> radv c (q_with_view s v k).
Proof. intros H. apply radv_let. intros [w|e] _; cbn; auto. Qed.
Section LoopsAdv.
Context {Sc Dc : Type} (p : Sc -> Dc -> rctx -> dres pval).
Context (Hp : forall s d c, in_range c -> radv c (p s d c)).
Lemma qseq_adv l : forall c, in_range c -> radv c (qseq p l c).
Proof.
  induction l as [|[s d] l IH]; intros c Hc; [now apply advances_refl|]. cbn [qseq].
  apply radv_bind; [now apply Hp|]. intros v c' Hc'. apply radv_map, IH. eapply advances_range; eauto.
Qed.
Lemma qpar_adv s ds c : in_range c -> forall i, radv c (qpar p i s ds c).
Proof.
  intros Hc. induction ds as [|d ds IH]; intros i; cbn [qpar]; [exact I|].
  pose proof (Hp s d c Hc) as H. destruct (p s d c); cbn; auto.
Qed.
Context (s : Sc) (d : Dc) (t : mtree).
Lemma qwhile_adv n : forall c, in_range c -> radv c (qwhile p s d t n c).
Proof.
  induction n as [|n IH]; intros c Hc; [exact I|]. cbn [qwhile].
  destruct (tree_matches t c) as [[|k]|]; cbn; auto; [|now apply advances_refl].
  apply radv_bind; [now apply Hp|]. intros v c' Hc'. apply radv_map, IH. eapply advances_range; eauto.
Qed.
Lemma quntil_adv n : forall c, in_range c -> radv c (quntil p s d t n c).
Proof.
  induction n as [|n IH]; intros c Hc; [exact I|]. cbn [quntil].
  apply radv_bind; [now apply Hp|]. intros v c' Hc'. apply advances_range in Hc'.
  destruct (tree_matches t c') as [[|k]|]; cbn; auto; [now apply advances_refl|]. now apply radv_map, IH.
Qed.
Lemma qbetween_adv mn mx c0 n : forall len c, in_range c -> radv c (qbetween p s d t mn mx c0 len n c).
Proof.
  induction n as [|n IH]; intros len c Hc; [exact I|]. cbn [qbetween].
  destruct (tree_matches t c0) as [k|]; cbn; auto.
  destruct (Nat.eqb k 0 || N.eqb (N.of_nat len) mx).
  - destruct (N.ltb (N.of_nat len) mn); cbn; auto. now apply advances_refl.
  - apply radv_bind; [now apply Hp|]. intros v c' Hc'. apply radv_map, IH. eapply advances_range; eauto.
Qed.
Lemma quntil_done_adv stop n : forall acc c, in_range c -> radv c (quntil_done p s d stop acc n c).
Proof.
  induction n as [|n IH]; intros acc c Hc; [exact I|]. cbn [quntil_done].
  apply radv_bind; [now apply Hp|]. intros v c' Hc'. apply advances_range in Hc'.
  apply radv_let. intros [|] _; [now apply advances_refl|]. now apply IH.
Qed.
Lemma qaccum_adv stop upd n : forall acc vs c, in_range c -> radv c (qaccum p s d stop upd acc vs n c).
Proof.
  induction n as [|n IH]; intros acc vs c Hc; [exact I|]. cbn [qaccum].
  apply radv_let. intros [|] _; [now apply advances_refl|].
  apply radv_bind; [now apply Hp|]. intros v c' Hc'. apply advances_range in Hc'.
  apply radv_let. intros acc' _. now apply IH.
Qed.
End LoopsAdv.

Section Adv.
Context (bld : fmodule -> list format -> next -> outcome (option mtree)) (P : program).
Notation q_parse := (q_parse bld P).
Lemma q_parse_adv n : forall s d c, in_range c -> radv c (q_parse n s d c).
Proof.
  induction n as [|n IH]; intros s d c Hc; [exact I|].
  pose proof (advances_refl c Hc) as Hr.
  cbn [LocModel.q_parse]. destruct d; try exact I; try exact Hr;
    try (apply radv_map; now apply IH); try (apply radv_back; exact Hr).
  - apply radv_let. intros [s'|e] _; cbn; auto. destruct (nth_error P n0); cbn; auto.
  - destruct (rc_read_byte c) as [[b ?]|]; cbn; auto.
  - destruct (N.eqb n0 0); cbn; auto.
    apply radv_let. intros [[sl c']|] H; cbn; auto. eapply split_at_adv; eauto.
  - destruct (rc_read_byte c) as [[b c']|] eqn:E; cbn; auto. apply read_byte_adv in E as (Ha & _).
    destruct (ByteSetModel.contains bs b); cbn; auto.
  - now apply qpar_adv.
  - destruct (tree_matches t c); cbn; auto. destruct (nth_error ds n0); cbn; auto. now apply radv_map, IH.
  - now apply span_adv, qseq_adv.
  - now apply span_adv, qseq_adv.
  - now apply span_adv, qwhile_adv.
  - now apply span_adv, quntil_adv.
  - apply radv_let. intros k _. now apply span_adv, qseq_adv.
  - now apply span_adv, quntil_done_adv.
  - now apply radv_map, quntil_done_adv.
  - apply radv_let. intros [|] _; cbn; auto. now apply radv_map, IH.
  - destruct (q_parse n s d c); cbn; auto.
  - apply radv_let. intros k _. apply radv_let. intros [[sl c']|] H; cbn; auto.
    apply radv_back. eapply split_at_adv; eauto.
  - apply radv_let. intros rem _. apply radv_bind'. intros v cb. apply radv_let. intros remb _.
    destruct (length rem <? length remb / 8); [exact I|]. apply radv_let.
    intros [[sl c']|] E; [eapply split_at_adv; eauto|exact I].
  - apply radv_let. intros b _. apply radv_let. intros o _. destruct (N.ltb (b + o) w64); cbn; auto.
    destruct (rc_seek_to c (b + o)); cbn; auto. now apply radv_back.
  - apply radv_bind; [now apply IH|]. intros v c' Hc'. apply radv_let. intros. apply advances_refl. eapply advances_range; eauto.
  - apply radv_bind; [now apply IH|]. intros v c' Hc'. apply radv_let. intros b _. apply advances_range in Hc'.
    destruct b; [|destruct strict]; cbn; auto using advances_refl.
  - apply radv_let. intros v _. exact Hr.
  - apply radv_let. intros v _. now apply IH.
  - apply radv_let. intros v _. destruct (q_first_match v s 0 bs) as [[[i s'] d']|]; cbn; auto. now apply radv_map, IH.
  - apply radv_let. intros f _. destruct (compile_one bld f); cbn; auto.
  - destruct (q_get_decoder x s); cbn; auto.
  - apply radv_let. intros mn _. apply radv_let. intros mx _. now apply span_adv, qbetween_adv.
  - apply radv_let. intros l _. now apply span_adv, qseq_adv.
  - unfold rc_skip_remainder, advances; cbn. unfold in_range in Hc. repeat split; auto.
  - apply radv_let. intros bytes _. destruct (q_parse n s d (rc_new bytes)) as [v c' es| | |]; cbn; auto.
    destruct (rc_read_byte c') as [[b ?]|]; cbn; auto.
  - apply q_radv_view. intros w. now apply radv_back.
  - apply radv_bind; [now apply IH|]. intros v c' Hc'. apply IH. eapply advances_range; eauto.
  - apply radv_bind; [now apply IH|]. intros v c' Hc'. apply IH. eapply advances_range; eauto.
  - apply radv_let. intros acc _. now apply span_adv, qaccum_adv.
  - destruct o; cbn; auto. now apply radv_map, IH.
  - now apply IH.
  - apply radv_let. intros k _. apply q_radv_view. intros w. now apply radv_back.
  - apply radv_let. intros k0 _. apply q_radv_view. intros w. now apply radv_back.
  - apply q_radv_view. intros w. exact Hr.
  - pose proof (IH s d c Hc) as H. destruct (q_parse n s d c) as [v c' es|er| |]; cbn; auto.
    destruct (q_eval e s); cbn; auto.
Qed.
End Adv.

(** ** Spans *)

Lemma Forall2_nth_error_r {A B} (R : A -> B -> Prop) l l' : Forall2 R l l' -> forall i b, nth_error l' i = Some b -> exists a, nth_error l i = Some a /\ R a b.
Proof. induction 1 as [|a b l l' H Hl IH]; intros [|i] x E; try discriminate; cbn in *; [injection E as <-; eauto|eauto]. Qed.
Section Span.
Context (bld : fmodule -> list format -> next -> outcome (option mtree)) (M : fmodule) (P : program) (Call : nat -> next -> nat -> Prop).
Context (HL : linked bld M P Call).
Notation q_parse := (q_parse bld P).
Lemma spans_spanning {A} c f (r : dres A) : (forall a o n, get_loc (f a o n) = LBuf o n) -> spans_consumed c (spanning (roff c) f r).
Proof. intros H. unfold spanning. destruct r; cbn; auto. Qed.
Lemma spans_map c f r : (forall p, get_loc (f p) = get_loc p) -> spans_consumed c r -> spans_consumed c (rmap f r).
Proof. intros H. destruct r; cbn; auto. intros <-. auto. Qed.
Lemma spans_let {A} c (x : outcome A) k : (forall a, x = Val a -> spans_consumed c (k a)) -> spans_consumed c (rlet x k).
Proof. intros H. destruct x; cbn; auto. Qed.
Lemma spans_par fuel q c ds : Forall (fun d => spans_consumed c (q_parse fuel q d c)) ds -> forall i, spans_consumed c (qpar (q_parse fuel) i q ds c).
Proof.
  induction 1 as [|d ds Hd H IH]; intros i; cbn [qpar]; [exact I|]. destruct (q_parse fuel q d c); cbn in *; auto.
Qed.

(** Fields read one after another, then collected *)
Definition field_ok (q : qscope decoder) (x : label * pval) : Prop := q_get_value (fst x) q = Some (snd x).
Lemma eval_fields q (done : list (label * pval)) : Forall (field_ok q) done -> done <> [] ->
  q_eval (ERecord (map (fun f => (fst f, EVar (fst f))) done)) q = Val (QRecord (loc_accum (map (fun f => get_loc (snd f)) done)) done).
Proof.
  intros H Hn. cbn [q_eval].
  assert (E : omapM (fun f : label * expr => match f with (l, e) => omap (pair l) (q_eval e q) end) (map (fun f => (fst f, EVar (fst f))) done) = Val done).
  { clear Hn. induction H as [|[l p] done H Hd IH]; [reflexivity|]. cbn [map omapM q_eval fst]. unfold field_ok in H. cbn in H. rewrite H. cbn [omap obind]. now rewrite IH. }
  rewrite E. cbn [obind]. destruct done; [congruence|reflexivity].
Qed.
Definition no_synth (done : list (label * pval)) : Prop := Forall (fun f => get_loc (snd f) <> LSynth) done.
Lemma all_real o done o' : no_synth done -> done <> [] -> contiguous o (map (fun f => get_loc (snd f)) done) o' ->
  loc_accum (map (fun f : label * pval => get_loc (snd f)) done) = LBuf o (o' - o).
Proof.
  intros H Hn Hc. rewrite (accum_contiguous _ _ _ Hc). destruct H as [|x l Hx H]; [congruence|]. cbn. destruct (get_loc (snd x)); [congruence|reflexivity].
Qed.
Section Fields.
Context (fuel : nat) (IH : forall k, k <= fuel -> forall f n d q c, Comp bld M Call f n d -> Spans M f -> in_range c -> spans_consumed c (q_parse k q d c)).
Lemma fields_span c0 fin (e : list (label * format)) : fin = map fst e -> forall fs done n d q c k, k <= S fuel -> in_range c ->
  Comp bld M Call (fold_right (fun f g => FLetFormat (snd f) (fst f) g) (FCompute (ERecord (map (fun f => (fst f, EVar (fst f))) e))) fs) n d ->
  Forall (fun f => Spans M (snd f)) fs -> NoDup (fin) -> fin = map fst done ++ map fst fs -> fin <> [] ->
  Forall (field_ok q) done -> no_synth done -> contiguous (roff c0) (map (fun f => get_loc (snd f)) done) (roff c) ->
  spans_consumed c0 (q_parse k q d c).
Proof.
  intros Hfin fs. induction fs as [|[x f] fs IHf]; intros done n d q c k Hk Hc HC HS HN HF Hne Hd Hs Hct; cbn [fold_right] in HC.
  - inversion HC; subst. destruct k as [|k]; [exact I|]. cbn [LocModel.q_parse]. rewrite app_nil_r in HF.
    assert (E : map (fun f : label * format => (fst f, EVar (fst f))) e = map (fun f => (fst f, EVar (fst f))) done).
    { transitivity (map (fun x => (x, EVar x)) (map fst e)); [now rewrite map_map|]. rewrite HF. now rewrite map_map. }
    rewrite E. assert (done <> []) by (intros ->; apply Hne; exact HF). rewrite eval_fields by assumption. cbn [rlet spans_consumed get_loc]. now apply all_real.
  - inversion HC; subst. inversion HS as [|? ? HS1 HS2]; subst. destruct k as [|k]; [exact I|]. cbn [LocModel.q_parse]. cbn [snd fst] in *.
    assert (R : spans_consumed c (q_parse k q d0 c)) by (eapply IH; [lia|eassumption|exact HS1|exact Hc]). pose proof (q_parse_adv bld P k q d0 c Hc) as Ra.
    destruct (q_parse k q d0 c) as [p c' es| | |]; cbn [rbind spans_consumed radv] in *; try exact I.
    assert (W : spans_consumed c0 (q_parse k (QSSingle q x p) d' c')).
    { eapply (IHf (done ++ [(x, p)])); [lia|eapply advances_range, Ra|eassumption|assumption|exact HN| |exact Hne| | |].
      - rewrite HF. rewrite map_app. cbn. now rewrite <- app_assoc.
      - apply Forall_app. split; [|constructor; [|constructor]].
        + rewrite Forall_forall in *. intros [y r] Hy. unfold field_ok. cbn. destruct (N.eqb_spec x y) as [<-|Hxy]; [|exact (Hd _ Hy)].
          exfalso. rewrite HF in HN. cbn in HN. apply NoDup_remove_2 in HN. apply HN. apply in_or_app. left. apply List.in_map_iff. exists (x, r). auto.
        + unfold field_ok. cbn. now rewrite N.eqb_refl.
      - apply Forall_app. split; [exact Hs|]. constructor; [|constructor]. cbn. rewrite R. discriminate.
      - rewrite map_app. cbn [map snd]. eapply contiguous_app; [exact Hct|]. cbn. rewrite R. split; [reflexivity|]. destruct Ra as (_ & Ra & _). lia. }
    destruct (q_parse k (QSSingle q x p) d' c'); auto.
Qed.
End Fields.

Lemma span fuel : forall f n d q c, Comp bld M Call f n d -> Spans M f -> in_range c -> spans_consumed c (q_parse fuel q d c).
Proof.
  induction fuel as [fuel IH] using lt_wf_ind. intros f n d q c HC HS Hc. destruct fuel as [|fuel]; [exact I|].
  assert (IH' : forall f n d q c, Comp bld M Call f n d -> Spans M f -> in_range c -> spans_consumed c (q_parse fuel q d c)) by (intros; eapply (IH fuel); eauto).
  revert HC. revert d. induction HS; intros dd HC;
    lazymatch type of HC with
    | Comp _ _ _ (record_of _) _ _ => idtac
    | _ => inversion HC; subst; cbn [LocModel.q_parse]
    end.
  all: try (apply spans_spanning; reflexivity).
  - destruct (rc_read_byte c) as [[b c']|] eqn:E; [|exact I]. destruct (ByteSetModel.contains bs b); [|exact I].
    apply read_byte_adv in E as (_ & E & _). cbn. f_equal. lia.
  - destruct (rc_read_byte c) as [[b c']|]; [exact I|]. cbn. now rewrite Nat.sub_diag.
  - destruct (N.eqb n0 0); [exact I|]. apply spans_let. intros [[sl c']|] E; [|exact I]. apply split_at_spec in E as (-> & _ & _). cbn. f_equal. lia.
  - reflexivity.
  - apply spans_let. intros k _. apply spans_spanning. reflexivity.
  - apply spans_let. intros k _. apply spans_let. intros k' _. apply spans_spanning. reflexivity.
  - apply spans_let. intros k _. apply spans_spanning. reflexivity.
  - apply spans_let. intros k _. apply spans_spanning. reflexivity.
  - apply spans_let. intros [q'|e] _; [|exact I]. match goal with H : Call _ _ _ |- _ => destruct (HL _ _ _ H) as (it' & d' & Hit & Hn & HCi) end.
    rewrite Hn. eapply IH'; [exact HCi| |exact Hc]. match goal with H : get_item M level = Some it, H' : get_item M level = Some it' |- _ => rewrite H in H'; injection H' as <- end. assumption.
  - match goal with Hn : fs <> [], HN : NoDup (map fst fs), HF : Forall _ fs |- _ =>
      refine (fields_span fuel (fun k Hk => IH k _) c (map fst fs) fs eq_refl fs [] n dd q c (S fuel) (le_n _) Hc HC HF HN eq_refl _ _ _ _) end;
      [lia|destruct fs; [congruence|discriminate]|constructor|constructor|reflexivity].
  - apply spans_map; [reflexivity|]. eapply IH'; eassumption.
  - destruct (tree_matches t c) as [i|]; [|exact I]. destruct (nth_error ds i) as [x|] eqn:E; [|exact I]. apply spans_map; [reflexivity|].
    match goal with H : Forall2 _ fs ds |- _ => destruct (Forall2_nth_error_r _ _ _ H _ _ E) as (f & Hf & HCf) end.
    eapply IH'; [exact HCf| |exact Hc]. match goal with H : Forall _ fs |- _ => rewrite Forall_forall in H; eapply H, nth_error_In, Hf end.
  - apply spans_par. apply Forall_forall. intros d Hd. apply In_nth_error in Hd as (i & E).
    match goal with H : Forall2 _ fs ds |- _ => destruct (Forall2_nth_error_r _ _ _ H _ _ E) as (f & Hf & HCf) end.
    eapply IH'; [exact HCf| |exact Hc]. match goal with H : Forall _ fs |- _ => rewrite Forall_forall in H; eapply H, nth_error_In, Hf end.
  - apply spans_let. intros p _. destruct (q_first_match p q 0 ds) as [[[j q'] d]|] eqn:E; [|exact I]. apply spans_map; [reflexivity|].
    assert (Hin : exists pt, In (pt, d) ds).
    { clear - E. revert E. generalize 0 as i. induction ds as [|[pt d0] ds IHd]; intros i E; [discriminate|]. cbn in E. destruct (q_matches p q pt); [injection E as <- <- <-; eexists; now left|].
      destruct (IHd _ E) as (pt' & H'). eexists. right. exact H'. }
    destruct Hin as (pt & Hin). apply In_nth_error in Hin as (i & Ei).
    match goal with H : Forall2 _ bs ds |- _ => destruct (Forall2_nth_error_r _ _ _ H _ _ Ei) as (b & Hb & _ & HCb) end.
    eapply IH'; [exact HCb| |exact Hc]. match goal with H : Forall _ bs |- _ => rewrite Forall_forall in H; eapply (H b), nth_error_In, Hb end.
  - match goal with |- context [q_parse fuel q ?d c] => assert (R : spans_consumed c (q_parse fuel q d c)) by (eapply IH'; eassumption); destruct (q_parse fuel q d c) as [p c' es| | |] end;
      cbn [rbind]; try exact I. destruct (q_eval_lambda e q p); cbn; auto.
  - match goal with |- context [q_parse fuel q ?d c] => assert (R : spans_consumed c (q_parse fuel q d c)) by (eapply IH'; eassumption); destruct (q_parse fuel q d c) as [p c' es| | |] end;
      cbn [rbind]; try exact I. destruct (q_lambda_bool e q p) as [[|]|]; cbn; auto. destruct b; cbn; auto.
  - apply spans_let. intros p _. eapply IH'; eassumption.
  - eapply IH'; eassumption.
  - apply spans_let. intros g _. destruct (compile_one bld g); try exact I. eapply IH'; eassumption.
  - eauto.
  - apply spans_map; [reflexivity|]. eapply IH'; eassumption.
Qed.
End Span.
Lemma run_spans bld eqb M fuel f P (Heqb : forall a b, eqb a b = true -> a = b) : Spans M f ->
  compile_program bld eqb M fuel f = Some (COk P) -> forall k c, in_range c -> spans_consumed c (run_with_loc bld P k c).
Proof.
  intros HS HC k c Hc. apply compile_program_map in HC as (tbl & HL & d & Hd & HC); [|exact Heqb].
  unfold run_with_loc. destruct P as [|d0 P']; [exact I|]. injection Hd as ->. eapply span; eauto.
Qed.

(** ** Instances of [place] *)

Section PvalInd.
Context (Q : pval -> Prop).
Context (HFl : forall l v, Q (QFlat l v)) (HT : forall l ps, Forall Q ps -> Q (QTuple l ps))
 (HR : forall l fs, Forall (fun f => Q (snd f)) fs -> Q (QRecord l fs)) (HV : forall l p, Q p -> Q (QVariant l p))
 (HSt : forall l ps, Forall Q ps -> Q (QSeq l (Strict ps))) (HD : forall l n p, Q p -> Q (QSeq l (Dup n p)))
 (HM : forall o p, Q o -> Q p -> Q (QMapped o p)) (HB : forall n p, Q p -> Q (QBranch n p)) (HPO : forall p, Q p -> Q (QPermitOk p))
 (HPN : Q (QPermitErr None)) (HPE : forall p, Q p -> Q (QPermitErr (Some p))) (HN : Q (QOption None)) (HSm : forall p, Q p -> Q (QOption (Some p))).
Fixpoint pval_ind' (p : pval) : Q p :=
  let go := fix go (es : list pval) : Forall Q es :=
    match es with [] => Forall_nil _ | e :: es' => Forall_cons e (pval_ind' e) (go es') end in
  let gor := fix gor (fs : list (label * pval)) : Forall (fun f => Q (snd f)) fs :=
    match fs with [] => Forall_nil _ | f :: fs' => Forall_cons f (pval_ind' (snd f)) (gor fs') end in
  match p with
  | QFlat l v => HFl l v | QTuple l ps => HT l ps (go ps) | QRecord l fs => HR l fs (gor fs) | QVariant l p => HV l p (pval_ind' p)
  | QSeq l (Strict ps) => HSt l ps (go ps) | QSeq l (Dup n p) => HD l n p (pval_ind' p)
  | QMapped o p => HM o p (pval_ind' o) (pval_ind' p) | QBranch n p => HB n p (pval_ind' p) | QPermitOk p => HPO p (pval_ind' p)
  | QPermitErr None => HPN | QPermitErr (Some p) => HPE p (pval_ind' p) | QOption None => HN | QOption (Some p) => HSm p (pval_ind' p)
  end.
End PvalInd.
Lemma parts_trans p : forall x y, In x (parts p) -> In y (parts x) -> In y (parts p).
Proof.
  induction p using pval_ind'; intros x y [<-|Hx] Hy; try exact Hy; cbn [parts] in *; right; try contradiction; eauto.
  - apply in_flat_map in Hx as (p & Hp & Hx). apply in_flat_map. exists p. split; [exact Hp|]. rewrite Forall_forall in H. eapply H; eauto.
  - apply in_flat_map in Hx as ([a p] & Hp & Hx). apply in_flat_map. exists (a, p). split; [exact Hp|]. rewrite Forall_forall in H. eapply (H (a, p)); eauto.
  - apply in_flat_map in Hx as (p & Hp & Hx). apply in_flat_map. exists p. split; [exact Hp|]. rewrite Forall_forall in H. eapply H; eauto.
  - destruct n; [destruct Hx|]. eauto.
  - apply in_or_app. apply in_app_or in Hx as [Hx|Hx]; eauto.
Qed.

Section Instances.
Context (bld : fmodule -> list format -> next -> outcome (option mtree)) (eqb : next -> next -> bool) (Heqb : forall a b, eqb a b = true -> a = b).
Context (M : fmodule) (fuel : nat) (f : format) (P : program) (HC : compile_program bld eqb M fuel f = Some (COk P)).
Lemma start_cok buf : cok buf (rc_new buf).
Proof. split; [unfold in_range; cbn; lia|]. exists (length buf). cbn. now rewrite firstn_all. Qed.
Lemma node_ok (recs mp : bool) g : (one_buffer g && (mp || unmapped g) && (recs || forallb no_record (node_exprs g)))%bool = true ->
  gnode (okx recs) (fun _ => true) (fun _ => true) true mp false mp g = true.
Proof.
  assert (L : forall {A} (l : list A), forallb (fun _ => true) l = true) by (induction l; auto).
  destruct recs, mp; destruct g; cbn; unfold okx; cbn; rewrite ?L, ?andb_true_r; auto; try discriminate;
    try match goal with v : viewformat |- _ => destruct v; cbn; rewrite ?andb_true_r; auto end;
    try match goal with v : dynformat |- _ => destruct v as [a [b|]]; cbn; rewrite ?andb_true_r; auto end;
    rewrite ?andb_assoc; auto.
  all: try (clear; induction args; cbn; auto).
Qed.
Lemma run_place (NF : loc -> value -> Prop) (NS NR : loc -> Prop) recs mp buf :
  (forall v, NF LSynth v) -> NS LSynth -> NR LSynth -> (recs = true -> forall l, NR l) ->
  (forall o n, o + n <= length buf -> NS (LBuf o n)) ->
  (forall o n w, o + n <= length buf -> n = N.to_nat (nbits w / 8) -> NF (LBuf o n) (VU w (from_be_bytes (firstn n (skipn o buf))))) ->
  (mp = true -> forall l v, (NF l v <-> NS l) /\ (NR l <-> NS l)) ->
  (let ok g := (one_buffer g && (mp || unmapped g) && (recs || forallb no_record (node_exprs g)))%bool = true in module_wide ok M /\ everywhere ok f) ->
  forall k p c es, run_with_loc bld P k (rc_new buf) = ROk p c es -> allq NF NS NR p.
Proof.
  intros H1 H2 H3 H4 H5 H6 H7 [HM Hf] k p c es HR.
  destruct (gcompiled (okx recs) (fun _ => true) (fun _ => true) true mp false mp bld eqb M fuel f P Heqb) as (called & HP & d & Hd & Hok);
    [intros i it Hi g Hg; eapply node_ok, HM; eauto|intros g Hg; now apply node_ok, Hf|exact HC|].
  unfold run_with_loc in HR. destruct P as [|d0 P']; [discriminate|]. injection Hd as ->.
  pose proof (place NF NS NR H1 H2 H3 recs H4 buf H5 H6 mp called H7 bld (d :: P') HP k QSEmpty d (rc_new buf) (SOK_empty _ _ _ _ _ _ _) Hok (start_cok buf)) as R.
  rewrite HR in R. apply R.
Qed.
Lemma run_in_buffer buf : (let ok g := (one_buffer g && forallb no_record (node_exprs g))%bool = true in module_wide ok M /\ everywhere ok f) ->
  forall k p c es, run_with_loc bld P k (rc_new buf) = ROk p c es -> forall x, In x (parts p) -> in_buffer buf (get_loc x).
Proof.
  intros [HM Hf] k p c es HR x Hx. eapply (get_loc_ok (fun l _ => in_buffer buf l) (in_buffer buf) (in_buffer buf)) with (mp := true); cbn; auto; [intros; split; reflexivity|].
  assert (A : allq (fun l _ => in_buffer buf l) (in_buffer buf) (in_buffer buf) p).
  { refine (run_place (fun l _ => in_buffer buf l) (in_buffer buf) (in_buffer buf) false true buf (fun _ => I) I I _ (fun _ _ H => H) (fun _ _ _ H _ => H) _ _ k p c es HR); cbn.
    - discriminate.
    - intros; split; reflexivity.
    - split; [intros i it Hi g Hg; specialize (HM i it Hi g Hg)|intros g Hg; specialize (Hf g Hg)]; cbn in *; now rewrite andb_true_r. }
  intros y Hy. apply A. eapply parts_trans; eauto.
Qed.
Lemma run_read_there buf : (let ok g := (one_buffer g && unmapped g)%bool = true in module_wide ok M /\ everywhere ok f) ->
  forall k p c es, run_with_loc bld P k (rc_new buf) = ROk p c es -> forall x, In x (parts p) ->
  read_there buf x /\ match x with QTuple l _ | QSeq l _ => in_buffer buf l | _ => True end.
Proof.
  intros [HM Hf] k p c es HR x Hx.
  assert (A : allq (fun l v => read_there buf (QFlat l v)) (in_buffer buf) (fun _ => True) p).
  { refine (run_place (fun l v => read_there buf (QFlat l v)) (in_buffer buf) (fun _ => True) true false buf (fun _ => I) I I (fun _ _ => I) (fun _ _ H => H) _ _ _ k p c es HR); cbn.
    - intros o n w Hl Hn. split; [exact Hl|]. exists w. auto.
    - discriminate.
    - split; [intros i it Hi g Hg; specialize (HM i it Hi g Hg)|intros g Hg; specialize (Hf g Hg)]; cbn in *; now rewrite andb_true_r. }
  specialize (A x Hx). destruct x; cbn in *; auto.
Qed.
End Instances.
