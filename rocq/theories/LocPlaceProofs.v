(** Where the values of located decoding are. *)
From Verif Require ByteSetModel HuffmanModel.
From Verif Require Import Base BoundsModel DataModel DataProofs NumericModel ValueModel ValueProofs FormatModel MatchTreeModel
  DecoderModel DecoderProofs CompileProofs MatchBoundsProofs LocModel LocSpec LocProofs LocAgreeProofs.
Open Scope nat_scope.

(** ** What every part satisfies *)

Section Place.
Context (NF : loc -> value -> Prop) (NS NR : loc -> Prop).
Definition nd (p : pval) : Prop :=
  match p with QFlat l v => NF l v | QTuple l _ | QSeq l _ => NS l | QRecord l _ => NR l | _ => True end.
Definition allq (p : pval) : Prop := forall x, In x (parts p) -> nd x.
Context (HF : forall v, NF LSynth v) (HS : NS LSynth) (HR : NR LSynth).

Lemma allq_self p : allq p -> nd p.
Proof. intros H. apply H. destruct p; now left. Qed.
Lemma allq_flat l v : NF l v -> allq (QFlat l v).
Proof. intros H x [<-|[]]. exact H. Qed.
Lemma allq_list ps : (forall x, In x (flat_map parts ps) -> nd x) <-> Forall allq ps.
Proof.
  split.
  - intros H. apply Forall_forall. intros p Hp x Hx. apply H. apply in_flat_map. eauto.
  - intros H x Hx. apply in_flat_map in Hx as (p & Hp & Hx). rewrite Forall_forall in H. exact (H p Hp x Hx).
Qed.
Lemma allq_tuple l ps : NS l -> Forall allq ps -> allq (QTuple l ps).
Proof. intros Hl H x [<-|Hx]; [exact Hl|]. now apply (proj2 (allq_list ps)). Qed.
Lemma allq_seq l s : NS l -> Forall allq (sk_to_list s) -> allq (QSeq l s).
Proof.
  intros Hl H x [<-|Hx]; [exact Hl|]. destruct s as [ps|n p]; cbn in *.
  - now apply (proj2 (allq_list ps)).
  - destruct n as [|n]; [destruct Hx|]. cbn in H. inversion H; subst. auto.
Qed.
Lemma allq_elems l s : allq (QSeq l s) -> Forall allq (sk_to_list s).
Proof.
  intros H. destruct s as [ps|n p].
  - apply allq_list. intros x Hx. apply H. now right.
  - cbn. destruct n as [|n]; [constructor|]. apply Forall_forall. intros y Hy. change (In y (repeat p (S n))) in Hy. apply repeat_spec in Hy as ->.
    intros x Hx. apply H. now right.
Qed.
Lemma allq_items l ps : allq (QTuple l ps) -> Forall allq ps.
Proof. intros H. apply allq_list. intros x Hx. apply H. now right. Qed.
Lemma allq_record l fs : NR l -> Forall (fun f => allq (snd f)) fs -> allq (QRecord l fs).
Proof.
  intros Hl H x [<-|Hx]; [exact Hl|]. cbn in Hx. apply in_flat_map in Hx as ([lab p] & Hp & Hx). rewrite Forall_forall in H. exact (H _ Hp x Hx).
Qed.
Lemma allq_fields l fs : allq (QRecord l fs) -> Forall (fun f => allq (snd f)) fs.
Proof.
  intros H. apply Forall_forall. intros [lab p] Hp x Hx. apply H. right. cbn. apply in_flat_map. exists (lab, p). auto.
Qed.
Lemma allq_variant l p : allq p <-> allq (QVariant l p).
Proof. split; intros H x; [intros [<-|Hx]; [exact I|auto]|]. intros Hx. apply H. now right. Qed.
Lemma allq_branch l p : allq p <-> allq (QBranch l p).
Proof. split; intros H x; [intros [<-|Hx]; [exact I|auto]|]. intros Hx. apply H. now right. Qed.
Lemma allq_pok p : allq p <-> allq (QPermitOk p).
Proof. split; intros H x; [intros [<-|Hx]; [exact I|auto]|]. intros Hx. apply H. now right. Qed.
Lemma allq_perr p : allq p <-> allq (QPermitErr (Some p)).
Proof. split; intros H x; [intros [<-|Hx]; [exact I|auto]|]. intros Hx. apply H. now right. Qed.
Lemma allq_some p : allq p <-> allq (QOption (Some p)).
Proof. split; intros H x; [intros [<-|Hx]; [exact I|auto]|]. intros Hx. apply H. now right. Qed.
Lemma allq_none : allq (QOption None).
Proof. intros x [<-|[]]. exact I. Qed.
Lemma allq_perr_none : allq (QPermitErr None).
Proof. intros x [<-|[]]. exact I. Qed.
Lemma allq_mapped o p : allq o -> allq p -> allq (QMapped o p).
Proof. intros H1 H2 x [<-|Hx]; [exact I|]. cbn in Hx. apply in_app_or in Hx as [Hx|Hx]; auto. Qed.
Lemma allq_image o p : allq (QMapped o p) -> allq o /\ allq p.
Proof. intros H. split; intros x Hx; apply H; right; cbn; apply in_or_app; auto. Qed.
Lemma allq_coerce p : allq p -> allq (q_coerce p).
Proof.
  induction p; cbn; auto; intros H.
  - apply IHp2. eapply allq_image, H.
  - apply IHp. eapply allq_branch, H.
  - apply IHp. eapply allq_pok, H.
Qed.
Lemma allq_from v : allq (from_evaluated v).
Proof.
  induction v using value_ind'; cbn [from_evaluated]; try (apply allq_flat, HF); try apply allq_none; try apply allq_perr_none.
  - now apply (proj1 (allq_some _)).
  - apply allq_tuple; [exact HS|]. apply Forall_map. assumption.
  - apply allq_record; [exact HR|]. apply Forall_map. eapply Forall_impl; [|eassumption]. now intros [l v].
  - now apply (proj1 (allq_variant _ _)).
  - apply allq_seq; [exact HS|]. cbn. now apply Forall_map.
  - apply allq_seq; [exact HS|]. cbn. apply Forall_forall. intros y Hy. apply repeat_spec in Hy as ->. exact IHv.
  - now apply allq_mapped.
  - now apply (proj1 (allq_branch _ _)).
  - now apply (proj1 (allq_pok _)).
  - now apply (proj1 (allq_perr _)).
Qed.

(** ** Scopes and patterns *)

Definition sok {D} (q : qscope D) : Prop := forall x p, q_get_value x q = Some p -> allq p.
Lemma sok_single {D} (q : qscope D) x p : sok q -> allq p -> sok (QSSingle q x p).
Proof. intros H Hp y r. cbn. destruct (N.eqb x y); [intros [= <-]; exact Hp|apply H]. Qed.
Definition ent_allq (e : label * qent) : Prop := match snd e with QEntVal p => allq p | QEntView _ => True end.
Lemma scan_allq x es p : Forall ent_allq es -> q_scan_value x es = Some p -> allq p.
Proof.
  induction 1 as [|[n [c|v]] es H Hf IH]; cbn; [discriminate|exact IH|]. destruct (N.eqb n x); [intros [= <-]; exact H|exact IH].
Qed.
Lemma sok_multi {D} (q : qscope D) es : sok q -> Forall ent_allq es -> sok (QSMulti q es).
Proof.
  intros H He y r. cbn. destruct (q_scan_value y (rev es)) as [v|] eqn:E; [|apply H]. intros [= <-]. eapply scan_allq; [|exact E]. now apply Forall_rev.
Qed.
Definition bok (bs : qbinds) : Prop := Forall (fun b => allq (snd b)) bs.
Lemma match_allq pt : forall p acc bs, allq p -> bok acc -> q_matches_inner pt p acc = Some bs -> bok bs.
Proof.
  assert (W : forall (b : bool) acc bs, bok acc -> (if b then Some acc else None) = Some bs -> bok bs) by (intros [] acc bs H; [intros [= <-]; exact H|discriminate]).
  assert (L : forall ps, Forall (fun pt => forall p acc bs, allq p -> bok acc -> q_matches_inner pt p acc = Some bs -> bok bs) ps ->
    forall vs acc bs, Forall allq vs -> bok acc -> q_match_list q_matches_inner ps vs acc = Some bs -> bok bs).
  { intros ps H. induction H as [|pt0 ps Hp H IH]; intros vs acc bs Hv Ha; cbn [q_match_list].
    - intros [= <-]. exact Ha.
    - destruct Hv as [|v vs Hv Hvs]; [intros [= <-]; exact Ha|]. destruct (q_matches_inner pt0 v acc) as [acc'|] eqn:E; [|discriminate]. apply IH; eauto. }
  induction pt using pattern_ind'; intros p acc bs Hp Ha E; cbn [q_matches_inner] in E;
    try (destruct p as [l v| | | | | | | | |]; try discriminate E; destruct v; cbn in E; try discriminate E; eapply W; eassumption).
  - injection E as <-. apply Forall_app. split; [exact Ha|]. now constructor.
  - injection E as <-. exact Ha.
  - destruct p as [|l qs| | | | | | | |]; try discriminate E. destruct (Nat.eqb _ _); [|discriminate E].
    eapply L; [eassumption|eapply allq_items, Hp|exact Ha|exact E].
  - destruct p as [| | |l' q| | | | | |]; try discriminate E. destruct (N.eqb _ _); [|discriminate E].
    eapply IHpt; [|exact Ha|exact E]. eapply (proj2 (allq_variant _ _)), Hp.
  - destruct p as [| | | |l q| | | | |]; try discriminate E. destruct (Nat.eqb _ _); [|discriminate E].
    eapply L; [eassumption|eapply allq_elems, Hp|exact Ha|exact E].
  - destruct p as [| | | | | | | | |[p|]]; try discriminate E. injection E as <-. exact Ha.
  - destruct p as [| | | | | | | | |[p|]]; try discriminate E. eapply IHpt; [|exact Ha|exact E]. now apply (proj2 (allq_some _)).
Qed.
Lemma matches_allq {D} p (q : qscope D) pt q' : allq p -> sok q -> q_matches p q pt = Some q' ->
  exists es, q' = QSMulti q es /\ Forall ent_allq es /\ Forall (fun e => match snd e with QEntVal _ => True | _ => False end) es.
Proof.
  intros Hp Hq. unfold q_matches. destruct (q_matches_inner pt (q_coerce p) []) as [bs|] eqn:E; [|discriminate]. intros [= <-].
  eexists. split; [reflexivity|]. apply match_allq in E; [|now apply allq_coerce|constructor].
  split; apply Forall_map; [exact E|]. apply Forall_forall. intros; exact I.
Qed.

(** ** Expressions *)

Context (recs : bool) (Hrec : recs = true -> forall l, NR l).
Definition okx (e : expr) : bool := recs || no_record e.
Lemma okx_and a b : recs || (a && b) = (recs || a) && (recs || b).
Proof. destruct recs, a, b; reflexivity. Qed.
Lemma okx_forallb {A} (Q : A -> bool) l : recs || forallb Q l = true -> Forall (fun x => recs || Q x = true) l.
Proof. intros H. apply Forall_forall. intros x Hx. destruct recs; [reflexivity|]. cbn in *. rewrite forallb_forall in H. now apply H. Qed.
Definition eok (e : expr) : Prop := forall D (q : qscope D) p, sok q -> q_eval e q = Val p -> allq p.
Ltac inv H :=
  let Hx := fresh "Hx" in
  match type of H with
  | omap _ ?x = Val _ => destruct x eqn:Hx; cbn [omap] in H; [|discriminate H]; injection H as H
  | obind ?x _ = Val _ => destruct x eqn:Hx; cbn [obind] in H; [|discriminate H]
  end.
Definition vseq_ok (s : qvseq) : Prop := Forall allq (qvseq_list s).
Lemma seq_ok p s : allq p -> q_seq_of p = Val s -> vseq_ok s.
Proof.
  intros Hp H. unfold q_seq_of in H. apply allq_coerce in Hp. destruct (q_coerce p) as [l v|l ps|l fs|lab r|l t|o r|i r|r|o|o]; try discriminate H.
  - destruct v; try discriminate H. injection H as <-. unfold vseq_ok. cbn. apply Forall_map, Forall_forall. intros n _. apply allq_flat, HF.
  - injection H as <-. unfold vseq_ok. cbn. eapply allq_elems, Hp.
Qed.
Lemma index_ok s i p : Forall allq (sk_to_list s) -> sk_index s i = Val p -> allq p.
Proof.
  intros H E. unfold sk_index in E. rewrite sk_get_spec in E. destruct (nth_error (sk_to_list s) i) eqn:En; [|discriminate]. injection E as <-.
  rewrite Forall_forall in H. eapply H, nth_error_In, En.
Qed.
Lemma ix_ok s i p : vseq_ok s -> q_seq_ix s i = Val p -> allq p.
Proof.
  intros H E. destruct s as [s|lo hi]; cbn in E; [eapply index_ok; eauto|]. destruct (N.ltb _ _); [|discriminate]. injection E as <-. apply allq_flat, HF.
Qed.
Lemma Forall_sub {A} (Q : A -> Prop) l i n : Forall Q l -> Forall Q (firstn n (skipn i l)).
Proof.
  intros H. rewrite Forall_forall in *. intros x Hx. apply H.
  rewrite <- (firstn_skipn i l). apply in_or_app. right. rewrite <- (firstn_skipn n (skipn i l)). apply in_or_app. now left.
Qed.
Lemma sub_ok s i n p : vseq_ok s -> q_seq_sub s i n = Val p -> allq p.
Proof.
  intros H E. destruct s as [s|lo hi]; cbn in E.
  - pose proof (sk_sub_seq_spec s (N.to_nat i) (N.to_nat n)) as A. destruct (sk_sub_seq _ _ _); [|discriminate]. injection E as <-.
    destruct A as [_ A]. apply allq_seq; [exact HS|]. rewrite A. apply Forall_sub, H.
  - destruct (sub_range _ _ _ _); [|discriminate]. injection E as <-. apply allq_flat, HF.
Qed.
Lemma inflate_ok l start : Forall allq l -> forall n out r, Forall allq out -> inflate_loop l start n out = Val r -> Forall allq r.
Proof.
  intros H. induction n as [|n IH]; intros out r Ho E; cbn [inflate_loop] in E; [injection E as <-; exact Ho|].
  match type of E with match ?x with _ => _ end = _ => destruct x as [y|] eqn:Ey; [|discriminate E] end.
  eapply IH; [|exact E]. apply Forall_app. split; [exact Ho|]. constructor; [|constructor].
  destruct (_ <? _); apply nth_error_In in Ey; rewrite Forall_forall in H, Ho; auto.
Qed.
Lemma assoc_ok fs lab p : Forall (fun f => allq (snd f)) fs -> assoc lab fs = Some p -> allq p.
Proof.
  induction 1 as [|[l v] fs H Hf IH]; cbn; [discriminate|]. destruct (N.eqb _ _); [intros [= <-]; exact H|exact IH].
Qed.
Lemma append_ok s t r : vseq_ok s -> vseq_ok t -> qvseq_append s t = Val r -> Forall allq (sk_to_list r).
Proof. intros H H' E. destruct s, t; try discriminate E. injection E as <-. rewrite sk_append_spec. apply Forall_app. auto. Qed.

Lemma omapM_ok {A} (f : A -> outcome (label * pval)) l r : Forall (fun x => forall y, f x = Val y -> allq (snd y)) l ->
  omapM f l = Val r -> Forall (fun y => allq (snd y)) r.
Proof.
  intros H. revert r. induction H as [|x l H Hl IH]; intros r E; cbn in E; [injection E as <-; constructor|].
  destruct (f x) as [y|] eqn:Ef; [|discriminate]. cbn in E. destruct (omapM f l) as [ys|]; [|discriminate]. injection E as <-. constructor; auto.
Qed.
Lemma val_inj {A} (a b : A) : Val a = Val b -> a = b.
Proof. now intros [= ->]. Qed.
Lemma omap_inv {A B} (f : A -> B) x y : omap f x = Val y -> exists a, x = Val a /\ f a = y.
Proof. destruct x as [a|]; [|discriminate]. intros H. apply val_inj in H. eauto. Qed.
Lemma obind_inv {A B} (f : A -> outcome B) x y : obind x f = Val y -> exists a, x = Val a /\ f a = Val y.
Proof. destruct x as [a|]; [|discriminate]. eauto. Qed.
Ltac inv1 E :=
  match type of E with
  | omap _ _ = Val _ => apply omap_inv in E; let a := fresh "a" in let Ha := fresh "Ha" in destruct E as (a & Ha & E)
  | obind _ _ = Val _ => apply obind_inv in E; let a := fresh "a" in let Ha := fresh "Ha" in destruct E as (a & Ha & E)
  end.
Lemma q_eval_ok e : okx e = true -> eok e.
Proof.
  unfold okx.
  induction e using expr_ind'; intros He D sc res Hq E; cbn [no_record] in He; rewrite ?okx_and in He; cbn [q_eval] in E;
    repeat match goal with H : (_ && _)%bool = true |- _ => apply andb_true_iff in H; destruct H end;
    repeat match goal with H : ?a = true -> eok ?e, H' : ?a = true |- _ => specialize (H H') end;
    try discriminate E; try (apply val_inj in E);
    repeat inv1 E; try (subst res; apply allq_from).
  - destruct (q_get_value x sc) as [v|] eqn:Ev; [|discriminate]. injection E as <-. eapply Hq, Ev.
  - unfold q_tuple_proj in E. assert (A : allq (q_coerce (q_coerce a))) by (apply allq_coerce, allq_coerce; eapply IHe; eauto).
    destruct (q_coerce (q_coerce a)) as [|l ps| | | | | | | |]; try discriminate E. destruct (nth_error ps i) eqn:En; [|discriminate E]. injection E as <-.
    apply allq_items in A. rewrite Forall_forall in A. eapply A, nth_error_In, En.
  - assert (Hr : recs = true) by (destruct recs; [reflexivity|discriminate He]).
    assert (A : Forall (fun f => allq (snd f)) a).
    { eapply omapM_ok; [|exact Ha]. eapply Forall_impl; [|eassumption]. intros [l e] He' [l' r]. cbn. intros Hx. inv1 Hx. injection Hx as <- <-.
      eapply He'; eauto. rewrite Hr. reflexivity. }
    destruct a as [|f0 fs0]; [discriminate E|]. injection E as <-. apply allq_record; [now apply Hrec|exact A].
  - unfold q_record_proj in E. assert (A : allq (q_coerce a)) by (apply allq_coerce; eapply IHe; eauto).
    destruct (q_coerce a) as [| |l' fs| | | | | | |]; try discriminate E. destruct (assoc l fs) eqn:En; [|discriminate E]. injection E as <-.
    apply allq_fields in A. eapply assoc_ok; eauto.
  - destruct (neval _ n) as [c| |]; try discriminate E. injection E as <-. apply allq_flat, HF.
  - clear - E HF HS HR. induction bs as [|[p b] bs IH]; [discriminate E|]. destruct (q_matches a sc p); [|exact (IH E)]. inv1 E. subst res. apply allq_from.
  - destruct (q_matches a sc p); [|discriminate E]. inv1 E. subst res. apply allq_from.
  - eapply sub_ok; [|exact E]. eapply seq_ok; [|eassumption]. eapply IHe1; eauto.
  - eapply ix_ok; [|exact E]. eapply seq_ok; [|eassumption]. eapply IHe1; eauto.
  - unfold q_seq_inflate in E. inv1 E. subst res. apply allq_seq; [exact HS|]. cbn [sk_to_list].
    eapply inflate_ok; [| |eassumption]; [|constructor]. eapply seq_ok; [|eassumption]. eapply IHe1; eauto.
  - destruct a0 as [vs|]; [|discriminate E]. inv1 E.
    assert (A : Forall allq (sk_to_list vs)) by (change (vseq_ok (QVals vs)); eapply seq_ok; [|eassumption]; eapply IHe3; eauto).
    assert (B : forall o, match o with Some ix => omap (fun x : pval => QOption (Some x)) (sk_index vs ix) | None => Val (from_evaluated (VOption None)) end = Val res -> allq res).
    { intros [ix|] Ho; [|injection Ho as <-; apply allq_none]. inv1 Ho. subst res. apply (proj1 (allq_some _)). eapply index_ok; eauto. }
    destruct b.
    + match type of E with match ?x with _ => _ end = _ => destruct x; [|discriminate E] end. inv1 E. eauto.
    + inv1 E. eauto.
  - assert (A : allq a) by (eapply IHe1; eauto). assert (B : allq a0) by (eapply IHe2; eauto).
    destruct (qvseq_is_empty a1); [injection E as <-; now apply allq_coerce|]. destruct (qvseq_is_empty a2); [injection E as <-; now apply allq_coerce|].
    inv1 E. subst res. apply allq_seq; [exact HS|]. eapply append_ok; [| |eassumption]; [exact (seq_ok a a1 A ltac:(assumption))|exact (seq_ok a0 a2 B ltac:(assumption))].
Qed.

(** ** Cursors, and what the primitives read *)

Context (buf : list N).
Definition cok (c : rctx) : Prop := in_range c /\ exists k, rinput c = firstn k buf.
Context (HBS : forall o n, o + n <= length buf -> NS (LBuf o n))
        (HBF : forall o n w, o + n <= length buf -> n = N.to_nat (nbits w / 8) ->
           NF (LBuf o n) (VU w (from_be_bytes (firstn n (skipn o buf))))).
Lemma cok_len c : cok c -> length (rinput c) <= length buf.
Proof. intros [_ (k & E)]. rewrite E, firstn_length. lia. Qed.
Lemma cok_off c : cok c -> roff c <= length buf.
Proof. intros H. pose proof (cok_len c H). destruct H as [H _]. unfold in_range in H. lia. Qed.
Lemma cok_adv c c' : cok c -> advances c c' -> cok c'.
Proof. intros [_ (k & E)] H. split; [eapply advances_range, H|]. exists k. destruct H as (-> & _). exact E. Qed.
Lemma cok_slice c n sl c' : cok c -> rc_split_at c n = Val (Some (sl, c')) -> cok sl /\ cok c'.
Proof.
  intros H E. split; [|eapply cok_adv; [exact H|eapply split_at_adv, E]]. destruct H as [Hr (k & Ek)].
  apply split_at_spec in E as (_ & -> & Hl). split.
  - unfold in_range in *. cbn. rewrite firstn_length. lia.
  - exists (Nat.min (roff c + N.to_nat n) k). cbn. rewrite Ek, firstn_firstn. reflexivity.
Qed.
Lemma cok_seek c n c' : cok c -> rc_seek_to c n = Some c' -> cok c'.
Proof.
  intros [Hr (k & Ek)] E. unfold rc_seek_to in E. destruct (n <=? _)%N eqn:En; [|discriminate]. injection E as <-. split; [unfold in_range; cbn; lia|].
  exists k. exact Ek.
Qed.
Lemma firstn_skipn_firstn {A} (l : list A) o n k : o + n <= k -> firstn n (skipn o (firstn k l)) = firstn n (skipn o l).
Proof.
  intros H. rewrite skipn_firstn_comm, firstn_firstn. now replace (Nat.min n (k - o)) with n by lia.
Qed.
Lemma cok_bytes c n : cok c -> roff c + n <= length (rinput c) -> firstn n (skipn (roff c) (rinput c)) = firstn n (skipn (roff c) buf).
Proof. intros [_ (k & E)] H. rewrite E in *. rewrite firstn_length in H. apply firstn_skipn_firstn. lia. Qed.
Definition pok {A} (Q : A -> Prop) (c : rctx) (r : dres A) : Prop := match r with ROk a c' _ => Q a /\ advances c c' | _ => True end.
Lemma byte_ok c b c' : cok c -> rc_read_byte c = Some (b, c') -> NF (LBuf (roff c) 1) (VU B8 b) /\ advances c c'.
Proof.
  intros H E. apply read_byte_adv in E as (Ha & Eo & En). split; [|exact Ha].
  assert (Hl : roff c + 1 <= length (rinput c)) by (assert (roff c < length (rinput c)) by (apply nth_error_Some; congruence); lia).
  pose proof (cok_len c H). pose proof (HBF (roff c) 1 B8 ltac:(lia) eq_refl) as F. rewrite <- (cok_bytes c 1 H Hl) in F.
  assert (E1 : firstn 1 (skipn (roff c) (rinput c)) = [b]).
  { clear - En. revert En. generalize (roff c) as o. generalize (rinput c) as l. induction l as [|x l IH]; intros [|o]; cbn; try discriminate; [now intros [= ->]|apply IH]. }
  rewrite E1 in F. exact F.
Qed.
Lemma read_base_ok k c : cok c -> pok (fun p => allq p) c (q_read_base k c).
Proof.
  intros H. unfold q_read_base.
  destruct (bk_width k); [destruct (rc_read_byte c) as [[b c']|] eqn:E; [|exact I]; apply byte_ok in E as [F Ha]; [|exact H]; split; [now apply allq_flat|exact Ha]| | |];
    (destruct (bk_be k); [|exact I]; unfold rc_read_be;
    match goal with |- context [N.to_nat (nbits ?w / 8)] => destruct (roff c + N.to_nat (nbits w / 8) <=? length (rinput c)) eqn:E; [|exact I];
      apply Nat.leb_le in E; split; [|unfold advances; cbn [rinput roff]; repeat split; lia];
      apply allq_flat; rewrite (cok_bytes c _ H E); apply HBF; [pose proof (cok_len c H); lia|reflexivity] end).
Qed.
Lemma read_u8_size c v c' es : q_read_u8 c = ROk v c' es -> roff c' = roff c + 1.
Proof. unfold q_read_u8, rc_read_byte. destruct (nth_error _ _); [|discriminate]. now intros [= <- <- <-]. Qed.
Lemma read_base_size k c v c' es : q_read_base k c = ROk v c' es -> roff c' = roff c + N.to_nat (nbits (bk_width k) / 8).
Proof.
  unfold q_read_base, rc_read_byte, rc_read_be. destruct (bk_width k).
  - destruct (nth_error _ _); [|discriminate]. intros H. injection H as <- <- <-. reflexivity.
  - destruct (bk_be k); [|discriminate]. destruct (_ <=? _); [|discriminate]. intros H. injection H as <- <- <-. reflexivity.
  - destruct (bk_be k); [|discriminate]. destruct (_ <=? _); [|discriminate]. intros H. injection H as <- <- <-. reflexivity.
  - destruct (bk_be k); [|discriminate]. destruct (_ <=? _); [|discriminate]. intros H. injection H as <- <- <-. reflexivity.
Qed.
Lemma read_u8_ok c : cok c -> pok (fun p => allq p) c (q_read_u8 c).
Proof.
  intros H. unfold q_read_u8. destruct (rc_read_byte c) as [[b c']|] eqn:E; [|exact I]. apply byte_ok in E as [F Ha]; [|exact H]. split; [now apply allq_flat|exact Ha].
Qed.

(** ** Loops *)

Lemma pok_bind {A B} (Q : A -> Prop) (Q' : B -> Prop) c r k :
  pok Q c r -> (forall a c', Q a -> advances c c' -> pok Q' c' (k a c')) -> pok Q' c (rbind r k).
Proof.
  intros Hr Hk. destruct r as [a c' es| | |]; cbn in *; auto. destruct Hr as [Ha Hc]. specialize (Hk a c' Ha Hc). destruct (k a c'); cbn in *; auto.
  destruct Hk as [Hb Hc']. split; [exact Hb|]. eapply advances_trans; eauto.
Qed.
Lemma pok_map {A B} (Q : A -> Prop) (Q' : B -> Prop) c f r : pok Q c r -> (forall a, Q a -> Q' (f a)) -> pok Q' c (rmap f r).
Proof. intros Hr Hf. destruct r; cbn in *; auto. destruct Hr. auto. Qed.
Lemma pok_back {A} (Q : A -> Prop) c0 c c' r : pok Q c0 r -> advances c c' -> pok Q c (rback c' r).
Proof. intros Hr Hc. destruct r; cbn in *; auto. destruct Hr. auto. Qed.
Lemma pok_let {A B} (Q : B -> Prop) c (x : outcome A) k : (forall a, x = Val a -> pok Q c (k a)) -> pok Q c (rlet x k).
Proof. intros H. destruct x; cbn; auto. Qed.
Lemma pok_ret {A} (Q : A -> Prop) c a es : cok c -> Q a -> pok Q c (ROk a c es).
Proof. intros [H _] Ha. split; [exact Ha|]. now apply advances_refl. Qed.
Lemma span_ok {A} (Q : A -> Prop) c f r : pok Q c r -> (forall a c', Q a -> advances c c' -> allq (f a (roff c) (roff c' - roff c))) ->
  pok allq c (spanning (roff c) f r).
Proof.
  intros Hr Hf. unfold spanning. eapply pok_bind; [exact Hr|]. intros a c' Ha Hc. split; [auto|]. apply advances_refl. eapply advances_range, Hc.
Qed.

Section PLoops.
Context {Sc Dc : Type} (p : Sc -> Dc -> rctx -> dres pval).
Definition bodyok (s : Sc) (d : Dc) : Prop := forall c, cok c -> pok allq c (p s d c).
Ltac go Hb := eapply pok_bind; [now apply Hb|]; let v := fresh "v" in let c' := fresh "c'" in let Hv := fresh "Hv" in let Hc' := fresh "Hc'" in
  intros v c' Hv Hc'; match goal with Hc : cok ?c, Ha : advances ?c c' |- _ => pose proof (cok_adv _ _ Hc Ha) end.
Lemma qseq_ok l : Forall (fun x => bodyok (fst x) (snd x)) l -> forall c, cok c -> pok (Forall allq) c (qseq p l c).
Proof.
  induction 1 as [|[s d] l Hb Hl IH]; intros c Hc; cbn [qseq]; [now apply pok_ret|]. go Hb. eapply pok_map; [now apply IH|]. intros. now constructor.
Qed.
Lemma qpar_ok s ds : Forall (bodyok s) ds -> forall i c, cok c -> pok allq c (qpar p i s ds c).
Proof.
  induction 1 as [|d ds Hb Hl IH]; intros i c Hc; cbn [qpar]; [exact I|]. pose proof (Hb c Hc) as B.
  destruct (p s d c) as [v c' es| | |]; cbn in *; auto. destruct B as [B1 B2]. split; [|exact B2]. now apply (proj1 (allq_branch _ _)).
Qed.
Context (s : Sc) (d : Dc) (t : mtree) (Hb : bodyok s d).
Lemma qwhile_ok fuel : forall c, cok c -> pok (Forall allq) c (qwhile p s d t fuel c).
Proof.
  induction fuel as [|fuel IH]; intros c Hc; cbn [qwhile]; [exact I|]. destruct (tree_matches t c) as [[|]|]; [|now apply pok_ret|exact I].
  go Hb. eapply pok_map; [now apply IH|]. intros. now constructor.
Qed.
Lemma quntil_ok fuel : forall c, cok c -> pok (Forall allq) c (quntil p s d t fuel c).
Proof.
  induction fuel as [|fuel IH]; intros c Hc; cbn [quntil]; [exact I|]. go Hb. destruct (tree_matches t c') as [[|]|]; [apply pok_ret; auto| |exact I].
  eapply pok_map; [now apply IH|]. intros. now constructor.
Qed.
Lemma qbetween_ok mn mx c0 fuel : forall len c, cok c -> pok (Forall allq) c (qbetween p s d t mn mx c0 len fuel c).
Proof.
  induction fuel as [|fuel IH]; intros len c Hc; cbn [qbetween]; [exact I|]. destruct (tree_matches t c0) as [i|]; [|exact I].
  destruct (_ || _)%bool; [destruct (N.ltb _ _); [exact I|now apply pok_ret]|]. go Hb. eapply pok_map; [now apply IH|]. intros. now constructor.
Qed.
Lemma quntil_done_ok stop fuel : forall acc c, Forall allq acc -> cok c -> pok (Forall allq) c (quntil_done p s d stop acc fuel c).
Proof.
  induction fuel as [|fuel IH]; intros acc c Ha Hc; cbn [quntil_done]; [exact I|]. go Hb. apply pok_let. intros b _.
  assert (Forall allq (acc ++ [v])) by (apply Forall_app; auto). destruct b; [now apply pok_ret|now apply IH].
Qed.
Lemma qaccum_ok stop up fuel : forall acc vs c, Forall allq vs -> cok c -> pok (fun r => Forall allq (snd r)) c (qaccum p s d stop up acc vs fuel c).
Proof.
  induction fuel as [|fuel IH]; intros acc vs c Ha Hc; cbn [qaccum]; [exact I|]. apply pok_let. intros b _. destruct b; [now apply pok_ret|].
  go Hb. apply pok_let. intros acc' _. apply IH; [apply Forall_app; auto|assumption].
Qed.
End PLoops.
Lemma read_n_ok rd sz : (forall c, cok c -> pok allq c (rd c)) -> (forall c v c' es, rd c = ROk v c' es -> roff c' = roff c + sz) ->
  forall n c, cok c -> match q_read_n rd n c with ROk vs c' _ => Forall allq vs /\ advances c c' /\ roff c' = roff c + n * sz | _ => True end.
Proof.
  intros Hr Hz n. induction n as [|n IH]; intros c Hc; cbn [q_read_n].
  - split; [constructor|]. split; [apply advances_refl, Hc|lia].
  - pose proof (Hr c Hc) as R. specialize (Hz c). destruct (rd c) as [v c' es| | |]; cbn in *; auto. destruct R as [Rv Ra].
    specialize (IH c' (cok_adv _ _ Hc Ra)). destruct (q_read_n rd n c') as [vs c2 es2| | |]; cbn in *; auto. destruct IH as (I1 & I2 & I3).
    specialize (Hz _ _ _ eq_refl). split; [constructor; auto|]. split; [eapply advances_trans; eauto|lia].
Qed.

(** ** Decoding *)

Context (mp : bool) (called : nat -> bool).
Context (Hmap : mp = true -> forall l v, (NF l v <-> NS l) /\ (NR l <-> NS l)).
Notation dok := (gdec_ok okx (fun _ => true) (fun _ => true) true mp false mp called).
Record SOK (q : qscope decoder) : Prop := {
  so_val : sok q;
  so_view : forall x c, q_get_view x q = Some c -> cok c;
  so_dec : forall x d, q_get_decoder x q = Some d -> dok d = true }.
Lemma SOK_empty : SOK QSEmpty.
Proof. constructor; discriminate. Qed.
Lemma SOK_single q x p : SOK q -> allq p -> SOK (QSSingle q x p).
Proof. intros [] Hp. constructor; auto. now apply sok_single. Qed.
Definition ent_ok (e : label * qent) : Prop := match snd e with QEntVal p => allq p | QEntView c => cok c end.
Lemma scan_cok x es c : Forall ent_ok es -> q_scan_view x es = Some c -> cok c.
Proof.
  induction 1 as [|[n [w|v]] es H Hf IH]; cbn; [discriminate| |exact IH]. destruct (N.eqb n x); [intros [= <-]; exact H|exact IH].
Qed.
Lemma SOK_multi q es : SOK q -> Forall ent_ok es -> SOK (QSMulti q es).
Proof.
  intros [] He. constructor; auto.
  - apply sok_multi; [assumption|]. eapply Forall_impl; [|exact He]. now intros [x [c|p]].
  - intros x c. cbn. destruct (q_scan_view x (rev es)) eqn:E; [|apply so_view0]. intros [= <-]. eapply scan_cok; [|exact E]. now apply Forall_rev.
Qed.
Lemma SOK_decoder q x d : SOK q -> dok d = true -> SOK (QSDecoder q x d).
Proof. intros [] Hd. constructor; auto. intros y d'. cbn. destruct (N.eqb x y); [intros [= <-]; exact Hd|apply so_dec0]. Qed.
Lemma SOK_look q x c : SOK q -> cok c -> SOK (QSView q x c).
Proof. intros [] Hd. constructor; auto. intros y d'. cbn. destruct (N.eqb x y); [intros [= <-]; exact Hd|apply so_view0]. Qed.
Lemma SOK_matches q p pt q' : SOK q -> allq p -> q_matches p q pt = Some q' -> SOK q'.
Proof.
  intros H Hp E. eapply matches_allq in E as (es & -> & He & Hv); [|exact Hp|apply H]. apply SOK_multi; [exact H|].
  rewrite Forall_forall in *. intros [x [c|r]] Hx; [destruct (Hv _ Hx)|exact (He _ Hx)].
Qed.
Lemma view_ok q v : SOK q -> match q_eval_view q v with Val (inl c) => cok c | _ => True end.
Proof.
  intros H. induction v as [x|b IH e]; cbn [q_eval_view].
  - destruct (q_get_view x q) eqn:E; [|exact I]. eapply (so_view _ H), E.
  - destruct (q_eval_usize e q) as [off|]; [|exact I]. cbn [obind]. destruct (q_eval_view q b) as [[c|er]|]; [|exact I|exact I]. cbn [obind].
    destruct (rc_split_at c off) as [[[sl w]|]|] eqn:E; cbn [obind]; try exact I. eapply cok_slice; eauto.
Qed.
Lemma with_ok {A} (Q : A -> Prop) c q v k : SOK q -> (forall w, cok w -> pok Q c (k w)) -> pok Q c (q_with_view q v k).
Proof. intros H Hk. unfold q_with_view. pose proof (view_ok q v H). apply pok_let. intros [w|e] E; rewrite E in *; [auto|exact I]. Qed.
Lemma call_ok q es vs : SOK q -> forallb (fun x => okx (snd x)) es = true ->
  match q_call_scope q es vs with Val (inl q') => SOK q' | _ => True end.
Proof.
  intros H He. unfold q_call_scope.
  assert (A : match q_call_values q es with Val l => Forall ent_ok l | _ => True end).
  { unfold q_call_values. induction es as [|[x e] es IH]; cbn [omapM]; [constructor|]. cbn [forallb snd] in He. apply andb_true_iff in He as [He1 He2].
    destruct (q_eval e q) as [p|] eqn:E; [|exact I]. cbn [omap obind]. specialize (IH He2). destruct (omapM _ es) as [l|]; [|exact I]. cbn [omap obind].
    constructor; [|exact IH]. eapply q_eval_ok; [exact He1|apply H|exact E]. }
  destruct (q_call_values q es) as [l|]; [|exact I]. cbn [obind].
  assert (B : match q_call_views q vs with Val (inl l) => Forall ent_ok l | _ => True end).
  { clear A. unfold q_call_views. induction vs as [|[x v] vs IH]; cbn; [constructor|]. pose proof (view_ok q v H) as V. destruct (q_eval_view q v) as [[c|er]|]; try exact I.
    cbn [obind]. destruct (_ vs) as [[l'|er]|]; cbn; auto. }
  destruct (q_call_views q vs) as [[l'|er]|]; try exact I. cbn [omap]. apply SOK_multi; [apply SOK_empty|]. apply Forall_app. auto.
Qed.
Lemma first_ok p q bs : SOK q -> allq p -> forallb (fun b => match b with (_, d) => dok d end) bs = true -> forall i j q' d,
  q_first_match p q i bs = Some (j, q', d) -> SOK q' /\ dok d = true.
Proof.
  intros Hq Hp. induction bs as [|[pt d0] bs IH]; intros Hb i j q' d E; [discriminate|]. cbn [forallb q_first_match] in *. apply andb_true_iff in Hb as [Hb1 Hb2].
  destruct (q_matches p q pt) as [s'|] eqn:Em; [|eapply IH; eauto]. injection E as <- <- <-. split; [eapply SOK_matches; eauto|exact Hb1].
Qed.
Lemma allq_translate n : mp = true -> NS n -> forall p, allq p -> allq (translate n p).
Proof.
  intros Hm Hn. pose proof (Hmap Hm) as M. fix IH 1. intros [l v|l ps|l fs|lab p|l sq|o p|i p|p|[p|]|[p|]] H; cbn [translate].
  - apply allq_flat. exact (proj2 (proj1 (M n v)) Hn).
  - apply allq_tuple; [exact Hn|]. eapply allq_items, H.
  - apply allq_record; [exact (proj2 (proj2 (M n VPhantom)) Hn)|]. eapply allq_fields, H.
  - apply (proj1 (allq_variant _ _)), IH. eapply (proj2 (allq_variant _ _)), H.
  - apply allq_seq; [exact Hn|]. eapply allq_elems, H.
  - apply allq_image in H as [H1 H2]. apply allq_mapped; [exact H1|now apply IH].
  - apply (proj1 (allq_branch _ _)), IH. eapply (proj2 (allq_branch _ _)), H.
  - apply (proj1 (allq_pok _)), IH. eapply (proj2 (allq_pok _)), H.
  - apply (proj1 (allq_perr _)), IH. eapply (proj2 (allq_perr _)), H.
  - exact H.
  - apply (proj1 (allq_some _)), IH. eapply (proj2 (allq_some _)), H.
  - exact H.
Qed.
Lemma get_loc_ok : mp = true -> forall p, allq p -> NS (get_loc p).
Proof.
  intros Hm. pose proof (Hmap Hm) as M. fix IH 1. intros [l v|l ps|l fs|lab p|l sq|o p|i p|p|[p|]|[p|]] H; cbn [get_loc].
  - exact (proj1 (proj1 (M l v)) (allq_self _ H)).
  - exact (allq_self _ H).
  - exact (proj1 (proj2 (M l VPhantom)) (allq_self _ H)).
  - apply IH. eapply (proj2 (allq_variant _ _)), H.
  - exact (allq_self _ H).
  - apply IH. exact (proj1 (allq_image _ _ H)).
  - apply IH. eapply (proj2 (allq_branch _ _)), H.
  - apply IH. eapply (proj2 (allq_pok _)), H.
  - apply IH. eapply (proj2 (allq_perr _)), H.
  - exact HS.
  - apply IH. eapply (proj2 (allq_some _)), H.
  - exact HS.
Qed.
Lemma dyn_ok dy (q : qscope decoder) f bld d : mp = true -> q_dyn_format dy q = Val f -> compile_one bld f = COk d -> dok d = true.
Proof.
  intros Hm Hf Hd. eapply gcomp_ok; [|apply compile_one_ok, Hd|]; [intros ? ? ? []|].
  assert (H : exists ls, huffman_format ls = Val f).
  { destruct dy as [a o]. cbn [q_dyn_format] in Hf. inv1 Hf. inv1 Hf. eauto. }
  destruct H as (ls & H). unfold huffman_format in H.
  destruct (HuffmanModel.huffman_codes ls) as [codes|]; [|discriminate]. injection H as <-. intros g [<-|Hg]; [reflexivity|].
  apply in_flat_map in Hg as (f' & Hf' & Hg). apply List.in_map_iff in Hf' as ([bits v] & <- & _). cbn [subs fst snd] in Hg.
  destruct Hg as [<-|[<-|Hg]]; try reflexivity.
  - cbn [gnode]. rewrite Hm. unfold okx. cbn. apply orb_true_r.
  - apply in_flat_map in Hg as (f' & Hf' & Hg). apply List.in_map_iff in Hf' as (b & <- & _).
    destruct Hg as [<-|[]]. reflexivity.
Qed.

Context (bld : fmodule -> list format -> next -> outcome (option mtree)) (P : program).
Context (HP : forall i d, called i = true -> nth_error P i = Some d -> dok d = true).
Notation q_parse := (q_parse bld P).
Lemma place fuel : forall q d c, SOK q -> dok d = true -> cok c -> pok allq c (q_parse fuel q d c).
Proof.
  induction fuel as [|fuel IH]; intros q d c Hs Hd Hc; [exact I|]. cbn [LocModel.q_parse]. cbv zeta.
  assert (U : forall c', advances c c' -> NS (LBuf (roff c) (roff c' - roff c))).
  { intros c' Ha. apply HBS. pose proof (cok_off _ (cok_adv _ _ Hc Ha)). destruct Ha as (_ & Ha & _). lia. }
  assert (U0 : NS (LBuf (roff c) 0)) by (apply HBS; pose proof (cok_off _ Hc); lia).
  assert (SQ : forall ps (c' : rctx), Forall allq ps -> advances c c' -> allq (q_seq ps (roff c) (roff c' - roff c))) by (intros; apply allq_seq; [now apply U|assumption]).
  assert (LS : forall ds, forallb dok ds = true -> Forall (bodyok (q_parse fuel) q) ds).
  { intros ds H. apply Forall_forall. rewrite forallb_forall in H. intros x Hx c' Hc'. now apply IH; [|apply H|]. }
  assert (LP : forall ds, forallb dok ds = true -> Forall (fun x => bodyok (q_parse fuel) (fst x) (snd x)) (map (pair q) ds)).
  { intros ds H. apply Forall_map. apply LS in H. exact H. }
  assert (EV : forall e p, okx e = true -> q_eval e q = Val p -> allq p) by (intros e p He; eapply q_eval_ok; [exact He|apply Hs]).
  destruct d; cbn [gdec_ok] in Hd; repeat match goal with H : (_ && _)%bool = true |- _ => apply andb_true_iff in H; destruct H end.
  - pose proof (call_ok q es vs Hs ltac:(assumption)) as K. apply pok_let. intros [s'|e] E; [|exact I]. rewrite E in K.
    destruct (nth_error P n) as [d'|] eqn:En; [|exact I]. apply IH; auto. eapply HP; eauto.
  - apply pok_ret; [exact Hc|]. apply allq_flat, HF.
  - exact I.
  - destruct (rc_read_byte c) as [[b c']|]; [exact I|]. apply pok_ret; [exact Hc|]. now apply allq_tuple.
  - destruct (N.eqb n 0); [exact I|]. apply pok_let. intros [[sl c']|] E; [|exact I]. pose proof (split_at_adv _ _ _ _ E) as Ha. split; [|exact Ha].
    apply allq_tuple; [|constructor]. apply split_at_spec in E as (-> & _ & El). specialize (U _ Ha). cbn in U. now rewrite minus_plus in U.
  - destruct (rc_read_byte c) as [[b c']|] eqn:E; [|exact I]. destruct (ByteSetModel.contains bs b); [|exact I].
    apply byte_ok in E as [F Ha]; [|exact Hc]. split; [now apply allq_flat|exact Ha].
  - eapply pok_map; [now apply IH|]. intros. now apply (proj1 (allq_variant _ _)).
  - apply qpar_ok; auto.
  - destruct (tree_matches t c) as [i|]; [|exact I]. destruct (nth_error ds i) as [x|] eqn:E; [|exact I]. apply nth_error_In in E.
    rewrite forallb_forall in Hd. eapply pok_map; [now apply IH; [|apply Hd|]|]. intros. now apply (proj1 (allq_branch _ _)).
  - eapply span_ok; [now apply qseq_ok; [apply LP|]|]. intros. apply allq_tuple; [now apply U|assumption].
  - eapply span_ok; [now apply qseq_ok; [apply LP|]|]. auto.
  - eapply span_ok; [apply qwhile_ok; [|exact Hc]; intros c' Hc'; now apply IH|]. auto.
  - eapply span_ok; [apply quntil_ok; [|exact Hc]; intros c' Hc'; now apply IH|]. auto.
  - apply pok_let. intros k _. eapply span_ok; [apply qseq_ok; [|exact Hc]|]; [|auto].
    apply Forall_forall. intros x Hx. apply repeat_spec in Hx as ->. intros c' Hc'. now apply IH.
  - eapply span_ok; [apply quntil_done_ok; [|constructor|exact Hc]; intros c' Hc'; now apply IH|]. auto.
  - eapply pok_map; [apply quntil_done_ok; [|constructor|exact Hc]; intros c' Hc'; now apply IH|]. intros. apply allq_seq; [|assumption]. now rewrite Nat.sub_diag.
  - apply pok_let. intros b _. destruct b; [|apply pok_ret; [exact Hc|apply allq_none]]. eapply pok_map; [now apply IH|]. intros. now apply (proj1 (allq_some _)).
  - eapply pok_back; [now apply IH|apply advances_refl, Hc].
  - destruct (q_parse fuel q d c); try exact I. apply pok_ret; [exact Hc|]. now apply allq_tuple.
  - apply pok_let. intros k _. apply pok_let. intros [[sl c']|] E; [|exact I]. pose proof (split_at_adv _ _ _ _ E) as Ha.
    apply cok_slice in E as [E1 E2]; [|exact Hc]. eapply pok_back; [now apply IH|exact Ha].
  - discriminate.
  - apply pok_let. intros k _. apply pok_let. intros o _. destruct (N.ltb _ _); [|exact I]. destruct (rc_seek_to c (k + o)) as [c'|] eqn:E; [|exact I].
    eapply pok_back; [apply IH; auto; eapply cok_seek; eauto|apply advances_refl, Hc].
  - eapply pok_bind; [now apply IH|]. intros p c' Hp Ha. pose proof (cok_adv _ _ Hc Ha). apply pok_let. intros v _. apply pok_ret; [assumption|]. apply allq_mapped; [exact Hp|].
    apply allq_translate; [assumption|now apply get_loc_ok|apply allq_from].
  - eapply pok_bind; [now apply IH|]. intros p c' Hp Ha. pose proof (cok_adv _ _ Hc Ha). apply pok_let. intros [|] _; [now apply pok_ret|]. destruct strict; [exact I|now apply pok_ret].
  - apply pok_let. intros p E. apply pok_ret; eauto.
  - apply pok_let. intros p E. apply IH; auto. apply SOK_single; eauto.
  - apply pok_let. intros p E. destruct (q_first_match p q 0 bs) as [[[j q'] d]|] eqn:Em; [|exact I].
    eapply first_ok in Em as [M1 M2]; [|exact Hs|eauto|]; [|match goal with H : forallb _ bs = true |- _ => exact H end].
    eapply pok_map; [now apply IH|]. intros. now apply (proj1 (allq_branch _ _)).
  - destruct dy as [a o]. repeat match goal with H : (_ && _)%bool = true |- _ => apply andb_true_iff in H; destruct H end.
    apply pok_let. intros f E. destruct (compile_one bld f) as [dd| |] eqn:Ec; try exact I. apply IH; auto. apply SOK_decoder; [exact Hs|]. eapply dyn_ok; eauto.
  - destruct (q_get_decoder x q) as [d|] eqn:E; [|exact I]. apply IH; auto. eapply so_dec; eauto.
  - apply pok_let. intros k _. apply pok_let. intros o _. eapply span_ok; [apply qbetween_ok; [|exact Hc]; intros c' Hc'; now apply IH|]. auto.
  - apply pok_let. intros l E. inv1 E. assert (A : Forall allq l).
    { assert (B : allq a) by eauto. destruct (q_get_sequence a) as [sq|] eqn:Eq; [|discriminate E]. injection E as <-. apply (seq_ok a sq B).
      unfold q_seq_of. assert (Ep : q_coerce a = a) by (destruct a; try discriminate Eq; reflexivity). now rewrite Ep, Eq. }
    eapply span_ok; [apply qseq_ok; [|exact Hc]|]; [|auto]. apply Forall_map. eapply Forall_impl; [|exact A]. intros p Hp c' Hc'. cbn. apply IH; auto. now apply SOK_single.
  - assert (Ha : advances c (rc_skip_remainder c)) by (unfold advances; cbn; destruct Hc as [Hc _]; unfold in_range in Hc; auto).
    split; [|exact Ha]. apply allq_tuple; [now apply U|constructor].
  - discriminate.
  - apply with_ok; [exact Hs|]. intros w Hw. eapply pok_back; [now apply IH|apply advances_refl, Hc].
  - eapply pok_bind; [now apply IH|]. intros p c' Hp Ha. pose proof (cok_adv _ _ Hc Ha). apply IH; auto. now apply SOK_single.
  - eapply pok_bind; [now apply IH|]. intros p c' Hp Ha. pose proof (cok_adv _ _ Hc Ha). now apply IH.
  - apply pok_let. intros acc _. eapply span_ok; [apply qaccum_ok; [|constructor|exact Hc]; intros c' Hc'; now apply IH|].
    intros [a l] c' Hl Ha. cbn [fst snd] in *. apply allq_tuple; [now apply U|]. constructor; [apply allq_from|]. constructor; [now apply SQ|constructor].
  - destruct o as [d|]; [|apply pok_ret; [exact Hc|apply allq_none]]. eapply pok_map; [now apply IH|]. intros. now apply (proj1 (allq_some _)).
  - apply IH; auto. now apply SOK_look.
  - apply pok_let. intros k _. apply with_ok; [exact Hs|]. intros w Hw.
    pose proof (read_n_ok q_read_u8 1 read_u8_ok read_u8_size (N.to_nat k) w Hw) as R.
    destruct (q_read_n q_read_u8 (N.to_nat k) w) as [vs c' es| | |]; cbn; auto. destruct R as (R1 & R2 & R3). split; [|apply advances_refl, Hc].
    apply allq_seq; [|exact R1]. apply HBS. pose proof (cok_off _ (cok_adv _ _ Hw R2)). lia.
  - apply pok_let. intros n _. apply with_ok; [exact Hs|]. intros w Hw.
    pose proof (read_n_ok (q_read_base k) (N.to_nat (nbits (bk_width k) / 8)) (read_base_ok k) (read_base_size k) (N.to_nat n) w Hw) as R.
    destruct (q_read_n (q_read_base k) (N.to_nat n) w) as [vs c' es| | |]; cbn [rmap rback pok]; auto. destruct R as (R1 & R2 & R3). split; [|apply advances_refl, Hc].
    apply allq_seq; [|exact R1]. apply HBS. pose proof (cok_off _ (cok_adv _ _ Hw R2)). lia.
  - apply with_ok; [exact Hs|]. intros w Hw. apply pok_ret; [exact Hc|]. apply allq_flat, HF.
  - apply pok_ret; [exact Hc|]. apply allq_flat, HF.
  - pose proof (IH q d c Hs ltac:(assumption) Hc) as R. destruct (q_parse fuel q d c) as [p c' es|er| |]; try exact I.
    + destruct R as [R1 R2]. split; [|exact R2]. now apply (proj1 (allq_pok _)).
    + apply pok_let. intros p E. apply pok_ret; [exact Hc|]. apply (proj1 (allq_perr _)). eauto.
Qed.
End Place.
