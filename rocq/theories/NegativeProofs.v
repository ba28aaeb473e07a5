(** What the failure of a compiled format says: no string at that position belongs
    to the format, when its lookahead is exact. *)
From Verif Require ByteSetModel HuffmanModel.
From Verif Require Import Base BoundsModel DataModel NumericModel ValueModel ValueProofs FormatModel MatchTreeModel
  DecoderModel DecoderProofs FormatSpec FormatInd LookaheadSpec ExactSpec NegativeSpec CompileProofs SoundProofs MatchBoundsProofs MatchTreeProofs
  LookaheadProofs CompleteProofs.
Open Scope nat_scope.

Section Negative.
Context (bld : fmodule -> list format -> next -> outcome (option mtree)) (P : program) (m : fmodule).
Context (Hbld : forall fs n t, bld m fs n = Val (Some t) -> Build LReal m fs n t).
Context (Call : nat -> next -> nat -> Prop) (HL : linked bld m P Call).
Notation exactly := (exactly bld m).
Notation direct := (direct bld m).

Lemma exactly_Exact o f : exactly o f -> Exact bld m false (checked bld m false) o f NEmpty.
Proof. intros (lf & dp & H). eapply exactb_sound_gen; eauto. Qed.

Lemma direct_comp f : forall n n' d, direct f -> Comp bld m Call f n d -> Comp bld m Call f n' d.
Proof.
  induction f using format_ind'; intros n1 n2 dd HD HC; inversion HC; subst; cbn [NegativeSpec.direct] in HD; try contradiction;
    try (constructor; eauto; fail).
  - destruct HD as (it2 & Hit2 & HE & _). assert (it2 = it) as -> by congruence. assert (dep = false) as -> by congruence. econstructor; eauto.
  - constructor. match goal with F : CTup _ _ _ _ |- _ => rename F into F2 end. clear HC.
    induction F2 as [|g gs n0 d0 ds Hc F2 IHF]; constructor; inversion H; subst; destruct HD as [D1 D2]; eauto.
  - constructor. match goal with F : CTup _ _ _ _ |- _ => rename F into F2 end. clear HC.
    induction F2 as [|g gs n0 d0 ds Hc F2 IHF]; constructor; inversion H; subst; destruct HD as [D1 D2]; eauto.
  - constructor. match goal with F : Forall2 _ bs ds |- _ => rename F into F2 end. clear HC.
    induction F2 as [|[p g] dd bs ds [E Hc] F2 IHF]; constructor; inversion H; subst; destruct HD as [D1 D2]; cbn in *; eauto.
  - destruct HD. econstructor; eauto.
  - destruct HD. econstructor; eauto.
Qed.
Lemma direct_exact f : forall n, direct f -> Exact bld m false (checked bld m false) true f n.
Proof.
  induction f using format_ind'; intros n1 HD; cbn [NegativeSpec.direct] in HD; cbn [Exact]; try contradiction; try exact I;
    try (now apply exactly_Exact); eauto.
  - destruct HD as (it & Hit & Hdep & lf & dp & E). exists it, false. split; [exact Hit|]. split; [exact Hdep|]. exists lf, dp, it. auto.
  - revert HD. match goal with F : Forall _ fs |- _ => induction F; intros HD end; [exact I|]. destruct HD as [D1 D2]. split; [eauto|exact (IHForall D2)].
  - revert HD. match goal with F : Forall _ fs |- _ => induction F; intros HD end; [exact I|]. destruct HD as [D1 D2]. split; [eauto|exact (IHForall D2)].
  - revert HD. match goal with F : Forall _ bs |- _ => induction F as [|[? ?] ? ?]; intros HD end; [exact I|]. destruct HD as [D1 D2]. split; [eauto|exact (IHForall D2)].
  - destruct HD. split; eauto.
  - destruct HD. split; eauto.
Qed.

Lemma failure_means fuel f d s sf c e : Comp bld m Call f NEmpty d -> Exact bld m false (checked bld m false) true f NEmpty ->
  srel (drel bld) s sf -> in_range c -> parse bld P fuel s d c = RErr e -> usable (rinput c) -> nothing_at m sf f (rinput c) (roff c).
Proof.
  intros HC HE Hs Hc Hp Hu j v HS.
  destruct (complete bld P m false Hbld Call HL (checked bld m false)) with (drel := drel bld) (s := sf) (f := f) (buf := rinput c) (i := roff c) (j := j) (v := v) (o := true) (n := NEmpty) (d := d) (s' := s)
    as (F & es & Hr); auto.
  - intros o1 l n it i H1 _ H2. eapply checked_closed; eassumption.
  - discriminate.
  - discriminate.
  - now left.
  - specialize (Hr F (le_n F)). pose proof (parse_det bld P fuel F s d c) as Hd. destruct c as [buf i]. cbn [rinput roff] in Hr.
    rewrite Hp, Hr in Hd. assert (RErr e = ROk v (RC buf j) es) by (apply Hd; discriminate). discriminate.
Qed.
Lemma refused_ok : unmatched_ok bld P m Call (refused bld m).
Proof.
  intros fuel f d s sf c e HC Hs Hc Hp Hu HE. eapply failure_means; eauto. now apply exactly_Exact.
Qed.
Lemma given_up_ok : failed_ok bld P m Call (given_up bld m).
Proof.
  intros fuel f n d s sf c e HC Hs Hc Hp Hu HD. eapply (failure_means fuel f d); eauto; [|now apply direct_exact].
  eapply direct_comp; eauto.
Qed.
Lemma huffman_free um fl s ls g buf i j v : huffman_format ls = Val g -> Sem m false s g buf i j v -> SemN m false um fl s g buf i j v.
Proof.
  unfold huffman_format. destruct (HuffmanModel.huffman_codes ls) as [codes|] eqn:E; [|discriminate].
  intros [= <-] H. inversion H; subst; clear H.
  match goal with Hn : nth_error (map _ codes) _ = Some _, Hs : SemN _ _ _ _ _ _ _ _ _ _ |- _ => rename Hn into Hnth; rename Hs into Hsem end.
  econstructor; [exact Hnth|]. apply nth_error_In, in_map_iff in Hnth as ([c sy] & <- & Hin). cbn [fst snd] in *.
  inversion Hsem; subst; clear Hsem. match goal with Hs : SemN _ _ _ _ _ (FTuple _) _ _ _ _ |- _ => inversion Hs; subst; clear Hs end.
  econstructor; [|eassumption]. constructor. eapply Chain_mono; [|eassumption].
  intros a i0 j0 v0 Ha HS. apply in_map_iff in Ha as (b & <- & _). unfold is_bit in *. inversion HS; subst. now constructor.
Qed.
Lemma huffman_bound_ok um fl : bound_ok bld P m um fl.
Proof.
  intros fuel g d s sf c v c' es [HC (ls & Hls)] Hs Hc Hp. eapply huffman_free; [exact Hls|].
  eapply (sound bld P m Call HL fuel [] (fun _ _ _ => False)); eauto.
Qed.
Lemma sound_negative fuel f n d s sf c v c' es : Comp bld m Call f n d -> srel (drel bld) s sf -> in_range c ->
  parse bld P fuel s d c = ROk v c' es ->
  SemN m false (refused bld m) (given_up bld m) sf f (rinput c) (roff c) (roff c') v.
Proof.
  intros HC Hs Hc Hp. eapply (sound_gen bld P m Call HL) with (m' := m) (C' := Call); eauto.
  right. split; [auto|]. split; [apply refused_ok|]. split; [apply given_up_ok|apply huffman_bound_ok].
Qed.
End Negative.
