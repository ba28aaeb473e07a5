(** The decoders made from Huffman tables while decoding: when there are enough codes
    they can be made, and decode what their format describes. *)
From Verif Require ByteSetModel HuffmanModel HuffmanProofs.
From Verif Require Import Base BoundsModel DataModel NumericModel ValueModel ValueProofs FormatModel MatchTreeModel
  DecoderModel DecoderProofs FormatSpec LookaheadSpec ExactSpec CompileProofs SoundProofs MatchTreeProofs LookaheadProofs CodeTreeProofs CompleteProofs.
Open Scope nat_scope.

Lemma prefix_free_at codes : HuffmanProofs.prefix_free codes <->
  forall i j c d r, nth_error codes i = Some c -> nth_error codes j = Some d -> fst d = fst c ++ r -> i = j.
Proof.
  induction codes as [|[c0 v0] codes IH]; cbn [HuffmanProofs.prefix_free]; [split; [|auto]; intros _ [|i]; discriminate|]. split.
  - intros [H1 H2]. rewrite IH in H2. intros i j c d r Hi Hj E. destruct i as [|i], j as [|j]; cbn in Hi, Hj; [reflexivity| | |f_equal; eauto].
    + injection Hi as <-. destruct d as [d w]. apply nth_error_In in Hj. destruct (H1 d w Hj) as [A _]. exfalso. apply A. exists r. exact E.
    + injection Hj as <-. destruct c as [c w]. apply nth_error_In in Hi. destruct (H1 c w Hi) as [_ A]. exfalso. apply A. exists r. exact E.
  - intros H. split.
    + intros d w Hd. apply In_nth_error in Hd as (k & Hk). split; intros (r & E).
      * specialize (H 0 (S k) _ _ r eq_refl Hk E). discriminate.
      * specialize (H (S k) 0 _ _ r Hk eq_refl E). discriminate.
    + apply IH. intros i j c d r Hi Hj E. specialize (H (S i) (S j) c d r Hi Hj E). lia.
Qed.
Lemma exec_builds k : builds_codes (build_exec (4 + k)).
Proof. intros codes [HF HP]. apply codes_built; [exact HF|now apply prefix_free_at]. Qed.

Lemma kraft_up n m lens : m <= n -> Forall (fun l => l <= m) lens -> HuffmanProofs.kraft n lens = (2 ^ N.of_nat (n - m) * HuffmanProofs.kraft m lens)%N.
Proof.
  intros Hm H. induction H as [|l lens Hl H IH]; [cbn; lia|]. unfold HuffmanProofs.kraft in *. cbn [fold_right]. rewrite IH. destruct (Nat.eqb l 0); [lia|].
  rewrite N.mul_add_distr_l. f_equal. rewrite <- N.pow_add_r. f_equal. lia.
Qed.
Lemma kraft_down n m lens : m <= n -> Forall (fun l => l <= m) lens -> (HuffmanProofs.kraft n lens <= 2 ^ N.of_nat n <-> HuffmanProofs.kraft m lens <= 2 ^ N.of_nat m)%N.
Proof.
  intros Hm H. rewrite (kraft_up n m lens Hm H). replace (2 ^ N.of_nat n)%N with (2 ^ N.of_nat (n - m) * 2 ^ N.of_nat m)%N by (rewrite <- N.pow_add_r; f_equal; lia).
  symmetry. apply N.mul_le_mono_pos_l. pose proof (N.pow_nonzero 2 (N.of_nat (n - m))). lia.
Qed.
Lemma enough_good ls codes : enough_codes ls -> HuffmanModel.huffman_codes ls = Val codes -> good_codes codes.
Proof.
  intros (H63 & Hlen & HK) E. assert (Hne : ls <> []) by (intros ->; discriminate).
  assert (Hm : list_max ls <= 63) by (now apply List.list_max_le).
  assert (K : (HuffmanProofs.kraft (list_max ls) ls <= 2 ^ N.of_nat (list_max ls))%N).
  { apply (kraft_down 63); [exact Hm|now apply List.list_max_le|exact HK]. }
  assert (Hin : forall c v, In (c, v) codes -> HuffmanProofs.is_bits c /\ 1 <= length c <= max_depth).
  { intros c v H. apply (HuffmanProofs.codes_in ls c v codes Hne Hm Hlen K E) in H as (i & l & _ & Hi & Hl & Hb & Hc & _).
    split; [exact Hb|]. rewrite Forall_forall in H63. specialize (H63 l (nth_error_In _ _ Hi)). unfold max_depth. lia. }
  split; [apply Forall_forall; intros [c v]; apply Hin|].
  apply prefix_free_at, HuffmanProofs.prefix_free_nodup; [intros c s d t; now apply (HuffmanProofs.codes_prefix_free ls _ _ _ _ _ Hne Hm Hlen K E)|].
  rewrite HuffmanProofs.huffman_codes_spec in E by assumption. injection E as <-.
  apply (NoDup_map_inv snd). rewrite map_map. rewrite (map_ext _ snd) by (intros [[? ?] ?]; reflexivity). apply HuffmanProofs.plan_nodup.
Qed.

Section Dyn.
Context (bld : fmodule -> list format -> next -> outcome (option mtree)) (P : program) (m : fmodule).
Context (Hbld : forall fs n t, bld [] fs n = Val (Some t) -> Build LReal [] fs n t).
Context (Hcodes : builds_codes bld).
Definition branch_decoder (c : list N * N) : decoder :=
  DMap (DTuple (map (fun b => DByte (ByteSetModel.insert ByteSetModel.empty b)) (fst c))) (ELambda 0%N (EU B16 (snd c))).
Definition code_decoder (d : decoder) (g : format) : Prop :=
  exists codes t, good_codes codes /\ g = FUnion (branches codes) /\ bld [] (branches codes) NEmpty = Val (Some t) /\ d = DBranch t (map branch_decoder codes).

Lemma compile_bits c : forall n st, ctuple (compile_format bld (fun _ _ => false) []) (map is_bit c) n st = COk (map (fun b => DByte (ByteSetModel.insert ByteSetModel.empty b)) c, st).
Proof.
  induction c as [|b c IH]; intros n st; [reflexivity|]. cbn [map ctuple]. unfold is_bit at 1. cbn [compile_format].
  unfold cbind, cret, cmap, cbind. cbn [cret]. rewrite IH. reflexivity.
Qed.
Lemma compile_branches codes : forall st, cmapM (fun g => compile_format bld (fun _ _ => false) [] g NEmpty) (branches codes) st = COk (map branch_decoder codes, st).
Proof.
  induction codes as [|c codes IH]; intros st; [reflexivity|]. unfold branches. cbn [map cmapM]. cbn [compile_format].
  unfold cmap, cbind, cret. rewrite compile_bits. unfold branches in IH. rewrite IH. reflexivity.
Qed.
Lemma made ls g : enough_codes ls -> huffman_format ls = Val g -> exists d, compile_one bld g = COk d /\ code_decoder d g.
Proof.
  intros Hok E. unfold huffman_format in E. destruct (HuffmanModel.huffman_codes ls) as [codes|] eqn:Ec; [|discriminate]. injection E as <-. fold (branches codes).
  pose proof (enough_good _ _ Hok Ec) as Hg. destruct (Hcodes codes Hg) as (t & Et). exists (DBranch t (map branch_decoder codes)). split.
  - unfold compile_one. cbn [compile_format]. unfold cbind at 1. rewrite compile_branches. unfold cmap, build_or_err, cbind, clift. rewrite Et. reflexivity.
  - exists codes, t. auto.
Qed.
Lemma step_run s d buf i j v : (exists F es, forall k, F <= k -> DecoderModel.parse bld P (S k) s d (RC buf i) = ROk v (RC buf j) es) -> runs bld P s d buf i j v.
Proof. apply (runs_step bld P [] false (fun _ _ _ => False) (fun _ _ _ => False) (fun _ _ _ _ _ H => match H with end) (fun _ _ => False)). discriminate. Qed.
Lemma seq_run buf l i j vs : Chain (fun sd i j v => runs bld P (fst sd) (snd sd) buf i j v) l i j vs ->
  exists F es, forall k, F <= k -> pseq (DecoderModel.parse bld P k) l (RC buf i) = ROk vs (RC buf j) es.
Proof. apply (pseq_runs bld P [] false (fun _ _ _ => False) (fun _ _ _ => False) (fun _ _ _ _ _ H => match H with end) (fun _ _ => False)). discriminate. Qed.
Lemma decodes d g : code_decoder d g -> forall s s' buf i j v, usable buf -> i <= length buf -> Sem m true s g buf i j v -> runs bld P s' d buf i j v.
Proof.
  intros (codes & t & (HF & HP) & -> & Et & ->) s s' buf i j v Hu Hi H. inversion H; subst; clear H.
  match goal with A : nth_error (branches codes) _ = Some ?f, B : SemN _ _ _ _ s ?f _ _ _ _ |- _ => rename A into Hn; rename B into Hv end.
  assert (HB : decided [] true (branches codes) NEmpty).
  { destruct (codes_built LOpen 0 codes HF (proj2 (prefix_free_at codes) HP)) as (t' & E'). eapply grow_safe. exact E'. }
  pose proof Hn as Hn0. unfold branches in Hn. rewrite nth_error_map in Hn. destruct (nth_error codes k) as [[c n]|] eqn:Ek; [|discriminate]. injection Hn as <-. cbn [fst snd] in *.
  inversion Hv; subst; clear Hv. match goal with A : SemN _ _ _ _ _ (FTuple _) _ _ _ _ |- _ => inversion A; subst; clear A end.
  match goal with A : eval_lambda _ _ _ = _ |- _ => injection A as <- end.
  match goal with A : Chain _ _ _ _ _ |- _ => rename A into C end.
  assert (G : forall c i j vs, Chain (fun f i j v => SemN m true anything anything s f buf i j v) (map is_bit c) i j vs ->
    Chain (fun f i j v => SemN [] true anything anything s f buf i j v) (map is_bit c) i j vs /\
    Chain (fun sd i j v => runs bld P (fst sd) (snd sd) buf i j v) (map (pair s') (map (fun b => DByte (ByteSetModel.insert ByteSetModel.empty b)) c)) i j vs).
  { clear. induction c as [|b c IH]; intros i j vs C; inversion C as [|? ? ? i1 ? v1 vs1 H1 C1]; subst; cbn [map]; [split; constructor|].
    destruct (IH _ _ _ C1) as [A B]. unfold is_bit in H1. inversion H1; subst. split; (econstructor; [|eassumption]).
    - now constructor.
    - apply step_run. cbn [fst snd DecoderModel.parse]. exists 0, []. intros k0 Hk0. rewrite read_byte_at. cbn [rinput roff].
      match goal with A : nth_error buf i = _, B : ByteSetModel.contains _ _ = _ |- _ => rewrite A, B end. do 2 f_equal. lia. }
  destruct (G _ _ _ _ C) as [A B]. destruct (seq_run _ _ _ _ _ B) as (F & es & Hr).
  apply step_run. cbn [DecoderModel.parse]. exists (S (S F)), ([] ++ es). intros k0 Hk0.
  rewrite (decided_picks bld [] Hbld true (branches codes) NEmpty t k _ buf i j HB Et Hu Hn0).
  - rewrite nth_error_map, Ek. cbn [option_map]. unfold branch_decoder. cbn [fst snd]. destruct k0 as [|[|k0]]; [lia|lia|]. cbn [DecoderModel.parse].
    rewrite Hr by lia. reflexivity.
  - exists s. eexists. eapply SemMap; [constructor; exact A|]. reflexivity.
  - now left.
Qed.
End Dyn.
