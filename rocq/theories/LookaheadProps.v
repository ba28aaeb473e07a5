(** Property C28: the lookahead tree picks the branch that matches. *)
From Verif Require ByteSetModel.
From Verif Require Import Base BoundsModel DataModel NumericModel ValueModel FormatModel MatchTreeModel DecoderModel DecoderProps
  FormatSpec LookaheadSpec MatchBoundsProofs MatchTreeProofs LookaheadProofs.
Open Scope nat_scope.

Section Props.
Context (m : fmodule).

(** Whatever the iteration order of hash sets when the tree was built ([Build]):
    if branch [i] matches [buf] from [p] to [j], and from [j] the continuation
    matches up to the end of [buf], the tree picks [i]. Missing: the nodes that
    are not [regular], that is those for which the lookahead does not follow the
    format (refuted below), and continuations that do not reach the end. *)
Theorem C28_selects_regular_partial : forall fs n t,
  module_wide (regular m) m -> Forall (everywhere (regular m)) fs -> regular_next m n ->
  Build LReal m fs n t ->
  forall i f buf p j, nth_error fs i = Some f -> Forall (fun b => (b < 256)%N) buf ->
  matched m f buf p j -> follows m false n buf j ->
  tree_matches t (RC buf p) = Some i.
Proof.
  intros fs n t HM Hfs Hn HB i f buf p j Hi Hb Hj Hf. unfold tree_matches. cbn [roff rinput].
  assert (HS : Safe m LExact max_depth (start fs n)).
  { eapply regular_safe; eauto. intros i0 n0 Hin. unfold start in Hin. apply in_map_iff in Hin as ([k g] & [= <- <-] & Hin).
    cbn. split; [|exact Hn]. rewrite Forall_forall in Hfs. apply Hfs.
    assert (E : forall l a, In (k, g) (enumerate a l) -> In g l).
    { clear - k. induction l as [|y l IH]; intros a H; cbn in *; [destruct H|]. destruct H as [H|H]; [injection H as _ ->; now left|right; eauto]. }
    eapply E; eauto. }
  apply (tree_picks m LExact false buf eq_refl ltac:(discriminate) Hb _ _ _ HB _ HS i (NCat f n)); [now apply in_start|].
  cbn. eauto.
Qed.

(** The same when nothing is known of what comes after the continuation
    ([open = true], as for a format decoded on its own), provided that the
    construction also succeeds when it is made to give up at the end of the
    continuation, or where it approximates. Also for formats that are not [regular]
    when [open = false]. *)
Theorem C28_selects_partial : forall (open : bool) fs n t fuel t0,
  Build LReal m fs n t ->
  build (if open then LOpen else LExact) m fuel fs n = Val (Some t0) ->
  forall i f buf p j, nth_error fs i = Some f -> Forall (fun b => (b < 256)%N) buf ->
  matched m f buf p j -> follows m open n buf j ->
  tree_matches t (RC buf p) = Some i.
Proof.
  intros open fs n t fuel t0 HB Hs i f buf p j Hi Hb Hj Hf. unfold tree_matches. cbn [roff rinput].
  assert (Hm : mode (if open then LOpen else LExact) open) by now destruct open.
  assert (Hw : (if open then LOpen else LExact) <> LWeak) by now destruct open.
  apply (tree_picks m _ open buf Hm Hw Hb _ _ _ HB _ (grow_safe _ _ _ _ _ _ Hs) i (NCat f n)); [now apply in_start|].
  cbn. eauto.
Qed.

(** At most one branch can match, then. *)
Theorem C28_unique_partial : forall (open : bool) fs n t fuel t0,
  Build LReal m fs n t ->
  build (if open then LOpen else LExact) m fuel fs n = Val (Some t0) ->
  forall i f j i' f' j' buf p, nth_error fs i = Some f -> nth_error fs i' = Some f' -> Forall (fun b => (b < 256)%N) buf ->
  matched m f buf p j -> follows m open n buf j -> matched m f' buf p j' -> follows m open n buf j' -> i = i'.
Proof.
  intros open fs n t fuel t0 HB Hs i f j i' f' j' buf p Hi Hi' Hb H1 H2 H3 H4.
  pose proof (C28_selects_partial open fs n t fuel t0 HB Hs i f buf p j Hi Hb H1 H2).
  pose proof (C28_selects_partial open fs n t fuel t0 HB Hs i' f' buf p j' Hi' Hb H3 H4). congruence.
Qed.
End Props.
Print Assumptions C28_selects_regular_partial.
Print Assumptions C28_selects_partial.
Print Assumptions C28_unique_partial.

(** A tree built by the code that picks another branch than one that matches. *)
Definition misled (open : bool) (fs : list format) (n : next) (buf : list N) (p : nat) : Prop :=
  exists t i f j k, build LReal [] 100 fs n = Val (Some t) /\ nth_error fs i = Some f /\ Forall (fun b => (b < 256)%N) buf /\
    matched [] f buf p j /\ follows [] open n buf j /\ tree_matches t (RC buf p) = k /\ k <> Some i.
Lemma m_byte s b i buf : nth_error buf i = Some b -> (b < 256)%N -> Sem [] true s (byte_is b) buf i (S i) (VU B8 b).
Proof. intros H Hb. constructor; [exact H|]. unfold byte_is. rewrite ByteSetProofs.contains_insert by exact Hb. now rewrite N.eqb_refl. Qed.
(** "0" or "012" on "013...": the second branch is chosen, and fails. *)
Theorem C28_open_refuted : exists fs n buf p, misled true fs n buf p.
Proof.
  exists [byte_is 0; FTuple [byte_is 0; byte_is 1; byte_is 2]], NEmpty, [0; 1; 3]%N, 0.
  eexists _, 0, _, 1, _. split; [vm_compute; reflexivity|]. split; [reflexivity|].
  split; [repeat constructor|]. split; [exists SEmpty, (VU B8 0%N); now apply m_byte|].
  split; [now left|]. split; [vm_compute; reflexivity|discriminate].
Qed.
(** Padding before a byte: at an odd offset the padding byte selects the other
    branch, although the input is then entirely matched. *)
Theorem C28_align_refuted : exists fs n buf p, misled false fs n buf p.
Proof.
  exists [FTuple [FAlign 2; byte_is 7]; byte_is 5], NEmpty, [0; 5; 7]%N, 1.
  eexists _, 0, _, 3, _. split; [vm_compute; reflexivity|]. split; [reflexivity|].
  split; [repeat constructor|]. split.
  - exists SEmpty, (VTuple [VUnit; VU B8 7%N]). constructor. econstructor; [apply (SemAlign [] true anything anything SEmpty 2 [0; 5; 7]%N 1 2); cbn; lia || discriminate|].
    econstructor; [apply m_byte; [reflexivity|lia]|constructor].
  - split; [right; cbn; lia|]. split; [vm_compute; reflexivity|discriminate].
Qed.
(** A number of elements known only when decoding. *)
Theorem C28_count_refuted : exists fs n buf p, misled false fs n buf p.
Proof.
  exists [FRepeatCount (EAs B8 (EVar 0%N)) (byte_is 0); byte_is 0], NEmpty, [0; 0]%N, 0.
  eexists _, 0, _, 2, _. split; [vm_compute; reflexivity|]. split; [reflexivity|].
  split; [repeat constructor|]. split.
  - exists (SSingle SEmpty 0%N (VU B8 2%N)), (VSeq (Strict [VU B8 0%N; VU B8 0%N])).
    apply (SemRepeatCount _ _ _ _ _ _ _ 2%N); [reflexivity|].
    econstructor; [apply m_byte; [reflexivity|lia]|]. econstructor; [apply m_byte; [reflexivity|lia]|constructor].
  - split; [right; cbn; lia|]. split; [vm_compute; reflexivity|discriminate].
Qed.

(** The hypotheses are met: an optional prefix of zeros before 1 2 or 1 3, then
    more bytes. *)
Definition ex_branches : list format :=
  [FTuple [FRepeat (byte_is 0); byte_is 1; byte_is 2]; FMap (FTuple [byte_is 1; byte_is 3]) (ELambda 0%N (EVar 0%N))].
Definition ex_buf : list N := [9; 1; 3; 7]%N.
Example C28_nonvacuous :
  exists t, build LReal [] 100 ex_branches (NRepeat any_byte NEmpty) = Val (Some t) /\
  tree_matches t (RC ex_buf 1) = Some 1 /\
  module_wide (regular []) [] /\ Forall (everywhere (regular [])) ex_branches /\ regular_next [] (NRepeat any_byte NEmpty) /\
  matched [] (FTuple [byte_is 1; byte_is 3]) ex_buf 1 3 /\ follows [] false (NRepeat any_byte NEmpty) ex_buf 3 /\
  exists t0, build LOpen [] 100 ex_branches (NRepeat any_byte NEmpty) = Val (Some t0).
Proof.
  eexists. split; [vm_compute; reflexivity|]. split; [vm_compute; reflexivity|].
  assert (E : forall f, (forall g, In g (subs f) -> match g with FByte _ | FTuple _ | FRepeat _ | FMap _ _ => True | _ => False end) ->
    everywhere (regular []) f) by (intros f H g Hg; specialize (H g Hg); now destruct g).
  assert (T : forall f, In f (any_byte :: ex_branches) -> everywhere (regular []) f).
  { intros f Hf. apply E. intros g Hg. cbn in Hf. repeat destruct Hf as [<-|Hf]; cbn in Hg;
      repeat destruct Hg as [<-|Hg]; auto; destruct Hg || destruct Hf. }
  split; [now intros [|k] it H|].
  split; [apply Forall_forall; intros f Hf; apply T; now right|]. split; [split; [apply T; now left|exact I]|]. split.
  - exists SEmpty, (VTuple [VU B8 1%N; VU B8 3%N]). constructor. econstructor; [apply m_byte; [reflexivity|lia]|].
    econstructor; [apply m_byte; [reflexivity|lia]|constructor].
  - split.
    + exists 1, 4. split; [|right; cbn; lia]. cbn. exists 4. split; [|reflexivity].
      exists SEmpty, (VU B8 7%N). now constructor.
    + eexists. vm_compute. reflexivity.
Qed.
