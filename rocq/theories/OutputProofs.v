(** Proofs about what is shown of a decoded value. *)
From Verif Require ByteSetModel ByteSetProofs.
From Verif Require Import Base BoundsModel DataModel NumericModel ValueModel FormatModel DecoderModel
  FormatSpec RecordModel RecordSpec RecordProofs OutputModel OutputSpec.
Open Scope nat_scope.

(** ** Values that their format implies *)

Lemma contains_byte bs b : ByteSetModel.wf bs -> ByteSetModel.contains bs b = true -> (b < 256)%N.
Proof.
  intros (_ & _ & _ & H3) Hc. destruct (N.lt_ge_cases b 256) as [|Hb]; [assumption|exfalso].
  unfold ByteSetModel.contains, ByteSetModel.get_bit_with in Hc.
  replace (b <? 64)%N with false in Hc by lia. replace (b <? 128)%N with false in Hc by lia.
  replace (b <? 192)%N with false in Hc by lia.
  rewrite ByteSetProofs.land_bit_nonzero in Hc.
  rewrite N.bits_above_log2 in Hc; [discriminate|].
  destruct (ByteSetModel.w3 bs) as [|p] eqn:E; [cbn; lia|].
  apply N.lt_le_trans with 64%N; [|lia]. apply N.log2_lt_pow2; [lia|]. exact H3.
Qed.
Lemma one_byte bs b b' : ByteSetModel.wf bs -> (ByteSetModel.len bs =? 1)%N = true ->
  ByteSetModel.contains bs b = true -> ByteSetModel.contains bs b' = true -> b = b'.
Proof.
  intros Hw Hl Hb Hb'. apply N.eqb_eq in Hl. rewrite ByteSetProofs.len_iter in Hl.
  assert (H : In b (ByteSetModel.iter bs)).
  { apply ByteSetProofs.in_iter. split; [eapply contains_byte; eassumption|exact Hb]. }
  assert (H' : In b' (ByteSetModel.iter bs)).
  { apply ByteSetProofs.in_iter. split; [eapply contains_byte; eassumption|exact Hb']. }
  destruct (ByteSetModel.iter bs) as [|x [|y l]]; cbn in Hl; try lia.
  destruct H as [H|[]], H' as [H'|[]]. congruence.
Qed.

Lemma all_some_true {A} (p : A -> option bool) l :
  all_some p l = Some true <-> Forall (fun x => p x = Some true) l.
Proof.
  induction l as [|x l IH]; cbn [all_some]; [split; constructor|].
  split.
  - intros H. destruct (p x) as [[]|] eqn:E; try discriminate. constructor; [exact E|]. now apply IH.
  - intros H. inversion H; subst. rewrite H2. now apply IH.
Qed.
Lemma chain_same (R R' : format -> nat -> nat -> value -> Prop) (fs : list format) i i' j j' vs vs' :
  Forall (fun f => forall i i' j j' v v', R f i j v -> R' f i' j' v' -> v = v') fs ->
  Chain R fs i j vs -> Chain R' fs i' j' vs' -> vs = vs'.
Proof.
  intros HF H. revert i' j' vs'. induction H as [|a l i j k v vs Ha Hl IH]; intros i' j' vs' H';
    inversion H'; subst; [reflexivity|].
  inversion HF as [|? ? Q1 Q2]; subst. f_equal; [eapply Q1; eassumption|]. eapply IH; eassumption.
Qed.

Section Implied.
Context (M : fmodule) (kind : format -> hint).
Notation same f := (one_value M f).

Lemma fields_same um fl um' fl' buf buf' fs :
  Forall (fun f => kept f = true -> same (snd f)) fs ->
  forall s s' i i' j j' rs rs',
  Fields (fun s f i j v => SemN M false um fl s f buf i j v) s fs i j rs ->
  Fields (fun s f i j v => SemN M false um' fl' s f buf' i j v) s' fs i' j' rs' -> rs = rs'.
Proof.
  induction 1 as [|f fs Hf _ IH]; intros s s' i i' j j' rs rs' H H'.
  - inversion H; inversion H'; subst. reflexivity.
  - destruct f as [[[x []]|] f]; inversion H; inversion H'; subst.
    + specialize (Hf eq_refl). cbn [snd] in Hf. f_equal; [f_equal; eapply Hf; eassumption|].
      eapply IH; eassumption.
    + eapply IH; eassumption.
    + eapply IH; eassumption.
Qed.
Lemma different_no_reuse fs : all_different fs -> no_reuse fs.
Proof.
  induction fs as [|f fs IH]; cbn [all_different no_reuse]; [trivial|]. intros [H1 H2].
  destruct f as [[[x []]|] f]; auto.
Qed.
Lemma record_same fs : all_different fs -> Forall (fun f => kept f = true -> same (snd f)) fs ->
  same (record_ext fs).
Proof.
  intros Hd HF um fl um' fl' s s' buf buf' i i' j j' v v' H H'.
  apply record_ext_sem in H as (rs & H & ->); [|now apply different_no_reuse].
  apply record_ext_sem in H' as (rs' & H' & ->); [|now apply different_no_reuse].
  f_equal. eapply fields_same; eassumption.
Qed.
Lemma chain_view fs : all_different fs -> existsb kept fs = true ->
  to_record_format (chain_record [] fs) = Val (map (fun f => (seen f, snd f)) fs).
Proof. intros Hd Hk. exact (view_of_record fs Hd Hk). Qed.

Lemma old_true p fs : forall cap, implied_old p (chain_record cap fs) = Some true ->
  forallb kept fs = true -> Forall (fun f => p (snd f) = Some true) fs.
Proof.
  induction fs as [|[[[x []]|] f] fs IH]; intros cap; cbn [chain_record implied_old forallb kept fst andb];
    intros H Hk; try discriminate; [constructor|].
  destruct (p f) as [[]|] eqn:E; try discriminate. constructor; [exact E|]. eapply IH; eassumption.
Qed.

Lemma within_part h g f : In g (made_of kind f) -> Within (made_of kind) h g -> Within (made_of kind) h f.
Proof. apply WithinPart. Qed.

Lemma implied_same fuel : forall f, implied M kind fuel f = Some true -> all_settled M kind f -> same f.
Proof.
  induction fuel as [|fuel IH]; intros f Hi Hs; [discriminate|].
  assert (IHp : forall g, In g (made_of kind f) -> implied M kind fuel g = Some true -> same g).
  { intros g Hg Hig. apply IH; [exact Hig|]. destruct Hs as [H1 H2]. split; [|exact H2].
    intros h Hh. apply H1. eapply within_part; eassumption. }
  assert (Hn : settled kind f) by (apply (proj1 Hs); constructor).
  assert (Hm : forall it, In it M -> implied M kind fuel (it_format it) = Some true -> same (it_format it)).
  { intros it Hit Hii. apply IH; [exact Hii|]. destruct Hs as [_ H2]. split; [|exact H2].
    intros g Hg. eapply H2; eassumption. }
  clear IH Hs.
  destruct f; cbn [implied] in Hi; cbn [made_of] in IHp; cbn [settled] in Hn; try discriminate;
    try contradiction;
    try (intros um fl um' fl' s s' buf buf' i i' j j' v v' H H'; inversion H; inversion H'; subst;
         reflexivity);
    try (specialize (IHp _ (or_introl eq_refl) Hi);
         intros um fl um' fl' s s' buf buf' i i' j j' v v' H H'; inversion H; inversion H'; subst;
         try f_equal; eapply IHp; eassumption).
  - intros um fl um' fl' s s' buf buf' i i' j j' v v' H H'; inversion H; inversion H'; subst.
    replace it0 with it in * by congruence.
    match goal with A : get_item M level = Some it |- _ => rewrite A in Hi; apply nth_error_In in A;
      eapply (Hm it A Hi); eassumption end.
  - intros um fl um' fl' s s' buf buf' i i' j j' v v' H H'; inversion H; inversion H'; subst.
    f_equal. injection Hi as Hi. eapply one_byte; eassumption.
  - destruct fs as [|f [|g fs]]; try discriminate. specialize (IHp _ (or_introl eq_refl) Hi).
    intros um fl um' fl' s s' buf buf' i i' j j' v v' H H'; inversion H; inversion H'; subst.
    destruct k as [|k], k0 as [|k0];
      repeat match goal with
        | A : nth_error [_] (S ?k) = Some _ |- _ => destruct k; discriminate
        | A : nth_error [_] 0 = Some _ |- _ => injection A as <- end.
    f_equal. eapply IHp; eassumption.
  - destruct fs as [|f [|g fs]]; try discriminate. specialize (IHp _ (or_introl eq_refl) Hi).
    intros um fl um' fl' s s' buf buf' i i' j j' v v' H H'; inversion H; inversion H'; subst.
    destruct k as [|k], k0 as [|k0];
      repeat match goal with
        | A : nth_error [_] (S ?k) = Some _ |- _ => destruct k; discriminate
        | A : nth_error [_] 0 = Some _ |- _ => injection A as <- end.
    f_equal. eapply IHp; eassumption.
  - apply all_some_true in Hi.
    intros um fl um' fl' s s' buf buf' i i' j j' v v' H H'; inversion H; inversion H'; subst.
    f_equal. eapply chain_same; [|eassumption|eassumption].
    apply Forall_forall. intros f Hf. rewrite Forall_forall in Hi. intros. eapply (IHp f Hf (Hi f Hf)); eassumption.
  - apply all_some_true in Hi.
    intros um fl um' fl' s s' buf buf' i i' j j' v v' H H'; inversion H; inversion H'; subst.
    do 2 f_equal. eapply chain_same; [|eassumption|eassumption].
    apply Forall_forall. intros f Hf. rewrite Forall_forall in Hi. intros. eapply (IHp f Hf (Hi f Hf)); eassumption.
  - specialize (IHp _ (or_introl eq_refl) Hi).
    intros um fl um' fl' s s' buf buf' i i' j j' v v' H H'; inversion H; inversion H'; subst.
    match goal with A : eval_usize e s = Val ?n, B : eval_usize e s' = Val ?n' |- _ =>
      assert (n = n') by (eapply Hn; eassumption); subst end.
    do 2 f_equal. eapply chain_same; [|eassumption|eassumption].
    apply Forall_forall. intros g Hg. apply repeat_spec in Hg. subst. intros. eapply IHp; eassumption.
  - specialize (IHp _ (or_introl eq_refl) Hi).
    intros um fl um' fl' s s' buf buf' i i' j j' v v' H H'; inversion H; inversion H'; subst.
    match goal with A : SemN _ _ _ _ s f _ _ _ ?v, B : SemN _ _ _ _ s' f _ _ _ ?v' |- _ =>
      assert (v = v') by (eapply IHp; eassumption); subst end.
    f_equal. eapply Hn; eassumption.
  - destruct (kind f) as [old| | |] eqn:Ek;
      try (specialize (IHp _ (or_introl eq_refl) Hi);
         intros um fl um' fl' s s' buf buf' i i' j j' v v' H H'; inversion H; inversion H'; subst;
         eapply IHp; eassumption).
    destruct Hn as (fs & -> & Hd & Hk & Ho).
    rewrite chain_view in IHp by assumption. change (FHint (chain_record [] fs)) with (record_ext fs).
    apply record_same; [exact Hd|]. apply Forall_forall. intros f Hf Hkf.
    apply IHp.
    + apply in_map_iff. exists (seen f, snd f). split; [reflexivity|]. apply filter_In. split.
      * apply in_map_iff. now exists f.
      * destruct f as [[[x []]|] f]; try discriminate. reflexivity.
    + destruct old.
      * apply old_true in Hi; [|now apply Ho]. rewrite Forall_forall in Hi. now apply Hi.
      * rewrite chain_view in Hi by assumption. apply all_some_true in Hi. rewrite Forall_forall in Hi.
        specialize (Hi (seen f, snd f)). destruct f as [[[x []]|] f]; try discriminate.
        apply Hi. apply in_map_iff. eexists. split; [|exact Hf]. reflexivity.
  - destruct o as [f|]; cbn [made_of] in IHp.
    + specialize (IHp _ (or_introl eq_refl) Hi).
      intros um fl um' fl' s s' buf buf' i i' j j' v v' H H'; inversion H; inversion H'; subst.
      do 2 f_equal. eapply IHp; eassumption.
    + intros um fl um' fl' s s' buf buf' i i' j j' v v' H H'; inversion H; inversion H'; subst. reflexivity.
  - specialize (IHp _ (or_introl eq_refl) Hi).
    intros um fl um' fl' s s' buf buf' i i' j j' w w' H H'; inversion H; inversion H'; subst.
    eapply IHp; eassumption.
Qed.
End Implied.
