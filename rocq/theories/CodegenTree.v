(** The byte predicates and the lookahead of generated code; the correspondence of the
    two cursors. *)
From Coq Require Import String Sorting.Sorted.
From Verif Require ByteSetModel ByteSetProofs.
From Verif Require Import Base BoundsModel DataModel NumericModel ValueModel FormatModel MatchTreeModel DecoderModel
  ParserModel ParserProofs ProgModel ProgProofs RecordModel CodegenModel CodegenSpec.
Open Scope nat_scope.

(** ** Byte predicates *)

Lemma filter_split {A} (f g : A -> bool) l : (forall x, In x l -> g x = negb (f x)) ->
  length (filter f l) + length (filter g l) = length l.
Proof.
  induction l as [|x l IH]; intros H; simpl; auto. rewrite (H x (or_introl eq_refl)).
  specialize (IH (fun y Hy => H y (or_intror Hy))). destruct (f x); simpl; lia.
Qed.
Lemma length_nrange lo n : length (nrange lo n) = n.
Proof. revert lo. induction n; intros; simpl; auto. Qed.
Lemma in_nrange x n : In x (nrange 0 n) <-> (x < N.of_nat n)%N.
Proof.
  pose proof (ByteSetProofs.existsb_nrange x 0 n) as H. split.
  - intros Hin. assert (E : existsb (N.eqb x) (nrange 0 n) = true) by (apply existsb_exists; exists x; split; auto; apply N.eqb_refl).
    rewrite H in E. apply andb_prop in E as [_ E]. apply N.ltb_lt in E. lia.
  - intros Hlt. assert (E : existsb (N.eqb x) (nrange 0 n) = true).
    { rewrite H. apply andb_true_intro. split; [apply N.leb_le; lia|apply N.ltb_lt; lia]. }
    apply existsb_exists in E as (y & Hy & E). apply N.eqb_eq in E. subst; auto.
Qed.
Lemma single_elem bs x : ByteSetModel.len bs = 1%N -> ByteSetModel.contains bs x = true -> (x < 256)%N ->
  forall b, (b < 256)%N -> ByteSetModel.contains bs b = N.eqb b x.
Proof.
  intros Hl Hx Hx2 b Hb. rewrite ByteSetProofs.len_iter in Hl.
  assert (Hin : In x (ByteSetModel.iter bs)) by (apply ByteSetProofs.in_iter; auto).
  assert (L : length (ByteSetModel.iter bs) = 1) by lia.
  destruct (ByteSetModel.iter bs) as [|y [|? ?]] eqn:E; simpl in L; try discriminate. destruct Hin as [->|[]].
  destruct (N.eqb b x) eqn:F; [apply N.eqb_eq in F; subst; auto|].
  destruct (ByteSetModel.contains bs b) eqn:G; auto. exfalso.
  assert (In b (ByteSetModel.iter bs)) by (apply ByteSetProofs.in_iter; auto). rewrite E in H. destruct H as [->|[]].
  rewrite N.eqb_refl in F. discriminate.
Qed.
Lemma filter_complement bs n : (N.of_nat n <= 256)%N ->
  length (filter (ByteSetModel.contains bs) (nrange 0 n)) + length (filter (ByteSetModel.contains (ByteSetModel.complement bs)) (nrange 0 n)) = n.
Proof.
  intros Hn. rewrite filter_split; [apply length_nrange|]. intros x Hx. apply in_nrange in Hx.
  apply ByteSetProofs.contains_complement. lia.
Qed.
Lemma len_complement bs : (ByteSetModel.len bs + ByteSetModel.len (ByteSetModel.complement bs) = 256)%N.
Proof.
  rewrite !ByteSetProofs.len_iter. unfold ByteSetModel.iter. rewrite <- Nat2N.inj_add, filter_complement; [reflexivity|lia].
Qed.
Lemma criterion_spec bs c : criterion_of bs = Val c -> forall b, (b < 256)%N -> satisfies c b = ByteSetModel.contains bs b.
Proof.
  unfold criterion_of. intros E b Hb.
  destruct (ByteSetModel.is_full bs) eqn:Hf.
  { injection E as <-. unfold ByteSetModel.is_full in Hf. apply ByteSetProofs.eqb_eq in Hf. subst.
    rewrite ByteSetProofs.contains_full; auto. }
  cbv zeta in E. destruct (N.eqb (ByteSetModel.len bs) 1) eqn:H1.
  { apply N.eqb_eq in H1. pose proof (ByteSetProofs.min_elem_spec bs) as M.
    destruct (ByteSetModel.min_elem bs) as [x|]; [|discriminate]. injection E as <-. destruct M as (Hx & Hc & _). simpl.
    symmetry. apply single_elem; auto. }
  destruct (N.eqb (ByteSetModel.len bs) 255) eqn:H2.
  { apply N.eqb_eq in H2. pose proof (ByteSetProofs.min_elem_spec (ByteSetModel.complement bs)) as M.
    destruct (ByteSetModel.min_elem (ByteSetModel.complement bs)) as [x|]; [|discriminate]. injection E as <-. destruct M as (Hx & Hc & _). simpl.
    assert (L : ByteSetModel.len (ByteSetModel.complement bs) = 1%N).
    { pose proof (len_complement bs). lia. }
    pose proof (single_elem _ x L Hc Hx b Hb) as S. rewrite ByteSetProofs.contains_complement in S by auto.
    destruct (N.eqb b x), (ByteSetModel.contains bs b); simpl in *; congruence. }
  destruct (N.leb 2 (ByteSetModel.len bs) && N.leb (ByteSetModel.len bs) 254); [|discriminate]. injection E as <-. reflexivity.
Qed.

(** ** Cursors *)

(** The parser is where the interpreter is. *)
Definition place (md : mode) (c : rctx) (st : pst) : Prop :=
  if bits md then
    exists s0 a, pcur st = Bits (N.of_nat s0) (N.of_nat a) /\ s0 <= length (pbuf st) /\ get_limit (pstk st) = None /\
      roff c = a /\ rinput c = bits_of (skipn s0 (pbuf st)) /\ a <= 8 * (length (pbuf st) - s0)
  else
    exists k L, pcur st = Bytes (N.of_nat k) /\ current_limit st = Bytes (N.of_nat L) /\ k <= L <= length (pbuf st) /\
      (sliced md = false -> get_limit (pstk st) = None) /\
      roff c = N.to_nat (pstart st) + k /\ length (rinput c) = N.to_nat (pstart st) + L /\
      skipn (N.to_nat (pstart st)) (rinput c) = firstn L (pbuf st).
Definition sees (md : mode) (c : rctx) (st : pst) : Prop :=
  pmax st = Bytes (N.of_nat (length (pbuf st))) /\ small (pbuf st) /\ (viewed md = false -> pstart st = 0%N) /\ place md c st.
Definition stays (st st' : pst) : Prop := frame st st' /\ pstk st' = pstk st /\ is_bit_mode (pcur st') = is_bit_mode (pcur st).
(** Same place for the start of the bits. *)
Definition same_bits (st st' : pst) : Prop := forall s0 a, pcur st = Bits s0 a -> exists a', pcur st' = Bits s0 a'.

Lemma bits_nth l : forall a, nth_error (bits_of l) a =
  match nth_error l (a / 8) with Some byte => Some (N.b2n (N.testbit byte (N.of_nat (a mod 8)))) | None => None end.
Proof.
  induction l as [|x l IH]; intros a.
  - change (bits_of []) with (@nil N). rewrite !(proj2 (nth_error_None _ _)) by (simpl; lia). reflexivity.
  - change (bits_of (x :: l)) with (map (fun i => if N.testbit x (N.of_nat i) then 1%N else 0%N) (seq 0 8) ++ bits_of l).
    destruct (Nat.ltb_spec a 8) as [H|H].
    + rewrite nth_error_app1 by (rewrite map_length, seq_length; auto).
      rewrite Nat.div_small, Nat.mod_small by auto. cbn [nth_error].
      rewrite nth_error_map. rewrite (nth_error_nth' _ 0) by (rewrite seq_length; auto). rewrite seq_nth by auto. cbn [option_map].
      rewrite Nat.add_0_l. destruct (N.testbit x (N.of_nat a)); reflexivity.
    + rewrite nth_error_app2 by (rewrite map_length, seq_length; auto). rewrite map_length, seq_length, IH.
      assert (E : a = (a - 8) + 1 * 8) by lia.
      assert (Ed : a / 8 = S ((a - 8) / 8)) by (rewrite E at 1; rewrite Nat.div_add by discriminate; lia).
      assert (Em : a mod 8 = (a - 8) mod 8) by (rewrite E at 1; rewrite Nat.mod_add by discriminate; reflexivity).
      rewrite Ed, Em. reflexivity.
Qed.
Lemma length_bits l : length (bits_of l) = 8 * length l.
Proof.
  unfold bits_of. induction l as [|b l IH]; [reflexivity|]. cbn [flat_map]. rewrite app_length, map_length, seq_length, IH. cbn [length]. lia.
Qed.
Lemma nth_skipn {A} (l : list A) n i : nth_error (skipn n l) i = nth_error l (n + i).
Proof. revert l. induction n; intros [|x l]; simpl; auto. destruct i; auto. Qed.
Lemma nth_firstn {A} (l : list A) n i : i < n -> nth_error (firstn n l) i = nth_error l i.
Proof. revert l i. induction n; intros [|x l] [|i] H; simpl; auto; try lia. apply IHn. lia. Qed.
Lemma Forall_nth {A} (P : A -> Prop) l i x : Forall P l -> nth_error l i = Some x -> P x.
Proof. intros H E. rewrite Forall_forall in H. apply H. eapply nth_error_In; eauto. Qed.

Lemma boff_gt_bits s a n : boff_gt (Bits s a) (Bytes n) = N.ltb n (s + a / 8).
Proof.
  unfold boff_gt, boff_cmp. cbn [as_bytes]. destruct (N.compare_spec (s + a / 8) n) as [E|E|E]; symmetry.
  - apply N.ltb_ge. rewrite E. apply N.le_refl.
  - apply N.ltb_ge. apply N.lt_le_incl. exact E.
  - apply N.ltb_lt. exact E.
Qed.

Lemma read_sees md c st : sees md c st ->
  match rc_read_byte c with
  | Some (b, c') => (b < 256)%N /\ exists st', p_read_byte st = (POk b, st') /\ sees md c' st' /\ pstk st' = pstk st /\ same_bits st st'
  | None => exists e st', p_read_byte st = (PErr e, st') /\ pstk st' = pstk st
  end.
Proof.
  intros (Hm & (Hb & Hs) & Hv & Hp). unfold place in Hp. unfold rc_read_byte.
  destruct (bits md) eqn:Eb.
  - destruct Hp as (s0 & a & Hc & Hs0 & Hl & Hr & Hi & Ha). rewrite Hi, bits_nth, Hr, nth_skipn.
    assert (Hlim : current_limit st = Bytes (N.of_nat (length (pbuf st)))) by (unfold current_limit; rewrite Hl; auto).
    unfold p_read_byte, try_increment. rewrite Hc. cbn [increment_by].
    assert (Hw : (N.of_nat a + 1 < w64)%N) by lia. rewrite (proj2 (N.ltb_lt _ _) Hw). rewrite Hlim, boff_gt_bits.
    assert (Hd : (N.to_nat (N.of_nat s0 + N.of_nat a / 8) = s0 + a / 8)).
    { rewrite N2Nat.inj_add, Nat2N.id. f_equal. rewrite N2Nat.inj_div, Nat2N.id. reflexivity. }
    assert (Hmd : (N.of_nat a mod 8 = N.of_nat (a mod 8))%N).
    { change 8%N with (N.of_nat 8). now rewrite <- Nat2N.inj_mod. }
    destruct (nth_error (pbuf st) (s0 + a / 8)) as [byte|] eqn:E.
    + assert (Hlt : s0 + a / 8 < length (pbuf st)) by (apply nth_error_Some; congruence).
      assert (Hgt : N.ltb (N.of_nat (length (pbuf st))) (N.of_nat s0 + (N.of_nat a + 1) / 8) = false).
      { apply N.ltb_ge. clear - Hlt. assert (N.of_nat a / 8 = N.of_nat (a / 8))%N by (change 8%N with (N.of_nat 8); now rewrite <- Nat2N.inj_div).
        assert ((N.of_nat a + 1) / 8 <= N.of_nat a / 8 + 1)%N.
        { rewrite <- (N.div_add (N.of_nat a) 1 8) by discriminate. apply N.div_le_mono; [discriminate|]. clear; lia. }
        rewrite H in H0. revert H0 Hlt. generalize ((N.of_nat a + 1) / 8)%N (a / 8). clear. intros; lia. }
      rewrite Hgt. cbn [as_bytes pbuf set_cur]. rewrite Hd, E, shift_testbit, Hmd.
      split; [destruct (N.testbit byte (N.of_nat (a mod 8))); simpl; lia|].
      eexists; split; [reflexivity|]. split; [|split; [reflexivity|intros ? ? F; rewrite Hc in F; injection F as <- <-; cbn; eauto]].
      split; [auto|]. split; [split; auto|]. split; [auto|]. unfold place. rewrite Eb. cbn.
      exists s0, (a + 1). split; [f_equal; lia|]. repeat split; auto; try lia.
    + destruct (N.ltb (N.of_nat (length (pbuf st))) (N.of_nat s0 + (N.of_nat a + 1) / 8)); [eauto|].
      cbn [as_bytes pbuf set_cur]. rewrite Hd, E. eauto.
  - destruct Hp as (k & L & Hc & Hl & HkL & Hg & Hr & Hi & Hsk).
    assert (Hn : nth_error (rinput c) (roff c) = nth_error (firstn L (pbuf st)) k).
    { rewrite <- Hsk, nth_skipn, Hr. reflexivity. }
    rewrite Hn. unfold p_read_byte.
    rewrite (try_increment_bytes st _ _ 1 Hc Hl) by lia.
    destruct (Nat.ltb_spec k L) as [H|H].
    + rewrite (proj2 (N.ltb_ge _ _)) by lia. cbn [as_bytes pbuf set_cur]. rewrite Nat2N.id, nth_firstn by auto.
      destruct (nth_error (pbuf st) k) as [b|] eqn:E; [|apply nth_error_None in E; lia].
      split; [eapply (Forall_nth _ _ _ _ Hb E)|]. eexists; split; [reflexivity|].
      split; [|split; [reflexivity|intros ? ? F; rewrite Hc in F; discriminate]].
      split; [auto|]. split; [split; auto|]. split; [auto|]. unfold place. rewrite Eb. cbn [pcur set_cur pstart pbuf pstk rinput roff].
      exists (k + 1), L. split; [f_equal; lia|]. repeat split; auto; lia.
    + assert (E : nth_error (firstn L (pbuf st)) k = None) by (apply nth_error_None; rewrite firstn_length; lia).
      rewrite E. rewrite (proj2 (N.ltb_lt _ _)) by lia. eauto.
Qed.

Lemma remaining_sees md c st : sees md c st -> p_remaining st = (POk (N.of_nat (length (rinput c) - roff c)), st).
Proof.
  intros (Hm & (Hb & Hs) & Hv & Hp). unfold place in Hp. unfold p_remaining, delta, checked_delta.
  destruct (bits md) eqn:Eb.
  - destruct Hp as (s0 & a & Hc & Hs0 & Hl & Hr & Hi & Ha).
    assert (Hlim : current_limit st = Bytes (N.of_nat (length (pbuf st)))) by (unfold current_limit; rewrite Hl; auto).
    rewrite Hc, Hlim. cbn [is_bit_mode abs_bit_offset]. cbv zeta. rewrite Hi, length_bits, skipn_length, Hr.
    destruct (N.leb_spec (N.of_nat s0 * 8 + N.of_nat a) (N.of_nat (length (pbuf st)) * 8)); [|lia]. f_equal. f_equal. lia.
  - destruct Hp as (k & L & Hc & Hl & HkL & Hg & Hr & Hi & Hsk). rewrite Hc, Hl. cbn [is_bit_mode as_bytes fst]. cbv zeta.
    destruct (N.leb_spec (N.of_nat k) (N.of_nat L)); [|lia]. f_equal. f_equal. lia.
Qed.
Lemma sees_range md c st : sees md c st -> roff c <= length (rinput c).
Proof.
  intros (Hm & (Hb & Hs) & Hv & Hp). unfold place in Hp. destruct (bits md) eqn:Eb.
  - destruct Hp as (s0 & a & Hc & Hs0 & Hl & Hr & Hi & Ha). rewrite Hi, length_bits, skipn_length. lia.
  - destruct Hp as (k & L & Hc & Hl & HkL & Hg & Hr & Hi & Hsk). lia.
Qed.

Lemma skipn_S_nth {A} (l : list A) n x r : skipn n l = x :: r -> nth_error l n = Some x /\ skipn (n + 1) l = r.
Proof.
  revert l. induction n; intros [|y l] E; simpl in *; try discriminate; [injection E as -> ->; auto|]. apply IHn; auto.
Qed.
Lemma skipn_nil_nth {A} (l : list A) n : skipn n l = [] -> nth_error l n = None.
Proof. intros E. apply nth_error_None. pose proof (skipn_length n l). rewrite E in H. simpl in H. lia. Qed.

Lemma usable_crit set : usable_set set = true -> exists c, criterion_of set = Val c.
Proof. unfold usable_set. destruct (criterion_of set); [eauto|discriminate]. Qed.

Definition lookahead (o : option nat) (p : prog nat) (st : pst) : Prop :=
  match o with
  | Some i => exists st', exec p st = (POk i, st') /\ pstk st' = pstk st
  | None => exists e st', exec p st = (PErr e, st') /\ pstk st' = pstk st
  end.
Lemma lookahead_stop acc st : lookahead acc (match acc with Some i => Ret i | None => Fail end) st.
Proof. destruct acc; simpl; eauto. Qed.
Lemma lookahead_from o p st st' : pstk st' = pstk st -> lookahead o p st' -> forall (q : prog nat), exec q st = exec p st' -> lookahead o q st.
Proof.
  intros Hs H q E. destruct o; simpl in *; rewrite E.
  - destruct H as (s2 & -> & ?). eexists; split; eauto. congruence.
  - destruct H as (e & s2 & -> & ?). do 2 eexists; split; eauto. congruence.
Qed.

Lemma arms_spec brs b f (k : mtree -> option nat) st :
  (b < 256)%N -> forallb (fun e => usable_set (fst e) && decisive (snd e)) brs = true ->
  (forall t, In t (map snd brs) -> decisive t = true -> lookahead (k t) (f t) st) ->
  lookahead (match first_branch b k brs with Some r => r | None => None end) (arms f brs b) st.
Proof.
  intros Hb. induction brs as [|[set t] brs IH]; intros Hu Hk.
  - exact (lookahead_stop None st).
  - cbn [forallb fst snd] in Hu. apply andb_prop in Hu as [Hu Hr]. apply andb_prop in Hu as [Hu Hd].
    destruct (usable_crit _ Hu) as (cr & Ec). cbn [arms first_branch]. rewrite Ec. cbn [plet].
    rewrite (criterion_spec _ _ Ec b Hb). destruct (ByteSetModel.contains set b).
    + apply Hk; [left; reflexivity|auto].
    + apply IH; auto. intros t' Hin. apply Hk. right. auto.
Qed.

Lemma decisive_children acc brs : decisive (MT acc brs) = true -> forallb (fun e => usable_set (fst e) && decisive (snd e)) brs = true.
Proof. cbn [decisive]. intros H. apply andb_prop in H as [_ H]. exact H. Qed.
Lemma no_full brs : forallb (fun e : byteset * mtree => negb (ByteSetModel.is_full (fst e))) brs = true -> existsb (fun e => ByteSetModel.is_full (fst e)) brs = false.
Proof.
  induction brs as [|[s t] brs IH]; simpl; auto. intros H. apply andb_prop in H as [H1 H2]. apply negb_true_iff in H1. rewrite H1. auto.
Qed.

Lemma expand_spec md w : forall t c st, w = skipn (roff c) (rinput c) -> sees md c st -> decisive t = true ->
  lookahead (mt_matches t w) (expand_tree t) st.
Proof.
  induction w as [|b w IH]; intros [acc brs] c st Hw Hs Hd.
  - cbn [mt_matches]. pose proof (decisive_children _ _ Hd) as Hch.
    destruct brs as [|[set t'] brs]; [apply lookahead_stop|].
    assert (acc = None) by (destruct acc; [discriminate|auto]). subst acc.
    pose proof (read_sees _ _ _ Hs) as Hrd. unfold rc_read_byte in Hrd. rewrite (skipn_nil_nth _ _ (eq_sym Hw)) in Hrd.
    destruct Hrd as (e & st' & Er & Es).
    destruct brs as [|y brs].
    + cbn [expand_tree]. apply andb_prop in Hch as [Hch _]. apply andb_prop in Hch as [Hu _]. destruct (usable_crit _ Hu) as (cr & Ec). cbn [fst] in Ec.
      rewrite Ec. cbn [plet]. cbn [lookahead exec]. rewrite Er. cbn [then_]. eauto.
    + cbn [expand_tree]. cbn [decisive] in Hd. apply andb_prop in Hd as [Hd _]. apply andb_prop in Hd as [_ Hd].
      rewrite (no_full _ Hd). cbn [lookahead exec]. rewrite Er. cbn [then_]. eauto.
  - cbn [mt_matches]. pose proof (decisive_children _ _ Hd) as Hch.
    destruct brs as [|[set t'] brs]; [apply lookahead_stop|].
    assert (acc = None) by (destruct acc; [discriminate|auto]). subst acc.
    destruct (skipn_S_nth _ _ _ _ (eq_sym Hw)) as [Hn Hw'].
    pose proof (read_sees _ _ _ Hs) as Hrd. unfold rc_read_byte in Hrd. rewrite Hn in Hrd.
    destruct Hrd as (Hb & st' & Er & Hs' & Es & _).
    assert (Hch' := Hch). cbn [forallb] in Hch. apply andb_prop in Hch as [Hch Hchr]. apply andb_prop in Hch as [Hu Hdt].
    destruct (usable_crit _ Hu) as (cr & Ec). cbn [fst snd] in Ec, Hdt.
    destruct brs as [|y brs].
    + cbn [expand_tree]. rewrite Ec. cbn [plet]. cbn [first_branch]. rewrite <- (criterion_spec _ _ Ec b Hb).
      apply (lookahead_from _ (if satisfies cr b then expand_tree t' else Fail) st st' Es).
      2: { cbn [exec]. rewrite Er. cbn [then_]. reflexivity. }
      destruct (satisfies cr b); [|exact (lookahead_stop None st')].
      apply (IH t' (RC (rinput c) (roff c + 1))); auto.
    + cbn [expand_tree]. cbn [decisive] in Hd. apply andb_prop in Hd as [Hd _]. apply andb_prop in Hd as [_ Hd].
      rewrite (no_full _ Hd).
      apply (lookahead_from _ (arms expand_tree ((set, t') :: y :: brs) b) st st' Es).
      2: { cbn [exec]. rewrite Er. cbn [then_]. reflexivity. }
      apply arms_spec; auto. intros t'' _ Hd''. apply (IH t'' (RC (rinput c) (roff c + 1))); auto.
Qed.
(** With input left, also when the root of the tree accepts. *)
Lemma loop_tree_spec md t c st b w : skipn (roff c) (rinput c) = b :: w -> sees md c st -> loop_tree t = true ->
  lookahead (tree_matches t c) (expand_tree t) st.
Proof.
  intros Hw Hs Ht. unfold tree_matches. destruct t as [acc [|[set t'] [|y brs]]].
  - apply (expand_spec md _ _ c); auto.
  - cbn [loop_tree] in Ht. apply andb_prop in Ht as [Hu Hd]. destruct (usable_crit _ Hu) as (cr & Ec).
    rewrite Hw. destruct (skipn_S_nth _ _ _ _ Hw) as [Hn Hw'].
    pose proof (read_sees _ _ _ Hs) as Hrd. unfold rc_read_byte in Hrd. rewrite Hn in Hrd.
    destruct Hrd as (Hb & st' & Er & Hs' & Es & _).
    cbn [mt_matches expand_tree first_branch]. rewrite Ec. cbn [plet].
    rewrite <- (criterion_spec _ _ Ec b Hb).
    apply (lookahead_from _ (if satisfies cr b then expand_tree t' else match acc with Some i => Ret i | None => Fail end) st st' Es).
    2: { cbn [exec]. rewrite Er. cbn [then_]. reflexivity. }
    destruct (satisfies cr b); [|exact (lookahead_stop acc st')].
    apply (expand_spec md w t' (RC (rinput c) (roff c + 1))); auto.
  - apply (expand_spec md _ _ c); auto.
Qed.
(** The lookahead itself: the parser stays where it is. *)
Lemma peek_lookahead t o st : lookahead o (expand_tree t) (set_stk st (LPeek (pcur st) :: pstk st)) ->
  match o with
  | Some i => exec (invoke_tree t) st = (POk i, st)
  | None => exists e st', exec (invoke_tree t) st = (PErr e, st') /\ pstk st' = LPeek (pcur st) :: pstk st
  end.
Proof.
  unfold invoke_tree. cbn [exec p_open_peek then_]. destruct o; cbn [lookahead].
  - intros (st' & E & Es). rewrite E. cbn [then_]. unfold p_close_peek. rewrite Es. cbn [pstk set_stk stack_restore lens_restore then_].
    pose proof (exec_frame _ _ _ _ _ E) as (F1 & F2 & F3). cbn in F1, F2, F3. rewrite F1, F2, F3. destruct st; reflexivity.
  - intros (e & st' & E & Es). rewrite E. cbn [then_]. eauto.
Qed.
Lemma sees_stk md c st stk : sees md c st -> get_limit stk = get_limit (pstk st) -> sees md c (set_stk st stk).
Proof.
  intros (Hm & Hsm & Hv & Hp) Hg. repeat split; auto; try apply Hsm. unfold place in *. cbn [set_stk pcur pbuf pstk pstart].
  unfold current_limit. cbn [set_stk pcur pbuf pstk pstart pmax]. rewrite Hg. exact Hp.
Qed.
Lemma invoke_spec md t c st : sees md c st -> decisive t = true ->
  match tree_matches t c with
  | Some i => exec (invoke_tree t) st = (POk i, st)
  | None => exists e st', exec (invoke_tree t) st = (PErr e, st') /\ pstk st' = LPeek (pcur st) :: pstk st
  end.
Proof.
  intros Hs Hd. apply peek_lookahead. apply (expand_spec md _ t c); auto.
Qed.
Lemma invoke_loop_spec md t c st b w : skipn (roff c) (rinput c) = b :: w -> sees md c st -> loop_tree t = true ->
  match tree_matches t c with
  | Some i => exec (invoke_tree t) st = (POk i, st)
  | None => exists e st', exec (invoke_tree t) st = (PErr e, st') /\ pstk st' = LPeek (pcur st) :: pstk st
  end.
Proof.
  intros Hw Hs Hd. apply peek_lookahead. apply (loop_tree_spec md t c _ b w); auto.
Qed.
