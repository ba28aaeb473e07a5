(** The lookahead trees select the branch that matches. *)
From Verif Require ByteSetModel ByteSetProofs.
From Verif Require Import Base BoundsModel BoundsProofs DataModel NumericModel ValueModel ValueProofs ValueProps FormatModel MatchTreeModel
  DecoderModel FormatSpec FormatInd LookaheadSpec CompileProofs SoundProofs MatchBoundsProofs.
Open Scope nat_scope.

(** ** Unfolding the mutual definition *)

Section Unfold.
Context (m : fmodule).
Notation from_next := (from_next m).
Notation from_slice := (from_slice m).
Notation from_format := (from_format m).
Lemma from_next_S lk fuel n : from_next lk (S fuel) n =
    match n with
    | NEmpty => at_end lk
    | NUnion a b => obind (from_next lk fuel a) (fun t1 => omap (s_union t1) (from_next lk fuel b))
    | NCat f n' => from_format lk fuel f n'
    | NSequence [] n' => from_next lk fuel n'
    | NSequence (f :: fs) n' => from_format lk fuel f (NSequence fs n')
    | NRepeat a n0 => obind (from_next lk fuel n0) (fun t => omap (s_union t) (from_format lk fuel a n))
    | NRepeatBetween min max a n0 =>
      if N.eqb min max then Panic
      else if N.ltb 0 min then if N.eqb max 0 then Panic else from_format lk fuel a (NRepeatBetween (min - 1) (max - 1) a n0)
      else from_next lk fuel (NRepeatMax max a n0)
    | NRepeatMax k a n0 =>
      if N.eqb k 0 then from_next lk fuel n0
      else obind (from_next lk fuel n0) (fun t => omap (s_union t) (from_format lk fuel a (NRepeatMax (k - 1) a n0)))
    | NRepeatCount k a n0 =>
      if N.ltb 0 k then from_format lk fuel a (NRepeatCount (k - 1) a n0) else from_next lk fuel n0
    | NSlice k inside n0 => from_slice lk fuel k inside n0
    | NPeek a b => obind (from_next lk fuel a) (fun t1 => obind (from_next (look_peek lk) fuel b) (peeked lk t1))
    | NPeekNot a b => obind (from_next lk fuel a) (fun t1 => obind (from_next lk fuel b) (fun t2 => approx lk (s_peek_not t1 t2)))
    end.
Proof. reflexivity. Qed.
Lemma from_slice_S lk fuel k inside n : from_slice lk (S fuel) k inside n =
    if N.ltb 0 k then
      omap (fun t =>
        match s_br t with
        | [] => Step false [(ByteSetModel.full, NSlice (k - 1) NEmpty n)]
        | l => Step false (map (fun b => (fst b, NSlice (k - 1) (snd b) n)) l)
        end) (from_next (look_inside lk) fuel inside)
    else from_next lk fuel n.
Proof. reflexivity. Qed.
Lemma from_format_S lk fuel f n : from_format lk (S fuel) f n =
    let from_repeat_count k a n := if N.ltb 0 k then from_format lk fuel a (NRepeatCount (k - 1) a n) else from_next lk fuel n in
    match f with
    | FItemVar level _ _ => match get_item m level with Some it => from_format lk fuel (it_format it) n | None => Panic end
    | FPhantom _ => approx_weak lk s_accept
    | FFail => Val s_reject
    | FEndOfInput => Val s_accept
    | FSkipRemainder => approx_weak lk s_accept
    | FAlign k => if N.eqb k 0 then Panic else if N.eqb k 1 then from_next lk fuel n else approx_weak lk s_accept
    | FDecodeBytes _ _ | FParseFromView _ _ => from_next lk fuel n
    | FByte bs => Val (s_branch bs n)
    | FVariant _ g => from_format lk fuel g n
    | FUnion fs | FUnionNondet fs =>
      ofoldM (fun t g => omap (s_union t) (from_format lk fuel g n)) s_reject fs
    | FSequence fs | FTuple fs =>
      match fs with
      | [] => from_next lk fuel n
      | g :: gs => from_format lk fuel g (NSequence gs n)
      end
    | FRepeat a => obind (from_next lk fuel n) (fun t => omap (s_union t) (from_format lk fuel a (NRepeat a n)))
    | FForEach _ _ a =>
      obind (from_next lk fuel n) (fun t => obind (match_bounds (item_bounds m) a) (fun b =>
        if N.eqb (bmin b) 0 then
          match bmax b with
          | Some 0%N => approx lk t
          | _ => approx_weak lk s_accept
          end
        else omap (s_union t) (from_format lk fuel a (NRepeat a n))))
    | FRepeat1 a => from_format lk fuel a (NRepeat a n)
    | FRepeatCount e a =>
      obind (known lk e) (fun b =>
        match as_exact b with
        | Some k => from_repeat_count k a n
        | None => obind (from_repeat_count (bmin b) a NEmpty) (approx_weak lk)
        end)
    | FRepeatBetween e1 e2 a =>
      obind (known lk e1) (fun b1 => obind (known lk e2) (fun b2 =>
        match as_exact b1, as_exact b2 with
        | Some min, Some max =>
          match N.compare min max with
          | Lt => if N.ltb 0 min then from_format lk fuel a (NRepeatBetween (min - 1) (max - 1) a n)
                  else from_next lk fuel (NRepeatMax max a n)
          | Eq => from_repeat_count min a n
          | Gt => Panic
          end
        | _, _ => Panic
        end))
    | FRepeatUntilLast _ _ | FRepeatUntilSeq _ _ | FAccumUntil _ _ _ _ _ => approx_weak lk s_accept
    | FMaybe _ a => obind (from_format lk fuel a n) (fun t => omap (s_union t) (from_next lk fuel n))
    | FPeek a => obind (from_next lk fuel n) (fun t => obind (from_format (look_peek lk) fuel a NEmpty) (peeked lk t))
    | FPeekNot a => obind (from_next lk fuel n) (fun t => obind (from_format lk fuel a NEmpty) (fun p => approx lk (s_peek_not t p)))
    | FSlice e a =>
      obind (known lk e) (fun b =>
        match as_exact b with
        | Some k => from_slice lk fuel k (NCat a NEmpty) n
        | None => obind (from_slice lk fuel (bmin b) (NCat a NEmpty) NEmpty) (approx lk)
        end)
    | FBits _ | FWithRelativeOffset _ _ _ => approx_weak lk s_accept
    | FMap g _ | FWhere g _ _ => from_format lk fuel g n
    | FPos | FCompute _ => from_next lk fuel n
    | FLet _ _ g | FLetView _ g => from_format lk fuel g n
    | FPermit g _ => from_format lk fuel g n
    | FMatch _ bs =>
      ofoldM (fun t (b : pattern * format) => omap (s_union t) (from_format lk fuel (snd b) n)) s_reject bs
    | FDynamic _ _ g => from_format lk fuel g n
    | FApply _ => approx_weak lk s_accept
    | FMonadSeq g h | FLetFormat g _ h => from_format lk fuel g (NCat h n)
    | FHint g => from_format lk fuel g n
    | FLiftedOption None => from_next lk fuel n
    | FLiftedOption (Some g) => from_format lk fuel g n
    | FWithView _ _ => from_next lk fuel n
    end.
Proof. reflexivity. Qed.
End Unfold.

(** ** Byte sets and branches *)

Lemma empty_contains bs b : ByteSetModel.is_empty bs = true -> ByteSetModel.contains bs b = false.
Proof.
  intros H. apply ByteSetProofs.eqb_eq in H. subst. apply ByteSetProofs.contains_empty.
Qed.
Notation contains := ByteSetModel.contains.

Section Branches.
Context {T : Type} (upd : T -> T).
Lemma add_old l bs fresh b bs0 t0 : (b < 256)%N -> In (bs0, t0) l -> contains bs0 b = true ->
  exists bs1 t1, In (bs1, t1) (add_branch upd l bs fresh) /\ contains bs1 b = true /\ (t1 = t0 \/ t1 = upd t0).
Proof.
  intros Hb Hin Hc. unfold add_branch.
  assert (H : forall l bs, In (bs0, t0) l -> let '(l', bs', ex) := split_loop upd l bs in
    exists bs1 t1, (In (bs1, t1) l' \/ In (bs1, t1) ex) /\ contains bs1 b = true /\ (t1 = t0 \/ t1 = upd t0)).
  { clear l bs Hin. induction l as [|[bs2 t2] l IH]; intros bs Hin; [destruct Hin|]. cbn [split_loop].
    destruct Hin as [[= -> ->]|Hin].
    - destruct (ByteSetModel.is_empty (ByteSetModel.intersection bs0 bs)) eqn:E.
      + destruct (split_loop upd l bs) as [[l' bs'] ex]. exists bs0, t0. split; [left; now left|auto].
      + destruct (split_loop upd l _) as [[l' bs'] ex]. destruct (contains bs b) eqn:Eb.
        * exists (ByteSetModel.intersection bs0 bs), (upd t0). split; [left; now left|].
          rewrite ByteSetProofs.contains_intersection, Hc, Eb. auto.
        * assert (Hd : contains (ByteSetModel.difference bs0 bs) b = true) by (rewrite ByteSetProofs.contains_difference, Hc, Eb by auto; reflexivity).
          destruct (ByteSetModel.is_empty (ByteSetModel.difference bs0 bs)) eqn:Ee; [rewrite (empty_contains _ b Ee) in Hd; discriminate|].
          exists (ByteSetModel.difference bs0 bs), t0. split; [right; now left|auto].
    - destruct (ByteSetModel.is_empty (ByteSetModel.intersection bs2 bs)).
      + specialize (IH bs Hin). destruct (split_loop upd l bs) as [[l' bs'] ex].
        destruct IH as (bs1 & t1 & [H|H] & H'); exists bs1, t1; (split; [|exact H']); [left; now right|now right].
      + specialize (IH (ByteSetModel.difference bs (ByteSetModel.intersection bs2 bs)) Hin).
        destruct (split_loop upd l _) as [[l' bs'] ex].
        destruct IH as (bs1 & t1 & [H|H] & H'); exists bs1, t1; (split; [|exact H']); [left; now right|right].
        destruct (ByteSetModel.is_empty _); [auto|now right]. }
  specialize (H l bs Hin). destruct (split_loop upd l bs) as [[l' bs'] ex].
  destruct H as (bs1 & t1 & H & H'). exists bs1, t1. split; [|exact H']. rewrite !in_app_iff. tauto.
Qed.
Lemma add_new l bs fresh b : (b < 256)%N -> contains bs b = true ->
  exists bs1 t1, In (bs1, t1) (add_branch upd l bs fresh) /\ contains bs1 b = true /\ (t1 = fresh \/ exists t0, t1 = upd t0).
Proof.
  intros Hb Hc. unfold add_branch.
  assert (H : forall l bs, contains bs b = true -> let '(l', bs', ex) := split_loop upd l bs in
    contains bs' b = true \/ exists bs1 t0, In (bs1, upd t0) l' /\ contains bs1 b = true).
  { clear l bs Hc. induction l as [|[bs2 t2] l IH]; intros bs Hc; cbn [split_loop]; [now left|].
    destruct (ByteSetModel.is_empty (ByteSetModel.intersection bs2 bs)) eqn:E.
    - specialize (IH bs Hc). destruct (split_loop upd l bs) as [[l' bs'] ex].
      destruct IH as [H|(bs1 & t0 & H & H')]; [now left|right]. exists bs1, t0. split; [now right|auto].
    - destruct (contains bs2 b) eqn:E2.
      + destruct (split_loop upd l _) as [[l' bs'] ex]. right. exists (ByteSetModel.intersection bs2 bs), t2.
        split; [now left|]. now rewrite ByteSetProofs.contains_intersection, E2, Hc.
      + assert (Hd : contains (ByteSetModel.difference bs (ByteSetModel.intersection bs2 bs)) b = true)
          by (rewrite ByteSetProofs.contains_difference, ByteSetProofs.contains_intersection, E2, Hc by auto; reflexivity).
        specialize (IH _ Hd). destruct (split_loop upd l _) as [[l' bs'] ex].
        destruct IH as [H|(bs1 & t0 & H & H')]; [now left|right]. exists bs1, t0. split; [now right|auto]. }
  specialize (H l bs Hc). destruct (split_loop upd l bs) as [[l' bs'] ex].
  destruct H as [H|(bs1 & t0 & H & H')].
  - exists bs', fresh. split; [|auto]. rewrite !in_app_iff. right. left.
    destruct (ByteSetModel.is_empty bs') eqn:E; [rewrite (empty_contains _ b E) in H; discriminate|now left].
  - exists bs1, (upd t0). split; [|eauto]. rewrite !in_app_iff. now left.
Qed.

(** What is attached to a byte, when the sets are disjoint. *)
Definition at_byte (l : list (byteset * T)) (b : N) : list T := map snd (filter (fun p => contains (fst p) b) l).
Lemma at_byte_app l l' b : at_byte (l ++ l') b = at_byte l b ++ at_byte l' b.
Proof. unfold at_byte. now rewrite filter_app, map_app. Qed.
Lemma at_byte_cons bs t l b : at_byte ((bs, t) :: l) b = (if contains bs b then [t] else []) ++ at_byte l b.
Proof. unfold at_byte. cbn [filter fst]. destruct (contains bs b); reflexivity. Qed.
Lemma at_byte_in l b bs t : In (bs, t) l -> contains bs b = true -> In t (at_byte l b).
Proof. intros H Hc. unfold at_byte. apply in_map_iff. exists (bs, t). split; [reflexivity|]. now apply filter_In. Qed.
Lemma split_at_byte b : (b < 256)%N -> forall l bs, let '(l', bs', ex) := split_loop upd l bs in
  length (at_byte l b) <= 1 ->
  if contains bs b then
    match at_byte l b with
    | [] => at_byte l' b = [] /\ at_byte ex b = [] /\ contains bs' b = true
    | t :: _ => at_byte l' b = [upd t] /\ at_byte ex b = [] /\ contains bs' b = false
    end
  else at_byte l' b ++ at_byte ex b = at_byte l b /\ contains bs' b = false.
Proof.
  intros Hb. induction l as [|[bs2 t2] l IH]; intros bs; cbn [split_loop].
  - intros _. destruct (contains bs b) eqn:E; cbn; auto.
  - destruct (ByteSetModel.is_empty (ByteSetModel.intersection bs2 bs)) eqn:E.
    + specialize (IH bs). destruct (split_loop upd l bs) as [[l' bs'] ex].
      pose proof (empty_contains _ b E) as Ei. rewrite ByteSetProofs.contains_intersection in Ei.
      rewrite !at_byte_cons. intros Hl. destruct (contains bs2 b) eqn:E2; cbn [app length] in *.
      * rewrite andb_true_l in Ei. rewrite Ei in *. destruct IH as [I1 I2]; [lia|]. now rewrite I1.
      * now apply IH.
    + specialize (IH (ByteSetModel.difference bs (ByteSetModel.intersection bs2 bs))).
      destruct (split_loop upd l _) as [[l' bs'] ex].
      rewrite ByteSetProofs.contains_difference, ByteSetProofs.contains_intersection in IH by auto.
      assert (Hex : at_byte (if ByteSetModel.is_empty (ByteSetModel.difference bs2 bs) then ex else (ByteSetModel.difference bs2 bs, t2) :: ex) b
        = (if contains bs2 b && negb (contains bs b) then [t2] else []) ++ at_byte ex b).
      { destruct (ByteSetModel.is_empty (ByteSetModel.difference bs2 bs)) eqn:Ed.
        - pose proof (empty_contains _ b Ed) as H. rewrite ByteSetProofs.contains_difference in H by auto. now rewrite H.
        - rewrite at_byte_cons, ByteSetProofs.contains_difference by auto. reflexivity. }
      rewrite Hex. rewrite !at_byte_cons, ByteSetProofs.contains_intersection. intros Hl.
      destruct (contains bs2 b) eqn:E2, (contains bs b) eqn:Eb; cbn [app length andb negb] in *.
      * assert (Hn : at_byte l b = []) by (destruct (at_byte l b); [reflexivity|cbn in Hl; lia]).
        rewrite Hn in *. destruct IH as [I1 I2]; [cbn; lia|]. apply app_eq_nil in I1 as [I1 I1'].
        rewrite I1, I1'. auto.
      * assert (Hn : at_byte l b = []) by (destruct (at_byte l b); [reflexivity|cbn in Hl; lia]).
        rewrite Hn in *. destruct IH as [I1 I2]; [cbn; lia|]. apply app_eq_nil in I1 as [I1 I1'].
        rewrite I1, I1'. auto.
      * apply IH. exact Hl.
      * apply IH. exact Hl.
Qed.
Lemma add_at_byte l bs fresh b : (b < 256)%N -> length (at_byte l b) <= 1 ->
  at_byte (add_branch upd l bs fresh) b =
  if contains bs b then match at_byte l b with [] => [fresh] | t :: _ => [upd t] end else at_byte l b.
Proof.
  intros Hb Hl. unfold add_branch. pose proof (split_at_byte b Hb l bs) as H.
  destruct (split_loop upd l bs) as [[l' bs'] ex]. specialize (H Hl). rewrite !at_byte_app.
  assert (Hf : at_byte (if ByteSetModel.is_empty bs' then [] else [(bs', fresh)]) b = if contains bs' b then [fresh] else []).
  { destruct (ByteSetModel.is_empty bs') eqn:E; [now rewrite (empty_contains _ b E)|].
    rewrite at_byte_cons. destruct (contains bs' b); reflexivity. }
  rewrite Hf. destruct (contains bs b).
  - destruct (at_byte l b) as [|t r]; destruct H as (H1 & H2 & H3); rewrite H1, H2, H3; reflexivity.
  - destruct H as (H1 & H2). rewrite H2. cbn [app]. exact H1.
Qed.
End Branches.

(** ** Lookahead covers what matches *)

Definition all_bytes (buf : list N) : Prop := Forall (fun b => (b < 256)%N) buf.
Lemma all_bytes_firstn n buf : all_bytes buf -> all_bytes (firstn n buf).
Proof.
  intros H. unfold all_bytes in *. rewrite Forall_forall in *. intros x Hx. apply H.
  rewrite <- (firstn_skipn n buf). apply in_or_app. now left.
Qed.
Lemma all_bytes_nth buf p b : all_bytes buf -> nth_error buf p = Some b -> (b < 256)%N.
Proof. intros H Hn. unfold all_bytes in H. rewrite Forall_forall in H. apply H. eapply nth_error_In; eauto. Qed.

Section Over.
Context (m : fmodule).
Notation matched := (matched m).
Notation matched_seq := (matched_seq m).
Notation follows := (follows m).

Definition mode (lk : look) (o : bool) : Prop :=
  match lk with LReal => False | LExact => o = false | LOpen | LWeak => o = true end.
(** A step covers the position [p] of [buf]: it accepts at the end of input (or
    anywhere, in the weak mode), or has a branch that does. *)
Definition overs (lk : look) (o : bool) (st : step) (buf : list N) (p : nat) : Prop :=
  (s_acc st = true /\ (lk = LWeak \/ length buf <= p)) \/
  exists b bs n, nth_error buf p = Some b /\ In (bs, n) (s_br st) /\ contains bs b = true /\ follows o n buf (S p).

Lemma union_branch_acc s b : s_acc (union_branch s b) = s_acc s. Proof. reflexivity. Qed.
Lemma fold_union_acc l : forall s, s_acc (fold_left union_branch l s) = s_acc s.
Proof. induction l as [|b l IH]; intros s; cbn; [reflexivity|]. now rewrite IH. Qed.
Lemma union_branch_l lk o s b buf p : all_bytes buf -> overs lk o s buf p -> overs lk o (union_branch s b) buf p.
Proof.
  intros Hbuf [H|(x & bs & n & Hx & Hin & Hc & Hf)]; [now left|right].
  destruct (add_old (fun n0 => NUnion n0 (snd b)) (s_br s) (fst b) (snd b) x bs n) as (bs1 & n1 & H1 & H2 & H3); eauto using all_bytes_nth.
  exists x, bs1, n1. repeat split; auto. destruct H3 as [-> | ->]; [auto|]. cbn. now left.
Qed.
Lemma fold_union_l lk o l buf p : all_bytes buf -> forall s, overs lk o s buf p -> overs lk o (fold_left union_branch l s) buf p.
Proof. intros Hb. induction l as [|b l IH]; intros s H; cbn; [exact H|]. apply IH. now apply union_branch_l. Qed.
Lemma union_l lk o s s' buf p : all_bytes buf -> overs lk o s buf p -> overs lk o (s_union s s') buf p.
Proof.
  intros Hb H. unfold s_union. apply fold_union_l; [exact Hb|].
  destruct H as [(H & H')|H]; [left; cbn; rewrite H; auto|right; exact H].
Qed.
Lemma fold_union_r lk o l buf p : all_bytes buf -> forall s,
  (exists b bs n, nth_error buf p = Some b /\ In (bs, n) l /\ contains bs b = true /\ follows o n buf (S p)) ->
  overs lk o (fold_left union_branch l s) buf p.
Proof.
  intros Hb. induction l as [|[bs0 n0] l IH]; intros s (b & bs & n & Hx & Hin & Hc & Hf); [destruct Hin|]. cbn [fold_left].
  destruct Hin as [[= -> ->]|Hin]; [|apply IH; now exists b, bs, n].
  apply fold_union_l; [exact Hb|]. right.
  destruct (add_new (fun n0 => NUnion n0 n) (s_br s) bs n b) as (bs1 & n1 & H1 & H2 & H3); eauto using all_bytes_nth.
  exists b, bs1, n1. repeat split; auto. destruct H3 as [-> | (t0 & ->)]; [auto|]. cbn. now right.
Qed.
Lemma union_r lk o s s' buf p : all_bytes buf -> overs lk o s' buf p -> overs lk o (s_union s s') buf p.
Proof.
  intros Hb [(H & H')|H].
  - left. unfold s_union. rewrite fold_union_acc. cbn. rewrite H, orb_true_r. auto.
  - apply fold_union_r; auto.
Qed.
Lemma ofold_union {A} (F : A -> outcome step) lk o buf p : all_bytes buf -> forall l t0 st,
  ofoldM (fun t g => omap (s_union t) (F g)) t0 l = Val st ->
  (overs lk o t0 buf p \/ exists g, In g l /\ forall sg, F g = Val sg -> overs lk o sg buf p) -> overs lk o st buf p.
Proof.
  intros Hb. induction l as [|g l IH]; intros t0 st H Ho; cbn [ofoldM] in H.
  - injection H as <-. destruct Ho as [Ho|(g & [] & _)]. exact Ho.
  - destruct (F g) as [sg|] eqn:E; cbn in H; [|discriminate]. apply (IH _ _ H).
    destruct Ho as [Ho|(g' & [->|Hin] & Hg)].
    + left. now apply union_l.
    + left. apply union_r; auto.
    + right. eauto.
Qed.

Lemma matched_seq_chain s buf fs i j vs : Chain (fun f i j v => Sem m true s f buf i j v) fs i j vs -> matched_seq fs buf i j.
Proof. induction 1 as [|f l i j k v vs H C IH]; cbn; [reflexivity|]. exists j. split; [now exists s, v|exact IH]. Qed.
Lemma matched_seq_foreach s x f buf l i j vs : Chain (fun v0 i j v => Sem m true (SSingle s x v0) f buf i j v) l i j vs ->
  matched_seq (repeat f (length l)) buf i j.
Proof. induction 1 as [|v0 l i j k v vs H C IH]; cbn; [reflexivity|]. exists j. split; [now exists (SSingle s x v0), v|exact IH]. Qed.

Lemma no_bitopsb_spec e : no_bitopsb e = true -> no_bitops e.
Proof.
  induction e; cbn; auto.
  destruct op; cbn; try discriminate; rewrite andb_true_iff; intros [? ?]; repeat split; auto; discriminate.
Qed.
Lemma no_bitops_trusted e : no_bitops e -> trusted e.
Proof.
  intros He D s n b Hn Hb.
  assert (Hv : evaluates_to e s n).
  { unfold eval_usize, eval_value, evaluates_to in *. destruct (eval e s) as [v|]; [|discriminate]. exists v. auto. }
  destruct (C06_arithmetic e s n b He Hv Hb) as [H1 H2]. split; [exact H1|].
  destruct (bmax b) as [mx|]; [now apply H2|exact I].
Qed.
Lemma known_sound lk o e b {D} (s : scope D) n : mode lk o -> known lk e = Val b -> eval_usize e s = Val n -> within b n.
Proof.
  intros Hm Hk Hn. assert (Hk' : (if no_bitopsb e then expr_bounds e else Panic) = Val b) by (destruct lk; [destruct Hm|exact Hk..]).
  destruct (no_bitopsb e) eqn:E; [|discriminate]. eapply no_bitops_trusted; eauto using no_bitopsb_spec.
Qed.
Lemma as_exact_within b k n : as_exact b = Some k -> within b n -> n = k.
Proof.
  unfold as_exact. intros H [H1 H2]. destruct (bmax b) as [mx|]; [|discriminate].
  destruct (N.eqb_spec mx (bmin b)); [|discriminate]. injection H as <-. lia.
Qed.
Lemma matched_cut f a b buf i j : a <= b -> matched_seq (repeat f b) buf i j ->
  exists k, matched_seq (repeat f a) buf i k /\ matched_seq (repeat f (b - a)) buf k j.
Proof.
  revert b i. induction a as [|a IH]; intros b i Hab H.
  - exists i. rewrite Nat.sub_0_r. now split.
  - destruct b as [|b]; [lia|]. cbn in H. destruct H as (k & H1 & H2).
    destruct (IH b k) as (k2 & H3 & H4); [lia|auto|]. exists k2. cbn. split; [eauto|exact H4].
Qed.

Definition next_ok (fuel : nat) : Prop := forall lk o n st buf p, mode lk o -> all_bytes buf ->
  from_next m lk fuel n = Val st -> follows o n buf p -> overs lk o st buf p.
Definition slice_ok (fuel : nat) : Prop := forall lk o k inside n st buf p, mode lk o -> all_bytes buf ->
  from_slice m lk fuel k inside n = Val st -> follows o (NSlice k inside n) buf p -> overs lk o st buf p.
Definition format_ok (fuel : nat) : Prop := forall lk o f n st buf p j, mode lk o -> all_bytes buf ->
  from_format m lk fuel f n = Val st -> matched f buf p j -> follows o n buf j -> overs lk o st buf p.

Lemma mode_inside lk o : mode lk o -> look_inside lk = LExact. Proof. destruct lk; cbn; tauto. Qed.
Lemma mode_peek lk o : mode lk o -> look_peek lk = LWeak. Proof. destruct lk; cbn; tauto. Qed.
Lemma mode_approx {lk o s st} : mode lk o -> approx lk s = Val st -> False. Proof. destruct lk; cbn; try discriminate; tauto. Qed.
Lemma mode_approx_weak lk o s st : mode lk o -> approx_weak lk s = Val st -> lk = LWeak /\ o = true /\ s = st.
Proof. destruct lk; cbn; try discriminate; try tauto. intros -> [= ->]. auto. Qed.
Lemma accept_weak lk o buf p st : mode lk o -> approx_weak lk s_accept = Val st -> overs lk o st buf p.
Proof. intros Hm H. destruct (mode_approx_weak _ _ _ _ Hm H) as (-> & _ & <-). left. cbn. auto. Qed.

Lemma peek_over lk o t1 t2 st buf p : mode lk o -> all_bytes buf -> overs lk o t1 buf p -> overs LWeak true t2 buf p ->
  peeked lk t1 t2 = Val st -> overs lk o st buf p.
Proof.
  intros Hm Hb H1 H2 H. unfold peeked in H.
  assert (Hst : st = s_peek t1 t2 /\ (o = false -> s_acc t1 = true -> s_acc t2 = true)).
  { destruct lk; cbn in Hm; [destruct Hm| |subst; split; [congruence|discriminate]..].
    destruct (s_acc t1 && negb (s_acc t2)) eqn:E; [discriminate|]. injection H as <-. split; [reflexivity|].
    intros _ E1. rewrite E1 in E. destruct (s_acc t2); [reflexivity|discriminate]. }
  destruct Hst as [-> Hacc]. unfold s_peek. destruct (s_acc t2) eqn:E2; [exact H1|].
  destruct H2 as [(H2 & _)|(b2 & bs2 & n2 & Hb2 & Hin2 & Hc2 & Hf2)]; [congruence|].
  destruct (s_acc t1) eqn:E1.
  - destruct o; [|specialize (Hacc eq_refl eq_refl); discriminate]. right. exists b2, bs2, n2. auto.
  - destruct H1 as [(H1 & _)|(b1 & bs1 & n1 & Hb1 & Hin1 & Hc1 & Hf1)]; [congruence|].
    rewrite Hb1 in Hb2. injection Hb2 as <-. right. exists b1, (ByteSetModel.intersection bs1 bs2), (NPeek n1 n2).
    assert (Hci : contains (ByteSetModel.intersection bs1 bs2) b1 = true) by now rewrite ByteSetProofs.contains_intersection, Hc1, Hc2.
    repeat split; auto. cbn [s_br]. apply in_flat_map. exists (bs1, n1). split; [exact Hin1|].
    apply in_flat_map. exists (bs2, n2). split; [exact Hin2|]. cbn [fst snd].
    destruct (ByteSetModel.is_empty _) eqn:Ee; [rewrite (empty_contains _ b1 Ee) in Hci; discriminate|now left].
Qed.

Lemma nth_firstn_lt {A} (l : list A) n p x : nth_error (firstn n l) p = Some x -> nth_error l p = Some x.
Proof.
  intros H. rewrite <- (firstn_skipn n l). rewrite nth_error_app1; [exact H|]. apply nth_error_Some. congruence.
Qed.
Lemma slice_step fuel : next_ok fuel -> slice_ok (S fuel).
Proof.
  intros IHn lk o k inside n st buf p Hm Hb H (Hl & Hi & Hf). rewrite from_slice_S in H.
  rewrite (mode_inside _ _ Hm) in H. destruct (N.ltb_spec 0 k) as [Hk|Hk].
  - destruct (from_next m LExact fuel inside) as [t|] eqn:E; cbn [omap obind] in H; [|discriminate].
    pose proof (IHn LExact false inside t _ _ eq_refl (all_bytes_firstn _ _ Hb) E Hi) as Ho.
    destruct Ho as [(_ & [Hd|Hend])|(b & bs & n' & Hx & Hin & Hc & Hf')]; [discriminate Hd| |].
    + rewrite firstn_length in Hend. lia.
    + right. exists b, bs, (NSlice (k - 1) n' n). injection H as <-.
      split; [now apply nth_firstn_lt in Hx|]. split; [|split; [exact Hc|]].
      * destruct (s_br t) as [|b0 l] eqn:El; [destruct Hin|]. 
        exact (List.in_map (fun b : byteset * next => (fst b, NSlice (k - 1) (snd b) n)) _ _ Hin).
      * cbn [LookaheadSpec.follows]. replace (S p + N.to_nat (k - 1)) with (p + N.to_nat k) by lia. auto.
  - assert (k = 0%N) by lia. subst k. cbn in Hf. rewrite Nat.add_0_r in Hf. eapply IHn; eauto.
Qed.

Lemma next_step fuel : next_ok fuel -> slice_ok fuel -> format_ok fuel -> next_ok (S fuel).
Proof.
  intros IHn IHs IHf lk o n st buf p Hm Hb H Hf. rewrite from_next_S in H. destruct n; cbn [LookaheadSpec.follows] in Hf.
  - unfold at_end in H. destruct lk; cbn in Hm; [destruct Hm| |discriminate|]; injection H as <-; left; cbn; subst o.
    + destruct Hf as [|Hf]; [discriminate|auto].
    + auto.
  - destruct (from_next m lk fuel n1) as [t1|] eqn:E1; cbn in H; [|discriminate].
    destruct (from_next m lk fuel n2) as [t2|] eqn:E2; cbn in H; [|discriminate]. injection H as <-.
    destruct Hf as [Hf|Hf]; [apply union_l|apply union_r]; eauto.
  - destruct Hf as (j & Hj & Hf). eapply IHf; eauto.
  - destruct fs as [|f fs]; cbn in Hf.
    + destruct Hf as (j & -> & Hf). eapply IHn; eauto.
    + destruct Hf as (j & (k & H1 & H2) & Hf). eapply IHf; eauto. cbn. eauto.
  - destruct (from_next m lk fuel n) as [t1|] eqn:E1; cbn in H; [|discriminate].
    destruct (from_format m lk fuel f _) as [t2|] eqn:E2; cbn in H; [|discriminate]. injection H as <-.
    destruct Hf as ([|c] & j & Hc & Hf); cbn in Hc.
    + subst. apply union_l; eauto.
    + destruct Hc as (k & H1 & H2). apply union_r; [auto|]. eapply IHf; eauto. cbn. eauto.
  - destruct Hf as (j & Hc & Hf). destruct (N.ltb_spec 0 k).
    + replace (N.to_nat k) with (S (N.to_nat (k - 1))) in Hc by lia. cbn in Hc. destruct Hc as (i & H1 & H2).
      eapply IHf; eauto. cbn. eauto.
    + replace (N.to_nat k) with 0 in Hc by lia. cbn in Hc. subst. eauto.
  - destruct Hf as (c & j & Hle & Hc & Hf). destruct (N.eqb_spec k 0).
    + assert (c = 0) by lia. subst. cbn in Hc. subst. eauto.
    + destruct (from_next m lk fuel n) as [t1|] eqn:E1; cbn in H; [|discriminate].
      destruct (from_format m lk fuel f _) as [t2|] eqn:E2; cbn in H; [|discriminate]. injection H as <-.
      destruct c as [|c]; cbn in Hc.
      * subst. apply union_l; eauto.
      * destruct Hc as (i & H1 & H2). apply union_r; [auto|]. eapply IHf; eauto. cbn. exists c, j. repeat split; auto. lia.
  - destruct Hf as (c & j & Hle & Hc & Hf). destruct (N.eqb_spec k m0); [discriminate|].
    destruct (N.ltb_spec 0 k).
    + destruct (N.eqb_spec m0 0); [discriminate|]. destruct c as [|c]; [lia|]. cbn in Hc. destruct Hc as (i & H1 & H2).
      eapply IHf; eauto. cbn. exists c, j. repeat split; auto; lia.
    + eapply IHn; eauto. cbn. exists c, j. repeat split; auto. lia.
  - eapply IHs; eauto.
  - destruct Hf as [Hf1 Hf2]. destruct (from_next m lk fuel n1) as [t1|] eqn:E1; cbn [obind] in H; [|discriminate].
    rewrite (mode_peek _ _ Hm) in H. destruct (from_next m LWeak fuel n2) as [t2|] eqn:E2; cbn [obind] in H; [|discriminate].
    eapply peek_over; eauto. eapply IHn; eauto. reflexivity.
  - destruct (from_next m lk fuel n1) as [t1|] eqn:E1; cbn [obind] in H; [|discriminate].
    destruct (from_next m lk fuel n2) as [t2|] eqn:E2; cbn [obind] in H; [|discriminate].
    destruct (mode_approx Hm H).
Qed.


Lemma format_step fuel : next_ok fuel -> slice_ok fuel -> format_ok fuel -> format_ok (S fuel).
Proof.
  intros IHn IHs IHf lk o f n st buf p j Hm Hb H Hj Hf. rewrite from_format_S in H. cbv zeta in H.
  assert (Hmk : forall f' i' j' s' v', Sem m true s' f' buf i' j' v' -> matched f' buf i' j') by (intros; eexists _, _; eauto).
  destruct f; try (eapply accept_weak; eauto; fail);
    try (destruct Hj as (s & v & Hj); inversion Hj; subst; clear Hj; eapply IHn; eauto; fail);
    try (destruct Hj as (s & v & Hj); inversion Hj; subst; clear Hj; eapply IHf; eauto; fail).
  - destruct Hj as (s & v & Hj); inversion Hj; subst; clear Hj.
    match goal with Hg : get_item m level = _ |- _ => rewrite Hg in H end. eapply IHf; eauto.
  - destruct Hj as (s & v & Hj); inversion Hj; subst. injection H as <-. left. cbn. auto.
  - destruct Hj as (s & v & Hj); inversion Hj; subst; clear Hj.
    destruct (N.eqb_spec n0 0); [discriminate|]. destruct (N.eqb_spec n0 1); [|eapply accept_weak; eauto].
    replace j with p in * by lia. eapply IHn; eauto.
  - destruct Hj as (s & v & Hj); inversion Hj; subst; clear Hj. injection H as <-. right. exists b, bs, n. cbn. auto.
  - destruct Hj as (s & v & Hj); inversion Hj; subst; clear Hj. apply (ofold_union (fun g => from_format m lk fuel g n) lk o buf p Hb _ _ _ H). right.
    match goal with Hn : nth_error fs _ = Some ?g |- _ => exists g; split; [eapply nth_error_In; eauto|] end.
    intros sg Esg. eapply IHf; eauto.
  - destruct Hj as (s & v & Hj); inversion Hj; subst. discriminate.
  - destruct Hj as (s & v & Hj); inversion Hj; subst; clear Hj.
    match goal with Hc : Chain _ _ _ _ _ |- _ => apply matched_seq_chain in Hc; rename Hc into Hch end.
    destruct fs as [|g gs]; cbn in Hch; [subst; eapply IHn; eauto|]. destruct Hch as (k & H1 & H2).
    eapply IHf; eauto. cbn. eauto.
  - destruct Hj as (s & v & Hj); inversion Hj; subst; clear Hj.
    match goal with Hc : Chain _ _ _ _ _ |- _ => apply matched_seq_chain in Hc; rename Hc into Hch end.
    destruct fs as [|g gs]; cbn in Hch; [subst; eapply IHn; eauto|]. destruct Hch as (k & H1 & H2).
    eapply IHf; eauto. cbn. eauto.
  - destruct Hj as (s & v & Hj); inversion Hj; subst; clear Hj.
    match goal with Hc : Chain _ _ _ _ _ |- _ => apply matched_seq_chain in Hc; rename Hc into Hch end.
    destruct (from_next m lk fuel n) as [t1|] eqn:E1; cbn in H; [|discriminate].
    destruct (from_format m lk fuel f _) as [t2|] eqn:E2; cbn in H; [|discriminate]. injection H as <-.
    match goal with Hc : matched_seq (repeat f ?c) _ _ _ |- _ => destruct c as [|c]; cbn in Hc end.
    + subst. apply union_l; eauto.
    + destruct Hch as (k & H1 & H2). apply union_r; [auto|]. eapply IHf; eauto. cbn. eauto.
  - destruct Hj as (s & v & Hj); inversion Hj; subst; clear Hj.
    match goal with Hc : Chain _ _ _ _ _ |- _ => apply matched_seq_chain in Hc; rename Hc into Hch end.
    cbn in Hch. destruct Hch as (k & H1 & H2). eapply IHf; eauto. cbn. eauto.
  - destruct Hj as (s & v & Hj); inversion Hj; subst; clear Hj.
    match goal with Hc : Chain _ _ _ _ _ |- _ => apply matched_seq_chain in Hc; rename Hc into Hch end.
    destruct (known lk e) as [b|] eqn:Ek; cbn [obind] in H; [|discriminate].
    match goal with He : eval_usize e s = Val _ |- _ => pose proof (known_sound lk o e b s _ Hm Ek He) as Hw end.
    destruct (as_exact b) as [k|] eqn:Ea.
    + apply (as_exact_within b k) in Hw; [subst k|exact Ea]. destruct (N.ltb_spec 0 n0).
      * replace (N.to_nat n0) with (S (N.to_nat (n0 - 1))) in Hch by lia. cbn in Hch. destruct Hch as (i & H1 & H2).
        eapply IHf; eauto. cbn. eauto.
      * replace (N.to_nat n0) with 0 in Hch by lia. cbn in Hch. subst. eauto.
    + destruct (if (0 <? bmin b)%N then _ else _) as [st'|] eqn:Es; cbn [obind] in H; [|discriminate].
      destruct (mode_approx_weak _ _ _ _ Hm H) as (-> & -> & ->).
      destruct Hw as [Hw _]. apply (matched_cut f (N.to_nat (bmin b))) in Hch as (k & H1 & H2); [|lia].
      destruct (N.ltb_spec 0 (bmin b)).
      * replace (N.to_nat (bmin b)) with (S (N.to_nat (bmin b - 1))) in H1 by lia. cbn in H1. destruct H1 as (i & H1 & H3x).
        eapply IHf; eauto. cbn. eauto.
      * eapply IHn; eauto. cbn. auto.
  - destruct Hj as (s & v & Hj); inversion Hj; subst. discriminate.
  - destruct Hj as (s & v & Hj); inversion Hj; subst; clear Hj.
    match goal with Hc : Chain _ _ _ _ _ |- _ => apply matched_seq_foreach in Hc; rename Hc into Hch end.
    destruct (from_next m lk fuel n) as [t1|] eqn:E1; cbn [obind] in H; [|discriminate].
    destruct (match_bounds _ f) as [b|]; cbn [obind] in H; [|discriminate].
    destruct (N.eqb (bmin b) 0).
    + destruct (bmax b) as [[|?]|]; [destruct (mode_approx Hm H)|eapply accept_weak; eauto..].
    + destruct (from_format m lk fuel f _) as [t2|] eqn:E2; cbn in H; [|discriminate]. injection H as <-.
      match goal with Hc : matched_seq (repeat f (length ?l0)) _ _ _ |- _ => generalize dependent (length l0); intros c Hch; destruct c as [|c]; cbn in Hch end.
      * subst. apply union_l; eauto.
      * destruct Hch as (k & H1 & H2). apply union_r; [auto|]. eapply IHf; eauto. cbn. eauto.
  - destruct (from_format m lk fuel f n) as [t1|] eqn:E1; cbn in H; [|discriminate].
    destruct (from_next m lk fuel n) as [t2|] eqn:E2; cbn in H; [|discriminate]. injection H as <-.
    destruct Hj as (s & v & Hj); inversion Hj; subst; clear Hj; [apply union_r|apply union_l]; eauto.
  - destruct Hj as (s & v & Hj); inversion Hj; subst; clear Hj.
    destruct (from_next m lk fuel n) as [t1|] eqn:E1; cbn [obind] in H; [|discriminate].
    rewrite (mode_peek _ _ Hm) in H.
    destruct (from_format m LWeak fuel f NEmpty) as [t2|] eqn:E2; cbn [obind] in H; [|discriminate].
    eapply peek_over; eauto. eapply IHf; eauto; [reflexivity|]. cbn. auto.
  - destruct Hj as (s & v & Hj); inversion Hj; subst. discriminate.
  - destruct Hj as (s & v & Hj); inversion Hj; subst; clear Hj.
    destruct (known lk e) as [b|] eqn:Ek; cbn [obind] in H; [|discriminate].
    match goal with He : eval_usize e s = Val _ |- _ => pose proof (known_sound lk o e b s _ Hm Ek He) as Hw end.
    destruct (as_exact b) as [k|] eqn:Ea.
    + apply (as_exact_within b k) in Hw; [subst k|exact Ea]. eapply IHs; eauto. cbn.
      match goal with Hx : true = true -> _ = _ |- _ => specialize (Hx eq_refl); subst end.
      split; [assumption|]. split; [|exact Hf]. eexists. split; [eexists _, _; eauto|]. right. rewrite firstn_length. lia.
    + destruct (from_slice m lk fuel _ _ _); cbn [obind] in H; [|discriminate]. destruct (mode_approx Hm H).
  - destruct Hj as (s & v & Hj); inversion Hj; subst; clear Hj.
    match goal with Hx : first_match _ _ _ bs = Some _ |- _ => apply first_match_nth in Hx as (nn & pp & _ & Hn & _) end.
    apply (ofold_union (fun b => from_format m lk fuel (snd b) n) lk o buf p Hb _ _ _ H). right. exists (pp, f).
    split; [eapply nth_error_In; eauto|]. cbn. intros sg Esg. eapply IHf; eauto.
  - destruct Hj as (s & v & Hj); inversion Hj; subst; clear Hj. eapply IHf; eauto. cbn. eauto.
  - destruct Hj as (s & v & Hj); inversion Hj; subst; clear Hj. eapply IHf; eauto. cbn. eauto.
  - destruct o0 as [f|]; destruct Hj as (s & v & Hj); inversion Hj; subst; clear Hj; eauto.
  - destruct Hj as (s & w & Hj); inversion Hj; subst; clear Hj; eapply IHn; eauto.
  - destruct Hj as (s & w & Hj); inversion Hj; subst; clear Hj; eapply IHn; eauto.
  - destruct Hj as (s & w & Hj); inversion Hj; subst; clear Hj; [eapply IHf; eauto|discriminate].
Qed.

Lemma over_all fuel : next_ok fuel /\ slice_ok fuel /\ format_ok fuel.
Proof.
  induction fuel as [|fuel (IHn & IHs & IHf)].
  - repeat split; intros until 2; discriminate.
  - repeat split; [now apply next_step|now apply slice_step|now apply format_step].
Qed.

(** ** The strict variants compute what the code computes *)

Lemma ofold_ext {A B} (F G : A -> B -> outcome A) l : (forall a b c, F a b = Val c -> G a b = Val c) ->
  forall a c, ofoldM F a l = Val c -> ofoldM G a l = Val c.
Proof.
  intros H. induction l as [|b l IH]; intros a c; cbn [ofoldM]; [auto|].
  destruct (F a b) as [x|] eqn:E; cbn; [|discriminate]. rewrite (H _ _ _ E). cbn. apply IH.
Qed.
Lemma obind_imp {A B} (x y : outcome A) (f g : A -> outcome B) c : (forall a, x = Val a -> y = Val a) ->
  (forall a b, f a = Val b -> g a = Val b) -> obind x f = Val c -> obind y g = Val c.
Proof. intros Hx Hf. destruct x as [a|]; cbn; [|discriminate]. rewrite (Hx a eq_refl). cbn. apply Hf. Qed.
Lemma omap_imp {A B} (x y : outcome A) (f : A -> B) c : (forall a, x = Val a -> y = Val a) ->
  omap f x = Val c -> omap f y = Val c.
Proof. intros Hx. destruct x as [a|]; cbn; [|discriminate]. now rewrite (Hx a eq_refl). Qed.
Lemma known_imp lk lk' e b : (lk' = lk \/ lk' = LReal) -> known lk e = Val b -> known lk' e = Val b.
Proof. intros [->| ->]; [auto|]. unfold known. destruct lk; auto; destruct (no_bitopsb e); auto; discriminate. Qed.
Lemma approx_imp lk lk' s t : (lk' = lk \/ lk' = LReal) -> approx lk s = Val t -> approx lk' s = Val t.
Proof. intros [->| ->]; [auto|]. unfold approx. destruct lk; auto; discriminate. Qed.
Lemma approx_weak_imp lk lk' s t : (lk' = lk \/ lk' = LReal) -> approx_weak lk s = Val t -> approx_weak lk' s = Val t.
Proof. intros [->| ->]; [auto|]. unfold approx_weak. destruct lk; auto; discriminate. Qed.
Lemma peeked_imp lk lk' s t u : (lk' = lk \/ lk' = LReal) -> peeked lk s t = Val u -> peeked lk' s t = Val u.
Proof. intros [->| ->]; [auto|]. unfold peeked. destruct lk; auto. destruct (_ && _); [discriminate|auto]. Qed.
Lemma at_end_imp lk lk' u : (lk' = lk \/ lk' = LReal) -> at_end lk = Val u -> at_end lk' = Val u.
Proof. intros [->| ->]; [auto|]. unfold at_end. destruct lk; auto. discriminate. Qed.
Lemma inside_imp lk lk' : (lk' = lk \/ lk' = LReal) -> look_inside lk' = look_inside lk \/ look_inside lk' = LReal.
Proof. intros [->| ->]; auto. Qed.
Lemma peek_imp lk lk' : (lk' = lk \/ lk' = LReal) -> look_peek lk' = look_peek lk \/ look_peek lk' = LReal.
Proof. intros [->| ->]; auto. Qed.

Definition imp_all (a b : nat) : Prop :=
  (forall lk lk' n st, (lk' = lk \/ lk' = LReal) -> from_next m lk a n = Val st -> from_next m lk' b n = Val st) /\
  (forall lk lk' k i n st, (lk' = lk \/ lk' = LReal) -> from_slice m lk a k i n = Val st -> from_slice m lk' b k i n = Val st) /\
  (forall lk lk' f n st, (lk' = lk \/ lk' = LReal) -> from_format m lk a f n = Val st -> from_format m lk' b f n = Val st).
Lemma from_imp a : forall b, a <= b -> imp_all a b.
Proof.
  induction a as [|a IH]; intros b Hab; [repeat split; intros; discriminate|].
  destruct b as [|b]; [lia|]. destruct (IH b ltac:(lia)) as (IHn & IHs & IHf). clear IH. repeat split.
  - intros lk lk' n st Hl H. rewrite from_next_S in *. pose proof (peek_imp _ _ Hl) as Hp. destruct n; try (eapply at_end_imp; eauto; fail); eauto.
    + revert H. apply obind_imp; [eauto|]. intros x1 y1. apply omap_imp. eauto.
    + destruct fs; eauto.
    + revert H. apply obind_imp; [eauto|]. intros x1 y1. apply omap_imp. eauto.
    + destruct (N.ltb 0 k); eauto.
    + destruct (N.eqb k 0); eauto. revert H. apply obind_imp; [eauto|]. intros x1 y1. apply omap_imp. eauto.
    + destruct (N.eqb k m0); [discriminate|]. destruct (N.ltb 0 k); eauto. destruct (N.eqb m0 0); [discriminate|]. eauto.
    + revert H. apply obind_imp; [eauto|]. intros x1 y1. apply obind_imp; [eauto|]. intros z1 w1. now apply peeked_imp.
    + revert H. apply obind_imp; [eauto|]. intros x1 y1. apply obind_imp; [eauto|]. intros z1 w1. now apply approx_imp.
  - intros lk lk' k i n st Hl H. rewrite from_slice_S in *. destruct (N.ltb 0 k); eauto.
    pose proof (inside_imp _ _ Hl) as Hi. revert H. apply omap_imp. eauto.
  - intros lk lk' f n st Hl H. pose proof (peek_imp _ _ Hl) as Hp. rewrite from_format_S in *. cbv zeta in *.
    destruct f; eauto; try (eapply approx_weak_imp; eauto; fail).
    + destruct (get_item m level); eauto.
    + destruct (N.eqb n0 0); [discriminate|]. destruct (N.eqb n0 1); eauto using approx_weak_imp.
    + revert H. apply ofold_ext. intros x1 y1 z1. apply omap_imp. eauto.
    + revert H. apply ofold_ext. intros x1 y1 z1. apply omap_imp. eauto.
    + destruct fs; eauto.
    + destruct fs; eauto.
    + revert H. apply obind_imp; [eauto|]. intros x1 y1. apply omap_imp. eauto.
    + revert H. apply obind_imp; [eauto using known_imp|]. intros x1 y1. destruct (as_exact x1) as [k|].
      * destruct (N.ltb 0 k); eauto.
      * apply obind_imp; [destruct (N.ltb 0 (bmin x1)); eauto|]. intros z1 w1. now apply approx_weak_imp.
    + revert H. apply obind_imp; [eauto using known_imp|]. intros x1 y1. apply obind_imp; [eauto using known_imp|]. intros z1 w1.
      destruct (as_exact x1) as [mn|]; [|discriminate]. destruct (as_exact z1) as [mx|]; [|discriminate].
      destruct (N.compare mn mx); [destruct (N.ltb 0 mn); eauto..|discriminate].
    + revert H. apply obind_imp; [eauto|]. intros x1 y1. apply obind_imp; [auto|]. intros z1 w1.
      destruct (N.eqb (bmin z1) 0).
      * destruct (bmax z1) as [[|?]|]; eauto using approx_imp, approx_weak_imp.
      * apply omap_imp. eauto.
    + revert H. apply obind_imp; [eauto|]. intros x1 y1. apply omap_imp. eauto.
    + revert H. apply obind_imp; [eauto|]. intros x1 y1. apply obind_imp; [eauto|]. intros z1 w1. now apply peeked_imp.
    + revert H. apply obind_imp; [eauto|]. intros x1 y1. apply obind_imp; [eauto|]. intros z1 w1. now apply approx_imp.
    + revert H. apply obind_imp; [eauto using known_imp|]. intros x1 y1. destruct (as_exact x1) as [k|]; [eauto|].
      apply obind_imp; [eauto|]. intros z1 w1. now apply approx_imp.
    + revert H. apply ofold_ext. intros x1 y1 z1. apply omap_imp. eauto.
    + destruct o; eauto.
Qed.
Lemma from_next_real lk a b n st st' : from_next m lk a n = Val st -> from_next m LReal b n = Val st' -> st = st'.
Proof.
  intros H1 H2. destruct (Nat.le_ge_cases a b) as [L|L].
  - destruct (from_imp a b L) as (Hn & _). apply (Hn lk LReal) in H1; [congruence|auto].
  - destruct (from_imp b a L) as (Hn & _). apply (Hn LReal LReal) in H2; [|auto].
    destruct (from_imp a a (le_n a)) as (Hn' & _). apply (Hn' lk LReal) in H1; [congruence|auto].
Qed.

(** ** Levels *)

Definition lvl (l : list (byteset * lbranch)) (b : N) : lbranch := concat (at_byte l b).
Definition disjoint (l : list (byteset * lbranch)) : Prop := forall b, (b < 256)%N -> length (at_byte l b) <= 1.
Lemma merge_branch_at ix l bn b : (b < 256)%N -> disjoint l ->
  lvl (merge_branch ix l bn) b = lvl l b ++ (if contains (fst bn) b then [(ix, snd bn)] else []) /\ length (at_byte (merge_branch ix l bn) b) <= 1.
Proof.
  intros Hb Hd. specialize (Hd b Hb). unfold lvl, merge_branch. rewrite add_at_byte by auto.
  destruct (contains (fst bn) b); [|rewrite app_nil_r; auto].
  destruct (at_byte l b) as [|x [|y r]]; cbn in *; rewrite ?app_nil_r; auto. lia.
Qed.
Lemma merge_branches_at ix bns : forall l, disjoint l -> disjoint (fold_left (merge_branch ix) bns l) /\
  forall b, (b < 256)%N -> lvl (fold_left (merge_branch ix) bns l) b = lvl l b ++ map (pair ix) (at_byte bns b).
Proof.
  induction bns as [|[bs n] bns IH]; intros l Hd; cbn [fold_left].
  - split; [exact Hd|]. intros b Hb. cbn. now rewrite app_nil_r.
  - destruct (IH (merge_branch ix l (bs, n))) as [I1 I2]; [intros b Hb; now apply merge_branch_at|]. split; [exact I1|].
    intros b Hb. rewrite I2, (proj1 (merge_branch_at ix l (bs, n) b Hb Hd)), at_byte_cons by auto. cbn [fst snd].
    rewrite <- app_assoc. destruct (contains bs b); reflexivity.
Qed.
(** The result of merging a list of continuations. *)
Lemma merge_all_spec lk fuel order : forall lv0 lv, merge_all lk m fuel lv0 order = Val (Some lv) -> disjoint (l_br lv0) ->
  disjoint (l_br lv) /\
  (forall i, l_acc lv0 = Some i -> l_acc lv = Some i) /\
  (forall b x, (b < 256)%N -> In x (lvl (l_br lv0) b) -> In x (lvl (l_br lv) b)) /\
  (forall i n, In (i, n) order -> exists st, from_next m lk fuel n = Val st /\
    (s_acc st = true -> l_acc lv = Some i) /\
    (forall b bs n', (b < 256)%N -> In (bs, n') (s_br st) -> contains bs b = true -> In (i, n') (lvl (l_br lv) b))) /\
  (forall b i n', (b < 256)%N -> In (i, n') (lvl (l_br lv) b) -> In (i, n') (lvl (l_br lv0) b) \/
    exists n st bs, In (i, n) order /\ from_next m lk fuel n = Val st /\ In (bs, n') (s_br st) /\ contains bs b = true).
Proof.
  induction order as [|[i n] order IH]; intros lv0 lv H Hd; cbn [merge_all] in H.
  - injection H as <-. repeat split; auto. intros i n [].
  - destruct (from_next m lk fuel n) as [st|] eqn:E; cbn [obind] in H; [|discriminate].
    destruct (merge_step lv0 i st) as [lv1|] eqn:Em; [|discriminate].
    destruct (merge_branches_at i (s_br st) (l_br lv0) Hd) as [D1 L1].
    assert (Hbr : l_br lv1 = fold_left (merge_branch i) (s_br st) (l_br lv0)).
    { unfold merge_step in Em. destruct (s_acc st); [|now injection Em as <-].
      destruct (merge_accept _ _); [now injection Em as <-|discriminate]. }
    assert (Hacc : (s_acc st = true -> l_acc lv1 = Some i) /\ forall j, l_acc lv0 = Some j -> l_acc lv1 = Some j).
    { unfold merge_step in Em. destruct (s_acc st); [|injection Em as <-; cbn; split; [discriminate|auto]].
      unfold merge_accept in Em. destruct (l_acc lv0) as [j|].
      - destruct (Nat.eqb_spec j i); [|discriminate]. injection Em as <-. cbn. subst. auto.
      - injection Em as <-. cbn. split; [auto|discriminate]. }
    destruct (IH lv1 lv H) as (I1 & I2 & I3 & I4 & I5); [now rewrite Hbr|].
    rewrite Hbr in I3, I5. split; [exact I1|]. split; [intros j Hj; apply I2, (proj2 Hacc), Hj|]. split; [|split].
    + intros b x Hb Hx. apply I3; [exact Hb|]. rewrite (L1 b Hb). apply in_or_app. now left.
    + intros i' n' [[= -> ->]|Hin]; [|auto]. exists st. split; [exact E|]. split.
      * intros Ha. apply I2, (proj1 Hacc), Ha.
      * intros b bs n2 Hb Hin Hc. apply I3; [exact Hb|]. rewrite (L1 b Hb). apply in_or_app. right.
        apply List.in_map. eapply at_byte_in; eauto.
    + intros b i' n' Hb Hin. destruct (I5 b i' n' Hb Hin) as [Ho|(n2 & st2 & bs & H1 & H2)].
      * rewrite (L1 b Hb) in Ho. apply in_app_or in Ho as [Ho|Ho]; [now left|right].
        apply in_map_iff in Ho as (n2 & [= <- <-] & Ho). unfold at_byte in Ho. apply in_map_iff in Ho as ([bs n3] & E3 & Ho).
        cbn in E3. subst n3. apply filter_In in Ho as [Ho Hc]. exists n, st, bs. repeat split; auto. now left.
      * right. exists n2, st2, bs. split; [now right|auto].
Qed.

(** ** Trees *)

Lemma accepts_spec nexts t : accepts nexts = Some t -> exists a, t = MT a [] /\ forall i n, In (i, n) nexts -> a = Some i.
Proof.
  unfold accepts. destruct (accepts_loop None nexts) as [a|] eqn:E; [|discriminate]. intros [= <-]. exists a. split; [reflexivity|].
  assert (H : forall l acc a, accepts_loop acc l = Some a ->
    (forall j, acc = Some j -> a = Some j) /\ (forall i n, In (i, n) l -> a = Some i)).
  { clear. induction l as [|[i n] l IH]; intros acc a H; cbn in H.
    - injection H as <-. split; [auto|]. intros i n [].
    - destruct (merge_accept acc i) as [acc'|] eqn:Em; [|discriminate]. destruct (IH _ _ H) as [I1 I2].
      assert (acc' = Some i /\ (forall j, acc = Some j -> j = i)) as [-> Hj].
      { unfold merge_accept in Em. destruct acc as [j|].
        - destruct (Nat.eqb_spec j i); [|discriminate]. injection Em as <-. subst. split; [reflexivity|congruence].
        - injection Em as <-. split; [reflexivity|discriminate]. }
      split; [intros j E; rewrite (Hj j E); auto|]. intros i' n' [[= -> ->]|Hin]; [auto|eauto]. }
  eapply H; eauto.
Qed.
Lemma accepts_sub nexts nexts' : (forall x, In x nexts' -> In x nexts) -> accepts nexts <> None -> accepts nexts' <> None.
Proof.
  intros Hs Ha. destruct (accepts nexts) as [t|] eqn:E; [|congruence]. apply accepts_spec in E as (a & _ & Hall).
  assert (Hall' : forall i n, In (i, n) nexts' -> a = Some i) by (intros i n Hi; eapply Hall, Hs; eauto).
  clear - Hall'. unfold accepts. 
  assert (H : forall l acc, (forall i n, In (i, n) l -> a = Some i) -> (acc = None \/ acc = a) -> accepts_loop acc l <> None).
  { induction l as [|[i n] l IH]; intros acc Hl Hacc; cbn; [discriminate|].
    assert (Hi : a = Some i) by (eapply Hl; left; reflexivity).
    assert (Hm : merge_accept acc i = Some a).
    { unfold merge_accept. destruct Hacc as [-> | ->]; [congruence|]. rewrite Hi. now rewrite Nat.eqb_refl. }
    rewrite Hm. apply IH; [intros; eapply Hl; right; eauto|auto]. }
  specialize (H nexts' None Hall' (or_introl eq_refl)). destruct (accepts_loop None nexts'); [discriminate|congruence].
Qed.

(** The strict lookahead does not give up on a set of continuations, whatever the
    order in which they are visited. *)
Fixpoint Safe (lk : look) (depth : nat) (nexts : lbranch) {struct depth} : Prop :=
  accepts nexts <> None \/
  match depth with
  | O => False
  | S depth =>
    exists fuel,
      (forall i n, In (i, n) nexts -> from_next m lk fuel n <> Panic) /\
      forall b nexts', (b < 256)%N ->
        (forall i n', In (i, n') nexts' -> exists n st bs, In (i, n) nexts /\ from_next m lk fuel n = Val st /\
           In (bs, n') (s_br st) /\ contains bs b = true) ->
        Safe lk depth nexts'
  end.
Lemma Safe_sub lk depth : forall nexts nexts', (forall x, In x nexts' -> In x nexts) -> Safe lk depth nexts -> Safe lk depth nexts'.
Proof.
  destruct depth as [|depth]; intros nexts nexts' Hs [H|H]; try (left; eapply accepts_sub; eauto; fail); try (destruct H; fail).
  right. destruct H as (fuel & H1 & H2). exists fuel. split; [intros i n Hi; eapply H1, Hs; eauto|].
  intros b nx Hb Hnx. apply (H2 b nx Hb). intros i n' Hi. destruct (Hnx i n' Hi) as (n & st & bs & Hin & Hr).
  exists n, st, bs. split; [now apply Hs|exact Hr].
Qed.
Lemma grow_branches_in g l bs : grow_branches g l = Val (Some bs) -> forall b nexts, In (b, nexts) l -> exists t, g nexts = Val (Some t).
Proof.
  revert bs. induction l as [|[b nexts] l IH]; intros bs H b' nexts' Hin; [destruct Hin|]. cbn in H.
  destruct (g nexts) as [[t|]|] eqn:E; cbn in H; try discriminate.
  destruct (grow_branches g l) as [[bs'|]|] eqn:E2; cbn in H; try discriminate.
  destruct Hin as [[= -> ->]|Hin]; [eauto|]. eapply IH; eauto.
Qed.
Lemma in_lvl l b : disjoint l -> (b < 256)%N -> lvl l b = [] \/ exists bs nexts, In (bs, nexts) l /\ contains bs b = true /\ lvl l b = nexts.
Proof.
  intros Hd Hb. specialize (Hd b Hb). unfold lvl. destruct (at_byte l b) as [|x [|y r]] eqn:E; [now left| |cbn in Hd; lia].
  right. assert (Hin : In x (at_byte l b)) by (rewrite E; now left). unfold at_byte in Hin.
  apply in_map_iff in Hin as ([bs nx] & Ex & Hin). cbn in Ex. subst nx. apply filter_In in Hin as [H1 H2].
  exists bs, x. cbn in *. rewrite app_nil_r. auto.
Qed.
Lemma grow_safe lk fuel depth : forall nexts t, grow lk m fuel depth nexts = Val (Some t) -> Safe lk depth nexts.
Proof.
  induction depth as [|depth IH]; intros nexts t H; cbn [grow] in H; cbn [Safe].
  - destruct (accepts nexts); [left; discriminate|discriminate].
  - destruct (accepts nexts); [left; discriminate|right]. exists fuel.
    destruct (merge_all lk m fuel (Level None []) nexts) as [[lv|]|] eqn:Em; cbn [obind] in H; try discriminate.
    destruct (grow_branches (grow lk m fuel depth) (l_br lv)) as [[bs|]|] eqn:Eg; cbn in H; try discriminate.
    destruct (merge_all_spec lk fuel nexts _ _ Em) as (I1 & I2 & I3 & I4 & I5); [intros b Hb; cbn; lia|].
    split.
    + intros i n Hi. destruct (I4 i n Hi) as (st & E & _). congruence.
    + intros b nexts' Hb Hn.
      assert (Hsub : forall x, In x nexts' -> In x (lvl (l_br lv) b)).
      { intros [i n'] Hi. destruct (Hn i n' Hi) as (n & st & bs' & Hin & E & Hbr & Hc).
        destruct (I4 i n Hin) as (st' & E' & _ & Hall). rewrite E in E'. injection E' as <-. eauto. }
      apply (Safe_sub lk depth (lvl (l_br lv) b)); [exact Hsub|].
      destruct (in_lvl _ b I1 Hb) as [->|(bs' & nx & Hin & Hc & ->)].
      * destruct depth; left; discriminate.
      * destruct (grow_branches_in _ _ _ Eg _ _ Hin) as (t' & Et). eauto.
Qed.

(** The tree chooses the branch whose continuation covers the input. *)
Lemma first_branch_at {k : mtree -> option nat} b : (b < 256)%N -> forall l l',
  Forall2 (fun (lb : byteset * lbranch) (tb : byteset * mtree) => fst lb = fst tb) l l' -> forall x,
  nth_error (at_byte l b) 0 = Some x -> exists i bs t, nth_error l i = Some (bs, x) /\ nth_error l' i = Some (bs, t) /\
    first_branch b k l' = Some (k t).
Proof.
  intros Hb l l' H. induction H as [|[bs nx] [bs' t] l l' E H IH]; intros x Hx; [discriminate|].
  cbn in E. subst bs'. rewrite at_byte_cons in Hx. cbn [first_branch]. destruct (contains bs b).
  - cbn in Hx. injection Hx as <-. exists 0, bs, t. auto.
  - cbn [app] in Hx. destruct (IH x Hx) as (i & bs2 & t2 & H1 & H2 & H3). exists (S i), bs2, t2. auto.
Qed.
Lemma Forall2_nth {A B} (R : A -> B -> Prop) l l' i a b : Forall2 R l l' -> nth_error l i = Some a -> nth_error l' i = Some b -> R a b.
Proof.
  intros H. revert i. induction H as [|x y l l' Hxy H IH]; intros [|i] Ha Hb; try discriminate; cbn in *; [congruence|eauto].
Qed.
Lemma nth_skipn_cons {A} (l : list A) p b : nth_error l p = Some b -> skipn p l = b :: skipn (S p) l.
Proof. revert l. induction p as [|p IH]; intros [|x l] H; try discriminate; cbn in *; [now injection H as ->|]. now apply IH. Qed.
Lemma tree_picks lk o buf : mode lk o -> lk <> LWeak -> all_bytes buf -> forall depth nexts t, Grow LReal m depth nexts t ->
  forall d, Safe lk d nexts -> forall i n p, In (i, n) nexts -> follows o n buf p -> mt_matches t (skipn p buf) = Some i.
Proof.
  intros Hm Hw Hb. induction depth as [|depth IH]; intros nexts t HG d HS i n p Hin Hf; cbn [Grow] in HG.
  - destruct HG as [HG|[_ []]]. apply accepts_spec in HG as (a & -> & Ha). specialize (Ha i n Hin). subst a.
    destruct (skipn p buf); reflexivity.
  - destruct HG as [HG|[Hn (fuel & order & lv & bs & Ho & Em & -> & HF)]].
    { apply accepts_spec in HG as (a & -> & Ha). specialize (Ha i n Hin). subst a. destruct (skipn p buf); reflexivity. }
    destruct d as [|d]; [destruct HS as [HS|[]]; congruence|].
    destruct HS as [HS|(fuel' & HS1 & HS2)]; [congruence|].
    destruct (merge_all_spec LReal fuel order _ _ Em) as (I1 & I2 & I3 & I4 & I5); [intros b0 Hb0; cbn; lia|].
    destruct (I4 i n (proj2 (Ho _) Hin)) as (st & Est & Hacc & Hall).
    destruct (from_next m lk fuel' n) as [st'|] eqn:Est'; [|now destruct (HS1 i n Hin)].
    pose proof (from_next_real _ _ _ _ _ _ Est' Est) as ->.
    destruct (over_all fuel') as (On & _). specialize (On lk o n st buf p Hm Hb Est' Hf).
    destruct On as [(Ha & Hend)|(b & bs1 & n' & Hx & Hbr & Hc & Hf')].
    + specialize (Hacc Ha). destruct Hend as [->|Hend]; [now destruct Hw|].
      rewrite skipn_all2 by lia. cbn. exact Hacc.
    + pose proof (all_bytes_nth _ _ _ Hb Hx) as Hb256. specialize (Hall b bs1 n' Hb256 Hbr Hc).
      rewrite (nth_skipn_cons _ _ _ Hx). cbn [mt_matches].
      destruct (at_byte (l_br lv) b) as [|nx rest] eqn:Eat; [unfold lvl in Hall; rewrite Eat in Hall; destruct Hall|].
      assert (rest = []) by (specialize (I1 b Hb256); rewrite Eat in I1; destruct rest; [reflexivity|cbn in I1; lia]). subst rest.
      assert (Hlvl : lvl (l_br lv) b = nx) by (unfold lvl; rewrite Eat; cbn; apply app_nil_r).
      destruct (@first_branch_at (fun s => mt_matches s (skipn (S p) buf)) b Hb256 (l_br lv) bs) with (x := nx) as (k & bsk & tk & K1 & K2 & K3).
      { clear - HF. induction HF as [|? ? ? ? [E _] _ IHF]; constructor; auto. }
      { now rewrite Eat. }
      rewrite K3. pose proof (Forall2_nth _ _ _ _ _ _ HF K1 K2) as [_ HGk]. cbn [snd] in HGk.
      rewrite Hlvl in Hall. eapply (IH nx tk HGk d); eauto.
      apply (HS2 b); [exact Hb256|]. intros i2 n2 Hi2. rewrite <- Hlvl in Hi2.
      destruct (I5 b i2 n2 Hb256 Hi2) as [Hi3|(n3 & st3 & bs3 & J1 & J2 & J3 & J4)]; [destruct Hi3|].
      apply Ho in J1. destruct (from_next m lk fuel' n3) as [st4|] eqn:E4; [|now destruct (HS1 i2 n3 J1)].
      pose proof (from_next_real _ _ _ _ _ _ E4 J2) as ->. exists n3, st3, bs3. auto.
Qed.
End Over.
