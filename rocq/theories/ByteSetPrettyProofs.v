From Verif Require Import Base ByteSetModel ByteSetProofs.
From Coq Require Import Sorting.Sorted.
Open Scope N_scope.

(** Meaning of a printed token / of several tokens joined by "∪". *)
Definition tok_mem (b : N) (t : token) : bool :=
  match t with
  | TNamed s => contains s b
  | TList l => existsb (N.eqb b) l
  | TCompl l => negb (existsb (N.eqb b) l)
  | TRange lo hi => (lo <=? b) && (b <=? hi)
  end.
Definition toks_mem (b : N) (ts : list token) : bool := existsb (tok_mem b) ts.

Lemma go_down_spec s fuel b : contains s b = true -> b < 256 -> b <= N.of_nat fuel ->
  let lo := go_down s fuel b in
  lo <= b /\ (forall c, lo <= c <= b -> contains s c = true) /\
  (lo = 0 \/ contains s (lo - 1) = false).
Proof.
  revert b; induction fuel as [|k IH]; intros b Hb Hlt Hf; cbn [go_down].
  - split; [lia|]. split; [|left; lia]. intros c Hc. now replace c with b by lia.
  - destruct (N.ltb_spec 0 b) as [Hpos|Hz]; cbn [andb].
    + destruct (contains s (b - 1)) eqn:Hc.
      * destruct (IH (b - 1)) as (H1 & H2 & H3); [assumption|lia|lia|].
        split; [lia|]. split; [|assumption]. intros c Hcr.
        destruct (N.eq_dec c b) as [->|]; [assumption|]. apply H2. lia.
      * split; [lia|]. split; [|right; assumption]. intros c Hcr. now replace c with b by lia.
    + split; [lia|]. split; [|left; lia]. intros c Hcr. now replace c with b by lia.
Qed.

Lemma go_up_spec s fuel b : contains s b = true -> b < 256 -> 255 <= b + N.of_nat fuel ->
  let hi := go_up s fuel b in
  b <= hi /\ hi < 256 /\ (forall c, b <= c <= hi -> contains s c = true) /\
  (hi = 255 \/ contains s (hi + 1) = false).
Proof.
  revert b; induction fuel as [|k IH]; intros b Hb Hlt Hf; cbn [go_up].
  - split; [lia|]. split; [lia|]. split; [|left; lia]. intros c Hc. now replace c with b by lia.
  - destruct (N.ltb_spec b 255) as [Hpos|Hz]; cbn [andb].
    + destruct (contains s (b + 1)) eqn:Hc.
      * destruct (IH (b + 1)) as (H1 & H2 & H3 & H4); [assumption|lia|lia|].
        split; [lia|]. split; [lia|]. split; [|assumption]. intros c Hcr.
        destruct (N.eq_dec c b) as [->|]; [assumption|]. apply H3. lia.
      * split; [lia|]. split; [lia|]. split; [|right; assumption]. intros c Hcr. now replace c with b by lia.
    + split; [lia|]. split; [lia|]. split; [|left; lia]. intros c Hcr. now replace c with b by lia.
Qed.

Lemma find_enclosing_range_spec s b : b < 256 ->
  match find_enclosing_range s b with
  | None => contains s b = false
  | Some (lo, hi) =>
      lo <= b <= hi /\ hi < 256 /\ (forall c, lo <= c <= hi -> contains s c = true) /\
      (lo = 0 \/ contains s (lo - 1) = false) /\ (hi = 255 \/ contains s (hi + 1) = false)
  end.
Proof.
  intros Hlt. unfold find_enclosing_range. destruct (contains s b) eqn:Hb; [|reflexivity].
  destruct (go_down_spec s 256 b Hb Hlt ltac:(lia)) as (D1 & D2 & D3).
  destruct (go_up_spec s 256 b Hb Hlt ltac:(lia)) as (U1 & U2 & U3 & U4).
  repeat split; auto. intros c Hc. destruct (N.le_ge_cases c b); [apply D2|apply U3]; lia.
Qed.

Definition in_range (b : N) (p : N * N) : bool := (fst p <=? b) && (b <=? snd p).

Lemma nodup_nrange lo n : NoDup (nrange lo n).
Proof.
  revert lo; induction n as [|n IH]; intros lo; cbn [nrange]; constructor; auto.
  intros Hin. apply in_nrange in Hin. lia.
Qed.

Lemma nodup_iter s : NoDup (iter s).
Proof. apply NoDup_filter, nodup_nrange. Qed.

Lemma length_shrink (b : N) l l' : NoDup l' -> ~ In b l' -> In b l -> incl l' l ->
  (length l' < length l)%nat.
Proof.
  intros Hnd Hni Hin Hincl.
  assert (incl (b :: l') l) as H1 by (intros x [<-|Hx]; auto).
  assert (NoDup (b :: l')) as H2 by now constructor.
  pose proof (NoDup_incl_length H2 H1) as Hl. cbn [length] in Hl. lia.
Qed.

Lemma iter_shrink s t b : contains s b = true -> b < 256 -> contains t b = false ->
  (forall c, c < 256 -> contains t c = true -> contains s c = true) ->
  (length (iter t) < length (iter s))%nat.
Proof.
  intros Hb Hlt Htb Hsub. apply (length_shrink b).
  - apply nodup_iter.
  - intros Hin. apply in_iter in Hin as [_ Hin]. congruence.
  - now apply in_iter.
  - intros x Hx. apply in_iter in Hx as [? ?]. apply in_iter. auto.
Qed.

Lemma length_filter_le {A} (f : A -> bool) l : (length (filter f l) <= length l)%nat.
Proof. induction l as [|x l IH]; cbn [filter length]; [lia|]. destruct (f x); cbn [length]; lia. Qed.

Lemma iter_length_le s : N.of_nat (length (iter s)) <= 256.
Proof.
  assert (length (iter s) <= length (nrange 0 256))%nat as H by apply length_filter_le.
  rewrite length_nrange in H. lia.
Qed.

Lemma partition_loop_spec fuel s : wf s -> (length (iter s) < fuel)%nat ->
  exists parts, partition_loop fuel s = Some parts /\
    (forall p, In p parts -> fst p <= snd p /\ snd p < 256) /\
    (forall b, b < 256 -> existsb (in_range b) parts = contains s b).
Proof.
  revert s; induction fuel as [|k IH]; intros s Hwf Hf; [lia|]. cbn [partition_loop].
  pose proof (min_elem_spec s) as Hm. destruct (min_elem s) as [b|].
  2:{ exists []. split; [reflexivity|]. split; [intros ? []|].
      intros b Hb. cbn [existsb]. symmetry. now apply Hm. }
  destruct Hm as (Hlt & Hb & _).
  pose proof (find_enclosing_range_spec s b Hlt) as Hr.
  destruct (find_enclosing_range s b) as [[lo hi]|]; [|congruence].
  destruct Hr as (Hin & Hhi & Hall & _ & _).
  set (t := difference s (from_range_incl lo hi)).
  assert (forall c, c < 256 -> contains t c = contains s c && negb ((lo <=? c) && (c <=? hi))) as Ht.
  { intros c Hc. unfold t. rewrite contains_difference, contains_from_range_incl by lia. reflexivity. }
  destruct (IH t) as (rest & Erest & Hval & Hcov).
  - now apply wf_difference.
  - assert (length (iter t) < length (iter s))%nat; [|lia].
    apply (iter_shrink s t b); auto.
    + rewrite Ht by assumption. rewrite Hb. lia.
    + intros c Hc. rewrite Ht by exact Hc. rewrite andb_true_iff. tauto.
  - rewrite Erest. exists ((lo, hi) :: rest). split; [reflexivity|]. split.
    + intros p [<-|Hp]; [cbn; lia|now apply Hval].
    + intros c Hc. cbn [existsb]. rewrite Hcov, Ht by exact Hc. unfold in_range at 1. cbn [fst snd].
      destruct ((lo <=? c) && (c <=? hi)) eqn:E; cbn [orb negb].
      * symmetry. apply Hall. lia.
      * apply andb_true_r.
Qed.

Lemma str_raw_mem s b : b < 256 -> tok_mem b (str_raw s) = contains s b.
Proof.
  intros Hb. unfold str_raw. destruct (len s <? 128); cbn [tok_mem].
  - now apply existsb_iter.
  - rewrite existsb_iter, contains_complement, negb_involutive by exact Hb. reflexivity.
Qed.

(** Counting: a set whose span equals its cardinality is a full interval. *)
Lemma contiguous_full s lo hi : lo <= hi -> hi < 256 ->
  (forall c, c < 256 -> contains s c = true -> lo <= c <= hi) ->
  hi - lo + 1 = len s -> forall c, lo <= c <= hi -> contains s c = true.
Proof.
  intros Hle Hlt Hin Hlen c Hc.
  assert (incl (iter s) (nrange lo (N.to_nat (hi - lo + 1)))) as Hincl.
  { intros x Hx. apply in_iter in Hx as [Hx1 Hx2]. apply in_nrange. specialize (Hin x Hx1 Hx2). lia. }
  assert (incl (nrange lo (N.to_nat (hi - lo + 1))) (iter s)) as Hrev.
  { apply NoDup_length_incl; [apply nodup_iter| |exact Hincl].
    rewrite length_nrange. rewrite len_iter in Hlen. lia. }
  assert (In c (nrange lo (N.to_nat (hi - lo + 1)))) as Hcin by (apply in_nrange; lia).
  apply Hrev in Hcin. apply in_iter in Hcin. tauto.
Qed.

Lemma fold_small_mem small acc b : b < 256 ->
  (forall p, In p small -> fst p <= snd p /\ snd p < 256) ->
  contains (fold_left (fun acc p =>
      fold_left insert (nrange (fst p) (N.to_nat (snd p + 1 - fst p))) acc) small acc) b
  = contains acc b || existsb (in_range b) small.
Proof.
  intros Hb. revert acc. induction small as [|p l IH]; intros acc Hv; cbn [fold_left existsb].
  - now rewrite orb_false_r.
  - destruct (Hv p) as [H1 H2]; [now left|]. rewrite IH by (intros q Hq; apply Hv; now right).
    rewrite contains_fold_insert by (try assumption; apply forall_nrange; lia).
    rewrite existsb_nrange.
    replace ((fst p <=? b) && (b <? fst p + N.of_nat (N.to_nat (snd p + 1 - fst p))))
      with (in_range b p) by (unfold in_range; lia).
    destruct (in_range b p), (contains acc b); reflexivity.
Qed.
Lemma wf_fold_small small acc : wf acc ->
  (forall p, In p small -> fst p <= snd p /\ snd p < 256) ->
  wf (fold_left (fun acc p =>
      fold_left insert (nrange (fst p) (N.to_nat (snd p + 1 - fst p))) acc) small acc).
Proof.
  revert acc. induction small as [|p l IH]; intros acc Hw Hv; cbn [fold_left]; [exact Hw|].
  destruct (Hv p) as [H1 H2]; [now left|]. apply IH; [|intros q Hq; apply Hv; now right].
  apply wf_fold_insert; [exact Hw|]. apply forall_nrange. lia.
Qed.

Lemma existsb_partition {A} (f g : A -> bool) l :
  existsb f (filter g l) || existsb f (filter (fun x => negb (g x)) l) = existsb f l.
Proof.
  induction l as [|x l IH]; cbn [filter existsb]; [reflexivity|].
  destruct (g x); cbn [negb existsb]; rewrite <- IH.
  - now rewrite orb_assoc.
  - destruct (f x), (existsb f (filter g l)); reflexivity.
Qed.

(** If the top word is inhabited (so that [max_elem] is right), what is printed
    denotes exactly the set and nothing panics. *)
Lemma display_top_word s : wf s -> w3 s <> 0 -> contains s 255 = false ->
  exists toks, display s = Val toks /\ forall b, b < 256 -> toks_mem b toks = contains s b.
Proof.
  intros Hwf Hnz H255. unfold display, as_token.
  destruct (find (eqb s) named_sets) as [t|] eqn:Et.
  { apply find_some in Et as [_ Et]. apply eqb_eq in Et as <-. exists [TNamed s].
    split; [reflexivity|]. intros b Hb. unfold toks_mem. cbn [existsb tok_mem]. apply orb_false_r. }
  clear Et.
  pose proof (max_elem_top_word s Hwf Hnz) as HM. pose proof (min_elem_spec s) as Hm.
  destruct (max_elem s) as [hi|] eqn:Emax; [|contradiction].
  destruct HM as (Hhi & Hhic & Hhim).
  destruct (min_elem s) as [lo|] eqn:Emin.
  2:{ rewrite Hm in Hhic by exact Hhi. discriminate. }
  destruct Hm as (Hlo & Hloc & Hlom).
  assert (lo <= hi) as Hle by (apply Hlom; assumption).
  assert (span s = Val (hi - lo + 1)) as Hspan.
  { unfold span. rewrite Emin, Emax. destruct (N.ltb_spec hi lo); [lia|reflexivity]. }
  assert (bounds s = Val (Some (lo, hi))) as Hbounds.
  { unfold bounds. now rewrite Emin, Emax. }
  unfold as_range_string, str_fallback, is_contiguous. rewrite Hspan.
  destruct (N.eqb_spec (hi - lo + 1) (len s)) as [Heq|Hneq].
  - destruct ((len s =? 0) || (len s =? 1) || (len s =? 255) || (len s =? 256)).
    + exists [str_raw s]. split; [reflexivity|]. intros b Hb. unfold toks_mem. cbn [existsb].
      rewrite orb_false_r. now apply str_raw_mem.
    + rewrite Hbounds. exists [TRange lo hi]. split; [reflexivity|]. intros b Hb.
      unfold toks_mem. cbn [existsb tok_mem]. rewrite orb_false_r.
      destruct (contains s b) eqn:E.
      * specialize (Hlom b Hb E). specialize (Hhim b Hb E). lia.
      * destruct ((lo <=? b) && (b <=? hi)) eqn:E2; [|reflexivity].
        rewrite (contiguous_full s lo hi) in E; try assumption; try lia.
        intros c Hc Hcc. split; [apply Hlom|apply Hhim]; assumption.
  - destruct (partition_loop_spec 257 s Hwf) as (parts & Ep & Hv & Hcov).
    { pose proof (iter_length_le s). lia. }
    rewrite Ep.
    assert (existsb rank_overflow parts = false) as ->.
    { destruct (existsb rank_overflow parts) eqn:E; [|reflexivity].
      apply existsb_exists in E as (p & Hp & Hr). destruct (Hv p Hp) as [Hv1 Hv2].
      assert (snd p = 255) as Hsnd by (unfold rank_overflow in Hr; lia).
      assert (existsb (in_range 255) parts = true) as Hex.
      { apply existsb_exists. exists p. split; [exact Hp|]. unfold in_range. lia. }
      rewrite Hcov in Hex by lia. congruence. }
    set (big := filter (fun p => 4 <=? snd p - fst p + 1) parts).
    set (small := filter (fun p => negb (4 <=? snd p - fst p + 1)) parts).
    set (ov := fold_left _ small empty).
    eexists. split; [reflexivity|]. intros b Hb.
    assert (forall p, In p small -> fst p <= snd p /\ snd p < 256) as Hvs.
    { intros p Hp. apply filter_In in Hp as [Hp _]. now apply Hv. }
    assert (contains ov b = existsb (in_range b) small) as Hov.
    { unfold ov. rewrite fold_small_mem by assumption. now rewrite contains_empty. }
    assert (toks_mem b (map (fun p => TRange (fst p) (snd p)) big) = existsb (in_range b) big) as Hbig.
    { unfold toks_mem. clear. induction big as [|p l IH]; cbn [map existsb]; [reflexivity|].
      rewrite IH. reflexivity. }
    assert (existsb (in_range b) big || existsb (in_range b) small = contains s b) as Htot.
    { rewrite <- Hcov by exact Hb. apply existsb_partition. }
    destruct (is_empty ov) eqn:Eov.
    + rewrite Hbig, <- Htot.
      assert (wf ov) as Hwo by (apply wf_fold_small; [apply wf_empty|assumption]).
      pose proof (proj1 (is_empty_spec ov Hwo) Eov) as Hall.
      rewrite <- Hov, Hall by exact Hb. now rewrite orb_false_r.
    + unfold toks_mem in *. rewrite existsb_app. cbn [existsb].
      rewrite Hbig, orb_false_r, str_raw_mem, Hov by exact Hb. exact Htot.
Qed.

Lemma contains_range_spec s lo hi : lo < 256 -> hi < 256 ->
  (contains_range s lo hi = true <-> forall c, lo <= c <= hi -> contains s c = true).
Proof.
  intros Hlo Hhi. unfold contains_range. rewrite N.eqb_eq, !len_iter.
  assert (incl (iter (intersection s (from_range_incl lo hi))) (iter (from_range_incl lo hi))) as Hincl.
  { intros x Hx. apply in_iter in Hx as [H1 H2]. rewrite contains_intersection in H2.
    apply andb_true_iff in H2. apply in_iter. tauto. }
  split.
  - intros Heq c Hc.
    assert (incl (iter (from_range_incl lo hi)) (iter (intersection s (from_range_incl lo hi)))) as Hrev.
    { apply NoDup_length_incl; [apply nodup_iter|lia|exact Hincl]. }
    assert (In c (iter (from_range_incl lo hi))) as Hin.
    { apply in_iter. split; [lia|]. rewrite contains_from_range_incl by lia. lia. }
    apply Hrev, in_iter in Hin as [_ Hin]. rewrite contains_intersection in Hin.
    apply andb_true_iff in Hin. tauto.
  - intros Hall. do 2 f_equal. unfold iter. apply filter_ext_in. intros c Hc.
    apply in_nrange in Hc. rewrite contains_intersection, contains_from_range_incl by lia.
    destruct ((lo <=? c) && (c <=? hi)) eqn:E; [|apply andb_false_r].
    rewrite Hall by lia. reflexivity.
Qed.

(** ** Statements in the form used by ByteSetProps.v *)
Lemma constants_spec b : b < 256 ->
  contains empty b = false /\ contains full b = true /\
  forall c, c < 256 -> (contains (singleton c) b = true <-> b = c).
Proof.
  intros Hb. split; [apply contains_empty|]. split; [now apply contains_full|].
  intros c Hc. rewrite contains_singleton by assumption. lia.
Qed.
Lemma insert_remove_spec s b c : b < 256 -> c < 256 ->
  (contains (insert s b) c = true <-> c = b \/ contains s c = true) /\
  (contains (remove s b) c = true <-> c <> b /\ contains s c = true).
Proof.
  intros Hb Hc. rewrite contains_insert, contains_remove by assumption.
  destruct (contains s c), (N.eqb_spec b c); cbn; intuition congruence.
Qed.
Lemma algebra_spec s t b : b < 256 ->
  (contains (union s t) b = true <-> contains s b = true \/ contains t b = true) /\
  (contains (intersection s t) b = true <-> contains s b = true /\ contains t b = true) /\
  (contains (difference s t) b = true <-> contains s b = true /\ contains t b = false) /\
  (contains (complement s) b = true <-> contains s b = false).
Proof.
  intros Hb. rewrite contains_union, contains_intersection, contains_difference, contains_complement by exact Hb.
  destruct (contains s b), (contains t b); cbn; intuition congruence.
Qed.
Lemma extensional_spec s t : wf s -> wf t ->
  (eqb s t = true <-> forall b, b < 256 -> contains s b = contains t b) /\
  (is_disjoint s t = true <-> ~ exists b, b < 256 /\ contains s b = true /\ contains t b = true).
Proof.
  intros Hs Ht. split.
  - rewrite eqb_eq. split; [intros ->; reflexivity|]. now apply contains_ext.
  - unfold is_disjoint. rewrite is_empty_spec by now apply wf_intersection. split.
    + intros H (b & Hb & H1 & H2). specialize (H b Hb). rewrite contains_intersection, H1, H2 in H. discriminate.
    + intros H b Hb. rewrite contains_intersection.
      destruct (contains s b) eqn:E1, (contains t b) eqn:E2; try reflexivity.
      exfalso. apply H. exists b. auto.
Qed.
Lemma closed_spec s t b : wf s -> wf t -> b < 256 ->
  wf empty /\ wf full /\ wf (singleton b) /\ wf (insert s b) /\ wf (remove s b) /\
  wf (union s t) /\ wf (intersection s t) /\ wf (difference s t) /\ wf (complement s).
Proof.
  intros Hs Ht Hb. repeat match goal with |- _ /\ _ => split end.
  all: auto using wf_empty, wf_full, wf_singleton, wf_insert, wf_remove, wf_union, wf_intersection, wf_difference, wf_complement.
Qed.
Lemma top_word s : wf s -> (exists c, 192 <= c < 256 /\ contains s c = true) -> w3 s <> 0.
Proof.
  intros _ (c & Hc & Hin) Hz. replace c with (192 + (c - 192)) in Hin by lia.
  rewrite q3, Hz, N.bits_0 in Hin by lia. discriminate.
Qed.
Lemma max_elem_partial s : wf s -> (exists c, 192 <= c < 256 /\ contains s c = true) ->
  match max_elem s with
  | Some m => m < 256 /\ contains s m = true /\
              forall c, c < 256 -> contains s c = true -> c <= m
  | None => forall c, c < 256 -> contains s c = false
  end.
Proof.
  intros Hwf Hex. pose proof (max_elem_top_word s Hwf (top_word s Hwf Hex)) as H.
  destruct (max_elem s); [exact H|contradiction].
Qed.
Lemma max_elem_refuted :
  (exists s, wf s /\ max_elem s = None /\ exists b, b < 256 /\ contains s b = true) /\
  (exists s m, wf s /\ max_elem s = Some m /\ contains s m = false).
Proof.
  split.
  - exists (from_range_incl 0 191). split; [now apply wf_from_range_incl|].
    split; [vm_compute; reflexivity|]. exists 7. split; [lia|vm_compute; reflexivity].
  - exists (singleton 9), 191. split; [apply wf_singleton|]. split; vm_compute; reflexivity.
Qed.
Lemma bounds_refuted : exists s, wf s /\ bounds s = Panic.
Proof. exists (from_range_incl 0 191). split; [now apply wf_from_range_incl|vm_compute; reflexivity]. Qed.
Lemma span_refuted : exists s, wf s /\ span s = Panic.
Proof. exists (singleton 191). split; [apply wf_singleton|vm_compute; reflexivity]. Qed.
Lemma range_incl_spec lo hi b : lo < 256 -> hi < 256 -> b < 256 ->
  (contains (from_range_incl lo hi) b = true <-> lo <= b <= hi).
Proof. intros. rewrite contains_from_range_incl by assumption. lia. Qed.
Lemma range_spec lo hi b : lo < 256 -> hi < 256 -> b < 256 ->
  (contains (from_range lo hi) b = true <-> lo <= b < hi).
Proof. intros. rewrite contains_from_range by assumption. lia. Qed.
Lemma list_spec l b : Forall (fun x => x < 256) l -> b < 256 ->
  (contains (from_list l) b = true <-> In b l).
Proof.
  intros. rewrite contains_from_list by assumption. rewrite existsb_exists.
  split; [intros (x & Hx & E); apply N.eqb_eq in E as ->; exact Hx|].
  intros Hin. exists b. split; [exact Hin|apply N.eqb_refl].
Qed.
Lemma serialize_spec s b : b < 256 ->
  match serialize s with
  | Includes l => In b l <-> contains s b = true
  | Excludes l => In b l <-> contains s b = false
  end.
Proof.
  intros Hb. unfold serialize. destruct (len s <? 128).
  - rewrite in_iter. tauto.
  - rewrite in_iter, contains_complement by exact Hb. destruct (contains s b); cbn; intuition congruence.
Qed.
Lemma display_partial s : wf s ->
  (exists c, 192 <= c < 256 /\ contains s c = true) -> contains s 255 = false ->
  exists toks, display s = Val toks /\
    forall b, b < 256 -> (existsb (tok_mem b) toks = true <-> contains s b = true).
Proof.
  intros Hwf Hex H255.
  destruct (display_top_word s Hwf (top_word s Hwf Hex) H255) as (toks & E & H).
  exists toks. split; [exact E|]. intros b Hb. unfold toks_mem in H. now rewrite H by exact Hb.
Qed.
Lemma display_refuted :
  (exists s toks b, wf s /\ display s = Val toks /\ b < 256 /\
     existsb (tok_mem b) toks = true /\ contains s b = false) /\
  (exists s, wf s /\ display s = Panic) /\
  (exists s, wf s /\ (exists c, 192 <= c < 256 /\ contains s c = true) /\ display s = Panic).
Proof.
  split; [|split].
  - exists (union (from_range_incl 128 189) (singleton 191)), [TRange 128 190], 190.
    split; [apply wf_union; [now apply wf_from_range_incl|apply wf_singleton]|].
    repeat split; vm_compute; reflexivity.
  - exists (singleton 191). split; [apply wf_singleton|vm_compute; reflexivity].
  - exists (union (from_range_incl 0 9) (from_range_incl 250 255)).
    split; [apply wf_union; now apply wf_from_range_incl|].
    split; [exists 250; split; [lia|vm_compute; reflexivity]|vm_compute; reflexivity].
Qed.
