From Verif Require Import Base DataModel.

(** ** Sequences *)
Section Seq.
Context {A : Type}.
Implicit Types s t : seqkind A.

Lemma sk_len_spec s : sk_len s = length (sk_to_list s).
Proof. destruct s; cbn; [reflexivity|now rewrite repeat_length]. Qed.
Lemma sk_is_empty_spec s : sk_is_empty s = true <-> sk_to_list s = [].
Proof.
  destruct s as [l|n x]; cbn.
  - destruct l; split; congruence.
  - destruct n; cbn; split; congruence.
Qed.
Lemma nth_error_repeat (x : A) n i : nth_error (repeat x n) i = if i <? n then Some x else None.
Proof.
  revert i; induction n as [|n IH]; intros [|i]; try reflexivity. cbn [repeat nth_error]. rewrite IH. reflexivity.
Qed.
Lemma sk_get_spec s i : sk_get s i = nth_error (sk_to_list s) i.
Proof. destruct s as [l|n x]; cbn [sk_get sk_to_list]; [reflexivity|symmetry; apply nth_error_repeat]. Qed.
Lemma skipn_repeat (x : A) n k : skipn k (repeat x n) = repeat x (n - k).
Proof. revert n; induction k as [|k IH]; intros [|n]; cbn; auto. Qed.
Lemma firstn_repeat (x : A) n k : k <= n -> firstn k (repeat x n) = repeat x k.
Proof. revert n; induction k as [|k IH]; intros [|n] H; cbn; auto; [lia|]. f_equal. apply IH. lia. Qed.
Lemma sk_sub_seq_spec s start len :
  match sk_sub_seq s start len with
  | Val r => start + len <= length (sk_to_list s) /\
             sk_to_list r = firstn len (skipn start (sk_to_list s))
  | Panic => length (sk_to_list s) < start + len
  end.
Proof.
  destruct s as [l|n x]; cbn [sk_sub_seq sk_to_list].
  - destruct (Nat.leb_spec start (length l)); [|lia].
    destruct (Nat.leb_spec len (length (skipn start l))) as [H1|H1]; rewrite skipn_length in H1; cbn [sk_to_list]; [split; [lia|reflexivity]|lia].
  - rewrite repeat_length. destruct (Nat.leb_spec (start + len) n); cbn [sk_to_list]; [|lia].
    split; [lia|]. rewrite skipn_repeat, firstn_repeat by lia. reflexivity.
Qed.
Lemma sk_append_spec s t : sk_to_list (sk_append s t) = sk_to_list s ++ sk_to_list t.
Proof.
  unfold sk_append. destruct (sk_is_empty s) eqn:E1.
  - apply sk_is_empty_spec in E1. now rewrite E1.
  - destruct (sk_is_empty t) eqn:E2; [|reflexivity].
    apply sk_is_empty_spec in E2. now rewrite E2, app_nil_r.
Qed.
End Seq.

(** ** Search *)
Section Search.
Context {K : Type} (num : K -> N) (q : N) (cmp : K -> outcome comparison) (key : nat -> outcome K).

(** Comparison of the query with a key that exists. *)
Definition cmp_ok := forall k, cmp k = Val (q ?= num k)%N.

Lemma mid_bounds l u : l <= u -> l <= (l + u) / 2 <= u.
Proof. intros. lia. Qed.

(** On any data: no failure, and a returned index holds the query. *)
Lemma bsearch_safe (kv : nat -> K) fuel : cmp_ok ->
  forall l u, (forall i, i <= u -> key i = Val (kv i)) -> (num (kv 0%nat) < q)%N -> u + 1 < l + fuel -> 0 < fuel ->
  exists r, bsearch cmp key fuel l u = Some (Val r) /\
    (forall i, r = Some i -> l <= i <= u /\ num (kv i) = q).
Proof.
  intros Hc. induction fuel as [|f IH]; intros l u Hk H0 Hf Hp; [lia|]. cbn [bsearch].
  destruct (Nat.ltb_spec u l) as [Hul|Hul].
  { eexists; split; [reflexivity|]. discriminate. }
  pose proof (mid_bounds l u Hul) as Hm. set (mid := (l + u) / 2) in *. clearbody mid.
  rewrite Hk by lia. cbn [obind]. rewrite Hc.
  destruct (N.compare_spec q (num (kv mid))) as [E|Hlt|Hgt].
  - eexists; split; [reflexivity|]. intros i [= <-]. split; [lia|congruence].
  - destruct (Nat.eqb_spec mid 0) as [->|]; [lia|].
    destruct (IH l (mid - 1)) as (r & Er & Hr); try lia; [intros i Hi; apply Hk; lia|].
    exists r. split; [exact Er|]. intros i Hi. specialize (Hr i Hi). split; [lia|tauto].
  - destruct (IH (mid + 1) u) as (r & Er & Hr); try lia; [assumption|].
    exists r. split; [exact Er|]. intros i Hi. specialize (Hr i Hi). split; [lia|tauto].
Qed.

Lemma bsearch_complete (kv : nat -> K) fuel : cmp_ok ->
  forall l u, (forall i, i <= u -> key i = Val (kv i)) ->
  (forall i j, i <= j -> j <= u -> (num (kv i) <= num (kv j))%N) ->
  forall i, l <= i <= u -> num (kv i) = q ->
  bsearch cmp key fuel l u <> Some (Val None).
Proof.
  intros Hc. induction fuel as [|f IH]; intros l u Hk Hs i Hi Hq; [discriminate|]. cbn [bsearch].
  destruct (Nat.ltb_spec u l) as [Hul|Hul]; [lia|].
  pose proof (mid_bounds l u Hul) as Hm. set (mid := (l + u) / 2) in *. clearbody mid.
  rewrite Hk by lia. cbn [obind]. rewrite Hc.
  destruct (N.compare_spec q (num (kv mid))) as [E|Hlt|Hgt]; [discriminate| |].
  - assert (i < mid) by (destruct (Nat.lt_ge_cases i mid); [assumption|]; specialize (Hs mid i); lia).
    destruct (mid =? 0); [discriminate|].
    apply (IH l (mid - 1)) with (i := i); try assumption; try lia.
    + intros j Hj; apply Hk; lia.
    + intros a b Ha Hb; apply Hs; lia.
  - assert (mid < i) by (destruct (Nat.lt_ge_cases mid i); [assumption|]; specialize (Hs i mid); lia).
    apply (IH (mid + 1) u) with (i := i); try assumption; try lia.
Qed.

Lemma find_sorted_safe (kv : nat -> K) len : cmp_ok ->
  (forall i, i < len -> key i = Val (kv i)) ->
  exists r, find_sorted cmp len key = Some (Val r) /\
    (forall i, r = Some i -> i < len /\ num (kv i) = q).
Proof.
  intros Hc Hk. unfold find_sorted. destruct (Nat.eqb_spec len 0) as [->|Hn].
  { eexists; split; [reflexivity|discriminate]. }
  rewrite Hk by lia. cbn [obind]. rewrite Hc.
  destruct (N.compare_spec q (num (kv 0))) as [E|Hlt|Hgt].
  - eexists; split; [reflexivity|]. intros i [= <-]. split; [lia|congruence].
  - eexists; split; [reflexivity|discriminate].
  - destruct (Nat.leb_spec len 1); [eexists; split; [reflexivity|discriminate]|].
    rewrite Hk by lia. cbn [obind]. rewrite Hc.
    destruct (N.compare_spec q (num (kv (len - 1)))) as [E|Hlt2|Hgt2].
    + eexists; split; [reflexivity|]. intros i [= <-]. split; [lia|congruence].
    + destruct (Nat.leb_spec len 2); [eexists; split; [reflexivity|discriminate]|].
      destruct (bsearch_safe kv (S len) Hc 0 (len - 1)) as (r & Er & Hr); try lia.
      * intros i Hi. apply Hk. lia.
      * exists r. split; [exact Er|]. intros i Hi. specialize (Hr i Hi). split; [lia|tauto].
    + eexists; split; [reflexivity|discriminate].
Qed.

Lemma find_sorted_complete (kv : nat -> K) len : cmp_ok ->
  (forall i, i < len -> key i = Val (kv i)) ->
  (forall i j, i <= j -> j < len -> (num (kv i) <= num (kv j))%N) ->
  forall i, i < len -> num (kv i) = q ->
  find_sorted cmp len key <> Some (Val None).
Proof.
  intros Hc Hk Hs i Hi Hq. unfold find_sorted. destruct (Nat.eqb_spec len 0) as [->|Hn]; [lia|].
  rewrite Hk by lia. cbn [obind]. rewrite Hc.
  destruct (N.compare_spec q (num (kv 0))) as [E|Hlt|Hgt]; [discriminate| |].
  - specialize (Hs 0 i). lia.
  - destruct (Nat.leb_spec len 1).
    { assert (i = 0) as -> by lia. lia. }
    rewrite Hk by lia. cbn [obind]. rewrite Hc.
    destruct (N.compare_spec q (num (kv (len - 1)))) as [E|Hlt2|Hgt2]; [discriminate| |].
    + destruct (Nat.leb_spec len 2).
      { assert (i = 0 \/ i = len - 1) as [->| ->] by lia; lia. }
      apply (bsearch_complete kv (S len) Hc) with (i := i); try lia.
      * intros j Hj; apply Hk; lia.
      * intros a b Ha Hb; apply Hs; lia.
    + specialize (Hs i (len - 1)). lia.
Qed.
End Search.

Lemma find_unsorted_spec {K V} (num : K -> N) (q : N) (eqk : K -> outcome bool) (ev : V -> outcome K) (kv : V -> K) l :
  (forall k, eqk k = Val (q =? num k)%N) -> (forall v, In v l -> ev v = Val (kv v)) ->
  forall ix, exists r, find_unsorted eqk ev ix l = Val r /\
  match r with
  | Some i => exists j v, i = ix + j /\ nth_error l j = Some v /\ num (kv v) = q /\
                forall j' v', j' < j -> nth_error l j' = Some v' -> num (kv v') <> q
  | None => forall v, In v l -> num (kv v) <> q
  end.
Proof.
  intros He. induction l as [|v l IH]; intros Hev ix; cbn [find_unsorted].
  { eexists; split; [reflexivity|]. intros v []. }
  rewrite Hev by now left. cbn [obind]. rewrite He.
  destruct (N.eqb_spec q (num (kv v))) as [E|Hne].
  - eexists; split; [reflexivity|]. exists 0, v. repeat split; [lia|congruence|]. intros j' v' Hj. lia.
  - destruct (IH (fun w Hw => Hev w (or_intror Hw)) (S ix)) as (r & Er & Hr).
    exists r. split; [exact Er|]. destruct r as [i|].
    + destruct Hr as (j & w & -> & Hj & Hw & Hleast). exists (S j), w. repeat split; [lia|exact Hj|exact Hw|].
      intros [|j'] v' Hlt; cbn [nth_error]; [intros [= <-]; congruence|]. apply Hleast. lia.
    + intros w [<-|Hw]; [congruence|now apply Hr].
Qed.

(** ** Back-references *)
Section Inflate.
Context {A : Type}.
Implicit Types hist out : list A.

(** Specification: every produced element equals the one [dist] places before
    it in the history followed by the output. *)
Definition copies_back hist out dist : Prop :=
  forall k, k < length out ->
  nth_error (hist ++ out) (length hist + k) = nth_error (hist ++ out) (length hist + k - dist).

Lemma nth_error_snoc (l : list A) x i : nth_error (l ++ [x]) i =
  if i <? length l then nth_error l i else if i =? length l then Some x else None.
Proof.
  destruct (Nat.ltb_spec i (length l)); [now apply nth_error_app1|].
  rewrite nth_error_app2 by lia. destruct (Nat.eqb_spec i (length l)) as [->|Hne].
  - now rewrite Nat.sub_diag.
  - destruct (i - length l) as [|[|k]] eqn:E; [lia| |]; reflexivity.
Qed.

Lemma inflate_loop_spec hist start n : start < length hist -> forall out,
  copies_back hist out (length hist - start) ->
  exists r, inflate_loop hist start n out = Val r /\ length r = length out + n /\
    copies_back hist r (length hist - start).
Proof.
  intros Hs. induction n as [|n IH]; intros out Hc; cbn [inflate_loop].
  { exists out. split; [reflexivity|]. split; [lia|exact Hc]. }
  set (i := length out).
  assert (exists x, (if i + start <? length hist then nth_error hist (i + start)
           else nth_error out (i + start - length hist)) = Some x /\
           nth_error (hist ++ out) (i + start) = Some x) as (x & -> & Hx).
  { destruct (Nat.ltb_spec (i + start) (length hist)) as [H|H].
    - destruct (nth_error hist (i + start)) as [x|] eqn:E; [|apply nth_error_None in E; lia].
      exists x. split; [reflexivity|]. now rewrite nth_error_app1.
    - destruct (nth_error out (i + start - length hist)) as [x|] eqn:E; [|apply nth_error_None in E; lia].
      exists x. split; [reflexivity|]. now rewrite nth_error_app2. }
  destruct (IH (out ++ [x])) as (r & Er & Hl & Hr).
  - intros k Hk. rewrite app_length in Hk. cbn [length] in Hk. rewrite !app_assoc, !nth_error_snoc, !app_length.
    fold i in Hk |- *.
    destruct (Nat.ltb_spec (length hist + k) (length hist + i)) as [Hlt|Hge].
    + destruct (Nat.ltb_spec (length hist + k - (length hist - start)) (length hist + i)); [|lia].
      apply Hc. fold i. lia.
    + assert (k = i) as -> by lia. rewrite Nat.eqb_refl.
      destruct (Nat.ltb_spec (length hist + i - (length hist - start)) (length hist + i)); [|lia].
      replace (length hist + i - (length hist - start)) with (i + start) by lia. now rewrite Hx.
  - exists r. split; [exact Er|]. split; [rewrite Hl, app_length; cbn [length]; lia|exact Hr].
Qed.

(** The specification determines the output. *)
Lemma copies_back_unique hist dist o1 o2 : 0 < dist <= length hist -> length o1 = length o2 ->
  copies_back hist o1 dist -> copies_back hist o2 dist -> o1 = o2.
Proof.
  intros Hd Hl H1 H2.
  assert (forall k, nth_error o1 k = nth_error o2 k) as Hn.
  { intros k. induction k as [k IH] using (well_founded_induction lt_wf).
    destruct (Nat.lt_ge_cases k (length o1)) as [Hk|Hk].
    - specialize (H1 k Hk). specialize (H2 k ltac:(lia)).
      rewrite (nth_error_app2 hist o1) in H1 by lia. rewrite (nth_error_app2 hist o2) in H2 by lia.
      replace (length hist + k - length hist) with k in * by lia. rewrite H1, H2.
      destruct (Nat.lt_ge_cases (length hist + k - dist) (length hist)) as [Hb|Hb].
      + now rewrite !nth_error_app1 by lia.
      + rewrite !nth_error_app2 by lia. apply IH. lia.
    - rewrite (proj2 (nth_error_None o1 k)) by lia. symmetry. apply nth_error_None. lia. }
  clear H1 H2 Hd. revert o2 Hl Hn. induction o1 as [|a o1 IH]; intros [|b o2] Hl Hn; cbn in Hl; try lia; [reflexivity|].
  pose proof (Hn 0) as H0. cbn in H0. injection H0 as ->. f_equal. apply IH; [lia|]. intros k. exact (Hn (S k)).
Qed.

Lemma sub_seq_inflate_spec hist start len : start < length hist ->
  exists r, sub_seq_inflate hist start len = Val r /\ length r = len /\
    copies_back hist r (length hist - start).
Proof.
  intros Hs. destruct (inflate_loop_spec hist start len Hs []) as (r & Er & Hl & Hr).
  - intros k Hk. cbn in Hk. lia.
  - exists r. split; [exact Er|]. split; [exact Hl|exact Hr].
Qed.

Lemma nth_error_firstn (l : list A) n i : i < n -> nth_error (firstn n l) i = nth_error l i.
Proof. revert l i; induction n as [|n IH]; intros [|x l] [|i] H; cbn; try lia; auto. apply IH. lia. Qed.
Lemma nth_error_skipn' (l : list A) n i : nth_error (skipn n l) i = nth_error l (n + i).
Proof. revert l; induction n as [|n IH]; intros [|x l]; cbn; auto. now destruct i. Qed.

Lemma slice_copies hist start end_ : start <= end_ -> end_ <= length hist -> start < length hist ->
  copies_back hist (firstn (end_ - start) (skipn start hist)) (length hist - start).
Proof.
  intros H1 H2 H3 k Hk. rewrite firstn_length, skipn_length in Hk.
  rewrite nth_error_app2, nth_error_app1 by lia.
  replace (length hist + k - length hist) with k by lia.
  rewrite nth_error_firstn, nth_error_skipn' by lia. f_equal. lia.
Qed.

Lemma slice_ext_spec hist start end_ : start < length hist -> start <= end_ ->
  exists r, slice_ext hist start end_ = Val r /\ length r = end_ - start /\
    copies_back hist r (length hist - start).
Proof.
  intros Hs Hle. unfold slice_ext. destruct (Nat.leb_spec end_ (length hist)).
  - destruct (Nat.leb_spec start end_); [|lia]. eexists. split; [reflexivity|].
    split; [rewrite firstn_length, skipn_length; lia|]. now apply slice_copies.
  - now apply sub_seq_inflate_spec.
Qed.

Lemma slice_ext_inflate hist start len :
  start < length hist -> slice_ext hist start (start + len) = sub_seq_inflate hist start len.
Proof.
  intros Hs. destruct (slice_ext_spec hist start (start + len) Hs) as (r1 & E1 & L1 & C1); [lia|].
  destruct (sub_seq_inflate_spec hist start len Hs) as (r2 & E2 & L2 & C2).
  rewrite E1, E2. f_equal. apply (copies_back_unique hist (length hist - start)); try assumption; lia.
Qed.

Lemma push_loop_spec hist start n : start < length hist -> forall out,
  copies_back hist out (length hist - start) ->
  exists r, push_loop n (start + length out) (hist ++ out) = Val (hist ++ r) /\
    length r = length out + n /\ copies_back hist r (length hist - start).
Proof.
  intros Hs. induction n as [|n IH]; intros out Hc; cbn [push_loop].
  { exists out. split; [reflexivity|]. split; [lia|exact Hc]. }
  destruct (nth_error (hist ++ out) (start + length out)) as [x|] eqn:Hx.
  2:{ apply nth_error_None in Hx. rewrite app_length in Hx. lia. }
  destruct (IH (out ++ [x])) as (r & Er & Hl & Hr).
  - intros k Hk. rewrite app_length in Hk. cbn [length] in Hk. rewrite !app_assoc, !nth_error_snoc, !app_length.
    destruct (Nat.ltb_spec (length hist + k) (length hist + length out)) as [Hlt|Hge].
    + destruct (Nat.ltb_spec (length hist + k - (length hist - start)) (length hist + length out)); [|lia].
      apply Hc. lia.
    + assert (k = length out) as -> by lia. rewrite Nat.eqb_refl.
      destruct (Nat.ltb_spec (length hist + length out - (length hist - start)) (length hist + length out)); [|lia].
      replace (length hist + length out - (length hist - start)) with (start + length out) by lia. now rewrite Hx.
  - exists r. split; [|split; [rewrite Hl, app_length; cbn [length]; lia|exact Hr]].
    rewrite <- Er. rewrite app_length. cbn [length]. rewrite app_assoc. f_equal. lia.
Qed.

Lemma extend_from_within_ext_spec hist start len : start < length hist ->
  exists r, extend_from_within_ext hist start (start + len) = Val (hist ++ r) /\
    sub_seq_inflate hist start len = Val r.
Proof.
  intros Hs. destruct (sub_seq_inflate_spec hist start len Hs) as (r2 & E2 & L2 & C2).
  exists r2. split; [|exact E2]. unfold extend_from_within_ext.
  destruct (Nat.leb_spec (start + len) (length hist)).
  - destruct (Nat.leb_spec start (start + len)); [|lia]. do 2 f_equal.
    apply (copies_back_unique hist (length hist - start)); [lia| |now apply slice_copies; lia|exact C2].
    rewrite firstn_length, skipn_length; lia.
  - destruct (push_loop_spec hist start (start + len - start) Hs []) as (r & Er & Hl & Hr).
    { intros k Hk. cbn in Hk. lia. }
    cbn [length] in Er. rewrite app_nil_r, Nat.add_0_r in Er. rewrite Er. do 2 f_equal.
    apply (copies_back_unique hist (length hist - start)); try assumption; cbn [length] in Hl; lia.
Qed.
End Inflate.

(** ** Cursors *)
Definition rc_wf (c : rctx) : Prop := roff c <= length (rinput c).

Lemma nth_error_skipn_cons {A} (l : list A) n x : nth_error l n = Some x -> skipn n l = x :: skipn (S n) l.
Proof.
  revert l; induction n as [|n IH]; intros [|y l]; cbn; try discriminate.
  - now intros [= ->].
  - apply IH.
Qed.

Lemma read_byte_spec c :
  match rc_read_byte c with
  | Some (b, c') => rinput c' = rinput c /\ roff c' = roff c + 1 /\ rc_wf c' /\
                    skipn (roff c) (rinput c) = b :: skipn (roff c') (rinput c)
  | None => length (rinput c) <= roff c
  end.
Proof.
  unfold rc_read_byte. destruct (nth_error (rinput c) (roff c)) as [b|] eqn:E.
  - cbn [rinput roff]. repeat split.
    + unfold rc_wf; cbn. pose proof (proj1 (nth_error_Some (rinput c) (roff c))). rewrite E in H. specialize (H ltac:(discriminate)). lia.
    + rewrite Nat.add_1_r. now apply nth_error_skipn_cons.
  - now apply nth_error_None in E.
Qed.

Lemma read_be_spec sz c :
  match rc_read_be sz c with
  | Some (v, c') => rinput c' = rinput c /\ roff c' = roff c + sz /\ rc_wf c' /\
      exists bs, length bs = sz /\ skipn (roff c) (rinput c) = bs ++ skipn (roff c') (rinput c) /\
        v = from_be_bytes bs
  | None => length (rinput c) < roff c + sz
  end.
Proof.
  unfold rc_read_be. destruct (Nat.leb_spec (roff c + sz) (length (rinput c))) as [H|H]; [|exact H].
  cbn [rinput roff]. repeat split; [exact H|].
  exists (firstn sz (skipn (roff c) (rinput c))). split; [rewrite firstn_length, skipn_length; lia|].
  split; [|reflexivity]. rewrite <- (firstn_skipn sz (skipn (roff c) (rinput c))) at 1.
  f_equal. clear H. revert c; intros [l o]; cbn. revert l; induction o as [|o IH]; intros [|x l]; cbn; auto.
  now rewrite skipn_nil.
Qed.

(** Positional value of a big-endian / little-endian byte string. *)
Lemma from_be_bytes_app l b : from_be_bytes (l ++ [b]) = (256 * from_be_bytes l + b)%N.
Proof. unfold from_be_bytes. now rewrite fold_left_app. Qed.
Lemma from_be_le l : from_be_bytes l = from_le_bytes (rev l).
Proof.
  induction l as [|b l IH] using rev_ind; [reflexivity|].
  rewrite from_be_bytes_app, rev_app_distr, IH. cbn [rev app]. unfold from_le_bytes. cbn [fold_right]. lia.
Qed.
Lemma from_le_bound l : Forall (fun b => (b < 256)%N) l -> (from_le_bytes l < 256 ^ N.of_nat (length l))%N.
Proof.
  induction 1 as [|b l Hb Hl IH]; [cbn; lia|]. unfold from_le_bytes in *. cbn [fold_right length].
  rewrite Nat2N.inj_succ, N.pow_succ_r'. lia.
Qed.
Lemma from_le_digit l i b : Forall (fun b => (b < 256)%N) l -> nth_error l i = Some b ->
  (from_le_bytes l / 256 ^ N.of_nat i mod 256 = b)%N.
Proof.
  intros Hl. revert i; induction Hl as [|a l Ha Hl IH]; intros [|i]; cbn [nth_error]; try discriminate.
  - intros [= ->]. unfold from_le_bytes. cbn [fold_right]. fold (from_le_bytes l).
    rewrite N.pow_0_r, N.div_1_r. rewrite N.mul_comm, N.mod_add by lia. now apply N.mod_small.
  - intros Hi. unfold from_le_bytes. cbn [fold_right]. fold (from_le_bytes l).
    rewrite Nat2N.inj_succ, N.pow_succ_r', <- N.div_div by (try apply N.pow_nonzero; lia).
    replace ((a + 256 * from_le_bytes l) / 256)%N with (from_le_bytes l); [now apply IH|].
    rewrite N.mul_comm, N.div_add, N.div_small by lia. reflexivity.
Qed.

Lemma seek_spec c n :
  match rc_seek_to c n with
  | Some c' => rinput c' = rinput c /\ N.of_nat (roff c') = n /\ rc_wf c'
  | None => (N.of_nat (length (rinput c)) < n)%N
  end.
Proof.
  unfold rc_seek_to, rc_wf. destruct (N.leb_spec n (N.of_nat (length (rinput c)))); [|lia].
  cbn. repeat split; lia.
Qed.

Lemma split_spec c n : (N.of_nat (roff c) + n < w64)%N ->
  exists r, rc_split_at c n = Val r /\
  match r with
  | Some (fst_, snd_) =>
      rinput snd_ = rinput c /\ roff fst_ = roff c /\
      N.of_nat (roff snd_) = (N.of_nat (roff c) + n)%N /\ rc_wf snd_ /\
      length (rinput fst_) = roff snd_ /\
      rinput c = rinput fst_ ++ skipn (roff snd_) (rinput c)
  | None => (N.of_nat (length (rinput c)) < N.of_nat (roff c) + n)%N
  end.
Proof.
  intros Hw. unfold rc_split_at. destruct (N.leb_spec w64 (N.of_nat (roff c) + n)); [lia|].
  destruct (N.leb_spec (N.of_nat (roff c) + n) (N.of_nat (length (rinput c)))) as [H1|H1];
    (eexists; split; [reflexivity|]); [|exact H1].
  cbn [rinput roff]. unfold rc_wf; cbn [rinput roff]. repeat split; try lia.
  - rewrite firstn_length. lia.
  - symmetry. apply firstn_skipn.
Qed.

Lemma remaining_spec c : rc_wf c -> rc_remaining c = Val (skipn (roff c) (rinput c)).
Proof. intros H. unfold rc_remaining. destruct (Nat.leb_spec (roff c) (length (rinput c))); [reflexivity|unfold rc_wf in H; lia]. Qed.

(** ** WithErr *)
Section WE.
Context {E0 E1 : Type}.
(** All errors reported by the successive calls that a fold makes. *)
Fixpoint fold_errs {T U} (f : U -> T -> eresult U E0 E1) (u : U) (l : list T) : list (list E0) :=
  match l with
  | [] => []
  | x :: l' => match f u x with inl r => we_errs r :: fold_errs f (we_value r) l' | inr _ => [] end
  end.
Fixpoint fold_vals {T U} (f : U -> T -> eresult U E0 E1) (u : U) (l : list T) : U + E1 :=
  match l with
  | [] => inl u
  | x :: l' => match f u x with inl r => fold_vals f (we_value r) l' | inr e => inr e end
  end.
Lemma we_fold_from_spec {T U} (f : U -> T -> eresult U E0 E1) l : forall acc,
  match we_fold_from f acc l with
  | inl r => fold_vals f (we_value acc) l = inl (we_value r) /\
             we_errs r = concat (rev (fold_errs f (we_value acc) l)) ++ we_errs acc
  | inr e => fold_vals f (we_value acc) l = inr e
  end.
Proof.
  induction l as [|x l IH]; intros acc; cbn [we_fold_from fold_vals fold_errs].
  { split; reflexivity. }
  destruct (f (we_value acc) x) as [r|e]; [|reflexivity].
  specialize (IH (WE (we_value r) (we_errs r ++ we_errs acc))). cbn [we_value we_errs] in IH.
  destruct (we_fold_from f _ l) as [r'|e']; [|exact IH].
  destruct IH as [IH1 IH2]. split; [exact IH1|]. rewrite IH2. cbn [rev].
  rewrite concat_app. cbn [concat]. rewrite app_nil_r, app_assoc. reflexivity.
Qed.
End WE.

(** ** Statements in the form used by DataProps.v *)
Lemma big_endian_spec l : Forall (fun b => (b < 256)%N) l ->
  (from_be_bytes l < 256 ^ N.of_nat (length l))%N /\
  forall i b, nth_error (rev l) i = Some b ->
    (from_be_bytes l / 256 ^ N.of_nat i mod 256 = b)%N.
Proof.
  intros Hl. rewrite from_be_le.
  assert (Forall (fun b => (b < 256)%N) (rev l)) as Hr by (apply Forall_rev; exact Hl).
  split.
  - rewrite <- rev_length. now apply from_le_bound.
  - intros i b. now apply from_le_digit.
Qed.
Lemma split_refuted :
  exists c n, rc_wf c /\ (n < w64)%N /\ rc_split_at c n = Panic /\
    exists p, rc_split_at_wrapping c n = Some p /\ (N.of_nat (length (rinput c)) < n)%N.
Proof.
  exists (RC [0; 0]%N 1), (w64 - 1)%N. unfold rc_wf. cbn [rinput roff length].
  split; [lia|]. split; [vm_compute; reflexivity|]. split; [vm_compute; reflexivity|].
  eexists. split; vm_compute; reflexivity.
Qed.
Lemma remaining_all_spec c : rc_wf c ->
  rc_remaining c = Val (skipn (roff c) (rinput c)) /\
  rinput (rc_skip_remainder c) = rinput c /\ rc_wf (rc_skip_remainder c) /\
  skipn (roff (rc_skip_remainder c)) (rinput c) = [].
Proof.
  intros H. split; [now apply remaining_spec|]. unfold rc_wf; cbn. repeat split; [lia|apply skipn_all].
Qed.
Lemma sub_range_refuted : exists lo hi start len,
  start + len <= length (seq lo (hi - lo)) /\ sub_range lo hi start len = Panic.
Proof. exists 0, 3, 1, 2. cbn. split; [lia|reflexivity]. Qed.
Lemma sub_range_spec lo hi start len :
  match sub_range lo hi start len with
  | Val (a, b) => seq a (b - a) = firstn len (skipn start (seq lo (hi - lo)))
  | Panic => length (seq lo (hi - lo)) <= start + len
  end.
Proof.
  unfold sub_range. rewrite seq_length. destruct (Nat.ltb_spec (start + len) (hi - lo)); [|lia].
  replace (lo + start + len - (lo + start)) with len by lia.
  assert (forall n k a, k <= n -> skipn k (seq a n) = seq (a + k) (n - k)) as Hs.
  { induction n as [|n IH]; intros [|k] a Hk; cbn; try lia; rewrite ?Nat.add_0_r; auto.
    rewrite IH by lia. f_equal; lia. }
  assert (forall n k a, k <= n -> firstn k (seq a n) = seq a k) as Hf.
  { induction n as [|n IH]; intros [|k] a Hk; cbn; try lia; auto. f_equal. apply IH. lia. }
  rewrite Hs, Hf by lia. reflexivity.
Qed.
Lemma sorted_search_complete {K} (num : K -> N) (q : N) (cmp : K -> outcome comparison)
    (key : nat -> outcome K) (kv : nat -> K) (len : nat) :
  (forall k, cmp k = Val (q ?= num k)%N) -> (forall i, i < len -> key i = Val (kv i)) ->
  (forall i j, i <= j -> j < len -> (num (kv i) <= num (kv j))%N) ->
  forall i, i < len -> num (kv i) = q ->
  exists j, find_sorted cmp len key = Some (Val (Some j)) /\ j < len /\ num (kv j) = q.
Proof.
  intros Hc Hk Hs i Hi Hq.
  destruct (find_sorted_safe num q cmp key kv len Hc Hk) as ([j|] & E & Hj).
  - exists j. split; [exact E|]. now apply Hj.
  - exfalso. exact (find_sorted_complete num q cmp key kv len Hc Hk Hs i Hi Hq E).
Qed.
Lemma unsorted_search_spec {K V} (num : K -> N) (q : N) (eqk : K -> outcome bool)
    (ev : V -> outcome K) (kv : V -> K) (l : list V) :
  (forall k, eqk k = Val (q =? num k)%N) -> (forall v, In v l -> ev v = Val (kv v)) ->
  exists r, find_unsorted eqk ev 0 l = Val r /\
  match r with
  | Some i => exists v, nth_error l i = Some v /\ num (kv v) = q /\
                forall j v', j < i -> nth_error l j = Some v' -> num (kv v') <> q
  | None => forall v, In v l -> num (kv v) <> q
  end.
Proof.
  intros He Hev. destruct (find_unsorted_spec num q eqk ev kv l He Hev 0) as (r & E & H).
  exists r. split; [exact E|]. destruct r; [|exact H].
  destruct H as (j & v & -> & H). exists v. exact H.
Qed.
Lemma inflate_dist {A} (hist : list A) dist len : 0 < dist <= length hist ->
  exists out, sub_seq_inflate hist (length hist - dist) len = Val out /\ length out = len /\
    copies_back hist out dist.
Proof.
  intros Hd. destruct (sub_seq_inflate_spec hist (length hist - dist) len) as (r & E & L & C); [lia|].
  exists r. repeat split; [exact E|exact L|]. now replace (length hist - (length hist - dist)) with dist in C by lia.
Qed.
Lemma runtime_agrees {A} (hist : list A) start len : start < length hist ->
  slice_ext hist start (start + len) = sub_seq_inflate hist start len /\
  exists out, sub_seq_inflate hist start len = Val out /\
    extend_from_within_ext hist start (start + len) = Val (hist ++ out).
Proof.
  intros Hs. split; [now apply slice_ext_inflate|].
  destruct (extend_from_within_ext_spec hist start len Hs) as (r & E1 & E2). exists r. auto.
Qed.
Lemma join_spec {E0 E1 T U} (w : with_err T E0) (f : T -> eresult U E0 E1) :
  match f (we_value w) with
  | inl r => exists r', we_join w f = inl r' /\ we_value r' = we_value r /\
               we_errs r' = we_errs r ++ we_errs w
  | inr e => we_join w f = inr e
  end.
Proof. unfold we_join. destruct (f (we_value w)); [eexists; split; [reflexivity|split; reflexivity]|reflexivity]. Qed.
Lemma fold_spec {E0 E1 T U} (init : U) (l : list T) (f : U -> T -> eresult U E0 E1) :
  match we_fold init l f with
  | inl r => fold_vals f init l = inl (we_value r) /\
             we_errs r = concat (rev (fold_errs f init l))
  | inr e => fold_vals f init l = inr e
  end.
Proof.
  pose proof (we_fold_from_spec f l (we_new init)) as H. unfold we_fold.
  destruct (we_fold_from f (we_new init) l); [|exact H]. cbn in H. now rewrite app_nil_r in H.
Qed.
Lemma strict_spec {E T} (w : with_err T E) :
  (we_errs w = [] -> we_into_strict w = inl (we_value w) /\ we_has_errs w = false) /\
  (we_errs w <> [] -> we_into_strict w = inr (we_errs w) /\ we_has_errs w = true).
Proof. unfold we_into_strict, we_has_errs. destruct (we_errs w); split; intros; try congruence; split; reflexivity. Qed.
Lemma downgrade_spec {E T} (v : eresult T E E) (d : T) :
  match v with
  | inl w => downgrade_error_with v d = w
  | inr e => downgrade_error_with v d = WE d [e]
  end.
Proof. destruct v; reflexivity. Qed.
