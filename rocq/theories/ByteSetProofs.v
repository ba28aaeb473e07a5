From Verif Require Import Base ByteSetModel.
From Coq Require Import Sorting.Sorted.
Open Scope N_scope.

Lemma land_bit_nonzero w i : negb (N.land w (N.shiftl 1 i) =? 0) = N.testbit w i.
Proof.
  destruct (N.testbit w i) eqn:Hb.
  - apply negb_true_iff, N.eqb_neq. intros H0.
    assert (N.testbit (N.land w (N.shiftl 1 i)) i = true) as Ht.
    { rewrite N.land_spec, Hb, N.shiftl_spec_high' by lia.
      rewrite N.sub_diag. reflexivity. }
    rewrite H0, N.bits_0 in Ht. discriminate.
  - apply negb_false_iff, N.eqb_eq. apply N.bits_inj. intros j.
    rewrite N.land_spec, N.bits_0.
    destruct (N.eq_dec j i) as [->|Hne]; [now rewrite Hb|].
    replace (N.testbit (N.shiftl 1 i) j) with false; [apply andb_false_r|].
    symmetry. rewrite N.shiftl_1_l, N.pow2_bits_eqb. apply N.eqb_neq. lia.
Qed.

(** The bit of the byte set that stands for byte [b]. *)
Definition bit_of (s : byteset) (b : N) : bool :=
  get_bit_with s b (fun w i => N.testbit w i).

Lemma contains_bit s b : contains s b = bit_of s b.
Proof.
  unfold contains, bit_of, get_bit_with.
  destruct (b <? 64), (b <? 128), (b <? 192); apply land_bit_nonzero.
Qed.

Lemma not64_spec x i : i < 64 -> N.testbit (not64 x) i = negb (N.testbit x i).
Proof.
  intros Hi. unfold not64. rewrite N.lxor_spec, N.ones_spec_low by lia.
  destruct (N.testbit x i); reflexivity.
Qed.
Lemma not64_lt x : x < w64 -> not64 x < w64.
Proof.
  intros Hx. rewrite w64_pow in *. apply lt_pow2_bits. intros m Hm. unfold not64.
  rewrite N.lxor_spec, N.ones_spec_high by lia.
  rewrite (testbit_above x 64 m) by lia. reflexivity.
Qed.
Lemma lor_lt x y : x < w64 -> y < w64 -> N.lor x y < w64.
Proof.
  intros Hx Hy. rewrite w64_pow in *. apply lt_pow2_bits. intros m Hm.
  rewrite N.lor_spec, (testbit_above x 64 m), (testbit_above y 64 m) by lia. reflexivity.
Qed.
Lemma land_lt x y : x < w64 -> N.land x y < w64.
Proof.
  intros Hx. rewrite w64_pow in *. apply lt_pow2_bits. intros m Hm.
  rewrite N.land_spec, (testbit_above x 64 m) by lia. reflexivity.
Qed.
Lemma shl1_lt i : i < 64 -> N.shiftl 1 i < w64.
Proof. intros Hi. rewrite N.shiftl_1_l, w64_pow. apply N.pow_lt_mono_r; lia. Qed.
Lemma shl1_bit i j : N.testbit (N.shiftl 1 i) j = (i =? j).
Proof. rewrite N.shiftl_1_l. apply N.pow2_bits_eqb. Qed.
Lemma ones_lt : N.ones 64 < w64.
Proof. reflexivity. Qed.

(** *** Well-formedness *)
Lemma wf_empty : wf empty. Proof. repeat split; reflexivity. Qed.
Lemma wf_full : wf full. Proof. repeat split; reflexivity. Qed.
Lemma wf_set_bit_with s b f : wf s -> b < 256 ->
  (forall w i, w < w64 -> i < 64 -> f w i < w64) -> wf (set_bit_with s b f).
Proof.
  intros (H0 & H1 & H2 & H3) Hb Hf. unfold set_bit_with.
  destruct (N.ltb_spec b 64); [|destruct (N.ltb_spec b 128); [|destruct (N.ltb_spec b 192)]];
    repeat split; cbn [w0 w1 w2 w3]; auto; apply Hf; auto; lia.
Qed.
Lemma wf_insert s b : wf s -> b < 256 -> wf (insert s b).
Proof.
  intros Hs Hb. apply wf_set_bit_with; auto. intros w i Hw Hi.
  apply lor_lt; [exact Hw|now apply shl1_lt].
Qed.
Lemma wf_remove s b : wf s -> b < 256 -> wf (remove s b).
Proof.
  intros Hs Hb. apply wf_set_bit_with; auto. intros w i Hw Hi. now apply land_lt.
Qed.
Lemma wf_complement s : wf s -> wf (complement s).
Proof. intros (H0 & H1 & H2 & H3). repeat split; now apply not64_lt. Qed.
Lemma wf_union s t : wf s -> wf t -> wf (union s t).
Proof. intros (H0 & H1 & H2 & H3) (? & ? & ? & ?). repeat split; now apply lor_lt. Qed.
Lemma wf_intersection s t : wf s -> wf (intersection s t).
Proof. intros (H0 & H1 & H2 & H3). repeat split; now apply land_lt. Qed.
Lemma wf_difference s t : wf s -> wf (difference s t).
Proof. intros (H0 & H1 & H2 & H3). repeat split; now apply land_lt. Qed.
Lemma bit_to_quad_lt b o : bit_to_quad b o < w64.
Proof.
  unfold bit_to_quad. destruct (N.ltb_spec b o); [reflexivity|].
  destruct (N.leb_spec 64 (b - o)); [reflexivity|]. apply shl1_lt; lia.
Qed.
Lemma wf_singleton b : wf (singleton b).
Proof. repeat split; apply bit_to_quad_lt. Qed.
Lemma wf_fold_insert l s : wf s -> Forall (fun b => b < 256) l -> wf (fold_left insert l s).
Proof.
  revert s; induction l as [|b l IH]; intros s Hs Hl; [exact Hs|].
  inversion Hl; subst. apply IH; [now apply wf_insert|assumption].
Qed.
Lemma wf_from_list l : Forall (fun b => b < 256) l -> wf (from_list l).
Proof. apply wf_fold_insert, wf_empty. Qed.

(** *** Membership *)
Ltac quad b :=
  destruct (N.ltb_spec b 64); [|destruct (N.ltb_spec b 128); [|destruct (N.ltb_spec b 192)]].

Lemma contains_empty b : contains empty b = false.
Proof.
  rewrite contains_bit. unfold bit_of, get_bit_with, empty; cbn [w0 w1 w2 w3].
  quad b; apply N.bits_0.
Qed.
Lemma contains_full b : b < 256 -> contains full b = true.
Proof.
  intros Hb. rewrite contains_bit. unfold bit_of, get_bit_with, full; cbn [w0 w1 w2 w3].
  quad b; apply N.ones_spec_low; lia.
Qed.
Lemma contains_union s t b : contains (union s t) b = contains s b || contains t b.
Proof.
  rewrite !contains_bit. unfold bit_of, get_bit_with, union; cbn [w0 w1 w2 w3].
  quad b; apply N.lor_spec.
Qed.
Lemma contains_intersection s t b :
  contains (intersection s t) b = contains s b && contains t b.
Proof.
  rewrite !contains_bit. unfold bit_of, get_bit_with, intersection; cbn [w0 w1 w2 w3].
  quad b; apply N.land_spec.
Qed.
Lemma contains_complement s b : b < 256 -> contains (complement s) b = negb (contains s b).
Proof.
  intros Hb. rewrite !contains_bit.
  unfold bit_of, get_bit_with, complement, map_bits; cbn [w0 w1 w2 w3].
  quad b; apply not64_spec; lia.
Qed.
Lemma contains_difference s t b : b < 256 ->
  contains (difference s t) b = contains s b && negb (contains t b).
Proof.
  intros Hb. rewrite !contains_bit.
  unfold bit_of, get_bit_with, difference, zip_bits_with; cbn [w0 w1 w2 w3].
  quad b; rewrite N.land_spec, not64_spec by lia; reflexivity.
Qed.
Lemma contains_insert s b c : b < 256 -> c < 256 ->
  contains (insert s b) c = (b =? c) || contains s c.
Proof.
  intros Hb Hc. rewrite !contains_bit. unfold bit_of, get_bit_with, insert, set_bit_with.
  quad b; cbn [w0 w1 w2 w3]; quad c; cbn [w0 w1 w2 w3]; try lia;
    rewrite ?N.lor_spec, ?shl1_bit;
    try (replace (b =? c) with false by lia; reflexivity);
    rewrite orb_comm; f_equal; lia.
Qed.
Lemma contains_remove s b c : b < 256 -> c < 256 ->
  contains (remove s b) c = negb (b =? c) && contains s c.
Proof.
  intros Hb Hc. rewrite !contains_bit. unfold bit_of, get_bit_with, remove, set_bit_with.
  quad b; cbn [w0 w1 w2 w3]; quad c; cbn [w0 w1 w2 w3]; try lia;
    rewrite ?N.land_spec, ?not64_spec, ?shl1_bit by lia;
    try (replace (b =? c) with false by lia; reflexivity);
    rewrite andb_comm; f_equal; lia.
Qed.
Lemma contains_singleton b c : b < 256 -> c < 256 -> contains (singleton b) c = (b =? c).
Proof.
  intros Hb Hc. rewrite !contains_bit.
  unfold bit_of, get_bit_with, singleton, bit_to_quad; cbn [w0 w1 w2 w3].
  quad c;
  (match goal with |- context [b <? ?o] => destruct (N.ltb_spec b o) end);
  try (rewrite N.bits_0; lia);
  (match goal with |- context [64 <=? ?o] => destruct (N.leb_spec 64 o) end);
  try (rewrite N.bits_0; lia); rewrite shl1_bit; lia.
Qed.
Lemma contains_fold_insert l s c : Forall (fun b => b < 256) l -> c < 256 ->
  contains (fold_left insert l s) c = existsb (N.eqb c) l || contains s c.
Proof.
  revert s; induction l as [|b l IH]; intros s Hl Hc; [reflexivity|].
  inversion Hl; subst. cbn [fold_left existsb]. rewrite IH, contains_insert by assumption.
  rewrite (N.eqb_sym c b). destruct (b =? c), (existsb (N.eqb c) l); reflexivity.
Qed.
Lemma contains_from_list l c : Forall (fun b => b < 256) l -> c < 256 ->
  contains (from_list l) c = existsb (N.eqb c) l.
Proof.
  intros Hl Hc. unfold from_list. rewrite contains_fold_insert, contains_empty by assumption.
  apply orb_false_r.
Qed.
Lemma existsb_nrange c lo n : existsb (N.eqb c) (nrange lo n) = (lo <=? c) && (c <? lo + N.of_nat n).
Proof.
  destruct (existsb (N.eqb c) (nrange lo n)) eqn:E.
  - apply existsb_exists in E as (x & Hx & Hex). apply in_nrange in Hx. lia.
  - symmetry. destruct ((lo <=? c) && (c <? lo + N.of_nat n)) eqn:E2; [|reflexivity].
    assert (existsb (N.eqb c) (nrange lo n) = true) as Ht.
    { apply existsb_exists. exists c. rewrite in_nrange. lia. }
    congruence.
Qed.
Lemma forall_nrange lo n : lo + N.of_nat n <= 256 -> Forall (fun b => b < 256) (nrange lo n).
Proof. intros H. apply Forall_forall. intros x Hx. apply in_nrange in Hx. lia. Qed.

Lemma fold_mask_bit l m j : j < 64 ->
  N.testbit (fold_left (fun m i => N.lor m (N.shiftl 1 (N.land i 63))) l m) j
  = N.testbit m j || existsb (fun i => N.land i 63 =? j) l.
Proof.
  revert m; induction l as [|x l IH]; intros m Hj; cbn [fold_left existsb].
  - now rewrite orb_false_r.
  - rewrite IH, N.lor_spec, shl1_bit by exact Hj. now rewrite orb_assoc.
Qed.
Lemma fold_mask_lt l m : m < w64 ->
  fold_left (fun m i => N.lor m (N.shiftl 1 (N.land i 63))) l m < w64.
Proof.
  revert m; induction l as [|x l IH]; intros m Hm; cbn [fold_left]; [exact Hm|].
  apply IH, lor_lt; [exact Hm|]. apply shl1_lt.
  change 63 with (N.ones 6). rewrite N.land_ones. apply N.mod_lt. discriminate.
Qed.
Lemma land63 x : N.land x 63 = x mod 64.
Proof. change 63 with (N.ones 6). rewrite N.land_ones. reflexivity. Qed.
Lemma shr6 x : N.shiftr x 6 = x / 64.
Proof. rewrite N.shiftr_div_pow2. reflexivity. Qed.

Lemma mask_range_bit lo n j q : j < 64 -> 64 * q <= lo -> lo + N.of_nat n <= 64 * q + 64 ->
  existsb (fun i => N.land i 63 =? j) (nrange lo n)
  = (lo <=? 64 * q + j) && (64 * q + j <? lo + N.of_nat n).
Proof.
  intros Hj Hlo Hhi.
  destruct (existsb _ _) eqn:E.
  - apply existsb_exists in E as (x & Hx & Hex). apply in_nrange in Hx.
    apply N.eqb_eq in Hex. rewrite land63 in Hex.
    assert (x = 64 * q + j); [|subst; lia].
    assert (x = 64 * q + (x - 64 * q)) as Hxq by lia.
    rewrite Hxq in Hex. rewrite N.add_comm, N.mul_comm, N.mod_add in Hex by lia.
    rewrite N.mod_small in Hex by lia. lia.
  - symmetry. destruct (_ && _) eqn:E2; [|reflexivity].
    rewrite <- E. symmetry. apply existsb_exists. exists (64 * q + j).
    split; [apply in_nrange; lia|]. rewrite land63. apply N.eqb_eq.
    rewrite N.add_comm, N.mul_comm, N.mod_add by lia. apply N.mod_small. lia.
Qed.

Lemma contains_from_range_incl lo hi b : lo < 256 -> hi < 256 -> b < 256 ->
  contains (from_range_incl lo hi) b = (lo <=? b) && (b <=? hi).
Proof.
  intros Hlo Hhi Hb. unfold from_range_incl.
  destruct (N.eqb_spec lo hi) as [->|Hne].
  { rewrite contains_from_list by (try assumption; constructor; auto).
    cbn [existsb]. lia. }
  destruct (N.ltb_spec hi lo) as [Hlt|Hge].
  { rewrite contains_empty. lia. }
  rewrite !shr6.
  destruct (N.eqb_spec (lo / 64) (hi / 64)) as [Heq|Hneq].
  2:{ rewrite contains_from_list by (try assumption; apply forall_nrange; lia).
      rewrite existsb_nrange. lia. }
  set (vals := nrange lo (N.to_nat (hi + 1 - lo))).
  assert (forall q j, lo / 64 = q -> j < 64 ->
    N.testbit (fold_left (fun m i => N.lor m (N.shiftl 1 (N.land i 63))) vals 0) j
    = (lo <=? 64 * q + j) && (64 * q + j <=? hi)) as Hm.
  { intros q j Hq Hj. rewrite fold_mask_bit, N.bits_0 by exact Hj. cbn [orb].
    unfold vals. rewrite (mask_range_bit lo _ j q) by lia. lia. }
  rewrite contains_bit. unfold bit_of, get_bit_with.
  destruct (N.eqb_spec (lo / 64) 0) as [E|E0];
    [|destruct (N.eqb_spec (lo / 64) 1) as [E|E1];
      [|destruct (N.eqb_spec (lo / 64) 2) as [E|E2]]];
    cbn [w0 w1 w2 w3]; quad b; rewrite ?N.bits_0; try lia.
  - rewrite (Hm 0) by lia. lia.
  - rewrite (Hm 1) by lia. lia.
  - rewrite (Hm 2) by lia. lia.
  - rewrite (Hm 3) by lia. lia.
Qed.

Lemma wf_from_range_incl lo hi : lo < 256 -> hi < 256 -> wf (from_range_incl lo hi).
Proof.
  intros Hlo Hhi. unfold from_range_incl.
  destruct (N.eqb_spec lo hi); [apply wf_from_list; repeat constructor; lia|].
  destruct (N.ltb_spec hi lo); [apply wf_empty|].
  destruct (N.shiftr lo 6 =? N.shiftr hi 6).
  - destruct (_ =? 0); [|destruct (_ =? 1); [|destruct (_ =? 2)]];
      repeat split; cbn [w0 w1 w2 w3]; try reflexivity; now apply fold_mask_lt.
  - apply wf_from_list, forall_nrange. lia.
Qed.

Lemma contains_from_range lo hi b : lo < 256 -> hi < 256 -> b < 256 ->
  contains (from_range lo hi) b = (lo <=? b) && (b <? hi).
Proof.
  intros Hlo Hhi Hb. unfold from_range. destruct (N.leb_spec hi lo).
  - rewrite contains_empty. lia.
  - rewrite contains_from_range_incl by lia. lia.
Qed.

(** *** Extensionality *)
Lemma ext_word x y : x < w64 -> y < w64 ->
  (forall i, i < 64 -> N.testbit x i = N.testbit y i) -> x = y.
Proof.
  intros Hx Hy H. apply N.bits_inj. intros i.
  destruct (N.lt_ge_cases i 64); [now apply H|].
  rewrite w64_pow in *. now rewrite !(testbit_above _ 64 i) by lia.
Qed.
Lemma contains_ext s t : wf s -> wf t ->
  (forall b, b < 256 -> contains s b = contains t b) -> s = t.
Proof.
  intros (Hs0 & Hs1 & Hs2 & Hs3) (Ht0 & Ht1 & Ht2 & Ht3) H.
  assert (forall b, b < 256 -> bit_of s b = bit_of t b) as Hb.
  { intros b Hb. rewrite <- !contains_bit. now apply H. }
  unfold bit_of, get_bit_with in Hb. destruct s as [a0 a1 a2 a3], t as [b0 b1 b2 b3].
  cbn [w0 w1 w2 w3] in *. f_equal; apply ext_word; auto; intros i Hi.
  - specialize (Hb i). destruct (N.ltb_spec i 64); [|lia]. apply Hb. lia.
  - specialize (Hb (64 + i)). destruct (N.ltb_spec (64 + i) 64); [lia|].
    destruct (N.ltb_spec (64 + i) 128); [|lia].
    replace (64 + i - 64) with i in Hb by lia. apply Hb. lia.
  - specialize (Hb (128 + i)). destruct (N.ltb_spec (128 + i) 64); [lia|].
    destruct (N.ltb_spec (128 + i) 128); [lia|]. destruct (N.ltb_spec (128 + i) 192); [|lia].
    replace (128 + i - 128) with i in Hb by lia. apply Hb. lia.
  - specialize (Hb (192 + i)). destruct (N.ltb_spec (192 + i) 64); [lia|].
    destruct (N.ltb_spec (192 + i) 128); [lia|]. destruct (N.ltb_spec (192 + i) 192); [lia|].
    replace (192 + i - 192) with i in Hb by lia. apply Hb. lia.
Qed.

Lemma eqb_eq s t : eqb s t = true <-> s = t.
Proof.
  unfold eqb. destruct s as [a0 a1 a2 a3], t as [b0 b1 b2 b3]; cbn [w0 w1 w2 w3]. rewrite !andb_true_iff, !N.eqb_eq.
  split; [intros [[[-> ->] ->] ->]; reflexivity|intros E; inversion E; auto].
Qed.
Lemma is_empty_spec s : wf s -> (is_empty s = true <-> forall b, b < 256 -> contains s b = false).
Proof.
  intros Hs. unfold is_empty. rewrite eqb_eq. split.
  - intros -> b _. apply contains_empty.
  - intros H. apply contains_ext; [exact Hs|apply wf_empty|].
    intros b Hb. rewrite contains_empty. now apply H.
Qed.
Lemma is_full_spec s : wf s -> (is_full s = true <-> forall b, b < 256 -> contains s b = true).
Proof.
  intros Hs. unfold is_full. rewrite eqb_eq. split.
  - intros -> b Hb. now apply contains_full.
  - intros H. apply contains_ext; [exact Hs|apply wf_full|].
    intros b Hb. rewrite contains_full by exact Hb. now apply H.
Qed.
Lemma is_disjoint_spec s t : wf s ->
  (is_disjoint s t = true <-> forall b, b < 256 -> contains s b && contains t b = false).
Proof.
  intros Hs. unfold is_disjoint. rewrite is_empty_spec by now apply wf_intersection.
  split; intros H b Hb; specialize (H b Hb); rewrite contains_intersection in *; exact H.
Qed.

(** *** Iteration, cardinality, extrema *)
Lemma in_iter s b : In b (iter s) <-> b < 256 /\ contains s b = true.
Proof. unfold iter. rewrite filter_In, in_nrange. intuition lia. Qed.

Lemma sorted_nrange lo n : StronglySorted N.lt (nrange lo n).
Proof.
  revert lo; induction n as [|n IH]; intros lo; cbn [nrange]; constructor; [apply IH|].
  apply Forall_forall. intros x Hx. apply in_nrange in Hx. lia.
Qed.
Lemma sorted_filter {A} (R : A -> A -> Prop) f l :
  StronglySorted R l -> StronglySorted R (filter f l).
Proof.
  induction 1 as [|x l Hs IH Hf]; cbn [filter]; [constructor|].
  destruct (f x); [|exact IH]. constructor; [exact IH|].
  apply Forall_forall. intros y Hy. apply filter_In in Hy as [Hy _].
  rewrite Forall_forall in Hf. now apply Hf.
Qed.
Lemma iter_sorted s : StronglySorted N.lt (iter s).
Proof. apply sorted_filter, sorted_nrange. Qed.

Lemma nrange_app lo a b : nrange lo (a + b) = nrange lo a ++ nrange (lo + N.of_nat a) b.
Proof.
  revert lo; induction a as [|a IH]; intros lo; cbn [nrange app Nat.add].
  - f_equal. lia.
  - rewrite IH. do 3 f_equal. lia.
Qed.
Lemma nrange_shift d lo n : nrange (d + lo) n = map (N.add d) (nrange lo n).
Proof.
  revert lo; induction n as [|n IH]; intros lo; cbn [nrange map]; [reflexivity|].
  rewrite <- N.add_assoc, IH. reflexivity.
Qed.
Lemma filter_map_comm {A B} (g : A -> B) f l : filter f (map g l) = map g (filter (fun x => f (g x)) l).
Proof. induction l as [|x l IH]; cbn; [reflexivity|]. destruct (f (g x)); cbn; now rewrite IH. Qed.
Lemma filter_ext_in' {A} (f g : A -> bool) l :
  (forall x, In x l -> f x = g x) -> filter f l = filter g l.
Proof. apply filter_ext_in. Qed.

Lemma len_iter s : len s = N.of_nat (length (iter s)).
Proof.
  unfold len, iter. change 256%nat with (64 + (64 + (64 + 64)))%nat.
  rewrite !nrange_app, !filter_app, !app_length.
  assert (forall d w, (forall i, i < 64 -> bit_of s (d + i) = N.testbit w i) ->
     length (filter (contains s) (nrange d 64)) = length (filter (N.testbit w) (nrange 0 64))) as H.
  { intros d w Hd. replace d with (d + 0) by lia. rewrite nrange_shift, filter_map_comm, map_length.
    f_equal. apply filter_ext_in. intros x Hx. apply in_nrange in Hx.
    rewrite contains_bit. apply Hd. lia. }
  unfold count_ones.
  rewrite (H 0 (w0 s)), (H (0 + N.of_nat 64) (w1 s)), (H (0 + N.of_nat 64 + N.of_nat 64) (w2 s)),
    (H (0 + N.of_nat 64 + N.of_nat 64 + N.of_nat 64) (w3 s)); [lia|..]; intros i Hi;
    unfold bit_of, get_bit_with.
  - quad (0 + N.of_nat 64 + N.of_nat 64 + N.of_nat 64 + i); try lia. f_equal. lia.
  - quad (0 + N.of_nat 64 + N.of_nat 64 + i); try lia. f_equal. lia.
  - quad (0 + N.of_nat 64 + i); try lia. f_equal. lia.
  - quad (0 + i); try lia. f_equal.
Qed.

Lemma find_least f l x : StronglySorted N.lt l -> find f l = Some x ->
  f x = true /\ In x l /\ forall y, In y l -> f y = true -> x <= y.
Proof.
  induction l as [|a l IH]; cbn [find]; intros Hs Hf; [discriminate|].
  inversion Hs as [|a' l' Hs' Hall]; subst. rewrite Forall_forall in Hall.
  destruct (f a) eqn:Ha.
  - injection Hf as <-. split; [exact Ha|split; [now left|]].
    intros y [->|Hy] _; [lia|]. apply N.lt_le_incl, Hall, Hy.
  - destruct (IH Hs' Hf) as (H1 & H2 & H3). split; [exact H1|split; [now right|]].
    intros y [->|Hy] Hfy; [congruence|]. now apply H3.
Qed.

Lemma min_set_bit_none x : min_set_bit x = None -> forall i, i < 64 -> N.testbit x i = false.
Proof.
  unfold min_set_bit. intros H i Hi. apply (find_none _ _ H i). apply in_nrange. lia.
Qed.
Lemma min_set_bit_some x i : min_set_bit x = Some i ->
  i < 64 /\ N.testbit x i = true /\ forall j, j < 64 -> N.testbit x j = true -> i <= j.
Proof.
  unfold min_set_bit. intros H. apply find_least in H; [|apply sorted_nrange].
  destruct H as (H1 & H2 & H3). apply in_nrange in H2. split; [lia|split; [exact H1|]].
  intros j Hj Hb. apply H3; [apply in_nrange; lia|exact Hb].
Qed.

Lemma q0 s c : c < 64 -> contains s c = N.testbit (w0 s) c.
Proof. intros Hc. rewrite contains_bit. unfold bit_of, get_bit_with. quad c; lia || reflexivity. Qed.
Lemma q1 s c : c < 64 -> contains s (64 + c) = N.testbit (w1 s) c.
Proof.
  intros Hc. rewrite contains_bit. unfold bit_of, get_bit_with. quad (64 + c); try lia. f_equal; lia.
Qed.
Lemma q2 s c : c < 64 -> contains s (128 + c) = N.testbit (w2 s) c.
Proof.
  intros Hc. rewrite contains_bit. unfold bit_of, get_bit_with. quad (128 + c); try lia. f_equal; lia.
Qed.
Lemma q3 s c : c < 64 -> contains s (192 + c) = N.testbit (w3 s) c.
Proof.
  intros Hc. rewrite contains_bit. unfold bit_of, get_bit_with. quad (192 + c); try lia. f_equal; lia.
Qed.
Lemma quads (P : N -> Prop) :
  (forall j, j < 64 -> P j) -> (forall j, j < 64 -> P (64 + j)) ->
  (forall j, j < 64 -> P (128 + j)) -> (forall j, j < 64 -> P (192 + j)) ->
  forall c, c < 256 -> P c.
Proof.
  intros H0 H1 H2 H3 c Hc.
  destruct (N.lt_ge_cases c 64); [now apply H0|].
  destruct (N.lt_ge_cases c 128); [replace c with (64 + (c - 64)) by lia; apply H1; lia|].
  destruct (N.lt_ge_cases c 192); [replace c with (128 + (c - 128)) by lia; apply H2; lia|].
  replace c with (192 + (c - 192)) by lia; apply H3; lia.
Qed.

Ltac by_quads := match goal with |- forall c : N, c < 256 -> @?P c => apply (quads P); cbv beta end.

Lemma min_elem_spec s :
  match min_elem s with
  | Some b => b < 256 /\ contains s b = true /\ forall c, c < 256 -> contains s c = true -> b <= c
  | None => forall c, c < 256 -> contains s c = false
  end.
Proof.
  unfold min_elem.
  destruct (min_set_bit (w0 s)) as [i|] eqn:E0.
  { apply min_set_bit_some in E0 as (Hi & Hb & Hl).
    split; [lia|split; [now rewrite q0|]]. by_quads; intros j Hj; rewrite ?q0 by lia; auto; lia. }
  pose proof (min_set_bit_none _ E0) as N0.
  destruct (min_set_bit (w1 s)) as [i|] eqn:E1.
  { apply min_set_bit_some in E1 as (Hi & Hb & Hl).
    split; [lia|split; [now rewrite q1|]].
    by_quads; intros j Hj; rewrite ?q0, ?q1 by lia; intros Ht; try lia.
    - rewrite N0 in Ht by lia; discriminate.
    - specialize (Hl j Hj Ht). lia. }
  pose proof (min_set_bit_none _ E1) as N1.
  destruct (min_set_bit (w2 s)) as [i|] eqn:E2.
  { apply min_set_bit_some in E2 as (Hi & Hb & Hl).
    split; [lia|split; [now rewrite q2|]].
    by_quads; intros j Hj; rewrite ?q0, ?q1, ?q2 by lia; intros Ht; try lia.
    - rewrite N0 in Ht by lia; discriminate.
    - rewrite N1 in Ht by lia; discriminate.
    - specialize (Hl j Hj Ht). lia. }
  pose proof (min_set_bit_none _ E2) as N2.
  destruct (min_set_bit (w3 s)) as [i|] eqn:E3.
  { apply min_set_bit_some in E3 as (Hi & Hb & Hl).
    split; [lia|split; [now rewrite q3|]].
    by_quads; intros j Hj; rewrite ?q0, ?q1, ?q2, ?q3 by lia; intros Ht; try lia.
    - rewrite N0 in Ht by lia; discriminate.
    - rewrite N1 in Ht by lia; discriminate.
    - rewrite N2 in Ht by lia; discriminate.
    - specialize (Hl j Hj Ht). lia. }
  pose proof (min_set_bit_none _ E3) as N3.
  by_quads; intros j Hj; rewrite ?q0, ?q1, ?q2, ?q3 by lia; auto.
Qed.

(** [max_elem] is right exactly when the top word is non-empty (proved) and can
    be wrong otherwise (see the refutation in ByteSetProps). *)
Lemma max_elem_top_word s : wf s -> w3 s <> 0 ->
  match max_elem s with
  | Some b => b < 256 /\ contains s b = true /\ forall c, c < 256 -> contains s c = true -> c <= b
  | None => False
  end.
Proof.
  intros (_ & _ & _ & H3) Hnz. unfold max_elem, max_set_bit.
  destruct (N.eqb_spec (w3 s) 0) as [E|_]; [contradiction|].
  assert (N.log2 (w3 s) < 64) as Hl. { rewrite w64_pow in H3. apply N.log2_lt_pow2; lia. }
  split; [lia|]. split.
  - rewrite contains_bit. unfold bit_of, get_bit_with. quad (192 + N.log2 (w3 s)); try lia.
    replace (192 + N.log2 (w3 s) - 192) with (N.log2 (w3 s)) by lia. now apply N.bit_log2.
  - intros c Hc Hcc. rewrite contains_bit in Hcc. unfold bit_of, get_bit_with in Hcc.
    quad c; try lia.
    destruct (N.le_gt_cases (c - 192) (N.log2 (w3 s))) as [|Hgt]; [lia|].
    rewrite N.bits_above_log2 in Hcc by lia. discriminate.
Qed.

(** *** Serialization *)
Definition denote (d : serialized) (b : N) : bool :=
  match d with
  | Includes l => existsb (N.eqb b) l
  | Excludes l => negb (existsb (N.eqb b) l)
  end.
Lemma existsb_iter s b : b < 256 -> existsb (N.eqb b) (iter s) = contains s b.
Proof.
  intros Hb. destruct (contains s b) eqn:E.
  - apply existsb_exists. exists b. rewrite in_iter. auto using N.eqb_refl.
  - destruct (existsb _ _) eqn:E2; [|reflexivity].
    apply existsb_exists in E2 as (x & Hx & Hex). apply in_iter in Hx as [_ Hx].
    apply N.eqb_eq in Hex. congruence.
Qed.
Lemma serialize_denotes s b : b < 256 -> denote (serialize s) b = contains s b.
Proof.
  intros Hb. unfold serialize. destruct (len s <? 128); cbn [denote].
  - now apply existsb_iter.
  - rewrite existsb_iter, contains_complement, negb_involutive by exact Hb. reflexivity.
Qed.
Lemma serialize_inj s t : wf s -> wf t -> serialize s = serialize t -> s = t.
Proof.
  intros Hs Ht H. apply contains_ext; auto. intros b Hb.
  rewrite <- !serialize_denotes by exact Hb. now rewrite H.
Qed.
