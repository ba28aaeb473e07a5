From Coq Require Import String Permutation Sorted.
From Verif Require Import Base LayoutModel LayoutSpec.
Open Scope nat_scope.

(** ** Alignment arithmetic *)

Definition pow2 (a : N) : Prop := exists k, a = (2 ^ k)%N.

Lemma aligned_size_eq size k :
  aligned_size size (2 ^ k) = ((size + 2 ^ k - 1) / 2 ^ k * 2 ^ k)%N.
Proof.
  unfold aligned_size.
  replace (2 ^ k - 1)%N with (N.ones k).
  - rewrite N.ldiff_ones_r, N.shiftl_mul_pow2, N.shiftr_div_pow2. reflexivity.
  - rewrite N.ones_equiv. lia.
Qed.
Lemma aligned_size_least size a :
  pow2 a ->
  N.divide a (aligned_size size a) /\ (size <= aligned_size size a)%N /\
  forall z, N.divide a z -> (size <= z)%N -> (aligned_size size a <= z)%N.
Proof.
  intros [k ->]. rewrite aligned_size_eq.
  assert (H0 : (2 ^ k <> 0)%N) by (apply N.pow_nonzero; lia).
  set (p := (2 ^ k)%N) in *. clearbody p.
  pose proof (N.div_mod (size + p - 1) p H0) as Hd.
  pose proof (N.mod_lt (size + p - 1) p H0) as Hl.
  set (q := ((size + p - 1) / p)%N) in *. clearbody q.
  set (r := ((size + p - 1) mod p)%N) in *. clearbody r.
  split; [exists q; reflexivity|]. split; [nia|].
  intros z [w ->] Hz. apply N.mul_le_mono_r.
  assert (q * p < (w + 1) * p)%N by nia.
  apply N.mul_lt_mono_pos_r in H; lia.
Qed.

(** ** Lists *)

Lemma max1_largest l : largest 1 l (max1 l).
Proof.
  unfold max1. generalize 1%N. induction l as [|x l IH]; intros d; cbn.
  - split; [left; reflexivity|]. intros y [-> | []]. lia.
  - destruct (IH (N.max d x)) as [H1 H2]. split.
    + destruct H1 as [H1 | H1]; [|right; right; exact H1].
      rewrite <- H1. destruct (N.max_spec d x) as [[_ ->] | [_ ->]]; cbn; auto.
    + intros y [-> | [-> | H]].
      * specialize (H2 _ (or_introl eq_refl)). lia.
      * specialize (H2 _ (or_introl eq_refl)). lia.
      * apply H2. right. exact H.
Qed.
Lemma largest_det d l m m' : largest d l m -> largest d l m' -> m = m'.
Proof. intros [H1 H2] [H3 H4]. specialize (H2 _ H3). specialize (H4 _ H1). lia. Qed.
Lemma fold_max_largest d l : largest d l (fold_left N.max l d).
Proof.
  revert d. induction l as [|x l IH]; intros d; cbn.
  - split; [left; reflexivity|]. intros y [-> | []]. lia.
  - destruct (IH (N.max d x)) as [H1 H2]. split.
    + destruct H1 as [H1 | H1]; [|right; right; exact H1].
      rewrite <- H1. destruct (N.max_spec d x) as [[_ ->] | [_ ->]]; cbn; auto.
    + intros y [-> | [-> | H]].
      * specialize (H2 _ (or_introl eq_refl)). lia.
      * specialize (H2 _ (or_introl eq_refl)). lia.
      * apply H2. right. exact H.
Qed.
Lemma largest_concat ls ms :
  Forall2 (largest 1) ls ms -> largest 1 (concat ls) (max1 ms).
Proof.
  intros HF. pose proof (max1_largest ms) as [H1 H2]. split.
  - destruct H1 as [H1 | H1]; [left; exact H1|].
    assert (exists l, In l ls /\ largest 1 l (max1 ms)) as (l & Hl & [Hm _]).
    { clear H2. revert H1. generalize (max1 ms). intros m Hm. induction HF; [destruct Hm|].
      destruct Hm as [-> | Hm]; [exists x; cbn; auto|].
      destruct (IHHF Hm) as (l0 & ? & ?). exists l0. cbn. auto. }
    destruct Hm as [Hm | Hm]; [left; exact Hm|].
    right. apply in_concat. exists l. auto.
  - intros x [<- | Hx]; [apply H2; left; reflexivity|].
    apply in_concat in Hx as (l & Hl & Hx).
    assert (exists m, In m ms /\ largest 1 l m) as (m & Hm & [_ Hmax]).
    { clear - HF Hl. induction HF; [destruct Hl|].
      destruct Hl as [-> | Hl]; [exists y; cbn; auto|].
      destruct (IHHF Hl) as (m & ? & ?). exists m. cbn. auto. }
    specialize (Hmax x (or_intror Hx)). specialize (H2 m (or_intror Hm)). lia.
Qed.

(** ** Laying out *)

Lemma apart_sym x y : apart x y -> apart y x.
Proof. unfold apart. tauto. Qed.
Lemma pairs_perm (R : N * (N * N) -> N * (N * N) -> Prop) l l' :
  (forall x y, R x y -> R y x) -> Permutation l l' ->
  ForallOrdPairs R l -> ForallOrdPairs R l'.
Proof.
  intros Hs HP. induction HP; intros HF.
  - exact HF.
  - inversion HF; subst. constructor; [|auto]. rewrite Forall_forall in *.
    intros y Hy. apply H1. apply Permutation_sym in HP. eapply Permutation_in; eauto.
  - inversion HF as [|? ? H1 H2]; subst. inversion H2 as [|? ? H3 H4]; subst.
    inversion H1; subst. constructor.
    + constructor; [apply Hs; assumption|assumption].
    + constructor; assumption.
  - auto.
Qed.

(** points covered by slots *)
Definition points (x : N * (N * N)) : list nat :=
  seq (N.to_nat (fst x)) (N.to_nat (fst (snd x))).
Lemma NoDup_app_intro {A} (l1 l2 : list A) :
  NoDup l1 -> NoDup l2 -> (forall x, In x l1 -> ~ In x l2) -> NoDup (l1 ++ l2).
Proof.
  intros H1 H2 Hd. induction H1 as [|x l1 Hx H1 IH]; [exact H2|]. cbn. constructor.
  - rewrite in_app_iff. intros [H | H]; [auto|]. exact (Hd x (or_introl eq_refl) H).
  - apply IH. intros y Hy. apply Hd. right. exact Hy.
Qed.
Lemma points_nodup slots : ForallOrdPairs apart slots -> NoDup (flat_map points slots).
Proof.
  induction 1 as [|x l HF _ IH]; cbn; [constructor|].
  apply NoDup_app_intro; [apply seq_NoDup|exact IH|].
  intros p Hp Hq. apply in_flat_map in Hq as (y & Hy & Hq).
  rewrite Forall_forall in HF. specialize (HF y Hy).
  unfold points in *. apply in_seq in Hp. apply in_seq in Hq. unfold apart in HF. lia.
Qed.
Lemma points_length slots :
  N.of_nat (length (flat_map points slots)) = sum (map fst (map snd slots)).
Proof.
  induction slots as [|x l IH]; cbn [flat_map map sum fold_right]; [reflexivity|].
  rewrite app_length, Nat2N.inj_add, IH. unfold points. rewrite seq_length, N2Nat.id.
  reflexivity.
Qed.
Lemma layout_bound slots total align :
  laid_out slots total align -> (sum (map fst (map snd slots)) <= total)%N.
Proof.
  intros (Hin & Hap & _). rewrite <- points_length.
  assert (length (flat_map points slots) <= length (seq 0 (N.to_nat total))).
  { apply NoDup_incl_length; [apply points_nodup; exact Hap|].
    intros p Hp. apply in_flat_map in Hp as ([o [s a]] & Hx & Hp).
    destruct (Hin _ _ _ Hx) as (_ & Hb & _).
    unfold points in Hp. cbn [fst snd] in Hp. apply in_seq in Hp. apply in_seq. lia. }
  rewrite seq_length in H. lia.
Qed.

Lemma pow2_divide_le a b : pow2 a -> pow2 b -> (a <= b)%N -> N.divide a b.
Proof.
  intros [i ->] [j ->] H. apply N.pow_le_mono_r_iff in H; [|lia].
  exists (2 ^ (j - i))%N. rewrite <- N.pow_add_r. f_equal. lia.
Qed.

(** Parts in order of falling alignment can be put one after another *)
Definition stacked (ps : list (N * N)) : Prop := StronglySorted (fun x y => snd y <= snd x)%N ps.
Fixpoint stack (o : N) (ps : list (N * N)) : list (N * (N * N)) :=
  match ps with
  | [] => []
  | p :: ps => (o, p) :: stack (o + fst p) ps
  end.
Lemma stack_parts o ps : map snd (stack o ps) = ps.
Proof. revert o. induction ps as [|p ps IH]; intros o; cbn; [reflexivity|]. now rewrite IH. Qed.
Lemma stack_inside o ps x :
  In x (stack o ps) -> (o <= fst x)%N /\ (fst x + fst (snd x) <= o + sum (map fst ps))%N.
Proof.
  revert o. induction ps as [|p ps IH]; intros o; cbn; [intros []|].
  intros [<- | H]; cbn; [lia|]. apply IH in H. unfold sum in *. lia.
Qed.
Lemma stack_apart o ps : ForallOrdPairs apart (stack o ps).
Proof.
  revert o. induction ps as [|p ps IH]; intros o; cbn; constructor; [|apply IH].
  apply Forall_forall. intros x Hx. apply stack_inside in Hx. left. cbn. lia.
Qed.
Lemma stack_aligned o ps :
  stacked ps -> Forall (fun p => pow2 (snd p) /\ N.divide (snd p) (fst p)) ps ->
  Forall (fun p => N.divide (snd p) o) ps ->
  forall x, In x (stack o ps) -> N.divide (snd (snd x)) (fst x).
Proof.
  revert o. induction ps as [|p ps IH]; intros o HS HF Ho x; cbn; [intros []|].
  inversion HS as [|? ? HS' Hp]; subst. inversion HF as [|? ? [H1 H2] HF']; subst.
  inversion Ho as [|? ? Ho1 Ho']; subst. intros [<- | H]; [exact Ho1|].
  apply IH in H; auto. rewrite Forall_forall in *. intros y Hy.
  apply N.divide_add_r; [apply Ho'; exact Hy|].
  eapply N.divide_trans; [|exact H2].
  apply pow2_divide_le; [apply HF'; exact Hy|exact H1|apply Hp; exact Hy].
Qed.

Fixpoint insert_part (p : N * N) (ps : list (N * N)) : list (N * N) :=
  match ps with
  | [] => [p]
  | q :: ps => if (snd q <=? snd p)%N then p :: q :: ps else q :: insert_part p ps
  end.
Definition sort_parts (ps : list (N * N)) := fold_right insert_part [] ps.
Lemma insert_part_perm p ps : Permutation (p :: ps) (insert_part p ps).
Proof.
  induction ps as [|q ps IH]; cbn; [reflexivity|]. destruct (_ <=? _)%N; [reflexivity|].
  rewrite perm_swap. constructor. exact IH.
Qed.
Lemma sort_parts_perm ps : Permutation ps (sort_parts ps).
Proof.
  induction ps as [|p ps IH]; cbn; [constructor|].
  rewrite <- insert_part_perm. constructor. exact IH.
Qed.
Lemma insert_part_sorted p ps : stacked ps -> stacked (insert_part p ps).
Proof.
  induction 1 as [|q ps HS IH HF]; cbn; [repeat constructor|].
  destruct (N.leb_spec (snd q) (snd p)) as [Hl | Hl].
  - constructor; [constructor; assumption|]. constructor; [exact Hl|].
    eapply Forall_impl; [|exact HF]. cbn. intros. lia.
  - constructor; [exact IH|].
    apply Forall_forall. intros x Hx.
    apply (Permutation_in _ (Permutation_sym (insert_part_perm p ps))) in Hx.
    destruct Hx as [<- | Hx]; [lia|]. rewrite Forall_forall in HF. auto.
Qed.
Lemma sort_parts_sorted ps : stacked (sort_parts ps).
Proof. induction ps; cbn; [constructor|]. apply insert_part_sorted; assumption. Qed.

Lemma sum_perm l l' : Permutation l l' -> sum l = sum l'.
Proof. unfold sum. induction 1; cbn; lia. Qed.
Lemma fold_add_sum l d : fold_left N.add l d = (d + sum l)%N.
Proof. revert d. induction l as [|x l IH]; intros d; cbn; [lia|]. rewrite IH. unfold sum. lia. Qed.

Lemma permuted_slots (ps ps' : list (N * N)) (slots' : list (N * (N * N))) :
  Permutation ps ps' -> map snd slots' = ps' ->
  exists slots, map snd slots = ps /\ Permutation slots slots'.
Proof.
  intros HP <-. apply Permutation_sym in HP.
  apply Permutation_sym in HP. apply Permutation_map_inv in HP as (l & -> & HP).
  exists l. split; [reflexivity|]. apply Permutation_sym. exact HP.
Qed.

Lemma parts_size_least ps a :
  Forall (fun p => pow2 (snd p) /\ N.divide (snd p) (fst p)) ps ->
  largest 1 (map snd ps) a ->
  least_layout ps a (parts_size ps).
Proof.
  intros HF Ha. unfold parts_size.
  rewrite (largest_det _ _ _ _ (max1_largest (map snd ps)) Ha).
  rewrite fold_add_sum, N.add_0_l.
  assert (Hp : pow2 a).
  { destruct Ha as [[<- | Ha] _]; [exists 0%N; reflexivity|].
    apply in_map_iff in Ha as (p & <- & Hp). rewrite Forall_forall in HF. apply HF. exact Hp. }
  destruct (aligned_size_least (sum (map fst ps)) a Hp) as (H1 & H2 & H3).
  assert (HF' : Forall (fun p => pow2 (snd p) /\ N.divide (snd p) (fst p)) (sort_parts ps)).
  { rewrite Forall_forall in *. intros p Hin. apply HF.
    eapply Permutation_in; [apply Permutation_sym, sort_parts_perm|exact Hin]. }
  split.
  - destruct (permuted_slots ps (sort_parts ps) (stack 0 (sort_parts ps)))
      as (slots & Hm & HP); [apply sort_parts_perm|apply stack_parts|].
    exists slots. split; [exact Hm|]. split; [|split; [|exact H1]].
    + intros o s b Hin.
      pose proof (Permutation_in _ HP Hin) as Hin'. split; [|split].
      * change (N.divide (snd (snd (o, (s, b)))) (fst (o, (s, b)))).
        revert Hin'. apply stack_aligned; [apply sort_parts_sorted|exact HF'|].
        apply Forall_forall. intros. apply N.divide_0_r.
      * apply stack_inside in Hin' as [_ Hb]. cbn [fst snd] in Hb.
        rewrite (sum_perm _ (map fst ps)) in Hb; [lia|].
        apply Permutation_map, Permutation_sym, sort_parts_perm.
      * assert (In (s, b) ps) by (rewrite <- Hm; apply in_map_iff; exists (o, (s, b)); auto).
        rewrite Forall_forall in HF. apply pow2_divide_le; [apply (HF _ H)|exact Hp|].
        apply Ha. right. apply in_map_iff. exists (s, b). auto.
    + eapply pairs_perm; [apply apart_sym|apply Permutation_sym, HP|apply stack_apart].
  - intros slots total' Hm HL. apply H3; [apply HL|].
    rewrite <- Hm. eapply layout_bound. exact HL.
Qed.
Lemma least_layout_det ps a s s' : least_layout ps a s -> least_layout ps a s' -> s = s'.
Proof.
  intros [(l & E & H) H1] [(l' & E' & H') H2].
  pose proof (H1 _ _ E' H'). pose proof (H2 _ _ E H). lia.
Qed.
Lemma least_layout_divide ps a s : least_layout ps a s -> N.divide a s.
Proof. intros [(l & _ & H) _]. apply H. Qed.
Lemma next_multiple_det a x y y' : next_multiple a x y -> next_multiple a x y' -> y = y'.
Proof.
  intros (H1 & H2 & H3) (H4 & H5 & H6). pose proof (H3 _ H4 H5). pose proof (H6 _ H1 H2). lia.
Qed.
Lemma aligned_size_next m a : pow2 a -> next_multiple a m (aligned_size (m + 1) a).
Proof.
  intros H. destruct (aligned_size_least (m + 1) a H) as (H1 & H2 & H3).
  split; [exact H1|]. split; [lia|]. intros z Hz Hl. apply H3; [exact Hz|lia].
Qed.

(** ** Niches *)

Lemma sat_fold_mul l d :
  (1 <= d <= usize_max)%N -> Forall (fun x => 1 <= x)%N l ->
  fold_left sat_mul l d = N.min (d * product l) usize_max.
Proof.
  revert d. induction l as [|x l IH]; intros d Hd HF; cbn [fold_left product fold_right].
  - unfold usize_max in *. lia.
  - inversion HF as [|? ? Hx HF']; subst. rewrite IH; [|unfold sat_mul; nia|exact HF'].
    fold (product l) in *.
    assert (1 <= product l)%N.
    { clear - HF'. unfold product. induction HF'; cbn; [lia|]. nia. }
    unfold sat_mul. set (p := product l) in *. clearbody p.
    clear - H Hd Hx.
    generalize dependent usize_max. intros M Hd.
    destruct (N.min_spec (d * x) M) as [[H1 ->] | [H1 ->]].
    + f_equal. lia.
    + rewrite !N.min_r; [reflexivity| |]; nia.
Qed.
Lemma sat_map_product l :
  N.min (product (map (fun x => sat_add x 1) l)) usize_max =
  N.min (product (map N.succ l)) usize_max.
Proof.
  assert (H : forall M, (1 <= M)%N ->
    N.min (product (map (fun x => N.min (x + 1) M) l)) M =
    N.min (product (map N.succ l)) M).
  { intros M HM. induction l as [|x l IH]; [reflexivity|].
    cbn [map product fold_right].
    fold (product (map (fun x => N.min (x + 1) M) l)).
    fold (product (map N.succ l)).
    assert (1 <= product (map (fun x => N.min (x + 1) M) l))%N.
    { clear - HM. unfold product. induction l; cbn; [lia|]. nia. }
    assert (1 <= product (map N.succ l))%N.
    { clear. unfold product. induction l; cbn [map fold_right]; [lia|]. nia. }
    set (p := product (map (fun x => N.min (x + 1) M) l)) in *.
    set (q := product (map N.succ l)) in *. clearbody p q.
    destruct (N.le_gt_cases (x + 1) M) as [Hx | Hx].
    - rewrite (N.min_l (x + 1)) by lia. rewrite N.add_1_r.
      destruct (N.le_gt_cases M p), (N.le_gt_cases M q).
      + rewrite !N.min_r; [reflexivity| |]; nia.
      + lia.
      + lia.
      + assert (p = q) by lia. now subst.
    - rewrite (N.min_r (x + 1)) by lia. rewrite !N.min_r; [reflexivity| |]; nia. }
  apply H. unfold usize_max. lia.
Qed.
Lemma niche_product_spec l : niche_product l = joint_niches l.
Proof.
  unfold niche_product, joint_niches. rewrite sat_fold_mul.
  - rewrite N.mul_1_l, sat_map_product. reflexivity.
  - unfold usize_max. lia.
  - apply Forall_map, Forall_forall. intros x _. unfold sat_add, usize_max. lia.
Qed.
Lemma sat_fold_add l d :
  (d <= usize_max)%N -> fold_left sat_add l d = N.min (d + sum l) usize_max.
Proof.
  revert d. induction l as [|x l IH]; intros d Hd; cbn [fold_left sum fold_right].
  - lia.
  - rewrite IH by (unfold sat_add; lia). fold (sum l). unfold sat_add. lia.
Qed.
Lemma niche_sum_spec l : niche_sum l = N.min (sum l) usize_max.
Proof. unfold niche_sum. rewrite sat_fold_add; [reflexivity|]. unfold usize_max. lia. Qed.
