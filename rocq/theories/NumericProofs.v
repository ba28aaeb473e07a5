(** Proofs about the numeric model. *)
From Verif Require Import Base BoundsModel NumericModel.
Open Scope Z_scope.

Lemma bw_eqb_eq a b : bw_eqb a b = true <-> a = b.
Proof. destruct a, b; cbn; split; congruence. Qed.
Lemma mrep_eqb_eq a b : mrep_eqb a b = true <-> a = b.
Proof. destruct a as [[] []], b as [[] []]; cbn; split; congruence. Qed.
Lemma numrep_eqb_eq a b : numrep_eqb a b = true <-> a = b.
Proof.
  destruct a as [|x], b as [|y]; cbn; try (split; congruence).
  rewrite mrep_eqb_eq. split; congruence.
Qed.

(** ** [as] casts *)

Lemma in_rep_iff r z : in_rep r z = true <-> zmin (as_bounds r) <= z <= zmax (as_bounds r).
Proof. unfold in_rep, zb_contains. lia. Qed.

Lemma as_cast_id r z : in_rep r z = true -> as_cast r z = z.
Proof.
  rewrite in_rep_iff. unfold as_cast. destruct r as [[] []]; cbn [is_signed bit_width as_bounds bw_bits zmin zmax];
  match goal with |- context [2 ^ ?k] => let v := eval vm_compute in (2 ^ k) in change (2 ^ k) with v end;
  intros; try match goal with |- context [?a / 2] => let v := eval vm_compute in (a / 2) in change (a / 2) with v end.
  all: try (rewrite Z.mod_small by lia; lia).
Qed.

Lemma as_cast_in r z : in_rep r (as_cast r z) = true.
Proof.
  rewrite in_rep_iff. unfold as_cast. destruct r as [[] []]; cbn [is_signed bit_width as_bounds bw_bits zmin zmax];
  match goal with |- context [2 ^ ?k] => let v := eval vm_compute in (2 ^ k) in change (2 ^ k) with v end;
  try match goal with |- context [?a / 2] => let v := eval vm_compute in (a / 2) in change (a / 2) with v end.
  all: match goal with |- context [?a mod ?b] => pose proof (Z.mod_pos_bound a b ltac:(lia)); generalize dependent (a mod b) end; intros; lia.
Qed.

Lemma as_cast_congr r z : (as_cast r z) mod 2 ^ bw_bits (bit_width r) = z mod 2 ^ bw_bits (bit_width r).
Proof.
  unfold as_cast. set (m := 2 ^ bw_bits (bit_width r)).
  assert (Hm : m <> 0) by (subst m; destruct r as [[] []]; vm_compute; congruence).
  destruct (is_signed r).
  - rewrite Zminus_mod, Z.mod_mod by exact Hm. rewrite <- Zminus_mod. f_equal. lia.
  - apply Z.mod_mod, Hm.
Qed.

Lemma in_rep_congr_unique r z1 z2 :
  in_rep r z1 = true -> in_rep r z2 = true ->
  z1 mod 2 ^ bw_bits (bit_width r) = z2 mod 2 ^ bw_bits (bit_width r) -> z1 = z2.
Proof.
  intros H1 H2 E. rewrite <- (as_cast_id r z1 H1), <- (as_cast_id r z2 H2).
  unfold as_cast. set (m := 2 ^ bw_bits (bit_width r)) in *.
  destruct (is_signed r).
  - f_equal. rewrite Zplus_mod, E, <- Zplus_mod. reflexivity.
  - exact E.
Qed.

(** ** Inclusion of representations *)

Lemma is_superset_iff a b :
  is_superset a b = true <-> (forall z, in_rep b z = true -> in_rep a z = true).
Proof.
  split.
  - intros H z. rewrite !in_rep_iff. revert H. destruct a as [[] []], b as [[] []]; cbn; intros; try discriminate; lia.
  - intros H.
    pose proof (H (zmin (as_bounds b))) as H1. pose proof (H (zmax (as_bounds b))) as H2.
    rewrite !in_rep_iff in H1, H2. revert H1 H2. clear H.
    destruct a as [[] []], b as [[] []]; cbn; intros; try reflexivity; exfalso; lia.
Qed.

Lemma encompasses_superset a b : rep_encompasses a b = Val (is_superset a b).
Proof. destruct a as [[] []], b as [[] []]; reflexivity. Qed.

Lemma table_superset a b : in_cast_table a b = negb (is_superset b a).
Proof. destruct a as [[] []], b as [[] []]; reflexivity. Qed.

Lemma bitwise_cast_ok z r out :
  in_rep r z = true -> bitwise_cast z (Concrete r) out = Val (as_cast out z).
Proof.
  intros H. unfold bitwise_cast. rewrite table_superset.
  destruct (is_superset out r) eqn:E; cbn [negb].
  - rewrite as_cast_id; [reflexivity|]. apply (proj1 (is_superset_iff _ _) E), H.
  - unfold bigint_as, try_into. unfold in_rep in H. now rewrite H.
Qed.

Lemma bitwise_cast_bad z r out :
  in_rep r z = false -> bitwise_cast z (Concrete r) out = if is_superset out r then Val z else Panic.
Proof.
  intros H. unfold bitwise_cast. rewrite table_superset.
  destruct (is_superset out r); cbn [negb]; [reflexivity|].
  unfold bigint_as, try_into. unfold in_rep in H. now rewrite H.
Qed.

(** ** Unification of bounds *)
Lemma zb_unify_spec a b :
  zmin a <= zmax a -> zmin b <= zmax b ->
  zb_unify a b = Val (ZB (Z.min (zmin a) (zmin b)) (Z.max (zmax a) (zmax b))).
Proof.
  intros Ha Hb. unfold zb_unify, zb_is_encompassed_by, zb_encompasses.
  rewrite (proj2 (Z.leb_le _ _) Hb). cbn [obind omap].
  destruct a as [a1 a2], b as [b1 b2]; cbn [zmin zmax] in *.
  destruct ((b1 <=? a1) && (a2 <=? b2)) eqn:E1; [f_equal; f_equal; lia|].
  destruct ((a1 <=? b1) && (b2 <=? a2)) eqn:E2; cbn [omap]; f_equal; f_equal; lia.
Qed.

(** ** Strict evaluation *)

Inductive subterm : nexpr -> nexpr -> Prop :=
| sub_refl e : subterm e e
| sub_binl s op out l r : subterm s l -> subterm s (NBin op out l r)
| sub_binr s op out l r : subterm s r -> subterm s (NBin op out l r)
| sub_un s op out e : subterm s e -> subterm s (NUn op out e)
| sub_cast s out sem e : subterm s e -> subterm s (NCast out sem e).

Lemma strict_agrees look e :
  match neval_strict look e with
  | NOk (v, _) => neval look e = NOk v
  | NErr x => neval look e = NErr x
  | NPanic => neval look e = NPanic
  end.
Proof.
  induction e as [c|op out l IHl r IHr|op out e IH|out sem e IH|x]; cbn [neval neval_strict].
  - reflexivity.
  - destruct (neval_strict look l) as [[vl bl]|x|]; cbn [nbind] in *; rewrite IHl; cbn [nbind]; try reflexivity.
    destruct (neval_strict look r) as [[vr br]|x|]; cbn [nbind] in *; rewrite IHr; cbn [nbind]; try reflexivity.
    cbn [fst]. destruct (bin_apply op out vl vr); reflexivity.
  - destruct (neval_strict look e) as [[v b]|x|]; cbn [nbind] in *; rewrite IH; reflexivity.
  - destruct (neval_strict look e) as [[v b]|x|]; cbn [nbind] in *; rewrite IH; cbn [nbind]; try reflexivity.
    cbn [fst]. destruct (cast_apply out sem v); reflexivity.
  - destruct (look x); reflexivity.
Qed.

Lemma strict_of_eval look e v :
  neval look e = NOk v -> exists b, neval_strict look e = NOk (v, b).
Proof.
  intros H. pose proof (strict_agrees look e) as A.
  destruct (neval_strict look e) as [[w b]|x|]; rewrite A in H; [|discriminate|discriminate].
  inversion H; subst. eauto.
Qed.

Definition all_repr look e : Prop :=
  forall s, subterm s e -> exists v, neval look s = NOk v /\ is_representable v = true.

Lemma strict_flag look e v b :
  neval_strict look e = NOk (v, b) -> (b = true <-> all_repr look e).
Proof.
  revert v b. induction e as [c|op out l IHl r IHr|op out e IH|out sem e IH|x]; cbn [neval_strict]; intros v b H.
  - inversion H; subst. unfold all_repr. split.
    + intros Hr s Hs. inversion Hs; subst. exists v. split; [reflexivity|exact Hr].
    + intros A. destruct (A _ (sub_refl _)) as (w & Hw & Hr). cbn in Hw. inversion Hw; subst. exact Hr.
  - destruct (neval_strict look l) as [[vl bl]|x|] eqn:El; cbn [nbind] in H; try discriminate.
    destruct (neval_strict look r) as [[vr br]|x|] eqn:Er; cbn [nbind] in H; try discriminate.
    cbn [fst snd] in H.
    destruct (bin_apply op out vl vr) as [w|x|] eqn:Ea; cbn [nbind] in H; try discriminate.
    inversion H; subst. specialize (IHl _ _ eq_refl). specialize (IHr _ _ eq_refl).
    pose proof (strict_agrees look l) as Al. rewrite El in Al.
    pose proof (strict_agrees look r) as Ar. rewrite Er in Ar.
    rewrite !andb_true_iff, IHl, IHr. split.
    + intros [[A B] C] s Hs. inversion Hs; subst; [|now apply A|now apply B].
      exists v. split; [|exact C]. cbn [neval]. rewrite Al, Ar. cbn [nbind]. exact Ea.
    + intros A. repeat split.
      * intros s Hs. apply A. now constructor.
      * intros s Hs. apply A. now constructor.
      * destruct (A _ (sub_refl _)) as (w & Hw & Hr). cbn [neval] in Hw. rewrite Al, Ar in Hw. cbn [nbind] in Hw. congruence.
  - destruct (neval_strict look e) as [[w c]|x|] eqn:E; cbn [nbind fst snd] in H; try discriminate.
    inversion H; subst. specialize (IH _ _ eq_refl).
    pose proof (strict_agrees look e) as Ae. rewrite E in Ae.
    rewrite andb_true_iff, IH. split.
    + intros [A B] s Hs. inversion Hs; subst; [|now apply A].
      exists (un_apply op out w). split; [|exact B]. cbn [neval]. rewrite Ae. reflexivity.
    + intros A. split.
      * intros s Hs. apply A. now constructor.
      * destruct (A _ (sub_refl _)) as (w' & Hw & Hr). cbn [neval] in Hw. rewrite Ae in Hw. cbn [nbind] in Hw. congruence.
  - destruct (neval_strict look e) as [[w c]|x|] eqn:E; cbn [nbind fst snd] in H; try discriminate.
    destruct (cast_apply out sem w) as [u|x|] eqn:Ea; cbn [nbind] in H; try discriminate.
    inversion H; subst. specialize (IH _ _ eq_refl).
    pose proof (strict_agrees look e) as Ae. rewrite E in Ae.
    rewrite andb_true_iff, IH. split.
    + intros [A B] s Hs. inversion Hs; subst; [|now apply A].
      exists v. split; [|exact B]. cbn [neval]. rewrite Ae. exact Ea.
    + intros A. split.
      * intros s Hs. apply A. now constructor.
      * destruct (A _ (sub_refl _)) as (w' & Hw & Hr). cbn [neval] in Hw. rewrite Ae in Hw. cbn [nbind] in Hw. congruence.
  - destruct (look x) as [c|y|] eqn:E; cbn [nbind] in H; try discriminate.
    inversion H; subst. split.
    + intros Hr s Hs. inversion Hs; subst. exists v. split; [exact E|exact Hr].
    + intros A. destruct (A _ (sub_refl _)) as (w & Hw & Hr). cbn in Hw. congruence.
Qed.

Lemma neval_look_ext look1 look2 e :
  (forall x, In x (iter_vars e) -> look1 x = look2 x) -> neval look1 e = neval look2 e.
Proof.
  induction e as [c|op out l IHl r IHr|op out e IH|out sem e IH|x]; cbn [neval iter_vars]; intros H.
  - reflexivity.
  - rewrite IHl, IHr; [reflexivity| |]; intros; apply H, in_or_app; auto.
  - now rewrite IH.
  - now rewrite IH.
  - apply H. now left.
Qed.

(** Without variables the scope does not matter. *)
Lemma neval_void look e v : neval void_look e = NOk v -> neval look e = NOk v.
Proof.
  revert v. induction e as [c|op out l IHl r IHr|op out e IH|out sem e IH|x]; cbn [neval]; intros v H.
  - exact H.
  - destruct (neval void_look l) as [a|?|]; try discriminate. cbn [nbind] in H.
    destruct (neval void_look r) as [b|?|]; try discriminate. cbn [nbind] in H.
    rewrite (IHl _ eq_refl), (IHr _ eq_refl). exact H.
  - destruct (neval void_look e) as [a|?|]; try discriminate. cbn [nbind] in H.
    rewrite (IH _ eq_refl). exact H.
  - destruct (neval void_look e) as [a|?|]; try discriminate. cbn [nbind] in H.
    rewrite (IH _ eq_refl). exact H.
  - discriminate.
Qed.

(** ** Machine operations *)

Definition table_ok (t : mrep * mrep * mrep) : bool :=
  let '(l, r, o) := t in is_superset o l && is_superset o r.
Lemma bin_table_ok : forall l r o, In (l, r, o) bin_table -> is_superset o l = true /\ is_superset o r = true.
Proof.
  assert (H : forallb table_ok bin_table = true) by (vm_compute; reflexivity).
  rewrite forallb_forall in H. intros l r o Hin. specialize (H _ Hin). cbn in H.
  now apply andb_true_iff in H.
Qed.


Lemma quot_abs_bound x y : y <> 0 -> Z.abs (Z.quot x y) * Z.abs y <= Z.abs x.
Proof.
  intros Hy. rewrite <- Z.quot_abs by exact Hy.
  pose proof (Z.mul_quot_le (Z.abs x) (Z.abs y) (Z.abs_nonneg x) ltac:(lia)). lia.
Qed.

Definition min_over_minus_one (o : mrep) (x y : Z) : Prop :=
  is_signed o = true /\ x = zmin (as_bounds o) /\ y = -1.

Lemma quot_in_rep o x y :
  in_rep o x = true -> in_rep o y = true -> y <> 0 -> ~ min_over_minus_one o x y ->
  in_rep o (Z.quot x y) = true.
Proof.
  rewrite !in_rep_iff. intros Hx Hy Hy0 Hex.
  pose proof (quot_abs_bound x y Hy0) as HB.
  destruct (is_signed o) eqn:Es.
  - destruct (Z.eq_dec y (-1)) as [->|Hm].
    + assert (Hxm : x <> zmin (as_bounds o)) by (intros ->; apply Hex; repeat split; auto).
      change (-1) with (- (1)). rewrite Z.quot_opp_r, Z.quot_1_r by lia.
      destruct o as [[] []]; cbn in *; try discriminate; lia.
    + destruct (Z.eq_dec y 1) as [->|H1].
      * rewrite Z.quot_1_r. exact Hx.
      * assert (H2 : 2 * Z.abs (Z.quot x y) <= Z.abs x).
        { etransitivity; [|exact HB]. rewrite (Z.mul_comm 2). apply Z.mul_le_mono_nonneg_l; lia. }
        generalize dependent (Z.quot x y). intros q _ H2.
        clear - Hx H2 Es. destruct o as [[] []]; cbn [as_bounds is_signed bit_width zmin zmax] in *; try discriminate; lia.
  - assert (Hp : 0 <= x /\ 0 < y) by (clear HB; destruct o as [[] []]; cbn in *; try discriminate; lia).
    pose proof (Z.quot_pos x y (proj1 Hp) (proj2 Hp)) as Hq.
    assert (H2 : Z.abs (Z.quot x y) <= Z.abs x).
    { etransitivity; [|exact HB]. rewrite <- (Z.mul_1_r (Z.abs (Z.quot x y))) at 1. apply Z.mul_le_mono_nonneg_l; lia. }
    generalize dependent (Z.quot x y). intros q _ Hq H2.
    clear - Hx Hp Hq H2 Es. destruct o as [[] []]; cbn [as_bounds is_signed bit_width zmin zmax] in *; try discriminate; lia.
Qed.

Definition machine_result (op : nbinop) (o : mrep) (x y : Z) : meval :=
  match big_op op x y with
  | None => MNaN
  | Some z => if in_rep o z then MDirect z else MIndirect z
  end.

Lemma rem_in_rep o x y :
  in_rep o x = true -> in_rep o y = true -> y <> 0 -> in_rep o (Z.rem x y) = true.
Proof.
  rewrite !in_rep_iff. intros Hx Hy Hy0.
  pose proof (Z.rem_bound_abs x y Hy0) as HB.
  pose proof (Z.rem_sign_nz x y Hy0) as HS.
  pose proof (quot_abs_bound x y Hy0) as HQ.
  pose proof (Z.quot_rem' x y) as HE.
  assert (HA : Z.abs (Z.rem x y) <= Z.abs x).
  { rewrite <- Z.rem_abs by exact Hy0. apply Z.rem_le; lia. }
  assert (HN : 0 <= x -> 0 <= Z.rem x y) by (intros; apply Z.rem_nonneg; lia).
  assert (HP : x <= 0 -> Z.rem x y <= 0) by (intros; apply Z.rem_nonpos; lia).
  clear HS HQ HE. generalize dependent (Z.rem x y). intros q HB HA HN HP.
  destruct o as [[] []]; cbn in *; lia.
Qed.

Lemma bin_fn_ok op l r o x y :
  In (l, r, o) bin_table -> in_rep l x = true -> in_rep r y = true ->
  (is_quotient op = true -> ~ min_over_minus_one o x y) ->
  bin_fn op o x y = machine_result op o x y.
Proof.
  intros Hin Hx Hy Hex. destruct (bin_table_ok _ _ _ Hin) as [Hl Hr].
  pose proof (proj1 (is_superset_iff _ _) Hl x Hx) as Hx'.
  pose proof (proj1 (is_superset_iff _ _) Hr y Hy) as Hy'.
  unfold bin_fn, machine_result. rewrite (as_cast_id _ _ Hx'), (as_cast_id _ _ Hy').
  destruct op; cbn [checked_op big_op is_quotient] in *.
  - destruct (in_rep o (x + y)); reflexivity.
  - destruct (in_rep o (x - y)); reflexivity.
  - destruct (in_rep o (x * y)); reflexivity.
  - destruct (y =? 0) eqn:E; [reflexivity|]. apply Z.eqb_neq in E.
    rewrite quot_in_rep by auto. reflexivity.
  - destruct (y =? 0) eqn:E; [reflexivity|]. apply Z.eqb_neq in E.
    rewrite quot_in_rep, rem_in_rep by auto. reflexivity.
Qed.

Lemma bin_fallback_ok op o x y : bin_fallback op o x y = machine_result op o x y.
Proof.
  unfold bin_fallback, machine_result, try_into, in_rep. destruct (big_op op x y) as [z|]; [|reflexivity].
  destruct (zb_contains (as_bounds o) z); reflexivity.
Qed.

(** Unary results *)
Definition unary_result (o : mrep) (z : Z) : meval := if in_rep o z then MDirect z else MIndirect z.

Lemma neg_same_ok checks r x :
  In r neg_same_table -> in_rep r x = true -> x <> zmin (as_bounds r) ->
  neg_as_signed checks r x = Val (unary_result r (- x)).
Proof.
  intros Hin Hx Hm. unfold neg_as_signed, machine_neg, unary_result. rewrite (as_cast_id _ _ Hx).
  assert (in_rep r (- x) = true) as ->; [|reflexivity].
  rewrite in_rep_iff in *. cbn in Hin. destruct Hin as [<-|[<-|[<-|[<-|[]]]]]; cbn in *; lia.
Qed.

Lemma neg_to_signed_ok checks r o x :
  In (r, o) to_signed_table -> in_rep r x = true ->
  neg_as_signed checks o x = Val (unary_result o (- x)).
Proof.
  intros Hin Hx.
  assert (H : in_rep o x = true /\ in_rep o (- x) = true).
  { rewrite !in_rep_iff in *. cbn in Hin.
    repeat (destruct Hin as [E|Hin]; [injection E as <- <-; cbn in *; lia|]). destruct Hin. }
  destruct H as [H1 H2]. unfold neg_as_signed, machine_neg, unary_result.
  rewrite (as_cast_id _ _ H1), H2. reflexivity.
Qed.

Lemma neg_unsigned_ok r o x :
  is_signed r = false -> is_signed o = false -> in_rep r x = true ->
  neg_unsigned_unsigned x = unary_result o (- x).
Proof.
  intros Hr Ho Hx. unfold neg_unsigned_unsigned, unary_result. rewrite in_rep_iff in Hx.
  assert (H0 : in_rep o (- x) = (x =? 0)).
  { apply eq_true_iff_eq. rewrite in_rep_iff, Z.eqb_eq.
    destruct r as [[] []], o as [[] []]; cbn in *; try discriminate; lia. }
  rewrite H0. destruct (x =? 0) eqn:E; [|reflexivity]. apply Z.eqb_eq in E. subst. reflexivity.
Qed.

Lemma neg_into_unsigned_ok checks r o x :
  In (r, o) signed_unsigned_table -> in_rep r x = true ->
  neg_into_unsigned checks r o x = Val (unary_result o (- x)).
Proof.
  intros Hin Hx. unfold neg_into_unsigned, unary_result.
  assert (H : (0 < x -> in_rep o (- x) = false) /\ (x <= 0 -> in_rep o (- x) = true) /\
              (x <> zmin (as_bounds r) -> in_rep r (- x) = true) /\
              in_rep o (zmax (as_bounds r)) = true /\ zmax (as_bounds r) + 1 = - zmin (as_bounds r)).
  { rewrite <- not_true_iff_false. rewrite !in_rep_iff in *. cbn in Hin.
    repeat (destruct Hin as [E|Hin]; [injection E as <- <-; cbn in *; lia|]). destruct Hin. }
  destruct H as (H1 & H2 & H3 & H4 & H5).
  destruct (0 <? x) eqn:E; [rewrite H1 by lia; reflexivity|].
  rewrite H2 by lia.
  destruct (x =? zmin (as_bounds r)) eqn:E2.
  - rewrite (as_cast_id _ _ H4), H5. apply Z.eqb_eq in E2. now rewrite E2.
  - unfold machine_neg. rewrite H3 by lia. cbn [omap]. rewrite as_cast_id by (apply H2; lia). reflexivity.
Qed.

Lemma abs_same_ok r x :
  In r neg_same_table -> in_rep r x = true ->
  abs_same false r x = Val (unary_result r (Z.abs x)) /\
  (x <> zmin (as_bounds r) -> abs_same true r x = Val (unary_result r (Z.abs x))).
Proof.
  intros Hin Hx. unfold abs_same, machine_abs, machine_neg, unary_result.
  assert (H : (x <> zmin (as_bounds r) -> in_rep r (Z.abs x) = true) /\ zmin (as_bounds r) < 0 /\
              in_rep r (- zmin (as_bounds r)) = false /\ as_cast r (- zmin (as_bounds r)) = zmin (as_bounds r)).
  { rewrite <- not_true_iff_false. rewrite !in_rep_iff in *. cbn in Hin.
    destruct Hin as [<-|[<-|[<-|[<-|[]]]]]; (split; [cbn in *; lia|split; [cbn in *; lia|split; [cbn in *; lia|reflexivity]]]). }
  destruct H as (H1 & H2 & H3 & H4).
  destruct (Z.eq_dec x (zmin (as_bounds r))) as [E|E].
  - split; [|congruence]. subst x. rewrite Z.abs_neq by lia. rewrite H3.
    assert (zmin (as_bounds r) <? 0 = true) as -> by lia.
    cbn [omap]. rewrite H4, Z.eqb_refl. reflexivity.
  - specialize (H1 E). rewrite H1.
    assert (Hne : forall t, t = Z.abs x -> (t =? zmin (as_bounds r)) = false) by (intros; lia).
    destruct (x <? 0) eqn:En.
    + assert (Ea : Z.abs x = - x) by lia. rewrite Ea in *. rewrite H1. cbn [omap].
      rewrite (Hne _ eq_refl). split; reflexivity.
    + assert (Ea : Z.abs x = x) by lia. rewrite Ea in *. cbn [omap]. rewrite (Hne _ eq_refl). split; reflexivity.
Qed.

Lemma abs_to_signed_ok checks r o x :
  In (r, o) to_signed_table -> in_rep r x = true ->
  abs_as_signed checks o x = Val (unary_result o (Z.abs x)).
Proof.
  intros Hin Hx.
  assert (H : in_rep o x = true /\ in_rep o (- x) = true /\ in_rep o (Z.abs x) = true).
  { rewrite !in_rep_iff in *. cbn in Hin.
    repeat (destruct Hin as [E|Hin]; [injection E as <- <-; cbn in *; lia|]). destruct Hin. }
  destruct H as (H1 & H2 & H3). unfold abs_as_signed, machine_abs, machine_neg, unary_result.
  rewrite (as_cast_id _ _ H1), H2, H3.
  destruct (x <? 0) eqn:E; cbn [omap]; f_equal; f_equal; lia.
Qed.

Lemma abs_signed_unsigned_ok r o x :
  In (r, o) signed_unsigned_table -> in_rep r x = true ->
  abs_signed_unsigned false r o x = Val (unary_result o (Z.abs x)) /\
  (x <> zmin (as_bounds r) -> abs_signed_unsigned true r o x = Val (unary_result o (Z.abs x))).
Proof.
  intros Hin Hx. unfold abs_signed_unsigned, machine_abs, machine_neg, unary_result.
  assert (H : (x <> zmin (as_bounds r) -> in_rep r (Z.abs x) = true) /\ zmin (as_bounds r) < 0 /\
              in_rep r (- zmin (as_bounds r)) = false /\ as_cast r (- zmin (as_bounds r)) = zmin (as_bounds r) /\
              in_rep o (Z.abs x) = true /\ in_rep o (zmax (as_bounds r)) = true /\
              zmax (as_bounds r) + 1 = - zmin (as_bounds r)).
  { rewrite <- not_true_iff_false. rewrite !in_rep_iff in *. cbn in Hin.
    repeat (destruct Hin as [E|Hin];
      [injection E as <- <-; (split; [cbn in *; lia|split; [cbn in *; lia|split; [cbn in *; lia|split; [reflexivity|cbn in *; lia]]]])|]).
    destruct Hin. }
  destruct H as (H1 & H2 & H3 & H4 & H5 & H6 & H7). rewrite H5.
  destruct (Z.eq_dec x (zmin (as_bounds r))) as [E|E].
  - split; [|congruence]. rewrite E. rewrite H3.
    assert (zmin (as_bounds r) <? 0 = true) as -> by lia.
    cbn [omap]. rewrite H4, Z.eqb_refl, (as_cast_id _ _ H6), H7, Z.abs_neq by lia. reflexivity.
  - specialize (H1 E).
    assert (Hne : forall t, t = Z.abs x -> (t =? zmin (as_bounds r)) = false) by (intros; lia).
    destruct (x <? 0) eqn:En.
    + assert (Ea : Z.abs x = - x) by lia. rewrite Ea in *. rewrite H1. cbn [omap].
      rewrite (Hne _ eq_refl), (as_cast_id _ _ H5). split; reflexivity.
    + assert (Ea : Z.abs x = x) by lia. rewrite Ea in *. cbn [omap]. rewrite (Hne _ eq_refl), (as_cast_id _ _ H5). split; reflexivity.
Qed.

Lemma abs_unsigned_ok r o x :
  In (r, o) abs_unsigned_table -> in_rep r x = true ->
  abs_unsigned_unsigned o x = unary_result o (Z.abs x).
Proof.
  intros Hin Hx.
  assert (H : in_rep o x = true /\ 0 <= x).
  { rewrite !in_rep_iff in *. cbn in Hin.
    repeat (destruct Hin as [E|Hin]; [injection E as <- <-; cbn in *; lia|]). destruct Hin. }
  destruct H as [H H0]. unfold abs_unsigned_unsigned, unary_result.
  rewrite Z.abs_eq, H, as_cast_id by assumption. reflexivity.
Qed.

Lemma direct_cast_ok r o x :
  In (r, o) direct_cast_table -> in_rep r x = true -> direct_cast o x = unary_result o x.
Proof.
  intros Hin Hx.
  assert (H : in_rep o x = true).
  { assert (T : forallb (fun p => is_superset (snd p) (fst p)) direct_cast_table = true) by (vm_compute; reflexivity).
    rewrite forallb_forall in T. specialize (T _ Hin). cbn [fst snd] in T.
    now apply (proj1 (is_superset_iff _ _) T). }
  unfold direct_cast, unary_result. now rewrite H, as_cast_id.
Qed.

Lemma attempt_cast_ok o x : attempt_cast o x = unary_result o x.
Proof. unfold attempt_cast, unary_result, try_into, in_rep. destruct (zb_contains (as_bounds o) x); reflexivity. Qed.
