(** Induction over typed formats; their static bounds are those of the plain formats. *)
From Verif Require ByteSetModel ByteSetProofs.
From Verif Require Import Base BoundsModel BoundsProofs DataModel NumericModel ValueModel FormatModel MatchTreeModel
  DecoderModel CompileProofs MatchBoundsProofs MatchTreeProofs TypedModel TypedSpec.
Open Scope nat_scope.

Section TformatInd.
Context (Q : tformat -> Prop).
Context
  (HGFail : Q GFail)
  (HGEndOfInput : Q GEndOfInput)
  (HGAlign : forall n, Q (GAlign n))
  (HGByte : forall bs, Q (GByte bs))
  (HGCompute : forall t e, Q (GCompute t e))
  (HGApply : forall t x, Q (GApply t x))
  (HGPos : forall t, Q (GPos t))
  (HGSkipRemainder : Q GSkipRemainder)
  (HGWithView : forall t v vf, Q (GWithView t v vf))
  (HGCall : forall t level args views def, Q def -> Q (GCall t level args views def))
  (HGVariant : forall t l f, Q f -> Q (GVariant t l f))
  (HGRepeat : forall t f, Q f -> Q (GRepeat t f))
  (HGRepeat1 : forall t f, Q f -> Q (GRepeat1 t f))
  (HGRepeatCount : forall t e f, Q f -> Q (GRepeatCount t e f))
  (HGRepeatBetween : forall t e1 e2 f, Q f -> Q (GRepeatBetween t e1 e2 f))
  (HGRepeatUntilLast : forall t e f, Q f -> Q (GRepeatUntilLast t e f))
  (HGRepeatUntilSeq : forall t e f, Q f -> Q (GRepeatUntilSeq t e f))
  (HGAccumUntil : forall t a b c vt f, Q f -> Q (GAccumUntil t a b c vt f))
  (HGForEach : forall t e x f, Q f -> Q (GForEach t e x f))
  (HGMaybe : forall t e f, Q f -> Q (GMaybe t e f))
  (HGPeek : forall t f, Q f -> Q (GPeek t f))
  (HGPeekNot : forall t f, Q f -> Q (GPeekNot t f))
  (HGSlice : forall t e f, Q f -> Q (GSlice t e f))
  (HGBits : forall t f, Q f -> Q (GBits t f))
  (HGWithRelativeOffset : forall t a b f, Q f -> Q (GWithRelativeOffset t a b f))
  (HGLet : forall t x e f, Q f -> Q (GLet t x e f))
  (HGDynamic : forall t x d f, Q f -> Q (GDynamic t x d f))
  (HGDecodeBytes : forall t e f, Q f -> Q (GDecodeBytes t e f))
  (HGHint : forall t f, Q f -> Q (GHint t f))
  (HGLetView : forall t x f, Q f -> Q (GLetView t x f))
  (HGParseFromView : forall t v f, Q f -> Q (GParseFromView t v f))
  (HGPhantom : forall t f, Q f -> Q (GPhantom t f))
  (HGMap : forall t f e, Q f -> Q (GMap t f e))
  (HGWhere : forall t f e s, Q f -> Q (GWhere t f e s))
  (HGPermit : forall t f e, Q f -> Q (GPermit t f e))
  (HGUnion : forall t fs, Forall Q fs -> Q (GUnion t fs))
  (HGUnionNondet : forall t fs, Forall Q fs -> Q (GUnionNondet t fs))
  (HGTuple : forall t fs, Forall Q fs -> Q (GTuple t fs))
  (HGSequence : forall t fs, Forall Q fs -> Q (GSequence t fs))
  (HGMatch : forall t e bs, Forall (fun b => Q (snd b)) bs -> Q (GMatch t e bs))
  (HGLetFormat : forall t f x g, Q f -> Q g -> Q (GLetFormat t f x g))
  (HGMonadSeq : forall t f g, Q f -> Q g -> Q (GMonadSeq t f g))
  (HGNone : forall t, Q (GLiftedOption t None)) (HGSome : forall t f, Q f -> Q (GLiftedOption t (Some f))).
Fixpoint tformat_ind' (f : tformat) : Q f.
Proof.
  destruct f;
    try (match goal with o : option tformat |- _ => destruct o as [f|] end);
    match goal with
    | fs : list tformat |- _ =>
      (apply HGUnion || apply HGUnionNondet || apply HGTuple || apply HGSequence);
      refine ((fix lp (l : list tformat) : Forall Q l := match l with [] => Forall_nil _ | x :: r => Forall_cons x (tformat_ind' x) (lp r) end) fs)
    | bs : list (pattern * tformat) |- _ =>
      apply HGMatch;
      refine ((fix lp (l : list (pattern * tformat)) : Forall (fun b => Q (snd b)) l :=
        match l with [] => Forall_nil _ | x :: r => Forall_cons x (tformat_ind' (snd x)) (lp r) end) bs)
    | |- _ => idtac
    end.
  all: first [apply HGFail | apply HGEndOfInput | apply HGAlign | apply HGByte | apply HGCompute | apply HGApply | apply HGPos | apply HGSkipRemainder | apply HGWithView | apply HGCall | apply HGVariant | apply HGRepeat | apply HGRepeat1 | apply HGRepeatCount | apply HGRepeatBetween | apply HGRepeatUntilLast | apply HGRepeatUntilSeq | apply HGAccumUntil | apply HGForEach | apply HGMaybe | apply HGPeek | apply HGPeekNot | apply HGSlice | apply HGBits | apply HGWithRelativeOffset | apply HGLet | apply HGDynamic | apply HGDecodeBytes | apply HGHint | apply HGLetView | apply HGParseFromView | apply HGPhantom | apply HGMap | apply HGWhere | apply HGPermit | apply HGLetFormat | apply HGMonadSeq | apply HGNone | apply HGSome]; apply tformat_ind'.
Qed.
End TformatInd.

Lemma teverywhere_self (Q : tformat -> Prop) f : teverywhere Q f -> Q f.
Proof. intros H. apply H. destruct f; now left. Qed.
Lemma teverywhere_list (Q : tformat -> Prop) (fs : list tformat) : (forall g, In g (flat_map tsubs fs) -> Q g) -> Forall (teverywhere Q) fs.
Proof. intros H. apply Forall_forall. intros f Hf g Hg. apply H. apply in_flat_map. eauto. Qed.
Lemma teverywhere_branches (Q : tformat -> Prop) (bs : list (pattern * tformat)) :
  (forall g, In g (flat_map (fun b => match b with (_, g) => tsubs g end) bs) -> Q g) -> Forall (fun b => teverywhere Q (snd b)) bs.
Proof. intros H. apply Forall_forall. intros [p f] Hf g Hg. apply H. apply in_flat_map. exists (p, f). auto. Qed.
Lemma tsub (Q : tformat -> Prop) f g : teverywhere Q f -> incl (tsubs g) (tsubs f) -> teverywhere Q g.
Proof. intros H Hi x Hx. apply H, Hi, Hx. Qed.
Ltac tsubt := match goal with H : teverywhere ?Q ?f |- teverywhere ?Q ?g =>
  apply (tsub Q f g H); intros ? ?; cbn [tsubs]; right; auto using in_or_app end.

(** ** Bounds *)

Definition nearb (b b' : bounds) : Prop := bmin b = bmin b' /\ (bmin b < w64)%N.
Definition near (x y : outcome bounds) : Prop :=
  match x, y with Val b, Val b' => nearb b b' | Panic, Panic => True | _, _ => False end.
Lemma near_add a a' b b' : nearb a a' -> nearb b b' -> nearb (badd a b) (badd a' b').
Proof.
  intros [H1 H2] [H3 H4]. unfold nearb, badd, checked_add in *. rewrite <- H1, <- H3.
  destruct (N.ltb_spec (bmin a + bmin b)%N w64); cbn; split; auto; reflexivity.
Qed.
Lemma near_mul a a' b b' : nearb a a' -> nearb b b' -> nearb (bmul a b) (bmul a' b').
Proof.
  intros [H1 H2] [H3 H4]. unfold nearb, bmul, checked_mul in *. rewrite <- H1, <- H3.
  destruct (N.ltb_spec (bmin a * bmin b)%N w64); cbn; split; auto; reflexivity.
Qed.
Lemma near_union a a' b b' : nearb a a' -> nearb b b' -> nearb (bunion a b) (bunion a' b').
Proof. intros [H1 H2] [H3 H4]. unfold nearb. cbn. rewrite H1, H3 in *. split; [reflexivity|lia]. Qed.
Lemma near_bits a a' : nearb a a' -> nearb (bits_to_bytes a) (bits_to_bytes a').
Proof.
  intros [H1 H2]. unfold nearb, bits_to_bytes, div_ceil8. cbn [bmin]. rewrite H1 in *. split; [reflexivity|].
  assert (E : w64 = 18446744073709551616%N) by reflexivity. rewrite E in *. clear E. lia.
Qed.
Lemma near_refl b : (bmin b < w64)%N -> nearb b b. Proof. now split. Qed.
Lemma near_zero b : nearb (bexact 0) b -> (bmin b = 0)%N. Proof. intros [H _]. now rewrite <- H. Qed.
Lemma near_fold op l l' : (forall a a' b b', nearb a a' -> nearb b b' -> nearb (op a b) (op a' b')) ->
  Forall2 nearb l l' -> forall b b', nearb b b' -> nearb (fold_left op l b) (fold_left op l' b').
Proof. intros Hop H. induction H; cbn; auto. Qed.
Lemma near_mapM {A B} (f : A -> outcome bounds) (g : B -> outcome bounds) l l' : Forall2 (fun a b => near (f a) (g b)) l l' ->
  match omapM f l, omapM g l' with Val bs, Val bs' => Forall2 nearb bs bs' | Panic, Panic => True | _, _ => False end.
Proof.
  intros H. induction H as [|a b l l' Hab Hl IH]; cbn [omapM]; [constructor|].
  unfold near in Hab. destruct (f a), (g b); try contradiction; cbn [obind]; [|exact I].
  destruct (omapM f l), (omapM g l'); try contradiction; cbn; auto.
Qed.
Lemma near_reduce l l' : Forall2 nearb l l' -> near (reduce_unwrap bunion l) (reduce_unwrap bunion l').
Proof. intros [|b b' r r' Hb Hr]; cbn; [exact I|]. apply near_fold; auto using near_union. Qed.
Lemma near_sum l l' : Forall2 nearb l l' -> nearb (reduce_or0 badd l) (reduce_or0 badd l').
Proof. intros [|b b' r r' Hb Hr]; cbn; [now apply near_refl|]. apply near_fold; auto using near_add. Qed.
Lemma near_sum0 l l' : Forall2 nearb l l' -> nearb (reduce_or0 badd l) (fold_left badd l' (bexact 0)).
Proof.
  intros [|b b' r r' Hb Hr]; cbn [reduce_or0 fold_left]; [now apply near_refl|]. apply near_fold; auto using near_add.
  destruct Hb as [H1 H2]. split; [|exact H2]. unfold badd, checked_add. cbn [bexact bmin]. rewrite N.add_0_l, <- H1.
  destruct (N.ltb_spec (bmin b) w64); [now cbn|lia].
Qed.
Lemma near_counted e : counted_alike e -> exists b, expr_bounds e = Val b /\ nearb (texpr_bounds e) b /\ as_exact b = as_exact (texpr_bounds e).
Proof. intros (b & H1 & H2 & H3 & H4). exists b. split; [auto|]. split; [|auto]. split; [auto|]. now rewrite <- H2. Qed.

Section Near.
Context (m : fmodule) (HB : bounded_items m).
Definition follows (f : tformat) : Prop := teverywhere (call_follows m) f /\ teverywhere (alike m) f.
Lemma follows_list fs : (forall g, In g (flat_map tsubs fs) -> call_follows m g) -> (forall g, In g (flat_map tsubs fs) -> alike m g) -> Forall follows fs.
Proof.
  intros H1 H2. apply teverywhere_list in H1. apply teverywhere_list in H2. rewrite Forall_forall in *. intros f Hf. split; auto.
Qed.
Lemma follows_branches bs : (forall g, In g (flat_map (fun b : pattern * tformat => match b with (_, g) => tsubs g end) bs) -> call_follows m g) ->
  (forall g, In g (flat_map (fun b : pattern * tformat => match b with (_, g) => tsubs g end) bs) -> alike m g) -> Forall (fun b => follows (snd b)) bs.
Proof.
  intros H1 H2. apply teverywhere_branches in H1. apply teverywhere_branches in H2. rewrite Forall_forall in *. intros f Hf. split; auto.
Qed.
Lemma near_list fs : Forall follows fs -> Forall (fun f => follows f -> near (tmatch_bounds f) (match_bounds (item_bounds m) (forget f))) fs ->
  match omapM tmatch_bounds fs, omapM (match_bounds (item_bounds m)) (map forget fs) with
  | Val bs, Val bs' => Forall2 nearb bs bs' | Panic, Panic => True | _, _ => False end.
Proof. intros H1 H2. apply near_mapM. induction H2; cbn; [constructor|]. inversion H1; subst. constructor; auto. Qed.
Lemma near_branches bs : Forall (fun b => follows (snd b)) bs ->
  Forall (fun b => follows (snd b) -> near (tmatch_bounds (snd b)) (match_bounds (item_bounds m) (forget (snd b)))) bs ->
  match omapM (fun b : pattern * tformat => match b with (_, g) => tmatch_bounds g end) bs,
    omapM (fun b : pattern * format => match b with (_, g) => match_bounds (item_bounds m) g end) (map (fun b : pattern * tformat => match b with (p, g) => (p, forget g) end) bs) with
  | Val l, Val l' => Forall2 nearb l l' | Panic, Panic => True | _, _ => False end.
Proof. intros H1 H2. apply near_mapM. induction H2 as [|[p g] bs]; cbn; [constructor|]. inversion H1; subst. constructor; auto. Qed.
Ltac both IHf := let H := fresh in assert (H := IHf); 
  match type of H with near (tmatch_bounds ?f) ?y => unfold near in H; destruct (tmatch_bounds f), y; try contradiction; cbn [omap obind near]; [|exact I] end.
Lemma near_items f : follows f -> near (tmatch_bounds f) (match_bounds (item_bounds m) (forget f)).
Proof.
  induction f using tformat_ind'; intros [HF HA]; cbn [tmatch_bounds forget match_bounds];
    try (apply near_refl; reflexivity); try exact (near_refl (bat_least 1) eq_refl);
    pose proof (teverywhere_self _ _ HF) as HF0; pose proof (teverywhere_self _ _ HA) as HA0; cbn [call_follows alike] in HF0, HA0;
    try (apply IHf; split; tsubt; fail);
    try (assert (IHf' : near (tmatch_bounds f) (match_bounds (item_bounds m) (forget f))) by (apply IHf; split; tsubt); clear IHf; rename IHf' into IHf);
    repeat match goal with H : counted_alike _ |- _ => apply near_counted in H as (? & -> & ? & ?) | H : _ /\ _ |- _ => destruct H end;
    try (both IHf; first [apply near_mul | apply near_union | apply near_bits]; auto using near_refl; now apply near_refl).
  - destruct (N.eqb_spec n 0); [lia|]. now apply near_refl.
  - destruct HF0 as (it & Hit & Hf & _). rewrite Hf in IHf. unfold get_item in Hit.
    destruct (nth_error (item_bounds m) level) as [o|] eqn:E.
    + assert (Ho : exists b, o = Val b) by (eapply (proj1 (Forall_forall _ _) HB), nth_error_In; eauto).
      destruct Ho as (b & ->). now rewrite (item_bounds_nth m level it b Hit E) in IHf.
    + apply nth_error_None in E. rewrite item_bounds_length in E. apply nth_error_None in E. congruence.
  - both IHf. apply near_mul; [assumption|]. now apply near_union.
  - cbn. assumption.
  - assert (G := near_list fs (follows_list fs ltac:(intros; apply HF; now right) ltac:(intros; apply HA; now right)) H).
    destruct (omapM tmatch_bounds fs), (omapM _ _); try contradiction; [|exact I]. now apply near_reduce.
  - assert (G := near_list fs (follows_list fs ltac:(intros; apply HF; now right) ltac:(intros; apply HA; now right)) H).
    destruct (omapM tmatch_bounds fs), (omapM _ _); try contradiction; [|exact I]. now apply near_reduce.
  - assert (G := near_list fs (follows_list fs ltac:(intros; apply HF; now right) ltac:(intros; apply HA; now right)) H).
    destruct (omapM tmatch_bounds fs), (omapM _ _); try contradiction; [|exact I]. now apply near_sum.
  - assert (G := near_list fs (follows_list fs ltac:(intros; apply HF; now right) ltac:(intros; apply HA; now right)) H).
    destruct (omapM tmatch_bounds fs), (omapM _ _); try contradiction; [|exact I]. now apply near_sum0.
  - assert (G := near_branches bs (follows_branches bs ltac:(intros; apply HF; now right) ltac:(intros; apply HA; now right)) H).
    destruct (omapM _ bs), (omapM _ (map _ bs)); try contradiction; [|exact I]. now apply near_reduce.
  - assert (G1 : near (tmatch_bounds f1) (match_bounds (item_bounds m) (forget f1))) by (apply IHf1; split; tsubt).
    assert (G2 : near (tmatch_bounds f2) (match_bounds (item_bounds m) (forget f2))) by (apply IHf2; split; tsubt).
    both G1. both G2. now apply near_add.
  - assert (G1 : near (tmatch_bounds f1) (match_bounds (item_bounds m) (forget f1))) by (apply IHf1; split; tsubt).
    assert (G2 : near (tmatch_bounds f2) (match_bounds (item_bounds m) (forget f2))) by (apply IHf2; split; tsubt).
    both G1. both G2. now apply near_add.
Qed.
Lemma nullable_items f : follows f -> tis_nullable f = is_nullable m (forget f).
Proof.
  intros H. apply near_items in H. unfold tis_nullable, is_nullable.
  destruct (tmatch_bounds f), (match_bounds _ _); try contradiction; [|reflexivity]. destruct H as [H _]. cbn. now rewrite H.
Qed.
End Near.
