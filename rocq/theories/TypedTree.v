(** Lookahead with typed continuations chooses as lookahead with plain ones does. *)
From Verif Require ByteSetModel ByteSetProofs.
From Verif Require Import Base BoundsModel BoundsProofs DataModel NumericModel ValueModel FormatModel MatchTreeModel
  DecoderModel CompileProofs MatchBoundsProofs MatchTreeProofs TypedModel TypedSpec TypedInd.
Open Scope nat_scope.

(** ** Lists of branches, byte by byte *)

Definition sound_sets {T} (l : list (byteset * T)) : Prop := Forall (fun b => inhabited_set (fst b)) l.
Definition single {T} (l : list (byteset * T)) : Prop := forall b, (b < 256)%N -> length (at_byte l b) <= 1.
Definition fine {T} (l : list (byteset * T)) : Prop := sound_sets l /\ single l.

Lemma inhabited_byte bs : inhabited_set bs -> exists b, (b < 256)%N /\ contains bs b = true.
Proof.
  intros [Hw He]. destruct (existsb (contains bs) (nrange 0 256)) eqn:E.
  - apply existsb_exists in E as (b & Hb & Hc). apply in_nrange in Hb. exists b. split; [lia|exact Hc].
  - exfalso. assert (ByteSetModel.is_empty bs = true); [|congruence]. apply ByteSetProofs.is_empty_spec; [exact Hw|].
    intros b Hb. destruct (contains bs b) eqn:Ec; [|reflexivity]. exfalso.
    assert (existsb (contains bs) (nrange 0 256) = true); [|congruence]. apply existsb_exists. exists b. split; [|exact Ec].
    apply in_nrange. lia.
Qed.
Lemma inter_wf a b : ByteSetModel.wf a -> ByteSetModel.is_empty (ByteSetModel.intersection a b) = false -> inhabited_set (ByteSetModel.intersection a b).
Proof. intros H E. split; [now apply ByteSetProofs.wf_intersection|exact E]. Qed.
Lemma diff_wf a b : ByteSetModel.wf a -> ByteSetModel.is_empty (ByteSetModel.difference a b) = false -> inhabited_set (ByteSetModel.difference a b).
Proof. intros H E. split; [now apply ByteSetProofs.wf_difference|exact E]. Qed.

Section Fine.
Context {T : Type}.
Lemma split_sound (upd : T -> T) l : forall bs, ByteSetModel.wf bs -> sound_sets l ->
  let '(l', bs', ex) := split_loop upd l bs in sound_sets l' /\ ByteSetModel.wf bs' /\ sound_sets ex.
Proof.
  induction l as [|[bs0 t0] r IH]; intros bs Hw Hl; cbn [split_loop].
  - split; [constructor|]. split; [exact Hw|constructor].
  - inversion Hl as [|? ? H0 Hr]; subst. cbn in H0.
    destruct (ByteSetModel.is_empty (ByteSetModel.intersection bs0 bs)) eqn:E.
    + specialize (IH bs Hw Hr). destruct (split_loop upd r bs) as [[l' bs'] ex]. destruct IH as (A & B & C).
      split; [now constructor|]. auto.
    + assert (Hw' : ByteSetModel.wf (ByteSetModel.difference bs (ByteSetModel.intersection bs0 bs))) by now apply ByteSetProofs.wf_difference.
      specialize (IH _ Hw' Hr). destruct (split_loop upd r _) as [[l' bs'] ex]. destruct IH as (A & B & C).
      split; [constructor; [apply inter_wf; [apply H0|exact E]|exact A]|]. split; [exact B|].
      destruct (ByteSetModel.is_empty (ByteSetModel.difference bs0 bs)) eqn:E2; [exact C|]. constructor; [|exact C]. apply diff_wf; [apply H0|exact E2].
Qed.
Lemma add_fine (upd : T -> T) l bs fresh : fine l -> ByteSetModel.wf bs -> fine (add_branch upd l bs fresh).
Proof.
  intros [Hs H1] Hw. split.
  - unfold add_branch. pose proof (split_sound upd l bs Hw Hs) as H. destruct (split_loop upd l bs) as [[l' bs'] ex]. destruct H as (A & B & C).
    apply Forall_app. split; [exact A|]. apply Forall_app. split; [|exact C].
    destruct (ByteSetModel.is_empty bs') eqn:E; constructor; [now split|constructor].
  - intros b Hb. rewrite add_at_byte by auto. specialize (H1 b Hb). destruct (contains bs b); [|exact H1].
    destruct (at_byte l b); cbn; lia.
Qed.
Lemma fine_nil : fine (@nil (byteset * T)). Proof. split; [constructor|]. intros b Hb. cbn. lia. Qed.
Lemma fine_one bs (t : T) : inhabited_set bs -> fine [(bs, t)].
Proof.
  intros H. split; [now constructor|]. intros b Hb. rewrite at_byte_cons, app_length. change (at_byte [] b) with (@nil T).
  destruct (contains bs b); cbn; lia.
Qed.
Lemma sound_nil (l : list (byteset * T)) : sound_sets l -> (forall b, (b < 256)%N -> at_byte l b = []) -> l = [].
Proof.
  intros Hs H. destruct l as [|[bs t] r]; [reflexivity|]. exfalso. inversion Hs as [|? ? Hi _]; subst. cbn in Hi.
  destruct (inhabited_byte _ Hi) as (b & Hb & Hc). specialize (H b Hb). rewrite at_byte_cons, Hc in H. discriminate.
Qed.
End Fine.

(** Related branches: for every byte, what follows it. *)
Definition brel {T T'} (R : T -> T' -> Prop) (l : list (byteset * T)) (l' : list (byteset * T')) : Prop :=
  fine l /\ fine l' /\ forall b, (b < 256)%N -> Forall2 R (at_byte l b) (at_byte l' b).
Lemma brel_nil {T T'} (R : T -> T' -> Prop) : brel R [] [].
Proof. split; [apply fine_nil|]. split; [apply fine_nil|]. constructor. Qed.
Lemma brel_one {T T'} (R : T -> T' -> Prop) bs t t' : inhabited_set bs -> R t t' -> brel R [(bs, t)] [(bs, t')].
Proof.
  intros Hi HR. split; [now apply fine_one|]. split; [now apply fine_one|]. intros b Hb. rewrite !at_byte_cons.
  change (at_byte [] b) with (@nil T) at 1. change (at_byte [] b) with (@nil T'). destruct (contains bs b); cbn; auto.
Qed.
Lemma brel_empty {T T'} (R : T -> T' -> Prop) l l' : brel R l l' -> l = [] <-> l' = [].
Proof.
  intros ([Hs _] & [Hs' _] & H). split; intros ->.
  - apply sound_nil; [exact Hs'|]. intros b Hb. specialize (H b Hb). change (at_byte [] b) with (@nil T) in H. now inversion H.
  - apply sound_nil; [exact Hs|]. intros b Hb. specialize (H b Hb). change (at_byte [] b) with (@nil T') in H. now inversion H.
Qed.

(** Adding branches one by one: what a byte leads to. *)
Section Fold.
Context {T U : Type} (join : T -> U -> T) (fresh : U -> T).
Definition adds (l : list (byteset * T)) (o : list (byteset * U)) : list (byteset * T) :=
  fold_left (fun l b => add_branch (fun t => join t (snd b)) l (fst b) (fresh (snd b))) o l.
Definition combine_at (ts : list T) (us : list U) : list T :=
  match us with [] => ts | u :: _ => match ts with [] => [fresh u] | t :: _ => [join t u] end end.
Lemma adds_fine o : forall l, fine l -> sound_sets o -> fine (adds l o).
Proof.
  induction o as [|[bs u] o IH]; intros l Hl Ho; [exact Hl|]. inversion Ho as [|? ? H0 Hr]; subst. cbn [adds fold_left].
  apply IH; [|exact Hr]. apply add_fine; [exact Hl|apply H0].
Qed.
Lemma adds_at o : forall l b, (b < 256)%N -> fine l -> fine o -> at_byte (adds l o) b = combine_at (at_byte l b) (at_byte o b).
Proof.
  induction o as [|[bs u] o IH]; intros l b Hb Hl Ho; [reflexivity|]. destruct Ho as [Hs H1].
  inversion Hs as [|? ? H0 Hr]; subst. cbn [adds fold_left].
  assert (Ho' : fine o). { split; [exact Hr|]. intros b' Hb'. specialize (H1 b' Hb'). rewrite at_byte_cons, app_length in H1. lia. }
  change (fold_left _ o ?l) with (adds l o).
  rewrite IH; [|exact Hb|apply add_fine; [exact Hl|apply H0]|exact Ho'].
  cbn [fst snd]. rewrite add_at_byte; [|exact Hb|now apply Hl]. rewrite at_byte_cons.
  specialize (H1 b Hb). rewrite at_byte_cons in H1. destruct (contains bs b); cbn [app] in *; [|reflexivity].
  cbn [length] in H1. destruct (at_byte o b); [|cbn in H1; lia]. reflexivity.
Qed.
End Fold.
Lemma adds_rel {T T' U U'} (join : T -> U -> T) (join' : T' -> U' -> T') fresh fresh' (R : T -> T' -> Prop) (S : U -> U' -> Prop) l l' o o' :
  (forall t t' u u', R t t' -> S u u' -> R (join t u) (join' t' u')) -> (forall u u', S u u' -> R (fresh u) (fresh' u')) ->
  brel R l l' -> brel S o o' -> brel R (adds join fresh l o) (adds join' fresh' l' o').
Proof.
  intros Hj Hf (A & A' & AR) (B & B' & BR). split; [apply adds_fine; [exact A|apply B]|]. split; [apply adds_fine; [exact A'|apply B']|].
  intros b Hb. rewrite !adds_at by auto. specialize (AR b Hb). specialize (BR b Hb). unfold combine_at.
  inversion BR; subst; [exact AR|]. inversion AR; subst; auto.
Qed.
Lemma adds_swap {T T'} (join : T -> T -> T) (join' : T' -> T' -> T') (R : T -> T' -> Prop) l l' o o' :
  (forall t t' u u', R t t' -> R u u' -> R (join t u) (join' u' t')) ->
  brel R l l' -> brel R o o' -> brel R (adds join (fun t => t) l o) (adds join' (fun t => t) o' l').
Proof.
  intros Hj (A & A' & AR) (B & B' & BR). split; [apply adds_fine; [exact A|apply B]|]. split; [apply adds_fine; [exact B'|apply A']|].
  intros b Hb. rewrite !adds_at by auto. specialize (AR b Hb). specialize (BR b Hb).
  pose proof (proj2 A b Hb) as LA. pose proof (proj2 B b Hb) as LB. unfold combine_at.
  inversion BR as [|u u' ? ? HR HR']; inversion AR as [|t t' ? ? HT HT']; subst; auto.
  - match goal with X : t :: _ = at_byte l b |- _ => rewrite <- X in LA end. cbn in LA.
    match goal with X : Forall2 _ ?q _ |- _ => destruct q; [|cbn in LA; lia] end. inversion HT'; subst. auto.
  - match goal with X : u :: _ = at_byte o b |- _ => rewrite <- X in LB end. cbn in LB.
    destruct l0; [|cbn in LB; lia]. inversion HR'; subst. auto.
Qed.

(** The products of the branches of two steps *)
Section Cross.
Context {T : Type} (pair2 : T -> T -> T).
Definition cross1 (l2 : list (byteset * T)) (b1 : byteset * T) : list (byteset * T) :=
  flat_map (fun b2 =>
    let bs := ByteSetModel.intersection (fst b1) (fst b2) in
    if ByteSetModel.is_empty bs then [] else [(bs, pair2 (snd b1) (snd b2))]) l2.
Definition rest1 (l2 : list (byteset * T)) (b1 : byteset * T) : list (byteset * T) :=
  let diff := fold_left (fun d b2 => ByteSetModel.difference d (fst b2)) l2 (fst b1) in
  if ByteSetModel.is_empty diff then [] else [(diff, snd b1)].
Definition cross (l1 l2 : list (byteset * T)) := flat_map (cross1 l2) l1.
Definition cross_rest (l1 l2 : list (byteset * T)) := flat_map (fun b1 => cross1 l2 b1 ++ rest1 l2 b1) l1.
Lemma cross1_at l2 bs1 t1 b : at_byte (cross1 l2 (bs1, t1)) b = if contains bs1 b then map (pair2 t1) (at_byte l2 b) else [].
Proof.
  unfold cross1. cbn [fst snd]. induction l2 as [|[bs2 t2] r IH]; cbn [flat_map fst snd].
  - change (at_byte [] b) with (@nil T). destruct (contains bs1 b); reflexivity.
  - rewrite at_byte_app, IH. rewrite at_byte_cons.
    assert (E : at_byte (if ByteSetModel.is_empty (ByteSetModel.intersection bs1 bs2) then [] else [(ByteSetModel.intersection bs1 bs2, pair2 t1 t2)]) b
      = if contains bs1 b && contains bs2 b then [pair2 t1 t2] else []).
    { rewrite <- ByteSetProofs.contains_intersection. destruct (ByteSetModel.is_empty _) eqn:E.
      - rewrite (empty_contains _ b E). reflexivity.
      - rewrite at_byte_cons. change (at_byte [] b) with (@nil T). now rewrite app_nil_r. }
    refine (eq_trans (f_equal2 (@app T) E eq_refl) _). destruct (contains bs1 b), (contains bs2 b); reflexivity.
Qed.
Lemma diffs_contains (l2 : list (byteset * T)) b : (b < 256)%N -> forall bs, contains (fold_left (fun d b2 => ByteSetModel.difference d (fst b2)) l2 bs) b
  = contains bs b && match at_byte l2 b with [] => true | _ => false end.
Proof.
  intros Hb. induction l2 as [|[bs2 t2] r IH]; intros bs; cbn [fold_left fst].
  - cbn. now rewrite andb_true_r.
  - rewrite IH, ByteSetProofs.contains_difference by auto. rewrite at_byte_cons.
    destruct (contains bs b), (contains bs2 b); reflexivity.
Qed.
Lemma diffs_wf l2 : forall bs, ByteSetModel.wf bs -> ByteSetModel.wf (fold_left (fun (d : byteset) (b2 : byteset * T) => ByteSetModel.difference d (fst b2)) l2 bs).
Proof. induction l2; intros bs H; cbn; [exact H|]. apply IHl2. now apply ByteSetProofs.wf_difference. Qed.
Lemma rest1_at l2 bs1 (t1 : T) b : (b < 256)%N -> at_byte (rest1 l2 (bs1, t1)) b = if contains bs1 b then match at_byte l2 b with [] => [t1] | _ => [] end else [].
Proof.
  intros Hb. unfold rest1. cbn [fst snd]. pose proof (diffs_contains l2 b Hb bs1) as H.
  destruct (ByteSetModel.is_empty _) eqn:E.
  - rewrite (empty_contains _ b E) in H. destruct (contains bs1 b), (at_byte l2 b); try discriminate; reflexivity.
  - rewrite at_byte_cons, H. change (at_byte [] b) with (@nil T). destruct (contains bs1 b), (at_byte l2 b); reflexivity.
Qed.
Lemma flat_map_at {A} (f : A -> list (byteset * T)) l b : at_byte (flat_map f l) b = flat_map (fun a => at_byte (f a) b) l.
Proof. induction l; cbn [flat_map]; [reflexivity|]. now rewrite at_byte_app, IHl. Qed.
Lemma cross_at l1 l2 b : at_byte (cross l1 l2) b = flat_map (fun t1 => map (pair2 t1) (at_byte l2 b)) (at_byte l1 b).
Proof.
  unfold cross. rewrite flat_map_at. induction l1 as [|[bs1 t1] r IH]; [reflexivity|]. cbn [flat_map]. rewrite IH, cross1_at, at_byte_cons.
  destruct (contains bs1 b); reflexivity.
Qed.
Lemma cross_rest_at l1 l2 b : (b < 256)%N -> at_byte (cross_rest l1 l2) b =
  flat_map (fun t1 => map (pair2 t1) (at_byte l2 b) ++ match at_byte l2 b with [] => [t1] | _ => [] end) (at_byte l1 b).
Proof.
  intros Hb. unfold cross_rest. rewrite flat_map_at. induction l1 as [|[bs1 t1] r IH]; [reflexivity|]. cbn [flat_map].
  rewrite IH, at_byte_app, cross1_at, rest1_at, at_byte_cons by auto. destruct (contains bs1 b); reflexivity.
Qed.
Lemma cross1_sound l2 bs t : ByteSetModel.wf bs -> sound_sets (cross1 l2 (bs, t)).
Proof.
  intros Hw. unfold cross1, sound_sets. induction l2 as [|[bs2 t2] r IH]; cbn [flat_map fst snd]; [constructor|].
  apply Forall_app. split; [|exact IH]. destruct (ByteSetModel.is_empty _) eqn:E; constructor; [now apply inter_wf|constructor].
Qed.
Lemma rest1_sound l2 bs t : ByteSetModel.wf bs -> sound_sets (rest1 l2 (bs, t)).
Proof.
  intros Hw. unfold rest1, sound_sets. cbn [fst snd]. destruct (ByteSetModel.is_empty _) eqn:E; constructor; [|constructor].
  split; [now apply diffs_wf|exact E].
Qed.
Lemma cross_fine l1 l2 : fine l1 -> fine l2 -> fine (cross l1 l2).
Proof.
  intros [S1 A1] [S2 A2]. split.
  - clear A1 A2. unfold cross, sound_sets. induction l1 as [|[bs t] r IH]; cbn; [constructor|]. inversion S1 as [|? ? H0 Hr]; subst.
    apply Forall_app. split; [apply cross1_sound, H0|auto].
  - intros b Hb. rewrite cross_at. specialize (A1 b Hb). specialize (A2 b Hb).
    destruct (at_byte l1 b) as [|x [|y q]]; cbn in *; try lia. rewrite app_nil_r, map_length. exact A2.
Qed.
Lemma cross_rest_fine l1 l2 : fine l1 -> fine l2 -> fine (cross_rest l1 l2).
Proof.
  intros [S1 A1] [S2 A2]. split.
  - clear A1 A2. unfold cross_rest, sound_sets. induction l1 as [|[bs t] r IH]; cbn; [constructor|]. inversion S1 as [|? ? H0 Hr]; subst.
    apply Forall_app. split; [|auto]. apply Forall_app. split; [apply cross1_sound, H0|apply rest1_sound, H0].
  - intros b Hb. rewrite cross_rest_at by auto. specialize (A1 b Hb). specialize (A2 b Hb).
    destruct (at_byte l1 b) as [|x [|y q]]; cbn in *; try lia. rewrite app_nil_r, app_length, map_length.
    destruct (at_byte l2 b) as [|? [|? ?]]; cbn in *; lia.
Qed.
End Cross.
Lemma Forall2_flat_map {A B A' B'} (R : A -> A' -> Prop) (S : B -> B' -> Prop) f f' l l' :
  (forall a a', R a a' -> Forall2 S (f a) (f' a')) -> Forall2 R l l' -> Forall2 S (flat_map f l) (flat_map f' l').
Proof. intros H HL. induction HL; cbn; [constructor|]. apply Forall2_app; auto. Qed.
Lemma Forall2_map2 {A B A' B'} (R : A -> A' -> Prop) (S : B -> B' -> Prop) f f' l l' :
  (forall a a', R a a' -> S (f a) (f' a')) -> Forall2 R l l' -> Forall2 S (map f l) (map f' l').
Proof. intros H HL. induction HL; cbn; constructor; auto. Qed.
Lemma cross_rel {T T'} (p : T -> T -> T) (p' : T' -> T' -> T') (R : T -> T' -> Prop) l l' o o' :
  (forall t t' u u', R t t' -> R u u' -> R (p t u) (p' t' u')) -> brel R l l' -> brel R o o' -> brel R (cross p l o) (cross p' l' o').
Proof.
  intros Hp (A & A' & AR) (B & B' & BR). split; [now apply cross_fine|]. split; [now apply cross_fine|].
  intros b Hb. rewrite !cross_at. eapply Forall2_flat_map; [|apply AR; exact Hb]. intros a a' Ha.
  eapply Forall2_map2; [|apply BR; exact Hb]. auto.
Qed.
Lemma cross_rest_rel {T T'} (p : T -> T -> T) (p' : T' -> T' -> T') (R : T -> T' -> Prop) l l' o o' :
  (forall t t' u u', R t t' -> R u u' -> R (p t u) (p' t' u')) -> brel R l l' -> brel R o o' -> brel R (cross_rest p l o) (cross_rest p' l' o').
Proof.
  intros Hp (A & A' & AR) (B & B' & BR). split; [now apply cross_rest_fine|]. split; [now apply cross_rest_fine|].
  intros b Hb. rewrite !cross_rest_at by auto. specialize (BR b Hb). eapply Forall2_flat_map; [|apply AR; exact Hb]. intros a a' Ha.
  apply Forall2_app.
  - eapply Forall2_map2; [|exact BR]. auto.
  - inversion BR; subst; auto.
Qed.
Lemma map_rel {T T' U U'} (f : T -> U) (f' : T' -> U') (R : T -> T' -> Prop) (S : U -> U' -> Prop) l l' :
  (forall t t', R t t' -> S (f t) (f' t')) -> brel R l l' ->
  brel S (map (fun b => (fst b, f (snd b))) l) (map (fun b => (fst b, f' (snd b))) l').
Proof.
  intros Hf (A & A' & AR).
  assert (M : forall {P Q} (g : P -> Q) (k : list (byteset * P)) b, at_byte (map (fun b => (fst b, g (snd b))) k) b = map g (at_byte k b)).
  { intros P Q g k b. induction k as [|[bs t] r IH]; [reflexivity|]. cbn [map fst snd]. rewrite !at_byte_cons, IH, map_app. destruct (contains bs b); reflexivity. }
  assert (F : forall {P Q} (g : P -> Q) (k : list (byteset * P)), fine k -> fine (map (fun b => (fst b, g (snd b))) k)).
  { intros P Q g k [S1 S2]. split.
    - unfold sound_sets in *. rewrite Forall_forall in *. intros x Hx. apply in_map_iff in Hx as (y & <- & Hy). cbn. auto.
    - intros b Hb. rewrite M, map_length. auto. }
  split; [now apply F|]. split; [now apply F|]. intros b Hb. rewrite !M. eapply Forall2_map2; [exact Hf|now apply AR].
Qed.

(** ** Unfolding the mutual definition *)
Section XUnfold.
Context (m : fmodule).
Notation xfrom_next := (xfrom_next m).
Notation xfrom_slice := (xfrom_slice m).
Notation xfrom_format := (xfrom_format m).
Notation xfrom_gt := (xfrom_gt m).
Lemma xfrom_next_S fuel (n : tnext) : xfrom_next (S fuel) n =

    let mt f n := match f with MU f => xfrom_format fuel f n | MT' f => xfrom_gt fuel f n end in
    match n with
    | XEmpty => Val x_accept
    | XUnion a b => obind (xfrom_next fuel a) (fun t1 => omap (x_union t1) (xfrom_next fuel b))
    | XCat f n' => mt f n'
    | XSequence (MUs []) n' | XSequence (MTs []) n' => xfrom_next fuel n'
    | XSequence (MUs (f :: fs)) n' => xfrom_format fuel f (XSequence (MUs fs) n')
    | XSequence (MTs (f :: fs)) n' => xfrom_gt fuel f (XSequence (MTs fs) n')
    | XRepeat a n0 => obind (xfrom_next fuel n0) (fun t => omap (x_union t) (mt a n))
    | XRepeatBetween min max a n0 =>
      if N.eqb min max then Panic
      else if N.ltb 0 min then if N.eqb max 0 then Panic else mt a (XRepeatBetween (min - 1) (max - 1) a n0)
      else xfrom_next fuel (XRepeatMax max a n0)
    | XRepeatMax k a n0 =>
      if N.eqb k 0 then xfrom_next fuel n0
      else obind (xfrom_next fuel n0) (fun t => omap (x_union t) (mt a (XRepeatMax (k - 1) a n0)))
    | XRepeatCount k a n0 =>
      if N.ltb 0 k then mt a (XRepeatCount (k - 1) a n0) else xfrom_next fuel n0
    | XSlice k inside n0 => xfrom_slice fuel k inside n0
    | XPeek a b => obind (xfrom_next fuel a) (fun t1 => omap (x_peek t1) (xfrom_next fuel b))
    | XPeekNot a b => obind (xfrom_next fuel a) (fun t1 => omap (x_peek_not t1) (xfrom_next fuel b))
    end.
Proof. reflexivity. Qed.
Lemma xfrom_slice_S fuel (k : N) (inside n : tnext) : xfrom_slice (S fuel) k inside n =

    if N.ltb 0 k then
      omap (fun t =>
        match x_br t with
        | [] => XStep false [(ByteSetModel.full, XSlice (k - 1) XEmpty n)]
        | l => XStep false (map (fun b => (fst b, XSlice (k - 1) (snd b) n)) l)
        end) (xfrom_next fuel inside)
    else xfrom_next fuel n.
Proof. reflexivity. Qed.
Lemma xfrom_format_S fuel (f : format) (n : tnext) : xfrom_format (S fuel) f n =

    let from_repeat_count k a n := if N.ltb 0 k then xfrom_format fuel a (XRepeatCount (k - 1) (MU a) n) else xfrom_next fuel n in
    match f with
    | FItemVar level _ _ => match get_item m level with Some it => xfrom_format fuel (it_format it) n | None => Panic end
    | FPhantom _ => Val x_accept
    | FFail => Val x_reject
    | FEndOfInput => Val x_accept
    | FSkipRemainder => Val x_accept
    | FAlign k => if N.eqb k 0 then Panic else if N.eqb k 1 then xfrom_next fuel n else Val x_accept
    | FDecodeBytes _ _ | FParseFromView _ _ => xfrom_next fuel n
    | FByte bs => Val (x_branch bs n)
    | FVariant _ g => xfrom_format fuel g n
    | FUnion fs | FUnionNondet fs =>
      ofoldM (fun t g => omap (x_union t) (xfrom_format fuel g n)) x_reject fs
    | FSequence fs | FTuple fs =>
      match fs with
      | [] => xfrom_next fuel n
      | g :: gs => xfrom_format fuel g (XSequence (MUs gs) n)
      end
    | FRepeat a => obind (xfrom_next fuel n) (fun t => omap (x_union t) (xfrom_format fuel a (XRepeat (MU a) n)))
    | FForEach _ _ a =>
      obind (xfrom_next fuel n) (fun t => obind (match_bounds (item_bounds m) a) (fun b =>
        if N.eqb (bmin b) 0 then
          match bmax b with
          | Some 0%N => Val t
          | _ => Val x_accept
          end
        else omap (x_union t) (xfrom_format fuel a (XRepeat (MU a) n))))
    | FRepeat1 a => xfrom_format fuel a (XRepeat (MU a) n)
    | FRepeatCount e a =>
      obind (expr_bounds e) (fun b =>
        match as_exact b with
        | Some k => from_repeat_count k a n
        | None => from_repeat_count (bmin b) a XEmpty
        end)
    | FRepeatBetween e1 e2 a =>
      obind (expr_bounds e1) (fun b1 => obind (expr_bounds e2) (fun b2 =>
        match as_exact b1, as_exact b2 with
        | Some min, Some max =>
          match N.compare min max with
          | Lt => if N.ltb 0 min then xfrom_format fuel a (XRepeatBetween (min - 1) (max - 1) (MU a) n)
                  else xfrom_next fuel (XRepeatMax max (MU a) n)
          | Eq => from_repeat_count min a n
          | Gt => Panic
          end
        | _, _ => Panic
        end))
    | FRepeatUntilLast _ _ | FRepeatUntilSeq _ _ | FAccumUntil _ _ _ _ _ => Val x_accept
    | FMaybe _ a => obind (xfrom_format fuel a n) (fun t => omap (x_union t) (xfrom_next fuel n))
    | FPeek a => obind (xfrom_next fuel n) (fun t => omap (x_peek t) (xfrom_format fuel a XEmpty))
    | FPeekNot a => obind (xfrom_next fuel n) (fun t => omap (x_peek_not t) (xfrom_format fuel a XEmpty))
    | FSlice e a =>
      obind (expr_bounds e) (fun b =>
        match as_exact b with
        | Some k => xfrom_slice fuel k (XCat (MU a) XEmpty) n
        | None => xfrom_slice fuel (bmin b) (XCat (MU a) XEmpty) XEmpty
        end)
    | FBits _ | FWithRelativeOffset _ _ _ => Val x_accept
    | FMap g _ | FWhere g _ _ => xfrom_format fuel g n
    | FPos | FCompute _ => xfrom_next fuel n
    | FLet _ _ g | FLetView _ g => xfrom_format fuel g n
    | FPermit g _ => xfrom_format fuel g n
    | FMatch _ bs =>
      ofoldM (fun t (b : pattern * format) => omap (x_union t) (xfrom_format fuel (snd b) n)) x_reject bs
    | FDynamic _ _ g => xfrom_format fuel g n
    | FApply _ => Val x_accept
    | FMonadSeq g h | FLetFormat g _ h => xfrom_format fuel g (XCat (MU h) n)
    | FHint g => xfrom_format fuel g n
    | FLiftedOption None => xfrom_next fuel n
    | FLiftedOption (Some g) => xfrom_format fuel g n
    | FWithView _ _ => xfrom_next fuel n
    end.
Proof. reflexivity. Qed.
Lemma xfrom_gt_S fuel (f : tformat) (n : tnext) : xfrom_gt (S fuel) f n =

    let from_repeat_count k a n := if N.ltb 0 k then xfrom_gt fuel a (XRepeatCount (k - 1) (MT' a) n) else xfrom_next fuel n in
    match f with
    | GCall _ level _ _ _ => match get_item m level with Some it => xfrom_format fuel (it_format it) n | None => Panic end
    | GFail => Val x_reject
    | GEndOfInput | GAlign _ | GPhantom _ _ | GSkipRemainder => Val x_accept
    | GByte bs => Val (x_branch bs n)
    | GVariant _ _ g => xfrom_gt fuel g n
    | GUnion _ fs | GUnionNondet _ fs =>
      ofoldM (fun t g => omap (x_union t) (xfrom_gt fuel g n)) x_reject fs
    | GSequence _ fs | GTuple _ fs =>
      match fs with
      | [] => xfrom_next fuel n
      | g :: gs => xfrom_gt fuel g (XSequence (MTs gs) n)
      end
    | GRepeat _ a => obind (xfrom_next fuel n) (fun t => omap (x_union t) (xfrom_gt fuel a (XRepeat (MT' a) n)))
    | GForEach _ _ _ a =>
      obind (xfrom_next fuel n) (fun t => obind (tmatch_bounds a) (fun b =>
        if N.eqb (bmin b) 0 then
          match bmax b with
          | Some 0%N => Val t
          | _ => Val x_accept
          end
        else omap (x_union t) (xfrom_gt fuel a (XRepeat (MT' a) n))))
    | GRepeat1 _ a => xfrom_gt fuel a (XRepeat (MT' a) n)
    | GRepeatCount _ e a =>
      match as_exact (texpr_bounds e) with
      | Some k => from_repeat_count k a n
      | None => from_repeat_count (bmin (texpr_bounds e)) a XEmpty
      end
    | GRepeatBetween _ e1 e2 a =>
      match as_exact (texpr_bounds e1), as_exact (texpr_bounds e2) with
      | Some min, Some max =>
        match N.compare min max with
        | Lt => if N.ltb 0 min then xfrom_gt fuel a (XRepeatBetween (min - 1) (max - 1) (MT' a) n)
                else xfrom_next fuel (XRepeatMax max (MT' a) n)
        | Eq => from_repeat_count min a n
        | Gt => Panic
        end
      | _, _ => Panic
      end
    | GRepeatUntilLast _ _ _ | GRepeatUntilSeq _ _ _ | GAccumUntil _ _ _ _ _ _ => Val x_accept
    | GMaybe _ _ a => obind (xfrom_gt fuel a n) (fun some => omap (fun none => x_union none some) (xfrom_next fuel n))
    | GLiftedOption _ None => xfrom_next fuel n
    | GLiftedOption _ (Some g) => xfrom_gt fuel g n
    | GPeek _ a => obind (xfrom_next fuel n) (fun t => omap (x_peek t) (xfrom_gt fuel a XEmpty))
    | GPeekNot _ a => obind (xfrom_next fuel n) (fun t => omap (x_peek_not t) (xfrom_gt fuel a XEmpty))
    | GSlice _ e a =>
      match as_exact (texpr_bounds e) with
      | Some k => xfrom_slice fuel k (XCat (MT' a) XEmpty) n
      | None => xfrom_slice fuel (bmin (texpr_bounds e)) (XCat (MT' a) XEmpty) XEmpty
      end
    | GBits _ _ | GWithRelativeOffset _ _ _ _ => Val x_accept
    | GMap _ g _ | GWhere _ g _ _ => xfrom_gt fuel g n
    | GDecodeBytes _ _ _ | GParseFromView _ _ _ | GCompute _ _ => xfrom_next fuel n
    | GPos _ => xfrom_next fuel n
    | GLet _ _ _ g | GLetView _ _ g => xfrom_gt fuel g n
    | GMatch _ _ bs =>
      ofoldM (fun t (b : pattern * tformat) => omap (x_union t) (xfrom_gt fuel (snd b) n)) x_reject bs
    | GDynamic _ _ _ g => xfrom_gt fuel g n
    | GApply _ _ => Val x_accept
    | GMonadSeq _ g h | GLetFormat _ g _ h => xfrom_gt fuel g (XCat (MT' h) n)
    | GHint _ g | GPermit _ g _ => xfrom_gt fuel g n
    | GWithView _ _ _ => xfrom_next fuel n
    end.
Proof. reflexivity. Qed.
End XUnfold.

(** ** Steps *)
Section Sim.
Context (m : fmodule) (HB : bounded_items m) (HM : module_wide bytes_inhabited m).
Notation inh := (everywhere bytes_inhabited).
Notation follows := (follows m).
Inductive msim : mformat -> format -> Prop :=
| MsU f : inh f -> msim (MU f) f
| MsT f : follows f -> msim (MT' f) (forget f).
Inductive mssim : mformats -> list format -> Prop :=
| MssU fs : Forall inh fs -> mssim (MUs fs) fs
| MssT fs : Forall follows fs -> mssim (MTs fs) (map forget fs).
Inductive nsim : tnext -> next -> Prop :=
| SEmp : nsim XEmpty NEmpty
| SUni a b a' b' : nsim a a' -> nsim b b' -> nsim (XUnion a b) (NUnion a' b')
| SSwp a b a' b' : nsim a a' -> nsim b b' -> nsim (XUnion a b) (NUnion b' a')
| SCat f f' n n' : msim f f' -> nsim n n' -> nsim (XCat f n) (NCat f' n')
| SSeq f f' n n' : mssim f f' -> nsim n n' -> nsim (XSequence f n) (NSequence f' n')
| SRep f f' n n' : msim f f' -> nsim n n' -> nsim (XRepeat f n) (NRepeat f' n')
| SCnt k f f' n n' : msim f f' -> nsim n n' -> nsim (XRepeatCount k f n) (NRepeatCount k f' n')
| SMax k f f' n n' : msim f f' -> nsim n n' -> nsim (XRepeatMax k f n) (NRepeatMax k f' n')
| SBtw k1 k2 f f' n n' : msim f f' -> nsim n n' -> nsim (XRepeatBetween k1 k2 f n) (NRepeatBetween k1 k2 f' n')
| SSli k a a' n n' : nsim a a' -> nsim n n' -> nsim (XSlice k a n) (NSlice k a' n')
| SPk a b a' b' : nsim a a' -> nsim b b' -> nsim (XPeek a b) (NPeek a' b')
| SPn a b a' b' : nsim a a' -> nsim b b' -> nsim (XPeekNot a b) (NPeekNot a' b').
Definition srel (s : xstep) (s' : step) : Prop := x_acc s = s_acc s' /\ brel nsim (x_br s) (s_br s').
Definition orel (x : outcome xstep) (y : outcome step) : Prop :=
  match x, y with Val s, Val s' => srel s s' | Panic, Panic => True | _, _ => False end.

Lemma x_union_acc s o : x_acc (x_union s o) = x_acc s || x_acc o.
Proof. unfold x_union. assert (H : forall l s, x_acc (fold_left xunion_branch l s) = x_acc s) by (induction l; intros; cbn; [reflexivity|]; now rewrite IHl). now rewrite H. Qed.
Lemma x_union_br s o : x_br (x_union s o) = adds XUnion (fun t => t) (x_br s) (x_br o).
Proof.
  unfold x_union, adds. assert (H : forall l s, x_br (fold_left xunion_branch l s) =
    fold_left (fun l b => add_branch (fun t => XUnion t (snd b)) l (fst b) (snd b)) l (x_br s)) by (induction l; intros; cbn [fold_left]; [reflexivity|]; now rewrite IHl).
  now rewrite H.
Qed.
Lemma s_union_acc s o : s_acc (s_union s o) = s_acc s || s_acc o.
Proof. unfold s_union. now rewrite fold_union_acc. Qed.
Lemma s_union_br s o : s_br (s_union s o) = adds NUnion (fun t => t) (s_br s) (s_br o).
Proof.
  unfold s_union, adds. assert (H : forall l s, s_br (fold_left union_branch l s) =
    fold_left (fun l b => add_branch (fun t => NUnion t (snd b)) l (fst b) (snd b)) l (s_br s)) by (induction l; intros; cbn [fold_left]; [reflexivity|]; now rewrite IHl).
  now rewrite H.
Qed.
Lemma srel_union s s' o o' : srel s s' -> srel o o' -> srel (x_union s o) (s_union s' o').
Proof.
  intros [A B] [C D]. split; [rewrite x_union_acc, s_union_acc; congruence|]. rewrite x_union_br, s_union_br.
  eapply adds_rel; eauto. intros. now constructor.
Qed.
Lemma srel_swap s s' o o' : srel s s' -> srel o o' -> srel (x_union s o) (s_union o' s').
Proof.
  intros [A B] [C D]. split; [rewrite x_union_acc, s_union_acc, A, C; apply orb_comm|]. rewrite x_union_br, s_union_br.
  eapply adds_swap; eauto. intros. now apply SSwp.
Qed.
Lemma srel_peek s s' o o' : srel s s' -> srel o o' -> srel (x_peek s o) (s_peek s' o').
Proof.
  intros [A B] [C D]. unfold x_peek, s_peek. rewrite C, A. destruct (s_acc o') eqn:E1; [now split|].
  destruct (s_acc s') eqn:E2; [now split|]. split; [reflexivity|]. cbn [x_br s_br].
  exact (cross_rel XPeek NPeek nsim _ _ _ _ (fun t t' u u' => SPk t u t' u') B D).
Qed.
Lemma srel_peek_not s s' o o' : srel s s' -> srel o o' -> srel (x_peek_not s o) (s_peek_not s' o').
Proof.
  intros [A B] [C D]. unfold x_peek_not, s_peek_not. rewrite C. destruct (s_acc o') eqn:E1; [split; [reflexivity|apply brel_nil]|].
  split; [exact A|]. cbn [x_br s_br]. exact (cross_rest_rel XPeekNot NPeekNot nsim _ _ _ _ (fun t t' u u' => SPn t u t' u') B D).
Qed.
Lemma srel_reject : srel x_reject s_reject. Proof. split; [reflexivity|apply brel_nil]. Qed.
Lemma srel_accept : srel x_accept s_accept. Proof. split; [reflexivity|apply brel_nil]. Qed.
Lemma srel_branch bs n n' : inhabited_set bs -> nsim n n' -> srel (x_branch bs n) (s_branch bs n').
Proof. intros H Hn. split; [reflexivity|]. now apply brel_one. Qed.
Lemma orel_bind x y f g : orel x y -> (forall s s', srel s s' -> orel (f s) (g s')) -> orel (obind x f) (obind y g).
Proof. unfold orel at 1. destruct x, y; try contradiction; cbn; auto. Qed.
Lemma orel_map x y f g : orel x y -> (forall s s', srel s s' -> srel (f s) (g s')) -> orel (omap f x) (omap g y).
Proof. unfold orel at 1. destruct x, y; try contradiction; cbn; auto. Qed.
Lemma orel_fold {A B} (F : A -> outcome xstep) (G : B -> outcome step) l l' : Forall2 (fun a b => orel (F a) (G b)) l l' ->
  forall t t', srel t t' -> orel (ofoldM (fun t g => omap (x_union t) (F g)) t l) (ofoldM (fun t g => omap (s_union t) (G g)) t' l').
Proof.
  intros H. induction H as [|a b l l' Hab Hl IH]; intros t t' Ht; cbn [ofoldM]; [exact Ht|].
  apply orel_bind.
  - apply orel_map; [exact Hab|]. intros. now apply srel_union.
  - intros. now apply IH.
Qed.
Lemma srel_slice t t' k n n' : srel t t' -> nsim n n' ->
  srel (match x_br t with [] => XStep false [(ByteSetModel.full, XSlice k XEmpty n)] | l => XStep false (map (fun b => (fst b, XSlice k (snd b) n)) l) end)
       (match s_br t' with [] => Step false [(ByteSetModel.full, NSlice k NEmpty n')] | l => Step false (map (fun b => (fst b, NSlice k (snd b) n')) l) end).
Proof.
  intros [_ H] Hn. pose proof (brel_empty _ _ _ H) as He.
  destruct (x_br t) as [|p l] eqn:E, (s_br t') as [|p' l'] eqn:E'.
  - split; [reflexivity|]. apply brel_one; [split; [apply ByteSetProofs.wf_full|reflexivity]|]. constructor; [constructor|exact Hn].
  - exfalso. assert (p' :: l' = []) by now apply He. discriminate.
  - exfalso. assert (p :: l = []) by now apply He. discriminate.
  - split; [reflexivity|]. cbn [x_br s_br]. exact (map_rel (fun x => XSlice k x n) (fun x => NSlice k x n') nsim nsim _ _ (fun t t' Ht => SSli k t t' n n' Ht Hn) H).
Qed.
Lemma inh_sub f g : inh f -> incl (subs g) (subs f) -> inh g.
Proof. intros H Hi x Hx. apply H, Hi, Hx. Qed.
Ltac isub := match goal with H : everywhere _ ?f |- everywhere _ ?g => apply (inh_sub f g H); intros ? ?; cbn [subs]; right; auto using in_or_app end.
Ltac fsub := match goal with H : TypedInd.follows _ _ |- _ => let A := fresh in let B := fresh in destruct H as [A B]; split; tsubt end.

Lemma ilist fs f : inh f -> incl (flat_map subs fs) (subs f) -> Forall inh fs.
Proof. intros H Hi. apply everywhere_list. intros g Hg. apply H, Hi, Hg. Qed.
Lemma ibranches bs f : inh f -> incl (flat_map (fun b : pattern * format => match b with (_, g) => subs g end) bs) (subs f) -> Forall (fun b => inh (snd b)) bs.
Proof. intros H Hi. apply everywhere_branches. intros g Hg. apply H, Hi, Hg. Qed.
Lemma flist fs f : follows f -> incl (flat_map tsubs fs) (tsubs f) -> Forall follows fs.
Proof. intros [H1 H2] Hi. apply follows_list; intros g Hg; [apply H1|apply H2]; now apply Hi. Qed.
Lemma fbranches bs f : follows f -> incl (flat_map (fun b : pattern * tformat => match b with (_, g) => tsubs g end) bs) (tsubs f) -> Forall (fun b => follows (snd b)) bs.
Proof. intros [H1 H2] Hi. apply follows_branches; intros g Hg; [apply H1|apply H2]; now apply Hi. Qed.
Lemma Forall2_map_r {A B C} (R : A -> C -> Prop) (g : B -> C) l l' : Forall2 (fun a b => R a (g b)) l l' -> Forall2 R l (map g l').
Proof. intros H. induction H; cbn; constructor; auto. Qed.
Lemma Forall2_diag {A} (R : A -> A -> Prop) l : Forall (fun a => R a a) l -> Forall2 R l l.
Proof. intros H. induction H; constructor; auto. Qed.
Lemma obind_ret {A} (x : outcome A) k : (forall s, k s = Val s) -> obind x k = x.
Proof. intros H. destruct x; cbn; auto. Qed.
Definition sim_next fuel := forall tn n, nsim tn n -> orel (xfrom_next m fuel tn) (from_next m LReal fuel n).
Definition sim_slice fuel := forall k a a' tn n, nsim a a' -> nsim tn n -> orel (xfrom_slice m fuel k a tn) (from_slice m LReal fuel k a' n).
Definition sim_format fuel := forall f tn n, inh f -> nsim tn n -> orel (xfrom_format m fuel f tn) (from_format m LReal fuel f n).
Definition sim_gt fuel := forall f tn n, follows f -> nsim tn n -> orel (xfrom_gt m fuel f tn) (from_format m LReal fuel (forget f) n).

Lemma sim_slice_S fuel : sim_next fuel -> sim_slice (S fuel).
Proof.
  intros IN k a a' tn n Ha Hn. rewrite xfrom_slice_S, from_slice_S. cbn [look_inside]. destruct (N.ltb 0 k); [|now apply IN].
  apply orel_map; [now apply IN|]. intros. now apply srel_slice.
Qed.
Lemma sim_next_S fuel : sim_next fuel -> sim_slice fuel -> sim_format fuel -> sim_gt fuel -> sim_next (S fuel).
Proof.
  intros IN IS IF IG tn n Hn. rewrite xfrom_next_S, from_next_S. cbn zeta.
  assert (IM : forall f f' tn n, msim f f' -> nsim tn n ->
    orel match f with MU f0 => xfrom_format m fuel f0 tn | MT' f0 => xfrom_gt m fuel f0 tn end (from_format m LReal fuel f' n)).
  { intros f f' tn' n' [g Hg|g Hg] Hn'; [now apply IF|now apply IG]. }
  destruct Hn; cbn [at_end look_peek peeked approx].
  - apply srel_accept.
  - apply orel_bind; [now apply IN|]. intros. apply orel_map; [now apply IN|]. intros. now apply srel_union.
  - pose proof (IN _ _ Hn1) as X. pose proof (IN _ _ Hn2) as Y. unfold orel in X, Y.
    destruct (xfrom_next m fuel a), (from_next m LReal fuel a'); try contradiction; cbn [obind];
      destruct (xfrom_next m fuel b), (from_next m LReal fuel b'); try contradiction; cbn [obind omap orel]; auto. now apply srel_swap.
  - now apply IM.
  - destruct H as [[|g gs] Hf|[|g gs] Hf]; cbn [map]; [now apply IN| |now apply IN|]; inversion Hf; subst.
    + apply IF; [assumption|]. constructor; [now constructor|assumption].
    + apply IG; [assumption|]. constructor; [now constructor|assumption].
  - apply orel_bind; [now apply IN|]. intros. apply orel_map; [apply IM; [assumption|]; now constructor|]. intros. now apply srel_union.
  - destruct (N.ltb 0 k); [|now apply IN]. apply IM; [assumption|]. now constructor.
  - destruct (N.eqb k 0); [now apply IN|]. apply orel_bind; [now apply IN|]. intros. apply orel_map; [apply IM; [assumption|]; now constructor|]. intros. now apply srel_union.
  - destruct (N.eqb k1 k2); [exact I|]. destruct (N.ltb 0 k1).
    + destruct (N.eqb k2 0); [exact I|]. apply IM; [assumption|]. now constructor.
    + apply IN. now constructor.
  - now apply IS.
  - apply orel_bind; [now apply IN|]. intros s s' Hs. specialize (IN _ _ Hn2). unfold orel in IN |- *.
    destruct (xfrom_next m fuel b), (from_next m LReal fuel b'); try contradiction; cbn; [now apply srel_peek|exact I].
  - apply orel_bind; [now apply IN|]. intros s s' Hs. specialize (IN _ _ Hn2). unfold orel in IN |- *.
    destruct (xfrom_next m fuel b), (from_next m LReal fuel b'); try contradiction; cbn; [now apply srel_peek_not|exact I].
Qed.

Lemma sim_format_S fuel : sim_next fuel -> sim_slice fuel -> sim_format fuel -> sim_format (S fuel).
Proof.
  intros IN IS IF f tn n Hf Hn. rewrite xfrom_format_S, from_format_S. cbn zeta.
  assert (IC : forall k a tn n, inh a -> nsim tn n ->
    orel (if N.ltb 0 k then xfrom_format m fuel a (XRepeatCount (k - 1) (MU a) tn) else xfrom_next m fuel tn)
         (if N.ltb 0 k then from_format m LReal fuel a (NRepeatCount (k - 1) a n) else from_next m LReal fuel n)).
  { intros k a tn' n' Ha Hn'. destruct (N.ltb 0 k); [|now apply IN]. apply IF; [assumption|]. constructor; [now constructor|assumption]. }
  destruct f; cbn [approx approx_weak known look_peek];
    try (apply srel_accept); try (apply srel_reject); try (now apply IN); try (apply IF; [isub|assumption]; fail).
  - (* item *) destruct (get_item m level) as [it|] eqn:E; [|exact I]. apply IF; [|assumption]. eapply HM; eauto.
  - (* align *) destruct (N.eqb n0 0); [exact I|]. destruct (N.eqb n0 1); [now apply IN|]. apply srel_accept.
  - (* byte *) apply srel_branch; [exact (everywhere_self _ _ Hf)|assumption].
  - (* union *) apply orel_fold; [|apply srel_reject]. apply Forall2_diag. apply (ilist fs) in Hf; [|intros ? ?; now right].
    eapply Forall_impl; [|exact Hf]. intros. now apply IF.
  - apply orel_fold; [|apply srel_reject]. apply Forall2_diag. apply (ilist fs) in Hf; [|intros ? ?; now right].
    eapply Forall_impl; [|exact Hf]. intros. now apply IF.
  - (* tuple *) apply (ilist fs) in Hf; [|intros ? ?; now right]. destruct Hf as [|g gs Hg Hgs]; [now apply IN|]. apply IF; [assumption|]. constructor; [now constructor|assumption].
  - apply (ilist fs) in Hf; [|intros ? ?; now right]. destruct Hf as [|g gs Hg Hgs]; [now apply IN|]. apply IF; [assumption|]. constructor; [now constructor|assumption].
  - (* repeat *) assert (Hg : inh f) by isub. apply orel_bind; [now apply IN|]. intros. apply orel_map; [|intros; now apply srel_union].
    apply IF; [assumption|]. constructor; [now constructor|assumption].
  - assert (Hg : inh f) by isub. apply IF; [assumption|]. constructor; [now constructor|assumption].
  - (* count *) assert (Hg : inh f) by isub. destruct (expr_bounds e) as [b|]; cbn [obind]; [|exact I]. destruct (as_exact b); [now apply IC|].
    rewrite obind_ret by reflexivity. apply IC; [assumption|constructor].
  - (* between *) assert (Hg : inh f) by isub. destruct (expr_bounds emin) as [b1|]; cbn [obind]; [|exact I]. destruct (expr_bounds emax) as [b2|]; cbn [obind]; [|exact I].
    destruct (as_exact b1) as [k1|]; [|exact I]. destruct (as_exact b2) as [k2|]; [|exact I]. destruct (N.compare k1 k2); [now apply IC| |exact I].
    destruct (N.ltb 0 k1); [apply IF; [assumption|]|apply IN]; (constructor; [now constructor|assumption]).
  - (* for each *) assert (Hg : inh f) by isub. apply orel_bind; [now apply IN|]. intros s s' Hs.
    destruct (match_bounds (item_bounds m) f) as [b|]; cbn [obind]; [|exact I]. destruct (N.eqb (bmin b) 0).
    + destruct (bmax b) as [[|]|]; [assumption|apply srel_accept|apply srel_accept].
    + apply orel_map; [|intros; now apply srel_union]. apply IF; [assumption|]. constructor; [now constructor|assumption].
  - (* maybe *) assert (Hg : inh f) by isub. apply orel_bind; [now apply IF|]. intros. apply orel_map; [now apply IN|]. intros. now apply srel_union.
  - (* peek *) assert (Hg : inh f) by isub. apply orel_bind; [now apply IN|]. intros s s' Hs. pose proof (IF f XEmpty NEmpty Hg SEmp) as X. unfold orel in X |- *.
    destruct (xfrom_format m fuel f XEmpty), (from_format m LReal fuel f NEmpty); try contradiction; cbn; [now apply srel_peek|exact I].
  - assert (Hg : inh f) by isub. apply orel_bind; [now apply IN|]. intros s s' Hs. pose proof (IF f XEmpty NEmpty Hg SEmp) as X. unfold orel in X |- *.
    destruct (xfrom_format m fuel f XEmpty), (from_format m LReal fuel f NEmpty); try contradiction; cbn; [now apply srel_peek_not|exact I].
  - (* slice *) assert (Hg : inh f) by isub. assert (Hc : nsim (XCat (MU f) XEmpty) (NCat f NEmpty)) by (constructor; [now constructor|constructor]).
    destruct (expr_bounds e) as [b|]; cbn [obind]; [|exact I]. destruct (as_exact b); [now apply IS|].
    rewrite obind_ret by reflexivity. apply IS; [assumption|constructor].
  - (* match *) apply orel_fold with (F := fun b : pattern * format => xfrom_format m fuel (snd b) tn) (G := fun b : pattern * format => from_format m LReal fuel (snd b) n);
      [|apply srel_reject]. apply Forall2_diag. apply (ibranches bs) in Hf; [|intros ? ?; now right].
    eapply Forall_impl; [|exact Hf]. intros. now apply IF.
  - (* let *) assert (Hg : inh f1) by isub. assert (Hh : inh f2) by isub. apply IF; [assumption|]. constructor; [now constructor|assumption].
  - assert (Hg : inh f1) by isub. assert (Hh : inh f2) by isub. apply IF; [assumption|]. constructor; [now constructor|assumption].
  - destruct o as [g|]; [|now apply IN]. apply IF; [isub|assumption].
Qed.
Lemma sim_gt_S fuel : sim_next fuel -> sim_slice fuel -> sim_format fuel -> sim_gt fuel -> sim_gt (S fuel).
Proof.
  intros IN IS IF IG f tn n Hf Hn. rewrite xfrom_gt_S, from_format_S. cbn zeta.
  assert (IC : forall k a tn n, follows a -> nsim tn n ->
    orel (if N.ltb 0 k then xfrom_gt m fuel a (XRepeatCount (k - 1) (MT' a) tn) else xfrom_next m fuel tn)
         (if N.ltb 0 k then from_format m LReal fuel (forget a) (NRepeatCount (k - 1) (forget a) n) else from_next m LReal fuel n)).
  { intros k a tn' n' Ha Hn'. destruct (N.ltb 0 k); [|now apply IN]. apply IG; [assumption|]. constructor; [now constructor|assumption]. }
  pose proof (teverywhere_self _ _ (proj2 Hf)) as HA0.
  destruct f; cbn [forget approx approx_weak known look_peek];
    try (apply srel_accept); try (apply srel_reject); try (now apply IN); try (apply IG; [fsub|assumption]; fail); cbn [alike] in HA0.
  - (* call *) destruct (get_item m level) as [it|] eqn:E; [|exact I]. apply IF; [|assumption]. eapply HM; eauto.
  - (* align *) destruct (N.eqb_spec n0 0); [lia|]. destruct (N.eqb_spec n0 1); [lia|]. apply srel_accept.
  - (* byte *) now apply srel_branch.
  - (* union *) apply orel_fold; [|apply srel_reject]. apply Forall2_map_r. apply (flist fs) in Hf; [|intros ? ?; now right].
    apply Forall2_diag. eapply Forall_impl; [|exact Hf]. intros. now apply IG.
  - apply orel_fold; [|apply srel_reject]. apply Forall2_map_r. apply (flist fs) in Hf; [|intros ? ?; now right].
    apply Forall2_diag. eapply Forall_impl; [|exact Hf]. intros. now apply IG.
  - (* tuple *) apply (flist fs) in Hf; [|intros ? ?; now right]. destruct Hf as [|g gs Hg Hgs]; [now apply IN|]. cbn [map]. apply IG; [assumption|]. constructor; [now constructor|assumption].
  - apply (flist fs) in Hf; [|intros ? ?; now right]. destruct Hf as [|g gs Hg Hgs]; [now apply IN|]. cbn [map]. apply IG; [assumption|]. constructor; [now constructor|assumption].
  - (* repeat *) assert (Hg : follows f) by fsub. apply orel_bind; [now apply IN|]. intros. apply orel_map; [|intros; now apply srel_union].
    apply IG; [assumption|]. constructor; [now constructor|assumption].
  - assert (Hg : follows f) by fsub. apply IG; [assumption|]. constructor; [now constructor|assumption].
  - (* count *) assert (Hg : follows f) by fsub. destruct (near_counted _ HA0) as (b & -> & [Hmin _] & Hex). cbn [obind]. rewrite Hex, <- Hmin.
    destruct (as_exact (texpr_bounds e)); [now apply IC|]. rewrite obind_ret by reflexivity. apply IC; [assumption|constructor].
  - (* between *) assert (Hg : follows f) by fsub. destruct HA0 as [HA1 HA2].
    destruct (near_counted _ HA1) as (b1 & -> & _ & Hex1). destruct (near_counted _ HA2) as (b2 & -> & _ & Hex2). cbn [obind]. rewrite Hex1, Hex2.
    destruct (as_exact (texpr_bounds emin)) as [k1|]; [|exact I]. destruct (as_exact (texpr_bounds emax)) as [k2|]; [|exact I]. destruct (N.compare k1 k2); [now apply IC| |exact I].
    destruct (N.ltb 0 k1); [apply IG; [assumption|]|apply IN]; (constructor; [now constructor|assumption]).
  - (* for each *) assert (Hg : follows f) by fsub. apply orel_bind; [now apply IN|]. intros s s' Hs.
    pose proof (near_items m HB f Hg) as Hb.
    destruct (tmatch_bounds f) as [b|], (match_bounds (item_bounds m) (forget f)) as [b'|]; try contradiction; cbn [obind]; [|exact I].
    destruct Hb as [Hb _]. specialize (HA0 b b' eq_refl eq_refl). rewrite <- Hb. destruct (N.eqb_spec (bmin b) 0).
    + specialize (HA0 e0). destruct (bmax b) as [[|p]|], (bmax b') as [[|p']|]; try apply srel_accept; try assumption;
        exfalso; first [discriminate (proj1 HA0 eq_refl) | discriminate (proj2 HA0 eq_refl)].
    + apply orel_map; [|intros; now apply srel_union]. apply IG; [assumption|]. constructor; [now constructor|assumption].
  - (* maybe *) assert (Hg : follows f) by fsub. pose proof (IG f tn n Hg Hn) as X. pose proof (IN tn n Hn) as Y. unfold orel in X, Y |- *.
    destruct (xfrom_gt m fuel f tn), (from_format m LReal fuel (forget f) n); try contradiction; cbn [obind]; [|exact I].
    destruct (xfrom_next m fuel tn), (from_next m LReal fuel n); try contradiction; cbn [omap]; [|exact I]. now apply srel_swap.
  - (* peek *) assert (Hg : follows f) by fsub. apply orel_bind; [now apply IN|]. intros s s' Hs. pose proof (IG f XEmpty NEmpty Hg SEmp) as X. unfold orel in X |- *.
    destruct (xfrom_gt m fuel f XEmpty), (from_format m LReal fuel (forget f) NEmpty); try contradiction; cbn; [now apply srel_peek|exact I].
  - assert (Hg : follows f) by fsub. apply orel_bind; [now apply IN|]. intros s s' Hs. pose proof (IG f XEmpty NEmpty Hg SEmp) as X. unfold orel in X |- *.
    destruct (xfrom_gt m fuel f XEmpty), (from_format m LReal fuel (forget f) NEmpty); try contradiction; cbn; [now apply srel_peek_not|exact I].
  - (* slice *) assert (Hg : follows f) by fsub. assert (Hc : nsim (XCat (MT' f) XEmpty) (NCat (forget f) NEmpty)) by (constructor; [now constructor|constructor]).
    destruct (near_counted _ HA0) as (b & -> & [Hmin _] & Hex). cbn [obind]. rewrite Hex, <- Hmin.
    destruct (as_exact (texpr_bounds e)); [now apply IS|]. rewrite obind_ret by reflexivity. apply IS; [assumption|constructor].
  - (* match *) apply orel_fold with (F := fun b : pattern * tformat => xfrom_gt m fuel (snd b) tn) (G := fun b : pattern * format => from_format m LReal fuel (snd b) n);
      [|apply srel_reject]. apply Forall2_map_r. apply Forall2_diag. apply (fbranches bs) in Hf; [|intros ? ?; now right].
    eapply Forall_impl; [|exact Hf]. intros [p g] Hg. now apply IG.
  - (* let *) assert (Hg : follows f1) by fsub. assert (Hh : follows f2) by fsub. apply IG; [assumption|]. constructor; [now constructor|assumption].
  - assert (Hg : follows f1) by fsub. assert (Hh : follows f2) by fsub. apply IG; [assumption|]. constructor; [now constructor|assumption].
  - destruct o as [g|]; cbn; [|now apply IN]. apply IG; [fsub|assumption].
Qed.
Lemma sim_all fuel : sim_next fuel /\ sim_slice fuel /\ sim_format fuel /\ sim_gt fuel.
Proof.
  induction fuel as [|fuel (IN & IS & IF & IG)].
  - repeat split; red; intros; exact I.
  - split; [now apply sim_next_S|]. split; [now apply sim_slice_S|]. split; [now apply sim_format_S|now apply sim_gt_S].
Qed.
End Sim.

(** ** Trees *)
Lemma first_branch_hd b (k : mtree -> option nat) l : first_branch b k l = option_map k (hd_error (at_byte l b)).
Proof. induction l as [|[bs t] r IH]; [reflexivity|]. cbn [first_branch]. rewrite at_byte_cons. destruct (contains bs b); [reflexivity|]. exact IH. Qed.
Section Trees.
Context (m : fmodule) (HB : bounded_items m) (HM : module_wide bytes_inhabited m).
Notation nsim := (nsim m).
Definition lsim (l : xbranch) (l' : lbranch) : Prop := Forall2 (fun p q => fst p = fst q /\ nsim (snd p) (snd q)) l l'.
Definition lvrel (lv : xlevel) (lv' : level) : Prop := xl_acc lv = l_acc lv' /\ brel lsim (xl_br lv) (l_br lv').
Lemma merge_step_rel lv lv' i s s' : lvrel lv lv' -> srel m s s' ->
  match xmerge_step lv i s, merge_step lv' i s' with Some a, Some b => lvrel a b | None, None => True | _, _ => False end.
Proof.
  intros [A B] [C D]. unfold xmerge_step, merge_step. rewrite C, A.
  assert (E : brel lsim (fold_left (xmerge_branch i) (x_br s) (xl_br lv)) (fold_left (merge_branch i) (s_br s') (l_br lv'))).
  { refine (adds_rel (fun nexts n => nexts ++ [(i, n)]) (fun nexts n => nexts ++ [(i, n)]) (fun n => [(i, n)]) (fun n => [(i, n)]) lsim nsim _ _ _ _ _ _ B D).
    - intros t t' u u' Ht Hu. apply Forall2_app; [exact Ht|]. repeat constructor. exact Hu.
    - intros u u' Hu. repeat constructor. exact Hu. }
  destruct (s_acc s'); [|now split]. destruct (merge_accept (l_acc lv') i); [now split|exact I].
Qed.
Lemma merge_all_rel fuel nexts nexts' : lsim nexts nexts' -> forall lv lv', lvrel lv lv' ->
  match xmerge_all m fuel lv nexts, merge_all LReal m fuel lv' nexts' with
  | Val (Some a), Val (Some b) => lvrel a b | Val None, Val None => True | Panic, Panic => True | _, _ => False end.
Proof.
  intros H. induction H as [|[i n] [j n'] r r' [Hi Hn] Hr IH]; intros lv lv' Hlv; cbn [xmerge_all merge_all]; [exact Hlv|].
  cbn [fst snd] in Hi, Hn. subst j. pose proof (proj1 (sim_all m HB HM fuel) n n' Hn) as X. unfold orel in X.
  destruct (xfrom_next m fuel n) as [s|], (from_next m LReal fuel n') as [s'|]; try contradiction; cbn [obind]; [|exact I].
  pose proof (merge_step_rel lv lv' i s s' Hlv X) as Y.
  destruct (xmerge_step lv i s), (merge_step lv' i s'); try contradiction; [|exact I]. now apply IH.
Qed.
Lemma accepts_rel nexts nexts' : lsim nexts nexts' -> xaccepts nexts = accepts nexts'.
Proof.
  intros H. unfold xaccepts, accepts. f_equal. generalize (@None nat). induction H as [|[i n] [j n'] r r' [Hi _] Hr IH]; intros acc; cbn; [reflexivity|].
  cbn in Hi. subst j. destruct (merge_accept acc i); auto.
Qed.
Lemma grown_at {N} (g : list (nat * N) -> outcome (option mtree)) (l : list (byteset * list (nat * N))) (bs : list (byteset * mtree)) :
  Forall2 (fun lb tb => fst lb = fst tb /\ g (snd lb) = Val (Some (snd tb))) l bs ->
  forall b, Forall2 (fun nexts t => g nexts = Val (Some t)) (at_byte l b) (at_byte bs b).
Proof.
  intros H b. induction H as [|[b1 x] [b2 y] l bs [E Hg] Hl IH]; [constructor|]. cbn [fst snd] in *. subst b2. rewrite !at_byte_cons.
  destruct (contains b1 b); [constructor; auto|exact IH].
Qed.
Lemma xgrow_branches_some g l bs : xgrow_branches g l = Val (Some bs) -> Forall2 (fun lb tb => fst lb = fst tb /\ g (snd lb) = Val (Some (snd tb))) l bs.
Proof.
  revert bs; induction l as [|[b x] l IH]; intros bs; cbn [xgrow_branches]; [intros [= <-]; constructor|].
  destruct (g x) as [[t|]|] eqn:E; cbn [obind]; try discriminate. destruct (xgrow_branches g l) as [[r|]|]; try discriminate. cbn. intros [= <-].
  constructor; auto.
Qed.
Lemma grow_branches_some g l bs : grow_branches g l = Val (Some bs) -> Forall2 (fun lb tb => fst lb = fst tb /\ g (snd lb) = Val (Some (snd tb))) l bs.
Proof.
  revert bs; induction l as [|[b x] l IH]; intros bs; cbn [grow_branches]; [intros [= <-]; constructor|].
  destruct (g x) as [[t|]|] eqn:E; cbn [obind]; try discriminate. destruct (grow_branches g l) as [[r|]|]; try discriminate. cbn. intros [= <-].
  constructor; auto.
Qed.
Lemma xgrow_branches_all g l : (forall b x, In (b, x) l -> exists t, g x = Val (Some t)) -> exists bs, xgrow_branches g l = Val (Some bs).
Proof.
  induction l as [|[b x] l IH]; intros H; cbn [xgrow_branches]; [eauto|]. destruct (H b x (or_introl eq_refl)) as (t & ->). cbn [obind].
  destruct IH as (bs & ->); [intros; eapply H; right; eauto|]. cbn. eauto.
Qed.
Lemma grow_branches_all g l : (forall b x, In (b, x) l -> exists t, g x = Val (Some t)) -> exists bs, grow_branches g l = Val (Some bs).
Proof.
  induction l as [|[b x] l IH]; intros H; cbn [grow_branches]; [eauto|]. destruct (H b x (or_introl eq_refl)) as (t & ->). cbn [obind].
  destruct IH as (bs & ->); [intros; eapply H; right; eauto|]. cbn. eauto.
Qed.
Lemma at_byte_inv {T} (l : list (byteset * T)) b t : In t (at_byte l b) -> exists bs, In (bs, t) l.
Proof. unfold at_byte. intros H. apply in_map_iff in H as ([bs x] & E & H). cbn in E. subst x. apply filter_In in H as [H _]. eauto. Qed.
Lemma same_node acc bs bs' : (forall b, Forall2 same_choice (at_byte bs b) (at_byte bs' b)) -> same_choice (MT acc bs) (MT acc bs').
Proof.
  intros H [|b w]; cbn [mt_matches]; [reflexivity|]. rewrite !first_branch_hd. specialize (H b).
  destruct H as [|t t' r r' Ht _]; cbn; [reflexivity|]. now apply Ht.
Qed.
Lemma same_refl t : same_choice t t. Proof. intros w. reflexivity. Qed.
Lemma wf_high bs b : ByteSetModel.wf bs -> (256 <= b)%N -> contains bs b = false.
Proof.
  intros (_ & _ & _ & Hw) Hb. rewrite ByteSetProofs.contains_bit. unfold ByteSetProofs.bit_of, ByteSetModel.get_bit_with.
  destruct (N.ltb_spec b 64); [lia|]. destruct (N.ltb_spec b 128); [lia|]. destruct (N.ltb_spec b 192); [lia|].
  apply (N.bits_above_log2). destruct (N.eq_dec (ByteSetModel.w3 bs) 0) as [->|Hz]; [cbn; lia|].
  apply N.log2_lt_pow2; [lia|]. eapply N.lt_le_trans; [exact Hw|]. change w64 with (2 ^ 64)%N. apply N.pow_le_mono_r; lia.
Qed.
Lemma sound_high {T} (l : list (byteset * T)) b : sound_sets l -> (256 <= b)%N -> at_byte l b = [].
Proof.
  intros Hs Hb. induction Hs as [|[bs t] r H Hr IH]; [reflexivity|]. cbn [fst] in H. rewrite at_byte_cons, IH. cbn [fst snd]. now rewrite (wf_high _ _ (proj1 H) Hb).
Qed.
Definition grel (x y : outcome (option mtree)) : Prop :=
  ((exists t, x = Val (Some t)) <-> exists t', y = Val (Some t')) /\ forall t t', x = Val (Some t) -> y = Val (Some t') -> same_choice t t'.
Lemma Forall2_flip {A B} (R : A -> B -> Prop) l l' : Forall2 R l l' -> Forall2 (fun b a => R a b) l' l.
Proof. intros H. induction H; constructor; auto. Qed.
Lemma pick {A B} (R : A -> B -> Prop) l l' b : Forall2 R l l' -> In b l' -> exists a, In a l /\ R a b.
Proof. intros H. induction H; cbn; [tauto|]. intros [<-|H1]; [eauto|]. destruct (IHForall2 H1) as (a & ? & ?). eauto. Qed.
Lemma zip3 {A B C D} (R : A -> B -> Prop) (R1 : A -> C -> Prop) (R2 : B -> D -> Prop) (Q : C -> D -> Prop) l l' k k' :
  (forall a b c d, R1 a c -> R2 b d -> R a b -> Q c d) -> Forall2 R1 l k -> Forall2 R2 l' k' -> Forall2 R l l' -> Forall2 Q k k'.
Proof.
  intros H A1 A2 HR. revert k k' A1 A2. induction HR; intros k k' A1 A2; inversion A1; inversion A2; subst; constructor; eauto.
Qed.
Lemma grow_rel fuel depth : forall nexts nexts', lsim nexts nexts' -> grel (xgrow m fuel depth nexts) (grow LReal m fuel depth nexts').
Proof.
  induction depth as [|depth IH]; intros nexts nexts' Hl; cbn [xgrow grow]; rewrite <- (accepts_rel _ _ Hl);
    destruct (xaccepts nexts) as [t0|]; try (split; [split; eauto|]; intros t t' [= <-] [= <-]; apply same_refl).
  - assert (H0 : lvrel (XLevel None []) (Level None [])) by (split; [reflexivity|apply brel_nil]).
    pose proof (merge_all_rel fuel nexts nexts' Hl _ _ H0) as HR.
    destruct (xmerge_all m fuel (XLevel None []) nexts) as [[lv|]|], (merge_all LReal m fuel (Level None []) nexts') as [[lv'|]|];
      try contradiction; cbn [obind]; try (split; [split; intros (t & Ht); discriminate|intros t t' Ht; discriminate Ht]).
    destruct HR as [Hacc ([Hs H1] & [Hs' H1'] & HR)].
    assert (G1 : forall bs x', In (bs, x') (l_br lv') -> exists b x, (b < 256)%N /\ In x (at_byte (xl_br lv) b) /\ lsim x x').
    { intros bs x' Hin. pose proof (proj1 (Forall_forall _ _) Hs' _ Hin) as Hi. cbn in Hi. destruct (inhabited_byte _ Hi) as (b & Hb & Hc).
      pose proof (at_byte_in _ _ _ _ Hin Hc) as Hx. destruct (pick _ _ _ _ (HR b Hb) Hx) as (x & ? & ?). eauto. }
    assert (G2 : forall bs x, In (bs, x) (xl_br lv) -> exists b x', (b < 256)%N /\ In x' (at_byte (l_br lv') b) /\ lsim x x').
    { intros bs x Hin. pose proof (proj1 (Forall_forall _ _) Hs _ Hin) as Hi. cbn in Hi. destruct (inhabited_byte _ Hi) as (b & Hb & Hc).
      pose proof (at_byte_in _ _ _ _ Hin Hc) as Hx. destruct (pick _ _ _ _ (Forall2_flip _ _ _ (HR b Hb)) Hx) as (x' & ? & ?). eauto. }
    split; [split|].
    + intros (t & Ht). destruct (xgrow_branches (xgrow m fuel depth) (xl_br lv)) as [[bs|]|] eqn:E; try discriminate.
      apply xgrow_branches_some in E. destruct (grow_branches_all (grow LReal m fuel depth) (l_br lv')) as (bs' & ->); [|cbn; eauto].
      intros b x' Hin. destruct (G1 _ _ Hin) as (c & x & Hc & Hx & Hxx). destruct (pick _ _ _ _ (Forall2_flip _ _ _ (grown_at _ _ _ E c)) Hx) as (t0 & _ & Hg).
      apply (proj1 (IH _ _ Hxx)). eauto.
    + intros (t & Ht). destruct (grow_branches (grow LReal m fuel depth) (l_br lv')) as [[bs|]|] eqn:E; try discriminate.
      apply grow_branches_some in E. destruct (xgrow_branches_all (xgrow m fuel depth) (xl_br lv)) as (bs' & ->); [|cbn; eauto].
      intros b x Hin. destruct (G2 _ _ Hin) as (c & x' & Hc & Hx & Hxx). destruct (pick _ _ _ _ (Forall2_flip _ _ _ (grown_at _ _ _ E c)) Hx) as (t0 & _ & Hg).
      apply (proj1 (IH _ _ Hxx)). eauto.
    + intros t t' Ht Ht'. destruct (xgrow_branches (xgrow m fuel depth) (xl_br lv)) as [[bs|]|] eqn:E; try discriminate.
      destruct (grow_branches (grow LReal m fuel depth) (l_br lv')) as [[bs'|]|] eqn:E'; try discriminate.
      cbn in Ht, Ht'. injection Ht as <-. injection Ht' as <-. rewrite Hacc. apply same_node. intros b.
      apply xgrow_branches_some in E. apply grow_branches_some in E'.
      pose proof (grown_at _ _ _ E b) as A. pose proof (grown_at _ _ _ E' b) as A'.
      destruct (N.lt_ge_cases b 256) as [Hb|Hb]; [specialize (HR b Hb)|
        rewrite (sound_high (xl_br lv : list (byteset * list (nat * tnext))) b Hs Hb) in A;
        rewrite (sound_high (l_br lv' : list (byteset * list (nat * next))) b Hs' Hb) in A'; inversion A; inversion A'; constructor].
      eapply zip3; [|exact A|exact A'|exact HR]. intros x x' t t' Hx Hx' Hxx. eapply (proj2 (IH _ _ Hxx)); eauto.
Qed.
Lemma build_rel fuel fs tn n : Forall (everywhere bytes_inhabited) fs -> nsim tn n -> grel (xbuild m fuel fs tn) (build LReal m fuel fs n).
Proof.
  intros Hf Hn. unfold xbuild, build. apply grow_rel. unfold start. generalize 0. induction Hf as [|f fs Hf Hfs IH]; intros i; cbn; [constructor|].
  constructor; [|apply IH]. cbn. split; [reflexivity|]. constructor; [now constructor|exact Hn].
Qed.
End Trees.
