(** The decoders that the two compilers produce for a format decode alike. *)
From Verif Require ByteSetModel HuffmanModel.
From Verif Require Import Base BoundsModel DataModel NumericModel ValueModel FormatModel MatchTreeModel DecoderModel DecoderProofs CompileProofs
  MatchBoundsProofs TypedModel TypedSpec TypedInd TypedTree TypedCompile.
Open Scope nat_scope.

Section Related.
(** Which decoders of the two programs stand for the same item. *)
Context (irel : nat -> nat -> Prop).
Definition leaf (d : decoder) : bool :=
  match d with
  | DPos | DFail | DEndOfInput | DAlign _ | DByte _ | DCompute _ | DApply _ | DSkipRemainder | DLiftedOption None
  | DCaptureBytes _ _ | DReadArray _ _ _ | DReifyView _ | DPhantom => true
  | _ => false
  end.
(** A decoder of the generated code and the one of the interpreter: the same but for
    the numbers of calls, for trees that choose alike, and for variants of a format
    that always fails. *)
Inductive drel : decoder -> decoder -> Prop :=
| LCall i j es vs : irel i j -> drel (DCall i es vs) (DCall j es vs)
| LLeaf d : leaf d = true -> drel d d
| LDead l d : drel DFail d -> drel DFail (DVariant l d)
| LVariant l d d' : drel d d' -> drel (DVariant l d) (DVariant l d')
| LParallel ds ds' : Forall2 drel ds ds' -> drel (DParallel ds) (DParallel ds')
| LBranch t t' ds ds' : same_choice t t' -> Forall2 drel ds ds' -> drel (DBranch t ds) (DBranch t' ds')
| LTuple ds ds' : Forall2 drel ds ds' -> drel (DTuple ds) (DTuple ds')
| LSequence ds ds' : Forall2 drel ds ds' -> drel (DSequence ds) (DSequence ds')
| LWhile t t' d d' : same_choice t t' -> drel d d' -> drel (DWhile t d) (DWhile t' d')
| LUntil t t' d d' : same_choice t t' -> drel d d' -> drel (DUntil t d) (DUntil t' d')
| LRepeatCount e d d' : drel d d' -> drel (DRepeatCount e d) (DRepeatCount e d')
| LRepeatUntilLast e d d' : drel d d' -> drel (DRepeatUntilLast e d) (DRepeatUntilLast e d')
| LRepeatUntilSeq e d d' : drel d d' -> drel (DRepeatUntilSeq e d) (DRepeatUntilSeq e d')
| LMaybe e d d' : drel d d' -> drel (DMaybe e d) (DMaybe e d')
| LPeek d d' : drel d d' -> drel (DPeek d) (DPeek d')
| LPeekNot d d' : drel d d' -> drel (DPeekNot d) (DPeekNot d')
| LSlice e d d' : drel d d' -> drel (DSlice e d) (DSlice e d')
| LBits d d' : drel d d' -> drel (DBits d) (DBits d')
| LWithRelativeOffset a b d d' : drel d d' -> drel (DWithRelativeOffset a b d) (DWithRelativeOffset a b d')
| LMap d d' e : drel d d' -> drel (DMap d e) (DMap d' e)
| LWhere d d' e b : drel d d' -> drel (DWhere d e b) (DWhere d' e b)
| LLet x e d d' : drel d d' -> drel (DLet x e d) (DLet x e d')
| LMatch e bs bs' : Forall2 (fun b b' => fst b = fst b' /\ drel (snd b) (snd b')) bs bs' -> drel (DMatch e bs) (DMatch e bs')
| LDynamic x dy d d' : drel d d' -> drel (DDynamic x dy d) (DDynamic x dy d')
| LRepeatBetween t t' a b d d' : same_choice t t' -> drel d d' -> drel (DRepeatBetween t a b d) (DRepeatBetween t' a b d')
| LForEach e x d d' : drel d d' -> drel (DForEach e x d) (DForEach e x d')
| LDecodeBytes e d d' : drel d d' -> drel (DDecodeBytes e d) (DDecodeBytes e d')
| LParseFromView v d d' : drel d d' -> drel (DParseFromView v d) (DParseFromView v d')
| LLetFormat d d' x g g' : drel d d' -> drel g g' -> drel (DLetFormat d x g) (DLetFormat d' x g')
| LMonadSeq d d' g g' : drel d d' -> drel g g' -> drel (DMonadSeq d g) (DMonadSeq d' g')
| LAccumUntil a b c d d' : drel d d' -> drel (DAccumUntil a b c d) (DAccumUntil a b c d')
| LSome d d' : drel d d' -> drel (DLiftedOption (Some d)) (DLiftedOption (Some d'))
| LLetView x d d' : drel d d' -> drel (DLetView x d) (DLetView x d')
| LPermit d d' e : drel d d' -> drel (DPermit d e) (DPermit d' e).

(** A decoder without calls is related to itself. *)
Lemma Forall2_self {A B} (Q : A -> B -> Prop) (R : B -> B -> Prop) l l' :
  Forall (fun a => forall b, Q a b -> R b b) l -> Forall2 Q l l' -> Forall2 R l' l'.
Proof. intros HF H. induction H; inversion HF; subst; constructor; auto. Qed.
Lemma tup_self (Q : format -> next -> decoder -> Prop) (fs : list format) n ds :
  Forall (fun a => forall n b, Q a n b -> drel b b) fs -> CTup Q fs n ds -> Forall2 drel ds ds.
Proof. intros HF H. induction H; inversion HF; subst; constructor; eauto. Qed.
Lemma drel_self bld f : forall n d, Comp bld [] (fun _ _ _ => False) f n d -> drel d d.
Proof.
  induction f using format_ind'; intros nx dd HC; inversion HC; subst;
    try (apply LLeaf; reflexivity);
    try (constructor; try (apply same_refl); eauto; fail);
    try (eauto; fail); try contradiction.
  - apply LBranch; [apply same_refl|]. eapply Forall2_self; [|eassumption]. eapply Forall_impl; [|exact H]. cbn. eauto.
  - apply LParallel. eapply Forall2_self; [|eassumption]. eapply Forall_impl; [|exact H]. cbn. eauto.
  - apply LTuple. eapply tup_self; eauto.
  - apply LSequence. eapply tup_self; eauto.
  - apply LMatch. eapply Forall2_self; [|eassumption]. eapply Forall_impl; [|exact H]. cbn. intros [p g] Hg [p' d'] [Hp Hd]. cbn in *. eauto.
Qed.
End Related.

(** ** Related decoders parse alike *)
Section Simulation.
Context (bld : fmodule -> list format -> next -> outcome (option mtree)).
Context (P P' : program) (irel : nat -> nat -> Prop).
Context (Hlink : forall i j, irel i j -> exists d d', nth_error P i = Some d /\ nth_error P' j = Some d' /\ drel irel d d').
Notation drel := (drel irel).

(** The decoders in scope are related to themselves (they make no calls). *)
Definition tame (s : scope decoder) : Prop := forall x d, get_decoder x s = Some d -> drel d d.
Lemma tame_empty : tame SEmpty. Proof. intros x d H. discriminate. Qed.
Lemma tame_dyn s x f d : tame s -> compile_one bld f = COk d -> tame (SDecoder s x d).
Proof.
  intros Hs Hd y d' H. cbn in H. destruct (N.eqb x y); [|eapply Hs; eauto]. injection H as <-. eapply drel_self, compile_one_ok, Hd.
Qed.

Section Loops.
Context (p q : scope decoder -> decoder -> rctx -> dres value).
Context (Hpq : forall s d d' c, tame s -> drel d d' -> rle (q s d' c) (p s d c)).
Lemma pseq_rel l l' : Forall2 (fun a b => fst a = fst b /\ tame (fst a) /\ drel (snd a) (snd b)) l l' -> forall c, rle (pseq q l' c) (pseq p l c).
Proof.
  induction 1 as [|[s d] [s' d'] l l' (E & Hs & Hd) Hl IH]; intros c; [apply rle_refl|]. cbn in E, Hs, Hd. subst s'. cbn [pseq].
  apply rbind_le; [now apply Hpq|]. intros. apply rmap_le, IH.
Qed.
Lemma ppar_rel s ds ds' c : tame s -> Forall2 drel ds ds' -> forall i, rle (ppar q i s ds' c) (ppar p i s ds c).
Proof.
  intros Hs. induction 1 as [|d d' ds ds' Hd Hds IH]; intros i; [apply rle_refl|]. cbn [ppar].
  destruct (Hpq s d d' c Hs Hd) as [->| ->]; [now left|].
  destruct (p s d c); try apply rle_refl. apply IH.
Qed.
Context (s : scope decoder) (d d' : decoder) (t t' : mtree) (Hs : tame s) (Hd : drel d d') (Ht : same_choice t t').
Lemma choice c : tree_matches t c = tree_matches t' c. Proof. apply Ht. Qed.
Lemma pwhile_rel n : forall c, rle (pwhile q s d' t' n c) (pwhile p s d t n c).
Proof.
  induction n as [|n IH]; intros c; [apply rle_fuel|]. cbn [pwhile]. rewrite (choice c).
  destruct (tree_matches t' c) as [[|k]|]; try apply rle_refl.
  apply rbind_le; [now apply Hpq|]. intros. apply rmap_le, IH.
Qed.
Lemma puntil_rel n : forall c, rle (puntil q s d' t' n c) (puntil p s d t n c).
Proof.
  induction n as [|n IH]; intros c; [apply rle_fuel|]. cbn [puntil].
  apply rbind_le; [now apply Hpq|]. intros v c'. rewrite (choice c'). destruct (tree_matches t' c') as [[|k]|]; try apply rle_refl.
  apply rmap_le, IH.
Qed.
Lemma pbetween_rel mn mx c0 n : forall len c, rle (pbetween q s d' t' mn mx c0 len n c) (pbetween p s d t mn mx c0 len n c).
Proof.
  induction n as [|n IH]; intros len c; [apply rle_fuel|]. cbn [pbetween]. rewrite (choice c0).
  destruct (tree_matches t' c0) as [k|]; try apply rle_refl.
  destruct (Nat.eqb k 0 || N.eqb (N.of_nat len) mx); [apply rle_refl|].
  apply rbind_le; [now apply Hpq|]. intros. apply rmap_le, IH.
Qed.
Lemma puntil_done_rel stop n : forall acc c, rle (puntil_done q s d' stop acc n c) (puntil_done p s d stop acc n c).
Proof.
  induction n as [|n IH]; intros acc c; [apply rle_fuel|]. cbn [puntil_done].
  apply rbind_le; [now apply Hpq|]. intros v c'. apply rlet_le. intros [|]; [apply rle_refl|]. apply IH.
Qed.
Lemma paccum_rel stop upd n : forall acc vs c, rle (paccum q s d' stop upd acc vs n c) (paccum p s d stop upd acc vs n c).
Proof.
  induction n as [|n IH]; intros acc vs c; [apply rle_fuel|]. cbn [paccum].
  apply rlet_le. intros [|]; [apply rle_refl|].
  apply rbind_le; [now apply Hpq|]. intros v c'. apply rlet_le. intros acc'. apply IH.
Qed.
End Loops.

Lemma dead_parse fuel : forall s d c, drel DFail d -> rle (parse bld P' fuel s d c) (RErr (KFail (roff c))).
Proof.
  induction fuel as [|fuel IH]; intros s d c H; [apply rle_fuel|]. cbn [parse].
  inversion H; subst; [apply rle_refl|]. destruct (IH s d0 c ltac:(assumption)) as [-> | ->]; [now left|now right].
Qed.
Lemma first_match_rel v s bs bs' : Forall2 (fun b b' => fst b = fst b' /\ drel (snd b) (snd b')) bs bs' -> forall i,
  (first_match v s i bs = None /\ first_match v s i bs' = None) \/
  (exists k s' d d', first_match v s i bs = Some (k, s', d) /\ first_match v s i bs' = Some (k, s', d') /\ drel d d' /\ (tame s -> tame s')).
Proof.
  induction 1 as [|[p d] [p' d'] bs bs' [E Hd] Hbs IH]; intros i; cbn in *; [auto|]. subst p'.
  unfold vmatches. destruct (matches_inner p (coerce_nominal v) []) as [l|]; cbn; [|apply IH].
  right. exists i, (SMulti s (map (fun b => (fst b, EntVal (snd b))) l)), d, d'. repeat split; auto.
Qed.
Lemma call_scope_tame s es vs s' : call_scope s es vs = Val (inl s') -> tame s'.
Proof.
  unfold call_scope. destruct (call_values s es) as [l|]; cbn; [|discriminate]. destruct (call_views s vs) as [[l'|e]|]; cbn; try discriminate.
  intros [= <-] x d H. discriminate.
Qed.
Lemma pairs_rel s ds ds' : tame s -> Forall2 drel ds ds' ->
  Forall2 (fun a b => fst a = fst b /\ tame (fst a) /\ drel (snd a) (snd b)) (map (pair s) ds) (map (pair s) ds').
Proof. intros Hs. induction 1; cbn; constructor; auto. Qed.
Lemma Forall2_nth {A B} (R : A -> B -> Prop) l l' : Forall2 R l l' -> forall i,
  match nth_error l i, nth_error l' i with Some a, Some b => R a b | None, None => True | _, _ => False end.
Proof. induction 1; intros [|i]; cbn; try exact I; auto. apply IHForall2. Qed.

Lemma parse_rel fuel : forall s d d' c, tame s -> drel d d' -> rle (parse bld P' fuel s d' c) (parse bld P fuel s d c).
Proof.
  induction fuel as [|fuel IH]; intros s d d' c Hs Hd; [apply rle_fuel|].
  assert (Hp : forall s d d' c, tame s -> drel d d' -> rle (parse bld P' fuel s d' c) (parse bld P fuel s d c)) by exact IH.
  destruct Hd.
  - cbn [parse]. destruct (call_scope s es vs) as [[s'|e]|] eqn:E; cbn [rlet]; try apply rle_refl.
    destruct (Hlink _ _ H) as (d & d' & -> & -> & Hd). apply Hp; [|exact Hd]. eapply call_scope_tame, E.
  - destruct d; try discriminate; try apply rle_refl.
    + cbn [parse]. destruct (get_decoder x s) as [d|] eqn:E; [|apply rle_refl]. apply Hp; [exact Hs|]. eapply Hs, E.
    + destruct o; [discriminate|apply rle_refl].
  - change (parse bld P (S fuel) s DFail c) with (@RErr value (KFail (roff c))). apply dead_parse. now constructor.
  - cbn [parse]. now apply rmap_le, Hp.
  - cbn [parse]. now apply ppar_rel.
  - cbn [parse]. rewrite (choice _ _ H c). destruct (tree_matches t' c) as [i|]; [|apply rle_refl].
    pose proof (Forall2_nth _ _ _ H0 i) as Hn. destruct (nth_error ds i), (nth_error ds' i); try contradiction; [|apply rle_refl].
    now apply rmap_le, Hp.
  - cbn [parse]. apply rmap_le. eapply pseq_rel; [exact Hp|]. now apply pairs_rel.
  - cbn [parse]. apply rmap_le. eapply pseq_rel; [exact Hp|]. now apply pairs_rel.
  - cbn [parse]. now apply rmap_le, pwhile_rel.
  - cbn [parse]. now apply rmap_le, puntil_rel.
  - cbn [parse]. apply rlet_le. intros k. apply rmap_le. eapply pseq_rel; [exact Hp|].
    induction (N.to_nat k); cbn; constructor; auto.
  - cbn [parse]. now apply rmap_le, puntil_done_rel.
  - cbn [parse]. now apply rmap_le, puntil_done_rel.
  - cbn [parse]. apply rlet_le. intros [|]; [|apply rle_refl]. now apply rmap_le, Hp.
  - cbn [parse]. now apply rback_le, Hp.
  - cbn [parse]. destruct (Hp s d d' c Hs Hd) as [-> | ->]; [now left|apply rle_refl].
  - cbn [parse]. apply rlet_le. intros k. apply rlet_le. intros [[sl c']|]; [|apply rle_refl]. now apply rback_le, Hp.
  - cbn [parse]. apply rlet_le. intros rem. apply rbind_le; [now apply Hp|]. intros. apply rle_refl.
  - cbn [parse]. apply rlet_le. intros u. apply rlet_le. intros o. destruct (N.ltb (u + o) w64); [|apply rle_refl].
    destruct (rc_seek_to c (u + o)); [|apply rle_refl]. now apply rback_le, Hp.
  - cbn [parse]. apply rbind_le; [now apply Hp|]. intros. apply rle_refl.
  - cbn [parse]. apply rbind_le; [now apply Hp|]. intros. apply rle_refl.
  - cbn [parse]. apply rlet_le. intros v. now apply Hp.
  - cbn [parse]. apply rlet_le. intros v. destruct (first_match_rel v s _ _ H 0) as [[-> ->]|(k & s' & d1 & d2 & -> & -> & Hd & Ht)]; [apply rle_refl|].
    apply rmap_le, Hp; auto.
  - cbn [parse]. apply rlet_le. intros f. destruct (compile_one bld f) as [dyn| |] eqn:E; try apply rle_refl.
    apply Hp; [|exact Hd]. eapply tame_dyn; eauto.
  - cbn [parse]. apply rlet_le. intros mn. apply rlet_le. intros mx. now apply rmap_le, pbetween_rel.
  - cbn [parse]. apply rlet_le. intros l. apply rmap_le. eapply pseq_rel; [exact Hp|].
    induction l; cbn; constructor; auto. 
  - cbn [parse]. apply rlet_le. intros bytes. apply rbind_le; [now apply Hp|]. intros. apply rle_refl.
  - cbn [parse]. apply with_view_le. intros w. now apply rback_le, Hp.
  - cbn [parse]. apply rbind_le; [now apply Hp|]. intros. now apply Hp.
  - cbn [parse]. apply rbind_le; [now apply Hp|]. intros. now apply Hp.
  - cbn [parse]. apply rlet_le. intros acc. now apply rmap_le, paccum_rel.
  - cbn [parse]. now apply rmap_le, Hp.
  - cbn [parse]. now apply Hp.
  - cbn [parse]. destruct (Hp s d d' c Hs Hd) as [-> | ->]; [now left|apply rle_refl].
Qed.
End Simulation.

(** ** The two compilers produce related decoders *)
Lemma inh_forget m f : follows m f -> everywhere bytes_inhabited (forget f).
Proof.
  induction f using tformat_ind'; intros HF g Hg; cbn [forget subs] in Hg; destruct Hg as [<-|Hg]; try exact I; try contradiction;
    try (refine (IHf _ g Hg); destruct HF as [HF1 HF2]; split; tsubt; fail).
  { apply (teverywhere_self _ _ (proj2 HF)). }
  1-4: apply in_flat_map in Hg as (x & Hx & Hg); apply in_map_iff in Hx as (y & <- & Hy);
    pose proof (flist m fs _ HF ltac:(intros z Hz; cbn [tsubs]; now right)) as HFs;
    exact (proj1 (Forall_forall _ _) H _ Hy (proj1 (Forall_forall _ _) HFs _ Hy) g Hg).
  - apply in_flat_map in Hg as ([p' x] & Hx & Hg); apply in_map_iff in Hx as ([p y] & E & Hy); injection E as <- <-.
    pose proof (fbranches m bs _ HF ltac:(intros z Hz; cbn [tsubs]; now right)) as HFs.
    exact (proj1 (Forall_forall _ _) H _ Hy (proj1 (Forall_forall _ _) HFs _ Hy) g Hg).
  - apply in_app_or in Hg as [Hg|Hg]; [refine (IHf1 _ g Hg)|refine (IHf2 _ g Hg)]; destruct HF as [HF1 HF2]; split; tsubt.
  - apply in_app_or in Hg as [Hg|Hg]; [refine (IHf1 _ g Hg)|refine (IHf2 _ g Hg)]; destruct HF as [HF1 HF2]; split; tsubt.
Qed.

Section Relate.
Context (bld : fmodule -> list format -> next -> outcome (option mtree)).
Context (tbld : fmodule -> list format -> tnext -> outcome (option mtree)).
Context (m : fmodule) (depends : nat -> bool).
Context (Htree : forall fs tn n t t', Forall (everywhere bytes_inhabited) fs -> nsim m tn n ->
  tbld m fs tn = Val (Some t) -> bld m fs n = Val (Some t') -> same_choice t t').
Context (Hdep : forall level it, get_item m level = Some it ->
  depends_on_next bld m (item_depends bld m) (it_format it) = Val true -> depends level = true).
Definition okay (f : tformat) : Prop := follows m f /\ teverywhere (maybe_settled depends) f.
Lemma okay_sub f g : okay f -> incl (tsubs g) (tsubs f) -> okay g.
Proof. intros [[A B] C] Hi. split; [split|]; intros x Hx; [apply A|apply B|apply C]; apply Hi, Hx. Qed.
Lemma tsubs_trans f : forall g h, In g (tsubs f) -> In h (tsubs g) -> In h (tsubs f).
Proof.
  induction f using tformat_ind'; intros g h Hg Hh; cbn [tsubs] in Hg |- *; destruct Hg as [<-|Hg]; try exact Hh; try contradiction; right;
    try (eapply IHf; eassumption).
  1-4: apply in_flat_map in Hg as (x & Hx & Hg); apply in_flat_map; exists x; split; [exact Hx|];
    exact (proj1 (Forall_forall _ _) H _ Hx _ _ Hg Hh).
  - apply in_flat_map in Hg as ([p x] & Hx & Hg); apply in_flat_map; exists (p, x); split; [exact Hx|];
    exact (proj1 (Forall_forall _ _) H _ Hx _ _ Hg Hh).
  - apply in_app_or in Hg as [Hg|Hg]; apply in_or_app; eauto.
  - apply in_app_or in Hg as [Hg|Hg]; apply in_or_app; eauto.
Qed.
Lemma okay_called f : okay f -> teverywhere (called m okay) f.
Proof.
  intros Hf g Hg. destruct g; try exact I. cbn [called].
  destruct (proj1 (proj1 Hf) _ Hg) as (it & Hit & Hfmt & _). split; [|exists it; auto].
  apply (okay_sub f); [exact Hf|]. intros x Hx. eapply tsubs_trans; [exact Hg|]. cbn [tsubs]. now right.
Qed.

Context (TC : nat -> tnext -> nat -> Prop) (IC : nat -> next -> nat -> Prop).
Definition irel (i j : nat) : Prop := exists level tn n, nsim m tn n /\ TC level tn i /\ IC level n j.
Notation drel := (drel irel).
Notation settled := (settled depends).
Definition apt (T : tformat) (tn : tnext) (n : next) : Prop := nsim m tn n \/ settled T = true.
Lemma combine_fst_snd {A B} (l : list (A * B)) : combine (map fst l) (map snd l) = l.
Proof. induction l as [|[a b] l IH]; cbn; [reflexivity|]. now rewrite IH. Qed.
Lemma msim_typed f : okay f -> msim m (MT' f) (forget f).
Proof. intros H. constructor. apply H. Qed.
Lemma lists_rel (Q : tformat -> tnext -> decoder -> Prop) (Q' : format -> next -> decoder -> Prop) fs tn n : 
  Forall (fun T => okay T -> forall tn n d d', apt T tn n -> Q T tn d -> Q' (forget T) n d' -> drel d d') fs ->
  Forall okay fs -> Forall (fun T => apt T tn n) fs ->
  forall ds ds', Forall2 (fun f d => Q f tn d) fs ds -> Forall2 (fun f d => Q' f n d) (map forget fs) ds' -> Forall2 drel ds ds'.
Proof.
  intros H Ho Ha. revert H. induction Ha as [|T fs HT Ha IH]; intros H ds ds' H1 H2; inversion H; inversion Ho; inversion H1; subst; cbn [map] in H2; inversion H2; subst; constructor; eauto.
Qed.
Lemma tup_rel (Q : tformat -> tnext -> decoder -> Prop) (Q' : format -> next -> decoder -> Prop) fs tn n : 
  Forall (fun T => okay T -> forall tn n d d', apt T tn n -> Q T tn d -> Q' (forget T) n d' -> drel d d') fs ->
  Forall okay fs -> nsim m tn n \/ Forall (fun T => settled T = true) fs ->
  forall ds ds', GTup Q fs tn ds -> CTup Q' (map forget fs) n ds' -> Forall2 drel ds ds'.
Proof.
  intros H. induction H as [|T fs HT Hfs IH]; intros Ho Ha ds ds' H1 H2; inversion H1; subst; cbn [map] in H2; inversion H2; subst; constructor.
  - inversion Ho; subst. eapply HT; eauto. destruct Ha as [Ha|Ha]; [left|right; now inversion Ha].
    constructor; [|exact Ha]. constructor. eapply Forall_impl; [|eassumption]. intros T' HT'. apply HT'.
  - inversion Ho; subst. apply IH; auto. destruct Ha as [Ha|Ha]; [now left|right; now inversion Ha].
Qed.
Lemma okay_list fs f : okay f -> incl (flat_map tsubs fs) (tsubs f) -> Forall okay fs.
Proof. intros H Hi. apply Forall_forall. intros g Hg. apply (okay_sub f); [exact H|]. intros x Hx. apply Hi, in_flat_map. eauto. Qed.
Lemma okay_branches bs f : okay f -> incl (flat_map (fun b : pattern * tformat => match b with (_, g) => tsubs g end) bs) (tsubs f) -> Forall (fun b => okay (snd b)) bs.
Proof. intros H Hi. apply Forall_forall. intros [p g] Hg. apply (okay_sub f); [exact H|]. intros x Hx. apply Hi, in_flat_map. exists (p, g). auto. Qed.
Lemma apt_list fs (T : tformat) tn n : apt T tn n -> (settled T = forallb settled fs) -> Forall (fun T => apt T tn n) fs.
Proof.
  intros [H|H] E; apply Forall_forall; intros g Hg; [now left|]. right. rewrite E in H. exact (proj1 (forallb_forall _ _) H _ Hg).
Qed.
Ltac osub := match goal with H : okay ?f |- okay ?g => apply (okay_sub f g H); intros ? ?; cbn [tsubs]; right; auto using in_or_app end.

Lemma comp_rel T : okay T -> forall tn n d d', apt T tn n -> GComp bld tbld m TC T tn d -> Comp bld m IC (forget T) n d' -> drel d d'.
Proof.
  induction T using tformat_ind'; intros Hok tn nx d0 d0' Ha HG HC; cbn [forget] in HC; inversion HG; subst; inversion HC; subst;
    try (apply LLeaf; reflexivity);
    try (constructor; (eapply IHT; [osub| |eassumption|eassumption]); exact Ha);
    try (constructor; (eapply IHT; [osub| |eassumption|eassumption]); left; constructor; fail).
  - destruct (teverywhere_self _ _ (proj1 (proj1 Hok))) as (it' & Hit & Hf & Hargs & Hviews).
    match goal with A : get_item m level = Some ?a, B : get_item m level = Some ?b |- _ => assert (a = b) by congruence; subst end.
    match goal with A : get_item m level = Some ?a, B : get_item m level = Some ?b |- _ => assert (a = b) by congruence; subst end.
    match goal with A : depends_on_next _ _ _ _ = Val ?a, B : depends_on_next _ _ _ _ = Val ?b |- _ => assert (a = b) by congruence; subst end.
    rewrite <- Hargs, <- Hviews, !combine_fst_snd. apply LCall.
    eexists level, _, _. split; [|split; eassumption]. 
    match goal with |- nsim m (if ?b then _ else _) _ => destruct b eqn:Eb end; [|constructor].
    destruct Ha as [Ha|Ha]; [exact Ha|]. exfalso. cbn in Ha. erewrite Hdep in Ha by eassumption. discriminate.
  - assert (Hd : drel d d0) by (eapply IHT; [osub| |eassumption|eassumption]; exact Ha).
    destruct d; try (apply LVariant; exact Hd). apply LDead, Hd.
  - destruct Ha as [Ha|Ha]; [|discriminate]. assert (HT : okay T) by osub. apply LWhile.
    + eapply Htree; try eassumption. pose proof (inh_forget _ _ (proj1 HT)) as HI. repeat constructor; try exact HI.
      * intros g Hg. cbn [subs flat_map] in Hg. rewrite app_nil_r in Hg. destruct Hg as [<-|Hg]; [exact I|].
        apply in_app_or in Hg as [Hg|[<-|Hg]]; [now apply HI|exact I|now apply HI].
      * intros g Hg. destruct Hg as [<-|[]]. exact I.
    + eapply IHT; [exact HT| |eassumption|eassumption]. left. constructor; [now apply msim_typed|exact Ha].
  - destruct Ha as [Ha|Ha]; [|discriminate]. assert (HT : okay T) by osub. apply LUntil.
    + eapply Htree; try eassumption. pose proof (inh_forget _ _ (proj1 HT)) as HI. repeat constructor; try exact HI.
      * intros g Hg. destruct Hg as [<-|[]]. exact I.
      * intros g Hg. cbn [subs flat_map] in Hg. rewrite app_nil_r in Hg. destruct Hg as [<-|Hg]; [exact I|].
        apply in_app_or in Hg as [Hg|[<-|Hg]]; [now apply HI|exact I|now apply HI].
    + eapply IHT; [exact HT| |eassumption|eassumption]. left. constructor; [now apply msim_typed|exact Ha].
  - assert (HT : okay T) by osub. apply LRepeatCount. eapply IHT; [exact HT| |eassumption|eassumption].
    destruct Ha as [Ha|Ha]; [left; constructor; [now apply msim_typed|exact Ha]|right; exact Ha].
  - destruct Ha as [Ha|Ha]; [|discriminate]. assert (HT : okay T) by osub.
    destruct (teverywhere_self _ _ (proj2 (proj1 Hok))) as [(c1 & B1 & _ & X1 & _) (c2 & B2 & _ & X2 & _)].
    match goal with A : expr_bounds e1 = Val ?a, B : expr_bounds e2 = Val ?b |- _ => assert (a = c1) by congruence; assert (b = c2) by congruence; subst end.
    assert (k1 = k0) by congruence. assert (k2 = k3) by congruence. subst.
    apply LRepeatBetween.
    + eapply Htree; try eassumption. pose proof (inh_forget _ _ (proj1 HT)) as HI. unfold count_branches.
      apply Forall_forall. intros g Hg. apply in_map_iff in Hg as (k & <- & _). intros h [<-|Hh]; [exact I|now apply HI].
    + eapply IHT; [exact HT| |eassumption|eassumption]. left. constructor; [now apply msim_typed|exact Ha].
  - assert (HT : okay T) by osub. apply LRepeatUntilLast. eapply IHT; [exact HT| |eassumption|eassumption].
    destruct Ha as [Ha|Ha]; [left; constructor; [now apply msim_typed|exact Ha]|right; exact Ha].
  - assert (HT : okay T) by osub. apply LRepeatUntilSeq. eapply IHT; [exact HT| |eassumption|eassumption].
    destruct Ha as [Ha|Ha]; [left; constructor; [now apply msim_typed|exact Ha]|right; exact Ha].
  - assert (HT : okay T) by osub. apply LAccumUntil. eapply IHT; [exact HT| |eassumption|eassumption].
    destruct Ha as [Ha|Ha]; [left; constructor; [now apply msim_typed|exact Ha]|right; exact Ha].
  - assert (HT : okay T) by osub. apply LForEach. eapply IHT; [exact HT| |eassumption|eassumption].
    destruct Ha as [Ha|Ha]; [left; constructor; [now apply msim_typed|exact Ha]|right; exact Ha].
  - apply LMaybe. eapply IHT; [osub| |eassumption|eassumption]. right. exact (teverywhere_self _ _ (proj2 Hok)).
  - eapply IHT; [osub| |eassumption|eassumption]. exact Ha.
  - destruct Ha as [Ha|Ha]; [|discriminate].
    pose proof (okay_list fs _ Hok ltac:(intros x Hx; cbn [tsubs]; now right)) as HFs. apply LBranch.
    + eapply Htree; try eassumption. apply Forall_forall. intros g Hg. apply in_map_iff in Hg as (h & <- & Hh).
      apply (inh_forget m). exact (proj1 (proj1 (Forall_forall _ _) HFs _ Hh)).
    + eapply lists_rel; try eassumption. apply Forall_forall. intros. now left.
  - pose proof (okay_list fs _ Hok ltac:(intros x Hx; cbn [tsubs]; now right)) as HFs. apply LParallel.
    eapply lists_rel; try eassumption. eapply apt_list; [exact Ha|reflexivity].
  - pose proof (okay_list fs _ Hok ltac:(intros x Hx; cbn [tsubs]; now right)) as HFs. apply LTuple.
    eapply tup_rel; try eassumption. destruct Ha as [Ha|Ha]; [now left|right; apply Forall_forall; exact (proj1 (forallb_forall _ _) Ha)].
  - pose proof (okay_list fs _ Hok ltac:(intros x Hx; cbn [tsubs]; now right)) as HFs. apply LSequence.
    eapply tup_rel; try eassumption. destruct Ha as [Ha|Ha]; [now left|right; apply Forall_forall; exact (proj1 (forallb_forall _ _) Ha)].
  - pose proof (okay_branches bs _ Hok ltac:(intros x Hx; cbn [tsubs]; now right)) as HFs. apply LMatch.
    assert (Hb : Forall (fun b => apt (snd b) tn nx) bs).
    { apply Forall_forall. intros [p g] Hg. destruct Ha as [Ha|Ha]; [now left|right]. exact (proj1 (forallb_forall _ _) Ha _ Hg). }
    clear HG HC Ha Hok.
    match goal with H1 : Forall2 _ bs ds, H2 : Forall2 _ _ ds0 |- _ => revert ds0 H2; induction H1 as [|[p g] [p' d] bs' ds' [E HG] Hr IH]; intros ds0 HH end.
    + cbn [map] in HH. inversion HH. constructor.
    + cbn [map] in HH. inversion HH as [|? [p2 d2] ? ? [E2 HC]]; subst. cbn in *. subst. inversion H; inversion HFs; inversion Hb; subst. cbn in *.
      constructor; [|now apply IH]. cbn. split; [reflexivity|]. eauto.
  - assert (HT : okay T2) by osub. apply LLetFormat; [eapply IHT1|eapply IHT2]; try eassumption; try osub.
    + destruct Ha as [Ha|Ha]; [left; constructor; [now apply msim_typed|exact Ha]|right; cbn in Ha; now apply andb_true_iff in Ha].
    + destruct Ha as [Ha|Ha]; [now left|right; cbn in Ha; now apply andb_true_iff in Ha].
  - assert (HT : okay T2) by osub. apply LMonadSeq; [eapply IHT1|eapply IHT2]; try eassumption; try osub.
    + destruct Ha as [Ha|Ha]; [left; constructor; [now apply msim_typed|exact Ha]|right; cbn in Ha; now apply andb_true_iff in Ha].
    + destruct Ha as [Ha|Ha]; [now left|right; cbn in Ha; now apply andb_true_iff in Ha].
Qed.
End Relate.

(** ** Programs *)
Section Programs.
Context (bld : fmodule -> list format -> next -> outcome (option mtree)).
Context (tbld : fmodule -> list format -> tnext -> outcome (option mtree)).
Context (m : fmodule) (depends : nat -> bool).
Context (Htree : forall fs tn n t t', Forall (everywhere bytes_inhabited) fs -> nsim m tn n ->
  tbld m fs tn = Val (Some t) -> bld m fs n = Val (Some t') -> same_choice t t').
Context (Hdep : forall level it, get_item m level = Some it ->
  depends_on_next bld m (item_depends bld m) (it_format it) = Val true -> depends level = true).
Context (eqb : next -> next -> bool) (Heqb : forall a b, eqb a b = true -> a = b).
Context (teqb : tnext -> tnext -> bool) (Hteqb : forall a b, teqb a b = true -> a = b).
Lemma programs_rel fuel fuel' T extra P P' : okay m depends T -> Forall (fun x => okay m depends (snd x)) extra ->
  tcompile_program bld tbld teqb m fuel T extra = Some (COk P) ->
  compile_program bld eqb m fuel' (forget T) = Some (COk P') ->
  forall k c, rle (run bld P' k c) (run bld P k c).
Proof.
  intros HT HX H H' k c.
  destruct (tcompile_program_ok bld tbld teqb Hteqb m (okay m depends) (okay_called m depends) _ _ _ _ HT HX H) as (TC & TL & d & Hd & HG).
  destruct (compile_program_ok bld eqb Heqb m _ _ _ H') as (IC & IL & d' & Hd' & HC).
  unfold run. destruct P as [|d1 P]; [discriminate|]. destruct P' as [|d1' P']; [discriminate|].
  injection Hd as ->. injection Hd' as ->.
  apply (parse_rel bld _ _ (irel m TC IC)).
  - intros i j (level & tn & n & Hn & Ht & Hi).
    destruct (TL _ _ _ Ht) as (def & e & (Hok & it & Hit & Hf) & He & HGe).
    destruct (IL _ _ _ Hi) as (it' & e' & Hit' & He' & HCe). assert (it = it') by congruence. subst it'.
    exists e, e'. split; [exact He|]. split; [exact He'|]. rewrite <- Hf in HCe.
    exact (comp_rel bld tbld m depends Htree Hdep TC IC def Hok tn n e e' (or_introl Hn) HGe HCe).
  - apply tame_empty.
  - exact (comp_rel bld tbld m depends Htree Hdep TC IC T HT XEmpty NEmpty d d' (or_introl (SEmp m)) HG HC).
Qed.
End Programs.

(** ** Elaborated formats *)
Section Dressed.
Context (m : fmodule) (ty : format -> ann) (lower : nat -> option tformat).
Context (Hl : forall level def, lower level = Some def ->
  exists it, get_item m level = Some it /\ forget def = it_format it /\ teverywhere (call_follows m) def).
Definition faithful (f : format) (T : tformat) : Prop := forget T = f /\ teverywhere (call_follows m) T.
Lemma map_fst_combine {A B} (l : list A) (l' : list B) : length l' = length l -> map fst (combine l l') = l.
Proof. revert l'. induction l as [|a l IH]; intros [|b l'] H; cbn in *; try discriminate; [reflexivity|]. rewrite IH; [reflexivity|lia]. Qed.
Lemma map_snd_combine {A B} (l : list A) (l' : list B) : length l' = length l -> map snd (combine l l') = l'.
Proof. revert l'. induction l as [|a l IH]; intros [|b l'] H; cbn in *; try discriminate; [reflexivity|]. rewrite IH; [reflexivity|lia]. Qed.
Lemma dress_list_ok {A} (g : A -> option tformat) (e : A -> format) l : Forall (fun a => forall T, g a = Some T -> faithful (e a) T) l ->
  forall Ts, dress_list g l = Some Ts -> map forget Ts = map e l /\ Forall (teverywhere (call_follows m)) Ts.
Proof.
  induction 1 as [|a l Ha Hr IH]; intros Ts H; cbn in H; [injection H as <-; split; [reflexivity|constructor]|].
  destruct (g a) as [T|]; [|discriminate]. destruct (dress_list g l) as [Ts'|]; [|discriminate]. injection H as <-.
  destruct (Ha T eq_refl) as [A1 A2]. destruct (IH Ts' eq_refl) as [B1 B2]. cbn. split; [now rewrite A1, B1|now constructor].
Qed.
Lemma dress_fail f : dress m ty lower f = Some GFail -> f = FFail.
Proof.
  destruct f; cbn; unfold dmap; try reflexivity; intros H; exfalso;
    repeat match type of H with
    | option_map _ ?x = _ => destruct x; cbn in H
    | match ?x with _ => _ end = _ => destruct x; cbn in H
    end; discriminate.
Qed.
Lemma Forall_flat (Ts : list tformat) : Forall (teverywhere (call_follows m)) Ts -> forall g, In g (flat_map tsubs Ts) -> call_follows m g.
Proof. intros H g Hg. apply in_flat_map in Hg as (T & HT & Hg). exact (proj1 (Forall_forall _ _) H _ HT g Hg). Qed.
Definition dress_alts (t : ann) := fix go (l : list format) : option (list tformat) :=
  match l with
  | [] => Some []
  | FVariant x g :: r =>
    match dress m ty lower g, go r with
    | Some GFail, Some r' => Some r'
    | Some g', Some r' => Some (GVariant t x g' :: r')
    | _, _ => None
    end
  | g :: r => match dress m ty lower g, go r with Some g', Some r' => Some (g' :: r') | _, _ => None end
  end.
Lemma dress_alts_ok t l : (forall x, ~ In (FVariant x FFail) l) -> Forall (fun f => forall T, dress m ty lower f = Some T -> faithful f T) l ->
  forall Ts, dress_alts t l = Some Ts -> map forget Ts = l /\ Forall (teverywhere (call_follows m)) Ts.
Proof.
  intros Hd H. induction H as [|f l Hf Hr IH]; intros Ts E; [injection E as <-; split; [reflexivity|constructor]|].
  assert (HL : forall Ts, dress_alts t l = Some Ts -> map forget Ts = l /\ Forall (teverywhere (call_follows m)) Ts)
    by (apply IH; intros x Hx; apply (Hd x); now right).
  assert (Hplain : forall g, dress m ty lower f = Some g -> forall r', dress_alts t l = Some r' -> map forget (g :: r') = f :: l /\ Forall (teverywhere (call_follows m)) (g :: r')).
  { intros g Hg r' Hr'. destruct (Hf g Hg) as [A1 A2]. destruct (HL r' Hr') as [B1 B2]. cbn. split; [now rewrite A1, B1|now constructor]. }
  destruct f; cbn [dress_alts] in E; fold (dress_alts t) in E;
    try (destruct (dress m ty lower _) as [g'|] eqn:Eg in E; [|discriminate E]; destruct (dress_alts t l) as [r'|]; [|discriminate E];
         injection E as <-; now apply Hplain).
  destruct (dress m ty lower f) as [g'|] eqn:Eg; [|discriminate E].
  destruct (dress_alts t l) as [r'|]; [|destruct g'; discriminate E].
  assert (E' : g' <> GFail) by (intros ->; apply dress_fail in Eg; subst f; apply (Hd l0); now left).
  assert (Ts = GVariant t l0 g' :: r') by (destruct g'; try (now injection E as <-); congruence). subst Ts.
  destruct (HL r' eq_refl) as [B1 B2]. destruct (Hf (GVariant (ty (FVariant l0 f)) l0 g')) as [A1 A2]; [cbn [dress]; now rewrite Eg|].
  cbn [forget map] in *. split; [now rewrite A1, B1|]. constructor; [|exact B2].
  intros h [<-|Hh]; [exact I|]. apply A2. now right.
Qed.
Lemma alts_ih fs f : everywhere (called_fully m) f -> everywhere no_dead_variant f -> incl (flat_map subs fs) (subs f) ->
  Forall (fun f => everywhere (called_fully m) f -> everywhere no_dead_variant f -> forall T, dress m ty lower f = Some T -> faithful f T) fs ->
  Forall (fun f => forall T, dress m ty lower f = Some T -> faithful f T) fs.
Proof.
  intros HC HD Hi H. apply Forall_forall. intros g Hg. apply (proj1 (Forall_forall _ _) H g Hg).
  - intros x Hx. apply HC, Hi, in_flat_map. eauto.
  - intros x Hx. apply HD, Hi, in_flat_map. eauto.
Qed.
Ltac dsub := match goal with H : everywhere _ ?f |- everywhere _ ?g => intros ? ?; apply H; cbn [subs]; right; auto using in_or_app end.
Ltac one IHf :=
  match goal with E : context [dmap _ (dress m ty lower ?g)] |- _ =>
    destruct (dress m ty lower g) as [T'|] eqn:Eg; [|discriminate E]; injection E as <-;
    destruct (IHf ltac:(dsub) ltac:(dsub) T' eq_refl) as [A1 A2]; split; [cbn [forget]; now rewrite A1|];
    intros h [<-|Hh]; [exact I|now apply A2]
  end.
Lemma dress_ok f : everywhere (called_fully m) f -> everywhere no_dead_variant f -> forall T, dress m ty lower f = Some T -> faithful f T.
Proof.
  induction f using format_ind'; intros HC HD T E; cbn [dress] in E;
    try (injection E as <-; split; [reflexivity|]; intros h [<-|[]]; exact I);
    try (one IHf).
  - destruct (get_item m l) as [it|] eqn:Hit; [|discriminate]. destruct (lower l) as [def|] eqn:Ed; [|discriminate]. injection E as <-.
    destruct (HC (FItemVar l a v) (or_introl eq_refl) it Hit) as [La Lv]. destruct (Hl _ _ Ed) as (it' & Hit' & Hf & Hs). assert (it' = it) by congruence. subst it'.
    split; [cbn [forget]; now rewrite !map_snd_combine|]. intros h [<-|Hh]; [|now apply Hs].
    exists it. rewrite !map_fst_combine by assumption. auto.
  - change (dmap (GUnion (ty (FUnion fs))) (dress_alts (ty (FUnion fs)) fs) = Some T) in E.
    destruct (dress_alts (ty (FUnion fs)) fs) as [Ts|] eqn:Es; [|discriminate]. injection E as <-.
    destruct (dress_alts_ok _ _ (HD (FUnion fs) (or_introl eq_refl)) (alts_ih _ _ HC HD (incl_tl _ (incl_refl _)) H) _ Es) as [A B].
    split; [cbn [forget]; now rewrite A|]. intros h [<-|Hh]; [exact I|]. now apply (Forall_flat Ts).
  - change (dmap (GUnionNondet (ty (FUnionNondet fs))) (dress_alts (ty (FUnionNondet fs)) fs) = Some T) in E.
    destruct (dress_alts (ty (FUnionNondet fs)) fs) as [Ts|] eqn:Es; [|discriminate]. injection E as <-.
    destruct (dress_alts_ok _ _ (HD (FUnionNondet fs) (or_introl eq_refl)) (alts_ih _ _ HC HD (incl_tl _ (incl_refl _)) H) _ Es) as [A B].
    split; [cbn [forget]; now rewrite A|]. intros h [<-|Hh]; [exact I|]. now apply (Forall_flat Ts).
  - destruct (dress_list (dress m ty lower) fs) as [Ts|] eqn:Es; [|discriminate]. injection E as <-.
    destruct (dress_list_ok (dress m ty lower) (fun f => f) fs (alts_ih _ _ HC HD (incl_tl _ (incl_refl _)) H) _ Es) as [A B]. rewrite map_id in A.
    split; [cbn [forget]; now rewrite A|]. intros h [<-|Hh]; [exact I|]. now apply (Forall_flat Ts).
  - assert (E' : dmap (GSequence (ty (FSequence fs))) (dress_list (dress m ty lower) fs) = Some T) by (destruct fs; [discriminate|exact E]).
    destruct (dress_list (dress m ty lower) fs) as [Ts|] eqn:Es; [|discriminate]. injection E' as <-.
    destruct (dress_list_ok (dress m ty lower) (fun f => f) fs (alts_ih _ _ HC HD (incl_tl _ (incl_refl _)) H) _ Es) as [A B]. rewrite map_id in A.
    split; [cbn [forget]; now rewrite A|]. intros h [<-|Hh]; [exact I|]. now apply (Forall_flat Ts).
  - destruct (dress_list _ bs) as [Ts|] eqn:Es; [|discriminate]. injection E as <-.
    assert (HB : map (fun b : pattern * tformat => match b with (p, g) => (p, forget g) end) Ts = bs /\ Forall (fun b => teverywhere (call_follows m) (snd b)) Ts).
    { assert (HC' : forall b, In b bs -> everywhere (called_fully m) (snd b)) by (intros [p g] Hb x Hx; apply HC; right; apply in_flat_map; exists (p, g); auto).
      assert (HD' : forall b, In b bs -> everywhere no_dead_variant (snd b)) by (intros [p g] Hb x Hx; apply HD; right; apply in_flat_map; exists (p, g); auto).
      clear HC HD. revert Ts Es. induction H as [|[p g] bs Hg Hr IH]; intros Ts Es; cbn in Es; [injection Es as <-; split; [reflexivity|constructor]|].
      destruct (dress m ty lower g) as [g'|] eqn:Eg; [|discriminate]. cbn in Es. destruct (dress_list _ bs) as [r'|]; [|discriminate]. injection Es as <-.
      destruct (Hg (HC' _ (or_introl eq_refl)) (HD' _ (or_introl eq_refl)) g' Eg) as [A1 A2].
      destruct (IH ltac:(intros; apply HC'; now right) ltac:(intros; apply HD'; now right) r' eq_refl) as [B1 B2].
      cbn. split; [now rewrite A1, B1|]. now constructor. }
    destruct HB as [A B]. split; [cbn [forget]; now rewrite A|]. intros h [<-|Hh]; [exact I|].
    apply in_flat_map in Hh as ([p g] & Hg & Hh). exact (proj1 (Forall_forall _ _) B _ Hg h Hh).
  - destruct (dress m ty lower f1) as [T1|] eqn:E1; [|discriminate]. destruct (dress m ty lower f2) as [T2|] eqn:E2; [|discriminate]. injection E as <-.
    destruct (IHf1 ltac:(dsub) ltac:(dsub) _ eq_refl) as [A1 A2]. destruct (IHf2 ltac:(dsub) ltac:(dsub) _ eq_refl) as [B1 B2].
    split; [cbn [forget]; now rewrite A1, B1|]. intros h [<-|Hh]; [exact I|]. apply in_app_or in Hh as [Hh|Hh]; auto.
  - destruct (dress m ty lower f1) as [T1|] eqn:E1; [|discriminate]. destruct (dress m ty lower f2) as [T2|] eqn:E2; [|discriminate]. injection E as <-.
    destruct (IHf1 ltac:(dsub) ltac:(dsub) _ eq_refl) as [A1 A2]. destruct (IHf2 ltac:(dsub) ltac:(dsub) _ eq_refl) as [B1 B2].
    split; [cbn [forget]; now rewrite A1, B1|]. intros h [<-|Hh]; [exact I|]. apply in_app_or in Hh as [Hh|Hh]; auto.
Qed.
End Dressed.
Lemma dressed_ok m ty n : forall level def, module_wide (called_fully m) m -> module_wide no_dead_variant m -> dress_level m ty n level = Some def ->
  exists it, get_item m level = Some it /\ forget def = it_format it /\ teverywhere (call_follows m) def.
Proof.
  induction n as [|n IH]; intros level def HC HD H; cbn in H; [discriminate|]. destruct (get_item m level) as [it|] eqn:Hit; [|discriminate].
  exists it. split; [reflexivity|]. refine (dress_ok m ty (dress_level m ty n) _ (it_format it) (HC _ _ Hit) (HD _ _ Hit) def H). intros; now apply IH.
Qed.
