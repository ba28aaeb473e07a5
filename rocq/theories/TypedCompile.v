(** What the code generator's compiler produces, as a relation between typed formats
    and decoders. *)
From Verif Require ByteSetModel.
From Verif Require Import Base BoundsModel DataModel NumericModel ValueModel FormatModel MatchTreeModel DecoderModel CompileProofs
  MatchBoundsProofs TypedModel TypedSpec TypedInd TypedTree.
Open Scope nat_scope.

Lemma set_nth_length {A} (l : list A) i x : length (set_nth l i x) = length l.
Proof. revert i; induction l; intros [|i]; cbn; auto. Qed.
Lemma set_nth_same {A} (l : list A) i x : i < length l -> nth_error (set_nth l i x) i = Some x.
Proof. revert i; induction l; intros [|i] H; cbn in *; try lia; auto. apply IHl. lia. Qed.
Lemma set_nth_other {A} (l : list A) i j x : i <> j -> nth_error (set_nth l i x) j = nth_error l j.
Proof. revert i j; induction l; intros [|i] [|j] H; cbn in *; auto; congruence. Qed.

Section GCompiled.
Context (bld : fmodule -> list format -> next -> outcome (option mtree)).
Context (tbld : fmodule -> list format -> tnext -> outcome (option mtree)).
Context (m : fmodule).
(** [Call level n i]: decoder [i] of the program is the one of [level] before [n]. *)
Context (Call : nat -> tnext -> nat -> Prop).

Section GTup.
Context (R : tformat -> tnext -> decoder -> Prop).
Inductive GTup : list tformat -> tnext -> list decoder -> Prop :=
| GTNil n : GTup [] n []
| GTCons f fs n d ds : R f (XSequence (MTs fs) n) d -> GTup fs n ds -> GTup (f :: fs) n (d :: ds).
End GTup.

Definition collapse (l : label) (d : decoder) : decoder := match d with DFail => DFail | _ => DVariant l d end.
Inductive GComp : tformat -> tnext -> decoder -> Prop :=
| KItem t level args views def it dep i n : get_item m level = Some it ->
    depends_on_next bld m (item_depends bld m) (it_format it) = Val dep ->
    Call level (if dep then n else XEmpty) i ->
    GComp (GCall t level args views def) n (DCall i args views)
| KFail' n : GComp GFail n DFail
| KEndOfInput n : GComp GEndOfInput n DEndOfInput
| KAlign k n : GComp (GAlign k) n (DAlign k)
| KByte bs n : GComp (GByte bs) n (DByte bs)
| KVariant t l f n d : GComp f n d -> GComp (GVariant t l f) n (collapse l d)
| KUnion ty fs n t ds : Forall2 (fun f d => GComp f n d) fs ds -> tbld m (map forget fs) n = Val (Some t) -> GComp (GUnion ty fs) n (DBranch t ds)
| KUnionNondet ty fs n ds : Forall2 (fun f d => GComp f n d) fs ds -> GComp (GUnionNondet ty fs) n (DParallel ds)
| KTuple ty fs n ds : GTup GComp fs n ds -> GComp (GTuple ty fs) n (DTuple ds)
| KSequence ty fs n ds : GTup GComp fs n ds -> GComp (GSequence ty fs) n (DSequence ds)
| KRepeat ty f n t d : GComp f (XRepeat (MT' f) n) d ->
    tbld m [FTuple [forget f; FRepeat (forget f)]; FEmpty] n = Val (Some t) -> GComp (GRepeat ty f) n (DWhile t d)
| KRepeat1 ty f n t d : GComp f (XRepeat (MT' f) n) d ->
    tbld m [FEmpty; FTuple [forget f; FRepeat (forget f)]] n = Val (Some t) -> GComp (GRepeat1 ty f) n (DUntil t d)
| KRepeatCount ty e f n d : GComp f (XRepeat (MT' f) n) d -> GComp (GRepeatCount ty e f) n (DRepeatCount e d)
| KRepeatBetween ty e1 e2 f n k1 k2 t d : as_exact (texpr_bounds e1) = Some k1 -> as_exact (texpr_bounds e2) = Some k2 ->
    GComp f (XRepeatBetween (k1 - 1) (k2 - 1) (MT' f) n) d ->
    tbld m (count_branches k2 (forget f)) n = Val (Some t) -> GComp (GRepeatBetween ty e1 e2 f) n (DRepeatBetween t e1 e2 d)
| KRepeatUntilLast ty e f n d : GComp f (XRepeat (MT' f) n) d -> GComp (GRepeatUntilLast ty e f) n (DRepeatUntilLast e d)
| KRepeatUntilSeq ty e f n d : GComp f (XRepeat (MT' f) n) d -> GComp (GRepeatUntilSeq ty e f) n (DRepeatUntilSeq e d)
| KAccumUntil ty fd fu e0 t f n d : GComp f (XRepeat (MT' f) n) d -> GComp (GAccumUntil ty fd fu e0 t f) n (DAccumUntil fd fu e0 d)
| KForEach ty e x f n d : GComp f (XRepeat (MT' f) n) d -> GComp (GForEach ty e x f) n (DForEach e x d)
| KMaybe ty e f n d : GComp f n d -> GComp (GMaybe ty e f) n (DMaybe e d)
| KPeek ty f n d : GComp f XEmpty d -> GComp (GPeek ty f) n (DPeek d)
| KPeekNot ty f n d : GComp f XEmpty d -> GComp (GPeekNot ty f) n (DPeekNot d)
| KSlice ty e f n d : GComp f XEmpty d -> GComp (GSlice ty e f) n (DSlice e d)
| KBits ty f n d : GComp f XEmpty d -> GComp (GBits ty f) n (DBits d)
| KWithRelativeOffset ty e1 e2 f n d : GComp f XEmpty d -> GComp (GWithRelativeOffset ty e1 e2 f) n (DWithRelativeOffset e1 e2 d)
| KMap ty f e n d : GComp f n d -> GComp (GMap ty f e) n (DMap d e)
| KWhere ty f e b n d : GComp f n d -> GComp (GWhere ty f e b) n (DWhere d e b)
| KCompute ty e n : GComp (GCompute ty e) n (DCompute e)
| KLet ty x e f n d : GComp f n d -> GComp (GLet ty x e f) n (DLet x e d)
| KMatch ty e bs n ds : Forall2 (fun b d => fst b = fst d /\ GComp (snd b) n (snd d)) bs ds -> GComp (GMatch ty e bs) n (DMatch e ds)
| KDynamic ty x dy f n d : GComp f n d -> GComp (GDynamic ty x dy f) n (DDynamic x dy d)
| KApply ty x n : GComp (GApply ty x) n (DApply x)
| KPos ty n : GComp (GPos ty) n DPos
| KSkipRemainder n : GComp GSkipRemainder n DSkipRemainder
| KDecodeBytes ty e f n d : GComp f XEmpty d -> GComp (GDecodeBytes ty e f) n (DDecodeBytes e d)
| KLetFormat ty f x g n d d' : GComp f (XCat (MT' g) n) d -> GComp g n d' -> GComp (GLetFormat ty f x g) n (DLetFormat d x d')
| KMonadSeq ty f g n d d' : GComp f (XCat (MT' g) n) d -> GComp g n d' -> GComp (GMonadSeq ty f g) n (DMonadSeq d d')
| KHint ty f n d : GComp f n d -> GComp (GHint ty f) n d
| KNone ty n : GComp (GLiftedOption ty None) n (DLiftedOption None)
| KSome ty f n d : GComp f n d -> GComp (GLiftedOption ty (Some f)) n (DLiftedOption (Some d))
| KLetView ty x f n d : GComp f n d -> GComp (GLetView ty x f) n (DLetView x d)
| KCapture ty v e n : GComp (GWithView ty v (VFCapture e)) n (DCaptureBytes v e)
| KReadArray ty v e k n : GComp (GWithView ty v (VFReadArray e k)) n (DReadArray v e k)
| KReify ty v n : GComp (GWithView ty v VFReify) n (DReifyView v)
| KParseFromView ty v f n d : GComp f XEmpty d -> GComp (GParseFromView ty v f) n (DParseFromView v d)
| KPhantom ty f n : GComp (GPhantom ty f) n DPhantom
| KPermit ty f e n d : GComp f n d -> GComp (GPermit ty f e) n (DPermit d e).
End GCompiled.

Section GCompileProofs.
Context (bld : fmodule -> list format -> next -> outcome (option mtree)).
Context (tbld : fmodule -> list format -> tnext -> outcome (option mtree)).
Context (eqb : tnext -> tnext -> bool) (Heqb : forall a b, eqb a b = true -> a = b).
Context (m : fmodule) (ok : tformat -> Prop).
Notation tcompile_format := (tcompile_format bld tbld eqb m).
(** Every call in the tformat is to a definition that is [ok] and the module's. *)
Definition entry (level : nat) (def : tformat) : Prop := ok def /\ exists it, get_item m level = Some it /\ forget def = it_format it.
Definition called (f : tformat) : Prop := match f with GCall _ level _ _ def => entry level def | _ => True end.

Definition in_map (l : list (nat * tnext * nat)) (level : nat) (n : tnext) (i : nat) : Prop := In (level, n, i) l.
Definition idx (q : list (tformat * tnext * nat)) : list nat := map snd q.

(** What is known of the state while one decoder ([hole]) is being compiled:
    [spec] gives the tformat and continuation of every decoder. *)
Record Inv (spec : list (tformat * tnext)) (st : tstate) : Prop := {
  i_len : length spec = length (ts_decs st);
  i_nodup : NoDup (idx (ts_queue st));
  i_queue : forall f n i, In (f, n, i) (ts_queue st) -> nth_error spec i = Some (f, n);
  i_map : forall level n i, In (level, n, i) (ts_map st) ->
            exists def, entry level def /\ nth_error spec i = Some (def, n);
  i_ok : forall i f n, nth_error spec i = Some (f, n) -> ok f }.
(** The state only grows. *)
Record Ext (spec spec' : list (tformat * tnext)) (st st' : tstate) : Prop := {
  e_spec : exists l, spec' = spec ++ l;
  e_decs : exists l, ts_decs st' = ts_decs st ++ l;
  e_map : forall x, In x (ts_map st) -> In x (ts_map st');
  e_queue : forall i, i < length spec -> (In i (idx (ts_queue st')) <-> In i (idx (ts_queue st)));
  e_new : forall i, length spec <= i -> i < length spec' -> In i (idx (ts_queue st')) }.

Lemma Ext_refl spec st : Ext spec spec st st.
Proof. constructor; try tauto; try (exists []; now rewrite app_nil_r). intros; lia. Qed.
Lemma Ext_trans a b c st st' st'' : Ext a b st st' -> Ext b c st' st'' -> Ext a c st st''.
Proof.
  intros [(l1 & S1) (k1 & D1) M1 Q1 N1] [(l2 & S2) (k2 & D2) M2 Q2 N2]. constructor.
  - exists (l1 ++ l2). rewrite S2, S1. now rewrite app_assoc.
  - exists (k1 ++ k2). rewrite D2, D1. now rewrite app_assoc.
  - auto.
  - intros i Hi. rewrite Q2 by (rewrite S1, app_length; lia). now apply Q1.
  - intros i H1 H2. destruct (Nat.lt_ge_cases i (length b)) as [L|L]; [|now apply N2].
    apply Q2; [exact L|]. now apply N1.
Qed.

(** A computation that, from a well-formed state, leads to a well-formed larger
    one and whose result satisfies [R] of the map, now and later. *)
Definition good {A} (x : tcomp A) (R : (nat -> tnext -> nat -> Prop) -> A -> Prop) : Prop :=
  forall spec st a st', Inv spec st -> x st = COk (a, st') ->
    exists spec', Inv spec' st' /\ Ext spec spec' st st' /\
      forall mp, (forall x, In x (ts_map st') -> In x mp) -> R (in_map mp) a.
Lemma good_ret {A} (a : A) (R : _ -> _ -> Prop) : (forall C, R C a) -> good (tret a) R.
Proof. intros H spec st a' st' HI [= <- <-]. exists spec. split; [auto|]. split; [apply Ext_refl|auto]. Qed.
Lemma good_bind {A B} (x : tcomp A) (k : A -> tcomp B) (R : (nat -> tnext -> nat -> Prop) -> A -> Prop) (R' : (nat -> tnext -> nat -> Prop) -> B -> Prop) :
  good x R -> (forall a, good (k a) (fun C b => R C a -> R' C b)) -> good (tbind x k) R'.
Proof.
  intros Hx Hk spec st b st' HI H. unfold tbind in H. destruct (x st) as [[a st1]| |] eqn:E; try discriminate.
  destruct (Hx _ _ _ _ HI E) as (sp1 & HI1 & HE1 & HR1).
  destruct (Hk a _ _ _ _ HI1 H) as (sp2 & HI2 & HE2 & HR2).
  exists sp2. split; [auto|]. split; [eapply Ext_trans; eauto|].
  intros mp Hmp. apply HR2; [auto|]. apply HR1. intros y Hy. apply Hmp. now apply (e_map _ _ _ _ HE2).
Qed.
Lemma good_weaken {A} (x : tcomp A) (R R' : (nat -> tnext -> nat -> Prop) -> A -> Prop) : good x R -> (forall C a, R C a -> R' C a) -> good x R'.
Proof. intros H HR spec st a st' HI E. destruct (H _ _ _ _ HI E) as (sp & ? & ? & ?). exists sp. auto. Qed.
Lemma good_map {A B} (f : A -> B) (x : tcomp A) (R : (nat -> tnext -> nat -> Prop) -> A -> Prop) (R' : (nat -> tnext -> nat -> Prop) -> B -> Prop) :
  good x R -> (forall C a, R C a -> R' C (f a)) -> good (tmap f x) R'.
Proof. intros Hx HR. eapply good_bind; [exact Hx|]. intros a. apply good_ret. auto. Qed.
Lemma good_lift {A} (x : outcome A) (R : _ -> A -> Prop) : (forall C a, x = Val a -> R C a) -> good (tlift x) R.
Proof. intros H. destruct x; cbn; [apply good_ret; auto|]. intros spec st a st' _ E. discriminate. Qed.
Lemma good_fail {A} (R : _ -> A -> Prop) : good tfail R.
Proof. intros spec st a st' _ E. discriminate. Qed.
Lemma good_panic {A} (R : _ -> A -> Prop) : good (fun _ => CPanic) R.
Proof. intros spec st a st' _ E. discriminate. Qed.


Lemma tmap_get_in level n l i : tmap_get eqb level n l = Some i -> In (level, n, i) l.
Proof.
  induction l as [|[[k n'] j] l IH]; cbn; [discriminate|].
  destruct (Nat.eqb_spec k level) as [->|]; cbn; [|auto].
  destruct (eqb n' n) eqn:E; [|auto]. intros [= <-]. apply Heqb in E. subst. auto.
Qed.
Lemma good_item level def n : entry level def ->
  good (titem_decoder eqb level def n) (fun C i => C level n i).
Proof.
  intros Hit spec st i st' HI H. unfold titem_decoder in H.
  destruct (tmap_get eqb level n (ts_map st)) as [j|] eqn:E.
  - injection H as <- <-. exists spec. split; [auto|]. split; [apply Ext_refl|].
    intros mp Hmp. apply Hmp. now apply tmap_get_in.
  - unfold tbind, tqueue_compile, tmap, tbind, tmap_insert, tret in H. cbn in H. injection H as <- <-.
    destruct HI as [Hl Hn Hq Hm Ho]. exists (spec ++ [(def, n)]). split; [|split].
    + constructor; cbn.
      * rewrite !app_length. cbn. lia.
      * constructor; [|exact Hn]. intros H. apply in_map_iff in H as ([[f' n'] j] & Ej & H). cbn in Ej. subst j.
        apply Hq in H. assert (length (ts_decs st) < length spec) by (apply nth_error_Some; congruence). lia.
      * intros f' n' j [H|H].
        -- injection H as <- <- <-. rewrite nth_error_app2 by lia. now rewrite <- Hl, Nat.sub_diag.
        -- rewrite nth_error_app1; [auto|]. apply nth_error_Some. rewrite (Hq _ _ _ H). discriminate.
      * intros level' n' j [H|H].
        -- injection H as <- <- <-. exists def. split; [auto|]. rewrite nth_error_app2 by lia. now rewrite <- Hl, Nat.sub_diag.
        -- destruct (Hm _ _ _ H) as (it' & Hi & Hs). exists it'. split; [auto|]. rewrite nth_error_app1; [auto|].
           apply nth_error_Some. rewrite Hs. discriminate.
      * intros j f' n' Hj. destruct (Nat.lt_ge_cases j (length spec)) as [L|L]; [rewrite nth_error_app1 in Hj by exact L; eauto|].
        rewrite nth_error_app2 in Hj by exact L. destruct (j - length spec) as [|[|k]]; cbn in Hj; try discriminate. injection Hj as <- <-. apply Hit.
    + constructor; cbn; eauto.
      * intros i Hi. split; [intros [H|H]; [lia|exact H]|auto].
      * intros i H1 H2. rewrite app_length in H2. cbn in H2. left. lia.
    + intros mp Hmp. apply Hmp. cbn. auto.
Qed.
Lemma good_mapM {A B} (f : A -> tcomp B) (R : (nat -> tnext -> nat -> Prop) -> A -> B -> Prop) l :
  Forall (fun a => good (f a) (fun C b => R C a b)) l -> good (tmapM f l) (fun C => Forall2 (R C) l).
Proof.
  intros H. induction H as [|a l Ha Hl IH]; cbn [tmapM].
  - apply good_ret. constructor.
  - eapply good_bind; [exact Ha|]. intros b. eapply good_map; [exact IH|]. cbn. intros C bs Hbs Hb. now constructor.
Qed.
Lemma good_tuple fs : forall n, Forall (fun f => forall n, good (tcompile_format f n) (fun C d => GComp bld tbld m C f n d)) fs ->
  good (ttuple tcompile_format fs n) (fun C ds => GTup (GComp bld tbld m C) fs n ds).
Proof.
  induction fs as [|f fs IH]; intros n H; cbn [ttuple].
  - apply good_ret. constructor.
  - inversion H as [|? ? Hf Hfs]; subst. eapply good_bind; [apply Hf|]. intros d.
    eapply good_map; [apply IH; exact Hfs|]. cbn. intros C ds Hds Hd. now constructor.
Qed.
Lemma good_build fs n : good (tbuild_or_err tbld m fs n) (fun C t => tbld m fs n = Val (Some t)).
Proof.
  unfold tbuild_or_err. eapply good_bind; [apply good_lift with (R := fun C o => tbld m fs n = Val o); auto|].
  intros [t|]; [|apply good_fail]. apply good_ret. auto.
Qed.
Lemma good_nullable a : good (tcheck_nullable a) (fun C _ => True).
Proof.
  unfold tcheck_nullable. eapply good_bind; [apply good_lift with (R := fun C o => True); auto|].
  intros [|]; [apply good_fail|]. apply good_ret. auto.
Qed.

Ltac csub := match goal with H : teverywhere _ ?f |- _ => eapply tsub; [exact H|intros ? ?; cbn [tsubs]; right; auto using in_or_app] end.
Lemma clist fs f : teverywhere called f -> incl (flat_map tsubs fs) (tsubs f) -> Forall (teverywhere called) fs.
Proof. intros H Hi. apply teverywhere_list. intros g Hg. apply H, Hi, Hg. Qed.
Lemma tcompile_format_good f : teverywhere called f -> forall n, good (tcompile_format f n) (fun C d => GComp bld tbld m C f n d).
Proof.
  induction f using tformat_ind'; intros HC nx; cbn [TypedModel.tcompile_format];
    try (apply good_ret; intros; constructor; fail);
    try (eapply good_map; [apply IHf; csub|]; intros; constructor; assumption).
  - destruct vf; apply good_ret; intros; constructor.
  - pose proof (teverywhere_self _ _ HC) as He. cbn in He.
    destruct (existsb _ args); [apply good_panic|]. destruct (get_item m level) as [it|] eqn:Hit; [|apply good_panic].
    eapply good_bind; [apply good_lift with (R := fun C dep => depends_on_next bld m (item_depends bld m) (it_format it) = Val dep); auto|].
    intros dep. eapply good_map; [apply (good_item level _ _ He)|]. cbn. intros C i Hi Hdep. econstructor; eauto.
  - eapply good_bind; [apply good_nullable|]. intros u. eapply good_bind; [apply IHf; csub|]. intros d.
    eapply good_map; [apply good_build|]. cbn. intros. now constructor.
  - eapply good_bind; [apply good_nullable|]. intros u. eapply good_bind; [apply IHf; csub|]. intros d.
    eapply good_map; [apply good_build|]. cbn. intros. now constructor.
  - destruct (as_exact (texpr_bounds e1)) as [k1|] eqn:E1; [|apply good_panic].
    destruct (as_exact (texpr_bounds e2)) as [k2|] eqn:E2; [|apply good_panic].
    eapply good_bind; [apply IHf; csub|]. intros d.
    eapply good_map; [apply good_build|]. cbn. intros. econstructor; eauto.
  - eapply good_bind with (R := fun _ _ => True).
    + unfold tcheck_lookahead. eapply good_bind; [apply good_lift with (R := fun _ _ => True); auto|].
      intros b. destruct (bmax b); [|apply good_fail]. destruct (N.ltb 1024 n); [apply good_fail|]. now apply good_ret.
    + intros u. eapply good_map; [apply IHf; csub|]. intros. now constructor.
  - eapply good_weaken; [apply IHf; csub|]. intros. now constructor.
  - pose proof (clist fs _ HC ltac:(intros x Hx; cbn [tsubs]; now right)) as HF.
    eapply good_bind.
    + apply good_mapM with (R := fun C f d => GComp bld tbld m C f nx d). eapply Forall_impl; [|exact (Forall_and H HF)]. cbn. intros f [A B]. auto.
    + intros ds. eapply good_map; [apply good_build|]. cbn. intros. now constructor.
  - pose proof (clist fs _ HC ltac:(intros x Hx; cbn [tsubs]; now right)) as HF.
    eapply good_map.
    + apply good_mapM with (R := fun C f d => GComp bld tbld m C f nx d). eapply Forall_impl; [|exact (Forall_and H HF)]. cbn. intros f [A B]. auto.
    + intros. now constructor.
  - pose proof (clist fs _ HC ltac:(intros x Hx; cbn [tsubs]; now right)) as HF.
    eapply good_map; [apply good_tuple; eapply Forall_impl; [|exact (Forall_and H HF)]; cbn; intros f [A B]; auto|]. intros. now constructor.
  - pose proof (clist fs _ HC ltac:(intros x Hx; cbn [tsubs]; now right)) as HF.
    eapply good_map; [apply good_tuple; eapply Forall_impl; [|exact (Forall_and H HF)]; cbn; intros f [A B]; auto|]. intros. now constructor.
  - assert (HF : Forall (fun b => teverywhere called (snd b)) bs).
    { apply teverywhere_branches. intros g Hg. apply HC. cbn [tsubs]. now right. }
    eapply good_map.
    + apply good_mapM with (R := fun C b d => fst b = fst d /\ GComp bld tbld m C (snd b) nx (snd d)).
      eapply Forall_impl; [|exact (Forall_and H HF)]. cbn. intros [p g] [A B]. eapply good_map; [apply A; exact B|]. cbn. auto.
    + intros. now constructor.
  - eapply good_bind; [apply IHf1; csub|]. intros d. eapply good_map; [apply IHf2; csub|]. cbn. intros. now constructor.
  - eapply good_bind; [apply IHf1; csub|]. intros d. eapply good_map; [apply IHf2; csub|]. cbn. intros. now constructor.
Qed.

(** Every queued format is well-formed: so are the calls in it. *)
Context (Hok : forall f, ok f -> teverywhere called f).
(** A decoder that is not queued is finished. *)
Definition Done (spec : list (tformat * tnext)) (st : tstate) : Prop :=
  forall i f n, nth_error spec i = Some (f, n) -> ~ In i (idx (ts_queue st)) ->
    exists d, nth_error (ts_decs st) i = Some d /\
      forall mp, (forall x, In x (ts_map st) -> In x mp) -> GComp bld tbld m (in_map mp) f n d.

Lemma tcompile_loop_ok fuel : forall spec st st', Inv spec st -> Done spec st ->
  tcompile_loop bld tbld eqb m fuel st = Some (COk st') ->
  exists spec', (exists l, spec' = spec ++ l) /\ Inv spec' st' /\ Done spec' st' /\ ts_queue st' = [].
Proof.
  induction fuel as [|fuel IH]; intros spec st P HI HD H; cbn [tcompile_loop] in H;
    destruct (ts_queue st) as [|[[f n] i] q] eqn:Eq.
  2: discriminate.
  1, 2: injection H as <-; exists spec; split; [exists []; now rewrite app_nil_r|auto].
  destruct (tcompile_format f n (TS (ts_decs st) (ts_map st) q)) as [[d st']| |] eqn:E; try discriminate.
  destruct HI as [Hl Hn Hq Hm Ho]. rewrite Eq in *. cbn [idx map] in Hn. inversion Hn as [|? ? Hni Hn']; subst.
  assert (HI1 : Inv spec (TS (ts_decs st) (ts_map st) q)).
  { constructor; cbn; auto. intros. apply Hq. now right. }
  assert (Hi : nth_error spec i = Some (f, n)) by (apply Hq; now left).
  destruct (tcompile_format_good f (Hok _ (Ho _ _ _ Hi)) n _ _ _ _ HI1 E) as (sp' & HI2 & HE & HR).
  assert (Hil : i < length spec) by (apply nth_error_Some; congruence).
  destruct (e_spec _ _ _ _ HE) as (l1 & Hsp).
  destruct (e_decs _ _ _ _ HE) as (l2 & Hdecs). cbn in Hdecs.
  apply (IH sp') in H.
  - destruct H as (sp2 & (l3 & H1) & H2 & H3 & H4). exists sp2. split; [|auto].
    exists (l1 ++ l3). now rewrite H1, Hsp, app_assoc.
  - destruct HI2 as [A B C D F]. constructor; cbn; auto. now rewrite set_nth_length.
  - intros j f' n' Hj Hnq. cbn in *.
    destruct (Nat.eq_dec i j) as [<-|Hij].
    + exists d. split; [apply set_nth_same; rewrite Hdecs, app_length; lia|].
      rewrite Hsp, nth_error_app1 in Hj by exact Hil. rewrite Hi in Hj. injection Hj as <- <-. exact HR.
    + destruct (Nat.lt_ge_cases j (length spec)) as [L|L].
      * rewrite Hsp, nth_error_app1 in Hj by exact L.
        destruct (HD j f' n' Hj) as (d' & Hd' & Hc').
        { rewrite Eq. cbn. intros [->|Hin]; [congruence|]. apply Hnq. now apply (e_queue _ _ _ _ HE). }
        exists d'. split.
        -- rewrite set_nth_other by exact Hij. rewrite Hdecs, nth_error_app1; [exact Hd'|]. lia.
        -- intros mp Hmp. apply Hc'. intros x Hx. apply Hmp. now apply (e_map _ _ _ _ HE).
      * exfalso. apply Hnq. apply (e_new _ _ _ _ HE); [exact L|]. apply nth_error_Some. congruence.
Qed.
Lemma local_root_ok fuel f x a spec st st' : ok f -> Inv spec st -> Done spec st -> ts_queue st = [] ->
  compile_local_root bld tbld eqb m fuel f x a st = Some (COk st') ->
  exists spec', (exists l, spec' = spec ++ l) /\ Inv spec' st' /\ Done spec' st' /\ ts_queue st' = [] /\
    (x = false -> spec = [] -> nth_error spec' 0 = Some (f, XEmpty)).
Proof.
  intros Hf HI HD HQ H.
  assert (H' : (if x && negb a then Some (COk st) else tcompile_loop bld tbld eqb m fuel
    (TS (ts_decs st ++ [DFail]) (ts_map st) ((f, XEmpty, length (ts_decs st)) :: ts_queue st))) = Some (COk st'))
    by (unfold compile_local_root, tqueue_compile in H; destruct f; try discriminate; exact H).
  clear H. destruct (x && negb a) eqn:Ex.
  - injection H' as <-. exists spec. split; [exists []; now rewrite app_nil_r|]. repeat (split; [assumption|]). intros ->. discriminate.
  - apply (tcompile_loop_ok fuel (spec ++ [(f, XEmpty)])) in H'.
    + destruct H' as (sp & (l & Hsp) & A & B & C). exists sp. split; [exists ([(f, XEmpty)] ++ l); now rewrite Hsp, app_assoc|].
      split; [exact A|]. split; [exact B|]. split; [exact C|]. intros _ ->. now rewrite Hsp.
    + destruct HI as [Hl Hn Hq Hm Ho]. rewrite HQ. constructor; cbn.
      * rewrite !app_length. cbn. lia.
      * constructor; [intros []|constructor].
      * intros f' n' i [Hx|[]]. injection Hx as <- <- <-. rewrite nth_error_app2 by lia. now rewrite <- Hl, Nat.sub_diag.
      * intros level n i Hx. destruct (Hm _ _ _ Hx) as (def & He & Hs). exists def. split; [exact He|]. rewrite nth_error_app1; [exact Hs|]. apply nth_error_Some. congruence.
      * intros j f' n' Hj. destruct (Nat.lt_ge_cases j (length spec)) as [L|L]; [rewrite nth_error_app1 in Hj by exact L; eauto|].
        rewrite nth_error_app2 in Hj by exact L. destruct (j - length spec) as [|[|k]]; cbn in Hj; try discriminate. injection Hj as <- <-. exact Hf.
    + intros i f' n' Hi Hn. rewrite HQ in Hn. cbn in Hn. pose proof (i_len _ _ HI) as Hl.
      destruct (Nat.lt_ge_cases i (length spec)) as [L|L].
      * rewrite nth_error_app1 in Hi by exact L. destruct (HD _ _ _ Hi) as (d & Hd & Hc); [rewrite HQ; intros []|].
        exists d. cbn. split; [|exact Hc]. rewrite nth_error_app1; [exact Hd|lia].
      * exfalso. apply Hn. left. assert (i < length (spec ++ [(f, XEmpty)])) by (apply nth_error_Some; congruence). rewrite app_length in *. cbn in *. lia.
Qed.
Lemma extra_ok fuel extra : Forall (fun x => ok (snd x)) extra -> forall spec st st', Inv spec st -> Done spec st -> ts_queue st = [] ->
  compile_extra bld tbld eqb m fuel extra st = Some (COk st') ->
  exists spec', (exists l, spec' = spec ++ l) /\ Inv spec' st' /\ Done spec' st' /\ ts_queue st' = [].
Proof.
  induction 1 as [|[a f] r Hf Hr IH]; intros spec st st' HI HD HQ H; cbn [compile_extra] in H.
  - injection H as <-. exists spec. split; [exists []; now rewrite app_nil_r|auto].
  - destruct (compile_local_root bld tbld eqb m fuel f true a st) as [[st1| |]|] eqn:E; try discriminate.
    destruct (local_root_ok _ _ _ _ _ _ _ Hf HI HD HQ E) as (sp & (l & Hsp) & A & B & C & _).
    destruct (IH _ _ _ A B C H) as (sp' & (l' & Hsp') & D). exists sp'. split; [exists (l ++ l'); now rewrite Hsp', Hsp, app_assoc|exact D].
Qed.
(** Every call in a program is to the decoder of a definition of the item called. *)
Definition tlinked (P : program) (Call : nat -> tnext -> nat -> Prop) : Prop :=
  forall level n i, Call level n i -> exists def d,
    entry level def /\ nth_error P i = Some d /\ GComp bld tbld m Call def n d.
Lemma tcompile_program_ok fuel f extra P : ok f -> Forall (fun x => ok (snd x)) extra ->
  tcompile_program bld tbld eqb m fuel f extra = Some (COk P) ->
  exists Call, tlinked P Call /\ exists d, nth_error P 0 = Some d /\ GComp bld tbld m Call f XEmpty d.
Proof.
  intros Hf Hx H. unfold tcompile_program in H.
  destruct (compile_local_root bld tbld eqb m fuel f false false (TS [] [] [])) as [[st| |]|] eqn:E; try discriminate.
  destruct (compile_extra bld tbld eqb m fuel extra st) as [[st'| |]|] eqn:E'; try discriminate. injection H as <-.
  destruct (local_root_ok fuel f false false [] (TS [] [] []) st) as (sp & _ & A & B & C & D); auto.
  { constructor; cbn; [reflexivity|constructor|intros ? ? ? []|intros ? ? ? []|]. intros [|i] ? ? Hi; discriminate. }
  { intros [|i] ? ? Hi; discriminate. }
  specialize (D eq_refl eq_refl).
  destruct (extra_ok fuel extra Hx _ _ _ A B C E') as (sp' & (l & Hsp) & A' & B' & C').
  exists (in_map (ts_map st')). split.
  - intros level n i Hin. destruct (i_map _ _ A' _ _ _ Hin) as (def & He & Hs). destruct (B' _ _ _ Hs) as (d & Hd & Hc); [rewrite C'; intros []|].
    exists def, d. split; [exact He|]. split; [exact Hd|]. apply Hc. auto.
  - destruct (B' 0 f XEmpty) as (d & Hd & Hc); [rewrite Hsp, nth_error_app1; [exact D|apply nth_error_Some; congruence]|rewrite C'; intros []|].
    exists d. split; [exact Hd|]. apply Hc. auto.
Qed.
End GCompileProofs.
