(** What the compiler produces, as a relation between formats and decoders. *)
From Verif Require ByteSetModel.
From Verif Require Import Base BoundsModel DataModel NumericModel ValueModel FormatModel MatchTreeModel DecoderModel.
Open Scope nat_scope.

Section FormatInd.
Context (Q : format -> Prop).
Context (HItemVar : forall l a v, Q (FItemVar l a v))
  (HFail : Q FFail) (HEndOfInput : Q FEndOfInput) (HAlign : forall n, Q (FAlign n)) (HByte : forall b, Q (FByte b))
  (HVariant : forall l f, Q f -> Q (FVariant l f))
  (HUnion : forall fs, Forall Q fs -> Q (FUnion fs))
  (HUnionNondet : forall fs, Forall Q fs -> Q (FUnionNondet fs))
  (HTuple : forall fs, Forall Q fs -> Q (FTuple fs))
  (HSequence : forall fs, Forall Q fs -> Q (FSequence fs))
  (HRepeat : forall f, Q f -> Q (FRepeat f))
  (HRepeat1 : forall f, Q f -> Q (FRepeat1 f))
  (HRepeatCount : forall e f, Q f -> Q (FRepeatCount e f))
  (HRepeatBetween : forall e1 e2 f, Q f -> Q (FRepeatBetween e1 e2 f))
  (HRepeatUntilLast : forall e f, Q f -> Q (FRepeatUntilLast e f))
  (HRepeatUntilSeq : forall e f, Q f -> Q (FRepeatUntilSeq e f))
  (HAccumUntil : forall a b c t f, Q f -> Q (FAccumUntil a b c t f))
  (HForEach : forall e x f, Q f -> Q (FForEach e x f))
  (HMaybe : forall e f, Q f -> Q (FMaybe e f))
  (HPeek : forall f, Q f -> Q (FPeek f))
  (HPeekNot : forall f, Q f -> Q (FPeekNot f))
  (HSlice : forall e f, Q f -> Q (FSlice e f))
  (HBits : forall f, Q f -> Q (FBits f))
  (HWithRelativeOffset : forall a b f, Q f -> Q (FWithRelativeOffset a b f))
  (HMap : forall f e, Q f -> Q (FMap f e))
  (HWhere : forall f e b, Q f -> Q (FWhere f e b))
  (HCompute : forall e, Q (FCompute e))
  (HLet : forall x e f, Q f -> Q (FLet x e f))
  (HMatch : forall e bs, Forall (fun b => Q (snd b)) bs -> Q (FMatch e bs))
  (HDynamic : forall x d f, Q f -> Q (FDynamic x d f))
  (HApply : forall x, Q (FApply x)) (HPos : Q FPos) (HSkipRemainder : Q FSkipRemainder)
  (HDecodeBytes : forall e f, Q f -> Q (FDecodeBytes e f))
  (HLetFormat : forall f x g, Q f -> Q g -> Q (FLetFormat f x g))
  (HMonadSeq : forall f g, Q f -> Q g -> Q (FMonadSeq f g))
  (HHint : forall f, Q f -> Q (FHint f))
  (HNone : Q (FLiftedOption None)) (HSome : forall f, Q f -> Q (FLiftedOption (Some f)))
  (HLetView : forall x f, Q f -> Q (FLetView x f))
  (HWithView : forall v vf, Q (FWithView v vf))
  (HParseFromView : forall v f, Q f -> Q (FParseFromView v f))
  (HPhantom : forall f, Q f -> Q (FPhantom f))
  (HPermit : forall f e, Q f -> Q (FPermit f e)).
Fixpoint format_ind' (f : format) : Q f.
Proof.
  destruct f;
    try (match goal with o : option format |- _ => destruct o as [f|] end);
    match goal with
    | fs : list format |- _ =>
      (apply HUnion || apply HUnionNondet || apply HTuple || apply HSequence);
      refine ((fix lp (l : list format) : Forall Q l := match l with [] => Forall_nil _ | x :: r => Forall_cons x (format_ind' x) (lp r) end) fs)
    | bs : list (pattern * format) |- _ =>
      apply HMatch;
      refine ((fix lp (l : list (pattern * format)) : Forall (fun b => Q (snd b)) l :=
        match l with [] => Forall_nil _ | x :: r => Forall_cons x (format_ind' (snd x)) (lp r) end) bs)
    | |- _ => idtac
    end.
  all: first [apply HItemVar | apply HFail | apply HEndOfInput | apply HAlign | apply HByte | apply HVariant | apply HRepeat | apply HRepeat1 | apply HRepeatCount | apply HRepeatBetween | apply HRepeatUntilLast | apply HRepeatUntilSeq | apply HAccumUntil | apply HForEach | apply HMaybe | apply HPeek | apply HPeekNot | apply HSlice | apply HBits | apply HWithRelativeOffset | apply HMap | apply HWhere | apply HCompute | apply HLet | apply HDynamic | apply HApply | apply HPos | apply HSkipRemainder | apply HDecodeBytes | apply HLetFormat | apply HMonadSeq | apply HHint | apply HNone | apply HSome | apply HLetView | apply HWithView | apply HParseFromView | apply HPhantom | apply HPermit]; apply format_ind'.
Qed.
End FormatInd.

Section Compiled.
Context (bld : fmodule -> list format -> next -> outcome (option mtree)).
Context (m : fmodule).
(** [Call level n i]: decoder [i] of the program is the one of [level] before [n]. *)
Context (Call : nat -> next -> nat -> Prop).

Section CTup.
Context (R : format -> next -> decoder -> Prop).
Inductive CTup : list format -> next -> list decoder -> Prop :=
| CTNil n : CTup [] n []
| CTCons f fs n d ds : R f (NSequence fs n) d -> CTup fs n ds -> CTup (f :: fs) n (d :: ds).
End CTup.

Inductive Comp : format -> next -> decoder -> Prop :=
| CItem level args views it dep i n : get_item m level = Some it ->
    depends_on_next bld m (item_depends bld m) (it_format it) = Val dep ->
    Call level (if dep then n else NEmpty) i ->
    Comp (FItemVar level args views) n (DCall i (combine (it_args it) args) (combine (it_views it) views))
| CFail n : Comp FFail n DFail
| CEndOfInput n : Comp FEndOfInput n DEndOfInput
| CAlign k n : Comp (FAlign k) n (DAlign k)
| CByte bs n : Comp (FByte bs) n (DByte bs)
| CVariant l f n d : Comp f n d -> Comp (FVariant l f) n (DVariant l d)
| CUnion fs n t ds : Forall2 (fun f d => Comp f n d) fs ds -> bld m fs n = Val (Some t) -> Comp (FUnion fs) n (DBranch t ds)
| CUnionNondet fs n ds : Forall2 (fun f d => Comp f n d) fs ds -> Comp (FUnionNondet fs) n (DParallel ds)
| CTuple fs n ds : CTup Comp fs n ds -> Comp (FTuple fs) n (DTuple ds)
| CSequence fs n ds : CTup Comp fs n ds -> Comp (FSequence fs) n (DSequence ds)
| CRepeat f n t d : is_nullable m f = Val false -> Comp f (NRepeat f n) d ->
    bld m [FTuple [f; FRepeat f]; FEmpty] n = Val (Some t) -> Comp (FRepeat f) n (DWhile t d)
| CRepeat1 f n t d : is_nullable m f = Val false -> Comp f (NRepeat f n) d ->
    bld m [FEmpty; FTuple [f; FRepeat f]] n = Val (Some t) -> Comp (FRepeat1 f) n (DUntil t d)
| CRepeatCount e f n d : Comp f (NRepeat f n) d -> Comp (FRepeatCount e f) n (DRepeatCount e d)
| CRepeatBetween e1 e2 f n b1 b2 k1 k2 t d : expr_bounds e1 = Val b1 -> as_exact b1 = Some k1 ->
    expr_bounds e2 = Val b2 -> as_exact b2 = Some k2 ->
    Comp f (NRepeatBetween (k1 - 1) (k2 - 1) f n) d ->
    bld m (count_branches k2 f) n = Val (Some t) -> Comp (FRepeatBetween e1 e2 f) n (DRepeatBetween t e1 e2 d)
| CRepeatUntilLast e f n d : Comp f (NRepeat f n) d -> Comp (FRepeatUntilLast e f) n (DRepeatUntilLast e d)
| CRepeatUntilSeq e f n d : Comp f (NRepeat f n) d -> Comp (FRepeatUntilSeq e f) n (DRepeatUntilSeq e d)
| CAccumUntil fd fu e0 t f n d : Comp f (NRepeat f n) d -> Comp (FAccumUntil fd fu e0 t f) n (DAccumUntil fd fu e0 d)
| CForEach e x f n d : Comp f (NRepeat f n) d -> Comp (FForEach e x f) n (DForEach e x d)
| CMaybe e f n d : Comp f NEmpty d -> Comp (FMaybe e f) n (DMaybe e d)
| CPeek f n d : Comp f NEmpty d -> Comp (FPeek f) n (DPeek d)
| CPeekNot f n d : Comp f NEmpty d -> Comp (FPeekNot f) n (DPeekNot d)
| CSlice e f n d : Comp f NEmpty d -> Comp (FSlice e f) n (DSlice e d)
| CBits f n d : Comp f NEmpty d -> Comp (FBits f) n (DBits d)
| CWithRelativeOffset e1 e2 f n d : Comp f NEmpty d -> Comp (FWithRelativeOffset e1 e2 f) n (DWithRelativeOffset e1 e2 d)
| CMap f e n d : Comp f n d -> Comp (FMap f e) n (DMap d e)
| CWhere f e b n d : Comp f n d -> Comp (FWhere f e b) n (DWhere d e b)
| CCompute e n : Comp (FCompute e) n (DCompute e)
| CLet x e f n d : Comp f n d -> Comp (FLet x e f) n (DLet x e d)
| CMatch e bs n ds : Forall2 (fun b d => fst b = fst d /\ Comp (snd b) n (snd d)) bs ds -> Comp (FMatch e bs) n (DMatch e ds)
| CDynamic x dy f n d : Comp f n d -> Comp (FDynamic x dy f) n (DDynamic x dy d)
| CApply x n : Comp (FApply x) n (DApply x)
| CPos n : Comp FPos n DPos
| CSkipRemainder n : Comp FSkipRemainder n DSkipRemainder
| CDecodeBytes e f n d : Comp f NEmpty d -> Comp (FDecodeBytes e f) n (DDecodeBytes e d)
| CLetFormat f x g n d d' : Comp f (NCat g n) d -> Comp g n d' -> Comp (FLetFormat f x g) n (DLetFormat d x d')
| CMonadSeq f g n d d' : Comp f (NCat g n) d -> Comp g n d' -> Comp (FMonadSeq f g) n (DMonadSeq d d')
| CHint f n d : Comp f n d -> Comp (FHint f) n d
| CNone n : Comp (FLiftedOption None) n (DLiftedOption None)
| CSome f n d : Comp f n d -> Comp (FLiftedOption (Some f)) n (DLiftedOption (Some d))
| CLetView x f n d : Comp f n d -> Comp (FLetView x f) n (DLetView x d)
| CCapture v e n : Comp (FWithView v (VFCapture e)) n (DCaptureBytes v e)
| CReadArray v e k n : Comp (FWithView v (VFReadArray e k)) n (DReadArray v e k)
| CReify v n : Comp (FWithView v VFReify) n (DReifyView v)
| CParseFromView v f n d : Comp f NEmpty d -> Comp (FParseFromView v f) n (DParseFromView v d)
| CPhantom f n : Comp (FPhantom f) n DPhantom
| CPermit f e n d : Comp f n d -> Comp (FPermit f e) n (DPermit d e).
End Compiled.

Section CompileProofs.
Context (bld : fmodule -> list format -> next -> outcome (option mtree)).
Context (eqb : next -> next -> bool) (Heqb : forall a b, eqb a b = true -> a = b).
Context (m : fmodule).
Notation compile_format := (compile_format bld eqb m).

Definition in_map (l : list (nat * next * nat)) (level : nat) (n : next) (i : nat) : Prop := In (level, n, i) l.
Definition idx (q : list (format * next * nat)) : list nat := map snd q.

(** What is known of the state while one decoder ([hole]) is being compiled:
    [spec] gives the format and continuation of every decoder. *)
Record Inv (spec : list (format * next)) (st : cstate) : Prop := {
  i_len : length spec = length (cs_decs st);
  i_nodup : NoDup (idx (cs_queue st));
  i_queue : forall f n i, In (f, n, i) (cs_queue st) -> nth_error spec i = Some (f, n);
  i_map : forall level n i, In (level, n, i) (cs_map st) ->
            exists it, get_item m level = Some it /\ nth_error spec i = Some (it_format it, n) }.
(** The state only grows. *)
Record Ext (spec spec' : list (format * next)) (st st' : cstate) : Prop := {
  e_spec : exists l, spec' = spec ++ l;
  e_decs : exists l, cs_decs st' = cs_decs st ++ l;
  e_map : forall x, In x (cs_map st) -> In x (cs_map st');
  e_queue : forall i, i < length spec -> (In i (idx (cs_queue st')) <-> In i (idx (cs_queue st)));
  e_new : forall i, length spec <= i -> i < length spec' -> In i (idx (cs_queue st')) }.

Lemma Ext_refl spec st : Ext spec spec st st.
Proof. constructor; try tauto; try (exists []; now rewrite app_nil_r). intros; lia. Qed.
Lemma Ext_trans a b c st st' st'' : Ext a b st st' -> Ext b c st' st'' -> Ext a c st st''.
Proof.
  intros [(l1 & S1) (k1 & D1) M1 Q1 N1] [(l2 & S2) (k2 & D2) M2 Q2 N2]. constructor.
  - exists (l1 ++ l2). rewrite S2, S1. now rewrite app_assoc.
  - exists (k1 ++ k2). rewrite D2, D1. now rewrite app_assoc.
  - auto.
  - intros i Hi. rewrite Q2 by (rewrite S1, app_length; lia). now apply Q1.
  - intros i H1 H2. destruct (Nat.lt_ge_cases i (length b)) as [L|L]; [|now apply N2].
    apply Q2; [exact L|]. now apply N1.
Qed.

(** A computation that, from a well-formed state, leads to a well-formed larger
    one and whose result satisfies [R] of the map, now and later. *)
Definition good {A} (x : comp A) (R : (nat -> next -> nat -> Prop) -> A -> Prop) : Prop :=
  forall spec st a st', Inv spec st -> x st = COk (a, st') ->
    exists spec', Inv spec' st' /\ Ext spec spec' st st' /\
      forall mp, (forall x, In x (cs_map st') -> In x mp) -> R (in_map mp) a.
Lemma good_ret {A} (a : A) (R : _ -> _ -> Prop) : (forall C, R C a) -> good (cret a) R.
Proof. intros H spec st a' st' HI [= <- <-]. exists spec. split; [auto|]. split; [apply Ext_refl|auto]. Qed.
Lemma good_bind {A B} (x : comp A) (k : A -> comp B) (R : (nat -> next -> nat -> Prop) -> A -> Prop) (R' : (nat -> next -> nat -> Prop) -> B -> Prop) :
  good x R -> (forall a, good (k a) (fun C b => R C a -> R' C b)) -> good (cbind x k) R'.
Proof.
  intros Hx Hk spec st b st' HI H. unfold cbind in H. destruct (x st) as [[a st1]| |] eqn:E; try discriminate.
  destruct (Hx _ _ _ _ HI E) as (sp1 & HI1 & HE1 & HR1).
  destruct (Hk a _ _ _ _ HI1 H) as (sp2 & HI2 & HE2 & HR2).
  exists sp2. split; [auto|]. split; [eapply Ext_trans; eauto|].
  intros mp Hmp. apply HR2; [auto|]. apply HR1. intros y Hy. apply Hmp. now apply (e_map _ _ _ _ HE2).
Qed.
Lemma good_weaken {A} (x : comp A) (R R' : (nat -> next -> nat -> Prop) -> A -> Prop) : good x R -> (forall C a, R C a -> R' C a) -> good x R'.
Proof. intros H HR spec st a st' HI E. destruct (H _ _ _ _ HI E) as (sp & ? & ? & ?). exists sp. auto. Qed.
Lemma good_map {A B} (f : A -> B) (x : comp A) (R : (nat -> next -> nat -> Prop) -> A -> Prop) (R' : (nat -> next -> nat -> Prop) -> B -> Prop) :
  good x R -> (forall C a, R C a -> R' C (f a)) -> good (cmap f x) R'.
Proof. intros Hx HR. eapply good_bind; [exact Hx|]. intros a. apply good_ret. auto. Qed.
Lemma good_lift {A} (x : outcome A) (R : _ -> A -> Prop) : (forall C a, x = Val a -> R C a) -> good (clift x) R.
Proof. intros H. destruct x; cbn; [apply good_ret; auto|]. intros spec st a st' _ E. discriminate. Qed.
Lemma good_fail {A} (R : _ -> A -> Prop) : good cfail R.
Proof. intros spec st a st' _ E. discriminate. Qed.
Lemma good_panic {A} (R : _ -> A -> Prop) : good (fun _ => CPanic) R.
Proof. intros spec st a st' _ E. discriminate. Qed.

Lemma map_get_in level n l i : map_get eqb level n l = Some i -> In (level, n, i) l.
Proof.
  induction l as [|[[k n'] j] l IH]; cbn; [discriminate|].
  destruct (Nat.eqb_spec k level) as [->|]; cbn; [|auto].
  destruct (eqb n' n) eqn:E; [|auto]. intros [= <-]. apply Heqb in E. subst. auto.
Qed.
Lemma good_item level it n : get_item m level = Some it ->
  good (item_decoder eqb level (it_format it) n) (fun C i => C level n i).
Proof.
  intros Hit spec st i st' HI H. unfold item_decoder in H.
  destruct (map_get eqb level n (cs_map st)) as [j|] eqn:E.
  - injection H as <- <-. exists spec. split; [auto|]. split; [apply Ext_refl|].
    intros mp Hmp. apply Hmp. now apply map_get_in.
  - unfold cbind, queue_compile, cmap, cbind, map_insert, cret in H. cbn in H. injection H as <- <-.
    destruct HI as [Hl Hn Hq Hm]. exists (spec ++ [(it_format it, n)]). split; [|split].
    + constructor; cbn.
      * rewrite !app_length. cbn. lia.
      * constructor; [|exact Hn]. intros H. apply in_map_iff in H as ([[f' n'] j] & Ej & H). cbn in Ej. subst j.
        apply Hq in H. assert (length (cs_decs st) < length spec) by (apply nth_error_Some; congruence). lia.
      * intros f' n' j [H|H].
        -- injection H as <- <- <-. rewrite nth_error_app2 by lia. now rewrite <- Hl, Nat.sub_diag.
        -- rewrite nth_error_app1; [auto|]. apply nth_error_Some. rewrite (Hq _ _ _ H). discriminate.
      * intros level' n' j [H|H].
        -- injection H as <- <- <-. exists it. split; [auto|]. rewrite nth_error_app2 by lia. now rewrite <- Hl, Nat.sub_diag.
        -- destruct (Hm _ _ _ H) as (it' & Hi & Hs). exists it'. split; [auto|]. rewrite nth_error_app1; [auto|].
           apply nth_error_Some. rewrite Hs. discriminate.
    + constructor; cbn; eauto.
      * intros i Hi. split; [intros [H|H]; [lia|exact H]|auto].
      * intros i H1 H2. rewrite app_length in H2. cbn in H2. left. lia.
    + intros mp Hmp. apply Hmp. cbn. auto.
Qed.
Lemma good_mapM {A B} (f : A -> comp B) (R : (nat -> next -> nat -> Prop) -> A -> B -> Prop) l :
  Forall (fun a => good (f a) (fun C b => R C a b)) l -> good (cmapM f l) (fun C => Forall2 (R C) l).
Proof.
  intros H. induction H as [|a l Ha Hl IH]; cbn [cmapM].
  - apply good_ret. constructor.
  - eapply good_bind; [exact Ha|]. intros b. eapply good_map; [exact IH|]. cbn. intros C bs Hbs Hb. now constructor.
Qed.
Lemma good_tuple fs : forall n, Forall (fun f => forall n, good (compile_format f n) (fun C d => Comp bld m C f n d)) fs ->
  good (ctuple compile_format fs n) (fun C ds => CTup (Comp bld m C) fs n ds).
Proof.
  induction fs as [|f fs IH]; intros n H; cbn [ctuple].
  - apply good_ret. constructor.
  - inversion H as [|? ? Hf Hfs]; subst. eapply good_bind; [apply Hf|]. intros d.
    eapply good_map; [apply IH; exact Hfs|]. cbn. intros C ds Hds Hd. now constructor.
Qed.
Lemma good_build fs n : good (build_or_err bld m fs n) (fun C t => bld m fs n = Val (Some t)).
Proof.
  unfold build_or_err. eapply good_bind; [apply good_lift with (R := fun C o => bld m fs n = Val o); auto|].
  intros [t|]; [|apply good_fail]. apply good_ret. auto.
Qed.
Lemma good_nullable a : good (check_nullable m a) (fun C _ => is_nullable m a = Val false).
Proof.
  unfold check_nullable. eapply good_bind; [apply good_lift with (R := fun C o => is_nullable m a = Val o); auto|].
  intros [|]; [apply good_fail|]. apply good_ret. auto.
Qed.

Lemma compile_format_good f : forall n, good (compile_format f n) (fun C d => Comp bld m C f n d).
Proof.
  induction f using format_ind'; intros nx; cbn [DecoderModel.compile_format];
    try (apply good_ret; intros; constructor; fail);
    try (eapply good_map; [apply IHf|]; intros; constructor; assumption).
  - destruct (get_item m l) as [it|] eqn:Hit; [|apply good_panic].
    eapply good_bind; [apply good_lift with (R := fun C dep => depends_on_next bld m (item_depends bld m) (it_format it) = Val dep); auto|].
    intros dep. eapply good_map; [apply (good_item l it _ Hit)|]. cbn. intros C i Hi Hdep. econstructor; eauto.
  - eapply good_bind.
    + apply good_mapM with (R := fun C f d => Comp bld m C f nx d). eapply Forall_impl; [|exact H]. cbn. intros; auto.
    + intros ds. eapply good_map; [apply good_build|]. cbn. intros. now constructor.
  - eapply good_map.
    + apply good_mapM with (R := fun C f d => Comp bld m C f nx d). eapply Forall_impl; [|exact H]. cbn. intros; auto.
    + intros. now constructor.
  - eapply good_map; [apply good_tuple; exact H|]. intros. now constructor.
  - eapply good_map; [apply good_tuple; exact H|]. intros. now constructor.
  - eapply good_bind; [apply good_nullable|]. intros u. eapply good_bind; [apply IHf|]. intros d.
    eapply good_map; [apply good_build|]. cbn. intros. now constructor.
  - eapply good_bind; [apply good_nullable|]. intros u. eapply good_bind; [apply IHf|]. intros d.
    eapply good_map; [apply good_build|]. cbn. intros. now constructor.
  - eapply good_bind; [apply good_lift with (R := fun C b => expr_bounds e1 = Val b); auto|]. intros b1.
    destruct (as_exact b1) as [k1|] eqn:E1; [|apply good_panic].
    eapply good_bind; [apply good_lift with (R := fun C b => expr_bounds e2 = Val b); auto|]. intros b2.
    destruct (as_exact b2) as [k2|] eqn:E2; [|apply good_panic].
    eapply good_bind; [apply IHf|]. intros d.
    eapply good_bind; [apply good_lift with (R := fun C o => bld m (count_branches k2 f) nx = Val o); auto|].
    intros [t|]; [|apply good_panic]. apply good_ret. intros. econstructor; eauto.
  - eapply good_bind with (R := fun _ _ => True).
    + unfold check_lookahead. eapply good_bind; [apply good_lift with (R := fun _ _ => True); auto|].
      intros b. destruct (bmax b); [|apply good_fail]. destruct (N.ltb 1024 n); [apply good_fail|]. now apply good_ret.
    + intros u. eapply good_map; [apply IHf|]. intros. now constructor.
  - eapply good_map.
    + apply good_mapM with (R := fun C b d => fst b = fst d /\ Comp bld m C (snd b) nx (snd d)).
      eapply Forall_impl; [|exact H]. cbn. intros [p g] Hg. eapply good_map; [apply Hg|]. cbn. auto.
    + intros. now constructor.
  - eapply good_bind; [apply IHf1|]. intros d. eapply good_map; [apply IHf2|]. cbn. intros. now constructor.
  - eapply good_bind; [apply IHf1|]. intros d. eapply good_map; [apply IHf2|]. cbn. intros. now constructor.
  - eapply good_weaken; [apply IHf|]. intros. now constructor.
  - destruct vf; apply good_ret; intros; constructor.
Qed.

Lemma set_nth_length {A} (l : list A) i x : length (set_nth l i x) = length l.
Proof. revert i; induction l; intros [|i]; cbn; auto. Qed.
Lemma set_nth_same {A} (l : list A) i x : i < length l -> nth_error (set_nth l i x) i = Some x.
Proof. revert i; induction l; intros [|i] H; cbn in *; try lia; auto. apply IHl. lia. Qed.
Lemma set_nth_other {A} (l : list A) i j x : i <> j -> nth_error (set_nth l i x) j = nth_error l j.
Proof. revert i j; induction l; intros [|i] [|j] H; cbn in *; auto; congruence. Qed.

(** A decoder that is not queued is finished. *)
Definition Done (spec : list (format * next)) (st : cstate) : Prop :=
  forall i f n, nth_error spec i = Some (f, n) -> ~ In i (idx (cs_queue st)) ->
    exists d, nth_error (cs_decs st) i = Some d /\
      forall mp, (forall x, In x (cs_map st) -> In x mp) -> Comp bld m (in_map mp) f n d.

Lemma compile_loop_ok fuel : forall spec st P, Inv spec st -> Done spec st ->
  compile_loop bld eqb m fuel st = Some (COk P) ->
  exists spec' mp, (exists l, spec' = spec ++ l) /\
    (forall level n i, In (level, n, i) mp -> exists it, get_item m level = Some it /\ nth_error spec' i = Some (it_format it, n)) /\
    (forall i f n, nth_error spec' i = Some (f, n) -> exists d, nth_error P i = Some d /\ Comp bld m (in_map mp) f n d).
Proof.
  induction fuel as [|fuel IH]; intros spec st P HI HD H; cbn [compile_loop] in H;
    destruct (cs_queue st) as [|[[f n] i] q] eqn:Eq.
  2: discriminate.
  1, 2: injection H as <-; exists spec, (cs_map st); split; [exists []; now rewrite app_nil_r|]; split;
    [apply HI|]; intros i f n Hs; destruct (HD i f n Hs) as (d & Hd & Hc); [now rewrite Eq|]; exists d; split; auto.
  destruct (compile_format f n (CS (cs_decs st) (cs_map st) q)) as [[d st']| |] eqn:E; try discriminate.
  destruct HI as [Hl Hn Hq Hm]. rewrite Eq in *. cbn [idx map] in Hn. inversion Hn as [|? ? Hni Hn']; subst.
  assert (HI1 : Inv spec (CS (cs_decs st) (cs_map st) q)).
  { constructor; cbn; auto. intros. apply Hq. now right. }
  destruct (compile_format_good f n _ _ _ _ HI1 E) as (sp' & HI2 & HE & HR).
  assert (Hi : nth_error spec i = Some (f, n)) by (apply Hq; now left).
  assert (Hil : i < length spec) by (apply nth_error_Some; congruence).
  destruct (e_spec _ _ _ _ HE) as (l1 & Hsp).
  destruct (e_decs _ _ _ _ HE) as (l2 & Hdecs). cbn in Hdecs.
  apply (IH sp') in H.
  - destruct H as (sp2 & mp & (l3 & H1) & H2 & H3). exists sp2, mp. split; [|auto].
    exists (l1 ++ l3). now rewrite H1, Hsp, app_assoc.
  - destruct HI2 as [A B C D]. constructor; cbn; auto. now rewrite set_nth_length.
  - intros j f' n' Hj Hnq. cbn in *.
    destruct (Nat.eq_dec i j) as [<-|Hij].
    + exists d. split; [apply set_nth_same; rewrite Hdecs, app_length; lia|].
      rewrite Hsp, nth_error_app1 in Hj by exact Hil. rewrite Hi in Hj. injection Hj as <- <-. exact HR.
    + destruct (Nat.lt_ge_cases j (length spec)) as [L|L].
      * rewrite Hsp, nth_error_app1 in Hj by exact L.
        destruct (HD j f' n' Hj) as (d' & Hd' & Hc').
        { rewrite Eq. cbn. intros [->|Hin]; [congruence|]. apply Hnq. now apply (e_queue _ _ _ _ HE). }
        exists d'. split.
        -- rewrite set_nth_other by exact Hij. rewrite Hdecs, nth_error_app1; [exact Hd'|]. lia.
        -- intros mp Hmp. apply Hc'. intros x Hx. apply Hmp. now apply (e_map _ _ _ _ HE).
      * exfalso. apply Hnq. apply (e_new _ _ _ _ HE); [exact L|]. apply nth_error_Some. congruence.
Qed.

(** The program compiled for [f]: its first decoder is that of [f], and every call
    is to the decoder of the item called. *)
Definition linked (P : program) (Call : nat -> next -> nat -> Prop) : Prop :=
  forall level n i, Call level n i -> exists it d,
    get_item m level = Some it /\ nth_error P i = Some d /\ Comp bld m Call (it_format it) n d.
Lemma compile_program_map fuel f P : compile_program bld eqb m fuel f = Some (COk P) ->
  exists mp, linked P (in_map mp) /\ exists d, nth_error P 0 = Some d /\ Comp bld m (in_map mp) f NEmpty d.
Proof.
  unfold compile_program. cbn [queue_compile]. intros H.
  apply (compile_loop_ok fuel [(f, NEmpty)]) in H.
  - destruct H as (sp & mp & (l & Hsp) & Hmp & HP). exists mp. split.
    + intros level n i Hin. destruct (Hmp _ _ _ Hin) as (it & Hit & Hs). destruct (HP _ _ _ Hs) as (d & Hd & Hc).
      exists it, d. auto.
    + apply HP. now rewrite Hsp.
  - constructor; cbn.
    + reflexivity.
    + constructor; [intros []|constructor].
    + intros f' n' i [H'|[]]. now injection H' as <- <- <-.
    + intros ? ? ? [].
  - intros i f' n' Hi Hn. cbn in Hn. exfalso. apply Hn. left. destruct i as [|[|i]]; cbn in Hi; congruence.
Qed.
Lemma compile_program_ok fuel f P : compile_program bld eqb m fuel f = Some (COk P) ->
  exists Call, linked P Call /\ exists d, nth_error P 0 = Some d /\ Comp bld m Call f NEmpty d.
Proof. intros H. apply compile_program_map in H as (mp & H). eauto. Qed.
End CompileProofs.

(** A format compiled on its own makes no calls. *)
Lemma compile_one_ok bld f d : compile_one bld f = COk d -> Comp bld [] (fun _ _ _ => False) f NEmpty d.
Proof.
  unfold compile_one. destruct (compile_format bld (fun _ _ => false) [] f NEmpty (CS [] [] [])) as [[d' st]| |] eqn:E; try discriminate.
  intros [= <-]. assert (HI : Inv [] [] (CS [] [] [])).
  { constructor; cbn; try reflexivity; [constructor| |]; intros ? ? ? []. }
  destruct (compile_format_good bld (fun _ _ => false) ltac:(discriminate) [] f NEmpty _ _ _ _ HI E) as (sp & HI' & _ & HR).
  assert (Hmap : cs_map st = []).
  { destruct (cs_map st) as [|[[lv n] i] r] eqn:Em; [reflexivity|].
    destruct (i_map _ _ _ HI' lv n i) as (it & Hit & _); [rewrite Em; now left|]. destruct lv; discriminate. }
  specialize (HR [] ltac:(intros x Hx; now rewrite Hmap in Hx)). exact HR.
Qed.
