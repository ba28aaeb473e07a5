(** Lemmas about values, patterns, scopes and expression evaluation. *)
From Verif Require Import Base BoundsModel BoundsProofs DataModel NumericModel NumericProofs ValueModel.
Open Scope nat_scope.

(** ** Induction principles *)

Section ExprInd.
Context (P : expr -> Prop).
Context
 (HVar : forall x, P (EVar x)) (HBool : forall b, P (EBool b)) (HU : forall w n, P (EU w n))
 (HTuple : forall es, Forall P es -> P (ETuple es))
 (HTupleProj : forall e i, P e -> P (ETupleProj e i))
 (HRecord : forall fs, Forall (fun f => P (snd f)) fs -> P (ERecord fs))
 (HRecordProj : forall e l, P e -> P (ERecordProj e l))
 (HVariant : forall l e, P e -> P (EVariant l e))
 (HSeq : forall es, Forall P es -> P (ESeq es))
 (HNumeric : forall n, P (ENumeric n))
 (HMatch : forall h bs, P h -> Forall (fun b => P (snd b)) bs -> P (EMatch h bs))
 (HDestructure : forall h p e, P h -> P e -> P (EDestructure h p e))
 (HLambda : forall x e, P e -> P (ELambda x e))
 (HIntRel : forall r a b, P a -> P b -> P (EIntRel r a b))
 (HArith : forall op a b, P a -> P b -> P (EArith op a b))
 (HUnary : forall op a, P a -> P (EUnary op a))
 (HAs : forall w e, P e -> P (EAs w e))
 (HAsChar : forall e, P e -> P (EAsChar e))
 (HBytes : forall be w e, P e -> P (EBytes be w e))
 (HSeqLength : forall e, P e -> P (ESeqLength e))
 (HSubSeq : forall e a b, P e -> P a -> P b -> P (ESubSeq e a b))
 (HSeqIx : forall e i, P e -> P i -> P (ESeqIx e i))
 (HInflate : forall e a b, P e -> P a -> P b -> P (ESubSeqInflate e a b))
 (HFlatMap : forall f e, P f -> P e -> P (EFlatMap f e))
 (HFlatMapAccum : forall f z t e, P f -> P z -> P e -> P (EFlatMapAccum f z t e))
 (HFlatMapList : forall f t e, P f -> P e -> P (EFlatMapList f t e))
 (HFind : forall b k q e, P k -> P q -> P e -> P (EFindByKey b k q e))
 (HEnum : forall a b, P a -> P b -> P (EEnumFromTo a b))
 (HFold : forall f z t e, P f -> P z -> P e -> P (ELeftFold f z t e))
 (HDup : forall n e, P n -> P e -> P (EDup n e))
 (HNone : P (ELiftOption None))
 (HSome : forall e, P e -> P (ELiftOption (Some e)))
 (HAppend : forall a b, P a -> P b -> P (EAppend a b)).
Fixpoint expr_ind' (e : expr) : P e :=
  let go := fix go (es : list expr) : Forall P es :=
    match es with [] => Forall_nil _ | e :: es' => Forall_cons e (expr_ind' e) (go es') end in
  let gor := fix gor (fs : list (label * expr)) : Forall (fun f => P (snd f)) fs :=
    match fs with [] => Forall_nil _ | f :: fs' => Forall_cons f (expr_ind' (snd f)) (gor fs') end in
  let gom := fix gom (fs : list (pattern * expr)) : Forall (fun f => P (snd f)) fs :=
    match fs with [] => Forall_nil _ | f :: fs' => Forall_cons f (expr_ind' (snd f)) (gom fs') end in
  match e with
  | EVar x => HVar x | EBool b => HBool b | EU w n => HU w n
  | ETuple es => HTuple es (go es)
  | ETupleProj e i => HTupleProj e i (expr_ind' e)
  | ERecord fs => HRecord fs (gor fs)
  | ERecordProj e l => HRecordProj e l (expr_ind' e)
  | EVariant l e => HVariant l e (expr_ind' e)
  | ESeq es => HSeq es (go es)
  | ENumeric n => HNumeric n
  | EMatch h bs => HMatch h bs (expr_ind' h) (gom bs)
  | EDestructure h p e => HDestructure h p e (expr_ind' h) (expr_ind' e)
  | ELambda x e => HLambda x e (expr_ind' e)
  | EIntRel r a b => HIntRel r a b (expr_ind' a) (expr_ind' b)
  | EArith op a b => HArith op a b (expr_ind' a) (expr_ind' b)
  | EUnary op a => HUnary op a (expr_ind' a)
  | EAs w e => HAs w e (expr_ind' e)
  | EAsChar e => HAsChar e (expr_ind' e)
  | EBytes be w e => HBytes be w e (expr_ind' e)
  | ESeqLength e => HSeqLength e (expr_ind' e)
  | ESubSeq e a b => HSubSeq e a b (expr_ind' e) (expr_ind' a) (expr_ind' b)
  | ESeqIx e i => HSeqIx e i (expr_ind' e) (expr_ind' i)
  | ESubSeqInflate e a b => HInflate e a b (expr_ind' e) (expr_ind' a) (expr_ind' b)
  | EFlatMap f e => HFlatMap f e (expr_ind' f) (expr_ind' e)
  | EFlatMapAccum f z t e => HFlatMapAccum f z t e (expr_ind' f) (expr_ind' z) (expr_ind' e)
  | EFlatMapList f t e => HFlatMapList f t e (expr_ind' f) (expr_ind' e)
  | EFindByKey b k q e => HFind b k q e (expr_ind' k) (expr_ind' q) (expr_ind' e)
  | EEnumFromTo a b => HEnum a b (expr_ind' a) (expr_ind' b)
  | ELeftFold f z t e => HFold f z t e (expr_ind' f) (expr_ind' z) (expr_ind' e)
  | EDup n e => HDup n e (expr_ind' n) (expr_ind' e)
  | ELiftOption None => HNone
  | ELiftOption (Some e) => HSome e (expr_ind' e)
  | EAppend a b => HAppend a b (expr_ind' a) (expr_ind' b)
  end.
End ExprInd.

Section PatInd.
Context (P : pattern -> Prop).
Context
 (HB : forall x, P (PBinding x)) (HW : P PWildcard) (HBool : forall b, P (PBool b)) (HU : forall w n, P (PU w n))
 (HI : forall b, P (PInt b)) (HZ : forall z, P (PZConst z)) (HR : forall b, P (PZRange b)) (HC : forall c, P (PChar c))
 (HT : forall ps, Forall P ps -> P (PTuple ps)) (HV : forall l p, P p -> P (PVariant l p))
 (HS : forall ps, Forall P ps -> P (PSeq ps)) (HN : P (POption None)) (HSm : forall p, P p -> P (POption (Some p))).
Fixpoint pattern_ind' (p : pattern) : P p :=
  let go := fix go (es : list pattern) : Forall P es :=
    match es with [] => Forall_nil _ | e :: es' => Forall_cons e (pattern_ind' e) (go es') end in
  match p with
  | PBinding x => HB x | PWildcard => HW | PBool b => HBool b | PU w n => HU w n
  | PInt b => HI b | PZConst z => HZ z | PZRange b => HR b | PChar c => HC c
  | PTuple ps => HT ps (go ps) | PVariant l p => HV l p (pattern_ind' p)
  | PSeq ps => HS ps (go ps) | POption None => HN | POption (Some p) => HSm p (pattern_ind' p)
  end.
End PatInd.

Section ValueInd.
Context (P : value -> Prop).
Context
 (HBool : forall b, P (VBool b)) (HU : forall w n, P (VU w n)) (HC : forall c, P (VChar c)) (HUs : forall n, P (VUsize n))
 (HNum : forall c, P (VNumeric c)) (HView : forall o, P (VView o)) (HPh : P VPhantom)
 (HEnum : forall a b, P (VEnumFromTo a b)) (HN : P (VOption None)) (HSm : forall v, P v -> P (VOption (Some v)))
 (HT : forall vs, Forall P vs -> P (VTuple vs)) (HR : forall fs, Forall (fun f => P (snd f)) fs -> P (VRecord fs))
 (HV : forall l v, P v -> P (VVariant l v))
 (HSt : forall vs, Forall P vs -> P (VSeq (Strict vs))) (HD : forall n v, P v -> P (VSeq (Dup n v)))
 (HM : forall o v, P o -> P v -> P (VMapped o v)) (HBr : forall n v, P v -> P (VBranch n v))
 (HPO : forall v, P v -> P (VPermitOk v)) (HPN : P (VPermitErr None)) (HPE : forall v, P v -> P (VPermitErr (Some v))).
Fixpoint value_ind' (v : value) : P v :=
  let go := fix go (es : list value) : Forall P es :=
    match es with [] => Forall_nil _ | e :: es' => Forall_cons e (value_ind' e) (go es') end in
  let gor := fix gor (fs : list (label * value)) : Forall (fun f => P (snd f)) fs :=
    match fs with [] => Forall_nil _ | f :: fs' => Forall_cons f (value_ind' (snd f)) (gor fs') end in
  match v with
  | VBool b => HBool b | VU w n => HU w n | VChar c => HC c | VUsize n => HUs n | VNumeric c => HNum c
  | VView o => HView o | VPhantom => HPh | VEnumFromTo a b => HEnum a b
  | VOption None => HN | VOption (Some v) => HSm v (value_ind' v)
  | VTuple vs => HT vs (go vs) | VRecord fs => HR fs (gor fs) | VVariant l v => HV l v (value_ind' v)
  | VSeq (Strict vs) => HSt vs (go vs) | VSeq (Dup n v) => HD n v (value_ind' v)
  | VMapped o v => HM o v (value_ind' o) (value_ind' v) | VBranch n v => HBr n v (value_ind' v)
  | VPermitOk v => HPO v (value_ind' v) | VPermitErr None => HPN | VPermitErr (Some v) => HPE v (value_ind' v)
  end.
End ValueInd.

(** ** Lookup *)

Section Scopes.
Context {D : Type}.
Implicit Types s : scope D.

(** All bindings of a scope, the most recent first. *)
Inductive binding := BVal (v : value) | BDec (d : D) | BView (c : rctx).
Fixpoint bindings s : list (label * binding) :=
  match s with
  | SEmpty => []
  | SMulti p es => map (fun e => (fst e, match snd e with EntView c => BView c | EntVal v => BVal v end)) (rev es) ++ bindings p
  | SSingle p x v => (x, BVal v) :: bindings p
  | SDecoder p x d => (x, BDec d) :: bindings p
  | SView p x c => (x, BView c) :: bindings p
  end.
(** The first entry for [x] that [sel] accepts. *)
Fixpoint first_sel {A} (sel : binding -> option A) (x : label) (l : list (label * binding)) : option A :=
  match l with
  | [] => None
  | (y, b) :: l' => match (if N.eqb y x then sel b else None) with Some a => Some a | None => first_sel sel x l' end
  end.
Definition sel_val b := match b with BVal v => Some v | _ => None end.
Definition sel_dec b := match b with BDec v => Some v | _ => None end.
Definition sel_view b := match b with BView v => Some v | _ => None end.

Lemma first_sel_app {A} (sel : binding -> option A) x l1 l2 :
  first_sel sel x (l1 ++ l2) = match first_sel sel x l1 with Some a => Some a | None => first_sel sel x l2 end.
Proof. induction l1 as [|[y b] l1 IH]; cbn; [reflexivity|]. destruct (if N.eqb y x then sel b else None); auto. Qed.

Lemma first_sel_some {A} (sel : binding -> option A) x l a :
  first_sel sel x l = Some a <->
  exists newer b older, l = newer ++ (x, b) :: older /\ sel b = Some a /\
    (forall b', In (x, b') newer -> sel b' = None).
Proof.
  induction l as [|[y b] l IH]; cbn.
  - split; [discriminate|]. intros (nw & b & od & H & _). destruct nw; discriminate.
  - destruct (N.eqb_spec y x) as [->|Hne].
    + destruct (sel b) as [a'|] eqn:E.
      * split.
        -- intros [= ->]. exists [], b, l. repeat split; auto. intros ? [].
        -- intros (nw & b2 & od & H & H1 & H2). destruct nw as [|[z c] nw].
           ++ injection H as <- <-. congruence.
           ++ injection H as -> -> ->. rewrite (H2 c) in E by (left; reflexivity). discriminate.
      * rewrite IH. split.
        -- intros (nw & b2 & od & -> & H1 & H2). exists ((x, b) :: nw), b2, od. repeat split; auto.
           intros b' [[= <-]|H]; auto.
        -- intros (nw & b2 & od & H & H1 & H2). destruct nw as [|[z c] nw].
           ++ injection H as <- <-. congruence.
           ++ injection H as -> -> ->. exists nw, b2, od. repeat split; auto. intros. apply H2. now right.
    + rewrite IH. split.
      * intros (nw & b2 & od & -> & H1 & H2). exists ((y, b) :: nw), b2, od. repeat split; auto.
        intros b' [[= <- _]|H]; [congruence|auto].
      * intros (nw & b2 & od & H & H1 & H2). destruct nw as [|[z c] nw].
        -- injection H as <- <-. congruence.
        -- injection H as -> -> ->. exists nw, b2, od. repeat split; auto. intros. apply H2. now right.
Qed.
Lemma first_sel_none {A} (sel : binding -> option A) x l :
  first_sel sel x l = None <-> forall b, In (x, b) l -> sel b = None.
Proof.
  induction l as [|[y b] l IH]; cbn; [tauto|].
  destruct (N.eqb_spec y x) as [->|Hne].
  - destruct (sel b) eqn:E.
    + split; [discriminate|]. intros H. rewrite (H b) in E; [discriminate|auto].
    + rewrite IH. split; intros H b'; [intros [[= <-]|]|]; auto.
  - rewrite IH. split; intros H b'; [intros [[= -> _]|]|]; auto. congruence.
Qed.

Lemma scan_value_sel x es :
  scan_value x es = first_sel sel_val x (map (fun e => (fst e, match snd e with EntView c => BView c | EntVal v => BVal v end)) es).
Proof. induction es as [|[y [c|v]] es IH]; cbn; [reflexivity| |]; destruct (N.eqb y x); cbn; auto. Qed.
Lemma scan_view_sel x es :
  scan_view x es = first_sel sel_view x (map (fun e => (fst e, match snd e with EntView c => BView c | EntVal v => BVal v end)) es).
Proof. induction es as [|[y [c|v]] es IH]; cbn; [reflexivity| |]; destruct (N.eqb y x); cbn; auto. Qed.

Lemma get_value_sel x s : get_value x s = first_sel sel_val x (bindings s).
Proof.
  induction s as [|p IH es|p IH y v|p IH y d|p IH y c]; cbn; auto.
  - rewrite first_sel_app, scan_value_sel, IH. reflexivity.
  - destruct (N.eqb y x); auto.
  - destruct (N.eqb y x); auto.
  - destruct (N.eqb y x); auto.
Qed.
Lemma get_view_sel x s : get_view x s = first_sel sel_view x (bindings s).
Proof.
  induction s as [|p IH es|p IH y v|p IH y d|p IH y c]; cbn; auto.
  - rewrite first_sel_app, scan_view_sel, IH. reflexivity.
  - destruct (N.eqb y x); auto.
  - destruct (N.eqb y x); auto.
  - destruct (N.eqb y x); auto.
Qed.
Lemma get_decoder_sel x s : get_decoder x s = first_sel sel_dec x (bindings s).
Proof.
  induction s as [|p IH es|p IH y v|p IH y d|p IH y c]; cbn; auto.
  - rewrite first_sel_app, IH.
    match goal with |- _ = match ?o with _ => _ end => assert (E : o = None); [|now rewrite E] end.
    apply first_sel_none. intros b Hb. apply in_map_iff in Hb. destruct Hb as ([y [c|v]] & [= <- <-] & _); reflexivity.
  - destruct (N.eqb y x); auto.
  - destruct (N.eqb y x); auto.
  - destruct (N.eqb y x); auto.
Qed.
Lemma get_bindings_spec s :
  get_bindings s = map (fun b => (fst b, match snd b with BVal v => SEVal v | BDec d => SEDec d | BView c => SEView (roff c) end)) (bindings s).
Proof.
  induction s as [|p IH es|p IH y v|p IH y d|p IH y c]; cbn; try (now rewrite IH); [reflexivity|].
  rewrite map_app, map_map, IH. f_equal. apply map_ext. intros [y [c|v]]; reflexivity.
Qed.

Lemma get_value_multi s bs x :
  get_value x (SMulti s (map (fun b => (fst b, EntVal (snd b))) bs)) =
  match assoc x (rev bs) with Some v => Some v | None => get_value x s end.
Proof.
  cbn [get_value]. rewrite <- map_rev.
  replace (scan_value x (map _ (rev bs))) with (assoc x (rev bs)); [reflexivity|].
  induction (rev bs) as [|[y v] l IH]; cbn; [reflexivity|]. rewrite N.eqb_sym. destruct (N.eqb y x); auto.
Qed.
End Scopes.
Arguments binding D : clear implicits.

(** ** Pattern bindings *)

(** The names a pattern binds, in order. *)
Fixpoint pat_vars (p : pattern) : list label :=
  match p with
  | PBinding x => [x]
  | PTuple ps | PSeq ps => flat_map pat_vars ps
  | PVariant _ p' | POption (Some p') => pat_vars p'
  | _ => []
  end.

Lemma pat_shadows_in x p : pat_shadows x p = true <-> In x (pat_vars p).
Proof.
  induction p as [y| |b|w n|b|z|b|c|ps IH|l p IH|ps IH| |p IH] using pattern_ind'; cbn; try (split; [discriminate|tauto]); auto.
  - rewrite N.eqb_eq. tauto.
  - rewrite existsb_exists, in_flat_map. split; intros (p & H1 & H2); exists p; split; auto; rewrite Forall_forall in IH; now apply IH.
  - rewrite existsb_exists, in_flat_map. split; intros (p & H1 & H2); exists p; split; auto; rewrite Forall_forall in IH; now apply IH.
Qed.

Lemma match_list_acc ps vs :
  Forall (fun p => forall v acc, matches_inner p v acc = option_map (app acc) (matches_inner p v [])) ps ->
  forall acc, match_list matches_inner ps vs acc = option_map (app acc) (match_list matches_inner ps vs []).
Proof.
  revert vs. induction ps as [|p ps IH]; intros vs H acc; cbn; [now rewrite app_nil_r|].
  destruct vs as [|v vs]; [cbn; now rewrite app_nil_r|]. inversion H; subst.
  rewrite (H2 v acc). destruct (matches_inner p v []) as [b|]; cbn; [|reflexivity].
  rewrite (IH vs H3 (acc ++ b)), (IH vs H3 b). destruct (match_list matches_inner ps vs []); cbn; [|reflexivity].
  now rewrite app_assoc.
Qed.
Lemma matches_inner_acc p : forall v acc, matches_inner p v acc = option_map (app acc) (matches_inner p v []).
Proof.
  assert (W : forall (b : bool) (acc : binds), (if b then Some acc else None) = option_map (app acc) (if b then Some [] else None)).
  { intros [] acc; cbn; [now rewrite app_nil_r|reflexivity]. }
  assert (Z : forall (acc : binds), Some acc = option_map (app acc) (Some [])) by (intros; cbn; now rewrite app_nil_r).
  induction p as [y| |b|w n|b|z|b|c|ps IH|l p IH|ps IH| |p IH] using pattern_ind'; intros v acc; cbn [matches_inner].
  - reflexivity.
  - apply Z.
  - destruct v; try reflexivity. apply W.
  - destruct v; try reflexivity; apply W.
  - destruct v; try reflexivity; cbn [native_num]; apply W.
  - destruct v; try reflexivity; cbn [native_num]; apply W.
  - destruct v; try reflexivity; cbn [native_num]; apply W.
  - destruct v; try reflexivity. apply W.
  - destruct v; try reflexivity. destruct (Nat.eqb _ _); [|reflexivity]. now apply match_list_acc.
  - destruct v; try reflexivity. destruct (N.eqb _ _); [|reflexivity]. apply IH.
  - destruct v; try reflexivity. destruct (Nat.eqb _ _); [|reflexivity]. now apply match_list_acc.
  - destruct v as [| | | | | | | |[?|]| | | | | | | |]; try reflexivity. apply Z.
  - destruct v as [| | | | | | | |[?|]| | | | | | | |]; try reflexivity. apply IH.
Qed.

Lemma sk_to_list_length {A} (s : seqkind A) : length (sk_to_list s) = sk_len s.
Proof. destruct s; cbn; [reflexivity|apply repeat_length]. Qed.

Lemma match_list_vars ps : forall vs bs,
  Forall (fun p => forall v bs, matches_inner p v [] = Some bs -> map fst bs = pat_vars p) ps ->
  length ps = length vs -> match_list matches_inner ps vs [] = Some bs -> map fst bs = flat_map pat_vars ps.
Proof.
  induction ps as [|p ps IH]; intros [|v vs] bs H L E; cbn in *; try discriminate.
  - now injection E as <-.
  - inversion H; subst. destruct (matches_inner p v []) as [b|] eqn:E1; [|discriminate].
    rewrite match_list_acc in E by (apply Forall_forall; intros; apply matches_inner_acc).
    destruct (match_list matches_inner ps vs []) as [b2|] eqn:E2; [|discriminate]. injection E as <-.
    rewrite map_app, (H2 _ _ E1), (IH vs b2); auto.
Qed.
Lemma matches_inner_vars p : forall v bs, matches_inner p v [] = Some bs -> map fst bs = pat_vars p.
Proof.
  assert (W : forall (b : bool) bs, (if b then Some [] else None) = Some bs -> @map (label * value) label fst bs = []).
  { intros [] bs; [intros [= <-]; reflexivity|discriminate]. }
  induction p as [y| |b|w n|b|z|b|c|ps IH|l p IH|ps IH| |p IH] using pattern_ind'; intros v bs H; cbn [matches_inner pat_vars] in *.
  - now injection H as <-.
  - now injection H as <-.
  - destruct v; try discriminate. eapply W; eauto.
  - destruct v; try discriminate; eapply W; eauto.
  - destruct v; try discriminate; cbn [native_num] in H; eapply W; eauto.
  - destruct v; try discriminate; cbn [native_num] in H; eapply W; eauto.
  - destruct v; try discriminate; cbn [native_num] in H; eapply W; eauto.
  - destruct v; try discriminate. eapply W; eauto.
  - destruct v; try discriminate. destruct (Nat.eqb _ _) eqn:E; [|discriminate]. apply Nat.eqb_eq in E.
    eapply match_list_vars; eauto.
  - destruct v; try discriminate. destruct (N.eqb _ _); [|discriminate]. eauto.
  - destruct v; try discriminate. destruct (Nat.eqb _ _) eqn:E; [|discriminate]. apply Nat.eqb_eq in E.
    eapply match_list_vars; eauto. now rewrite sk_to_list_length.
  - destruct v as [| | | | | | | |[?|]| | | | | | | |]; try discriminate. now injection H as <-.
  - destruct v as [| | | | | | | |[?|]| | | | | | | |]; try discriminate. eauto.
Qed.

(** ** Free variables *)

Fixpoint free (x : label) (e : expr) {struct e} : Prop :=
  match e with
  | EVar y => y = x
  | ELambda y b => y <> x /\ free x b
  | EArith _ a b | EIntRel _ a b | EAppend a b | EDup a b | EEnumFromTo a b | ESeqIx a b
  | EFlatMap a b | EFlatMapList a _ b => free x a \/ free x b
  | EUnary _ a | ETupleProj a _ | ERecordProj a _ | EVariant _ a
  | EAs _ a | EAsChar a | EBytes _ _ a | ESeqLength a => free x a
  | EBool _ | EU _ _ => False
  | ENumeric n => In x (iter_vars n)
  | ETuple es | ESeq es => fold_right (fun e P => free x e \/ P) False es
  | ERecord fs => fold_right (fun f P => match f with (_, e) => free x e \/ P end) False fs
  | EMatch h bs =>
    free x h \/ fold_right (fun b P => match b with (p, e) => (~ In x (pat_vars p) /\ free x e) \/ P end) False bs
  | EDestructure h p b => free x h \/ (~ In x (pat_vars p) /\ free x b)
  | ESubSeq a b c | ESubSeqInflate a b c | EFlatMapAccum a b _ c | ELeftFold a b _ c
  | EFindByKey _ a b c => free x a \/ free x b \/ free x c
  | ELiftOption None => False
  | ELiftOption (Some a) => free x a
  end.

Lemma omapM_ext {A B} (f g : A -> outcome B) l : (forall x, In x l -> f x = g x) -> omapM f l = omapM g l.
Proof.
  induction l as [|x l IH]; intros H; cbn; [reflexivity|].
  rewrite H by (left; reflexivity). rewrite IH by (intros; apply H; now right). reflexivity.
Qed.
Lemma ofoldM_ext {A B} (f g : B -> A -> outcome B) l : (forall a x, f a x = g a x) -> forall acc, ofoldM f acc l = ofoldM g acc l.
Proof.
  intros H. induction l as [|x l IH]; intros acc; cbn; [reflexivity|]. rewrite H. destruct (g acc x); cbn; auto.
Qed.
Lemma obind_ext {A B} (x : outcome A) (f g : A -> outcome B) : (forall a, f a = g a) -> obind x f = obind x g.
Proof. intros H. destruct x; cbn; auto. Qed.
Lemma find_unsorted_ext {K V} (eqk : K -> outcome bool) (f g : V -> outcome K) l : (forall x, f x = g x) ->
  forall ix, find_unsorted eqk f ix l = find_unsorted eqk g ix l.
Proof.
  intros H. induction l as [|x l IH]; intros ix; cbn; [reflexivity|]. rewrite H.
  destruct (obind (g x) eqk) as [[]|]; auto.
Qed.
Lemma bsearch_ext {K} (cmp : K -> outcome comparison) f g : (forall i, f i = g i) ->
  forall n lo hi, bsearch cmp f n lo hi = bsearch cmp g n lo hi.
Proof.
  intros H n. induction n as [|n IH]; intros lo hi; cbn [bsearch]; [reflexivity|].
  rewrite H. destruct (hi <? lo); [reflexivity|].
  destruct (obind (g ((lo + hi) / 2)) cmp) as [[]|]; auto. destruct (_ =? 0); auto.
Qed.
Lemma find_sorted_ext {K} (cmp : K -> outcome comparison) f g n : (forall i, f i = g i) -> find_sorted cmp n f = find_sorted cmp n g.
Proof. intros H. unfold find_sorted. rewrite !H. rewrite (bsearch_ext cmp f g H). reflexivity. Qed.

(** Two scopes, possibly with different kinds of dynamic decoders, agreeing on
    the free variables of [e] give it the same value. *)
Definition agree_on {D1 D2} (P : label -> Prop) (s1 : scope D1) (s2 : scope D2) : Prop :=
  forall x, P x -> get_value x s1 = get_value x s2.

Lemma agree_single {D1 D2} (s1 : scope D1) (s2 : scope D2) P y v :
  agree_on (fun x => y <> x /\ P x) s1 s2 -> agree_on P (SSingle s1 y v) (SSingle s2 y v).
Proof. intros H x Hx. cbn. destruct (N.eqb_spec y x); [reflexivity|]. apply H. auto. Qed.

Lemma vmatches_agree {D1 D2} (s1 : scope D1) (s2 : scope D2) P v p :
  agree_on (fun x => ~ In x (pat_vars p) /\ P x) s1 s2 ->
  match vmatches v s1 p, vmatches v s2 p with
  | Some a, Some b => agree_on P a b
  | None, None => True
  | _, _ => False
  end.
Proof.
  intros H. unfold vmatches. destruct (matches_inner p (coerce_nominal v) []) as [bs|] eqn:E; cbn [option_map]; [|exact I].
  intros x Hx. rewrite !get_value_multi.
  destruct (assoc x (rev bs)) as [w|] eqn:E2; [reflexivity|]. apply H. split; [|exact Hx].
  rewrite <- (matches_inner_vars p _ _ E). intros Hin. apply in_map_iff in Hin. destruct Hin as ([y w] & <- & Hin).
  apply in_rev in Hin. cbn in E2. clear -Hin E2. induction (rev bs) as [|[z u] l IH]; [destruct Hin|].
  cbn in E2. destruct (N.eqb_spec y z); [discriminate|]. destruct Hin as [[= -> ->]|Hin]; [congruence|auto].
Qed.

Definition eval_agree (e : expr) : Prop :=
  forall D1 D2 (s1 : scope D1) (s2 : scope D2), agree_on (fun x => free x e) s1 s2 -> eval e s1 = eval e s2.

(** The induction carries the claim for the body of a lambda along. *)
Definition body_agree (e : expr) : Prop := forall x b, e = ELambda x b -> eval_agree b.


Lemma lambda_agree f : body_agree f ->
  forall D1 D2 (s1 : scope D1) (s2 : scope D2) arg, agree_on (fun x => free x f) s1 s2 ->
    match f with ELambda x body => omap coerce_mapped (eval body (SSingle s1 x arg)) | _ => Panic end =
    match f with ELambda x body => omap coerce_mapped (eval body (SSingle s2 x arg)) | _ => Panic end.
Proof.
  intros Hb D1 D2 s1 s2 arg H. destruct f; try reflexivity. f_equal. eapply Hb; [reflexivity|].
  apply agree_single. intros y Hy. apply H. cbn. tauto.
Qed.

Ltac lam f s1 s2 HA :=
  assert (L : forall arg,
      match f with ELambda x body => omap coerce_mapped (eval body (SSingle s1 x arg)) | _ => Panic end =
      match f with ELambda x body => omap coerce_mapped (eval body (SSingle s2 x arg)) | _ => Panic end)
    by (intros arg; apply lambda_agree; [assumption|]; intros y Hy; apply HA; cbn; tauto).

Lemma eval_free e : eval_agree e /\ body_agree e.
Proof.
  induction e using expr_ind'; (split; [|try (intros ? ? E; discriminate E)]);
    try (intros D1 D2 s1 s2 HA; cbn [eval]).
  all: repeat match goal with HP : eval_agree _ /\ body_agree _ |- _ => destruct HP end.
  all: try reflexivity.
  all: repeat match goal with
       | HA : agree_on _ ?s1 ?s2, HP : eval_agree ?e |- _ =>
         lazymatch goal with
         | HH : eval e s1 = eval e s2 |- _ => fail
         | HB : body_agree e |- _ =>
           assert (eval e s1 = eval e s2) by (apply HP; intros y Hy; apply HA; cbn; tauto)
         end
       end.
  all: repeat match goal with HH : eval ?e ?s1 = eval ?e ?s2 |- _ => rewrite ?HH; clear HH end.
  all: try reflexivity.
  - now rewrite (HA x).
  - f_equal. apply omapM_ext. intros e He. rewrite Forall_forall in H. f_equal. apply H; [exact He|].
    intros y Hy. apply HA. cbn. clear -He Hy. induction es; [destruct He|]. cbn. destruct He as [<-|He]; auto.
  - f_equal. apply omapM_ext. intros [l e] He. rewrite Forall_forall in H. f_equal. apply (H _ He).
    intros y Hy. apply HA. cbn. clear -He Hy. induction fs as [|[? ?] fs IH]; [destruct He|]. cbn. destruct He as [[= <- <-]|He]; auto.
  - f_equal. apply omapM_ext. intros e He. rewrite Forall_forall in H. f_equal. apply H; [exact He|].
    intros y Hy. apply HA. cbn. clear -He Hy. induction es; [destruct He|]. cbn. destruct He as [<-|He]; auto.
  - rewrite (neval_look_ext (num_look s1) (num_look s2)); [reflexivity|].
    intros y Hy. unfold num_look. now rewrite (HA y).
  - apply obind_ext. intros v.
    assert (HB : forall y, fold_right (fun b P => match b with (p, e) => (~ In y (pat_vars p) /\ free y e) \/ P end) False bs ->
             get_value y s1 = get_value y s2) by (intros y Hy; apply HA; cbn; tauto).
    clear HA. induction bs as [|[p b] bs IH]; [reflexivity|].
    match goal with HF : Forall _ (_ :: _) |- _ => apply Forall_cons_iff in HF; destruct HF as [HF1 HF2] end. cbn [snd] in *.
    pose proof (vmatches_agree s1 s2 (fun y => free y b) v p) as M.
    assert (HM : agree_on (fun y => ~ In y (pat_vars p) /\ free y b) s1 s2) by (intros y Hy; apply HB; cbn; tauto).
    specialize (M HM). destruct (vmatches v s1 p) as [a1|], (vmatches v s2 p) as [a2|]; try tauto.
    + f_equal. apply (proj1 HF1). exact M.
    + apply IH; [assumption|]. intros y Hy. apply HB. cbn. tauto.
  - apply obind_ext. intros v.
    pose proof (vmatches_agree s1 s2 (fun y => free y e2) v p) as M.
    assert (HM : agree_on (fun y => ~ In y (pat_vars p) /\ free y e2) s1 s2) by (intros y Hy; apply HA; cbn; tauto).
    specialize (M HM). destruct (vmatches v s1 p) as [a1|], (vmatches v s2 p) as [a2|]; try tauto.
    f_equal. match goal with HP : eval_agree e2 |- _ => apply HP end. exact M.
  - injection s1 as <- <-. intros a1 a2 Ha. match goal with HP : eval_agree e |- _ => apply HP end. exact Ha.
  - lam e1 s1 s2 HA. apply obind_ext; intros v. apply obind_ext; intros q. f_equal. apply omapM_ext. intros x _. now rewrite L.
  - lam e1 s1 s2 HA. apply obind_ext; intros v. apply obind_ext; intros q. apply obind_ext; intros z. f_equal.
    apply ofoldM_ext. intros a x. now rewrite L.
  - lam e1 s1 s2 HA. apply obind_ext; intros v. apply obind_ext; intros q. f_equal.
    apply ofoldM_ext. intros a x. now rewrite L.
  - lam e1 s1 s2 HA. apply obind_ext; intros v. apply obind_ext; intros q. apply obind_ext; intros z. destruct b.
    + rewrite (find_sorted_ext (compare_as_key z) _ (fun i => obind (sk_index q i)
        (fun x => match e1 with ELambda x0 body => omap coerce_mapped (eval body (SSingle s2 x0 x)) | _ => Panic end)));
        [reflexivity|]. intros i. apply obind_ext. exact L.
    + f_equal. apply find_unsorted_ext. exact L.
  - lam e1 s1 s2 HA. apply obind_ext; intros v. apply obind_ext; intros q. apply obind_ext; intros z.
    apply ofoldM_ext. intros a x. apply L.
Qed.

Lemma eval_ext {D1 D2} e (s1 : scope D1) (s2 : scope D2) :
  (forall x, free x e -> get_value x s1 = get_value x s2) -> eval e s1 = eval e s2.
Proof. intros H. now apply (proj1 (eval_free e)). Qed.

(** ** [is_shadowed_by] against free variables *)

(** No record inside [e] has a field called [x]. *)
Fixpoint no_field (x : label) (e : expr) {struct e} : Prop :=
  match e with
  | ERecord fs => fold_right (fun f P => match f with (l, e) => l <> x /\ no_field x e /\ P end) True fs
  | EVar _ | EBool _ | EU _ _ | ENumeric _ => True
  | ELambda _ a | EUnary _ a | ETupleProj a _ | ERecordProj a _ | EVariant _ a
  | EAs _ a | EAsChar a | EBytes _ _ a | ESeqLength a => no_field x a
  | EArith _ a b | EIntRel _ a b | EAppend a b | EDup a b | EEnumFromTo a b | ESeqIx a b
  | EFlatMap a b | EFlatMapList a _ b | EDestructure a _ b => no_field x a /\ no_field x b
  | ETuple es | ESeq es => fold_right (fun e P => no_field x e /\ P) True es
  | EMatch h bs => no_field x h /\ fold_right (fun b P => match b with (_, e) => no_field x e /\ P end) True bs
  | ESubSeq a b c | ESubSeqInflate a b c | EFlatMapAccum a b _ c | ELeftFold a b _ c
  | EFindByKey _ a b c => no_field x a /\ no_field x b /\ no_field x c
  | ELiftOption None => True
  | ELiftOption (Some a) => no_field x a
  end.

Lemma shadow_free x e : is_shadowed_by x e = true -> free x e.
Proof.
  induction e using expr_ind'; cbn [is_shadowed_by free]; intros H0; try discriminate;
    rewrite ?orb_true_iff in H0; try tauto.
  - now apply N.eqb_eq.
  - induction es as [|e es IH]; cbn in *; [discriminate|]. inversion H; subst. apply orb_true_iff in H0. tauto.
  - induction fs as [|[l e] fs IH]; cbn in *; [discriminate|]. inversion H; subst. cbn [snd] in *.
    destruct (is_shadowed_by x e); [left; auto|]. destruct (N.eqb l x); [discriminate|]. right. auto.
  - induction es as [|e es IH]; cbn in *; [discriminate|]. inversion H; subst. apply orb_true_iff in H0. tauto.
  - apply existsb_exists in H0. destruct H0 as (y & H1 & H2). apply N.eqb_eq in H2. now subst.
  - destruct H0 as [H0|H0]; [left; auto|]. right.
    induction bs as [|[p e2] bs IH]; cbn in *; [discriminate|]. inversion H; subst. cbn [snd] in *.
    apply orb_true_iff in H0. destruct H0 as [H0|H0]; [left|right; auto].
    apply andb_true_iff in H0. destruct H0 as [H1 H2]. split; [|auto].
    rewrite <- pat_shadows_in. apply negb_true_iff in H1. congruence.
  - destruct H0 as [H0|H0]; [left; auto|]. right. apply andb_true_iff in H0. destruct H0 as [H1 H2]. split; [|auto].
    rewrite <- pat_shadows_in. apply negb_true_iff in H1. congruence.
  - destruct (N.eqb_spec x0 x); [discriminate|]. auto.
Qed.

Lemma free_shadow x e : no_field x e -> free x e -> is_shadowed_by x e = true.
Proof.
  induction e using expr_ind'; cbn [is_shadowed_by free no_field]; intros Hn H0; try (now destruct H0);
    rewrite ?orb_true_iff; try tauto.
  - now apply N.eqb_eq.
  - induction es as [|e es IH]; cbn in *; [destruct H0|]. inversion H; subst. apply orb_true_iff. tauto.
  - induction fs as [|[l e] fs IH]; cbn in *; [destruct H0|]. inversion H; subst. cbn [snd] in *.
    destruct (is_shadowed_by x e) eqn:E; [reflexivity|]. destruct (N.eqb_spec l x); [tauto|].
    apply IH; try tauto. destruct H0 as [H0|H0]; [|exact H0]. assert (false = true) by tauto. discriminate.
  - induction es as [|e es IH]; cbn in *; [destruct H0|]. inversion H; subst. apply orb_true_iff. tauto.
  - apply existsb_exists. exists x. split; [exact H0|apply N.eqb_refl].
  - destruct Hn as [Hn1 Hn2]. destruct H0 as [H0|H0]; [left; auto|]. right. clear IHe Hn1.
    induction bs as [|[p e2] bs IH]; cbn in *; [destruct H0|]. inversion H; subst. cbn [snd] in *.
    apply orb_true_iff. destruct H0 as [[Ha Hb]|H0]; [left|right; apply IH; tauto].
    apply andb_true_iff. split; [|tauto]. rewrite <- pat_shadows_in in Ha. now destruct (pat_shadows x p).
  - destruct H0 as [H0|[Ha Hb]]; [left; tauto|]. right. apply andb_true_iff. split; [|tauto].
    rewrite <- pat_shadows_in in Ha. now destruct (pat_shadows x p).
  - destruct (N.eqb_spec x0 x); tauto.
Qed.

(** ** Wrappers *)

(** Remove every provenance wrapper, at every depth. *)
Fixpoint erase (v : value) : value :=
  match v with
  | VMapped _ v' | VBranch _ v' | VPermitOk v' | VPermitErr (Some v') => erase v'
  | VOption (Some v') => VOption (Some (erase v'))
  | VTuple vs => VTuple (map erase vs)
  | VRecord fs => VRecord (map (fun f => match f with (l, x) => (l, erase x) end) fs)
  | VVariant l v' => VVariant l (erase v')
  | VSeq (Strict vs) => VSeq (Strict (map erase vs))
  | VSeq (Dup n v') => VSeq (Dup n (erase v'))
  | v => v
  end.

Lemma coerce_nominal_idem v : coerce_nominal (coerce_nominal v) = coerce_nominal v.
Proof. induction v using value_ind'; cbn; auto. Qed.
Lemma erase_coerce v : erase (coerce_nominal v) = erase v.
Proof. induction v using value_ind'; cbn; auto. Qed.

(** Patterns that do not look below one constructor. *)
Definition flat (p : pattern) : Prop := match p with PBinding _ | PWildcard => True | _ => False end.
Definition shallow (p : pattern) : Prop :=
  match p with
  | PTuple ps | PSeq ps => Forall flat ps
  | PVariant _ p' | POption (Some p') => flat p'
  | _ => True
  end.
Definition erase_binds (bs : binds) : binds := map (fun b => (fst b, erase (snd b))) bs.

Lemma flat_erase p v acc : flat p -> option_map erase_binds (matches_inner p v acc) = matches_inner p (erase v) (erase_binds acc).
Proof.
  destruct p; cbn; intros Hf; try (now destruct Hf); try reflexivity. unfold erase_binds. now rewrite map_app.
Qed.
Lemma flat_list_erase ps : Forall flat ps -> forall vs acc,
  option_map erase_binds (match_list matches_inner ps vs acc) = match_list matches_inner ps (map erase vs) (erase_binds acc).
Proof.
  induction 1 as [|p ps Hp Hps IH]; intros [|v vs] acc; cbn; try reflexivity.
  rewrite <- flat_erase by exact Hp. destruct (matches_inner p v acc); cbn; auto.
Qed.
Lemma sk_erase s : exists s', erase (VSeq s) = VSeq s' /\ sk_len s' = sk_len s /\ sk_to_list s' = map erase (sk_to_list s).
Proof.
  destruct s as [l|n x]; cbn.
  - exists (Strict (map erase l)). cbn. rewrite map_length. auto.
  - exists (Dup n (erase x)). cbn. repeat split. induction n; cbn; [reflexivity|now f_equal].
Qed.
Lemma shallow_erase p v : shallow p ->
  option_map erase_binds (matches_inner p (coerce_nominal v) []) = matches_inner p (erase v) [].
Proof.
  intros Hp. rewrite <- (erase_coerce v).
  assert (Hc : coerce_nominal (coerce_nominal v) = coerce_nominal v) by apply coerce_nominal_idem.
  revert Hc. generalize (coerce_nominal v). clear v. intros v Hc.
  assert (W : forall (b : bool), option_map erase_binds (if b then Some [] else None) = (if b then Some [] else None)) by (intros []; reflexivity).
  assert (HW : forall o v', coerce_nominal v' = v -> v <> VMapped o v').
  { intros o v' E E2. subst v. cbn in Hc. clear -E2 Hc. assert (S : forall v, coerce_nominal v <> VMapped o v').
    { intros u. induction u using value_ind'; cbn; auto; try discriminate. } now apply (S v'). }
  assert (N1 : forall o v', v <> VMapped o v').
  { intros o v' ->. revert Hc. generalize v' at 1. intros v2. intros E. assert (S : forall u, coerce_nominal u <> VMapped o v').
    { intros u. induction u using value_ind'; cbn; auto; try discriminate. } exact (S _ E). }
  assert (N2 : forall n v', v <> VBranch n v').
  { intros o v' ->. assert (S : forall u, coerce_nominal u <> VBranch o v').
    { intros u. induction u using value_ind'; cbn; auto; try discriminate. } exact (S _ Hc). }
  assert (N3 : forall v', v <> VPermitOk v').
  { intros v' ->. assert (S : forall u, coerce_nominal u <> VPermitOk v').
    { intros u. induction u using value_ind'; cbn; auto; try discriminate. } exact (S _ Hc). }
  assert (N4 : forall v', v <> VPermitErr (Some v')).
  { intros v' ->. assert (S : forall u, coerce_nominal u <> VPermitErr (Some v')).
    { intros u. induction u using value_ind'; cbn; auto; try discriminate. } exact (S _ Hc). }
  assert (E : match v with VMapped _ _ | VBranch _ _ | VPermitOk _ | VPermitErr (Some _) => False | _ => True end).
  { destruct v as [| | | | | | | | | | | | | | | |[?|]]; try exact I; [apply (N1 _ _ eq_refl)|apply (N2 _ _ eq_refl)|apply (N3 _ eq_refl)|apply (N4 _ eq_refl)]. }
  clear Hc HW N1 N2 N3 N4.
  destruct p as [y| |b|w n|b|z|b|c|ps|l p|ps|[p|]]; cbn [shallow] in Hp.
  - reflexivity.
  - reflexivity.
  - destruct v as [| | | | | | | |[?|]| | | |[]| | | |[?|]]; try destruct E; try reflexivity. apply W.
  - destruct v as [| | | | | | | |[?|]| | | |[]| | | |[?|]]; try destruct E; try reflexivity; cbn; apply W.
  - destruct v as [| | | | | | | |[?|]| | | |[]| | | |[?|]]; try destruct E; try reflexivity; cbn; apply W.
  - destruct v as [| | | | | | | |[?|]| | | |[]| | | |[?|]]; try destruct E; try reflexivity; cbn; apply W.
  - destruct v as [| | | | | | | |[?|]| | | |[]| | | |[?|]]; try destruct E; try reflexivity; cbn; apply W.
  - destruct v as [| | | | | | | |[?|]| | | |[]| | | |[?|]]; try destruct E; try reflexivity; cbn; apply W.
  - destruct v as [| | | | | | | |[?|]| | | |[]| | | |[?|]]; try destruct E; try reflexivity. cbn [matches_inner erase].
    rewrite map_length. destruct (Nat.eqb _ _); [|reflexivity]. now rewrite flat_list_erase.
  - destruct v as [| | | | | | | |[?|]| | | |[]| | | |[?|]]; try destruct E; try reflexivity. cbn [matches_inner erase].
    destruct (N.eqb _ _); [|reflexivity]. now rewrite flat_erase.
  - destruct v as [| | | | | | | |[?|]| | | |sq| | | |[?|]]; try destruct E; try reflexivity.
    destruct (sk_erase sq) as (s' & E1 & E2 & E3). rewrite E1. cbn [matches_inner]. rewrite E2, E3.
    destruct (Nat.eqb _ _); [|reflexivity]. now rewrite flat_list_erase.
  - destruct v as [| | | | | | | |[?|]| | | |[]| | | |[?|]]; try destruct E; try reflexivity. cbn [matches_inner erase].
    now rewrite flat_erase.
  - destruct v as [| | | | | | | |[?|]| | | |[]| | | |[?|]]; try destruct E; reflexivity.
Qed.

(** ** Declarative matching *)

Definition num_of (v : value) : option Z :=
  match v with VU _ n | VUsize n => Some (Z.of_N n) | VNumeric c => Some (tc_val c) | _ => None end.

Inductive Matches : pattern -> value -> binds -> Prop :=
| MBinding x v : Matches (PBinding x) v [(x, v)]
| MWildcard v : Matches PWildcard v []
| MBool b : Matches (PBool b) (VBool b) []
| MU w n : Matches (PU w n) (VU w n) []
| MUNum w n : Matches (PU w n) (VNumeric (TC (Z.of_N n) (Concrete (MR false w)))) []
| MInt b v z : num_of v = Some z -> (Z.of_N (bmin b) <= z)%Z -> (forall m, bmax b = Some m -> z <= Z.of_N m)%Z ->
    Matches (PInt b) v []
| MZConst z v : num_of v = Some z -> Matches (PZConst z) v []
| MZRange b v z : num_of v = Some z -> (zmin b <= z <= zmax b)%Z -> Matches (PZRange b) v []
| MChar c : Matches (PChar c) (VChar c) []
| MTuple ps vs bss : Forall3 ps vs bss -> Matches (PTuple ps) (VTuple vs) (concat bss)
| MVariant l p v bs : Matches p v bs -> Matches (PVariant l p) (VVariant l v) bs
| MSeq ps s bss : Forall3 ps (sk_to_list s) bss -> Matches (PSeq ps) (VSeq s) (concat bss)
| MNone : Matches (POption None) (VOption None) []
| MSome p v bs : Matches p v bs -> Matches (POption (Some p)) (VOption (Some v)) bs
with Forall3 : list pattern -> list value -> list binds -> Prop :=
| F3nil : Forall3 [] [] []
| F3cons p ps v vs b bss : Matches p v b -> Forall3 ps vs bss -> Forall3 (p :: ps) (v :: vs) (b :: bss).

Lemma Forall3_length ps vs bss : Forall3 ps vs bss -> length ps = length vs.
Proof. revert vs bss. induction ps; inversion 1; subst; cbn; eauto. Qed.

Lemma when_some (b : bool) (acc bs : binds) : (if b then Some acc else None) = Some bs <-> b = true /\ bs = acc.
Proof. destruct b; split; intros H; try discriminate; try (destruct H; discriminate); [injection H as <-; auto|destruct H as [_ ->]; reflexivity]. Qed.

Lemma match_list_iff ps : Forall (fun p => forall v bs, matches_inner p v [] = Some bs <-> Matches p v bs) ps ->
  forall vs bs, length ps = length vs ->
    (match_list matches_inner ps vs [] = Some bs <-> exists bss, Forall3 ps vs bss /\ bs = concat bss).
Proof.
  induction 1 as [|p ps Hp Hps IH]; intros [|v vs] bs L; cbn in L; try discriminate; cbn [match_list].
  - split.
    + intros [= <-]. exists []. split; [constructor|reflexivity].
    + intros (bss & H & ->). inversion H. reflexivity.
  - destruct (matches_inner p v []) as [b|] eqn:E.
    + rewrite match_list_acc by (apply Forall_forall; intros; apply matches_inner_acc). split.
      * destruct (match_list matches_inner ps vs []) as [b2|] eqn:E2; cbn; [|discriminate]. intros [= <-].
        apply IH in E2; [|lia]. destruct E2 as (bss & H1 & ->). exists (b :: bss). split; [|reflexivity].
        constructor; auto. now apply Hp.
      * intros (bss & H1 & ->). inversion H1; subst.
        assert (E2 : match_list matches_inner ps vs [] = Some (concat bss0)) by (apply IH; [lia|eauto]).
        rewrite E2. cbn. match goal with HM : Matches _ _ _ |- _ => apply Hp in HM; rewrite E in HM; injection HM as <- end. reflexivity.
    + split; [discriminate|]. intros (bss & H1 & ->). inversion H1; subst. match goal with HM : Matches _ _ _ |- _ => apply Hp in HM end. congruence.
Qed.

Lemma bw_eqb_eq a b : bw_eqb a b = true <-> a = b.
Proof. destruct a, b; cbn; split; congruence. Qed.

Lemma bcontains_iff b n : bcontains b n = true <-> (Z.of_N (bmin b) <= Z.of_N n)%Z /\ (forall m, bmax b = Some m -> Z.of_N n <= Z.of_N m)%Z.
Proof.
  rewrite contains_spec. split; intros [H1 H2]; split; try lia; intros m E; specialize (H2 _ E); lia.
Qed.
Lemma falls_within_iff c b : falls_within c b = true <-> (Z.of_N (bmin b) <= tc_val c)%Z /\ (forall m, bmax b = Some m -> tc_val c <= Z.of_N m)%Z.
Proof.
  unfold falls_within. destruct (Z.ltb_spec (tc_val c) 0).
  - split; [discriminate|]. intros [H1 _]. lia.
  - rewrite andb_true_iff. destruct (bmax b) as [m|].
    + split; intros [H1 H2]; (split; [lia|]).
      * intros m' [= <-]. lia.
      * specialize (H2 m eq_refl). lia.
    + split; intros [H1 H2]; (split; [lia|]); [discriminate|reflexivity].
Qed.
Lemma zb_contains_iff b z : zb_contains b z = true <-> (zmin b <= z <= zmax b)%Z.
Proof. unfold zb_contains. lia. Qed.

Lemma matches_iff p : forall v bs, matches_inner p v [] = Some bs <-> Matches p v bs.
Proof.
  induction p as [y| |b|w n|b|z|b|c|ps IH|l p IH|ps IH| |p IH] using pattern_ind'; intros v bs; cbn [matches_inner].
  - split; [intros [= <-]; constructor|inversion 1; reflexivity].
  - split; [intros [= <-]; constructor|inversion 1; reflexivity].
  - destruct v; try (split; [discriminate|inversion 1]). rewrite when_some. split.
    + intros [H ->]. apply eqb_prop in H. subst. constructor.
    + inversion 1; subst. split; [apply eqb_reflx|reflexivity].
  - destruct v; try (split; [discriminate|inversion 1]); rewrite when_some.
    + split.
      * intros [H ->]. apply andb_true_iff in H. destruct H as [H1 H2]. apply bw_eqb_eq in H1. apply N.eqb_eq in H2. subst. constructor.
      * inversion 1; subst. split; [|reflexivity]. rewrite N.eqb_refl, (proj2 (bw_eqb_eq _ _) eq_refl). reflexivity.
    + unfold pat_matches. split.
      * intros [H ->]. apply andb_true_iff in H. destruct H as [H1 H2]. apply numrep_eqb_eq in H1. apply Z.eqb_eq in H2.
        destruct c as [zz rr]; cbn in *. subst. constructor.
      * inversion 1; subst. cbn [tc_rep tc_val]. rewrite (proj2 (numrep_eqb_eq _ _) eq_refl), Z.eqb_refl. auto.
  - destruct v; try (split; [discriminate|inversion 1; subst; discriminate]); cbn [native_num]; rewrite when_some.
    + rewrite bcontains_iff. split; [intros [[H1 H2] ->]; econstructor; [reflexivity| |]; auto|].
      inversion 1; subst. cbn in *. injection H1 as <-. auto.
    + rewrite bcontains_iff. split; [intros [[H1 H2] ->]; econstructor; [reflexivity| |]; auto|].
      inversion 1; subst. cbn in *. injection H1 as <-. auto.
    + rewrite falls_within_iff. split; [intros [[H1 H2] ->]; econstructor; [reflexivity| |]; auto|].
      inversion 1; subst. cbn in *. injection H1 as <-. auto.
  - destruct v; try (split; [discriminate|inversion 1; subst; discriminate]); cbn [native_num]; rewrite when_some, Z.eqb_eq.
    + split; [intros [H1 ->]; constructor; cbn; congruence|]. inversion 1; subst. cbn in *. split; congruence.
    + split; [intros [H1 ->]; constructor; cbn; congruence|]. inversion 1; subst. cbn in *. split; congruence.
    + split; [intros [H1 ->]; constructor; cbn; congruence|]. inversion 1; subst. cbn in *. split; congruence.
  - destruct v; try (split; [discriminate|inversion 1; subst; discriminate]); cbn [native_num]; rewrite when_some, zb_contains_iff.
    + split; [intros [H1 ->]; econstructor; [reflexivity|auto]|]. inversion 1; subst. cbn in *. injection H1 as <-. auto.
    + split; [intros [H1 ->]; econstructor; [reflexivity|auto]|]. inversion 1; subst. cbn in *. injection H1 as <-. auto.
    + split; [intros [H1 ->]; econstructor; [reflexivity|auto]|]. inversion 1; subst. cbn in *. injection H1 as <-. auto.
  - destruct v; try (split; [discriminate|inversion 1]). rewrite when_some, N.eqb_eq. split.
    + intros [-> ->]. constructor.
    + inversion 1; subst. auto.
  - destruct v; try (split; [discriminate|inversion 1]). destruct (Nat.eqb_spec (length ps) (length vs)) as [L|L].
    + rewrite match_list_iff by assumption. split; [intros (bss & H & ->); now constructor|]. inversion 1; subst; eauto.
    + split; [discriminate|]. inversion 1; subst. exfalso. apply L. eapply Forall3_length; eassumption.
  - destruct v; try (split; [discriminate|inversion 1]). destruct (N.eqb_spec l l0) as [->|L].
    + rewrite IH. split; [now constructor|]. inversion 1; subst; auto.
    + split; [discriminate|]. inversion 1; subst. congruence.
  - destruct v; try (split; [discriminate|inversion 1]). destruct (Nat.eqb_spec (length ps) (sk_len s)) as [L|L].
    + rewrite match_list_iff; [|assumption|now rewrite sk_to_list_length]. split; [intros (bss & H & ->); now constructor|]. inversion 1; subst; eauto.
    + split; [discriminate|]. inversion 1; subst. exfalso. apply L. rewrite <- sk_to_list_length. eapply Forall3_length; eassumption.
  - destruct v as [| | | | | | | |[?|]| | | | | | | |]; try (split; [discriminate|inversion 1]).
    split; [intros [= <-]; constructor|inversion 1; reflexivity].
  - destruct v as [| | | | | | | |[?|]| | | | | | | |]; try (split; [discriminate|inversion 1]).
    rewrite IH. split; [now constructor|]. inversion 1; subst; auto.
Qed.

(** ** Static bounds *)

(** The number an evaluated expression is used as (a count, size or offset). *)
Definition evaluates_to {D} (e : expr) (s : scope D) (n : N) : Prop :=
  exists v, eval e s = Val v /\ unwrap_usize (coerce_mapped v) = Val n.

Lemma coerce_mapped_idem v : coerce_mapped (coerce_mapped v) = coerce_mapped v.
Proof. induction v using value_ind'; cbn; auto. Qed.

(** What the bit operators need for their bounds to be right. *)
Fixpoint tame {D} (e : expr) (s : scope D) : Prop :=
  match e with
  | EAs _ a => tame a s
  | EUnary _ a => tame a s
  | EArith op a b =>
    tame a s /\ tame b s /\
    match op with
    | AShr => forall y, evaluates_to b s y -> (y < 2 ^ 32)%N
    | AShl =>
      (forall x y w, eval_value a s = Val (VU w x) -> eval_value b s = Val (VU w y) -> (x * 2 ^ y < modulus w /\ y < 2 ^ 32)%N) /\
      (forall x y, eval_value a s = Val (VUsize x) -> eval_value b s = Val (VUsize y) -> (x * 2 ^ y < w64 /\ y < 2 ^ 32)%N) /\
      (forall ba bb m1 m2, expr_bounds a = Val ba -> expr_bounds b = Val bb -> bmax ba = Some m1 -> bmax bb = Some m2 ->
         (m1 * 2 ^ m2 < w64)%N)
    | ABitOr => forall ba bb, expr_bounds a = Val ba -> expr_bounds b = Val bb -> small ba /\ small bb
    | ABitAnd => forall ba bb, expr_bounds a = Val ba -> expr_bounds b = Val bb ->
        small ba /\ small bb /\ (as_exact ba = None <-> as_exact bb = None)
    | _ => True
    end
  | _ => True
  end.

Lemma modulus_le w : (modulus w <= w64)%N.
Proof. destruct w; vm_compute; congruence. Qed.
Lemma nbits_le w : (nbits w <= 64)%N.
Proof. destruct w; vm_compute; congruence. Qed.

Lemma arith_apply_bounds w op x y z ba bb r :
  arith_apply w op x y = Val z -> within ba x -> within bb y ->
  (op = AShr -> (y < 2 ^ 32)%N) ->
  (op = AShl -> (x * 2 ^ y < modulus w)%N /\ (y < 2 ^ 32)%N /\
     forall m1 m2, bmax ba = Some m1 -> bmax bb = Some m2 -> (m1 * 2 ^ m2 < w64)%N) ->
  (op = ABitOr -> small ba /\ small bb) ->
  (op = ABitAnd -> small ba /\ small bb /\ (as_exact ba = None <-> as_exact bb = None)) ->
  match op with
  | AAdd => Val (badd ba bb) | ASub => Val (bsub ba bb) | AMul => Val (bmul ba bb) | ADiv => Val (bdiv ba bb)
  | ABitOr => bbitor ba bb | ABitAnd => bbitand ba bb | AShl => Val (bshl ba bb) | AShr => Val (bshr ba bb)
  | _ => brem ba bb end = Val r -> within r z.
Proof.
  intros H Ha Hb Hshr Hshl Hor Hand Hr.
  destruct (arith_sound ba bb x y Ha Hb) as (A1 & A2 & A3 & A4 & A5 & A6).
  pose proof (modulus_le w) as Hm. pose proof (nbits_le w) as Hn.
  destruct op; cbn [arith_apply] in H; try discriminate; unfold fit in H.
  - destruct (N.ltb_spec (x + y) (modulus w)); [|discriminate]. injection H as <-. injection Hr as <-. apply A1. lia.
  - destruct (N.leb y x); [|discriminate]. injection H as <-. injection Hr as <-. exact A2.
  - destruct (N.ltb_spec (x * y) (modulus w)); [|discriminate]. injection H as <-. injection Hr as <-. apply A3.
    eapply N.lt_le_trans; eassumption.
  - destruct (N.eqb_spec y 0); [discriminate|]. injection H as <-. injection Hr as <-. now apply A4.
  - destruct (N.eqb_spec y 0); [discriminate|]. injection H as <-. destruct (A5 n) as (r' & E & Hw). congruence.
  - injection H as <-. destruct (Hand eq_refl) as (S1 & S2 & S3).
    destruct (bbitand_sound ba bb x y S1 S2 S3 Ha Hb) as (r' & E & Hw). congruence.
  - injection H as <-. destruct (Hor eq_refl) as (S1 & S2).
    destruct (bbitor_sound ba bb x y S1 S2 Ha Hb) as (r' & E & Hw). congruence.
  - destruct (Hshl eq_refl) as (S1 & S2 & S3). unfold as_u32 in H. change (2 ^ 32)%N with 4294967296%N in S2.
    rewrite (N.mod_small y) in H by exact S2. destruct (N.ltb_spec y (nbits w)) as [L|L]; [|discriminate].
    injection H as <-. injection Hr as <-. rewrite N.shiftl_mul_pow2, N.mod_small by exact S1.
    apply bshl_sound; auto; [eapply N.lt_le_trans; eassumption|eapply N.lt_le_trans; eassumption].
  - specialize (Hshr eq_refl). unfold as_u32 in H. change (2 ^ 32)%N with 4294967296%N in Hshr.
    rewrite (N.mod_small y) in H by exact Hshr. destruct (N.ltb_spec y (nbits w)) as [L|L]; [|discriminate].
    injection H as <-. injection Hr as <-. rewrite N.shiftr_div_pow2. exact A6.
Qed.

Lemma ev_to {D} e (s : scope D) v n : eval_value e s = Val v -> unwrap_usize v = Val n -> evaluates_to e s n.
Proof.
  unfold eval_value, evaluates_to. destruct (eval e s) as [v'|]; cbn [omap]; [|discriminate].
  intros [= <-] H. eauto.
Qed.

Lemma expr_bounds_sound {D} e (s : scope D) : forall n b,
  tame e s -> evaluates_to e s n -> expr_bounds e = Val b -> within b n.
Proof.
  induction e using expr_ind'; intros m bd Ht (v & Hev & Hn) Hb;
    cbn [expr_bounds] in Hb; try (injection Hb as <-; apply within_any).
  - cbn [eval] in Hev. injection Hev as <-. cbn in Hn. injection Hn as <-. injection Hb as <-. split; cbn; lia.
  - (* ENumeric *)
    cbn [eval] in Hev. destruct (neval (num_look s) n) as [c|?|] eqn:En; try discriminate. injection Hev as <-.
    cbn [coerce_mapped unwrap_usize] in Hn. destruct (tc_as_usize c) as [k|] eqn:Ek; [|discriminate]. injection Hn as <-.
    pose proof (strict_agrees void_look n) as A.
    destruct (neval_strict void_look n) as [[c' [|]]|?|]; try discriminate; try (injection Hb as <-; apply within_any).
    apply (neval_void (num_look s)) in A. rewrite A in En. injection En as ->. rewrite Ek in Hb. injection Hb as <-.
    split; cbn; lia.
  - (* EArith *)
    destruct Ht as (T1 & T2 & T3). cbn [eval] in Hev. fold (eval_value e1 s) in Hev. fold (eval_value e2 s) in Hev.
    destruct (eval_value e1 s) as [v1|] eqn:E1; [|discriminate]. cbn [obind] in Hev.
    destruct (eval_value e2 s) as [v2|] eqn:E2; [|discriminate]. cbn [obind] in Hev.
    assert (Hbool : (op = ABoolOr \/ op = ABoolAnd) \/ op <> ABoolOr /\ op <> ABoolAnd) by (destruct op; intuition congruence).
    destruct Hbool as [[-> | ->]|[N1 N2]]; [injection Hb as <-; apply within_any|injection Hb as <-; apply within_any|].
    assert (Hb' : obind (expr_bounds e1) (fun x => obind (expr_bounds e2) (fun y =>
       match op with
        | AAdd => Val (badd x y) | ASub => Val (bsub x y) | AMul => Val (bmul x y) | ADiv => Val (bdiv x y)
        | ABitOr => bbitor x y | ABitAnd => bbitand x y | AShl => Val (bshl x y) | AShr => Val (bshr x y)
        | _ => brem x y end)) = Val bd) by (destruct op; congruence). clear Hb.
    destruct (expr_bounds e1) as [b1|] eqn:B1; [|discriminate]. cbn [obind] in Hb'.
    destruct (expr_bounds e2) as [b2|] eqn:B2; [|discriminate]. cbn [obind] in Hb'.
    assert (Hev' : match v1, v2 with
      | VU wl a, VU wr b => if bw_eqb wl wr then omap (VU wl) (arith_apply wl op a b) else Panic
      | VUsize a, VUsize b => omap VUsize (arith_apply B64 op a b)
      | _, _ => Panic end = Val v) by (destruct op; cbn [value_arith] in Hev; congruence). clear Hev.
    destruct v1 as [|w1 x| |x| | | | | | | | | | | | |]; try discriminate;
    destruct v2 as [|w2 y| |y| | | | | | | | | | | | |]; try discriminate.
    + destruct (bw_eqb w1 w2) eqn:Ew; [|discriminate]. apply bw_eqb_eq in Ew. subst w2.
      destruct (arith_apply w1 op x y) as [z|] eqn:Ea; [|discriminate]. injection Hev' as <-. injection Hn as <-.
      assert (V1 : evaluates_to e1 s x) by (eapply ev_to; [exact E1|reflexivity]).
      assert (V2 : evaluates_to e2 s y) by (eapply ev_to; [exact E2|reflexivity]).
      eapply (arith_apply_bounds w1 op x y z b1 b2 bd Ea); [now apply IHe1|now apply IHe2| | | | |exact Hb'].
      * intros ->. now apply T3.
      * intros ->. destruct T3 as (T3 & _ & T4). destruct (T3 x y w1 eq_refl eq_refl). eauto.
      * intros ->. now apply T3.
      * intros ->. now apply T3.
    + destruct (arith_apply B64 op x y) as [z|] eqn:Ea; [|discriminate]. injection Hev' as <-. injection Hn as <-.
      assert (V1 : evaluates_to e1 s x) by (eapply ev_to; [exact E1|reflexivity]).
      assert (V2 : evaluates_to e2 s y) by (eapply ev_to; [exact E2|reflexivity]).
      eapply (arith_apply_bounds B64 op x y z b1 b2 bd Ea); [now apply IHe1|now apply IHe2| | | | |exact Hb'].
      * intros ->. now apply T3.
      * intros ->. destruct T3 as (_ & T3 & T4). destruct (T3 x y eq_refl eq_refl). eauto.
      * intros ->. now apply T3.
      * intros ->. now apply T3.
  - (* EUnary *)
    cbn [eval] in Hev. fold (eval_value e s) in Hev.
    destruct (eval_value e s) as [v1|] eqn:E1; [|discriminate]. cbn [obind] in Hev.
    destruct op; [injection Hb as <-; apply within_any| |];
      (destruct (expr_bounds e) as [b1|] eqn:B1; [|discriminate]); cbn [omap] in Hb; injection Hb as <-;
      destruct v1 as [|w1 x| |x| | | | | | | | | | | | |]; try discriminate; cbn [value_unary] in Hev.
    + destruct (unary_apply w1 UIntSucc x) as [z|] eqn:Eu; [|discriminate]. injection Hev as <-. injection Hn as <-.
      cbn in Eu. unfold fit in Eu. destruct (N.ltb_spec (x + 1) (modulus w1)); [|discriminate]. injection Eu as <-.
      pose proof (modulus_le w1). apply badd_sound; [|split; cbn; lia|lia].
      apply IHe; auto. eapply ev_to; [exact E1|reflexivity].
    + destruct (unary_apply B64 UIntSucc x) as [z|] eqn:Eu; [|discriminate]. injection Hev as <-. injection Hn as <-.
      cbn [unary_apply] in Eu. unfold fit in Eu. destruct (N.ltb_spec (x + 1) (modulus B64)); [|discriminate]. injection Eu as <-.
      pose proof (modulus_le B64). apply badd_sound; [|split; cbn; lia|lia].
      apply IHe; auto. eapply ev_to; [exact E1|reflexivity].
    + destruct (unary_apply w1 UIntPred x) as [z|] eqn:Eu; [|discriminate]. injection Hev as <-. injection Hn as <-.
      cbn in Eu. destruct (N.eqb_spec x 0); [discriminate|]. injection Eu as <-.
      apply bsub_sound; [|split; cbn; lia].
      apply IHe; auto. eapply ev_to; [exact E1|reflexivity].
    + destruct (unary_apply B64 UIntPred x) as [z|] eqn:Eu; [|discriminate]. injection Hev as <-. injection Hn as <-.
      cbn in Eu. destruct (N.eqb_spec x 0); [discriminate|]. injection Eu as <-.
      apply bsub_sound; [|split; cbn; lia].
      apply IHe; auto. eapply ev_to; [exact E1|reflexivity].
  - (* EAs *)
    cbn [eval] in Hev. fold (eval_value e s) in Hev.
    destruct (eval_value e s) as [v1|] eqn:E1; [|discriminate]. cbn [obind] in Hev.
    destruct (expr_bounds e) as [b1|] eqn:B1; [|discriminate]. cbn [obind] in Hb.
    destruct (bclamp_sound b1 0 (modulus w - 1)) as (r & Er & Hr); [lia|]. rewrite Er in Hb. cbn [omap] in Hb. injection Hb as <-.
    assert (Hx : exists x, unwrap_usize v1 = Val x /\ fit w x = Val x /\ m = x).
    { destruct v1 as [|w1 x| |x| | | | | | | | | | | | |]; try discriminate; cbn [value_as] in Hev;
        unfold fit in *; exists x; destruct (N.ltb x (modulus w)); try discriminate; cbn in Hev; injection Hev as <-;
        injection Hn as <-; auto. }
    destruct Hx as (x & Hx1 & Hx2 & ->). unfold fit in Hx2. destruct (N.ltb_spec x (modulus w)); [|discriminate].
    assert (within b1 x) by (apply IHe; auto; eapply ev_to; eauto).
    destruct (proj1 (Hr x)) as (c & -> & Hc); [split; [lia|assumption]|]. exact Hc.
Qed.
