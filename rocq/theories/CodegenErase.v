(** Evaluation does not see the wrappers of values: an expression has, on the values
    of the generated code, the value of the interpreter without its wrappers. *)
From Coq Require Import String.
From Verif Require Import Base BoundsModel DataModel NumericModel NumericProofs ValueModel ValueProofs FormatModel
  MatchTreeModel DecoderModel ParserModel ProgModel RecordModel CodegenModel CodegenSpec.
Open Scope nat_scope.

(** Whenever [x] has a value, [y] has a related one. *)
Definition orel {A B} (R : A -> B -> Prop) (x : outcome A) (y : outcome B) : Prop :=
  forall a, x = Val a -> exists b, y = Val b /\ R a b.

Lemma orel_val {A B} (R : A -> B -> Prop) a b : R a b -> orel R (Val a) (Val b).
Proof. intros H x E. injection E as <-. eauto. Qed.
Lemma orel_panic {A B} (R : A -> B -> Prop) y : orel R Panic y.
Proof. intros x E. discriminate. Qed.
Lemma orel_bind {A B A' B'} (R : A -> B -> Prop) (R' : A' -> B' -> Prop) x y f g :
  orel R x y -> (forall a b, R a b -> orel R' (f a) (g b)) -> orel R' (obind x f) (obind y g).
Proof.
  intros H K a E. destruct x as [v|]; [|discriminate]. destruct (H v eq_refl) as (w & -> & Hw). exact (K v w Hw a E).
Qed.
Lemma orel_map {A B A' B'} (R : A -> B -> Prop) (R' : A' -> B' -> Prop) x y f g :
  orel R x y -> (forall a b, R a b -> R' (f a) (g b)) -> orel R' (omap f x) (omap g y).
Proof.
  intros H K. destruct x as [v|]; [|apply orel_panic]. destruct (H v eq_refl) as (w & -> & Hw). apply orel_val. auto.
Qed.
Lemma orel_mapM {A B A' B'} (S : A -> B -> Prop) (R : A' -> B' -> Prop) f g l m :
  Forall2 S l m -> (forall a b, In a l -> S a b -> orel R (f a) (g b)) -> orel (Forall2 R) (omapM f l) (omapM g m).
Proof.
  induction 1 as [|a b l m Hab Hl IH]; intros K; simpl; [apply orel_val; constructor|].
  apply orel_bind with (R := R). apply K; [left; reflexivity|auto]. intros a' b' Ra.
  apply orel_bind with (R := Forall2 R). apply IH. intros. apply K; [right; auto|auto]. intros la lb Rl.
  apply orel_val. constructor; auto.
Qed.
Lemma orel_mapM_same {A A' B'} (R : A' -> B' -> Prop) f g (l : list A) :
  (forall a, In a l -> orel R (f a) (g a)) -> orel (Forall2 R) (omapM f l) (omapM g l).
Proof.
  intros K. apply orel_mapM with (S := eq). induction l; constructor; auto. apply IHl. intros; apply K; right; auto.
  intros a b Hin ->. auto.
Qed.
Lemma orel_foldM {A B A' B'} (S : A -> B -> Prop) (R : A' -> B' -> Prop) f g l m :
  Forall2 S l m -> (forall acc acc' a b, R acc acc' -> S a b -> orel R (f acc a) (g acc' b)) ->
  forall acc acc', R acc acc' -> orel R (ofoldM f acc l) (ofoldM g acc' m).
Proof.
  intros HL K. induction HL as [|a b l m Hab Hl IH]; intros acc acc' Ha; simpl; [apply orel_val; auto|].
  apply orel_bind with (R := R); [auto|]. intros; apply IH; auto.
Qed.

(** ** Values *)

Lemma erases_right v w : erases v w -> coerce_mapped w = w /\ coerce_nominal w = w.
Proof. induction 1; try (split; reflexivity); auto. Qed.
Lemma erases_mapped v w : erases v w -> erases (coerce_mapped v) w.
Proof. induction 1; simpl; try (constructor; assumption); auto. Qed.
Lemma erases_nominal v w : erases v w -> erases (coerce_nominal v) w.
Proof. induction 1; simpl; try (constructor; assumption); auto. Qed.
Lemma erases_both v w : erases v w -> erases (coerce_mapped v) (coerce_mapped w).
Proof. intros H. rewrite (proj1 (erases_right v w H)). apply erases_mapped; auto. Qed.
Lemma erases_both_nominal v w : erases v w -> erases (coerce_nominal v) (coerce_nominal w).
Proof. intros H. rewrite (proj2 (erases_right v w H)). apply erases_nominal; auto. Qed.
Lemma erases_tc v w : erases v w -> tc_of_value v = tc_of_value w.
Proof. induction 1; simpl; auto. Qed.

Inductive erases_seq : seqkind value -> seqkind value -> Prop :=
| ErsStrict vs ws : Forall2 erases vs ws -> erases_seq (Strict vs) (Strict ws)
| ErsDup n v w : erases v w -> erases_seq (Dup n v) (Dup n w).
Inductive erases_vseq : vseq -> vseq -> Prop :=
| ErvVals s t : erases_seq s t -> erases_vseq (SVals s) (SVals t)
| ErvRange a b : erases_vseq (SRange a b) (SRange a b).
Lemma erases_of_seq s t : erases_seq s t -> erases (VSeq s) (VSeq t).
Proof. intros []; constructor; auto. Qed.
Lemma erases_seq_of v s w : v = VSeq s -> erases v w -> exists t, w = VSeq t /\ erases_seq s t.
Proof. intros E H. destruct H; inversion E; subst; eexists; split; try reflexivity; constructor; auto. Qed.

Lemma forall2_length {A B} (R : A -> B -> Prop) l m : Forall2 R l m -> length l = length m.
Proof. induction 1; simpl; congruence. Qed.
Lemma forall2_nth {A B} (R : A -> B -> Prop) l m : Forall2 R l m -> forall i a, nth_error l i = Some a ->
  exists b, nth_error m i = Some b /\ R a b.
Proof. induction 1; intros [|i] a E; simpl in *; try discriminate; [injection E as <-; eauto|eauto]. Qed.
Lemma forall2_nth_none {A B} (R : A -> B -> Prop) l m : Forall2 R l m -> forall i, nth_error l i = None -> nth_error m i = None.
Proof. intros H i E. apply nth_error_None. apply nth_error_None in E. rewrite <- (forall2_length _ _ _ H). auto. Qed.
Lemma forall2_repeat {A B} (R : A -> B -> Prop) a b n : R a b -> Forall2 R (repeat a n) (repeat b n).
Proof. induction n; simpl; constructor; auto. Qed.
Lemma forall2_firstn {A B} (R : A -> B -> Prop) l m : Forall2 R l m -> forall n, Forall2 R (firstn n l) (firstn n m).
Proof. induction 1; intros [|n]; simpl; constructor; auto. Qed.
Lemma forall2_skipn {A B} (R : A -> B -> Prop) l m : Forall2 R l m -> forall n, Forall2 R (skipn n l) (skipn n m).
Proof. induction 1; intros [|n]; simpl; try constructor; auto. Qed.
Lemma forall2_concat {A B} (R : A -> B -> Prop) l m : Forall2 (Forall2 R) l m -> Forall2 R (List.concat l) (List.concat m).
Proof. induction 1; simpl; [constructor|apply Forall2_app; auto]. Qed.
Lemma forall2_refl {A} (R : A -> A -> Prop) l : (forall a, R a a) -> Forall2 R l l.
Proof. intros H. induction l; constructor; auto. Qed.

Lemma erases_seq_list s t : erases_seq s t -> Forall2 erases (sk_to_list s) (sk_to_list t).
Proof. intros []; simpl; auto. apply forall2_repeat; auto. Qed.
Lemma erases_seq_len s t : erases_seq s t -> sk_len s = sk_len t.
Proof. intros []; simpl; auto. eapply forall2_length; eauto. Qed.
Lemma erases_seq_empty s t : erases_seq s t -> sk_is_empty s = sk_is_empty t.
Proof. intros [|]; simpl; auto. inversion H; auto. Qed.
Lemma erases_vseq_list s t : erases_vseq s t -> Forall2 erases (vseq_list s) (vseq_list t).
Proof.
  intros []; simpl; [apply erases_seq_list; auto|]. unfold range_values. induction (nrange a (N.to_nat (b - a))); simpl; constructor; auto.
  constructor.
Qed.
Lemma erases_vseq_len s t : erases_vseq s t -> vseq_len s = vseq_len t.
Proof. intros []; simpl; auto. erewrite erases_seq_len; eauto. Qed.
Lemma erases_vseq_empty s t : erases_vseq s t -> vseq_is_empty s = vseq_is_empty t.
Proof. intros []; simpl; auto. apply erases_seq_empty; auto. Qed.
Lemma erases_get_sequence v w q : erases v w -> get_sequence v = Some q -> exists r, get_sequence w = Some r /\ erases_vseq q r.
Proof.
  intros H E. destruct H; try discriminate; injection E as <-; eexists; split; try reflexivity; repeat constructor; auto.
Qed.
Lemma orel_index s t i : erases_seq s t -> orel erases (sk_index s i) (sk_index t i).
Proof.
  intros []; unfold sk_index; simpl.
  - intros a E. destruct (nth_error vs i) eqn:F; [|discriminate]. injection E as <-.
    destruct (forall2_nth _ _ _ H i _ F) as (b & -> & ?). eauto.
  - destruct (i <? n); [apply orel_val; auto|apply orel_panic].
Qed.
Lemma orel_sub s t i n : erases_seq s t -> orel erases_seq (sk_sub_seq s i n) (sk_sub_seq t i n).
Proof.
  intros []; simpl.
  - rewrite <- (forall2_length _ _ _ H). destruct (i <=? length vs); [|apply orel_panic].
    pose proof (forall2_skipn _ _ _ H i) as Hs. rewrite <- (forall2_length _ _ _ Hs).
    destruct (n <=? length (skipn i vs)); [|apply orel_panic]. apply orel_val. constructor. apply forall2_firstn; auto.
  - destruct (i + n <=? n0); [|apply orel_panic]. apply orel_val. constructor; auto.
Qed.
Lemma erases_append s t s' t' : erases_seq s t -> erases_seq s' t' -> erases_seq (sk_append s s') (sk_append t t').
Proof.
  intros H H'. unfold sk_append. rewrite <- (erases_seq_empty _ _ H), <- (erases_seq_empty _ _ H').
  destruct (sk_is_empty s); auto. destruct (sk_is_empty s'); auto. constructor. apply Forall2_app; apply erases_seq_list; auto.
Qed.
Lemma orel_inflate_loop h h' : Forall2 erases h h' -> forall st n out out', Forall2 erases out out' ->
  orel (Forall2 erases) (inflate_loop h st n out) (inflate_loop h' st n out').
Proof.
  intros Hh st n. induction n as [|n IH]; intros out out' Ho; simpl; [apply orel_val; auto|].
  rewrite <- (forall2_length _ _ _ Ho), <- (forall2_length _ _ _ Hh).
  destruct (length out + st <? length h).
  - destruct (nth_error h (length out + st)) eqn:E; [|apply orel_panic].
    destruct (forall2_nth _ _ _ Hh _ _ E) as (b & -> & Hb). apply IH. apply Forall2_app; auto.
  - destruct (nth_error out (length out + st - length h)) eqn:E; [|apply orel_panic].
    destruct (forall2_nth _ _ _ Ho _ _ E) as (b & -> & Hb). apply IH. apply Forall2_app; auto.
Qed.

(** ** Scopes *)

(** Every user variable has a value in [sg], related to the one it has in [s]. *)
Definition values_related {D D'} (s : scope D) (sg : scope D') : Prop :=
  forall x v, reserved x = false -> get_value x s = Some v -> exists w, get_value x sg = Some w /\ erases v w.

Section Scopes.
Context {D D' : Type}.
Implicit Types (s : scope D) (sg : scope D').

Lemma vr_single s sg x v w : values_related s sg -> erases v w -> values_related (SSingle s x v) (SSingle sg x w).
Proof. intros H Hv y u Hy E. simpl in *. destruct (N.eqb x y); [injection E as <-; eauto|eauto]. Qed.
Lemma vr_reserved s sg x w : values_related s sg -> reserved x = true -> values_related s (SSingle sg x w).
Proof.
  intros H Hx y u Hy E. simpl. destruct (N.eqb x y) eqn:F; [|eauto]. apply N.eqb_eq in F. subst. congruence.
Qed.

Definition binds_related (bs cs : binds) : Prop := Forall2 (fun b c => fst b = fst c /\ erases (snd b) (snd c)) bs cs.
Lemma scan_binds x bs cs : binds_related bs cs -> forall s sg, values_related s sg -> reserved x = false ->
  forall v, match scan_value x (map (fun b => (fst b, EntVal (snd b))) bs) with Some v => Some v | None => get_value x s end = Some v ->
  exists w, match scan_value x (map (fun b => (fst b, EntVal (snd b))) cs) with Some v => Some v | None => get_value x sg end = Some w /\ erases v w.
Proof.
  induction 1 as [|[a v0] [b w0] bs cs [E Hv] Hl IH]; intros s sg H Hx v Ev; simpl in *; [eauto|].
  subst b. destruct (N.eqb a x); [injection Ev as <-; eauto|eauto].
Qed.
Lemma forall2_rev {A B} (R : A -> B -> Prop) l m : Forall2 R l m -> Forall2 R (rev l) (rev m).
Proof. induction 1; simpl; [constructor|]. apply Forall2_app; auto. Qed.
Lemma vr_binds s sg bs cs : values_related s sg -> binds_related bs cs ->
  values_related (SMulti s (map (fun b => (fst b, EntVal (snd b))) bs)) (SMulti sg (map (fun b => (fst b, EntVal (snd b))) cs)).
Proof.
  intros H Hb x v Hx E. simpl in *. rewrite <- map_rev in *. eapply scan_binds; eauto. apply forall2_rev; auto.
Qed.

Lemma binds_app b b' c c' : binds_related b c -> binds_related b' c' -> binds_related (b ++ b') (c ++ c').
Proof. apply Forall2_app. Qed.

Lemma simple_related p : simple_pattern p = true -> forall v w acc acc', erases v w -> binds_related acc acc' ->
  exists b c, matches_inner p v acc = Some b /\ matches_inner p w acc' = Some c /\ binds_related b c.
Proof.
  destruct p; try discriminate; intros _ v w acc acc' Hv Ha; simpl; do 2 eexists; split; [reflexivity|split; [reflexivity|]| reflexivity|split; [reflexivity|]]; auto.
  apply binds_app; auto. constructor; auto.
Qed.
Lemma simple_list ps : forallb simple_pattern ps = true -> forall vs ws acc acc', Forall2 erases vs ws -> binds_related acc acc' ->
  exists b c, match_list matches_inner ps vs acc = Some b /\ match_list matches_inner ps ws acc' = Some c /\ binds_related b c.
Proof.
  induction ps as [|p ps IH]; intros Hp vs ws acc acc' Hv Ha.
  - simpl. destruct vs, ws; eauto.
  - simpl in Hp. apply andb_prop in Hp as [Hp Hps]. inversion Hv as [|v w vs' ws' H1 H2]; subst; simpl; eauto.
    destruct (simple_related p Hp v w acc acc' H1 Ha) as (b & c & -> & -> & Hbc). apply IH; auto.
Qed.
Lemma nominal_bare v : match coerce_nominal v with VMapped _ _ | VBranch _ _ | VPermitOk _ => False | _ => True end.
Proof. induction v using value_ind'; simpl; auto. Qed.
(** A shallow pattern matches a value exactly when it matches what it is without wrappers. *)
Lemma shallow_related p v w : shallow p = true -> erases v w ->
  match v with VMapped _ _ | VBranch _ _ | VPermitOk _ => False | _ => True end ->
  (exists b c, matches_inner p v [] = Some b /\ matches_inner p w [] = Some c /\ binds_related b c) \/
  (matches_inner p v [] = None /\ matches_inner p w [] = None).
Proof.
  intros Hp Hv Hn.
  assert (Hb : forall b : bool, (exists x y, (if b then Some (@nil (label * value)) else None) = Some x /\ (if b then Some (@nil (label * value)) else None) = Some y /\ binds_related x y) \/
      ((if b then Some (@nil (label * value)) else None) = None /\ (if b then Some (@nil (label * value)) else None) = None))
    by (intros []; [left; do 2 eexists; repeat split; constructor|right; auto]).
  assert (Hs : forall q, simple_pattern q = true -> forall x y, erases x y ->
    (exists b c, matches_inner q x [] = Some b /\ matches_inner q y [] = Some c /\ binds_related b c) \/
    (matches_inner q x [] = None /\ matches_inner q y [] = None)).
  { intros q Hq x y Hxy. left. apply simple_related; auto. constructor. }
  destruct p as [x| |b0|w0 n0|b0|z|b0|c|ps|l p|ps|[p|]].
  1: left; apply simple_related; auto; constructor.
  1: left; apply simple_related; auto; constructor.
  all: destruct Hv; try contradiction; simpl; auto; try (right; split; reflexivity); try apply Hb.
  - rewrite <- (forall2_length _ _ _ H). destruct (Nat.eqb (length ps) (length vs)); [|right; auto].
    left. apply simple_list; auto. constructor.
  - destruct (N.eqb l l0); [|right; auto]. apply Hs; auto.
  - rewrite <- (forall2_length _ _ _ H). destruct (Nat.eqb (length ps) (length vs)); [|right; auto].
    left. apply simple_list; auto. constructor.
  - destruct (Nat.eqb (length ps) n); [|right; auto]. left. apply simple_list; auto. apply forall2_repeat; auto. constructor.
  - left. do 2 eexists. repeat split. constructor.
Qed.
Lemma vmatches_related p v w s sg : shallow p = true -> erases v w -> values_related s sg ->
  (exists s' sg', vmatches v s p = Some s' /\ vmatches w sg p = Some sg' /\ values_related s' sg' /\
     (forall x, get_view x s' = get_view x s) /\ (forall x, get_view x sg' = get_view x sg)) \/
  (vmatches v s p = None /\ vmatches w sg p = None).
Proof.
  intros Hp Hv Hs. unfold vmatches. rewrite (proj2 (erases_right v w Hv)).
  assert (G : forall E (t : scope E) bs x, get_view x (SMulti t (map (fun b : label * value => (fst b, EntVal (snd b))) bs)) = get_view x t).
  { intros E t bs x. simpl. rewrite <- map_rev. induction (rev bs) as [|[? ?] ? IH]; simpl; auto. }
  destruct (shallow_related p (coerce_nominal v) w Hp (erases_nominal _ _ Hv) (nominal_bare v)) as [(b & c & -> & -> & H)|[-> ->]]; [left|right; auto].
  simpl. do 2 eexists. repeat split; auto. apply vr_binds; auto.
Qed.
End Scopes.

(** ** Expressions *)

Lemma neval_mono n : forall look look', (forall x c, In x (iter_vars n) -> look x = NOk c -> look' x = NOk c) ->
  forall c, neval look n = NOk c -> neval look' n = NOk c.
Proof.
  induction n; intros look look' H c0 E; simpl in *; auto.
  - destruct (neval look n1) eqn:E1; try discriminate. destruct (neval look n2) eqn:E2; try discriminate.
    rewrite (IHn1 look look' (fun x c Hi => H x c (in_or_app _ _ _ (or_introl Hi))) _ E1).
    rewrite (IHn2 look look' (fun x c Hi => H x c (in_or_app _ _ _ (or_intror Hi))) _ E2). auto.
  - destruct (neval look n) eqn:E1; try discriminate. rewrite (IHn look look' H _ E1). auto.
  - destruct (neval look n) eqn:E1; try discriminate. rewrite (IHn look look' H _ E1). auto.
Qed.

Lemma orel_leaf_usize v w : erases v w -> orel eq (unwrap_usize v) (unwrap_usize w).
Proof. intros H a E. destruct H; try discriminate; eauto. Qed.
Lemma orel_leaf_bool v w : erases v w -> orel eq (unwrap_bool v) (unwrap_bool w).
Proof. intros H a E. destruct H; try discriminate; eauto. Qed.
Lemma orel_leaf_u8 v w : erases v w -> orel eq (get_as_u8 v) (get_as_u8 w).
Proof. intros H a E. destruct H; try discriminate; eauto. Qed.
Lemma orel_int_rel r a b a' b' : erases a a' -> erases b b' -> orel erases (value_int_rel r a b) (value_int_rel r a' b').
Proof.
  intros Ha Hb v E. destruct Ha; try discriminate; destruct Hb; try discriminate; exists v; split; auto; simpl in E;
    repeat match type of E with (if ?c then _ else _) = _ => destruct c; try discriminate | match ?c with _ => _ end = _ => destruct c; try discriminate end;
    injection E as <-; constructor.
Qed.
Lemma numeric_related {A} (f : A -> value) x (o : outcome value) : (forall a, erases (f a) (f a)) -> o = omap f x -> orel erases o o.
Proof. intros Hf -> v E. destruct x; [|discriminate]. injection E as <-. simpl. eauto. Qed.
Lemma orel_arith op a b a' b' : erases a a' -> erases b b' -> orel erases (value_arith op a b) (value_arith op a' b').
Proof.
  intros Ha Hb.
  assert (Hu : forall w1 w2 x y, orel erases (value_arith op (VU w1 x) (VU w2 y)) (value_arith op (VU w1 x) (VU w2 y))).
  { intros w1 w2 x y. unfold value_arith. destruct op; try apply orel_panic;
      (destruct (bw_eqb w1 w2); [eapply numeric_related; [|reflexivity]; constructor|apply orel_panic]). }
  assert (Hz : forall x y, orel erases (value_arith op (VUsize x) (VUsize y)) (value_arith op (VUsize x) (VUsize y))).
  { intros x y. unfold value_arith. destruct op; try apply orel_panic; (eapply numeric_related; [|reflexivity]; constructor). }
  assert (Hl : forall x y, orel erases (value_arith op (VBool x) (VBool y)) (value_arith op (VBool x) (VBool y))).
  { intros x y. unfold value_arith. destruct op; try apply orel_panic; apply orel_val; constructor. }
  destruct Ha; destruct Hb; auto; unfold value_arith; destruct op; apply orel_panic.
Qed.
Lemma orel_unary op a a' : erases a a' -> orel erases (value_unary op a) (value_unary op a').
Proof.
  intros Ha. unfold value_unary. destruct Ha; destruct op; try apply orel_panic; try (apply orel_val; constructor);
    (eapply numeric_related; [|reflexivity]; constructor).
Qed.
Lemma orel_as w0 a a' : erases a a' -> orel erases (value_as w0 a) (value_as w0 a').
Proof.
  intros Ha. unfold value_as. destruct Ha; try apply orel_panic; (eapply numeric_related; [|reflexivity]; constructor).
Qed.
Lemma orel_as_char a a' : erases a a' -> orel erases (value_as_char a) (value_as_char a').
Proof.
  intros Ha. unfold value_as_char. destruct Ha; try apply orel_panic.
  - destruct w; try (apply orel_val; constructor); (destruct (N.ltb n 4294967296); [apply orel_val; constructor|apply orel_panic]).
  - destruct (N.ltb n 4294967296); [apply orel_val; constructor|apply orel_panic].
Qed.
Lemma bytes_of_related vs ws : Forall2 erases vs ws -> forall l, bytes_of vs = Some l -> bytes_of ws = Some l.
Proof.
  induction 1 as [|v w vs ws Hv Hl IH]; intros l E; simpl in *; auto.
  destruct Hv; try discriminate. destruct w; try discriminate. destruct (bytes_of vs) eqn:F; try discriminate.
  rewrite (IH l0 eq_refl). auto.
Qed.
Lemma orel_from_bytes be w0 a a' : erases a a' -> orel erases (value_from_bytes be w0 a) (value_from_bytes be w0 a').
Proof.
  intros Ha v E. destruct Ha; try discriminate. unfold value_from_bytes in *. simpl in *.
  destruct (bytes_of vs) eqn:F; try discriminate. rewrite (bytes_of_related _ _ H _ F).
  exists v; split; auto. destruct (Nat.eqb (length l) (N.to_nat (nbits w0 / 8))); try discriminate. injection E as <-. constructor.
Qed.
Lemma orel_tuple_proj a a' i : erases a a' -> orel erases (tuple_proj a i) (tuple_proj a' i).
Proof.
  intros Ha v E. destruct Ha; try discriminate. simpl in *. destruct (nth_error vs i) eqn:F; try discriminate. injection E as <-.
  destruct (forall2_nth _ _ _ H _ _ F) as (b & -> & ?). eauto.
Qed.
Lemma orel_record_proj a a' l : erases a a' -> orel erases (record_proj a l) (record_proj a' l).
Proof.
  intros Ha v E. destruct Ha; try discriminate. simpl in *.
  induction H as [|[k x] [k' y] fs gs [Hk Hx] Hl IH]; simpl in *; try discriminate. subst k'.
  destruct (N.eqb l k); [injection E as <-; eauto|auto].
Qed.
Lemma orel_seq_of a a' : erases a a' -> orel erases_vseq (seq_of a) (seq_of a').
Proof.
  intros Ha q E. unfold seq_of in *. destruct (get_sequence (coerce_mapped a)) eqn:F; try discriminate. injection E as <-.
  destruct (erases_get_sequence _ _ _ (erases_both _ _ Ha) F) as (r & -> & ?). eauto.
Qed.
Lemma orel_strict_seq a a' : erases a a' -> orel erases_seq (strict_seq a) (strict_seq a').
Proof.
  intros Ha q E. destruct a; try discriminate. injection E as <-. destruct (erases_seq_of _ _ _ eq_refl Ha) as (t & -> & ?). simpl. eauto.
Qed.
Lemma orel_seq_ix q r i : erases_vseq q r -> orel erases (seq_ix q i) (seq_ix r i).
Proof.
  intros []; simpl; [apply orel_index; auto|]. destruct (N.ltb (a + i) b); [apply orel_val; constructor|apply orel_panic].
Qed.
Lemma orel_seq_sub q r i n : erases_vseq q r -> orel erases (seq_sub q i n) (seq_sub r i n).
Proof.
  intros []; cbn [seq_sub].
  - apply orel_map with (R := erases_seq); [apply orel_sub; auto|]. apply erases_of_seq.
  - apply orel_map with (R := eq); [intros ? ->; eauto|]. intros ? ? ->. constructor.
Qed.
Lemma orel_seq_inflate q r i n : erases_vseq q r -> orel erases (seq_inflate q i n) (seq_inflate r i n).
Proof.
  intros H. unfold seq_inflate, sub_seq_inflate. apply orel_map with (R := Forall2 erases); [|intros; constructor; auto].
  apply orel_inflate_loop; [apply erases_vseq_list; auto|constructor].
Qed.
Lemma orel_flat_elems a a' : erases a a' -> orel (Forall2 erases) (flat_elems a) (flat_elems a').
Proof.
  intros H v E. destruct H; try discriminate; injection E as <-; eexists; split; try reflexivity; auto.
  - unfold range_values. apply (erases_vseq_list (SRange a b) (SRange a b)). constructor.
  - apply forall2_repeat; auto.
Qed.
Definition pair_related (x y : value * list value) : Prop := erases (fst x) (fst y) /\ Forall2 erases (snd x) (snd y).
Lemma orel_accum_pair a a' : erases a a' -> orel pair_related (accum_pair a) (accum_pair a').
Proof.
  intros H v E. destruct H; try discriminate. unfold accum_pair in *. simpl in *.
  destruct H as [|x y vs ws Hx Hl]; try discriminate. destruct Hl as [|x2 y2 vs ws Hx2 Hl]; try discriminate.
  destruct x2; try discriminate. destruct vs; try discriminate. inversion Hl; subst.
  destruct (erases_seq_of _ _ _ eq_refl Hx2) as (t & -> & Ht). injection E as <-.
  eexists; split; [reflexivity|]. split; simpl; auto. apply erases_seq_list; auto.
Qed.
Lemma orel_compare q q' a a' : erases q q' -> erases a a' -> orel eq (compare_as_key q a) (compare_as_key q' a').
Proof. intros Hq Ha v E. destruct Hq; try discriminate; destruct Ha; try discriminate; eauto. Qed.
Lemma orel_eqk q q' a a' : erases q q' -> erases a a' -> orel eq (eq_key q a) (eq_key q' a').
Proof. intros Hq Ha v E. destruct Hq; try discriminate; destruct Ha; try discriminate; eauto. Qed.
Lemma find_unsorted_related (eqk eqk' : value -> outcome bool) ev ev' l m :
  (forall a b, erases a b -> orel eq (eqk a) (eqk' b)) -> (forall a b, erases a b -> orel erases (ev a) (ev' b)) ->
  Forall2 erases l m -> forall i, orel eq (find_unsorted eqk ev i l) (find_unsorted eqk' ev' i m).
Proof.
  intros Hq Hv HL. induction HL as [|a b l m Hab Hl IH]; intros i o E; simpl in *; eauto.
  assert (O : orel eq (obind (ev a) eqk) (obind (ev' b) eqk')) by (eapply orel_bind; eauto).
  destruct (obind (ev a) eqk) as [x|]; try discriminate. destruct (O x eq_refl) as (y & -> & <-).
  destruct x; eauto. apply IH; auto.
Qed.
Definition optrel {A B} (R : A -> B -> Prop) (x : option A) (y : option B) : Prop :=
  forall a, x = Some a -> exists b, y = Some b /\ R a b.
Lemma bsearch_related cmp cmp' key key' n :
  (forall i, orel eq (obind (key i) cmp) (obind (key' i) cmp')) ->
  forall lo hi r, bsearch (K := value) cmp key n lo hi = Some (Val r) -> bsearch (K := value) cmp' key' n lo hi = Some (Val r).
Proof.
  intros H. induction n as [|n IH]; intros lo hi r E; cbn [bsearch] in *; [discriminate|].
  destruct (hi <? lo); auto. specialize (H ((lo + hi) / 2)).
  destruct (obind (key ((lo + hi) / 2)) cmp) as [x|]; try discriminate. destruct (H x eq_refl) as (y & -> & <-).
  destruct x; auto. destruct ((lo + hi) / 2 =? 0); auto.
Qed.
Lemma find_sorted_related cmp cmp' key key' n :
  (forall i, orel eq (obind (key i) cmp) (obind (key' i) cmp')) ->
  forall r, find_sorted (K := value) cmp n key = Some (Val r) -> find_sorted (K := value) cmp' n key' = Some (Val r).
Proof.
  intros H r E. unfold find_sorted in *. destruct (n =? 0); auto.
  pose proof (H 0) as H0. destruct (obind (key 0) cmp) as [x|]; try discriminate. destruct (H0 x eq_refl) as (y & -> & <-).
  destruct x; auto. destruct (n <=? 1); auto.
  pose proof (H (n - 1)) as H1. destruct (obind (key (n - 1)) cmp) as [x|]; try discriminate. destruct (H1 x eq_refl) as (y & -> & <-).
  destruct x; auto. destruct (n <=? 2); auto. eapply bsearch_related; eauto.
Qed.

Lemma orel_usize_of x y : orel erases x y -> orel eq (obind (omap coerce_mapped x) unwrap_usize) (obind (omap coerce_mapped y) unwrap_usize).
Proof.
  intros H. apply orel_bind with (R := erases); [|intros; apply orel_leaf_usize; auto].
  apply orel_map with (R := erases); auto. intros; apply erases_both; auto.
Qed.
Lemma orel_coerce x y : orel erases x y -> orel erases (omap coerce_mapped x) (omap coerce_mapped y).
Proof. intros H. apply orel_map with (R := erases); auto. intros; apply erases_both; auto. Qed.

Definition lambda_of {D} (s : scope D) (f : expr) (arg : value) : outcome value :=
  match f with ELambda x body => omap coerce_mapped (eval body (SSingle s x arg)) | _ => Panic end.

Lemma eval_related_gen {D D'} e : tidy e = true -> forall (s : scope D) (sg : scope D'), values_related s sg ->
  orel erases (eval e s) (eval e sg) /\
  (forall v w, erases v w -> orel erases (lambda_of s e v) (lambda_of sg e w)).
Proof.
  induction e using expr_ind'; intros Ht s sg Hs; cbn [tidy] in Ht; repeat (apply andb_prop in Ht as [Ht ?]);
    (split; [|try (intros ? ? ?; apply orel_panic)]); cbn [eval];
    repeat match goal with
    | [ IH : tidy ?e = true -> _, H : tidy ?e = true |- _ ] =>
        let I := fresh "I" in let J := fresh "J" in
        pose proof (proj1 (IH H s sg Hs)) as I; pose proof (proj2 (IH H s sg Hs)) as J;
        pose proof (IH H); clear H
    end.
  - (* EVar *) apply negb_true_iff in Ht. intros v E. destruct (get_value x s) eqn:F; try discriminate. injection E as <-.
    destruct (Hs x _ Ht F) as (w & -> & ?). eauto.
  - apply orel_val; constructor.
  - apply orel_val; constructor.
  - (* ETuple *)
    apply orel_map with (R := Forall2 erases); [|intros; constructor; auto].
    apply orel_mapM_same. intros a Hin. apply orel_coerce.
    rewrite Forall_forall in H. rewrite forallb_forall in Ht. apply (H a Hin (Ht a Hin) s sg Hs).
  - (* proj *) apply orel_bind with (R := erases); auto. intros; apply orel_tuple_proj. apply erases_both; auto.
  - (* ERecord *)
    apply orel_map with (R := Forall2 (fun f g => fst f = fst g /\ erases (snd f) (snd g))); [|intros; constructor; auto].
    apply orel_mapM_same. intros [l a] Hin.
    rewrite Forall_forall in H. rewrite forallb_forall in Ht. apply orel_map with (R := erases); [apply (H (l, a) Hin (Ht _ Hin) s sg Hs)|].
    intros; split; auto.
  - apply orel_bind with (R := erases); auto. intros; apply orel_record_proj. apply erases_both; auto.
  - apply orel_map with (R := erases); [apply orel_coerce; auto|]. intros; constructor; auto.
  - (* ESeq *)
    apply orel_map with (R := Forall2 erases); [|intros; constructor; auto].
    apply orel_mapM_same. intros a Hin. apply orel_coerce.
    rewrite Forall_forall in H. rewrite forallb_forall in Ht. apply (H a Hin (Ht a Hin) s sg Hs).
  - (* ENumeric *)
    intros v E. destruct (neval (num_look s) n) as [c| |] eqn:F; try discriminate. injection E as <-.
    rewrite (neval_mono n (num_look s) (num_look sg)) with (c := c); [eexists; split; [reflexivity|constructor]| |auto].
    intros x c' Hin Hx. rewrite forallb_forall in Ht. specialize (Ht x Hin). apply negb_true_iff in Ht.
    unfold num_look in *. destruct (get_value x s) eqn:G; try discriminate. destruct (Hs x _ Ht G) as (w & -> & Hw).
    rewrite <- (erases_tc _ _ Hw). auto.
  - (* EMatch *)
    rename H into IHb. rename H0 into Hb. apply orel_bind with (R := erases); auto. intros a b Hab.
    revert IHb Hb. induction bs as [|[p e'] bs IHbs]; intros IHb Hb; [apply orel_panic|].
    simpl in Hb. apply andb_prop in Hb as [Hp Hb]. apply andb_prop in Hp as [Hp He]. inversion IHb as [|? ? IH1 IH2]; subst.
    destruct (vmatches_related p a b s sg Hp Hab Hs) as [(s' & sg' & -> & -> & Hs' & _)|[-> ->]]; [|auto].
    apply orel_coerce. apply (IH1 He s' sg' Hs').
  - (* EDestructure *)
    apply orel_bind with (R := erases); auto. intros a b Hab.
    destruct (vmatches_related p a b s sg ltac:(assumption) Hab Hs) as [(s' & sg' & -> & -> & Hs' & _)|[-> ->]]; [|apply orel_panic].
    apply orel_coerce. match goal with [ IH : forall s sg, _ -> orel _ (eval e2 s) _ /\ _ |- _ ] => apply IH; auto end.
  - apply orel_panic.
  - intros v w Hvw. simpl. apply orel_coerce. apply H. apply vr_single; auto.
  - apply orel_bind with (R := erases); [apply orel_coerce; auto|]. intros. apply orel_bind with (R := erases); [apply orel_coerce; auto|].
    intros; apply orel_int_rel; auto.
  - apply orel_bind with (R := erases); [apply orel_coerce; auto|]. intros. apply orel_bind with (R := erases); [apply orel_coerce; auto|].
    intros; apply orel_arith; auto.
  - apply orel_bind with (R := erases); [apply orel_coerce; auto|]. intros; apply orel_unary; auto.
  - apply orel_bind with (R := erases); [apply orel_coerce; auto|]. intros; apply orel_as; auto.
  - apply orel_bind with (R := erases); [apply orel_coerce; auto|]. intros; apply orel_as_char; auto.
  - apply orel_bind with (R := erases); [apply orel_coerce; auto|]. intros; apply orel_from_bytes; auto.
  - apply orel_bind with (R := erases); auto. intros a b Hab. apply orel_map with (R := erases_vseq); [apply orel_seq_of; auto|].
    intros q r Hq. rewrite (erases_vseq_len _ _ Hq). constructor.
  - (* SubSeq *) apply orel_bind with (R := erases); auto. intros a b Hab. apply orel_bind with (R := erases_vseq); [apply orel_seq_of; auto|].
    intros q r Hq. apply orel_bind with (R := eq); [apply orel_usize_of; auto|]. intros ? ? <-.
    apply orel_bind with (R := eq); [apply orel_usize_of; auto|]. intros ? ? <-. apply orel_seq_sub; auto.
  - (* SeqIx *) apply orel_bind with (R := erases); auto. intros a b Hab. apply orel_bind with (R := erases_vseq); [apply orel_seq_of; auto|].
    intros q r Hq. apply orel_bind with (R := eq); [apply orel_usize_of; auto|]. intros ? ? <-. apply orel_seq_ix; auto.
  - (* Inflate *) apply orel_bind with (R := erases); auto. intros a b Hab. apply orel_bind with (R := erases_vseq); [apply orel_seq_of; auto|].
    intros q r Hq. apply orel_bind with (R := eq); [apply orel_usize_of; auto|]. intros ? ? <-.
    apply orel_bind with (R := eq); [apply orel_usize_of; auto|]. intros ? ? <-. apply orel_seq_inflate; auto.
  - (* FlatMap *) apply orel_bind with (R := erases); auto. intros a b Hab. apply orel_bind with (R := erases_vseq); [apply orel_seq_of; auto|].
    intros q r Hq. apply orel_map with (R := Forall2 (Forall2 erases)).
    + apply orel_mapM with (S := erases); [apply erases_vseq_list; auto|]. intros x y _ Hxy.
      apply orel_bind with (R := erases); [apply J0; auto|]. intros; apply orel_flat_elems; auto.
    + intros. constructor. apply forall2_concat; auto.
  - (* FlatMapAccum *)
    apply orel_bind with (R := erases); [apply orel_coerce; auto|]. intros a b Hab.
    apply orel_bind with (R := erases_seq); [apply orel_strict_seq; auto|]. intros q r Hq.
    apply orel_bind with (R := erases); [apply orel_coerce; auto|]. intros z z' Hz.
    apply orel_map with (R := pair_related); [|intros x y [_ Hxy]; constructor; auto].
    apply orel_foldM with (S := erases); [apply erases_seq_list; auto| |split; simpl; auto].
    intros [u us] [u' us'] x y [Hu Hus] Hxy. simpl in Hu, Hus.
    apply orel_bind with (R := erases).
    { match goal with [ J : forall v w, erases v w -> orel erases (lambda_of s e1 v) _ |- _ ] => apply J end. repeat constructor; auto. }
    intros v w Hvw. apply orel_bind with (R := pair_related); [apply orel_accum_pair; auto|]. intros [] [] [Hp1 Hp2]. apply orel_val.
    split; simpl; auto. apply Forall2_app; auto.
  - (* FlatMapList *)
    apply orel_bind with (R := erases); [apply orel_coerce; auto|]. intros a b Hab.
    apply orel_bind with (R := erases_seq); [apply orel_strict_seq; auto|]. intros q r Hq.
    apply orel_map with (R := Forall2 erases); [|intros; constructor; auto].
    apply orel_foldM with (S := erases); [apply erases_seq_list; auto| |constructor].
    intros u u' x y Hu Hxy. apply orel_bind with (R := erases).
    { match goal with [ J : forall v w, erases v w -> orel erases (lambda_of s e1 v) _ |- _ ] => apply J end. repeat constructor; auto. }
    intros v w Hvw. apply orel_map with (R := erases_seq); [apply orel_strict_seq; auto|]. intros. apply Forall2_app; auto. apply erases_seq_list; auto.
  - (* FindByKey *)
    apply orel_bind with (R := erases); [apply orel_coerce; auto|]. intros a c Hac.
    apply orel_bind with (R := erases_seq); [apply orel_strict_seq; auto|]. intros q r Hq.
    apply orel_bind with (R := erases); [apply orel_coerce; auto|]. intros z z' Hz.
    rewrite <- (erases_seq_len _ _ Hq).
    match goal with [ J : forall v w, erases v w -> orel erases (lambda_of s e1 v) _ |- _ ] => rename J into JK end.
    assert (F : forall o, orel erases
       match o with Some ix => omap (fun x => VOption (Some x)) (sk_index q ix) | None => Val (VOption None) end
       match o with Some ix => omap (fun x => VOption (Some x)) (sk_index r ix) | None => Val (VOption None) end).
    { intros [ix|]; [|apply orel_val; constructor]. apply orel_map with (R := erases); [apply orel_index; auto|]. intros; constructor; auto. }
    destruct b.
    + set (K := fun i => obind (sk_index q i) (lambda_of s e1)). set (K' := fun i => obind (sk_index r i) (lambda_of sg e1)).
      assert (HK : forall i, orel eq (obind (K i) (compare_as_key z)) (obind (K' i) (compare_as_key z'))).
      { intros i. apply orel_bind with (R := erases); [|intros; apply orel_compare; auto].
        apply orel_bind with (R := erases); [apply orel_index; auto|]. intros; apply JK; auto. }
      change (orel erases
        (match find_sorted (compare_as_key z) (sk_len q) K with
         | Some o => obind o (fun o => match o with Some ix => omap (fun x => VOption (Some x)) (sk_index q ix) | None => Val (VOption None) end)
         | None => Panic end)
        (match find_sorted (compare_as_key z') (sk_len q) K' with
         | Some o => obind o (fun o => match o with Some ix => omap (fun x => VOption (Some x)) (sk_index r ix) | None => Val (VOption None) end)
         | None => Panic end)).
      destruct (find_sorted (compare_as_key z) (sk_len q) K) as [[o|]|] eqn:G; try apply orel_panic.
      rewrite (find_sorted_related _ _ _ _ _ HK _ G). apply F.
    + apply orel_bind with (R := eq).
      * apply find_unsorted_related; [intros; apply orel_eqk; auto|intros; apply JK; auto|apply erases_seq_list; auto].
      * intros o ? <-. apply F.
  - (* Enum *) apply orel_bind with (R := eq); [apply orel_usize_of; auto|]. intros ? ? <-.
    apply orel_map with (R := eq); [apply orel_usize_of; auto|]. intros ? ? <-. constructor.
  - (* LeftFold *)
    apply orel_bind with (R := erases); [apply orel_coerce; auto|]. intros a b Hab.
    apply orel_bind with (R := erases_seq); [apply orel_strict_seq; auto|]. intros q r Hq.
    apply orel_bind with (R := erases); [apply orel_coerce; auto|]. intros z z' Hz.
    apply orel_foldM with (S := erases); [apply erases_seq_list; auto| |auto].
    intros u u' x y Hu Hxy.
    match goal with [ J : forall v w, erases v w -> orel erases (lambda_of s e1 v) _ |- _ ] => apply J end. repeat constructor; auto.
  - (* Dup *) apply orel_bind with (R := eq); [apply orel_usize_of; auto|]. intros ? ? <-.
    apply orel_map with (R := erases); [apply orel_coerce; auto|]. intros. constructor; auto.
  - apply orel_val; constructor.
  - apply orel_map with (R := erases); [apply orel_coerce; auto|]. intros. constructor; auto.
  - (* Append *) apply orel_bind with (R := erases); auto. intros a b Hab. apply orel_bind with (R := erases); auto. intros a' b' Hab'.
    apply orel_bind with (R := erases_vseq); [apply orel_seq_of; auto|]. intros q r Hq.
    apply orel_bind with (R := erases_vseq); [apply orel_seq_of; auto|]. intros q' r' Hq'.
    rewrite <- (erases_vseq_empty _ _ Hq), <- (erases_vseq_empty _ _ Hq').
    destruct (vseq_is_empty q); [apply orel_val; apply erases_both; auto|].
    destruct (vseq_is_empty q'); [apply orel_val; apply erases_both; auto|].
    apply orel_map with (R := erases_seq); [|intros; apply erases_of_seq; auto].
    destruct Hq; [|apply orel_panic]. destruct Hq'; [|apply orel_panic]. simpl. apply orel_val. apply erases_append; auto.
Qed.

Section Eval.
Context {D D' : Type} (s : scope D) (sg : scope D').
Hypothesis Hs : values_related s sg.

Lemma eval_related e : tidy e = true -> orel erases (eval e s) (eval e sg).
Proof. intros H. apply (eval_related_gen e H s sg Hs). Qed.
Lemma eval_value_related e : tidy e = true -> orel erases (eval_value e s) (eval_value e sg).
Proof. intros H. apply orel_coerce. apply eval_related; auto. Qed.
Lemma eval_usize_related e : tidy e = true -> orel eq (eval_usize e s) (eval_usize e sg).
Proof. intros H. apply orel_usize_of. apply eval_related; auto. Qed.
Lemma eval_bool_related e : tidy e = true -> orel eq (eval_bool e s) (eval_bool e sg).
Proof.
  intros H. apply orel_bind with (R := erases); [apply eval_value_related; auto|]. intros; apply orel_leaf_bool; auto.
Qed.
Lemma eval_lambda_related e v w : tidy e = true -> erases v w -> orel erases (eval_lambda e s v) (eval_lambda e sg w).
Proof. intros H Hvw. apply (proj2 (eval_related_gen e H s sg Hs) v w Hvw). Qed.
Lemma lambda_bool_related e v w : tidy e = true -> erases v w -> orel eq (lambda_bool e s v) (lambda_bool e sg w).
Proof.
  intros H Hvw. apply orel_bind with (R := erases); [apply eval_lambda_related; auto|]. intros; apply orel_leaf_bool; auto.
Qed.
End Eval.
