(** The interpreter with locations computes what the plain one computes. *)
From Verif Require ByteSetModel HuffmanModel.
From Verif Require Import Base BoundsModel DataModel DataProofs NumericModel ValueModel ValueProofs FormatModel MatchTreeModel
  DecoderModel DecoderProofs CompileProofs MatchBoundsProofs LocModel LocSpec LocProofs.
Open Scope nat_scope.

(** ** Decoders of the fragment *)

(** A format or decoder all of whose expressions, views and patterns are allowed;
    [pm], [mp], [sb], [dy] allow permitted failures, maps, sub-buffers and dynamic
    formats. *)
Section DecOk.
Context (okE : expr -> bool) (okV : viewexpr -> bool) (okP : pattern -> bool) (pm mp sb dy : bool).
Definition gnode (f : format) : bool :=
  match f with
  | FPermit _ e => pm && okE e
  | FItemVar _ es vs => forallb okE es && forallb okV vs
  | FRepeatCount e _ | FRepeatUntilLast e _ | FRepeatUntilSeq e _ | FForEach e _ _ | FMaybe e _ | FSlice e _
  | FWhere _ e _ | FCompute e | FLet _ e _ => okE e
  | FMap _ e => mp && okE e
  | FDecodeBytes e _ => sb && okE e
  | FBits _ => sb
  | FRepeatBetween a b _ | FWithRelativeOffset a b _ => okE a && okE b
  | FAccumUntil a b c _ _ => okE a && okE b && okE c
  | FMatch e bs => okE e && forallb (fun b => okP (fst b)) bs
  | FDynamic _ (DHuffman a o) _ => dy && okE a && match o with Some b => okE b | None => true end
  | FWithView v (VFCapture e) | FWithView v (VFReadArray e _) => okV v && okE e
  | FWithView v VFReify | FParseFromView v _ => okV v
  | _ => true
  end.
Context (called : nat -> bool).
Fixpoint gdec_ok (d : decoder) : bool :=
  match d with
  | DCall n es vs => called n && forallb (fun x => okE (snd x)) es && forallb (fun x => okV (snd x)) vs
  | DPos | DFail | DEndOfInput | DAlign _ | DByte _ | DSkipRemainder | DApply _ | DPhantom | DLiftedOption None => true
  | DVariant _ d | DWhile _ d | DUntil _ d | DPeek d | DPeekNot d | DLiftedOption (Some d) | DLetView _ d => gdec_ok d
  | DBits d => sb && gdec_ok d
  | DParallel ds | DBranch _ ds | DTuple ds | DSequence ds => forallb gdec_ok ds
  | DRepeatCount e d | DRepeatUntilLast e d | DRepeatUntilSeq e d | DMaybe e d | DSlice e d | DWhere d e _
  | DLet _ e d | DForEach e _ d => okE e && gdec_ok d
  | DMap d e => mp && okE e && gdec_ok d
  | DDecodeBytes e d => sb && okE e && gdec_ok d
  | DCompute e => okE e
  | DWithRelativeOffset a b d | DRepeatBetween _ a b d => okE a && okE b && gdec_ok d
  | DMatch e bs => okE e && forallb (fun b => match b with (p, d) => okP p && gdec_ok d end) bs
  | DDynamic _ (DHuffman a o) d => dy && (okE a && match o with Some b => okE b | None => true end) && gdec_ok d
  | DParseFromView v d => okV v && gdec_ok d
  | DLetFormat d _ d' | DMonadSeq d d' => gdec_ok d && gdec_ok d'
  | DAccumUntil a b c d => okE a && okE b && okE c && gdec_ok d
  | DCaptureBytes v e | DReadArray v e _ => okV v && okE e
  | DReifyView v => okV v
  | DPermit d e => pm && okE e && gdec_ok d
  end.

Lemma combine_snd {A B} (Q : B -> bool) (l : list A) (l' : list B) : forallb Q l' = true -> forallb (fun x => Q (snd x)) (combine l l') = true.
Proof.
  revert l'. induction l as [|a l IH]; intros [|b l']; cbn; auto. intros H. apply andb_true_iff in H. destruct H as [-> H]. now apply IH.
Qed.
Notation OK := (everywhere (fun g => gnode g = true)).
Lemma gcomp_ok bld m (Call : nat -> next -> nat -> Prop) f : (forall l n i, Call l n i -> called i = true) ->
  forall n d, Comp bld m Call f n d -> OK f -> gdec_ok d = true.
Proof.
  intros Hcall.
  assert (L : forall fs n ds, Forall (fun f => forall n d, Comp bld m Call f n d -> OK f -> gdec_ok d = true) fs ->
    CTup (Comp bld m Call) fs n ds -> Forall OK fs -> forallb gdec_ok ds = true).
  { intros fs n ds H C. induction C; intros E; [reflexivity|]. inversion H; subst. inversion E; subst. cbn. apply andb_true_iff. split; eauto. }
  assert (L' : forall fs n ds, Forall (fun f => forall n d, Comp bld m Call f n d -> OK f -> gdec_ok d = true) fs ->
    Forall2 (fun f d => Comp bld m Call f n d) fs ds -> Forall OK fs -> forallb gdec_ok ds = true).
  { intros fs n ds H C. induction C; intros E; [reflexivity|]. inversion H; subst. inversion E; subst. cbn. apply andb_true_iff. split; eauto. }
  induction f using format_ind'; intros nx dd HC He; inversion HC; subst; clear HC;
    pose proof (everywhere_self _ _ He) as Hs; cbn [gnode] in Hs; cbn [gdec_ok];
    repeat match goal with H : (_ && _)%bool = true |- _ => apply andb_true_iff in H; destruct H end;
    repeat (apply andb_true_iff; split); try assumption; try reflexivity;
    try (match goal with IH : forall n d, Comp _ _ _ ?f n d -> _ -> gdec_ok d = true, HC : Comp _ _ _ ?f _ ?d |- gdec_ok ?d = true =>
           eapply IH; [exact HC|]; intros g0 Hg0; apply He; right; cbn; first [exact Hg0 | apply in_or_app; auto] end);
    try (first [eapply L; [eassumption|eassumption|] | eapply L'; [eassumption|eassumption|]]; apply everywhere_list; intros g0 Hg0; apply He; right; exact Hg0).
  - eapply Hcall; eassumption.
  - now apply combine_snd.
  - now apply combine_snd.
  - assert (Hl : Forall (fun b => OK (snd b)) bs) by (apply everywhere_branches; intros; apply He; right; auto).
    clear He. match goal with H : Forall2 _ bs _ |- _ => revert H end.
    match goal with H : forallb _ bs = true |- _ => revert H end. revert ds. induction bs as [|[p f] bs IH]; intros ds Hp F; inversion F; subst; [reflexivity|].
    inversion Hl; inversion H; subst. cbn in Hp. apply andb_true_iff in Hp. destruct Hp as [Hp Hp']. destruct y as [p' d]. cbn in H3. destruct H3 as [<- HC].
    cbn. apply andb_true_iff. split; [|now apply IH]. apply andb_true_iff. split; [exact Hp|]. cbn in *. eauto.
  - destruct d as [a o]. rewrite !andb_true_iff in *. repeat split; try tauto. eapply IHf; [eassumption|]; intros g0 Hg0; apply He; now right.
Qed.
(** The decoders of a program that may be called *)
Lemma gprogram_ok bld (eqb : next -> next -> bool) M (tbl : list (nat * next * nat)) P :
  (forall i, called i = existsb (fun x => Nat.eqb (snd x) i) tbl) -> linked bld M P (CompileProofs.in_map tbl) ->
  module_wide (fun g => gnode g = true) M ->
  forall i d, called i = true -> nth_error P i = Some d -> gdec_ok d = true.
Proof.
  intros Hcd HL HM.
  assert (Hc : forall l n i, CompileProofs.in_map tbl l n i -> called i = true).
  { intros l n i Hi. rewrite Hcd. apply existsb_exists. exists (l, n, i). split; [exact Hi|apply Nat.eqb_refl]. }
  intros i d' Hi Hd'. rewrite Hcd in Hi. apply existsb_exists in Hi as ([[l n] j] & Hin & Hj). apply Nat.eqb_eq in Hj. cbn in Hj. subst j.
  destruct (HL _ _ _ Hin) as (it & d2 & Hit & Hd2 & HC2). rewrite Hd2 in Hd'. injection Hd' as <-. eapply gcomp_ok; [exact Hc|exact HC2|]. eapply HM, Hit.
Qed.
End DecOk.
Lemma gcompiled okE okV okP pm mp sb dy bld eqb M fuel f P (Heqb : forall a b, eqb a b = true -> a = b) :
  module_wide (fun g => gnode okE okV okP pm mp sb dy g = true) M -> everywhere (fun g => gnode okE okV okP pm mp sb dy g = true) f ->
  compile_program bld eqb M fuel f = Some (COk P) ->
  exists called, (forall i d, called i = true -> nth_error P i = Some d -> gdec_ok okE okV okP pm mp sb dy called d = true) /\
    exists d, nth_error P 0 = Some d /\ gdec_ok okE okV okP pm mp sb dy called d = true.
Proof.
  intros HM Hf HC. apply compile_program_map in HC as (tbl & HL & d & Hd & HC); [|exact Heqb].
  exists (fun i : nat => existsb (fun x : nat * next * nat => Nat.eqb (snd x) i) tbl). split.
  - eapply gprogram_ok; [exact eqb| |exact HL|exact HM]. reflexivity.
  - exists d. split; [exact Hd|]. eapply gcomp_ok; [|exact HC|exact Hf].
    intros l n i Hi. apply existsb_exists. exists (l, n, i). split; [exact Hi|apply Nat.eqb_refl].
Qed.
Notation dec_ok num := (gdec_ok (loc_expr num) (loc_view num) (loc_pat num) false true true true).
Lemma loc_gnode num f : loc_node num f = true -> gnode (loc_expr num) (loc_view num) (loc_pat num) false true true true f = true.
Proof. destruct f; auto. destruct d as [a [b|]]; cbn; [auto|]. now rewrite andb_true_r. Qed.

(** ** Results *)

Definition rrel {A B} (R : A -> B -> Prop) (r : dres A) (r' : dres B) : Prop :=
  match r, r' with
  | RPanic, _ | _, RPanic => True
  | ROk a c es, ROk b c' es' => R a b /\ c = c' /\ Forall2 same_err es es'
  | RErr e, RErr e' => same_err e e'
  | RFuel, RFuel => True
  | _, _ => False
  end.
Lemma same_err_refl e : same_err e e.
Proof. destruct e; cbn; auto. Qed.
Lemma rrel_panic_r {A B} (R : A -> B -> Prop) r : rrel R r RPanic.
Proof. destruct r; exact I. Qed.
Lemma rrel_ok {A B} (R : A -> B -> Prop) a b c : R a b -> rrel R (ROk a c []) (ROk b c []).
Proof. cbn. auto. Qed.
Lemma rrel_err {A B} (R : A -> B -> Prop) e : rrel R (RErr e) (RErr e).
Proof. cbn. apply same_err_refl. Qed.
Lemma rrel_bind {A B C D} (R : A -> B -> Prop) (S : C -> D -> Prop) r r' k k' :
  rrel R r r' -> (forall a b c, R a b -> rrel S (k a c) (k' b c)) -> rrel S (rbind r k) (rbind r' k').
Proof.
  intros H Hk. destruct r as [a c es|e| |], r' as [b c' es'|e'| |]; cbn [rrel rbind] in *; try contradiction; try exact I; try exact H; try (apply rrel_panic_r).
  destruct H as (H & <- & He). specialize (Hk _ _ c H).
  destruct (k a c), (k' b c); cbn in *; try contradiction; auto. destruct Hk as (? & ? & ?). repeat split; auto. now apply Forall2_app.
Qed.
Lemma rrel_map {A B C D} (R : A -> B -> Prop) (S : C -> D -> Prop) f g r r' :
  rrel R r r' -> (forall a b, R a b -> S (f a) (g b)) -> rrel S (rmap f r) (rmap g r').
Proof. intros H Hf. destruct r, r'; cbn in *; try contradiction; auto. destruct H as (? & ? & ?). auto. Qed.
Lemma rrel_back {A B} (R : A -> B -> Prop) c r r' : rrel R r r' -> rrel R (rback c r) (rback c r').
Proof. intros H. destruct r, r'; cbn in *; try contradiction; auto. destruct H as (? & ? & ?). auto. Qed.
Lemma rrel_let {A B C D} (R : A -> B -> Prop) (S : C -> D -> Prop) x y k k' :
  orel R x y -> (forall a b, R a b -> rrel S (k a) (k' b)) -> rrel S (rlet x k) (rlet y k').
Proof. intros H Hk. destruct x, y; cbn in *; auto. apply rrel_panic_r. Qed.
Lemma rrel_span {A B C} (R : A -> B -> Prop) (S : C -> pval -> Prop) f g st r r' :
  rrel R r r' -> (forall a b o l, R a b -> S (f a) (g b o l)) -> rrel S (rmap f r) (spanning st g r').
Proof.
  intros H Hf. unfold spanning. destruct r, r'; cbn in *; try contradiction; auto. destruct H as (? & <- & ?). cbn. auto.
Qed.

(** ** Loops *)

Section Loops.
Context (num : bool) {S1 S2 Dc : Type} (p : S1 -> Dc -> rctx -> dres value) (q : S2 -> Dc -> rctx -> dres pval).
Definition body (s : S1) (s' : S2) (d : Dc) : Prop := forall c, rrel (agree num) (p s d c) (q s' d c).
Lemma seq_rel l l' : Forall2 (fun x y => snd x = snd y /\ body (fst x) (fst y) (snd x)) l l' ->
  forall c, rrel (Forall2 (agree num)) (pseq p l c) (qseq q l' c).
Proof.
  induction 1 as [|[s d] [s' d'] l l' [H1 H2] H IH]; intros c; cbn [pseq qseq].
  - now apply rrel_ok.
  - cbn in H1, H2. subst d'. eapply rrel_bind; [apply H2|]. intros a b c' Hab. eapply rrel_map; [apply IH|]. intros. now constructor.
Qed.
Lemma par_rel s s' ds : Forall (body s s') ds -> forall i c, rrel (agree num) (ppar p i s ds c) (qpar q i s' ds c).
Proof.
  induction 1 as [|d ds H HF IH]; intros i c; cbn [ppar qpar]; [apply rrel_err|]. specialize (H c).
  destruct (p s d c), (q s' d c); cbn in *; try contradiction; try exact I.
  - destruct H as (? & ? & ?). split; [now apply agree_branch|auto].
  - apply IH.
  - apply rrel_panic_r.
Qed.
Context (s : S1) (s' : S2) (d : Dc) (t : mtree) (Hb : body s s' d).
Lemma while_rel fuel : forall c, rrel (Forall2 (agree num)) (pwhile p s d t fuel c) (qwhile q s' d t fuel c).
Proof.
  induction fuel as [|fuel IH]; intros c; cbn [pwhile qwhile]; [exact I|].
  destruct (tree_matches t c) as [[|i]|]; [|now apply rrel_ok|apply rrel_err].
  eapply rrel_bind; [apply Hb|]. intros a b c' Hab. eapply rrel_map; [apply IH|]. intros. now constructor.
Qed.
Lemma until_rel fuel : forall c, rrel (Forall2 (agree num)) (puntil p s d t fuel c) (quntil q s' d t fuel c).
Proof.
  induction fuel as [|fuel IH]; intros c; cbn [puntil quntil]; [exact I|].
  eapply rrel_bind; [apply Hb|]. intros a b c' Hab.
  destruct (tree_matches t c') as [[|i]|]; [|eapply rrel_map; [apply IH|]; intros; now constructor|apply rrel_err].
  apply rrel_ok. auto.
Qed.
Lemma between_rel mn mx c0 fuel : forall len c, rrel (Forall2 (agree num)) (pbetween p s d t mn mx c0 len fuel c) (qbetween q s' d t mn mx c0 len fuel c).
Proof.
  induction fuel as [|fuel IH]; intros len c; cbn [pbetween qbetween]; [exact I|].
  destruct (tree_matches t c0) as [i|]; [|apply rrel_err]. destruct (_ || _).
  - destruct (N.ltb _ _); [exact I|]. now apply rrel_ok.
  - eapply rrel_bind; [apply Hb|]. intros a b c' Hab. eapply rrel_map; [apply IH|]. intros. now constructor.
Qed.
Lemma until_done_rel stop stop' fuel :
  (forall vs ps v p, Forall2 (agree num) vs ps -> agree num v p -> orel eq (stop vs v) (stop' ps p)) ->
  forall acc acc' c, Forall2 (agree num) acc acc' ->
  rrel (Forall2 (agree num)) (puntil_done p s d stop acc fuel c) (quntil_done q s' d stop' acc' fuel c).
Proof.
  intros Hs. induction fuel as [|fuel IH]; intros acc acc' c Ha; cbn [puntil_done quntil_done]; [exact I|].
  eapply rrel_bind; [apply Hb|]. intros a b c' Hab. eapply rrel_let; [now apply Hs|]. intros x ? <-.
  assert (Forall2 (agree num) (acc ++ [a]) (acc' ++ [b])) by (apply Forall2_app; auto).
  destruct x; [now apply rrel_ok|now apply IH].
Qed.
Lemma accum_rel stop stop' up up' fuel :
  (forall a a' vs ps, vagr num a a' -> Forall2 (agree num) vs ps -> orel eq (stop a vs) (stop' a' ps)) ->
  (forall a a' v p, vagr num a a' -> agree num v p -> orel (vagr num) (up a v) (up' a' p)) ->
  forall acc acc' vs ps c, vagr num acc acc' -> Forall2 (agree num) vs ps ->
  rrel (fun x y => vagr num (fst x) (fst y) /\ Forall2 (agree num) (snd x) (snd y)) (paccum p s d stop up acc vs fuel c) (qaccum q s' d stop' up' acc' ps fuel c).
Proof.
  intros Hs Hu. induction fuel as [|fuel IH]; intros acc acc' vs ps c Ha Hv; cbn [paccum qaccum]; [exact I|].
  eapply rrel_let; [now apply Hs|]. intros x ? <-. destruct x; [now apply rrel_ok|].
  eapply rrel_bind; [apply Hb|]. intros a b c' Hab. eapply rrel_let; [now apply Hu|]. intros y y' Hy.
  apply IH; [exact Hy|]. apply Forall2_app; auto.
Qed.
End Loops.

Lemma read_n_rel num rd rd' : (forall c, rrel (agree num) (rd c) (rd' c)) -> forall n c,
  rrel (Forall2 (agree num)) (read_n rd n c) (q_read_n rd' n c).
Proof.
  intros H. induction n as [|n IH]; intros c; cbn [read_n q_read_n]; [now apply rrel_ok|].
  eapply rrel_bind; [apply H|]. intros a b c' Hab. eapply rrel_map; [apply IH|]. intros. now constructor.
Qed.
Lemma read_u8_rel num c : rrel (agree num) (read_u8 c) (q_read_u8 c).
Proof. unfold read_u8, q_read_u8. destruct (rc_read_byte c) as [[b c']|]; [|apply rrel_err]. apply rrel_ok. now apply agree_flat. Qed.
Lemma read_base_rel num k c : rrel (agree num) (read_base k c) (q_read_base k c).
Proof.
  unfold read_base, q_read_base. destruct (bk_width k); try (destruct (rc_read_byte c) as [[b c']|]; [|apply rrel_err]; apply rrel_ok; now apply agree_flat);
  (destruct (bk_be k); [|exact I]; match goal with |- context [rc_read_be ?n c] => destruct (rc_read_be n c) as [[b c']|] end; [|apply rrel_err]; apply rrel_ok; now apply agree_flat).
Qed.

(** ** Scopes *)

Section Scope.
Context (num : bool) (called : nat -> bool).
Record qrel (s : scope decoder) (q : qscope decoder) : Prop := {
  q_val : vrel num s q;
  q_view : forall x, get_view x s = q_get_view x q;
  q_dec : forall x, get_decoder x s = q_get_decoder x q;
  q_decok : forall x d, get_decoder x s = Some d -> dec_ok num called d = true }.
Lemma qrel_empty : qrel SEmpty QSEmpty.
Proof. split; cbn; try reflexivity; [intros x; exact I|discriminate]. Qed.
Lemma qrel_single s q x v p : qrel s q -> agree num v p -> qrel (SSingle s x v) (QSSingle q x p).
Proof. intros [A B C D] Hv. split; auto. now apply vrel_single. Qed.
Lemma qrel_multi s q es es' : qrel s q -> Forall2 (entrel num) es es' -> qrel (SMulti s es) (QSMulti q es').
Proof.
  intros [A B C D] Hv. split; auto; [now apply vrel_multi|]. intros x. cbn. rewrite (scan_view_rel num x (rev es) (rev es')) by (now apply F2_rev).
  destruct (q_scan_view x (rev es')); auto.
Qed.
Lemma qrel_decoder s q x d : qrel s q -> dec_ok num called d = true -> qrel (SDecoder s x d) (QSDecoder q x d).
Proof.
  intros [A B C D] Hd. split; auto; cbn; intros y; [|intros d'; destruct (N.eqb x y); [intros [= <-]; exact Hd|apply D]].
  destruct (N.eqb x y); auto.
Qed.
Lemma qrel_look s q x c : qrel s q -> qrel (SView s x c) (QSView q x c).
Proof. intros [A B C D]. split; auto. cbn. intros y. destruct (N.eqb x y); auto. Qed.

Context (s : scope decoder) (q : qscope decoder) (H : qrel s q).
Lemma p_eval e : loc_expr num e = true -> orel (agree num) (eval e s) (q_eval e q).
Proof. intros He. apply (proj1 (qeval_rel num e He)). apply H. Qed.
Lemma p_value e : loc_expr num e = true -> orel (vag num) (eval_value e s) (q_eval_value e q).
Proof. intros He. apply ev_rel; [apply (proj1 (qeval_rel num e He))|apply H]. Qed.
Lemma p_left e : loc_expr num e = true -> orel (agree num) (eval_value e s) (q_eval e q).
Proof.
  intros He. pose proof (p_eval e He) as E. unfold eval_value. destruct (eval e s), (q_eval e q); cbn in *; auto. now apply agree_left.
Qed.
Lemma p_lambda e v p : loc_expr num e = true -> agree num v p -> orel (vag num) (eval_lambda e s v) (q_eval_lambda e q p).
Proof. intros He Hv. exact (lam_rel num e s q v p (proj2 (qeval_rel num e He)) (q_val _ _ H) Hv). Qed.
Lemma p_usize e : loc_expr num e = true -> orel eq (eval_usize e s) (q_eval_usize e q).
Proof. intros He. eapply orel_bind; [now apply p_value|]. intros. eapply usize_rel; eauto. Qed.
Lemma p_bool e : loc_expr num e = true -> orel eq (eval_bool e s) (q_eval_bool e q).
Proof. intros He. eapply orel_bind; [now apply p_value|]. intros. eapply bool_rel; eauto. Qed.
Lemma p_lambda_bool e v p : loc_expr num e = true -> agree num v p -> orel eq (lambda_bool e s v) (q_lambda_bool e q p).
Proof. intros He Hv. eapply orel_bind; [now apply p_lambda|]. intros. eapply bool_rel; eauto. Qed.
Lemma p_view v : loc_view num v = true -> orel eq (eval_view s v) (q_eval_view q v).
Proof.
  induction v as [x|v IH e]; cbn [loc_view]; intros Hv; cbn [eval_view q_eval_view].
  - rewrite <- (q_view _ _ H). destruct (get_view x s); [reflexivity|exact I].
  - apply andb_true_iff in Hv. destruct Hv as [Hv He]. eapply orel_bind; [exact (p_usize e He)|]. intros off ? <-.
    eapply orel_bind; [now apply IH|]. intros r ? <-. destruct r as [c|er]; [|reflexivity].
    destruct (rc_split_at c off) as [[[? ?]|]|]; cbn; auto.
Qed.
Lemma p_with {A B} (R : A -> B -> Prop) v k k' : loc_view num v = true -> (forall c, rrel R (k c) (k' c)) -> rrel R (with_view s v k) (q_with_view q v k').
Proof.
  intros Hv Hk. eapply rrel_let; [now apply p_view|]. intros r ? <-. destruct r; [apply Hk|apply rrel_err].
Qed.
Lemma p_vec e : loc_expr num e = true ->
  orel eq (obind (eval e s) value_to_vec_usize) (obind (q_eval e q) (fun p => value_to_vec_usize (clone_value p))).
Proof.
  intros He. eapply orel_bind; [now apply p_eval|]. intros v p Hv. apply agree_clone in Hv.
  unfold value_to_vec_usize. destruct v as [| | | | | | | |[?|]| | | |u| | | |[?|]]; try exact I.
  destruct (clone_value p) as [| | | | | | | |[?|]| | | |t| | | |[?|]]; try apply orel_panic_r.
  destruct Hv as [Hv _]. rewrite !plain_seq in Hv. injection Hv as Hv. revert Hv.
  generalize (sk_to_list u), (sk_to_list t). induction l as [|x l IH]; intros [|y l']; cbn; try discriminate; [reflexivity|].
  intros [= A B]. specialize (IH _ B). rewrite <- (plain_coerce x), <- (plain_coerce y) in A.
  destruct (coerce_mapped x) as [|[] a| | | | | | | | | | | | | | |]; try exact I; try apply orel_panic_r.
  destruct (coerce_mapped y) as [|[] b| | | | | | | | | | | | | | |]; try exact I; try apply orel_panic_r.
  cbn in A. injection A as <-. cbn. destruct (omapM _ l), (omapM _ l'); cbn in *; auto. now subst.
Qed.
Lemma p_dyn dy : match dy with DHuffman a o => loc_expr num a && match o with Some b => loc_expr num b | None => true end end = true ->
  orel eq (dyn_format dy s) (q_dyn_format dy q).
Proof.
  destruct dy as [a o]. intros Hd. apply andb_true_iff in Hd. destruct Hd as [Ha Ho]. cbn [dyn_format q_dyn_format].
  assert (E : forall A (x : outcome A), orel eq x x) by (intros A [y|]; cbn; auto).
  eapply orel_bind; [now apply p_vec|]. intros ls ? <-. eapply orel_bind with (R := eq); [|intros ? ? <-; apply E].
  destruct o as [b|]; [|apply E]. eapply orel_bind; [now apply p_vec|]. intros vs ? <-. apply E.
Qed.
Lemma p_call es vs : forallb (fun x => loc_expr num (snd x)) es = true -> forallb (fun x => loc_view num (snd x)) vs = true ->
  orel (fun a b => match a, b with inl x, inl y => qrel x y | inr e, inr e' => e = e' | _, _ => False end) (call_scope s es vs) (q_call_scope q es vs).
Proof.
  intros He Hv. unfold call_scope, q_call_scope.
  eapply orel_bind with (R := Forall2 (entrel num)).
  - unfold call_values, q_call_values. apply orel_mapM_same, Forall_forall. rewrite forallb_forall in He. intros [x e] Hx. eapply orel_map; [apply p_left; exact (He _ Hx)|].
    intros a b Hab. now split.
  - intros l l' Hl.
    assert (V : orel (fun a b => match a, b with inl x, inl y => Forall2 (entrel num) x y | inr e, inr e' => e = e' | _, _ => False end)
                  (call_views s vs) (q_call_views q vs)).
    { clear -H Hv. induction vs as [|[x v] vs IH]; cbn; [constructor|]. cbn in Hv. apply andb_true_iff in Hv. destruct Hv as [H1 H2].
      eapply orel_bind; [now apply p_view|]. intros r ? <-. destruct r as [c|e]; [|reflexivity].
      eapply orel_map; [exact (IH H2)|]. intros [a|a] [b|b] Hab; try contradiction; auto. constructor; [|exact Hab]. now split. }
    eapply orel_map; [exact V|]. intros [a|a] [b|b] Hab; try contradiction; auto. apply qrel_multi; [apply qrel_empty|]. now apply Forall2_app.
Qed.
Lemma p_first v p bs : agree num v p -> forallb (fun b => match b with (p, d) => loc_pat num p && dec_ok num called d end) bs = true -> forall i,
  match first_match v s i bs, q_first_match p q i bs with
  | Some (j, s', d), Some (j', q', d') => j = j' /\ d = d' /\ qrel s' q' /\ dec_ok num called d = true
  | None, None => True
  | _, _ => False
  end.
Proof.
  intros Hv. induction bs as [|[pt d] bs IH]; intros Hb i; cbn [first_match q_first_match]; [exact I|]. cbn in Hb. rewrite !andb_true_iff in Hb.
  destruct Hb as [[Hp Hd] Hb]. pose proof (vmatches_rel num pt v p s q Hp Hv) as M.
  destruct (vmatches v s pt), (q_matches p q pt); try contradiction; [|now apply IH].
  destruct M as (es & es' & -> & -> & M). split; [reflexivity|]. split; [reflexivity|]. split; [now apply qrel_multi|exact Hd].
Qed.
End Scope.

(** ** Decoding *)

Lemma huffman_ok num ls f : huffman_format ls = Val f -> everywhere (fun g => loc_node num g = true) f.
Proof.
  unfold huffman_format. destruct (HuffmanModel.huffman_codes ls) as [codes|]; [|discriminate]. intros [= <-] g [<-|Hg]; [reflexivity|].
  apply in_flat_map in Hg as (f & Hf & Hg). apply List.in_map_iff in Hf as ([bits v] & <- & _). cbn [subs fst snd] in Hg.
  destruct Hg as [<-|[<-|Hg]]; try reflexivity. apply in_flat_map in Hg as (f & Hf & Hg). apply List.in_map_iff in Hf as (b & <- & _).
  destruct Hg as [<-|[]]. reflexivity.
Qed.
Lemma dyn_huffman {D} dy (s : scope D) f : dyn_format dy s = Val f -> exists ls, huffman_format ls = Val f.
Proof.
  destruct dy as [a o]. cbn [dyn_format]. destruct (obind (eval a s) value_to_vec_usize) as [ls|]; [|discriminate]. cbn [obind].
  destruct o as [b|]; cbn [obind]; [|eauto]. destruct (obind (eval b s) value_to_vec_usize) as [vs|]; [|discriminate]. cbn [obind].
  destruct (HuffmanModel.reorder ls vs) as [l|]; [|discriminate]. cbn [obind]. eauto.
Qed.
Lemma compile_one_dec_ok num called bld ls f d : huffman_format ls = Val f -> compile_one bld f = COk d -> dec_ok num called d = true.
Proof. intros Hf Hd. eapply gcomp_ok; [|apply compile_one_ok, Hd|]; [intros ? ? ? []|]. intros g Hg. apply loc_gnode. revert g Hg. eapply huffman_ok, Hf. Qed.

Lemma bytes_rel num v w : vag num v w ->
  orel eq (match get_sequence v with Some q => omapM get_as_u8 (vseq_list q) | None => Panic end)
          (match get_sequence w with Some q => omapM get_as_u8 (vseq_list q) | None => Panic end).
Proof.
  intros Hv. destruct (vag_flat_case num _ _ Hv) as [Hf| ->];
    [|destruct (match get_sequence w with Some q => omapM get_as_u8 (vseq_list q) | None => Panic end); cbn; auto].
  pose proof (strict_rel num _ _ Hv) as S.
  destruct v as [| | | | | | | |[?|]| | | |u| | | |[?|]]; try discriminate Hf; try exact I.
  destruct w as [| | | | | | | |[?|]| | | |t| | | |[?|]]; try apply orel_panic_r.
  - pose proof (vag_flat num _ _ Hv (or_intror eq_refl)). discriminate.
  - cbn in *. revert S. generalize (sk_to_list u), (sk_to_list t). induction l as [|x l IH]; intros l' S; inversion S as [|? y ? l2 Hxy Hl]; subst; cbn; [reflexivity|].
    specialize (IH _ Hl). destruct Hxy as [E _].
    destruct x as [|[]| | | | | | | | | | | | | | |]; try exact I; destruct y as [|[]| | | | | | | | | | | | | | |]; try apply orel_panic_r; cbn in E; try discriminate E;
      injection E as <-; cbn; try (destruct (get_as_unsigned _ _); cbn; [|exact I]); destruct (omapM _ l), (omapM _ l2); cbn in *; auto; now subst.
Qed.

Section Main.
Context (num : bool) (called : nat -> bool) (bld : fmodule -> list format -> next -> outcome (option mtree)) (P : program).
Context (HP : forall i d, called i = true -> nth_error P i = Some d -> dec_ok num called d = true).
Notation parse := (parse bld P).
Notation q_parse := (q_parse bld P).

Lemma parse_rel fuel : forall s q d c, qrel num called s q -> dec_ok num called d = true -> rrel (agree num) (parse fuel s d c) (q_parse fuel q d c).
Proof.
  induction fuel as [|fuel IH]; intros s q d c Hs Hd; [exact I|]. cbn [DecoderModel.parse LocModel.q_parse]. cbv zeta.
  assert (SQ : forall vs ps o l, Forall2 (agree num) vs ps -> agree num (VSeq (Strict vs)) (q_seq ps o l)) by (intros; now apply agree_seq).
  assert (LS : forall ds, forallb (dec_ok num called) ds = true -> Forall (fun d => forall s q c, qrel num called s q -> rrel (agree num) (parse fuel s d c) (q_parse fuel q d c)) ds).
  { intros ds H. apply Forall_forall. rewrite forallb_forall in H. intros x Hx s' q' c' Hq. now apply IH; [|apply H]. }
  assert (LP : forall ds, forallb (dec_ok num called) ds = true -> Forall2 (fun x y => snd x = snd y /\ body num (parse fuel) (q_parse fuel) (fst x) (fst y) (snd x)) (map (pair s) ds) (map (pair q) ds)).
  { intros ds H. apply LS in H. induction H as [|x ds Hx H IHd]; cbn; constructor; [|exact IHd]. cbn. split; [reflexivity|]. intros c'. now apply Hx. }
  destruct d; cbn [gdec_ok] in Hd; repeat match goal with H : (_ && _)%bool = true |- _ => apply andb_true_iff in H; destruct H end.
  - (* call *)
    eapply rrel_let; [now apply (p_call num called)|]. intros [s'|e] [q'|e'] Hx; try contradiction; [|subst; apply rrel_err].
    destruct (nth_error P n) as [d'|] eqn:E; [|exact I]. apply IH; [exact Hx|]. eapply HP, E. assumption.
  - apply rrel_ok. now apply agree_flat.
  - apply rrel_err.
  - destruct (rc_read_byte c) as [[b c']|]; [apply rrel_err|]. apply rrel_ok. now apply agree_tuple.
  - destruct (N.eqb n 0); [exact I|]. destruct (rc_split_at c _) as [[[? c']|]|]; cbn [rlet]; [|apply rrel_err|exact I]. apply rrel_ok. now apply agree_tuple.
  - destruct (rc_read_byte c) as [[b c']|]; [|apply rrel_err]. destruct (ByteSetModel.contains bs b); [|apply rrel_err]. apply rrel_ok. now apply agree_flat.
  - eapply rrel_map; [now apply IH|]. intros. now apply agree_variant.
  - apply par_rel. apply Forall_forall. intros x Hx c'. apply IH; [exact Hs|]. rewrite forallb_forall in Hd. now apply Hd.
  - destruct (tree_matches t c) as [i|]; [|apply rrel_err]. destruct (nth_error ds i) as [x|] eqn:E; [|exact I].
    apply nth_error_In in E. rewrite forallb_forall in Hd. eapply rrel_map; [now apply IH; [|apply Hd]|]. intros. now apply agree_branch.
  - eapply rrel_span; [now apply seq_rel, LP|]. intros. now apply agree_tuple.
  - eapply rrel_span; [now apply seq_rel, LP|]. intros. now apply SQ.
  - eapply rrel_span; [apply (while_rel num); intros c'; now apply IH|]. intros. now apply SQ.
  - eapply rrel_span; [apply (until_rel num); intros c'; now apply IH|]. intros. now apply SQ.
  - eapply rrel_let; [now apply (p_usize num called)|]. intros k ? <-. eapply rrel_span; [apply (seq_rel num)|intros; now apply SQ].
    induction (N.to_nat k); cbn; constructor; auto. split; [reflexivity|]. intros c'. now apply IH.
  - eapply rrel_span; [apply (until_done_rel num); [intros c'; now apply IH| |constructor]|intros; now apply SQ].
    intros. now apply (p_lambda_bool num called).
  - eapply rrel_map; [apply (until_done_rel num); [intros c'; now apply IH| |constructor]|intros; now apply SQ].
    intros. apply (p_lambda_bool num called); auto. apply agree_seq, Forall2_app; auto.
  - eapply rrel_let; [now apply (p_bool num called)|]. intros b ? <-. destruct b; [|apply rrel_ok, agree_none].
    eapply rrel_map; [now apply IH|]. intros. now apply agree_some.
  - now apply rrel_back, IH.
  - pose proof (IH s q d c Hs Hd) as Hr. destruct (parse fuel s d c), (q_parse fuel q d c); cbn [rrel] in Hr; try contradiction; try exact I; try apply rrel_panic_r;
      [apply rrel_err|]. apply rrel_ok. now apply agree_tuple.
  - eapply rrel_let; [now apply (p_usize num called)|]. intros k ? <-. destruct (rc_split_at c k) as [[[sl c']|]|]; cbn [rlet]; [|apply rrel_err|exact I].
    now apply rrel_back, IH.
  - destruct (rc_remaining c) as [rem|]; [|exact I]. cbn [rlet]. eapply rrel_bind; [now apply IH|]. intros a b cb Hab.
    destruct (rc_remaining cb) as [remb|]; [|exact I]. cbn [rlet]. destruct (_ <? _); [exact I|].
    destruct (rc_split_at c _) as [[[sl c']|]|]; cbn [rlet]; [|apply rrel_err|exact I]. now apply rrel_ok.
  - eapply rrel_let; [now apply (p_usize num called)|]. intros k ? <-. eapply rrel_let; [now apply (p_usize num called)|]. intros o ? <-.
    destruct (N.ltb _ _); [|exact I]. destruct (rc_seek_to c _); [|apply rrel_err]. now apply rrel_back, IH.
  - eapply rrel_bind; [now apply IH|]. intros a b c' Hab. eapply rrel_let; [now apply (p_lambda num called)|]. intros v w Hv. apply rrel_ok.
    apply agree_mapped, agree_inherit. now apply vag_vagr.
  - eapply rrel_bind; [now apply IH|]. intros a b c' Hab. eapply rrel_let; [now apply (p_lambda_bool num called)|]. intros x ? <-.
    destruct x; [now apply rrel_ok|]. assert (E : plain a = plain (to_value b)) by apply Hab.
    destruct strict; cbn; auto.
  - eapply rrel_let; [now apply (p_left num called)|]. intros. now apply rrel_ok.
  - eapply rrel_let; [now apply (p_left num called)|]. intros. apply IH; [|assumption]. now apply qrel_single.
  - eapply rrel_let; [now apply (p_eval num called)|]. intros v p Hv. pose proof (p_first num called s q Hs v p bs Hv ltac:(assumption) 0) as F.
    destruct (first_match v s 0 bs) as [[[j s'] d]|], (q_first_match p q 0 bs) as [[[j' q'] d']|]; try contradiction; [|exact I].
    destruct F as (<- & <- & Hq & Hok). eapply rrel_map; [now apply IH|]. intros. now apply agree_branch.
  - destruct dy as [a o]. rewrite andb_true_iff in Hd. destruct Hd as [Hy Hd]. cbn [andb] in Hy.
    pose proof (p_dyn num called s q Hs (DHuffman a o) Hy) as E. pose proof (dyn_huffman (DHuffman a o) s) as DH.
    destruct (dyn_format (DHuffman a o) s) as [f|]; [|exact I]. destruct (q_dyn_format (DHuffman a o) q) as [f'|]; [|apply rrel_panic_r].
    cbn [orel] in E. subst f'. cbn [rlet]. destruct (DH f eq_refl) as (ls & Hls).
    destruct (compile_one bld f) as [dd| |] eqn:Ec; try exact I. apply IH; [|exact Hd]. apply qrel_decoder; [exact Hs|]. eapply compile_one_dec_ok; eauto.
  - rewrite <- (q_dec _ _ _ _ Hs). destruct (get_decoder x s) as [d|] eqn:E; [|exact I]. apply IH; [exact Hs|]. eapply (q_decok _ _ _ _ Hs), E.
  - eapply rrel_let; [now apply (p_usize num called)|]. intros k ? <-. eapply rrel_let; [now apply (p_usize num called)|]. intros o ? <-.
    eapply rrel_span; [apply (between_rel num); intros c'; now apply IH|]. intros. now apply SQ.
  - (* for each *)
    eapply rrel_let with (R := Forall2 (agree num)).
    + pose proof (p_eval num called s q Hs e ltac:(assumption)) as E. unfold eval_value. destruct (eval e s) as [v|]; [|exact I].
      destruct (q_eval e q) as [p|]; [|apply orel_panic_r]. cbn [omap obind orel] in *. pose proof (seq_of_rel num _ _ E) as Hq.
      unfold seq_of, q_seq_of in Hq.
      destruct (q_get_sequence p) as [sq|] eqn:Eq; [|destruct (get_sequence _); apply orel_panic_r].
      assert (Ep : q_coerce p = p) by (destruct p; try discriminate Eq; reflexivity). rewrite Ep, Eq in Hq.
      destruct (get_sequence (coerce_mapped v)); [|exact I]. cbn in *. eapply sqrel_list, Hq.
    + intros l l' Hl. eapply rrel_span; [apply (seq_rel num)|intros; now apply SQ].
      induction Hl; cbn; constructor; auto. split; [reflexivity|]. intros c'. cbn. apply IH; [|assumption]. now apply qrel_single.
  - apply rrel_ok. now apply agree_tuple.
  - (* decode bytes *)
    eapply rrel_let with (R := eq).
    + eapply orel_bind; [now apply (p_value num called)|]. intros v w Hv. apply bytes_rel with (1 := Hv).
    + intros bytes ? <-. eapply rrel_bind; [now apply IH|]. intros a b c' Hab. destruct (rc_read_byte c') as [[x ?]|]; [|now apply rrel_ok].
      cbn. split; [exact Hab|]. split; [reflexivity|]. constructor; [reflexivity|constructor].
  - apply p_with with (num := num) (called := called); auto. intros c'. now apply rrel_back, IH.
  - eapply rrel_bind; [now apply IH|]. intros a b c' Hab. apply IH; [|assumption]. now apply qrel_single.
  - eapply rrel_bind; [now apply IH|]. intros a b c' Hab. now apply IH.
  - (* accumulate *)
    eapply rrel_let; [now apply (p_value num called)|]. intros v w Hv. eapply rrel_span; [apply (accum_rel num); [intros c'; now apply IH| | |apply vag_vagr, Hv|constructor]|].
    + intros a a' vs ps Ha Hps. apply (p_lambda_bool num called); auto. apply agree_from, vagr_tuple. constructor; [exact Ha|]. constructor; [|constructor].
      apply agree_clone, agree_seq. exact Hps.
    + intros a a' x y Ha Hxy. eapply orel_mono; [apply vag_vagr|]. apply (p_lambda num called); auto. apply agree_from, vagr_tuple. constructor; [exact Ha|]. constructor; [|constructor].
      now apply agree_clone.
    + intros [a l] [b l'] o k [Ha Hl]. cbn [fst snd] in *. apply agree_tuple. constructor; [now apply agree_from|]. constructor; [now apply SQ|constructor].
  - destruct o as [d|]; [|apply rrel_ok, agree_none]. eapply rrel_map; [now apply IH|]. intros. now apply agree_some.
  - apply IH; [|assumption]. now apply qrel_look.
  - eapply rrel_let; [now apply (p_usize num called)|]. intros k ? <-. apply p_with with (num := num) (called := called); auto. intros c'. apply rrel_back. eapply rrel_map; [apply (read_n_rel num), read_u8_rel|].
    intros. now apply SQ.
  - eapply rrel_let; [now apply (p_usize num called)|]. intros n ? <-. apply p_with with (num := num) (called := called); auto. intros c'. apply rrel_back. eapply rrel_map; [apply (read_n_rel num), read_base_rel|].
    intros. now apply SQ.
  - apply p_with with (num := num) (called := called); auto. intros c'. apply rrel_ok. now apply agree_flat.
  - apply rrel_ok. now apply agree_flat.
  - discriminate.
Qed.
End Main.

Lemma run_agrees num bld eqb M fuel f P (Heqb : forall a b, eqb a b = true -> a = b) :
  module_wide (fun g => loc_node num g = true) M -> everywhere (fun g => loc_node num g = true) f ->
  compile_program bld eqb M fuel f = Some (COk P) -> forall k c, same_result (run bld P k c) (run_with_loc bld P k c).
Proof.
  intros HM Hf HC k c.
  destruct (gcompiled (loc_expr num) (loc_view num) (loc_pat num) false true true true bld eqb M fuel f P Heqb) as (called & HP & d & Hd & Hok);
    [intros i it Hi g Hg; eapply loc_gnode, HM; eauto|intros g Hg; now apply loc_gnode, Hf|exact HC|].
  unfold run, run_with_loc. destruct P as [|d0 P']; [exact I|]. injection Hd as ->.
  pose proof (parse_rel num called bld (d :: P') HP k SEmpty QSEmpty d c (qrel_empty num called) Hok) as R.
  destruct (parse _ _ _ _ _ _), (q_parse _ _ _ _ _ _); cbn in *; try contradiction; try exact I; try exact R.
  destruct R as ([[E _] _] & Hcc & Hes). auto.
Qed.
