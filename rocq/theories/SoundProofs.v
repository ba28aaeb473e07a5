(** Soundness: what a compiled decoder accepts belongs to its format. *)
From Verif Require ByteSetModel HuffmanModel.
From Verif Require Import Base BoundsModel DataModel NumericModel ValueModel ValueProofs FormatModel MatchTreeModel
  DecoderModel DecoderProofs FormatSpec FormatInd CompileProofs.
Open Scope nat_scope.

(** ** Inversion of results *)

Lemma rbind_ok {A B} (r : dres A) (k : A -> rctx -> dres B) b c es : rbind r k = ROk b c es ->
  exists a c1 e1 e2, r = ROk a c1 e1 /\ k a c1 = ROk b c e2 /\ es = e2 ++ e1.
Proof.
  destruct r as [a c1 e1| | |]; try discriminate. cbn. destruct (k a c1) as [b' c' e2| | |] eqn:E; try discriminate.
  intros [= <- <- <-]. exists a, c1, e1, e2. auto.
Qed.
Lemma rmap_ok {A B} (f : A -> B) r b c es : rmap f r = ROk b c es -> exists a, r = ROk a c es /\ b = f a.
Proof. destruct r as [a c1 e1| | |]; try discriminate. intros [= <- <- <-]. eauto. Qed.
Lemma rback_ok {A} c0 (r : dres A) b c es : rback c0 r = ROk b c es -> c = c0 /\ exists c1, r = ROk b c1 es.
Proof. destruct r as [a c1 e1| | |]; try discriminate. intros [= <- <- <-]. eauto. Qed.
Lemma rlet_ok {A B} (x : outcome A) (k : A -> dres B) b c es : rlet x k = ROk b c es -> exists a, x = Val a /\ k a = ROk b c es.
Proof. destruct x as [a|]; [|discriminate]. cbn. eauto. Qed.
Lemma with_view_ok {D A} (s : scope D) v (k : rctx -> dres A) b c es : with_view s v k = ROk b c es ->
  exists w, eval_view s v = Val (inl w) /\ k w = ROk b c es.
Proof. intros H. apply rlet_ok in H as ([w|e] & E & H); [eauto|discriminate]. Qed.
Ltac inv_r :=
  repeat match goal with
  | H : rbind _ _ = ROk _ _ _ |- _ => apply rbind_ok in H as (? & ? & ? & ? & ? & ? & ?)
  | H : rmap _ _ = ROk _ _ _ |- _ => apply rmap_ok in H as (? & ? & ?)
  | H : rback _ _ = ROk _ _ _ |- _ => apply rback_ok in H as (? & ? & ?)
  | H : rlet _ _ = ROk _ _ _ |- _ => apply rlet_ok in H as (? & ? & ?)
  | H : with_view _ _ _ = ROk _ _ _ |- _ => apply with_view_ok in H as (? & ? & ?)
  | H : ROk _ _ _ = ROk _ _ _ |- _ => injection H; clear H; intros; subst
  | H : RErr _ = ROk _ _ _ |- _ => discriminate H
  | H : RPanic = ROk _ _ _ |- _ => discriminate H
  | H : RFuel = ROk _ _ _ |- _ => discriminate H
  end; subst.

(** ** Related scopes *)

Section Scopes.
Context {D1 D2 : Type} (R : D1 -> D2 -> Prop).
Definition ent_ok (e : label * vov) : Prop := match snd e with EntView c => in_range c | EntVal _ => True end.
Inductive srel : scope D1 -> scope D2 -> Prop :=
| RelEmpty : srel SEmpty SEmpty
| RelMulti s s' es : srel s s' -> Forall ent_ok es -> srel (SMulti s es) (SMulti s' es)
| RelSingle s s' x v : srel s s' -> srel (SSingle s x v) (SSingle s' x v)
| RelDecoder s s' x d d' : srel s s' -> R d d' -> srel (SDecoder s x d) (SDecoder s' x d')
| RelView s s' x c : srel s s' -> in_range c -> srel (SView s x c) (SView s' x c).

Lemma srel_value s s' : srel s s' -> forall x, get_value x s = get_value x s'.
Proof. induction 1; intros y; cbn; auto; try (now rewrite IHsrel). Qed.
Lemma scan_view_ok x es c : Forall ent_ok es -> scan_view x (rev es) = Some c -> in_range c.
Proof.
  intros H. assert (Hr : Forall ent_ok (rev es)) by now apply Forall_rev. clear H.
  induction Hr as [|[n [w|v]] l Hw Hl IH]; cbn; [discriminate| |auto].
  destruct (N.eqb n x); [|auto]. intros [= <-]. exact Hw.
Qed.
Lemma srel_view s s' : srel s s' -> forall x, get_view x s = get_view x s' /\ forall c, get_view x s = Some c -> in_range c.
Proof.
  induction 1; intros y; cbn; auto; try (now destruct (IHsrel y)).
  - split; [reflexivity|discriminate].
  - destruct (IHsrel y) as [E F]. rewrite E in *. split; [reflexivity|].
    destruct (scan_view y (rev es)) as [w|] eqn:Es; [|exact F]. intros c [= <-]. eapply scan_view_ok; eauto.
  - destruct (IHsrel y) as [E F]. rewrite E in *. split; [reflexivity|]. destruct (N.eqb x y); [|exact F]. now intros ? [= <-].
Qed.
Lemma srel_decoder s s' : srel s s' -> forall x,
  match get_decoder x s, get_decoder x s' with Some d, Some d' => R d d' | None, None => True | _, _ => False end.
Proof. induction 1; intros y; cbn; auto; try (apply IHsrel). destruct (N.eqb x y); [assumption|apply IHsrel]. Qed.

Lemma srel_eval s s' e : srel s s' -> eval e s = eval e s'.
Proof. intros H. apply eval_ext. intros x _. now apply srel_value. Qed.
Lemma srel_eval_value s s' e : srel s s' -> eval_value e s = eval_value e s'.
Proof. intros H. unfold eval_value. now rewrite (srel_eval s s'). Qed.
Lemma srel_lambda s s' e v : srel s s' -> eval_lambda e s v = eval_lambda e s' v.
Proof. intros H. destruct e; try reflexivity. cbn. apply srel_eval_value. now constructor. Qed.
Lemma srel_usize s s' e : srel s s' -> eval_usize e s = eval_usize e s'.
Proof. intros H. unfold eval_usize. now rewrite (srel_eval_value s s'). Qed.
Lemma srel_bool s s' e : srel s s' -> eval_bool e s = eval_bool e s'.
Proof. intros H. unfold eval_bool. now rewrite (srel_eval_value s s'). Qed.
Lemma srel_lambda_bool s s' e v : srel s s' -> lambda_bool e s v = lambda_bool e s' v.
Proof. intros H. unfold lambda_bool. now rewrite (srel_lambda s s'). Qed.
Lemma srel_eval_view s s' v : srel s s' ->
  eval_view s v = eval_view s' v /\ forall w, eval_view s v = Val (inl w) -> in_range w.
Proof.
  intros H. induction v as [x|v [IH IHr] e]; cbn [eval_view].
  - destruct (srel_view s s' H x) as [E F]. rewrite E in *. split; [reflexivity|].
    destruct (get_view x s') as [c|]; [|discriminate]. intros w [= <-]. now apply F.
  - rewrite (srel_eval_value s s' e H), IH in *. split; [reflexivity|]. intros w Hw.
    destruct (obind (eval_value e s') unwrap_usize) as [off|]; [|discriminate]. cbn in Hw.
    destruct (eval_view s' v) as [[c|er]|]; cbn in Hw; try discriminate.
    destruct (rc_split_at c off) as [[[sl w']|]|] eqn:Es; cbn in Hw; try discriminate. injection Hw as <-.
    apply split_at_adv in Es. eapply advances_range; eauto.
Qed.
Lemma srel_matches s s' v p : srel s s' ->
  match vmatches v s p, vmatches v s' p with Some a, Some b => srel a b | None, None => True | _, _ => False end.
Proof.
  intros H. unfold vmatches. destruct (matches_inner p (coerce_nominal v) []) as [bs|]; cbn; [|exact I].
  constructor; [exact H|]. apply Forall_forall. intros y Hy. apply in_map_iff in Hy as (b & <- & _). exact I.
Qed.
Lemma srel_call s s' es vs : srel s s' ->
  match call_scope s es vs, call_scope s' es vs with
  | Val (inl a), Val (inl b) => srel a b
  | Val (inr e), Val (inr e') => e = e'
  | Panic, Panic => True
  | _, _ => False
  end.
Proof.
  intros H. unfold call_scope.
  assert (Ev : call_values s es = call_values s' es).
  { unfold call_values. apply omapM_ext. intros [x e] _. now rewrite (srel_eval_value s s'). }
  rewrite Ev. destruct (call_values s' es) as [l|] eqn:El; cbn; [|exact I].
  assert (Hl : Forall ent_ok l).
  { clear -El. unfold call_values in El. revert l El. induction es as [|[x e] es IH]; cbn; intros l El.
    - injection El as <-. constructor.
    - destruct (eval_value e s'); cbn in El; [|discriminate].
      destruct (omapM _ es) as [l'|]; cbn in El; [|discriminate]. injection El as <-. constructor; [exact I|auto]. }
  assert (Hv : call_views s vs = call_views s' vs /\ forall l', call_views s vs = Val (inl l') -> Forall ent_ok l').
  { clear -H. induction vs as [|[x v] vs [IH IHr]]; cbn.
    - split; [reflexivity|]. intros l' [= <-]. constructor.
    - destruct (srel_eval_view s s' v H) as [E F]. rewrite E in *.
      unfold call_views in IH, IHr. rewrite IH in *. split; [reflexivity|].
      destruct (eval_view s' v) as [[c|e]|]; cbn; try discriminate.
      match goal with |- context [omap _ ?t] => destruct t as [[l'|e]|] eqn:Et; cbn; try discriminate end.
      intros l'' [= <-]. constructor; [cbn; now apply F|]. now apply IHr. }
  destruct Hv as [Hv1 Hv2]. rewrite Hv1 in *. destruct (call_views s' vs) as [[l'|e]|]; cbn; auto.
  constructor; [constructor|]. apply Forall_app. auto.
Qed.
Lemma srel_dyn s s' dy : srel s s' -> dyn_format dy s = dyn_format dy s'.
Proof.
  intros H. destruct dy as [le [ve|]]; cbn [dyn_format]; rewrite (srel_eval s s' le H); [|reflexivity].
  now rewrite (srel_eval s s' ve H).
Qed.
Lemma srel_first_match {X Y} (Q : X -> Y -> Prop) s s' v : srel s s' -> forall (bs : list (pattern * X)) (bs' : list (pattern * Y)) i,
  Forall2 (fun b b' => fst b = fst b' /\ Q (snd b) (snd b')) bs bs' ->
  match first_match v s i bs, first_match v s' i bs' with
  | Some (j, a, x), Some (j', a', y) => j = j' /\ srel a a' /\ Q x y
  | None, None => True
  | _, _ => False
  end.
Proof.
  intros H bs bs' i F. revert i. induction F as [|[p x] [p' y] bs bs' [E HQ] F IH]; intros i; cbn in *; [exact I|]. subst p'.
  pose proof (srel_matches s s' v p H) as Hm.
  destruct (vmatches v s p), (vmatches v s' p); try contradiction; [auto|]. apply IH.
Qed.
End Scopes.

(** ** Loops *)

Section Loops.
Context {Sc Dc : Type} (p : Sc -> Dc -> rctx -> dres value).
Context (Hadv : forall s d c, in_range c -> radv c (p s d c)).
Context {A : Type} (R : list N -> A -> nat -> nat -> value -> Prop).
Definition body_ok (s : Sc) (d : Dc) (a : A) : Prop :=
  forall c v c' es, in_range c -> p s d c = ROk v c' es -> R (rinput c) a (roff c) (roff c') v.
Lemma adv_ok s d c v c' es : in_range c -> p s d c = ROk v c' es -> advances c c'.
Proof. intros Hc H. pose proof (Hadv s d c Hc) as Ha. now rewrite H in Ha. Qed.

Lemma pseq_chain l las : Forall2 (fun sd a => body_ok (fst sd) (snd sd) a) l las ->
  forall c vs c' es, in_range c -> pseq p l c = ROk vs c' es -> Chain (R (rinput c)) las (roff c) (roff c') vs.
Proof.
  intros F. induction F as [|[s d] a l las Hb F IH]; intros c vs c' es Hc H; cbn [pseq] in H.
  - inv_r. constructor.
  - inv_r. pose proof (adv_ok _ _ _ _ _ _ Hc H) as Ha. econstructor; [eapply Hb; eauto|].
    rewrite <- (proj1 Ha). eapply IH; eauto. eapply advances_range; eauto.
Qed.
Context (s : Sc) (d : Dc) (a : A) (Hb : body_ok s d a).
Context (t : mtree).
Lemma pwhile_chain fuel : forall c vs c' es, in_range c -> pwhile p s d t fuel c = ROk vs c' es ->
  exists n, Chain (R (rinput c)) (repeat a n) (roff c) (roff c') vs.
Proof.
  induction fuel as [|fuel IH]; intros c vs c' es Hc H; cbn [pwhile] in H; [discriminate|].
  destruct (tree_matches t c) as [[|k]|]; inv_r.
  - pose proof (adv_ok _ _ _ _ _ _ Hc H) as Ha. apply IH in H0 as (n & Hn); [|eapply advances_range; eauto].
    exists (S n). cbn. econstructor; [eapply Hb; eauto|]. now rewrite <- (proj1 Ha).
  - exists 0. constructor.
Qed.
Lemma puntil_chain fuel : forall c vs c' es, in_range c -> puntil p s d t fuel c = ROk vs c' es ->
  exists n, Chain (R (rinput c)) (repeat a (S n)) (roff c) (roff c') vs.
Proof.
  induction fuel as [|fuel IH]; intros c vs c' es Hc H; cbn [puntil] in H; [discriminate|]. inv_r.
  pose proof (adv_ok _ _ _ _ _ _ Hc H) as Ha. pose proof (Hb _ _ _ _ Hc H) as HR.
  destruct (tree_matches t x0) as [[|k]|]; inv_r.
  - exists 0. cbn. econstructor; [exact HR|]. constructor.
  - apply IH in H0 as (n & Hn); [|eapply advances_range; eauto]. exists (S n). rewrite (proj1 Ha) in Hn.
    cbn [repeat] in Hn |- *. econstructor; eauto.
Qed.
Lemma pbetween_chain mn mx c0 fuel : forall len c vs c' es, in_range c -> (N.of_nat len <= mx)%N ->
  pbetween p s d t mn mx c0 len fuel c = ROk vs c' es ->
  exists n, Chain (R (rinput c)) (repeat a n) (roff c) (roff c') vs /\ (mn <= N.of_nat (len + n) <= mx)%N.
Proof.
  induction fuel as [|fuel IH]; intros len c vs c' es Hc Hl H; cbn [pbetween] in H; [discriminate|].
  destruct (tree_matches t c0) as [k|]; [|discriminate].
  destruct (Nat.eqb k 0 || N.eqb (N.of_nat len) mx) eqn:E.
  - destruct (N.ltb_spec (N.of_nat len) mn); [discriminate|]. inv_r. exists 0. split; [constructor|lia].
  - inv_r. pose proof (adv_ok _ _ _ _ _ _ Hc H) as Ha.
    apply orb_false_iff in E as [_ E]. apply N.eqb_neq in E.
    apply IH in H0 as (n & Hn & Hr); [|eapply advances_range; eauto|lia].
    exists (S n). split; [|lia]. cbn. econstructor; [eapply Hb; eauto|]. now rewrite <- (proj1 Ha).
Qed.
Lemma puntil_done_chain stop fuel : forall acc c vs c' es, in_range c -> puntil_done p s d stop acc fuel c = ROk vs c' es ->
  exists n vs', vs = acc ++ vs' /\ Chain (R (rinput c)) (repeat a n) (roff c) (roff c') vs' /\ StopsAt stop acc vs'.
Proof.
  induction fuel as [|fuel IH]; intros acc c vs c' es Hc H; cbn [puntil_done] in H; [discriminate|]. inv_r.
  pose proof (adv_ok _ _ _ _ _ _ Hc H) as Ha. pose proof (Hb _ _ _ _ Hc H) as HR.
  match goal with H : (if ?b then _ else _) = ROk _ _ _ |- _ => destruct b; inv_r end.
  - exists 1, [x]. split; [reflexivity|]. split; [|now constructor]. cbn. econstructor; [exact HR|]. constructor.
  - match goal with H : puntil_done _ _ _ _ _ _ _ = _ |- _ => apply IH in H as (n & vs' & -> & Hn & Hs) end; [|eapply advances_range; eauto].
    exists (S n), (x :: vs'). split; [now rewrite <- app_assoc|]. rewrite (proj1 Ha) in Hn.
    split; [cbn; econstructor; eauto|now constructor].
Qed.
Lemma paccum_chain stop upd fuel : forall acc dn c r c' es, in_range c -> paccum p s d stop upd acc dn fuel c = ROk r c' es ->
  exists n vs', snd r = dn ++ vs' /\ Chain (R (rinput c)) (repeat a n) (roff c) (roff c') vs' /\ AccumTo stop upd acc dn vs' (fst r).
Proof.
  induction fuel as [|fuel IH]; intros acc dn c r c' es Hc H; cbn [paccum] in H; [discriminate|]. inv_r.
  match goal with H : (if ?b then _ else _) = ROk _ _ _ |- _ => destruct b; inv_r end.
  - exists 0, []. split; [now rewrite app_nil_r|]. split; constructor; assumption.
  - match goal with H : p s d c = ROk ?v ?c1 ?e |- _ =>
      pose proof (adv_ok _ _ _ _ _ _ Hc H) as Ha; pose proof (Hb _ _ _ _ Hc H) as HR; rename v into x; clear H end.
    match goal with H : paccum _ _ _ _ _ _ _ _ _ = _ |- _ => apply IH in H as (n & vs' & E & Hn & Hs) end; [|eapply advances_range; eauto].
    exists (S n), (x :: vs'). split; [now rewrite E, <- app_assoc|]. rewrite (proj1 Ha) in Hn.
    split; [cbn; econstructor; eauto|econstructor; eauto].
Qed.
End Loops.

Lemma Chain_repeat_count {A} (R : A -> nat -> nat -> value -> Prop) a n i j vs : Chain R (repeat a n) i j vs -> length vs = n.
Proof. revert i vs; induction n; intros i vs H; inversion H; subst; cbn; auto. f_equal. eauto. Qed.
Lemma Chain_mono {A} (R R' : A -> nat -> nat -> value -> Prop) l i j vs :
  (forall a i j v, In a l -> R a i j v -> R' a i j v) -> Chain R l i j vs -> Chain R' l i j vs.
Proof.
  intros H C. induction C as [|? ? ? ? ? ? ? ? ? IHC]; [constructor|]. econstructor; [apply H; cbn; eauto|].
  apply IHC. intros; apply H; cbn; auto.
Qed.

Lemma StopsAt_ext stop stop' acc vs : (forall a v, stop a v = stop' a v) -> StopsAt stop acc vs -> StopsAt stop' acc vs.
Proof. intros E H. induction H; [apply StopLast|apply StopMore]; congruence || assumption. Qed.
Lemma AccumTo_ext stop upd stop' upd' acc dn vs acc' : (forall a v, stop a v = stop' a v) -> (forall a v, upd a v = upd' a v) ->
  AccumTo stop upd acc dn vs acc' -> AccumTo stop' upd' acc dn vs acc'.
Proof.
  intros E E' H. induction H; [apply AccStop; congruence|]. eapply AccMore; [|rewrite <- E'; eassumption|assumption]. congruence.
Qed.

Lemma read_n_chain k rd n : (forall c v c' es, rd c = ROk v c' es -> Elem k (rinput c) tt (roff c) (roff c') v /\ rinput c' = rinput c) ->
  forall c vs c' es, read_n rd n c = ROk vs c' es -> Chain (Elem k (rinput c)) (repeat tt n) (roff c) (roff c') vs.
Proof.
  intros Hrd. induction n as [|n IH]; intros c vs c' es H; cbn [read_n] in H; inv_r; [constructor|].
  apply Hrd in H as [H E]. cbn. econstructor; [exact H|]. rewrite <- E. eauto.
Qed.
Lemma nth_skip {A} (l : list A) i b : nth_error l i = Some b -> exists r, skipn i l = b :: r.
Proof.
  intros H. apply nth_error_split in H as (l1 & l2 & -> & <-). exists l2.
  rewrite skipn_app, skipn_all, Nat.sub_diag. reflexivity.
Qed.
Lemma read_byte_elem be c b c' : rc_read_byte c = Some (b, c') ->
  Elem (BK B8 be) (rinput c) tt (roff c) (roff c') (VU B8 b) /\ rinput c' = rinput c.
Proof.
  intros H. apply read_byte_adv in H as (Ha & Eo & Hn). split; [|apply Ha].
  assert (L : roff c < length (rinput c)) by (apply nth_error_Some; congruence).
  assert (E : Elem (BK B8 be) (rinput c) tt (roff c) (roff c + N.to_nat (nbits B8 / 8)) (VU B8 (from_be_bytes [b]))).
  { constructor; [|now left]. unfold bytes_at. cbn [bk_width]. change (N.to_nat (nbits B8 / 8)) with 1.
    destruct (Nat.leb_spec (roff c + 1) (length (rinput c))); [|lia].
    destruct (nth_skip _ _ _ Hn) as (r & ->). reflexivity. }
  change (N.to_nat (nbits B8 / 8)) with 1 in E. rewrite Eo. replace (S (roff c)) with (roff c + 1) by lia. exact E.
Qed.
Lemma read_base_elem k c v c' es : read_base k c = ROk v c' es -> Elem k (rinput c) tt (roff c) (roff c') v /\ rinput c' = rinput c.
Proof.
  destruct k as [w be]. unfold read_base. cbn [bk_width bk_be].
  assert (Hw : forall sz, rc_read_be sz c = rc_read_be sz c) by reflexivity.
  destruct w.
  1: destruct (rc_read_byte c) as [[b c1]|] eqn:E; [|discriminate]; intros [= <- <- _]; now apply read_byte_elem.
  all: destruct be; [|discriminate];
    match goal with |- context [rc_read_be ?z _] => set (sz := z) end;
    unfold rc_read_be; destruct (Nat.leb_spec (roff c + sz) (length (rinput c))) as [L|]; [|discriminate];
    intros [= <- <- _]; split; [|reflexivity]; cbn [roff]; constructor; [|now right];
    unfold bytes_at; cbn [bk_width]; fold sz; destruct (Nat.leb_spec (roff c + sz) (length (rinput c))); [reflexivity|lia].
Qed.

Lemma align_arith (i n : N) : n <> 0%N -> let k := ((n - i mod n) mod n)%N in ((i + k) mod n = 0)%N /\ (k < n)%N.
Proof.
  intros Hn k. split; [|now apply N.mod_lt]. unfold k.
  pose proof (N.mod_lt i n Hn) as H1.
  destruct (N.eq_dec (i mod n) 0) as [E|E].
  - rewrite E, N.sub_0_r, N.mod_same, N.add_0_r by exact Hn. exact E.
  - rewrite (N.mod_small (n - i mod n) n) by lia. rewrite (N.div_mod i n Hn) at 1.
    replace (n * (i / n) + i mod n + (n - i mod n))%N with ((i / n + 1) * n)%N.
    + apply N.mod_mul. exact Hn.
    + rewrite N.mul_add_distr_r, (N.mul_comm n). generalize (i / n * n)%N. intros; lia.
Qed.

Lemma dyn_huffman {D} dy (s : scope D) f : dyn_format dy s = Val f -> exists ls, huffman_format ls = Val f.
Proof.
  destruct dy as [a o]. cbn [dyn_format]. destruct (obind (eval a s) value_to_vec_usize) as [ls|]; [|discriminate]. cbn [obind].
  destruct o as [b|]; cbn [obind]; [|eauto]. destruct (obind (eval b s) value_to_vec_usize) as [vs|]; [|discriminate]. cbn [obind].
  destruct (HuffmanModel.reorder ls vs) as [l|]; [|discriminate]. cbn [obind]. eauto.
Qed.

Section Sound.
Context (bld : fmodule -> list format -> next -> outcome (option mtree)) (P : program) (m : fmodule).
Context (Call : nat -> next -> nat -> Prop) (HL : linked bld m P Call).

(** A format bound in a scope is a Huffman code, and makes no calls. *)
Definition drel (d : decoder) (g : format) : Prop :=
  Comp bld [] (fun _ _ _ => False) g NEmpty d /\ exists ls, huffman_format ls = Val g.

Lemma Forall2_repeat {A B} (R : A -> B -> Prop) a b n : R a b -> Forall2 R (repeat a n) (repeat b n).
Proof. intros H. induction n; cbn; auto. Qed.

Lemma Forall2_nth_r {A B} (R : A -> B -> Prop) l l' k b : Forall2 R l l' -> nth_error l' k = Some b ->
  exists a, nth_error l k = Some a /\ R a b.
Proof.
  intros F. revert k. induction F as [|x y l l' Hxy F IH]; intros [|k] H; cbn in *; try discriminate; eauto.
  injection H as <-. eauto.
Qed.
Lemma ppar_ok {Sc Dc} (p : Sc -> Dc -> rctx -> dres value) s ds c v c' es : forall i,
  ppar p i s ds c = ROk v c' es -> exists k d w, nth_error ds k = Some d /\ v = VBranch (i + k) w /\ p s d c = ROk w c' es /\
    Forall (fun d => exists e, p s d c = RErr e) (firstn k ds).
Proof.
  induction ds as [|d ds IH]; intros i H; cbn [ppar] in H; [discriminate|].
  destruct (p s d c) as [w cw ew| | |] eqn:E; cbn [rmap] in H; try discriminate.
  - injection H as <- <- <-. exists 0, d, w. rewrite Nat.add_0_r. cbn. auto.
  - apply IH in H as (k & d' & w & Hk & -> & Hp & Hf). exists (S k), d', w. cbn. rewrite Nat.add_succ_r. eauto 6.
Qed.

(** The conditions on failures follow from the failure of the compiled format. *)
Context (unmatched failed : scope format -> format -> list N -> nat -> Prop).
Definition free : Prop := forall s f buf i, unmatched s f buf i /\ failed s f buf i.
Definition unmatched_ok : Prop := forall fuel f d s sf c e,
  Comp bld m Call f NEmpty d -> srel drel s sf -> in_range c -> parse bld P fuel s d c = RErr e -> unmatched sf f (rinput c) (roff c).
Definition failed_ok : Prop := forall fuel f n d s sf c e,
  Comp bld m Call f n d -> srel drel s sf -> in_range c -> parse bld P fuel s d c = RErr e -> failed sf f (rinput c) (roff c).
Definition bound_ok : Prop := forall fuel g d s sf c v c' es,
  drel d g -> srel drel s sf -> in_range c -> parse bld P fuel s d c = ROk v c' es ->
  SemN m false unmatched failed sf g (rinput c) (roff c) (roff c') v.

Lemma sound_gen fuel : forall m' C' f n d s sf c v c' es,
  (m' = m /\ C' = Call \/ forall a b i, ~ C' a b i) ->
  (free \/ (m' = m /\ C' = Call) /\ unmatched_ok /\ failed_ok /\ bound_ok) ->
  Comp bld m' C' f n d -> srel drel s sf -> in_range c ->
  parse bld P fuel s d c = ROk v c' es ->
  SemN m false unmatched failed sf f (rinput c) (roff c) (roff c') v.
Proof.
  induction fuel as [|fuel IH]; intros m' C' f n d s sf c v c' es HC HN HD Hs Hc H; [discriminate|].
  pose proof (parse_adv bld P fuel) as Hadv.
  assert (IHb : forall f n d s sf, Comp bld m' C' f n d -> srel drel s sf ->
    body_ok (parse bld P fuel) (fun buf f i j v => SemN m false unmatched failed sf f buf i j v) s d f).
  { intros f0 n0 d0 s0 sf0 H0 Hs0 c0 v0 c0' es0 Hc0 Hp0. eapply IH; eauto. }
  assert (IHt : forall fs n ds, CTup (Comp bld m' C') fs n ds ->
    forall c vs c' es, in_range c -> pseq (parse bld P fuel) (map (pair s) ds) c = ROk vs c' es ->
      Chain (fun f i j v => SemN m false unmatched failed sf f (rinput c) i j v) fs (roff c) (roff c') vs).
  { intros fs n0 ds HT c0 vs c0' es0 Hc0 Hp0.
    refine (pseq_chain (parse bld P fuel) Hadv (fun buf f i j v => SemN m false unmatched failed sf f buf i j v) _ _ _ c0 vs c0' es0 Hc0 Hp0).
    clear -HT IHb Hs. induction HT; cbn; constructor; auto. cbn. eapply IHb; eauto. }
  revert n d HD H. induction f using format_ind'; try match goal with HH : Forall _ _ |- _ => clear HH end; intros nx dd HD H; inversion HD; subst;
    try (match goal with HH : context [CTup] |- _ => idtac end; pose proof I);
    cbn [parse] in H.
  - (* item *)
    apply rlet_ok in H as (o & Eo & H). destruct HC as [[-> ->]|HC]; [|exfalso; eapply HC; eauto].
    match goal with H0 : get_item m l = Some ?i, H1 : Call _ _ _ |- _ => rename i into it; rename H0 into Hit0; rename H1 into Hcall end.
    pose proof (srel_call drel s sf (combine (it_args it) a) (combine (it_views it) v0) Hs) as Hcs.
    rewrite Eo in Hcs. destruct o as [s'|e]; [|discriminate].
    destruct (call_scope sf _ _) as [[sf'|]|] eqn:Ef; try contradiction.
    destruct (HL _ _ _ Hcall) as (it' & d' & Hit & Hd' & Hc'). replace it' with it in * by congruence.
    rewrite Hd' in H. econstructor; eauto.
  - discriminate.
  - destruct (rc_read_byte c) as [[b ?]|] eqn:E; [discriminate|]. inv_r. constructor.
    unfold rc_read_byte in E. destruct (nth_error _ _) eqn:En; [discriminate|]. now apply nth_error_None.
  - destruct (N.eqb_spec n 0) as [|Hn]; [discriminate|]. apply rlet_ok in H as ([[sl c1]|] & Es & H); [|discriminate]. inv_r.
    apply split_at_spec in Es as (-> & _ & Hle). cbn [roff rinput] in *.
    destruct (align_arith (N.of_nat (roff c)) n Hn) as [A1 A2].
    constructor; [exact Hn| |lia| |exact Hle].
    + replace (N.of_nat _) with (N.of_nat (roff c) + (n - N.of_nat (roff c) mod n) mod n)%N; [exact A1|].
      generalize ((n - N.of_nat (roff c) mod n) mod n)%N. intros; lia.
    + clear A1. generalize dependent ((n - N.of_nat (roff c) mod n) mod n)%N. intros; lia.
  - destruct (rc_read_byte c) as [[x c1]|] eqn:E; [|discriminate].
    destruct (ByteSetModel.contains b x) eqn:Eb; [|discriminate]. inv_r.
    apply read_byte_adv in E as (_ & -> & E). now constructor.
  - apply rmap_ok in H as (w & H & ->). constructor. eapply IH; eauto.
  - (* union *)
    destruct (tree_matches t c) as [k|]; [|discriminate]. destruct (nth_error ds k) as [d'|] eqn:Ed; [|discriminate].
    apply rmap_ok in H as (w & H & ->).
    match goal with F : Forall2 _ fs ds |- _ => destruct (Forall2_nth_r _ _ _ _ _ F Ed) as (f' & Ef & Hf) end.
    econstructor; eauto.
  - apply ppar_ok in H as (k & d' & w & Ed & -> & Hp & He).
    match goal with F : Forall2 _ fs ds |- _ => rename F into F2 end. destruct (Forall2_nth_r _ _ _ _ _ F2 Ed) as (f' & Ef & Hf).
    econstructor; eauto. destruct HN as [HN|([-> ->] & _ & HN & _)]; [apply Forall_forall; intros; now apply HN|].
    clear - F2 He HN Hs Hc. revert k He. induction F2; intros [|k] He; cbn in *; try constructor; inversion He as [|? ? [e He1] He2]; subst; eauto.
  - apply rmap_ok in H as (w & H & ->). constructor. eapply IHt; eauto.
  - apply rmap_ok in H as (w & H & ->). constructor. eapply IHt; eauto.
  - apply rmap_ok in H as (w & H & ->).
    eapply (pwhile_chain _ Hadv (fun buf f i j v => SemN m false unmatched failed sf f buf i j v)) with (a := f) in H as (n & Hn); auto.
    + econstructor; exact Hn.
    + eapply IHb; eauto.
  - apply rmap_ok in H as (w & H & ->).
    eapply (puntil_chain _ Hadv (fun buf f i j v => SemN m false unmatched failed sf f buf i j v)) with (a := f) in H as (n & Hn); auto.
    + econstructor; exact Hn.
    + eapply IHb; eauto.
  - apply rlet_ok in H as (k & Ek & H). rewrite (srel_usize drel s sf e Hs) in Ek. apply rmap_ok in H as (w & H & ->).
    econstructor; [exact Ek|]. eapply (pseq_chain _ Hadv (fun buf f i j v => SemN m false unmatched failed sf f buf i j v)); eauto.
    apply Forall2_repeat. cbn. eapply IHb; eauto.
  - apply rlet_ok in H as (k1' & E1 & H). apply rlet_ok in H as (k2' & E2 & H). apply rmap_ok in H as (w & H & ->).
    rewrite (srel_usize drel s sf _ Hs) in E1. rewrite (srel_usize drel s sf _ Hs) in E2.
    eapply (pbetween_chain _ Hadv (fun buf f i j v => SemN m false unmatched failed sf f buf i j v)) with (a := f) in H as (n & Hn & Hr); auto.
    + econstructor; eauto.
    + eapply IHb; eauto.
    + cbn. lia.
  - apply rmap_ok in H as (w & H & ->).
    eapply (puntil_done_chain _ Hadv (fun buf f i j v => SemN m false unmatched failed sf f buf i j v)) with (a := f) in H as (n & vs & -> & Hn & Hst); auto.
    + econstructor; [exact Hn|]. cbn [app]. eapply StopsAt_ext; [|exact Hst]. intros. now apply (srel_lambda_bool drel).
    + eapply IHb; eauto.
  - apply rmap_ok in H as (w & H & ->).
    eapply (puntil_done_chain _ Hadv (fun buf f i j v => SemN m false unmatched failed sf f buf i j v)) with (a := f) in H as (n & vs & -> & Hn & Hst); auto.
    + econstructor; [exact Hn|]. cbn [app]. eapply StopsAt_ext; [|exact Hst]. intros. now apply (srel_lambda_bool drel).
    + eapply IHb; eauto.
  - apply rlet_ok in H as (acc0 & E0 & H). rewrite (srel_eval_value drel s sf _ Hs) in E0.
    apply rmap_ok in H as ([acc w] & H & ->).
    eapply (paccum_chain _ Hadv (fun buf f i j v => SemN m false unmatched failed sf f buf i j v)) with (a := f) in H as (n & vs & Ev & Hn & Hst); auto.
    + cbn in Ev. subst w. cbn [fst snd]. econstructor; [exact E0|exact Hn|]. cbn [fst] in Hst.
      eapply AccumTo_ext; [| |exact Hst]; intros; [now apply (srel_lambda_bool drel)|now apply (srel_lambda drel)].
    + eapply IHb; eauto.
  - apply rlet_ok in H as (l & El & H). rewrite (srel_eval_value drel s sf _ Hs) in El. apply rmap_ok in H as (w & H & ->).
    econstructor; [exact El|].
    eapply (pseq_chain _ Hadv (fun buf v0 i j v => SemN m false unmatched failed (SSingle sf x v0) f buf i j v)) in H; eauto.
    match goal with HH : Comp _ _ _ f _ _ |- _ => clear -IHb Hs HH end. induction l; cbn; constructor; auto. cbn.
    intros c0 v0 c0' es0 Hc0 Hp0. eapply (IHb f); eauto. now constructor.
  - apply rlet_ok in H as (b & Eb & H). rewrite (srel_bool drel s sf _ Hs) in Eb. destruct b.
    + apply rmap_ok in H as (w & H & ->). apply SemMaybeYes; [exact Eb|]. eapply IH; eauto.
    + inv_r. now apply SemMaybeNo.
  - apply rback_ok in H as (-> & c1 & H). econstructor. eapply IH; eauto.
  - destruct (parse bld P fuel s d c) as [w cw ew| | |] eqn:Ep; try discriminate. inv_r. constructor; [reflexivity|].
    destruct HN as [HN|([-> ->] & HN & _)]; [now apply HN|]. eapply HN; eauto.
  - apply rlet_ok in H as (k & Ek & H). rewrite (srel_usize drel s sf _ Hs) in Ek.
    apply rlet_ok in H as ([[sl c1]|] & Es & H); [|discriminate]. apply rback_ok in H as (-> & c2 & H).
    apply split_at_spec in Es as (-> & -> & Hle). cbn [roff rinput].
    eapply SemSlice; [exact Ek|exact Hle| |discriminate].
    eapply IH in H; eauto. unfold in_range; cbn. rewrite firstn_length. lia.
  - apply rlet_ok in H as (rem & Er & H). apply rbind_ok in H as (w & cb & e1 & e2 & H & H' & ->).
    unfold rc_remaining in Er. destruct (Nat.leb_spec (roff c) (length (rinput c))); [|discriminate]. injection Er as <-.
    assert (Hb8 : length (bits_of (skipn (roff c) (rinput c))) = 8 * (length (rinput c) - roff c)).
    { rewrite <- skipn_length. generalize (skipn (roff c) (rinput c)). clear. intros l.
      induction l as [|b l IH]; [reflexivity|]. unfold bits_of in *. cbn [flat_map].
      rewrite app_length, map_length, seq_length, IH. cbn [length]. lia. }
    assert (Hr : in_range (rc_new (bits_of (skipn (roff c) (rinput c))))) by (unfold in_range; cbn; lia).
    pose proof (Hadv s d _ Hr) as Ha. rewrite H in Ha. destruct Ha as (A1 & _ & A2). cbn [rinput rc_new] in A1, A2.
    apply rlet_ok in H' as (remb & Erb & H'). unfold rc_remaining in Erb. rewrite A1, Hb8 in Erb.
    destruct (Nat.leb_spec (roff cb) (8 * (length (rinput c) - roff c))); [|discriminate]. injection Erb as <-.
    rewrite !skipn_length, Hb8 in H'. rewrite Hb8 in A2.
    destruct (Nat.ltb _ _); [discriminate|]. apply rlet_ok in H' as ([[sl c1]|] & Es & H'); [|discriminate]. inv_r.
    apply split_at_spec in Es as (-> & _ & Hle). cbn [roff rinput].
    replace (roff c + _) with (roff c + (roff cb + 7) / 8).
    + econstructor; [lia| |discriminate]. eapply IH in H; eauto.
    + clear -A2 Hc. unfold in_range in Hc. generalize dependent (length (rinput c) - roff c). intros L. intros.
      rewrite Nnat.Nat2N.id. lia.
  - apply rlet_ok in H as (b1 & E1 & H). apply rlet_ok in H as (b2 & E2 & H).
    rewrite (srel_usize drel s sf _ Hs) in E1. rewrite (srel_usize drel s sf _ Hs) in E2.
    destruct (N.ltb_spec (b1 + b2) w64) as [L|]; [|discriminate].
    unfold rc_seek_to in H. destruct (N.leb_spec (b1 + b2) (N.of_nat (length (rinput c)))); [|discriminate].
    apply rback_ok in H as (-> & c1 & H). eapply SemWithRelativeOffset; eauto.
    eapply IH in H; eauto. unfold in_range; cbn. lia.
  - apply rbind_ok in H as (w & c1 & e1 & e2 & H & H' & ->). apply rlet_ok in H' as (w' & Ew & H'). inv_r.
    constructor; [eapply IH; eauto|]. now rewrite <- (srel_lambda drel s sf).
  - apply rbind_ok in H as (w & c1 & e1 & e2 & H & H' & ->). apply rlet_ok in H' as (r & Ew & H').
    rewrite (srel_lambda_bool drel s sf _ _ Hs) in Ew.
    assert (c' = c1 /\ v = w /\ (b = true -> r = true)) as (-> & -> & Hr)
      by (destruct r; [|destruct b]; inv_r; repeat split; auto; discriminate).
    econstructor; eauto.
  - apply rlet_ok in H as (w & Ew & H). inv_r. constructor. now rewrite <- (srel_eval_value drel s sf).
  - apply rlet_ok in H as (w & Ew & H). rewrite (srel_eval_value drel s sf _ Hs) in Ew. econstructor; [exact Ew|].
    eapply IH; eauto. now constructor.
  - apply rlet_ok in H as (w & Ew & H). rewrite (srel_eval drel s sf _ Hs) in Ew.
    assert (F' : Forall2 (fun d b => fst d = fst b /\ Comp bld m' C' (snd b) nx (snd d)) ds bs)
      by (match goal with F : Forall2 _ bs ds |- _ => clear -F; induction F as [|? ? ? ? [? ?]]; constructor; auto end).
    pose proof (srel_first_match drel (fun d f => Comp bld m' C' f nx d) s sf w Hs ds bs 0 F') as Hfm.
    destruct (first_match w s 0 ds) as [[[k s'] d']|]; [|discriminate].
    destruct (first_match w sf 0 bs) as [[[k' sf'] f']|] eqn:Ef; [|contradiction]. destruct Hfm as (<- & Hs' & Hd').
    apply rmap_ok in H as (u & H & ->). econstructor; eauto.
  - apply rlet_ok in H as (g & Eg & H). rewrite (srel_dyn drel s sf _ Hs) in Eg.
    destruct (compile_one bld g) as [dyn| |] eqn:Ec; try discriminate. econstructor; [exact Eg|discriminate|].
    eapply IH; eauto. constructor; [exact Hs|]. split; [now apply compile_one_ok|]. eapply dyn_huffman; eauto.
  - pose proof (srel_decoder drel s sf Hs x) as Hd. destruct (get_decoder x s) as [d|]; [|discriminate].
    destruct (get_decoder x sf) as [g|] eqn:Eg; [|contradiction]. econstructor; [exact Eg|].
    destruct HN as [HN|(_ & _ & _ & HN)]; [|eapply HN; eauto]. destruct Hd as [Hd _].
    eapply IH; [|now left|exact Hd| | |]; eauto.
  - inv_r. constructor.
  - inv_r. cbn [rc_skip_remainder roff]. now constructor.
  - apply rlet_ok in H as (bytes & Eb & H). apply rbind_ok in H as (w & c1 & e1 & e2 & H & H' & ->).
    rewrite (srel_eval_value drel s sf _ Hs) in Eb.
    assert (c' = c /\ v = w) as (-> & ->) by (destruct (rc_read_byte c1) as [[? ?]|]; inv_r; auto).
    eapply SemDecodeBytes; [exact Eb| |discriminate].
    eapply IH in H; eauto. unfold in_range; cbn. lia.
  - apply rbind_ok in H as (w & c1 & e1 & e2 & H & H' & ->).
    pose proof (adv_ok _ Hadv _ _ _ _ _ _ Hc H) as Ha. econstructor; [eapply IH; eauto|].
    rewrite <- (proj1 Ha). eapply IH; eauto; [now constructor|]. eapply advances_range; eauto.
  - apply rbind_ok in H as (w & c1 & e1 & e2 & H & H' & ->).
    pose proof (adv_ok _ Hadv _ _ _ _ _ _ Hc H) as Ha. econstructor; [eapply IH; eauto|].
    rewrite <- (proj1 Ha). eapply IH; eauto. eapply advances_range; eauto.
  - constructor. eapply IHf; eauto.
  - inv_r. constructor.
  - apply rmap_ok in H as (w & H & ->). constructor. eapply IH; eauto.
  - constructor. destruct c as [buf i]. eapply IH; eauto. now constructor.
  - apply rlet_ok in H as (k & Ek & H). rewrite (srel_usize drel s sf _ Hs) in Ek.
    apply with_view_ok in H as (w & Ew & H). destruct (srel_eval_view drel s sf v0 Hs) as [Ev _]. rewrite Ev in Ew.
    apply rback_ok in H as (-> & c1 & H). apply rmap_ok in H as (vs & H & ->).
    econstructor; [exact Ek|exact Ew|]. eapply (read_n_chain (BK B8 true) read_u8); [|exact H].
    intros c0 v1 c0' es0. unfold read_u8. destruct (rc_read_byte c0) as [[b c2]|] eqn:E; [|discriminate].
    intros [= <- <- _]. now apply read_byte_elem.
  - apply rlet_ok in H as (n & Ek & H). rewrite (srel_usize drel s sf _ Hs) in Ek.
    apply with_view_ok in H as (w & Ew & H). destruct (srel_eval_view drel s sf v0 Hs) as [Ev _]. rewrite Ev in Ew.
    apply rback_ok in H as (-> & c1 & H). apply rmap_ok in H as (vs & H & ->).
    econstructor; [exact Ek|exact Ew|]. eapply read_n_chain; [|exact H]. intros. eapply read_base_elem; eauto.
  - apply with_view_ok in H as (w & Ew & H). destruct (srel_eval_view drel s sf v0 Hs) as [Ev _]. rewrite Ev in Ew.
    inv_r. now constructor.
  - apply with_view_ok in H as (w & Ew & H). destruct (srel_eval_view drel s sf v0 Hs) as [Ev Hr].
    specialize (Hr _ Ew). rewrite Ev in Ew. apply rback_ok in H as (-> & c1 & H).
    econstructor; [exact Ew| |discriminate]. eapply IH; eauto.
  - inv_r. constructor.
  - destruct (parse bld P fuel s d c) as [w cw ew|er| |] eqn:Ep; try discriminate.
    + inv_r. constructor. eapply IH; eauto.
    + apply rlet_ok in H as (w & Ew & H). inv_r. constructor; [reflexivity| |].
      { destruct HN as [HN|([-> ->] & _ & HN & _)]; [now apply HN|]. eapply HN; eauto. }
      now rewrite <- (srel_eval_value drel s sf).
Qed.
End Sound.

Lemma sound bld P m Call (HL : linked bld m P Call) fuel : forall m' C' f n d s sf c v c' es,
  (m' = m /\ C' = Call \/ forall a b i, ~ C' a b i) ->
  Comp bld m' C' f n d -> srel (drel bld) s sf -> in_range c ->
  parse bld P fuel s d c = ROk v c' es ->
  Sem m false sf f (rinput c) (roff c) (roff c') v.
Proof. intros. eapply sound_gen; eauto. left. now split. Qed.
