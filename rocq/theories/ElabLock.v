(** Elaboration keeps step with inference: at each node it has counted as many nodes as
    inference has made variables. *)
From Verif Require ByteSetModel.
From Verif Require Import Base BoundsModel DataModel NumericModel BaseSetModel UnifyModel TypeModel ValueModel ValueProofs FormatModel MatchBoundsProofs
  UnifySpec InferModel InferSpec ElabModel ElabSpec TypeSpec TypeUnifyProofs.
From Verif Require CompileProofs.
Open Scope nat_scope.

(** The counter is the number of variables, and the levels that have trees are those
    that have variables, which are those of the trees. *)
Definition inv (g : gst) (st : est) : Prop :=
  nv g = cnt st /\ Forall2 (fun a b => fst a = fst b /\ snd a = top (snd b)) (lvls g) (forms st).
Definition lock {A B} (m : gm A) (e : em B) (R : A -> B -> Prop) : Prop :=
  forall g st a g1 b st1, inv g st -> m g = Some (a, g1) -> e st = Some (b, st1) -> inv g1 st1 /\ R a b.

Lemma lock_bind {A B C D} (m : gm A) (e : em B) (k : A -> gm C) (h : B -> em D) R S :
  lock m e R -> (forall a b, R a b -> lock (k a) (h b) S) -> lock (gbind m k) (ebind e h) S.
Proof.
  intros H K g st c g1 d st1 I E1 E2. unfold gbind in E1. unfold ebind in E2. destruct (m g) as [[a g2]|] eqn:Em; [|discriminate E1]. destruct (e st) as [[b st2]|] eqn:Ee; [|discriminate E2].
  destruct (H _ _ _ _ _ _ I Em Ee) as [I2 Rab]. exact (K a b Rab _ _ _ _ _ _ I2 E1 E2).
Qed.
Lemma lock_ret {A B} (a : A) (b : B) (R : A -> B -> Prop) : R a b -> lock (gret a) (eret b) R.
Proof. intros H g st a' g1 b' st1 I [= <- <-] [= <- <-]. auto. Qed.
Lemma lock_failL {A B} (e : em B) (R : A -> B -> Prop) : lock gfail e R.
Proof. intros g st a g1 b st1 I E. discriminate E. Qed.
Lemma lock_failR {A B} (m : gm A) (R : A -> B -> Prop) : lock m efail R.
Proof. intros g st a g1 b st1 I _ E. discriminate E. Qed.
Lemma lock_fresh : lock fresh index eq.
Proof. intros g st a g1 b st1 [I1 I2] [= <- <-] [= <- <-]. split; [|exact I1]. split; cbn; [now rewrite I1|exact I2]. Qed.
Lemma lock_tell {A B} r (k : gm A) (e : em B) R : lock k e R -> lock (gbind (tell r) (fun _ => k)) e R.
Proof. intros H g st a g1 b st1 J E F. unfold gbind, tell in E. eapply H; [|exact E|exact F]. exact J. Qed.
Lemma lock_tell_end {B} r (b : B) (R : unit -> B -> Prop) : R tt b -> lock (tell r) (eret b) R.
Proof. intros H g st a g1 b' st1 I [= <- <-] [= <- <-]. auto. Qed.
Lemma lock_lift {A B C} (o : option C) (k : C -> gm A) (e : em B) R : (forall x, o = Some x -> lock (k x) e R) -> lock (gbind (glift o) k) e R.
Proof. intros H. destruct o; [|apply lock_failL]. intros g st a g1 b st1 I E. apply (H c eq_refl _ _ _ _ _ _ I E). Qed.
Lemma lock_lift_o {A B C} (o : outcome C) (k : C -> gm A) (e : em B) R : (forall x, lock (k x) e R) -> lock (gbind (glift_o o) k) e R.
Proof. intros H. destruct o; [|apply lock_failL]. intros g st x g1 b st1 I E. apply (H a _ _ _ _ _ _ I E). Qed.
Lemma lock_liftR {A B C} (o : option C) (m : gm A) (h : C -> em B) R : (forall x, o = Some x -> lock m (h x) R) -> lock m (ebind (elift o) h) R.
Proof. intros H. destruct o; [|apply lock_failR]. intros g st a g1 b st1 I E F. apply (H c eq_refl _ _ _ _ _ _ I E F). Qed.
Lemma lock_assoc {A B C D} (m : gm A) (k1 : A -> gm B) (k2 : B -> gm C) (e : em D) R :
  lock (gbind m (fun a => gbind (k1 a) k2)) e R -> lock (gbind (gbind m k1) k2) e R.
Proof. intros H g st a g1 b st1 I E. apply (H _ _ _ _ _ _ I). unfold gbind in *. destruct (m g) as [[x g2]|]; [exact E|discriminate E]. Qed.
Lemma lock_assocR {A B C D} (m : em A) (k1 : A -> em B) (k2 : B -> em C) (e : gm D) R :
  lock e (ebind m (fun a => ebind (k1 a) k2)) R -> lock e (ebind (ebind m k1) k2) R.
Proof. intros H g st a g1 b st1 I E F. apply (H _ _ _ _ _ _ I E). unfold ebind in *. destruct (m st) as [[x g2]|]; [exact F|discriminate F]. Qed.
Lemma lock_retL {A B C} (a : A) (k : A -> gm B) (e : em C) R : lock (k a) e R -> lock (gbind (gret a) k) e R.
Proof. intros H. exact H. Qed.
Lemma lock_retR {A B C} (a : A) (k : A -> em B) (e : gm C) R : lock e (k a) R -> lock e (ebind (eret a) k) R.
Proof. intros H. exact H. Qed.
Lemma lock_imp {A B} (m : gm A) (e : em B) (R S : A -> B -> Prop) : (forall a b, R a b -> S a b) -> lock m e R -> lock m e S.
Proof. intros I H g st a g1 b st1 J E F. destruct (H _ _ _ _ _ _ J E F). auto. Qed.
Lemma lock_ext {A B} (m : gm A) (e e' : em B) R : (forall st, e st = e' st) -> lock m e' R -> lock m e R.
Proof. intros X H g st a g1 b st1 J E F. rewrite X in F. exact (H _ _ _ _ _ _ J E F). Qed.
(** A computation whose result only matters on one side *)
Lemma lock_end {A B C} (m : gm A) (e : em B) (h : B -> C) (R : A -> C -> Prop) : lock m e (fun a b => R a (h b)) -> lock m (ebind e (fun b => eret (h b))) R.
Proof. intros H g st a g1 b st1 I E F. unfold ebind in F. destruct (e st) as [[c st2]|] eqn:Ee; [|discriminate F]. injection F as <- <-. exact (H _ _ _ _ _ _ I E Ee). Qed.
Lemma lock_map {A B C} (f : A -> gm B) (h : A -> em C) R l : Forall (fun x => lock (f x) (h x) R) l -> lock (mapG f l) (mapE h l) (Forall2 R).
Proof.
  induction 1 as [|a l H _ IH]; cbn [mapG mapE]; [apply lock_ret; constructor|]. eapply lock_bind; [exact H|intros b c Hbc]. eapply lock_bind; [exact IH|intros bs cs Hs]. apply lock_ret. now constructor.
Qed.
Lemma lock_iter {A B C} (f : A -> gm B) (h : A -> em C) l : Forall (fun x => lock (f x) (h x) (fun _ _ => True)) l -> lock (iterG f l) (mapE h l) (fun _ _ => True).
Proof.
  induction 1 as [|a l H _ IH]; cbn [iterG mapE]; [apply lock_ret; exact I|]. eapply lock_bind; [exact H|intros b c Hbc]. apply lock_end. exact IH.
Qed.

Ltac lk := first
  [ apply lock_tell | apply lock_failL | apply lock_failR
  | apply lock_lift_o; intros ? | apply lock_lift; intros ? ?
  | apply lock_liftR; intros ? ?
  | apply lock_assoc | apply lock_assocR | apply lock_retL | apply lock_retR
  | eapply lock_bind; [apply lock_fresh|intros ? ? <-]
  | apply lock_ret; first [exact I | reflexivity | idtac]
  | apply lock_tell_end; exact I ].
Ltac unf := unfold init_var, fresh_num.

(** ** Declared types *)

Lemma union_free_from t : union_free t = true -> exists u, from_valuetype t = Some u.
Proof.
  induction t as [| | |t IH|b0| |w|ts IH|fs IH|fs IH|t IH|t IH] using vtype_ind'; cbn [union_free from_valuetype]; intros U; try discriminate U; try (eexists; reflexivity).
  - destruct (IH U) as (u & ->). eexists. reflexivity.
  - assert (K : exists us, mapO from_valuetype ts = Some us); [|destruct K as (us & ->); eexists; reflexivity].
    induction IH as [|t ts H _ IHt]; [exists []; reflexivity|]. cbn in U. apply andb_true_iff in U as [U1 U2]. destruct (H U1) as (u & E1), (IHt U2) as (us & E2). cbn. rewrite E1, E2. eexists. reflexivity.
  - match goal with |- context [mapO ?f fs] => assert (K : exists us, mapO f fs = Some us); [|destruct K as (us & ->); eexists; reflexivity] end.
    induction IH as [|[l t] ts H _ IHt]; [exists []; reflexivity|]. cbn in U, H. apply andb_true_iff in U as [U1 U2]. destruct (H U1) as (u & E1), (IHt U2) as (us & E2). cbn. rewrite E1. cbn. rewrite E2. eexists. reflexivity.
  - destruct (IH U) as (u & ->). eexists. reflexivity.
  - destruct (IH U) as (u & ->). eexists. reflexivity.
Qed.
Lemma declare_simple t v : union_free t = true -> exists u, declare v t = tell (RType v u).
Proof. intros U. destruct (union_free_from t U) as (u & E). exists u. destruct t; cbn [declare]; now rewrite E. Qed.
Lemma declare_lock t : forall v, lock (declare v t) (skip_declared t) (fun _ _ => True).
Proof.
  induction t as [| | |t IH|b0| |w|ts IH|fs IH|fs IH|t IH|t IH] using vtype_ind'; intros v; cbn [declare skip_declared];
    match goal with |- lock (match ?o with _ => _ end) _ _ => destruct o; [apply lock_tell_end; exact I|] end; try apply lock_failL.
  - generalize 0. induction IH as [|t ts H _ IHt]; intros i; cbn [tuple_vt skip_tuple]; [repeat lk|]. repeat lk. eapply lock_bind; [apply H|intros ? ? _]. apply IHt.
  - induction IH as [|[l t] ts H _ IHt]; cbn [record_vt skip_record]; [repeat lk|]. repeat lk. eapply lock_bind; [apply H|intros ? ? _]. apply IHt.
  - induction IH as [|[l t] ts H _ IHt]; cbn [union_vt skip_union]; [repeat lk|]. cbn [snd] in H. destruct (from_valuetype t).
    + repeat lk. exact IHt.
    + repeat lk. eapply lock_bind; [apply H|intros ? ? _]. repeat lk. exact IHt.
  - repeat lk. apply IH.
  - repeat lk. apply IH.
Qed.

(** ** Patterns and numeric expressions *)

Definition patl (p : pattern) : Prop := lock (gen_pat p) (elab_pat p) (fun r t => fst r = top t).
Lemma pat_lock p : patl p.
Proof.
  induction p as [y| |b|w n|b|z|b|c|ps IH|l p IH|ps IH| |p IH] using pattern_ind'; unfold patl in *; cbn [gen_pat elab_pat]; unf; repeat lk.
  - eapply lock_bind with (R := fun r ts => fst r = map top ts); [|intros; repeat lk].
    induction IH as [|p ps H _ IH]; cbn [pats mapE]; [repeat lk|]. eapply lock_bind; [exact H|intros r t E]. eapply lock_bind; [exact IH|intros r' t' E']. lk. cbn. congruence.
  - eapply lock_bind; [exact IH|intros r t E]. repeat lk.
  - eapply lock_bind with (R := fun _ _ => True); [|intros; repeat lk].
    induction IH as [|p ps H _ IH]; cbn [seq_pats mapE]; [repeat lk|]. eapply lock_bind; [exact H|intros r t E]. lk. eapply lock_bind; [exact IH|intros r' t' E']. repeat lk.
  - eapply lock_bind; [exact IH|intros r t E]. repeat lk.
Qed.
Section Lock.
Context (ask : list request -> nat -> option numrep).
Lemma num_lock n : forall G, lock (gen_num ask G n) (elab_num n) (fun r t => fst r = top t).
Proof.
  assert (TA : forall A B (m : gm A) (k : A -> gm B) (e : em itree) R S, lock m (eret tt) S -> (forall a, lock (k a) e R) -> lock (gbind m k) e R).
  { intros A B m k e R S H K g st a g1 b st1 I E F. unfold gbind in E. destruct (m g) as [[x g2]|] eqn:Em; [|discriminate E]. destruct (H _ _ _ _ _ _ I Em eq_refl) as [I2 _]. exact (K x _ _ _ _ _ _ I2 E F). }
  induction n as [c0|op out a IHa b IHb|op out a IHa|r cs a IHa|x]; intros G; cbn [gen_num elab_num]; unf.
  - destruct (tc_rep c0); repeat lk.
  - repeat lk. eapply lock_bind; [apply IHa|intros l t E]. eapply lock_bind; [apply IHb|intros r t' E'].
    eapply (TA _ _ _ _ _ _ (fun _ _ => True)); [|intros rep; lk].
    unfold gen_bin, tell_rep. destruct (snd l), (snd r); try (destruct (mrep_eqb _ _)); destruct out; repeat lk.
  - repeat lk. eapply lock_bind; [apply IHa|intros l t E]. eapply (TA _ _ _ _ _ _ (fun _ _ => True)); [|intros rep; lk].
    unfold tell_rep. destruct (snd l); destruct out; repeat lk.
  - repeat lk. eapply lock_bind; [apply IHa|intros l t E]. unfold tell_rep. destruct (snd l); repeat lk.
  - repeat lk. eapply (TA _ _ _ _ _ _ (fun _ _ => True)); [|intros rep; lk]. intros g st rep g1 [] st1 I E F. destruct (ask (reqs g) _); [|discriminate E]. injection E as <- <-. injection F as <-. auto.
Qed.

(** ** Expressions *)

Definition exl (e : expr) : Prop := simple_acc e = true -> forall G, lock (gen_expr ask G e) (elab_expr e) (fun v t => v = top t).
Definition laml (e : expr) : Prop := simple_acc e = true -> forall G,
  lock (gen_lam ask G e) (elab_lam e) (fun io t => exists tb, t = Tn (fst io) [tb] /\ snd io = top tb).
Lemma lam_lock e : (forall x b, e = ELambda x b -> exl b) -> laml e.
Proof.
  intros H T G. destruct e; try apply lock_failL. cbn [gen_lam elab_lam]. repeat lk. eapply lock_bind; [apply (H x e eq_refl T)|intros r t E]. lk. exists t. auto.
Qed.
Ltac spl := repeat match goal with
  | H : _ && _ = true |- _ => apply andb_true_iff in H; destruct H
  | H : exl _ /\ _ |- _ => destruct H
  | H : exl ?e, D : simple_acc ?e = true |- _ => pose proof (H D); clear H
  | H : forall x b, ?e = ELambda x b -> exl b, D : simple_acc ?e = true |- _ => pose proof (lam_lock e H D); clear H
  | H : union_free ?t = true |- _ => pose proof (fun v => declare_simple t v H); clear H
  end.
Ltac le := repeat first [lk | eapply lock_bind; [first [match goal with H : forall G, lock (gen_expr ask G ?e) _ _ |- lock (gen_expr ask _ ?e) _ _ => apply H end
   | match goal with H : forall G, lock (gen_lam ask G ?e) _ _ |- lock (match ?e with _ => _ end) _ _ => apply H end]|intros ? ? ?]
   | match goal with H : forall v, exists u, declare v ?t = _ |- lock (gbind (declare ?w ?t) _) _ _ => let X := fresh in destruct (H w) as (? & X); rewrite X; clear X end ].
Lemma expr_lock e : exl e /\ forall x b, e = ELambda x b -> exl b.
Proof.
  induction e using expr_ind'; (split; [intros Td G|intros x0 b0 E0; try discriminate; injection E0 as <- <-; tauto]);
    cbn [simple_acc] in Td; spl; cbn [gen_expr elab_expr]; unf; try apply lock_failL.
  all: try (le; fail).
  - (* tuple *) lk. eapply lock_bind; [apply lock_map|intros; repeat lk]. rewrite forallb_forall in Td. rewrite Forall_forall in *. intros e He. apply (H e He). auto.
  - (* record *) lk. eapply lock_bind with (R := fun _ _ => True); [|intros; repeat lk].
    revert G. induction fs as [|[l e] fs IH]; intros G; cbn [fields elab_fields]; [repeat lk|]. cbn [forallb] in Td. spl. inversion H as [|? ? [He _] Hfs]; subst. cbn [snd] in He.
    eapply lock_bind; [apply He; assumption|intros v t E]. eapply lock_bind; [apply IH; assumption|intros; repeat lk].
  - (* sequence *) lk. lk. eapply lock_bind with (R := fun _ _ => True); [|intros; repeat lk]. generalize a0. clear a a0.
    induction es as [|e es IH]; intros el; cbn [elems mapE]; [repeat lk|]. cbn [forallb] in Td. spl. inversion H as [|? ? [He _] Hfs]; subst.
    lk. eapply lock_bind; [apply He; assumption|intros v t E]. lk. apply lock_end. apply IH; assumption.
  - (* numeric *) lk. eapply lock_bind; [apply num_lock|intros r t E]. repeat lk.
  - (* match *) lk. eapply lock_bind; [match goal with H : forall G, lock (gen_expr ask G e) _ _ |- _ => apply H end|intros hv th E]. eapply lock_bind with (R := fun _ _ => True); [|intros; repeat lk].
    match goal with X : forallb _ bs = true |- _ => rename X into Tb end. clear - H Tb. induction bs as [|[p e] bs IH]; cbn [cases elab_cases]; [repeat lk|]. cbn [forallb] in Tb. spl. inversion H as [|? ? [He _] Hfs]; subst. cbn [snd] in He.
    repeat lk. eapply lock_bind; [apply pat_lock|intros pv tp Ep]. repeat lk. eapply lock_bind; [apply He; assumption|intros v t E]. repeat lk. apply lock_end. apply IH; assumption.
  - (* destructure *) lk. eapply lock_bind; [match goal with H : forall G, lock (gen_expr ask G e1) _ _ |- _ => apply H end|intros hv th E]. eapply lock_bind; [apply pat_lock|intros pv tp Ep]. le.
  - (* arith *) destruct op; le.
  - (* unary *) destruct op; le.
Qed.
Lemma exl_of e : simple_acc e = true -> forall G, lock (gen_expr ask G e) (elab_expr e) (fun v t => v = top t).
Proof. apply expr_lock. Qed.
Lemma laml_of e : simple_acc e = true -> forall G, lock (gen_lam ask G e) (elab_lam e) (fun io t => exists tb, t = Tn (fst io) [tb] /\ snd io = top tb).
Proof. intros T. apply lam_lock; [apply expr_lock|exact T]. Qed.

(** ** Formats *)

Lemma view_lock c v : simple_view v = true -> lock (gen_view ask c v) (elab_view v) (fun _ _ => True).
Proof.
  induction v as [x|w IH e]; cbn [simple_view gen_view elab_view]; intros T.
  - destruct (existsb _ _); repeat lk.
  - apply andb_true_iff in T as [T1 T2]. eapply lock_bind; [apply IH, T1|intros ? ? _]. eapply lock_bind; [apply exl_of, T2|intros ? ? _]. repeat lk.
Qed.
Lemma views_lock c xs : forall vs, forallb simple_view vs = true -> lock (gen_views ask c xs vs) (elab_views xs vs) (fun _ _ => True).
Proof.
  induction xs as [|x xs IH]; intros [|v vs] T; cbn [gen_views elab_views]; try (repeat lk; fail). cbn in T. apply andb_true_iff in T as [T1 T2].
  eapply lock_bind; [apply view_lock, T1|intros ? ? _]. eapply lock_bind; [apply IH, T2|intros ? ? _]. repeat lk.
Qed.
Lemma dyn_lock c d : match d with DHuffman a None => simple_acc a | DHuffman a (Some b) => simple_acc a && simple_acc b end = true -> lock (gen_dyn ask c d) (elab_dyn d) (fun v t => v = top t).
Proof.
  destruct d as [codes values]. intros T. cbn [gen_dyn elab_dyn]. lk. assert (Tc : simple_acc codes = true) by (destruct values; [apply andb_true_iff in T; apply T|exact T]).
  lk. eapply lock_bind; [apply exl_of, Tc|intros ? ? _]. repeat lk. eapply lock_bind with (R := fun _ _ => True); [|intros; repeat lk]. destruct values as [e|]; [|repeat lk].
  eapply lock_bind; [apply exl_of; apply andb_true_iff in T; apply T|intros ? ? _]. repeat lk.
Qed.
Lemma args_lock G ps : forall es, forallb simple_acc es = true -> lock (gen_args ask G ps es) (elab_args ps es) (fun _ _ => True).
Proof.
  induction ps as [|[x t] ps IH]; intros [|e es] T; cbn [gen_args elab_args]; try (repeat lk; fail). cbn in T. apply andb_true_iff in T as [T1 T2].
  eapply lock_bind; [apply exl_of, T1|intros ? ? _]. eapply lock_bind; [apply declare_lock|intros ? ? _]. eapply lock_bind; [apply IH, T2|intros ? ? _]. repeat lk.
Qed.

Section Levels.
Context (ds : list (item * list vtype)) (level : nat -> ctx -> gm nat) (level' : nat -> em itree).
Context (Hlev : forall k c, lock (level k c) (level' k) (fun v t => v = top t)).
Notation simplef := (everywhere (fun g => simple_node g = true)).
Definition fl (F : format) : Prop := simplef F -> forall c D, lock (gen_format ask ds level c F) (elab_format ds level' D F) (fun v t => v = top t).
Lemma simple_sub f g : simplef f -> incl (subs g) (subs f) -> simplef g.
Proof. intros H I h Hh. apply H, I, Hh. Qed.
Ltac tsub := match goal with H : simplef ?f |- simplef ?g => apply (simple_sub _ _ H); intros ? ?; cbn [subs]; right; auto using in_or_app end.
Ltac nodes := match goal with H : simplef _ |- _ => let Y := fresh "Tn" in pose proof (everywhere_self _ _ H) as Y; cbn [simple_node] in Y; repeat match goal with X : _ && _ = true |- _ => apply andb_true_iff in X; destruct X end end.
Ltac lf := repeat first [lk | eapply lock_bind; [first [
    match goal with H : fl ?e |- lock (gen_format ask ds level _ ?e) _ _ => apply H; tsub end
  | match goal with |- lock (gen_expr ask _ ?e) _ _ => apply exl_of; assumption end
  | match goal with |- lock (gen_lam ask _ ?e) _ _ => apply laml_of; assumption end
  | match goal with |- lock (gen_view ask _ ?e) _ _ => apply view_lock; assumption end
  | match goal with |- lock (gen_dyn ask _ ?e) _ _ => apply dyn_lock; assumption end]|intros ? ? ?]
  | match goal with H : union_free ?t = true |- lock (gbind (declare ?w ?t) _) _ _ => let X := fresh in destruct (declare_simple t w H) as (? & X); rewrite X; clear X end].
Lemma lock_some {A B C} (x : C) (k : C -> gm A) (e : em B) R : lock (k x) e R -> lock (gbind (glift (Some x)) k) e R.
Proof. intros H. exact H. Qed.
Lemma union_lock c D v fs : Forall simplef fs -> Forall (fun f => fl f /\ forall l g, f = FVariant l g -> fl g) fs ->
  Forall (fun b => lock (match b with
    | FVariant l f => let* i := gen_format ask ds level c f in tell (RVariant v l (UVar i))
    | _ => let* i := gen_format ask ds level c b in tell (RType v (UVar i)) end)
    (match b with
    | FVariant _ f => let+ tf := elab_format ds level' D f in eret (match f with FFail => [] | _ => [Tn v [tf]] end)
    | _ => let+ tf := elab_format ds level' D b in eret [tf] end) (fun _ _ => True)) fs.
Proof.
  intros T H. rewrite Forall_forall in *. intros f Hf. destruct (H f Hf) as [H1 H2]. specialize (T f Hf).
  assert (K : lock (let* i := gen_format ask ds level c f in tell (RType v (UVar i))) (let+ tf := elab_format ds level' D f in eret [tf]) (fun _ _ => True)).
  { eapply lock_bind; [apply H1, T|intros i ? ?]. lk. }
  destruct f; try exact K. eapply lock_bind; [apply (H2 _ _ eq_refl); tsub|intros i ? ?]. lk.
Qed.
(** The part of a call that finds the level *)
Definition gen_call (c0 : ctx) l it tys a v : gm nat :=
  match a with [] => match v with [] => level l c0 | _ :: _ => let* b := gen_args ask (cvals c0) (combine (it_args it) tys) a in let* w := gen_views ask c0 (it_views it) v in level l (with_views w (with_vals b c0)) end
      | _ :: _ => let* b := gen_args ask (cvals c0) (combine (it_args it) tys) a in let* w := gen_views ask c0 (it_views it) v in level l (with_views w (with_vals b c0)) end.
Definition elab_call l it tys a v : em (list itree * (list itree * itree)) :=
  let+ ta := elab_args (combine (it_args it) tys) a in let+ tv := elab_views (it_views it) v in let+ tl := level' l in eret (ta, (tv, tl)).
Lemma elab_call_nil l it tys st : elab_call l it tys [] [] st = (let+ tl := level' l in eret ([], ([], tl))) st.
Proof.
  unfold elab_call. assert (E1 : elab_args (combine (it_args it) tys) [] = eret []) by (destruct (it_args it), tys; reflexivity).
  assert (E2 : elab_views (it_views it) [] = eret []) by (destruct (it_views it); reflexivity). rewrite E1, E2. reflexivity.
Qed.
Lemma call_lock c0 l it tys a v : forallb simple_acc a = true -> forallb simple_view v = true -> lock (gen_call c0 l it tys a v) (elab_call l it tys a v) (fun v t => v = top (snd (snd t))).
Proof.
  intros H1 H2.
  assert (K : lock (let* b := gen_args ask (cvals c0) (combine (it_args it) tys) a in let* w := gen_views ask c0 (it_views it) v in level l (with_views w (with_vals b c0))) (elab_call l it tys a v) (fun v t => v = top (snd (snd t)))).
  { eapply lock_bind; [apply args_lock; assumption|intros ? ? _]. eapply lock_bind; [apply views_lock; assumption|intros ? ? _]. apply lock_end. cbn [snd]. apply Hlev. }
  unfold gen_call. destruct a; [destruct v; [|exact K]|exact K]. eapply lock_ext; [apply elab_call_nil|]. apply lock_end. cbn [snd]. apply Hlev.
Qed.
Lemma format_lock F : fl F /\ forall l f, F = FVariant l f -> fl f.
Proof.
  induction F using CompileProofs.format_ind'; (split; [intros Td c0 D0|intros l0 b0 E0; try discriminate; injection E0 as <- <-; tauto]);
    repeat match goal with H : fl _ /\ _ |- _ => destruct H as [H _] end; nodes; cbn [gen_format elab_format]; unf; try apply lock_failL.
  all: try (lf; fail).
  - (* call *) lk. lk. destruct x as [it tys]. match goal with X : nth_error ds l = _ |- _ => rewrite X end. lk. match goal with X : Some _ = Some _ |- _ => injection X as <- end. cbn [fst snd].
    pose proof (call_lock c0 l it tys a v ltac:(assumption) ltac:(assumption)) as K'.
    apply (lock_ext _ _ (ebind (elab_call l it tys a v) (fun x => eret (Tn a0 (fst x ++ fst (snd x) ++ [snd (snd x)]))))).
    + intros st. unfold elab_call, ebind. destruct (elab_args _ _ _) as [[ta st2]|]; [|reflexivity]. destruct (elab_views _ _ _) as [[tv st3]|]; [|reflexivity]. destruct (level' l st3) as [[tl st4]|]; reflexivity.
    + eapply lock_bind; [exact K'|intros ? ? E']. lk. lk.
  - (* union *) lk. eapply lock_bind; [apply lock_iter, union_lock|intros; repeat lk]; [apply everywhere_list; intros g Hg; apply Td; now right|assumption].
  - lk. eapply lock_bind; [apply lock_iter, union_lock|intros; repeat lk]; [apply everywhere_list; intros g Hg; apply Td; now right|assumption].
  - (* tuple *) lk. eapply lock_bind; [apply lock_map|intros; repeat lk]. assert (Tf : Forall simplef fs) by (apply everywhere_list; intros g Hg; apply Td; now right). rewrite Forall_forall in *. intros f Hf. apply (H f Hf). auto.
  - (* sequence *) lk. lk.
    assert (K : lock (iterG (fun b => let* i := gen_format ask ds level c0 b in tell (RPair a0 i)) fs) (mapE (elab_format ds level' D0) fs) (fun _ _ => True)).
    { apply lock_iter. assert (Tf : Forall simplef fs) by (apply everywhere_list; intros g Hg; apply Td; now right). rewrite Forall_forall in *. intros f Hf.
      intros g st r g1 b st1 J E F. unfold gbind in E. destruct (gen_format ask ds level c0 f g) as [[w g2]|] eqn:Eg; [|discriminate E]. destruct (proj1 (H f Hf) (Tf f Hf) c0 D0 _ _ _ _ _ _ J Eg F) as [J2 _]. injection E as _ <-. split; [exact J2|exact I]. }
    destruct fs as [|f fs]; [apply lock_failR|]. eapply lock_bind; [exact K|intros; repeat lk].
  - (* match *) lk. eapply lock_bind; [apply exl_of; assumption|intros hv th E]. eapply lock_bind with (R := fun _ _ => True); [|intros; repeat lk].
    assert (Tf : Forall (fun b => simplef (snd b)) bs) by (apply everywhere_branches; intros g Hg; apply Td; now right).
    clear - H Tf. induction bs as [|[p e] bs IH]; cbn [fcases elab_fcases]; [repeat lk|]. inversion H as [|? ? [He _] Hbs]; subst. inversion Tf as [|? ? Te Tbs]; subst. cbn [fst snd] in *.
    lk. eapply lock_bind; [apply pat_lock|intros pv tp Ep]. repeat lk. eapply lock_bind; [apply He; assumption|intros v t Ev]. repeat lk. apply lock_end. apply IH; assumption.
  - (* view *) lk. eapply lock_bind; [apply view_lock; destruct vf; try (apply andb_true_iff in Tn; apply Tn); exact Tn|intros ? ? _].
    destruct vf; cbn [gen_vf elab_vf]; unf; try (apply andb_true_iff in Tn as [_ Tn]); lf.
Qed.
End Levels.

Context (ds : list (item * list vtype)).
Context (Hs : forall k it, nth_error (map fst ds) k = Some it -> everywhere (fun g => simple_node g = true) (it_format it)).
Lemma tget_lock k a b : Forall2 (fun a b => fst a = fst b /\ snd a = top (snd b)) a b ->
  match nget k a, tget k b with Some v, Some t => v = top t | None, None => True | _, _ => False end.
Proof. induction 1 as [|[j v] [j' t] a b [E1 E2] F IH]; cbn in *; [exact I|]. subst j'. destruct (k =? j); [exact E2|exact IH]. Qed.
Lemma nth_fst k it tys : nth_error ds k = Some (it, tys) -> nth_error (map fst ds) k = Some it.
Proof. intros E. now rewrite nth_error_map, E. Qed.
Lemma level_lock n : forall k c, lock (gen_level ask ds n k c) (elab_level ds n k) (fun v t => v = top t).
Proof.
  induction n as [|n IH]; intros k c g st v g1 t st1 J E F; cbn [gen_level elab_level] in E, F; pose proof (tget_lock k _ _ (proj2 J)) as K; destruct (nget k (lvls g)) as [w|], (tget k (forms st)) as [u|]; try contradiction; try discriminate.
  1,2: injection E as <- <-; injection F as <- <-; auto.
  destruct (nth_error ds k) as [[it tys]|] eqn:En; [|discriminate E]. cbn [fst] in E, F.
  destruct (gen_format _ _ _ _ _ _) as [[w g2]|] eqn:Eg; [|discriminate E]. destruct (elab_format _ _ _ _ _) as [[u st2]|] eqn:Ef; [|discriminate F].
  injection E as <- <-. injection F as <- <-. destruct (proj1 (format_lock ds _ _ IH (it_format it)) (Hs _ _ (nth_fst _ _ _ En)) c [] _ _ _ _ _ _ J Eg Ef) as [[J1 J2] R].
  split; [|exact R]. split; [exact J1|]. cbn. constructor; [|exact J2]. auto.
Qed.
Lemma rest_lock n ks : lock (gen_rest ask ds n ks) (elab_rest ds n ks) (Forall2 (fun v t => v = top t)).
Proof.
  induction ks as [|k ks IH]; cbn [gen_rest elab_rest]; [apply lock_ret; constructor|].
  assert (K : lock (let* it := glift (nth_error ds k) in let* v := gen_format ask ds (gen_level ask ds n) (Ctx [] [] []) (it_format (fst it)) in let* vs := gen_rest ask ds n ks in gret (v :: vs))
    (let+ it := elift (nth_error ds k) in let+ t := elab_format ds (elab_level ds n) [] (it_format (fst it)) in let+ ts := elab_rest ds n ks in eret (t :: ts)) (Forall2 (fun v t => v = top t))).
  { lk. rewrite H. lk. injection H0 as <-. destruct x as [it tys]. eapply lock_bind; [apply (format_lock ds _ _ (level_lock n)); exact (Hs _ _ (nth_fst _ _ _ H))|intros v t E]. eapply lock_bind; [exact IH|intros vs ts Es]. apply lock_ret. constructor; assumption. }
  intros g st v g1 t st1 J E F. pose proof (tget_lock k _ _ (proj2 J)) as T. destruct (nget k (lvls g)), (tget k (forms st)); try contradiction; [exact (IH _ _ _ _ _ _ J E F)|exact (K _ _ _ _ _ _ J E F)].
Qed.
Lemma module_lock n f : everywhere (fun g => simple_node g = true) f ->
  lock (gen_module ask ds n f) (let+ t := elab_format ds (elab_level ds n) [] f in let+ ts := elab_rest ds n (seq 0 (length ds)) in eret (t, ts))
    (fun r t => fst r = top (fst t) /\ Forall2 (fun v t => v = top t) (snd r) (snd t)).
Proof.
  intros Hf. eapply lock_bind; [apply (format_lock ds _ _ (level_lock n)); exact Hf|intros v t E]. eapply lock_bind; [apply rest_lock|intros vs ts Es]. apply lock_ret. auto.
Qed.
End Lock.
