(** The requests that inference makes are proper: they speak of variables that exist,
    with types without open parts. *)
From Verif Require ByteSetModel.
From Verif Require Import Base BoundsModel DataModel NumericModel BaseSetModel BaseSetSpec UnifyModel ReifyModel
  TypeModel ValueModel ValueProofs ValueWfProofs FormatModel MatchBoundsProofs UnifySpec UnifyBase InferModel InferSpec.
From Verif Require Import TypeSpec TypeUnifyProofs.
From Verif Require CompileProofs BaseSetProofs BaseSetProps UnifyRequests InferProofs.
Open Scope nat_scope.

Fixpoint news (rs : list request) : nat := match rs with [] => 0 | RNew :: r => S (news r) | _ :: r => news r end.
Lemma news_app a b : news (a ++ b) = news a + news b.
Proof. induction a as [|[] a IH]; cbn; auto. Qed.
Lemma news_rev a : news (rev a) = news a.
Proof. induction a as [|r a IH]; [reflexivity|]. cbn [rev]. rewrite news_app, IH. destruct r; cbn; lia. Qed.
Lemma history_app n a b : proper_history n (a ++ b) <-> proper_history n a /\ proper_history (n + news a) b.
Proof.
  revert n. induction a as [|r a IH]; intros n; cbn [app proper_history news]; [rewrite Nat.add_0_r; tauto|]. rewrite IH.
  destruct r; rewrite ?Nat.add_succ_r; cbn [Nat.add]; tauto.
Qed.
Lemma proper_mono n n' t : n <= n' -> proper n t -> proper n' t.
Proof. apply UnifyRequests.proper_le. Qed.
Lemma request_mono n n' r : n <= n' -> proper_request n r -> proper_request n' r.
Proof. intros L. destruct r; cbn; intros H; try tauto; try lia; repeat match goal with H : _ /\ _ |- _ => destruct H end; repeat match goal with |- _ /\ _ => split end; try assumption; try lia; eapply proper_mono; eassumption. Qed.

Definition wfg (g : gst) : Prop := proper_history 0 (rev (reqs g)) /\ nv g = news (reqs g) /\ Forall (fun e => snd e < nv g) (lvls g).
Definition fw {A} (n : nat) (m : gm A) (Q : nat -> A -> Prop) : Prop :=
  forall g a g1, wfg g -> n <= nv g -> m g = Some (a, g1) -> wfg g1 /\ nv g <= nv g1 /\ Q (nv g1) a.
Definition new (n v : nat) : Prop := v < n.
Definition bound (n : nat) (G : uscope) : Prop := Forall (fun b => snd b < n) G.
Lemma bound_mono n n' G : n <= n' -> bound n G -> bound n' G.
Proof. intros L. unfold bound. rewrite !Forall_forall. intros H b Hb. specialize (H b Hb). lia. Qed.
Lemma bound_app n B G : bound n B -> bound n G -> bound n (B ++ G).
Proof. intros. apply Forall_app. auto. Qed.
Lemma bound_cons n x v G : v < n -> bound n G -> bound n ((x, v) :: G).
Proof. intros. constructor; assumption. Qed.
Lemma bound_look n x G v : bound n G -> ulook x G = Some v -> v < n.
Proof. unfold ulook. induction 1 as [|[y w] G H _ IH]; cbn; [discriminate|]. destruct (N.eqb x y); [intros [= <-]; exact H|exact IH]. Qed.

Lemma fw_bind {A B} n (m : gm A) (k : A -> gm B) Q R : fw n m Q -> (forall n' a, n <= n' -> Q n' a -> fw n' (k a) R) -> fw n (gbind m k) R.
Proof.
  intros H K g b g1 W L E. unfold gbind in E. destruct (m g) as [[a g2]|] eqn:Em; [|discriminate E]. destruct (H _ _ _ W L Em) as (W2 & L2 & Qa).
  destruct (K (nv g2) a ltac:(lia) Qa _ _ _ W2 (Nat.le_refl _) E) as (W3 & L3 & Rb). split; [exact W3|]. split; [lia|exact Rb].
Qed.
Lemma fw_ret {A} n (a : A) (Q : nat -> A -> Prop) : (forall n', n <= n' -> Q n' a) -> fw n (gret a) Q.
Proof. intros H g b g1 W L [= <- <-]. auto. Qed.
Lemma fw_fail {A} n (Q : nat -> A -> Prop) : fw n gfail Q.
Proof. intros g b g1 W L E. discriminate E. Qed.
Lemma fw_imp {A} n (m : gm A) (Q R : nat -> A -> Prop) : (forall n' a, Q n' a -> R n' a) -> fw n m Q -> fw n m R.
Proof. intros I H g a g1 W L E. destruct (H _ _ _ W L E) as (H1 & H2 & H3). auto. Qed.
Lemma fw_tell n r : proper_request n r -> r <> RNew -> fw n (tell r) (fun _ _ => True).
Proof.
  intros P N g a g1 (W1 & W2 & W3) L [= <- <-]. cbn. split; [|auto]. split; [|split; [|exact W3]].
  - cbn. apply history_app. split; [exact W1|]. cbn. rewrite news_rev, <- W2. split; [|exact I]. eapply request_mono; eassumption.
  - cbn. rewrite W2. destruct r; congruence.
Qed.
Lemma fw_fresh n : fw n fresh new.
Proof.
  intros g a g1 (W1 & W2 & W3) L [= <- <-]. cbn. split; [|unfold new; cbn; lia]. split; [|split].
  - cbn. apply history_app. split; [exact W1|]. cbn. auto.
  - cbn. now rewrite W2.
  - cbn. rewrite Forall_forall in *. intros e He. specialize (W3 e He). lia.
Qed.
Lemma fw_lift {A} n (o : option A) : fw n (glift o) (fun _ a => o = Some a).
Proof. destruct o; [apply fw_ret; reflexivity|apply fw_fail]. Qed.
Lemma fw_lift_o {A} n (o : outcome A) : fw n (glift_o o) (fun _ a => o = Val a).
Proof. destruct o; [apply fw_ret; reflexivity|apply fw_fail]. Qed.
Lemma fw_map {A B} n (f : A -> gm B) (Q : nat -> B -> Prop) l : (forall n n' b, n <= n' -> Q n b -> Q n' b) ->
  (forall a n', In a l -> n <= n' -> fw n' (f a) Q) -> fw n (mapG f l) (fun n' bs => Forall (Q n') bs).
Proof.
  intros M. revert n. induction l as [|a l IH]; intros n H; cbn [mapG]; [apply fw_ret; constructor|].
  eapply fw_bind; [apply (H a n); [now left|lia]|intros n1 b L1 Qb]. eapply fw_bind; [apply IH; intros; apply H; [now right|lia]|intros n2 bs L2 F]. apply fw_ret. intros n' L.
  constructor; [eapply M; [|exact Qb]; lia|]. rewrite Forall_forall in *. intros x Hx. eapply M; [|apply F, Hx]. exact L.
Qed.
Lemma fw_iter {A B} n (f : A -> gm B) (Q : nat -> B -> Prop) l : (forall a n', In a l -> n <= n' -> fw n' (f a) Q) -> fw n (iterG f l) (fun _ _ => True).
Proof.
  revert n. induction l as [|a l IH]; intros n H; cbn [iterG]; [apply fw_ret; auto|].
  eapply fw_bind; [apply (H a n); [now left|lia]|intros n1 b L1 Qb]. apply IH. intros; apply H; [now right|lia].
Qed.
Lemma fw_init n t : (forall n', proper n' t) -> fw n (init_var t) new.
Proof.
  intros H. unfold init_var. eapply fw_bind; [apply fw_fresh|intros n1 v L1 V]. eapply fw_bind; [apply fw_tell; [split; [exact V|apply H]|discriminate]|intros n2 ? L2 _]. apply fw_ret. unfold new in *. intros; lia.
Qed.
Lemma fw_fresh_num n : fw n fresh_num new.
Proof.
  unfold fresh_num. eapply fw_bind; [apply fw_fresh|intros n1 v L1 V]. eapply fw_bind; [apply fw_tell; [split; [exact V|reflexivity]|discriminate]|intros n2 ? L2 _]. apply fw_ret. unfold new in *. intros; lia.
Qed.
Lemma proper_vars n vs : Forall (new n) vs -> proper n (UTuple (map UVar vs)).
Proof. intros F. apply proper_tuple. rewrite Forall_forall in *. intros t Ht. apply in_map_iff in Ht as (v & <- & Hv). exact (F v Hv). Qed.

Ltac num := unfold new in *; cbn [proper fst snd] in *; lia.
Ltac prop := cbn [proper_request proper]; repeat match goal with |- _ /\ _ => split end; try exact I; try num; try reflexivity.
Ltac fk := eapply fw_bind; [first [apply fw_fresh | apply fw_tell; [prop|discriminate] | apply fw_init; intros; prop | apply fw_fresh_num | apply fw_lift | apply fw_lift_o]|let n := fresh "n" in let L := fresh "L" in let V := fresh "V" in intros n ? L V].

(** ** Patterns *)

Definition patw (p : pattern) : Prop := forall n, fw n (gen_pat p) (fun n' r => fst r < n' /\ bound n' (snd r)).
Lemma pat_fw p : patw p.
Proof.
  induction p as [y| |b|w k|b|z|b|c|ps IH|l p IH|ps IH| |p IH] using pattern_ind'; unfold patw in *; intros n; cbn [gen_pat].
  - fk. apply fw_ret. intros n' L'. cbn [fst snd]. split; [num|]. apply bound_cons; [num|constructor].
  - fk. apply fw_ret. intros n' L'. split; [num|constructor].
  - fk. apply fw_ret. intros n' L'. split; [num|constructor].
  - fk. apply fw_ret. intros n' L'. split; [num|constructor].
  - fk. eapply fw_bind; [apply fw_tell; [split; [exact V|]|discriminate]|intros n1 ? L1 _; apply fw_ret; intros n' L'; split; [num|constructor]]. destruct (min_required_width b); reflexivity.
  - fk. fk. eapply fw_bind; [apply fw_tell; [split; [num|apply (InferProofs.encompassing_ok _ _ V0)]|discriminate]|intros n2 ? L2 _; apply fw_ret; intros n' L'; split; [num|constructor]].
  - fk. fk. eapply fw_bind; [apply fw_tell; [split; [num|apply (InferProofs.encompassing_ok _ _ V0)]|discriminate]|intros n2 ? L2 _; apply fw_ret; intros n' L'; split; [num|constructor]].
  - fk. apply fw_ret. intros n' L'. split; [num|constructor].
  - fk. eapply fw_bind with (Q := fun n' r => Forall (new n') (fst r) /\ bound n' (snd r)).
    + clear -IH. revert n0. induction IH as [|p ps H _ IH]; intros n; cbn [pats]; [apply fw_ret; intros; split; constructor|].
      eapply fw_bind; [apply H|intros n1 r L1 [V1 B1]]. eapply fw_bind; [apply IH|intros n2 r' L2 [V2 B2]]. apply fw_ret. intros n' L'. cbn [fst snd]. split.
      * constructor; [num|]. rewrite Forall_forall in *. intros v Hv. specialize (V2 v Hv). num.
      * apply bound_app; (eapply bound_mono; [|eassumption]; lia).
    + intros n1 r L1 [V1 B1]. eapply fw_bind; [apply fw_tell; [split; [num|now apply proper_vars]|discriminate]|intros n2 ? L2 _; apply fw_ret; intros n' L'; split; [num|eapply bound_mono; [|exact B1]; lia]].
  - fk. eapply fw_bind; [apply IH|intros n1 r L1 [V1 B1]]. fk. apply fw_ret. intros n' L'. split; [num|eapply bound_mono; [|exact B1]; lia].
  - fk. fk. eapply fw_bind with (Q := fun n' r => bound n' r).
    + clear -IH V0. assert (K : forall n2, n1 <= n2 -> fw n2 (seq_pats gen_pat a0 ps) (fun n' r => bound n' r)); [|apply K; lia].
      induction IH as [|p ps H _ IH]; intros n Ln; cbn [seq_pats]; [apply fw_ret; constructor|].
      eapply fw_bind; [apply H|intros n2 r L1 [V1 B1]]. fk. eapply fw_bind; [apply IH; lia|intros n3 r' L3 B3]. apply fw_ret. intros n' L'. apply bound_app; (eapply bound_mono; [|eassumption]; lia).
    + intros n2 r L2 B2. fk. apply fw_ret. intros n' L'. split; [num|eapply bound_mono; [|exact B2]; lia].
  - fk. eapply fw_bind with (Q := fun n' r => fst r < n' /\ bound n' (snd r)); [fk; apply fw_ret; intros n' L'; split; [num|constructor]|intros n1 r L1 [V1 B1]]. fk. apply fw_ret. intros n' L'. split; [num|eapply bound_mono; [|exact B1]; lia].
  - fk. eapply fw_bind; [apply IH|intros n1 r L1 [V1 B1]]. fk. apply fw_ret. intros n' L'. split; [num|eapply bound_mono; [|exact B1]; lia].
Qed.

(** ** Numeric expressions *)

Section Infer.
Context (ask : list request -> nat -> option numrep).
Lemma num_fw e : forall n G, bound n G -> fw n (gen_num ask G e) (fun n' r => fst r < n').
Proof.
  induction e as [c0|op out a IHa b IHb|op out a IHa|r cs a IHa|x]; intros n G B; cbn [gen_num].
  - destruct (tc_rep c0) as [|p].
    + fk. fk. destruct (BaseSetProps.C59_from_bounds (tc_val c0) (tc_val c0) (Z.le_refl _)) as (is' & E' & K & _). rewrite V0 in E'. injection E' as ->.
      eapply fw_bind; [apply fw_tell; [split; [num|exact K]|discriminate]|intros n2 ? L2 _]. apply fw_ret. intros; num.
    + fk. apply fw_ret. intros; num.
  - fk. eapply fw_bind; [apply IHa; eapply bound_mono; [|exact B]; lia|intros n1 l L1 V1]. eapply fw_bind; [apply IHb; eapply bound_mono; [|exact B]; lia|intros n2 r L2 V2].
    eapply fw_bind with (Q := fun _ _ => True); [|intros; apply fw_ret; intros; num]. unfold gen_bin, tell_rep.
    destruct (snd l) as [|p0], (snd r) as [|p1]; try destruct (mrep_eqb p0 p1); destruct out; try apply fw_fail; repeat fk; apply fw_ret; intros; exact I.
  - fk. eapply fw_bind; [apply IHa; eapply bound_mono; [|exact B]; lia|intros n1 l L1 V1]. eapply fw_bind with (Q := fun _ _ => True); [|intros; apply fw_ret; intros; num]. unfold tell_rep.
    destruct (snd l); [|destruct out; fk; apply fw_ret; intros; exact I]. fk. destruct out; [fk|]; apply fw_ret; intros; exact I.
  - fk. eapply fw_bind; [apply IHa; eapply bound_mono; [|exact B]; lia|intros n1 l L1 V1]. unfold tell_rep.
    eapply fw_bind with (Q := fun _ _ => True); [destruct (snd l); [apply fw_tell; [prop|discriminate]|apply fw_ret; auto]|intros n2 ? L2 _]. fk. apply fw_ret. intros; num.
  - fk. fk. apply (bound_look _ _ _ _ B) in V0. fk. eapply fw_bind with (Q := fun _ _ => True); [|intros; apply fw_ret; intros; num].
    intros g rep g1 W L3 E. destruct (ask (reqs g) a) as [rp|]; [|discriminate E]. injection E as <- <-. auto.
Qed.

(** ** Declared types *)

Lemma from_definite t : definite t = true -> forall u, from_valuetype t = Some u -> forall n, proper n u.
Proof.
  induction t as [| | |t IH|b0| |w|ts IH|fs IH|fs IH|t IH|t IH] using vtype_ind'; intros D u E n; try discriminate D; cbn [definite] in D; cbn [from_valuetype] in E; try (injection E as <-; exact I); try discriminate E.
  - destruct (from_valuetype t) as [u0|]; [|discriminate E]. injection E as <-. exact (IH D _ eq_refl n).
  - assert (K : forall us, mapO from_valuetype ts = Some us -> Forall (proper n) us).
    { clear E u. induction IH as [|t ts H _ IHt]; intros us E; cbn in E, D; [injection E as <-; constructor|]. apply andb_true_iff in D as [D1 D2].
      destruct (from_valuetype t) as [u0|]; [|discriminate E]. destruct (mapO from_valuetype ts) as [us0|]; [|discriminate E]. injection E as <-. constructor; [apply (H D1 _ eq_refl)|auto]. }
    destruct (mapO from_valuetype ts) as [us|]; [|discriminate E]. injection E as <-. apply proper_tuple. auto.
  - apply andb_true_iff in D as [D0 D].
    assert (K : forall us, mapO (fun f : label * vtype => let (l, t1) := f in option_map (pair l) (from_valuetype t1)) fs = Some us -> map fst us = map fst fs /\ Forall (fun f => proper n (snd f)) us).
    { clear E u D0. induction IH as [|[l t] ts H _ IHt]; intros us E; [injection E as <-; split; constructor|]. cbn in E, D, H. apply andb_true_iff in D as [D1 D2].
      destruct (from_valuetype t) as [u0|]; [|discriminate E]. cbn [option_map] in E. match type of E with match ?o with _ => _ end = _ => destruct o as [us0|]; [|discriminate E] end. injection E as <-.
      destruct (IHt D2 _ eq_refl) as [K1 K2]. cbn. split; [now rewrite K1|]. constructor; [apply (H D1 _ eq_refl)|exact K2]. }
    match type of E with option_map _ ?o = _ => destruct o as [us|]; [|discriminate E] end. injection E as <-. apply proper_record. destruct (K us eq_refl) as [K1 K2]. split; [|exact K2].
    rewrite K1. now apply InferProofs.nodup_labels_spec.
  - destruct (from_valuetype t) as [u0|]; [|discriminate E]. injection E as <-. exact (IH D _ eq_refl n).
  - destruct (from_valuetype t) as [u0|]; [|discriminate E]. injection E as <-. exact (IH D _ eq_refl n).
Qed.
Lemma declare_fw t : definite t = true -> forall n v, v < n -> fw n (declare v t) (fun _ _ => True).
Proof.
  induction t as [| | |t IH|b0| |w|ts IH|fs IH|fs IH|t IH|t IH] using vtype_ind'; intros D n v V; pose proof (from_definite _ D) as FD; cbn [declare];
    match goal with |- fw _ (match ?o with _ => _ end) _ => destruct o eqn:Eo; [apply fw_tell; [split; [exact V|apply FD; reflexivity]|discriminate]|] end; try apply fw_fail; cbn [definite] in D; clear FD Eo.
  - generalize 0. revert n V. induction IH as [|t ts H _ IHt]; intros n V i; cbn [tuple_vt]; [apply fw_ret; auto|]. cbn in D. apply andb_true_iff in D as [D1 D2].
    eapply fw_bind with (Q := fun _ _ => True); [|intros n1 ? L1 _; apply IHt; [exact D2|lia]]. fk. fk. apply (H D1). num.
  - apply andb_true_iff in D as [_ D]. revert n V. induction IH as [|[l t] fs H _ IHt]; intros n V; cbn [record_vt]; [apply fw_ret; auto|]. cbn in D, H. apply andb_true_iff in D as [D1 D2].
    eapply fw_bind with (Q := fun _ _ => True); [|intros n1 ? L1 _; apply IHt; [exact D2|lia]]. fk. fk. apply (H D1). num.
  - revert n V. induction IH as [|[l t] fs H _ IHt]; intros n V; cbn [union_vt]; [apply fw_ret; auto|]. cbn in D, H. apply andb_true_iff in D as [D1 D2].
    eapply fw_bind with (Q := fun _ _ => True); [|intros n1 ? L1 _; apply IHt; [exact D2|lia]].
    eapply fw_bind with (Q := fun n' u => proper n' u); [|intros n1 u L1 P1; apply fw_tell; [split; [lia|exact P1]|discriminate]].
    destruct (from_valuetype t) eqn:Et; [apply fw_ret; intros; now apply (from_definite t D1)|]. fk. eapply fw_bind; [apply (H D1); num|intros n2 ? L2 _]. apply fw_ret. intros; num.
  - fk. fk. apply (IH D). num.
  - fk. fk. apply (IH D). num.
Qed.

(** ** Expressions *)

Definition exw (e : expr) : Prop := tidy e = true -> forall n G, bound n G -> fw n (gen_expr ask G e) new.
Lemma lam_fw e : (forall x b, e = ELambda x b -> exw b) -> tidy e = true -> forall n G, bound n G -> fw n (gen_lam ask G e) (fun n' io => fst io < n' /\ snd io < n').
Proof.
  intros H T n G B. destruct e; try apply fw_fail. cbn [gen_lam]. fk. eapply fw_bind; [apply (H x e eq_refl T); apply bound_cons; [exact V|eapply bound_mono; [|exact B]; lia]|intros n1 r L1 V1]. apply fw_ret. cbn [fst snd]. intros; num.
Qed.
Ltac bd := match goal with |- bound _ ?G => first [eapply bound_mono; [|eassumption]; lia | apply bound_cons; [num|bd] | apply bound_app; [bd|bd]] end.
Ltac spl := repeat match goal with
  | H : _ && _ = true |- _ => apply andb_true_iff in H; destruct H
  | H : exw _ /\ _ |- _ => destruct H
  | H : exw ?e, D : tidy ?e = true |- _ => pose proof (H D); clear H
  | H : forall x b, ?e = ELambda x b -> exw b, D : tidy ?e = true |- _ => pose proof (lam_fw e H D); clear H
  end.
Ltac ge := first [fk | eapply fw_bind; [first [match goal with H : forall n G, bound n G -> fw n (gen_expr ask G ?e) _ |- fw _ (gen_expr ask _ ?e) _ => apply H; bd end
   | match goal with H : forall n G, bound n G -> fw n (gen_lam ask G ?e) _ |- fw _ (match ?e with _ => _ end) _ => apply H; bd end
   | match goal with H : forall n G, bound n G -> fw n (gen_lam ask G ?e) _ |- fw _ (gen_lam ask _ ?e) _ => apply H; bd end
   | apply declare_fw; [assumption|num] | apply pat_fw]|let n := fresh "n" in let L := fresh "L" in let V := fresh "V" in intros n ? L V; try destruct V as [V ?]]
  | match goal with V : ulook _ ?G = Some _ , B : bound _ ?G |- _ => apply (bound_look _ _ _ _ B) in V end].
Ltac fin := apply fw_ret; intros; num.
Lemma expr_fw e : exw e /\ forall x b, e = ELambda x b -> exw b.
Proof.
  induction e using expr_ind'; (split; [intros Td m G B|intros x0 b0 E0; try discriminate; injection E0 as <- <-; tauto]);
    cbn [tidy] in Td; spl; cbn [gen_expr]; try apply fw_fail.
  all: try (repeat ge; fin; fail).
  - fk. fk. apply (bound_look _ _ _ _ B) in V0. fk. fin.
  - fk. eapply fw_bind; [apply (fw_map _ _ new); [unfold new; intros; lia|]|intros n1 vs L1 F].
    { rewrite forallb_forall in Td. rewrite Forall_forall in H. intros e n' He Ln. apply (H e He); [auto|bd]. }
    eapply fw_bind; [apply fw_tell; [split; [num|now apply proper_vars]|discriminate]|intros]. fin.
  - fk. match goal with X : nodup_labels _ = true |- _ => rename X into Nd end. match goal with X : forallb _ fs = true |- _ => rename X into Tf end.
    eapply fw_bind with (Q := fun n' us => map fst us = map fst fs /\ Forall (fun f => proper n' (snd f)) us).
    2: { intros n1 us L1 [F1 F2]. eapply fw_bind; [apply fw_tell; [split; [num|apply proper_record; split; [rewrite F1; now apply InferProofs.nodup_labels_spec|exact F2]]|discriminate]|intros]. fin. }
    assert (Bn : bound n G) by bd. clear - H Tf Bn. revert n G Bn. induction fs as [|[l e] fs IH]; intros n G B; cbn [fields]; [apply fw_ret; split; constructor|].
    cbn [forallb] in Tf. apply andb_true_iff in Tf as [T1 T2]. inversion H as [|? ? [He _] Hfs]; subst. cbn [snd] in *.
    eapply fw_bind; [apply He; assumption|intros n1 v L1 V1]. eapply fw_bind; [apply (IH Hfs T2); bd|intros n2 us L2 [F1 F2]]. apply fw_ret. intros n' L'. cbn [map fst]. split; [now rewrite F1|].
    constructor; [cbn; num|]. rewrite Forall_forall in *. intros f Hf. eapply proper_mono; [|apply F2, Hf]. exact L'.
  - fk. fk. eapply fw_bind with (Q := fun _ _ => True); [|intros; fk; fin].
    assert (Bn : bound n0 G) by bd. clear - H Td Bn V0. revert n0 V0 Bn. induction es as [|e es IH]; intros n V B; cbn [elems]; [apply fw_ret; auto|].
    cbn [forallb] in Td. apply andb_true_iff in Td as [T1 T2]. inversion H as [|? ? [He _] Hes]; subst.
    eapply fw_bind with (Q := fun _ _ => True); [|intros n1 ? L1 _; apply (IH Hes T2); [num|bd]]. eapply fw_bind; [apply He; assumption|intros n1 v L1 V1]. apply fw_tell; [prop|discriminate].
  - fk. eapply fw_bind; [apply num_fw; bd|intros n1 r L1 V1]. fk. fin.
  - ge. ge. eapply fw_bind with (Q := fun _ _ => True); [|intros; fin]. match goal with X : forallb _ bs = true |- _ => rename X into Tb end.
    assert (Bn : bound n0 G) by bd. assert (Va : a < n0) by num. clear - H Tb Bn V0 Va. revert n0 V0 Va Bn. induction bs as [|[p b] bs IH]; intros n V Va B; cbn [cases]; [apply fw_ret; auto|].
    cbn [forallb] in Tb. apply andb_true_iff in Tb as [T1 T2]. inversion H as [|? ? [He _] Hbs]; subst. cbn [snd] in *.
    eapply fw_bind with (Q := fun _ _ => True); [|intros n1 ? L1 _; apply (IH Hbs T2); [num|num|bd]]. eapply fw_bind; [apply pat_fw|intros n1 pv L1 [V1 B1]]. eapply fw_bind; [apply He; [assumption|bd]|intros n2 v L2 V2].
    fk. apply fw_tell; [prop|discriminate].
  - destruct op; repeat ge; fin.
  - destruct op; repeat ge; fin.
  - ge. ge. eapply fw_bind; [apply fw_tell; [split; [num|apply proper_tuple]|discriminate]|intros; fin]. apply Forall_forall. intros t Ht. apply repeat_spec in Ht. now subst.
Qed.

(** ** Formats *)

Definition boundc (n : nat) (c : ctx) : Prop := bound n (cvals c) /\ bound n (cdyns c).
Lemma exw_of e : tidy e = true -> forall n G, bound n G -> fw n (gen_expr ask G e) new.
Proof. apply expr_fw. Qed.
Lemma lamw_of e : tidy e = true -> forall n G, bound n G -> fw n (gen_lam ask G e) (fun n' io => fst io < n' /\ snd io < n').
Proof. intros T. apply lam_fw; [apply expr_fw|exact T]. Qed.
Ltac bc := match goal with B : boundc _ ?c |- bound _ (cvals ?c) => eapply bound_mono; [|apply B]; lia | B : boundc _ ?c |- bound _ (cdyns ?c) => eapply bound_mono; [|apply B]; lia end.
Lemma view_fw c v : tidy_view v = true -> forall n, boundc n c -> fw n (gen_view ask c v) (fun _ _ => True).
Proof.
  induction v as [x|v IH e]; cbn [tidy_view gen_view]; intros T n B.
  - destruct (existsb (N.eqb x) (cviews c)); [apply fw_ret; auto|apply fw_fail].
  - apply andb_true_iff in T as [T1 T2]. eapply fw_bind; [apply IH; assumption|intros n1 ? L1 _]. eapply fw_bind; [apply exw_of; [exact T2|bc]|intros n2 o L2 V2]. apply fw_tell; [prop|discriminate].
Qed.
Lemma views_fw c xs : forall vs, forallb tidy_view vs = true -> forall n, boundc n c -> fw n (gen_views ask c xs vs) (fun _ _ => True).
Proof.
  induction xs as [|x xs IH]; intros [|v vs] T n B; cbn [gen_views]; try (apply fw_ret; auto; fail). cbn in T. apply andb_true_iff in T as [T1 T2].
  eapply fw_bind; [apply view_fw; assumption|intros n1 ? L1 _]. eapply fw_bind; [apply (IH vs T2); split; bc|intros n2 r L2 _]. apply fw_ret. auto.
Qed.
Lemma dyn_fw c d n : match d with DHuffman a None => tidy a | DHuffman a (Some b) => tidy a && tidy b end = true -> boundc n c -> fw n (gen_dyn ask c d) new.
Proof.
  destruct d as [codes values]. intros T B. cbn [gen_dyn]. fk.
  assert (LL : forall e n', tidy e = true -> n <= n' -> fw n' (let* s0 := gen_expr ask (cvals c) e in let* x := fresh in tell (RElem s0 x);;; tell (RBaseset x (BU U_SHORT8))) (fun _ _ => True)).
  { intros e n' Te Ln. eapply fw_bind; [apply exw_of; [exact Te|bc]|intros n1 v L1 V1]. fk. fk. apply fw_tell; [prop|discriminate]. }
  eapply fw_bind with (Q := fun _ _ => True); [apply LL; [destruct values; [apply andb_true_iff in T; apply T|exact T]|lia]|intros n1 ? L1 _].
  eapply fw_bind with (Q := fun _ _ => True); [destruct values; [apply LL; [apply andb_true_iff in T; apply T|lia]|apply fw_ret; auto]|intros n2 ? L2 _]. fk. fin.
Qed.
Lemma args_fw G ps : forall es n, forallb tidy es = true -> forallb (fun p => definite (snd p)) ps = true -> bound n G -> fw n (gen_args ask G ps es) (fun n' b => bound n' b).
Proof.
  induction ps as [|[x t] ps IH]; intros [|e es] n T D B; cbn [gen_args]; try (apply fw_ret; constructor). cbn in T, D. apply andb_true_iff in T as [T1 T2]. apply andb_true_iff in D as [D1 D2].
  eapply fw_bind; [apply exw_of; assumption|intros n1 v L1 V1]. eapply fw_bind; [apply declare_fw; [exact D1|num]|intros n2 ? L2 _]. eapply fw_bind; [apply (IH es _ T2 D2); bd|intros n3 r L3 B3]. apply fw_ret. intros n' L'.
  apply bound_app; [bd|]. apply bound_cons; [num|constructor].
Qed.

Context (ds : list (item * list vtype)).
Context (Hdf : forall k it tys, nth_error ds k = Some (it, tys) -> forallb definite tys = true).
Notation tidyf := (everywhere (fun g => tidy_node ds g = true)).
Section Level.
Context (level : nat -> ctx -> gm nat).
Context (Hlev : forall k c n, boundc n c -> fw n (level k c) new).
Definition ffw (F : format) : Prop := tidyf F -> forall n c, boundc n c -> fw n (gen_format ask ds level c F) new.
Ltac tsub := match goal with H : tidyf ?f |- tidyf ?g => apply (InferProofs.tidy_sub _ _ _ H); intros ? ?; cbn [subs]; right; auto using in_or_app end.
Ltac nodes := match goal with H : tidyf _ |- _ => let Y := fresh "Tn" in pose proof (everywhere_self _ _ H) as Y; cbn [tidy_node] in Y; repeat match goal with X : _ && _ = true |- _ => apply andb_true_iff in X; destruct X end end.
Ltac bcx := split; cbn [with_val with_vals with_dyn with_views cvals cdyns]; repeat first [apply bound_cons; [num|] | apply bound_app; [bd|]]; bc.
Ltac gf := first [fk | eapply fw_bind; [first [
    match goal with H : ffw ?e |- fw _ (gen_format ask ds level _ ?e) _ => apply H; [tsub|bcx] end
  | match goal with |- fw _ (gen_expr ask _ ?e) _ => apply exw_of; [assumption|bc] end
  | match goal with |- fw _ (gen_lam ask _ ?e) _ => apply lamw_of; [assumption|bc] end
  | match goal with |- fw _ (gen_view ask _ ?e) _ => apply view_fw; [assumption|bcx] end
  | match goal with |- fw _ (gen_dyn ask _ ?e) _ => apply dyn_fw; [assumption|bcx] end
  | apply declare_fw; [assumption|num]]|let n := fresh "n" in let L := fresh "L" in let V := fresh "V" in intros n ? L V; try destruct V as [V ?]]].
Lemma format_fw F : ffw F /\ forall l f, F = FVariant l f -> ffw f.
Proof.
  induction F using CompileProofs.format_ind'; (split; [intros Td m c0 B|intros l0 b0 E0; try discriminate; injection E0 as <- <-; tauto]);
    repeat match goal with H : ffw _ /\ _ |- _ => destruct H as [H _] end; nodes; cbn [gen_format].
  all: try (repeat gf; fin; fail).
  - fk. eapply fw_bind; [apply fw_lift|intros n0 ir L0 En]. destruct ir as [it tys]. cbn [fst snd]. pose proof (Hdf _ _ _ En) as Df.
    eapply fw_bind with (Q := new); [|intros; fk; fin].
    assert (K : fw n0 (let* b := gen_args ask (cvals c0) (combine (it_args it) tys) a in let* w := gen_views ask c0 (it_views it) v in level l (with_views w (with_vals b c0))) new).
    { eapply fw_bind; [apply args_fw; [assumption| |bc]|intros n1 b L1 B1].
      - clear - Df. revert tys Df. induction (it_args it) as [|x xs IH]; intros [|t tys] D; cbn in *; auto. apply andb_true_iff in D as [D1 D2]. apply andb_true_iff. auto.
      - eapply fw_bind; [apply views_fw; [assumption|bcx]|intros n2 w L2 _]. apply Hlev. bcx. }
    destruct a as [|e es]; [destruct v as [|w vs]; [|exact K]|exact K]. apply Hlev. bcx.
  - destruct (ByteSetModel.is_empty b); [discriminate|]. apply fw_init. intros; exact I.
  - fk. eapply fw_bind; [apply (fw_iter _ _ (fun _ _ => True))|intros; fin]. intros f n' Hf Ln.
    assert (Tf : tidyf f) by (intros g Hg; apply Td; right; apply in_flat_map; eauto). rewrite Forall_forall in H. destruct (H f Hf) as [H1 H2].
    assert (K : fw n' (let* i := gen_format ask ds level c0 f in tell (RType a (UVar i))) (fun _ _ => True)).
    { eapply fw_bind; [apply H1; [exact Tf|bcx]|intros n1 i L1 V1]. apply fw_tell; [prop|discriminate]. }
    destruct f; try exact K. eapply fw_bind; [apply (H2 _ _ eq_refl); [clear Td; tsub|bcx]|intros n1 i L1 V1]. apply fw_tell; [prop|discriminate].
  - fk. eapply fw_bind; [apply (fw_iter _ _ (fun _ _ => True))|intros; fin]. intros f n' Hf Ln.
    assert (Tf : tidyf f) by (intros g Hg; apply Td; right; apply in_flat_map; eauto). rewrite Forall_forall in H. destruct (H f Hf) as [H1 H2].
    assert (K : fw n' (let* i := gen_format ask ds level c0 f in tell (RType a (UVar i))) (fun _ _ => True)).
    { eapply fw_bind; [apply H1; [exact Tf|bcx]|intros n1 i L1 V1]. apply fw_tell; [prop|discriminate]. }
    destruct f; try exact K. eapply fw_bind; [apply (H2 _ _ eq_refl); [clear Td; tsub|bcx]|intros n1 i L1 V1]. apply fw_tell; [prop|discriminate].
  - fk. eapply fw_bind; [apply (fw_map _ _ new); [unfold new; intros; lia|]|intros n1 vs L1 F].
    { rewrite Forall_forall in H. intros f n' Hf Ln. apply (H f Hf); [intros g Hg; apply Td; right; apply in_flat_map; eauto|bcx]. }
    eapply fw_bind; [apply fw_tell; [split; [num|now apply proper_vars]|discriminate]|intros]. fin.
  - fk. fk. eapply fw_bind; [apply (fw_iter _ _ (fun _ _ => True))|intros; fk; fin]. intros f n' Hf Ln. rewrite Forall_forall in H.
    eapply fw_bind; [apply (H f Hf); [intros g Hg; apply Td; right; apply in_flat_map; eauto|bcx]|intros n2 i L2 V2]. apply fw_tell; [prop|discriminate].
  - fk. gf. eapply fw_bind with (Q := fun _ _ => True); [|intros; fin].
    assert (Tf : Forall (fun b => tidyf (snd b)) bs) by (apply everywhere_branches; intros g Hg; apply Td; now right).
    assert (Bn : boundc n0 c0) by bcx. assert (Va : a < n0) by num. clear - H Tf Bn V0 Va. revert n0 V0 Va Bn. induction bs as [|[p b] bs IH]; intros n V Va B; cbn [fcases]; [apply fw_ret; auto|].
    inversion H as [|? ? [He _] Hbs]; subst. inversion Tf as [|? ? Te Tbs]; subst. cbn [snd] in *.
    eapply fw_bind with (Q := fun _ _ => True); [|intros n1 ? L1 _; apply (IH Hbs Tbs); [num|num|bcx]]. eapply fw_bind; [apply pat_fw|intros n1 pv L1 [V1 B1]]. eapply fw_bind; [apply He; [assumption|bcx]|intros n2 v L2 V2].
    fk. apply fw_tell; [prop|discriminate].
  - fk. fk. apply (bound_look _ _ _ _ (proj2 B)) in V0. fk. fin.
  - fk. eapply fw_bind; [apply view_fw; [destruct vf; try (apply andb_true_iff in Tn; apply Tn); exact Tn|bcx]|intros n1 ? L1 _].
    eapply fw_bind with (Q := new); [|intros; fk; fin]. destruct vf; cbn [gen_vf]; try (apply andb_true_iff in Tn as [_ Tn]); repeat gf; try fin.
Qed.
End Level.
Context (Htd : forall k it tys, nth_error ds k = Some (it, tys) -> tidyf (it_format it)).
Lemma level_fw depth : forall k c n, boundc n c -> fw n (gen_level ask ds depth k c) new.
Proof.
  induction depth as [|d IH]; intros k c n B g v g1 W L E; cbn [gen_level] in E; destruct (nget k (lvls g)) as [w|] eqn:Ew; try discriminate E.
  1,2: injection E as <- <-; split; [exact W|]; split; [lia|]; destruct W as (_ & _ & W); rewrite Forall_forall in W; apply InferProofs.nget_in in Ew; exact (W _ Ew).
  destruct (nth_error ds k) as [[it tys]|] eqn:En; [|discriminate E]. cbn [fst] in E.
  destruct (gen_format ask ds (gen_level ask ds d) c (it_format it) g) as [[w g2]|] eqn:Eg; [|discriminate E]. injection E as <- <-.
  destruct (proj1 (format_fw _ IH (it_format it)) (Htd _ _ _ En) n c B g w g2 W L Eg) as ((W1 & W2 & W3) & L2 & V). cbn [nv reqs lvls].
  split; [|split; [exact L2|exact V]]. split; [exact W1|]. split; [exact W2|]. constructor; assumption.
Qed.
End Infer.

Lemma infer_proper ask ds depth f v g :
  (forall k it tys, nth_error ds k = Some (it, tys) -> forallb definite tys = true /\ everywhere (fun g => tidy_node ds g = true) (it_format it)) ->
  everywhere (fun g => tidy_node ds g = true) f ->
  gen_format ask ds (gen_level ask ds depth) (Ctx [] [] []) f (GS 0 [] []) = Some (v, g) ->
  proper_history 0 (rev (reqs g)) /\ v < news (reqs g).
Proof.
  intros Hd Hf E. assert (W : wfg (GS 0 [] [])) by (split; [exact I|split; [reflexivity|constructor]]). assert (B : boundc 0 (Ctx [] [] [])) by (split; constructor).
  assert (D1 : forall k it tys, nth_error ds k = Some (it, tys) -> forallb definite tys = true) by (intros; eapply Hd; eassumption).
  assert (D2 : forall k it tys, nth_error ds k = Some (it, tys) -> everywhere (fun g => tidy_node ds g = true) (it_format it)) by (intros; eapply Hd; eassumption).
  destruct (proj1 (format_fw ask ds D1 _ (level_fw ask ds D1 D2 depth) f) Hf 0 (Ctx [] [] []) B _ _ _ W (le_n _) E) as ((W1 & W2 & W3) & _ & V).
  split; [exact W1|]. rewrite <- W2. exact V.
Qed.
