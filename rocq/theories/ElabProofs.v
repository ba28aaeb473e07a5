(** The types that elaboration gives to the nodes of its trees make derivations. *)
From Verif Require ByteSetModel.
From Verif Require Import Base BoundsModel DataModel NumericModel BaseSetModel BaseSetSpec UnifyModel ReifyModel
  TypeModel ValueModel ValueProofs ValueWfProofs FormatModel MatchBoundsProofs UnifySpec UnifyBase InferModel InferSpec ElabModel ElabSpec ElabLock.
From Verif Require Import TypeSpec TypeUnifyProofs InferProofs.
From Verif Require CompileProofs BaseSetProofs BaseSetProps TypeValueProofs.
Open Scope nat_scope.

(** ** Derivations and the rules *)

Lemma top_tmap {A B} (f : A -> B) t : top (tmap f t) = f (top t).
Proof. destruct t. reflexivity. Qed.
Lemma apat_type p : forall t T B, apat p t T B -> pat_type p T B /\ top t = T.
Proof.
  assert (LL : forall ps, Forall (fun p => forall t T B, apat p t T B -> pat_type p T B /\ top t = T) ps -> forall ts Ts B, apats ps ts Ts B -> pats_type ps Ts B).
  { intros ps IH. induction IH as [|q ps H1 _ IH]; intros ts Ts B P; inversion P; subst; constructor; [eapply H1; eassumption|eapply IH; eassumption]. }
  induction p as [y| |b|w n|b|z|b|c|ps IH|l p IH|ps IH| |p IH] using pattern_ind'; intros t T B P; inversion P; subst; (split; [|reflexivity]); try (econstructor; eauto; fail).
  - econstructor; [eassumption|]. eapply IH; eassumption.
  - constructor. eapply IH; eassumption.
Qed.
Lemma anum_type G n : forall t p, anum G n t p -> num_type G n p /\ top t = GInt p.
Proof. induction n; intros t p H; inversion H; subst; (split; [|reflexivity]); econstructor; eauto; match goal with IH : forall t p, anum G ?n t p -> _, X : anum G ?n _ _ |- _ => apply (IH _ _ X) end. Qed.
Lemma an_type e : (forall G t T, an G e t T -> types G e T /\ top t = T) /\ forall x b, e = ELambda x b -> forall G t T, an G b t T -> types G b T /\ top t = T.
Proof.
  induction e using expr_ind'; (split; [intros G t' T' HT|intros x0 b0 E0; try discriminate; injection E0 as <- <-; tauto]);
    repeat match goal with H : _ /\ _ |- _ => destruct H end; inversion HT; subst; clear HT; (split; [|reflexivity]);
    repeat match goal with H : forall x b, ELambda ?y ?c = ELambda x b -> _ |- _ => pose proof (H y c eq_refl); clear H end;
    repeat match goal with H : forall G t T, an G ?e t T -> _, X : an _ ?e _ _ |- _ => apply H in X; destruct X end;
    try (econstructor; eauto; fail).
  - constructor. match goal with X : Forall2 _ es ts |- _ => induction X end; cbn; constructor; inversion H as [|? ? [He _] Hes]; subst; [|auto]. eapply He; eassumption.
  - constructor. match goal with X : Forall2 _ fs ts |- _ => induction X end; cbn; constructor; inversion H as [|? ? [He _] Hes]; subst; [|auto]. cbn. split; [reflexivity|]. eapply He; eassumption.
  - constructor. match goal with X : Forall2 _ es ts |- _ => induction X end; constructor; inversion H as [|? ? [He _] Hes]; subst; [|auto]. eapply He; eassumption.
  - constructor. eapply anum_type; eassumption.
  - econstructor; [eassumption|]. match goal with X : Forall2 _ bs ps |- _ => induction X as [|b p bs ps (B & P1 & P2)] end; constructor; inversion H as [|? ? [He _] Hes]; subst; [|auto]. exists B. split; [eapply apat_type; eassumption|]. eapply He; eassumption.
  - econstructor; [eassumption|eapply apat_type; eassumption|eassumption].
Qed.
Lemma an_top G e t T : an G e t T -> top t = T.
Proof. intros H. eapply (proj1 (an_type e)). eassumption. Qed.

Definition aagrees (e : expr) : Prop := forall G G' t T, agree e G G' -> an G e t T -> an G' e t T.
Lemma anum_agree n : forall G G' t p, (forall x, existsb (N.eqb x) (iter_vars n) = true -> assoc x G = assoc x G') -> anum G n t p -> anum G' n t p.
Proof.
  induction n; intros G G' t p H HT; inversion HT; subst; econstructor; eauto.
  - eapply IHn1; [|eassumption]. intros x Hx. apply H. cbn. rewrite existsb_app. apply orb_true_iff. left. exact Hx.
  - eapply IHn2; [|eassumption]. intros x Hx. apply H. cbn. rewrite existsb_app. apply orb_true_iff. right. exact Hx.
  - eapply IHn1; [|eassumption]. intros x Hx. apply H. cbn. rewrite existsb_app. apply orb_true_iff. left. exact Hx.
  - eapply IHn2; [|eassumption]. intros x Hx. apply H. cbn. rewrite existsb_app. apply orb_true_iff. right. exact Hx.
  - rewrite <- H; [assumption|]. cbn. now rewrite N.eqb_refl.
Qed.
Ltac ag := match goal with A : agree ?e0 ?G ?G', H : aagrees ?e, T : an ?G ?e _ _ |- an ?G' ?e _ _ => eapply (H G G'); [|exact T];
   apply (agree_sub e0 e G G' A); intros ? X; cbn [uses]; rewrite X, ?orb_true_r; reflexivity end.
Ltac agl := match goal with A : agree ?e0 ?G ?G', H : aagrees ?b, T : an ((?x, ?A0) :: ?G) ?b _ _ |- an ((?x, _) :: ?G') ?b _ _ => eapply (H ((x, A0) :: G) ((x, A0) :: G')); [|exact T];
   apply agree_lam; intros ? X; apply A; cbn [uses]; rewrite X, ?orb_true_r; reflexivity end.
Lemma an_agree e : aagrees e /\ forall x b, e = ELambda x b -> aagrees b.
Proof.
  induction e using expr_ind'; (split; [intros G G' t0 T0 Ha HT|intros x0 b0 E0; try discriminate; injection E0 as <- <-; tauto]);
    repeat match goal with H : aagrees _ /\ _ |- _ => destruct H end; inversion HT; subst; clear HT;
    repeat match goal with H : forall x b, ELambda ?y ?c = ELambda x b -> aagrees b |- _ => pose proof (H y c eq_refl); clear H end;
    try (econstructor; first [ag | agl | eassumption]; fail).
  - constructor. rewrite <- (Ha x); [assumption|]. apply N.eqb_refl.
  - constructor. match goal with X : Forall2 _ es _ |- _ => revert X end. rewrite Forall_forall in H.
    assert (K : forall e, In e es -> agree e G G') by (intros e He; eapply agree_sub; [exact Ha|]; intros x U; cbn; apply existsb_exists; eauto).
    clear Ha. intros F. induction F; constructor; [|apply IHF; intros; [apply H|apply K]; now right].
    destruct (H x (or_introl eq_refl)) as [Hx _]. eapply Hx; [apply K; now left|assumption].
  - constructor. match goal with X : Forall2 _ fs _ |- _ => revert X end. rewrite Forall_forall in H.
    assert (K : forall f, In f fs -> agree (snd f) G G') by (intros [l e] He; eapply agree_sub; [exact Ha|]; intros x U; cbn; apply existsb_exists; exists (l, e); auto).
    clear Ha. intros F. induction F as [|x y l l' F1 F IHF]; constructor; [|apply IHF; intros; [apply H|apply K]; now right].
    destruct (H x (or_introl eq_refl)) as [Hx _]. eapply Hx; [apply K; now left|assumption].
  - constructor. match goal with X : Forall2 _ es _ |- _ => revert X end. rewrite Forall_forall in H.
    assert (K : forall e, In e es -> agree e G G') by (intros e He; eapply agree_sub; [exact Ha|]; intros x U; cbn; apply existsb_exists; eauto).
    clear Ha. intros F. induction F; constructor; [|apply IHF; intros; [apply H|apply K]; now right].
    destruct (H x (or_introl eq_refl)) as [Hx _]. eapply Hx; [apply K; now left|assumption].
  - constructor. eapply anum_agree; [|eassumption]. intros x Hx. apply Ha. exact Hx.
  - econstructor; [ag|]. match goal with X : Forall2 _ bs _ |- _ => revert X end. rewrite Forall_forall in H.
    assert (K : forall b, In b bs -> forall x, negb (names_pat (fst b) x) && uses x (snd b) = true -> assoc x G = assoc x G').
    { intros [p e'] He x U. apply Ha. cbn. apply orb_true_iff. right. apply existsb_exists. exists (p, e'). auto. }
    clear Ha. intros F. induction F as [|b y l l' (B & P & HT) F IHF]; constructor; [|apply IHF; intros; [apply H|eapply K]; try (now right); try eassumption].
    + destruct (H b (or_introl eq_refl)) as [Hx _]. exists B. split; [exact P|]. eapply Hx; [|exact HT]. eapply agree_pat; [eapply apat_type, P|]. apply K. now left.
    + now right.
  - econstructor; [ag|eassumption|]. match goal with X : aagrees e2 |- _ => eapply X; [|eassumption] end. eapply agree_pat; [eapply apat_type; eassumption|]. intros x U. apply Ha. cbn. rewrite U. apply orb_true_r.
Qed.

(** ** What requests that are met say *)

Section Rules.
Context (s : assignment) (ask : list request -> nat -> option numrep) (ds : list (item * list vtype)) (Lf : list (nat * itree)).
Context (Hask : forall rs v p, Forall (meets s) rs -> proper_history 0 (rev rs) -> ask rs v = Some (Concrete p) -> s v = GInt p).
Notation sc := (InferProofs.sc s).
Notation met_u := (InferProofs.met_u s).
Notation met_bool := (InferProofs.met_bool s).
Notation fits_vars := (InferProofs.fits_vars s).
Notation sc_look := (InferProofs.sc_look s).
Notation sc_app := (InferProofs.sc_app s).

(** The levels have the trees found for them. *)
Definition LT (k : nat) (t : gtree) : Prop := exists u, In (k, u) Lf /\ t = tmap s u.
Definition tentry (e : nat * itree) : Prop := exists it tys G D, nth_error ds (fst e) = Some (it, tys) /\ args_in it tys G
  /\ af ds LT G D (it_format it) (tmap s (snd e)) (s (top (snd e))).
Definition okt (g : gst) (st : est) : Prop := Forall (meets s) (reqs g) /\ proper_history 0 (rev (reqs g)) /\ incl (forms st) Lf.
Definition fwd {A B} (m : gm A) (e : em B) (Q : A -> B -> Prop) : Prop :=
  forall g st a g1 b st1, inv g st -> m g = Some (a, g1) -> e st = Some (b, st1) -> okt g1 st1 ->
    okt g st /\ (forall x, In x (forms st1) -> In x (forms st) \/ tentry x) /\ Q a b.

Lemma fwd_bind {A B C D} (m : gm A) (e : em B) (k : A -> gm C) (h : B -> em D) (R Q : A -> B -> Prop) (S : C -> D -> Prop) :
  lock m e R -> fwd m e Q -> (forall a b, R a b -> fwd (k a) (h b) (fun c d => Q a b -> S c d)) -> fwd (gbind m k) (ebind e h) S.
Proof.
  intros H F K g st c g1 d st1 I E1 E2 Hk. unfold gbind in E1. unfold ebind in E2. destruct (m g) as [[a g2]|] eqn:Em; [|discriminate E1]. destruct (e st) as [[b st2]|] eqn:Ee; [|discriminate E2].
  destruct (H _ _ _ _ _ _ I Em Ee) as [I2 Rab]. destruct (K a b Rab _ _ _ _ _ _ I2 E1 E2 Hk) as (O2 & N2 & S2). destruct (F _ _ _ _ _ _ I Em Ee O2) as (O1 & N1 & Q1).
  split; [exact O1|]. split; [|auto]. intros x Hx. destruct (N2 x Hx) as [X|X]; [auto|right; exact X].
Qed.
Lemma fwd_ret {A B} (a : A) (b : B) (Q : A -> B -> Prop) : Q a b -> fwd (gret a) (eret b) Q.
Proof. intros H g st a' g1 b' st1 I [= <- <-] [= <- <-] Hk. auto. Qed.
Lemma fwd_failL {A B} (e : em B) (Q : A -> B -> Prop) : fwd gfail e Q.
Proof. intros g st a g1 b st1 I E. discriminate E. Qed.
Lemma fwd_failR {A B} (m : gm A) (Q : A -> B -> Prop) : fwd m efail Q.
Proof. intros g st a g1 b st1 I _ E. discriminate E. Qed.
Lemma fwd_imp {A B} (m : gm A) (e : em B) (Q S : A -> B -> Prop) : (forall a b, Q a b -> S a b) -> fwd m e Q -> fwd m e S.
Proof. intros I H g st a g1 b st1 J E F Hk. destruct (H _ _ _ _ _ _ J E F Hk) as (H1 & H2 & H3). auto. Qed.
Lemma okt_tell g st r : okt (GS (nv g) (r :: reqs g) (lvls g)) st -> okt g st /\ meets s r.
Proof. intros (H1 & H2 & H3). cbn in *. inversion H1; subst. split; [|assumption]. split; [assumption|]. split; [eapply history_init, H2|exact H3]. Qed.
Lemma fwd_tell {A B} r (k : gm A) (e : em B) (Q : A -> B -> Prop) : fwd k e (fun a b => meets s r -> Q a b) -> fwd (gbind (tell r) (fun _ => k)) e Q.
Proof.
  intros H g st a g1 b st1 J E F Hk. unfold gbind, tell in E. destruct (H (GS (nv g) (r :: reqs g) (lvls g)) st _ _ _ _ J E F Hk) as (H1 & H2 & H3). apply okt_tell in H1 as [H1 H1']. auto.
Qed.
Lemma fwd_tell_end {B} r (b : B) (Q : unit -> B -> Prop) : (meets s r -> Q tt b) -> fwd (tell r) (eret b) Q.
Proof. intros H g st a g1 b' st1 J [= <- <-] [= <- <-] Hk. apply okt_tell in Hk as [H1 H1']. auto. Qed.
Lemma fwd_fresh : fwd fresh index (fun _ _ => True).
Proof.
  intros g st a g1 b st1 I [= <- <-] [= <- <-] (H1 & H2 & H3). cbn in *. inversion H1; subst. split; [|auto]. split; [assumption|]. split; [eapply history_init, H2|exact H3].
Qed.
Lemma fwd_lift {A B C} (o : option C) (k : C -> gm A) (e : em B) Q : (forall x, o = Some x -> fwd (k x) e Q) -> fwd (gbind (glift o) k) e Q.
Proof. intros H. destruct o; [|apply fwd_failL]. intros g st a g1 b st1 I E. apply (H c eq_refl _ _ _ _ _ _ I E). Qed.
Lemma fwd_lift_o {A B C} (o : outcome C) (k : C -> gm A) (e : em B) Q : (forall x, o = Val x -> fwd (k x) e Q) -> fwd (gbind (glift_o o) k) e Q.
Proof. intros H. destruct o; [|apply fwd_failL]. intros g st x g1 b st1 I E. apply (H a eq_refl _ _ _ _ _ _ I E). Qed.
Lemma fwd_liftR {A B C} (o : option C) (m : gm A) (h : C -> em B) Q : (forall x, o = Some x -> fwd m (h x) Q) -> fwd m (ebind (elift o) h) Q.
Proof. intros H. destruct o; [|apply fwd_failR]. intros g st a g1 b st1 I E F. apply (H c eq_refl _ _ _ _ _ _ I E F). Qed.
Lemma fwd_assoc {A B C D} (m : gm A) (k1 : A -> gm B) (k2 : B -> gm C) (e : em D) Q :
  fwd (gbind m (fun a => gbind (k1 a) k2)) e Q -> fwd (gbind (gbind m k1) k2) e Q.
Proof. intros H g st a g1 b st1 I E. apply (H _ _ _ _ _ _ I). unfold gbind in *. destruct (m g) as [[x g2]|]; [exact E|discriminate E]. Qed.
Lemma fwd_assocR {A B C D} (m : em A) (k1 : A -> em B) (k2 : B -> em C) (e : gm D) Q :
  fwd e (ebind m (fun a => ebind (k1 a) k2)) Q -> fwd e (ebind (ebind m k1) k2) Q.
Proof. intros H g st a g1 b st1 I E F. apply (H _ _ _ _ _ _ I E). unfold ebind in *. destruct (m st) as [[x g2]|]; [exact F|discriminate F]. Qed.
Lemma fwd_retL {A B C} (a : A) (k : A -> gm B) (e : em C) Q : fwd (k a) e Q -> fwd (gbind (gret a) k) e Q.
Proof. intros H. exact H. Qed.
Lemma fwd_retR {A B C} (a : A) (k : A -> em B) (e : gm C) Q : fwd e (k a) Q -> fwd e (ebind (eret a) k) Q.
Proof. intros H. exact H. Qed.
Lemma fwd_ext {A B} (m : gm A) (e e' : em B) Q : (forall st, e st = e' st) -> fwd m e' Q -> fwd m e Q.
Proof. intros X H g st a g1 b st1 J E F. rewrite X in F. exact (H _ _ _ _ _ _ J E F). Qed.
Lemma fwd_end {A B C} (m : gm A) (e : em B) (h : B -> C) (Q : A -> C -> Prop) : fwd m e (fun a b => Q a (h b)) -> fwd m (ebind e (fun b => eret (h b))) Q.
Proof. intros H g st a g1 b st1 I E F. unfold ebind in F. destruct (e st) as [[c st2]|] eqn:Ee; [|discriminate F]. injection F as <- <-. exact (H _ _ _ _ _ _ I E Ee). Qed.
(** Inference alone moves on without counting. *)
Lemma fwd_left {A B C} (m : gm A) (k : A -> gm B) (e : em C) (P : A -> Prop) (Q : B -> C -> Prop) :
  lock m (eret tt) (fun _ _ => True) -> fwd m (eret tt) (fun a _ => P a) -> (forall a, fwd (k a) e (fun b c => P a -> Q b c)) -> fwd (gbind m k) e Q.
Proof.
  intros H F K g st c g1 d st1 J E1 E2 Hk. unfold gbind in E1. destruct (m g) as [[a g2]|] eqn:Em; [|discriminate E1].
  destruct (H _ _ _ _ _ _ J Em eq_refl) as [I2 _]. destruct (K a _ _ _ _ _ _ I2 E1 E2 Hk) as (O2 & N2 & S2). destruct (F _ _ _ _ _ _ J Em eq_refl O2) as (O1 & N1 & Q1). auto.
Qed.
Lemma fwd_map {A B C} (f : A -> gm B) (h : A -> em C) R (Q : A -> B -> C -> Prop) l : Forall (fun x => lock (f x) (h x) R /\ fwd (f x) (h x) (Q x)) l ->
  fwd (mapG f l) (mapE h l) (fun bs cs => Forall2 R bs cs /\ Forall2 (fun x c => exists b, R b c /\ Q x b c) l cs).
Proof.
  induction 1 as [|a l [H1 H2] HF IH]; cbn [mapG mapE]; [apply fwd_ret; split; constructor|]. eapply fwd_bind; [exact H1|exact H2|intros b c Hbc].
  eapply fwd_bind; [apply lock_map; eapply Forall_impl; [|exact HF]; intros x [X _]; exact X|exact IH|intros bs cs Hs]. apply fwd_ret. intros (F1 & F2) Qb. split; constructor; eauto.
Qed.
Lemma fwd_iter {A B C} (f : A -> gm B) (h : A -> em C) (Q : A -> C -> Prop) l : Forall (fun x => lock (f x) (h x) (fun _ _ => True) /\ fwd (f x) (h x) (fun _ c => Q x c)) l ->
  fwd (iterG f l) (mapE h l) (fun _ cs => Forall2 Q l cs).
Proof.
  induction 1 as [|a l [H1 H2] HF IH]; cbn [iterG mapE]; [apply fwd_ret; constructor|]. eapply fwd_bind; [exact H1|exact H2|intros b c Hbc]. apply fwd_end. eapply fwd_imp; [|exact IH]. intros ? cs F Qc. constructor; assumption.
Qed.
Lemma tops bs cs : Forall2 (fun v t => v = top t) bs cs -> map s bs = map top (map (tmap s) cs).
Proof. induction 1; cbn; [reflexivity|]. subst. rewrite top_tmap. f_equal. assumption. Qed.

Ltac met := repeat match goal with
  | H : meets s (RPair _ _) |- _ => cbn [meets] in H
  | H : meets s (RElem _ _) |- _ => cbn [meets] in H
  | H : meets s (RParam _ _) |- _ => cbn [meets] in H
  | H : meets s (RType _ _) |- _ => cbn [meets] in H
  | H : meets s (RBaseset _ _) |- _ => first [apply met_bool in H | apply met_u in H; destruct H as [? H]]
  | H : meets s (RIntset _ _) |- _ => destruct H as (? & ? & H)
  | H : meets s (RVariant _ _ _) |- _ => destruct H as (? & ? & ? & ? & H)
  | H : meets s (RIndex _ _ _) |- _ => destruct H as (? & ? & H)
  | H : meets s (RField _ _ _) |- _ => destruct H as (? & ? & H)
  | H : fits s (UVar _) _ |- _ => cbn [fits] in H
  | H : fits s (UBase _) _ |- _ => cbn [fits ground_base] in H
  | H : fits s (UInt _) _ |- _ => cbn [fits] in H
  | H : fits s UView _ |- _ => cbn [fits] in H
  | H : fits s (USeq _ _) _ |- _ => cbn [fits] in H; destruct H as (? & ? & H)
  | H : fits s (UOption _) _ |- _ => cbn [fits] in H; destruct H as (? & ? & H)
  | H : fits s (UPhantom _) _ |- _ => cbn [fits] in H; destruct H as (? & ? & H)
  | H : fits s (UTuple (map _ _)) _ |- _ => apply fits_vars in H
  | H : fits s (UTuple (_ :: _)) _ |- _ => apply fits_tuple in H; destruct H as (? & ? & H)
  | H : fits s (UTuple []) _ |- _ => apply fits_tuple in H; destruct H as (? & ? & H)
  | H : Forall2 (fits s) (_ :: _) _ |- _ => inversion H; subst; clear H
  | H : Forall2 (fits s) [] _ |- _ => inversion H; subst; clear H
  | H : ulook _ _ = Some _ |- _ => apply sc_look in H
  end.
Ltac eqs := repeat match goal with
  | H : s ?a = s ?a |- _ => clear H
  | H : s ?a = _ |- _ => rewrite H in *; clear H
  | H : ?x = s ?a |- _ => rewrite <- H in *; clear H
  end.
Ltac bk := first
  [ match goal with
    | |- fwd (gbind (glift_o _) _) _ _ => apply fwd_lift_o; intros ? ?
    | |- fwd (gbind (glift _) _) _ _ => apply fwd_lift; intros ? ?
    | |- fwd (gbind (gret _) _) _ _ => apply fwd_retL
    | |- fwd (gbind (gbind _ _) _) _ _ => apply fwd_assoc
    | |- fwd (gbind (tell _) _) _ _ => apply fwd_tell
    end
  | apply fwd_failL | apply fwd_failR
  | apply fwd_liftR; intros ? ?
  | apply fwd_assocR | apply fwd_retR
  | eapply fwd_bind; [apply lock_fresh|apply fwd_fresh|intros ? ? <-] ].
Ltac unf := unfold init_var, fresh_num.
Ltac tm := cbn [tmap map fst snd] in *.

(** ** Patterns *)

Lemma pat_fwd p : fwd (gen_pat p) (elab_pat p) (fun r t => apat p (tmap s t) (s (fst r)) (sc (snd r))).
Proof.
  induction p as [y| |b|w n|b|z|b|c|ps IH|l p IH|ps IH| |p IH] using pattern_ind'; cbn [gen_pat elab_pat]; unf; repeat bk.
  - apply fwd_ret. intros _. constructor.
  - apply fwd_ret. intros _. constructor.
  - apply fwd_ret. tm. intros H _. met. rewrite H. constructor.
  - apply fwd_ret. tm. intros H _. met. rewrite H. apply APU.
  - apply fwd_ret. tm. intros (b0 & (w & n & -> & R) & H) _. rewrite H. apply APInt. intros m E L. apply (BaseSetProps.C59_pattern_width b m E L). eauto.
  - apply fwd_ret. tm. intros (p & Hp & H') _. rewrite H'. constructor. match goal with X : encompassing _ = Val _ |- _ => apply (encompassing_holds z z _ (Z.le_refl z) X p Hp) end. lia.
  - destruct b as [lo hi]. apply fwd_ret. tm. intros (p & Hp & H') _. rewrite H'. constructor. intros L. match goal with X : encompassing _ = Val _ |- _ => exact (encompassing_holds lo hi _ L X p Hp) end.
  - apply fwd_ret. tm. intros H _. met. rewrite H. constructor.
  - eapply fwd_bind with (R := fun r ts => fst r = map top ts) (Q := fun r ts => apats ps (map (tmap s) ts) (map s (fst r)) (sc (snd r))).
    + clear. induction ps as [|p ps IH]; cbn [pats mapE]; [repeat lk|]. eapply lock_bind; [apply pat_lock|intros r t E]. eapply lock_bind; [exact IH|intros r' t' E']. lk. cbn. congruence.
    + clear -IH. induction IH as [|p ps H _ IH]; cbn [pats mapE]; [apply fwd_ret; constructor|].
      eapply fwd_bind; [apply pat_lock|exact H|intros r t _]. eapply fwd_bind with (R := fun _ _ => True); [|exact IH|intros r' t' _].
      { clear. induction ps as [|p ps IH]; cbn [pats mapE]; [repeat lk|]. eapply lock_bind; [apply pat_lock|intros r t E]. eapply lock_bind; [exact IH|intros r' t' E']. lk. }
      apply fwd_ret. cbn [fst snd map]. rewrite sc_app. intros H1 H2. constructor; assumption.
    + intros r ts _. bk. apply fwd_ret. tm. intros H1 H2 _. met. rewrite H1. constructor; exact H2.
  - eapply fwd_bind; [apply pat_lock|exact IH|intros r t _]. bk. apply fwd_ret. tm. intros H1 H2 _. met. eqs. econstructor; eassumption.
  - assert (SL : forall ps v, lock (seq_pats gen_pat v ps) (mapE elab_pat ps) (fun _ _ => True)).
    { clear. induction ps as [|p ps IH]; intros v; cbn [seq_pats mapE]; [repeat lk|]. eapply lock_bind; [apply pat_lock|intros r t E]. lk. eapply lock_bind; [apply IH|intros r' t' E']. repeat lk. }
    eapply fwd_bind with (Q := fun r ts => exists Ts, apats ps (map (tmap s) ts) Ts (sc r) /\ Forall (eq (s a0)) Ts); [apply SL| |intros r ts _; bk; apply fwd_ret; tm; intros H1 (Ts & H2 & H3) _ _; met; eqs; econstructor; eassumption].
    clear -IH SL. induction IH as [|p ps H _ IH]; cbn [seq_pats mapE]; [apply fwd_ret; exists []; split; constructor|].
    eapply fwd_bind; [apply pat_lock|exact H|intros r t _]. bk. eapply fwd_bind; [apply SL|exact IH|intros r' ts _]. apply fwd_ret. cbn [fst snd map]. intros (Ts & H1 & H2) H3 H4. cbn in H3.
    exists (s (fst r) :: Ts). rewrite sc_app. split; constructor; assumption.
  - apply fwd_ret. tm. intros H1 _ _. met. eqs. constructor.
  - eapply fwd_bind; [apply pat_lock|exact IH|intros r t _]. bk. apply fwd_ret. tm. intros H1 H2 _. met. eqs. constructor. exact H2.
Qed.

(** ** Numeric expressions *)

Definition numa (n : nexpr) (G : uscope) (r : nat * numrep) (t : itree) : Prop :=
  exists p, s (fst r) = GInt p /\ anum (sc G) n (tmap s t) p /\ forall q, snd r = Concrete q -> q = p.
Lemma num_fwd n : forall G, fwd (gen_num ask G n) (elab_num n) (numa n G).
Proof.
  induction n as [c0|op out a IHa b IHb|op out a IHa|r cs a IHa|x]; intros G; cbn [gen_num elab_num]; unf.
  - destruct (tc_rep c0) as [|p] eqn:Er.
    + repeat bk. apply fwd_ret. tm. intros (p & Hp & H') _. exists p. split; [exact H'|]. split; [|discriminate]. tm. rewrite H'. constructor. rewrite Er.
      destruct (BaseSetProps.C59_from_bounds (tc_val c0) (tc_val c0) (Z.le_refl _)) as (is' & E' & _ & K). rewrite H in E'. injection E' as ->. apply K; [exact Hp|lia].
    + repeat bk. apply fwd_ret. tm. intros H _. met. exists p. split; [exact H|]. split; [tm; rewrite H; apply ANConst; rewrite Er; reflexivity|intros q [= <-]; reflexivity].
  - repeat bk. eapply fwd_bind; [apply num_lock|apply IHa|intros l ta El0]. eapply fwd_bind; [apply num_lock|apply IHb|intros r tb Er0].
    eapply fwd_left with (P := fun rep => (exists p, s a0 = GInt p) -> numa a G l ta -> numa b G r tb -> numa (NBin op out a b) G (a0, rep) (Tn a0 [ta; tb])).
    { unfold gen_bin, tell_rep. destruct (snd l), (snd r); try (destruct (mrep_eqb _ _)); destruct out; repeat lk. }
    2: { intros rep. apply fwd_ret. intros K1 K2 K3 (p & _ & K4) _. eauto. }
    unfold gen_bin, tell_rep.
    assert (AS : forall p, s a0 = GInt p -> numa a G l ta -> numa b G r tb -> numa (NBin op (Some p) a b) G (a0, Concrete p) (Tn a0 [ta; tb])).
    { intros p H (q1 & _ & A1 & _) (q2 & _ & A2 & _). exists p. split; [exact H|]. split; [tm; rewrite H; eapply ANBinAs; eassumption|]. intros q [= <-]. reflexivity. }
    destruct (snd l) as [|p0] eqn:El, (snd r) as [|p1] eqn:Er; [| | |destruct (mrep_eqb p0 p1) eqn:Em]; (destruct out as [p|]; [repeat bk; apply fwd_ret; intros; met; auto|]).
    + repeat bk. apply fwd_ret. intros H1 H2 (q & H3) (q1 & L1 & A1 & _) (q2 & L2 & A2 & _). met. exists q. split; [exact H3|]. cbn [snd]. split; [|discriminate].
      tm. rewrite H3. constructor; congruence.
    + repeat bk. apply fwd_ret. intros H1 H2 _ (q1 & L1 & A1 & _) (q2 & L2 & A2 & C2). met. exists p1. split; [assumption|]. cbn [snd]. split; [|intros q [= <-]; reflexivity].
      rewrite <- (C2 _ Er) in *. tm. replace (s a0) with (GInt p1) by congruence. constructor; congruence.
    + repeat bk. apply fwd_ret. intros H1 H2 _ (q1 & L1 & A1 & C1) (q2 & L2 & A2 & _). met. exists p0. split; [assumption|]. cbn [snd]. split; [|intros q [= <-]; reflexivity].
      rewrite <- (C1 _ El) in *. tm. replace (s a0) with (GInt p0) by congruence. constructor; congruence.
    + repeat bk. apply fwd_ret. intros H1 _ (q1 & L1 & A1 & C1) (q2 & L2 & A2 & C2). met. exists p0. split; [assumption|]. cbn [snd]. split; [|intros q [= <-]; reflexivity].
      apply BaseSetProofs.mrep_eqb_eq in Em. subst p1. rewrite <- (C1 _ El) in A1. rewrite <- (C2 _ Er) in A2. tm. rewrite H1. now constructor.
    + apply fwd_failL.
  - repeat bk. eapply fwd_bind; [apply num_lock|apply IHa|intros i ti Ei0].
    eapply fwd_left with (P := fun rep => (exists p, s a0 = GInt p) -> numa a G i ti -> numa (NUn op out a) G (a0, rep) (Tn a0 [ti])).
    { unfold tell_rep. destruct (snd i); destruct out; repeat lk. }
    2: { intros rep. apply fwd_ret. intros K1 K2 (p & _ & K4) _. eauto. }
    unfold tell_rep. destruct (snd i) as [|p0] eqn:Ei.
    + bk. destruct out as [p|].
      * bk. apply fwd_ret. intros H1 H2 _ (q1 & L1 & A1 & C1). met. exists p. split; [exact H1|]. cbn [snd]. split; [tm; rewrite H1; econstructor; eassumption|intros q [= <-]; reflexivity].
      * apply fwd_ret. intros H1 (q & H2) (q1 & L1 & A1 & C1). met. exists q. split; [exact H2|]. cbn [snd]. split; [tm; rewrite H2; constructor; congruence|discriminate].
    + repeat bk. apply fwd_ret. intros H1 _ (q1 & L1 & A1 & C1). met. eexists. split; [exact H1|]. cbn [snd]. split; [|intros q [= <-]; reflexivity]. tm. rewrite H1.
      destruct out as [p|]; [econstructor; eassumption|]. rewrite <- (C1 _ Ei) in A1. now constructor.
  - repeat bk. eapply fwd_bind; [apply num_lock|apply IHa|intros i ti Ei0]. unfold tell_rep.
    destruct (snd i); repeat bk; apply fwd_ret; intros; met; repeat match goal with X : numa _ _ _ _ |- _ => destruct X as (q1 & L1 & A1 & C1) end; exists r; (split; [assumption|]); cbn [snd]; (split; [tm; assert (X : s a0 = GInt r) by assumption; rewrite X; econstructor; eassumption|intros q [= <-]; reflexivity]).
  - repeat bk. eapply fwd_left with (P := fun rep => forall q, rep = Concrete q -> s a = GInt q).
    + intros g st rep g1 [] st1 J E F. destruct (ask (reqs g) _); [|discriminate E]. injection E as <- <-. injection F as <-. auto.
    + intros g st rep g1 [] st1 J E F Hk. destruct (ask (reqs g) a) as [rp|] eqn:Ea; [|discriminate E]. injection E as <- <-. injection F as <-. split; [exact Hk|]. split; [auto|]. intros q ->. eapply Hask; [apply Hk|apply Hk|exact Ea].
    + intros rep. apply fwd_ret. intros HR H1 (p & _ & H3) _. met. exists p. split; [exact H3|]. cbn [snd]. split; [tm; rewrite H3; constructor; congruence|]. intros q Hq. specialize (HR q Hq). cbn [fst] in *. congruence.
Qed.

(** ** Expressions *)

Definition exf (e : expr) : Prop := tidy e = true -> simple_acc e = true -> forall G, fwd (gen_expr ask G e) (elab_expr e) (fun v t => an (sc G) e (tmap s t) (s v)).
Definition lamf (e : expr) : Prop := tidy e = true -> simple_acc e = true -> forall G,
  fwd (gen_lam ask G e) (elab_lam e) (fun io t => exists x b tb, e = ELambda x b /\ t = Tn (fst io) [tb] /\ an ((x, s (fst io)) :: sc G) b (tmap s tb) (s (snd io))).
Lemma lam_fwd e : (forall x b, e = ELambda x b -> exf b) -> lamf e.
Proof.
  intros H T S0 G. destruct e; try apply fwd_failL. cbn [gen_lam elab_lam]. bk. eapply fwd_bind; [apply exl_of; exact S0|apply (H x e eq_refl T S0)|intros r t _]. apply fwd_ret. cbn [fst snd]. intros HT _.
  exists x, e, t. auto.
Qed.
Lemma declare_known t v : union_free t = true -> definite t = true -> exists u, declare v t = tell (RType v u) /\ forall w, meets s (RType w u) -> as_declared t (s w).
Proof.
  intros U D. destruct (union_free_from t U) as (u & E). exists u. split; [destruct t; cbn [declare]; now rewrite E|]. intros w F. exact (from_exact s t u (s w) D E F).
Qed.
Ltac spl := repeat match goal with
  | H : _ && _ = true |- _ => apply andb_true_iff in H; destruct H
  | H : exf _ /\ _ |- _ => destruct H
  | H : exf ?e, D : tidy ?e = true, D' : simple_acc ?e = true |- _ => pose proof (H D D'); clear H
  | H : forall x b, ?e = ELambda x b -> exf b, D : tidy ?e = true, D' : simple_acc ?e = true |- _ => pose proof (lam_fwd e H D D'); clear H
  | H : union_free ?t = true, D : definite ?t = true |- _ => pose proof (fun v => declare_known t v H D); clear H
  end.
Ltac be := repeat first [bk | eapply fwd_bind; [|match goal with H : forall G, fwd (gen_expr ask G ?e) _ _ |- fwd (gen_expr ask _ ?e) _ _ => apply H end|]; [apply exl_of; assumption|intros ? ? _]
   | eapply fwd_bind; [|match goal with H : forall G, fwd (gen_lam ask G ?e) _ _ |- fwd (match ?e with _ => _ end) _ _ => apply H end|]; [apply laml_of; assumption|intros ? ? _]
   | match goal with H : forall v, exists u, declare v ?t = _ /\ _ |- fwd (gbind (declare ?w ?t) _) _ _ => let X := fresh in destruct (H w) as (? & X & ?); rewrite X; clear X end ].
Ltac fin := apply fwd_ret; intros; met; repeat match goal with H : exists x b tb, _ = ELambda x b /\ _ |- _ => destruct H as (? & ? & ? & -> & -> & ?) end; tm; eqs.
Lemma expr_fwd e : exf e /\ forall x b, e = ELambda x b -> exf b.
Proof.
  induction e using expr_ind'; (split; [intros Td Sd G|intros x0 b0 E0; try discriminate; injection E0 as <- <-; tauto]);
    cbn [tidy simple_acc] in Td, Sd; spl; cbn [gen_expr elab_expr]; unf; try apply fwd_failL.
  all: try (be; fin; first [econstructor; eauto; fail | idtac]).
  - (* tuple *) bk. eapply fwd_bind; [apply lock_map|apply (fwd_map _ _ (fun v t => v = top t) (fun e v t => an (sc G) e (tmap s t) (s v)))|intros vs ts _].
    + rewrite forallb_forall in Sd. rewrite Forall_forall. intros e He. apply exl_of. auto.
    + rewrite forallb_forall in Td, Sd. rewrite Forall_forall in *. intros e He. split; [apply exl_of; auto|]. apply (H e He); auto.
    + bk. apply fwd_ret. intros K1 [K2 K3] _. met. tm. rewrite K1, (tops _ _ K2). constructor. clear - K3. induction K3 as [|e t es ts (v & -> & X) F IH]; constructor; [|exact IH]. rewrite top_tmap. exact X.
  - (* record *) bk.
    assert (FL : forall fs G, forallb (fun f : label * expr => let (_, e) := f in simple_acc e) fs = true -> lock (fields (gen_expr ask) G fs) (elab_fields elab_expr fs) (fun _ _ => True)).
    { clear. induction fs as [|[l e] fs IH]; intros G Sd; cbn [fields elab_fields]; [repeat lk|]. cbn [forallb] in Sd. spl. eapply lock_bind; [apply exl_of; assumption|intros v t E]. eapply lock_bind; [apply IH; assumption|intros; repeat lk]. }
    eapply fwd_bind with (Q := fun us ts => Forall2 (fun f t => an (sc G) (snd f) t (top t)) fs (map (tmap s) ts) /\ forall gs, Forall2 (fits_f s) us gs -> gs = combine (map fst fs) (map top (map (tmap s) ts))).
    1: apply FL; assumption.
    2: { intros us ts _. bk. apply fwd_ret. intros K1 (K2 & K3) _. cbn [meets] in K1. apply fits_record in K1 as (gs & E & F). tm. rewrite E. rewrite (K3 _ F). now constructor. }
    match goal with X : nodup_labels _ = true |- _ => clear X end.
    match goal with X : apart fs = true |- _ => rename X into Ap end. match goal with X : forallb _ fs = true |- _ => tryif constr_eq X Sd then fail else rename X into Tf end.
    assert (K : forall B, Forall (fun f : label * expr => forall x, In x (map fst B) -> uses x (snd f) = false) fs ->
      fwd (fields (gen_expr ask) (B ++ G) fs) (elab_fields elab_expr fs)
        (fun us ts => Forall2 (fun f t => an (sc G) (snd f) t (top t)) fs (map (tmap s) ts) /\ forall gs, Forall2 (fits_f s) us gs -> gs = combine (map fst fs) (map top (map (tmap s) ts)))).
    { clear - H Ap Tf Sd FL. induction fs as [|[l e] fs IH]; intros B HB; cbn [fields elab_fields].
      - apply fwd_ret. split; [constructor|]. intros gs F. now inversion F.
      - cbn [forallb] in Tf, Sd. cbn [apart] in Ap. apply andb_true_iff in Ap as [Ap1 Ap2]. spl. inversion H as [|? ? [He _] Hfs]; subst. inversion HB as [|? ? HB1 HB2]; subst. cbn [snd] in *.
        eapply fwd_bind; [apply exl_of; assumption|apply He; assumption|intros v t Ev]. eapply fwd_bind; [apply FL; assumption|apply (IH Hfs ltac:(assumption) ltac:(assumption) ltac:(assumption) ((l, v) :: B))|intros us ts _].
        { rewrite Forall_forall in *. rewrite forallb_forall in *. intros [k f] Hf x [<-|Hx]; [|exact (HB2 _ Hf x Hx)].
          specialize (Ap1 _ Hf). cbn [fst snd] in *. now apply negb_true_iff. }
        apply fwd_ret. intros (F1 & F2) HT. split.
        + cbn [map]. constructor; [|exact F1]. cbn [snd]. rewrite top_tmap. rewrite <- Ev. rewrite sc_app in HT. eapply (proj1 (an_agree e)); [|exact HT].
          intros x U. rewrite assoc_app. destruct (assoc x (sc B)) eqn:Ex; [|reflexivity]. exfalso.
          assert (X : In x (map fst B)).
          { clear - Ex. unfold InferProofs.sc in Ex. induction B as [|[y w] B IH]; [discriminate Ex|]. cbn in *. destruct (N.eqb_spec x y); [auto|]. right. auto. }
          rewrite (HB1 x X) in U. discriminate U.
        + intros gs F. inversion F as [|? [k g] ? gs' [E1 E2] F']; subst. cbn in E1, E2. subst. cbn [map combine fst]. rewrite top_tmap, <- Ev. f_equal. auto. }
    apply (K []). apply Forall_forall. intros f _ x [].
  - (* sequence *) bk. bk.
    assert (SL : forall el es, forallb simple_acc es = true -> lock (elems (gen_expr ask) G el es) (mapE elab_expr es) (fun _ _ => True)).
    { clear. intros el. induction es as [|e es IH]; intros Sd; cbn [elems mapE]; [repeat lk|]. cbn [forallb] in Sd. spl. lk. eapply lock_bind; [apply exl_of; assumption|intros v t E]. lk. apply lock_end. apply IH; assumption. }
    eapply fwd_bind with (Q := fun _ ts => Forall2 (fun e t => an (sc G) e t (s a0)) es (map (tmap s) ts)); [apply SL; assumption| |intros ? ts _; bk; fin; constructor; assumption].
    clear a. induction es as [|e es IH]; cbn [elems mapE]; [apply fwd_ret; constructor|]. cbn [forallb] in Td, Sd. spl. inversion H as [|? ? [He _] Hes]; subst.
    bk. eapply fwd_bind; [apply exl_of; assumption|apply He; assumption|intros v t _]. bk. apply fwd_end. eapply fwd_imp; [|apply IH; assumption]. intros ? ts F1 X HT. met. cbn [map]. constructor; [|exact F1]. rewrite <- X. exact HT.
  - (* numeric *) bk. eapply fwd_bind; [apply num_lock|apply num_fwd|intros r t _]. bk. apply fwd_ret. intros K1 (p & K2 & K3 & _) _. met. tm. rewrite K1, K2. constructor. exact K3.
  - (* match *) bk. eapply fwd_bind; [apply exl_of; assumption|match goal with X : forall G, fwd (gen_expr ask G e) _ _ |- _ => apply X end|intros hv th _].
    match goal with X : forallb (fun b : pattern * expr => let (_, e) := b in tidy e) bs = true |- _ => rename X into Tb end.
    match goal with X : forallb (fun b : pattern * expr => let (_, e) := b in simple_acc e) bs = true |- _ => rename X into Sb end.
    assert (CL : forall bs, forallb (fun b : pattern * expr => let (_, e) := b in simple_acc e) bs = true -> lock (cases (gen_expr ask) G hv a bs) (elab_cases elab_expr bs) (fun _ _ => True)).
    { clear. induction bs as [|[p e] bs IH]; intros Sb; cbn [cases elab_cases]; [repeat lk|]. cbn [forallb] in Sb. spl.
      repeat lk. eapply lock_bind; [apply pat_lock|intros pv tp Ep]. repeat lk. eapply lock_bind; [apply exl_of; assumption|intros v t E]. repeat lk. apply lock_end. apply IH; assumption. }
    eapply fwd_bind with (Q := fun _ ts => exists ps, map (tmap s) ts = flat_map (fun p => [fst p; snd p]) ps
       /\ Forall2 (fun b p => exists B, apat (fst b) (fst p) (s hv) B /\ an (B ++ sc G) (snd b) (snd p) (s a)) bs ps); [apply CL; assumption| |intros ? ts _; apply fwd_ret; intros (ps & E1 & E2) K1 _; tm; rewrite E1; econstructor; eassumption].
    clear - Hask H Tb Sb CL. induction bs as [|[p e] bs IH]; cbn [cases elab_cases]; [apply fwd_ret; exists []; split; [reflexivity|constructor]|]. cbn [forallb] in Tb, Sb. spl.
    inversion H as [|? ? [He _] Hbs]; subst. cbn [fst snd] in *.
    bk. eapply fwd_bind; [apply pat_lock|apply pat_fwd|intros pv tp _]. repeat bk. eapply fwd_bind; [apply exl_of; assumption|apply He; assumption|intros v t _]. repeat bk. apply fwd_end.
    eapply fwd_imp; [|apply IH; assumption]. intros ? ts (ps & E1 & E2) X1 X2 X3 X4. met. exists ((tmap s tp, tmap s t) :: ps). cbn [map flat_map fst snd app]. rewrite E1. split; [reflexivity|].
    constructor; [|exact E2]. exists (sc (snd pv)). cbn [fst snd]. rewrite X2, X1. rewrite sc_app in X3. auto.
  - (* destructure *) bk. eapply fwd_bind; [apply exl_of; assumption|match goal with X : forall G, fwd (gen_expr ask G e1) _ _ |- _ => apply X end|intros hv th _]. eapply fwd_bind; [apply pat_lock|apply pat_fwd|intros pv tp _].
    eapply fwd_bind; [apply exl_of; assumption|match goal with X : forall G, fwd (gen_expr ask G e2) _ _ |- _ => apply X end|intros r tr _]. bk. bk. apply fwd_ret. intros X1 X2 X3 X4 X5 _. met. tm. rewrite X1. rewrite sc_app in X3. rewrite <- X2 in X4.
    econstructor; eassumption.
  - (* rel *) unfold GU in *. repeat match goal with X : GInt _ = GInt _ |- _ => injection X as X end. subst. econstructor; eassumption.
  - (* arith *) assert (A : forall t1 t2 T, is_logic op = false -> (exists w, T = GU w) -> an (sc G) e1 t1 T -> an (sc G) e2 t2 T -> an (sc G) (EArith op e1 e2) (Tn T [t1; t2]) T) by (intros t1 t2 T L (w & ->); apply AnArith; exact L).
    destruct op; be; fin; try (apply AnLogic; [reflexivity|assumption|assumption]);
      (unfold GU in *; repeat match goal with X : GInt _ = GInt _ |- _ => injection X as X end; subst; apply A; [reflexivity|eexists; reflexivity|assumption|assumption]).
  - (* unary *) destruct op; be; fin; try (apply AnNot; assumption); (apply AnStep; [discriminate|assumption]).
  - (* bytes *) match goal with X : meets s (RTypes _ _) |- _ => destruct X as (g & X1 & X2) end. cbn [fits] in X1. apply fits_tuple in X2 as (gs & -> & F). apply AnBytes.
    replace (repeat (GU B8) (N.to_nat (nbits w / 8))) with gs; [rewrite <- X1 in *; assumption|].
    replace (N.to_nat (nbits w / 8)) with (bw_len w) by (destruct w; reflexivity). generalize dependent (bw_len w). intros n F. clear X1. revert gs F. clear.
    induction n as [|n IH]; intros gs F; inversion F; subst; [reflexivity|]. cbn. f_equal; [assumption|]. apply IH. assumption.
Qed.
Lemma exf_of e : tidy e = true -> simple_acc e = true -> forall G, fwd (gen_expr ask G e) (elab_expr e) (fun v t => an (sc G) e (tmap s t) (s v)).
Proof. apply expr_fwd. Qed.
Lemma lamf_of e : tidy e = true -> simple_acc e = true -> forall G,
  fwd (gen_lam ask G e) (elab_lam e) (fun io t => exists x b tb, e = ELambda x b /\ t = Tn (fst io) [tb] /\ an ((x, s (fst io)) :: sc G) b (tmap s tb) (s (snd io))).
Proof. apply lam_fwd, expr_fwd. Qed.

(** ** Formats *)

Lemma view_fwd c v : tidy_view v = true -> simple_view v = true -> fwd (gen_view ask c v) (elab_view v) (fun _ ts => aview (sc (cvals c)) v (map (tmap s) ts)).
Proof.
  induction v as [x|v IH e]; cbn [tidy_view simple_view gen_view elab_view]; intros T S0.
  - destruct (existsb (N.eqb x) (cviews c)); [apply fwd_ret; constructor|apply fwd_failL].
  - apply andb_true_iff in T as [T1 T2]. apply andb_true_iff in S0 as [S1 S2]. eapply fwd_bind; [apply view_lock, S1|apply IH; assumption|intros ? ts _]. eapply fwd_bind; [apply exl_of, S2|apply exf_of; assumption|intros o t _].
    apply fwd_tell_end. intros H1 H2 H3. met. rewrite H1 in H2. rewrite map_app. econstructor; eassumption.
Qed.
Lemma views_fwd c xs : forall vs, forallb tidy_view vs = true -> forallb simple_view vs = true ->
  fwd (gen_views ask c xs vs) (elab_views xs vs) (fun _ ts => aviews (sc (cvals c)) xs vs (map (tmap s) ts)).
Proof.
  induction xs as [|x xs IH]; intros [|v vs] T S0; cbn [gen_views elab_views]; try (apply fwd_ret; constructor). cbn in T, S0. apply andb_true_iff in T as [T1 T2]. apply andb_true_iff in S0 as [S1 S2].
  eapply fwd_bind; [apply view_lock, S1|apply view_fwd; assumption|intros ? t _]. eapply fwd_bind; [apply views_lock, S2|apply IH; assumption|intros r ts _]. apply fwd_ret. intros H1 H2. rewrite map_app. constructor; assumption.
Qed.
Lemma dyn_fwd c d : match d with DHuffman a None => tidy a | DHuffman a (Some b) => tidy a && tidy b end = true ->
  match d with DHuffman a None => simple_acc a | DHuffman a (Some b) => simple_acc a && simple_acc b end = true ->
  fwd (gen_dyn ask c d) (elab_dyn d) (fun v t => adyn (sc (cvals c)) d (tmap s t) (s v)).
Proof.
  destruct d as [codes values]. intros T S0. cbn [gen_dyn elab_dyn]. bk. assert (Tc : tidy codes = true) by (destruct values; [apply andb_true_iff in T; apply T|exact T]).
  assert (Sc : simple_acc codes = true) by (destruct values; [apply andb_true_iff in S0; apply S0|exact S0]).
  bk. eapply fwd_bind; [apply exl_of, Sc|apply exf_of; assumption|intros cv tc _]. repeat bk.
  destruct values as [e|]; repeat bk.
  - apply andb_true_iff in T as [_ T]. apply andb_true_iff in S0 as [_ S0]. eapply fwd_bind; [apply exl_of, S0|apply exf_of; assumption|intros ev te _]. repeat bk. fin. econstructor; eassumption.
  - fin. econstructor; eassumption.
Qed.
(** The arguments of a call: each has its declared type, and the names are bound to
    values of those types. *)
Lemma args_fwd G : forall names tys es, forallb tidy es = true -> forallb simple_acc es = true -> forallb ground tys = true -> length es = length names -> length es = length tys ->
  fwd (gen_args ask G (combine names tys) es) (elab_args (combine names tys) es) (fun b ts => (Forall2 (fun e t => an (sc G) e t (top t)) es (map (tmap s) ts) /\ map (fun t => vt (top t)) (map (tmap s) ts) = tys)
    /\ map fst b = rev names /\ Forall2 (fun v t => vt (s v) = t) (map snd b) (rev tys)).
Proof.
  induction names as [|x names IH]; intros [|t tys] [|e es] T S0 Gd L1 L2; try discriminate L1; try discriminate L2; cbn [combine gen_args elab_args].
  - apply fwd_ret. repeat split; constructor.
  - cbn in T, S0, Gd, L1, L2. apply andb_true_iff in T as [T1 T2]. apply andb_true_iff in S0 as [S1 S2]. apply andb_true_iff in Gd as [G1 G2]. injection L1 as L1. injection L2 as L2.
    eapply fwd_bind; [apply exl_of, S1|apply exf_of; assumption|intros v te Ev]. destruct (from_ground s t G1) as (u & Eu & Hu).
    assert (X : declare v t = tell (RType v u)) by (destruct t; cbn [declare]; now rewrite Eu). assert (Y : skip_declared t = eret tt) by (destruct t; cbn [skip_declared]; now rewrite Eu). rewrite X, Y. bk. bk.
    eapply fwd_bind; [apply args_lock, S2|apply (IH tys es T2 S2 G2 L1 L2)|intros r ts _]. apply fwd_ret.
    intros ((F1 & F1') & F2 & F3) M Te. cbn [meets] in M. apply Hu in M. rewrite !map_app. cbn [map fst snd rev]. rewrite top_tmap, <- Ev. split; [split; [constructor; [rewrite top_tmap, <- Ev; exact Te|exact F1]|now rewrite M, F1']|]. split; [now rewrite F2|]. apply Forall2_app; [exact F3|]. constructor; [exact M|constructor].
Qed.

Section Level.
Context (level : nat -> ctx -> gm nat) (level' : nat -> em itree).
Context (Hlock : forall k c, lock (level k c) (level' k) (fun v t => v = top t)).
Context (Hlev : forall k c it tys, nth_error ds k = Some (it, tys) -> forall g st v g1 t st1, inv g st -> level k c g = Some (v, g1) -> level' k st = Some (t, st1) -> okt g1 st1 ->
  okt g st /\ (args_in it tys (sc (cvals c)) -> (forall e, In e (forms st1) -> In e (forms st) \/ tentry e) /\ LT k (tmap s t))).
Context (Hgd : forall k it tys, nth_error ds k = Some (it, tys) -> forallb ground tys = true).
Notation tidyf := (everywhere (fun g => tidy_node ds g = true)).
Notation simplef := (everywhere (fun g => simple_node g = true)).
Definition dm (D : dscope) : denv := map (fun d => (fst d, tmap s (snd d))) D.
(** The dynamic formats in scope have the variables of their trees. *)
Definition dagree (D : dscope) (c : ctx) : Prop := forall x t, assoc x D = Some t -> ulook x (cdyns c) = Some (top t).
Lemma dm_look x D t : assoc x D = Some t -> assoc x (dm D) = Some (tmap s t).
Proof. induction D as [|[y u] D IH]; cbn; [discriminate|]. destruct (N.eqb x y); [now intros [= ->]|exact IH]. Qed.
Lemma dagree_dyn D c x t v : dagree D c -> v = top t -> dagree ((x, t) :: D) (with_dyn x v c).
Proof. intros H -> y u. cbn. unfold ulook. cbn. destruct (N.eqb y x); [now intros [= ->]|]. apply H. Qed.
Definition ff (F : format) : Prop := tidyf F -> simplef F -> forall c D, dagree D c ->
  fwd (gen_format ask ds level c F) (elab_format ds level' D F) (fun v t => af ds LT (sc (cvals c)) (dm D) F (tmap s t) (s v)).
Lemma tidy_sub f g : tidyf f -> incl (subs g) (subs f) -> tidyf g.
Proof. intros H I h Hh. apply H, I, Hh. Qed.
Lemma fl_of F : simplef F -> forall c D, lock (gen_format ask ds level c F) (elab_format ds level' D F) (fun v t => v = top t).
Proof. apply format_lock. exact Hlock. Qed.
Ltac tsub := match goal with
  | H : tidyf ?f |- tidyf ?g0 => apply (tidy_sub f g0 H); intros ? ?; cbn [subs]; right; auto using in_or_app
  | H : simplef ?f |- simplef ?g0 => apply (simple_sub f g0 H); intros ? ?; cbn [subs]; right; auto using in_or_app
  end.
Ltac nodes := match goal with H : tidyf _, H' : simplef _ |- _ => let Y := fresh "Tn" in let Y' := fresh "Sn" in
  pose proof (everywhere_self _ _ H) as Y; pose proof (everywhere_self _ _ H') as Y'; cbn [tidy_node simple_node] in Y, Y'; repeat match goal with X : _ && _ = true |- _ => apply andb_true_iff in X; destruct X end end.
Ltac bf := repeat first [bk
  | eapply fwd_bind; [|match goal with H : ff ?e |- fwd (gen_format ask ds level _ ?e) _ _ => apply H; [tsub|tsub|first [assumption | apply dagree_dyn; assumption]] end|]; [apply fl_of; tsub|intros ? ? ?]
  | eapply fwd_bind; [|match goal with |- fwd (gen_expr ask _ ?e) _ _ => apply exf_of; assumption end|]; [apply exl_of; assumption|intros ? ? _]
  | eapply fwd_bind; [|match goal with |- fwd (gen_lam ask _ ?e) _ _ => apply lamf_of; assumption end|]; [apply laml_of; assumption|intros ? ? _]
  | eapply fwd_bind; [|match goal with |- fwd (gen_view ask _ ?e) _ _ => apply view_fwd; assumption end|]; [apply view_lock; assumption|intros ? ? _]
  | eapply fwd_bind; [|match goal with |- fwd (gen_dyn ask _ ?e) _ _ => apply dyn_fwd; assumption end|]; [apply dyn_lock; assumption|intros ? ? ?]
  | match goal with H : union_free ?t = true, D : definite ?t = true |- fwd (gbind (declare ?w ?t) _) _ _ => let X := fresh in destruct (declare_known t w H D) as (? & X & ?); rewrite X; clear X end ].
Lemma union_fwd c D v fs : dagree D c -> Forall tidyf fs -> Forall simplef fs -> Forall (fun f => ff f /\ forall l g, f = FVariant l g -> ff g) fs ->
  Forall (fun b => lock (match b with
    | FVariant l f => let* i := gen_format ask ds level c f in tell (RVariant v l (UVar i))
    | _ => let* i := gen_format ask ds level c b in tell (RType v (UVar i)) end)
    (match b with
    | FVariant _ f => let+ tf := elab_format ds level' D f in eret (match f with FFail => [] | _ => [ElabModel.Tn v [tf]] end)
    | _ => let+ tf := elab_format ds level' D b in eret [tf] end) (fun _ _ => True) /\ fwd (match b with
    | FVariant l f => let* i := gen_format ask ds level c f in tell (RVariant v l (UVar i))
    | _ => let* i := gen_format ask ds level c b in tell (RType v (UVar i)) end)
    (match b with
    | FVariant _ f => let+ tf := elab_format ds level' D f in eret (match f with FFail => [] | _ => [ElabModel.Tn v [tf]] end)
    | _ => let+ tf := elab_format ds level' D b in eret [tf] end) (fun _ ts => exists t, map (tmap s) ts = [t] /\ af ds LT (sc (cvals c)) (dm D) b t (s v))) fs.
Proof.
  intros Da T S0 H. rewrite Forall_forall in *. intros f Hf. destruct (H f Hf) as [H1 H2]. specialize (T f Hf). specialize (S0 f Hf).
  assert (K : fwd (let* i := gen_format ask ds level c f in tell (RType v (UVar i))) (let+ tf := elab_format ds level' D f in eret [tf]) (fun _ ts => exists t, map (tmap s) ts = [t] /\ af ds LT (sc (cvals c)) (dm D) f t (s v))).
  { eapply fwd_bind; [apply fl_of, S0|apply H1; assumption|intros i t _]. apply fwd_tell_end. intros X Y. met. exists (tmap s t). split; [reflexivity|]. rewrite <- X. exact Y. }
  assert (K0 : lock (let* i := gen_format ask ds level c f in tell (RType v (UVar i))) (let+ tf := elab_format ds level' D f in eret [tf]) (fun _ _ => True)).
  { eapply lock_bind; [apply fl_of, S0|intros i ? ?]. lk. }
  destruct f; try (split; [exact K0|exact K]). assert (S1 : simplef f) by tsub. assert (T1 : tidyf f) by tsub. split.
  - eapply lock_bind; [apply fl_of, S1|intros i ? ?]. lk.
  - eapply fwd_bind; [apply fl_of, S1|apply (H2 _ _ eq_refl); assumption|intros i t _]. apply fwd_tell_end. intros X Y. exists (ElabModel.Tn (s v) [tmap s t]). split; [|met; eqs; econstructor; eassumption].
    pose proof (everywhere_self _ _ T1) as Z. destruct f; try discriminate Z; reflexivity.
Qed.
Lemma union_trees (Q : format -> gtree -> Prop) fs tss : Forall2 (fun b ts => exists t, map (tmap s) ts = [t] /\ Q b t) fs tss -> Forall2 Q fs (map (tmap s) (concat tss)).
Proof. induction 1 as [|b ts fs tss (t & E & H) F IH]; cbn; [constructor|]. rewrite map_app, E. constructor; assumption. Qed.
Lemma format_fwd F : ff F /\ forall l f, F = FVariant l f -> ff f.
Proof.
  induction F using CompileProofs.format_ind'; (split; [intros Td Sd c0 D0 Da|intros l0 b0 E0; try discriminate; injection E0 as <- <-; tauto]);
    repeat match goal with H : ff _ /\ _ |- _ => destruct H as [H _] end; nodes; cbn [gen_format elab_format]; unf; try apply fwd_failL.
  all: try (bf; fin; rewrite ?map_app; first [econstructor; eauto; fail | idtac]).
  - (* call *) repeat bk. destruct x as [it tys]. match goal with X : nth_error ds l = Some (it, tys) |- _ => rename X into En end. match goal with X : nth_error ds l = Some x0 |- _ => rewrite En in X; injection X as <- end.
    rewrite En in *. match goal with X : (_ =? _) && _ = true |- _ => apply andb_true_iff in X as [L1 L2] end. apply Nat.eqb_eq in L1, L2. cbn [fst snd] in *. pose proof (Hgd _ _ _ En) as Gt.
    set (P := fun x : list itree * (list itree * itree) => (Forall2 (fun e t => an (sc (cvals c0)) e t (top t)) a (map (tmap s) (fst x)) /\ map (fun t => vt (top t)) (map (tmap s) (fst x)) = tys)
      /\ aviews (sc (cvals c0)) (it_views it) v (map (tmap s) (fst (snd x))) /\ LT l (tmap s (snd (snd x)))).
    assert (K : fwd (let* b := gen_args ask (cvals c0) (combine (it_args it) tys) a in let* w := gen_views ask c0 (it_views it) v in level l (with_views w (with_vals b c0))) (elab_call level' l it tys a v) (fun _ => P)).
    { intros g st lv g1 [ta [tv tl]] st1 J E F Hk. unfold gbind in E. unfold elab_call, ebind in F. destruct (gen_args ask (cvals c0) (combine (it_args it) tys) a g) as [[b g2]|] eqn:Eb; [|discriminate E].
      destruct (gen_views ask c0 (it_views it) v g2) as [[w g3]|] eqn:Ew; [|discriminate E].
      destruct (elab_args _ _ st) as [[ta' st2]|] eqn:Fa; [|discriminate F]. destruct (elab_views _ _ st2) as [[tv' st3]|] eqn:Fv; [|discriminate F]. destruct (level' l st3) as [[tl' st4]|] eqn:Fl; [|discriminate F]. injection F as -> -> -> ->.
      destruct (args_lock ask (cvals c0) (combine (it_args it) tys) a ltac:(assumption) _ _ _ _ _ _ J Eb Fa) as [J2 _]. destruct (views_lock ask c0 (it_views it) v ltac:(assumption) _ _ _ _ _ _ J2 Ew Fv) as [J3 _].
      destruct (Hlev _ _ _ _ En _ _ _ _ _ _ J3 E Fl Hk) as [Ok3 R]. destruct (views_fwd c0 (it_views it) v ltac:(assumption) ltac:(assumption) _ _ _ _ _ _ J2 Ew Fv Ok3) as (Ok2 & I2 & V2).
      destruct (args_fwd (cvals c0) (it_args it) tys a ltac:(assumption) ltac:(assumption) Gt L1 L2 _ _ _ _ _ _ J Eb Fa Ok2) as (Ok1 & I1 & F1 & F2 & F3).
      destruct R as [I3 Lv]; [apply args_look; [exact F2|exact F3|congruence]|]. split; [exact Ok1|]. split; [|split; [exact F1|split; [exact V2|exact Lv]]].
      intros e He. destruct (I3 e He) as [X|X]; [|auto]. destruct (I2 e X) as [Y|Y]; [|auto]. exact (I1 e Y). }
    apply (fwd_ext _ _ (ebind (elab_call level' l it tys a v) (fun x => eret (ElabModel.Tn a0 (fst x ++ fst (snd x) ++ [snd (snd x)]))))).
    { intros st. unfold elab_call, ebind. destruct (elab_args _ _ _) as [[ta st2]|]; [|reflexivity]. destruct (elab_views _ _ _) as [[tv st3]|]; [|reflexivity]. destruct (level' l st3) as [[tl st4]|]; reflexivity. }
    eapply fwd_bind; [apply (call_lock ask level level' Hlock c0 l it tys a v); assumption| |].
    + instantiate (1 := fun _ => P). unfold gen_call. destruct a as [|e es]; [destruct v as [|w vs]; [|exact K]|exact K]. destruct (it_args it) as [|] eqn:Ea; [|discriminate L1]. destruct tys; [|discriminate L2].
      intros g st lv g1 x st1 J E F Hk. rewrite elab_call_nil in F. unfold ebind in F. destruct (level' l st) as [[tl' st4]|] eqn:Fl; [|discriminate F]. injection F as <- <-.
      destruct (Hlev _ _ _ _ En _ _ _ _ _ _ J E Fl Hk) as [Ok3 R]. destruct R as [I3 Lv]; [intros x t Hx; rewrite Ea in Hx; discriminate Hx|]. split; [exact Ok3|]. split; [exact I3|]. split; [split; [constructor|reflexivity]|]. split; [|exact Lv].
      destruct (it_views it); constructor.
    + intros lv [ta [tv tl]] Ev. cbn [fst snd] in *. bk. apply fwd_ret. intros X1 [[X2 X3] [X4 X5]] _. cbn [fst snd] in *. met. tm. rewrite !map_app. cbn [map]. rewrite X1, Ev, <- top_tmap. econstructor; eassumption.
  - discriminate.
  - destruct (ByteSetModel.is_empty b); [discriminate|]. met. eqs. constructor.
  - bk. eapply fwd_bind; [apply lock_iter, union_lock|apply (fwd_iter _ _ _ _ (union_fwd c0 D0 a fs Da ltac:(apply everywhere_list; intros g Hg; apply Td; now right) ltac:(apply everywhere_list; intros g Hg; apply Sd; now right) ltac:(assumption)))|intros ? ts _].
    + apply everywhere_list; intros g Hg; apply Sd; now right.
    + rewrite Forall_forall. intros f _. apply format_lock. exact Hlock.
    + apply fwd_ret. intros K _. tm. constructor. apply union_trees. exact K.
  - bk. eapply fwd_bind; [apply lock_iter, union_lock|apply (fwd_iter _ _ _ _ (union_fwd c0 D0 a fs Da ltac:(apply everywhere_list; intros g Hg; apply Td; now right) ltac:(apply everywhere_list; intros g Hg; apply Sd; now right) ltac:(assumption)))|intros ? ts _].
    + apply everywhere_list; intros g Hg; apply Sd; now right.
    + rewrite Forall_forall. intros f _. apply format_lock. exact Hlock.
    + apply fwd_ret. intros K _. tm. constructor. apply union_trees. exact K.
  - assert (Tf : Forall tidyf fs) by (apply everywhere_list; intros g Hg; apply Td; now right). assert (Sf : Forall simplef fs) by (apply everywhere_list; intros g Hg; apply Sd; now right).
    bk. eapply fwd_bind; [apply lock_map|apply (fwd_map _ _ (fun v t => v = top t) (fun f v t => af ds LT (sc (cvals c0)) (dm D0) f (tmap s t) (s v)))|intros vs ts _].
    + rewrite Forall_forall in *. intros f Hf. apply fl_of. auto.
    + rewrite Forall_forall in *. intros f Hf. split; [apply fl_of; auto|]. apply (H f Hf); auto.
    + bk. apply fwd_ret. intros K1 [K2 K3] _. met. tm. rewrite K1, (tops _ _ K2). constructor. clear - K3. induction K3 as [|f t fs ts (v & -> & X) F IH]; constructor; [|exact IH]. rewrite top_tmap. exact X.
  - assert (Tf : Forall tidyf fs) by (apply everywhere_list; intros g Hg; apply Td; now right). assert (Sf : Forall simplef fs) by (apply everywhere_list; intros g Hg; apply Sd; now right).
    bk. bk. assert (K : Forall (fun x => lock (let* i := gen_format ask ds level c0 x in tell (RPair a0 i)) (elab_format ds level' D0 x) (fun _ _ => True)
       /\ fwd (let* i := gen_format ask ds level c0 x in tell (RPair a0 i)) (elab_format ds level' D0 x) (fun _ t => af ds LT (sc (cvals c0)) (dm D0) x (tmap s t) (s a0))) fs).
    { rewrite Forall_forall in *. intros f Hf. pose proof (fl_of f (Sf f Hf) c0 D0) as Lk. split; intros g st r g1 b st1 J E F; unfold gbind in E; destruct (gen_format ask ds level c0 f g) as [[w g2]|] eqn:Eg; try discriminate E; injection E as _ <-.
      - destruct (Lk _ _ _ _ _ _ J Eg F) as [J2 _]. split; [exact J2|exact I].
      - intros Hk. apply okt_tell in Hk as [Hk M]. destruct (proj1 (H f Hf) (Tf f Hf) (Sf f Hf) c0 D0 Da _ _ _ _ _ _ J Eg F Hk) as (O1 & I1 & HT). split; [exact O1|]. split; [exact I1|]. met. rewrite M. exact HT. }
    destruct fs as [|f fs]; [apply fwd_failR|]. eapply fwd_bind; [apply lock_iter; eapply Forall_impl; [|exact K]; intros x [X _]; exact X|apply (fwd_iter _ _ _ _ K)|intros ? ts _].
    bk. apply fwd_ret. intros K1 K2 _ _. met. tm. eqs. constructor. clear - K2. induction K2; constructor; assumption.
  - subst. econstructor; eassumption.
  - bk. eapply fwd_bind; [apply exl_of; assumption|apply exf_of; assumption|intros hv th _].
    assert (Tf : Forall (fun b => tidyf (snd b)) bs) by (apply everywhere_branches; intros g Hg; apply Td; now right).
    assert (Sf : Forall (fun b => simplef (snd b)) bs) by (apply everywhere_branches; intros g Hg; apply Sd; now right).
    assert (CL : forall bs, Forall (fun b => simplef (snd b)) bs -> lock (fcases (gen_format ask ds level) c0 hv a bs) (elab_fcases (elab_format ds level') D0 bs) (fun _ _ => True)).
    { clear - Hlock. induction bs as [|[p e] bs IH]; intros Sf; cbn [fcases elab_fcases]; [repeat lk|]. inversion Sf as [|? ? Se Sbs]; subst. cbn [fst snd] in *.
      lk. eapply lock_bind; [apply pat_lock|intros pv tp Ep]. repeat lk. eapply lock_bind; [apply fl_of; assumption|intros v t Ev]. repeat lk. apply lock_end. apply IH; assumption. }
    eapply fwd_bind with (Q := fun _ ts => exists ps, map (tmap s) ts = flat_map (fun p => [fst p; snd p]) ps
       /\ Forall2 (fun b p => exists B, apat (fst b) (fst p) (s hv) B /\ af ds LT (B ++ sc (cvals c0)) (dm D0) (snd b) (snd p) (s a)) bs ps);
      [apply CL; assumption| |intros ? ts _; apply fwd_ret; intros (ps & E1 & E2) K1 _; tm; rewrite E1; econstructor; eassumption].
    clear - Hask Hlock H Tf Sf CL Da. induction bs as [|[p e] bs IH]; cbn [fcases elab_fcases]; [apply fwd_ret; exists []; split; [reflexivity|constructor]|].
    inversion H as [|? ? [He _] Hbs]; subst. inversion Tf as [|? ? Te Tbs]; subst. inversion Sf as [|? ? Se Sbs]; subst. cbn [fst snd] in *.
    bk. eapply fwd_bind; [apply pat_lock|apply pat_fwd|intros pv tp _]. repeat bk. eapply fwd_bind; [apply fl_of; assumption|apply (He Te Se (with_vals (snd pv) c0) D0); exact Da|intros v t _]. repeat bk. apply fwd_end.
    eapply fwd_imp; [|apply IH; assumption]. intros ? ts (ps & E1 & E2) X1 X2 X3 X4. met. exists ((tmap s tp, tmap s t) :: ps). cbn [map flat_map fst snd app]. rewrite E1. split; [reflexivity|].
    constructor; [|exact E2]. exists (sc (snd pv)). cbn [fst snd]. cbn [with_vals cvals] in X3. rewrite X2, X1. rewrite sc_app in X3. auto.
  - match goal with X : assoc x D0 = Some _ |- _ => rename X into Ed end. pose proof (Da _ _ Ed) as Eu.
    match goal with X : assoc x (sc (cdyns c0)) = Some _ |- _ => apply sc_look in Eu; rewrite X in Eu; injection Eu as Eu end.
    rewrite Eu, <- top_tmap. constructor. apply dm_look. exact Ed.
  - subst. econstructor; eassumption.
  - bk. assert (TV : tidy_view v = true) by (destruct vf; try (apply andb_true_iff in Tn; apply Tn); exact Tn). assert (SV : simple_view v = true) by (destruct vf; try (apply andb_true_iff in Sn; apply Sn); exact Sn).
    eapply fwd_bind; [apply view_lock; exact SV|apply view_fwd; assumption|intros ? tw _].
    destruct vf; cbn [gen_vf elab_vf]; unf; try (apply andb_true_iff in Tn as [_ Tn]); try (apply andb_true_iff in Sn as [_ Sn]); bf; apply fwd_ret; intros; met; cbn [tmap]; rewrite map_app; cbn [map tmap]; eqs; subst; eqs; econstructor; eassumption.
Qed.
End Level.

(** ** Levels and modules *)

Context (Hgd : forall k it tys, nth_error ds k = Some (it, tys) -> forallb ground tys = true).
Context (Htd : forall k it tys, nth_error ds k = Some (it, tys) -> everywhere (fun g => tidy_node ds g = true) (it_format it)).
Context (Hs : forall k it, nth_error (map fst ds) k = Some it -> everywhere (fun g => simple_node g = true) (it_format it)).
Lemma tget_in k l v : tget k l = Some v -> In (k, v) l.
Proof. induction l as [|[j w] l IH]; cbn; [discriminate|]. destruct (Nat.eqb_spec k j); [intros [= ->]; subst; auto|auto]. Qed.
Lemma dagree_nil c : dagree [] c.
Proof. intros x t E. discriminate E. Qed.
Lemma level_fwd n : forall k c it tys, nth_error ds k = Some (it, tys) -> forall g st v g1 t st1, inv g st -> gen_level ask ds n k c g = Some (v, g1) -> elab_level ds n k st = Some (t, st1) -> okt g1 st1 ->
  okt g st /\ (args_in it tys (sc (cvals c)) -> (forall e, In e (forms st1) -> In e (forms st) \/ tentry e) /\ LT k (tmap s t)).
Proof.
  induction n as [|n IH]; intros k c it tys En g st v g1 t st1 J E F Hk; cbn [gen_level elab_level] in E, F; pose proof (tget_lock k _ _ (proj2 J)) as K;
    destruct (nget k (lvls g)) as [w|] eqn:Ew, (tget k (forms st)) as [u|] eqn:Eu; try contradiction; try discriminate.
  1,2: injection E as <- <-; injection F as <- <-; split; [exact Hk|]; intros _; split; [auto|]; exists u; split; [|reflexivity]; apply Hk, tget_in, Eu.
  rewrite En in E, F. cbn [fst] in E, F. destruct (gen_format ask ds (gen_level ask ds n) c (it_format it) g) as [[w g2]|] eqn:Eg; [|discriminate E].
  destruct (elab_format ds (elab_level ds n) [] (it_format it) st) as [[u st2]|] eqn:Ef; [|discriminate F]. injection E as <- <-. injection F as <- <-.
  destruct Hk as (K1 & K2 & K3). cbn [lvls reqs forms] in *.
  destruct (proj1 (format_lock ask ds _ _ (level_lock ask ds Hs n) (it_format it)) (Hs _ _ (nth_fst _ _ _ _ En)) c [] _ _ _ _ _ _ J Eg Ef) as [_ Ev].
  destruct (proj1 (format_fwd _ _ (level_lock ask ds Hs n) IH Hgd (it_format it)) (Htd _ _ _ En) (Hs _ _ (nth_fst _ _ _ _ En)) c [] (dagree_nil c) _ _ _ _ _ _ J Eg Ef) as (Ok1 & I1 & HT).
  { split; [exact K1|]. split; [exact K2|]. intros e He. apply K3. now right. }
  split; [exact Ok1|]. intros Ha. split.
  - intros e [<-|He]; [right; exists it, tys, (sc (cvals c)), []; cbn [fst snd]; rewrite <- Ev; auto|auto].
  - exists u. split; [apply K3; now left|reflexivity].
Qed.
Lemma format_fwd_n n F : everywhere (fun g => tidy_node ds g = true) F -> everywhere (fun g => simple_node g = true) F ->
  fwd (gen_format ask ds (gen_level ask ds n) (Ctx [] [] []) F) (elab_format ds (elab_level ds n) [] F) (fun v t => af ds LT [] [] F (tmap s t) (s v)).
Proof. intros T S0. exact (proj1 (format_fwd _ _ (level_lock ask ds Hs n) (level_fwd n) Hgd F) T S0 (Ctx [] [] []) [] (dagree_nil _)). Qed.
Definition extra (k : nat) (t : gtree) : Prop := exists it tys, nth_error ds k = Some (it, tys) /\ af ds LT [] [] (it_format it) t (top t).
Lemma rest_fwd n : forall ks, fwd (gen_rest ask ds n ks) (elab_rest ds n ks)
  (fun _ ts => exists ks', Forall2 extra ks' (map (tmap s) ts) /\ forall k, In k ks -> In k ks' \/ exists t, LT k t).
Proof.
  induction ks as [|k ks IH]; cbn [gen_rest elab_rest]; [apply fwd_ret; exists []; split; [constructor|intros k []]|].
  intros g st vs g1 ts st1 J E F Hk. pose proof (tget_lock k _ _ (proj2 J)) as T. destruct (nget k (lvls g)) as [w|], (tget k (forms st)) as [u|] eqn:Eu; try contradiction.
  - destruct (IH _ _ _ _ _ _ J E F Hk) as (O1 & I1 & ks' & F1 & F2). split; [exact O1|]. split; [exact I1|]. exists ks'. split; [exact F1|]. intros j [<-|Hj]; [|exact (F2 j Hj)]. right. exists (tmap s u), u. split; [apply O1, tget_in, Eu|reflexivity].
  - destruct (nth_error ds k) as [[it tys]|] eqn:En; [|discriminate E]. cbn [glift elift] in E, F. unfold gbind, gret in E. unfold ebind, eret in F. cbn [fst] in E, F.
    destruct (gen_format _ _ _ _ _ g) as [[w g2]|] eqn:Eg; [|discriminate E]. destruct (gen_rest ask ds n ks g2) as [[ws g3]|] eqn:Er; [|discriminate E]. injection E as <- <-.
    destruct (elab_format _ _ _ _ st) as [[u st2]|] eqn:Ef; [|discriminate F]. destruct (elab_rest ds n ks st2) as [[us st3]|] eqn:Fr; [|discriminate F]. injection F as <- <-.
    destruct (proj1 (format_lock ask ds _ _ (level_lock ask ds Hs n) (it_format it)) (Hs _ _ (nth_fst _ _ _ _ En)) (Ctx [] [] []) [] _ _ _ _ _ _ J Eg Ef) as [J2 Ev].
    destruct (IH _ _ _ _ _ _ J2 Er Fr Hk) as (O2 & I2 & ks' & F1 & F2).
    destruct (format_fwd_n n (it_format it) (Htd _ _ _ En) (Hs _ _ (nth_fst _ _ _ _ En)) _ _ _ _ _ _ J Eg Ef O2) as (O1 & I1 & HT). split; [exact O1|]. split; [intros x Hx; destruct (I2 x Hx) as [X|X]; [auto|auto]|].
    exists (k :: ks'). split.
    + cbn [map]. constructor; [|exact F1]. exists it, tys. split; [exact En|]. rewrite top_tmap, <- Ev. exact HT.
    + intros j [<-|Hj]; [left; now left|]. destruct (F2 j Hj) as [X|X]; [left; now right|auto].
Qed.
End Rules.

Lemma elab_rules s ask ds n f v vs g t ts st :
  (forall rs v p, Forall (meets s) rs -> proper_history 0 (rev rs) -> ask rs v = Some (Concrete p) -> s v = GInt p) ->
  (forall k it tys, nth_error ds k = Some (it, tys) -> forallb ground tys = true) ->
  (forall k it tys, nth_error ds k = Some (it, tys) -> everywhere (fun g => tidy_node ds g = true) (it_format it)) ->
  (forall k it, nth_error (map fst ds) k = Some it -> everywhere (fun g => simple_node g = true) (it_format it)) ->
  everywhere (fun g => tidy_node ds g = true) f -> everywhere (fun g => simple_node g = true) f ->
  gen_module ask ds n f (GS 0 [] []) = Some ((v, vs), g) ->
  (let+ t := elab_format ds (elab_level ds n) [] f in let+ ts := elab_rest ds n (seq 0 (length ds)) in eret (t, ts)) (ES 0 []) = Some ((t, ts), st) ->
  Forall (meets s) (reqs g) -> proper_history 0 (rev (reqs g)) ->
  exists L ks, af ds L [] [] f (tmap s t) (s v) /\ module_trees ds L
    /\ Forall2 (fun k t => exists it tys, nth_error ds k = Some (it, tys) /\ af ds L [] [] (it_format it) t (top t)) ks (map (tmap s) ts)
    /\ forall k, k < length ds -> In k ks \/ exists t, L k t.
Proof.
  intros Ha Hgd Htd Hs Hf Hsf E F Hm Hp.
  assert (J : inv (GS 0 [] []) (ES 0 [])) by (split; [reflexivity|constructor]).
  assert (K : fwd s ds (forms st) (gen_module ask ds n f) (let+ t := elab_format ds (elab_level ds n) [] f in let+ ts := elab_rest ds n (seq 0 (length ds)) in eret (t, ts))
    (fun r x => af ds (LT s (forms st)) [] [] f (tmap s (fst x)) (s (fst r)) /\ exists ks, Forall2 (extra s ds (forms st)) ks (map (tmap s) (snd x)) /\ forall k, In k (seq 0 (length ds)) -> In k ks \/ exists t, LT s (forms st) k t)).
  { eapply fwd_bind; [apply (proj1 (format_lock ask ds _ _ (level_lock ask ds Hs n) f) Hsf)|apply (format_fwd_n s ask ds (forms st) Ha Hgd Htd Hs n f Hf Hsf)|intros v0 t0 _].
    eapply fwd_bind; [apply (rest_lock ask ds Hs)|apply (rest_fwd s ask ds (forms st) Ha Hgd Htd Hs)|intros vs0 ts0 _]. apply fwd_ret. cbn [fst snd]. auto. }
  destruct (K _ _ _ _ _ _ J E F) as (_ & I & HT & ks & F1 & F2).
  { split; [exact Hm|]. split; [exact Hp|]. intros e He. exact He. }
  exists (LT s (forms st)), ks. split; [exact HT|]. split; [|split; [exact F1|intros k Hk; apply F2, in_seq; lia]].
  intros k t0 (u & Hu & ->). destruct (I _ Hu) as [[]|(it & tys & G & D & E1 & E2 & E3)]. cbn [fst snd] in *. exists it, tys, G, D. rewrite top_tmap. auto.
Qed.

(** ** Derivations give types *)

Lemma af_type ds L F : forall G D t T, af ds L G D F t T ->
  ftype ds (fun k T => exists t, L k t /\ top t = T) G (map (fun d : label * gtree => (fst d, top (snd d))) D) F T /\ top t = T.
Proof.
  assert (AN : forall G e t T, an G e t T -> types G e T) by (intros G e t T H; apply (proj1 (an_type e) _ _ _ H)).
  induction F using CompileProofs.format_ind'; intros G0 D0 t0 T0 A; inversion A; subst; clear A;
    repeat match goal with H : forall G D t T, af ds L G D ?f t T -> _, X : af ds L _ _ ?f _ _ |- _ => apply H in X; destruct X end; subst;
    repeat match goal with X : an _ _ _ _ |- _ => apply AN in X end; (split; [|reflexivity]); cbn [map fst snd] in *; try (econstructor; eauto; fail).
  all: try (econstructor; match goal with X : Forall2 _ ?l _, H : Forall _ ?l |- _ => clear - X H; induction X; cbn; constructor; inversion H as [|? ? He Hes]; subst; [|auto]; eapply He; eassumption end).
  - econstructor; try eassumption; [|eauto]. match goal with X : Forall2 _ _ _ |- _ => clear - X AN; induction X; cbn; constructor; [|assumption] end. eexists. split; [eapply AN; eassumption|reflexivity].
  - econstructor; [eassumption|]. match goal with X : Forall2 _ ?l _, H : Forall _ ?l |- _ => clear - X H; induction X as [|b p bs ps (B & P1 & P2)]; constructor; inversion H as [|? ? He Hes]; subst; [|auto] end.
    exists B. split; [eapply apat_type; eassumption|]. eapply He; eassumption.
  - match goal with X : adyn _ _ _ _ |- _ => inversion X; subst end; eapply FtDynamic; eassumption.
  - constructor. match goal with X : assoc _ D0 = Some _ |- _ => revert X end. clear. induction D0 as [|[y u] D IH]; [discriminate|]. cbn. destruct (N.eqb _ y); [intros [= ->]; reflexivity|exact IH].
Qed.
Lemma trees_types ds L : module_trees ds L -> module_types ds (fun k T => exists t, L k t /\ top t = T).
Proof.
  intros M k T (t & Hk & <-). destruct (M k t Hk) as (it & tys & G & D & E1 & E2 & E3). exists it, tys, G. eexists. split; [exact E1|]. split; [exact E2|]. eapply af_type, E3.
Qed.
