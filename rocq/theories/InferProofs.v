(** The requests that inference makes ask for the types of the rules. *)
From Verif Require ByteSetModel.
From Verif Require Import Base BoundsModel DataModel NumericModel BaseSetModel BaseSetSpec UnifyModel ReifyModel
  TypeModel ValueModel ValueProofs ValueWfProofs FormatModel MatchBoundsProofs UnifySpec UnifyBase InferModel InferSpec.
From Verif Require Import TypeSpec TypeUnifyProofs.
From Verif Require CompileProofs BaseSetProofs BaseSetProps TypeValueProofs.
Open Scope nat_scope.

(** ** Names that an expression does not use *)

Definition agree (e : expr) (G G' : env) : Prop := forall x, uses x e = true -> assoc x G = assoc x G'.
Lemma assoc_app {A} x (B G : list (label * A)) : assoc x (B ++ G) = match assoc x B with Some a => Some a | None => assoc x G end.
Proof. induction B as [|[y a] B IH]; cbn; [reflexivity|]. destruct (N.eqb x y); [reflexivity|exact IH]. Qed.
Lemma assoc_none {A} x (B : list (label * A)) : ~ In x (map fst B) -> assoc x B = None.
Proof. induction B as [|[y a] B IH]; cbn; [reflexivity|]. intros H. destruct (N.eqb_spec x y); [subst; tauto|]. apply IH. tauto. Qed.
Lemma assoc_in {A} x (B : list (label * A)) : In x (map fst B) -> exists a, assoc x B = Some a.
Proof. induction B as [|[y a] B IH]; cbn; [tauto|]. destruct (N.eqb_spec x y); [eauto|]. intros [H|H]; [congruence|auto]. Qed.
Lemma pat_names_bound p : forall T B, pat_type p T B -> forall x, names_pat p x = true -> In x (map fst B).
Proof.
  assert (LL : forall ps, Forall (fun p => forall T B, pat_type p T B -> forall x, names_pat p x = true -> In x (map fst B)) ps ->
    forall Ts B, pats_type ps Ts B -> forall x, existsb (N.eqb x) (flat_map pat_names ps) = true -> In x (map fst B)).
  { intros ps IH. induction IH as [|q ps H1 _ IH]; intros Ts B P x E; inversion P; subst; [discriminate E|]. cbn in E. rewrite existsb_app in E.
    rewrite map_app. apply in_or_app. apply orb_true_iff in E as [E|E]; [right; eapply H1; eassumption|left; eapply IH; eassumption]. }
  induction p as [y| |b|w n|b|z|b|c|ps IH|l p IH|ps IH| |p IH] using pattern_ind'; intros T B P x E; inversion P; subst; unfold names_pat in E; cbn [pat_names] in E; try discriminate E.
  - cbn in E |- *. rewrite orb_false_r in E. apply N.eqb_eq in E. auto.
  - eapply LL; eassumption.
  - eapply IH; eassumption.
  - eapply LL; eassumption.
  - eapply IH; eassumption.
Qed.
Lemma agree_pat p T B G G' e : pat_type p T B -> (forall x, negb (names_pat p x) && uses x e = true -> assoc x G = assoc x G') -> agree e (B ++ G) (B ++ G').
Proof.
  intros P H x U. rewrite !assoc_app. destruct (assoc x B) eqn:E; [reflexivity|]. apply H. rewrite U, andb_true_r. apply negb_true_iff.
  destruct (names_pat p x) eqn:En; [|reflexivity]. destruct (assoc_in x B (pat_names_bound _ _ _ P _ En)). congruence.
Qed.
Lemma agree_lam x A G G' e : (forall y, negb (N.eqb y x) && uses y e = true -> assoc y G = assoc y G') -> agree e ((x, A) :: G) ((x, A) :: G').
Proof. intros H y U. cbn. destruct (N.eqb y x) eqn:E; [reflexivity|]. apply H. now rewrite U, E. Qed.
Lemma num_agree n : forall G G' p, (forall x, existsb (N.eqb x) (iter_vars n) = true -> assoc x G = assoc x G') -> num_type G n p -> num_type G' n p.
Proof.
  induction n; intros G G' p H HT; inversion HT; subst; econstructor; eauto.
  - eapply IHn1; [|eassumption]. intros x Hx. apply H. cbn. rewrite existsb_app. apply orb_true_iff. left. exact Hx.
  - eapply IHn2; [|eassumption]. intros x Hx. apply H. cbn. rewrite existsb_app. apply orb_true_iff. right. exact Hx.
  - eapply IHn1; [|eassumption]. intros x Hx. apply H. cbn. rewrite existsb_app. apply orb_true_iff. left. exact Hx.
  - eapply IHn2; [|eassumption]. intros x Hx. apply H. cbn. rewrite existsb_app. apply orb_true_iff. right. exact Hx.
  - rewrite <- H; [assumption|]. cbn. now rewrite N.eqb_refl.
Qed.
Definition agrees (e : expr) : Prop := forall G G' T, agree e G G' -> types G e T -> types G' e T.
Lemma agree_sub e e' G G' : agree e G G' -> (forall x, uses x e' = true -> uses x e = true) -> agree e' G G'.
Proof. intros H K x U. apply H, K, U. Qed.
Ltac ag := match goal with A : agree ?e0 ?G ?G', H : agrees ?e, T : types ?G ?e _ |- types ?G' ?e _ => eapply (H G G'); [|exact T];
   apply (agree_sub e0 e G G' A); intros ? X; cbn [uses]; rewrite X, ?orb_true_r; reflexivity end.
Ltac agl := match goal with A : agree ?e0 ?G ?G', H : agrees ?b, T : types ((?x, ?A0) :: ?G) ?b _ |- types ((?x, _) :: ?G') ?b _ => eapply (H ((x, A0) :: G) ((x, A0) :: G')); [|exact T];
   apply agree_lam; intros ? X; apply A; cbn [uses]; rewrite X, ?orb_true_r; reflexivity end.
Lemma types_agree e : agrees e /\ forall x b, e = ELambda x b -> agrees b.
Proof.
  induction e using expr_ind'; (split; [intros G G' T Ha HT|intros x0 b0 E0; try discriminate; injection E0 as <- <-; tauto]);
    repeat match goal with H : agrees _ /\ _ |- _ => destruct H end; inversion HT; subst; clear HT;
    repeat match goal with H : forall x b, ELambda ?y ?c = ELambda x b -> agrees b |- _ => pose proof (H y c eq_refl); clear H end;
    try (econstructor; first [ag | agl | eassumption]; fail).
  - constructor. rewrite <- (Ha x); [assumption|]. apply N.eqb_refl.
  - constructor. match goal with X : Forall2 _ es Ts |- _ => revert X end. rewrite Forall_forall in H.
    assert (K : forall e, In e es -> agree e G G') by (intros e He; eapply agree_sub; [exact Ha|]; intros x U; cbn; apply existsb_exists; eauto).
    clear Ha. intros F. induction F; constructor; [|apply IHF; intros; [apply H|apply K]; now right].
    destruct (H x (or_introl eq_refl)) as [Hx _]. eapply Hx; [apply K; now left|assumption].
  - constructor. match goal with X : Forall2 _ fs Ts |- _ => revert X end. rewrite Forall_forall in H.
    assert (K : forall f, In f fs -> agree (snd f) G G') by (intros [l e] He; eapply agree_sub; [exact Ha|]; intros x U; cbn; apply existsb_exists; exists (l, e); auto).
    clear Ha. intros F. induction F as [|x y l l' [F1 F2] F IHF]; constructor; [|apply IHF; intros; [apply H|apply K]; now right].
    destruct (H x (or_introl eq_refl)) as [Hx _]. split; [exact F1|]. eapply Hx; [apply K; now left|assumption].
  - constructor. rewrite Forall_forall in *. intros e He. destruct (H e He) as [Hx _]. eapply Hx; [|eauto].
    eapply agree_sub; [exact Ha|]. intros x U. cbn. apply existsb_exists. eauto.
  - constructor. eapply num_agree; [|eassumption]. intros x Hx. apply Ha. exact Hx.
  - econstructor; [ag|]. rewrite Forall_forall in *. intros [p e'] He. destruct (H _ He) as [Hx _]. match goal with X : forall b, In b bs -> exists B, _ |- _ => destruct (X _ He) as (B & P & HT) end.
    cbn [fst snd] in *. exists B. split; [exact P|]. eapply Hx; [|exact HT]. eapply agree_pat; [exact P|]. intros x U. apply Ha. cbn. apply orb_true_iff. right. apply existsb_exists. exists (p, e'). auto.
  - econstructor; [ag|eassumption|]. match goal with X : agrees e2 |- _ => eapply X; [|eassumption] end. eapply agree_pat; [eassumption|]. intros x U. apply Ha. cbn. rewrite U. apply orb_true_r.
Qed.

(** ** What requests that are met say *)

Section Rules.
Context (s : assignment) (ask : list request -> nat -> option numrep) (ds : list (item * list vtype)) (Lf : list (nat * nat)).
Context (Hask : forall rs v p, Forall (meets s) rs -> proper_history 0 (rev rs) -> ask rs v = Some (Concrete p) -> s v = GInt p).

(** The levels have the types of the variables found for them. *)
Definition LF (k : nat) (T : gtype) : Prop := exists v, In (k, v) Lf /\ T = s v.
Definition sc (G : uscope) : env := map (fun b => (fst b, s (snd b))) G.
Definition entry (e : nat * nat) : Prop := exists it tys G D, nth_error ds (fst e) = Some (it, tys) /\ args_in it tys G /\ ftype ds LF G D (it_format it) (s (snd e)).
Definition ok (g : gst) : Prop := Forall (meets s) (reqs g) /\ proper_history 0 (rev (reqs g)) /\ incl (lvls g) Lf.
(** When the requests made so far are met, so were the earlier ones; levels found
    meanwhile are well typed; and the result is as said. *)
Definition back {A} (m : gm A) (Q : A -> Prop) : Prop :=
  forall g a g1, m g = Some (a, g1) -> ok g1 -> ok g /\ (forall e, In e (lvls g1) -> In e (lvls g) \/ entry e) /\ Q a.

Lemma back_bind {A B} (m : gm A) (k : A -> gm B) (Q : A -> Prop) (R : B -> Prop) : back m Q -> (forall a, back (k a) (fun b => Q a -> R b)) -> back (gbind m k) R.
Proof.
  intros H K g b g1 E Hk. unfold gbind in E. destruct (m g) as [[a g2]|] eqn:Em; [|discriminate E].
  destruct (K a _ _ _ E Hk) as (Ok2 & I2 & R2). destruct (H _ _ _ Em Ok2) as (Ok1 & I1 & Qa). split; [exact Ok1|]. split; [|auto].
  intros e He. destruct (I2 e He) as [X|X]; [auto|right; exact X].
Qed.
Lemma back_ret {A} (a : A) (Q : A -> Prop) : Q a -> back (gret a) Q.
Proof. intros H g b g1 [= <- <-] Hk. auto. Qed.
Lemma back_fail {A} (Q : A -> Prop) : back gfail Q.
Proof. intros g b g1 E. discriminate E. Qed.
Lemma back_imp {A} (m : gm A) (Q R : A -> Prop) : (forall a, Q a -> R a) -> back m Q -> back m R.
Proof. intros I H g a g1 E Hk. destruct (H _ _ _ E Hk) as (H1 & H2 & H3). auto. Qed.
Lemma history_init n rs r : proper_history n (rs ++ [r]) -> proper_history n rs.
Proof. revert n. induction rs as [|q rs IH]; cbn; intros n H; [exact I|]. destruct H. eauto. Qed.
Lemma back_tell r : back (tell r) (fun _ => meets s r).
Proof.
  intros g a g1 [= <- <-] (H1 & H2 & H3). cbn in *. inversion H1; subst. split; [|auto]. split; [assumption|]. split; [eapply history_init, H2|exact H3].
Qed.
Lemma back_fresh : back fresh (fun _ => True).
Proof.
  intros g a g1 [= <- <-] (H1 & H2 & H3). cbn in *. inversion H1; subst. split; [|auto]. split; [assumption|]. split; [eapply history_init, H2|exact H3].
Qed.
Lemma back_lift {A} (o : option A) : back (glift o) (fun a => o = Some a).
Proof. destruct o; [apply back_ret; reflexivity|apply back_fail]. Qed.
Lemma back_lift_o {A} (o : outcome A) : back (glift_o o) (fun a => o = Val a).
Proof. destruct o; [apply back_ret; reflexivity|apply back_fail]. Qed.
Lemma back_map {A B} (f : A -> gm B) (Q : A -> B -> Prop) l : Forall (fun a => back (f a) (Q a)) l -> back (mapG f l) (fun bs => Forall2 Q l bs).
Proof.
  induction 1 as [|a l H1 _ IH]; cbn [mapG]; [apply back_ret; constructor|].
  eapply back_bind; [exact H1|intros b]. eapply back_bind; [exact IH|intros bs]. apply back_ret. intros F Qb. constructor; assumption.
Qed.
Lemma back_iter {A B} (f : A -> gm B) (Q : A -> Prop) l : Forall (fun a => back (f a) (fun _ => Q a)) l -> back (iterG f l) (fun _ => Forall Q l).
Proof.
  induction 1 as [|a l H1 _ IH]; cbn [iterG]; [apply back_ret; constructor|].
  eapply back_bind; [exact H1|intros b]. eapply back_imp; [|exact IH]. intros ? F Qb. constructor; assumption.
Qed.
Lemma back_init t : back (init_var t) (fun v => fits s t (s v)).
Proof. unfold init_var. eapply back_bind; [apply back_fresh|intros v]. eapply back_bind; [apply back_tell|intros []]. apply back_ret. intros H _. exact H. Qed.
Lemma back_fresh_num : back fresh_num (fun v => exists p, s v = GInt p).
Proof.
  unfold fresh_num. eapply back_bind; [apply back_fresh|intros v]. eapply back_bind; [apply back_tell|intros []]. apply back_ret. intros (p & _ & H) _. eauto.
Qed.

Lemma met_u v u : meets s (RBaseset v (BU u)) -> exists w, s v = GU w.
Proof. intros (b & (w & n & -> & _) & H). exists w. exact H. Qed.
Lemma met_bool v : meets s (RBaseset v a_bool) -> s v = GBool.
Proof. intros (b & -> & H). exact H. Qed.
Lemma fits_vars vs g : fits s (UTuple (map UVar vs)) g -> g = GTuple (map s vs).
Proof.
  intros H. apply fits_tuple in H as (gs & -> & F). f_equal. revert gs F. induction vs as [|v vs IH]; intros gs F; inversion F; subst; [reflexivity|]. cbn. f_equal; [symmetry; assumption|auto].
Qed.
Lemma sc_look x G v : ulook x G = Some v -> assoc x (sc G) = Some (s v).
Proof. unfold ulook. induction G as [|[y w] G IH]; cbn; [discriminate|]. destruct (N.eqb x y); [now intros [= ->]|exact IH]. Qed.
Lemma sc_app B G : sc (B ++ G) = sc B ++ sc G.
Proof. apply map_app. Qed.
Ltac met := repeat match goal with
  | H : meets s (RPair _ _) |- _ => cbn [meets] in H
  | H : meets s (RElem _ _) |- _ => cbn [meets] in H
  | H : meets s (RParam _ _) |- _ => cbn [meets] in H
  | H : meets s (RType _ _) |- _ => cbn [meets] in H
  | H : meets s (RBaseset _ _) |- _ => first [apply met_bool in H | apply met_u in H; destruct H as [? H]]
  | H : meets s (RIntset _ _) |- _ => destruct H as (? & ? & H)
  | H : meets s (RVariant _ _ _) |- _ => destruct H as (? & ? & ? & ? & H)
  | H : meets s (RIndex _ _ _) |- _ => destruct H as (? & ? & H)
  | H : meets s (RField _ _ _) |- _ => destruct H as (? & ? & H)
  | H : fits s (UVar _) _ |- _ => cbn [fits] in H
  | H : fits s (UBase _) _ |- _ => cbn [fits ground_base] in H
  | H : fits s (UInt _) _ |- _ => cbn [fits] in H
  | H : fits s UView _ |- _ => cbn [fits] in H
  | H : fits s (USeq _ _) _ |- _ => cbn [fits] in H; destruct H as (? & ? & H)
  | H : fits s (UOption _) _ |- _ => cbn [fits] in H; destruct H as (? & ? & H)
  | H : fits s (UPhantom _) _ |- _ => cbn [fits] in H; destruct H as (? & ? & H)
  | H : fits s (UTuple (map _ _)) _ |- _ => apply fits_vars in H
  | H : fits s (UTuple (_ :: _)) _ |- _ => apply fits_tuple in H; destruct H as (? & ? & H)
  | H : fits s (UTuple []) _ |- _ => apply fits_tuple in H; destruct H as (? & ? & H)
  | H : Forall2 (fits s) (_ :: _) _ |- _ => inversion H; subst; clear H
  | H : Forall2 (fits s) [] _ |- _ => inversion H; subst; clear H
  | H : ulook _ _ = Some _ |- _ => apply sc_look in H
  end.
Ltac eqs := repeat match goal with
  | H : s ?a = s ?a |- _ => clear H
  | H : s ?a = _ |- _ => rewrite H in *; clear H
  | H : ?x = s ?a |- _ => rewrite <- H in *; clear H
  end.

(** ** Patterns *)

Lemma encompassing_ok b is : encompassing b = Val is -> is_ok is /\ exists z, is = IZ z.
Proof.
  unfold encompassing. intros E. apply omap_val in E as (z & E & ->). split; [|eauto]. cbn.
  assert (G : forall ps acc, ofoldM (fun s p => omap (fun inside : bool => if inside then s else prim_remove s p) (zb_is_encompassed_by b (as_bounds p))) acc ps = Val z -> length z = length acc).
  { induction ps as [|p ps IH]; intros acc Ez; cbn [ofoldM] in Ez; [now injection Ez as <-|]. apply obind_val in Ez as (a & Ea & Ez). apply omap_val in Ea as (i & _ & ->).
    rewrite (IH _ Ez). destruct i; [reflexivity|]. apply BaseSetProps.set_nth_length. }
  exact (G _ _ E).
Qed.
Lemma encompassing_holds lo hi is : (lo <= hi)%Z -> encompassing (ZB lo hi) = Val is -> forall p, in_is is p -> forall z, (lo <= z <= hi)%Z -> holds p z.
Proof.
  intros L E p Hp. destruct (BaseSetProps.C59_from_bounds lo hi L) as (is' & E' & _ & H). apply H. clear H. destruct (encompassing_ok _ _ E) as (Ln & _).
  unfold encompassing in E. unfold from_bounds in E'. match type of E with omap _ ?x = _ => destruct x as [z|]; [|discriminate E] end. injection E as <-.
  cbn [obind] in E'.
  assert (K : in_is (IZ (normalize z)) p).
  { apply BaseSetProps.in_is_has. rewrite BaseSetProofs.has_normalize. apply BaseSetProps.in_is_has. exact Hp. }
  destruct (prim_as_singleton (normalize z)) as [q|] eqn:S; injection E' as <-; [|exact K].
  cbn. apply (BaseSetProps.C59_singleton_int (normalize z)); [rewrite BaseSetProofs.normalize_length; exact Ln|exact S|exact K].
Qed.
Ltac bk := eapply back_bind; [first [apply back_fresh | apply back_tell | apply back_init | apply back_fresh_num | apply back_lift | apply back_lift_o]|intros ?].
Definition patb (p : pattern) : Prop := back (gen_pat p) (fun r => pat_type p (s (fst r)) (sc (snd r))).
Lemma pat_back p : patb p.
Proof.
  induction p as [y| |b|w n|b|z|b|c|ps IH|l p IH|ps IH| |p IH] using pattern_ind'; unfold patb in *; cbn [gen_pat].
  - bk. apply back_ret. intros _. constructor.
  - bk. apply back_ret. intros _. constructor.
  - bk. apply back_ret. cbn [fst snd]. intros H. met. rewrite H. constructor.
  - bk. apply back_ret. cbn [fst snd]. intros H. met. rewrite H. apply PTU.
  - bk. bk. apply back_ret. cbn [fst snd]. intros (b0 & (w & n & -> & R) & H) _. rewrite H. apply PTInt. intros m E L. apply (BaseSetProps.C59_pattern_width b m E L). eauto.
  - bk. bk. bk. apply back_ret. cbn [fst snd]. intros (p & Hp & H) E _. rewrite H. constructor. eapply encompassing_holds; [| exact E|exact Hp|]; lia.
  - destruct b as [lo hi]. bk. bk. bk. apply back_ret. cbn [fst snd]. intros (p & Hp & H) E _. rewrite H. constructor. intros L. eapply encompassing_holds; [exact L|exact E|exact Hp].
  - bk. apply back_ret. cbn [fst snd]. intros H. met. rewrite H. constructor.
  - bk. eapply back_bind with (Q := fun r => pats_type ps (map s (fst r)) (sc (snd r))); [|intros r; bk; apply back_ret; cbn [fst snd]; intros H1 H2 _; met; rewrite H1; constructor; exact H2].
    clear -IH. induction IH as [|p ps H _ IH]; cbn [pats]; [apply back_ret; constructor|].
    eapply back_bind; [exact H|intros r]. eapply back_bind; [exact IH|intros r']. apply back_ret. cbn [fst snd map]. rewrite sc_app. intros H1 H2. constructor; assumption.
  - bk. eapply back_bind; [exact IH|intros r]. bk. apply back_ret. cbn [fst snd]. intros H1 H2 _. met. eqs. econstructor; eassumption.
  - bk. bk. eapply back_bind with (Q := fun r => exists Ts, pats_type ps Ts (sc r) /\ Forall (eq (s a0)) Ts); [|intros r; bk; apply back_ret; cbn [fst snd]; intros H1 (Ts & H2 & H3) _ _; met; eqs; econstructor; eassumption].
    clear -IH. induction IH as [|p ps H _ IH]; cbn [seq_pats]; [apply back_ret; exists []; split; constructor|].
    eapply back_bind; [exact H|intros r]. bk. eapply back_bind; [exact IH|intros r']. apply back_ret. cbn [fst snd map]. intros (Ts & H1 & H2) H3 H4. cbn in H3.
    exists (s (fst r) :: Ts). rewrite sc_app. split; constructor; assumption.
  - bk. eapply back_bind with (Q := fun r : nat * uscope => snd r = []); [bk; apply back_ret; reflexivity|intros r]. bk. apply back_ret. cbn [fst snd]. intros H1 H2 _. met. eqs. rewrite H2. constructor.
  - bk. eapply back_bind; [exact IH|intros r]. bk. apply back_ret. cbn [fst snd]. intros H1 H2 _. met. eqs. constructor. exact H2.
Qed.

(** ** Numeric expressions *)

Definition numb (n : nexpr) (G : uscope) (r : nat * numrep) : Prop :=
  exists p, s (fst r) = GInt p /\ num_type (sc G) n p /\ forall q, snd r = Concrete q -> q = p.
Lemma num_back n : forall G, back (gen_num ask G n) (numb n G).
Proof.
  induction n as [c0|op out a IHa b IHb|op out a IHa|r cs a IHa|x]; intros G; cbn [gen_num].
  - destruct (tc_rep c0) as [|p] eqn:Er.
    + bk. bk. bk. apply back_ret. cbn [fst snd]. intros (p & Hp & H) E _. exists p. split; [exact H|]. split; [|discriminate]. constructor. rewrite Er.
      destruct (BaseSetProps.C59_from_bounds (tc_val c0) (tc_val c0) (Z.le_refl _)) as (is' & E' & _ & K). rewrite E in E'. injection E' as ->. apply K; [exact Hp|lia].
    + bk. apply back_ret. cbn [fst snd]. intros H. met. exists p. split; [exact H|]. split; [apply NTConst; rewrite Er; reflexivity|intros q [= <-]; reflexivity].
  - bk. eapply back_bind; [apply IHa|intros l]. eapply back_bind; [apply IHb|intros r].
    eapply back_bind with (Q := fun rep => (exists p, s a0 = GInt p) -> numb a G l -> numb b G r -> numb (NBin op out a b) G (a0, rep)); [|intros rep; apply back_ret; auto].
    unfold gen_bin, tell_rep.
    assert (AS : forall p, s a0 = GInt p -> numb a G l -> numb b G r -> numb (NBin op (Some p) a b) G (a0, Concrete p)).
    { intros p H (q1 & _ & A1 & _) (q2 & _ & A2 & _). exists p. split; [exact H|]. split; [eapply NTBinAs; eassumption|]. intros q [= <-]. reflexivity. }
    destruct (snd l) as [|p0] eqn:El, (snd r) as [|p1] eqn:Er; [| | |destruct (mrep_eqb p0 p1) eqn:Em]; (destruct out as [p|]; [repeat bk; apply back_ret; intros; met; auto|]).
    + repeat bk. apply back_ret. intros H1 H2 (q & H3) (q1 & L1 & A1 & _) (q2 & L2 & A2 & _). met. exists q. split; [exact H3|]. cbn [snd]. split; [|discriminate].
      constructor; congruence.
    + repeat bk. apply back_ret. intros H1 H2 _ (q1 & L1 & A1 & _) (q2 & L2 & A2 & C2). met. exists p1. split; [exact H2|]. cbn [snd]. split; [|intros q [= <-]; reflexivity].
      rewrite <- (C2 _ Er) in A2. constructor; congruence.
    + repeat bk. apply back_ret. intros H1 H2 _ (q1 & L1 & A1 & C1) (q2 & L2 & A2 & _). met. exists p0. split; [exact H2|]. cbn [snd]. split; [|intros q [= <-]; reflexivity].
      rewrite <- (C1 _ El) in A1. constructor; congruence.
    + repeat bk. apply back_ret. intros H1 _ (q1 & L1 & A1 & C1) (q2 & L2 & A2 & C2). met. exists p0. split; [exact H1|]. cbn [snd]. split; [|intros q [= <-]; reflexivity].
      apply BaseSetProofs.mrep_eqb_eq in Em. subst p1. rewrite <- (C1 _ El) in A1. rewrite <- (C2 _ Er) in A2. now constructor.
    + apply back_fail.
  - bk. eapply back_bind; [apply IHa|intros i].
    eapply back_bind with (Q := fun rep => (exists p, s a0 = GInt p) -> numb a G i -> numb (NUn op out a) G (a0, rep)); [|intros rep; apply back_ret; auto].
    unfold tell_rep. destruct (snd i) as [|p0] eqn:Ei.
    + bk. destruct out as [p|].
      * bk. apply back_ret. intros H1 H2 _ (q1 & L1 & A1 & C1). met. exists p. split; [exact H1|]. cbn [snd]. split; [econstructor; eassumption|intros q [= <-]; reflexivity].
      * apply back_ret. intros H1 (q & H2) (q1 & L1 & A1 & C1). met. exists q. split; [exact H2|]. cbn [snd]. split; [constructor; congruence|discriminate].
    + bk. apply back_ret. intros H1 _ (q1 & L1 & A1 & C1). met. eexists. split; [exact H1|]. cbn [snd]. split; [|intros q [= <-]; reflexivity].
      destruct out as [p|]; [econstructor; eassumption|]. rewrite <- (C1 _ Ei) in A1. now constructor.
  - bk. eapply back_bind; [apply IHa|intros i]. unfold tell_rep.
    eapply back_bind with (Q := fun _ => True); [destruct (snd i); [eapply back_imp; [|apply back_tell]; auto|apply back_ret; exact I]|intros _]. bk. apply back_ret.
    intros H _ (q1 & L1 & A1 & C1) _. met. exists r. split; [exact H|]. cbn [snd]. split; [econstructor; eassumption|intros q [= <-]; reflexivity].
  - bk. bk. bk. eapply back_bind with (Q := fun rep => forall q, rep = Concrete q -> s a = GInt q).
    + intros g rep g1 E Hk. destruct (ask (reqs g) a) as [rp|] eqn:Ea; [|discriminate E]. injection E as <- <-. split; [exact Hk|]. split; [auto|]. intros q ->. eapply Hask; [apply Hk|apply Hk|exact Ea].
    + intros rep. apply back_ret. intros HR H1 H2 (p & H3). met. exists p. split; [exact H3|]. cbn [snd]. split; [constructor; congruence|]. intros q Hq. specialize (HR q Hq). congruence.
Qed.

(** ** Declared types *)

(** A type without unions and without open parts is the type. *)
Lemma from_ground t : ground t = true -> exists u, from_valuetype t = Some u /\ forall g, fits s u g -> vt g = t.
Proof.
  induction t as [| | |t IH|b0| |w|ts IH|fs IH|fs IH|t IH|t IH] using vtype_ind'; intros Gd; try discriminate Gd; cbn [ground] in Gd; cbn [from_valuetype].
  - eexists. split; [reflexivity|]. intros g ->. reflexivity.
  - destruct (IH Gd) as (u & -> & H). eexists. split; [reflexivity|]. intros g (g0 & Eg & F). rewrite Eg. cbn. f_equal. auto.
  - eexists. split; [reflexivity|]. intros g ->. destruct b0; reflexivity.
  - eexists. split; [reflexivity|]. intros g ->. reflexivity.
  - assert (K : exists us, mapO from_valuetype ts = Some us /\ forall gs, Forall2 (fits s) us gs -> map vt gs = ts).
    { induction IH as [|t ts H _ IHt]; [exists []; split; [reflexivity|]; intros gs F; inversion F; reflexivity|]. cbn in Gd. apply andb_true_iff in Gd as [G1 G2].
      destruct (H G1) as (u & Eu & Hu). destruct (IHt G2) as (us & Es & Hs). exists (u :: us). cbn. rewrite Eu, Es. split; [reflexivity|]. intros gs F. inversion F; subst. cbn. f_equal; auto. }
    destruct K as (us & -> & K). eexists. split; [reflexivity|]. intros g F. apply fits_tuple in F as (gs & -> & F). cbn. f_equal. auto.
  - assert (K : exists us, mapO (fun f : label * vtype => let (l, t1) := f in option_map (pair l) (from_valuetype t1)) fs = Some us /\ forall gs, Forall2 (fits_f s) us gs -> map (fun f : label * gtype => let (l, t) := f in (l, vt t)) gs = fs).
    { induction IH as [|[l t] ts H _ IHt]; [exists []; split; [reflexivity|]; intros gs F; inversion F; reflexivity|]. cbn in Gd, H. apply andb_true_iff in Gd as [G1 G2].
      destruct (H G1) as (u & Eu & Hu). destruct (IHt G2) as (us & Es & Hs). exists ((l, u) :: us). cbn. rewrite Eu, Es. split; [reflexivity|]. intros gs F. inversion F as [|? [k g] ? ? [F1 F2]]; subst. cbn in *. subst. f_equal; [f_equal; auto|auto]. }
    destruct K as (us & -> & K). eexists. split; [reflexivity|]. intros g F. apply fits_record in F as (gs & -> & F). cbn. f_equal. auto.
  - destruct (IH Gd) as (u & -> & H). eexists. split; [reflexivity|]. intros g (g0 & Eg & F). rewrite Eg. cbn. f_equal. auto.
  - destruct (IH Gd) as (u & -> & H). eexists. split; [reflexivity|]. intros g (g0 & Eg & F). rewrite Eg. cbn. f_equal. auto.
Qed.
Lemma declare_ground t v : ground t = true -> back (declare v t) (fun _ => vt (s v) = t).
Proof.
  intros Gd. destruct (from_ground t Gd) as (u & E & H). assert (X : declare v t = tell (RType v u)) by (destruct t; cbn [declare]; now rewrite E). rewrite X.
  eapply back_imp; [|apply back_tell]. intros ? F. apply H, F.
Qed.

Lemma from_some_ground t u : definite t = true -> from_valuetype t = Some u -> ground t = true.
Proof.
  revert u. induction t as [| | |t IH|b0| |w|ts IH|fs IH|fs IH|t IH|t IH] using vtype_ind'; intros u D E; try discriminate D; try discriminate E; cbn [definite] in D; cbn [from_valuetype] in E; try reflexivity.
  - destruct (from_valuetype t) eqn:X; [|discriminate E]. exact (IH _ D eq_refl).
  - destruct (mapO from_valuetype ts) as [us|] eqn:X; [|discriminate E]. clear E. cbn [ground]. revert us X. induction IH as [|t ts H _ IHt]; intros us X; [reflexivity|]. cbn in D, X. apply andb_true_iff in D as [D1 D2].
    destruct (from_valuetype t) eqn:Y; [|discriminate X]. destruct (mapO from_valuetype ts) as [us0|]; [|discriminate X]. cbn. rewrite (H _ D1 eq_refl). cbn. exact (IHt D2 _ eq_refl).
  - apply andb_true_iff in D as [_ D]. match type of E with option_map _ ?o = _ => destruct o as [us|] eqn:X; [|discriminate E] end. clear E. cbn [ground]. revert us X. induction IH as [|[l t] ts H _ IHt]; intros us X; [reflexivity|]. cbn in D, X, H. apply andb_true_iff in D as [D1 D2].
    destruct (from_valuetype t) eqn:Y; [|discriminate X]. cbn [option_map] in X. match type of X with match ?o with _ => _ end = _ => destruct o as [us0|] eqn:Z; [|discriminate X] end. cbn. rewrite (H _ D1 eq_refl). cbn. exact (IHt D2 _ eq_refl).
  - destruct (from_valuetype t) eqn:X; [|discriminate E]. exact (IH _ D eq_refl).
  - destruct (from_valuetype t) eqn:X; [|discriminate E]. exact (IH _ D eq_refl).
Qed.
Lemma from_none t : definite t = true -> from_valuetype t = None -> ground t = false.
Proof. intros D E. destruct (ground t) eqn:X; [|reflexivity]. destruct (from_ground t X) as (u & Y & _). congruence. Qed.
Lemma from_exact t u g : definite t = true -> from_valuetype t = Some u -> fits s u g -> as_declared t g.
Proof. intros D E F. pose proof (from_some_ground t u D E) as Gd. destruct (from_ground t Gd) as (u' & E' & H). rewrite E in E'. injection E' as <-. rewrite <- (H g F) in *. now constructor. Qed.
(** What a declaration asks *)
Lemma declare_back t : definite t = true -> forall v, back (declare v t) (fun _ => as_declared t (s v)).
Proof.
  induction t as [| | |t IH|b0| |w|ts IH|fs IH|fs IH|t IH|t IH] using vtype_ind'; intros D v; cbn [declare];
    match goal with |- back (match ?o with _ => _ end) _ => destruct o eqn:Eo; [eapply back_imp; [|apply back_tell]; intros ? X; eapply from_exact; eassumption|] end; try apply back_fail;
    pose proof (from_none _ D Eo) as Gf; cbn [definite] in D; clear Eo.
  - assert (K : forall i, back (tuple_vt declare v i ts) (fun _ => ts = [] \/ exists Ts, s v = GTuple Ts /\ forall j t, nth_error ts j = Some t -> exists T, nth_error Ts (i + j) = Some T /\ as_declared t T)).
    { clear Gf. induction IH as [|t ts H _ IHt]; intros i; cbn [tuple_vt]; [apply back_ret; auto|]. cbn in D. apply andb_true_iff in D as [D1 D2].
      eapply back_bind with (Q := fun _ => exists Ts T, s v = GTuple Ts /\ nth_error Ts i = Some T /\ as_declared t T).
      - bk. bk. eapply back_imp; [|apply (H D1)]. intros ? X1 (Ts & X2 & X3) _. eauto.
      - intros _. eapply back_imp; [|apply (IHt D2)]. intros ? X (Ts & T & E1 & E2 & E3). right. exists Ts. split; [exact E1|]. intros [|j] t0 Hj; cbn in Hj.
        + injection Hj as <-. rewrite Nat.add_0_r. eauto.
        + destruct X as [->|(Ts' & E' & X)]; [destruct j; discriminate Hj|]. rewrite E1 in E'. injection E' as <-. replace (i + S j) with (S i + j) by lia. auto. }
    eapply back_imp; [|apply (K 0)]. intros ? [->|(Ts & -> & X)]; [discriminate Gf|]. now apply DlTuple.
  - apply andb_true_iff in D as [_ D].
    assert (K : back (record_vt declare v fs) (fun _ => fs = [] \/ exists Fs, s v = GRecord Fs /\ forall l t, In (l, t) fs -> exists T, assoc l Fs = Some T /\ as_declared t T)).
    { clear Gf. induction IH as [|[l t] fs H _ IHt]; cbn [record_vt]; [apply back_ret; auto|]. cbn in D, H. apply andb_true_iff in D as [D1 D2].
      eapply back_bind with (Q := fun _ => exists Fs T, s v = GRecord Fs /\ assoc l Fs = Some T /\ as_declared t T).
      - bk. bk. eapply back_imp; [|apply (H D1)]. intros ? X1 (Ts & X2 & X3) _. eauto.
      - intros _. eapply back_imp; [|apply (IHt D2)]. intros ? X (Ts & T & E1 & E2 & E3). right. exists Ts. split; [exact E1|]. intros k t0 [[= <- <-]|Hj]; [eauto|].
        destruct X as [->|(Ts' & E' & X)]; [destruct Hj|]. rewrite E1 in E'. injection E' as <-. auto. }
    eapply back_imp; [|apply K]. intros ? [->|(Ts & -> & X)]; [discriminate Gf|]. now apply DlRecord.
  - assert (K : back (union_vt declare v fs) (fun _ => fs = [] \/ exists Fs, s v = GUnion Fs /\ forall l t, In (l, t) fs -> exists T, assoc l Fs = Some T /\ as_declared t T)).
    { clear Gf. induction IH as [|[l t] fs H _ IHt]; cbn [union_vt]; [apply back_ret; auto|]. cbn in D, H. apply andb_true_iff in D as [D1 D2].
      eapply back_bind with (Q := fun _ => exists Fs T, s v = GUnion Fs /\ assoc l Fs = Some T /\ as_declared t T).
      - eapply back_bind with (Q := fun u => forall g, fits s u g -> as_declared t g).
        + destruct (from_valuetype t) as [u|] eqn:Et; [apply back_ret; intros g F; eapply from_exact; eassumption|]. bk. eapply back_bind; [apply (H D1)|intros ?]. apply back_ret. intros X _ g F. cbn in F. subst g. exact X.
        + intros u. eapply back_imp; [|apply back_tell]. intros ? (Fs & T & E1 & E2 & E3) X. exact (ex_intro _ Fs (ex_intro _ T (conj E1 (conj E2 (X T E3))))).
      - intros _. eapply back_imp; [|apply (IHt D2)]. intros ? X (Ts & T & E1 & E2 & E3). right. exists Ts. split; [exact E1|]. intros k t0 [[= <- <-]|Hj]; [eauto|].
        destruct X as [->|(Ts' & E' & X)]; [destruct Hj|]. rewrite E1 in E'. injection E' as <-. auto. }
    eapply back_imp; [|apply K]. intros ? [->|(Ts & -> & X)]; [apply DlNone|]. now apply DlUnion.
  - bk. bk. eapply back_imp; [|apply (IH D)]. intros ? X1 X2 _. cbn [meets] in X2. rewrite X2. now apply DlSeq.
  - bk. bk. eapply back_imp; [|apply (IH D)]. intros ? X1 X2 _. cbn [meets] in X2. rewrite X2. now apply DlOption.
Qed.

(** ** Expressions *)

Definition exb (e : expr) : Prop := tidy e = true -> forall G, back (gen_expr ask G e) (fun v => types (sc G) e (s v)).
Definition lamb (e : expr) : Prop := tidy e = true -> forall G,
  back (gen_lam ask G e) (fun io => exists x b, e = ELambda x b /\ types ((x, s (fst io)) :: sc G) b (s (snd io))).
Lemma lam_back e : (forall x b, e = ELambda x b -> exb b) -> lamb e.
Proof.
  intros H T G. destruct e; try apply back_fail. cbn [gen_lam]. bk. eapply back_bind; [apply (H x e eq_refl T)|intros r]. apply back_ret. cbn [fst snd]. intros HT _. exists x, e. split; [reflexivity|exact HT].
Qed.
Lemma nodup_labels_spec l : nodup_labels l = true -> NoDup l.
Proof.
  induction l as [|x l IH]; cbn; intros H; constructor; apply andb_true_iff in H as [H1 H2]; [|auto]. intros C. apply negb_true_iff in H1.
  assert (existsb (N.eqb x) l = true); [|congruence]. apply existsb_exists. exists x. split; [exact C|apply N.eqb_refl].
Qed.
Ltac spl := repeat match goal with
  | H : _ && _ = true |- _ => apply andb_true_iff in H; destruct H
  | H : exb _ /\ _ |- _ => destruct H
  | H : exb ?e, D : tidy ?e = true |- _ => pose proof (H D); clear H
  | H : forall x b, ?e = ELambda x b -> exb b, D : tidy ?e = true |- _ => pose proof (lam_back e H D); clear H
  end.
Ltac be := repeat first [bk | eapply back_bind; [first [match goal with H : forall G, back (gen_expr ask G ?e) _ |- back (gen_expr ask _ ?e) _ => apply H end
   | match goal with H : forall G, back (gen_lam ask G ?e) _ |- back (match ?e with _ => _ end) _ => apply H end | apply declare_back; assumption]|intros ?]].
Ltac fin := apply back_ret; intros; met; repeat match goal with H : exists x b, _ = ELambda x b /\ _ |- _ => destruct H as (? & ? & -> & ?) end; cbn [fst snd map] in *; eqs.
Lemma expr_back e : exb e /\ forall x b, e = ELambda x b -> exb b.
Proof.
  induction e using expr_ind'; (split; [intros Td G|intros x0 b0 E0; try discriminate; injection E0 as <- <-; tauto]);
    cbn [tidy] in Td; spl; cbn [gen_expr]; try apply back_fail.
  all: try (be; fin; first [econstructor; eauto; fail | idtac]).
  - (* tuple *) bk. eapply back_bind; [apply (back_map _ (fun e v => types (sc G) e (s v)))|intros vs].
    { rewrite forallb_forall in Td. rewrite Forall_forall in *. intros e He. apply (H e He). auto. }
    bk. fin. constructor. match goal with X : Forall2 _ es vs |- _ => clear -X; induction X; cbn; constructor; assumption end.
  - (* record *) bk. eapply back_bind with (Q := fun us => exists Ts, Forall2 (fun f T => fst f = fst T /\ types (sc G) (snd f) (snd T)) fs Ts /\ forall gs, Forall2 (fits_f s) us gs -> gs = Ts).
    2: { intros us. bk. apply back_ret. intros K1 (Ts & K2 & K3) _. cbn [meets] in K1. apply fits_record in K1 as (gs & E & F). rewrite E. constructor. now rewrite (K3 _ F). }
    match goal with X : nodup_labels _ = true |- _ => clear X end.
    match goal with X : apart fs = true |- _ => rename X into Ap end. match goal with X : forallb _ fs = true |- _ => rename X into Tf end.
    assert (K : forall B, Forall (fun f : label * expr => forall x, In x (map fst B) -> uses x (snd f) = false) fs ->
      back (fields (gen_expr ask) (B ++ G) fs) (fun us => exists Ts, Forall2 (fun f T => fst f = fst T /\ types (sc G) (snd f) (snd T)) fs Ts /\ forall gs, Forall2 (fits_f s) us gs -> gs = Ts)).
    { clear - H Ap Tf. induction fs as [|[l e] fs IH]; intros B HB; cbn [fields].
      - apply back_ret. exists []. split; [constructor|]. intros gs F. now inversion F.
      - cbn [forallb] in Tf. cbn [apart] in Ap. apply andb_true_iff in Ap as [Ap1 Ap2]. spl. inversion H as [|? ? [He _] Hfs]; subst. inversion HB as [|? ? HB1 HB2]; subst. cbn [snd] in *.
        eapply back_bind; [apply He; assumption|intros v]. eapply back_bind; [apply (IH Hfs ltac:(assumption) ltac:(assumption) ((l, v) :: B))|intros us].
        { rewrite Forall_forall in *. rewrite forallb_forall in *. intros [k f] Hf x [<-|Hx]; [|exact (HB2 _ Hf x Hx)].
          specialize (Ap1 _ Hf). cbn [fst snd] in *. now apply negb_true_iff. }
        apply back_ret. intros (Ts & F1 & F2) HT. exists ((l, s v) :: Ts). split.
        + constructor; [|exact F1]. split; [reflexivity|]. cbn [snd]. rewrite sc_app in HT. eapply (proj1 (types_agree e)); [|exact HT].
          intros x U. rewrite assoc_app. destruct (assoc x (sc B)) eqn:Ex; [|reflexivity]. exfalso.
          assert (X : In x (map fst B)).
          { clear - Ex. unfold sc in Ex. induction B as [|[y w] B IH]; [discriminate Ex|]. cbn in *. destruct (N.eqb_spec x y); [auto|]. right. auto. }
          rewrite (HB1 x X) in U. discriminate U.
        + intros gs F. inversion F as [|? [k g] ? gs' [E1 E2] F']; subst. cbn in E1, E2. subst. f_equal. auto. }
    apply (K []). apply Forall_forall. intros f _ x [].
  - (* sequence *) bk. bk. eapply back_bind with (Q := fun _ => Forall (fun e => types (sc G) e (s a0)) es); [|intros _; bk; fin; constructor; assumption].
    clear a. induction es as [|e es IH]; cbn [elems]; [apply back_ret; constructor|]. cbn [forallb] in Td. spl. inversion H as [|? ? [He _] Hes]; subst.
    eapply back_bind with (Q := fun _ => types (sc G) e (s a0)).
    + eapply back_bind; [apply He; assumption|intros v]. eapply back_imp; [|apply back_tell]. intros ? X HT. met. rewrite <- X. exact HT.
    + intros _. eapply back_imp; [|apply IH; assumption]. intros ? F1 F2. constructor; assumption.
  - (* numeric *) bk. eapply back_bind; [apply num_back|intros r]. bk. apply back_ret. intros K1 (p & K2 & K3 & _) _. met. rewrite K1, K2. constructor. exact K3.
  - (* match *) bk. eapply back_bind; [match goal with X : forall G, back (gen_expr ask G e) _ |- _ => apply X end|intros hv].
    eapply back_bind with (Q := fun _ => Forall (fun b => exists B, pat_type (fst b) (s hv) B /\ types (B ++ sc G) (snd b) (s a)) bs); [|intros _; fin; econstructor; eassumption].
    match goal with X : forallb _ bs = true |- _ => rename X into Tb end. clear - Hask H Tb. induction bs as [|[p e] bs IH]; cbn [cases]; [apply back_ret; constructor|]. cbn [forallb] in Tb. spl.
    inversion H as [|? ? [He _] Hbs]; subst. cbn [fst snd] in *.
    eapply back_bind with (Q := fun _ => exists B, pat_type p (s hv) B /\ types (B ++ sc G) e (s a)).
    + eapply back_bind; [apply pat_back|intros pv]. eapply back_bind; [apply He; assumption|intros v]. bk. eapply back_imp; [|apply back_tell]. intros ? X1 X2 X3 X4. met.
      exists (sc (snd pv)). rewrite X2, X1. rewrite sc_app in X3. auto.
    + intros _. eapply back_imp; [|apply IH; assumption]. intros ? F1 F2. constructor; assumption.
  - (* destructure *) bk. eapply back_bind; [match goal with X : forall G, back (gen_expr ask G e1) _ |- _ => apply X end|intros hv]. eapply back_bind; [apply pat_back|intros pv].
    eapply back_bind; [match goal with X : forall G, back (gen_expr ask G e2) _ |- _ => apply X end|intros r]. bk. bk. apply back_ret. intros X1 X2 X3 X4 X5 _. met. rewrite X1. rewrite sc_app in X3. rewrite <- X2 in X4.
    econstructor; eassumption.
  - (* rel *) unfold GU in *. repeat match goal with X : GInt _ = GInt _ |- _ => injection X as X end. subst. econstructor; eassumption.
  - (* arith *) assert (A : forall T, is_logic op = false -> (exists w, T = GU w) -> types (sc G) e1 T -> types (sc G) e2 T -> types (sc G) (EArith op e1 e2) T) by (intros T L (w & ->); apply TyArith; exact L).
    destruct op; be; fin; try (apply TyLogic; [reflexivity|assumption|assumption]);
      (unfold GU in *; repeat match goal with X : GInt _ = GInt _ |- _ => injection X as X end; subst; apply A; [reflexivity|eexists; reflexivity|assumption|assumption]).
  - (* unary *) destruct op; be; fin; try (apply TyNot; assumption); (apply TyStep; [discriminate|assumption]).
  - (* bytes *) match goal with X : meets s (RTypes _ _) |- _ => destruct X as (g & X1 & X2) end. cbn [fits] in X1. apply fits_tuple in X2 as (gs & -> & F). apply TyBytes.
    replace (repeat (GU B8) (N.to_nat (nbits w / 8))) with gs; [rewrite <- X1 in *; assumption|].
    replace (N.to_nat (nbits w / 8)) with (bw_len w) by (destruct w; reflexivity). generalize dependent (bw_len w). intros n F. clear X1. revert gs F. clear.
    induction n as [|n IH]; intros gs F; inversion F; subst; [reflexivity|]. cbn. f_equal; [assumption|]. apply IH. assumption.
Qed.

(** ** Formats *)

Lemma lamb_of e : tidy e = true -> forall G, back (gen_lam ask G e) (fun io => exists x b, e = ELambda x b /\ types ((x, s (fst io)) :: sc G) b (s (snd io))).
Proof. intros T. apply lam_back; [apply expr_back|exact T]. Qed.
Lemma exb_of e : tidy e = true -> forall G, back (gen_expr ask G e) (fun v => types (sc G) e (s v)).
Proof. apply expr_back. Qed.
Lemma view_back c v : tidy_view v = true -> back (gen_view ask c v) (fun _ => True).
Proof.
  induction v as [x|v IH e]; cbn [tidy_view gen_view]; intros T.
  - destruct (existsb (N.eqb x) (cviews c)); [apply back_ret; exact I|apply back_fail].
  - apply andb_true_iff in T as [T1 T2]. eapply back_bind; [apply IH, T1|intros ?]. eapply back_bind; [apply exb_of, T2|intros o]. eapply back_imp; [|apply back_tell]. auto.
Qed.
Lemma views_back c xs : forall vs, forallb tidy_view vs = true -> back (gen_views ask c xs vs) (fun _ => True).
Proof.
  induction xs as [|x xs IH]; intros [|v vs] T; cbn [gen_views]; try (apply back_ret; exact I). cbn in T. apply andb_true_iff in T as [T1 T2].
  eapply back_bind; [apply view_back, T1|intros ?]. eapply back_bind; [apply IH, T2|intros r]. apply back_ret. auto.
Qed.
Lemma dyn_back c d : match d with DHuffman a None => tidy a | DHuffman a (Some b) => tidy a && tidy b end = true -> back (gen_dyn ask c d) (fun v => exists w, s v = GU w).
Proof.
  destruct d as [codes values]. intros T. cbn [gen_dyn]. bk.
  assert (LL : forall e, tidy e = true -> back (let* s0 := gen_expr ask (cvals c) e in let* x := fresh in tell (RElem s0 x);;; tell (RBaseset x (BU U_SHORT8))) (fun _ => True)).
  { intros e Te. eapply back_bind; [apply exb_of, Te|intros v]. bk. bk. eapply back_imp; [|apply back_tell]. auto. }
  eapply back_bind with (Q := fun _ => True); [apply LL; destruct values; [apply andb_true_iff in T; apply T|exact T]|intros ?].
  eapply back_bind with (Q := fun _ => True); [destruct values; [apply LL; apply andb_true_iff in T; apply T|apply back_ret; exact I]|intros ?]. bk. apply back_ret. intros X _ _ _. met. eauto.
Qed.
(** The arguments of a call: each has its declared type, and the names are bound to
    values of those types. *)
Lemma args_back G : forall names tys es, forallb tidy es = true -> forallb ground tys = true -> length es = length names -> length es = length tys ->
  back (gen_args ask G (combine names tys) es) (fun b => Forall2 (fun e t => exists U, types (sc G) e U /\ vt U = t) es tys
    /\ map fst b = rev names /\ Forall2 (fun v t => vt (s v) = t) (map snd b) (rev tys)).
Proof.
  induction names as [|x names IH]; intros [|t tys] [|e es] T Gd L1 L2; try discriminate L1; try discriminate L2; cbn [combine gen_args].
  - apply back_ret. repeat split; constructor.
  - cbn in T, Gd, L1, L2. apply andb_true_iff in T as [T1 T2]. apply andb_true_iff in Gd as [G1 G2]. injection L1 as L1. injection L2 as L2.
    eapply back_bind; [apply exb_of, T1|intros v]. eapply back_bind; [apply declare_ground, G1|intros ?]. eapply back_bind; [apply (IH tys es T2 G2 L1 L2)|intros r]. apply back_ret.
    intros (F1 & F2 & F3) Ev Te. rewrite !map_app. cbn [map fst snd rev]. split; [constructor; eauto|]. split; [now rewrite F2|]. apply Forall2_app; [exact F3|]. constructor; [exact Ev|constructor].
Qed.
Lemma args_look it tys b G : map fst b = rev (it_args it) -> Forall2 (fun v t => vt (s v) = t) (map snd b) (rev tys) -> length (it_args it) = length tys -> args_in it tys (sc (b ++ G)).
Proof.
  intros E F L x t Hx.
  assert (R : rev (combine (it_args it) tys) = combine (rev (it_args it)) (rev tys)).
  { clear -L. revert tys L. induction (it_args it) as [|y l IH]; intros [|u tys] L; try discriminate L; [reflexivity|]. injection L as L. cbn. rewrite (IH _ L).
    assert (X : length (rev l) = length (rev tys)) by now rewrite !rev_length. revert X. generalize (rev l), (rev tys). clear. induction l as [|a l IH]; intros [|b r] X; try discriminate X; [reflexivity|]. cbn. f_equal. apply IH. now injection X. }
  rewrite R, <- E in Hx. clear R E L. rewrite sc_app, assoc_app. revert Hx F. generalize (rev tys). induction b as [|[y v] b IH]; intros ts Hx F; [discriminate Hx|].
  destruct ts as [|u ts]; [discriminate Hx|]. inversion F; subst. cbn in Hx |- *. destruct (N.eqb x y); [injection Hx as <-; eauto|]. apply (IH ts); assumption.
Qed.

Section Level.
Context (level : nat -> ctx -> gm nat).
Context (Hlev : forall k c it tys, nth_error ds k = Some (it, tys) -> forall g v g1, level k c g = Some (v, g1) -> ok g1 ->
  ok g /\ (args_in it tys (sc (cvals c)) -> (forall e, In e (lvls g1) -> In e (lvls g) \/ entry e) /\ LF k (s v))).
Context (Hgd : forall k it tys, nth_error ds k = Some (it, tys) -> forallb ground tys = true).
Notation tidyf := (everywhere (fun g => tidy_node ds g = true)).
Definition fb (F : format) : Prop := tidyf F -> forall c, back (gen_format ask ds level c F) (fun v => ftype ds LF (sc (cvals c)) (sc (cdyns c)) F (s v)).
Lemma tidy_sub f g : tidyf f -> incl (subs g) (subs f) -> tidyf g.
Proof. intros H I h Hh. apply H, I, Hh. Qed.
Ltac tsub := match goal with H : tidyf ?f |- tidyf ?g => apply (tidy_sub _ _ H); intros ? ?; cbn [subs]; right; auto using in_or_app end.
Ltac nodes := match goal with H : tidyf _ |- _ => let Y := fresh "Tn" in pose proof (everywhere_self _ _ H) as Y; cbn [tidy_node] in Y; repeat match goal with X : _ && _ = true |- _ => apply andb_true_iff in X; destruct X end end.
Ltac bf := repeat first [bk | eapply back_bind; [first [
    match goal with H : fb ?e |- back (gen_format ask ds level _ ?e) _ => apply H; tsub end
  | match goal with |- back (gen_expr ask _ ?e) _ => apply exb_of; assumption end
  | match goal with |- back (gen_lam ask _ ?e) _ => apply lamb_of; assumption end
  | match goal with |- back (gen_view ask _ ?e) _ => apply view_back; assumption end
  | match goal with |- back (gen_dyn ask _ ?e) _ => apply dyn_back; assumption end
  | apply declare_back; assumption]|intros ?]].
Lemma back_some {A B} (x : A) (k : A -> gm B) R : back (k x) R -> back (gbind (glift (Some x)) k) R.
Proof. intros H. exact H. Qed.
Lemma union_back c v fs : Forall tidyf fs -> Forall (fun f => fb f /\ forall l g, f = FVariant l g -> fb g) fs ->
  Forall (fun b => back (match b with
    | FVariant l f => let* i := gen_format ask ds level c f in tell (RVariant v l (UVar i))
    | _ => let* i := gen_format ask ds level c b in tell (RType v (UVar i)) end) (fun _ => ftype ds LF (sc (cvals c)) (sc (cdyns c)) b (s v))) fs.
Proof.
  intros T H. rewrite Forall_forall in *. intros f Hf. destruct (H f Hf) as [H1 H2]. specialize (T f Hf).
  assert (K : back (let* i := gen_format ask ds level c f in tell (RType v (UVar i))) (fun _ => ftype ds LF (sc (cvals c)) (sc (cdyns c)) f (s v))).
  { eapply back_bind; [apply H1, T|intros i]. eapply back_imp; [|apply back_tell]. intros ? X Y. cbv beta in X. met. rewrite <- X. exact Y. }
  destruct f; try exact K. eapply back_bind; [apply (H2 _ _ eq_refl); tsub|intros i]. eapply back_imp; [|apply back_tell]. intros ? X Y. cbv beta in X. met. eqs. econstructor; eassumption.
Qed.
Lemma format_back F : fb F /\ forall l f, F = FVariant l f -> fb f.
Proof.
  induction F using CompileProofs.format_ind'; (split; [intros Td c0|intros l0 b0 E0; try discriminate; injection E0 as <- <-; tauto]);
    repeat match goal with H : fb _ /\ _ |- _ => destruct H as [H _] end; nodes; cbn [gen_format].
  all: try (bf; fin; first [econstructor; eauto; fail | idtac]).
  - (* call *) bk. destruct (nth_error ds l) as [[it tys]|] eqn:En; [|discriminate]. match goal with X : _ && _ = true |- _ => apply andb_true_iff in X as [L1 L2] end. apply Nat.eqb_eq in L1, L2.
    apply back_some. cbn [fst snd]. pose proof (Hgd _ _ _ En) as Gt.
    set (P := fun lv => Forall2 (fun e t => exists U, types (sc (cvals c0)) e U /\ vt U = t) a tys /\ LF l (s lv)).
    eapply back_bind with (Q := P).
    2: { intros lv. bk. apply back_ret. intros X1 [X2 X3] _. met. rewrite X1. econstructor; eassumption. }
    assert (K : back (let* b := gen_args ask (cvals c0) (combine (it_args it) tys) a in let* w := gen_views ask c0 (it_views it) v in level l (with_views w (with_vals b c0))) P).
    { intros g lv g1 E Hk. unfold gbind in E. destruct (gen_args ask (cvals c0) (combine (it_args it) tys) a g) as [[b g2]|] eqn:Eb; [|discriminate E].
      destruct (gen_views ask c0 (it_views it) v g2) as [[w g3]|] eqn:Ew; [|discriminate E].
      destruct (Hlev _ _ _ _ En _ _ _ E Hk) as [Ok3 R]. destruct (views_back c0 (it_views it) v ltac:(assumption) _ _ _ Ew Ok3) as (Ok2 & I2 & _).
      destruct (args_back (cvals c0) (it_args it) tys a ltac:(assumption) Gt L1 L2 _ _ _ Eb Ok2) as (Ok1 & I1 & F1 & F2 & F3).
      destruct R as [I3 Lv]; [apply args_look; [exact F2|exact F3|congruence]|]. split; [exact Ok1|]. split; [|split; assumption].
      intros e He. destruct (I3 e He) as [X|X]; [|auto]. destruct (I2 e X) as [Y|Y]; [|auto]. exact (I1 e Y). }
    destruct a as [|e es]; [destruct v as [|w vs]; [|exact K]|exact K]. destruct (it_args it) as [|] eqn:Ea; [|discriminate L1]. destruct tys; [|discriminate L2].
    intros g lv g1 E Hk. destruct (Hlev _ _ _ _ En _ _ _ E Hk) as [Ok3 R]. destruct R as [I3 Lv]; [intros x t Hx; rewrite Ea in Hx; discriminate Hx|]. split; [exact Ok3|]. split; [exact I3|]. split; [constructor|exact Lv].
  - discriminate.
  - destruct (ByteSetModel.is_empty b); [discriminate|]. met. match goal with X : s a = _ |- _ => rewrite X end. constructor.
  - bk. eapply back_bind; [apply (back_iter _ (fun f => ftype ds LF (sc (cvals c0)) (sc (cdyns c0)) f (s a)))|intros ?; apply back_ret; intros; now constructor].
    apply union_back; [apply everywhere_list; intros g Hg; apply Td; now right|assumption].
  - bk. eapply back_bind; [apply (back_iter _ (fun f => ftype ds LF (sc (cvals c0)) (sc (cdyns c0)) f (s a)))|intros ?; apply back_ret; intros; now constructor].
    apply union_back; [apply everywhere_list; intros g Hg; apply Td; now right|assumption].
  - bk. eapply back_bind; [apply (back_map _ (fun f v => ftype ds LF (sc (cvals c0)) (sc (cdyns c0)) f (s v)))|intros vs].
    { assert (Tf : Forall tidyf fs) by (apply everywhere_list; intros g Hg; apply Td; now right). rewrite Forall_forall in *. intros f Hf. apply (H f Hf). auto. }
    bk. fin. constructor. match goal with X : Forall2 _ fs vs |- _ => clear -X; induction X; cbn; constructor; assumption end.
  - bk. bk. eapply back_bind; [apply (back_iter _ (fun f => ftype ds LF (sc (cvals c0)) (sc (cdyns c0)) f (s a0)))|intros ?].
    { assert (Tf : Forall tidyf fs) by (apply everywhere_list; intros g Hg; apply Td; now right). rewrite Forall_forall in *. intros f Hf.
      eapply back_bind; [apply (H f Hf); auto|intros i]. eapply back_imp; [|apply back_tell]. intros ? X Y. cbv beta in X. met. rewrite X. exact Y. }
    bk. fin. constructor. assumption.
  - subst. econstructor; eassumption.
  - bk. eapply back_bind; [apply exb_of; assumption|intros hv].
    eapply back_bind with (Q := fun _ => Forall (fun b => exists B, pat_type (fst b) (s hv) B /\ ftype ds LF (B ++ sc (cvals c0)) (sc (cdyns c0)) (snd b) (s a)) bs); [|intros ?; apply back_ret; intros X1 X2 _; econstructor; eassumption].
    assert (Tf : Forall (fun b => tidyf (snd b)) bs) by (apply everywhere_branches; intros g Hg; apply Td; now right).
    clear - Hask H Tf. induction bs as [|[p e] bs IH]; cbn [fcases]; [apply back_ret; constructor|]. inversion H as [|? ? [He _] Hbs]; subst. inversion Tf as [|? ? Te Tbs]; subst. cbn [fst snd] in *.
    eapply back_bind with (Q := fun _ => exists B, pat_type p (s hv) B /\ ftype ds LF (B ++ sc (cvals c0)) (sc (cdyns c0)) e (s a)).
    + eapply back_bind; [apply pat_back|intros pv]. eapply back_bind; [apply He; assumption|intros v]. bk. eapply back_imp; [|apply back_tell]. intros ? X1 X2 X3 X4. met. cbn [with_vals cvals cdyns] in X3.
      exists (sc (snd pv)). rewrite X2, X1. rewrite sc_app in X3. auto.
    + intros ?. eapply back_imp; [|apply IH; assumption]. intros ? F1 F2. constructor; assumption.
  - match goal with X : exists w, _ |- _ => destruct X as (w & Ew) end. cbn [with_dyn cvals cdyns sc map fst snd] in *. rewrite Ew in *. econstructor. eassumption.
  - subst. econstructor; eassumption.
  - bk. eapply back_bind; [apply view_back; destruct vf; try (apply andb_true_iff in Tn; apply Tn); exact Tn|intros ?].
    eapply back_bind with (Q := fun i => ftype ds LF (sc (cvals c0)) (sc (cdyns c0)) (FWithView v vf) (s i)); [|intros i; bk; apply back_ret; intros X1 X2 _ _; met; now rewrite X1].
    destruct vf; cbn [gen_vf]; try (apply andb_true_iff in Tn as [_ Tn]); bf; fin; subst; try (econstructor; eassumption).
Qed.
End Level.

(** ** Levels *)

Context (Hgd : forall k it tys, nth_error ds k = Some (it, tys) -> forallb ground tys = true).
Context (Htd : forall k it tys, nth_error ds k = Some (it, tys) -> everywhere (fun g => tidy_node ds g = true) (it_format it)).
Lemma nget_in k l v : nget k l = Some v -> In (k, v) l.
Proof. induction l as [|[j w] l IH]; cbn; [discriminate|]. destruct (Nat.eqb_spec k j); [intros [= ->]; subst; auto|auto]. Qed.
Lemma level_back n : forall k c it tys, nth_error ds k = Some (it, tys) -> forall g v g1, gen_level ask ds n k c g = Some (v, g1) -> ok g1 ->
  ok g /\ (args_in it tys (sc (cvals c)) -> (forall e, In e (lvls g1) -> In e (lvls g) \/ entry e) /\ LF k (s v)).
Proof.
  induction n as [|n IH]; intros k c it tys En g v g1 E Hk; cbn [gen_level] in E; destruct (nget k (lvls g)) as [w|] eqn:Ew; try discriminate E.
  1,2: injection E as <- <-; split; [exact Hk|]; intros _; split; [auto|]; exists w; split; [|reflexivity]; apply Hk, nget_in, Ew.
  rewrite En in E. cbn [fst] in E. destruct (gen_format ask ds (gen_level ask ds n) c (it_format it) g) as [[w g2]|] eqn:Eg; [|discriminate E]. injection E as <- <-.
  destruct Hk as (K1 & K2 & K3). cbn [lvls reqs] in *.
  destruct (proj1 (format_back _ IH Hgd (it_format it)) (Htd _ _ _ En) c g w g2 Eg) as (Ok1 & I1 & HT).
  { split; [exact K1|]. split; [exact K2|]. intros e He. apply K3. now right. }
  split; [exact Ok1|]. intros Ha. split.
  - intros e [<-|He]; [right; exists it, tys, (sc (cvals c)), (sc (cdyns c)); auto|auto].
  - exists w. split; [apply K3; now left|reflexivity].
Qed.
End Rules.

Definition LV (s : assignment) (l : list (nat * nat)) (k : nat) (T : gtype) : Prop := exists v, In (k, v) l /\ T = s v.
Lemma infer_rules s ask ds depth f v g :
  (forall rs v p, Forall (meets s) rs -> proper_history 0 (rev rs) -> ask rs v = Some (Concrete p) -> s v = GInt p) ->
  (forall k it tys, nth_error ds k = Some (it, tys) -> forallb ground tys = true /\ everywhere (fun g => tidy_node ds g = true) (it_format it)) ->
  everywhere (fun g => tidy_node ds g = true) f ->
  gen_format ask ds (gen_level ask ds depth) (Ctx [] [] []) f (GS 0 [] []) = Some (v, g) ->
  Forall (meets s) (reqs g) -> proper_history 0 (rev (reqs g)) ->
  ftype ds (LV s (lvls g)) [] [] f (s v) /\ module_types ds (LV s (lvls g)).
Proof.
  intros Ha Hd Hf E Hm Hp.
  assert (Hgd : forall k it tys, nth_error ds k = Some (it, tys) -> forallb ground tys = true) by (intros; eapply Hd; eassumption).
  assert (Htd : forall k it tys, nth_error ds k = Some (it, tys) -> everywhere (fun g => tidy_node ds g = true) (it_format it)) by (intros; eapply Hd; eassumption).
  destruct (proj1 (format_back s ask ds (lvls g) Ha _ (level_back s ask ds (lvls g) Ha Hgd Htd depth) Hgd f) Hf (Ctx [] [] []) _ _ _ E) as (_ & I & HT).
  { split; [exact Hm|]. split; [exact Hp|]. intros e He. exact He. }
  split; [exact HT|]. intros k T (w & Hw & ->). destruct (I _ Hw) as [[]|(it & tys & G & D & E1 & E2 & E3)]. exists it, tys, G, D. auto.
Qed.
