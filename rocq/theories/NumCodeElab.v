(** The types inferred for a numeric expression make a tree that follows the
    representations of the expression. *)
From Verif Require Import Base BoundsModel DataModel NumericModel TypeModel BaseSetModel UnifyModel UnifySpec ReifyModel ValueModel FormatModel InferModel InferSpec InferProofs.
From Verif Require Import NumCodeModel NumCodeSpec.
From Verif Require BaseSetProofs BaseSetProps NumCodeProofs.
Open Scope nat_scope.

(** The integer types of an assignment, and of the variables in scope *)
Definition int_of (g : gtype) : option mrep := match g with GInt p => Some p | _ => None end.
Definition ty_of (s : assignment) (v : nat) : option mrep := int_of (s v).
Definition vt_of (s : assignment) (G : uscope) (x : label) : option mrep := match ulook x G with Some v => int_of (s v) | None => None end.
Definition vr_of (s : assignment) (G : uscope) (x : label) : numrep := match vt_of s G x with Some p => Concrete p | None => Auto end.

Section Track.
Context (s : assignment) (ask : list request -> nat -> option numrep).
Context (Hask : forall rs v p, Forall (meets s) rs -> proper_history 0 (rev rs) -> ask rs v = Some (Concrete p) -> s v = GInt p).

Definition good (g : gst) : Prop := Forall (meets s) (reqs g) /\ proper_history 0 (rev (reqs g)).
Definition track {A} (m : gm A) (Q : nat -> A -> nat -> Prop) : Prop :=
  forall g a g1, m g = Some (a, g1) -> good g1 -> good g /\ Q (nv g) a (nv g1).
Lemma track_bind {A B} (m : gm A) (k : A -> gm B) (Q : nat -> A -> nat -> Prop) (R : nat -> B -> nat -> Prop) :
  track m Q -> (forall a, track (k a) (fun n1 b n2 => forall n, Q n a n1 -> R n b n2)) -> track (gbind m k) R.
Proof.
  intros H K g b g1 E Hk. unfold gbind in E. destruct (m g) as [[a g2]|] eqn:Em; [|discriminate E].
  destruct (K a _ _ _ E Hk) as (Ok2 & R2). destruct (H _ _ _ Em Ok2) as (Ok1 & Qa). auto.
Qed.
Lemma track_ret {A} (a : A) (Q : nat -> A -> nat -> Prop) : (forall n, Q n a n) -> track (gret a) Q.
Proof. intros H g b g1 [= <- <-] Hk. auto. Qed.
Lemma track_fail {A} (Q : nat -> A -> nat -> Prop) : track gfail Q.
Proof. intros g b g1 E. discriminate E. Qed.
Lemma track_tell r : track (tell r) (fun n _ n1 => n1 = n /\ meets s r).
Proof. intros g a g1 [= <- <-] (H1 & H2). cbn in *. inversion H1; subst. split; [|auto]. split; [assumption|]. eapply history_init, H2. Qed.
Lemma track_fresh : track fresh (fun n v n1 => v = n /\ n1 = S n).
Proof. intros g a g1 [= <- <-] (H1 & H2). cbn in *. inversion H1; subst. split; [|auto]. split; [assumption|]. eapply history_init, H2. Qed.
Lemma track_lift {A} (o : option A) : track (glift o) (fun n a n1 => n1 = n /\ o = Some a).
Proof. destruct o; [apply track_ret; auto|apply track_fail]. Qed.
Lemma track_lift_o {A} (o : outcome A) : track (glift_o o) (fun n a n1 => n1 = n /\ o = Val a).
Proof. destruct o; [apply track_ret; auto|apply track_fail]. Qed.
Lemma track_init t : track (init_var t) (fun n v n1 => v = n /\ n1 = S n /\ fits s t (s v)).
Proof.
  unfold init_var. eapply track_bind; [apply track_fresh|intros v]. eapply track_bind; [apply track_tell|intros []]. apply track_ret. intros n m (-> & H) k (-> & ->). auto.
Qed.
Lemma track_fresh_num : track fresh_num (fun n v n1 => v = n /\ n1 = S n /\ exists p, s v = GInt p).
Proof.
  unfold fresh_num. eapply track_bind; [apply track_fresh|intros v]. eapply track_bind; [apply track_tell|intros []]. apply track_ret. intros n m (-> & (p & _ & H)) k (-> & ->). eauto.
Qed.
Ltac tk := eapply track_bind; [first [apply track_tell | apply track_init | apply track_fresh_num | apply track_lift | apply track_lift_o]|intros ?].

(** What inference makes of a numeric expression: its tree, whose own type is that of
    the variable; a representation that is known to inference is that of the tree. *)
Definition made (G : uscope) (e : nexpr) (n : nat) (r : nat * numrep) (n1 : nat) : Prop :=
  fst r = n /\ exists t rep, elab_tree (ty_of s) e n = Some (t, n1) /\ s n = GInt (ntype t) /\ well_signed (vt_of s G) t /\ Follows (vr_of s G) t rep /\
  (forall q, snd r = Concrete q -> rep = Concrete q /\ q = ntype t).
Lemma made_track e : forall G, track (gen_num ask G e) (made G e).
Proof.
  induction e as [[z r0]|op out a IHa b IHb|op out a IHa|r cs a IHa|x]; intros G; cbn [gen_num tc_rep].
  - destruct r0 as [|p].
    + tk. tk. tk. apply track_ret. intros n ? (-> & _) ? (-> & _) ? (-> & -> & (p & Hp)). split; [reflexivity|]. cbn [elab_tree]. unfold ty_of. rewrite Hp. cbn [int_of].
      do 2 eexists. split; [reflexivity|]. split; [reflexivity|]. split; [exact I|]. split; [constructor; auto|discriminate].
    + tk. apply track_ret. intros n ? (-> & -> & H). cbn [fits] in H. split; [reflexivity|]. cbn [elab_tree]. unfold ty_of. rewrite H. cbn [int_of].
      do 2 eexists. split; [reflexivity|]. split; [reflexivity|]. split; [exact I|]. split; [constructor; auto|]. cbn. intros q [= <-]. auto.
  - tk. eapply track_bind; [apply IHa|intros l]. eapply track_bind; [apply IHb|intros r].
    eapply track_bind with (Q := fun n rep n1 => n1 = n /\ forall p ta tb ra rb, s a0 = GInt p -> s (fst l) = GInt (ntype ta) -> s (fst r) = GInt (ntype tb) -> Follows (vr_of s G) ta ra -> Follows (vr_of s G) tb rb ->
      (forall q, snd l = Concrete q -> ra = Concrete q /\ q = ntype ta) -> (forall q, snd r = Concrete q -> rb = Concrete q /\ q = ntype tb) ->
      exists rp, Follows (vr_of s G) (TBin p (ntype ta, ntype tb, p) op out ta tb) rp /\ (forall q, rep = Concrete q -> rp = Concrete q /\ q = p)).
    2:{ intros rep. apply track_ret. intros n m (-> & H) n2 (Er & tb & rb & Eb & Sb & Wb & Fb & Cb) n3 (El & ta & ra & Ea & Sa & Wa & Fa & Ca) n4 (-> & -> & (p & Hp)).
        rewrite El, Er in H. destruct (H p ta tb ra rb Hp Sa Sb Fa Fb Ca Cb) as (rp & F & C).
        split; [reflexivity|]. cbn [elab_tree]. rewrite Ea, Eb. unfold ty_of. rewrite Hp. cbn [int_of]. do 2 eexists. split; [reflexivity|]. split; [reflexivity|]. split; [cbn; auto|]. split; [exact F|exact C]. }
    unfold gen_bin, tell_rep.
    assert (AS : forall p ta tb ra rb, Follows (vr_of s G) ta ra -> Follows (vr_of s G) tb rb -> 
      exists rp, Follows (vr_of s G) (TBin p (ntype ta, ntype tb, p) op (Some p) ta tb) rp /\ (forall q, Concrete p = Concrete q -> rp = Concrete q /\ q = p)).
    { intros p ta tb ra rb F1 F2. eexists. split; [eapply f_bin_to; eassumption|]. intros q [= <-]. auto. }
    destruct (snd l) as [|p0] eqn:El, (snd r) as [|p1] eqn:Er; [| | |destruct (mrep_eqb p0 p1) eqn:Em].
    + destruct out as [p|]; repeat tk; apply track_ret.
      * intros n ? (-> & H1) ? (-> & _) ? (-> & _). split; [reflexivity|]. intros q ta tb ra rb Hq Ha Hb Fa Fb Ca Cb. cbn in H1. rewrite H1 in Hq. injection Hq as <-. eauto.
      * intros n ? (-> & H1) ? (-> & H2). split; [reflexivity|]. intros q ta tb ra rb Hq Ha Hb Fa Fb Ca Cb. cbn in H1, H2. eexists. split; [eapply f_bin; [eassumption|eassumption|congruence|congruence]|discriminate].
    + destruct out as [p|]; repeat tk; apply track_ret.
      * intros n ? (-> & H1) ? (-> & H2). split; [reflexivity|]. intros q ta tb ra rb Hq Ha Hb Fa Fb Ca Cb. cbn in H2. rewrite H2 in Hq. injection Hq as <-. eauto.
      * intros n ? (-> & H1) ? (-> & H2). split; [reflexivity|]. intros q ta tb ra rb Hq Ha Hb Fa Fb Ca Cb. cbn in H1, H2. destruct (Cb _ eq_refl) as [-> ->].
        rewrite H2 in Hq. injection Hq as <-. rewrite H1 in Ha. injection Ha as Ha.
        eexists. split; [eapply f_bin; [eassumption|eassumption|congruence|congruence]|]. intros q [= <-]. split; [|reflexivity].
        destruct (NumCodeProofs.follows_rep _ _ _ Fa) as [-> | ->]; congruence.
    + destruct out as [p|]; repeat tk; apply track_ret.
      * intros n ? (-> & H1) ? (-> & H2). split; [reflexivity|]. intros q ta tb ra rb Hq Ha Hb Fa Fb Ca Cb. cbn in H2. rewrite H2 in Hq. injection Hq as <-. eauto.
      * intros n ? (-> & H1) ? (-> & H2). split; [reflexivity|]. intros q ta tb ra rb Hq Ha Hb Fa Fb Ca Cb. cbn in H1, H2. destruct (Ca _ eq_refl) as [-> ->].
        rewrite H2 in Hq. injection Hq as <-. rewrite H1 in Hb. injection Hb as Hb.
        eexists. split; [eapply f_bin; [eassumption|eassumption|congruence|congruence]|]. intros q [= <-]. auto.
    + apply BaseSetProofs.mrep_eqb_eq in Em. subst p1. destruct out as [p|]; repeat tk; apply track_ret.
      * intros n ? (-> & H2). split; [reflexivity|]. intros q ta tb ra rb Hq Ha Hb Fa Fb Ca Cb. cbn in H2. rewrite H2 in Hq. injection Hq as <-. eauto.
      * intros n ? (-> & H2). split; [reflexivity|]. intros q ta tb ra rb Hq Ha Hb Fa Fb Ca Cb. cbn in H2. destruct (Ca _ eq_refl) as [-> ->]. destruct (Cb _ eq_refl) as [-> E2].
        rewrite H2 in Hq. injection Hq as <-.
        eexists. split; [eapply f_bin; [eassumption|eassumption|congruence|congruence]|]. intros q [= <-]. auto.
    + destruct out as [p|]; [|apply track_fail]. repeat tk; apply track_ret.
      intros n ? (-> & H2). split; [reflexivity|]. intros q ta tb ra rb Hq Ha Hb Fa Fb Ca Cb. cbn in H2. rewrite H2 in Hq. injection Hq as <-. eauto.
  - tk. eapply track_bind; [apply IHa|intros i].
    eapply track_bind with (Q := fun n rep n1 => n1 = n /\ forall p ta ra, s a0 = GInt p -> s (fst i) = GInt (ntype ta) -> Follows (vr_of s G) ta ra ->
      (forall q, snd i = Concrete q -> ra = Concrete q /\ q = ntype ta) ->
      exists rp, Follows (vr_of s G) (TUn p (ntype ta, p) op out ta) rp /\ (forall q, rep = Concrete q -> rp = Concrete q /\ q = p)).
    2:{ intros rep. apply track_ret. intros n m (-> & H) n3 (El & ta & ra & Ea & Sa & Wa & Fa & Ca) n4 (-> & -> & (p & Hp)).
        rewrite El in H. destruct (H p ta ra Hp Sa Fa Ca) as (rp & F & C).
        split; [reflexivity|]. cbn [elab_tree]. rewrite Ea. unfold ty_of. rewrite Hp. cbn [int_of]. do 2 eexists. split; [reflexivity|]. split; [reflexivity|]. split; [cbn; auto|]. split; [exact F|exact C]. }
    unfold tell_rep. destruct (snd i) as [|p0] eqn:Ei.
    + tk. destruct out as [p|].
      * tk. apply track_ret. intros n ? (-> & H1) ? (-> & H2). split; [reflexivity|]. intros q ta ra Hq Ha Fa Ca. cbn in H1. rewrite H1 in Hq. injection Hq as <-.
        eexists. split; [eapply f_un_to; eassumption|]. intros q [= <-]. auto.
      * apply track_ret. intros n ? (-> & H1). split; [reflexivity|]. intros q ta ra Hq Ha Fa Ca. cbn in H1. eexists. split; [eapply f_un; [eassumption|congruence]|discriminate].
    + tk. apply track_ret. intros n ? (-> & H1). split; [reflexivity|]. intros q ta ra Hq Ha Fa Ca. cbn in H1. rewrite H1 in Hq. injection Hq as <-.
      destruct out as [p|].
      * eexists. split; [eapply f_un_to; eassumption|]. intros q [= <-]. auto.
      * destruct (Ca _ eq_refl) as [-> E]. eexists. split; [eapply f_un; [eassumption|congruence]|]. intros q [= <-]. auto.
  - tk. eapply track_bind; [apply IHa|intros i]. unfold tell_rep.
    eapply track_bind with (Q := fun n _ n1 => n1 = n /\ (snd i = Auto -> s (fst i) = GInt r)).
    { destruct (snd i).
      - intros g u g1 E Hk. destruct (track_tell _ _ _ _ E Hk) as (A & -> & B). split; [exact A|]. split; [reflexivity|]. intros _. exact B.
      - apply track_ret. intros n. split; [reflexivity|discriminate]. }
    intros ?. tk. apply track_ret. intros n ? (-> & H1) ? (-> & H2) n3 (El & ta & ra & Ea & Sa & Wa & Fa & Ca) n4 (-> & -> & _). cbn in H1. rewrite El in H2.
    split; [reflexivity|]. cbn [elab_tree]. rewrite Ea. unfold ty_of. rewrite H1. cbn [int_of]. do 2 eexists. split; [reflexivity|]. split; [reflexivity|]. split; [cbn; auto|]. split.
    + eapply f_cast; [eassumption|]. intros ->. destruct (snd i) as [|q]; [specialize (H2 eq_refl); congruence|]. destruct (Ca q eq_refl) as [X _]. discriminate X.
    + cbn. intros q [= <-]. auto.
  - tk. tk. tk. eapply track_bind with (Q := fun n rep n1 => n1 = n /\ forall q, rep = Concrete q -> s a = GInt q).
    + intros g rep g1 E Hk. destruct (ask (reqs g) a) as [rp|] eqn:Ea; [|discriminate E]. injection E as <- <-. split; [exact Hk|]. split; [auto|]. intros q ->. eapply Hask; [apply Hk|apply Hk|exact Ea].
    + intros rep. apply track_ret. intros n ? (-> & HR) ? (-> & H1) ? (-> & H2) ? (-> & -> & (p & H3)). cbn in H1. rewrite H3 in H1.
      assert (V : vt_of s G x = Some p) by (unfold vt_of; rewrite H2, <- H1; reflexivity).
      split; [reflexivity|]. cbn [elab_tree]. unfold ty_of. rewrite H3. cbn [int_of]. do 2 eexists. split; [reflexivity|]. split; [reflexivity|]. split; [exact V|].
      split; [constructor; unfold vr_of; rewrite V; reflexivity|]. cbn. intros q Hq. specialize (HR q Hq). split; congruence.
Qed.
End Track.
