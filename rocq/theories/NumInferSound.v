(** Inference allows exactly the right types; elaboration finds the only ones. *)
From Verif Require Import Base BoundsModel NumericModel ValueModel BaseSetModel BaseSetSpec BaseSetProofs UnifyModel UnifySpec UnifyAlias NumCodeModel NumInferModel NumInferSpec NumInferProofs.
Open Scope nat_scope.

(** ** Trees from assignments *)
Fixpoint nsize (e : nexpr) : nat :=
  match e with
  | NConst _ | NVar _ => 1
  | NBin _ _ a b => S (nsize a + nsize b)
  | NUn _ _ a | NCast _ _ a => S (nsize a)
  end.
Lemma nsize_pos e : 0 < nsize e. Proof. destruct e; cbn; lia. Qed.
Fixpoint build (r : nat -> mrep) (e : nexpr) (n : nat) : ntree :=
  match e with
  | NConst c => TConst (r n) c
  | NVar x => TVar (r n) x
  | NBin op out a b =>
    let ta := build r a (S n) in
    let tb := build r b (S n + nsize a) in
    TBin (r n) (ntype ta, ntype tb, r n) op out ta tb
  | NUn op out a => let ta := build r a (S n) in TUn (r n) (ntype ta, r n) op out ta
  | NCast out sem a => let ta := build r a (S n) in TCast (r n) (ntype ta, r n) out sem ta
  end.
Lemma ntype_build r e n : ntype (build r e n) = r n.
Proof. destruct e; reflexivity. Qed.
Lemma nerase_build r e : forall n, nerase (build r e n) = e.
Proof. induction e; intro n; cbn; rewrite ?IHe, ?IHe1, ?IHe2; reflexivity. Qed.
Definition rep_of (d : option mrep) : numrep := match d with Some r => Concrete r | None => Auto end.

Section Infer.
Variable ho : hash_order.

Lemma bind_rep {B} (Post : eres B -> Prop) st v t k : ewf st -> v < length (ecs st) ->
  (forall st', ewf st' -> length (ecs st') = length (ecs st) -> eal st' = eal st ->
     (forall r, sat st' r <-> sat st r /\ r v = t) -> Post (k tt st')) ->
  ((forall r, sat st r -> r v = t -> False) -> Post EErr) ->
  Post (ebind (constrain_rep v (Concrete t) st) k).
Proof.
  intros W L H1 H2. destruct (constrain_rep_spec st v t W L) as [S A].
  destruct (constrain_rep v (Concrete t) st) as [st' []| |]; cbn [ebind].
  - destruct S as [S1 [S2 S3]]. apply H1; auto.
  - apply H2. exact S.
  - destruct S.
Qed.
Lemma bind_unite {B} (Post : eres B -> Prop) st lo hi k : ewf st ->
  canonical (eal st) lo = Some lo -> canonical (eal st) hi = Some hi -> lo < hi ->
  (forall st', ewf st' -> length (ecs st') = length (ecs st) ->
     (forall x, canonical (eal st') x = match canonical (eal st) x with Some c => if c =? hi then Some lo else Some c | None => None end) ->
     (forall r, sat st' r <-> sat st r /\ r lo = r hi) -> Post (k tt st')) ->
  ((forall r, sat st r -> r lo = r hi -> False) -> Post EErr) ->
  Post (ebind (unite ho lo hi st) k).
Proof.
  intros W L H N H1 H2. destruct (unite_spec ho st lo hi W L H N) as [S A].
  destruct (unite ho lo hi st) as [st' []| |]; cbn [ebind].
  - destruct S as [S1 [S2 S3]]. apply H1; auto.
  - apply H2. exact S.
  - destruct S.
Qed.

Definition inferred (e : nexpr) (st : engine) (res : eres (nat * numrep)) : Prop :=
  match res with
  | EOk st' (v, rep) =>
    v = length (ecs st) /\ rep = rep_of (declared e) /\ ewf st' /\ length (ecs st') = length (ecs st) + nsize e /\
    canonical (eal st') (length (ecs st)) = Some (length (ecs st)) /\
    (forall x, x < length (ecs st) -> canonical (eal st') x = canonical (eal st) x) /\
    (forall r, sat st' r <-> sat st r /\ well_typed (build r e (length (ecs st))))
  | EErr => forall r, sat st r -> well_typed (build r e (length (ecs st))) -> False
  | EPanic => False
  end.

Lemma new_frame st x : ewf st -> x < length (ecs st) -> canonical (eal (new_nvar st)) x = canonical (eal st) x.
Proof.
  intros W L. cbn [new_nvar eal]. rewrite new_canon. rewrite (e_len _ W) in L.
  destruct (Nat.eqb_spec x (length (als (eal st)))); [lia|reflexivity].
Qed.
Lemma new_self st : ewf st -> canonical (eal (new_nvar st)) (length (ecs st)) = Some (length (ecs st)).
Proof. intros W. cbn [new_nvar eal]. rewrite new_canon, (e_len _ W), Nat.eqb_refl. reflexivity. Qed.
Lemma new_len st : length (ecs (new_nvar st)) = S (length (ecs st)).
Proof. cbn. rewrite app_length. cbn. lia. Qed.

Lemma mark_some (m t : mrep) : (forall k, Some m = Some k -> t = k) <-> t = m.
Proof. split; [intro H; apply H; reflexivity|intros -> k E; congruence]. Qed.
Lemma mark_none (t : mrep) : (forall k, None = Some k -> t = k) <-> True.
Proof. split; [auto|discriminate]. Qed.
Lemma some_none (m : mrep) (P : Prop) : (Some m = None -> P) <-> True.
Proof. split; [auto|discriminate]. Qed.
Lemma none_none (P : Prop) : ((@None mrep) = None -> P) <-> P.
Proof. split; auto. Qed.

Ltac ic := rewrite ?mark_some, ?mark_none, ?some_none, ?none_none; intuition congruence.
Ltac wt := cbn [build well_typed declared rep_of]; unfold operand_ok; rewrite ?nerase_build, ?ntype_build.

Lemma infer_spec e : forall st, ewf st -> inferred e st (infer_num ho e st).
Proof.
  induction e as [c|op cast a IHa b IHb|op cast a IHa|out sem a IHa|x]; intros st W; cbn [infer_num].
  - (* constants *)
    pose proof (new_ewf _ W) as W1. pose proof (new_len st) as L1.
    destruct (tc_rep c) as [|t] eqn:R.
    + destruct (constrain_spec (new_nvar st) (length (ecs st)) (NEncomp (ZB (tc_val c) (tc_val c))) W1 ltac:(lia) (Z.le_refl _)) as [S A].
      destruct (constrain _ _ _) as [st' []| |]; cbn [ebind inferred].
      * destruct S as [S1 [S2 S3]]. cbn [same_aliases] in A. refine (conj eq_refl (conj _ (conj S1 (conj _ (conj _ (conj _ _)))))).
        -- cbn. rewrite R. reflexivity.
        -- cbn. lia.
        -- rewrite A. apply new_self; exact W.
        -- intros x Hx. rewrite A. apply new_frame; assumption.
        -- intro r. rewrite S3, new_sat by exact W. wt. rewrite R, holds_bounds. reflexivity.
      * intros r H. wt. rewrite R, holds_bounds. apply S. apply new_sat; assumption.
      * destruct S.
    + change (constrain (length (ecs st)) (NEquiv t) (new_nvar st)) with (constrain_rep (length (ecs st)) (Concrete t) (new_nvar st)).
      apply bind_rep; [exact W1|lia| |].
      * intros st' S1 S2 A S3. cbn [inferred]. refine (conj eq_refl (conj _ (conj S1 (conj _ (conj _ (conj _ _)))))).
        -- cbn. rewrite R. reflexivity.
        -- cbn. lia.
        -- rewrite A. apply new_self; exact W.
        -- intros x Hx. rewrite A. apply new_frame; assumption.
        -- intro r. rewrite S3, new_sat by exact W. wt. rewrite R. reflexivity.
      * intros S r H. wt. rewrite R. apply S. apply new_sat; assumption.
  - (* operations of two operands *)
    pose proof (new_ewf _ W) as W1. pose proof (new_len st) as L1. pose proof (new_self _ W) as V1.
    set (n := length (ecs st)) in *. pose proof (nsize_pos a) as PA.
    specialize (IHa _ W1).
    destruct (infer_num ho a (new_nvar st)) as [st2 [lv lr]| |]; cbn [ebind]; [| |destruct IHa].
    2: { cbn [inferred]. fold n. intros r H K. revert K. wt. intros K. cbn [inferred] in IHa. rewrite L1 in IHa.
         apply (IHa r); [apply new_sat; assumption|tauto]. }
    cbn [inferred] in IHa. rewrite L1 in IHa. destruct IHa as [-> [-> [W2 [L2 [V2 [F2 S2]]]]]].
    specialize (IHb _ W2). pose proof (nsize_pos b) as PB.
    destruct (infer_num ho b st2) as [st3 [rv rr]| |]; cbn [ebind]; [| |destruct IHb].
    2: { cbn [inferred] in *. fold n. intros r H K. revert K. wt. intros K. rewrite L2 in IHb.
         apply (IHb r); [apply S2; split; [apply new_sat; assumption|tauto]|]. tauto. }
    cbn [inferred] in IHb. rewrite L2 in IHb. destruct IHb as [-> [-> [W3 [L3 [V3 [F3 S3]]]]]].
    assert (SS : forall r, sat st3 r <-> sat st r /\ well_typed (build r a (S n)) /\ well_typed (build r b (S n + nsize a))).
    { intro r. rewrite S3, S2, new_sat by exact W. tauto. }
    assert (FR : forall x, x < n -> canonical (eal st3) x = canonical (eal st) x).
    { intros x Hx. rewrite F3 by lia. rewrite F2 by lia. apply new_frame; assumption. }
    assert (C0 : canonical (eal st3) n = Some n). { rewrite F3 by lia. rewrite F2 by lia. exact V1. }
    assert (C1 : canonical (eal st3) (S n) = Some (S n)). { rewrite F3 by lia. exact V2. }
    assert (BEL : forall x c, x < n -> canonical (eal st) x = Some c -> c < n).
    { intros x c _ H. unfold n. rewrite (e_len _ W). exact (canon_val_lt _ _ _ (e_awf _ W) H). }
    clear S2 S3 F2 F3 W1 W2 V1 V2 L2 L1.
    assert (LEN : length (ecs st3) = n + nsize (NBin op cast a b)) by (cbn [nsize]; lia).
    destruct (declared a) as [da|] eqn:DA, (declared b) as [db|] eqn:DB; cbn [rep_of].
    + (* both declared *)
      cbn [numrep_eqb]. destruct (mrep_eqb da db) eqn:E.
      * apply mrep_eqb_eq in E. subst db. destruct cast as [m|].
        -- apply bind_rep; [exact W3|lia| |].
           ++ intros st' W4 L4 A4 S4. cbn [inferred]. fold n. rewrite A4. refine (conj eq_refl (conj eq_refl (conj W4 (conj _ (conj C0 (conj FR _)))))); [lia|].
              intro r. rewrite S4, SS. wt. rewrite DA, DB. ic.
           ++ cbn [inferred]. fold n. intros S4 r H. wt. rewrite DA, DB. intro K. apply (S4 r); [apply SS; tauto|]. apply K. reflexivity.
        -- apply bind_rep; [exact W3|lia| |].
           ++ intros st' W4 L4 A4 S4. cbn [inferred]. fold n. rewrite A4. refine (conj eq_refl (conj _ (conj W4 (conj _ (conj C0 (conj FR _)))))); [cbn; rewrite DA; reflexivity|lia|].
              intro r. rewrite S4, SS. wt. rewrite DA, DB. ic.
           ++ cbn [inferred]. fold n. intros S4 r H. wt. rewrite DA, DB. intro K. apply (S4 r); [apply SS; tauto|]. symmetry. apply K. reflexivity.
      * destruct cast as [m|].
        -- apply bind_rep; [exact W3|lia| |].
           ++ intros st' W4 L4 A4 S4. cbn [inferred ebind]. fold n. rewrite A4. refine (conj eq_refl (conj eq_refl (conj W4 (conj _ (conj C0 (conj FR _)))))); [lia|].
              intro r. rewrite S4, SS. wt. rewrite DA, DB. ic.
           ++ cbn [inferred]. fold n. intros S4 r H. wt. rewrite DA, DB. intro K. apply (S4 r); [apply SS; tauto|]. apply K. reflexivity.
        -- cbn [inferred]. fold n. intros r H. wt. rewrite DA, DB. intros K.
           assert (da = db). { destruct K as [_ [_ [K1 [K2 _]]]]. rewrite K1, K2; reflexivity. }
           subst db. rewrite (proj2 (mrep_eqb_eq da da) eq_refl) in E. discriminate.
    + (* the left one declared *)
      cbn [numrep_eqb]. destruct cast as [m|].
      * apply bind_rep; [exact W3|lia| |].
        -- intros st4 W4 L4 A4 S4. cbn [ebind]. apply bind_unite; [exact W4|rewrite A4; exact C0|rewrite A4; exact V3|lia| |].
           ++ intros st5 W5 L5 A5 S5. cbn [inferred]. fold n. refine (conj eq_refl (conj eq_refl (conj W5 (conj _ (conj _ (conj _ _)))))); [lia| | |].
              ** rewrite A5, A4, C0. destruct (Nat.eqb_spec n (S n + nsize a)); [lia|reflexivity].
              ** intros x Hx. rewrite A5, A4, (FR _ Hx). destruct (canonical (eal st) x) as [d|] eqn:D; [|reflexivity].
                 pose proof (BEL _ _ Hx D). destruct (Nat.eqb_spec d (S n + nsize a)); [lia|reflexivity].
              ** intro r. rewrite S5, S4, SS. wt. rewrite DA, DB. ic.
           ++ cbn [inferred]. fold n. intros S5 r H. wt. rewrite DA, DB. intro K. apply (S5 r); [apply S4; rewrite SS; intuition|]. symmetry. apply K.
        -- cbn [inferred]. fold n. intros S4 r H. wt. rewrite DA, DB. intro K. apply (S4 r); [apply SS; tauto|]. apply K. reflexivity.
      * apply bind_rep; [exact W3|lia| |].
        -- intros st4 W4 L4 A4 S4. apply bind_rep; [exact W4|cbn [nsize] in *; lia| |].
           ++ intros st5 W5 L5 A5 S5. cbn [inferred]. fold n. rewrite A5, A4. refine (conj eq_refl (conj _ (conj W5 (conj _ (conj C0 (conj FR _)))))); [cbn; rewrite DA; reflexivity|lia|].
              intro r. rewrite S5, S4, SS. wt. rewrite DA, DB. ic.
           ++ cbn [inferred]. fold n. intros S5 r H. wt. rewrite DA, DB. intros [_ [_ [K1 [K2 [K3 K4]]]]]. specialize (K1 eq_refl). apply (S5 r); [apply S4; rewrite SS; intuition|congruence].
        -- cbn [inferred]. fold n. intros S4 r H. wt. rewrite DA, DB. intros [_ [_ [K1 [K2 [K3 K4]]]]]. specialize (K1 eq_refl). apply (S4 r); [apply SS; tauto|congruence].
    + (* the right one declared *)
      cbn [numrep_eqb]. destruct cast as [m|].
      * apply bind_rep; [exact W3|lia| |].
        -- intros st4 W4 L4 A4 S4. apply bind_unite; [exact W4|rewrite A4; exact C0|rewrite A4; exact C1|lia| |].
           ++ intros st5 W5 L5 A5 S5. cbn [inferred ebind]. fold n. refine (conj eq_refl (conj eq_refl (conj W5 (conj _ (conj _ (conj _ _)))))); [lia| | |].
              ** rewrite A5, A4, C0. destruct (Nat.eqb_spec n (S n)); [lia|reflexivity].
              ** intros x Hx. rewrite A5, A4, (FR _ Hx). destruct (canonical (eal st) x) as [d|] eqn:D; [|reflexivity].
                 pose proof (BEL _ _ Hx D). destruct (Nat.eqb_spec d (S n)); [lia|reflexivity].
              ** intro r. rewrite S5, S4, SS. wt. rewrite DA, DB. ic.
           ++ cbn [inferred]. fold n. intros S5 r H. wt. rewrite DA, DB. intro K. apply (S5 r); [apply S4; rewrite SS; intuition|]. symmetry. apply K.
        -- cbn [inferred]. fold n. intros S4 r H. wt. rewrite DA, DB. intro K. apply (S4 r); [apply SS; tauto|]. apply K. reflexivity.
      * apply bind_rep; [exact W3|lia| |].
        -- intros st4 W4 L4 A4 S4. apply bind_rep; [exact W4|cbn [nsize] in *; lia| |].
           ++ intros st5 W5 L5 A5 S5. cbn [inferred]. fold n. rewrite A5, A4. refine (conj eq_refl (conj _ (conj W5 (conj _ (conj C0 (conj FR _)))))); [cbn; rewrite DA, DB; reflexivity|lia|].
              intro r. rewrite S5, S4, SS. wt. rewrite DA, DB. ic.
           ++ cbn [inferred]. fold n. intros S5 r H. wt. rewrite DA, DB. intros [_ [_ [K1 [K2 [K3 K4]]]]]. specialize (K2 eq_refl). apply (S5 r); [apply S4; rewrite SS; intuition|congruence].
        -- cbn [inferred]. fold n. intros S4 r H. wt. rewrite DA, DB. intros [_ [_ [K1 [K2 [K3 K4]]]]]. specialize (K2 eq_refl). apply (S4 r); [apply SS; tauto|congruence].
    + (* neither declared *)
      apply bind_unite; [exact W3|exact C0|exact C1|lia| |].
      * intros st4 W4 L4 A4 S4.
        apply bind_unite; [exact W4| | |lia| |].
        { rewrite A4, C0. destruct (Nat.eqb_spec n (S n)); [lia|reflexivity]. }
        { rewrite A4, V3. destruct (Nat.eqb_spec (S n + nsize a) (S n)); [lia|reflexivity]. }
        -- intros st5 W5 L5 A5 S5.
           assert (C5 : canonical (eal st5) n = Some n).
           { rewrite A5, A4, C0. destruct (Nat.eqb_spec n (S n)); [lia|]. destruct (Nat.eqb_spec n (S n + nsize a)); [lia|reflexivity]. }
           assert (F5 : forall x, x < n -> canonical (eal st5) x = canonical (eal st) x).
           { intros x Hx. rewrite A5, A4, (FR _ Hx). destruct (canonical (eal st) x) as [d|] eqn:D; [|reflexivity].
             pose proof (BEL _ _ Hx D). destruct (Nat.eqb_spec d (S n)); [lia|]. destruct (Nat.eqb_spec d (S n + nsize a)); [lia|reflexivity]. }
           destruct cast as [m|].
           ++ apply bind_rep; [exact W5|lia| |].
              ** intros st6 W6 L6 A6 S6. cbn [inferred]. fold n. rewrite A6. refine (conj eq_refl (conj eq_refl (conj W6 (conj _ (conj C5 (conj F5 _)))))); [lia|].
                 intro r. rewrite S6, S5, S4, SS. wt. rewrite DA, DB. ic.
              ** cbn [inferred]. fold n. intros S6 r H. wt. rewrite DA, DB. intros [_ [K0 [K1 [K2 [K3 K4]]]]]. apply (S6 r); [|apply K0; reflexivity].
                 rewrite S5, S4, SS. ic.
           ++ cbn [inferred]. fold n. refine (conj eq_refl (conj _ (conj W5 (conj _ (conj C5 (conj F5 _)))))); [cbn; rewrite DA, DB; reflexivity|lia|].
              intro r. rewrite S5, S4, SS. wt. rewrite DA, DB. ic.
        -- cbn [inferred]. fold n. intros S5 r H. wt. rewrite DA, DB. intros [_ [K0 [K1 [K2 [K3 K4]]]]]. apply (S5 r); [|congruence]. rewrite S4, SS. ic.
      * cbn [inferred]. fold n. intros S4 r H. wt. rewrite DA, DB. intros [_ [K0 [K1 [K2 [K3 K4]]]]]. apply (S4 r); [|congruence]. rewrite SS. ic.
  - (* operations of one operand *)
    pose proof (new_ewf _ W) as W1. pose proof (new_len st) as L1. pose proof (new_self _ W) as V1.
    set (n := length (ecs st)) in *. pose proof (nsize_pos a) as PA.
    specialize (IHa _ W1).
    destruct (infer_num ho a (new_nvar st)) as [st2 [lv lr]| |]; cbn [ebind]; [| |destruct IHa].
    2: { cbn [inferred]. fold n. intros r H K. revert K. wt. intros K. cbn [inferred] in IHa. rewrite L1 in IHa.
         apply (IHa r); [apply new_sat; assumption|tauto]. }
    cbn [inferred] in IHa. rewrite L1 in IHa. destruct IHa as [-> [-> [W2 [L2 [V2 [F2 S2]]]]]].
    assert (SS : forall r, sat st2 r <-> sat st r /\ well_typed (build r a (S n))).
    { intro r. rewrite S2, new_sat by exact W. tauto. }
    assert (FR : forall x, x < n -> canonical (eal st2) x = canonical (eal st) x).
    { intros x Hx. rewrite F2 by lia. apply new_frame; assumption. }
    assert (C0 : canonical (eal st2) n = Some n). { rewrite F2 by lia. exact V1. }
    assert (BEL : forall x c, x < n -> canonical (eal st) x = Some c -> c < n).
    { intros x c _ H. unfold n. rewrite (e_len _ W). exact (canon_val_lt _ _ _ (e_awf _ W) H). }
    destruct (declared a) as [da|] eqn:DA; cbn [rep_of].
    + destruct cast as [m|].
      * apply bind_rep; [exact W2|lia| |].
        -- intros st' W4 L4 A4 S4. cbn [inferred]. fold n. rewrite A4. refine (conj eq_refl (conj eq_refl (conj W4 (conj _ (conj C0 (conj FR _)))))); [cbn [nsize]; lia|].
           intro r. rewrite S4, SS. wt. rewrite DA. ic.
        -- cbn [inferred]. fold n. intros S4 r H. wt. rewrite DA. intro K. apply (S4 r); [apply SS; tauto|]. apply K. reflexivity.
      * apply bind_rep; [exact W2|lia| |].
        -- intros st' W4 L4 A4 S4. cbn [inferred]. fold n. rewrite A4. refine (conj eq_refl (conj _ (conj W4 (conj _ (conj C0 (conj FR _)))))); [cbn; rewrite DA; reflexivity|cbn [nsize]; lia|].
           intro r. rewrite S4, SS. wt. rewrite DA. ic.
        -- cbn [inferred]. fold n. intros S4 r H. wt. rewrite DA. intro K. apply (S4 r); [apply SS; tauto|]. symmetry. apply K. reflexivity.
    + apply bind_unite; [exact W2|exact C0|exact V2|lia| |].
      * intros st4 W4 L4 A4 S4.
        assert (C5 : canonical (eal st4) n = Some n).
        { rewrite A4, C0. destruct (Nat.eqb_spec n (S n)); [lia|reflexivity]. }
        assert (F5 : forall x, x < n -> canonical (eal st4) x = canonical (eal st) x).
        { intros x Hx. rewrite A4, (FR _ Hx). destruct (canonical (eal st) x) as [d|] eqn:D; [|reflexivity].
          pose proof (BEL _ _ Hx D). destruct (Nat.eqb_spec d (S n)); [lia|reflexivity]. }
        destruct cast as [m|].
        -- apply bind_rep; [exact W4|lia| |].
           ++ intros st6 W6 L6 A6 S6. cbn [inferred]. fold n. rewrite A6. refine (conj eq_refl (conj eq_refl (conj W6 (conj _ (conj C5 (conj F5 _)))))); [cbn [nsize]; lia|].
              intro r. rewrite S6, S4, SS. wt. rewrite DA. ic.
           ++ cbn [inferred]. fold n. intros S6 r H. wt. rewrite DA. intros [_ [K0 [K1 K3]]]. apply (S6 r); [|apply K0; reflexivity].
              rewrite S4, SS. ic.
        -- cbn [inferred]. fold n. refine (conj eq_refl (conj _ (conj W4 (conj _ (conj C5 (conj F5 _)))))); [cbn; rewrite DA; reflexivity|cbn [nsize]; lia|].
           intro r. rewrite S4, SS. wt. rewrite DA. ic.
      * cbn [inferred]. fold n. intros S4 r H. wt. rewrite DA. intros [_ [K0 [K1 K3]]]. apply (S4 r); [|congruence]. rewrite SS. ic.
  - (* casts *)
    pose proof (new_ewf _ W) as W1. pose proof (new_len st) as L1. pose proof (new_self _ W) as V1.
    set (n := length (ecs st)) in *. pose proof (nsize_pos a) as PA.
    specialize (IHa _ W1).
    destruct (infer_num ho a (new_nvar st)) as [st2 [lv lr]| |]; cbn [ebind]; [| |destruct IHa].
    2: { cbn [inferred]. fold n. intros r H K. revert K. wt. intros K. cbn [inferred] in IHa. rewrite L1 in IHa.
         apply (IHa r); [apply new_sat; assumption|tauto]. }
    cbn [inferred] in IHa. rewrite L1 in IHa. destruct IHa as [-> [-> [W2 [L2 [V2 [F2 S2]]]]]].
    assert (SS : forall r, sat st2 r <-> sat st r /\ well_typed (build r a (S n))).
    { intro r. rewrite S2, new_sat by exact W. tauto. }
    assert (FR : forall x, x < n -> canonical (eal st2) x = canonical (eal st) x).
    { intros x Hx. rewrite F2 by lia. apply new_frame; assumption. }
    assert (C0 : canonical (eal st2) n = Some n). { rewrite F2 by lia. exact V1. }
    destruct (declared a) as [da|] eqn:DA; cbn [rep_of ebind].
    + apply bind_rep; [exact W2|lia| |].
      * intros st' W4 L4 A4 S4. cbn [inferred]. fold n. rewrite A4. refine (conj eq_refl (conj eq_refl (conj W4 (conj _ (conj C0 (conj FR _)))))); [cbn [nsize]; lia|].
        intro r. rewrite S4, SS. wt. rewrite DA. ic.
      * cbn [inferred]. fold n. intros S4 r H. wt. rewrite DA. intro K. apply (S4 r); [apply SS; tauto|]. apply K.
    + apply bind_rep; [exact W2|lia| |].
      * intros st4 W4 L4 A4 S4. apply bind_rep; [exact W4|lia| |].
        -- intros st' W5 L5 A5 S5. cbn [inferred]. fold n. rewrite A5, A4. refine (conj eq_refl (conj eq_refl (conj W5 (conj _ (conj C0 (conj FR _)))))); [cbn [nsize]; lia|].
           intro r. rewrite S5, S4, SS. wt. rewrite DA. ic.
        -- cbn [inferred]. fold n. intros S5 r H. wt. rewrite DA. intros [_ [K1 [K2 K3]]]. apply (S5 r); [rewrite S4, SS; intuition congruence|exact K1].
      * cbn [inferred]. fold n. intros S4 r H. wt. rewrite DA. intros [_ [K1 [K2 K3]]]. apply (S4 r); [rewrite SS; tauto|]. apply K2. reflexivity.
  - cbn [inferred]. intros r _ H. exact H.
Qed.
End Infer.

(** ** Reading the types *)
Lemma reify_spec st v i k : canonical (eal st) v = Some i -> nth_error (ecs st) i = Some k -> forall t,
  reify_num st v = Some t <-> isat k t /\ forall t', isat k t' -> t' = t.
Proof.
  intros C K t. unfold reify_num. rewrite C, K. destruct k as [|[x|b]]; cbn [isat].
  - split; [discriminate|]. intros [_ H]. exfalso. pose proof (H rU8 I). pose proof (H rU16 I). subst. discriminate.
  - cbn [csat]. split; [intro E; injection E as <-; auto|]. intros [-> _]. reflexivity.
  - destruct (unique_solution_spec (NEncomp b)) as [r [-> S]]. apply S.
Qed.
Definition read (st : engine) (v : nat) : mrep := match reify_num st v with Some t => t | None => rU8 end.
Lemma reify_canon st v i : ewf st -> canonical (eal st) v = Some i -> reify_num st v = reify_num st i.
Proof. intros W C. unfold reify_num. rewrite C, (canon_idem _ _ _ (e_awf _ W) C). reflexivity. Qed.
Lemma reify_sat st : ewf st -> (forall v, v < length (ecs st) -> exists t, reify_num st v = Some t) -> sat st (read st).
Proof.
  intros W H v c C. split; [unfold read; rewrite (reify_canon _ _ _ W C); reflexivity|]. intros k K.
  pose proof (canon_idem _ _ _ (e_awf _ W) C) as CI. destruct (H c) as [t R]; [apply nth_error_Some; congruence|].
  unfold read. rewrite R. apply (reify_spec _ _ _ _ CI K) in R. apply R.
Qed.
Lemma reify_only st r v t : ewf st -> v < length (ecs st) -> sat st r -> reify_num st v = Some t -> r v = t.
Proof.
  intros W L H R. destruct (canon_ecs _ _ W L) as [i [k [C [CI [K _]]]]]. apply (reify_spec _ _ _ _ C K) in R.
  destruct (H _ _ C) as [-> H2]. apply R. apply H2. exact K.
Qed.
Lemma reify_unique st r v : ewf st -> v < length (ecs st) -> sat st r ->
  (forall r', sat st r' -> r' v = r v) -> reify_num st v = Some (r v).
Proof.
  intros W L H U. destruct (canon_ecs _ _ W L) as [i [k [C [CI [K _]]]]]. apply (reify_spec _ _ _ _ C K).
  pose proof (proj1 (H _ _ C)) as E. split; [rewrite E; exact (proj2 (H _ _ C) _ K)|].
  intros t' T. set (r' := fun x => match canonical (eal st) x with Some c => if c =? i then t' else r x | None => r x end).
  assert (S' : sat st r').
  { intros x c X. destruct (H _ _ X) as [H1 H2]. pose proof (canon_idem _ _ _ (e_awf _ W) X) as XI. unfold r'. rewrite X, XI.
    destruct (Nat.eqb_spec c i) as [->|N].
    - split; [reflexivity|]. intros k' K'. rewrite K in K'. injection K' as <-. exact T.
    - split; [exact H1|exact H2]. }
  pose proof (U r' S') as X. unfold r' in X. rewrite C, Nat.eqb_refl in X. exact X.
Qed.

(** ** Elaboration *)
Lemma elab_build ty r e : forall n, (forall i, n <= i < n + nsize e -> ty i = Some (r i)) -> elab_tree ty e n = Some (build r e n, n + nsize e).
Proof.
  induction e as [c|op cast a IHa b IHb|op cast a IHa|out sem a IHa|x]; intros n H; cbn [elab_tree build nsize] in *.
  - rewrite H by lia. do 2 f_equal. lia.
  - rewrite IHa by (intros; apply H; lia). rewrite IHb by (intros; apply H; lia). rewrite H by lia. do 2 f_equal. lia.
  - rewrite IHa by (intros; apply H; lia). rewrite H by lia. do 2 f_equal. lia.
  - rewrite IHa by (intros; apply H; lia). rewrite H by lia. do 2 f_equal. lia.
  - rewrite H by lia. do 2 f_equal. lia.
Qed.
Lemma elab_inv ty e : forall n te k, elab_tree ty e n = Some (te, k) ->
  k = n + nsize e /\ forall i, n <= i < n + nsize e -> exists t, ty i = Some t.
Proof.
  induction e as [c|op cast a IHa b IHb|op cast a IHa|out sem a IHa|x]; intros n te k H; cbn [elab_tree nsize] in *.
  - destruct (ty n) eqn:T; [|discriminate]. injection H as <- <-. split; [lia|]. intros i I. assert (i = n) as -> by lia. eauto.
  - destruct (elab_tree ty a (S n)) as [[ta j]|] eqn:A; [|discriminate]. destruct (IHa _ _ _ A) as [-> HA].
    destruct (elab_tree ty b _) as [[tb j]|] eqn:B; [|discriminate]. destruct (IHb _ _ _ B) as [-> HB].
    destruct (ty n) eqn:T; [|discriminate]. injection H as <- <-. split; [lia|]. intros i I.
    destruct (Nat.eq_dec i n) as [->|]; [eauto|]. destruct (Nat.lt_ge_cases i (S n + nsize a)); [apply HA|apply HB]; lia.
  - destruct (elab_tree ty a (S n)) as [[ta j]|] eqn:A; [|discriminate]. destruct (IHa _ _ _ A) as [-> HA].
    destruct (ty n) eqn:T; [|discriminate]. injection H as <- <-. split; [lia|]. intros i I.
    destruct (Nat.eq_dec i n) as [->|]; [eauto|]. apply HA; lia.
  - destruct (elab_tree ty a (S n)) as [[ta j]|] eqn:A; [|discriminate]. destruct (IHa _ _ _ A) as [-> HA].
    destruct (ty n) eqn:T; [|discriminate]. injection H as <- <-. split; [lia|]. intros i I.
    destruct (Nat.eq_dec i n) as [->|]; [eauto|]. apply HA; lia.
  - destruct (ty n) eqn:T; [|discriminate]. injection H as <- <-. split; [lia|]. intros i I. assert (i = n) as -> by lia. eauto.
Qed.

(** Every rightly typed tree is of an assignment, and only of one. *)
Fixpoint types (e : ntree) : list mrep :=
  match e with
  | TConst t _ | TVar t _ => [t]
  | TBin t _ _ _ l r => t :: types l ++ types r
  | TUn t _ _ _ a | TCast t _ _ _ a => t :: types a
  end.
Lemma types_len e : length (types e) = nsize (nerase e).
Proof. induction e; cbn; rewrite ?app_length; lia. Qed.
Lemma types_build r e : forall n, types (build r e n) = map r (seq n (nsize e)).
Proof.
  induction e as [c|op cast a IHa b IHb|op cast a IHa|out sem a IHa|x]; intros n; cbn [build types nsize seq map]; auto.
  - rewrite IHa, IHb, seq_app, map_app. reflexivity.
  - rewrite IHa. reflexivity.
  - rewrite IHa. reflexivity.
Qed.
Lemma build_types r te : forall n, well_typed te -> map r (seq n (nsize (nerase te))) = types te -> build r (nerase te) n = te.
Proof.
  induction te as [t c|t sig op out l IHl rt IHr|t sig op out a IHa|t sig out sem a IHa|t x]; intros n W E; cbn [well_typed nerase types nsize build seq map] in *.
  - injection E as ->. reflexivity.
  - destruct W as [-> [_ [_ [_ [Wl Wr]]]]]. rewrite seq_app, map_app in E. injection E as -> E.
    assert (EL : length (map r (seq (S n) (nsize (nerase l)))) = length (types l)) by (rewrite map_length, seq_length, types_len; reflexivity).
    assert (X : map r (seq (S n) (nsize (nerase l))) = types l /\ map r (seq (S n + nsize (nerase l)) (nsize (nerase rt))) = types rt).
    { revert E EL. generalize (map r (seq (S n) (nsize (nerase l)))) (types l). induction l0 as [|x l0 IH]; intros [|y l1] E EL; cbn in *; try discriminate; auto.
      injection E as -> E. destruct (IH l1 E) as [-> X]; [lia|]. auto. }
    destruct X as [X1 X2]. change (S (n + nsize (nerase l))) with (S n + nsize (nerase l)). rewrite (IHl _ Wl X1), (IHr _ Wr X2). reflexivity.
  - destruct W as [-> [_ [_ Wa]]]. injection E as -> E. rewrite (IHa _ Wa E). reflexivity.
  - destruct W as [-> [_ [_ Wa]]]. injection E as -> E. rewrite (IHa _ Wa E). reflexivity.
  - destruct W.
Qed.
Definition assigned (te : ntree) (i : nat) : mrep := nth i (types te) rU8.
Lemma assigned_build te : well_typed te -> build (assigned te) (nerase te) 0 = te.
Proof.
  intro W. apply build_types; [exact W|]. rewrite <- types_len. unfold assigned. generalize (types te). intro l.
  assert (G : forall l p, map (fun i => nth i (p ++ l) rU8) (seq (length p) (length l)) = l).
  { clear. induction l as [|x l IH]; intros p; cbn [length seq map]; [reflexivity|]. f_equal.
    - rewrite app_nth2, Nat.sub_diag by lia. reflexivity.
    - specialize (IH (p ++ [x])). rewrite <- app_assoc, app_length, Nat.add_1_r in IH. exact IH. }
  exact (G l []).
Qed.

(** ** The whole *)
Lemma engine0_ewf : ewf engine0.
Proof.
  constructor; [constructor|reflexivity|]; cbn; unfold get_als; cbn; intros [|i]; cbn; discriminate.
Qed.
Lemma engine0_sat r : sat engine0 r.
Proof. intros v c. unfold canonical, get_als. cbn. destruct v; discriminate. Qed.

Theorem infer_types_only ho e te : infer_types ho e = Some te <-> only_typing e te.
Proof.
  unfold infer_types. pose proof (infer_spec ho e engine0 engine0_ewf) as S. split.
  - destruct (infer_num ho e engine0) as [st [v rep]| |]; try discriminate. cbn [inferred] in S.
    destruct S as [_ [_ [W [L [_ [_ S]]]]]]. cbn [engine0 ecs length] in *.
    destruct (elab_tree (reify_num st) e 0) as [[te' k]|] eqn:E; [|discriminate]. cbn. intro X. injection X as ->.
    destruct (elab_inv _ _ _ _ _ E) as [-> H].
    assert (A : forall v, v < length (ecs st) -> exists t, reify_num st v = Some t) by (intros; apply H; lia).
    assert (R : forall i, 0 <= i < 0 + nsize e -> reify_num st i = Some (read st i)).
    { intros i I. unfold read. destruct (H i I) as [t ->]. reflexivity. }
    rewrite (elab_build _ _ _ _ R) in E. injection E as <-.
    split; [apply nerase_build|]. split; [apply S, reify_sat; assumption|].
    intros te' <- WT. pose proof (assigned_build _ WT) as B.
    assert (SA : sat st (assigned te')). { apply S. split; [apply engine0_sat|]. rewrite B. exact WT. }
    rewrite <- B at 1.
    assert (G : forall i, i < nsize (nerase te') -> assigned te' i = read st i).
    { intros i I. apply (reify_only st _ i); [exact W|lia|exact SA|]. apply R. lia. }
    clear - G. assert (forall e n, n + nsize e <= nsize (nerase te') -> build (assigned te') e n = build (read st) e n) as X.
    { induction e as [c|op cast a IHa b IHb|op cast a IHa|out sem a IHa|x]; intros n L; cbn [build nsize] in *; rewrite ?IHa, ?IHb, ?G by lia; reflexivity. }
    apply X. lia.
  - intros [<- [WT U]]. pose proof (assigned_build _ WT) as B.
    destruct (infer_num ho (nerase te) engine0) as [st [v rep]| |]; cbn [inferred] in S.
    + destruct S as [_ [_ [W [L [_ [_ S]]]]]]. cbn [engine0 ecs length] in *.
      assert (SA : sat st (assigned te)). { apply S. split; [apply engine0_sat|]. rewrite B. exact WT. }
      rewrite (elab_build (reify_num st) (assigned te)).
      * cbn. rewrite B. reflexivity.
      * intros i I. apply reify_unique; [exact W|lia|exact SA|]. intros r' S'.
        apply S in S'. destruct S' as [_ W']. pose proof (U _ (nerase_build r' (nerase te) 0) W') as E.
        pose proof (types_build r' (nerase te) 0) as T'. pose proof (types_build (assigned te) (nerase te) 0) as T.
        rewrite E in T'. rewrite B in T. rewrite T in T'.
        assert (N : nth_error (map (assigned te) (seq 0 (nsize (nerase te)))) i = nth_error (map r' (seq 0 (nsize (nerase te)))) i) by (rewrite T'; reflexivity).
        assert (Q : nth_error (seq 0 (nsize (nerase te))) i = Some i).
        { rewrite (nth_error_nth' _ 0) by (rewrite seq_length; lia). rewrite seq_nth by lia. reflexivity. }
        erewrite !map_nth_error in N by exact Q. congruence.
    + exfalso. apply (S (assigned te)); [apply engine0_sat|]. cbn [engine0 ecs length]. rewrite B. exact WT.
    + destruct S.
Qed.
Theorem infer_never_panics ho e : infer_num ho e engine0 <> EPanic.
Proof. intro H. pose proof (infer_spec ho e engine0 engine0_ewf) as S. rewrite H in S. exact S. Qed.
