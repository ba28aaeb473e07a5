(** Proofs about generated control structure. *)
From Verif Require Import Base ParserModel ParserProofs ProgModel.
Open Scope N_scope.

Scheme prog_mut := Induction for prog Sort Prop
  with branches_mut := Induction for branches Sort Prop.

(** ** Which programs keep the view stack balanced *)
(** [clean p]: when [p] succeeds, the view stack is what it was.
    [fine p]: when [p] succeeds, at most [Alts] lenses have been added to it.
    [safe p]: moreover, when [p] fails, no lens it left behind is one that
    [recover] would stop at. *)
Fixpoint clean {A} (p : prog A) : Prop :=
  match p with
  | Bind p k => clean p /\ forall a, clean (k a)
  | Slice _ p | Peek p | OffsetPeek _ p => fine p
  | PeekNot p => safe p
  | BitsOf p => clean p
  | Alts _ | Catch _ => False
  | _ => True
  end
with fine {A} (p : prog A) : Prop :=
  match p with
  | Bind p k => fine p /\ forall a, fine (k a)
  | Slice _ p | Peek p | OffsetPeek _ p => fine p
  | PeekNot p => safe p
  | BitsOf p => fine p
  | Alts l => fine_b l
  | Catch _ => False
  | _ => True
  end
with safe {A} (p : prog A) : Prop :=
  match p with
  | Bind p k => safe p /\ clean p /\ forall a, safe (k a)
  | Slice _ p | Peek p | OffsetPeek _ p => safe p
  | PeekNot _ => False
  | BitsOf p => safe p /\ clean p
  | Alts l => is_last l = false /\ safe_b l
  | Catch _ => False
  | _ => True
  end
with fine_b {A} (l : branches A) : Prop :=
  match l with
  | BLast p => fine p
  | BMore p r => safe p /\ fine_b r
  end
with safe_b {A} (l : branches A) : Prop :=
  match l with
  | BLast p => safe p
  | BMore p r => safe p /\ safe_b r
  end.

Fixpoint no_bits {A} (p : prog A) : Prop :=
  match p with
  | Bind p k => no_bits p /\ forall a, no_bits (k a)
  | Slice _ p | Peek p | OffsetPeek _ p | PeekNot p | Catch p => no_bits p
  | BitsOf _ => False
  | Alts l => no_bits_b l
  | _ => True
  end
with no_bits_b {A} (l : branches A) : Prop :=
  match l with
  | BLast p => no_bits p
  | BMore p r => no_bits p /\ no_bits_b r
  end.

Lemma safe_fine_mut :
  (forall A (p : prog A), (safe p -> fine p) /\ (clean p -> fine p)) .
Proof.
  intros A p.
  induction p using prog_mut with
    (P := fun A (p : prog A) => (safe p -> fine p) /\ (clean p -> fine p))
    (P0 := fun A (l : branches A) => safe_b l -> fine_b l); cbn; try tauto.
  - split.
    + intros (H1 & H2 & H3). split; [tauto|]. intros a. apply (proj1 (H a)). apply H3.
    + intros (H1 & H2). split; [tauto|]. intros a. apply (proj2 (H a)). apply H2.
Qed.
Lemma safe_fine A (p : prog A) : safe p -> fine p.
Proof. apply safe_fine_mut. Qed.
Lemma clean_fine A (p : prog A) : clean p -> fine p.
Proof. apply safe_fine_mut. Qed.

(** ** Byte-mode programs keep the byte-mode invariant *)
Lemma invb_op {A} buf start (r : pres A * pst) o s :
  o <> OpEnterBits -> InvB buf start s -> step o s = drop r -> fst r <> PPanic -> InvB buf start (snd r).
Proof.
  intros No I E F. destruct r as [[a|e|] s']; cbn in *; try contradiction; eapply invb_step; eauto.
Qed.

Lemma then_inv {A B} (r : pres A * pst) (k : A -> pst -> pres B * pst) res s' :
  then_ r k = (res, s') ->
  (exists a s1, r = (POk a, s1) /\ k a s1 = (res, s')) \/
  (exists e, r = (PErr e, s') /\ res = PErr e) \/ (r = (PPanic, s') /\ res = PPanic).
Proof. destruct r as [[a|e|] s1]; cbn; intros H; [left; eauto|right; left|right; right]; inversion H; subst; eauto. Qed.

Tactic Notation "inv_then" hyp(H) ident(s1) :=
  let a := fresh "a" in let E := fresh "E" in let K := fresh "K" in let e := fresh "e" in
  apply then_inv in H; destruct H as [(a & s1 & E & K)|[(e & E & K)|(E & K)]].

Lemma exec_invb A (p : prog A) : no_bits p -> forall buf start s r s',
  InvB buf start s -> exec p s = (r, s') -> r <> PPanic -> InvB buf start s'.
Proof.
  induction p using prog_mut with
    (P := fun A (p : prog A) => no_bits p -> forall buf start s r s',
        InvB buf start s -> exec p s = (r, s') -> r <> PPanic -> InvB buf start s')
    (P0 := fun A (l : branches A) => no_bits_b l -> forall buf start s r s',
        InvB buf start s -> exec_branches l s = (r, s') -> r <> PPanic -> InvB buf start s');
    cbn [no_bits no_bits_b exec exec_branches]; intros NB bf start_ s r s' I HE HP.
  - now inversion HE; subst.
  - inv_then HE s1.
    + apply (H a (proj2 NB a) bf start_ s1 r s'); auto. apply (IHp (proj1 NB) bf start_ s (POk a)); auto. discriminate.
    + apply (IHp (proj1 NB) bf start_ s (PErr e)); auto. discriminate.
    + subst; contradiction.
  - now inversion HE; subst.
  - now inversion HE; subst.
  - apply (invb_op bf start_ (r, s') OpRead s); auto; try discriminate; cbn [step]; now rewrite HE.
  - apply (invb_op bf start_ (r, s') OpRemaining s); auto; try discriminate; cbn [step]; now rewrite HE.
  - apply (invb_op bf start_ (r, s') OpFinish s); auto; try discriminate; cbn [step]; now rewrite HE.
  - apply (invb_op bf start_ (r, s') (OpAlign n) s); auto; try discriminate; cbn [step]; now rewrite HE.
  - apply (invb_op bf start_ (r, s') OpSkipRemainder s); auto; try discriminate; cbn [step]; now rewrite HE.
  - unfold p_offset_u64 in HE. destruct (pcur s); inversion HE; subst; auto; contradiction.
  - apply (invb_op bf start_ (r, s') OpView s); auto; try discriminate; cbn [step]; now rewrite HE.
  - inv_then HE s1.
    + assert (InvB bf start_ s1) as I1.
      { apply (invb_op bf start_ (POk a, s1) (OpStartSlice n) s); auto; try discriminate. cbn [step]. now rewrite E. }
      inv_then K s2.
      * assert (InvB bf start_ s2) as I2 by (apply (IHp NB bf start_ s1 (POk a0)); auto; discriminate).
        inv_then K0 s3.
        -- inversion K; subst. apply (invb_op bf start_ (POk a1, s') OpEndSlice s2); auto; try discriminate. cbn [step]. now rewrite E1.
        -- apply (invb_op (A:=unit) bf start_ (PErr e, s') OpEndSlice s2); auto; try discriminate. cbn [step]. now rewrite E1.
        -- subst; contradiction.
      * apply (IHp NB bf start_ s1 (PErr e)); auto; discriminate.
      * subst; contradiction.
    + apply (invb_op (A:=unit) bf start_ (PErr e, s') (OpStartSlice n) s); auto; try discriminate. cbn [step]. now rewrite E.
    + subst; contradiction.
  - inv_then HE s1; [|discriminate|discriminate].
    assert (InvB bf start_ s1) as I1.
    { apply (invb_op bf start_ (POk a, s1) OpOpenPeek s); auto; try discriminate. cbn [step]. now rewrite E. }
    inv_then K s2.
    + assert (InvB bf start_ s2) as I2 by (apply (IHp NB bf start_ s1 (POk a0)); auto; discriminate).
      inv_then K0 s3.
      * inversion K; subst. apply (invb_op bf start_ (POk a1, s') OpClosePeek s2); auto; try discriminate. cbn [step]. now rewrite E1.
      * apply (invb_op (A:=unit) bf start_ (PErr e, s') OpClosePeek s2); auto; try discriminate. cbn [step]. now rewrite E1.
      * subst; contradiction.
    + apply (IHp NB bf start_ s1 (PErr e)); auto; discriminate.
    + subst; contradiction.
  - inv_then HE s1.
    + assert (InvB bf start_ s1) as I1.
      { apply (invb_op bf start_ (POk a, s1) (OpAdvanceOrSeek target) s); auto; try discriminate. cbn [step]. now rewrite E. }
      inv_then K s2.
      * assert (InvB bf start_ s2) as I2 by (apply (IHp NB bf start_ s1 (POk a0)); auto; discriminate).
        inv_then K0 s3.
        -- inversion K; subst. apply (invb_op bf start_ (POk a1, s') OpClosePeek s2); auto; try discriminate. cbn [step]. now rewrite E1.
        -- apply (invb_op (A:=unit) bf start_ (PErr e, s') OpClosePeek s2); auto; try discriminate. cbn [step]. now rewrite E1.
        -- subst; contradiction.
      * apply (IHp NB bf start_ s1 (PErr e)); auto; discriminate.
      * subst; contradiction.
    + apply (invb_op (A:=unit) bf start_ (PErr e, s') (OpAdvanceOrSeek target) s); auto; try discriminate. cbn [step]. now rewrite E.
    + subst; contradiction.
  - inv_then HE s1; [|discriminate|discriminate].
    assert (InvB bf start_ s1) as I1.
    { apply (invb_op bf start_ (POk a, s1) OpOpenPeekNot s); auto; try discriminate. cbn [step]. now rewrite E. }
    destruct (exec p s1) as [[b|e|] s2] eqn:Ep.
    + inversion K; subst. eapply (IHp NB bf start_ s1); eauto. discriminate.
    + assert (InvB bf start_ s2) as I2 by (eapply (IHp NB bf start_ s1); eauto; discriminate).
      apply (invb_op bf start_ (r, s') OpClosePeekNot s2); auto; try discriminate. cbn [step]. now rewrite K.
    + inversion K; subst. contradiction.
  - contradiction.
  - inv_then HE s1; [|discriminate|discriminate].
    apply (IHp NB bf start_ s1 r s'); auto.
    apply (invb_op bf start_ (POk a, s1) OpStartAlt s); auto; try discriminate. cbn [step]. now rewrite E.
  - destruct (exec p (parser_of_view buf start)) as [r0 s0]. now inversion HE; subst.
  - destruct (exec p s) as [[a|e|] s0] eqn:Ep; inversion HE; subst.
    + eapply (IHp NB bf start_ s); eauto. discriminate.
    + eapply (IHp NB bf start_ s); eauto. discriminate.
    + contradiction.
  - apply (IHp NB bf start_ s r s'); auto.
  - destruct (exec p s) as [[a|e|] s0] eqn:Ep.
    + inversion HE; subst. eapply (IHp (proj1 NB) bf start_ s); eauto.
    + assert (InvB bf start_ s0) as I0 by (eapply (IHp (proj1 NB) bf start_ s); eauto; discriminate).
      inv_then HE s1.
      * apply (IHp0 (proj2 NB) bf start_ s1 r s'); auto.
        apply (invb_op bf start_ (POk a, s1) (OpNextAlt (is_last rest)) s0); auto; try discriminate. cbn [step]. now rewrite E.
      * subst. apply (invb_op (A:=unit) bf start_ (PErr e0, s') (OpNextAlt (is_last rest)) s0); auto; try discriminate. cbn [step]. now rewrite E.
      * subst; contradiction.
    + inversion HE; subst. contradiction.
Qed.

(** ** The view stack after a program *)
Definition alts_only (l : list lens) : Prop := Forall (fun x => match x with LAlts _ => True | _ => False end) l.
Definition no_recover (l : list lens) : Prop := Forall (fun x => lens_recover x = None) l.

Lemma restore_alts al c rest k : alts_only al -> lens_restore k = Some c ->
  stack_restore (al ++ k :: rest) = Some (c, rest).
Proof.
  intros Ha Hk. induction Ha as [|x al Hx Ha IH]; cbn; [now rewrite Hk|].
  destruct x; try contradiction. exact IH.
Qed.
Lemma recover_junk j c rest k : no_recover j -> lens_recover k = Some c ->
  stack_recover (j ++ k :: rest) = Some (c, rest).
Proof.
  intros Ha Hk. induction Ha as [|x al Hx Ha IH]; cbn; [now rewrite Hk|]. now rewrite Hx.
Qed.
Lemma close_alts al e rest cur : alts_only al ->
  close_slice_stk cur (al ++ LSlice e :: rest) =
  if boff_gt cur e then (PErr ESliceOverrun, []) else (POk e, rest).
Proof.
  intros Ha. induction Ha as [|x al Hx Ha IH]; cbn; [reflexivity|].
  destruct x; try contradiction. exact IH.
Qed.

Lemma get_limit_alts al st : alts_only al -> get_limit (al ++ st) = get_limit st.
Proof.
  intros Ha. induction Ha as [|x al Hx Ha IH]; cbn; [reflexivity|].
  destruct x; try contradiction. exact IH.
Qed.

(** Operations that touch neither the stack nor anything else relevant. *)
Lemma try_stk d s r s' : try_increment d s = (r, s') -> pstk s' = pstk s.
Proof. intros E. apply try_increment_cases in E. destruct r; [destruct E as (_ & b & _ & _ & ->)|subst|subst]; reflexivity. Qed.
Lemma advance_stk d s r s' : p_advance_by d s = (r, s') -> pstk s' = pstk s.
Proof.
  unfold p_advance_by. destruct (try_increment d s) as [q k] eqn:E. apply try_stk in E.
  destruct q; intros H; inversion H; subst; exact E.
Qed.
Lemma read_stk s r s' : p_read_byte s = (r, s') -> pstk s' = pstk s.
Proof.
  unfold p_read_byte. destruct (try_increment 1 s) as [q k] eqn:E. apply try_stk in E.
  destruct q; [|intros H; inversion H; subst; exact E|intros H; inversion H; subst; exact E].
  destruct (as_bytes a) as [ix sb]. destruct (nth_error (pbuf k) (N.to_nat ix)); [destruct sb|];
    intros H; inversion H; subst; exact E.
Qed.
Lemma align_stk n s r s' : p_skip_align n s = (r, s') -> pstk s' = pstk s.
Proof.
  unfold p_skip_align. destruct (n =? 0); [intros H; now inversion H|].
  destruct (obind _ _); [apply advance_stk|intros H; now inversion H].
Qed.
Lemma remaining_st s r s' : p_remaining s = (r, s') -> s' = s.
Proof. unfold p_remaining. destruct (delta _ _); intros H; now inversion H. Qed.
Lemma finish_st s r s' : p_finish s = (r, s') -> s' = s.
Proof.
  unfold p_finish. destruct (p_remaining s) as [q k] eqn:E. apply remaining_st in E. subst.
  destruct q as [[|]|e|]; intros H; now inversion H.
Qed.
Lemma offset_st s r s' : p_offset_u64 s = (r, s') -> s' = s.
Proof. unfold p_offset_u64. destruct (pcur s); intros H; now inversion H. Qed.
Lemma view_st s r s' : p_view s = (r, s') -> s' = s.
Proof.
  unfold p_view. destruct (as_bytes (pcur s)) as [k [|]]; [intros H; now inversion H|].
  destruct (view_offset (pbuf s) (pstart s) k); intros H; now inversion H.
Qed.
Lemma seek_stk n s r s' : p_advance_or_seek n s = (r, s') ->
  match r with
  | POk _ => exists l, lens_restore l = Some (pcur s) /\ lens_recover l = None /\ pstk s' = l :: pstk s
  | PErr _ => pstk s' = pstk s \/ exists c, pstk s' = LPeek c :: pstk s
  | PPanic => True
  end.
Proof.
  unfold p_advance_or_seek. destruct (n <? pstart s); [intros H; inversion H; subst; now left|].
  destruct (checked_delta (pcur s) (Bytes (n - pstart s))) as [[d|]|]; [| |intros H; now inversion H].
  - destruct (try_increment d _) as [q k] eqn:E. apply try_stk in E. cbn [pstk set_stk] in E.
    destruct q; intros H; inversion H; subst; [|right; eauto|exact Logic.I].
    exists (LPeek (pcur s)). repeat split; auto.
  - destruct (seek_to_offset (n - pstart s) false s) as [q k] eqn:E. unfold seek_to_offset in E.
    destruct (boff_gt (Bytes (n - pstart s)) (pmax s)); [inversion E; subst; intros H; inversion H; subst; now left|].
    destruct (is_bit_mode (pcur s)); [inversion E; subst; intros H; now inversion H|].
    inversion E; subst; intros H; inversion H; subst. eexists. split; [|split]; [| |reflexivity]; reflexivity.
Qed.

Definition after_ok {A} (p : prog A) (st st' : list lens) : Prop :=
  (fine p -> exists al, alts_only al /\ st' = al ++ st) /\ (clean p -> st' = st).
(** After a failure: either only lenses that recovery skips were left behind, or
    the runtime lost the whole stack (which needs bit mode). *)
Definition after_err {A} (p : prog A) (s : pst) (st' : list lens) : Prop :=
  safe p -> (exists j, no_recover j /\ st' = j ++ pstk s) \/
            (st' = [] /\ ~ (no_bits p /\ exists buf start, InvB buf start s)).

Lemma invb_end_slice buf start s al e rest r s' :
  InvB buf start s -> pstk s = al ++ LSlice e :: rest -> alts_only al ->
  p_end_slice s = (r, s') -> r = POk tt.
Proof.
  intros (A & B & C & D & F & G) Hs Ha. unfold p_end_slice. rewrite Hs, (close_alts _ _ _ _ Ha).
  assert (in_bytes e) as Ee.
  { rewrite Hs in D. clear - D Ha. induction Ha as [|x al Hx Ha IH]; cbn in *; [tauto|apply IH; tauto]. }
  assert (lim (pmax s) (pstk s) = e) as L by (unfold lim; rewrite Hs, (get_limit_alts _ _ Ha); reflexivity).
  rewrite L in G. rewrite (in_bytes_eq _ F), (in_bytes_eq _ Ee), boff_gt_bytes.
  destruct (N.ltb_spec (byte_of e) (byte_of (pcur s))); [lia|]. intros H0; now inversion H0.
Qed.

Lemma alts_no_restore_app al1 al2 : alts_only al1 -> alts_only al2 -> alts_only (al1 ++ al2).
Proof. intros. apply Forall_app. auto. Qed.

Definition PP {A} (p : prog A) : Prop := forall s r s', exec p s = (r, s') ->
  match r with
  | POk _ => after_ok p (pstk s) (pstk s')
  | PErr _ => after_err p s (pstk s')
  | PPanic => True
  end.
(** For branches: [base] is the stack the alternation was entered with. *)
Definition QQ {A} (l : branches A) : Prop := forall s r s' base,
  pstk s = (if is_last l then base else LAlts (pcur s) :: base) ->
  exec_branches l s = (r, s') ->
  match r with
  | POk _ => fine_b l -> exists al, alts_only al /\ pstk s' = al ++ base
  | PErr _ => safe_b l -> (exists j, no_recover j /\ pstk s' = j ++ base) \/
            (pstk s' = [] /\ ~ (no_bits_b l /\ exists buf start, InvB buf start s))
  | PPanic => True
  end.

Lemma same_ok {A} (p : prog A) st : after_ok p st st.
Proof. split; [intros _; exists []; split; [constructor|reflexivity]|reflexivity]. Qed.
Lemma same_err {A} (p : prog A) s s' : pstk s' = pstk s -> after_err p s (pstk s').
Proof. intros -> _. left. exists []. split; [constructor|reflexivity]. Qed.

Lemma simple_PP {A} (p : prog A) :
  (forall s r s', exec p s = (r, s') -> pstk s' = pstk s) -> PP p.
Proof.
  intros H s r s' E. apply H in E. destruct r; [rewrite E; apply same_ok|now apply same_err|exact Logic.I].
Qed.

Lemma PP_all A (p : prog A) : PP p.
Proof.
  induction p using prog_mut with (P := fun A (p : prog A) => PP p) (P0 := fun A (l : branches A) => QQ l).
  - apply simple_PP. intros s r s' HE. now inversion HE.
  - (* Bind *)
    intros s r s' HE. cbn [exec] in HE. inv_then HE s1.
    + pose proof (IHp _ _ _ E) as [H1 H2]. pose proof (H a _ _ _ K) as H3. destruct r; [| |exact Logic.I].
      * destruct H3 as [H3 H4]. split.
        -- intros (Fp & Fk). destruct (H1 Fp) as (al & Ha & Es). destruct (H3 (Fk a)) as (al' & Ha' & Es').
           exists (al' ++ al). split; [now apply alts_no_restore_app|]. rewrite Es', Es. now rewrite app_assoc.
        -- intros (Cp & Ck). rewrite (H4 (Ck a)). now apply H2.
      * intros (Sp & Cp & Sk). destruct (H3 (Sk a)) as [(j & Hj & Ej)|(Ej & Nj)].
        -- left. exists j. split; [exact Hj|]. rewrite Ej. now rewrite (H2 Cp).
        -- right. split; [exact Ej|]. intros ([NB NBk] & buf & start & I). apply Nj. split; [apply NBk|].
           exists buf, start. eapply exec_invb; eauto. discriminate.
    + subst r. intros (Sp & Cp & Sk). destruct (IHp _ _ _ E Sp) as [(j & Hj & Ej)|(Ej & Nj)]; [left; eauto|].
      right. split; [exact Ej|]. intros ([NB _] & X). apply Nj. split; assumption.
    + now subst.
  - apply simple_PP. intros s r s' HE. now inversion HE.
  - apply simple_PP. intros s r s' HE. now inversion HE.
  - apply simple_PP. intros s r s' HE. now apply read_stk in HE.
  - apply simple_PP. intros s r s' HE. apply remaining_st in HE. now subst.
  - apply simple_PP. intros s r s' HE. apply finish_st in HE. now subst.
  - apply simple_PP. intros s r s' HE. now apply align_stk in HE.
  - apply simple_PP. intros s r s' HE. now inversion HE.
  - apply simple_PP. intros s r s' HE. apply offset_st in HE. now subst.
  - apply simple_PP. intros s r s' HE. apply view_st in HE. now subst.
  - (* Slice *)
    intros s r s' HE. cbn [exec] in HE. inv_then HE s1.
    + assert (exists e, increment_by (pcur s) n = Val e /\ s1 = set_stk s (LSlice e :: pstk s)) as (e & Ee & ->).
      { unfold p_start_slice in E. destruct (increment_by (pcur s) n) as [e|]; [|discriminate].
        destruct (boff_gt e (current_limit s)); inversion E; subst. eauto. }
      inv_then K s2.
      * pose proof (IHp _ _ _ E0) as [H1 H2]. cbn [pstk set_stk] in *. inv_then K0 s3.
        -- inversion K; subst. clear K.
           assert (fine p -> pstk s' = pstk s) as X.
           { intros Fp. destruct (H1 Fp) as (al & Ha & Es). unfold p_end_slice in E1.
             rewrite Es, (close_alts _ _ _ _ Ha) in E1. destruct (boff_gt (pcur s2) e); inversion E1; subst. reflexivity. }
           split; cbn [fine clean]; [|exact X]. intros Fp. rewrite (X Fp). exists []. split; [constructor|reflexivity].
        -- subst r. cbn [safe]. intros Sp. destruct (H1 (safe_fine _ _ Sp)) as (al & Ha & Es). right. split.
           ++ unfold p_end_slice in E1. rewrite Es, (close_alts _ _ _ _ Ha) in E1.
              destruct (boff_gt (pcur s2) e); inversion E1; subst. reflexivity.
           ++ intros (NB & buf & start & I). cbn [no_bits] in NB.
              assert (InvB buf start (set_stk s (LSlice e :: pstk s))) as I1.
              { apply (invb_op buf start (POk a, set_stk s (LSlice e :: pstk s)) (OpStartSlice n) s); auto; try discriminate. cbn [step]. now rewrite E. }
              assert (InvB buf start s2) as I2 by (eapply exec_invb; eauto; discriminate).
              pose proof (invb_end_slice _ _ _ _ _ _ _ _ I2 Es Ha E1). discriminate.
        -- now subst.
      * subst r. cbn [safe]. intros Sp. destruct (IHp _ _ _ E0 Sp) as [(j & Hj & Ej)|(Ej & Nj)].
        -- left. exists (j ++ [LSlice e]). split; [apply Forall_app; split; [exact Hj|constructor; [reflexivity|constructor]]|].
           rewrite Ej. cbn [pstk set_stk]. now rewrite <- app_assoc.
        -- right. split; [exact Ej|]. intros (NB & buf & start & I). apply Nj. split; [exact NB|]. exists buf, start.
           apply (invb_op buf start (POk a, set_stk s (LSlice e :: pstk s)) (OpStartSlice n) s); auto; try discriminate. cbn [step]. now rewrite E.
      * now subst.
    + subst r. apply same_err. unfold p_start_slice in E. destruct (increment_by (pcur s) n) as [e0|]; [|discriminate].
      destruct (boff_gt e0 (current_limit s)); inversion E; subst. reflexivity.
    + now subst.
  - (* Peek *)
    intros s r s' HE. cbn [exec] in HE. inv_then HE s1; [|discriminate|discriminate].
    inversion E; subst a s1. clear E. inv_then K s2.
    + pose proof (IHp _ _ _ E) as [H1 H2]. cbn [pstk set_stk] in *. inv_then K0 s3.
      * inversion K; subst. clear K.
        assert (fine p -> pstk s' = pstk s) as X.
        { intros Fp. destruct (H1 Fp) as (al & Ha & Es). unfold p_close_peek in E0.
          rewrite Es, (restore_alts al (pcur s) (pstk s)) in E0 by (auto; reflexivity). inversion E0; subst. reflexivity. }
        split; cbn [fine clean]; [|exact X]. intros Fp. rewrite (X Fp). exists []. split; [constructor|reflexivity].
      * subst r. cbn [safe]. intros Sp. exfalso. destruct (H1 (safe_fine _ _ Sp)) as (al & Ha & Es).
        unfold p_close_peek in E0. rewrite Es, (restore_alts al (pcur s) (pstk s)) in E0 by (auto; reflexivity). discriminate.
      * now subst.
    + subst r. cbn [safe]. intros Sp. destruct (IHp _ _ _ E Sp) as [(j & Hj & Ej)|(Ej & Nj)].
      * left. exists (j ++ [LPeek (pcur s)]). split; [apply Forall_app; split; [exact Hj|constructor; [reflexivity|constructor]]|].
        rewrite Ej. cbn [pstk set_stk]. now rewrite <- app_assoc.
      * right. split; [exact Ej|]. intros (NB & buf & start & I). apply Nj. split; [exact NB|]. exists buf, start.
        apply invb_push; [exact I|reflexivity|exact Logic.I].
    + now subst.
  - (* OffsetPeek *)
    intros s r s' HE. cbn [exec] in HE. inv_then HE s1.
    + destruct (seek_stk _ _ _ _ E) as (l & Hl1 & Hl2 & Es1). inv_then K s2.
      * pose proof (IHp _ _ _ E0) as [H1 H2]. rewrite Es1 in *. inv_then K0 s3.
        -- inversion K; subst. clear K.
           assert (fine p -> pstk s' = pstk s) as X.
           { intros Fp. destruct (H1 Fp) as (al & Ha & Es). unfold p_close_peek in E1.
             rewrite Es, (restore_alts al _ (pstk s) l Ha Hl1) in E1. inversion E1; subst. reflexivity. }
           split; cbn [fine clean]; [|exact X]. intros Fp. rewrite (X Fp). exists []. split; [constructor|reflexivity].
        -- subst r. cbn [safe]. intros Sp. exfalso. destruct (H1 (safe_fine _ _ Sp)) as (al & Ha & Es).
           unfold p_close_peek in E1. rewrite Es, (restore_alts al _ (pstk s) l Ha Hl1) in E1. discriminate.
        -- now subst.
      * subst r. cbn [safe]. intros Sp. destruct (IHp _ _ _ E0 Sp) as [(j & Hj & Ej)|(Ej & Nj)].
        -- left. exists (j ++ [l]). split; [apply Forall_app; split; [exact Hj|constructor; [exact Hl2|constructor]]|].
           rewrite Ej, Es1. now rewrite <- app_assoc.
        -- right. split; [exact Ej|]. intros (NB & buf & start & I). apply Nj. split; [exact NB|]. exists buf, start.
           apply (invb_op buf start (POk a, s1) (OpAdvanceOrSeek target) s); auto; try discriminate. cbn [step]. now rewrite E.
      * now subst.
    + subst r. intros _. left. destruct (seek_stk _ _ _ _ E) as [X|[c X]]; rewrite X.
      * exists []. split; [constructor|reflexivity].
      * exists [LPeek c]. split; [constructor; [reflexivity|constructor]|reflexivity].
    + now subst.
  - (* PeekNot *)
    intros s r s' HE. cbn [exec] in HE. inv_then HE s1; [|discriminate|discriminate].
    inversion E; subst a s1. clear E. destruct (exec p (set_stk s (LPeekNot (pcur s) :: pstk s))) as [[b|e|] s2] eqn:Ep.
    + inversion K; subst. intros [].
    + pose proof (IHp _ _ _ Ep) as H1. unfold p_close_peek_not, p_recover in K.
      destruct (stack_recover (pstk s2)) as [[c k]|] eqn:R; inversion K; subst.
      * assert (safe p -> k = pstk s) as X.
        { intros Sp. destruct (H1 Sp) as [(j & Hj & Ej)|(Ej & _)]; [|rewrite Ej in R; discriminate].
          cbn [pstk set_stk] in Ej. rewrite Ej, (recover_junk j (pcur s) (pstk s)) in R by (auto; reflexivity).
          inversion R; subst; reflexivity. }
        split; cbn [fine clean pstk]; [|exact X]. intros Sp. rewrite (X Sp). exists []. split; [constructor|reflexivity].
      * intros [].
    + inversion K; subst. exact Logic.I.
  - (* BitsOf *)
    intros s r s' HE. cbn [exec] in HE. inv_then HE s1.
    + assert (pstk s1 = pstk s) as S1.
      { unfold p_enter_bits in E. destruct (pcur s); inversion E; subst. reflexivity. }
      inv_then K s2.
      * pose proof (IHp _ _ _ E0) as [H1 H2]. rewrite S1 in *. inv_then K0 s3.
        -- inversion K; subst. clear K.
           assert (pstk s' = pstk s2) as S2.
           { unfold p_escape_bits in E1. destruct (pcur s2); inversion E1; subst. reflexivity. }
           split; cbn [fine clean]; rewrite S2; assumption.
        -- subst r. cbn [safe]. intros (Sp & Cp).
           assert (pstk s' = pstk s2) as S2.
           { unfold p_escape_bits in E1. destruct (pcur s2); inversion E1; subst. reflexivity. }
           left. exists []. split; [constructor|]. cbn [app]. rewrite S2. now apply H2.
        -- now subst.
      * subst r. cbn [safe]. intros (Sp & Cp). destruct (IHp _ _ _ E0 Sp) as [(j & Hj & Ej)|(Ej & Nj)].
        -- left. exists j. split; [exact Hj|]. rewrite Ej. now rewrite S1.
        -- right. split; [exact Ej|]. intros ([] & _).
      * now subst.
    + subst r. apply same_err. unfold p_enter_bits in E. destruct (pcur s); inversion E; subst. reflexivity.
    + now subst.
  - (* Alts *)
    intros s r s' HE. cbn [exec] in HE. inv_then HE s1; [|discriminate|discriminate].
    inversion E; subst a s1. clear E.
    pose proof (IHp (set_stk s (LAlts (pcur s) :: pstk s)) r s') as H1. cbn [pstk set_stk pcur] in H1.
    destruct (is_last l) eqn:L.
    + specialize (H1 (LAlts (pcur s) :: pstk s) eq_refl K). destruct r; [| |exact Logic.I].
      * split; cbn [fine clean]; [|intros []]. intros Fl. destruct (H1 Fl) as (al & Ha & Es).
        exists (al ++ [LAlts (pcur s)]). split; [apply alts_no_restore_app; [exact Ha|constructor; [exact Logic.I|constructor]]|].
        rewrite Es. now rewrite <- app_assoc.
      * cbn [safe]. intros (X & _). congruence.
    + specialize (H1 (pstk s) eq_refl K). destruct r; [| |exact Logic.I].
      * split; cbn [fine clean]; [exact H1|intros []].
      * cbn [safe]. intros (_ & Sl). destruct (H1 Sl) as [X|(X & Y)]; [left; exact X|right].
        split; [exact X|]. intros (NB & buf & start & I). apply Y. split; [exact NB|]. exists buf, start.
        apply invb_push; [exact I|reflexivity|exact Logic.I].
  - apply simple_PP. intros s r s' HE. cbn [exec] in HE. destruct (exec p (parser_of_view buf start)) as [r0 s0]. now inversion HE.
  - intros s r s' HE. cbn [exec] in HE. destruct (exec p s) as [[a|e|] s0]; inversion HE; subst; [| |exact Logic.I];
      split; cbn [fine clean]; intros [].
  - (* BLast *)
    intros s r s' base Hs HE. cbn [is_last exec_branches] in *. subst base. pose proof (IHp _ _ _ HE) as H1.
    destruct r; [|exact H1|exact Logic.I]. destruct H1 as [H1 _]. exact H1.
  - (* BMore *)
    intros s r s' base Hs HE. cbn [is_last exec_branches] in *.
    destruct (exec p s) as [[a|e|] s0] eqn:Ep.
    + inversion HE; subst. intros (Sp & _). pose proof (IHp _ _ _ Ep) as [H1 _].
      destruct (H1 (safe_fine _ _ Sp)) as (al & Ha & Es). exists (al ++ [LAlts (pcur s)]).
      split; [apply alts_no_restore_app; [exact Ha|constructor; [exact Logic.I|constructor]]|].
      rewrite Es, Hs. now rewrite <- app_assoc.
    + pose proof (IHp _ _ _ Ep) as H1. unfold p_next_alt, p_recover in HE.
      destruct (stack_recover (pstk s0)) as [[c k]|] eqn:R.
      * assert (safe p -> c = pcur s /\ k = base) as X.
        { intros Sp. destruct (H1 Sp) as [(j & Hj & Ej)|(Ej & _)]; [|rewrite Ej in R; discriminate].
          rewrite Ej, Hs, (recover_junk j (pcur s) base) in R by (auto; reflexivity). inversion R; auto. }
        assert (forall buf start, no_bits p -> InvB buf start s -> InvB buf start (Pst (pbuf s0) (pstart s0) c k (pmax s0))) as XI.
        { intros buf start NB I. assert (InvB buf start s0) as I0 by (eapply exec_invb; eauto; discriminate).
          apply (invb_recover buf start s0 (POk tt)); [exact I0|]. unfold p_recover. now rewrite R. }
        destruct (is_last rest) eqn:L.
        -- cbn [then_] in HE. specialize (IHp0 (Pst (pbuf s0) (pstart s0) c k (pmax s0)) r s' k). rewrite L in IHp0.
           specialize (IHp0 eq_refl HE). destruct r; [| |exact Logic.I].
           ++ intros (Sp & Fr). destruct (X Sp) as [-> ->]. exact (IHp0 Fr).
           ++ intros (Sp & Fr). destruct (X Sp) as [-> ->]. destruct (IHp0 Fr) as [Y|(Y & Z)]; [left; exact Y|right].
              split; [exact Y|]. intros ((NB & NBr) & buf & start & I). apply Z. split; [exact NBr|]. exists buf, start. now apply XI.
        -- cbn [then_ p_start_alt] in HE. cbn [set_stk pcur pstk pbuf pstart pmax] in HE.
           specialize (IHp0 (Pst (pbuf s0) (pstart s0) c (LAlts c :: k) (pmax s0)) r s' k). rewrite L in IHp0.
           specialize (IHp0 eq_refl HE). destruct r; [| |exact Logic.I].
           ++ intros (Sp & Fr). destruct (X Sp) as [-> ->]. exact (IHp0 Fr).
           ++ intros (Sp & Fr). destruct (X Sp) as [-> ->]. destruct (IHp0 Fr) as [Y|(Y & Z)]; [left; exact Y|right].
              split; [exact Y|]. intros ((NB & NBr) & buf & start & I). apply Z. split; [exact NBr|]. exists buf, start.
              apply (invb_push buf start (Pst (pbuf s0) (pstart s0) (pcur s) base (pmax s0))); [now apply XI|reflexivity|exact Logic.I].
      * cbn [then_] in HE. inversion HE; subst. intros (Sp & Sr). right. split; [reflexivity|].
        intros ((NB & NBr) & X). destruct (H1 Sp) as [(j & Hj & Ej)|(Ej & Nj)].
        -- rewrite Ej, Hs, (recover_junk j (pcur s) base) in R by (auto; reflexivity). discriminate.
        -- apply Nj. split; assumption.
    + inversion HE; subst. exact Logic.I.
Qed.

(** ** The buffer itself never changes *)
Definition frame (s s' : pst) : Prop := pbuf s' = pbuf s /\ pstart s' = pstart s /\ pmax s' = pmax s.
Lemma frame_refl s : frame s s.
Proof. repeat split. Qed.
Lemma frame_trans a b c : frame a b -> frame b c -> frame a c.
Proof. intros (A & B & C) (A' & B' & C'). repeat split; congruence. Qed.
Lemma frame_cur s o : frame s (set_cur s o).
Proof. repeat split. Qed.
Lemma frame_stk s k : frame s (set_stk s k).
Proof. repeat split. Qed.
Lemma frame_eq s s' : frame s s' -> pcur s' = pcur s -> pstk s' = pstk s -> s' = s.
Proof. destruct s, s'. cbn. intros (A & B & C) D E. cbn in *. congruence. Qed.

Lemma try_frame d s r s' : try_increment d s = (r, s') -> frame s s'.
Proof. intros E. apply try_increment_cases in E. destruct r; [destruct E as (_ & b & _ & _ & ->)|subst|subst]; repeat split. Qed.
Lemma advance_frame d s r s' : p_advance_by d s = (r, s') -> frame s s'.
Proof.
  unfold p_advance_by. destruct (try_increment d s) as [q k] eqn:E. apply try_frame in E.
  destruct q; intros H; inversion H; subst; exact E.
Qed.
Lemma read_frame s r s' : p_read_byte s = (r, s') -> frame s s'.
Proof.
  unfold p_read_byte. destruct (try_increment 1 s) as [q k] eqn:E. apply try_frame in E.
  destruct q; [|intros H; inversion H; subst; exact E|intros H; inversion H; subst; exact E].
  destruct (as_bytes a) as [ix sb]. destruct (nth_error (pbuf k) (N.to_nat ix)); [destruct sb|];
    intros H; inversion H; subst; exact E.
Qed.
Lemma align_frame n s r s' : p_skip_align n s = (r, s') -> frame s s'.
Proof.
  unfold p_skip_align. destruct (n =? 0); [intros H; inversion H; apply frame_refl|].
  destruct (obind _ _); [apply advance_frame|intros H; inversion H; apply frame_refl].
Qed.
Lemma seek_frame n s r s' : p_advance_or_seek n s = (r, s') -> frame s s'.
Proof.
  unfold p_advance_or_seek. destruct (n <? pstart s); [intros H; inversion H; apply frame_refl|].
  destruct (checked_delta (pcur s) (Bytes (n - pstart s))) as [[d|]|]; [| |intros H; inversion H; apply frame_refl].
  - destruct (try_increment d _) as [q k] eqn:E. apply try_frame in E.
    destruct q; intros H; inversion H; subst; exact E.
  - destruct (seek_to_offset (n - pstart s) false s) as [q k] eqn:E. unfold seek_to_offset in E.
    destruct (boff_gt (Bytes (n - pstart s)) (pmax s)); [inversion E; subst; intros H; inversion H; apply frame_refl|].
    destruct (is_bit_mode (pcur s)); inversion E; subst; intros H; inversion H; subst; repeat split.
Qed.
Lemma start_slice_frame n s r s' : p_start_slice n s = (r, s') -> frame s s'.
Proof.
  unfold p_start_slice. destruct (increment_by (pcur s) n); [|intros H; inversion H; apply frame_refl].
  destruct (boff_gt a (current_limit s)); intros H; inversion H; repeat split.
Qed.
Lemma end_slice_frame s r s' : p_end_slice s = (r, s') -> frame s s'.
Proof. unfold p_end_slice. destruct (close_slice_stk _ _) as [[e|e|] k]; intros H; inversion H; repeat split. Qed.
Lemma close_peek_frame s r s' : p_close_peek s = (r, s') -> frame s s'.
Proof. unfold p_close_peek. destruct (stack_restore _) as [[e k]|]; intros H; inversion H; repeat split. Qed.
Lemma recover_frame s r s' : p_recover s = (r, s') -> frame s s'.
Proof. unfold p_recover. destruct (stack_recover _) as [[e k]|]; intros H; inversion H; repeat split. Qed.
Lemma next_alt_frame b s r s' : p_next_alt b s = (r, s') -> frame s s'.
Proof.
  unfold p_next_alt. destruct (p_recover s) as [[e|e|] k] eqn:E; apply recover_frame in E;
    [destruct b|..]; intros H; inversion H; subst; exact E.
Qed.
Lemma enter_frame s r s' : p_enter_bits s = (r, s') -> frame s s'.
Proof. unfold p_enter_bits. destruct (pcur s); intros H; inversion H; repeat split. Qed.
Lemma escape_frame s r s' : p_escape_bits s = (r, s') -> frame s s'.
Proof. unfold p_escape_bits. destruct (pcur s); intros H; inversion H; repeat split. Qed.

Ltac fw := repeat match goal with
  | H : p_start_slice _ _ = _ |- _ => apply start_slice_frame in H
  | H : p_end_slice _ = _ |- _ => apply end_slice_frame in H
  | H : p_close_peek _ = _ |- _ => apply close_peek_frame in H
  | H : p_advance_or_seek _ _ = _ |- _ => apply seek_frame in H
  | H : p_next_alt _ _ = _ |- _ => apply next_alt_frame in H
  | H : p_enter_bits _ = _ |- _ => apply enter_frame in H
  | H : p_escape_bits _ = _ |- _ => apply escape_frame in H
  | H : p_read_byte _ = _ |- _ => apply read_frame in H
  | H : p_skip_align _ _ = _ |- _ => apply align_frame in H
  | IH : (forall s r s', exec ?p s = _ -> _), H : exec ?p _ = _ |- _ => apply IH in H
  | IH : (forall s r s', exec_branches ?p s = _ -> _), H : exec_branches ?p _ = _ |- _ => apply IH in H
  | IH : (forall a s r s', exec (?k a) s = _ -> _), H : exec (?k _) _ = _ |- _ => apply IH in H
  end.
Ltac fr := subst; fw; repeat (eassumption || apply frame_refl || (eapply frame_trans; [eassumption|])).

Lemma exec_frame A (p : prog A) : forall s r s', exec p s = (r, s') -> frame s s'.
Proof.
  induction p using prog_mut with
    (P := fun A (p : prog A) => forall s r s', exec p s = (r, s') -> frame s s')
    (P0 := fun A (l : branches A) => forall s r s', exec_branches l s = (r, s') -> frame s s');
    cbn [exec exec_branches]; intros s r s' HE.
  - inversion HE; fr.
  - inv_then HE s1; fr.
  - inversion HE; fr.
  - inversion HE; fr.
  - fr.
  - apply remaining_st in HE. subst. fr.
  - apply finish_st in HE. subst. fr.
  - fr.
  - inversion HE; subst. apply frame_cur.
  - apply offset_st in HE. subst. fr.
  - apply view_st in HE. subst. fr.
  - inv_then HE s1; [inv_then K s2; [inv_then K0 s3; [inversion K; subst|..]|..]|..]; fr.
  - inv_then HE s1; [inversion E; subst|discriminate..].
    eapply frame_trans; [apply (frame_stk s (LPeek (pcur s) :: pstk s))|].
    inv_then K s2; [inv_then K0 s3; [inversion K; subst|..]|..]; fr.
  - inv_then HE s1; [inv_then K s2; [inv_then K0 s3; [inversion K; subst|..]|..]|..]; fr.
  - inv_then HE s1; [inversion E; subst|discriminate..].
    eapply frame_trans; [apply (frame_stk s (LPeekNot (pcur s) :: pstk s))|].
    destruct (exec p _) as [[b|e|] s2] eqn:Ep; [| |]; apply IHp in Ep; [inversion K; subst; exact Ep| |inversion K; subst; exact Ep].
    apply recover_frame in K. fr.
  - inv_then HE s1; [inv_then K s2; [inv_then K0 s3; [inversion K; subst|..]|..]|..]; fr.
  - inv_then HE s1; [inversion E; subst|discriminate..].
    eapply frame_trans; [apply (frame_stk s (LAlts (pcur s) :: pstk s))|]. fr.
  - destruct (exec p (parser_of_view buf start)) as [r0 s0]. inversion HE; fr.
  - destruct (exec p s) as [[a|e|] s0] eqn:Ep; inversion HE; subst; fr.
  - fr.
  - destruct (exec p s) as [[a|e|] s0] eqn:Ep; [inversion HE; subst; fr| |inversion HE; subst; fr].
    apply IHp in Ep. eapply frame_trans; [exact Ep|]. inv_then HE s1; subst; fr.
Qed.

(** ** C15 *)
Lemma peek_restores A (p : prog A) s a s' : fine p -> exec (Peek p) s = (POk a, s') -> s' = s.
Proof.
  intros Fp HE. pose proof (exec_frame _ _ _ _ _ HE) as F. pose proof (PP_all _ _ _ _ _ HE) as [_ C].
  specialize (C Fp). apply frame_eq; [exact F| |exact C].
  cbn [exec] in HE. inv_then HE s1; [inversion E; subst; clear E|discriminate..]. inv_then K s2; [|discriminate..].
  destruct (PP_all _ _ _ _ _ E) as [H1 _]. destruct (H1 Fp) as (al & Ha & Es).
  inv_then K0 s3; [inversion K; subst|discriminate..]. unfold p_close_peek in E0. cbn [pstk set_stk] in Es.
  rewrite Es, (restore_alts al (pcur s) (pstk s)) in E0 by (auto; reflexivity). inversion E0; subst. reflexivity.
Qed.
Lemma offset_peek_restores A n (p : prog A) s a s' : fine p -> exec (OffsetPeek n p) s = (POk a, s') -> s' = s.
Proof.
  intros Fp HE. pose proof (exec_frame _ _ _ _ _ HE) as F. pose proof (PP_all _ _ _ _ _ HE) as [_ C].
  specialize (C Fp). apply frame_eq; [exact F| |exact C].
  cbn [exec] in HE. inv_then HE s1; [|discriminate..]. destruct (seek_stk _ _ _ _ E) as (l & Hl1 & Hl2 & Es1).
  inv_then K s2; [|discriminate..].
  destruct (PP_all _ _ _ _ _ E0) as [H1 _]. destruct (H1 Fp) as (al & Ha & Es).
  inv_then K0 s3; [inversion K; subst|discriminate..]. unfold p_close_peek in E1.
  rewrite Es, Es1, (restore_alts al _ (pstk s) l Ha Hl1) in E1. inversion E1; subst. reflexivity.
Qed.
Lemma peek_not_restores A (p : prog A) s a s' : safe p -> exec (PeekNot p) s = (POk a, s') -> s' = s.
Proof.
  intros Sp HE. pose proof (exec_frame _ _ _ _ _ HE) as F. pose proof (PP_all _ _ _ _ _ HE) as [_ C].
  specialize (C Sp). apply frame_eq; [exact F| |exact C].
  cbn [exec] in HE. inv_then HE s1; [inversion E; subst; clear E|discriminate..].
  destruct (exec p _) as [[b|e|] s2] eqn:Ep; try discriminate.
  destruct (PP_all _ _ _ _ _ Ep Sp) as [(j & Hj & Es)|(Ej & _)]; unfold p_close_peek_not, p_recover in K.
  - cbn [pstk set_stk] in Es. rewrite Es, (recover_junk j (pcur s) (pstk s)) in K by (auto; reflexivity). inversion K; subst. reflexivity.
  - rewrite Ej in K. discriminate.
Qed.

(** ** C16 *)
(** Trying the remaining branches on their own, from a given state. *)
Definition from_branch {A} (l : branches A) (s : pst) : pres A * pst :=
  match l in branches B return pres B * pst with
  | BLast q => exec q s
  | BMore q r => exec (Alts (BMore q r)) s
  end.
Lemma alts_rewind A (p : prog A) (rest : branches A) s e s1 :
  safe p -> exec p (snd (p_start_alt s)) = (PErr e, s1) ->
  (exec (Alts (BMore p rest)) s =
     from_branch rest s) \/
  (fst (exec (Alts (BMore p rest)) s) = PErr ENoRecovery /\
   ~ (no_bits p /\ exists buf start, InvB buf start s)).
Proof.
  intros Sp HE. cbn [exec exec_branches p_start_alt then_ snd] in *.
  replace (exec p (set_stk s (LAlts (pcur s) :: pstk s))) with (PErr (A:=A) e, s1).
  pose proof (exec_frame _ _ _ _ _ HE) as F. cbn [set_stk] in F.
  destruct (PP_all _ _ _ _ _ HE Sp) as [(j & Hj & Es)|(Ej & Nj)].
  - left. cbn [pstk set_stk] in Es. unfold p_next_alt, p_recover.
    rewrite Es, (recover_junk j (pcur s) (pstk s)) by (auto; reflexivity).
    assert (Pst (pbuf s1) (pstart s1) (pcur s) (pstk s) (pmax s1) = s) as ->.
    { destruct F as (F1 & F2 & F3). cbn in F1, F2, F3. rewrite F1, F2, F3. now destruct s. }
    destruct rest as [B q|B q rest']; cbn [is_last]; reflexivity.
  - right. unfold p_next_alt, p_recover. rewrite Ej. split; [reflexivity|].
    intros (NB & buf & start & I). apply Nj. split; [exact NB|]. exists buf, start.
    apply invb_push; [exact I|reflexivity|exact Logic.I].
Qed.

(** ** C20 *)
Lemma slice_result A n (p : prog A) s a s' : fine p -> exec (Slice n p) s = (POk a, s') ->
  exists e, increment_by (pcur s) n = Val e /\ s' = set_cur s e.
Proof.
  intros Fp HE. pose proof (exec_frame _ _ _ _ _ HE) as F. pose proof (PP_all _ _ _ _ _ HE) as [_ C].
  specialize (C Fp). cbn [exec] in HE. inv_then HE s1; [|discriminate..].
  assert (exists e, increment_by (pcur s) n = Val e /\ s1 = set_stk s (LSlice e :: pstk s)) as (e & Ee & ->).
  { unfold p_start_slice in E. destruct (increment_by (pcur s) n) as [e|]; [|discriminate].
    destruct (boff_gt e (current_limit s)); inversion E; subst. eauto. }
  exists e. split; [exact Ee|]. apply frame_eq; [exact F| |exact C].
  inv_then K s2; [|discriminate..]. destruct (PP_all _ _ _ _ _ E0) as [H1 _]. destruct (H1 Fp) as (al & Ha & Es).
  inv_then K0 s3; [inversion K; subst|discriminate..]. unfold p_end_slice in E1. cbn [pstk set_stk] in Es.
  rewrite Es, (close_alts _ _ _ _ Ha) in E1. destruct (boff_gt (pcur s2) e); inversion E1; subst. reflexivity.
Qed.
Lemma slice_closes A n (p : prog A) buf start s e a s2 :
  InvB buf start s -> no_bits p -> fine p ->
  p_start_slice n s = (POk tt, e) -> exec p e = (POk a, s2) ->
  exec (Slice n p) s = (POk a, set_cur s (Bytes (pos_of (pcur s) + n))).
Proof.
  intros I NB Fp E1 E2.
  assert (InvB buf start e) as I1.
  { apply (invb_op buf start (POk tt, e) (OpStartSlice n) s); auto; try discriminate. cbn [step]. now rewrite E1. }
  assert (InvB buf start s2) as I2 by (eapply exec_invb; eauto; discriminate).
  assert (exists k, increment_by (pcur s) n = Val k /\ e = set_stk s (LSlice k :: pstk s)) as (k & Ek & ->).
  { unfold p_start_slice in E1. destruct (increment_by (pcur s) n) as [k|]; [|discriminate].
    destruct (boff_gt k (current_limit s)); inversion E1; subst. eauto. }
  destruct (PP_all _ _ _ _ _ E2) as [H1 _]. destruct (H1 Fp) as (al & Ha & Es). cbn [pstk set_stk] in Es.
  destruct (p_end_slice s2) as [r s3] eqn:E3. pose proof (invb_end_slice _ _ _ _ _ _ _ _ I2 Es Ha E3). subst r.
  assert (exec (Slice n p) s = (POk a, s3)) as X. { cbn [exec]. rewrite E1. cbn [then_]. rewrite E2. cbn [then_]. now rewrite E3. }
  rewrite X. destruct (slice_result _ _ _ _ _ _ Fp X) as (k' & Ek' & ->). f_equal. f_equal.
  destruct I as (_ & _ & _ & _ & F & _). rewrite (incr_bytes _ _ _ F Ek'). now rewrite (in_bytes_eq _ F).
Qed.
Lemma slice_opens buf start s n :
  InvB buf start s -> pos_of (pcur s) + n < w64 ->
  (fst (p_start_slice n s) = POk tt <-> exists r, p_remaining s = (POk r, s) /\ n <= r).
Proof.
  intros I Hw. destruct (remaining_bytes _ _ _ I) as (c & l & Hc & Hl & Hr & E).
  unfold p_start_slice. rewrite Hc in *. cbn [increment_by pos_of] in *. destruct (N.ltb_spec (c + n) w64); [|lia].
  rewrite Hl, boff_gt_bytes. rewrite E. destruct (N.ltb_spec l (c + n)); cbn; split; try congruence.
  - intros (r & [= <-] & Hn). lia.
  - intros _. exists (l - c). split; [reflexivity|lia].
Qed.
Lemma slice_inside buf start s n s1 :
  InvB buf start s -> p_start_slice n s = (POk tt, s1) -> fst (p_remaining s1) = POk n.
Proof.
  intros (A & B & C & D & F & G) H. unfold p_start_slice in H.
  destruct (increment_by (pcur s) n) as [k|] eqn:E; [|discriminate].
  destruct (boff_gt k (current_limit s)); inversion H; subst.
  destruct (pcur s) as [c|] eqn:Ec; [|discriminate]. apply (incr_bytes _ _ _ F) in E. cbn in E. subst k.
  unfold p_remaining, current_limit. cbn [get_limit set_stk pstk pcur]. rewrite Ec.
  unfold delta, checked_delta. cbn.
  destruct (N.leb_spec c (c + n)); [|lia]. cbn. f_equal. lia.
Qed.
Lemma align_succeeds buf start h s n :
  N.of_nat (length buf) + 1 < w64 -> ~ In OpEnterBits h -> run h (parser_of_view buf start) = Some s -> n <> 0 ->
  pos_of (pcur s) + n < w64 ->
  (fst (p_skip_align n s) = POk tt <->
   exists r, p_remaining s = (POk r, s) /\ interp_skip n (pos_of (pcur s)) <= r).
Proof.
  intros Hb NB R Hn Hw. destruct (remaining_spec _ _ _ _ Hb NB R) as (r & Er & Ha & _).
  pose proof (invb_run _ _ _ _ _ NB (invb_new buf start) R) as (_ & _ & _ & _ & F & _).
  destruct (pcur s) as [k|] eqn:Ec; [|discriminate]. cbn [pos_of] in *.
  assert (p_skip_align n s = p_advance_by (interp_skip n k) s) as ->.
  { unfold p_skip_align. destruct (N.eqb_spec n 0); [contradiction|]. rewrite Ec.
    unfold interp_skip. destruct (N.eqb_spec (k mod n) 0) as [Z|Z].
    - cbn [obind delta checked_delta is_bit_mode as_bytes fst]. unfold delta. cbn [checked_delta is_bit_mode as_bytes fst].
      rewrite Z, N.sub_0_r, N.mod_same by exact Hn. unfold checked_delta. cbn. rewrite N.leb_refl. now rewrite N.sub_diag.
    - destruct (next_multiple k n Hn Z) as (M1 & M2). pose proof (N.mod_lt k n Hn) as Hlt.
      rewrite (N.mod_small (n - k mod n)) by lia.
      assert ((k / n + 1) * n = k + (n - k mod n)) as Eq.
      { pose proof (N.div_mod k n Hn) as Dm. revert Dm Hlt. generalize (k / n) (k mod n). intros q m Dm Hlt.
        rewrite N.mul_add_distr_r, (N.mul_comm q n). lia. }
      rewrite Eq. destruct (N.ltb_spec (k + (n - k mod n)) w64); [|lia].
      unfold obind, delta, checked_delta. cbn. destruct (N.leb_spec k (k + (n - k mod n))); [|lia]. f_equal.
      generalize (k mod n). intros; lia. }
  rewrite Ha. split; [eauto|]. intros (r' & Er' & H). rewrite Er in Er'. injection Er' as <-. exact H.
Qed.
