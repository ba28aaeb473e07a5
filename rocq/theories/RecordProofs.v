(** Proofs about record formats. *)
From Coq Require Import String Ascii.
From Verif Require ByteSetModel ByteSetProofs.
From Verif Require Import Base BoundsModel DataModel DataProofs NumericModel NumericProofs ValueModel FormatModel DecoderModel FormatSpec
  RecordModel RecordSpec.
Open Scope nat_scope.

(** ** Names *)
Lemma N_of_ascii_lt a : (N_of_ascii a < 256)%N.
Proof. apply N_ascii_bounded. Qed.
Lemma intern_inj a b : intern a = intern b -> a = b.
Proof.
  revert b. induction a as [|x a IH]; intros [|y b]; cbn [intern]; intros H; [reflexivity|lia|lia|].
  pose proof (N_of_ascii_lt x). pose proof (N_of_ascii_lt y).
  assert (E1 : N_of_ascii x = N_of_ascii y) by lia. assert (E2 : intern a = intern b) by lia.
  apply IH in E2. subst. f_equal. rewrite <- (ascii_N_embedding x), <- (ascii_N_embedding y). now f_equal.
Qed.

(** ** Records *)
Section Sem.
Context (M : fmodule) (strict : bool) (um fl : scope format -> format -> list N -> nat -> Prop) (buf : list N).
Notation R := (fun s f i j v => SemN M strict um fl s f buf i j v).

Lemma record_eval {D} (s : scope D) rs : Forall (fun xv => get_value (fst xv) s = Some (snd xv)) rs ->
  omapM (fun f => match f with (l, e) => omap (pair l) (eval e s) end) (map (fun xv : label * value => (fst xv, EVar (fst xv))) rs) = Val rs.
Proof.
  induction 1 as [|[x v] rs H Hs IH]; [reflexivity|]. cbn [map omapM fst snd] in *. cbn [eval]. rewrite H. cbn [omap obind]. rewrite IH. reflexivity.
Qed.
Lemma chain_fields fs : forall pre s i k v, no_reuse fs ->
  Forall (fun xv => Forall (fun g => name_of g <> Some (fst xv)) fs) pre ->
  Forall (fun xv => get_value (fst xv) s = Some (snd xv)) pre ->
  (SemN M strict um fl s (chain_record (map (fun xv => (fst xv, EVar (fst xv))) pre) fs) buf i k v <->
   exists rs, Fields R s fs i k rs /\ v = record_value (pre ++ rs)).
Proof.
  induction fs as [|[[[x p]|] f] fs IH]; intros pre s i k v Hn Hpre Hs.
  - cbn [chain_record]. rewrite <- (app_nil_r pre) at 2 || idtac.
    assert (E : eval_value match map (fun xv : label * value => (fst xv, EVar (fst xv))) pre with [] => ETuple [] | _ => ERecord (map (fun xv : label * value => (fst xv, EVar (fst xv))) pre) end s = Val (record_value pre)).
    { unfold eval_value. destruct pre as [|a pre]; [reflexivity|]. cbn [map]. cbn [eval].
      change ((fst a, EVar (fst a)) :: map (fun xv : label * value => (fst xv, EVar (fst xv))) pre) with (map (fun xv : label * value => (fst xv, EVar (fst xv))) (a :: pre)).
      rewrite record_eval by assumption. reflexivity. }
    destruct (map (fun xv : label * value => (fst xv, EVar (fst xv))) pre) eqn:Ep;
      (split; [intros H; inversion H; subst; exists []; split; [constructor|]; rewrite app_nil_r in *; congruence
              |intros (rs & HF & ->); inversion HF; subst; rewrite ?app_nil_r in *; constructor; assumption]).
  - cbn [chain_record].
    assert (Hx : forall w, Forall (fun xv => get_value (fst xv) (SSingle s x w) = Some (snd xv)) pre).
    { intros w. rewrite Forall_forall in *. intros [y u] Hy. specialize (Hpre _ Hy). specialize (Hs _ Hy). cbn [fst snd get_value] in *.
      inversion Hpre as [|? ? Hne Hr]; subst. destruct (N.eqb_spec x y) as [->|]; [now contradict Hne|assumption]. }
    assert (Hpre' : Forall (fun xv => Forall (fun g => name_of g <> Some (fst xv)) fs) pre).
    { eapply Forall_impl; [|exact Hpre]. intros a Ha. now inversion Ha. }
    destruct p.
    + destruct Hn as [Hn1 Hn2].
      assert (HI : forall w j, SemN M strict um fl (SSingle s x w) (chain_record (map (fun xv => (fst xv, EVar (fst xv))) pre ++ [(x, EVar x)]) fs) buf j k v <->
        exists rs, Fields R (SSingle s x w) fs j k rs /\ v = record_value ((pre ++ [(x, w)]) ++ rs)).
      { intros w j. specialize (IH (pre ++ [(x, w)]) (SSingle s x w) j k v Hn2). rewrite map_app in IH. apply IH.
        - apply Forall_app. split; [assumption|]. constructor; [exact Hn1|constructor].
        - apply Forall_app. split; [apply Hx|]. constructor; [|constructor]. cbn [fst snd get_value]. now rewrite N.eqb_refl. }
      split.
      * intros H. inversion H; subst. match goal with A : SemN _ _ _ _ (SSingle _ _ _) _ _ _ _ _ |- _ => apply HI in A as (rs & HF & ->) end.
        exists ((x, w) :: rs). rewrite <- app_assoc. split; [econstructor; eassumption|reflexivity].
      * intros (rs & HF & ->). inversion HF; subst. econstructor; [eassumption|]. apply HI. eexists. split; [eassumption|]. now rewrite <- app_assoc.
    + cbn [no_reuse] in Hn. split.
      * intros H. inversion H; subst. match goal with A : SemN _ _ _ _ (SSingle _ _ _) _ _ _ _ _ |- _ => apply IH in A as (rs & HF & ->); auto end.
        exists rs. split; [econstructor; eassumption|reflexivity].
      * intros (rs & HF & ->). inversion HF; subst. econstructor; [eassumption|]. apply IH; auto. eauto.
  - cbn [chain_record]. cbn [no_reuse] in Hn.
    assert (Hpre' : Forall (fun xv => Forall (fun g => name_of g <> Some (fst xv)) fs) pre).
    { eapply Forall_impl; [|exact Hpre]. intros a Ha. now inversion Ha. }
    split.
    + intros H. inversion H; subst. match goal with A : SemN _ _ _ _ s (chain_record _ _) _ _ _ _ |- _ => apply IH in A as (rs & HF & ->); auto end.
      exists rs. split; [econstructor; eassumption|reflexivity].
    + intros (rs & HF & ->). inversion HF; subst. econstructor; [eassumption|]. apply IH; auto. eauto.
Qed.
Lemma record_ext_sem fs s i k v : no_reuse fs ->
  (SemN M strict um fl s (record_ext fs) buf i k v <-> exists rs, Fields R s fs i k rs /\ v = record_value rs).
Proof.
  intros Hn. pose proof (chain_fields fs [] s i k v Hn (Forall_nil _) (Forall_nil _)) as H. cbn [map app] in H.
  unfold record_ext. rewrite <- H. split; [intros A; inversion A; subst; assumption|intros A; now constructor].
Qed.
Lemma chaining_sem gs : forall s f i k v,
  SemN M strict um fl s (chaining gs f) buf i k v <-> Steps R s gs f i k v.
Proof.
  induction gs as [|[[x|] g] gs IH]; intros s f i k v; cbn [chaining].
  - split; [intros H; now constructor|intros H; inversion H; now subst].
  - split; intros H; inversion H; subst.
    + econstructor; [eassumption|]. now apply IH.
    + econstructor; [eassumption|]. now apply IH.
  - split; intros H; inversion H; subst.
    + econstructor; [eassumption|]. now apply IH.
    + econstructor; [eassumption|]. now apply IH.
Qed.
End Sem.
Lemma Fields_impl (R R' : scope format -> format -> nat -> nat -> value -> Prop) s fs i k rs : (forall s f i j v, R s f i j v -> R' s f i j v) -> Fields R s fs i k rs -> Fields R' s fs i k rs.
Proof. intros H. induction 1; econstructor; eauto. Qed.
Lemma Fields_names R s fs i k rs : Fields R s fs i k rs -> map (fun r => Some (fst r)) rs = map name_of (filter kept fs).
Proof. induction 1; cbn [filter map kept name_of fst]; congruence. Qed.
(** Merging: the fields of two records decoded one after the other, the second in
    the scope of the first. *)
Lemma Fields_app R fs gs : forall s i k rs, Fields R s (fs ++ gs) i k rs ->
  exists s' j rs1 rs2, Fields R s fs i j rs1 /\ Fields R s' gs j k rs2 /\ rs = rs1 ++ rs2.
Proof.
  induction fs as [|[l f] fs IH]; intros s i k rs H; cbn [app] in H.
  - exists s, i, [], rs. split; [constructor|auto].
  - inversion H; subst; match goal with A : Fields _ _ (fs ++ gs) _ _ _ |- _ => apply IH in A as (s' & j' & r1 & r2 & A & B & ->) end.
    + exists s', j', r1, r2. split; [econstructor; eassumption|auto].
    + exists s', j', r1, r2. split; [econstructor; eassumption|auto].
    + exists s', j', ((x, v) :: r1), r2. split; [econstructor; eassumption|auto].
Qed.

(** ** The view of a record *)
Lemma accum_chain fs : forall cap, match cap with [] => existsb kept fs | _ => true end = true ->
  record_accum (chain_record cap fs) =
  Some (map (fun f => (name_of f, snd f)) fs,
        cap ++ flat_map (fun f : rfield => match fst f with Some (x, true) => [(x, EVar x)] | _ => [] end) fs).
Proof.
  induction fs as [|[[[x []]|] f] fs IH]; intros cap H.
  - cbn [chain_record]. destruct cap; [discriminate|]. cbn [record_accum map flat_map]. now rewrite app_nil_r.
  - cbn [chain_record record_accum]. rewrite IH by (destruct cap; reflexivity). cbn [map flat_map fst]. now rewrite <- app_assoc.
  - cbn [chain_record record_accum]. rewrite IH by exact H. reflexivity.
  - cbn [chain_record record_accum]. rewrite IH by exact H. reflexivity.
Qed.
Lemma kept_all (fs : list rfield) : forall k0, exists ks,
  kept_names (flat_map (fun f : rfield => match fst f with Some (x, true) => [(x, EVar x)] | _ => [] end) fs) k0 = Val (ks ++ k0) /\
  Forall (fun p => fst p = snd p /\ exists f, In f fs /\ fst f = Some (fst p, true)) ks /\
  (forall x f, In f fs -> fst f = Some (x, true) -> In (x, x) ks).
Proof.
  induction fs as [|[[[x []]|] f] fs IH]; intros k0; cbn [flat_map fst app].
  - exists []. repeat split; [constructor|contradiction].
  - cbn [kept_names]. destruct (IH ((x, x) :: k0)) as (ks & H1 & H2 & H3). exists (ks ++ [(x, x)]). rewrite <- app_assoc. split; [exact H1|]. split.
    + apply Forall_app. split.
      * eapply Forall_impl; [|exact H2]. intros p (E & g & Hg & Eg). split; [assumption|]. exists g. split; [now right|assumption].
      * constructor; [|constructor]. split; [reflexivity|]. eexists. split; [left; reflexivity|reflexivity].
    + intros y g [<-|Hg] Eg; apply in_or_app; [right; cbn in Eg; injection Eg as <-; now left|left; eauto].
  - destruct (IH k0) as (ks & H1 & H2 & H3). exists ks. split; [exact H1|]. split.
    + eapply Forall_impl; [|exact H2]. intros p (E & g & Hg & Eg). split; [assumption|]. exists g. split; [now right|assumption].
    + intros y g [<-|Hg] Eg; [discriminate|eauto].
  - destruct (IH k0) as (ks & H1 & H2 & H3). exists ks. split; [exact H1|]. split.
    + eapply Forall_impl; [|exact H2]. intros p (E & g & Hg & Eg). split; [assumption|]. exists g. split; [now right|assumption].
    + intros y g [<-|Hg] Eg; [discriminate|eauto].
Qed.
Lemma assoc_in {A} x (l : list (label * A)) a : assoc x l = Some a -> In (x, a) l.
Proof.
  induction l as [|[y b] l IH]; cbn [assoc]; [discriminate|]. destruct (N.eqb_spec x y) as [->|]; [intros [= ->]; now left|right; auto].
Qed.
Lemma assoc_some {A} x (l : list (label * A)) a : In (x, a) l -> exists b, assoc x l = Some b.
Proof.
  induction l as [|[y b] l IH]; [contradiction|]. cbn [assoc]. destruct (N.eqb_spec x y) as [->|Hn]; [eauto|].
  intros [[= -> ->]|H]; [congruence|auto].
Qed.
Lemma different_in fs f g x p q : all_different fs -> In f fs -> In g fs -> fst f = Some (x, p) -> fst g = Some (x, q) -> f = g.
Proof.
  induction fs as [|h fs IH]; [contradiction|]. intros [H1 H2] Hf Hg Ef Eg.
  assert (Nf : name_of f = Some x) by (unfold name_of; now rewrite Ef).
  assert (Ng : name_of g = Some x) by (unfold name_of; now rewrite Eg).
  destruct Hf as [<-|Hf], Hg as [<-|Hg]; [reflexivity| | |now apply IH].
  - specialize (H1 x Nf). rewrite Forall_forall in H1. now apply H1 in Hg.
  - specialize (H1 x Ng). rewrite Forall_forall in H1. now apply H1 in Hf.
Qed.
(** The label that the view gives to a field. *)
Definition seen (f : rfield) : field_label :=
  match fst f with None => Anonymous | Some (x, false) => Ephemeral x | Some (x, true) => Permanent x x end.
Lemma view_of_record fs : all_different fs -> existsb kept fs = true ->
  to_record_format (record_ext fs) = Val (map (fun f => (seen f, snd f)) fs).
Proof.
  intros Hd Hk. unfold to_record_format, record_ext. cbn [record_accum]. rewrite accum_chain by exact Hk. cbn [app].
  unfold record_finish. cbn [fst snd]. destruct (kept_all fs []) as (ks & H1 & H2 & H3). rewrite H1. cbn [omap obind].
  f_equal. rewrite map_map. apply map_ext_in. intros f Hf. cbn [fst snd]. f_equal. rewrite app_nil_r.
  destruct f as [[[x p]|] f]; [|reflexivity]. unfold name_of, seen, field_label_of. cbn [fst].
  destruct (assoc x ks) as [y|] eqn:Ea.
  - apply assoc_in in Ea. rewrite Forall_forall in H2. destruct (H2 _ Ea) as (E & g & Hg & Eg). cbn [fst snd] in *. subst y.
    assert (Heq := different_in fs _ g x p true Hd Hf Hg eq_refl Eg). subst g. cbn in Eg. injection Eg as ->. reflexivity.
  - destruct p; [|reflexivity]. destruct (assoc_some x ks x (H3 x _ Hf eq_refl)) as (b & Hb). congruence.
Qed.
Lemma to_option_seen f : to_option (seen f) = fst f.
Proof. destruct f as [[[x []]|] f]; reflexivity. Qed.
Lemma into_seen fs : into_format (map (fun f => (seen f, snd f)) fs) = record_ext fs.
Proof.
  unfold into_format, record_ext. do 2 f_equal. rewrite map_map. rewrite <- (map_id fs) at 2. apply map_ext. intros f. cbn [fst snd].
  rewrite to_option_seen. now destruct f.
Qed.
Lemma merge_seen fss : Forall all_different fss -> Forall (fun fs => existsb kept fs = true) fss ->
  merge_records (map record_ext fss) = Val (record_ext (List.concat fss)).
Proof.
  intros H1 H2. unfold merge_records.
  assert (E : omapM to_record_format (map record_ext fss) = Val (map (map (fun f => (seen f, snd f))) fss)).
  { induction fss as [|fs fss IH]; [reflexivity|]. inversion H1; subst. inversion H2; subst. cbn [map omapM].
    rewrite view_of_record by assumption. cbn [obind]. rewrite IH by assumption. reflexivity. }
  rewrite E. cbn [omap obind]. f_equal. rewrite <- concat_map. apply into_seen.
Qed.
Lemma lookup_seen fs x : lookup_value_field (map (fun f => (seen f, snd f)) fs) x =
  match find (fun f => kept f && match name_of f with Some y => N.eqb y x | None => false end) fs with
  | Some f => Some (snd f, x) | None => None end.
Proof.
  induction fs as [|[[[y []]|] f] fs IH]; cbn; [reflexivity| | |]; try exact IH.
  destruct (N.eqb_spec y x) as [->|]; [reflexivity|exact IH].
Qed.
Lemma remap_chain x g fs : forall cap, remap_field x g (chain_record cap fs) = chain_record cap (change_first x g fs).
Proof.
  induction fs as [|[[[y p]|] f] fs IH]; intros cap; cbn [chain_record remap_field change_first].
  - destruct cap; reflexivity.
  - destruct (N.eqb y x); cbn [chain_record]; [reflexivity|]. now rewrite IH.
  - now rewrite IH.
Qed.

(** ** Bit fields *)
Lemma prefix_two s : String.prefix "__" s = true -> String.prefix "_" s = true.
Proof. destruct s as [|a s]; [discriminate|]. cbn [String.prefix]. destruct (ascii_dec "_" a); [destruct s; auto|discriminate]. Qed.
Lemma auto_ordinary x : ordinary x = true -> auto_label x = Some (intern x, true).
Proof.
  unfold ordinary, auto_label. intros H. apply andb_prop in H as [H1 H2]. apply negb_true_iff in H1, H2. rewrite H1, H2.
  destruct (String.prefix "__" x) eqn:E; [apply prefix_two in E; congruence|reflexivity].
Qed.
Lemma ordinary_not_packed x : ordinary x = true -> intern packed_bits <> intern x.
Proof. intros H E. apply intern_inj in E. subst. discriminate. Qed.
Lemma nbits_le w : (nbits w <= 64)%N.
Proof. destruct w; vm_compute; discriminate. Qed.
Lemma mask_value {D} w x used k e (s : scope D) v n : mask_bits w (EVar x) used k = Val e ->
  get_value x s = Some v -> coerce_mapped v = VU w n -> k <> 0%N ->
  eval_value e s = Val (VU w (bits_from (nbits w) n used k)).
Proof.
  unfold mask_bits. intros H Hg Hv Hk. destruct (N.leb (k + used) (nbits w)) eqn:E1; [|discriminate].
  destruct (N.leb (nbits w) k) eqn:E2; [discriminate|]. cbn [negb] in H. injection H as <-.
  pose proof (nbits_le w) as Hw. unfold eval_value, bits_from. rewrite N.sub_1_r, <- N.ones_equiv.
  destruct (N.eqb_spec (nbits w - used - k) 0) as [E0|E0]; cbn [eval]; rewrite Hg; cbn [omap obind]; rewrite Hv; cbn [coerce_mapped omap obind value_arith];
    assert (Ew : bw_eqb w w = true) by (destruct w; reflexivity); rewrite Ew; cbn [omap obind arith_apply].
  - rewrite E0. change (2 ^ 0)%N with 1%N. rewrite N.div_1_r, N.land_ones. reflexivity.
  - assert (Es : as_u32 (nbits w - used - k) = (nbits w - used - k)%N) by (unfold as_u32; apply N.mod_small; lia).
    cbv zeta. rewrite Es. destruct (N.ltb_spec (nbits w - used - k) (nbits w)) as [Hl|Hl].
    + cbn [omap obind coerce_mapped]. rewrite Ew. cbn [omap obind arith_apply]. rewrite N.shiftr_div_pow2, N.land_ones. reflexivity.
    + exfalso. lia.
Qed.
Lemma bits_one w n used : N.ltb 0 (bits_from w n used 1) = N.eqb (bits_from w n used 1) 1.
Proof.
  unfold bits_from. change (2 ^ 1)%N with 2%N. set (q := (n / 2 ^ (w - used - 1))%N).
  assert (q mod 2 < 2)%N by (apply N.mod_lt; discriminate). destruct (N.ltb_spec 0 (q mod 2)), (N.eqb_spec (q mod 2) 1); lia || reflexivity.
Qed.
Lemma flag_value {D} w x used e (s : scope D) v n : mask_bits w (EVar x) used 1 = Val e ->
  get_value x s = Some v -> coerce_mapped v = VU w n ->
  eval_value (EIntRel RGt e (EU w 0)) s = Val (VBool (N.eqb (bits_from (nbits w) n used 1) 1)).
Proof.
  intros H Hg Hv. pose proof (mask_value w x used 1 e s v n H Hg Hv ltac:(discriminate)) as E. unfold eval_value in *.
  cbn [eval]. rewrite E. cbn [obind omap coerce_mapped value_int_rel]. assert (Ew : bw_eqb w w = true) by (destruct w; reflexivity). rewrite Ew.
  cbn [obind omap coerce_mapped]. do 2 f_equal. rewrite <- bits_one. unfold rel_apply. reflexivity.
Qed.

(** Every field has a bit. *)
Definition wide (b : bit_field) : bool := N.ltb 0 (field_width b).
Definition names (fields : list bit_field) : list string :=
  flat_map (fun b => match field_name b with Some n => [n] | None => [] end) fields.
Definition auto_fields (cs : list (string * format)) : list rfield := map (fun nf => (auto_label (fst nf), snd nf)) cs.

Section BitSem.
Context (M : fmodule) (strict : bool) (um fl : scope format -> format -> list N -> nat -> Prop) (buf : list N).
Notation R := (fun s f i j v => SemN M strict um fl s f buf i j v).
Lemma loop_fields w fields : forall used mask cs mask' (s : scope format) v n j k rs,
  bit_fields_loop w fields used mask = Val (cs, mask') -> forallb wide fields = true ->
  forallb ordinary (names fields) = true ->
  get_value (intern packed_bits) s = Some v -> coerce_mapped v = VU w n ->
  (Fields R s (auto_fields cs) j k rs <-> j = k /\ rs = map (fun xv => (intern (fst xv), snd xv)) (bit_values w n used fields)).
Proof.
  induction fields as [|b fields IH]; intros used mask cs mask' s v n j k rs H Hw Hn Hg Hv.
  - cbn in H. injection H as <- <-. cbn. split; [intros A; inversion A; auto|intros [-> ->]; constructor].
  - cbn [forallb] in Hw. apply andb_prop in Hw as [Hw1 Hw2].
    assert (NAMED : forall x e k0 val rest, mask_bits w (EVar (intern packed_bits)) used k0 = Val rest ->
      ordinary x = true ->
      forall cs0 m0, bit_fields_loop w fields (used + k0) mask = Val (cs0, m0) -> forallb ordinary (names fields) = true ->
      (forall s0 : scope format, get_value (intern packed_bits) s0 = Some v -> eval_value e s0 = Val val) ->
      (Fields R s (auto_fields ((x, FCompute e) :: cs0)) j k rs <->
       j = k /\ rs = map (fun xv => (intern (fst xv), snd xv)) ((x, val) :: bit_values w n (used + k0) fields))).
    { intros x e k0 val rest _ Ho cs0 m0 H0 Hn0 He. unfold auto_fields. cbn [map fst snd]. rewrite auto_ordinary by assumption.
      fold (auto_fields cs0). assert (Hg' : get_value (intern packed_bits) (SSingle s (intern x) val) = Some v).
      { cbn [get_value]. destruct (N.eqb_spec (intern x) (intern packed_bits)) as [E|_]; [|assumption].
        exfalso. apply (ordinary_not_packed x); auto. }
      pose proof (He s Hg) as Hval. split.
      - intros A. inversion A; subst. match goal with B : SemN _ _ _ _ _ (FCompute _) _ _ _ _ |- _ => inversion B; subst end.
        assert (v0 = val) by congruence. subst v0.
        match goal with B : Fields _ _ (auto_fields cs0) _ _ _ |- _ => eapply IH in B as [-> ->]; eauto end.
      - intros [-> ->]. econstructor; [constructor; exact Hval|]. eapply IH; eauto. }
    destruct b as [x|x k0|k0 c]; cbn [bit_fields_loop field_name field_width is_flag check_zero] in H.
    + destruct (mask_bits w (EVar (intern packed_bits)) used 1) as [e|] eqn:Em; [|discriminate]. cbn [obind] in H.
      destruct (bit_fields_loop w fields (used + 1) mask) as [[cs0 m0]|] eqn:El; [|discriminate]. cbn in H. injection H as <- <-.
      cbn in Hn. apply andb_prop in Hn as [Hn1 Hn2]. cbn [bit_values]. eapply NAMED; eauto.
      intros s0 Hs0. eapply flag_value; eauto.
    + destruct (mask_bits w (EVar (intern packed_bits)) used k0) as [e|] eqn:Em; [|discriminate]. cbn [obind] in H.
      destruct (bit_fields_loop w fields (used + k0) mask) as [[cs0 m0]|] eqn:El; [|discriminate]. cbn in H. injection H as <- <-.
      cbn in Hn. apply andb_prop in Hn as [Hn1 Hn2]. cbn [bit_values]. eapply NAMED; eauto.
      intros s0 Hs0. eapply mask_value; eauto. cbn in Hw1. intros ->. discriminate.
    + cbn in Hn. cbn [bit_values]. destruct c.
      * destruct (N.leb (nbits w) k0 || N.leb (nbits w) (nbits w - (used + k0))); [discriminate|]. eapply IH; eauto.
      * eapply IH; eauto.
Qed.
End BitSem.
Lemma loop_mask w fields : forall used cs mask', bit_fields_loop w fields used 0 = Val (cs, mask') -> mask' = 0%N.
Proof.
  induction fields as [|b fields IH]; intros used cs mask' H; cbn [bit_fields_loop] in H; [now injection H|].
  destruct (field_name b).
  - destruct (mask_bits _ _ _ _); [|discriminate]. cbn [obind] in H. destruct (bit_fields_loop w fields (used + field_width b) 0) as [[c0 m0]|] eqn:E; [|discriminate].
    cbn in H. injection H as <- <-. eauto.
  - destruct (check_zero b); [|eauto]. destruct (_ || _); [discriminate|]. rewrite N.land_0_l in H. eauto.
Qed.
Lemma loop_names w fields : forall used mask cs mask', bit_fields_loop w fields used mask = Val (cs, mask') -> map fst cs = names fields.
Proof.
  induction fields as [|b fields IH]; intros used mask cs mask' H; cbn [bit_fields_loop] in H; [now injection H as <- <-|].
  unfold names. cbn [flat_map]. destruct (field_name b).
  - destruct (mask_bits _ _ _ _); [|discriminate]. cbn [obind] in H. destruct (bit_fields_loop w fields (used + field_width b) mask) as [[c0 m0]|] eqn:E; [|discriminate].
    cbn in H. injection H as <- <-. cbn [map fst app]. f_equal. eauto.
  - destruct (check_zero b); [destruct (_ || _); [discriminate|]|]; cbn [app]; eauto.
Qed.
Lemma auto_no_reuse cs : forallb ordinary (map fst cs) = true -> NoDup (map fst cs) -> no_reuse (auto_fields cs).
Proof.
  induction cs as [|[x f] cs IH]; cbn [map fst forallb]; intros Ho Hd; [exact I|]. apply andb_prop in Ho as [H1 H2]. inversion Hd; subst.
  unfold auto_fields. cbn [map fst snd no_reuse]. rewrite auto_ordinary by assumption. split; [|now apply IH].
  apply Forall_forall. intros g Hg. apply in_map_iff in Hg as ([y h] & <- & Hy). unfold name_of. cbn [fst snd].
  assert (Hoy : ordinary y = true). { rewrite forallb_forall in H2. apply H2. apply in_map_iff. now exists (y, h). }
  rewrite auto_ordinary by assumption. intros [= E]. apply intern_inj in E. subst y. match goal with B : ~ In _ _ |- _ => apply B end. apply in_map_iff. now exists (x, h).
Qed.
Lemma bit_fields_sem M strict um fl buf w word fields f s i j v :
  bit_fields w word fields = Val f -> forallb wide fields = true ->
  forallb ordinary (names fields) = true -> NoDup (names fields) ->
  (forall u i j, SemN M strict um fl s word buf i j u -> exists n, coerce_mapped u = VU w n) ->
  (SemN M strict um fl s f buf i j v <->
   exists u n, SemN M strict um fl s word buf i j u /\ coerce_mapped u = VU w n /\
     v = record_value (map (fun xv => (intern (fst xv), snd xv)) (bit_values w n 0 fields))).
Proof.
  unfold bit_fields. intros H Hw Hn Hd Hword. destruct (N.eqb _ _); [|discriminate]. cbn [negb] in H.
  destruct (bit_fields_loop w fields 0 0) as [[cs mask]|] eqn:El; [|discriminate]. cbn [omap obind fst snd] in H.
  pose proof (loop_mask _ _ _ _ _ El) as ->. cbn [N.eqb] in H. injection H as <-. unfold record_auto. cbn [map fst snd].
  change (auto_label packed_bits) with (Some (intern packed_bits, false)). fold (auto_fields cs).
  pose proof (loop_names _ _ _ _ _ _ El) as En. rewrite record_ext_sem.
  2: { cbn [no_reuse]. apply auto_no_reuse; rewrite En; assumption. }
  split.
  - intros (rs & HF & ->). inversion HF; subst.
    match goal with A : SemN _ _ _ _ s word _ _ _ _, B : Fields _ _ (auto_fields cs) _ _ _ |- _ =>
      destruct (Hword _ _ _ A) as (n & Hn'); eapply loop_fields in B as [<- ->]; eauto end.
    cbn [get_value]. now rewrite N.eqb_refl.
  - intros (u & n & Hu & Hn' & ->). eexists. split; [|reflexivity]. econstructor; [exact Hu|]. eapply loop_fields; eauto.
    cbn [get_value]. now rewrite N.eqb_refl.
Qed.
(** When the constructor does not panic. *)
Lemma loop_defined w fields : forall used mask, (used + total_width fields <= nbits w)%N ->
  forallb wide fields = true ->
  (exists r, bit_fields_loop w fields used mask = Val r) <->
  forallb (fun b => match b with FlagBit _ => N.ltb 1 (nbits w) | Reserved _ false => true | _ => N.ltb (field_width b) (nbits w) end) fields = true.
Proof.
  induction fields as [|b fields IH]; intros used mask Ht Hw; cbn [bit_fields_loop forallb].
  - split; eauto.
  - cbn [total_width fold_right] in Ht. fold (total_width fields) in Ht. cbn [forallb] in Hw. apply andb_prop in Hw as [Hw1 Hw2].
    unfold wide in Hw1. rewrite N.ltb_lt in Hw1.
    assert (NAMED : forall name (g : expr -> expr), 
      (exists r, obind (mask_bits w (EVar (intern packed_bits)) used (field_width b)) (fun raw =>
        omap (fun r => ((name : string, FCompute (g raw)) :: fst r, snd r)) (bit_fields_loop w fields (used + field_width b)%N mask)) = Val r) <->
      N.ltb (field_width b) (nbits w) && forallb (fun b => match b with FlagBit _ => N.ltb 1 (nbits w) | Reserved _ false => true | _ => N.ltb (field_width b) (nbits w) end) fields = true).
    { intros name g. unfold mask_bits. destruct (N.leb_spec (field_width b + used) (nbits w)); [|lia]. cbn [negb].
      destruct (N.leb_spec (nbits w) (field_width b)), (N.ltb_spec (field_width b) (nbits w)); try lia; cbn [obind andb].
      - split; [intros (? & ?); discriminate|discriminate].
      - rewrite <- (IH (used + field_width b)%N mask); [|lia|assumption].
        destruct (bit_fields_loop w fields (used + field_width b) mask) as [r|]; cbn; split; intros (r' & E); try discriminate; eauto. }
    destruct b as [x|x k|k []]; cbn [field_name is_flag check_zero field_width] in *.
    + apply (NAMED x (fun raw => EIntRel RGt raw (EU w 0))).
    + apply (NAMED x (fun raw => raw)).
    + destruct (N.leb_spec (nbits w) k), (N.ltb_spec k (nbits w)); try lia; cbn [orb andb].
      * split; [intros (? & ?); discriminate|discriminate].
      * destruct (N.leb_spec (nbits w) (nbits w - (used + k))); [lia|]. apply IH; [lia|assumption].
    + apply IH; [lia|assumption].
Qed.

(** ** Integers *)
Lemma bytes_at_S buf i n : bytes_at buf i (S n) =
  match nth_error buf i, bytes_at buf (S i) n with Some b, Some bs => Some (b :: bs) | _, _ => None end.
Proof.
  unfold bytes_at. destruct (nth_error buf i) as [b|] eqn:E.
  - assert (i < length buf) by (apply nth_error_Some; congruence).
    destruct (i + S n <=? length buf) eqn:E1, (S i + n <=? length buf) eqn:E2; try reflexivity; try (apply Nat.leb_le in E1; apply Nat.leb_gt in E2; lia).
    2: { apply Nat.leb_gt in E1; apply Nat.leb_le in E2; lia. }
    f_equal. clear E1 E2 H. revert i E. induction buf as [|c l IH]; intros [|i] E; try discriminate; cbn [nth_error] in E.
    + injection E as ->. reflexivity.
    + cbn [skipn]. rewrite IH by exact E. reflexivity.
  - apply nth_error_None in E. destruct (i + S n <=? length buf) eqn:E1; [apply Nat.leb_le in E1; lia|reflexivity].
Qed.
Lemma nth_byte buf i b : Forall (fun b => (b < 256)%N) buf -> nth_error buf i = Some b -> (b < 256)%N.
Proof. intros H Hn. rewrite Forall_forall in H. apply H. eapply nth_error_In; eauto. Qed.
Section IntSem.
Context (M : fmodule) (strict : bool) (um fl : scope format -> format -> list N -> nat -> Prop) (buf : list N).
Context (Hbuf : Forall (fun b => (b < 256)%N) buf).
Lemma any_byte_sem s i j v : SemN M strict um fl s any_byte_f buf i j v <-> exists b, nth_error buf i = Some b /\ j = S i /\ v = VU B8 b.
Proof.
  split.
  - intros H. inversion H; subst. eauto.
  - intros (b & Hb & -> & ->). constructor; [assumption|]. apply ByteSetProofs.contains_full. eapply nth_byte; eauto.
Qed.
Lemma bytes_chain s n : forall i j vs, Chain (fun f i j v => SemN M strict um fl s f buf i j v) (repeat any_byte_f n) i j vs <->
  exists bs, (n = 0 \/ bytes_at buf i n = Some bs) /\ length bs = n /\ j = i + n /\ vs = map (VU B8) bs.
Proof.
  induction n as [|n IH]; intros i j vs; cbn [repeat].
  - split.
    + intros H. inversion H; subst. exists []. repeat split; auto.
    + intros (bs & _ & Hl & -> & ->). destruct bs; [|discriminate]. rewrite Nat.add_0_r. constructor.
  - split.
    + intros H. inversion H; subst. match goal with A : SemN _ _ _ _ _ _ _ _ _ _ |- _ => apply any_byte_sem in A as (b & Hb & -> & ->) end.
      match goal with A : Chain _ _ _ _ _ |- _ => apply IH in A as (bs & Hbs & Hl & -> & ->) end.
      exists (b :: bs). split; [right|cbn; split; [lia|split; [lia|reflexivity]]]. rewrite bytes_at_S, Hb. destruct Hbs as [->|Hbs].
      * destruct bs; [|discriminate]. unfold bytes_at. destruct (S i + 0 <=? length buf) eqn:E; [reflexivity|].
        assert (i < length buf) by (apply nth_error_Some; congruence). apply Nat.leb_gt in E. lia.
      * now rewrite Hbs.
    + intros (bs & [E|Hbs] & Hl & -> & ->); [discriminate|]. rewrite bytes_at_S in Hbs. destruct (nth_error buf i) as [b|] eqn:Eb; [|discriminate].
      destruct (bytes_at buf (S i) n) as [bs'|] eqn:Ebs; [|discriminate]. injection Hbs as <-. cbn [map]. cbn [length] in Hl.
      replace (i + S n) with (S i + n) by lia. econstructor; [apply any_byte_sem; eauto|]. apply IH. exists bs'. repeat split; auto.
Qed.
Lemma bytes_of_map bs : bytes_of (map (VU B8) bs) = Some bs.
Proof. induction bs; cbn; [reflexivity|]. now rewrite IHbs. Qed.
Lemma bytes_at_len bf i n bs : bytes_at bf i n = Some bs -> length bs = n.
Proof. unfold bytes_at. destruct (_ <=? _) eqn:E; [|discriminate]. apply Nat.leb_le in E. intros [= <-]. rewrite firstn_length, skipn_length. lia. Qed.
Lemma little_le bs : from_le_bytes bs = little bs.
Proof. unfold from_le_bytes. induction bs; cbn [fold_right little]; congruence. Qed.
Lemma number_spec (be : bool) bs : (if be then from_be_bytes bs else from_le_bytes bs) = number be bs.
Proof. destruct be; unfold number; [rewrite from_be_le|]; apply little_le. Qed.
Lemma width_pos w : N.to_nat (nbits w / 8) <> 0.
Proof. destruct w; vm_compute; discriminate. Qed.
Lemma uint_sem be w s i j v : SemN M strict um fl s (uint be w) buf i j v <->
  exists bs, bytes_at buf i (N.to_nat (nbits w / 8)) = Some bs /\ j = i + N.to_nat (nbits w / 8) /\
    v = VMapped (VTuple (map (VU B8) bs)) (VU w (number be bs)).
Proof.
  unfold uint, tuple_repeat. 
  assert (EV : forall bs, length bs = N.to_nat (nbits w / 8) ->
    eval_lambda (ELambda (intern "x") (EBytes be w (EVar (intern "x")))) s (VTuple (map (VU B8) bs)) = Val (VU w (number be bs))).
  { intros bs Hl. unfold eval_lambda, eval_value. cbn [eval get_value]. rewrite N.eqb_refl. cbn [omap obind coerce_mapped].
    unfold value_from_bytes. cbn [unwrap_tuple obind]. rewrite bytes_of_map, Hl, Nat.eqb_refl. cbn [omap obind coerce_mapped]. now rewrite number_spec. }
  split.
  - intros H. inversion H; subst. match goal with A : SemN _ _ _ _ _ (FMap _ _) _ _ _ _ |- _ => inversion A; subst end.
    match goal with A : SemN _ _ _ _ _ (FTuple _) _ _ _ _ |- _ => inversion A; subst end.
    match goal with A : Chain _ _ _ _ _ |- _ => apply bytes_chain in A as (bs & [E|Hbs] & Hl & -> & ->) end; [now apply width_pos in E|].
    exists bs. repeat split; auto. f_equal. match goal with A : eval_lambda _ _ _ = _ |- _ => rewrite EV in A by assumption; congruence end.
  - intros (bs & Hbs & -> & ->). pose proof (bytes_at_len _ _ _ _ Hbs) as Hl. constructor. econstructor; [|apply EV; assumption].
    constructor. apply bytes_chain. exists bs. auto.
Qed.
Lemma bytes_at_bound i n bs : bytes_at buf i n = Some bs -> Forall (fun b => (b < 256)%N) bs.
Proof.
  unfold bytes_at. destruct (_ <=? _); [|discriminate]. intros [= <-]. apply Forall_forall. intros b Hb. rewrite Forall_forall in Hbuf. apply Hbuf.
  rewrite <- (firstn_skipn i buf). apply in_or_app. right. rewrite <- (firstn_skipn n (skipn i buf)). apply in_or_app. now left.
Qed.
Lemma number_bound be bs : Forall (fun b => (b < 256)%N) bs -> (number be bs < 256 ^ N.of_nat (length bs))%N.
Proof.
  intros H. rewrite <- number_spec. destruct be; [|now apply from_le_bound]. rewrite from_be_le, <- (rev_length bs). apply from_le_bound. now apply Forall_rev.
Qed.
Lemma uint_bound w i bs be : bytes_at buf i (N.to_nat (nbits w / 8)) = Some bs -> (number be bs < modulus w)%N.
Proof.
  intros H. pose proof (number_bound be bs (bytes_at_bound _ _ _ H)) as B. rewrite (bytes_at_len _ _ _ _ H) in B.
  eapply N.lt_le_trans; [exact B|]. destruct w; vm_compute; discriminate.
Qed.
Lemma signed_cast w n : (n < modulus w)%N -> bitwise_cast (Z.of_N n) (Concrete (MR false w)) (MR true w) = Val (signed w n).
Proof.
  intros H. assert (Hn : in_rep (MR false w) (Z.of_N n) = true).
  { rewrite in_rep_iff. destruct w; unfold modulus, nbits in H; cbn in H |- *; lia. }
  rewrite bitwise_cast_ok by exact Hn. f_equal. apply (in_rep_congr_unique (MR true w)); [apply as_cast_in| |].
  - rewrite in_rep_iff. unfold signed. destruct w; unfold modulus, nbits in *; cbn in H |- *;
      match goal with |- context [N.ltb ?a ?b] => destruct (N.ltb_spec a b) end; lia.
  - rewrite as_cast_congr. unfold signed. destruct (N.ltb n _); [reflexivity|].
    replace (Z.of_N (2 ^ nbits w)) with (2 ^ bw_bits (bit_width (MR true w)))%Z by (destruct w; reflexivity).
    rewrite Zminus_mod, Z_mod_same_full, Z.sub_0_r, Z.mod_mod; [reflexivity|]. destruct w; vm_compute; discriminate.
Qed.
End IntSem.
