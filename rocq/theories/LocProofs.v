(** Decoding with locations agrees with plain decoding: the proofs. *)
From Verif Require ByteSetModel HuffmanModel.
From Verif Require Import Base BoundsModel DataModel DataProofs NumericModel NumericProofs ValueModel ValueProofs
  FormatModel MatchTreeModel DecoderModel DecoderProofs CompileProofs MatchBoundsProofs LocModel LocSpec.
Open Scope nat_scope.

(** ** Values *)

Definition flatv (v : value) : bool :=
  match v with
  | VBool _ | VU _ _ | VChar _ | VUsize _ | VNumeric _ | VView _ | VPhantom | VEnumFromTo _ _ => true
  | _ => false
  end.
(** Plain values without permitted failures, and without numbers unless [num] *)
Fixpoint okv (num : bool) (v : value) : bool :=
  match v with
  | VNumeric _ => num
  | VPermitErr _ => false
  | VMapped _ v' | VBranch _ v' | VPermitOk v' | VVariant _ v' | VOption (Some v') | VSeq (Dup _ v') => okv num v'
  | VTuple vs | VSeq (Strict vs) => forallb (okv num) vs
  | VRecord fs => forallb (fun f => match f with (_, x) => okv num x end) fs
  | _ => true
  end.
(** A flat value with a location is flat *)
Fixpoint qwf (p : pval) : bool :=
  match p with
  | QFlat _ v => flatv v
  | QTuple _ ps | QSeq _ (Strict ps) => forallb qwf ps
  | QRecord _ fs => forallb (fun f => match f with (_, x) => qwf x end) fs
  | QSeq _ (Dup n p') => Nat.eqb n 0 || qwf p'
  | QVariant _ p' | QMapped _ p' | QBranch _ p' | QPermitOk p' | QPermitErr (Some p') | QOption (Some p') => qwf p'
  | QPermitErr None | QOption None => true
  end.
Definition vhead (v : value) : bool := match v with VMapped _ _ | VBranch _ _ | VPermitOk _ => false | _ => true end.

Lemma map_repeat' {A B} (f : A -> B) x n : map f (repeat x n) = repeat (f x) n.
Proof. induction n; cbn; congruence. Qed.
Lemma forallb_repeat {A} (f : A -> bool) x n : f x = true -> forallb f (repeat x n) = true.
Proof. intros H. induction n; cbn; [reflexivity|now rewrite H]. Qed.

Lemma plain_seq t : plain (VSeq t) = VSeq (Strict (map plain (sk_to_list t))).
Proof. destruct t; cbn; [reflexivity|now rewrite map_repeat']. Qed.
Lemma to_value_seq l s : to_value (QSeq l s) = VSeq (Strict (map to_value (sk_to_list s))).
Proof. destruct s; cbn; [reflexivity|now rewrite map_repeat']. Qed.

Lemma plain_to_from v : plain (to_value (from_evaluated v)) = plain v.
Proof.
  induction v using value_ind'; cbn; try reflexivity; try congruence.
  - f_equal. rewrite !map_map. apply map_ext_in. now apply Forall_forall.
  - f_equal. rewrite !map_map. apply map_ext_in. intros [l x] Hin. rewrite Forall_forall in H. f_equal. exact (H _ Hin).
  - f_equal. f_equal. rewrite !map_map. apply map_ext_in. now apply Forall_forall.
  - f_equal. f_equal. now rewrite !map_repeat', IHv.
Qed.
Lemma to_from v : to_value (from_evaluated v) = spelt v.
Proof.
  induction v using value_ind'; cbn; try reflexivity; try congruence.
  - f_equal. rewrite !map_map. apply map_ext_in. now apply Forall_forall.
  - f_equal. rewrite !map_map. apply map_ext_in. intros [l x] Hin. rewrite Forall_forall in H. f_equal. exact (H _ Hin).
  - f_equal. f_equal. rewrite !map_map. apply map_ext_in. now apply Forall_forall.
  - f_equal. f_equal. now rewrite !map_repeat', IHv.
Qed.
Lemma qwf_from v : qwf (from_evaluated v) = true.
Proof.
  induction v using value_ind'; cbn; try reflexivity; try assumption.
  - apply forallb_forall. intros x Hx. apply in_map_iff in Hx. destruct Hx as (y & <- & Hy). rewrite Forall_forall in H. auto.
  - apply forallb_forall. intros x Hx. apply in_map_iff in Hx. destruct Hx as ([l y] & <- & Hy). rewrite Forall_forall in H. exact (H _ Hy).
  - apply forallb_forall. intros x Hx. apply in_map_iff in Hx. destruct Hx as (y & <- & Hy). rewrite Forall_forall in H. auto.
  - now apply forallb_repeat.
Qed.
Lemma plain_clone : forall p, plain (clone_value p) = plain (to_value p).
Proof.
  fix IH 1. intros [l v|l ps|l fs|lab p|l [ps|n p]|o p|i p|p|[p|]|[p|]]; cbn; try reflexivity.
  - now rewrite IH, map_repeat'.
  - apply IH.
  - now rewrite IH.
Qed.
Lemma to_value_translate n : forall p, to_value (translate n p) = to_value p.
Proof.
  fix IH 1. intros [l v|l ps|l fs|lab p|l [ps|k p]|o p|i p|p|[p|]|[p|]]; cbn; try reflexivity; now rewrite IH.
Qed.
Lemma qwf_translate n : forall p, qwf (translate n p) = qwf p.
Proof.
  fix IH 1. intros [l v|l ps|l fs|lab p|l [ps|k p]|o p|i p|p|[p|]|[p|]]; cbn; try reflexivity; apply IH.
Qed.
Lemma plain_coerce v : plain (coerce_mapped v) = plain v.
Proof. induction v using value_ind'; cbn; auto. Qed.
Lemma vhead_coerce v : vhead (coerce_mapped v) = true.
Proof. induction v using value_ind'; cbn; auto. Qed.
Lemma plain_qcoerce p : plain (to_value (q_coerce p)) = plain (to_value p).
Proof. induction p; cbn; auto. Qed.
Lemma qwf_qcoerce p : qwf p = true -> qwf (q_coerce p) = true.
Proof. induction p; cbn; auto. Qed.
Definition qhead (p : pval) : bool := match p with QMapped _ _ | QBranch _ _ | QPermitOk _ => false | _ => true end.
Lemma qhead_qcoerce p : qhead (q_coerce p) = true.
Proof. induction p; cbn; auto. Qed.
Lemma vhead_clone p : qwf p = true -> qhead p = true -> vhead (clone_value p) = true.
Proof.
  destruct p as [l v|l ps|l fs|lab p|l [ps|n p]|o p|i p|p|[p|]|[p|]]; cbn; try reflexivity; try discriminate.
  intros H _. destruct v; cbn in *; congruence.
Qed.
Lemma flat_plain v : flatv v = true -> plain v = v.
Proof. destruct v; cbn; congruence. Qed.
Lemma flat_coerce v : flatv v = true -> coerce_mapped v = v.
Proof. destruct v; cbn; congruence. Qed.
Lemma flat_from v : flatv v = true -> from_evaluated v = QFlat LSynth v.
Proof. destruct v; cbn; congruence. Qed.

Section Agree.
Context (num : bool).
(** The same plain value on both sides *)
Definition vagr (v w : value) : Prop := plain v = plain w /\ okv num (plain v) = true.
Definition agree (v : value) (p : pval) : Prop := vagr v (to_value p) /\ qwf p = true.
(** ... and without outer wrappers *)
Definition vag (v w : value) : Prop := vagr v w /\ vhead v = true /\ vhead w = true.

Lemma agree_from v w : vagr v w -> agree v (from_evaluated w).
Proof. intros [H1 H2]. split; [split; [now rewrite plain_to_from|exact H2]|apply qwf_from]. Qed.
Lemma agree_clone v p : agree v p -> vagr v (clone_value p).
Proof. intros [[H1 H2] H3]. split; [now rewrite plain_clone|exact H2]. Qed.
Lemma agree_vag v p : agree v p -> vag (coerce_mapped v) (clone_value (q_coerce p)).
Proof.
  intros [[H1 H2] H3]. repeat split.
  - now rewrite plain_coerce, plain_clone, plain_qcoerce.
  - now rewrite plain_coerce.
  - apply vhead_coerce.
  - apply vhead_clone; [now apply qwf_qcoerce|apply qhead_qcoerce].
Qed.
Lemma agree_left v p : agree v p -> agree (coerce_mapped v) p.
Proof. intros [[H1 H2] H3]. repeat split; rewrite ?plain_coerce; assumption. Qed.
Lemma agree_coerce v p : agree v p -> agree (coerce_mapped v) (q_coerce p).
Proof. intros [[H1 H2] H3]. repeat split; rewrite ?plain_coerce, ?plain_qcoerce; auto using qwf_qcoerce. Qed.
Lemma vagr_left v w : vagr v w -> vagr (coerce_mapped v) w.
Proof. intros [H1 H2]. split; rewrite plain_coerce; assumption. Qed.
Lemma vag_flat v w : vag v w -> flatv v = true \/ flatv w = true -> v = w.
Proof.
  intros [[H1 _] [H2 H3]] [H|H].
  - rewrite (flat_plain v H) in H1. destruct v; try discriminate H; destruct w as [| | | | | | | |[?|]| | | |[?|? ?]| | | |[?|]]; cbn in *; congruence.
  - rewrite (flat_plain w H) in H1. destruct w; try discriminate H; destruct v as [| | | | | | | |[?|]| | | |[?|? ?]| | | |[?|]]; cbn in *; congruence.
Qed.
Lemma vagr_refl v : okv num (plain v) = true -> vagr v v.
Proof. now split. Qed.

(** Building related values *)
Lemma F2_plain vs ws : Forall2 vagr vs ws -> map plain vs = map plain ws /\ forallb (okv num) (map plain vs) = true.
Proof. induction 1 as [|v w vs ws [H1 H2] H [IH1 IH2]]; cbn; [auto|]. now rewrite H1, IH1, <- H1, H2, <- IH1, IH2. Qed.
Lemma F2_agree vs ps : Forall2 agree vs ps -> Forall2 vagr vs (map to_value ps) /\ forallb qwf ps = true.
Proof. induction 1 as [|v p vs ps [H1 H2] H [IH1 IH2]]; cbn; [auto|]. rewrite H2. auto. Qed.
Lemma F2_agree_clone vs ps : Forall2 agree vs ps -> Forall2 vagr vs (map clone_value ps).
Proof. induction 1; cbn; constructor; auto using agree_clone. Qed.
Lemma vagr_tuple vs ws : Forall2 vagr vs ws -> vagr (VTuple vs) (VTuple ws).
Proof. intros H. apply F2_plain in H. destruct H. split; cbn; congruence. Qed.
Lemma vagr_seq s t : Forall2 vagr (sk_to_list s) (sk_to_list t) -> vagr (VSeq s) (VSeq t).
Proof. intros H. apply F2_plain in H. destruct H. unfold vagr. rewrite !plain_seq. split; cbn; congruence. Qed.
Lemma agree_tuple l vs ps : Forall2 agree vs ps -> agree (VTuple vs) (QTuple l ps).
Proof. intros H. apply F2_agree in H. destruct H as [H1 H2]. split; [|exact H2]. now apply vagr_tuple. Qed.
Lemma qwf_seq l s : qwf (QSeq l s) = forallb qwf (sk_to_list s).
Proof. destruct s as [ps|n p]; cbn; [reflexivity|]. destruct n as [|n]; cbn; [reflexivity|]. destruct (qwf p) eqn:E; cbn; [|reflexivity]. symmetry. now apply forallb_repeat. Qed.
Lemma agree_seq l s t : Forall2 agree (sk_to_list s) (sk_to_list t) -> agree (VSeq s) (QSeq l t).
Proof.
  intros H. apply F2_agree in H. destruct H as [H1 H2]. split.
  - rewrite to_value_seq. now apply vagr_seq.
  - now rewrite qwf_seq.
Qed.
Definition fagree (f : label * value) (g : label * pval) : Prop := fst f = fst g /\ agree (snd f) (snd g).
Lemma agree_record l fs gs : Forall2 fagree fs gs -> agree (VRecord fs) (QRecord l gs).
Proof.
  intros H. enough (map (fun f : label * value => match f with (l, x) => (l, plain x) end) fs =
    map (fun f : label * value => match f with (l, x) => (l, plain x) end) (map (fun f : label * pval => match f with (l, p') => (l, to_value p') end) gs) /\
    forallb (fun f : label * value => match f with (_, x) => okv num x end) (map (fun f : label * value => match f with (l, x) => (l, plain x) end) fs) = true /\
    forallb (fun f : label * pval => match f with (_, x) => qwf x end) gs = true) as (A & B & C).
  { split; [|exact C]. split; cbn; [now rewrite A|exact B]. }
  induction H as [|[l1 v] [l2 p] fs gs [H1 [[H2 H3] H4]] H (IH1 & IH2 & IH3)]; [auto|]. cbn in *.
  rewrite IH1, H2, H1, H4, IH3. rewrite <- IH1, IH2, <- H2, H3. auto.
Qed.
Lemma agree_variant l v p : agree v p -> agree (VVariant l v) (QVariant l p).
Proof. intros [[H1 H2] H3]. repeat split; cbn; congruence. Qed.
Lemma agree_some v p : agree v p -> agree (VOption (Some v)) (QOption (Some p)).
Proof. intros [[H1 H2] H3]. repeat split; cbn; congruence. Qed.
Lemma agree_none : agree (VOption None) (QOption None).
Proof. repeat split. Qed.
Lemma agree_mapped o v o' p : agree v p -> agree (VMapped o v) (QMapped o' p).
Proof. intros [[H1 H2] H3]. repeat split; cbn; congruence. Qed.
Lemma agree_branch i v j p : agree v p -> agree (VBranch i v) (QBranch j p).
Proof. intros [[H1 H2] H3]. repeat split; cbn; congruence. Qed.
Lemma agree_flat l v : flatv v = true -> okv num v = true -> agree v (QFlat l v).
Proof. intros H1 H2. repeat split; cbn; rewrite ?flat_plain; auto. Qed.
Lemma agree_inherit o v w : vagr v w -> agree v (inherit o w).
Proof.
  intros H. apply agree_from in H. destruct H as [[H1 H2] H3]. unfold inherit.
  repeat split; rewrite ?to_value_translate, ?qwf_translate; assumption.
Qed.
Lemma vagr_variant l v w : vagr v w -> vagr (VVariant l v) (VVariant l w).
Proof. intros [H1 H2]. split; cbn; congruence. Qed.
Lemma vagr_some v w : vagr v w -> vagr (VOption (Some v)) (VOption (Some w)).
Proof. intros [H1 H2]. split; cbn; congruence. Qed.

(** Taking related values apart *)
Definition hrel (v : value) (p : pval) : Prop :=
  match p with
  | QFlat _ w => v = w /\ flatv w = true
  | QTuple _ ps => exists vs, v = VTuple vs /\ Forall2 agree vs ps
  | QRecord _ gs => exists fs, v = VRecord fs /\ Forall2 fagree fs gs
  | QVariant l p' => exists v', v = VVariant l v' /\ agree v' p'
  | QSeq _ t => exists s, v = VSeq s /\ Forall2 agree (sk_to_list s) (sk_to_list t)
  | QOption None => v = VOption None
  | QOption (Some p') => exists v', v = VOption (Some v') /\ agree v' p'
  | _ => False
  end.
Lemma F2_of_maps vs ps : map plain vs = map plain (map to_value ps) -> forallb (okv num) (map plain vs) = true ->
  forallb qwf ps = true -> Forall2 agree vs ps.
Proof.
  revert ps. induction vs as [|v vs IH]; intros [|p ps]; cbn; try discriminate; [constructor|].
  intros [= H1 H2] H3 H4. apply andb_true_iff in H3, H4. constructor; [|apply IH; tauto]. repeat split; tauto.
Qed.
Lemma F2_of_fields fs gs :
  map (fun f : label * value => match f with (l, x) => (l, plain x) end) fs =
    map (fun f : label * value => match f with (l, x) => (l, plain x) end) (map (fun f : label * pval => match f with (l, p') => (l, to_value p') end) gs) ->
  forallb (fun f : label * value => match f with (_, x) => okv num x end) (map (fun f : label * value => match f with (l, x) => (l, plain x) end) fs) = true ->
  forallb (fun f : label * pval => match f with (_, x) => qwf x end) gs = true -> Forall2 fagree fs gs.
Proof.
  revert gs. induction fs as [|[l v] fs IH]; intros [|[l2 p] gs]; cbn; try discriminate; [constructor|].
  intros [= H0 H1 H2] H3 H4. apply andb_true_iff in H3, H4. constructor; [|apply IH; tauto]. repeat split; cbn; tauto.
Qed.
Lemma head0 v p : agree v p -> vhead v = true -> qhead p = true -> hrel v p.
Proof.
  intros [[H1 H2] H3] Hv Hp.
  destruct p as [l w|l ps|l fs|lab p|l s|o p|i p|p|[p|]|[p|]]; try discriminate Hp; cbn [hrel].
  - cbn in H1, H3. split; [|exact H3]. apply vag_flat; [|now right]. repeat split; auto. destruct w; cbn in *; congruence.
  - destruct v as [| | | | | | | |[?|]| | | |[?|? ?]| | | |[?|]]; cbn in H1; try discriminate. injection H1 as H1. eexists. split; [reflexivity|]. now apply F2_of_maps.
  - destruct v as [| | | | | | | |[?|]| | | |[?|? ?]| | | |[?|]]; cbn in H1; try discriminate. injection H1 as H1. eexists. split; [reflexivity|]. now apply F2_of_fields.
  - destruct v as [| | | | | | | |[?|]| | | |[?|? ?]| | | |[?|]]; cbn in H1; try discriminate. injection H1 as -> H1. eexists. split; [reflexivity|]. repeat split; assumption.
  - rewrite to_value_seq in H1. destruct v as [| | | | | | | |[?|]| | | |t| | | |[?|]]; try discriminate. rewrite plain_seq in H1, H2. rewrite plain_seq in H1.
    injection H1 as H1. exists t. split; [reflexivity|]. rewrite qwf_seq in H3. now apply F2_of_maps.
  - rewrite H1 in H2. cbn in H2. discriminate.
  - rewrite H1 in H2. cbn in H2. discriminate.
  - destruct v as [| | | | | | | |[?|]| | | |[?|? ?]| | | |[?|]]; cbn in H1; try discriminate. injection H1 as H1. eexists. split; [reflexivity|]. repeat split; assumption.
  - destruct v as [| | | | | | | |[?|]| | | |[?|? ?]| | | |[?|]]; cbn in H1; try discriminate. reflexivity.
Qed.
Lemma head v p : agree v p -> hrel (coerce_mapped v) (q_coerce p).
Proof. intros H. apply head0; [now apply agree_coerce|apply vhead_coerce|apply qhead_qcoerce]. Qed.
Lemma nominal_mapped v : okv num (plain v) = true -> coerce_nominal v = coerce_mapped v.
Proof. induction v using value_ind'; cbn; auto; discriminate. Qed.

(** ** Outcomes *)

Definition orel {A B} (R : A -> B -> Prop) (x : outcome A) (y : outcome B) : Prop :=
  match x, y with Val a, Val b => R a b | _, _ => True end.
Lemma orel_bind {A B C D} (R : A -> B -> Prop) (S : C -> D -> Prop) x y f g :
  orel R x y -> (forall a b, R a b -> orel S (f a) (g b)) -> orel S (obind x f) (obind y g).
Proof. destruct x, y; cbn; auto. intros _ _. destruct (f a); exact I. Qed.
Lemma orel_map {A B C D} (R : A -> B -> Prop) (S : C -> D -> Prop) x y f g :
  orel R x y -> (forall a b, R a b -> S (f a) (g b)) -> orel S (omap f x) (omap g y).
Proof. destruct x, y; cbn; auto. Qed.
Lemma orel_mono {A B} (R S : A -> B -> Prop) x y : (forall a b, R a b -> S a b) -> orel R x y -> orel S x y.
Proof. destruct x, y; cbn; auto. Qed.
Lemma orel_panic_r {A B} (R : A -> B -> Prop) x : orel R x Panic.
Proof. destruct x; exact I. Qed.
Lemma orel_mapM {A B C D} (R : A -> B -> Prop) (S : C -> D -> Prop) f g l l' :
  Forall2 R l l' -> (forall a b, R a b -> orel S (f a) (g b)) -> orel (Forall2 S) (omapM f l) (omapM g l').
Proof.
  intros H Hf. induction H as [|a b l l' Hab H IH]; cbn; [constructor|].
  eapply orel_bind; [apply Hf, Hab|]. intros c d Hcd. eapply orel_bind; [exact IH|]. intros cs ds Hcs. now constructor.
Qed.
Lemma orel_mapM_same {A C D} (S : C -> D -> Prop) f g (l : list A) :
  Forall (fun a => orel S (f a) (g a)) l -> orel (Forall2 S) (omapM f l) (omapM g l).
Proof.
  induction 1 as [|a l Ha H IH]; cbn; [constructor|].
  eapply orel_bind; [apply Ha|]. intros c d Hcd. eapply orel_bind; [exact IH|]. intros cs ds Hcs. now constructor.
Qed.
Lemma orel_foldM {A B C D} (R : A -> B -> Prop) (S : C -> D -> Prop) f g l l' :
  Forall2 R l l' -> (forall acc acc' a b, S acc acc' -> R a b -> orel S (f acc a) (g acc' b)) ->
  forall acc acc', S acc acc' -> orel S (ofoldM f acc l) (ofoldM g acc' l').
Proof.
  intros H Hf. induction H as [|a b l l' Hab H IH]; cbn; intros acc acc' Hacc; [exact Hacc|].
  eapply orel_bind; [apply Hf; eassumption|]. exact IH.
Qed.
Lemma F2_nth {A B} (R : A -> B -> Prop) l l' i : Forall2 R l l' ->
  match nth_error l i, nth_error l' i with Some a, Some b => R a b | None, None => True | _, _ => False end.
Proof. intros H. revert i. induction H; intros [|i]; cbn; auto. apply IHForall2. Qed.
Lemma F2_len {A B} (R : A -> B -> Prop) l l' : Forall2 R l l' -> length l = length l'.
Proof. induction 1; cbn; congruence. Qed.
Lemma F2_firstn {A B} (R : A -> B -> Prop) l l' n : Forall2 R l l' -> Forall2 R (firstn n l) (firstn n l').
Proof. intros H. revert n. induction H; intros [|n]; cbn; constructor; auto. Qed.
Lemma F2_skipn {A B} (R : A -> B -> Prop) l l' n : Forall2 R l l' -> Forall2 R (skipn n l) (skipn n l').
Proof. intros H. revert n. induction H; intros [|n]; cbn; try constructor; auto. Qed.
Lemma F2_concat {A B} (R : A -> B -> Prop) l l' : Forall2 (Forall2 R) l l' -> Forall2 R (concat l) (concat l').
Proof. induction 1; cbn; [constructor|]. now apply Forall2_app. Qed.
Lemma F2_mono {A B} (R S : A -> B -> Prop) l l' : (forall a b, R a b -> S a b) -> Forall2 R l l' -> Forall2 S l l'.
Proof. intros H. induction 1; constructor; auto. Qed.

(** ** Sequences *)

Definition sqrel (q : vseq) (q' : qvseq) : Prop :=
  match q, q' with
  | SVals s, QVals t => Forall2 agree (sk_to_list s) (sk_to_list t)
  | SRange a b, QRange a' b' => a = a' /\ b = b'
  | _, _ => False
  end.
Lemma seq_of_rel v p : agree v p -> orel sqrel (seq_of v) (q_seq_of p).
Proof.
  intros H. apply head in H. unfold seq_of, q_seq_of.
  destruct (q_coerce p) as [l w|l ps|l fs|lab p'|l s|o p'|i p'|p'|[p'|]|[p'|]]; cbn [q_get_sequence]; try apply orel_panic_r.
  - destruct H as [-> Hf]. destruct w; try discriminate Hf; cbn; auto.
  - destruct H as (t & -> & H). exact H.
Qed.
Lemma sqrel_list q q' : sqrel q q' -> Forall2 agree (vseq_list q) (qvseq_list q').
Proof.
  destruct q as [s|a b], q' as [t|a' b']; cbn; try tauto. intros [-> ->]. unfold range_values.
  induction (nrange a' (N.to_nat (b' - a'))); cbn; constructor; auto. now apply agree_flat.
Qed.
Lemma sqrel_len q q' : sqrel q q' -> vseq_len q = qvseq_len q'.
Proof.
  destruct q as [s|a b], q' as [t|a' b']; cbn; try tauto; [|intros [-> ->]; reflexivity].
  intros H. rewrite !sk_len_spec. now rewrite (F2_len _ _ _ H).
Qed.
Lemma sk_empty_rel {A B} (R : A -> B -> Prop) (s : seqkind A) (t : seqkind B) : Forall2 R (sk_to_list s) (sk_to_list t) -> sk_is_empty s = sk_is_empty t.
Proof.
  intros H. apply F2_len in H. rewrite <- !sk_len_spec in H.
  destruct s as [[|]|[|]], t as [[|]|[|]]; cbn in *; congruence.
Qed.
Lemma sqrel_empty q q' : sqrel q q' -> vseq_is_empty q = qvseq_is_empty q'.
Proof.
  destruct q as [s|a b], q' as [t|a' b']; cbn; try tauto; [|intros [-> ->]; reflexivity]. apply sk_empty_rel.
Qed.
Lemma sk_index_rel {A B} (R : A -> B -> Prop) (s : seqkind A) (t : seqkind B) i : Forall2 R (sk_to_list s) (sk_to_list t) ->
  orel R (sk_index s i) (sk_index t i).
Proof.
  intros H. unfold sk_index. rewrite !sk_get_spec. pose proof (F2_nth _ _ _ i H).
  destruct (nth_error (sk_to_list s) i), (nth_error (sk_to_list t) i); cbn; auto.
Qed.
Lemma seq_ix_rel q q' i : sqrel q q' -> orel agree (seq_ix q i) (q_seq_ix q' i).
Proof.
  destruct q as [s|a b], q' as [t|a' b']; cbn; try tauto; [apply sk_index_rel|]. intros [-> ->].
  destruct (N.ltb _ _); cbn; [|exact I]. now apply agree_flat.
Qed.
Lemma seq_sub_rel q q' i k : sqrel q q' -> orel agree (seq_sub q i k) (q_seq_sub q' i k).
Proof.
  destruct q as [s|a b], q' as [t|a' b']; cbn; try tauto.
  - intros H. pose proof (sk_sub_seq_spec s (N.to_nat i) (N.to_nat k)) as A. pose proof (sk_sub_seq_spec t (N.to_nat i) (N.to_nat k)) as B.
    destruct (sk_sub_seq s _ _), (sk_sub_seq t _ _); cbn; auto. destruct A as [_ A], B as [_ B]. apply agree_seq. rewrite A, B.
    now apply F2_firstn, F2_skipn.
  - intros [-> ->]. destruct (sub_range _ _ _ _) as [[x y]|]; cbn; [|exact I]. now apply agree_flat.
Qed.
Lemma inflate_rel {A B} (R : A -> B -> Prop) (l : list A) (l' : list B) start : Forall2 R l l' ->
  forall n out out', Forall2 R out out' -> orel (Forall2 R) (inflate_loop l start n out) (inflate_loop l' start n out').
Proof.
  intros H n. induction n as [|n IH]; intros out out' Ho; cbn [inflate_loop]; [exact Ho|].
  rewrite (F2_len _ _ _ Ho), (F2_len _ _ _ H).
  assert (N : match (if length out' + start <? length l' then nth_error l (length out' + start) else nth_error out (length out' + start - length l')),
                    (if length out' + start <? length l' then nth_error l' (length out' + start) else nth_error out' (length out' + start - length l'))
              with Some a, Some b => R a b | None, None => True | _, _ => False end).
  { destruct (_ <? _); now apply F2_nth. }
  destruct (if length out' + start <? length l' then nth_error l _ else _), (if length out' + start <? length l' then nth_error l' _ else _); try contradiction; [|exact I].
  apply IH. apply Forall2_app; auto.
Qed.
Lemma seq_inflate_rel q q' i k : sqrel q q' -> orel agree (seq_inflate q i k) (q_seq_inflate q' i k).
Proof.
  intros H. unfold seq_inflate, q_seq_inflate, sub_seq_inflate. eapply orel_map; [apply inflate_rel; [apply sqrel_list, H|constructor]|].
  intros a b Hab. now apply agree_seq.
Qed.
Lemma vseq_append_rel q q' r r' : sqrel q q' -> sqrel r r' -> orel agree (omap VSeq (vseq_append q r)) (omap q_synth_seq (qvseq_append q' r')).
Proof.
  intros H H'. destruct q as [s|a b], q' as [t|a' b'], r as [s2|c d], r' as [t2|c' d']; cbn in *; try tauto.
  apply agree_seq. rewrite !sk_append_spec. now apply Forall2_app.
Qed.

(** ** Scopes *)

Definition vrel {D1 D2} (s : scope D1) (q : qscope D2) : Prop :=
  forall x, match get_value x s, q_get_value x q with Some v, Some p => agree v p | None, None => True | _, _ => False end.
Lemma vrel_single {D1 D2} (s : scope D1) (q : qscope D2) x v p : vrel s q -> agree v p -> vrel (SSingle s x v) (QSSingle q x p).
Proof. intros H Hv y. cbn. destruct (N.eqb x y); [exact Hv|apply H]. Qed.
Definition entrel (e : label * vov) (e' : label * qent) : Prop :=
  fst e = fst e' /\
  match snd e, snd e' with EntView c, QEntView c' => c = c' | EntVal v, QEntVal p => agree v p | _, _ => False end.
Lemma F2_rev {A B} (R : A -> B -> Prop) l l' : Forall2 R l l' -> Forall2 R (rev l) (rev l').
Proof. induction 1; cbn; [constructor|]. apply Forall2_app; auto. Qed.
Lemma scan_value_rel x es es' : Forall2 entrel es es' ->
  match scan_value x es, q_scan_value x es' with Some v, Some p => agree v p | None, None => True | _, _ => False end.
Proof.
  induction 1 as [|[n [c|v]] [n' [c'|p]] es es' [H1 H2] H IH]; cbn in *; try exact I; try contradiction; auto.
  subst n'. destruct (N.eqb n x); auto.
Qed.
Lemma scan_view_rel x es es' : Forall2 entrel es es' -> scan_view x es = q_scan_view x es'.
Proof.
  induction 1 as [|[n [c|v]] [n' [c'|p]] es es' [H1 H2] H IH]; cbn in *; try reflexivity; try contradiction; auto.
  subst n' c'. destruct (N.eqb n x); auto.
Qed.
Lemma vrel_multi {D1 D2} (s : scope D1) (q : qscope D2) es es' : vrel s q -> Forall2 entrel es es' -> vrel (SMulti s es) (QSMulti q es').
Proof.
  intros H He y. cbn. pose proof (scan_value_rel y _ _ (F2_rev _ _ _ He)).
  destruct (scan_value y (rev es)), (q_scan_value y (rev es')); try contradiction; auto. apply H.
Qed.
Lemma look_rel {D1 D2} (s : scope D1) (q : qscope D2) x : vrel s q -> num_look s x = q_num_look q x.
Proof.
  intros H. unfold num_look, q_num_look. specialize (H x). destruct (get_value x s) as [v|], (q_get_value x q) as [p|]; try contradiction; [|reflexivity].
  apply head in H.
  assert (Hv : forall v, tc_of_value v = tc_of_value (coerce_mapped v)) by (induction v0 using value_ind'; cbn; auto).
  assert (Hp : forall p, tc_of_pval p = tc_of_pval (q_coerce p)) by (induction p0; cbn; auto).
  rewrite Hv, Hp. destruct (q_coerce p) as [l w|l ps|l fs|lab p'|l t|o p'|i p'|p'|[p'|]|[p'|]]; try contradiction.
  - now destruct H as [-> _].
  - now destruct H as (vs & -> & _).
  - now destruct H as (vs & -> & _).
  - now destruct H as (vs & -> & _).
  - now destruct H as (vs & -> & _).
  - now destruct H as (vs & -> & _).
  - now rewrite H.
Qed.

(** ** Patterns *)

Definition brel (b : label * value) (b' : label * pval) : Prop := fst b = fst b' /\ agree (snd b) (snd b').
Definition bsrel (o : option binds) (o' : option qbinds) : Prop :=
  match o, o' with Some b, Some b' => Forall2 brel b b' | None, None => True | _, _ => False end.
Lemma leaf_rel p v q acc acc' : pat_leaf p = true -> agree v q -> Forall2 brel acc acc' ->
  bsrel (matches_inner p v acc) (q_matches_inner p q acc').
Proof.
  destruct p; try discriminate; cbn; auto. intros _ Hv Ha. apply Forall2_app; [exact Ha|]. constructor; [|constructor]. now split.
Qed.
Lemma leaves_rel ps : forallb pat_leaf ps = true -> forall vs qs acc acc', Forall2 agree vs qs -> Forall2 brel acc acc' ->
  bsrel (match_list matches_inner ps vs acc) (q_match_list q_matches_inner ps qs acc').
Proof.
  induction ps as [|p ps IH]; cbn [forallb match_list q_match_list]; [intros _ vs qs acc acc' _ Ha; exact Ha|].
  intros H vs qs acc acc' Hv Ha. apply andb_true_iff in H. destruct H as [H1 H2].
  destruct Hv as [|v q vs qs Hvq Hv]; [exact Ha|].
  pose proof (leaf_rel p v q acc acc' H1 Hvq Ha) as L.
  destruct (matches_inner p v acc), (q_matches_inner p q acc'); try contradiction; [|exact I]. now apply IH.
Qed.
Lemma matches_rel p v q : loc_pat num p = true -> agree v q ->
  bsrel (matches_inner p (coerce_nominal v) []) (q_matches_inner p (q_coerce q) []).
Proof.
  intros Hp H. rewrite (nominal_mapped v) by apply H.
  assert (N : match coerce_mapped v with VNumeric _ => num = true | _ => True end).
  { destruct H as [[_ Ho] _]. rewrite <- plain_coerce in Ho. destruct (coerce_mapped v); auto. }
  pose proof (agree_coerce _ _ H) as Hc. apply head in H.
  assert (W : forall b : bool, bsrel (if b then Some [] else None) (if b then Some [] else None)) by (intros []; constructor).
  destruct p as [y| |b|w n|b|z|b|c|ps|l p|ps|[p|]]; cbn [loc_pat] in Hp; cbn [matches_inner q_matches_inner].
  - constructor; [|constructor]. now split.
  - constructor.
  - destruct (q_coerce q) as [l w|l qs|l fs|lab p'|l t|o p'|i p'|p'|[p'|]|[p'|]]; try contradiction;
      try (destruct H as (x & -> & H); exact I); [|cbn [hrel] in H; rewrite !H; exact I]. destruct H as [-> Hf]. destruct w; try exact I. apply W.
  - apply negb_true_iff in Hp.
    destruct (q_coerce q) as [l w'|l qs|l fs|lab p'|l t|o p'|i p'|p'|[p'|]|[p'|]]; try contradiction;
      try (destruct H as (x & -> & H); exact I); [|cbn [hrel] in H; rewrite !H; exact I]. destruct H as [H Hf]. rewrite H in *. destruct w'; try exact I; [apply W|congruence].
  - apply negb_true_iff in Hp.
    destruct (q_coerce q) as [l w'|l qs|l fs|lab p'|l t|o p'|i p'|p'|[p'|]|[p'|]]; try contradiction;
      try (destruct H as (x & -> & H); exact I); [|cbn [hrel] in H; rewrite !H; exact I]. destruct H as [H Hf]. rewrite H in *. destruct w'; try exact I; try apply W. congruence.
  - destruct (q_coerce q) as [l w'|l qs|l fs|lab p'|l t|o p'|i p'|p'|[p'|]|[p'|]]; try contradiction;
      try (destruct H as (x & -> & H); exact I); [|cbn [hrel] in H; rewrite !H; exact I]. destruct H as [-> Hf]. destruct w'; try exact I; apply W.
  - destruct (q_coerce q) as [l w'|l qs|l fs|lab p'|l t|o p'|i p'|p'|[p'|]|[p'|]]; try contradiction;
      try (destruct H as (x & -> & H); exact I); [|cbn [hrel] in H; rewrite !H; exact I]. destruct H as [-> Hf]. destruct w'; try exact I; apply W.
  - destruct (q_coerce q) as [l w'|l qs|l fs|lab p'|l t|o p'|i p'|p'|[p'|]|[p'|]]; try contradiction;
      try (destruct H as (x & -> & H); exact I); [|cbn [hrel] in H; rewrite !H; exact I]. destruct H as [-> Hf]. destruct w'; try exact I; apply W.
  - destruct (q_coerce q) as [l' w'|l' qs|l' fs|lab p'|l' t|o p'|i p'|p'|[p'|]|[p'|]]; try contradiction;
      try (destruct H as (x & -> & H); try exact I); try (destruct H as [-> Hf]; destruct w'; try discriminate Hf; exact I); try (cbn [hrel] in H; rewrite !H; exact I).
    cbn. rewrite (F2_len _ _ _ H). destruct (Nat.eqb _ _); [|exact I]. apply leaves_rel; [assumption|assumption|constructor].
  - destruct (q_coerce q) as [l' w'|l' qs|l' fs|lab p'|l' t|o p'|i p'|p'|[p'|]|[p'|]]; try contradiction;
      try (destruct H as (x & -> & H); try exact I); try (destruct H as [-> Hf]; destruct w'; try discriminate Hf; exact I); try (cbn [hrel] in H; rewrite !H; exact I).
    cbn. destruct (N.eqb _ _); [|exact I]. apply leaf_rel; auto.
  - destruct (q_coerce q) as [l' w'|l' qs|l' fs|lab p'|l' t|o p'|i p'|p'|[p'|]|[p'|]]; try contradiction;
      try (destruct H as (x & -> & H); try exact I); try (destruct H as [-> Hf]; destruct w'; try discriminate Hf; exact I); try (cbn [hrel] in H; rewrite !H; exact I).
    cbn. rewrite !sk_len_spec, (F2_len _ _ _ H). destruct (Nat.eqb _ _); [|exact I]. apply leaves_rel; [assumption|assumption|constructor].
  - destruct (q_coerce q) as [l' w'|l' qs|l' fs|lab p'|l' t|o p'|i p'|p'|[p'|]|[p'|]]; try contradiction;
      try (destruct H as (x & -> & H); try exact I); try (destruct H as [-> Hf]; destruct w'; try discriminate Hf; exact I); try (cbn [hrel] in H; rewrite !H; exact I).
    apply leaf_rel; auto.
  - destruct (q_coerce q) as [l' w'|l' qs|l' fs|lab p'|l' t|o p'|i p'|p'|[p'|]|[p'|]]; try contradiction;
      try (destruct H as (x & -> & H); try exact I); try (destruct H as [-> Hf]; destruct w'; try discriminate Hf; exact I); try (cbn [hrel] in H; rewrite !H; constructor).
Qed.

Lemma vmatches_rel {D1 D2} p v q (s : scope D1) (qs : qscope D2) : loc_pat num p = true -> agree v q ->
  match vmatches v s p, q_matches q qs p with
  | Some s', Some q' => exists es es', s' = SMulti s es /\ q' = QSMulti qs es' /\ Forall2 entrel es es'
  | None, None => True
  | _, _ => False
  end.
Proof.
  intros Hp H. unfold vmatches, q_matches. pose proof (matches_rel p v q Hp H) as M.
  destruct (matches_inner p (coerce_nominal v) []) as [b|], (q_matches_inner p (q_coerce q) []) as [b'|]; try contradiction; cbn [option_map]; [|exact I].
  do 2 eexists. split; [reflexivity|]. split; [reflexivity|]. cbn in M. induction M as [|x y b b' [H1 H2] M IH]; cbn; constructor; auto. now split.
Qed.

(** ** Expressions *)

Definition eagree (e : expr) : Prop :=
  forall D1 D2 (s : scope D1) (q : qscope D2), vrel s q -> orel agree (eval e s) (q_eval e q).
Definition bagree (e : expr) : Prop := match e with ELambda _ b => eagree b | _ => True end.
Lemma ev_rel {D1 D2} e (s : scope D1) (q : qscope D2) : eagree e -> vrel s q ->
  orel vag (omap coerce_mapped (eval e s)) (omap (fun p => clone_value (q_coerce p)) (q_eval e q)).
Proof. intros He H. eapply orel_map; [now apply He|]. intros a b Hab. now apply agree_vag. Qed.
Lemma lam_rel {D1 D2} f (s : scope D1) (q : qscope D2) v p : bagree f -> vrel s q -> agree v p ->
  orel vag (match f with ELambda x body => omap coerce_mapped (eval body (SSingle s x v)) | _ => Panic end)
           (match f with ELambda x body => omap (fun p => clone_value (q_coerce p)) (q_eval body (QSSingle q x p)) | _ => Panic end).
Proof. intros Hb H Hv. destruct f; try exact I. apply ev_rel; [exact Hb|]. now apply vrel_single. Qed.

(** Operations on scalars *)
Lemma vag_flat_case v w : vag v w -> (flatv v = false) \/ (v = w).
Proof. intros H. destruct (flatv v) eqn:E; [right|now left]. eapply vag_flat; eauto. Qed.
Lemma vagr_of_flat v : flatv v = true -> okv num v = true -> vagr v v.
Proof. intros H1 H2. split; [reflexivity|]. now rewrite flat_plain. Qed.
Lemma usize_rel v w : vag v w -> orel eq (unwrap_usize v) (unwrap_usize w).
Proof.
  intros H. destruct (vag_flat_case _ _ H) as [E| ->]; [destruct v; try discriminate E; exact I|].
  destruct (unwrap_usize w); cbn; auto.
Qed.
Lemma bool_rel v w : vag v w -> orel eq (unwrap_bool v) (unwrap_bool w).
Proof.
  intros H. destruct (vag_flat_case _ _ H) as [E| ->]; [destruct v; try discriminate E; exact I|].
  destruct (unwrap_bool w); cbn; auto.
Qed.
Definition scalar_res (x y : outcome value) : Prop := orel (fun a b => a = b /\ flatv a = true /\ okv num a = true) x y.
Lemma scalar_from x y : scalar_res x y -> orel agree x (omap from_evaluated y).
Proof.
  destruct x, y; cbn; auto. intros (-> & H1 & H2). apply agree_from. now apply vagr_of_flat.
Qed.
Lemma int_rel_rel r v w v' w' : vag v w -> vag v' w' -> scalar_res (value_int_rel r v v') (value_int_rel r w w').
Proof.
  intros H H'. destruct (vag_flat_case _ _ H) as [E| ->]; [destruct v; try discriminate E; exact I|].
  destruct (vag_flat_case _ _ H') as [E| ->]; [destruct w; try exact I; destruct v'; try discriminate E; exact I|].
  unfold scalar_res. destruct w, w'; cbn; try exact I; repeat match goal with |- context [match ?x with _ => _ end] => destruct x end; cbn; auto.
Qed.
Lemma arith_rel op v w v' w' : vag v w -> vag v' w' -> scalar_res (value_arith op v v') (value_arith op w w').
Proof.
  intros H H'. destruct (vag_flat_case _ _ H) as [E| ->]; [destruct op, v; try discriminate E; exact I|].
  destruct (vag_flat_case _ _ H') as [E| ->]; [destruct op, w; try exact I; destruct v'; try discriminate E; exact I|].
  unfold scalar_res.
  assert (S : forall x : outcome value, (forall a, x = Val a -> flatv a = true /\ okv num a = true) -> orel (fun a b => a = b /\ flatv a = true /\ okv num a = true) x x)
    by (intros [a|] Hx; cbn; auto).
  apply S. intros a Ha.
  assert (O : forall k x, omap (VU k) x = Val a -> flatv a = true /\ okv num a = true) by (intros k [x|]; cbn; [intros [= <-]; auto|discriminate]).
  assert (O' : forall x, omap VUsize x = Val a -> flatv a = true /\ okv num a = true) by (intros [x|]; cbn; [intros [= <-]; auto|discriminate]).
  assert (O'' : forall b, Val (VBool b) = Val a -> flatv a = true /\ okv num a = true) by (intros b [= <-]; auto).
  destruct op, w; try discriminate Ha; destruct w'; try discriminate Ha; cbn [value_arith] in Ha; try (destruct (bw_eqb _ _); [|discriminate Ha]); eauto.
Qed.
Lemma scalar_self (x : outcome value) : (forall a, x = Val a -> flatv a = true /\ okv num a = true) -> scalar_res x x.
Proof. unfold scalar_res. destruct x as [a|]; intros Hx; [|exact I]. cbn [orel]. split; [reflexivity|]. now apply Hx. Qed.
Lemma omap_vu k x a : omap (VU k) x = Val a -> flatv a = true /\ okv num a = true.
Proof. destruct x as [y|]; cbn [omap]; [intros [= <-]; auto|discriminate]. Qed.
Lemma omap_vusize x a : omap VUsize x = Val a -> flatv a = true /\ okv num a = true.
Proof. destruct x as [y|]; cbn [omap]; [intros [= <-]; auto|discriminate]. Qed.
Lemma unary_rel op v w : vag v w -> scalar_res (value_unary op v) (value_unary op w).
Proof.
  intros H. destruct (vag_flat_case _ _ H) as [E| ->]; [destruct op, v; try discriminate E; exact I|].
  apply scalar_self. intros a. destruct op, w; cbn [value_unary]; try discriminate; try apply omap_vu; try apply omap_vusize.
  intros [= <-]. auto.
Qed.
Lemma as_rel k v w : vag v w -> scalar_res (value_as k v) (value_as k w).
Proof.
  intros H. destruct (vag_flat_case _ _ H) as [E| ->]; [destruct v; try discriminate E; exact I|].
  apply scalar_self. intros a. destruct w; cbn [value_as]; try discriminate; apply omap_vu.
Qed.
Lemma char_rel v w : vag v w -> scalar_res (value_as_char v) (q_as_char w).
Proof.
  intros H. destruct (vag_flat_case _ _ H) as [E| ->]; [destruct v; try discriminate E; exact I|].
  destruct w as [|k n| | | | | | | | | | | | | | |]; try exact I; unfold q_as_char; [|apply orel_panic_r].
  apply scalar_self. intros a. unfold value_as_char. destruct k; try (destruct (N.ltb _ _); [|discriminate]); intros [= <-]; auto.
Qed.
Lemma bytes_of_rel vs ws : map plain vs = map plain ws ->
  forall a b, bytes_of vs = Some a -> bytes_of ws = Some b -> a = b.
Proof.
  revert ws. induction vs as [|v vs IH]; intros [|w ws]; cbn; try discriminate; [congruence|].
  intros [= H1 H2] a b. destruct v as [|[] x| | | | | | | | | | | | | | |]; try discriminate. destruct w as [|[] y| | | | | | | | | | | | | | |]; try discriminate.
  cbn [plain] in H1. injection H1 as <-. destruct (bytes_of vs) eqn:Ea, (bytes_of ws) eqn:Eb; cbn; try discriminate. intros [= <-] [= <-]. f_equal. eauto.
Qed.
Lemma from_bytes_rel be k v w : vag v w -> scalar_res (value_from_bytes be k v) (value_from_bytes be k w).
Proof.
  intros ([H1 H2] & _ & _). unfold value_from_bytes, scalar_res.
  destruct v; try exact I. destruct w; try apply orel_panic_r.
  cbn [plain] in H1. cbn [unwrap_tuple obind]. injection H1 as H1. pose proof (bytes_of_rel _ _ H1) as B.
  destruct (bytes_of vs), (bytes_of vs0); cbn; try exact I.
  - rewrite (B _ _ eq_refl eq_refl). destruct (Nat.eqb _ _); cbn; auto.
  - destruct (Nat.eqb _ _); exact I.
Qed.
Lemma strict_rel v w : vag v w -> orel (fun s t => Forall2 vagr (sk_to_list s) (sk_to_list t)) (strict_seq v) (strict_seq w).
Proof.
  intros ([H1 H2] & _ & _). destruct v as [| | | | | | | |[?|]| | | |s| | | |[?|]]; try exact I. destruct w as [| | | | | | | |[?|]| | | |t| | | |[?|]]; try exact I.
  rewrite plain_seq in H1, H2. rewrite plain_seq in H1. cbn in *. injection H1 as H1.
  revert H1 H2. generalize (sk_to_list s), (sk_to_list t). induction l as [|x l IH]; intros [|y l']; cbn; try discriminate; [constructor|].
  intros [= A B] C. apply andb_true_iff in C. constructor; [split; tauto|]. apply IH; tauto.
Qed.
Lemma flat_elems_rel v w : vag v w -> orel (Forall2 vagr) (flat_elems v) (omap sk_to_list (strict_seq w)).
Proof.
  intros H. pose proof (strict_rel _ _ H) as S. destruct v as [| | | | | | | |[?|]| | | |s| | | |[?|]]; try exact I.
  - cbn. destruct (vag_flat_case _ _ H) as [E| <-]; [discriminate|]. exact I.
  - cbn in *. destruct (strict_seq w); exact S.
Qed.
Lemma accum_pair_rel v w : vag v w -> orel (fun a b => vagr (fst a) (fst b) /\ Forall2 vagr (snd a) (snd b)) (accum_pair v) (accum_pair w).
Proof.
  intros ([H1 H2] & _ & _). unfold accum_pair.
  destruct v as [| | | | | | | |[?|]|vs| | |[?|? ?]| | | |[?|]]; try exact I.
  destruct vs as [|x [|[| | | | | | | |[?|]| | | |s| | | |[?|]] [|]]]; try exact I.
  destruct w as [| | | | | | | |[?|]|ws| | |[?|? ?]| | | |[?|]]; try exact I.
  destruct ws as [|y [|[| | | | | | | |[?|]| | | |t| | | |[?|]] [|]]]; try exact I.
  cbn [plain map] in H1, H2. change (VTuple [plain x; plain (VSeq s)] = VTuple [plain y; plain (VSeq t)]) in H1.
  change (okv num (VTuple [plain x; plain (VSeq s)]) = true) in H2. injection H1 as Hx Hs. cbn [okv forallb] in H2. rewrite !andb_true_iff in H2.
  cbn. split; [split; tauto|]. assert (V : vag (VSeq s) (VSeq t)) by (repeat split; tauto). exact (strict_rel _ _ V).
Qed.
Lemma cmp_key_rel q q' k k' : vag q q' -> vag k k' -> orel eq (compare_as_key q k) (compare_as_key q' k').
Proof.
  intros H H'. destruct (vag_flat_case _ _ H) as [E| ->]; [destruct q; try discriminate E; exact I|].
  destruct (vag_flat_case _ _ H') as [E| ->]; [destruct q'; try exact I; destruct k; try discriminate E; exact I|].
  destruct (compare_as_key q' k'); cbn; auto.
Qed.
Lemma eq_key_rel q q' k k' : vag q q' -> vag k k' -> orel eq (eq_key q k) (eq_key q' k').
Proof.
  intros H H'. destruct (vag_flat_case _ _ H) as [E| ->]; [destruct q; try discriminate E; exact I|].
  destruct (vag_flat_case _ _ H') as [E| ->]; [destruct q'; try exact I; destruct k; try discriminate E; exact I|].
  destruct (eq_key q' k'); cbn; auto.
Qed.
(** Searching with keys that agree where they do not panic *)
Definition unfuel {A} (o : option (outcome A)) : outcome A := match o with Some r => r | None => Panic end.
Lemma bsearch_rel {K1 K2} (c1 : K1 -> outcome comparison) (c2 : K2 -> outcome comparison) k1 k2 :
  (forall i, orel eq (obind (k1 i) c1) (obind (k2 i) c2)) -> forall fuel lo hi,
  orel eq (unfuel (bsearch c1 k1 fuel lo hi)) (unfuel (bsearch c2 k2 fuel lo hi)).
Proof.
  intros H. induction fuel as [|fuel IH]; intros lo hi; cbn [bsearch]; [exact I|].
  destruct (hi <? lo); [reflexivity|]. cbv zeta. specialize (H ((lo + hi) / 2)).
  destruct (obind (k1 _) c1) as [c|], (obind (k2 _) c2) as [c'|]; cbn [orel] in H; try subst c'; try exact I; try apply orel_panic_r.
  destruct c; [reflexivity| |apply IH]. destruct (Nat.eqb _ 0); [exact I|apply IH].
Qed.
Lemma find_sorted_rel {K1 K2} (c1 : K1 -> outcome comparison) (c2 : K2 -> outcome comparison) k1 k2 n :
  (forall i, orel eq (obind (k1 i) c1) (obind (k2 i) c2)) ->
  orel eq (unfuel (find_sorted c1 n k1)) (unfuel (find_sorted c2 n k2)).
Proof.
  intros H. unfold find_sorted. destruct (n =? 0); [reflexivity|]. pose proof (H 0) as H0.
  destruct (obind (k1 0) c1) as [c|], (obind (k2 0) c2) as [c'|]; cbn [orel] in H0; try subst c'; try exact I; try apply orel_panic_r.
  destruct c; try reflexivity. destruct (n <=? 1); [reflexivity|]. pose proof (H (n - 1)) as H1.
  destruct (obind (k1 (n - 1)) c1) as [c|], (obind (k2 (n - 1)) c2) as [c'|]; cbn [orel] in H1; try subst c'; try exact I; try apply orel_panic_r.
  destruct c; try reflexivity. destruct (n <=? 2); [reflexivity|]. now apply bsearch_rel.
Qed.
Lemma find_unsorted_rel {K1 K2 V1 V2} (R : V1 -> V2 -> Prop) (e1 : K1 -> outcome bool) (e2 : K2 -> outcome bool) f1 f2 l1 l2 :
  Forall2 R l1 l2 -> (forall a b, R a b -> orel eq (obind (f1 a) e1) (obind (f2 b) e2)) -> forall i,
  orel eq (find_unsorted e1 f1 i l1) (find_unsorted e2 f2 i l2).
Proof.
  intros H Hf. induction H as [|a b l1 l2 Hab H IH]; intros i; cbn [find_unsorted]; [reflexivity|]. specialize (Hf _ _ Hab).
  destruct (obind (f1 a) e1) as [c|], (obind (f2 b) e2) as [c'|]; cbn [orel] in Hf; try subst c'; try exact I; try apply orel_panic_r.
  destruct c; [reflexivity|apply IH].
Qed.
Lemma proj_rel v p i : agree v p -> orel agree (tuple_proj (coerce_mapped v) i) (q_tuple_proj (q_coerce p) i).
Proof.
  intros H. apply head in H. unfold q_tuple_proj.
  replace (q_coerce (q_coerce p)) with (q_coerce p) by (clear; induction p; cbn; auto).
  destruct (q_coerce p) as [l w|l ps|l fs|lab p'|l s|o p'|k p'|p'|[p'|]|[p'|]]; try apply orel_panic_r.
  destruct H as (vs & -> & H). cbn. pose proof (F2_nth _ _ _ i H) as Hn.
  destruct (nth_error vs i), (nth_error ps i); cbn; auto.
Qed.
Lemma field_rel v p lab : agree v p -> orel agree (record_proj (coerce_mapped v) lab) (q_record_proj (q_coerce p) lab).
Proof.
  intros H. apply head in H.
  destruct (q_coerce p) as [l w|l ps|l gs|lab' p'|l s|o p'|k p'|p'|[p'|]|[p'|]]; try apply orel_panic_r.
  destruct H as (fs & -> & H). cbn. induction H as [|[l1 v1] [l2 p2] fs gs [H1 H2] H IH]; cbn; [exact I|].
  cbn in H1, H2. subst l2. destruct (N.eqb lab l1); [exact H2|exact IH].
Qed.
Lemma vagr_seq_list vs ws : Forall2 vagr vs ws -> vagr (VSeq (Strict vs)) (VSeq (Strict ws)).
Proof. intros H. now apply vagr_seq. Qed.
Lemma vag_vagr v w : vag v w -> vagr v w.
Proof. now intros [H _]. Qed.
Lemma F2_vag vs ws : Forall2 vag vs ws -> Forall2 vagr vs ws.
Proof. apply F2_mono. exact vag_vagr. Qed.

Definition expr_rel (e : expr) : Prop := loc_expr num e = true -> eagree e /\ bagree e.
Ltac eg := match goal with HE : eagree ?e, HS : vrel ?s ?q |- orel _ (eval ?e ?s) (q_eval ?e ?q) => exact (HE _ _ _ _ HS) end.
Ltac evr := match goal with HE : eagree ?e, HS : vrel ?s ?q |- orel _ (omap coerce_mapped (eval ?e ?s)) (omap _ (q_eval ?e ?q)) => exact (ev_rel e s q HE HS) end.
Ltac us := eapply orel_bind; [eapply orel_bind; [evr|intros ? ? ?; apply usize_rel; eassumption]|intros ? ? <-].
Ltac lamr := match goal with HB : bagree ?f, HS : vrel ?s ?q |- orel _ (match ?f with ELambda _ _ => _ | _ => _ end) _ => eapply (lam_rel f s q _ _ HB HS) end.
Ltac sq := eapply orel_bind; [eg|]; let v := fresh "v" in let p := fresh "p" in let Hv := fresh "Hv" in intros v p Hv;
  eapply orel_bind; [apply seq_of_rel, Hv|]; let w := fresh "w" in let p := fresh "p" in let Hq := fresh "Hq" in intros w p Hq.
Ltac getlam f L := match goal with HB : bagree f, HS : vrel ?s ?q |- _ => pose proof (fun v p => lam_rel f s q v p HB HS) as L end.
(** Where the plain evaluator wants a sequence of values and the other accepts
    ranges too *)
Lemma strict_list {D1 D2 A B} e (s : scope D1) (q : qscope D2) (R : A -> B -> Prop) k k' : eagree e -> vrel s q ->
  (forall t t', Forall2 agree (sk_to_list t) (sk_to_list t') -> orel R (k t) (k' (QVals t'))) ->
  orel R (obind (omap coerce_mapped (eval e s)) (fun v => obind (strict_seq v) k))
         (obind (q_eval e q) (fun v => obind (q_seq_of v) k')).
Proof.
  intros He HS Hk. specialize (He _ _ _ _ HS). destruct (eval e s) as [v|]; [|exact I]. destruct (q_eval e q) as [p|]; [|apply orel_panic_r].
  cbn [omap obind]. pose proof (seq_of_rel _ _ He) as Hq. unfold seq_of in Hq.
  destruct (coerce_mapped v) as [| | | | | | | | | | | |t| | | |]; try exact I. cbn [strict_seq obind get_sequence] in *.
  destruct (q_seq_of p) as [[t'|]|]; cbn [orel sqrel obind] in *; try contradiction; [now apply Hk|apply orel_panic_r].
Qed.
Lemma qeval_rel e : expr_rel e.
Proof.
  induction e using expr_ind'; intros He; cbn [loc_expr] in He; (split; [|try exact I]); try (intros D1 D2 s q HS; cbn [eval q_eval]).
  all: repeat match goal with H : (_ && _)%bool = true |- _ => apply andb_true_iff in H; destruct H end.
  all: repeat match goal with HP : expr_rel ?e, HE : loc_expr num ?e = true |- _ => specialize (HP HE); destruct HP end.
  all: try (eapply scalar_from;
       eapply orel_bind; [evr|]; let H := fresh "Hv" in intros ? ? H;
       first [apply unary_rel, H | apply as_rel, H | apply char_rel, H | apply from_bytes_rel, H
             | eapply orel_bind; [evr|]; intros ? ? ?; first [now apply int_rel_rel | now apply arith_rel]]).
  - specialize (HS x). destruct (get_value x s), (q_get_value x q); try contradiction; [exact HS|exact I].
  - now apply agree_flat.
  - now apply agree_flat.
  - (* tuple *)
    eapply orel_map; [apply orel_mapM_same|].
    + rewrite Forall_forall in *. rewrite forallb_forall in He. intros x Hx. apply ev_rel; [|exact HS]. now apply H, He.
    + intros vs ws Hv. apply agree_from, vagr_tuple, F2_vag, Hv.
  - eapply orel_bind; [eg|]. intros v p Hv. now apply proj_rel.
  - (* record *)
    assert (M : orel (Forall2 fagree) (omapM (fun f => match f with (l, e) => omap (pair l) (eval e s) end) fs)
                  (omapM (fun f => match f with (l, e) => omap (pair l) (q_eval e q) end) fs)).
    { apply orel_mapM_same. rewrite Forall_forall in *. rewrite forallb_forall in He. intros [l x] Hx.
      eapply orel_map; [apply (H _ Hx); [exact (He _ Hx)|exact HS]|]. intros a b Hab. now split. }
    destruct (omapM _ fs) as [vs|] eqn:E1; [|exact I]. destruct (omapM (fun f => match f with (l, e) => omap (pair l) (q_eval e q) end) fs) as [ps|]; [|exact I].
    cbn in *. destruct ps as [|p ps]; [exact I|]. cbn. now apply agree_record.
  - eapply orel_bind; [eg|]. intros v p Hv. now apply field_rel.
  - eapply orel_map; [evr|]. intros v w Hv. apply agree_from, vagr_variant, vag_vagr, Hv.
  - eapply orel_map; [apply orel_mapM_same|].
    + rewrite Forall_forall in *. rewrite forallb_forall in He. intros x Hx. apply ev_rel; [|exact HS]. now apply H, He.
    + intros vs ws Hv. apply agree_from, vagr_seq_list, F2_vag, Hv.
  - (* numeric *)
    rewrite (neval_look_ext (num_look s) (q_num_look q)); [|intros x _; now apply look_rel].
    destruct (neval _ _); try exact I. apply agree_flat; [reflexivity|exact He].
  - (* match *)
    eapply orel_bind; [eg|]. intros v p Hv.
    induction H as [|[pt b] bs Hb H IH]; [exact I|]. cbn [forallb] in H1. apply andb_true_iff in H1. destruct H1 as [H1 H1'].
    apply andb_true_iff in H1. destruct H1 as [Hp He].
    pose proof (vmatches_rel pt v p s q Hp Hv) as M. cbn.
    destruct (vmatches v s pt) as [s'|], (q_matches p q pt) as [q'|]; try contradiction; [|now apply IH].
    destruct M as (es & es' & -> & -> & Hes).
    eapply orel_map; [apply (Hb He); now apply vrel_multi|]. intros a r Har.
    apply agree_vag in Har. apply vag_vagr in Har. now apply agree_from.
  - eapply orel_bind; [eg|]. intros v p0 Hv.
    pose proof (vmatches_rel p v p0 s q ltac:(assumption) Hv) as M.
    destruct (vmatches v s p) as [s'|], (q_matches p0 q p) as [q'|]; try contradiction; [|exact I].
    destruct M as (es & es' & -> & -> & Hes).
    eapply orel_map; [match goal with HE : eagree ?e |- orel _ (eval ?e _) _ => apply HE end; now apply vrel_multi|].
    intros a r Har. apply agree_vag in Har. apply vag_vagr in Har. now apply agree_from.
  - exact I.
  - (* lambda body *) eg.
  - (* length *) eapply orel_bind; [eg|]. intros v p Hv. eapply orel_map; [apply seq_of_rel, Hv|]. intros a b Hab. rewrite (sqrel_len _ _ Hab). now apply agree_flat.
  - sq. us. us. now apply seq_sub_rel.
  - sq. us. now apply seq_ix_rel.
  - sq. us. us. now apply seq_inflate_rel.
  - (* flat map *)
    getlam e1 L. sq. eapply orel_map; [eapply orel_mapM; [apply sqrel_list, Hq|]|].
    + intros a b Hab. specialize (L a b Hab).
      destruct (match e1 with ELambda _ _ => _ | _ => _ end) as [r|]; [|exact I]. destruct (match e1 with ELambda _ _ => _ | _ => _ end) as [r'|]; [|apply orel_panic_r].
      cbn [obind]. apply flat_elems_rel, L.
    + intros ls ls' Hl. apply agree_from, vagr_seq_list, F2_concat, Hl.
  - (* flat map with an accumulator *)
    getlam e1 L. eapply (strict_list e3); [assumption|assumption|]. intros u u' Hl.
    eapply orel_bind; [evr|]. intros z w Hz.
    eapply orel_map; [eapply orel_foldM with (S := fun a b => vagr (fst a) (fst b) /\ Forall2 vagr (snd a) (snd b)); [exact Hl| |split; [apply vag_vagr, Hz|constructor]]|].
    + intros [a la] [b lb] x y [Hab Hl'] Hxy. cbn [fst snd] in *.
      eapply orel_bind; [apply L, agree_from, vagr_tuple; constructor; [exact Hab|constructor; [apply agree_clone, Hxy|constructor]]|].
      intros r r' Hr. eapply orel_bind; [apply accum_pair_rel, Hr|]. intros [r1 r2] [y1 y2] [Hr1 Hr2]. cbn. split; [exact Hr1|]. now apply Forall2_app.
    + intros a b [_ Hab]. now apply agree_from, vagr_seq_list.
  - (* flat map over a list *)
    getlam e1 L. eapply orel_bind; [evr|]. intros v w Hv. eapply orel_bind; [apply strict_rel, Hv|]. intros q1 q2 Ht.
    eapply orel_map; [eapply orel_foldM with (S := Forall2 vagr); [exact Ht| |constructor]|].
    + intros la lb x y Hab Hxy.
      eapply orel_bind; [apply L, agree_from, vagr_tuple; constructor; [apply vagr_seq_list, Hab|constructor; [exact Hxy|constructor]]|].
      intros r r' Hr. eapply orel_map; [apply strict_rel, Hr|]. intros u u' Hu. now apply Forall2_app.
    + intros a b Hab. now apply agree_from, vagr_seq_list.
  - (* search *)
    getlam e1 L. eapply (strict_list e3); [assumption|assumption|]. intros u u' Hl. cbn [qvseq_list].
    eapply orel_bind; [evr|]. intros k k' Hk.
    assert (F : forall r r', orel eq r r' ->
      orel agree (obind r (fun o => match o with Some ix => omap (fun x => VOption (Some x)) (sk_index u ix) | None => Val (VOption None) end))
                 (obind r' (fun o => match o with Some ix => omap (fun x => QOption (Some x)) (sk_index u' ix) | None => Val (from_evaluated (VOption None)) end))).
    { intros r r' Hr. eapply orel_bind; [exact Hr|]. intros o ? <-. destruct o as [ix|]; [|apply agree_none].
      eapply orel_map; [apply sk_index_rel, Hl|]. intros a c Hab. now apply agree_some. }
    assert (K : forall x y, agree x y -> orel eq
      (obind (match e1 with ELambda x0 body => omap coerce_mapped (eval body (SSingle s x0 x)) | _ => Panic end) (compare_as_key k))
      (obind (match e1 with ELambda x0 body => omap (fun p => clone_value (q_coerce p)) (q_eval body (QSSingle q x0 y)) | _ => Panic end) (compare_as_key k'))).
    { intros x y Hxy. eapply orel_bind; [exact (L _ _ Hxy)|]. intros a c Hac. now apply cmp_key_rel. }
    assert (K' : forall x y, agree x y -> orel eq
      (obind (match e1 with ELambda x0 body => omap coerce_mapped (eval body (SSingle s x0 x)) | _ => Panic end) (eq_key k))
      (obind (match e1 with ELambda x0 body => omap (fun p => clone_value (q_coerce p)) (q_eval body (QSSingle q x0 y)) | _ => Panic end) (eq_key k'))).
    { intros x y Hxy. eapply orel_bind; [exact (L _ _ Hxy)|]. intros a c Hac. now apply eq_key_rel. }
    cbv zeta. destruct b.
    + match goal with |- orel _ (match find_sorted ?c1 ?n1 ?k1 with _ => _ end) (match find_sorted ?c2 ?n2 ?k2 with _ => _ end) =>
        assert (FS : orel eq (unfuel (find_sorted c1 n1 k1)) (unfuel (find_sorted c2 n2 k2))) end.
      { replace (sk_len u) with (sk_len u') by (rewrite !sk_len_spec; symmetry; eapply F2_len, Hl).
        apply find_sorted_rel. intros i. pose proof (sk_index_rel _ _ _ i Hl) as Hi.
        destruct (sk_index u i) as [x|], (sk_index u' i) as [y|]; cbn [obind]; try exact I; [|apply orel_panic_r]. now apply K. }
      match goal with |- orel _ (match ?x with _ => _ end) (match ?y with _ => _ end) => destruct x as [r|], y as [r'|] end; cbn [unfuel] in FS; try exact I.
      * now apply F.
      * apply orel_panic_r.
    + apply F. eapply find_unsorted_rel; [exact Hl|exact K'].
  - us. eapply orel_map; [eapply orel_bind; [evr|intros ? ? ?; apply usize_rel; eassumption]|]. intros ? ? <-. now apply agree_flat.
  - (* fold *)
    getlam e1 L. eapply (strict_list e3); [assumption|assumption|]. intros u u' Hl.
    eapply orel_bind; [evr|]. intros z w Hz.
    match goal with |- orel agree (ofoldM ?f ?i ?l) _ => replace (ofoldM f i l) with (omap (fun x : value => x) (ofoldM f i l)) by (destruct (ofoldM f i l); reflexivity) end.
    eapply orel_map; [eapply orel_foldM with (S := vagr); [exact Hl| |apply vag_vagr, Hz]|].
    + intros a b' x y Hab Hxy. eapply orel_mono; [|apply L, agree_from, vagr_tuple; constructor; [exact Hab|constructor; [apply agree_clone, Hxy|constructor]]].
      exact vag_vagr.
    + intros a b' Hab. now apply agree_from.
  - us. eapply orel_map; [evr|]. intros v w Hv. apply agree_from, vagr_seq. cbn [sk_to_list].
    match goal with |- Forall2 _ (repeat _ ?n) _ => generalize n end. intros n. induction n; cbn; constructor; auto. now apply vag_vagr.
  - apply agree_none.
  - eapply orel_map; [evr|]. intros v w Hv. apply agree_from, vagr_some, vag_vagr, Hv.
  - eapply orel_bind; [eg|]. intros va pa Ha. eapply orel_bind; [eg|]. intros vb pb Hb.
    eapply orel_bind; [apply seq_of_rel, Ha|]. intros qa ra Hqa. eapply orel_bind; [apply seq_of_rel, Hb|]. intros qb rb Hqb.
    rewrite (sqrel_empty _ _ Hqa), (sqrel_empty _ _ Hqb). destruct (qvseq_is_empty ra); [now apply agree_coerce|]. destruct (qvseq_is_empty rb); [now apply agree_coerce|].
    now apply vseq_append_rel.
Qed.
End Agree.
