(** Decoding terminates: with enough fuel every run of a compiled program gives a
    result, an error or a panic. *)
From Verif Require ByteSetModel HuffmanModel.
From Verif Require Import Base BoundsModel BoundsProofs DataModel NumericModel ValueModel ValueProofs FormatModel MatchTreeModel
  DecoderModel DecoderProofs FormatSpec FormatInd CompileProofs SoundProofs MatchBoundsProofs.
Open Scope nat_scope.

(** A family of runs, one for each fuel, that agree once there is enough fuel. *)
Definition mono {A} (r : nat -> dres A) : Prop := forall n m, n <= m -> rle (r n) (r m).
Definition conv {A} (r : nat -> dres A) : Prop := exists F, r F <> RFuel.

Lemma conv_const {A} (x : dres A) : x <> RFuel -> conv (fun _ => x).
Proof. intros H. now exists 0. Qed.
Lemma mono_at {A} (r : nat -> dres A) n m : mono r -> n <= m -> r n <> RFuel -> r m = r n.
Proof. intros H L Hn. destruct (H n m L) as [E|E]; [contradiction|now symmetry]. Qed.
Lemma conv_map {A B} (f : A -> B) (r : nat -> dres A) : conv r -> conv (fun F => rmap f (r F)).
Proof. intros [F H]. exists F. destruct (r F); try discriminate. contradiction. Qed.
Lemma conv_back {A} c (r : nat -> dres A) : conv r -> conv (fun F => rback c (r F)).
Proof. intros [F H]. exists F. destruct (r F); try discriminate. contradiction. Qed.
Lemma conv_let {A B} (x : outcome A) (k : nat -> A -> dres B) : (forall a, x = Val a -> conv (fun F => k F a)) -> conv (fun F => rlet x (k F)).
Proof. intros H. destruct x as [a|]; cbn; [now apply H|]. now apply conv_const. Qed.
Lemma conv_view {D A} (s : scope D) v (k : nat -> rctx -> dres A) : (forall w, eval_view s v = Val (inl w) -> conv (fun F => k F w)) ->
  conv (fun F => with_view s v (k F)).
Proof. intros H. unfold with_view. apply (conv_let _ (fun F o => match o with inl c => k F c | inr e => RErr e end)). intros [w|e] E; [now apply H|]. now apply conv_const. Qed.
Lemma conv_bind {A B} (r : nat -> dres A) (k : nat -> A -> rctx -> dres B) : mono r -> (forall a c, mono (fun F => k F a c)) ->
  conv r -> (forall a c es F, r F = ROk a c es -> conv (fun F => k F a c)) -> conv (fun F => rbind (r F) (k F)).
Proof.
  intros Mr Mk [F H] Hk. destruct (r F) as [a c es| | |] eqn:E; [|exists F; rewrite E; discriminate|exists F; rewrite E; discriminate|contradiction].
  destruct (Hk a c es F E) as [F' H']. exists (Nat.max F F').
  rewrite (mono_at r F (Nat.max F F') Mr) by (lia || congruence). rewrite E. cbn [rbind].
  rewrite (mono_at _ F' (Nat.max F F') (Mk a c)) by (lia || assumption).
  destruct (k F' a c); try discriminate. contradiction.
Qed.

Section Loops.
Context {Sc Dc : Type} (p : nat -> Sc -> Dc -> rctx -> dres value).
Context (Mp : forall n m s d c, n <= m -> rle (p n s d c) (p m s d c)).
Context (Ap : forall n s d c, in_range c -> radv c (p n s d c)).
Definition stops (s : Sc) (d : Dc) : Prop := forall c, in_range c -> conv (fun F => p F s d c).
Definition moves (s : Sc) (d : Dc) : Prop := forall F c v c' es, in_range c -> p F s d c = ROk v c' es -> roff c < roff c'.

Lemma step_range {s d F c v c' es} : in_range c -> p F s d c = ROk v c' es -> in_range c' /\ rinput c' = rinput c /\ roff c <= roff c'.
Proof. intros Hc E. pose proof (Ap F s d c Hc) as H. rewrite E in H. cbn in H. destruct H as (H1 & H2 & H3). unfold in_range. rewrite H1. auto. Qed.
Lemma pseq_stops l : Forall (fun sd => stops (fst sd) (snd sd)) l -> forall c, in_range c -> conv (fun F => pseq (p F) l c).
Proof.
  induction 1 as [|[s d] l H _ IH]; intros c Hc; cbn [pseq]; [now apply conv_const|].
  apply (conv_bind (fun F => p F s d c) (fun F v c' => rmap (cons v) (pseq (p F) l c'))).
  - intros n m L. now apply Mp.
  - intros v c' n m L. apply rmap_le, pseq_le. intros. now apply Mp.
  - now apply H.
  - intros v c' es F E. apply conv_map, IH. now apply (step_range Hc E).
Qed.
Lemma ppar_stops s ds c : in_range c -> Forall (stops s) ds -> forall i, conv (fun F => ppar (p F) i s ds c).
Proof.
  intros Hc. induction 1 as [|d ds H _ IH]; intros i; cbn [ppar]; [now apply conv_const|].
  destruct (H c Hc) as [F1 H1]. destruct (IH (S i)) as [F2 H2]. exists (Nat.max F1 F2).
  rewrite (mono_at (fun F => p F s d c) F1 (Nat.max F1 F2)); [|intros n m L; now apply Mp|lia|exact H1].
  rewrite (mono_at (fun F => ppar (p F) (S i) s ds c) F2 (Nat.max F1 F2)); [|intros n m L; apply ppar_le; intros; now apply Mp|lia|exact H2].
  destruct (p F1 s d c); try discriminate; [exact H2|contradiction].
Qed.
Context (s : Sc) (d : Dc) (t : mtree) (Hs : stops s d).
(** At most [length - offset] rounds. *)
Definition left (c : rctx) : nat := length (rinput c) - roff c.
Lemma left_step {c c'} : in_range c' -> rinput c' = rinput c -> roff c < roff c' -> left c' < left c.
Proof. unfold left, in_range. intros. rewrite H0 in *. lia. Qed.
Context (Hm : moves s d).
Lemma pwhile_stops k : forall c, in_range c -> left c < k -> conv (fun F => pwhile (p F) s d t k c).
Proof.
  induction k as [|k IH]; intros c Hc Hk; [lia|]. cbn [pwhile].
  destruct (tree_matches t c) as [[|j]|]; [|now apply conv_const|now apply conv_const].
  apply (conv_bind (fun F => p F s d c) (fun F v c' => rmap (cons v) (pwhile (p F) s d t k c'))).
  - intros n m L. now apply Mp.
  - intros v c' n m L. apply rmap_le, pwhile_le; [intros; now apply Mp|lia].
  - now apply Hs.
  - intros v c' es F E. destruct (step_range Hc E) as (R1 & R2 & _). apply conv_map, IH; [exact R1|].
    pose proof (left_step R1 R2 (Hm _ _ _ _ _ Hc E)). lia.
Qed.
Lemma puntil_stops k : forall c, in_range c -> left c < k -> conv (fun F => puntil (p F) s d t k c).
Proof.
  induction k as [|k IH]; intros c Hc Hk; [lia|]. cbn [puntil].
  apply (conv_bind (fun F => p F s d c) (fun F v c' => match tree_matches t c' with None => RErr (KNoValidBranch (roff c')) | Some O => ROk [v] c' [] | Some (S _) => rmap (cons v) (puntil (p F) s d t k c') end)).
  - intros n m L. now apply Mp.
  - intros v c' n m L. destruct (tree_matches t c') as [[|j]|]; try apply rle_refl. apply rmap_le, puntil_le; [intros; now apply Mp|lia].
  - now apply Hs.
  - intros v c' es F E. destruct (step_range Hc E) as (R1 & R2 & _).
    destruct (tree_matches t c') as [[|j]|]; [now apply conv_const| |now apply conv_const]. apply conv_map, IH; [exact R1|].
    pose proof (left_step R1 R2 (Hm _ _ _ _ _ Hc E)). lia.
Qed.
Lemma puntil_done_stops stop k : forall acc c, in_range c -> left c < k -> conv (fun F => puntil_done (p F) s d stop acc k c).
Proof.
  induction k as [|k IH]; intros acc c Hc Hk; [lia|]. cbn [puntil_done].
  apply (conv_bind (fun F => p F s d c) (fun F v c' => rlet (stop acc v) (fun b : bool => if b then ROk (acc ++ [v]) c' [] else puntil_done (p F) s d stop (acc ++ [v]) k c'))).
  - intros n m L. now apply Mp.
  - intros v c' n m L. apply rlet_le. intros [|]; [apply rle_refl|]. apply puntil_done_le; [intros; now apply Mp|lia].
  - now apply Hs.
  - intros v c' es F E. destruct (step_range Hc E) as (R1 & R2 & _).
    apply (conv_let _ (fun F (b : bool) => if b then ROk (acc ++ [v]) c' [] else puntil_done (p F) s d stop (acc ++ [v]) k c')).
    intros [|] _; [now apply conv_const|]. apply IH; [exact R1|]. pose proof (left_step R1 R2 (Hm _ _ _ _ _ Hc E)). lia.
Qed.
Lemma paccum_stops stop upd k : forall acc vs c, in_range c -> left c < k -> conv (fun F => paccum (p F) s d stop upd acc vs k c).
Proof.
  induction k as [|k IH]; intros acc vs c Hc Hk; [lia|]. cbn [paccum].
  apply (conv_let _ (fun F (b : bool) => if b then ROk (acc, vs) c [] else rbind (p F s d c) (fun v c' => rlet (upd acc v) (fun acc' => paccum (p F) s d stop upd acc' (vs ++ [v]) k c')))).
  intros [|] _; [now apply conv_const|].
  apply (conv_bind (fun F => p F s d c) (fun F v c' => rlet (upd acc v) (fun acc' => paccum (p F) s d stop upd acc' (vs ++ [v]) k c'))).
  - intros n m L. now apply Mp.
  - intros v c' n m L. apply rlet_le. intros acc'. apply paccum_le; [intros; now apply Mp|lia].
  - now apply Hs.
  - intros v c' es F E. destruct (step_range Hc E) as (R1 & R2 & _).
    apply (conv_let _ (fun F acc' => paccum (p F) s d stop upd acc' (vs ++ [v]) k c')). intros acc' _. apply IH; [exact R1|].
    pose proof (left_step R1 R2 (Hm _ _ _ _ _ Hc E)). lia.
Qed.
End Loops.
(** A bounded repetition makes at most [max] rounds. *)
Lemma pbetween_stops {Sc Dc} (p : nat -> Sc -> Dc -> rctx -> dres value)
  (Mp : forall n m s d c, n <= m -> rle (p n s d c) (p m s d c)) (Ap : forall n s d c, in_range c -> radv c (p n s d c))
  s d t (Hs : stops p s d) mn mx c0 k : forall len c, in_range c -> N.to_nat mx - len < k -> (N.of_nat len <= mx)%N ->
  conv (fun F => pbetween (p F) s d t mn mx c0 len k c).
Proof.
  induction k as [|k IH]; intros len c Hc Hk Hl; [lia|]. cbn [pbetween].
  destruct (tree_matches t c0) as [j|]; [|now apply conv_const].
  destruct (Nat.eqb j 0 || N.eqb (N.of_nat len) mx) eqn:E0; [apply conv_const; destruct (N.ltb _ _); discriminate|].
  apply Bool.orb_false_iff in E0 as [_ E0]. apply N.eqb_neq in E0.
  apply (conv_bind (fun F => p F s d c) (fun F v c' => rmap (cons v) (pbetween (p F) s d t mn mx c0 (S len) k c'))).
  - intros n m L. now apply Mp.
  - intros v c' n m L. apply rmap_le, pbetween_le; [intros; now apply Mp|lia].
  - now apply Hs.
  - intros v c' es F E. apply conv_map, IH; [now apply (step_range p Ap Hc E)|lia|lia].
Qed.
Lemma conv_fuel {A} (r : nat -> nat -> dres A) k : (forall n m i j, n <= m -> i <= j -> rle (r n i) (r m j)) -> conv (fun F => r F k) -> conv (fun F => r F F).
Proof.
  intros M [F H]. exists (Nat.max F k). destruct (M F (Nat.max F k) k (Nat.max F k)) as [E|E]; [lia|lia|contradiction|congruence].
Qed.
Lemma read_n_result rd n : (forall c, rd c <> RFuel) -> forall c, read_n rd n c <> RFuel.
Proof.
  intros H. induction n as [|n IH]; intros c; cbn; [discriminate|]. specialize (H c).
  destruct (rd c) as [v c'| | |]; cbn; try discriminate; [|contradiction]. specialize (IH c'). destruct (read_n rd n c'); cbn; try discriminate. contradiction.
Qed.
Lemma read_u8_result c : read_u8 c <> RFuel.
Proof. unfold read_u8. destruct (rc_read_byte c) as [[? ?]|]; discriminate. Qed.
Lemma read_base_result k c : read_base k c <> RFuel.
Proof. unfold read_base. repeat match goal with |- context [match ?x with _ => _ end] => destruct x end; try discriminate. Qed.

Lemma subs_self f : In f (subs f). Proof. destruct f; now left. Qed.
Lemma subs_trans f : forall g h, In g (subs f) -> In h (subs g) -> In h (subs f).
Proof.
  induction f using format_ind'; intros g0 h Hg Hh; cbn [subs] in Hg |- *; destruct Hg as [<-|Hg]; try (now apply Hh); right;
    try contradiction; try (eapply IHf; eauto; fail).
  all: try (apply in_flat_map in Hg as (y & Hy & Hg); apply in_flat_map; exists y; split; [exact Hy|]; rewrite Forall_forall in H; try destruct y; cbn [snd] in *; eapply (H _ Hy); eauto; fail).
  all: apply in_app_or in Hg as [Hg|Hg]; apply in_or_app; [left; eapply IHf1; eauto|right; eapply IHf2; eauto].
Qed.

Section Terminates.
Context (bld : fmodule -> list format -> next -> outcome (option mtree)) (P : program) (m : fmodule).
Context (Call : nat -> next -> nat -> Prop) (HL : linked bld m P Call).
Notation parse := (parse bld P).
Notation drel := (drel bld).
Definition halts (s : scope decoder) (d : decoder) : Prop := stops parse s d.
Let Mp : forall n m s d c, n <= m -> rle (parse n s d c) (parse m s d c) := parse_le bld P.
Let Ap : forall n s d c, in_range c -> radv c (parse n s d c) := parse_adv bld P.

(** Scopes as they are while a compiled program runs. *)
Definition live (s : scope decoder) : Prop := exists sf, srel drel s sf /\ dyn_ok sf.
Lemma live_single s x v : live s -> live (SSingle s x v).
Proof. intros (sf & H & D). exists (SSingle sf x v). split; [now constructor|now apply dyn_single]. Qed.
Lemma live_view s x c : in_range c -> live s -> live (SView s x c).
Proof. intros Hc (sf & H & D). exists (SView sf x c). split; [now constructor|now apply dyn_view]. Qed.
Lemma live_call s es vs s' : live s -> call_scope s es vs = Val (inl s') -> live s'.
Proof.
  intros (sf & H & D) E. pose proof (srel_call drel s sf es vs H) as Hc. rewrite E in Hc.
  destruct (call_scope sf es vs) as [[sf'|]|] eqn:Ef; try contradiction. exists sf'. split; [exact Hc|]. eapply dyn_call; eauto.
Qed.
Lemma live_dyn s x dy f d : live s -> dyn_format dy s = Val f -> compile_one bld f = COk d -> live (SDecoder s x d).
Proof.
  intros (sf & H & D) E C. exists (SDecoder sf x f). split.
  - constructor; [exact H|]. split; [now apply compile_one_ok|]. eapply dyn_huffman; eauto.
  - eapply dyn_bound; [exact D|]. rewrite <- (srel_dyn drel s sf dy H). exact E.
Qed.
Lemma live_match v : forall bs s i k s' (d : decoder), live s -> first_match v s i bs = Some (k, s', d) -> live s' /\ exists p, In (p, d) bs.
Proof.
  induction bs as [|[p d0] bs IH]; intros s i k s' d Hs H; cbn in H; [discriminate|].
  destruct (vmatches v s p) as [s1|] eqn:E.
  - injection H as <- <- <-. split; [|exists p; now left]. destruct Hs as (sf & H & D).
    pose proof (srel_matches drel s sf v p H) as Hm. rewrite E in Hm. destruct (vmatches v sf p) as [s2|] eqn:E2; [|contradiction].
    exists s2. split; [exact Hm|]. eapply dyn_match; eauto.
  - destruct (IH _ _ _ _ _ Hs H) as [H1 (q & H2)]. split; [exact H1|]. exists q. now right.
Qed.
Lemma live_decoder s x d : live s -> get_decoder x s = Some d -> exists l g, huffman_format l = Val g /\ drel d g.
Proof.
  intros (sf & H & D) E. pose proof (srel_decoder drel s sf H x) as Hx. rewrite E in Hx.
  destruct (get_decoder x sf) as [g|] eqn:Eg; [|contradiction]. destruct (D x g Eg) as (l & Hl). eauto.
Qed.
Lemma live_eval_view s v w : live s -> eval_view s v = Val (inl w) -> in_range w.
Proof. intros (sf & H & _). now apply (srel_eval_view drel s sf v H). Qed.

Section Gen.
Context (m' : fmodule) (C' : nat -> next -> nat -> Prop).
Notation Comp := (Comp bld m' C').
Definition progress (a : format) : Prop := forall n d s, Comp a n d -> live s -> moves parse s d.
(** What termination needs of each part of a format. *)
Context (calls : nat -> Prop) (apply : Prop).
Context (Hcalls : forall level n i, calls level -> C' level n i -> exists d, nth_error P i = Some d /\ forall s, live s -> halts s d).
Context (Happly : apply -> forall l g d s, huffman_format l = Val g -> drel d g -> live s -> halts s d).
Definition part (g : format) : Prop :=
  match g with
  | FRepeat a | FRepeat1 a => is_nullable m' a = Val false -> progress a
  | FRepeatUntilLast _ a | FRepeatUntilSeq _ a | FAccumUntil _ _ _ _ a => progress a
  | FItemVar level _ _ => calls level
  | FApply _ => apply
  | _ => True
  end.

Lemma stop_step s d : (forall c, in_range c -> conv (fun F => parse (S F) s d c)) -> halts s d.
Proof. intros H c Hc. destruct (H c Hc) as [F HF]. now exists (S F). Qed.
Lemma Forall2_in_r {A B} (R : A -> B -> Prop) l l' b : Forall2 R l l' -> In b l' -> exists a, In a l /\ R a b.
Proof. induction 1 as [|x y l l' Hxy F IH]; cbn; [tauto|]. intros [<-|H]; [eauto|]. destruct (IH H) as (a & ? & ?). eauto. Qed.
Lemma tup_halts s fs n ds : live s ->
  (forall f, In f fs -> forall n d, Comp f n d -> halts s d) -> CTup Comp fs n ds -> Forall (fun sd => halts (fst sd) (snd sd)) (map (pair s) ds).
Proof. intros Hs H T. induction T; cbn; constructor; cbn; eauto using in_eq, in_cons. Qed.

Lemma term f : everywhere part f -> forall n d s, Comp f n d -> live s -> halts s d.
Proof.
  induction f using format_ind'; intros He nx dd s HD Hs;
    apply everywhere_self in He as Hself; cbn [part] in Hself;
    try (assert (He' : everywhere part f) by (intros g0 Hg0; apply He; right; cbn; auto));
    inversion HD; subst; try (now eauto);
    apply stop_step; intros cc Hc; cbn [DecoderModel.parse];
    try (now apply conv_const); try (apply conv_map; eapply IHf; eauto; fail).
  Ltac cst := apply conv_const; repeat match goal with |- context [match ?x with _ => _ end] => destruct x end; discriminate.
  Ltac body := match goal with IH : _ -> forall n d s, _ -> _ -> halts s d |- _ => eapply IH; eauto using live_single end.
  - (* item *)
    apply conv_let. intros [s'|e] E; [|now apply conv_const].
    destruct (Hcalls _ _ _ Hself H6) as (d & Hd & Hh). rewrite Hd. apply Hh; [|exact Hc]. eapply live_call; eauto.
  - cst.
  - destruct (N.eqb n 0); [now apply conv_const|]. apply conv_let. intros [[? ?]|] _; now apply conv_const.
  - cst.
  - destruct (tree_matches t cc) as [k|]; [|now apply conv_const]. destruct (nth_error ds k) as [d'|] eqn:Ed; [|now apply conv_const].
    apply conv_map. match goal with F : Forall2 _ fs ds |- _ => destruct (Forall2_nth_r _ _ _ _ _ F Ed) as (f' & Ef & Hf) end.
    apply nth_error_In in Ef. rewrite Forall_forall in H. eapply (H f' Ef); eauto. intros g Hg. apply He. right. apply in_flat_map. eauto.
  - apply ppar_stops; auto. apply Forall_forall. intros d' Hd'.
    match goal with F : Forall2 _ fs ds |- _ => destruct (Forall2_in_r _ _ _ _ F Hd') as (f' & Ef & Hf) end.
    rewrite Forall_forall in H. eapply (H f' Ef); eauto. intros g Hg. apply He. right. apply in_flat_map. eauto.
  - apply conv_map, pseq_stops; auto. eapply tup_halts; eauto. intros f' Ef n' d' Hf.
    rewrite Forall_forall in H. eapply (H f' Ef); eauto. intros g Hg. apply He. right. apply in_flat_map. eauto.
  - apply conv_map, pseq_stops; auto. eapply tup_halts; eauto. intros f' Ef n' d' Hf.
    rewrite Forall_forall in H. eapply (H f' Ef); eauto. intros g Hg. apply He. right. apply in_flat_map. eauto.
  - apply conv_map. apply (conv_fuel (fun F k => pwhile (parse F) s d t k cc) (S (left cc))).
    + intros. apply pwhile_le; auto.
    + apply pwhile_stops; auto; [now body|]. eapply Hself; eauto.
  - apply conv_map. apply (conv_fuel (fun F k => puntil (parse F) s d t k cc) (S (left cc))).
    + intros. apply puntil_le; auto.
    + apply puntil_stops; auto; [now body|]. eapply Hself; eauto.
  - apply conv_let. intros k _. apply conv_map, pseq_stops; auto. apply Forall_forall. intros sd Hsd. apply repeat_spec in Hsd. subst sd. now body.
  - apply conv_let. intros mn _. apply conv_let. intros mx _. apply conv_map.
    apply (conv_fuel (fun F k => pbetween (parse F) s d t mn mx cc 0 k cc) (S (N.to_nat mx))).
    + intros. apply pbetween_le; auto.
    + apply pbetween_stops; auto; [now body|lia|lia].
  - apply conv_map. apply (conv_fuel (fun F k => puntil_done (parse F) s d (fun _ v => lambda_bool e s v) [] k cc) (S (left cc))).
    + intros. apply puntil_done_le; auto.
    + apply puntil_done_stops; auto; [now body|]. eapply Hself; eauto.
  - apply conv_map. apply (conv_fuel (fun F k => puntil_done (parse F) s d (fun acc v => lambda_bool e s (VSeq (Strict (acc ++ [v])))) [] k cc) (S (left cc))).
    + intros. apply puntil_done_le; auto.
    + apply puntil_done_stops; auto; [now body|]. eapply Hself; eauto.
  - apply conv_let. intros acc _. apply conv_map.
    apply (conv_fuel (fun F k => paccum (parse F) s d (fun a0 vs => lambda_bool a s (VTuple [a0; VSeq (Strict vs)])) (fun a v => eval_lambda b s (VTuple [a; v])) acc [] k cc) (S (left cc))).
    + intros. apply paccum_le; auto.
    + apply paccum_stops; auto; [now body|]. eapply Hself; eauto.
  - apply conv_let. intros l _. apply conv_map, pseq_stops; auto. apply Forall_forall. intros sd Hsd. apply in_map_iff in Hsd as (v & <- & _). now body.
  - apply conv_let. intros [|] _; [|now apply conv_const]. apply conv_map. now body.
  - apply conv_back. now body.
  - assert (Hb : conv (fun F => parse F s d cc)) by now body. destruct Hb as [F HF]. exists F. destruct (parse F s d cc); try discriminate. contradiction.
  - apply conv_let. intros size _. apply conv_let. intros [[sl c']|] Es; [|now apply conv_const]. apply conv_back. body.
    apply split_at_spec in Es as (_ & -> & Hle). unfold in_range. cbn. rewrite firstn_length. lia.
  - apply conv_let. intros rem _. apply conv_bind.
    + intros n m0 L. now apply Mp.
    + intros v cb n m0 L. apply rle_refl.
    + body. unfold in_range; cbn. lia.
    + intros v cb es F E. apply conv_let. intros remb _. destruct (_ <? _); [now apply conv_const|].
      apply conv_let. intros [[? ?]|] _; now apply conv_const.
  - apply conv_let. intros b1 _. apply conv_let. intros b2 _. destruct (N.ltb _ _); [|now apply conv_const].
    destruct (rc_seek_to cc (b1 + b2)) as [c'|] eqn:Es; [|now apply conv_const]. apply conv_back. body.
    unfold rc_seek_to in Es. destruct (N.leb_spec (b1 + b2) (N.of_nat (length (rinput cc)))); [|discriminate]. injection Es as <-. unfold in_range. cbn. lia.
  - apply conv_bind; [intros n m0 L; now apply Mp|intros v cb n m0 L; apply rle_refl|now body|]. intros v c' es F E. apply conv_let. intros w _. now apply conv_const.
  - apply conv_bind; [intros n m0 L; now apply Mp|intros v cb n m0 L; apply rle_refl|now body|]. intros v c' es F E. apply conv_let. intros [|] _; [|destruct b]; now apply conv_const.
  - apply conv_let. intros v _. now apply conv_const.
  - apply conv_let. intros v _. now body.
  - apply conv_let. intros v _. destruct (first_match v s 0 ds) as [[[k s'] d']|] eqn:Ef; [|now apply conv_const]. apply conv_map.
    destruct (live_match _ _ _ _ _ _ _ Hs Ef) as [Hs' (p & Hp)].
    match goal with F : Forall2 _ bs ds |- _ => destruct (Forall2_in_r _ _ _ _ F Hp) as ([p' f'] & Hin & _ & Hf) end.
    rewrite Forall_forall in H. eapply (H _ Hin); eauto. intros g Hg. apply He. right. apply in_flat_map. exists (p', f'). auto.
  - apply conv_let. intros g Eg. destruct (compile_one bld g) as [dyn| |] eqn:Ec; [|now apply conv_const|now apply conv_const].
    match goal with IH : _ -> forall n d s, _ -> _ -> halts s d |- _ => eapply IH; eauto end. eapply live_dyn; eauto.
  - destruct (get_decoder x s) as [d|] eqn:Ed; [|now apply conv_const]. destruct (live_decoder _ _ _ Hs Ed) as (l & g & Hl & Hg).
    now apply (Happly Hself l g d s Hl Hg Hs).
  - apply conv_let. intros bytes _. apply conv_bind; [intros n m0 L; now apply Mp|intros v cb n m0 L; apply rle_refl| |].
    + body. unfold in_range; cbn. lia.
    + intros v c' es F E. destruct (rc_read_byte c') as [[? ?]|]; now apply conv_const.
  - assert (E1 : everywhere part f1) by (intros g0 Hg0; apply He; right; cbn; apply in_or_app; auto).
    assert (E2 : everywhere part f2) by (intros g0 Hg0; apply He; right; cbn; apply in_or_app; auto).
    apply conv_bind; [intros n m0 L; now apply Mp|intros v cb n m0 L; now apply Mp|eapply IHf1; eauto|].
    intros v c' es F E. eapply IHf2; eauto using live_single. eapply (step_range parse Ap Hc); exact E.
  - assert (E1 : everywhere part f1) by (intros g0 Hg0; apply He; right; cbn; apply in_or_app; auto).
    assert (E2 : everywhere part f2) by (intros g0 Hg0; apply He; right; cbn; apply in_or_app; auto).
    apply conv_bind; [intros n m0 L; now apply Mp|intros v cb n m0 L; now apply Mp|eapply IHf1; eauto|].
    intros v c' es F E. eapply IHf2; eauto. eapply (step_range parse Ap Hc); exact E.
  - eapply IHf; eauto using live_view.
  - apply conv_let. intros k _. apply conv_view. intros w _. apply conv_back, conv_map, conv_const, read_n_result, read_u8_result.
  - apply conv_let. intros k0 _. apply conv_view. intros w _. apply conv_back, conv_map, conv_const, read_n_result. intros. apply read_base_result.
  - apply conv_view. intros w _. now apply conv_const.
  - apply conv_view. intros w Ew. apply conv_back. eapply IHf; eauto. eapply live_eval_view; eauto.
  - assert (Hb : conv (fun F => parse F s d cc)) by now body. destruct Hb as [F HF]. exists F.
    destruct (parse F s d cc); try discriminate; [destruct (eval_value e s); discriminate|contradiction].
Qed.
End Gen.

(** Formats made from code lengths contain no repetition, item or application. *)
Lemma huffman_parts m' C' calls apply l g : huffman_format l = Val g -> everywhere (part m' C' calls apply) g.
Proof.
  unfold huffman_format. destruct (HuffmanModel.huffman_codes l) as [codes|]; [|discriminate]. intros [= <-] h Hh.
  cbn in Hh. destruct Hh as [<-|Hh]; [exact I|]. apply in_flat_map in Hh as (x & Hx & Hh). apply in_map_iff in Hx as ([bits sy] & <- & _).
  cbn in Hh. destruct Hh as [<-|[<-|Hh]]; [exact I|exact I|]. apply in_flat_map in Hh as (y & Hy & Hh). apply in_map_iff in Hy as (z & <- & _).
  destruct Hh as [<-|[]]. exact I.
Qed.
Lemma dynamic_halts l g d s : huffman_format l = Val g -> drel d g -> live s -> halts s d.
Proof.
  intros Hg [Hd _] Hs. eapply (term [] (fun _ _ _ => False) (fun _ => True) False); eauto.
  - intros level n i _ [].
  - intros [].
  - eapply huffman_parts; eauto.
Qed.

(** Every item only uses items defined before it. *)
Definition uses_below (level : nat) (g : format) : Prop := match g with FItemVar k _ _ => k < level | _ => True end.
Definition ordered : Prop := forall level it, get_item m level = Some it -> everywhere (uses_below level) (it_format it).
(** Loops that the compiler does not check. *)
Definition steady (g : format) : Prop :=
  match g with
  | FRepeatUntilLast _ a | FRepeatUntilSeq _ a | FAccumUntil _ _ _ _ a => is_nullable m a = Val false
  | _ => True
  end.
Context (HB : module_wide bounded_ok m) (HS : module_wide steady m) (HO : ordered).

Lemma nonnull_progress a : everywhere bounded_ok a -> is_nullable m a = Val false -> progress m Call a.
Proof.
  intros He Hn n d s HC (sf & Hsr & Hd) F c v c' es Hc Hp.
  assert (Sf : Sem m false sf a (rinput c) (roff c) (roff c') v) by (eapply (sound bld P m Call HL F m Call); eauto).
  destruct (bounds_sound m false HB _ _ _ _ _ _ Sf Hd He) as [L W].
  unfold is_nullable in Hn. destruct (match_bounds (item_bounds m) a) as [b|]; [|discriminate]. cbn in Hn. injection Hn as Hn. apply N.eqb_neq in Hn.
  destruct (W b eq_refl) as [W1 _]. unfold len in W1. lia.
Qed.
Lemma parts_ok (calls : nat -> Prop) f : everywhere bounded_ok f -> everywhere steady f ->
  (forall g level a v, In g (subs f) -> g = FItemVar level a v -> calls level) -> everywhere (part m Call calls True) f.
Proof.
  intros Hb Hs Hu g Hg. pose proof (Hs g Hg) as S1.
  assert (Hsub : forall a, In a (subs g) -> everywhere bounded_ok a).
  { intros a Ha h Hh. apply Hb. eapply subs_trans; [exact Hg|]. eapply subs_trans; eauto. }
  destruct g; cbn [part steady] in *; try exact I; try (eapply Hu; eauto; fail);
    try (intros Hn); apply nonnull_progress; auto; apply Hsub; right; apply subs_self.
Qed.
Lemma items_halt level : forall it, get_item m level = Some it -> forall n i, Call level n i ->
  exists d, nth_error P i = Some d /\ forall s, live s -> halts s d.
Proof.
  induction level as [level IH] using lt_wf_ind. intros it Hit n i Hc.
  destruct (HL _ _ _ Hc) as (it' & d & Hit' & Hd & HC). replace it' with it in * by congruence.
  exists d. split; [exact Hd|]. intros s Hs.
  eapply (term m Call (fun k => k < level) True); eauto.
  - intros k n' i' Hk Hc'. destruct (HL _ _ _ Hc') as (itk & _ & Hk' & _). eapply IH; eauto.
  - intros _. apply dynamic_halts.
  - apply parts_ok; [eapply HB; eauto|eapply HS; eauto|]. intros g k a v Hg ->. apply (HO _ _ Hit _ Hg).
Qed.
Lemma terminates f n d s : everywhere bounded_ok f -> everywhere steady f -> Comp bld m Call f n d -> live s -> halts s d.
Proof.
  intros Hb Hst HC Hs. eapply (term m Call (fun _ => True) True); eauto.
  - intros k n' i' _ Hc'. destruct (HL _ _ _ Hc') as (itk & _ & Hk' & _). eapply items_halt; eauto.
  - intros _. apply dynamic_halts.
  - apply parts_ok; auto.
Qed.
End Terminates.
