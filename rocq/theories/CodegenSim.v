(** A generated parser follows the interpreter: the relation and its rules. *)
From Coq Require Import String.
From Verif Require ByteSetModel ByteSetProofs.
From Verif Require Import Base BoundsModel DataModel NumericModel ValueModel FormatModel MatchTreeModel DecoderModel
  ParserModel ParserProofs ProgModel ProgProofs RecordModel CodegenModel CodegenSpec CodegenErase CodegenTree.
Open Scope nat_scope.

(** ** Variables *)

(** The same view: where it starts and what is in it. *)
Definition view_related (c cg : rctx) : Prop :=
  roff c = roff cg /\ skipn (roff c) (rinput c) = rinput cg /\ roff c <= length (rinput c) /\ small (rinput cg).
Definition views_related {D D'} (s : scope D) (sg : scope D') : Prop :=
  forall x c, get_view x s = Some c -> exists cg, get_view x sg = Some cg /\ view_related c cg.
Definition scopes_related {D D'} (s : scope D) (sg : scope D') : Prop := values_related s sg /\ views_related s sg.

Section Scopes.
Context {D D' : Type}.
Implicit Types (s : scope D) (sg : scope D').
Lemma sr_single s sg x v w : scopes_related s sg -> erases v w -> scopes_related (SSingle s x v) (SSingle sg x w).
Proof. intros [H1 H2] Hv. split; [apply vr_single; auto|exact H2]. Qed.
Lemma sr_reserved s sg x w : scopes_related s sg -> reserved x = true -> scopes_related s (SSingle sg x w).
Proof. intros [H1 H2] Hv. split; [apply vr_reserved; auto|exact H2]. Qed.
Lemma sr_view s sg x c cg : scopes_related s sg -> view_related c cg -> scopes_related (SView s x c) (SView sg x cg).
Proof.
  intros [H1 H2] Hc. split; [exact H1|]. intros y c0 E. simpl in *. destruct (N.eqb x y); [injection E as <-; eauto|eauto].
Qed.
Definition entry_related (e e' : label * vov) : Prop :=
  fst e = fst e' /\ match snd e, snd e' with EntVal v, EntVal w => erases v w | EntView c, EntView cg => view_related c cg | _, _ => False end.
Lemma sr_multi l m : Forall2 entry_related l m -> scopes_related (@SMulti D SEmpty l) (@SMulti D' SEmpty m).
Proof.
  intros H. apply forall2_rev in H. split.
  - intros x v _ E. simpl in *. assert (E' : scan_value x (rev l) = Some v) by (destruct (scan_value x (rev l)); auto). clear E.
    assert (G : exists w, scan_value x (rev m) = Some w /\ erases v w).
    { induction H as [|[y a] [z b] l' m' [Hn Ha] Hl IH]; simpl in *; [discriminate|]. subst z.
      destruct a, b; try contradiction; auto. destruct (N.eqb y x); auto. injection E' as <-. eauto. }
    destruct G as (w & -> & ?). eauto.
  - intros x v E. simpl in *. assert (E' : scan_view x (rev l) = Some v) by (destruct (scan_view x (rev l)); auto). clear E.
    assert (G : exists w, scan_view x (rev m) = Some w /\ view_related v w).
    { induction H as [|[y a] [z b] l' m' [Hn Ha] Hl IH]; simpl in *; [discriminate|]. subst z.
      destruct a, b; try contradiction; auto. destruct (N.eqb y x); auto. injection E' as <-. eauto. }
    destruct G as (w & -> & ?). eauto.
Qed.
Lemma first_match_related {Dc} (bs : list (pattern * Dc)) v w s sg : forallb (fun b => shallow (fst b)) bs = true ->
  erases v w -> scopes_related s sg -> forall i,
  match first_match v s i bs with
  | Some (j, s', d) => exists sg', first_match w sg i bs = Some (j, sg', d) /\ scopes_related s' sg' /\ In d (map snd bs)
  | None => first_match w sg i bs = None
  end.
Proof.
  intros Hb Hv [H1 H2]. induction bs as [|[p d] bs IH]; intros i; simpl in *; auto.
  apply andb_prop in Hb as [Hp Hb].
  destruct (vmatches_related p v w s sg Hp Hv H1) as [(s' & sg' & -> & -> & Hr & Hv1 & Hv2)|[-> ->]].
  - exists sg'. split; auto. split; [split; auto|auto]. intros x c E. rewrite Hv1 in E. rewrite Hv2. auto.
  - specialize (IH Hb (S i)). destruct (first_match v s (S i) bs) as [[[j s'] d']|]; auto.
    destruct IH as (sg' & ? & ? & ?). eauto.
Qed.
End Scopes.

Lemma small_skipn k l : small l -> small (skipn k l).
Proof.
  intros [H1 H2]. split.
  - rewrite <- (firstn_skipn k l) in H1. apply Forall_app in H1. apply H1.
  - rewrite skipn_length. lia.
Qed.
Lemma small_firstn k l : small l -> small (firstn k l).
Proof.
  intros [H1 H2]. split.
  - rewrite <- (firstn_skipn k l) in H1. apply Forall_app in H1. apply H1.
  - rewrite firstn_length. lia.
Qed.
Lemma skipn_add {A} a b (l : list A) : skipn (a + b) l = skipn b (skipn a l).
Proof. revert l. induction a; intros [|x l]; simpl; auto. destruct b; auto. Qed.

(** ** The relation *)

Ltac four b st' := exists b, st'; split; [|split; [|split]].

Definition grown (md : mode) (st st' : pst) : Prop :=
  same_bits st st' /\ exists al, alts_only al /\ pstk st' = al ++ pstk st /\ (quiet md = true -> al = []).
Definition left_by (st st' : pst) : Prop := exists j, no_recover j /\ pstk st' = j ++ pstk st.

Section Sim.
Context (lossy : bool).
Definition lost {B} (p : prog B) (st : pst) : Prop := lossy = true /\ fst (exec p st) = PPanic.
Definition sim {A B} (R : A -> B -> Prop) (md : mode) (r : dres A) (p : prog B) (st : pst) : Prop :=
  match r with
  | ROk a c' _ => (exists b st', exec p st = (POk b, st') /\ R a b /\ sees md c' st' /\ grown md st st') \/ lost p st
  | RErr _ => exact md = true -> (exists e st', exec p st = (PErr e, st') /\ (quiet md = true -> left_by st st')) \/ lost p st
  | RPanic | RFuel => True
  end.

Lemma grown_refl md st : grown md st st.
Proof. split; [intros s0 a E; eauto|]. exists []. repeat split; auto. constructor. Qed.
Lemma grown_trans md a b c : grown md a b -> grown md b c -> grown md a c.
Proof.
  intros [H1 (al & A1 & A2 & A3)] [H2 (bl & B1 & B2 & B3)]. split.
  - intros s0 x E. destruct (H1 _ _ E) as (y & E'). eauto.
  - exists (bl ++ al). split; [apply alts_no_restore_app; auto|]. rewrite B2, A2, app_assoc. split; auto.
    intros Q. rewrite A3, B3; auto.
Qed.
Lemma grown_same md st st' : same_bits st st' -> pstk st' = pstk st -> grown md st st'.
Proof. intros H E. split; auto. exists []. repeat split; auto. constructor. Qed.
Lemma left_refl st : left_by st st.
Proof. exists []. split; auto. constructor. Qed.
Lemma left_same st st' : pstk st' = pstk st -> left_by st st'.
Proof. exists []. split; auto. constructor. Qed.
Lemma left_after md st st1 st2 : quiet md = true -> grown md st st1 -> left_by st1 st2 -> left_by st st2.
Proof. intros Q [_ (al & _ & E & Hq)] (j & Hj & E2). exists j. rewrite E2, E, (Hq Q). auto. Qed.

Lemma lost_bind {A B} (p : prog A) (k : A -> prog B) st : lost p st -> lost (Bind p k) st.
Proof. intros [L E]. split; auto. cbn [exec]. destruct (exec p st) as [[|e|] s']; try discriminate. reflexivity. Qed.

Lemma sim_ok {A B} (R : A -> B -> Prop) md a b c es st : R a b -> sees md c st -> sim R md (ROk a c es) (Ret b) st.
Proof. intros HR Hs. left. four b st; auto. split; [intros s0 x E; eauto|]. exists []. repeat split; auto. constructor. Qed.
Lemma sim_err {A B} (R : A -> B -> Prop) md e st : sim R md (RErr e : dres A) (Fail : prog B) st.
Proof. intros _. left. cbn. do 2 eexists. split; [reflexivity|]. intros _. apply left_refl. Qed.
Lemma sim_bind {A B A' B'} (R : A -> B -> Prop) (R' : A' -> B' -> Prop) md r p st k k' :
  sim R md r p st ->
  (forall a b c' st', R a b -> sees md c' st' -> grown md st st' -> sim R' md (k a c') (k' b) st') ->
  sim R' md (rbind r k) (Bind p k') st.
Proof.
  intros H K. destruct r as [a c es|e| |]; cbn [rbind]; try exact I.
  - destruct H as [(b & st' & E & HR & Hs & Hg)|L].
    + specialize (K a b c st' HR Hs Hg).
      assert (Ex : exec (Bind p k') st = exec (k' b) st') by (cbn [exec]; rewrite E; reflexivity).
      destruct (k a c) as [a2 c2 es2|e2| |]; cbn [sim] in *; auto.
      * destruct K as [(b2 & st2 & E2 & HR2 & Hs2 & Hg2)|[L E2]].
        -- left. four b2 st2; auto; [rewrite Ex; auto|apply (grown_trans md _ _ _ Hg Hg2)].
        -- right. split; auto. rewrite Ex. auto.
      * intros X. destruct (K X) as [(e3 & st2 & E2 & Hl)|[L E2]].
        -- left. exists e3, st2. rewrite Ex. split; auto. intros Q. eapply left_after; eauto.
        -- right. split; auto. rewrite Ex. auto.
    + destruct (k a c) as [a2 c2 es2|e2| |]; cbn [sim]; auto.
      * right. apply lost_bind; auto.
      * intros _. right. apply lost_bind; auto.
  - intros X. destruct (H X) as [(e2 & st' & E & Hl)|L]; [left|right; apply lost_bind; auto].
    exists e2, st'. split; auto. cbn [exec]. rewrite E. reflexivity.
Qed.
Lemma sim_mono {A B} (R R' : A -> B -> Prop) md r p st : (forall a b, R a b -> R' a b) -> sim R md r p st -> sim R' md r p st.
Proof.
  intros M H. destruct r; auto. destruct H as [(b & st' & E & HR & Hs & Hg)|L]; [left|right; auto].
  four b st'; auto.
Qed.
Lemma sim_rmap {A A' B} (R : A' -> B -> Prop) md (f : A -> A') r p st :
  sim (fun a b => R (f a) b) md r p st -> sim R md (rmap f r) p st.
Proof. destruct r; auto. Qed.
Lemma sim_pmap {A B B'} (R : A -> B' -> Prop) md (g : B -> B') r p st :
  sim (fun a b => R a (g b)) md r p st -> sim R md r (pmap g p) st.
Proof.
  intros H. unfold pmap. destruct r as [a c es|e| |]; auto.
  - destruct H as [(b & st' & E & HR & Hs & Hg)|L]; [left|right; apply lost_bind; auto].
    exists (g b), st'. cbn [exec]. rewrite E. cbn [then_ exec]. auto.
  - intros X. destruct (H X) as [(e2 & st' & E & Hl)|L]; [left|right; apply lost_bind; auto].
    exists e2, st'. split; auto. cbn [exec]. rewrite E. reflexivity.
Qed.
Lemma sim_map {A A' B B'} (R : A -> B -> Prop) (R' : A' -> B' -> Prop) md f g r p st :
  (forall a b, R a b -> R' (f a) (g b)) -> sim R md r p st -> sim R' md (rmap f r) (pmap g p) st.
Proof. intros M H. apply sim_rmap, sim_pmap. eapply sim_mono; eauto. Qed.
Lemma sim_let {A B A' B'} (S : A' -> B' -> Prop) (R : A -> B -> Prop) md x y k k' st :
  orel S x y -> (forall a b, S a b -> sim R md (k a) (k' b) st) -> sim R md (rlet x k) (plet y k') st.
Proof.
  intros H K. destruct x as [a|]; [|exact I]. destruct (H a eq_refl) as (b & -> & Hb). cbn. auto.
Qed.
(** A step of the parser alone. *)
Lemma sim_after {A B C} (R : A -> B -> Prop) md r (p : prog C) (k : C -> prog B) x st :
  exec p st = (POk x, st) -> sim R md r (k x) st -> sim R md r (Bind p k) st.
Proof.
  intros E H. assert (Ex : exec (Bind p k) st = exec (k x) st) by (cbn [exec]; rewrite E; reflexivity).
  destruct r; cbn [sim] in *; unfold lost in *; rewrite ?Ex; auto.
Qed.
Lemma sim_failed {A B C} (R : A -> B -> Prop) md e (p : prog C) (k : C -> prog B) e' st st' :
  exec p st = (PErr e', st') -> left_by st st' -> sim R md (RErr e : dres A) (Bind p k) st.
Proof.
  intros E H _. left. exists e', st'. split; auto. cbn [exec]. rewrite E. reflexivity.
Qed.
Lemma sim_boom {A B} (R : A -> B -> Prop) md r (p : prog B) st : lossy = true -> fst (exec p st) = PPanic -> sim R md r p st.
Proof. intros L E. destruct r; cbn [sim]; auto; try intros _; right; split; auto. Qed.

(** ** Peeks *)

Lemma same_place md md' c st : bits md' = bits md -> sliced md' = sliced md -> viewed md' = viewed md -> sees md c st -> sees md' c st.
Proof. unfold sees, place. intros -> -> ->. auto. Qed.
Lemma restored {A} (p : prog A) st st1 st2 r o stk : frame st st1 -> exec p st1 = (r, st2) ->
  Pst (pbuf st2) (pstart st2) o stk (pmax st2) = Pst (pbuf st) (pstart st) o stk (pmax st).
Proof.
  intros (F1 & F2 & F3) E. destruct (exec_frame _ _ _ _ _ E) as (G1 & G2 & G3). congruence.
Qed.
Lemma pst_eta st : Pst (pbuf st) (pstart st) (pcur st) (pstk st) (pmax st) = st.
Proof. destruct st; reflexivity. Qed.
(** What [Peek] and [OffsetPeek] have in common. *)
Lemma sim_restoring {A B} (R : A -> B -> Prop) md r c (p q : prog B) st st1 l :
  frame st st1 -> pstk st1 = l :: pstk st -> lens_restore l = Some (pcur st) -> lens_recover l = None ->
  exec q st = then_ (exec p st1) (fun a s2 => then_ (p_close_peek s2) (fun _ s3 => (POk a, s3))) ->
  sees md c st -> sim R md r p st1 -> sim R md (rback c r) q st.
Proof.
  intros F Hl H1 H2 Eq Hs H. destruct r as [a c1 es|e| |]; cbn [rback]; auto.
  - destruct H as [(b & st' & E & HR & Hs' & [_ (al & Ha & Hk & _)])|[L E]].
    + left. four b st; auto; [|apply grown_refl]. rewrite Eq, E. cbn [then_]. unfold p_close_peek. rewrite Hk, Hl, (restore_alts al (pcur st)); auto. cbn [then_].
      rewrite (restored p st st1 st' _ _ _ F E), pst_eta. reflexivity.
    + right. split; auto. rewrite Eq. destruct (exec p st1) as [[|e|] s']; try discriminate. reflexivity.
  - intros X. destruct (H X) as [(e2 & st' & E & Hq)|[L E]].
    + left. exists e2, st'. rewrite Eq, E. split; auto. intros Q. destruct (Hq Q) as (j & Hj & Ej). exists (j ++ [l]).
      split; [apply Forall_app; split; auto|]. rewrite Ej, Hl, <- app_assoc. reflexivity.
    + right. split; auto. rewrite Eq. destruct (exec p st1) as [[|e'|] s']; try discriminate. reflexivity.
Qed.
Lemma sim_peek {A B} (R : A -> B -> Prop) md r c (p : prog B) st :
  sees md c st -> sim R md r p (set_stk st (LPeek (pcur st) :: pstk st)) -> sim R md (rback c r) (Peek p) st.
Proof.
  intros Hs H. apply (sim_restoring R md r c p (Peek p) st (set_stk st (LPeek (pcur st) :: pstk st)) (LPeek (pcur st))); auto.
  apply frame_stk.
Qed.
(** Not at the start of something. *)
Lemma sim_peek_not {A B} (R : A -> B -> Prop) (R' : value -> unit -> Prop) md r c off (p : prog B) st :
  quiet md = false -> R' (VTuple []) tt -> sees md c st -> sim R (tried md) r p (set_stk st (LPeekNot (pcur st) :: pstk st)) ->
  sim R' md (match r with ROk _ _ _ => RErr off | RErr _ => ROk (VTuple []) c [] | RPanic => RPanic | RFuel => RFuel end) (PeekNot p) st.
Proof.
  intros Q HR Hs H. set (st1 := set_stk st (LPeekNot (pcur st) :: pstk st)) in *.
  assert (Ex : exec (PeekNot p) st = match exec p st1 with (POk _, s2) => (PErr ERejected, s2) | (PErr _, s2) => p_close_peek_not s2 | (PPanic, s2) => (PPanic, s2) end) by reflexivity.
  destruct r as [a c1 es|e| |]; auto.
  - intros X. destruct H as [(b & st' & E & _)|[L E]].
    + left. rewrite Ex, E. do 2 eexists. split; [reflexivity|]. rewrite Q. discriminate.
    + right. split; auto. rewrite Ex. destruct (exec p st1) as [[|e|] s']; try discriminate. reflexivity.
  - destruct (H eq_refl) as [(e2 & st' & E & Hq)|[L E]].
    + left. four tt st; auto; [|apply grown_refl]. destruct (Hq eq_refl) as (j & Hj & Ej). rewrite Ex, E.
      unfold p_close_peek_not, p_recover. rewrite Ej. cbn [st1 set_stk pstk]. rewrite (recover_junk j (pcur st)); auto.
      rewrite (restored p st st1 st' _ _ _ (frame_stk _ _) E), pst_eta. reflexivity.
    + right. split; auto. rewrite Ex. destruct (exec p st1) as [[|e'|] s']; try discriminate. reflexivity.
Qed.

(** ** Alternatives *)

Lemma is_last_gen g s d ds : is_last (gen_alts g s d ds) = match ds with [] => true | _ => false end.
Proof. destruct ds; reflexivity. Qed.
Definition alts_supported (sup : mode -> decoder -> bool) (md : mode) :=
  fix alts (ds : list decoder) : bool :=
    match ds with
    | [] => false
    | [d] => sup md d
    | d :: r => sup (tried md) d && alts r
    end.
(** The state a branch starts from: the last one after a failure is not protected any
    more. *)
Definition alt_start (last : bool) (st : pst) : pst := if last then st else set_stk st (LAlts (pcur st) :: pstk st).
Lemma next_alt_spec {A} (p : prog A) st st' e last :
  exec p (alt_start false st) = (PErr e, st') -> left_by (alt_start false st) st' ->
  p_next_alt last st' = (POk tt, alt_start last st).
Proof.
  intros E (j & Hj & Ej). unfold p_next_alt, p_recover. rewrite Ej. cbn [alt_start set_stk pstk]. rewrite (recover_junk j (pcur st)); auto.
  rewrite (restored p st _ st' _ _ _ (frame_stk _ _) E), pst_eta. destruct last; reflexivity.
Qed.
Lemma grown_alt md st st' : quiet md = false -> grown (tried md) (alt_start false st) st' -> grown md st st'.
Proof.
  intros Q [Hb (al & Ha & Hk & Hq)]. split; auto. exists [LAlts (pcur st)]. rewrite Hk, (Hq eq_refl). repeat split; auto.
  - constructor; auto.
  - rewrite Q. discriminate.
Qed.
Lemma sees_alt md c st b : sees md c st -> sees md c (alt_start b st).
Proof. destruct b; auto. Qed.
Lemma sim_alts (sup : mode -> decoder -> bool) (pa : scope decoder -> decoder -> rctx -> dres value) (g : env -> decoder -> prog value) md c st :
  quiet md = false -> sees md c st ->
  (forall md d s sg st, sup md d = true -> scopes_related s sg -> sees md c st -> sim erases md (pa s d c) (g sg d) st) ->
  forall ds d s sg i, alts_supported sup md (d :: ds) = true -> scopes_related s sg ->
  forall last, (last = true -> ds = []) ->
  let r := ppar pa i s (d :: ds) c in
  let x := exec_branches (gen_alts g sg d ds) (alt_start last st) in
  match r with
  | ROk a c' _ => (exists b st', x = (POk b, st') /\ erases a b /\ sees md c' st' /\ grown md st st') \/ (lossy = true /\ fst x = PPanic)
  | RErr _ => exact md = true -> (exists e st', x = (PErr e, st')) \/ (lossy = true /\ fst x = PPanic)
  | RPanic | RFuel => True
  end.
Proof.
  intros Q Hs Hd. induction ds as [|d' ds IH]; intros d s sg i Hsup Hr last Hl r x; subst r x.
  - cbn [ppar gen_alts exec_branches]. cbn [alts_supported] in Hsup.
    specialize (Hd md d s sg (alt_start last st) Hsup Hr (sees_alt _ _ _ _ Hs)).
    destruct (pa s d c) as [a c' es|e| |]; cbn [rmap]; auto.
    + destruct Hd as [(b & st' & E & HR & Hs' & Hg)|L]; [left|right; exact L].
      four b st'; auto; [constructor; auto|].
      destruct last; [apply Hg|]. split; [apply Hg|]. destruct Hg as [_ (al & Ha & Hk & Hq)]. exists (al ++ [LAlts (pcur st)]).
      split; [apply alts_no_restore_app; auto; constructor; auto|]. rewrite Hk, <- app_assoc. split; auto. rewrite Q. discriminate.
    + intros X. destruct (Hd X) as [(e2 & st' & E & _)|L]; [left; eauto|right; exact L].
  - assert (last = false) by (destruct last; auto; specialize (Hl eq_refl); discriminate). subst last. clear Hl.
    change (alts_supported sup md (d :: d' :: ds)) with (sup (tried md) d && alts_supported sup md (d' :: ds)) in Hsup.
    apply andb_prop in Hsup as [Hsup1 Hsup2].
    assert (Ht := Hd (tried md) d s sg (alt_start false st) Hsup1 Hr (same_place md _ _ _ eq_refl eq_refl eq_refl (sees_alt md c st false Hs))).
    cbn [gen_alts exec_branches]. change (ppar pa i s (d :: d' :: ds) c) with
      (match pa s d c with RErr _ => ppar pa (S i) s (d' :: ds) c | o => rmap (VBranch i) o end).
    destruct (pa s d c) as [a c' es|e| |]; cbn [rmap]; auto.
    + destruct Ht as [(b & st' & E & HR & Hs' & Hg)|[L E]].
      * left. four b st'; [rewrite E; auto|constructor; auto|apply (same_place _ md _ _ eq_refl eq_refl eq_refl Hs')|apply (grown_alt md st st' Q Hg)].
      * right. split; auto. destruct (exec (g sg d) (alt_start false st)) as [[|e|] s']; try discriminate. reflexivity.
    + destruct (Ht eq_refl) as [(e2 & st' & E & Hq)|[L E]].
      * rewrite E, is_last_gen. rewrite (next_alt_spec (g sg d) st st' e2 _ E (Hq eq_refl)). cbn [then_].
        apply IH; auto; [apply sr_reserved; auto|]. destruct ds; auto. discriminate.
      * destruct (exec (g sg d) (alt_start false st)) as [[|e1|] s']; try discriminate. cbn [fst].
        destruct (ppar pa (S i) s (d' :: ds) c); auto.
Qed.
End Sim.
