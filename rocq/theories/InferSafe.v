(** Values have the types of the rules. *)
From Coq Require Import Sorted Permutation.
From Verif Require ByteSetModel HuffmanModel.
From Verif Require Import Base BoundsModel DataModel DataProofs NumericModel BaseSetModel BaseSetSpec UnifyModel UnifySpec ReifyModel
  ValueModel ValueProofs ValueWfProofs FormatModel DecoderModel FormatSpec FormatInd MatchBoundsProofs FormatProps TypeModel TypeSpec TypeValueProofs InferSpec.
From Verif Require TypeProofs.
Import TypeProofs(chain_typed, chain_repeat, first_match_in, dyn_huffman).
Open Scope nat_scope.

Section Safe.
Context (exact : bool).
Notation ht := (has_type exact).
Notation cond := (cond exact).

Definition TG (G : env) : tscope := map (fun b => (fst b, KValue (vt (snd b)))) G.
Definition fits_env {D} (G : env) (s : scope D) : Prop := vals_ok exact (TG G) s.
Lemma TG_get G x T : assoc x G = Some T -> get_type (TG G) x = Some (KValue (vt T)).
Proof. unfold get_type. induction G as [|[y U] G IH]; cbn; [discriminate|]. destruct (N.eqb x y); [intros [= <-]; reflexivity|exact IH]. Qed.
Lemma fits_look {D} G (s : scope D) x T v : fits_env G s -> assoc x G = Some T -> get_value x s = Some v -> ht v (vt T).
Proof. intros H E Ev. eapply H; [apply TG_get, E|exact Ev]. Qed.
Lemma fits_single {D} G (s : scope D) x T v : fits_env G s -> ht v (vt T) -> fits_env ((x, T) :: G) (SSingle s x v).
Proof. apply vals_single. Qed.

(** ** Patterns *)

Lemma TG_app A B : TG (A ++ B) = TG A ++ TG B.
Proof. apply map_app. Qed.
Lemma assoc_vt l bs T : assoc l bs = Some T -> assoc l (map (fun f : label * gtype => let (l, t) := f in (l, vt t)) bs) = Some (vt T).
Proof. induction bs as [|[k U] bs IH]; cbn; [discriminate|]. destruct (N.eqb l k); [now intros [= <-]|exact IH]. Qed.
Lemma pat_safe p : forall T B v acc bs, pat_type p T B -> ht v (vt T) -> matches_inner p v acc = Some bs ->
  exists ns, bs = acc ++ ns /\ Forall2 (pbind exact) ns (rev (TG B)).
Proof.
  assert (W : forall (b : bool) (acc bs : binds), (if b then Some acc else None) = Some bs -> exists ns, bs = acc ++ ns /\ Forall2 (pbind exact) ns (rev (TG []))).
  { intros [] acc bs E; [|discriminate E]. injection E as <-. exists []. split; [now rewrite app_nil_r|constructor]. }
  assert (Z : forall acc : binds, exists ns, acc = acc ++ ns /\ Forall2 (pbind exact) ns (rev (TG []))) by (intros acc; exact (W true acc acc eq_refl)).
  assert (LL : forall ps, Forall (fun p => forall T B v acc bs, pat_type p T B -> ht v (vt T) -> matches_inner p v acc = Some bs ->
      exists ns, bs = acc ++ ns /\ Forall2 (pbind exact) ns (rev (TG B))) ps ->
    forall Ts B vs acc bs, pats_type ps Ts B -> Forall2 (fun v T => ht v (vt T)) vs Ts -> match_list matches_inner ps vs acc = Some bs ->
    exists ns, bs = acc ++ ns /\ Forall2 (pbind exact) ns (rev (TG B))).
  { intros ps IH. induction IH as [|q ps Hp IHf IH2]; intros Ts B vs acc bs P Hv E; inversion P; subst.
    - injection E as <-. apply Z.
    - inversion Hv as [|v ? vs' ? Hv1 Hv2]; subst. cbn in E. destruct (matches_inner q v acc) as [acc'|] eqn:E1; [|discriminate E].
      destruct (Hp _ _ _ _ _ ltac:(eassumption) Hv1 E1) as (n1 & -> & F1). destruct (IH2 _ _ _ _ _ ltac:(eassumption) Hv2 E) as (n2 & -> & F2).
      exists (n1 ++ n2). rewrite <- app_assoc. split; [reflexivity|]. rewrite TG_app, rev_app_distr. now apply Forall2_app. }
  induction p as [y| |b|w n|b|z|b|c|ps IH|l p IH|ps IH| |p IH] using pattern_ind'; intros T B v acc bs P Hv E; inversion P; subst.
  - injection E as <-. exists [(y, v)]. split; [reflexivity|]. repeat constructor. exact Hv.
  - injection E as <-. apply Z.
  - cbn in E. destruct v; try discriminate E. eapply W, E.
  - cbn in E. destruct v; try discriminate E; eapply W, E.
  - cbn in E. destruct v; try discriminate E; eapply W, E.
  - cbn in E. destruct v; try discriminate E; eapply W, E.
  - cbn in E. destruct v; try discriminate E; eapply W, E.
  - cbn in E. destruct v; try discriminate E; eapply W, E.
  - cbn [matches_inner] in E. destruct v; try discriminate E. apply ht_tuple in Hv. cbn [vt] in Hv. destruct Hv as (ts & [= <-] & Hv).
    destruct (Nat.eqb (length ps) (length vs)); [|discriminate E]. eapply (LL ps IH); [eassumption| |exact E]. clear -Hv.
    remember (map vt Ts) as us eqn:Eu. revert Ts Eu. induction Hv; intros [|? ?] Eu; try discriminate Eu; constructor; injection Eu as -> ->; auto.
  - cbn [matches_inner] in E. destruct v; try discriminate E. destruct Hv as (us & u & [= <-] & A & Hv).
    destruct (N.eqb_spec l l0) as [El|El]; [subst l0|discriminate E]. rewrite (assoc_vt _ _ _ ltac:(eassumption)) in A. injection A as <-. eapply IH; eauto.
  - cbn [matches_inner] in E. destruct v; try discriminate E. apply ht_seq in Hv. destruct Hv as (u & [= <-] & Hv).
    destruct (Nat.eqb_spec (length ps) (sk_len s)) as [Ln|]; [|discriminate E]. rewrite sk_len_spec in Ln. eapply (LL ps IH); [eassumption| |exact E].
    assert (Lt : length ps = length Ts) by (match goal with X : pats_type ps Ts _ |- _ => clear -X; revert Ts B X; induction ps; intros Ts B X; inversion X; subst; cbn; eauto end).
    rewrite Lt in Ln. match goal with X : Forall (eq ?t) Ts |- _ => revert Hv Ln X end. generalize (sk_to_list s). clear. intros vs Hv Ln HF. revert vs Hv Ln.
    induction HF as [|? ? <- HF IH]; intros [|v vs] Hv Ln; try discriminate Ln; constructor; inversion Hv; subst; auto.
  - cbn in E. destruct v as [| | | | | | | |[]| | | | | | | |]; try discriminate E. injection E as <-. apply Z.
  - cbn in E. destruct v as [| | | | | | | |[v|]| | | | | | | |]; try discriminate E. destruct Hv as (u & [= <-] & Hv). eapply IH; eauto.
Qed.
Lemma match_binds {D} p T B v (s s' : scope D) : pat_type p T B -> ht v (vt T) -> vmatches v s p = Some s' ->
  exists ns, s' = SMulti s (map (fun b => (fst b, EntVal (snd b))) ns) /\ Forall2 (pbind exact) ns (rev (TG B)).
Proof.
  intros P Hv E. unfold vmatches in E. destruct (matches_inner p (coerce_nominal v) []) as [bs|] eqn:Em; [|discriminate E]. injection E as <-.
  destruct (pat_safe _ _ _ _ _ _ P (ht_nominal _ _ _ Hv) Em) as (ns & -> & F). exists ns. split; [reflexivity|exact F].
Qed.
Lemma fits_matches {D} p T B G v (s s' : scope D) : fits_env G s -> pat_type p T B -> ht v (vt T) -> vmatches v s p = Some s' -> fits_env (B ++ G) s'.
Proof.
  intros H P Hv E. destruct (match_binds _ _ _ _ _ _ P Hv E) as (ns & -> & F).
  unfold fits_env. rewrite TG_app, <- (rev_involutive (TG B)). apply vals_multi; [exact H|].
  clear -F. induction F as [|[x v] [y k] ns ks [E1 E2] F IH]; cbn; constructor; auto. cbn in *. split; [exact E1|]. cbn. now destruct k.
Qed.

(** ** Numeric expressions *)

Lemma num_safe n : forall {D} G (s : scope D) p c, cond (sized_num n) -> num_type G n p -> fits_env G s ->
  neval (num_look s) n = NOk c -> ht (VNumeric c) (type_of_mrep p).
Proof.
  induction n as [c0|op out a IHa b IHb|op out a IHa|r cs a IHa|x]; intros D G s p c Hc HT Hs E; cbn [neval sized_num] in *.
  - injection E as <-. inversion HT; subst. cbn. unfold TypeValueProofs.cond in Hc. destruct (tc_rep c0) as [|r]; [|subst; left; cbn; eauto]. right.
    split; [|unfold type_of_mrep; destruct (is_signed p); reflexivity]. destruct exact; [discriminate (Hc eq_refl)|reflexivity].
  - destruct (neval (num_look s) a) as [ca| |] eqn:Ea; try discriminate E. destruct (neval (num_look s) b) as [cb| |] eqn:Eb; try discriminate E.
    cbn [nbind] in E. unfold bin_apply in E. match type of E with nbind ?x _ = _ => destruct x as [raw| |]; try discriminate E end. cbn [nbind] in E.
    inversion HT; subst.
    + apply cond_and in Hc as [Hca Hcb]. pose proof (IHa _ _ _ _ _ Hca ltac:(eassumption) Hs Ea) as A. pose proof (IHb _ _ _ _ _ Hcb ltac:(eassumption) Hs Eb) as B.
      destruct (_ || _)%bool; [injection E as <-; eapply ht_num_rep; [|exact A]; reflexivity|].
      destruct (numrep_eqb _ _); [|discriminate E]. injection E as <-. eapply ht_num_rep; [|exact B]; reflexivity.
    + injection E as <-. left. cbn. eauto.
  - destruct (neval (num_look s) a) as [ca| |] eqn:Ea; try discriminate E. injection E as <-. inversion HT; subst.
    + eapply ht_num_rep; [|eapply IHa; eauto]. reflexivity.
    + left. cbn. eauto.
  - inversion HT; subst. destruct (neval (num_look s) a) as [ca| |]; try discriminate E. cbn [nbind] in E. unfold cast_apply in E.
    match type of E with nbind ?x _ = _ => destruct x; try discriminate E end. injection E as <-. left. cbn. eauto.
  - unfold num_look in E. destruct (get_value x s) as [v|] eqn:Ev; [|discriminate E]. inversion HT; subst.
    eapply tc_of_value_ok; [exact E|]. eapply (fits_look G s x (GInt p)); eauto.
Qed.

(** ** Expressions *)

Lemma arith_keeps op x y v t : is_logic op = false -> value_arith op x y = Val v -> ht x t -> ht v t.
Proof.
  intros L E H.
  assert (E' : match x, y with
    | VU wl a, VU wr b => if bw_eqb wl wr then omap (VU wl) (arith_apply wl op a b) else Panic
    | VUsize a, VUsize b => omap VUsize (arith_apply B64 op a b)
    | _, _ => Panic
    end = Val v) by (destruct op; first [discriminate L|exact E]).
  clear E. destruct x; try discriminate E'; destruct y; try discriminate E'.
  - destruct (bw_eqb _ _); [|discriminate E']. apply omap_val in E' as (m & _ & ->). exact H.
  - apply omap_val in E' as (m & _ & ->). exact H.
Qed.
Definition safe (e : expr) : Prop := forall D G (s : scope D) T v, cond (sized e) -> types G e T -> fits_env G s -> eval e s = Val v -> ht v (vt T).
Definition safe_body (e : expr) : Prop := forall x b, e = ELambda x b -> safe b.
Lemma lam_safe {D} x b G (s : scope D) arg A v T : safe b -> cond (sized b) -> fits_env G s -> ht arg (vt A) -> types ((x, A) :: G) b T ->
  omap coerce_mapped (eval b (SSingle s x arg)) = Val v -> ht v (vt T).
Proof.
  intros Hb Hc Hs Ha HT E. apply omap_val in E as (w & E & ->). apply ht_coerce. eapply Hb; [exact Hc|exact HT| |exact E]. now apply fits_single.
Qed.
Lemma numeric_gu w : is_numeric (vt (GU w)) = true.
Proof. reflexivity. Qed.
Ltac inv_v := repeat match goal with
  | H : omap _ _ = Val _ |- _ => apply omap_val in H; destruct H as (? & H & ->)
  | H : obind _ _ = Val _ |- _ => let E := fresh "E" in apply obind_val in H; destruct H as (? & E & H)
  | H : Val _ = Val _ |- _ => injection H as <-
  end.
Ltac conds := repeat match goal with H : TypeValueProofs.cond exact (_ && _) |- _ => apply cond_and in H; destruct H end.
Ltac fwd := repeat match goal with
  | HE : eval ?e ?s = Val ?x, HP : safe ?e, Hc : TypeValueProofs.cond exact (sized ?e), HT : types ?G ?e ?t, Hs : fits_env ?G ?s |- _ =>
    let G := fresh "W" in pose proof (HP _ _ _ _ _ Hc HT Hs HE) as G;
    let G2 := fresh "W" in pose proof (ht_coerce _ _ _ G) as G2; clear HE
  end.
Lemma Forall2_flip {A B} (R : A -> B -> Prop) l m : Forall2 R l m -> forall y, In y m -> exists x, In x l /\ R x y.
Proof. induction 1; intros z []; [subst; eauto using in_eq|]. destruct (IHForall2 _ H1) as (x0 & ? & ?). eauto using in_cons. Qed.
Lemma eval_safe e : safe e /\ safe_body e.
Proof.
  induction e using expr_ind'; (split; [intros D G s T v Hc HT Hs E|intros x0 b0 E0; try discriminate; injection E0 as <- <-; tauto]);
    repeat match goal with H : safe _ /\ safe_body _ |- _ => destruct H end;
    cbn [sized] in Hc; cbn [eval] in E; try (inversion HT; subst); clear HT;
    repeat match goal with H : safe_body (ELambda ?x ?b) |- _ => pose proof (H x b eq_refl); clear H end; cbn [sized] in Hc; conds; cbn [vt].
  - (* var *) destruct (get_value x s) eqn:Ev; [|discriminate]. injection E as <-. eapply fits_look; eauto.
  - injection E as <-. reflexivity.
  - injection E as <-. now left.
  - (* tuple *) inv_v. apply ht_tuple. eexists. split; [reflexivity|]. apply omapM_ok in E.
    match goal with X : Forall2 (types G) es _ |- _ => rename X into J end.
    apply cond_all in Hc. rewrite Forall_forall in *.
    assert (K : Forall2 (fun v T => ht v (vt T)) x Ts).
    { eapply Forall2_join; [exact E|exact J|]. intros e y t Hin Ey Et. cbn beta in Ey. inv_v. apply ht_coerce. destruct (H e Hin) as [He _]. eapply He; eauto. }
    clear -K. induction K; cbn; constructor; auto.
  - (* projection *) inv_v. fwd. destruct (coerce_mapped x); try discriminate E; cbn in E; [|injection E as <-; exact I].
    destruct (nth_error vs i) eqn:En; [|discriminate E]. injection E as <-. apply ht_tuple in W0 as (? & [= <-] & F).
    destruct (ht_nth _ _ _ _ _ F En) as (u' & Eu' & Hu). rewrite nth_error_map in Eu'. match goal with X : nth_error Ts i = Some T |- _ => rewrite X in Eu' end. injection Eu' as <-. exact Hu.
  - (* record *) inv_v. apply ht_record. eexists. split; [reflexivity|]. apply omapM_ok in E. apply cond_all in Hc. rewrite Forall_forall in *.
    match goal with X : Forall2 _ fs Ts |- _ => rename X into J end.
    assert (K : Forall2 (fun y T => fst y = fst T /\ ht (snd y) (vt (snd T))) x Ts).
    { eapply Forall2_join; [exact E|exact J|]. intros [l e] y [l' t] Hin Ey [El Et]. cbn beta iota in Ey. cbn [fst snd] in El, Et. subst l'. inv_v. split; [reflexivity|]. cbn [fst snd].
      destruct (H _ Hin) as [He _]. eapply He; eauto. exact (Hc _ Hin). }
    clear -K. induction K as [|[? ?] [? ?] ? ? [K1 K2] K IH]; cbn; constructor; auto. split; auto.
  - (* field *) inv_v. fwd. destruct (coerce_mapped x); try discriminate E; cbn in E; [|injection E as <-; exact I].
    destruct (assoc l fs) eqn:En; [|discriminate E]. injection E as <-. apply ht_record in W0 as (? & [= <-] & F).
    destruct (ht_assoc _ _ _ _ _ F En) as (u' & Eu' & Hu). rewrite (assoc_vt _ _ _ ltac:(eassumption)) in Eu'. injection Eu' as <-. exact Hu.
  - (* variant *) inv_v. fwd. cbn. do 2 eexists. split; [reflexivity|]. split; [apply assoc_vt; eassumption|assumption].
  - (* seq *) inv_v. apply ht_strict. eexists. split; [reflexivity|].
    apply Forall_forall. intros y Hy. apply omapM_ok in E. destruct (Forall2_flip _ _ _ E _ Hy) as (e & He & Ee). cbn beta in Ee. inv_v. apply cond_all in Hc. rewrite Forall_forall in *.
    apply ht_coerce. destruct (H e He) as [Hq _]. eapply Hq; eauto.
  - (* numeric *) destruct (neval (num_look s) n) as [c| |] eqn:En; try discriminate E. injection E as <-. eapply num_safe; eauto.
  - (* match *) inv_v. fwd. match goal with X : TypeValueProofs.cond exact (forallb _ bs) |- _ => apply cond_all in X; rename X into Hb end.
    match goal with X : Forall _ bs, Y : Forall _ bs, Z : Forall (fun b => exists B, _) bs |- _ => rename Z into F end.
    induction bs as [|[p b] bs IH]; [discriminate E|]. inversion H as [|? ? [Hp _] Hps]; subst. inversion Hb as [|? ? Hcb Hbs]; subst. inversion F as [|? ? (B & F1 & F2) F3]; subst. cbn [fst snd] in *.
    destruct (vmatches x s p) as [s'|] eqn:Em.
    + inv_v. apply ht_coerce. refine (Hp _ _ s' T _ Hcb F2 _ E). eapply fits_matches; [exact Hs|exact F1|exact W|exact Em].
    + apply IH; auto.
  - (* destructure *) inv_v. fwd. destruct (vmatches x s p) as [s'|] eqn:Em; [|discriminate E]. inv_v. apply ht_coerce.
    match goal with X : safe e2 |- _ => eapply X; eauto end. eapply fits_matches; [exact Hs|eassumption|exact W|exact Em].
  - (* rel *) inv_v. eapply ht_int_rel; eauto.
  - (* logic *) destruct op; try discriminate; inv_v; cbn in E; do 2 (match type of E with match ?a with _ => _ end = _ => destruct a; try discriminate E end); now injection E as <-.
  - (* arith *) assert (Hc' : cond (sized e1 && sized e2)) by (destruct op; auto; discriminate). clear Hc. conds. inv_v. fwd.
    eapply arith_keeps; [eassumption|exact E|assumption].
  - (* not *) inv_v. cbn [value_unary] in E. match type of E with match ?y with _ => _ end = _ => destruct y; try discriminate E end. now injection E as <-.
  - (* step *) assert (Hc' : cond (sized e)) by (destruct op; auto; congruence). clear Hc. inv_v. fwd.
    match goal with X : ht (coerce_mapped _) _ |- _ => destruct op; [congruence| |]; cbn [value_unary] in E; match type of E with match ?x with _ => _ end = _ => destruct x; try discriminate E end; apply omap_val in E as (m & _ & ->); exact X end.
  - (* as *) inv_v. match type of E with value_as _ ?y = _ => destruct y; try discriminate E end; cbn [value_as] in E; apply omap_val in E as (m & _ & ->); now left.
  - (* char *) inv_v. match type of E with value_as_char ?y = _ => destruct y as [|[]| | | | | | | | | | | | | | |]; try discriminate E end; cbn [value_as_char] in E;
      try (destruct (N.ltb _ _); [|discriminate E]); now injection E as <-.
  - (* bytes *) inv_v. unfold value_from_bytes in E. inv_v. match type of E with match ?y with _ => _ end = _ => destruct y; [|discriminate E] end.
    destruct (Nat.eqb _ _); [|discriminate E]. injection E as <-. now left.
  - (* length *) inv_v. unfold TypeValueProofs.cond in Hc. right. split; [|reflexivity]. destruct exact; [discriminate (Hc eq_refl)|reflexivity].
  - (* sub *) inv_v. fwd.
    match goal with X : seq_of ?y = Val _, Z : ht ?y _ |- _ => destruct (ht_vseq _ _ _ _ Z X) as (u & [= <-] & F & Q) end.
    match type of E with seq_sub ?q _ _ = _ => destruct q as [sq|lo hi] end; cbn [seq_sub] in E; inv_v; [eapply ht_sub; eauto|]. cbn. split; [apply Q|]. eexists. split; [reflexivity|apply Q].
  - (* index *) inv_v. fwd.
    match goal with X : seq_of ?y = Val _, Z : ht ?y _ |- _ => destruct (ht_vseq _ _ _ _ Z X) as (u & [= <-] & F & Q) end.
    match type of E with seq_ix ?q _ = _ => destruct q as [sq|lo hi] end; cbn [seq_ix] in E; [eapply ht_index; eauto|].
    destruct (N.ltb _ _); [|discriminate E]. injection E as <-. exact Q.
  - (* inflate *) inv_v. fwd.
    match goal with X : seq_of ?y = Val _, Z : ht ?y _ |- _ => destruct (ht_vseq _ _ _ _ Z X) as (u & [= <-] & F & Q) end.
    unfold seq_inflate in E. inv_v. apply ht_strict. eexists. split; [reflexivity|]. eapply ht_inflate; [exact F| |exact E]. constructor.
  - (* flat map *) inv_v. fwd.
    match goal with X : seq_of ?y = Val ?z, Z : ht ?y _ |- _ => destruct (ht_vseq _ _ _ _ Z X) as (u & [= <-] & F & Q); rename z into qs end.
    apply ht_strict. eexists. split; [reflexivity|]. match type of E with omapM _ _ = Val ?z => rename z into ls end. apply omapM_ok in E.
    assert (A : Forall (Forall (fun v => ht v (vt U))) ls).
    { apply Forall_forall. intros ys Hys. destruct (Forall2_flip _ _ _ E _ Hys) as (a & Ha & Ea). cbn beta in Ea. apply obind_val in Ea as (w & Ew & Ea). rewrite Forall_forall in F.
      assert (B : ht w (TSeq (vt U))) by (change (TSeq (vt U)) with (vt (GSeq U)); eapply lam_safe; [| | |exact (F a Ha)| |exact Ew]; eassumption).
      destruct w; try discriminate Ea; injection Ea as <-.
      - destruct B as (X & w & [= <-] & Y). now apply ht_range.
      - apply ht_seq in B as (w & [= <-] & B). exact B. }
    clear -A. induction A; cbn; [constructor|]. apply Forall_app. auto.
  - (* flat map accum *) inv_v. fwd.
    match goal with X : strict_seq ?y = Val _, Z : ht ?y _ |- _ => destruct (ht_strict_seq _ _ _ _ Z X) as (u & [= <-] & F & _) end.
    apply ht_strict. eexists. split; [reflexivity|].
    match type of E with ofoldM _ (_, []) _ = Val ?w => rename w into st end.
    assert (HF : ht (fst st) (vt A) /\ Forall (fun v => ht v (vt U)) (snd st)).
    { eapply (ofoldM_inv (fun st : value * list value => ht (fst st) (vt A) /\ Forall (fun v => ht v (vt U)) (snd st))); [| |exact E].
      - intros [a out] y z [Ha Ho] Hin Ey. cbn [fst snd] in *. apply obind_val in Ey as (w & Ew & Ey). rewrite Forall_forall in F.
        assert (B : ht w (vt (GTuple [A; GSeq U]))) by (eapply lam_safe with (A := GTuple [A; T0]); [| | |exact (ht_pair _ _ _ _ _ Ha (F y Hin))| |exact Ew]; eassumption).
        clear Ew. inv_v.
        match goal with X : accum_pair ?w = Val ?pr |- _ => unfold accum_pair in X; destruct w; try discriminate X; cbn in X; destruct vs as [|a1 [|[] [|]]]; try discriminate X; injection X as <- end.
        apply ht_tuple in B as (ts & [= <-] & B). inversion B as [|? ? ? ? B1 B2]; subst. inversion B2 as [|? ? ? ? B3 B4]; subst. cbn [fst snd].
        split; [exact B1|]. apply Forall_app. split; [exact Ho|]. apply ht_seq in B3 as (? & [= <-] & B3). exact B3.
      - split; [|constructor]. cbn [fst]. assumption. }
    apply HF.
  - (* flat map list *) inv_v. fwd.
    match goal with X : strict_seq ?y = Val _, Z : ht ?y _ |- _ => destruct (ht_strict_seq _ _ _ _ Z X) as (u & [= <-] & F & _) end.
    apply ht_strict. eexists. split; [reflexivity|].
    eapply (ofoldM_inv (Forall (fun v => ht v (vt U)))); [| |exact E]; [|constructor].
    intros acc y z Ha Hin Ey. cbv beta in Ey. apply obind_val in Ey as (w & Ew & Ey). rewrite Forall_forall in F.
    assert (Hacc : ht (VSeq (Strict acc)) (vt (GSeq U))) by (apply ht_strict; eexists; split; [reflexivity|exact Ha]).
    assert (B : ht w (vt (GSeq U))) by (eapply lam_safe with (A := GTuple [GSeq U; T0]); [| | |exact (ht_pair _ _ _ _ _ Hacc (F y Hin))| |exact Ew]; eassumption).
    clear Ew. inv_v.
    match goal with X : strict_seq w = Val _ |- _ => destruct (ht_strict_seq _ _ _ _ B X) as (? & [= <-] & B' & _) end. apply Forall_app. split; assumption.
  - (* find *) inv_v. fwd.
    match goal with X : strict_seq ?y = Val _, Z : ht ?y _ |- _ => destruct (ht_strict_seq _ _ _ _ Z X) as (u & [= <-] & F & _) end.
    destruct b.
    + match type of E with match ?c with Some _ => _ | None => _ end = _ => destruct c; [|discriminate E] end. inv_v.
      match goal with o : option nat |- _ => destruct o end; inv_v; cbn; [|eauto]. eexists. split; [reflexivity|]. eapply ht_index; eauto.
    + inv_v. match goal with o : option nat |- _ => destruct o end; inv_v; cbn; [|eauto]. eexists. split; [reflexivity|]. eapply ht_index; eauto.
  - (* range *) inv_v. cbn. split.
    + unfold TypeValueProofs.cond in Hc. destruct exact; [discriminate (Hc eq_refl)|reflexivity].
    + eexists. split; reflexivity.
  - (* fold *) inv_v. fwd.
    match goal with X : strict_seq ?y = Val _, Z : ht ?y _ |- _ => destruct (ht_strict_seq _ _ _ _ Z X) as (u & [= <-] & F & _) end.
    eapply (ofoldM_inv (fun v => ht v (vt T))); [| |exact E]; [|assumption].
    intros a y z Ha Hin Ey. rewrite Forall_forall in F. eapply lam_safe with (A := GTuple [T; T0]); [| | |exact (ht_pair _ _ _ _ _ Ha (F y Hin))| |exact Ey]; eassumption.
  - (* dup *) inv_v. fwd. cbn. eauto.
  - inv_v. cbn. eauto.
  - inv_v. fwd. cbn. eauto.
  - (* append *) inv_v. fwd. cbn [vt] in *.
    match goal with X : seq_of ?y = Val ?z, Z : seq_of ?y' = Val ?z', W1 : ht ?y _, W2 : ht ?y' _ |- _ => tryif constr_eq y y' then fail else
      (destruct (ht_vseq _ _ _ _ W1 X) as (? & [= <-] & _ & Q1); destruct (ht_vseq _ _ _ _ W2 Z) as (? & [= <-] & _ & Q2)) end.
    match type of E with (if ?c then _ else _) = _ => destruct c end; [injection E as <-; assumption|].
    match type of E with (if ?c then _ else _) = _ => destruct c end; [injection E as <-; assumption|].
    inv_v. unfold vseq_append in E. repeat match goal with q : vseq |- _ => destruct q end; try discriminate E. injection E as <-.
    apply ht_append; assumption.
Qed.
End Safe.

(** ** Formats *)

Lemma loose_num : forall v t u, is_numeric t = true -> is_numeric u = true -> has_type false v t -> has_type false v u.
Proof.
  fix IH 1. intros v0 t u Nt Nu. destruct v0 as [| | | | | | | |[v'|]|vs|fs|l v'|[vs|n v']|o v'|n v'|v'|[v'|]]; cbn [has_type]; intros H;
    try (exact (IH v' t u Nt Nu H));
    try (right; split; [reflexivity|exact Nu]); try (split; [reflexivity|exact Nu]); try exact I; exfalso;
    try (subst t; discriminate Nt); try (destruct H as (? & ->); discriminate Nt);
    try (destruct H as (? & -> & _); discriminate Nt);
    try (destruct H as (? & ? & -> & _); discriminate Nt).
Qed.

Section Formats.
Context (exact : bool) (ds : list (item * list vtype)) (strict : bool) (L : nat -> gtype -> Prop).
Notation ht := (has_type exact).
Definition M := map fst ds.
Definition fixed (f : format) : Prop := exact = true -> everywhere (fun g => sized_node g = true) f.
Context (HM : module_types ds L) (HE : forall k it, get_item M k = Some it -> fixed (it_format it)).

Definition dyns_ok (D : env) (s : scope format) : Prop :=
  forall x T g, assoc x D = Some T -> get_decoder x s = Some g -> (exists ls, huffman_format ls = Val g) /\ exists w, T = GU w.
Definition fok (G D : env) (s : scope format) : Prop := fits_env exact G s /\ dyns_ok D s.
Lemma fok_single G D s x T v : fok G D s -> ht v (vt T) -> fok ((x, T) :: G) D (SSingle s x v).
Proof. intros [H1 H2] Hv. split; [now apply fits_single|exact H2]. Qed.
Lemma fok_view G D s x c : fok G D s -> fok G D (SView s x c).
Proof. intros H. exact H. Qed.
Lemma fok_dynamic G D s x w g ls : fok G D s -> huffman_format ls = Val g -> fok G ((x, GU w) :: D) (SDecoder s x g).
Proof.
  intros [H1 H2] Hg. split; [exact H1|]. intros y T g'. cbn. rewrite (N.eqb_sym y x). destruct (N.eqb x y); [|apply H2]. intros [= <-] [= <-]. eauto.
Qed.
Lemma fok_matches p T B G D v s s' : fok G D s -> pat_type p T B -> ht v (vt T) -> vmatches v s p = Some s' -> fok (B ++ G) D s'.
Proof.
  intros [H1 H2] P Hv E. split; [eapply fits_matches; eauto|]. destruct (match_binds _ _ _ _ _ _ _ P Hv E) as (ns & -> & _). exact H2.
Qed.
Lemma huffman_ftype ls g G D : huffman_format ls = Val g -> ftype ds L G D g (GU B16).
Proof.
  unfold huffman_format. destruct (HuffmanModel.huffman_codes ls) as [codes|]; [|discriminate]. intros [= <-]. constructor.
  apply Forall_forall. intros f Hf. apply List.in_map_iff in Hf as ([bits v] & <- & _). econstructor; [|constructor]. constructor.
  instantiate (1 := map (fun _ => GU B8) bits). cbn [fst]. induction bits; cbn; constructor; auto. constructor.
Qed.

Lemma args_hold G s it args tys views s' Gc : fits_env exact G s -> Forall (fun e => cond exact (sized e)) args ->
  Forall2 (fun e t => exists U, types G e U /\ vt U = t) args tys -> length args = length (it_args it) -> args_in it tys Gc ->
  call_scope s (combine (it_args it) args) (combine (it_views it) views) = Val (inl s') -> fok Gc [] s'.
Proof.
  intros Hs Hc Ha Hl HG E. unfold call_scope in E. apply obind_val in E as (l & El & E). apply omap_val in E as (o & Eo & E).
  destruct o as [l'|]; [|discriminate E]. injection E as ->. split; [|intros x T g Hx; discriminate Hx].
  assert (K : Forall2 (fun b (a : label * vtype) => fst b = fst a /\ match snd b with EntVal v => ht v (snd a) | EntView _ => False end) l (combine (it_args it) tys)).
  { clear HG Eo. unfold call_values in El. revert args tys l Hc Ha Hl El. induction (it_args it) as [|x xs IH]; intros args tys l Hc Ha Hl El.
    - injection El as <-. constructor.
    - destruct args as [|e args]; [discriminate Hl|]. inversion Ha as [|? t ? tys' (U & H1 & H2) H3]; subst. cbn [combine omapM] in El.
      apply obind_val in El as (y & Ey & El). apply obind_val in El as (ys & Eys & El). injection El as <-. apply omap_val in Ey as (v & Ev & ->).
      inversion Hc; subst. constructor; [|eapply IH; eauto]. cbn. split; [reflexivity|]. unfold eval_value in Ev. apply omap_val in Ev as (w & Ew & ->). apply ht_coerce.
      eapply (proj1 (eval_safe exact e)); eauto. }
  assert (K2 : forall x r, scan_value x (rev l' ++ r) = scan_value x r).
  { assert (A : Forall (fun b => match snd b with EntVal _ => False | EntView _ => True end) l').
    { clear -Eo. revert l' Eo. generalize (combine (it_views it) views). intros vs. induction vs as [|[x v] vs IH]; intros l' Eo; [injection Eo as <-; constructor|].
      cbn [call_views] in Eo. apply obind_val in Eo as (o & Eo' & Eo). destruct o as [c|]; [|discriminate Eo].
      apply omap_val in Eo as (r & Er & Eo). destruct r as [r|]; [|discriminate Eo]. injection Eo as ->. constructor; [exact I|]. eapply IH; eauto. }
    intros x r. apply Forall_rev in A. revert A. generalize (rev l'). clear. intros l A. induction A as [|[n e] l H1 H2 IH]; [reflexivity|]. cbn. destruct e; [exact IH|contradiction]. }
  intros x T v HT Hv. cbn [get_value] in Hv. rewrite rev_app_distr, K2 in Hv.
  assert (R : exists t, assoc x (rev (combine (it_args it) tys)) = Some t /\ ht v t).
  { apply Forall2_rev in K. revert K Hv. generalize (rev l), (rev (combine (it_args it) tys)). clear. intros l m K Hv.
    induction K as [|[n e] [m' t] l m [E1 E2] K IH]; [discriminate Hv|]. cbn in *. subst m'. destruct e; [contradiction|]. rewrite (N.eqb_sym x n). destruct (N.eqb n x); [|exact (IH Hv)].
    injection Hv as <-. eauto. }
  destruct R as (t & Rt & Rv). destruct (HG _ _ Rt) as (U & EU & <-). rewrite (TG_get _ _ _ EU) in HT. injection HT as <-. exact Rv.
Qed.

Lemma fixed_sub f g : fixed f -> (forall h, In h (subs g) -> In h (subs f)) -> fixed g.
Proof. intros H HI X h Hh. exact (H X h (HI h Hh)). Qed.
Lemma fixed_in fs g (f : format) : fixed f -> (forall h, In h (flat_map subs fs) -> In h (subs f)) -> In g fs -> fixed g.
Proof. intros H HI Hg. eapply fixed_sub; [exact H|]. intros h Hh. apply HI. apply in_flat_map. eauto. Qed.
Lemma fixed_branch (bs : list (pattern * format)) e p g : fixed (FMatch e bs) -> In (p, g) bs -> fixed g.
Proof. intros H Hg. eapply fixed_sub; [exact H|]. intros h Hh. right. apply in_flat_map. exists (p, g). auto. Qed.
Lemma sized_sub f : fixed f -> exact = true -> sized_node f = true.
Proof. intros H X. specialize (H X). apply everywhere_self in H; auto. Qed.
Lemma value_safe G D s e T v : fok G D s -> cond exact (sized e) -> types G e T -> eval_value e s = Val v -> ht v (vt T).
Proof. intros [Hs _] Hc HT E. unfold eval_value in E. apply omap_val in E as (w & E & ->). apply ht_coerce. eapply (proj1 (eval_safe exact e)); eauto. Qed.
Lemma lambda_safe G D s x b A T a v : fok G D s -> cond exact (sized (ELambda x b)) -> ht a (vt A) -> types ((x, A) :: G) b T ->
  eval_lambda (ELambda x b) s a = Val v -> ht v (vt T).
Proof. intros [Hs _] Hc Ha HT E. eapply (lam_safe exact x b); [apply eval_safe|exact Hc|exact Hs|exact Ha|exact HT|exact E]. Qed.
Lemma elem_safe k buf l i j vs : Chain (Elem k buf) l i j vs -> Forall (fun v => ht v (TBase (TU (bk_width k)))) vs.
Proof. apply chain_typed. intros a i' j' v _ H. inversion H; subst. now left. Qed.

Definition safef (s : scope format) (f : format) (v : value) : Prop := forall G D T, fixed f -> ftype ds L G D f T -> fok G D s -> ht v (vt T).
Ltac sub := match goal with H : fixed ?f |- fixed ?g => apply (fixed_sub _ _ H); intros ? ?; cbn [subs]; right; auto using in_or_app end.
Ltac node := let X := fresh in let Y := fresh in intros X; match goal with H : fixed _ |- _ => pose proof (sized_sub _ H X) as Y; cbn [sized_node] in Y; repeat (apply andb_true_iff in Y; destruct Y as [Y ?]); assumption end.
Ltac unit_v := apply ht_tuple; eexists; split; [reflexivity|constructor].
Ltac many := apply ht_strict; eexists; split; [reflexivity|]; eapply chain_repeat; [|eassumption]; intros ? ? ? [_ HP]; eapply HP; [sub|eassumption|assumption].
Lemma sem_safe s f buf i j v : Sem M strict s f buf i j v -> safef s f v.
Proof.
  intros HS. induction HS using Sem_ind'; intros G D T He HT Hs; inversion HT; subst; clear HT; cbn [vt].
  - (* item *) rename H into Hit, H0 into Hcall. match goal with X : nth_error ds _ = Some _ |- _ => rename X into Hn end.
    unfold get_item, M in Hit. rewrite nth_error_map, Hn in Hit. injection Hit as <-.
    match goal with X : L _ T |- _ => destruct (HM _ _ X) as (it' & tys' & Gc & Dc & Hn' & HG & HF) end. rewrite Hn in Hn'. injection Hn' as <- <-.
    assert (Hf : fok Gc [] s').
    { eapply args_hold with (G := G) (args := args); [apply Hs| |eassumption|eassumption|exact HG|exact Hcall]. apply cond_all. node. }
    eapply IHHS; [|exact HF|].
    + apply (HE level). unfold get_item, M. now rewrite nth_error_map, Hn.
    + destruct Hf as [Hf _]. split; [exact Hf|]. intros x U g _ Hg. unfold call_scope in Hcall. apply obind_val in Hcall as (l1 & _ & Hcall). apply omap_val in Hcall as (o & _ & Ec). destruct o; [|discriminate Ec]. injection Ec as ->. discriminate Hg.
  - unit_v.
  - unit_v.
  - now left.
  - cbn. do 2 eexists. split; [reflexivity|]. split; [apply assoc_vt; eassumption|]. eapply IHHS; [sub|eassumption|exact Hs].
  - apply nth_error_In in H. match goal with X : Forall _ fs |- _ => rewrite Forall_forall in X; eapply IHHS; [|exact (X _ H)|exact Hs] end. eapply (fixed_in fs); [exact He| |exact H]. intros; now right.
  - apply nth_error_In in H1. match goal with X : Forall _ fs |- _ => rewrite Forall_forall in X; eapply IHHS; [|exact (X _ H1)|exact Hs] end. eapply (fixed_in fs); [exact He| |exact H1]. intros; now right.
  - apply ht_tuple. eexists. split; [reflexivity|].
    assert (Hl : forall g, In g fs -> fixed g) by (intros g Hg; eapply (fixed_in fs); [exact He| |exact Hg]; intros; now right).
    match goal with X : Forall2 _ fs Ts |- _ => rename X into Ht end.
    clear He. revert Ts Ht Hl. induction H as [|f fs i j k v vs [_ HP] C IH]; intros ts Ht Hl; inversion Ht; subst; cbn [map]; constructor.
    + eapply HP; [apply Hl; now left|eassumption|exact Hs].
    + apply IH; [assumption|]. intros; apply Hl; now right.
  - apply ht_strict. eexists. split; [reflexivity|]. eapply chain_typed; [|exact H]. intros g i' j' v Hg [_ HP].
    match goal with X : Forall _ fs |- _ => rewrite Forall_forall in X; eapply HP; [|exact (X _ Hg)|exact Hs] end. eapply (fixed_in fs); [exact He| |exact Hg]. intros; now right.
  - many.
  - many.
  - many.
  - many.
  - many.
  - many.
  - (* accum *) assert (V : Forall (fun v => ht v (vt T0)) vs).
    { eapply chain_repeat; [|eassumption]. intros ? ? ? [_ HP]. eapply HP; [sub|eassumption|exact Hs]. }
    apply ht_tuple. eexists. split; [reflexivity|]. constructor; [|constructor; [apply ht_strict; eexists; split; [reflexivity|exact V]|constructor]].
    match goal with X : AccumTo _ _ _ _ _ _ |- _ => eapply (TypeProofs.accum_typed exact) with (u := vt T0); [|exact X| |exact V] end.
    + intros a v b0 Ha Hv Eb. eapply lambda_safe with (A := GTuple [A; T0]); [exact Hs| | |eassumption|exact Eb]; [node|].
      apply ht_tuple. eexists. split; [reflexivity|]. repeat constructor; assumption.
    + eapply value_safe; [exact Hs| |eassumption|eassumption]. node.
  - (* for each *) apply ht_strict. eexists. split; [reflexivity|].
    assert (V : Forall (fun v => ht v (vt T0)) l).
    { unfold eval_list in H. apply obind_val in H as (w & Ew & H). destruct (get_sequence w) as [q|] eqn:Eq; [|discriminate H]. injection H as <-.
      assert (Hw : ht w (vt (GSeq T0))) by (eapply value_safe; [exact Hs| |eassumption|exact Ew]; node).
      destruct w; try discriminate Eq; injection Eq as <-.
      - destruct Hw as (X & u & [= <-] & Y). apply ht_range; assumption.
      - apply ht_seq in Hw as (u & [= <-] & F). exact F. }
    eapply chain_typed; [|eassumption]. intros a i' j' v Ha [_ HP]. eapply HP; [sub|eassumption|]. apply fok_single; [exact Hs|].
    rewrite Forall_forall in V. auto.
  - eexists. reflexivity.
  - eexists. split; [reflexivity|]. eapply IHHS; [sub|eassumption|exact Hs].
  - eapply IHHS; [sub|eassumption|exact Hs].
  - unit_v.
  - eapply IHHS; [sub|eassumption|exact Hs].
  - eapply IHHS; [sub|eassumption|exact Hs].
  - eapply IHHS; [sub|eassumption|exact Hs].
  - cbn [has_type]. eapply lambda_safe; [exact Hs| | |eassumption|eassumption]; [node|]. eapply IHHS; [sub|eassumption|exact Hs].
  - eapply IHHS; [sub|eassumption|exact Hs].
  - eapply value_safe; [exact Hs| |eassumption|eassumption]; node.
  - eapply IHHS; [sub|eassumption|]. apply fok_single; [exact Hs|]. eapply value_safe; [exact Hs| |eassumption|eassumption]; node.
  - cbn [has_type]. destruct (first_match_in _ _ _ _ _ _ _ H0) as (p & Hp & Hm).
    match goal with X : Forall _ bs |- _ => rewrite Forall_forall in X; destruct (X _ Hp) as (B & F1 & F2) end. cbn [fst snd] in F1, F2.
    eapply IHHS; [eapply fixed_branch; eauto|exact F2|]. eapply fok_matches; [exact Hs|exact F1| |exact Hm]. eapply (proj1 (eval_safe exact e)); [|eassumption|apply Hs|eassumption]. node.
  - eapply IHHS; [sub|eassumption|]. destruct (dyn_huffman _ _ _ H) as (ls & Els). eapply fok_dynamic; eassumption.
  - destruct exact eqn:Ee; [exfalso; assert (X : sized_node (FApply x) = true) by (apply (sized_sub _ He); exact Ee); discriminate X|].
    destruct Hs as [Hs1 Hs2]. destruct (Hs2 _ _ _ ltac:(eassumption) H) as [[ls Hls] [w ->]]. apply (loose_num _ (vt (GU B16))); [reflexivity|reflexivity|].
    assert (K : ht v (vt (GU B16))) by (eapply IHHS; [intros X; congruence|eapply huffman_ftype, Hls|split; eassumption]).
    rewrite Ee in K. exact K.
  - destruct exact eqn:Ee; [exfalso; assert (X : sized_node FPos = true) by (apply (sized_sub _ He); exact Ee); discriminate X|]. right. split; reflexivity.
  - unit_v.
  - eapply IHHS; [sub|eassumption|exact Hs].
  - eapply IHHS2; [sub|eassumption|]. apply fok_single; [exact Hs|]. eapply IHHS1; [sub|eassumption|exact Hs].
  - eapply IHHS2; [sub|eassumption|exact Hs].
  - eapply IHHS; [sub|eassumption|exact Hs].
  - eexists. reflexivity.
  - eexists. split; [reflexivity|]. eapply IHHS; [sub|eassumption|exact Hs].
  - eapply IHHS; [sub|eassumption|]. now apply fok_view.
  - apply ht_strict. eexists. split; [reflexivity|]. match goal with X : Chain (Elem _ _) _ _ _ _ |- _ => exact (elem_safe _ _ _ _ _ _ X) end.
  - apply ht_strict. eexists. split; [reflexivity|]. match goal with X : Chain (Elem _ _) _ _ _ _ |- _ => exact (elem_safe _ _ _ _ _ _ X) end.
  - reflexivity.
  - eapply IHHS; [sub|eassumption|exact Hs].
  - eexists. reflexivity.
  - cbn [has_type]. eapply IHHS; [sub|eassumption|exact Hs].
  - cbn [has_type]. eapply value_safe; [exact Hs| |eassumption|eassumption]; node.
Qed.
End Formats.
