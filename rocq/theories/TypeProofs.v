(** Decoded values have the inferred type. *)
From Coq Require Import Sorted Permutation.
From Verif Require ByteSetModel HuffmanModel.
From Verif Require Import Base BoundsModel DataModel DataProofs NumericModel ValueModel ValueProofs ValueWfProofs FormatModel DecoderModel FormatSpec FormatInd
  MatchTreeModel MatchBoundsProofs CompileProofs FormatProps TypeModel TypeSpec TypeUnifyProofs TypeValueProofs.
Open Scope nat_scope.

(** ** Inference with fewer tests, or more levels *)

Definition ile {A} (x y : ires A) : Prop := forall r, x = IOk r -> y = IOk r.
Lemma ile_refl {A} (x : ires A) : ile x x.
Proof. intros r; auto. Qed.
Lemma ile_bind {A B} (x y : ires A) (f g : A -> ires B) : ile x y -> (forall a, ile (f a) (g a)) -> ile (ibind x f) (ibind y g).
Proof. intros H K r E. apply ibind_ok in E as (a & Ea & E). apply H in Ea. rewrite Ea. now apply K. Qed.
Lemma ile_err {A} (y : ires A) : ile IErr y.
Proof. discriminate. Qed.
Lemma ile_panic {A} (y : ires A) : ile IPanic y.
Proof. discriminate. Qed.
Lemma ile_map {A B} (f g : A -> ires B) l : Forall (fun x => ile (f x) (g x)) l -> ile (imapM f l) (imapM g l).
Proof. induction 1; cbn; [apply ile_refl|]. apply ile_bind; [assumption|]. intros. apply ile_bind; [assumption|]. intros. apply ile_refl. Qed.
Lemma ile_fold {A S} (f g : S -> A -> ires S) l : Forall (fun x => forall s, ile (f s x) (g s x)) l -> forall s, ile (ifoldM f s l) (ifoldM g s l).
Proof. induction 1; cbn; intros s; [apply ile_refl|]. apply ile_bind; auto. Qed.

Section Less.
Context (c c' : bool) (Hc : c' = true -> c = true).
Lemma covers_le d f : ile (covers c d f) (covers c' d f).
Proof.
  unfold covers. destruct c', c; cbn; try apply ile_refl; [discriminate (Hc eq_refl)|]. intros r. unfold guard. destruct (match unify f d with Some u => _ | None => _ end); [auto|discriminate].
Qed.
Definition less (e : expr) : Prop := forall G, ile (infer_expr c G e) (infer_expr c' G e).
Ltac go := repeat first
  [ apply ile_refl | apply ile_err | apply ile_panic | apply covers_le
  | match goal with H : less ?e |- ile (infer_expr c _ ?e) _ => apply H end
  | apply ile_bind; [|intros]
  | match goal with |- ile (match ?x with _ => _ end) (match ?x with _ => _ end) => destruct x end ].
Ltac lam f := destruct f; try apply ile_err; match goal with H : forall x b, ELambda _ _ = ELambda x b -> less b |- _ => apply (H _ _ eq_refl) end.
Lemma infer_expr_le e : less e /\ forall x b, e = ELambda x b -> less b.
Proof.
  induction e using expr_ind'; (split; [intros G; cbn [infer_expr]|intros x0 b0 E0; try discriminate; injection E0 as <- <-; tauto]);
    repeat match goal with H : less _ /\ _ |- _ => destruct H end; try (go; fail).
  - apply ile_bind; [|intros; apply ile_refl]. apply ile_map. eapply Forall_impl; [|exact H]. intros e [He _]. apply He.
  - apply ile_bind; [|intros; apply ile_refl]. apply ile_map. eapply Forall_impl; [|exact H]. intros [l e] [He _]. apply ile_bind; [apply He|intros; apply ile_refl].
  - apply ile_bind; [|intros; apply ile_refl]. apply ile_fold. eapply Forall_impl; [|exact H]. intros e [He _] t. apply ile_bind; [apply He|intros; apply ile_refl].
  - destruct bs as [|b0 bs]; [apply ile_err|]. apply ile_bind; [go|]. intros th. apply ile_fold. eapply Forall_impl; [|exact H].
    intros [p e'] [He _] t. apply ile_bind; [|intros; apply ile_refl]. apply ile_bind; [apply ile_refl|]. intros. apply He.
  - go; lam e1.
  - go; lam e1.
  - go; lam e1.
  - go; lam e1.
  - go; lam e1.
Qed.
Lemma infer_lambda_le G f t : ile (infer_lambda c G f t) (infer_lambda c' G f t).
Proof. destruct f; try apply ile_err. apply infer_expr_le. Qed.
Lemma check_view_le G v : ile (check_view c G v) (check_view c' G v).
Proof. induction v; cbn; [apply ile_refl|]. apply ile_bind; [apply infer_expr_le|]. intros t. destruct (is_numeric t); [assumption|apply ile_err]. Qed.
Context (sigs more : list sig).
Ltac gof := repeat first
  [ apply ile_refl | apply ile_err | apply ile_panic | apply covers_le | apply (fun e => proj1 (infer_expr_le e)) | apply infer_lambda_le | apply check_view_le
  | match goal with H : forall G, ile (infer_format c sigs G ?f) _ |- ile (infer_format c sigs _ ?f) _ => apply H end
  | apply ile_bind; [|intros]
  | match goal with |- ile (match ?x with _ => _ end) (match ?x with _ => _ end) => destruct x end ].
Lemma infer_format_le f : forall G, ile (infer_format c sigs G f) (infer_format c' (sigs ++ more) G f).
Proof.
  induction f using format_ind'; intros G; cbn [infer_format]; try (unfold until; gof; fail).
  - destruct (nth_error sigs l) as [sg|] eqn:E; [|apply ile_panic]. rewrite nth_error_app1 by (apply nth_error_Some; congruence). rewrite E.
    gof. apply ile_map. apply Forall_forall. intros [ta e] _. gof.
  - apply ile_fold. eapply Forall_impl; [|eassumption]. intros f Hf t. cbv beta in Hf. gof.
  - apply ile_fold. eapply Forall_impl; [|eassumption]. intros f Hf t. cbv beta in Hf. gof.
  - apply ile_bind; [|intros; apply ile_refl]. apply ile_map. eapply Forall_impl; [|eassumption]. intros f Hf. apply Hf.
  - apply ile_bind; [|intros; apply ile_refl]. apply ile_fold. eapply Forall_impl; [|eassumption]. intros f Hf t. cbv beta in Hf. gof.
  - (* accumulate *) destruct a as [| | | | | | | | | | | |x body| | | | | | | | | | | | | | | | | | |]; try apply ile_err.
    repeat first [apply ile_refl | apply covers_le | apply (fun e => proj1 (infer_expr_le e)) | apply infer_lambda_le | apply IHf | apply ile_bind; [|intros]].
    match goal with |- ile (if c then ?X else _) (if c' then ?Y else _) => assert (A : ile X Y) by gof end.
    destruct c'; [rewrite (Hc eq_refl) in *; exact A|]. intros [] _. reflexivity.
  - destruct bs as [|b0 bs]; [apply ile_err|]. apply ile_bind; [apply infer_expr_le|]. intros th. apply ile_fold. eapply Forall_impl; [|eassumption].
    intros [p g] Hg t. cbn [snd] in Hg. gof.
Qed.
End Less.

(** ** Modules *)

Lemma define_all_grows careful ds : forall sigs sigs', define_all careful sigs ds = Some sigs' -> exists more, sigs' = sigs ++ more.
Proof.
  induction ds as [|[it tys] ds IH]; cbn; intros sigs sigs' E; [injection E as <-; exists []; now rewrite app_nil_r|].
  unfold define_item in E. destruct (infer_format _ _ _ _) as [t| |]; try discriminate E. apply IH in E as (more & ->). rewrite <- app_assoc. eauto.
Qed.
Definition item_typed (careful : bool) (sigs : list sig) (it : item) (tys : list vtype) (sg : sig) : Prop :=
  sg_args sg = tys /\ sg_views sg = length (it_views it) /\
  infer_format careful sigs (item_scope (combine (it_args it) tys) (it_views it)) (it_format it) = IOk (sg_type sg).
Lemma define_all_typed careful ds : forall sigs sigs', define_all careful sigs ds = Some sigs' ->
  forall k it tys, nth_error ds k = Some (it, tys) -> exists sg, nth_error sigs' (length sigs + k) = Some sg /\ item_typed careful sigs' it tys sg.
Proof.
  induction ds as [|[it tys] ds IH]; cbn; intros sigs sigs' E k it' tys' Hk; [destruct k; discriminate Hk|].
  unfold define_item in E. destruct (infer_format careful sigs _ _) as [t| |] eqn:Et; try discriminate E.
  destruct k as [|k]; cbn in Hk.
  - injection Hk as <- <-. destruct (define_all_grows _ _ _ _ E) as (more & ->). exists (Sig tys (length (it_views it)) t). split.
    + rewrite <- app_assoc, Nat.add_0_r, nth_error_app2 by lia. rewrite Nat.sub_diag. reflexivity.
    + split; [reflexivity|]. split; [reflexivity|]. rewrite <- app_assoc. apply infer_format_le with (c := careful); auto.
  - destruct (IH _ _ E _ _ _ Hk) as (sg & Hn & Ht). exists sg. split; [|exact Ht]. rewrite <- Hn. f_equal. rewrite app_length. cbn. lia.
Qed.

(** ** Formats *)

Section Formats.
Context (exact : bool) (M : fmodule) (strict : bool) (sigs : list sig).
Notation ht := (has_type exact).
Notation infer := (infer_format true sigs).
Definition texact (f : format) : Prop := exact = true -> everywhere (fun g => typed_node g = true) f.
Context (HM : forall k it, get_item M k = Some it -> exists sg, nth_error sigs k = Some sg /\ item_typed true sigs it (sg_args sg) sg).
Context (HE : forall k it, get_item M k = Some it -> texact (it_format it)).

(** What a format bound to a name decodes has the type of the name. *)
Definition fmts_ok (G : tscope) (s : scope format) : Prop := forall x T g, get_type G x = Some (KFormat T) -> get_decoder x s = Some g ->
  texact g /\ forall G', exists T', infer G' g = IOk T' /\ forall v, ht v T' -> ht v T.
Definition sok (G : tscope) (s : scope format) : Prop := vals_ok exact G s /\ fmts_ok G s.
Lemma sok_single G s x t v : sok G s -> ht v t -> sok ((x, KValue t) :: G) (SSingle s x v).
Proof.
  intros [H1 H2] Hv. split; [now apply vals_single|]. intros y T g. cbn. destruct (N.eqb y x); [discriminate|]. apply H2.
Qed.
Lemma sok_view G s x c : sok G s -> sok ((x, KView) :: G) (SView s x c).
Proof.
  intros [H1 H2]. split; [intros y T g|intros y T g]; cbn; (destruct (N.eqb y x); [discriminate|]); [apply H1|apply H2].
Qed.
Lemma sok_format G s x t g : sok G s -> texact g -> (forall G', exists T', infer G' g = IOk T' /\ forall v, ht v T' -> ht v t) ->
  sok ((x, KFormat t) :: G) (SDecoder s x g).
Proof.
  intros [H1 H2] He Hg. split; intros y T g'; cbn; rewrite (N.eqb_sym y x); destruct (N.eqb x y); try discriminate; [apply H1| |apply H2].
  intros [= <-] [= <-]. auto.
Qed.
Lemma sok_matches p t G G' v s s' : sok G s -> build_scope p t G = IOk G' -> ht v t -> vmatches v s p = Some s' -> sok G' s'.
Proof.
  intros [H1 H2] B Hv E. split; [eapply vals_matches; eauto|]. destruct (matches_binds _ _ _ _ _ _ _ _ B Hv E) as (ks & ns & -> & -> & F).
  intros y T g. cbn. intros Ht Hd. apply (H2 y T g); [|exact Hd]. clear -F Ht. apply Forall2_rev in F. revert F Ht. generalize (rev ns), (rev ks). clear ns ks. intros ns ks F.
  induction F as [|[x v] [z k] ns ks [E1 E2] F IH]; [auto|]. cbn. destruct k; try contradiction. destruct (N.eqb y z); [discriminate|exact IH].
Qed.

(** ** The code words of a Huffman table decode to 16-bit integers *)

Lemma huffman_typed ls g : huffman_format ls = Val g -> texact g /\
  forall G', exists T', infer G' g = IOk T' /\ forall v, ht v T' -> ht v (TBase (TU B16)).
Proof.
  unfold huffman_format. destruct (HuffmanModel.huffman_codes ls) as [codes|]; [|discriminate]. intros [= <-]. split.
  - intros _ g [<-|Hg]; [reflexivity|].
    apply in_flat_map in Hg as (f & Hf & Hg). apply List.in_map_iff in Hf as ([bits v] & <- & _). cbn [subs fst snd] in Hg.
    destruct Hg as [<-|[<-|Hg]]; try reflexivity. apply in_flat_map in Hg as (f & Hf & Hg). apply List.in_map_iff in Hf as (b & <- & _).
    destruct Hg as [<-|[]]. reflexivity.
  - intros G'. cbn [infer_format].
    assert (A : forall t, (t = TAny \/ t = TBase (TU B16)) -> exists T', ifoldM (fun t f => ibind (infer G' f) (fun u => unify_i t u)) t
      (map (fun c : list N * N => FMap (FTuple (map is_bit (fst c))) (ELambda 0%N (EU B16 (snd c)))) codes) = IOk T' /\ (T' = TAny \/ T' = TBase (TU B16))).
    { induction codes as [|[bits v] codes IH]; intros t Ht; cbn [map ifoldM]; [eauto|]. cbn [infer_format fst snd].
      assert (B : exists ts, imapM (infer G') (map is_bit bits) = IOk ts).
      { clear. induction bits as [|b bits (ts & IH)]; cbn [map imapM]; [eauto|]. cbn [infer_format is_bit ibind]. rewrite IH. cbn. eauto. }
      destruct B as (ts & ->). cbn [ibind infer_lambda infer_expr]. destruct Ht as [-> | ->]; cbn; apply IH; auto. }
    destruct (A TAny (or_introl eq_refl)) as (T' & E & HT'). exists T'. split; [exact E|]. intros v Hv. destruct HT' as [-> | ->]; [|exact Hv].
    eapply (ht_unify exact v TAny (TBase (TU B16))); [reflexivity|auto].
Qed.
Lemma dyn_huffman {D} dy (s : scope D) f : dyn_format dy s = Val f -> exists ls, huffman_format ls = Val f.
Proof.
  destruct dy as [a o]. cbn [dyn_format]. destruct (obind (eval a s) value_to_vec_usize) as [ls|]; [|discriminate]. cbn [obind].
  destruct o as [b|]; cbn [obind]; [|eauto]. destruct (obind (eval b s) value_to_vec_usize) as [vs|]; [|discriminate]. cbn [obind].
  destruct (HuffmanModel.reorder ls vs) as [l|]; [|discriminate]. cbn [obind]. eauto.
Qed.

(** ** The scope of a call *)

Lemma call_typed G s it args tys views s' : sok G s -> Forall (fun e => cond exact (typed_expr e)) args ->
  length tys = length args -> length (it_views it) = length views ->
  Forall2 (fun te u => match te with (ta, e) => ibind (infer_expr true G e) (fun t => ibind (unify_i ta t) (fun _ => covers true ta t)) end = IOk u) (combine tys args) (map (fun _ => tt) (combine tys args)) ->
  call_scope s (combine (it_args it) args) (combine (it_views it) views) = Val (inl s') ->
  sok (item_scope (combine (it_args it) tys) (it_views it)) s'.
Proof.
  intros Hs Hc Hl Hv Ha E. unfold call_scope in E. apply obind_val in E as (l & El & E). apply omap_val in E as (o & Eo & E).
  destruct o as [l'|]; [|discriminate E]. injection E as ->.
  assert (K : Forall2 (ent_kind exact) (l ++ l') (map (fun a => (fst a, KValue (snd a))) (combine (it_args it) tys) ++ map (fun v => (v, KView)) (it_views it))).
  { apply Forall2_app.
    - unfold call_values in El. clear - Hs Hc Hl Ha El. revert tys args l Hc Hl Ha El. induction (it_args it) as [|x xs IH]; intros tys args l Hc Hl Ha El.
      + injection El as <-. constructor.
      + destruct args as [|e args], tys as [|t tys]; try discriminate Hl; [injection El as <-; constructor|]. cbn [combine omapM] in El.
        apply obind_val in El as (y & Ey & El). apply obind_val in El as (ys & Eys & El). injection El as <-. apply omap_val in Ey as (v & Ev & ->).
        inversion Hc; subst. cbn [combine map] in Ha. inversion Ha; subst. constructor; [|eapply IH; eauto]. cbn. split; [reflexivity|].
        match goal with X : ibind _ _ = IOk tt |- _ => apply ibind_ok in X as (u & Hu & X); apply ibind_ok in X as (? & _ & X) end.
        eapply ht_covers; [eassumption|]. unfold eval_value in Ev. apply omap_val in Ev as (w & Ew & ->). apply ht_coerce.
        eapply (proj1 (eval_ok exact e)); eauto. apply Hs.
    - clear - Hv Eo. revert views l' Hv Eo. induction (it_views it) as [|x xs IH]; intros [|v vs] l' Hv Eo; try discriminate Hv; [injection Eo as <-; constructor|].
      cbn [combine call_views] in Eo. apply obind_val in Eo as (o & Eo' & Eo). destruct o as [c|]; [|discriminate Eo].
      apply omap_val in Eo as (r & Er & Eo). destruct r as [r|]; [|discriminate Eo]. injection Eo as ->. constructor; [split; [reflexivity|exact I]|]. eapply IH; eauto. }
  unfold item_scope. split.
  - pose proof (vals_multi exact [] (SEmpty : scope format) _ _ (fun x T v H => ltac:(discriminate H)) K) as V. now rewrite app_nil_r in V.
  - intros x T g Hg Hd. discriminate Hd.
Qed.

Lemma typed_sub f : texact f -> (exact = true -> typed_node f = true).
Proof. intros H X. apply everywhere_self in H; auto. Qed.

Definition tok (s : scope format) (f : format) (buf : list N) (i j : nat) (v : value) : Prop :=
  forall G T, texact f -> infer G f = IOk T -> sok G s -> ht v T.
Lemma chain_typed {A} (R : A -> nat -> nat -> value -> Prop) (Q : value -> Prop) l i j vs : (forall a i j v, In a l -> R a i j v -> Q v) ->
  Chain R l i j vs -> Forall Q vs.
Proof. intros H C. induction C as [|a l i j k v vs HR C IH]; constructor; [eapply H; [now left|exact HR]|]. apply IH. intros. eapply H; [right|]; eauto. Qed.
Lemma chain_repeat (R : format -> nat -> nat -> value -> Prop) (Q : value -> Prop) f n i j vs : (forall i j v, R f i j v -> Q v) ->
  Chain R (repeat f n) i j vs -> Forall Q vs.
Proof. intros H. apply chain_typed. intros a i' j' v Hin HR. apply repeat_spec in Hin as ->. eauto. Qed.
Ltac inv_i := repeat match goal with
  | H : ibind _ _ = IOk _ |- _ => let E := fresh "J" in apply ibind_ok in H; destruct H as (? & E & H)
  | H : IOk _ = IOk _ |- _ => injection H as <-
  | H : (if ?b then _ else IErr) = IOk _ |- _ => let E := fresh "B" in destruct b eqn:E; [|discriminate H]
  end.
Lemma value_typed G s e T v : sok G s -> cond exact (typed_expr e) -> infer_expr true G e = IOk T -> eval_value e s = Val v -> ht v T.
Proof. intros [Hs _] Hc HT E. unfold eval_value in E. apply omap_val in E as (w & E & ->). apply ht_coerce. eapply (proj1 (eval_ok exact e)); eauto. Qed.
Lemma lambda_typed G s f ta T a v : sok G s -> cond exact (typed_expr f) -> ht a ta -> infer_lambda true G f ta = IOk T -> eval_lambda f s a = Val v -> ht v T.
Proof.
  intros [Hs _] Hc Ha HT E. eapply ht_lambda; [apply eval_ok|exact Hc|exact Hs|exact Ha|exact HT|]. destruct f; try discriminate E. exact E.
Qed.
Lemma elem_typed k buf l i j vs : Chain (Elem k buf) l i j vs -> Forall (fun v => ht v (TBase (TU (bk_width k)))) vs.
Proof. apply chain_typed. intros a i' j' v _ H. inversion H; subst. now left. Qed.

Lemma texact_sub f g : texact f -> (forall h, In h (subs g) -> In h (subs f)) -> texact g.
Proof. intros H HI X h Hh. exact (H X h (HI h Hh)). Qed.
Lemma texact_in fs g (f : format) : texact f -> (forall h, In h (flat_map subs fs) -> In h (subs f)) -> In g fs -> texact g.
Proof. intros H HI Hg. eapply texact_sub; [exact H|]. intros h Hh. apply HI. apply in_flat_map. eauto. Qed.
Lemma texact_branch (bs : list (pattern * format)) e p g : texact (FMatch e bs) -> In (p, g) bs -> texact g.
Proof. intros H Hg. eapply texact_sub; [exact H|]. intros h Hh. right. apply in_flat_map. exists (p, g). auto. Qed.
Lemma first_match_in w (s : scope format) (bs : list (pattern * format)) : forall n k s' f, first_match w s n bs = Some (k, s', f) -> exists p, In (p, f) bs /\ vmatches w s p = Some s'.
Proof.
  induction bs as [|[p g] bs IH]; intros n k s' f E; [discriminate E|]. cbn [first_match] in E. destruct (vmatches w s p) as [s1|] eqn:Em.
  - injection E as <- <- <-. exists p. split; [now left|exact Em].
  - apply IH in E as (q & Hq & Eq). exists q. split; [now right|exact Eq].
Qed.
Lemma accum_typed (stop : value -> list value -> outcome bool) (upd : value -> value -> outcome value) h u :
  (forall a v b, ht a h -> ht v u -> upd a v = Val b -> ht b h) ->
  forall a0 pre vs a, AccumTo stop upd a0 pre vs a -> ht a0 h -> Forall (fun v => ht v u) vs -> ht a h.
Proof.
  intros HU a0 pre vs a A. induction A; intros Z0 Hvs; [assumption|]. inversion Hvs; subst. eauto.
Qed.
Ltac sub := match goal with H : texact ?f |- texact ?g => apply (texact_sub _ _ H); intros ? ?; cbn [subs]; right; auto using in_or_app end.
Ltac node := let X := fresh in let Y := fresh in intros X; match goal with H : texact _ |- _ => pose proof (typed_sub _ H X) as Y; cbn [typed_node] in Y; repeat (apply andb_true_iff in Y; destruct Y as [Y ?]); assumption end.
Ltac unit_t := injection 1 as <-; apply ht_tuple; eauto.
Lemma sem_typed s f buf i j v : Sem M strict s f buf i j v -> tok s f buf i j v.
Proof.
  intros HS. induction HS using Sem_ind'; intros G T He HT Hs; cbn [infer_format] in HT.
  - (* item *) rename H into Hit, H0 into Hcall. destruct (HM _ _ Hit) as (sg & Hn & _ & H1 & H2). rewrite Hn in HT.
    apply ibind_ok in HT as (? & L1 & HT). apply ibind_ok in HT as (? & L2 & HT). apply ibind_ok in HT as (us & La & HT). injection HT as <-.
    apply guard_ok in L1, L2. apply Nat.eqb_eq in L1, L2.
    eapply IHHS; [eapply HE, Hit|exact H2|]. eapply call_typed with (args := args) (views := views); [exact Hs| |exact L1|congruence| |exact Hcall].
    + apply cond_all. node.
    + apply imapM_ok in La. clear - La. revert us La. induction (combine (sg_args sg) args) as [|[t e] l IH]; intros us La; inversion La; subst; cbn; constructor; [destruct y; assumption|eauto].
  - injection HT as <-. apply ht_tuple. eauto.
  - injection HT as <-. apply ht_tuple. eauto.
  - injection HT as <-. now left.
  - apply ibind_ok in HT as (t & Ht & HT). injection HT as <-. cbn. do 2 eexists. split; [reflexivity|]. cbn. rewrite N.eqb_refl. split; [reflexivity|].
    eapply IHHS; [sub|exact Ht|exact Hs].
  - apply nth_error_In in H. destruct (fold_unify exact _ _ _ _ HT) as [_ F]. destruct (F f H) as (u & Eu & Fu). apply Fu.
    eapply IHHS; [|exact Eu|exact Hs]. eapply (texact_in fs); [exact He| |exact H]. intros; now right.
  - apply nth_error_In in H1. destruct (fold_unify exact _ _ _ _ HT) as [_ F]. destruct (F f H1) as (u & Eu & Fu). apply Fu.
    eapply IHHS; [|exact Eu|exact Hs]. eapply (texact_in fs); [exact He| |exact H1]. intros; now right.
  - apply ibind_ok in HT as (ts & Ht & HT). injection HT as <-. apply ht_tuple. exists ts. split; [reflexivity|]. apply imapM_ok in Ht.
    assert (Hl : forall g, In g fs -> texact g) by (intros g Hg; eapply (texact_in fs); [exact He| |exact Hg]; intros; now right).
    clear He. revert ts Ht Hl. induction H as [|f fs i j k v vs [_ HP] C IH]; intros ts Ht Hl; inversion Ht; subst; constructor.
    + eapply HP; [apply Hl; now left|eassumption|exact Hs].
    + apply IH; [assumption|]. intros; apply Hl; now right.
  - apply ibind_ok in HT as (t & Ht & HT). injection HT as <-. apply ht_strict. exists t. split; [reflexivity|]. destruct (fold_unify exact _ _ _ _ Ht) as [_ F].
    eapply chain_typed; [|exact H]. intros g i' j' v Hg [_ HP]. destruct (F g Hg) as (u & Eu & Fu). apply Fu.
    eapply HP; [|exact Eu|exact Hs]. eapply (texact_in fs); [exact He| |exact Hg]. intros; now right.
  - apply ibind_ok in HT as (t & Ht & HT). injection HT as <-. apply ht_strict. exists t. split; [reflexivity|].
    eapply chain_repeat; [|exact H]. intros i' j' v [_ HP]. eapply HP; [sub|exact Ht|exact Hs].
  - apply ibind_ok in HT as (t & Ht & HT). injection HT as <-. apply ht_strict. exists t. split; [reflexivity|].
    eapply chain_repeat; [|exact H]. intros i' j' v [_ HP]. eapply HP; [sub|exact Ht|exact Hs].
  - inv_i. apply ht_strict. eexists. split; [reflexivity|].
    eapply chain_repeat; [|exact H0]. intros i' j' v [_ HP]. eapply HP; [sub|eassumption|exact Hs].
  - inv_i. apply ht_strict. eexists. split; [reflexivity|].
    eapply chain_repeat; [|eassumption]. intros i' j' v [_ HP]. eapply HP; [sub|eassumption|exact Hs].
  - inv_i. apply ht_strict. eexists. split; [reflexivity|].
    eapply chain_repeat; [|eassumption]. intros i' j' v [_ HP]. eapply HP; [sub|eassumption|exact Hs].
  - inv_i. apply ht_strict. eexists. split; [reflexivity|].
    eapply chain_repeat; [|eassumption]. intros i' j' v [_ HP]. eapply HP; [sub|eassumption|exact Hs].
  - (* accum *) destruct fd as [| | | | | | | | | | | |x body| | | | | | | | | | | | | | | | | | |]; try discriminate HT.
    apply ibind_ok in HT as (u & Hu & HT). apply ibind_ok in HT as (t0 & Ht0 & HT). apply ibind_ok in HT as (? & _ & HT).
    apply ibind_ok in HT as ([] & Hc & HT). cbv zeta in HT. apply ibind_ok in HT as (? & _ & HT). apply ibind_ok in HT as (? & _ & HT).
    apply ibind_ok in HT as (? & _ & HT). apply ibind_ok in HT as (? & _ & HT). apply ibind_ok in HT as ([] & HU & HT). injection HT as <-.
    apply ibind_ok in HU as (r & Hr & HU). apply ibind_ok in HU as (? & _ & HU).
    assert (V : Forall (fun v => ht v u) vs).
    { eapply chain_repeat; [|exact H0]. intros i' j' v [_ HP]. eapply HP; [sub|exact Hu|exact Hs]. }
    apply ht_tuple. eexists. split; [reflexivity|]. constructor; [|constructor; [apply ht_strict; eauto|constructor]].
    eapply accum_typed; [|exact H1| |exact V].
    + intros a v b Ha Hv Eb. eapply ht_covers; [exact HU|]. eapply lambda_typed; [exact Hs| | |exact Hr|exact Eb]; [node|].
      apply ht_tuple. eexists. split; [reflexivity|]. repeat constructor; assumption.
    + eapply ht_covers; [exact Hc|]. eapply value_typed; [exact Hs| |exact Ht0|exact H]. node.
  - (* for each *) apply ibind_ok in HT as (t & Ht & HT). apply ibind_ok in HT as (u & Hu & HT). apply ibind_ok in HT as (r & Hr & HT). injection HT as <-.
    apply ht_strict. exists r. split; [reflexivity|].
    assert (V : Forall (fun v => ht v u) l).
    { unfold eval_list in H. apply obind_val in H as (w & Ew & H). destruct (get_sequence w) as [q|] eqn:Eq; [|discriminate H]. injection H as <-.
      assert (Hw : ht w t) by (eapply value_typed; [exact Hs| |exact Ht|exact Ew]; node). destruct t; try discriminate Hu. injection Hu as <-.
      destruct w; try discriminate Eq; injection Eq as <-.
      - destruct Hw as (X & u & [= <-] & Y). apply ht_range; assumption.
      - apply ht_seq in Hw as (u & [= <-] & F). exact F. }
    eapply chain_typed; [|exact H0]. intros a i' j' v Ha [_ HP]. eapply HP; [sub|exact Hr|]. apply sok_single; [exact Hs|].
    rewrite Forall_forall in V. auto.
  - inv_i. eexists. reflexivity.
  - inv_i. eexists. split; [reflexivity|]. eapply IHHS; [sub|eassumption|exact Hs].
  - eapply IHHS; [sub|exact HT|exact Hs].
  - injection HT as <-. apply ht_tuple. eauto.
  - eapply IHHS; [sub|exact HT|exact Hs].
  - eapply IHHS; [sub|exact HT|exact Hs].
  - eapply IHHS; [sub|exact HT|exact Hs].
  - apply ibind_ok in HT as (t & Ht & HT). cbn [has_type]. eapply lambda_typed; [exact Hs| | |exact HT|eassumption]; [node|]. eapply IHHS; [sub|exact Ht|exact Hs].
  - inv_i. eapply IHHS; [sub|eassumption|exact Hs].
  - eapply value_typed; [exact Hs| |exact HT|eassumption]; node.
  - apply ibind_ok in HT as (t & Ht & HT). eapply IHHS; [sub|exact HT|]. apply sok_single; [exact Hs|]. eapply value_typed; [exact Hs| |exact Ht|eassumption]; node.
  - destruct bs as [|b0 bs0] eqn:Eb; [discriminate HT|]. rewrite <- Eb in *. clear Eb b0 bs0.
    apply ibind_ok in HT as (th & Hh & HT). destruct (first_match_in _ _ _ _ _ _ _ H0) as (p & Hp & Hm).
    rewrite (ifoldM_ext _ (fun t b => ibind ((fun b => ibind (build_scope (fst b) th G) (fun G' => infer G' (snd b))) b) (fun u => unify_i t u))) in HT by (intros ? [? ?]; reflexivity).
    destruct (fold_unify exact _ _ _ _ HT) as [_ F]. destruct (F (p, f) Hp) as (u & Eu & Fu). apply Fu.
    apply ibind_ok in Eu as (G' & EG & Eu). cbn [fst snd] in EG, Eu. eapply IHHS; [eapply texact_branch; eauto|exact Eu|].
    eapply sok_matches; [exact Hs|exact EG| |exact Hm]. eapply (proj1 (eval_ok exact e)); [|exact Hh|apply Hs|exact H]. node.
  - destruct dy as [le o]. apply ibind_ok in HT as (t & Ht & HT). destruct t; try discriminate HT. destruct (is_u B8 t || is_u B16 t); [|discriminate HT].
    eapply IHHS; [sub|exact HT|]. destruct (dyn_huffman _ _ _ H) as (ls & Els). destruct (huffman_typed _ _ Els) as [K1 K2]. apply sok_format; assumption.
  - destruct (get_type G x) as [[| |t]|] eqn:Eg; try discriminate HT. injection HT as <-. destruct Hs as [Hs1 Hs2]. destruct (Hs2 _ _ _ Eg H) as [K1 K2].
    destruct (K2 G) as (T' & E1 & E2). apply E2. eapply IHHS; [exact K1|exact E1|split; assumption].
  - injection HT as <-. destruct exact eqn:Ee; [|right; split; reflexivity]. exfalso. assert (X : typed_node FPos = true) by (apply (typed_sub _ He); exact Ee). discriminate X.
  - injection HT as <-. apply ht_tuple. eauto.
  - apply ibind_ok in HT as (t & Ht & HT). destruct t; try discriminate HT. destruct (is_u B8 t); [|discriminate HT]. eapply IHHS; [sub|exact HT|exact Hs].
  - apply ibind_ok in HT as (t & Ht & HT). eapply IHHS2; [sub|exact HT|]. apply sok_single; [exact Hs|]. eapply IHHS1; [sub|exact Ht|exact Hs].
  - apply ibind_ok in HT as (t & Ht & HT). eapply IHHS2; [sub|exact HT|exact Hs].
  - eapply IHHS; [sub|exact HT|exact Hs].
  - injection HT as <-. eexists. reflexivity.
  - inv_i. eexists. split; [reflexivity|]. eapply IHHS; [sub|eassumption|exact Hs].
  - eapply IHHS; [sub|exact HT|]. now apply sok_view.
  - inv_i. apply ht_strict. eexists. split; [reflexivity|]. exact (elem_typed _ _ _ _ _ _ H1).
  - inv_i. apply ht_strict. eexists. split; [reflexivity|]. exact (elem_typed _ _ _ _ _ _ H1).
  - inv_i. reflexivity.
  - inv_i. eapply IHHS; [sub|eassumption|exact Hs].
  - inv_i. eexists. reflexivity.
  - apply ibind_ok in HT as (t0 & Ht0 & HT). apply ibind_ok in HT as (t & Ht & HT). cbn [has_type]. eapply ht_unify_i; [exact HT|]. right. eapply IHHS; [sub|exact Ht|exact Hs].
  - apply ibind_ok in HT as (t0 & Ht0 & HT). apply ibind_ok in HT as (t & Ht & HT). cbn [has_type]. eapply ht_unify_i; [exact HT|]. left. eapply value_typed; [exact Hs| |exact Ht0|eassumption]; node.
Qed.
End Formats.

(** ** The code's check is the careful one where what is declared is ground *)

Ltac ug := match goal with H : ground ?d = true -> forall a u, _ /\ _, D : ground ?d = true |- _ = ?d => first [eapply (proj1 (H D _ _)); eassumption | eapply (proj2 (H D _ _)); eassumption] end.
Lemma unify_ground d : ground d = true -> forall a u, (unify a d = Some u -> u = d) /\ (unify d a = Some u -> u = d).
Proof.
  induction d as [| | |t IH|b0| |w|ts IH|fs IH|fs IH|t IH|t IH] using vtype_ind'; intros Gd a u; try discriminate Gd; cbn [ground] in Gd.
  - split; intros U; [apply unify_rigid_r in U|apply unify_rigid_l in U]; try exact I; exact U.
  - split; intros U; [apply unify_phantom_r in U|apply unify_phantom_l in U]; (destruct U as [U|(x & z & -> & -> & U)]; [exact U|]); f_equal; ug.
  - split; intros U; [apply unify_rigid_r in U|apply unify_rigid_l in U]; try exact I; exact U.
  - split; intros U; [apply unify_rigid_r in U|apply unify_rigid_l in U]; try exact I; exact U.
  - split; intros U; [apply unify_tuple_r in U|apply unify_tuple_l in U]; (destruct U as [U|(x & z & -> & -> & U)]; [exact U|]); f_equal.
    + clear -IH Gd U. revert x z U. induction IH as [|t ts H1 H2 IH]; intros [|x xs] z U; cbn in U; try discriminate U; [now injection U as <-|].
      cbn in Gd. apply andb_true_iff in Gd as [G1 G2]. destruct (unify x t) eqn:E; [|discriminate U]. destruct (utuples xs ts) eqn:F; [|discriminate U]. injection U as <-.
      f_equal; [ug|eapply IH; eauto].
    + clear -IH Gd U. revert x z U. induction IH as [|t ts H1 H2 IH]; intros [|x xs] z U; cbn in U; try discriminate U; [now injection U as <-|].
      cbn in Gd. apply andb_true_iff in Gd as [G1 G2]. destruct (unify t x) eqn:E; [|discriminate U]. destruct (utuples ts xs) eqn:F; [|discriminate U]. injection U as <-.
      f_equal; [ug|eapply IH; eauto].
  - split; intros U; [apply unify_record_r in U|apply unify_record_l in U]; (destruct U as [U|(x & z & -> & -> & U)]; [exact U|]); f_equal.
    + clear -IH Gd U. revert x z U. induction IH as [|[l t] ts H1 H2 IH]; intros [|[m x] xs] z U; cbn in U; try discriminate U; [now injection U as <-|].
      cbn in Gd. apply andb_true_iff in Gd as [G1 G2]. destruct (N.eqb_spec m l) as [->|]; [|discriminate U]. destruct (unify x t) eqn:E; [|discriminate U].
      destruct (ufields xs ts) eqn:F; [|discriminate U]. injection U as <-. f_equal; [f_equal; cbn in H1; ug|eapply IH; eauto].
    + clear -IH Gd U. revert x z U. induction IH as [|[l t] ts H1 H2 IH]; intros [|[m x] xs] z U; cbn in U; try discriminate U; [now injection U as <-|].
      cbn in Gd. apply andb_true_iff in Gd as [G1 G2]. destruct (N.eqb_spec l m) as [->|]; [|discriminate U]. destruct (unify t x) eqn:E; [|discriminate U].
      destruct (ufields ts xs) eqn:F; [|discriminate U]. injection U as <-. f_equal; [f_equal; cbn in H1; ug|eapply IH; eauto].
  - split; intros U; [apply unify_seq_r in U|apply unify_seq_l in U]; (destruct U as [U|(x & z & -> & -> & U)]; [exact U|]); f_equal; ug.
  - split; intros U; [apply unify_option_r in U|apply unify_option_l in U]; (destruct U as [U|(x & z & -> & -> & U)]; [exact U|]); f_equal; ug.
Qed.
Lemma vtype_eqb_refl t : vtype_eqb t t = true.
Proof.
  induction t as [| | |t IH|b0| |w|ts IH|fs IH|fs IH|t IH|t IH] using vtype_ind'; cbn; auto.
  - destruct b0; try reflexivity; destruct w; reflexivity.
  - destruct w; reflexivity.
  - induction IH; cbn; [reflexivity|]. now rewrite H.
  - induction IH as [|[l t] fs H]; cbn; [reflexivity|]. cbn in H. now rewrite N.eqb_refl, H.
  - induction IH as [|[l t] fs H]; cbn; [reflexivity|]. cbn in H. now rewrite N.eqb_refl, H.
Qed.
Lemma covers_ground c d a u : ground d = true -> unify a d = Some u -> covers c d a = IOk tt.
Proof. intros Gd U. unfold covers, guard. rewrite U, (proj1 (unify_ground _ Gd _ _) U), vtype_eqb_refl. now rewrite orb_true_r. Qed.
Lemma unify_comm_ground d : ground d = true -> forall a u, unify d a = Some u -> unify a d = Some d.
Proof.
  induction d as [| | |t IH|b0| |w|ts IH|fs IH|fs IH|t IH|t IH] using vtype_ind'; intros Gd a u U; try discriminate Gd; cbn [ground] in Gd;
    destruct a as [| | |t'|b1| |w'|ts'|fs'|fs'|t'|t']; try discriminate U; try reflexivity.
  - cbn in U |- *. destruct (unify t t') eqn:E; [|discriminate U]. now rewrite (IH Gd _ _ E).
  - destruct (basetype_eqb b0 b1) eqn:E; cbn [unify] in U; rewrite E in U; [|discriminate U]. apply basetype_eqb_true in E. subst. cbn [unify]. enough (basetype_eqb b1 b1 = true) as -> by reflexivity. destruct b1 as [| |w]; try reflexivity. destruct w; reflexivity.
  - cbn [unify] in *. destruct (is_numeric (TBase b0)); [reflexivity|discriminate U].
  - destruct w, w'; cbn in U; try discriminate U; reflexivity.
  - rewrite unify_tuple in *. enough (utuples ts' ts = Some ts) as -> by reflexivity. destruct (utuples ts ts') as [us|] eqn:E; [|discriminate U]. clear U u.
    revert ts' us E. induction IH as [|t ts H1 H2 IH]; intros [|t' ts'] us E; cbn in E; try discriminate E; [reflexivity|].
    apply andb_true_iff in Gd as [G1 G2]. cbn. destruct (unify t t') eqn:E1; [|discriminate E]. destruct (utuples ts ts') eqn:E2; [|discriminate E].
    now rewrite (H1 G1 _ _ E1), (IH G2 _ _ E2).
  - rewrite unify_record in *. enough (ufields fs' fs = Some fs) as -> by reflexivity. destruct (ufields fs fs') as [us|] eqn:E; [|discriminate U]. clear U u.
    revert fs' us E. induction IH as [|[l t] ts H1 H2 IH]; intros [|[m t'] ts'] us E; cbn in E; try discriminate E; [reflexivity|].
    cbn in Gd, H1. apply andb_true_iff in Gd as [G1 G2]. cbn. destruct (N.eqb_spec l m) as [->|]; [|discriminate E]. rewrite N.eqb_refl.
    destruct (unify t t') eqn:E1; [|discriminate E]. destruct (ufields ts ts') eqn:E2; [|discriminate E].
    now rewrite (H1 G1 _ _ E1), (IH G2 _ _ E2).
  - cbn in U |- *. destruct (unify t t') eqn:E; [|discriminate U]. now rewrite (IH Gd _ _ E).
  - cbn in U |- *. destruct (unify t t') eqn:E; [|discriminate U]. now rewrite (IH Gd _ _ E).
Qed.

Definition up (e : expr) : Prop := declared e = true -> forall G, ile (infer_expr false G e) (infer_expr true G e).
Ltac spl := repeat match goal with
  | H : _ && _ = true |- _ => apply andb_true_iff in H; destruct H
  | H : up _ /\ _ |- _ => destruct H
  | H : up ?e, D : declared ?e = true |- _ => pose proof (H D); clear H
  end.
Ltac gou := repeat first
  [ apply ile_refl | apply ile_err | apply ile_panic
  | match goal with H : forall G, ile (infer_expr false G ?e) _ |- ile (infer_expr false _ ?e) _ => apply H end
  | apply ile_bind; [|intros]
  | match goal with |- ile (match ?x with _ => _ end) (match ?x with _ => _ end) => destruct x end ].
Ltac lamu f := destruct f; try apply ile_err; match goal with H : forall x b, ELambda _ _ = ELambda x b -> up b |- _ => apply (H _ _ eq_refl); assumption end.
Lemma forallb_up {A} (f : A -> bool) (P Q : A -> Prop) l : Forall P l -> forallb f l = true -> (forall x, P x -> f x = true -> Q x) -> Forall Q l.
Proof. intros H D K. rewrite forallb_forall in D. rewrite Forall_forall in *. auto. Qed.
Lemma infer_expr_up e : up e /\ forall x b, e = ELambda x b -> up b.
Proof.
  induction e using expr_ind'; (split; [intros D G; cbn [infer_expr]; cbn [declared] in D|intros x0 b0 E0; try discriminate; injection E0 as <- <-; tauto]);
    try discriminate D; spl; try (gou; fail).
  - apply ile_bind; [|intros; apply ile_refl]. apply ile_map. eapply forallb_up; [exact H|exact D|]. intros e [He _] De. apply He, De.
  - apply ile_bind; [|intros; apply ile_refl]. apply ile_map. eapply forallb_up; [exact H|exact D|]. intros [l e] [He _] De. apply ile_bind; [apply He, De|intros; apply ile_refl].
  - apply ile_bind; [|intros; apply ile_refl]. apply ile_fold. eapply forallb_up; [exact H|exact D|]. intros e [He _] De t. apply ile_bind; [apply He, De|intros; apply ile_refl].
  - destruct bs as [|b0 bs]; [apply ile_err|]. apply ile_bind; [gou|]. intros th. apply ile_fold. eapply forallb_up; [exact H|eassumption|].
    intros [p e'] [He _] De t. apply ile_bind; [|intros; apply ile_refl]. apply ile_bind; [apply ile_refl|]. intros. apply He, De.
  - gou. lamu e1.
  - (* flat-map with an accumulator *) apply ile_bind; [apply ile_refl|intros _]. apply ile_bind; [gou|intros te]. apply ile_bind; [apply ile_refl|intros u].
    apply ile_bind; [gou|intros tz]. unfold unify_i at 1 3. destruct (unify tz t) as [acc|] eqn:U; [|apply ile_err]. cbn [ibind of_opt].
    apply ile_bind; [lamu e1|]. intros r. 
    destruct r; try apply ile_err. destruct ts as [|ra [|r2 [|]]]; try apply ile_err; try (destruct r2; apply ile_err). destruct r2; try apply ile_err.
    assert (acc = t) as -> by (eapply (proj1 (unify_ground t ltac:(assumption) _ _)); eassumption). unfold unify_i. destruct (unify ra t) as [w|] eqn:W; [|apply ile_err]. cbn [ibind of_opt].
    rewrite !(covers_ground _ t ra w) by assumption. apply ile_refl.
  - gou. lamu e1.
  - (* fold *) apply ile_bind; [apply ile_refl|intros _]. apply ile_bind; [gou|intros te]. apply ile_bind; [apply ile_refl|intros u].
    apply ile_bind; [gou|intros tz]. unfold unify_i at 1 3. destruct (unify tz t) as [acc|] eqn:U; [|apply ile_err]. cbn [ibind of_opt].
    apply ile_bind; [lamu e1|]. intros r. assert (acc = t) as -> by (eapply (proj1 (unify_ground t ltac:(assumption) _ _)); eassumption). unfold unify_i. destruct (unify r t) as [w|] eqn:W; [|apply ile_err]. cbn [ibind of_opt].
    rewrite !(covers_ground _ t r w) by assumption. apply ile_refl.
Qed.
Lemma infer_lambda_up G f t : declared f = true -> ile (infer_lambda false G f t) (infer_lambda true G f t).
Proof. intros D. destruct f; try apply ile_err. apply infer_expr_up. exact D. Qed.
Lemma check_view_up G v : declared_view v = true -> ile (check_view false G v) (check_view true G v).
Proof.
  induction v; cbn; intros D; [apply ile_refl|]. spl. apply ile_bind; [now apply infer_expr_up|]. intros t. destruct (is_numeric t); [auto|apply ile_err].
Qed.
Section Up.
Context (sigs : list sig) (Hg : Forall (fun sg => forallb ground (sg_args sg) = true) sigs).
Notation decl f := (everywhere (fun g => declared_node g = true) f).
Lemma decl_sub f g : decl f -> (forall h, In h (subs g) -> In h (subs f)) -> decl g.
Proof. intros H K h Hh. apply H. auto. Qed.
Ltac gofu := repeat first
  [ apply ile_refl | apply ile_err | apply ile_panic
  | apply (fun e => proj1 (infer_expr_up e)); assumption | apply infer_lambda_up; assumption | apply check_view_up; assumption
  | match goal with H : decl ?f -> forall G, ile (infer_format false sigs G ?f) _, D : decl _ |- ile (infer_format false sigs _ ?f) _ =>
      apply H; apply (decl_sub _ _ D); intros ? ?; cbn [subs]; right; auto using in_or_app end
  | apply ile_bind; [|intros]
  | match goal with |- ile (match ?x with _ => _ end) (match ?x with _ => _ end) => destruct x end ].
Lemma infer_format_up f : decl f -> forall G, ile (infer_format false sigs G f) (infer_format true sigs G f).
Proof.
  induction f using format_ind'; intros D G; cbn [infer_format]; pose proof (everywhere_self _ _ D) as DN; cbn [declared_node] in DN; spl; try discriminate DN; try (unfold until; gofu; fail).
  - destruct (nth_error sigs l) as [sg|] eqn:E; [|apply ile_panic]. apply nth_error_In in E. rewrite Forall_forall in Hg. specialize (Hg _ E).
    rewrite forallb_forall in Hg, DN. gofu. apply ile_map. apply Forall_forall. intros [ta e] He. pose proof (in_combine_l _ _ _ _ He) as H1. pose proof (in_combine_r _ _ _ _ He) as H2.
    apply ile_bind; [apply infer_expr_up; auto|]. intros t. unfold unify_i. destruct (unify ta t) as [u|] eqn:U; [|apply ile_err]. cbn [ibind of_opt].
    apply unify_comm_ground in U; [|auto]. rewrite !(covers_ground _ ta t ta) by auto. apply ile_refl.
  - apply ile_fold. apply Forall_forall. intros g Hg' t. rewrite Forall_forall in H. apply ile_bind; [|intros; apply ile_refl]. apply H; [exact Hg'|].
    apply (decl_sub _ _ D). intros h Hh. right. apply in_flat_map. eauto.
  - apply ile_fold. apply Forall_forall. intros g Hg' t. rewrite Forall_forall in H. apply ile_bind; [|intros; apply ile_refl]. apply H; [exact Hg'|].
    apply (decl_sub _ _ D). intros h Hh. right. apply in_flat_map. eauto.
  - apply ile_bind; [|intros; apply ile_refl]. apply ile_map. apply Forall_forall. intros g Hg'. rewrite Forall_forall in H. apply H; [exact Hg'|].
    apply (decl_sub _ _ D). intros h Hh. right. apply in_flat_map. eauto.
  - apply ile_bind; [|intros; apply ile_refl]. apply ile_fold. apply Forall_forall. intros g Hg' t. rewrite Forall_forall in H. apply ile_bind; [|intros; apply ile_refl]. apply H; [exact Hg'|].
    apply (decl_sub _ _ D). intros h Hh. right. apply in_flat_map. eauto.
  - destruct bs as [|b0 bs0] eqn:Eb; [apply ile_err|]. rewrite <- Eb in *. clear Eb b0 bs0. apply ile_bind; [now apply infer_expr_up|]. intros th. apply ile_fold. apply Forall_forall.
    intros [p g] Hg' t. rewrite Forall_forall in H. apply ile_bind; [|intros; apply ile_refl]. apply ile_bind; [apply ile_refl|]. intros G'. apply (H _ Hg').
    apply (decl_sub _ _ D). intros h Hh. right. apply in_flat_map. exists (p, g). auto.
  - destruct vf; spl; gofu.
Qed.
End Up.
Lemma define_all_up ds : Forall (fun d => forallb ground (snd d) = true /\ everywhere (fun g => declared_node g = true) (it_format (fst d))) ds ->
  forall sigs sigs', Forall (fun sg => forallb ground (sg_args sg) = true) sigs ->
  define_all false sigs ds = Some sigs' -> define_all true sigs ds = Some sigs' /\ Forall (fun sg => forallb ground (sg_args sg) = true) sigs'.
Proof.
  induction 1 as [|[it tys] ds [H1 H2] H IH]; intros sigs sigs' Hs E; cbn in *; [injection E as <-; auto|].
  unfold define_item in *. destruct (infer_format false sigs _ _) as [t| |] eqn:Et; try discriminate E. rewrite (infer_format_up sigs Hs _ H2 _ _ Et).
  apply IH; [|exact E]. apply Forall_app. split; [exact Hs|]. constructor; [exact H1|constructor].
Qed.

(** ** Compiled formats *)

Section Programs.
Context (bld : fmodule -> list format -> next -> outcome (option mtree)).
Context (eqb : next -> next -> bool) (Heqb : forall a b, eqb a b = true -> a = b).
Lemma program_typed exact ds sigs f T fuel P pfuel input v c es :
  (exact = true -> module_wide (fun g => typed_node g = true) (map fst ds) /\ everywhere (fun g => typed_node g = true) f) ->
  define_all true [] ds = Some sigs -> infer_format true sigs [] f = IOk T ->
  compile_program bld eqb (map fst ds) fuel f = Some (COk P) -> run bld P pfuel (rc_new input) = ROk v c es -> has_type exact v T.
Proof.
  intros He HD HT HP Hr. pose proof (C25_belongs_partial bld eqb Heqb (map fst ds) f fuel P pfuel input v c es HP Hr) as HS.
  eapply (sem_typed exact (map fst ds) false sigs); [| |exact HS| |exact HT|].
  - intros k it Hk. unfold get_item in Hk. rewrite nth_error_map in Hk. destruct (nth_error ds k) as [[it' tys]|] eqn:E; [|discriminate Hk]. injection Hk as <-.
    destruct (define_all_typed _ _ _ _ HD _ _ _ E) as (sg & H1 & H2 & H3 & H4). exists sg. split; [exact H1|]. unfold item_typed. rewrite H2. auto.
  - intros k it Hk X. destruct (He X) as [H1 _]. exact (H1 _ _ Hk).
  - intros X. apply (He X).
  - split; intros x U w H; discriminate H.
Qed.
End Programs.
Lemma accepted_up ds sigs f T : Forall (fun d => forallb ground (snd d) = true) ds ->
  module_wide (fun g => declared_node g = true) (map fst ds) -> everywhere (fun g => declared_node g = true) f ->
  define_all false [] ds = Some sigs -> infer_format false sigs [] f = IOk T ->
  define_all true [] ds = Some sigs /\ infer_format true sigs [] f = IOk T.
Proof.
  intros Hg Hm Hf HD HT. destruct (define_all_up ds) with (sigs := @nil sig) (sigs' := sigs) as [H1 H2]; auto.
  - rewrite Forall_forall in *. intros [it tys] Hd. split; [now apply Hg|]. apply In_nth_error in Hd as (k & Hk). apply (Hm k). unfold get_item. now rewrite nth_error_map, Hk.
  - split; [exact H1|]. now apply infer_format_up.
Qed.
Lemma define_all_down ds : forall sigs sigs', define_all true sigs ds = Some sigs' -> define_all false sigs ds = Some sigs'.
Proof.
  induction ds as [|[it tys] ds IH]; intros sigs sigs' E; cbn in *; [exact E|]. unfold define_item in *.
  destruct (infer_format true sigs _ _) as [t| |] eqn:Et; try discriminate E.
  pose proof (infer_format_le true false ltac:(discriminate) sigs [] (it_format it) _ _ Et) as E'. rewrite app_nil_r in E'. rewrite E'. auto.
Qed.
Lemma accepted_down ds sigs f T : define_all true [] ds = Some sigs -> infer_format true sigs [] f = IOk T ->
  define_all false [] ds = Some sigs /\ infer_format false sigs [] f = IOk T.
Proof.
  intros HD HT. split; [now apply define_all_down|].
  pose proof (infer_format_le true false ltac:(discriminate) sigs [] f _ _ HT) as E. now rewrite app_nil_r in E.
Qed.

(** ** The order of alternatives *)

Definition ufold (t : vtype) (ts : list vtype) : ires vtype := ifoldM unify_i t ts.
Lemma ufold_lub ts : forall t T, wf_type t -> Forall wf_type ts -> ufold t ts = IOk T ->
  wf_type T /\ sub t T /\ Forall (fun u => sub u T) ts /\ forall x, sub t x -> Forall (fun u => sub u x) ts -> sub T x.
Proof.
  induction ts as [|u ts IH]; intros t T Wt Ws E; cbn in E; [injection E as <-; auto using sub_refl|].
  inversion Ws as [|? ? Wu Ws']; subst. apply ibind_ok in E as (r & U & E). unfold unify_i in U. destruct (unify t u) as [r'|] eqn:U'; [|discriminate U]. injection U as ->.
  destruct (unify_ub _ _ _ Wt Wu U') as [A B]. destruct (IH r T) as (W & S1 & S2 & S3); auto; [eapply unify_wf; [| |exact U']; assumption|].
  split; [exact W|]. split; [eapply sub_trans; eauto|]. split; [constructor; [eapply sub_trans; eauto|exact S2]|].
  intros x Sx Fx. inversion Fx; subst. apply S3; [|assumption]. destruct (unify_least t u x) as (r2 & U2 & Sr); auto. congruence.
Qed.
Lemma ufold_some ts : forall t x, wf_type t -> Forall wf_type ts -> sub t x -> Forall (fun u => sub u x) ts -> exists T, ufold t ts = IOk T.
Proof.
  induction ts as [|u ts IH]; intros t x Wt Ws St Fs; cbn; [eauto|]. inversion Ws; inversion Fs; subst.
  destruct (unify_least t u x) as (r & U & Sr); auto. unfold unify_i at 1. rewrite U. cbn [of_opt ibind]. eapply IH; eauto. eapply unify_wf; [| |exact U]; assumption.
Qed.
Lemma ufold_same t ts ts' T : wf_type t -> Forall wf_type ts -> (forall u, In u ts <-> In u ts') -> ufold t ts = IOk T -> ufold t ts' = IOk T.
Proof.
  intros Wt Ws HI E. assert (Ws' : Forall wf_type ts') by (rewrite Forall_forall in *; intros u Hu; apply Ws, HI, Hu).
  destruct (ufold_lub _ _ _ Wt Ws E) as (W & S1 & S2 & S3).
  assert (S2' : Forall (fun u => sub u T) ts') by (rewrite Forall_forall in *; intros u Hu; apply S2, HI, Hu).
  destruct (ufold_some ts' t T) as (T' & E'); auto. rewrite E'. f_equal. destruct (ufold_lub _ _ _ Wt Ws' E') as (W' & S1' & S3' & S4').
  apply sub_antisym; auto. apply S3; [assumption|]. rewrite Forall_forall in *. intros u Hu. apply S3', HI, Hu.
Qed.
Lemma fold_types careful sigs G fs ts : Forall2 (fun f t => infer_format careful sigs G f = IOk t /\ wf_type t) fs ts -> forall t,
  ifoldM (fun t f => ibind (infer_format careful sigs G f) (fun u => unify_i t u)) t fs = ufold t ts.
Proof.
  induction 1 as [|f u fs ts [E W] H IH]; intros t; [reflexivity|]. unfold ufold. cbn [ifoldM]. rewrite E. cbn [ibind]. destruct (unify_i t u); cbn [ibind]; [apply IH|reflexivity|reflexivity].
Qed.
Lemma Forall2_permuted {A B} (R : A -> B -> Prop) l l' : Permutation l l' -> forall m, Forall2 R l m -> exists m', Forall2 R l' m' /\ Permutation m m'.
Proof.
  induction 1 as [|x l l' P IH|x y l|l1 l2 l3 P1 IH1 P2 IH2]; intros m H.
  - inversion H; subst. exists []. auto.
  - inversion H as [|? b ? m0 H1 H2]; subst. destruct (IH _ H2) as (m' & F & P'). exists (b :: m'). auto.
  - inversion H as [|? b ? m0 H1 H2]; subst. inversion H2 as [|? b' ? m1 H3 H4]; subst. exists (b' :: b :: m1). split; [auto|apply perm_swap].
  - destruct (IH1 _ H) as (m' & F & P'). destruct (IH2 _ F) as (m'' & F' & P''). exists m''. split; [exact F'|]. eapply perm_trans; eauto.
Qed.
Lemma union_permuted careful sigs G fs fs' ts T : Forall2 (fun f t => infer_format careful sigs G f = IOk t /\ wf_type t) fs ts -> Permutation fs fs' ->
  (infer_format careful sigs G (FUnion fs) = IOk T <-> infer_format careful sigs G (FUnion fs') = IOk T) /\
  (infer_format careful sigs G (FSequence fs) = IOk T <-> infer_format careful sigs G (FSequence fs') = IOk T).
Proof.
  intros H P. destruct (Forall2_permuted _ _ _ P _ H) as (ts' & H' & P'). cbn [infer_format]. rewrite (fold_types _ _ _ _ _ H), (fold_types _ _ _ _ _ H').
  assert (W : forall fs ts, Forall2 (fun f t => infer_format careful sigs G f = IOk t /\ wf_type t) fs ts -> Forall wf_type ts) by (clear; induction 1; constructor; tauto).
  assert (K : forall T, ufold TAny ts = IOk T <-> ufold TAny ts' = IOk T).
  { intros U. split; apply ufold_same; try exact I; eauto; intros u; split; apply Permutation_in; auto using Permutation_sym. }
  split; [apply K|]. split; intros E; apply ibind_ok in E as (t & Et & E); apply K in Et; rewrite Et; exact E.
Qed.
