(** The text of expressions is that of what is shown of them. *)
From Coq Require Import Ascii String.
From Verif Require Import Base BoundsModel DataModel NumericModel ValueModel ValueProofs FragModel ShowModel ShowSpec ShowLex ShowFlat.
Open Scope nat_scope.

Definition stext (p : precedence) (x : shown) : text := spell (lexf (flat p x)).
Lemma spell_app a b : spell (a ++ b) = spell a ++ spell b.
Proof. unfold spell. now rewrite flat_map_app. Qed.
Lemma spell_W w l : spell (W w :: l) = w ++ spell l. Proof. reflexivity. Qed.
Lemma spell_P c l : spell (P c :: l) = c :: spell l. Proof. reflexivity. Qed.
Lemma lexf_wrap p c f : lexf (wrap p c f) = if wraps p c then P 40%N :: lexf f ++ [P 41%N] else lexf f.
Proof. unfold wrap, paren. destruct (wraps p c); [|reflexivity]. cbn [lexf lexps flat_map]. now rewrite !app_nil_r. Qed.
Lemma spell_wrap p c f : spell (lexf (wrap p c f)) = if wraps p c then str "(" ++ spell (lexf f) ++ str ")" else spell (lexf f).
Proof. rewrite lexf_wrap. destruct (wraps p c); [|reflexivity]. rewrite spell_P, spell_app. reflexivity. Qed.
Lemma cond_paren_some t p c : cond_paren (Some t) p c = Some (if wraps p c then str "(" ++ t ++ str ")" else t).
Proof. unfold cond_paren, wraps. now destruct (relate p c). Qed.

Definition op_text (o : infix) : string :=
  match o with
  | Range => " .. " | Times => " * " | Divide => " / " | Remainder => " % " | ShiftL => " << " | ShiftR => " >> "
  | Plus => " + " | Minus => " - " | Concat => " ++ " | AndB => " & " | OrB => " | " | AndL => " && " | OrL => " || "
  | Equal => " == " | Unequal => " != " | Less => " < " | Greater => " > " | AtMost => " <= " | AtLeast => " >= "
  end.
Lemma spell_lexo o l : spell (lexo o ++ l) = str (op_text o) ++ spell l.
Proof. rewrite spell_app. f_equal. destruct o; reflexivity. Qed.

Definition parens (p c : precedence) (t : text) : text := if wraps p c then str "(" ++ t ++ str ")" else t.
Lemma stext_infix p o x y : stext p (XInfix o x y) = parens p (outer o) (stext (within o) x ++ str (op_text o) ++ stext (within o) y).
Proof.
  unfold stext. rewrite flat_eq, spell_wrap. cbn [cutoff]. unfold parens.
  destruct (body_infix p o x y) as (b & ps & l & c & qs & m & F1 & F2 & K). rewrite K, F1, F2.
  replace (lexf (FSeq b ps (l ++ (o, (c, qs)) :: m))) with (lexf (FSeq b ps l) ++ lexo o ++ lexf (FSeq c qs m)).
  - now rewrite (spell_app (lexf (FSeq b ps l))), spell_lexo.
  - rewrite !lexf_seq. unfold lexrest. rewrite flat_map_app. cbn [flat_map]. now rewrite <- !app_assoc.
Qed.
Lemma stext_proj p x l : stext p (XProj x l) = parens p Projection (stext Projection x ++ str "." ++ l).
Proof.
  unfold stext. rewrite flat_eq, spell_wrap. cbn [cutoff]. unfold parens.
  destruct (body_proj p x l) as (b & ps & F & K). rewrite K, F.
  replace (lexf (FSeq b (ps ++ [l]) [])) with (lexf (FSeq b ps []) ++ [P 46%N; W l]).
  - rewrite spell_app, spell_P, spell_W. cbn [spell flat_map]. now rewrite app_nil_r.
  - rewrite !lexf_seq. unfold lexps, lexrest. rewrite flat_map_app. cbn [flat_map app]. now rewrite !app_nil_r, <- app_assoc.
Qed.
Lemma base_text x : spell (lexf (base_of (flat Atomic x))) = stext Atomic x.
Proof.
  unfold stext. destruct (within_seq x) as (_ & _ & X1 & X2 & X3). destruct (flat Atomic x) as [| | | | |b ps m| | |]; try discriminate X1.
  cbn [rest projs base_of] in *. subst. rewrite lexf_seq. cbn. now rewrite app_nil_r.
Qed.
Fixpoint commas' (ts : list text) : text := match ts with [] => [] | [t] => t | t :: ts => t ++ str ", " ++ commas' ts end.
Lemma sepby_text ls : spell (sepby ls) = commas' (map spell ls).
Proof.
  induction ls as [|l [|l' ls] IH]; [reflexivity|reflexivity|].
  change (sepby (l :: l' :: ls)) with (l ++ P 44%N :: P 32%N :: sepby (l' :: ls)). rewrite spell_app, !spell_P, IH. reflexivity.
Qed.
Lemma commas_some ts : commas (map Some ts) = Some (commas' ts).
Proof.
  induction ts as [|t [|t' ts] IH]; [reflexivity|reflexivity|].
  change (commas (map Some (t :: t' :: ts))) with (Some t +++ lit ", " +++ commas (map Some (t' :: ts))). rewrite IH. reflexivity.
Qed.
Lemma stext_apply p op args x : stext p (XApply op args x) =
  parens p FUN_APPLICATION (op ++ str " " ++ match args with [] => [] | _ => str "(" ++ commas' (map (stext Top) args) ++ str ") " end ++ stext Atomic x).
Proof.
  unfold stext at 1. rewrite flat_eq, spell_wrap. cbn [cutoff body]. unfold parens. rewrite lexf_seq. cbn [lexps lexrest flat_map].
  rewrite !app_nil_r. cbn [lexf]. rewrite spell_W, spell_P.
  replace (spell match map (flat Top) args with
     | [] => lexf (base_of (flat Atomic x))
     | _ :: _ => P 40%N :: sepby (map lexf (map (flat Top) args)) ++ P 41%N :: P 32%N :: lexf (base_of (flat Atomic x)) end)
    with ((match args with [] => [] | _ => str "(" ++ commas' (map (stext Top) args) ++ str ") " end) ++ stext Atomic x).
  - reflexivity.
  - destruct args as [|a args]; [cbn [map app]; symmetry; apply base_text|].
    change (map (flat Top) (a :: args)) with (flat Top a :: map (flat Top) args) at 1. cbv iota.
    rewrite spell_P, spell_app, !spell_P, sepby_text, base_text, !map_map. rewrite <- !app_assoc. reflexivity.
Qed.
Lemma stext_match p x : stext p (XMatch x) = parens p MATCH (str "match " ++ stext MATCH x ++ str " { ... }").
Proof.
  unfold stext at 1. rewrite flat_eq, spell_wrap. cbn [cutoff body lexf]. rewrite spell_W, spell_P, spell_app. reflexivity.
Qed.
Lemma stext_bind p t x y : stext p (XBind t x y) =
  parens p MATCH (str "pat-bind " ++ str "[" ++ t ++ str " = " ++ stext Top x ++ str "] " ++ stext p y).
Proof.
  unfold stext at 1. rewrite flat_eq, spell_wrap. cbn [cutoff body lexf]. rewrite spell_W, !spell_P, spell_app, spell_lex, spell_P, spell_W, spell_P, spell_app, !spell_P.
  reflexivity.
Qed.
Lemma stext_arrow p v x : stext p (XArrow v x) = parens p ARROW (v ++ str " -> " ++ stext ARROW x).
Proof. unfold stext at 1. rewrite flat_eq, spell_wrap. cbn [cutoff body lexf]. rewrite spell_W, spell_P, spell_W, spell_P. reflexivity. Qed.
Lemma wraps_atomic p : wraps p Atomic = false. Proof. destruct p; reflexivity. Qed.
Lemma stext_word p t : stext p (XWord t) = t.
Proof. unfold stext. rewrite flat_eq, spell_wrap. cbn [cutoff body]. rewrite wraps_atomic. cbn. now rewrite !app_nil_r. Qed.
Lemma stext_hidden p k : stext p (XHidden k) = str (match k with HTuple => "(...)" | HRecord => "{ ... }" | HSeq => "[..]" end).
Proof. unfold stext. rewrite flat_eq, spell_wrap. cbn [cutoff body]. rewrite wraps_atomic. destruct k; reflexivity. Qed.
Lemma stext_variant p l x : stext p (XVariant l x) = str "{ " ++ l ++ str " := " ++ stext Top x ++ str " }".
Proof.
  unfold stext at 1. rewrite flat_eq, spell_wrap. cbn [cutoff body]. rewrite wraps_atomic, lexf_seq. cbn [lexps lexrest flat_map]. rewrite !app_nil_r.
  cbn [lexf]. rewrite !spell_P, spell_W, spell_P, spell_W, spell_P, spell_app. reflexivity.
Qed.

Section Show.
Context (dec : N -> text) (name : label -> text) (numeric : nexpr -> precedence -> text).
Context (dec_word : forall n, word (dec n)).

Definition pat_text (p : pattern) : text := match compile_pattern name p with Some t => t | None => [] end.
Notation sh := (what_is_shown dec name pat_text cast_name bytes_name).

Lemma pattern_some p : PatNames name p -> exists l, compile_pattern name p = Some (spell l) /\ wfl l /\ ~ In (W w_eq) l.
Proof.
  assert (K : forall ps, Forall (fun p => PatNames name p -> exists l, compile_pattern name p = Some (spell l) /\ wfl l /\ ~ In (W w_eq) l) ps ->
    Forall (PatNames name) ps -> exists l, commas (map (compile_pattern name) ps) = Some (spell l) /\ wfl l /\ ~ In (W w_eq) l).
  { intros ps IH G. assert (E : exists ls, map (compile_pattern name) ps = map Some (map spell ls) /\ Forall wfl ls /\ Forall (fun l => ~ In (W w_eq) l) ls).
    { induction ps as [|q ps IHp]; [exists []; repeat split; constructor|]. inversion_clear IH as [|? ? I1 I2]. inversion_clear G as [|? ? G1 G2].
      destruct (I1 G1) as (l & E & H1 & H2), (IHp I2 G2) as (ls & Es & Hs1 & Hs2). exists (l :: ls). cbn [map]. rewrite E, Es.
      repeat split; now constructor. }
    destruct E as (ls & E & H1 & H2). exists (sepby ls). rewrite E, commas_some, sepby_text. split; [reflexivity|]. split; [now apply sepby_wfl|].
    clear -H2. induction ls as [|l [|l' ls] IH]; [intros []|inversion_clear H2; assumption|]. inversion_clear H2 as [|? ? A B].
    change (sepby (l :: l' :: ls)) with (l ++ P 44%N :: P 32%N :: sepby (l' :: ls)). intros H.
    apply in_app_or in H as [H|[H|[H|H]]]; [now apply A|discriminate|discriminate|now apply IH]. }
  assert (WD : forall t, word t -> wordy t /\ W w_eq <> W t).
  { intros t (H1 & H2 & H3). split; [now split|]. intros E. injection E as E. apply H3. rewrite <- E. right. right. left. reflexivity. }
  assert (KV : forall w t l, wordy w -> W w_eq <> W w -> t = Some (spell l) -> wfl l -> ~ In (W w_eq) l ->
    exists l', Some w +++ lit "(" +++ t +++ lit ")" = Some (spell l') /\ wfl l' /\ ~ In (W w_eq) l').
  { intros w t l H1 H2 -> H3 H4. exists (W w :: P 40%N :: l ++ [P 41%N]). split; [|split].
    - cbn [joins lit]. rewrite spell_W, spell_P, spell_app. reflexivity.
    - refine (conj H1 (conj I (conj eq_refl _))). apply wfl_app; [assumption|exact (conj eq_refl I)|exact I].
    - intros [H|[H|H]]; [now apply H2|discriminate|]. apply in_app_or in H as [H|[H|[]]]; [now apply H4|discriminate]. }
  induction p as [y| |b|w n|b|z|b|c|ps IH|l p IH|ps IH| |p IH] using pattern_ind'; intros G; inversion G; subst; cbn [compile_pattern].
  - destruct (WD _ H0) as [A B]. exists [W (name y)]. cbn [spell flat_map spell1]. rewrite app_nil_r. repeat split; try apply A. intros [H|[]]. now apply B.
  - exists [W [95%N]]. repeat split; [discriminate|]. intros [H|[]]. discriminate.
  - destruct (K ps IH H0) as (l & E & A & B). exists (P 40%N :: l ++ [P 41%N]). rewrite E. split; [|split].
    + cbn [joins lit]. rewrite spell_P, spell_app. reflexivity.
    + refine (conj eq_refl _). apply wfl_app; [assumption|exact (conj eq_refl I)|exact I].
    + intros [H|H]; [discriminate|]. apply in_app_or in H as [H|[H|[]]]; [now apply B|discriminate].
  - destruct (WD _ H1) as [A B]. destruct (IH H2) as (l' & E & C & D). now apply (KV (name l) _ l').
  - destruct (K ps IH H0) as (l & E & A & B). exists (P 91%N :: l ++ [P 93%N]). rewrite E. split; [|split].
    + cbn [joins lit]. rewrite spell_P, spell_app. reflexivity.
    + refine (conj eq_refl _). apply wfl_app; [assumption|exact (conj eq_refl I)|exact I].
    + intros [H|H]; [discriminate|]. apply in_app_or in H as [H|[H|[]]]; [now apply B|discriminate].
  - exists [W [78; 111; 110; 101]%N]. repeat split; [discriminate|]. intros [H|[]]. discriminate.
  - destruct (IH H0) as (l' & E & C & D). apply (KV (str "Some") _ l'); auto; [split; [discriminate|reflexivity]|discriminate].
Qed.

Lemma compile_shown e : names name e -> forall p, compile_expr dec name numeric e p = Some (stext p (sh e)).
Proof.
  induction e using expr_ind'; intros G pr; cbn [names] in G; try destruct G as [G1 G2]; try destruct G2 as [G2 G3]; cbn [what_is_shown].
  all: try (rewrite stext_word; reflexivity).
  all: try (rewrite stext_hidden; reflexivity).
  all: try (destruct G; fail).
  all: try (destruct r); try (destruct op); rewrite ?stext_proj, ?stext_variant, ?stext_match, ?stext_bind, ?stext_arrow, ?stext_infix, ?stext_apply.
  all: cbn [compile_expr]; rewrite ?IHe, ?IHe1, ?IHe2, ?IHe3 by assumption.
  all: unfold binary_op, prefix_op; cbn [commas joins lit map commas'].
  all: try (destruct (pattern_some p G1) as (l & E & _ & _); unfold pat_text; rewrite E; cbn [joins lit]).
  all: rewrite ?cond_paren_some; unfold parens; cbn [rel_infix arith_infix within outer op_text unary_name];
    rewrite <- ?app_assoc; try reflexivity.
Qed.

Definition sop (op : text) (args : list shown) : Prop :=
  In op reserved /\ op <> w_match /\ op <> w_bind /\ wordy op /\ (args = [] <-> ~ In op with_args).
Inductive SProper : shown -> Prop :=
| SP_word t : word t -> SProper (XWord t)
| SP_hidden k : SProper (XHidden k)
| SP_variant l x : word l -> SProper x -> SProper (XVariant l x)
| SP_proj x l : word l -> SProper x -> SProper (XProj x l)
| SP_apply op args x : sop op args -> Forall SProper args -> SProper x -> SProper (XApply op args x)
| SP_infix o x y : SProper x -> SProper y -> SProper (XInfix o x y)
| SP_match x : SProper x -> SProper (XMatch x)
| SP_bind t x y : ~ In (W w_eq) (lex t) -> SProper x -> SProper y -> SProper (XBind t x y)
| SP_arrow v x : word v -> SProper x -> SProper (XArrow v x).

Lemma GExp_wrap p c f : GExp f -> GExp (wrap p c f).
Proof. intros H. unfold wrap, paren. destruct (wraps p c); [|assumption]. repeat constructor. assumption. Qed.
Lemma proper_flat x : SProper x -> forall p, GExp (flat p x).
Proof.
  induction x as [t|k|l x IH|x l IH|op args x IHa IH|o x y IHx IHy|x IH|t x y IHx IHy|v x IH] using shown_ind'; intros G p; inversion G; subst;
    rewrite flat_eq; apply GExp_wrap.
  - repeat constructor; match goal with H : word _ |- _ => apply H end.
  - repeat constructor.
  - cbn [body]. constructor; [constructor; auto|constructor|constructor].
  - destruct (body_proj p x l) as (b & ps & F & K). rewrite K. pose proof (IH ltac:(assumption) Projection) as Q. rewrite F in Q. inversion_clear Q as [? ? ? Q1 Q2 Q3| | |].
    constructor; auto. apply Forall_app. split; [assumption|constructor; [assumption|constructor]].
  - cbn [body]. constructor; [|constructor|constructor]. constructor.
    + match goal with H : sop _ _ |- _ => destruct H as (A & B & C & D & E) end. refine (conj A (conj B (conj C (conj D _)))). rewrite <- E. destruct args; split; intros K; (discriminate K || reflexivity).
    + apply Forall_forall. intros f Hf. apply in_map_iff in Hf as (a & <- & Ha). match goal with H : Forall SProper args |- _ => rewrite Forall_forall in IHa, H; apply IHa; [exact Ha|now apply H] end.
    + pose proof (IH ltac:(assumption) Atomic) as Q. destruct (within_seq x) as (_ & _ & X1 & _). destruct (flat Atomic x); try discriminate X1. now inversion_clear Q.
  - destruct (body_infix p o x y) as (b & ps & l & c & qs & m & F1 & F2 & K). rewrite K.
    pose proof (IHx ltac:(assumption) (within o)) as Q. pose proof (IHy ltac:(assumption) (within o)) as Q'. rewrite F1 in Q. rewrite F2 in Q'.
    inversion_clear Q as [? ? ? A1 A2 A3| | |]. inversion_clear Q' as [? ? ? B1 B2 B3| | |]. constructor; auto.
    apply Forall_app. split; [assumption|]. constructor; [now split|assumption].
  - cbn [body]. constructor. now apply IH.
  - cbn [body]. constructor; auto.
  - cbn [body]. constructor; auto.
Qed.

Ltac not_in := let H := fresh in intros H; vm_compute in H; repeat (destruct H as [H|H]; [discriminate H|]); destruct H.
Ltac is_in := vm_compute; repeat (first [left; reflexivity|right]).
Ltac op_ok := refine (conj _ (conj _ (conj _ (conj _ _)))); [is_in|discriminate|discriminate|split; [discriminate|reflexivity]|];
  split; [first [discriminate|intros _; not_in]|first [intros _; reflexivity|let H := fresh in intros H; exfalso; apply H; is_in]].
Lemma proper_shown e : names name e -> SProper (sh e).
Proof.
  induction e using expr_ind'; intros G; cbn [names] in G; try destruct G as [G1 G2]; try destruct G2 as [G2 G3]; cbn [what_is_shown];
    try (constructor; auto; fail).
  - constructor. exact (conj G1 (conj G2 G3)).
  - constructor. destruct b; (refine (conj _ (conj _ _)); [discriminate|reflexivity|not_in]).
  - destruct G.
  - constructor; auto. destruct (pattern_some p G1) as (l & E & A & B). unfold pat_text. rewrite E, lex_spell; assumption.
  - destruct op; constructor; auto; op_ok.
  - destruct w; constructor; auto; op_ok.
  - constructor; auto; op_ok.
  - destruct be, w; constructor; auto; op_ok.
  - constructor; auto; op_ok.
  - constructor; auto; op_ok.
  - constructor; auto; op_ok.
  - constructor; auto; op_ok.
  - constructor; auto; op_ok.
  - constructor; auto; op_ok.
  - constructor; auto; op_ok.
  - destruct b; constructor; auto; op_ok.
  - constructor; auto; op_ok.
  - constructor; auto; op_ok.
  - constructor. refine (conj _ (conj _ _)); [discriminate|reflexivity|not_in].
  - constructor; auto; op_ok.
Qed.

Lemma legible e e' p p' t : names name e -> names name e' ->
  compile_expr dec name numeric e p = Some t -> compile_expr dec name numeric e' p' = Some t -> Regrouped (sh e) (sh e').
Proof.
  intros G G' E E'. rewrite compile_shown in E by assumption. rewrite compile_shown in E' by assumption. injection E as E. injection E' as E'.
  apply (flat_regrouped _ _ p p'). apply text_inj; try (apply proper_flat; now apply proper_shown). unfold stext in *. congruence.
Qed.
Lemma regrouped_text e e' p : names name e -> names name e' -> Regrouped (sh e) (sh e') ->
  compile_expr dec name numeric e p = compile_expr dec name numeric e' p.
Proof.
  intros G G' R. rewrite !compile_shown by assumption. unfold stext. now rewrite (proj2 (regrouped_flat _ _ R)).
Qed.
End Show.
