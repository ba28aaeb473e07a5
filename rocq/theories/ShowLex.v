(** Reading printed expressions: words, and the sequences of operands and operators. *)
From Coq Require Import Ascii String.
From Verif Require Import Base BoundsModel DataModel NumericModel ValueModel FragModel ShowModel ShowSpec.
Open Scope nat_scope.

(** ** Words and separators *)

Inductive lexeme := W (t : text) | P (c : N).
Definition spell1 (x : lexeme) : text := match x with W t => t | P c => [c] end.
Definition spell (l : list lexeme) : text := flat_map spell1 l.
Fixpoint lex (t : text) : list lexeme :=
  match t with
  | [] => []
  | c :: t => if separator c then P c :: lex t else match lex t with W w :: l => W (c :: w) :: l | l => W [c] :: l end
  end.

Definition wordy (t : text) : Prop := t <> [] /\ forallb (fun c => negb (separator c)) t = true.
Definition apart (l : list lexeme) : Prop := match l with W _ :: _ => False | _ => True end.
Fixpoint wfl (l : list lexeme) : Prop :=
  match l with
  | [] => True
  | W w :: l => wordy w /\ apart l /\ wfl l
  | P c :: l => separator c = true /\ wfl l
  end.

Lemma lex_app_word w t : wordy w -> apart (lex t) -> lex (w ++ t) = W w :: lex t.
Proof.
  induction w as [|c w IH]; intros [H1 H2] H; [now destruct H1|]. cbn [forallb] in H2. apply andb_prop in H2 as [Hc H2].
  cbn [app lex]. destruct (separator c); [discriminate|]. destruct w as [|d w].
  - cbn [app]. destruct (lex t) as [|[|] ?]; [reflexivity|destruct H|reflexivity].
  - rewrite IH; auto. split; [discriminate|assumption].
Qed.
Lemma lex_spell l : wfl l -> lex (spell l) = l.
Proof.
  induction l as [|[w|c] l IH]; intros H; [reflexivity| |].
  - destruct H as (Hw & Ha & H). unfold spell. cbn [flat_map spell1]. rewrite lex_app_word; auto.
    + f_equal. now apply IH.
    + fold (spell l). rewrite IH by assumption. assumption.
  - destruct H as [Hc H]. unfold spell. cbn [flat_map spell1 app lex]. rewrite Hc. f_equal. now apply IH.
Qed.
Lemma spell_lex t : spell (lex t) = t.
Proof.
  induction t as [|c t IH]; [reflexivity|]. cbn [lex]. destruct (separator c); [unfold spell in *; cbn; now rewrite IH|].
  destruct (lex t) as [|[w|d] l]; unfold spell in *; cbn in *; now rewrite <- IH.
Qed.
Lemma wfl_lex t : wfl (lex t).
Proof.
  induction t as [|c t IH]; [exact I|]. cbn [lex]. destruct (separator c) eqn:E; [now split|].
  destruct (lex t) as [|[w|d] l]; cbn [wfl] in *.
  - repeat split; [discriminate|cbn [forallb]; now rewrite E].
  - destruct IH as ([H1 H2] & H3 & H4). repeat split; try assumption; [discriminate|cbn [forallb]; now rewrite E].
  - destruct IH as [H1 H2]. repeat split; try assumption; [discriminate|cbn [forallb]; now rewrite E].
Qed.
Lemma wfl_app a b : wfl a -> wfl b -> apart b -> wfl (a ++ b).
Proof.
  induction a as [|[w|c] a IH]; intros Ha Hb H; [assumption| |].
  - destruct Ha as (H1 & H2 & H3). cbn [app wfl]. refine (conj H1 (conj _ (IH H3 Hb H))).
    destruct a as [|[|] ?]; [exact H|destruct H2|exact I].
  - destruct Ha as (H1 & H2). cbn [app wfl]. exact (conj H1 (IH H2 Hb H)).
Qed.

(** ** Operands and operators *)

Definition sym (o : infix) : text :=
  match o with
  | Range => []
  | Times => [42] | Divide => [47] | Remainder => [37] | ShiftL => [60; 60] | ShiftR => [62; 62]
  | Plus => [43] | Minus => [45] | Concat => [43; 43] | AndB => [38] | OrB => [124] | AndL => [38; 38] | OrL => [124; 124]
  | Equal => [61; 61] | Unequal => [33; 61] | Less => [60] | Greater => [62] | AtMost => [60; 61] | AtLeast => [62; 61]
  end%N.
Definition lexo (o : infix) : list lexeme :=
  match o with Range => [P 32; P 46; P 46; P 32]%N | _ => [P 32%N; W (sym o); P 32%N] end.

Inductive fl :=
| BWord (t : text)
| BHidden (k : hidden)
| BParen (f : fl)
| BVariant (l : text) (f : fl)
| BApply (op : text) (args : list fl) (b : fl)
| FSeq (b : fl) (ps : list text) (rest : list (infix * (fl * list text)))
| FMatch (f : fl)
| FBind (p : text) (f g : fl)
| FArrow (v : text) (f : fl).

Fixpoint size (f : fl) : nat :=
  match f with
  | BWord _ | BHidden _ => 1
  | BParen f | BVariant _ f | FMatch f | FArrow _ f => S (size f)
  | BApply _ args b => S (list_sum (map size args) + size b)
  | FSeq b _ rest => S (size b + list_sum (map (fun x => match x with (_, (c, _)) => size c end) rest))
  | FBind _ f g => S (size f + size g)
  end.

Definition w_match : text := [109; 97; 116; 99; 104]%N.
Definition w_bind : text := [112; 97; 116; 45; 98; 105; 110; 100]%N.
Definition w_arrow : text := [45; 62]%N.
Definition w_assign : text := [58; 61]%N.
Definition w_eq : text := [61]%N.
Definition lexh (k : hidden) : list lexeme :=
  match k with
  | HTuple => [P 40; P 46; P 46; P 46; P 41]
  | HRecord => [P 123; P 32; P 46; P 46; P 46; P 32; P 125]
  | HSeq => [P 91; P 46; P 46; P 93]
  end%N.
Definition lexps (ps : list text) : list lexeme := flat_map (fun w => [P 46%N; W w]) ps.
Fixpoint sepby (ls : list (list lexeme)) : list lexeme :=
  match ls with [] => [] | [l] => l | l :: ls => l ++ P 44%N :: P 32%N :: sepby ls end.
Fixpoint lexf (f : fl) : list lexeme :=
  match f with
  | BWord t => [W t]
  | BHidden k => lexh k
  | BParen f => P 40%N :: lexf f ++ [P 41%N]
  | BVariant l f => P 123%N :: P 32%N :: W l :: P 32%N :: W w_assign :: P 32%N :: lexf f ++ [P 32%N; P 125%N]
  | BApply op args b =>
      W op :: P 32%N :: match args with [] => lexf b | _ => P 40%N :: sepby (map lexf args) ++ P 41%N :: P 32%N :: lexf b end
  | FSeq b ps rest =>
      lexf b ++ lexps ps ++ flat_map (fun x => match x with (o, (c, qs)) => lexo o ++ lexf c ++ lexps qs end) rest
  | FMatch f => W w_match :: P 32%N :: lexf f ++ [P 32; P 123; P 32; P 46; P 46; P 46; P 32; P 125]%N
  | FBind p f g =>
      W w_bind :: P 32%N :: P 91%N :: lex p ++ P 32%N :: W w_eq :: P 32%N :: lexf f ++ P 93%N :: P 32%N :: lexf g
  | FArrow v f => W v :: P 32%N :: W w_arrow :: P 32%N :: lexf f
  end.
Definition lexrest (rest : list (infix * (fl * list text))) : list lexeme :=
  flat_map (fun x => match x with (o, (c, qs)) => lexo o ++ lexf c ++ lexps qs end) rest.

(** Operators before their operand, and which take arguments *)
Definition with_args : list text :=
  map str ["seq-ix"; "sub-seq"; "sub-seq-inflate"; "flat-map"; "flat-map-accum"; "left-fold"; "binary-search"; "linear-search";
           "flat-map-list"; "dup"]%string.
Definition opok (op : text) (args : list fl) : Prop :=
  In op reserved /\ op <> w_match /\ op <> w_bind /\ wordy op /\ (args = [] <-> ~ In op with_args).

Inductive GBase : fl -> Prop :=
| GB_word t : word t -> GBase (BWord t)
| GB_hidden k : GBase (BHidden k)
| GB_paren f : GExp f -> GBase (BParen f)
| GB_variant l f : word l -> GExp f -> GBase (BVariant l f)
| GB_apply op args b : opok op args -> Forall GExp args -> GBase b -> GBase (BApply op args b)
with GExp : fl -> Prop :=
| GE_seq b ps rest : GBase b -> Forall word ps ->
    Forall (fun x => GBase (fst (snd x)) /\ Forall word (snd (snd x))) rest -> GExp (FSeq b ps rest)
| GE_match f : GExp f -> GExp (FMatch f)
| GE_bind p f g : ~ In (W w_eq) (lex p) -> GExp f -> GExp g -> GExp (FBind p f g)
| GE_arrow v f : word v -> GExp f -> GExp (FArrow v f).

Definition stop (r : list lexeme) : Prop :=
  match r with
  | [] => True
  | W _ :: _ => False
  | P c :: l => c <> 46%N /\ (c = 32%N -> match l with [] => True | W _ :: _ => False | P d :: _ => d <> 46%N end)
  end.
Definition nodot (r : list lexeme) : Prop := match r with P c :: _ => c <> 46%N | _ => True end.

Lemma stop_nodot r : stop r -> nodot r.
Proof. destruct r as [|[|] ?]; cbn; tauto. Qed.
Lemma w_match_reserved : In w_match reserved. Proof. left. reflexivity. Qed.
Lemma w_bind_reserved : In w_bind reserved. Proof. right. left. reflexivity. Qed.

Lemma base_first b : GBase b -> exists h l, lexf b = h :: l /\
  match h with W t => t <> w_match /\ t <> w_bind | P c => c <> 46%N /\ c <> 32%N end.
Proof.
  intros H. inversion H as [t Ht|k|f Hf|l f Hl Hf|op args b' Ho Ha Hb]; subst; cbn [lexf].
  - do 2 eexists. split; [reflexivity|]. destruct Ht as (_ & _ & Ht). split; intros ->; apply Ht; [apply w_match_reserved|apply w_bind_reserved].
  - destruct k; do 2 eexists; (split; [reflexivity|]); split; discriminate.
  - do 2 eexists; (split; [reflexivity|]); split; discriminate.
  - do 2 eexists; (split; [reflexivity|]); split; discriminate.
  - do 2 eexists; (split; [reflexivity|]). destruct Ho as (_ & H1 & H2 & _). now split.
Qed.
Lemma exp_first f : GExp f -> exists h l, lexf f = h :: l /\ match h with W t => True | P c => c <> 46%N end.
Proof.
  intros H. inversion H as [b ps rest Hb Hp Hr|g Hg|p f0 g Hp Hf Hg|v g Hv Hg]; subst; cbn [lexf];
    try (do 2 eexists; split; [reflexivity|exact I]).
  destruct (base_first b Hb) as (h & l & E & Hh). rewrite E. do 2 eexists. split; [reflexivity|]. destruct h; tauto.
Qed.

Lemma lexo_inj o o' a b : lexo o ++ a = lexo o' ++ b -> o = o' /\ a = b.
Proof. destruct o, o'; cbn; intros H; try discriminate H; injection H as ->; split; reflexivity. Qed.
Lemma lexo_stop o a : ~ stop (lexo o ++ a).
Proof. destruct o; cbn; intros [_ H]; now apply H. Qed.
Lemma lexo_nodot o a : nodot (lexo o ++ a).
Proof. destruct o; cbn; discriminate. Qed.

Lemma lexps_inj ps ps' r r' : nodot r -> nodot r' -> lexps ps ++ r = lexps ps' ++ r' -> ps = ps' /\ r = r'.
Proof.
  revert ps'. induction ps as [|w ps IH]; intros [|w' ps'] Hr Hr' E; cbn in E.
  - now split.
  - subst r. now destruct Hr.
  - subst r'. now destruct Hr'.
  - injection E as -> E. destruct (IH ps' Hr Hr' E) as [-> ->]. now split.
Qed.
Lemma until_inj (p p' a b : list lexeme) : ~ In (W w_eq) p -> ~ In (W w_eq) p' ->
  p ++ P 32%N :: W w_eq :: a = p' ++ P 32%N :: W w_eq :: b -> p = p' /\ a = b.
Proof.
  revert p'. induction p as [|x p IH]; intros [|y p'] H H' E; cbn [app] in E.
  - injection E as ->. now split.
  - exfalso. injection E as <- E. destruct p' as [|z p']; cbn [app] in E; [discriminate|]. injection E as <- _. apply H'. cbn. auto.
  - exfalso. injection E as -> E. destruct p as [|z p]; cbn [app] in E; [discriminate|]. injection E as -> _. apply H. cbn. auto.
  - injection E as <- E. destruct (IH p') as [-> ->]; auto; [intros K; apply H; now right|intros K; apply H'; now right].
Qed.

Section Step.
Context (n : nat).
Context (IHb : forall f f' r r', size f < n -> GBase f -> GBase f' -> lexf f ++ r = lexf f' ++ r' -> f = f' /\ r = r').
Context (IHe : forall f f' r r', size f < n -> GExp f -> GExp f' -> stop r -> stop r' -> lexf f ++ r = lexf f' ++ r' -> f = f' /\ r = r').

Lemma rest_nodot rest r : stop r -> nodot (lexrest rest ++ r).
Proof.
  destruct rest as [|[o [c qs]] rest]; intros H; [now apply stop_nodot|].
  cbn [lexrest flat_map]. rewrite <- !app_assoc. apply lexo_nodot.
Qed.
Lemma rest_inj rest rest' r r' :
  list_sum (map (fun x : infix * (fl * list text) => match x with (_, (c, _)) => size c end) rest) < n ->
  Forall (fun x => GBase (fst (snd x)) /\ Forall word (snd (snd x))) rest ->
  Forall (fun x => GBase (fst (snd x)) /\ Forall word (snd (snd x))) rest' ->
  stop r -> stop r' -> lexrest rest ++ r = lexrest rest' ++ r' -> rest = rest' /\ r = r'.
Proof.
  revert rest'. induction rest as [|[o [c qs]] rest IH]; intros [|[o' [c' qs']] rest'] Hn G G' S S' E.
  - now split.
  - exfalso. cbn [lexrest flat_map] in E. cbn [app] in E. rewrite <- !app_assoc in E. subst r. now apply lexo_stop in S.
  - exfalso. cbn [lexrest flat_map] in E. cbn [app] in E. rewrite <- !app_assoc in E. subst r'. now apply lexo_stop in S'.
  - cbn [lexrest flat_map] in E. rewrite <- !app_assoc in E.
    apply lexo_inj in E as [-> E]. inversion_clear G as [|? ? [G1 G2] G3]. inversion_clear G' as [|? ? [G1' G2'] G3'].
    cbn [fst snd map list_sum fold_right] in *.
    destruct (IHb c c' _ _ ltac:(lia) G1 G1' E) as [-> E1].
    destruct (lexps_inj qs qs' _ _ (rest_nodot rest r S) (rest_nodot rest' r' S') E1) as [-> E2].
    destruct (IH rest' ltac:(cbn [map list_sum fold_right] in Hn; unfold list_sum; lia) G3 G3' S S' E2) as [-> ->]. now split.
Qed.
Lemma args_inj args args' r r' : args <> [] -> args' <> [] ->
  list_sum (map size args) < n -> Forall GExp args -> Forall GExp args' ->
  sepby (map lexf args) ++ P 41%N :: r = sepby (map lexf args') ++ P 41%N :: r' -> args = args' /\ r = r'.
Proof.
  assert (S1 : forall r, stop (P 41%N :: r)) by (intros; split; discriminate).
  assert (S2 : forall r, stop (P 44%N :: r)) by (intros; split; discriminate).
  revert args'. induction args as [|a args IH]; intros [|a' args'] N N' Hn G G' E; try congruence.
  inversion_clear G as [|? ? G1 G2]. inversion_clear G' as [|? ? G1' G2']. cbn [map list_sum fold_right] in Hn.
  destruct args as [|b args], args' as [|b' args'].
  - cbn [map sepby] in E. destruct (IHe a a' _ _ ltac:(lia) G1 G1' (S1 _) (S1 _) E) as [-> E1]. injection E1 as ->. now split.
  - exfalso. cbn [map sepby] in E. rewrite <- app_assoc in E. cbn [app] in E.
    destruct (IHe a a' _ _ ltac:(lia) G1 G1' (S1 _) (S2 _) E) as [-> E1]. discriminate.
  - exfalso. cbn [map sepby] in E. rewrite <- app_assoc in E. cbn [app] in E.
    destruct (IHe a a' _ _ ltac:(lia) G1 G1' (S2 _) (S1 _) E) as [-> E1]. discriminate.
  - change (sepby (map lexf (a :: b :: args))) with (lexf a ++ P 44%N :: P 32%N :: sepby (map lexf (b :: args))) in E.
    change (sepby (map lexf (a' :: b' :: args'))) with (lexf a' ++ P 44%N :: P 32%N :: sepby (map lexf (b' :: args'))) in E.
    rewrite <- !app_assoc in E. cbn [app] in E.
    destruct (IHe a a' _ _ ltac:(lia) G1 G1' (S2 _) (S2 _) E) as [-> E1]. injection E1 as E1.
    destruct (IH (b' :: args') ltac:(discriminate) ltac:(discriminate) ltac:(unfold list_sum; lia) G2 G2' E1) as [E2 ->].
    rewrite E2. now split.
Qed.

Lemma base_step f f' r r' : size f < S n -> GBase f -> GBase f' -> lexf f ++ r = lexf f' ++ r' -> f = f' /\ r = r'.
Proof.
  assert (S1 : forall r, stop (P 41%N :: r)) by (intros; split; discriminate).
  assert (S3 : forall r, stop (P 32%N :: P 125%N :: r)) by (intros; split; [discriminate|intros _; discriminate]).
  assert (HD : forall f r l, GExp f -> lexf f ++ r = P 46%N :: l -> False).
  { intros g r0 l G E. destruct (exp_first g G) as (h & l0 & E0 & Hh). rewrite E0 in E. injection E as -> _. now apply Hh. }
  intros Hn G G' E.
  inversion G as [t Ht|k|g Hg|l g Hl Hg|op args b Ho Ha Hb]; subst; inversion G' as [t' Ht'|k'|g' Hg'|l' g' Hl' Hg'|op' args' b' Ho' Ha' Hb']; subst;
    cbn [lexf size] in *; try (destruct k; cbn [lexh app] in E); try (destruct k'; cbn [lexh app] in E); cbn [app] in E;
    rewrite <- ?app_assoc in E; try discriminate E; try (injection E as -> ; now split).
  - exfalso. injection E as -> _. destruct Ho' as [Ho' _]. destruct Ht as (_ & _ & Ht). auto.
  - exfalso. injection E as E. symmetry in E. apply HD in E; auto.
  - exfalso. injection E as E. apply HD in E; auto.
  - injection E as E. cbn [app] in E. destruct (IHe g g' _ _ ltac:(lia) Hg Hg' (S1 _) (S1 _) E) as [-> E1]. injection E1 as ->. now split.
  - injection E as -> E. cbn [app] in E. destruct (IHe g g' _ _ ltac:(lia) Hg Hg' (S3 _) (S3 _) E) as [-> E1]. injection E1 as ->. now split.
  - exfalso. injection E as -> _. destruct Ho as [Ho _]. destruct Ht' as (_ & _ & Ht). auto.
  - injection E as -> E. destruct Ho as (_ & _ & _ & _ & Ho). destruct Ho' as (_ & _ & _ & _ & Ho').
    destruct args as [|a args], args' as [|a' args'].
    + destruct (IHb b b' _ _ ltac:(lia) Hb Hb' E) as [-> ->]. now split.
    + exfalso. assert (K : a' :: args' = []) by (apply Ho', Ho; reflexivity). discriminate.
    + exfalso. assert (K : a :: args = []) by (apply Ho, Ho'; reflexivity). discriminate.
    + cbn [app] in E. injection E as E. rewrite <- !app_assoc in E. cbn [app] in E.
      destruct (args_inj (a :: args) (a' :: args') _ _ ltac:(discriminate) ltac:(discriminate) ltac:(unfold list_sum in *; lia) Ha Ha' E) as [-> E1].
      injection E1 as E1. destruct (IHb b b' _ _ ltac:(lia) Hb Hb' E1) as [-> ->]. now split.
Qed.

Lemma seq_not_word b ps rest r t l : GBase b -> word t \/ t = w_match \/ t = w_bind -> stop r ->
  lexf b ++ lexps ps ++ lexrest rest ++ r = W t :: P 32%N :: l ->
  b = BWord t /\ (exists o r', rest <> [] /\ P 32%N :: l = lexo o ++ r') \/ b = BWord t /\ rest = [] /\ ps = [] /\ r = P 32%N :: l.
Proof.
  intros G Ht S E. inversion G as [t' Ht'|k|g Hg|l' g Hl Hg|op args b' Ho Ha Hb]; subst; cbn [lexf app] in E; try discriminate E.
  - injection E as -> E. destruct ps as [|q ps]; [|discriminate E]. cbn [lexps flat_map app] in E.
    destruct rest as [|[o [c qs]] rest].
    + right. now repeat split.
    + left. split; [reflexivity|]. cbn [lexrest flat_map] in E. rewrite <- !app_assoc in E. exists o. eexists. split; [discriminate|]. symmetry. exact E.
  - destruct k; discriminate E.
  - exfalso. injection E as -> _. destruct Ho as (H1 & H2 & H3 & _). destruct Ht as [(_ & _ & Ht)|[Ht|Ht]]; auto.
Qed.
Lemma seq_not_match b ps rest r t l : GBase b -> t = w_match \/ t = w_bind -> lexf b ++ lexps ps ++ lexrest rest ++ r = W t :: l -> False.
Proof.
  intros G Ht E. destruct (base_first b G) as (h & l0 & E0 & Hh). rewrite E0 in E. injection E as -> _. destruct Hh, Ht; auto.
Qed.
Lemma seq_not_arrow b ps rest r v l : GBase b -> word v -> stop r ->
  lexf b ++ lexps ps ++ lexrest rest ++ r = W v :: P 32%N :: W w_arrow :: l -> False.
Proof.
  intros G Hv S E. apply seq_not_word in E as [(-> & o & r' & _ & E)|(_ & _ & _ & ->)]; auto.
  - destruct o; discriminate E.
  - destruct S as [_ S]. now apply S.
Qed.

Lemma lexf_seq b ps rest : lexf (FSeq b ps rest) = lexf b ++ lexps ps ++ lexrest rest. Proof. reflexivity. Qed.
Lemma exp_step f f' r r' : size f < S n -> GExp f -> GExp f' -> stop r -> stop r' -> lexf f ++ r = lexf f' ++ r' -> f = f' /\ r = r'.
Proof.
  assert (S4 : forall r, stop (P 32%N :: P 123%N :: r)) by (intros; split; [discriminate|intros _; discriminate]).
  assert (S5 : forall r, stop (P 93%N :: r)) by (intros; split; discriminate).
  intros Hn G G' S S' E.
  inversion G as [b ps rest Hb Hp Hr|g Hg|p g h Hp Hg Hh|v g Hv Hg]; subst; inversion G' as [b' ps' rest' Hb' Hp' Hr'|g' Hg'|p' g' h' Hp' Hg' Hh'|v' g' Hv' Hg']; subst;
    rewrite ?lexf_seq in E; cbn [lexf size] in *; rewrite <- ?app_assoc in E; cbn [app] in E.
  all: try (exfalso; apply seq_not_match in E; [assumption|assumption|auto]; fail).
  all: try (exfalso; symmetry in E; apply seq_not_match in E; [assumption|assumption|auto]; fail).
  all: try (exfalso; apply seq_not_arrow in E; assumption).
  all: try (exfalso; symmetry in E; apply seq_not_arrow in E; assumption).
  all: try discriminate E.
  - destruct (IHb b b' _ _ ltac:(lia) Hb Hb' E) as [-> E1].
    destruct (lexps_inj ps ps' _ _ (rest_nodot rest r S) (rest_nodot rest' r' S') E1) as [-> E2].
    destruct (rest_inj rest rest' r r' ltac:(lia) Hr Hr' S S' E2) as [-> ->]. now split.
  - injection E as E. rewrite <- !app_assoc in E. cbn [app] in E.
    destruct (IHe g g' _ _ ltac:(lia) Hg Hg' (S4 _) (S4 _) E) as [-> E1]. injection E1 as ->. now split.
  - exfalso. injection E as E _. destruct Hv' as (_ & _ & Hv'). apply Hv'. rewrite <- E. apply w_match_reserved.
  - injection E as E. rewrite <- !app_assoc in E. cbn [app] in E. apply until_inj in E as [Ep E]; [|assumption|assumption]. injection E as E.
    assert (p = p') as -> by (rewrite <- (spell_lex p), <- (spell_lex p'); now rewrite Ep).
    rewrite <- !app_assoc in E. cbn [app] in E. destruct (IHe g g' _ _ ltac:(lia) Hg Hg' (S5 _) (S5 _) E) as [-> E1]. injection E1 as E1.
    destruct (IHe h h' _ _ ltac:(lia) Hh Hh' S S' E1) as [-> ->]. now split.
  - exfalso. injection E as E _. destruct Hv as (_ & _ & Hv). apply Hv. rewrite E. apply w_match_reserved.
  - injection E as -> E. destruct (IHe g g' _ _ ltac:(lia) Hg Hg' S S' E) as [-> ->]. now split.
Qed.
End Step.

Lemma lexf_inj_n n :
  (forall f f' r r', size f < n -> GBase f -> GBase f' -> lexf f ++ r = lexf f' ++ r' -> f = f' /\ r = r') /\
  (forall f f' r r', size f < n -> GExp f -> GExp f' -> stop r -> stop r' -> lexf f ++ r = lexf f' ++ r' -> f = f' /\ r = r').
Proof.
  induction n as [|n [IHb IHe]]; [split; intros; lia|]. split; [now apply base_step|now apply exp_step].
Qed.
Lemma lexf_inj f f' : GExp f -> GExp f' -> lexf f = lexf f' -> f = f'.
Proof.
  intros G G' E. destruct (lexf_inj_n (S (size f))) as [_ H].
  destruct (H f f' [] []) as [H1 _]; cbn; auto. now rewrite !app_nil_r.
Qed.

(** ** The words of a sequence are apart *)
Lemma word_wordy t : word t -> wordy t. Proof. intros (H1 & H2 & _). now split. Qed.
Lemma lexo_wfl o l : wfl l -> wfl (lexo o ++ l).
Proof. intros H. destruct o; cbn [lexo app wfl apart sym]; repeat split; auto; discriminate. Qed.
Lemma lexo_apart o l : apart (lexo o ++ l). Proof. destruct o; exact I. Qed.
Lemma lexps_wfl ps l : Forall word ps -> wfl l -> apart l -> wfl (lexps ps ++ l).
Proof.
  induction ps as [|w ps IH]; intros H Hl Ha; [assumption|]. inversion_clear H as [|? ? H1 H2].
  cbn [lexps flat_map app wfl]. fold (lexps ps). refine (conj eq_refl (conj (word_wordy _ H1) (conj _ (IH H2 Hl Ha)))).
  destruct ps; [exact Ha|exact I].
Qed.
Lemma lexps_apart ps l : apart l -> apart (lexps ps ++ l). Proof. destruct ps; [auto|intros; exact I]. Qed.
Lemma sepby_wfl ls : Forall wfl ls -> wfl (sepby ls).
Proof.
  induction ls as [|l ls IH]; intros H; [exact I|]. inversion_clear H as [|? ? H1 H2]. destruct ls as [|l' ls]; [assumption|].
  change (wfl (l ++ P 44%N :: P 32%N :: sepby (l' :: ls))). apply wfl_app; [assumption| |exact I].
  exact (conj eq_refl (conj eq_refl (IH H2))).
Qed.
Lemma lexf_wfl_n n : forall f, size f < n -> GBase f \/ GExp f -> wfl (lexf f).
Proof.
  induction n as [|n IH]; intros f Hn G; [lia|].
  assert (T : forall l, separator 41%N = true /\ wfl l -> wfl (P 41%N :: l)) by (intros l H; exact H).
  destruct G as [G|G].
  - inversion G as [t Ht|k|g Hg|l g Hl Hg|op args b Ho Ha Hb]; subst; cbn [lexf size] in *.
    + exact (conj (word_wordy _ Ht) (conj I I)).
    + destruct k; cbn; repeat split.
    + refine (conj eq_refl _). apply wfl_app; [apply IH; [lia|auto]|exact (conj eq_refl I)|exact I].
    + refine (conj eq_refl (conj eq_refl (conj (word_wordy _ Hl) (conj I (conj eq_refl (conj _ (conj I (conj eq_refl _)))))))).
      * split; [discriminate|reflexivity].
      * apply wfl_app; [apply IH; [lia|auto]|exact (conj eq_refl (conj eq_refl I))|exact I].
    + destruct Ho as (_ & _ & _ & Hw & _). refine (conj Hw (conj I (conj eq_refl _))). destruct args as [|a args].
      * apply IH; [lia|auto].
      * refine (conj eq_refl _). apply wfl_app; [|refine (conj eq_refl (conj eq_refl _)); apply IH; [lia|auto]|exact I].
        apply sepby_wfl. apply Forall_forall. intros x Hx. apply in_map_iff in Hx as (y & <- & Hy).
        apply IH; [|right; rewrite Forall_forall in Ha; now apply Ha].
        apply in_split in Hy as (l1 & l2 & Hy). rewrite Hy in Hn. rewrite map_app, list_sum_app in Hn. cbn [map list_sum fold_right] in Hn. lia.
  - inversion G as [b ps rest Hb Hp Hr|g Hg|p g h Hp Hg Hh|v g Hv Hg]; subst; rewrite ?lexf_seq; cbn [lexf size] in *.
    + assert (K : wfl (lexrest rest) /\ apart (lexrest rest)).
      { assert (Hn' : list_sum (map (fun x : infix * (fl * list text) => match x with (_, (c, _)) => size c end) rest) < n) by lia.
        clear Hn G. induction rest as [|[o [c qs]] rest IHr]; [split; exact I|]. inversion_clear Hr as [|? ? [H1 H2] H3].
        cbn [map list_sum fold_right] in Hn'. destruct (IHr H3) as [K1 K2]; [unfold list_sum; lia|]. cbn [fst snd] in *.
        cbn [lexrest flat_map]. fold (lexrest rest). rewrite <- !app_assoc. split; [|apply lexo_apart]. apply lexo_wfl.
        apply wfl_app; [apply IH; [lia|auto]|now apply lexps_wfl|now apply lexps_apart]. }
      destruct K as [K1 K2]. apply wfl_app; [apply IH; [lia|auto]|now apply lexps_wfl|now apply lexps_apart].
    + refine (conj _ (conj I (conj eq_refl _))); [split; [discriminate|reflexivity]|].
      apply wfl_app; [apply IH; [lia|auto]|cbn; repeat split|exact I].
    + refine (conj _ (conj I (conj eq_refl (conj eq_refl _)))); [split; [discriminate|reflexivity]|].
      apply wfl_app; [apply wfl_lex| |exact I]. refine (conj eq_refl (conj _ (conj I (conj eq_refl _)))); [split; [discriminate|reflexivity]|].
      apply wfl_app; [apply IH; [lia|auto]| |exact I]. refine (conj eq_refl (conj eq_refl _)). apply IH; [lia|auto].
    + refine (conj (word_wordy _ Hv) (conj I (conj eq_refl (conj _ (conj I (conj eq_refl _)))))); [split; [discriminate|reflexivity]|].
      apply IH; [lia|auto].
Qed.
Lemma text_inj f f' : GExp f -> GExp f' -> spell (lexf f) = spell (lexf f') -> f = f'.
Proof.
  intros G G' E. apply lexf_inj; auto.
  rewrite <- (lex_spell (lexf f)), <- (lex_spell (lexf f')) by (eapply lexf_wfl_n; [apply Nat.lt_succ_diag_r|auto]). now rewrite E.
Qed.
