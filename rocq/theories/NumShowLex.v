(** The tokens of a shown numeric expression can be told from its text. *)
From Coq Require Import Ascii String.
From Verif Require Import Base BoundsModel DataModel NumericModel FragModel ShowModel NumShowModel NumShowSpec NumShowTree.
Open Scope nat_scope.

Definition wordc (c : N) : bool := letter c || digit c.
Fixpoint strip (a l : text) : option text :=
  match a, l with
  | [], _ => Some l
  | c :: a', d :: l' => if (c =? d)%N then strip a' l' else None
  | _, [] => None
  end.
Lemma strip_app a r : strip a (a ++ r) = Some r.
Proof. induction a as [|c a IH]; [now destruct r|]. cbn [strip app]. now rewrite N.eqb_refl. Qed.
Lemma strip_some a : forall l r, strip a l = Some r -> l = a ++ r.
Proof.
  induction a as [|c a IH]; intros l r H.
  - cbn in H. injection H as ->. reflexivity.
  - destruct l as [|d l]; [discriminate H|]. cbn [strip] in H. destruct (c =? d)%N eqn:E; [|discriminate H].
    apply N.eqb_eq in E. subst d. now rewrite (IH _ _ H).
Qed.

Fixpoint read_among (ms : list mrep) (l : text) : option (mrep * text) :=
  match ms with
  | [] => None
  | m :: ms => match strip (str (rep_name m)) l with Some r => Some (m, r) | None => read_among ms l end
  end.
Definition read_rep : text -> option (mrep * text) := read_among [rI8; rI16; rI32; rI64; rU8; rU16; rU32; rU64].
Lemma read_rep_app m r : read_rep (str (rep_name m) ++ r) = Some (m, r).
Proof. destruct m as [[] []]; reflexivity. Qed.
Lemma read_rep_some l m r : read_rep l = Some (m, r) -> l = str (rep_name m) ++ r.
Proof.
  unfold read_rep. generalize [rI8; rI16; rI32; rI64; rU8; rU16; rU32; rU64].
  induction l0 as [|k ms IH]; cbn [read_among]; [discriminate|].
  destruct (strip (str (rep_name k)) l) as [r'|] eqn:E; [|exact IH].
  intros H. injection H as -> ->. now apply strip_some.
Qed.
Lemma rep_listed m : In (str (rep_name m)) representations.
Proof. destruct m as [[] []]; cbn; tauto. Qed.
(** A representation and a space, if they are there *)
Definition opt_rep (l : text) : option mrep * text :=
  match read_rep l with
  | Some (m, c :: r) => if (c =? 32)%N then (Some m, r) else (None, l)
  | _ => (None, l)
  end.

Fixpoint span (p : N -> bool) (l : text) : text * text :=
  match l with
  | [] => ([], [])
  | c :: l' => if p c then let (a, b) := span p l' in (c :: a, b) else ([], l)
  end.
Definition ends (p : N -> bool) (r : text) : Prop := match r with [] => True | c :: _ => p c = false end.
Lemma span_app p a r : forallb p a = true -> span p (a ++ r) = (a ++ fst (span p r), snd (span p r)).
Proof.
  induction a as [|c a IH]; cbn [forallb app span]; [now destruct (span p r)|].
  intros H. apply andb_prop in H as [H1 H2]. now rewrite H1, IH.
Qed.
Lemma span_ends p r : ends p r -> span p r = ([], r).
Proof. destruct r as [|c r]; [reflexivity|]. cbn. now intros ->. Qed.
Lemma span_join p r : fst (span p r) ++ snd (span p r) = r.
Proof.
  induction r as [|c r IH]; [reflexivity|]. cbn [span]. destruct (p c); [|reflexivity].
  destruct (span p r). cbn [fst snd app] in *. now rewrite IH.
Qed.

Definition un (op : nunop) (r : text) : option (tok * text) := let (o, r') := opt_rep r in Some (TUn op o, r').
Definition binr (op : nbinop) (r : text) : option (tok * text) :=
  match read_rep r with
  | Some (m, r1) => option_map (fun r2 => (TBin op (Some m), r2)) (strip (str " ") r1)
  | None => option_map (fun r2 => (TBin op None, r2)) (strip (str " ") r)
  end.
Definition cast_as (sem : castsem) (r : text) : option (tok * text) :=
  option_map (fun mr => (TAs sem (fst mr), snd mr)) (read_rep r).
Definition lex_const (sign : text) (l : text) : option (tok * text) :=
  let (d, r) := span digit l in
  match strip (str "?") r with
  | Some r' => Some (TConst (sign ++ d) Auto, r')
  | None => option_map (fun mr => (TConst (sign ++ d) (Concrete (fst mr)), snd mr)) (read_rep r)
  end.
Fixpoint lex_among (l : text) (rules : list (string * (text -> option (tok * text)))) : option (tok * text) :=
  match rules with
  | [] => None
  | (s, k) :: rules => match strip (str s) l with Some r => k r | None => lex_among l rules end
  end.
Definition rules : list (string * (text -> option (tok * text))) :=
  [("(", fun r => Some (TOpen, r)); (")", fun r => Some (TClose, r)); ("~", un NNegate); ("++", un NSucc); ("--", un NPred);
   (" as(rust) ", cast_as Bitwise); (" as ", cast_as Arithmetic);
   (" +", binr NAdd); (" -", binr NSub); (" *", binr NMul); (" /", binr NDiv); (" %", binr NRem); ("-", lex_const (str "-"))]%string.
Definition lex1 (l : text) : option (tok * text) :=
  match l with
  | [] => None
  | c :: _ =>
      if letter c then
        let (w, r) := span wordc l in
        match strip (str "abs") w with Some w' => un NAbs (w' ++ r) | None => Some (TVar w, r) end
      else if digit c then lex_const [] l
      else lex_among l rules
  end.

Definition ok (t : tok) (r : text) : Prop :=
  match t with
  | TVar w => plain_name w /\ ends wordc r
  | TUn _ None => opt_rep r = (None, r)
  | TConst w _ => exists z, w = decz z
  | _ => True
  end.

Lemma const_read sign d rep r : forallb digit d = true ->
  lex_const sign (d ++ str (numrep_name rep) ++ r) = Some (TConst (sign ++ d) rep, r).
Proof.
  intros D. unfold lex_const. rewrite (span_app _ _ _ D).
  rewrite span_ends by (destruct rep as [|[[] []]]; reflexivity). cbn [fst snd]. rewrite app_nil_r.
  destruct rep as [|m]; cbn [numrep_name].
  - now rewrite strip_app.
  - replace (strip (str "?") (str (rep_name m) ++ r)) with (@None text) by (destruct m as [[] []]; reflexivity).
    now rewrite read_rep_app.
Qed.
Lemma digit_letter c : digit c = true -> letter c = false.
Proof. unfold digit, letter. lia. Qed.

Lemma lex1_tok t r : ok t r -> lex1 (tok_text t ++ r) = Some (t, r).
Proof.
  destruct t as [| |op out|op out|sem out|w rep|w]; intros H; cbn [tok_text].
  - reflexivity.
  - reflexivity.
  - destruct op, out as [[[] []]|]; reflexivity.
  - destruct out as [m|].
    + destruct op, m as [[] []]; reflexivity.
    + cbn [ok] in H. destruct op.
      * change (un NNegate r = Some (TUn NNegate None, r)). unfold un. now rewrite H.
      * unfold compile_unary_op. cbn [un_token]. unfold lex1. change (str "abs" ++ r) with (97 :: 98 :: 115 :: r)%N at 1.
        cbv beta iota. change (letter 97%N) with true. cbv beta iota. rewrite span_app by reflexivity.
        rewrite strip_app. rewrite span_join. unfold un. now rewrite H.
      * change (un NSucc r = Some (TUn NSucc None, r)). unfold un. now rewrite H.
      * change (un NPred r = Some (TUn NPred None, r)). unfold un. now rewrite H.
  - destruct sem, out as [[] []]; reflexivity.
  - destruct H as [z ->]. unfold decz. rewrite <- app_assoc. destruct (z <? 0)%Z.
    + destruct (decimal_digits (Z.to_N (- z))) as [D N]. destruct (decimal (Z.to_N (- z))) as [|c d] eqn:E; [contradiction|].
      pose proof D as D'. cbn [forallb] in D. apply andb_prop in D as [D1 _].
      pose proof (const_read (str "-") (c :: d) rep r D') as K. rewrite <- app_assoc.
      refine (eq_trans _ K). unfold lex1. change (str "-") with [45%N]. cbn [app].
      change (letter 45%N) with false. change (digit 45%N) with false. cbv beta iota. unfold rules.
      assert (C45 : (45 =? c)%N = false) by (unfold digit in D1; lia).
      repeat (match goal with |- lex_among ?l ((?s, ?k) :: ?rs) = _ =>
        first [ change (lex_among l ((s, k) :: rs)) with (lex_among l rs)
              | cbn [lex_among]; change (str "--") with [45; 45]%N; cbn [strip]; change (45 =? 45)%N with true; cbv beta iota; rewrite C45; cbv beta iota ] end).
      reflexivity.
    + destruct (decimal_digits (Z.to_N z)) as [D N]. destruct (decimal (Z.to_N z)) as [|c d] eqn:E; [contradiction|].
      pose proof D as D'. cbn [forallb] in D. apply andb_prop in D as [D1 _].
      pose proof (const_read [] (c :: d) rep r D') as K.
      refine (eq_trans _ K). cbn [app]. unfold lex1. now rewrite (digit_letter _ D1), D1.
  - destruct H as [[[c [w' [-> L]]] [W [_ A]]] E]. unfold lex1. cbn [app]. rewrite L.
    change (c :: w' ++ r) with ((c :: w') ++ r). rewrite (span_app wordc (c :: w') r W), (span_ends _ _ E). cbn [fst snd].
    rewrite app_nil_r. destruct (strip (str "abs") (c :: w')) as [w|] eqn:S; [|reflexivity].
    apply strip_some in S. destruct A. now exists w.
Qed.

Fixpoint fine (ts : list tok) : Prop :=
  match ts with [] => True | t :: ts => ok t (texts ts) /\ fine ts end.
Lemma texts_inj ts : forall ts', fine ts -> fine ts' -> texts ts = texts ts' -> ts = ts'.
Proof.
  induction ts as [|t ts IH]; intros [|t' ts'] F F' E.
  - reflexivity.
  - destruct F' as [K _]. apply lex1_tok in K. cbn [texts flat_map] in E. fold (texts ts') in E. rewrite <- E in K. discriminate K.
  - destruct F as [K _]. apply lex1_tok in K. cbn [texts flat_map] in E. fold (texts ts) in E. rewrite E in K. discriminate K.
  - destruct F as [K F], F' as [K' F']. apply lex1_tok in K. apply lex1_tok in K'.
    cbn [texts flat_map] in E. fold (texts ts) (texts ts') in E. rewrite E, K' in K. injection K as -> K.
    now rewrite (IH ts' F F' (eq_sym K)).
Qed.

(** ** The tokens of expressions follow each other in a fine way *)
Lemma no_rep_head c l : c <> 105%N -> c <> 117%N -> opt_rep (c :: l) = (None, c :: l).
Proof.
  intros H1 H2. unfold opt_rep. destruct (read_rep (c :: l)) as [[m r]|] eqn:E; [|reflexivity].
  apply read_rep_some in E. exfalso. destruct m as [[] []]; injection E as E _; contradiction.
Qed.
Lemma wrap_or ts p q : wrap ts p q = ts \/ wrap ts p q = TOpen :: ts ++ [TClose].
Proof. unfold wrap. destruct (relate p q); auto. Qed.
Lemma ends_bin op out r : ends wordc (texts (TBin op out :: r)).
Proof. destruct op, out; reflexivity. Qed.
Lemma ends_as sem out r : ends wordc (texts (TAs sem out :: r)).
Proof. destruct sem; reflexivity. Qed.

Lemma name_no_rep w r : plain_name w -> ends wordc r -> opt_rep (w ++ r) = (None, w ++ r).
Proof.
  intros [_ [W [NR _]]] E. unfold opt_rep. destruct (read_rep (w ++ r)) as [[m [|c r1]]|] eqn:K; try reflexivity.
  destruct (c =? 32)%N eqn:C; [|reflexivity]. apply N.eqb_eq in C. subst c. apply read_rep_some in K. exfalso. apply NR.
  assert (S : span wordc (w ++ r) = (w, r)) by (rewrite (span_app wordc w r W), (span_ends wordc r E); cbn; now rewrite app_nil_r).
  assert (S' : span wordc (str (rep_name m) ++ 32%N :: r1) = (str (rep_name m), 32%N :: r1)).
  { rewrite span_app by (destruct m as [[] []]; reflexivity). rewrite span_ends by reflexivity. cbn [fst snd]. now rewrite app_nil_r. }
  rewrite K, S' in S. injection S as <- _. apply rep_listed.
Qed.

Section Fine.
Context (name : label -> text).
Lemma toks_no_rep e : plain_names name e -> forall p r, ends wordc (texts r) ->
  opt_rep (texts (toks name e p ++ r)) = (None, texts (toks name e p ++ r)).
Proof.
  assert (O : forall ts, opt_rep (texts (TOpen :: ts)) = (None, texts (TOpen :: ts))) by (intros ts; now apply no_rep_head).
  induction e as [c|op out l IHl rr IHr|op out e IH|out sem e IH|x]; intros P p r E; cbn [toks].
  - cbn [app texts flat_map tok_text]. rewrite <- app_assoc. unfold decz.
    destruct (tc_val c <? 0)%Z; [now apply no_rep_head|].
    destruct (decimal_digits (Z.to_N (tc_val c))) as [D N]. destruct (decimal _) as [|d ds]; [contradiction|].
    cbn [forallb] in D. apply andb_prop in D as [D _]. cbn [app]. apply no_rep_head; unfold digit in D; lia.
  - destruct (wrap_or (toks name l (bin_prec op) ++ TBin op out :: toks name rr (bin_prec op)) p (bin_prec op)) as [-> | ->].
    + rewrite <- app_assoc. apply IHl; [|apply ends_bin]. intros x Hx. apply P. cbn [iter_vars]. apply in_or_app. now left.
    + apply O.
  - destruct (wrap_or (TUn op out :: toks name e (un_prec op)) p (un_prec op)) as [-> | ->]; [|apply O].
    destruct op, out; now apply no_rep_head.
  - destruct (wrap_or (toks name e CAST ++ [TAs sem out]) p CAST) as [-> | ->]; [|apply O].
    rewrite <- app_assoc. apply IH; [exact P|apply ends_as].
  - cbn [app texts flat_map tok_text]. apply name_no_rep; [|exact E]. apply P. now left.
Qed.

Lemma toks_fine e : plain_names name e -> forall p r, ends wordc (texts r) -> fine r -> fine (toks name e p ++ r).
Proof.
  assert (W : forall ts p q r, ends wordc (texts r) -> fine r ->
    (forall r, ends wordc (texts r) -> fine r -> fine (ts ++ r)) -> fine (wrap ts p q ++ r)).
  { intros ts p q r E F H. destruct (wrap_or ts p q) as [-> | ->]; [now apply H|].
    cbn [app]. split; [exact I|]. rewrite <- app_assoc. apply H; [reflexivity|]. split; [exact I|exact F]. }
  induction e as [c|op out l IHl rr IHr|op out e IH|out sem e IH|x]; intros P p r E F; cbn [toks].
  - split; [|exact F]. now exists (tc_val c).
  - apply W; [exact E|exact F|]. clear r E F. intros r E F. rewrite <- app_assoc.
    apply IHl; [intros x Hx; apply P; cbn [iter_vars]; apply in_or_app; now left|apply ends_bin|].
    cbn [app]. split; [exact I|]. apply IHr; [intros x Hx; apply P; cbn [iter_vars]; apply in_or_app; now right|exact E|exact F].
  - apply W; [exact E|exact F|]. clear r E F. intros r E F. cbn [app]. split; [|now apply IH].
    destruct out; [exact I|]. cbn [ok]. now apply toks_no_rep.
  - apply W; [exact E|exact F|]. clear r E F. intros r E F. rewrite <- app_assoc.
    apply IH; [exact P|apply ends_as|]. split; [exact I|exact F].
  - split; [|exact F]. split; [|exact E]. apply P. now left.
Qed.

Hypothesis name_inj : forall x y, name x = name y -> x = y.
Lemma show_toks e e' : plain_names name e -> plain_names name e' -> show_expr name e = show_expr name e' ->
  toks name e Top = toks name e' Top.
Proof.
  intros P P' E. unfold show_expr in E. rewrite <- !texts_toks in E. apply texts_inj; [..|exact E].
  - rewrite <- (app_nil_r (toks name e Top)). now apply toks_fine.
  - rewrite <- (app_nil_r (toks name e' Top)). now apply toks_fine.
Qed.
Lemma show_regrouped e e' : plain_names name e -> plain_names name e' -> show_expr name e = show_expr name e' -> Regrouped e e'.
Proof. intros P P' E. apply (toks_regrouped name name_inj). now apply show_toks. Qed.
Lemma show_left e e' : plain_names name e -> plain_names name e' -> to_the_left e = true -> to_the_left e' = true ->
  show_expr name e = show_expr name e' -> e = e'.
Proof.
  intros P P' L L' E. apply (show_toks e e' P P') in E. apply (toks_canon name name_inj) in E.
  now rewrite (proj1 (absorb_left e L)), (proj1 (absorb_left e' L')) in E.
Qed.
End Fine.
