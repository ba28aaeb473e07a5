(** C78: the printing of expressions. *)
From Coq Require Import Ascii String DecimalString.
From Verif Require Import Base BoundsModel DataModel NumericModel ValueModel FragModel ShowModel ShowSpec ShowLex ShowFlat ShowProofs.
Open Scope nat_scope.

(** How Rust's [Display] shows numbers *)
Definition decimal (n : N) : text := str (NilZero.string_of_uint (N.to_uint n)).
Definition digit (c : N) : bool := ((48 <=? c) && (c <=? 57))%N.
Lemma digits_empty u : forallb digit (str (NilEmpty.string_of_uint u)) = true.
Proof. induction u; [reflexivity|..]; unfold str in *; cbn [NilEmpty.string_of_uint list_ascii_of_string map forallb]; now rewrite IHu. Qed.
Lemma decimal_digits n : forallb digit (decimal n) = true /\ decimal n <> [].
Proof.
  unfold decimal, NilZero.string_of_uint. pose proof (digits_empty (N.to_uint n)) as H.
  destruct (N.to_uint n) as [|u|u|u|u|u|u|u|u|u|u]; (split; [first [exact H|reflexivity]|discriminate]).
Qed.
Lemma decimal_word n : word (decimal n).
Proof.
  destruct (decimal_digits n) as [D E]. refine (conj E (conj _ _)).
  - rewrite forallb_forall in D |- *. intros c Hc. apply D in Hc. unfold digit in Hc. apply andb_prop in Hc as [H1 H2].
    unfold separator. change (str " (),[]{}.") with [32; 40; 41; 44; 91; 93; 123; 125; 46]%N. cbn [existsb].
    repeat (match goal with |- context[(c =? ?k)%N] => replace (c =? k)%N with false by (symmetry; apply N.eqb_neq; lia) end). reflexivity.
  - intros H. revert D. generalize dependent (decimal n). intros t _ H D.
    assert (K : forallb (fun w => negb (forallb digit w)) reserved = true) by reflexivity.
    rewrite forallb_forall in K. apply K in H. now rewrite D in H.
Qed.

(** What is shown of an expression, its patterns by their text *)
Definition shows (name : label -> text) : expr -> shown := what_is_shown decimal name (pat_text name) cast_word bytes_word.
Lemma shows_printer name : shows name = what_is_shown decimal name (pat_text name) cast_name bytes_name.
Proof. reflexivity. Qed.
(** The text of an expression, on its own *)
Definition expr_text (name : label -> text) (numeric : nexpr -> precedence -> text) (e : expr) : option text :=
  compile_expr decimal name numeric e Top.

(** The relation of precedences is the same read from either side, and only lambda abstractions and
    matches are of one precedence although they are not the same. *)
Theorem C78_relation a b :
  relate b a = match relate a b with Inferior => Superior | Superior => Inferior | r => r end /\
  (relate a b = Congruent <->
   a = b \/ a = Calculus Lambda /\ b = Calculus Match \/ a = Calculus Match /\ b = Calculus Lambda).
Proof.
  split.
  - destruct a as [| |[]|[]|[]|[]|[]|[]|], b as [| |[]|[]|[]|[]|[]|[]|]; reflexivity.
  - split; [|intros [->|[[-> ->]|[-> ->]]]; [destruct b as [| |[]|[]|[]|[]|[]|[]|]|..]; reflexivity].
    destruct a as [| |[]|[]|[]|[]|[]|[]|], b as [| |[]|[]|[]|[]|[]|[]|]; cbn; intros H; (discriminate H || auto).
Qed.
(** Printing does not panic, if the patterns can be shown. Missing: numeric expressions. *)
Theorem C78_total_partial name numeric e : names name e -> exists t, expr_text name numeric e = Some t.
Proof. intros G. eexists. apply (compile_shown decimal name numeric). exact G. Qed.
(** Expressions of the same text show the same, but for the grouping of chains of operators
    of one level. Missing: numeric expressions, and names that are not words. *)
Theorem C78_legible_partial name numeric e e' t : names name e -> names name e' ->
  expr_text name numeric e = Some t -> expr_text name numeric e' = Some t -> Regrouped (shows name e) (shows name e').
Proof. apply (legible decimal name numeric decimal_word). Qed.
(** Exactly these have the same text. *)
Theorem C78_regrouped name numeric e e' : names name e -> names name e' -> Regrouped (shows name e) (shows name e') ->
  expr_text name numeric e = expr_text name numeric e'.
Proof. intros. now apply regrouped_text. Qed.
(** So what is shown can be read off the text, if chains are grouped to the left. *)
Theorem C78_distinct_partial name numeric e e' : names name e -> names name e' ->
  to_the_left (shows name e) = true -> to_the_left (shows name e') = true ->
  expr_text name numeric e = expr_text name numeric e' -> shows name e = shows name e'.
Proof.
  intros G G' L L' E. unfold expr_text in E. rewrite !compile_shown in E by assumption. injection E as E.
  apply (left_inj _ _ Top Top); auto. apply text_inj; auto; now apply proper_flat, (proper_shown _ _ decimal_word).
Qed.
(** This holds inside of other text, too: of the texts of two expressions at any precedences,
    that of an operand included. *)
Theorem C78_operands_partial name numeric e e' p p' t : names name e -> names name e' ->
  compile_expr decimal name numeric e p = Some t -> compile_expr decimal name numeric e' p' = Some t ->
  Regrouped (shows name e) (shows name e').
Proof. apply (legible decimal name numeric decimal_word). Qed.

Definition ex_names (l : label) : text := [97 + l mod 26]%N.
Definition ex_numeric (n : nexpr) (p : precedence) : text := [].
Lemma ex_names_word l : word (ex_names l).
Proof.
  refine (conj _ (conj _ _)); [discriminate| |].
  - unfold ex_names, separator. change (str " (),[]{}.") with [32; 40; 41; 44; 91; 93; 123; 125; 46]%N. cbn [forallb existsb].
    assert (l mod 26 < 26)%N by (apply N.mod_lt; discriminate). generalize dependent (l mod 26)%N. intros c Hc.
    repeat (match goal with |- context[(?c =? ?k)%N] => replace (c =? k)%N with false by (symmetry; apply N.eqb_neq; lia) end).
    destruct (97 + c =? 123)%N eqn:E; [apply N.eqb_eq in E; lia|reflexivity].
  - intros H. unfold ex_names in H. assert (K : forallb (fun w => match w with [c] => (c <? 97)%N | _ => true end) reserved = true) by reflexivity.
    rewrite forallb_forall in K. apply K in H. apply N.ltb_lt in H. lia.
Qed.

(** Grouping is lost where it matters: the differences [9 - (4 - 2)] and [(9 - 4) - 2] have
    the same text and different values. *)
Theorem C78_grouping_refuted : exists e e', names ex_names e /\ names ex_names e' /\
  expr_text ex_names ex_numeric e = Some (str "9 - 4 - 2") /\ expr_text ex_names ex_numeric e' = Some (str "9 - 4 - 2") /\
  eval_value e (@SEmpty unit) = Val (VU B8 7) /\ eval_value e' (@SEmpty unit) = Val (VU B8 3).
Proof.
  exists (EArith ASub (EU B8 9) (EArith ASub (EU B8 4) (EU B8 2))), (EArith ASub (EArith ASub (EU B8 9) (EU B8 4)) (EU B8 2)).
  refine (conj _ (conj _ (conj _ (conj _ (conj _ _))))); [cbn; tauto|cbn; tauto|vm_compute; reflexivity..].
Qed.
(** What is not shown is lost as well: other cases of a [match], with other values. *)
Theorem C78_hidden_refuted : exists e e' t, names ex_names e /\ names ex_names e' /\
  expr_text ex_names ex_numeric e = Some t /\ expr_text ex_names ex_numeric e' = Some t /\
  eval_value e (@SEmpty unit) = Val (VU B8 1) /\ eval_value e' (@SEmpty unit) = Val (VU B8 2).
Proof.
  exists (EMatch (EBool true) [(PWildcard, EU B8 1)]), (EMatch (EBool true) [(PWildcard, EU B8 2)]), (str "match true { ... }").
  refine (conj _ (conj _ (conj _ (conj _ (conj _ _))))); [exact I|exact I|vm_compute; reflexivity..].
Qed.
(** Names that are not words may be taken for something else. *)
Theorem C78_names_refuted : exists name e e' t, expr_text name ex_numeric e = Some t /\ expr_text name ex_numeric e' = Some t /\
  to_the_left (shows name e) = true /\ to_the_left (shows name e') = true /\ shows name e <> shows name e'.
Proof.
  exists (fun l => if (l =? 0)%N then str "1 + 2" else str "x"), (EVar 0%N), (EArith AAdd (EU B8 1) (EU B8 2)), (str "1 + 2").
  refine (conj _ (conj _ (conj _ (conj _ _)))); [vm_compute; reflexivity..|discriminate].
Qed.
(** Destructuring by a pattern of a number cannot be printed at all. *)
Theorem C78_pattern_refuted : exists e, expr_text ex_names ex_numeric e = None /\ eval_value e (@SEmpty unit) = Val (VU B8 1).
Proof. exists (EDestructure (EU B8 5) (PU B8 5) (EU B8 1)). split; vm_compute; reflexivity. Qed.

(** A fold of an abstraction over a range, compared with a product of projections *)
Definition ex_expr : expr :=
  EIntRel RLt
    (EArith AAdd
       (ELeftFold (ELambda 0%N (EArith AMul (ETupleProj (EVar 0%N) 0) (EUnary UIntSucc (ERecordProj (EVar 0%N) 1%N)))) (EU B8 1) TAny
          (EEnumFromTo (EU B8 2) (EDup (EU B8 3) (EVar 4%N))))
       (EArith ADiv (EArith AMul (EVar 1%N) (EVar 2%N)) (EArith AAdd (EVar 3%N) (EU B16 10))))
    (EDestructure (EVar 2%N) (PTuple [PBinding 3%N; PWildcard]) (EArith ABoolAnd (EVar 3%N) (EIntRel REq (ESeq []) (ELiftOption None)))).
Example C78_nonvacuous :
  names ex_names ex_expr /\ to_the_left (shows ex_names ex_expr) = true /\
  expr_text ex_names ex_numeric ex_expr =
  Some (str "left-fold (a -> a.0 * succ (a.b), 1) (2 .. dup (3) e) + (b * c) / (d + 10) < (pat-bind [(d, _) = c] d && ([..] == none))").
Proof.
  refine (conj _ (conj _ _)); [|vm_compute; reflexivity..].
  cbn [names ex_expr]. repeat (first [exact I|apply ex_names_word|split]).
  repeat constructor; try apply ex_names_word.
Qed.

Print Assumptions C78_relation.
Print Assumptions C78_total_partial.
Print Assumptions C78_legible_partial.
Print Assumptions C78_regrouped.
Print Assumptions C78_distinct_partial.
Print Assumptions C78_operands_partial.
Print Assumptions C78_grouping_refuted.
Print Assumptions C78_hidden_refuted.
Print Assumptions C78_names_refuted.
Print Assumptions C78_pattern_refuted.
Print Assumptions C78_nonvacuous.
