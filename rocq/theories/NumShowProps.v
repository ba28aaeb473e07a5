(** C79: the printing of numeric expressions. *)
From Coq Require Import Ascii String.
From Verif Require Import Base BoundsModel DataModel NumericModel ValueModel FragModel ShowModel NumShowModel NumShowSpec NumShowTree NumShowLex.
Open Scope nat_scope.

(** Numeric expressions of the same text, down to the representations of constants and
    results, are the same but for the grouping of chains of operators of one level.
    Missing: names that are not plain. *)
Theorem C79_legible_partial name e e' : (forall x y, name x = name y -> x = y) ->
  plain_names name e -> plain_names name e' -> show_expr name e = show_expr name e' -> Regrouped e e'.
Proof. intros I. now apply show_regrouped. Qed.
(** Exactly these have the same text, also as operands. *)
Theorem C79_regrouped name e e' p : Regrouped e e' -> numeric_text name e p = numeric_text name e' p.
Proof. intros R. rewrite <- !texts_toks. f_equal. now apply regrouped_toks. Qed.
(** So an expression can be read off its text, if chains are grouped to the left. *)
Theorem C79_distinct_partial name e e' : (forall x y, name x = name y -> x = y) ->
  plain_names name e -> plain_names name e' -> to_the_left e = true -> to_the_left e' = true ->
  show_expr name e = show_expr name e' -> e = e'.
Proof. intros I. now apply show_left. Qed.
(** Every expression has the text of one that is. *)
Theorem C79_left name e : exists e', Regrouped e e' /\ to_the_left e' = true /\
  forall p, numeric_text name e' p = numeric_text name e p.
Proof.
  exists (canon e). refine (conj _ (conj _ _)).
  - apply NG_sym, absorb_regrouped.
  - apply canon_grouped.
  - intros p. apply C79_regrouped, absorb_regrouped.
Qed.

(** Names for examples: [v] and a number *)
Definition ex_name (l : label) : text := str "v" ++ decimal l.
Lemma ex_name_inj x y : ex_name x = ex_name y -> x = y.
Proof. intros H. apply app_inv_head in H. now apply decimal_inj. Qed.
Lemma ex_name_plain l : plain_name (ex_name l).
Proof.
  unfold ex_name. change (str "v") with [118%N]. refine (conj _ (conj _ (conj _ _))).
  - now exists 118%N, (decimal l).
  - change (forallb (fun c => letter c || digit c) (decimal l) = true).
    destruct (decimal_digits l) as [D _]. rewrite forallb_forall in D |- *. intros c Hc. rewrite (D c Hc). apply orb_true_r.
  - intros H. unfold representations in H. cbn [map In] in H.
    repeat (destruct H as [H|H]; [discriminate H|]). exact H.
  - intros [t H]. discriminate H.
Qed.

(** The grouping is lost, and with it the value. *)
Theorem C79_grouping_refuted : exists e e',
  show_expr ex_name e = str "9i32 - 4i32 - 2i32" /\ show_expr ex_name e' = str "9i32 - 4i32 - 2i32" /\
  neval (fun _ => NErr UnknownVar) e = NOk (TC 3 (Concrete rI32)) /\
  neval (fun _ => NErr UnknownVar) e' = NOk (TC 7 (Concrete rI32)).
Proof.
  exists (NBin NSub None (NBin NSub None (NConst (TC 9 (Concrete rI32))) (NConst (TC 4 (Concrete rI32)))) (NConst (TC 2 (Concrete rI32)))),
         (NBin NSub None (NConst (TC 9 (Concrete rI32))) (NBin NSub None (NConst (TC 4 (Concrete rI32))) (NConst (TC 2 (Concrete rI32))))).
  refine (conj _ (conj _ (conj _ _))); vm_compute; reflexivity.
Qed.
(** The operator [abs] is not set off from its operand: with names of letters alone, the
    absolute value of a variable is shown like another variable. *)
Theorem C79_names_refuted : exists name e e', (forall x y, x <> y -> In x [0; 1]%N -> In y [0; 1]%N -> name x <> name y) /\
  (forall x, forallb letter (name x) = true) /\
  show_expr name e = show_expr name e' /\ e = NUn NAbs None (NVar 0%N) /\ e' = NVar 1%N.
Proof.
  exists (fun l => if (l =? 0)%N then str "x" else str "absx"), (NUn NAbs None (NVar 0%N)), (NVar 1%N).
  refine (conj _ (conj _ (conj _ (conj eq_refl eq_refl)))).
  - intros x y N [<-|[<-|[]]] [<-|[<-|[]]]; try contradiction; vm_compute; discriminate.
  - intros x. destruct (x =? 0)%N; reflexivity.
  - reflexivity.
Qed.

(** Within other expressions, a numeric expression is shown like the operation of the same
    sign on numeric expressions, which cannot be evaluated. *)
Theorem C79_embedded_refuted : exists e e', e <> e' /\
  compile_expr decimal ex_name (numeric_text ex_name) e Top = Some (str "1u8 + 2u8") /\
  compile_expr decimal ex_name (numeric_text ex_name) e' Top = Some (str "1u8 + 2u8") /\
  eval_value e (@SEmpty unit) = Val (VNumeric (TC 3 (Concrete rU8))) /\
  eval_value e' (@SEmpty unit) = Panic.
Proof.
  exists (ENumeric (NBin NAdd None (NConst (TC 1 (Concrete rU8))) (NConst (TC 2 (Concrete rU8))))),
         (EArith AAdd (ENumeric (NConst (TC 1 (Concrete rU8)))) (ENumeric (NConst (TC 2 (Concrete rU8))))).
  refine (conj _ (conj _ (conj _ (conj _ _)))); [discriminate|vm_compute; reflexivity..].
Qed.

(** Prefix operators, casts, representations of results, and all levels of operators *)
Definition ex_numeric_expr : nexpr :=
  NUn NSucc (Some rU8)
    (NUn NPred None
      (NBin NAdd (Some rU32)
        (NBin NSub None
          (NCast rU16 Arithmetic (NUn NNegate None (NUn NAbs None (NVar 0%N))))
          (NBin NMul None (NUn NAbs (Some rI64) (NVar 1%N)) (NBin NRem None (NVar 2%N) (NConst (TC 5 Auto)))))
        (NCast rU8 Bitwise (NCast rI8 Arithmetic (NBin NDiv None (NUn NSucc None (NVar 3%N)) (NConst (TC (-7) (Concrete rI16)))))))).
Example C79_nonvacuous :
  (forall x y, ex_name x = ex_name y -> x = y) /\ plain_names ex_name ex_numeric_expr /\ to_the_left ex_numeric_expr = true /\
  show_expr ex_name ex_numeric_expr =
  str "++u8 --~absv0 as u16 - absi64 v1 * (v2 % 5?) +u32 ((++v3) / -7i16) as i8 as(rust) u8".
Proof.
  refine (conj ex_name_inj (conj _ (conj eq_refl _))); [intros x _; apply ex_name_plain|vm_compute; reflexivity].
Qed.

Print Assumptions C79_legible_partial.
Print Assumptions C79_regrouped.
Print Assumptions C79_distinct_partial.
Print Assumptions C79_left.
Print Assumptions C79_grouping_refuted.
Print Assumptions C79_names_refuted.
Print Assumptions C79_embedded_refuted.
Print Assumptions C79_nonvacuous.
