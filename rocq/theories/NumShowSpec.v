(** When two numeric expressions are shown alike; reviewed without the printer. *)
From Coq Require Import Ascii String.
From Verif Require Import Base BoundsModel DataModel NumericModel FragModel.
Open Scope nat_scope.

(** Operators of one level, whose chains are shown without parentheses *)
Definition chained (o o' : nbinop) : bool :=
  match o, o' with
  | (NAdd | NSub), (NAdd | NSub) => true
  | NMul, NMul => true
  | (NDiv | NRem), (NDiv | NRem) => true
  | _, _ => false
  end.
(** The same but for the grouping of chains of operators of one level *)
Inductive Regrouped : nexpr -> nexpr -> Prop :=
| NG_refl e : Regrouped e e
| NG_sym e f : Regrouped e f -> Regrouped f e
| NG_trans e f g : Regrouped e f -> Regrouped f g -> Regrouped e g
| NG_rotate o u o' u' a b c : chained o o' = true ->
    Regrouped (NBin o' u' (NBin o u a b) c) (NBin o u a (NBin o' u' b c))
| NG_bin o u a a' b b' : Regrouped a a' -> Regrouped b b' -> Regrouped (NBin o u a b) (NBin o u a' b')
| NG_un o u a a' : Regrouped a a' -> Regrouped (NUn o u a) (NUn o u a')
| NG_cast u s a a' : Regrouped a a' -> Regrouped (NCast u s a) (NCast u s a').

(** Chains grouped to the left, as they are usually read when written without parentheses *)
Fixpoint to_the_left (e : nexpr) : bool :=
  match e with
  | NConst _ | NVar _ => true
  | NUn _ _ e | NCast _ _ e => to_the_left e
  | NBin o _ a b =>
      to_the_left a && to_the_left b && match b with NBin o' _ _ _ => negb (chained o o') | _ => true end
  end.

(** Names: letters, digits and underscores, a letter or an underscore first; not the name of
    a representation, nor beginning like the operator [abs] *)
Definition digit (c : N) : bool := ((48 <=? c) && (c <=? 57))%N.
Definition letter (c : N) : bool := ((65 <=? c) && (c <=? 90) || (97 <=? c) && (c <=? 122) || (c =? 95))%N.
Definition representations : list text := map str ["i8"; "i16"; "i32"; "i64"; "u8"; "u16"; "u32"; "u64"]%string.
Definition plain_name (t : text) : Prop :=
  (exists c t', t = c :: t' /\ letter c = true) /\
  forallb (fun c => letter c || digit c) t = true /\
  ~ In t representations /\ ~ exists t', t = str "abs" ++ t'.
(** Expressions with such names for variables *)
Definition plain_names (name : label -> text) (e : nexpr) : Prop :=
  forall x, In x (iter_vars e) -> plain_name (name x).
