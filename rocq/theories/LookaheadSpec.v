(** What a format followed by a continuation matches. *)
From Verif Require Import Base DataModel NumericModel ValueModel FormatModel MatchTreeModel DecoderModel FormatSpec.
Open Scope nat_scope.

Section Follows.
Context (M : fmodule).
(** In some scope, and with some value, [f] describes the bytes of [buf] from [i]
    to [j]. *)
Definition matched (f : format) (buf : list N) (i j : nat) : Prop := exists s v, Sem M true s f buf i j v.
Fixpoint matched_seq (fs : list format) (buf : list N) (i j : nat) : Prop :=
  match fs with
  | [] => i = j
  | f :: r => exists k, matched f buf i k /\ matched_seq r buf k j
  end.
(** What follows [i] in [buf] begins with something that continuation [n]
    matches. Nothing is known of what comes after the continuation when [open];
    otherwise the input ends there. *)
Fixpoint follows (open : bool) (n : next) (buf : list N) (i : nat) {struct n} : Prop :=
  match n with
  | NEmpty => open = true \/ length buf <= i
  | NUnion a b => follows open a buf i \/ follows open b buf i
  | NCat f n' => exists j, matched f buf i j /\ follows open n' buf j
  | NSequence fs n' => exists j, matched_seq fs buf i j /\ follows open n' buf j
  | NRepeat f n' => exists c j, matched_seq (repeat f c) buf i j /\ follows open n' buf j
  | NRepeatCount k f n' => exists j, matched_seq (repeat f (N.to_nat k)) buf i j /\ follows open n' buf j
  | NRepeatMax k f n' => exists c j, (N.of_nat c <= k)%N /\ matched_seq (repeat f c) buf i j /\ follows open n' buf j
  | NRepeatBetween k l f n' =>
    exists c j, (k <= N.of_nat c <= l)%N /\ matched_seq (repeat f c) buf i j /\ follows open n' buf j
  | NSlice k inside n' =>
    i + N.to_nat k <= length buf /\ follows false inside (firstn (i + N.to_nat k) buf) i /\ follows open n' buf (i + N.to_nat k)
  | NPeek a b => follows open a buf i /\ follows true b buf i
  | NPeekNot a _ => follows open a buf i
  end.
End Follows.
