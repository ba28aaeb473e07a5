(** Shared imports and a few generic helpers used by every model file. *)
From Coq Require Export List Bool Arith NArith ZArith Lia.
From Coq Require Export ZifyBool ZifyNat ZifyN.
Export ListNotations.
Ltac Zify.zify_post_hook ::= Z.div_mod_to_equations.

(** [2^64], the modulus of Rust's [u64] and (on the modelled 64-bit targets)
    [usize]. *)
Definition w64 : N := 18446744073709551616%N.

(** A Rust computation that may panic. *)
Inductive outcome (A : Type) := Val (a : A) | Panic.
Arguments Val {A} a.
Arguments Panic {A}.
Definition obind {A B} (x : outcome A) (f : A -> outcome B) : outcome B :=
  match x with Val a => f a | Panic => Panic end.
Definition omap {A B} (f : A -> B) (x : outcome A) : outcome B :=
  match x with Val a => Val (f a) | Panic => Panic end.

(** [lo, lo+1, ..., lo+len-1] as [N]s: the iteration order of a Rust integer
    range. *)
Fixpoint nrange (lo : N) (len : nat) : list N :=
  match len with
  | O => []
  | S k => lo :: nrange (lo + 1) k
  end.

Lemma in_nrange x lo len :
  In x (nrange lo len) <-> (lo <= x /\ x < lo + N.of_nat len)%N.
Proof.
  revert lo; induction len as [|k IH]; intros lo; cbn [nrange In].
  - lia.
  - rewrite IH. lia.
Qed.

Lemma length_nrange lo len : length (nrange lo len) = len.
Proof. revert lo; induction len as [|k IH]; intros lo; cbn; [reflexivity|now rewrite IH]. Qed.

Lemma w64_pow : w64 = (2 ^ 64)%N.
Proof. reflexivity. Qed.

Lemma testbit_above x n m : (x < 2 ^ n)%N -> (n <= m)%N -> N.testbit x m = false.
Proof.
  intros Hx Hm. destruct (N.eq_dec x 0) as [->|Hnz]; [apply N.bits_0|].
  apply N.bits_above_log2. apply N.log2_lt_pow2 in Hx; lia.
Qed.

Lemma lt_pow2_bits x n :
  (forall m, (n <= m)%N -> N.testbit x m = false) -> (x < 2 ^ n)%N.
Proof.
  intros H. destruct (N.eq_dec x 0) as [->|Hnz]; [apply N.neq_0_lt_0, N.pow_nonzero; lia|].
  apply N.log2_lt_pow2; [lia|].
  destruct (N.lt_ge_cases (N.log2 x) n) as [Hlt|Hge]; [exact Hlt|].
  specialize (H _ Hge). rewrite N.bit_log2 in H by exact Hnz. discriminate.
Qed.
