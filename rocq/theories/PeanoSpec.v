(** Peano numbers on a list of bytes. Nothing here comes from the format. *)
From Verif Require Import Base GzipSpec.
Open Scope nat_scope.

(** A digit is written as that many "S", and "Z". *)
Definition digit_bytes (n : nat) : list N := repeat 83%N n ++ [90%N].
(** Digits in [i..j], at least one *)
Definition Digits (buf : list N) (i j : nat) (ns : list nat) : Prop :=
  ns <> [] /\ Forall (fun n => n <= 9) ns /\ Bytes buf i j (flat_map digit_bytes ns).
