(** C05: interval arithmetic on [Bounds] (src/bounds.rs) is sound.
    [within b n] says that [n] is one of the numbers [b] stands for; it is what
    [Bounds::contains] computes. *)
From Verif Require Import Base BoundsModel BoundsProofs.
Open Scope N_scope.

Theorem C05_contains b n : bcontains b n = true <->
  bmin b <= n /\ (forall m, bmax b = Some m -> n <= m).
Proof. exact (contains_spec b n). Qed.
Print Assumptions C05_contains.

(** For the arithmetic operators, whenever the 64-bit operation on members does
    not overflow (resp. divide by zero) the result is a member. Subtraction is
    truncated, which covers [x - y] for [y <= x]. *)
Theorem C05_arith a b x y : within a x -> within b y ->
  (x + y < w64 -> within (badd a b) (x + y)) /\
  within (bsub a b) (x - y) /\
  (x * y < w64 -> within (bmul a b) (x * y)) /\
  (y <> 0 -> within (bdiv a b) (x / y)) /\
  (y <> 0 -> exists r, brem a b = Val r /\ within r (x mod y)) /\
  within (bshr a b) (x / 2 ^ y).
Proof. exact (arith_sound a b x y). Qed.
Print Assumptions C05_arith.

Theorem C05_union a b x : within a x \/ within b x -> within (bunion a b) x.
Proof. exact (bunion_sound a b x). Qed.
Print Assumptions C05_union.
(** [clamp] is exactly intersection. *)
Theorem C05_clamp b lo hi : lo <= hi ->
  exists r, bclamp b lo hi = Val r /\
    forall x, (lo <= x <= hi /\ within b x) <-> exists c, r = Some c /\ within c x.
Proof. exact (bclamp_sound b lo hi). Qed.
Print Assumptions C05_clamp.
(** A number of bits becomes the number of bytes that hold them. *)
Theorem C05_bits_to_bytes b x : within b x -> within (bits_to_bytes b) ((x + 7) / 8).
Proof. exact (bits_to_bytes_sound b x). Qed.
Print Assumptions C05_bits_to_bytes.

(** Bitwise or: sound for all bounds below [2^63] ([small])... *)
Theorem C05_bitor_partial a b x y : small a -> small b -> within a x -> within b y ->
  exists r, bbitor a b = Val r /\ within r (N.lor x y).
Proof. exact (bbitor_sound a b x y). Qed.
Print Assumptions C05_bitor_partial.
(** ... and panics for others. *)
Theorem C05_bitor_refuted : exists a b x y, bmin a < w64 /\ bmin b < w64 /\
  within a x /\ within b y /\ x < w64 /\ y < w64 /\ bbitor a b = Panic.
Proof. exact bbitor_refuted. Qed.
Print Assumptions C05_bitor_refuted.

(** Bitwise and: sound when both operands are exact or both are inexact... *)
Theorem C05_bitand_partial a b x y : small a -> small b ->
  (as_exact a = None <-> as_exact b = None) -> within a x -> within b y ->
  exists r, bbitand a b = Val r /\ within r (N.land x y).
Proof. exact (bbitand_sound a b x y). Qed.
Print Assumptions C05_bitand_partial.
(** ... and wrong otherwise: [5 & (0..=255)] is computed to be [0..=0]. *)
Theorem C05_bitand_refuted : exists a b x y, small a /\ small b /\ within a x /\ within b y /\
  exists r, bbitand a b = Val r /\ ~ within r (N.land x y).
Proof. exact bbitand_refuted. Qed.
Print Assumptions C05_bitand_refuted.

(** Left shift: sound when the largest members do not overflow... *)
Theorem C05_shl_partial a b x y : within a x -> within b y -> x * 2 ^ y < w64 -> y < 64 ->
  (forall m1 m2, bmax a = Some m1 -> bmax b = Some m2 -> m1 * 2 ^ m2 < w64) ->
  within (bshl a b) (x * 2 ^ y).
Proof. exact (bshl_sound a b x y). Qed.
Print Assumptions C05_shl_partial.
(** ... and wrong otherwise, even for members that do not overflow. *)
Theorem C05_shl_refuted : exists a b x y, within a x /\ within b y /\ x * 2 ^ y < w64 /\ y < 64 /\
  ~ within (bshl a b) (x * 2 ^ y).
Proof. exact bshl_refuted. Qed.
Print Assumptions C05_shl_refuted.

(** Known operands give known results. *)
Theorem C05_exact x y : x < w64 -> y < w64 ->
  (x + y < w64 -> badd (bexact x) (bexact y) = bexact (x + y)) /\
  (bsub (bexact x) (bexact y) = bexact (x - y)) /\
  (x * y < w64 -> bmul (bexact x) (bexact y) = bexact (x * y)) /\
  (y <> 0 -> bdiv (bexact x) (bexact y) = bexact (x / y)) /\
  (y <> 0 -> brem (bexact x) (bexact y) = Val (bexact (x mod y))) /\
  (y < 64 -> x * 2 ^ y < w64 -> bshl (bexact x) (bexact y) = bexact (x * 2 ^ y)) /\
  (y < 64 -> bshr (bexact x) (bexact y) = bexact (x / 2 ^ y)) /\
  bbitand (bexact x) (bexact y) = Val (bexact (N.land x y)).
Proof. exact (exact_results x y). Qed.
Print Assumptions C05_exact.

Example C05_example :
  let a := bnew 3 10 in let b := bnew 40 47 in
  within a 7 /\ within b 45 /\ small a /\ small b /\
  badd a b = bnew 43 57 /\ bmul a b = bnew 120 470 /\ bdiv b a = bnew 4 15 /\
  bbitor a b = Val (bnew 40 47) /\ bshl a (bnew 1 2) = bnew 6 40 /\
  (as_exact a = None <-> as_exact b = None) /\ bbitand a b = Val (bnew 0 15).
Proof. unfold within, small. vm_compute. intuition congruence. Qed.
