(** Properties C01-C04 and C37: [ByteSet] (src/byte_set.rs and
    src/byte_set/pretty_print.rs).

    [wf s] says that the four words are [u64]s, i.e. that [s] is a value of the
    Rust type; it is not a restriction on the sets a user can build. *)
From Verif Require Import Base ByteSetModel ByteSetProofs ByteSetPrettyProofs.
From Coq Require Import Sorting.Sorted.
Open Scope N_scope.

(** ** C01: the operations are the set operations on {0..255}. *)
Theorem C01_constants b : b < 256 ->
  contains empty b = false /\ contains full b = true /\
  forall c, c < 256 -> (contains (singleton c) b = true <-> b = c).
Proof. exact (constants_spec b). Qed.
Print Assumptions C01_constants.

Theorem C01_insert_remove s b c : b < 256 -> c < 256 ->
  (contains (insert s b) c = true <-> c = b \/ contains s c = true) /\
  (contains (remove s b) c = true <-> c <> b /\ contains s c = true).
Proof. exact (insert_remove_spec s b c). Qed.
Print Assumptions C01_insert_remove.

Theorem C01_algebra s t b : b < 256 ->
  (contains (union s t) b = true <-> contains s b = true \/ contains t b = true) /\
  (contains (intersection s t) b = true <-> contains s b = true /\ contains t b = true) /\
  (contains (difference s t) b = true <-> contains s b = true /\ contains t b = false) /\
  (contains (complement s) b = true <-> contains s b = false).
Proof. exact (algebra_spec s t b). Qed.
Print Assumptions C01_algebra.

(** Equality and disjointness are extensional. *)
Theorem C01_extensional s t : wf s -> wf t ->
  (eqb s t = true <-> forall b, b < 256 -> contains s b = contains t b) /\
  (is_disjoint s t = true <-> ~ exists b, b < 256 /\ contains s b = true /\ contains t b = true).
Proof. exact (extensional_spec s t). Qed.
Print Assumptions C01_extensional.

(** Every operation returns a value of the type again. *)
Theorem C01_closed s t b : wf s -> wf t -> b < 256 ->
  wf empty /\ wf full /\ wf (singleton b) /\ wf (insert s b) /\ wf (remove s b) /\
  wf (union s t) /\ wf (intersection s t) /\ wf (difference s t) /\ wf (complement s).
Proof. exact (closed_spec s t b). Qed.
Print Assumptions C01_closed.

Example C01_example :
  let s := insert (insert empty 7) 200 in
  wf s /\ iter (difference (union s (singleton 65)) (singleton 7)) = [65; 200].
Proof. vm_compute. intuition congruence. Qed.

(** ** C02: observers. *)
Theorem C02_iter s b : In b (iter s) <-> b < 256 /\ contains s b = true.
Proof. exact (in_iter s b). Qed.
Print Assumptions C02_iter.
Theorem C02_iter_increasing s : StronglySorted N.lt (iter s).
Proof. exact (iter_sorted s). Qed.
Print Assumptions C02_iter_increasing.
Theorem C02_len s : len s = N.of_nat (length (iter s)).
Proof. exact (len_iter s). Qed.
Print Assumptions C02_len.
Theorem C02_empty_full s : wf s ->
  (is_empty s = true <-> forall b, b < 256 -> contains s b = false) /\
  (is_full s = true <-> forall b, b < 256 -> contains s b = true).
Proof. exact (fun H => conj (is_empty_spec s H) (is_full_spec s H)). Qed.
Print Assumptions C02_empty_full.
Theorem C02_min s :
  match min_elem s with
  | Some m => m < 256 /\ contains s m = true /\
              forall c, c < 256 -> contains s c = true -> m <= c
  | None => forall c, c < 256 -> contains s c = false
  end.
Proof. exact (min_elem_spec s). Qed.
Print Assumptions C02_min.

(** What the maximum should be. *)
Definition is_max (s : byteset) (r : option N) : Prop :=
  match r with
  | Some m => m < 256 /\ contains s m = true /\
              forall c, c < 256 -> contains s c = true -> c <= m
  | None => forall c, c < 256 -> contains s c = false
  end.
(** [max_elem] is the maximum when some element is at least 192 ... *)
Theorem C02_max_partial s : wf s -> (exists c, 192 <= c < 256 /\ contains s c = true) ->
  is_max s (max_elem s).
Proof. exact (max_elem_partial s). Qed.
Print Assumptions C02_max_partial.
(** ... and is wrong in general: it returns [None] for a non-empty set and an
    absent byte for another one. *)
Theorem C02_max_refuted :
  (exists s, wf s /\ max_elem s = None /\ exists b, b < 256 /\ contains s b = true) /\
  (exists s m, wf s /\ max_elem s = Some m /\ contains s m = false).
Proof. exact max_elem_refuted. Qed.
Print Assumptions C02_max_refuted.
Theorem C02_bounds_refuted : exists s, wf s /\ bounds s = Panic.
Proof. exact bounds_refuted. Qed.
Print Assumptions C02_bounds_refuted.
Theorem C02_span_refuted : exists s, wf s /\ span s = Panic.
Proof. exact span_refuted. Qed.
Print Assumptions C02_span_refuted.

Example C02_example : let s := from_list [9; 250; 100; 9] in
  iter s = [9; 100; 250] /\ len s = 3 /\ min_elem s = Some 9 /\ max_elem s = Some 250.
Proof. vm_compute. intuition reflexivity. Qed.

(** ** C03: conversion from ranges and byte lists; range queries. *)
Theorem C03_range_inclusive lo hi b : lo < 256 -> hi < 256 -> b < 256 ->
  (contains (from_range_incl lo hi) b = true <-> lo <= b <= hi).
Proof. exact (range_incl_spec lo hi b). Qed.
Print Assumptions C03_range_inclusive.
Theorem C03_range lo hi b : lo < 256 -> hi < 256 -> b < 256 ->
  (contains (from_range lo hi) b = true <-> lo <= b < hi).
Proof. exact (range_spec lo hi b). Qed.
Print Assumptions C03_range.
Theorem C03_list l b : Forall (fun x => x < 256) l -> b < 256 ->
  (contains (from_list l) b = true <-> In b l).
Proof. exact (list_spec l b). Qed.
Print Assumptions C03_list.
Theorem C03_contains_range s lo hi : lo < 256 -> hi < 256 ->
  (contains_range s lo hi = true <-> forall c, lo <= c <= hi -> contains s c = true).
Proof. exact (contains_range_spec s lo hi). Qed.
Print Assumptions C03_contains_range.
(** The enclosing range of a member is the maximal run around it. *)
Theorem C03_find_enclosing_range s b : b < 256 ->
  match find_enclosing_range s b with
  | None => contains s b = false
  | Some (lo, hi) =>
      lo <= b <= hi /\ hi < 256 /\ (forall c, lo <= c <= hi -> contains s c = true) /\
      (lo = 0 \/ contains s (lo - 1) = false) /\ (hi = 255 \/ contains s (hi + 1) = false)
  end.
Proof. exact (find_enclosing_range_spec s b). Qed.
Print Assumptions C03_find_enclosing_range.
Example C03_example :
  iter (from_range_incl 62 66) = [62; 63; 64; 65; 66] /\ iter (from_range 5 5) = [] /\
  iter (from_range_incl 9 3) = [] /\
  find_enclosing_range (union (from_range 10 20) (singleton 30)) 15 = Some (10, 19).
Proof. vm_compute. intuition reflexivity. Qed.

(** ** C04: serialization keeps the set. *)
Theorem C04_serialize_denotes s b : b < 256 ->
  match serialize s with
  | Includes l => In b l <-> contains s b = true
  | Excludes l => In b l <-> contains s b = false
  end.
Proof. exact (serialize_spec s b). Qed.
Print Assumptions C04_serialize_denotes.
Theorem C04_serialize_injective s t : wf s -> wf t -> serialize s = serialize t -> s = t.
Proof. exact (serialize_inj s t). Qed.
Print Assumptions C04_serialize_injective.
Example C04_example : serialize (from_list [3; 1]) = Includes [1; 3] /\
  serialize (complement (from_list [3; 1])) = Excludes [1; 3].
Proof. vm_compute. intuition reflexivity. Qed.

(** ** C37: [Display]. Correct under two restrictions, refuted without either. *)
Theorem C37_display_partial s : wf s ->
  (exists c, 192 <= c < 256 /\ contains s c = true) -> contains s 255 = false ->
  exists toks, display s = Val toks /\
    forall b, b < 256 -> (existsb (tok_mem b) toks = true <-> contains s b = true).
Proof. exact (display_partial s). Qed.
Print Assumptions C37_display_partial.
Theorem C37_display_refuted :
  (exists s toks b, wf s /\ display s = Val toks /\ b < 256 /\
     existsb (tok_mem b) toks = true /\ contains s b = false) /\
  (exists s, wf s /\ display s = Panic) /\
  (exists s, wf s /\ (exists c, 192 <= c < 256 /\ contains s c = true) /\ display s = Panic).
Proof. exact display_refuted. Qed.
Print Assumptions C37_display_refuted.
Example C37_example :
  display (union (from_range_incl 0 127) (singleton 201)) = Val [TRange 0 127; TList [201]].
Proof. vm_compute. reflexivity. Qed.
