(** C07 (cursors), C08 (lazy sequences), C09/C10 (key search), C11
    (back-references), C32 (non-fatal errors). *)
From Coq Require Import String.
From Verif Require Import Base DataModel DataProofs.

(** ** C07: [ReadCtxt] (src/read.rs). [rc_wf] is the invariant offset <= length,
    which holds for [ReadCtxt::new] and is kept by every operation. *)
Theorem C07_new l : rc_wf (rc_new l).
Proof. exact (Nat.le_0_l _). Qed.
Print Assumptions C07_new.
Theorem C07_read_byte c :
  match rc_read_byte c with
  | Some (b, c') => rinput c' = rinput c /\ roff c' = roff c + 1 /\ rc_wf c' /\
                    skipn (roff c) (rinput c) = b :: skipn (roff c') (rinput c)
  | None => length (rinput c) <= roff c
  end.
Proof. exact (read_byte_spec c). Qed.
Print Assumptions C07_read_byte.
(** [read_u16be], [read_u32be], [read_u64be]: sz = 2, 4, 8. *)
Theorem C07_read_be sz c :
  match rc_read_be sz c with
  | Some (v, c') => rinput c' = rinput c /\ roff c' = roff c + sz /\ rc_wf c' /\
      exists bs, length bs = sz /\ skipn (roff c) (rinput c) = bs ++ skipn (roff c') (rinput c) /\
        v = from_be_bytes bs
  | None => length (rinput c) < roff c + sz
  end.
Proof. exact (read_be_spec sz c). Qed.
Print Assumptions C07_read_be.
(** What [from_be_bytes] means: it fits the width, and digit [i] in base 256,
    counted from the least significant, is byte [i] from the end. *)
Theorem C07_big_endian l : Forall (fun b => (b < 256)%N) l ->
  (from_be_bytes l < 256 ^ N.of_nat (length l))%N /\
  forall i b, nth_error (rev l) i = Some b ->
    (from_be_bytes l / 256 ^ N.of_nat i mod 256 = b)%N.
Proof. exact (big_endian_spec l). Qed.
Print Assumptions C07_big_endian.
Theorem C07_seek c n :
  match rc_seek_to c n with
  | Some c' => rinput c' = rinput c /\ N.of_nat (roff c') = n /\ rc_wf c'
  | None => (N.of_nat (length (rinput c)) < n)%N
  end.
Proof. exact (seek_spec c n). Qed.
Print Assumptions C07_seek.
(** Splitting, as long as offset + n does not overflow a [usize]. *)
Theorem C07_split_partial c n : (N.of_nat (roff c) + n < w64)%N ->
  exists r, rc_split_at c n = Val r /\
  match r with
  | Some (fst_, snd_) =>
      rinput snd_ = rinput c /\ roff fst_ = roff c /\
      N.of_nat (roff snd_) = (N.of_nat (roff c) + n)%N /\ rc_wf snd_ /\
      length (rinput fst_) = roff snd_ /\
      rinput c = rinput fst_ ++ skipn (roff snd_) (rinput c)
  | None => (N.of_nat (length (rinput c)) < N.of_nat (roff c) + n)%N
  end.
Proof. exact (split_spec c n). Qed.
Print Assumptions C07_split_partial.
(** Without that restriction the split panics, or, compiled without overflow
    checks, succeeds although [n] bytes are not available. *)
Theorem C07_split_refuted :
  exists c n, rc_wf c /\ (n < w64)%N /\ rc_split_at c n = Panic /\
    exists p, rc_split_at_wrapping c n = Some p /\ (N.of_nat (length (rinput c)) < n)%N.
Proof. exact split_refuted. Qed.
Print Assumptions C07_split_refuted.
Theorem C07_remaining c : rc_wf c ->
  rc_remaining c = Val (skipn (roff c) (rinput c)) /\
  rinput (rc_skip_remainder c) = rinput c /\ rc_wf (rc_skip_remainder c) /\
  skipn (roff (rc_skip_remainder c)) (rinput c) = [].
Proof. exact (remaining_all_spec c). Qed.
Print Assumptions C07_remaining.
Example C07_example : let c := RC [1; 2; 3; 4; 5]%N 1 in
  rc_wf c /\ rc_read_be 2 c = Some (515%N, RC [1; 2; 3; 4; 5]%N 3) /\ rc_read_be 8 c = None /\
  rc_split_at c 3 = Val (Some (RC [1; 2; 3; 4]%N 1, RC [1; 2; 3; 4; 5]%N 4)).
Proof. unfold rc_wf. vm_compute. repeat split. lia. Qed.

(** ** C08: [SeqKind]. [sk_to_list] is [into_vec] / iteration. *)
Theorem C08_observers {A} (s : seqkind A) i :
  sk_len s = length (sk_to_list s) /\
  (sk_is_empty s = true <-> sk_to_list s = []) /\
  sk_get s i = nth_error (sk_to_list s) i.
Proof. exact (conj (sk_len_spec s) (conj (sk_is_empty_spec s) (sk_get_spec s i))). Qed.
Print Assumptions C08_observers.
Theorem C08_dup {A} n (x : A) : sk_to_list (Dup n x) = repeat x n.
Proof. exact eq_refl. Qed.
Print Assumptions C08_dup.
Theorem C08_sub_seq {A} (s : seqkind A) start len :
  match sk_sub_seq s start len with
  | Val r => start + len <= length (sk_to_list s) /\
             sk_to_list r = firstn len (skipn start (sk_to_list s))
  | Panic => length (sk_to_list s) < start + len
  end.
Proof. exact (sk_sub_seq_spec s start len). Qed.
Print Assumptions C08_sub_seq.
Theorem C08_append {A} (s t : seqkind A) :
  sk_to_list (sk_append s t) = sk_to_list s ++ sk_to_list t.
Proof. exact (sk_append_spec s t). Qed.
Print Assumptions C08_append.
(** The lazily represented integer range is different: taking the whole of it,
    or any part that reaches its end, panics. *)
Theorem C08_sub_range_refuted : exists lo hi start len,
  start + len <= length (seq lo (hi - lo)) /\ sub_range lo hi start len = Panic.
Proof. exact sub_range_refuted. Qed.
Print Assumptions C08_sub_range_refuted.
Theorem C08_sub_range_partial lo hi start len :
  match sub_range lo hi start len with
  | Val (a, b) => seq a (b - a) = firstn len (skipn start (seq lo (hi - lo)))
  | Panic => length (seq lo (hi - lo)) <= start + len
  end.
Proof. exact (sub_range_spec lo hi start len). Qed.
Print Assumptions C08_sub_range_partial.
Example C08_example :
  sk_sub_seq (Dup 5 7) 1 3 = Val (Dup 3 7) /\ sk_sub_seq (Strict [7;7;7;7;7]) 3 3 = Panic /\
  sk_append (Dup 2 1) (Strict [4]) = Strict [1; 1; 4].
Proof. vm_compute. repeat split. Qed.

(** ** C09: binary search. [key i] is the key of element [i] of a sequence of
    [len] elements, [num] its numeric value, [q] the query; [cmp k] compares the
    query with [k]. No assumption on the order of the keys for safety. *)
Theorem C09_sorted_search_safe {K} (num : K -> N) (q : N) (cmp : K -> outcome comparison)
    (key : nat -> outcome K) (kv : nat -> K) (len : nat) :
  (forall k, cmp k = Val (q ?= num k)%N) -> (forall i, i < len -> key i = Val (kv i)) ->
  exists r, find_sorted cmp len key = Some (Val r) /\
    (forall i, r = Some i -> i < len /\ num (kv i) = q).
Proof. exact (find_sorted_safe num q cmp key kv len). Qed.
Print Assumptions C09_sorted_search_safe.
Theorem C09_sorted_search_complete {K} (num : K -> N) (q : N) (cmp : K -> outcome comparison)
    (key : nat -> outcome K) (kv : nat -> K) (len : nat) :
  (forall k, cmp k = Val (q ?= num k)%N) -> (forall i, i < len -> key i = Val (kv i)) ->
  (forall i j, i <= j -> j < len -> (num (kv i) <= num (kv j))%N) ->
  forall i, i < len -> num (kv i) = q ->
  exists j, find_sorted cmp len key = Some (Val (Some j)) /\ j < len /\ num (kv j) = q.
Proof. exact (sorted_search_complete num q cmp key kv len). Qed.
Print Assumptions C09_sorted_search_complete.
(** A key access outside [0..len) would be a [Panic] here, and is not made. *)
Example C09_example :
  let l := [2; 3; 5; 7; 7; 11]%N in
  let key i := match nth_error l i with Some k => Val k | None => Panic end in
  find_sorted (fun k => Val (7 ?= k)%N) 6 key = Some (Val (Some 4)) /\
  find_sorted (fun k => Val (6 ?= k)%N) 6 key = Some (Val None).
Proof. vm_compute. repeat split. Qed.

(** ** C10: linear search. *)
Theorem C10_unsorted_search {K V} (num : K -> N) (q : N) (eqk : K -> outcome bool)
    (ev : V -> outcome K) (kv : V -> K) (l : list V) :
  (forall k, eqk k = Val (q =? num k)%N) -> (forall v, In v l -> ev v = Val (kv v)) ->
  exists r, find_unsorted eqk ev 0 l = Val r /\
  match r with
  | Some i => exists v, nth_error l i = Some v /\ num (kv v) = q /\
                forall j v', j < i -> nth_error l j = Some v' -> num (kv v') <> q
  | None => forall v, In v l -> num (kv v) <> q
  end.
Proof. exact (unsorted_search_spec num q eqk ev kv l). Qed.
Print Assumptions C10_unsorted_search.
Example C10_example :
  find_unsorted (fun k => Val (7 =? k)%N) (fun v : N * N => Val (fst v)) 0
    [(3, 1); (7, 2); (7, 3)]%N = Val (Some 1).
Proof. vm_compute. reflexivity. Qed.

(** ** C11: back-references. [copies_back hist out dist]: each produced element
    equals the one [dist] places before it in [hist ++ out]. *)
Theorem C11_inflate {A} (hist : list A) dist len : 0 < dist <= length hist ->
  exists out, sub_seq_inflate hist (length hist - dist) len = Val out /\ length out = len /\
    copies_back hist out dist.
Proof. exact (inflate_dist hist dist len). Qed.
Print Assumptions C11_inflate.
Theorem C11_determined {A} (hist : list A) dist o1 o2 : 0 < dist <= length hist ->
  length o1 = length o2 -> copies_back hist o1 dist -> copies_back hist o2 dist -> o1 = o2.
Proof. exact (copies_back_unique hist dist o1 o2). Qed.
Print Assumptions C11_determined.
(** The interpreter and the two helpers used by generated code agree. *)
Theorem C11_runtime_agrees {A} (hist : list A) start len : start < length hist ->
  slice_ext hist start (start + len) = sub_seq_inflate hist start len /\
  exists out, sub_seq_inflate hist start len = Val out /\
    extend_from_within_ext hist start (start + len) = Val (hist ++ out).
Proof. exact (runtime_agrees hist start len). Qed.
Print Assumptions C11_runtime_agrees.
Example C11_example : sub_seq_inflate [1; 2; 3] 1 5 = Val [2; 3; 2; 3; 2] /\
  slice_ext [1; 2; 3] 1 6 = Val [2; 3; 2; 3; 2].
Proof. vm_compute. repeat split. Qed.

(** ** C32: non-fatal errors. *)
(** [join]: the value of the continuation, with the errors of both sides. *)
Theorem C32_join {E0 E1 T U} (w : with_err T E0) (f : T -> eresult U E0 E1) :
  match f (we_value w) with
  | inl r => exists r', we_join w f = inl r' /\ we_value r' = we_value r /\
               we_errs r' = we_errs r ++ we_errs w
  | inr e => we_join w f = inr e
  end.
Proof. exact (join_spec w f). Qed.
Print Assumptions C32_join.
(** [fold] over any list: the final value is that of the plain fold, the errors
    are those of every step, each step's once (latest step first); a fatal error
    of a step is returned. *)
Theorem C32_fold {E0 E1 T U} (init : U) (l : list T) (f : U -> T -> eresult U E0 E1) :
  match we_fold init l f with
  | inl r => fold_vals f init l = inl (we_value r) /\
             we_errs r = concat (rev (fold_errs f init l))
  | inr e => fold_vals f init l = inr e
  end.
Proof. exact (fold_spec init l f). Qed.
Print Assumptions C32_fold.
Theorem C32_map_lift {E T U} (w : with_err T E) (g : T -> U) (outer : list E) :
  we_map g w = WE (g (we_value w)) (we_errs w) /\
  we_lift w outer = (we_value w, outer ++ we_errs w).
Proof. exact (conj eq_refl eq_refl). Qed.
Print Assumptions C32_map_lift.
Theorem C32_strict {E T} (w : with_err T E) :
  (we_errs w = [] -> we_into_strict w = inl (we_value w) /\ we_has_errs w = false) /\
  (we_errs w <> [] -> we_into_strict w = inr (we_errs w) /\ we_has_errs w = true).
Proof. exact (strict_spec w). Qed.
Print Assumptions C32_strict.
Theorem C32_downgrade {E T} (v : eresult T E E) (d : T) :
  match v with
  | inl w => downgrade_error_with v d = w
  | inr e => downgrade_error_with v d = WE d [e]
  end.
Proof. exact (downgrade_spec v d). Qed.
Print Assumptions C32_downgrade.
Example C32_example :
  we_fold 0 [1; 2; 3] (fun acc x => if x =? 2 then inl (we_with_err acc "two"%string)
                                     else inl (we_new (acc + x) : with_err nat string))
  = inl (WE 4 ["two"%string] : with_err nat string) :> eresult nat string unit.
Proof. vm_compute. reflexivity. Qed.
