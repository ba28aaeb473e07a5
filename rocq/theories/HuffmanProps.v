(** C12, C13: Huffman codes and the decoder of the generated-code runtime. *)
From Coq Require Import Permutation.
From Verif Require Import Base ParserModel ParserProofs HuffmanModel HuffmanProofs.
Open Scope nat_scope.

(** A usable table: not empty, code lengths at most 63, at most 65536 symbols,
    and the Kraft inequality (in units of 2^-max). Length 0 means no code. *)
Definition usable (lengths : list nat) : Prop :=
  lengths <> [] /\ list_max lengths <= 63 /\ (N.of_nat (length lengths) <= 65536)%N /\
  (kraft (list_max lengths) lengths <= 2 ^ N.of_nat (list_max lengths))%N.
(** The code of symbol [i] in a list of codes. *)
Definition code_for (codes : list (list N * N)) (i : nat) (c : list N) : Prop := In (c, N.of_nat i) codes.
(** What the canonical construction (RFC 1951, 3.2.2) prescribes for symbol [i]
    of length [l]: the sum of the [2^(l - x)] over all shorter lengths [x], plus
    the number of earlier symbols of the same length. *)
Definition canonical (lengths : list nat) (i l : nat) : N :=
  (shorter_sum l lengths + N.of_nat (count_occ Nat.eq_dec (firstn i lengths) l))%N.

(** ** C12 *)
(** Every table of the kind has codes; the symbols of non-zero length, and no
    others, have exactly one code, of exactly that many bits. *)
Theorem C12_codes lengths : usable lengths ->
  exists codes, huffman_codes lengths = Val codes /\ NoDup (map snd codes) /\
  (forall i l, nth_error lengths i = Some l -> l <> 0 ->
     exists c, code_for codes i c /\ length c = l /\ is_bits c) /\
  (forall c s, In (c, s) codes -> exists i l, s = N.of_nat i /\ nth_error lengths i = Some l /\ l <> 0 /\ length c = l).
Proof.
  intros (Hne & Hm & HS & K). pose proof (huffman_codes_spec _ Hne Hm HS K) as E. eexists. split; [exact E|].
  assert (forall X, huffman_codes lengths = Val X ->
    (forall i l, nth_error lengths i = Some l -> l <> 0 -> exists c, code_for X i c /\ length c = l /\ is_bits c) /\
    (forall c s, In (c, s) X -> exists i l, s = N.of_nat i /\ nth_error lengths i = Some l /\ l <> 0 /\ length c = l)) as Y.
  - intros X EX. split.
    + intros i l Hi Hl. exact (codes_exist lengths X Hne Hm HS K EX i l Hi Hl).
    + intros c s Hc. apply (codes_in lengths c s X Hne Hm HS K EX) in Hc. destruct Hc as (i & l & ? & ? & ? & ? & ? & ?). exists i, l. auto.
  - split; [|exact (Y _ E)]. rewrite map_map. rewrite (map_ext _ snd) by (intros [[? ?] ?]; reflexivity). apply plan_nodup.
Qed.
Print Assumptions C12_codes.
(** The number a code spells is the canonical one. *)
Theorem C12_canonical lengths codes i l c : usable lengths -> huffman_codes lengths = Val codes ->
  nth_error lengths i = Some l -> code_for codes i c -> val_of c = canonical lengths i l.
Proof.
  intros (Hne & Hm & HS & K) E Hi Hc. apply (codes_in lengths c _ codes Hne Hm HS K E) in Hc.
  destruct Hc as (j & k & Ej & Hj & Hk & _ & _ & V). apply Nat2N.inj in Ej. subst j.
  assert (k = l) by congruence. subst k. unfold canonical. rewrite shorter_fcode by exact Hk. exact V.
Qed.
Print Assumptions C12_canonical.
(** Symbols of equal length, none of that length between them: consecutive codes. *)
Theorem C12_consecutive lengths codes i j l c d : usable lengths -> huffman_codes lengths = Val codes ->
  nth_error lengths i = Some l -> nth_error lengths j = Some l -> i < j ->
  (forall m, i < m < j -> nth_error lengths m <> Some l) ->
  code_for codes i c -> code_for codes j d -> val_of d = (val_of c + 1)%N.
Proof.
  intros U E Hi Hj Hij Hb Hc Hd. rewrite (C12_canonical _ _ _ _ _ U E Hi Hc), (C12_canonical _ _ _ _ _ U E Hj Hd).
  unfold canonical. pose proof (codes_consecutive lengths i j l Hi Hij Hb) as X. unfold cnt in X. rewrite X; [lia|].
  apply Nat.lt_le_incl, nth_error_Some. congruence.
Qed.
Print Assumptions C12_consecutive.
(** A shorter code precedes a longer one: whatever follows it, the digits spell
    less than the longer code. *)
Theorem C12_order lengths codes i j c d rest : usable lengths -> huffman_codes lengths = Val codes ->
  code_for codes i c -> code_for codes j d -> length c < length d ->
  is_bits rest -> length (c ++ rest) = length d -> (val_of (c ++ rest) < val_of d)%N.
Proof.
  intros (Hne & Hm & HS & K) E Hc Hd L B Lr.
  apply (codes_in lengths c _ codes Hne Hm HS K E) in Hc. destruct Hc as (i' & l & Ei & Hi & Hl & _ & Lc & Vc).
  apply (codes_in lengths d _ codes Hne Hm HS K E) in Hd. destruct Hd as (j' & k & Ej & Hj & Hk & _ & Ld & Vd).
  apply Nat2N.inj in Ei, Ej. subst i' j'. rewrite Lc, Ld in L.
  pose proof (codes_order lengths i j l k Hi Hj Hl L) as O. rewrite val_app, Vc, Vd. rewrite app_length in Lr.
  replace (k - l) with (length rest) in O by lia. pose proof (val_bound rest B) as Vb.
  revert O Vb. generalize (2 ^ N.of_nat (length rest))%N. intros p O Vb.
  rewrite N.mul_add_distr_r in O. lia.
Qed.
Print Assumptions C12_order.
Theorem C12_prefix_free lengths codes i j c d : usable lengths -> huffman_codes lengths = Val codes ->
  code_for codes i c -> code_for codes j d -> i <> j -> ~ prefix c d.
Proof.
  intros (Hne & Hm & HS & K) E Hc Hd Hij P.
  destruct (codes_prefix_free lengths codes c d _ _ Hne Hm HS K E Hc Hd P) as [X _]. apply Nat2N.inj in X. contradiction.
Qed.
Print Assumptions C12_prefix_free.
(** The statement without the limits on the table is false: the empty table and
    any code of more than 64 bits panic, although both satisfy Kraft. *)
Theorem C12_limits_refuted : huffman_codes [] = Panic /\
  forall l, 65 <= l -> huffman_codes [l] = Panic /\ (kraft l [l] <= 2 ^ N.of_nat l)%N.
Proof.
  split; [reflexivity|]. intros l Hl. split; [exact (long_panics l Hl)|].
  unfold kraft. cbn [fold_right]. destruct (Nat.eqb_spec l 0); [lia|]. rewrite Nat.sub_diag. change (2 ^ N.of_nat 0)%N with 1%N.
  pose proof (N.pow_nonzero 2 (N.of_nat l)). lia.
Qed.
Print Assumptions C12_limits_refuted.

(** The example table of RFC 1951, 3.2.2, with one unused symbol. *)
Definition rfc : list nat := [3; 3; 3; 0; 3; 3; 2; 4; 4].
Example C12_nonvacuous : usable rfc /\
  huffman_codes rfc = Val
    [([0;1;0], 0); ([0;1;1], 1); ([1;0;0], 2); ([1;0;1], 4); ([1;1;0], 5); ([0;0], 6); ([1;1;1;0], 7); ([1;1;1;1], 8)]%N.
Proof. split; [|vm_compute; reflexivity]. split; [discriminate|]. vm_compute. repeat split; try lia; discriminate. Qed.
Example C12_canonical_nonvacuous : nth_error rfc 7 = Some 4 /\ canonical rfc 7 4 = 14%N.
Proof. split; reflexivity. Qed.
Example C12_consecutive_nonvacuous : (forall m, 2 < m < 4 -> nth_error rfc m <> Some 3) /\
  nth_error rfc 2 = Some 3 /\ nth_error rfc 4 = Some 3.
Proof. split; [|split; reflexivity]. intros m Hm. assert (m = 3) as -> by lia. discriminate. Qed.

(** ** C13. [reads c s s']: the next digits of the input are [c] and the parser
    is then in state [s']. *)
Definition reads (c : list N) (s s' : pst) : Prop := read_n (length c) s = Some (c, s').

(** Decoding the code of symbol [n], whatever follows, gives [n] and consumes
    exactly the code. *)
Theorem C13_decodes lengths codes t i c s s' :
  huffman_codes lengths = Val codes -> make_huffman_decoder lengths = Val (Some t) ->
  code_for codes i c -> reads c s s' -> parse_one t s = (POk (N.of_nat i), s').
Proof. intros E M Hc R. apply (parse_one_code t c); [|exact R]. exact (decoder_codes lengths codes t E M c _ Hc). Qed.
Print Assumptions C13_decodes.
(** Conversely: what is decoded is a symbol whose code was just read. *)
Theorem C13_never_misdecodes lengths codes t n s s' :
  huffman_codes lengths = Val codes -> make_huffman_decoder lengths = Val (Some t) ->
  parse_one t s = (POk n, s') -> exists i c, n = N.of_nat i /\ code_for codes i c /\ reads c s s'.
Proof.
  intros E M P. destruct (parse_one_inv t n s s' P) as (c & Hin & R).
  exists (N.to_nat n), c. rewrite N2Nat.id. split; [reflexivity|]. split; [|exact R]. unfold code_for. rewrite N2Nat.id.
  exact (decoder_codes_inv lengths codes t E M c n Hin).
Qed.
Print Assumptions C13_never_misdecodes.
(** A decoder is built only from a table that satisfies Kraft, that is, one whose
    codes do not collide ... *)
Theorem C13_built_only_without_collision lengths t : make_huffman_decoder lengths = Val (Some t) ->
  (kraft (list_max lengths) lengths <= 2 ^ N.of_nat (list_max lengths))%N /\
  (forall codes c d v w, huffman_codes lengths = Val codes -> In (c, v) codes -> In (d, w) codes -> prefix c d -> c = d /\ v = w).
Proof. intros M. split; [exact (built_kraft lengths t M)|]. intros codes c d v w E. exact (built_prefix_free lengths codes t E M c d v w). Qed.
Print Assumptions C13_built_only_without_collision.
(** ... and from every such table (within the limits of C12). *)
Theorem C13_builds lengths : usable lengths -> exists t, make_huffman_decoder lengths = Val (Some t).
Proof. intros (Hne & Hm & HS & K). destruct (kraft_built lengths Hne Hm HS K) as (codes & t & _ & M & _). eauto. Qed.
Print Assumptions C13_builds.
(** With code values: value [v] listed at position [i] gets length [lengths[i]]
    (0 beyond the end), so decoding yields values, not positions. *)
Theorem C13_code_values lengths values : NoDup values -> length lengths <= length values ->
  (forall v, In v values -> v < length values) ->
  exists new, length new = length values /\
    (forall i v, nth_error values i = Some v -> nth_error new v = Some (nth i lengths 0)) /\
    (forall t, make_huffman_decoder new = Val (Some t) -> parse_huffman lengths (Some values) = Val (parse_one t)).
Proof.
  intros ND L F. destruct (reorder_spec lengths values ND L) as (new & E & Ln & A); [now apply Forall_forall|].
  exists new. split; [exact Ln|]. split; [exact A|]. intros t M. unfold parse_huffman. rewrite E. cbn [obind]. now rewrite M.
Qed.
Print Assumptions C13_code_values.
(** A collision is reported, on every input. *)
Theorem C13_collision_rejected lengths : make_huffman_decoder lengths = Val None ->
  exists f, parse_huffman lengths None = Val f /\ forall s, f s = (PErr ERejected, s).
Proof. intros M. eexists. split; [unfold parse_huffman; cbn [obind]; rewrite M; reflexivity|]. reflexivity. Qed.
Print Assumptions C13_collision_rejected.

(** Symbol 7 of the table above, in bit mode, from the bytes of the buffer. *)
Definition bits_at0 (buf : list N) : pst := snd (p_enter_bits (parser_of_view buf 0)).
Example C13_nonvacuous :
  exists t s', make_huffman_decoder rfc = Val (Some t) /\ reads [1;1;1;0]%N (bits_at0 [183; 1]%N) s' /\
    parse_one t (bits_at0 [183; 1]%N) = (POk 7%N, s').
Proof.
  destruct (C13_builds rfc (proj1 C12_nonvacuous)) as [t M].
  remember (snd (parse_one t (bits_at0 [183; 1]%N))) as s' eqn:Es. exists t, s'. split; [exact M|].
  vm_compute in M. injection M as <-. vm_compute in Es. subst s'. split; vm_compute; reflexivity.
Qed.
Example C13_collision_nonvacuous : make_huffman_decoder [1; 1; 1] = Val None /\ make_huffman_decoder [1; 2; 2; 2] = Val None.
Proof. split; vm_compute; reflexivity. Qed.
Example C13_code_values_nonvacuous : reorder [2; 1] [2; 0; 1] = Val [1; 0; 2].
Proof. reflexivity. Qed.
