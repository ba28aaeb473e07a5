(** Proofs about Huffman code construction and decoding. *)
From Coq Require Import Permutation.
From Verif Require Import Base ParserModel ParserProofs HuffmanModel.
Open Scope nat_scope.

(** ** Specification vocabulary *)
(** The number a sequence of binary digits denotes, most significant first. *)
Fixpoint val_of (l : list N) : N :=
  match l with [] => 0 | b :: r => b * 2 ^ N.of_nat (length r) + val_of r end%N.
Definition is_bits (l : list N) : Prop := Forall (fun b => b = 0 \/ b = 1)%N l.
Definition prefix (c d : list N) : Prop := exists r, d = c ++ r.
(** The Kraft sum, in units of [2^-m]: one term per symbol that has a code. *)
Definition kraft (m : nat) (lengths : list nat) : N :=
  fold_right (fun l acc => ((if Nat.eqb l 0 then 0 else 2 ^ N.of_nat (m - l)) + acc)%N) 0%N lengths.

(** ** Vectors *)
Lemma upd_spec {A} (l : list A) i x : i < length l ->
  exists l', upd l i x = Some l' /\ length l' = length l /\
    forall j, nth_error l' j = if Nat.eqb j i then Some x else nth_error l j.
Proof.
  revert i. induction l as [|y l IH]; intros i Hi; [cbn in Hi; lia|]. destruct i as [|i]; cbn [upd].
  - eexists. split; [reflexivity|]. split; [reflexivity|]. intros [|j]; reflexivity.
  - cbn in Hi. destruct (IH i) as (l' & E & L & H); [lia|]. rewrite E. cbn. eexists. split; [reflexivity|].
    split; [cbn; lia|]. intros [|j]; cbn; [reflexivity|apply H].
Qed.
Lemma set_spec {A} (l : list A) i x : i < length l ->
  exists l', set l i x = Val l' /\ length l' = length l /\
    forall j, nth_error l' j = if Nat.eqb j i then Some x else nth_error l j.
Proof. intros H. destruct (upd_spec l i x H) as (l' & E & R). exists l'. unfold set. now rewrite E. Qed.
Lemma set_inv {A} (l : list A) i x l' : set l i x = Val l' -> i < length l.
Proof.
  unfold set. destruct (upd l i x) eqn:E; [|discriminate]. intros _. revert i l0 E.
  induction l as [|y l IH]; intros [|i] l0 E; cbn in *; try discriminate; [lia|].
  destruct (upd l i x) eqn:E1; [|discriminate]. apply IH in E1. lia.
Qed.
Lemma nth_error_repeat {A} (x : A) n i : i < n -> nth_error (repeat x n) i = Some x.
Proof. revert i. induction n as [|n IH]; intros [|i] H; cbn; try lia; [reflexivity|]. apply IH. lia. Qed.

(** ** Kraft sums, split by length *)
Definition upto (l : nat) (lengths : list nat) : N :=
  fold_right (fun x acc => ((if Nat.eqb x 0 then 0 else if Nat.leb x l then 2 ^ N.of_nat (l - x) else 0) + acc)%N) 0%N lengths.
Definition cnt (l : nat) (lengths : list nat) : N := N.of_nat (count_occ Nat.eq_dec lengths l).
Definition fcode (l : nat) (lengths : list nat) : N := match l with O => 0 | S k => 2 * upto k lengths end%N.

Lemma upto_S k lengths : upto (S k) lengths = (2 * upto k lengths + cnt (S k) lengths)%N.
Proof.
  unfold cnt. induction lengths as [|x r IH]; [reflexivity|]. cbn [upto fold_right count_occ].
  fold (upto (S k) r). fold (upto k r). rewrite IH.
  destruct (Nat.eq_dec x (S k)) as [->|Hx].
  - cbn [Nat.eqb]. destruct (Nat.leb_spec (S k) (S k)); [|lia]. destruct (Nat.leb_spec (S k) k); [lia|].
    rewrite Nat.sub_diag. cbn [N.of_nat]. rewrite N.pow_0_r. lia.
  - destruct (Nat.eqb_spec x 0); [lia|]. destruct (Nat.leb_spec x (S k)), (Nat.leb_spec x k); try lia.
    replace (S k - x) with (S (k - x)) by lia. rewrite Nat2N.inj_succ, N.pow_succ_r by lia. lia.
Qed.
Lemma upto_0 lengths : upto 0 lengths = 0%N.
Proof.
  induction lengths as [|x r IH]; [reflexivity|]. cbn [upto fold_right]. fold (upto 0 r). rewrite IH.
  destruct (Nat.eqb_spec x 0); [reflexivity|]. destruct (Nat.leb_spec x 0); [lia|reflexivity].
Qed.
Lemma kraft_upto m lengths : list_max lengths <= m -> kraft m lengths = upto m lengths.
Proof.
  induction lengths as [|x r IH]; [reflexivity|]. cbn [kraft upto fold_right list_max]. intros H.
  fold (kraft m r). fold (upto m r). change (fold_right Init.Nat.max 0 r) with (list_max r) in H. rewrite IH by lia. destruct (Nat.leb_spec x m); [reflexivity|lia].
Qed.
Lemma fcode_cnt l lengths : l <> 0 -> upto l lengths = (fcode l lengths + cnt l lengths)%N.
Proof. destruct l; [contradiction|]. intros _. apply upto_S. Qed.
Lemma upto_mono k m lengths : k <= m -> (upto k lengths * 2 ^ N.of_nat (m - k) <= upto m lengths)%N.
Proof.
  induction 1 as [|m H IH].
  - rewrite Nat.sub_diag. cbn. lia.
  - rewrite upto_S. replace (S m - k) with (S (m - k)) by lia. rewrite Nat2N.inj_succ, N.pow_succ_r by lia.
    revert IH. generalize (2 ^ N.of_nat (m - k))%N. intros p IH. 
    replace (upto k lengths * (2 * p))%N with (2 * (upto k lengths * p))%N by ring. lia.
Qed.
Lemma upto_le k m lengths : k <= m -> (upto m lengths <= 2 ^ N.of_nat m)%N -> (upto k lengths <= 2 ^ N.of_nat k)%N.
Proof.
  intros H K. pose proof (upto_mono k m lengths H) as M.
  apply (N.mul_le_mono_pos_r _ _ (2 ^ N.of_nat (m - k))); [apply N.neq_0_lt_0, N.pow_nonzero; lia|].
  rewrite <- N.pow_add_r. replace (N.of_nat k + N.of_nat (m - k))%N with (N.of_nat m) by lia. lia.
Qed.

(** ** Digits *)
Fixpoint msb (n : nat) (v : N) : list N := match n with O => [] | S k => bit_of v k :: msb k v end.
Lemma msb_map n v : map (fun i => bit_of v (n - 1 - i)) (seq 0 n) = msb n v.
Proof.
  induction n as [|n IH]; [reflexivity|]. cbn [seq map msb]. f_equal; [f_equal; lia|].
  rewrite <- seq_shift, map_map, <- IH. apply map_ext_in. intros i Hi. apply in_seq in Hi. f_equal. lia.
Qed.
Lemma msb_length n v : length (msb n v) = n.
Proof. induction n; cbn; congruence. Qed.
Lemma msb_bits n v : is_bits (msb n v).
Proof. induction n; cbn; constructor; auto. unfold bit_of. destruct (N.testbit _ _); auto. Qed.
Lemma bit_range_val n v : n <= 64 -> bit_range n v = Val (msb n v).
Proof. intros H. unfold bit_range. destruct (Nat.leb_spec n 64); [|lia]. now rewrite msb_map. Qed.
Lemma bit_range_inv n v c : bit_range n v = Val c -> c = msb n v.
Proof. unfold bit_range. destruct (n <=? 64); [|discriminate]. rewrite msb_map. now intros [= <-]. Qed.
Lemma mod_pow2_succ c n : (c mod 2 ^ (n + 1) = (if N.testbit c n then 1 else 0) * 2 ^ n + c mod 2 ^ n)%N.
Proof.
  assert (2 ^ n <> 0)%N as P by (apply N.pow_nonzero; lia).
  rewrite N.pow_add_r, N.pow_1_r, N.mod_mul_r by lia.
  rewrite N.testbit_eqb. destruct (N.eqb_spec ((c / 2 ^ n) mod 2) 1) as [E|E].
  - rewrite E. lia.
  - assert ((c / 2 ^ n) mod 2 = 0)%N as ->; [|lia].
    pose proof (N.mod_lt (c / 2 ^ n) 2). revert E H. generalize (c / 2 ^ n)%N. intros; lia.
Qed.
Lemma val_msb n v : val_of (msb n v) = (v mod 2 ^ N.of_nat n)%N.
Proof.
  induction n as [|n IH]; cbn [msb val_of]; [now rewrite N.mod_1_r|].
  rewrite msb_length, IH. replace (N.of_nat (S n)) with (N.of_nat n + 1)%N by lia.
  rewrite mod_pow2_succ. unfold bit_of. reflexivity.
Qed.
Lemma val_app c d : val_of (c ++ d) = (val_of c * 2 ^ N.of_nat (length d) + val_of d)%N.
Proof.
  induction c as [|b c IH]; [reflexivity|]. cbn [app val_of]. rewrite IH, app_length, Nat2N.inj_add, N.pow_add_r. ring.
Qed.
Lemma val_bound c : is_bits c -> (val_of c < 2 ^ N.of_nat (length c))%N.
Proof.
  induction 1 as [|b c Hb Hc IH]; cbn [val_of length]; [cbn; lia|].
  rewrite Nat2N.inj_succ, N.pow_succ_r by lia. revert IH. generalize (2 ^ N.of_nat (length c))%N. intros p IH.
  destruct Hb; subst; lia.
Qed.

(** ** The construction *)
Lemma count_lengths_spec lengths : forall bl,
  list_max lengths < length bl -> Forall (fun x => x + N.of_nat (length lengths) < w64)%N bl ->
  exists bl', count_lengths lengths bl = Val bl' /\ length bl' = length bl /\
    forall k x, nth_error bl k = Some x -> nth_error bl' k = Some (x + cnt k lengths)%N.
Proof.
  induction lengths as [|l r IH]; intros bl Hm Hb.
  - exists bl. split; [reflexivity|]. split; [reflexivity|]. intros k x. unfold cnt; cbn. intros ->. f_equal. lia.
  - cbn [list_max fold_right] in Hm. change (fold_right Init.Nat.max 0 r) with (list_max r) in Hm.
    cbn [count_lengths]. destruct (nth_error_lt bl l) as [c Hc]; [lia|].
    unfold get. rewrite Hc. cbn [obind]. pose proof (proj1 (Forall_forall _ _) Hb c (nth_error_In _ _ Hc)) as Bc.
    unfold add64. destruct (N.ltb_spec (c + 1) w64); [|cbn in Bc; lia]. cbn [obind].
    destruct (set_spec bl l (c + 1)%N) as (bl1 & E & L & H1); [lia|]. rewrite E. cbn [obind].
    destruct (IH bl1) as (bl2 & E2 & L2 & H2); [lia| |].
    { apply Forall_forall. intros x Hx. apply In_nth_error in Hx. destruct Hx as [j Hj]. rewrite H1 in Hj.
      destruct (Nat.eqb_spec j l).
      - injection Hj as <-. cbn [length] in Bc. lia.
      - pose proof (proj1 (Forall_forall _ _) Hb x (nth_error_In _ _ Hj)) as Bx. cbn [length] in Bx. lia. }
    exists bl2. split; [exact E2|]. split; [lia|]. intros k x Hk. unfold cnt. cbn [count_occ].
    destruct (Nat.eq_dec l k) as [->|Hne].
    + assert (x = c) by congruence. subst x. rewrite (H2 k (c + 1)%N); [f_equal; unfold cnt; lia|].
      rewrite H1, Nat.eqb_refl. reflexivity.
    + apply H2. rewrite H1. destruct (Nat.eqb_spec k l); [lia|exact Hk].
Qed.

Lemma first_codes_spec lengths bl m : m <= 63 -> (upto m lengths <= 2 ^ N.of_nat m)%N ->
  (forall k, k <= m -> nth_error bl k = Some (if Nat.eqb k 0 then 0%N else cnt k lengths)) ->
  forall n bits next, bits + n = S m -> 1 <= bits -> length next = S m ->
  exists next', first_codes n bits (fcode (bits - 1) lengths) bl next = Val next' /\ length next' = length next /\
    forall k, (k < bits -> nth_error next' k = nth_error next k) /\
              (bits <= k <= m -> nth_error next' k = Some (fcode k lengths)).
Proof.
  intros Hm63 K Hbl. induction n as [|n IH]; intros bits next Hn H1 HL.
  - exists next. split; [reflexivity|]. split; [reflexivity|]. intros k. split; [reflexivity|lia].
  - cbn [first_codes]. unfold get. rewrite (Hbl (bits - 1)) by lia. cbn [obind].
    assert (fcode (bits - 1) lengths + (if Nat.eqb (bits - 1) 0 then 0%N else cnt (bits - 1) lengths) = upto (bits - 1) lengths)%N as Eu.
    { destruct (Nat.eqb_spec (bits - 1) 0) as [Z|Z]; [rewrite Z; cbn [fcode]; rewrite upto_0; reflexivity|].
      symmetry. now apply fcode_cnt. }
    assert (upto (bits - 1) lengths <= 2 ^ 62)%N as B.
    { etransitivity; [apply (upto_le (bits - 1) m); [lia|exact K]|]. apply N.pow_le_mono_r; lia. }
    unfold add64. rewrite Eu. change w64 with (2 ^ 64)%N. 
    assert (2 ^ 62 < 2 ^ 64)%N by reflexivity. assert (2 * 2 ^ 62 < 2 ^ 64)%N by reflexivity.
    destruct (N.ltb_spec (upto (bits - 1) lengths) (2 ^ 64)); [|lia]. cbn [obind].
    assert ((N.shiftl (upto (bits - 1) lengths) 1 mod 2 ^ 64)%N = fcode bits lengths) as ->.
    { rewrite N.shiftl_mul_pow2, N.pow_1_r, N.mod_small by lia. destruct bits; [lia|]. cbn [fcode].
      rewrite Nat.sub_1_r, Nat.pred_succ. lia. }
    destruct (set_spec next bits (fcode bits lengths)) as (nx & E & L & Hx); [lia|]. rewrite E. cbn [obind].
    destruct (IH (S bits) nx) as (nx2 & E2 & L2 & Hn2); [lia|lia|lia|].
    replace (S bits - 1) with bits in E2 by lia. exists nx2. split; [exact E2|]. split; [lia|].
    intros k. destruct (Hn2 k) as [A B']. split.
    + intros Hk. rewrite A by lia. rewrite Hx. destruct (Nat.eqb_spec k bits); [lia|reflexivity].
    + intros Hk. destruct (Nat.eq_dec k bits) as [->|Hne]; [|apply B'; lia].
      rewrite A by lia. rewrite Hx. now rewrite Nat.eqb_refl.
Qed.

(** The symbols that get a code, with their lengths and positions among those
    of the same length, after the lengths [done]. *)
Fixpoint plan (n : N) (done lengths : list nat) : list (nat * N * N) :=
  match lengths with
  | [] => []
  | l :: r => if Nat.eqb l 0 then plan (n + 1) (done ++ [l]) r else (l, cnt l done, n) :: plan (n + 1) (done ++ [l]) r
  end.

Lemma cnt_app l a b : cnt l (a ++ b) = (cnt l a + cnt l b)%N.
Proof. unfold cnt. rewrite count_occ_app. lia. Qed.

Lemma cnt_cons k l r : cnt k (l :: r) = ((if Nat.eqb k l then 1 else 0) + cnt k r)%N.
Proof. unfold cnt. cbn [count_occ]. destruct (Nat.eq_dec l k), (Nat.eqb_spec k l); try congruence; lia. Qed.
Lemma cnt_nil k : cnt k [] = 0%N.
Proof. reflexivity. Qed.

Lemma assign_spec all m : m <= 63 -> (upto m all <= 2 ^ N.of_nat m)%N -> (N.of_nat (length all) <= 65536)%N ->
  forall lengths done next, all = done ++ lengths -> Forall (fun l => l <= m) lengths ->
  length next = S m ->
  (forall l, 1 <= l <= m -> nth_error next l = Some (fcode l all + cnt l done)%N) ->
  assign (N.of_nat (length done)) lengths next =
    Val (map (fun '(l, r, n) => (msb l (fcode l all + r), n)) (plan (N.of_nat (length done)) done lengths)).
Proof.
  intros Hm K HS. induction lengths as [|l rest IH]; intros done next Ha Hl HL Hn; [reflexivity|].
  inversion Hl as [|? ? Hl1 Hl2]; subst.
  assert (N.of_nat (length done) + 1 = N.of_nat (length (done ++ [l])))%N as Es by (rewrite app_length; cbn; lia).
  cbn [assign plan]. destruct (Nat.eqb_spec l 0) as [->|Hne].
  - rewrite Es. apply IH; auto; [now rewrite <- app_assoc|]. intros l Hl'. rewrite cnt_app, Hn by lia.
    unfold cnt at 3. cbn. destruct l; [lia|]. cbn. f_equal. lia.
  - unfold get. rewrite Hn by lia. cbn [obind]. rewrite bit_range_val by lia. cbn [obind].
    rewrite app_length in HS. cbn [length] in HS.
    destruct (N.ltb_spec 65535 (N.of_nat (length done))); [lia|].
    assert (fcode l (done ++ l :: rest) + cnt l done + 1 <= upto l (done ++ l :: rest))%N as B.
    { rewrite fcode_cnt by lia. rewrite cnt_app. unfold cnt at 3. cbn [count_occ]. destruct (Nat.eq_dec l l); [|congruence]. lia. }
    pose proof (upto_le l m _ Hl1 K) as B2.
    assert (2 ^ N.of_nat l <= 2 ^ 63)%N as B3 by (apply N.pow_le_mono_r; lia).
    assert (2 ^ 63 < w64)%N as B4 by reflexivity.
    unfold add64. destruct (N.ltb_spec (fcode l (done ++ l :: rest) + cnt l done + 1) w64); [|lia]. cbn [obind].
    destruct (set_spec next l (fcode l (done ++ l :: rest) + cnt l done + 1)%N) as (nx & E & L & Hx); [lia|].
    rewrite E. cbn [obind]. rewrite Es. rewrite (IH (done ++ [l]) nx); [|now rewrite <- app_assoc|exact Hl2|lia|].
    + cbn [obind map]. reflexivity.
    + intros k Hk. rewrite Hx, cnt_app, cnt_cons, cnt_nil.
      destruct (Nat.eqb_spec k l) as [->|Hk2].
      * f_equal. lia.
      * rewrite Hn by lia. f_equal. lia.
Qed.

Lemma list_max_le l : Forall (fun x => x <= list_max l) l.
Proof. apply list_max_le. lia. Qed.

Lemma huffman_codes_spec lengths : lengths <> [] -> list_max lengths <= 63 -> (N.of_nat (length lengths) <= 65536)%N ->
  (kraft (list_max lengths) lengths <= 2 ^ N.of_nat (list_max lengths))%N ->
  huffman_codes lengths = Val (map (fun '(l, r, n) => (msb l (fcode l lengths + r), n)) (plan 0 [] lengths)).
Proof.
  intros Hne Hm HS K. rewrite kraft_upto in K by lia. unfold huffman_codes.
  destruct lengths as [|x0 r0]; [contradiction|]. set (lengths := x0 :: r0) in *.
  destruct (count_lengths_spec lengths (repeat 0%N (list_max lengths + 1))) as (bl & E & L & H).
  { rewrite repeat_length. lia. }
  { apply Forall_forall. intros x Hx. apply repeat_spec in Hx. subst. change w64 with 18446744073709551616%N. lia. }
  rewrite repeat_length in L. rewrite E. cbn [obind].
  destruct (set_spec bl 0 0%N) as (bl0 & E0 & L0 & H0); [lia|]. rewrite E0. cbn [obind].
  destruct (first_codes_spec lengths bl0 (list_max lengths) Hm K) with (n := list_max lengths) (bits := 1)
    (next := repeat 0%N (list_max lengths + 1)) as (nx & E1 & L1 & H1).
  { intros k Hk. rewrite H0. destruct (Nat.eqb_spec k 0); [reflexivity|].
    rewrite (H k 0%N); [reflexivity|]. apply nth_error_repeat. lia. }
  { lia. } { lia. } { rewrite repeat_length. lia. }
  cbn [Nat.sub fcode] in E1. rewrite E1. cbn [obind].
  change 0%N with (N.of_nat (length (@nil nat))) at 1.
  rewrite (assign_spec lengths (list_max lengths) Hm K HS lengths [] nx); [reflexivity|reflexivity|apply list_max_le| |].
  - rewrite L1, repeat_length. lia.
  - intros l Hl. destruct (H1 l) as [_ B]. rewrite B by lia. f_equal. unfold cnt. cbn. lia.
Qed.

Lemma in_plan lengths : forall n done l r s, In (l, r, s) (plan n done lengths) <->
  exists i, s = (n + N.of_nat i)%N /\ nth_error lengths i = Some l /\ l <> 0 /\ r = cnt l (done ++ firstn i lengths).
Proof.
  induction lengths as [|x rest IH]; intros n done l r s; cbn [plan].
  - split; [intros []|]. intros (i & _ & H & _). destruct i; discriminate.
  - assert (In (l, r, s) (plan (n + 1) (done ++ [x]) rest) <->
      exists i, s = (n + N.of_nat (S i))%N /\ nth_error (x :: rest) (S i) = Some l /\ l <> 0 /\ r = cnt l (done ++ firstn (S i) (x :: rest))) as Q.
    { rewrite IH. split; intros (i & A & B & C & D); exists i; (split; [lia|]); (split; [exact B|]); (split; [exact C|]);
        rewrite D; cbn [firstn]; rewrite <- app_assoc; reflexivity. }
    destruct (Nat.eqb_spec x 0) as [->|Hx].
    + rewrite Q. split; [intros (i & H); exists (S i); exact H|]. intros ([|i] & A & B & C & D).
      * cbn in B. congruence.
      * exists i; auto.
    + cbn [In]. rewrite Q. split.
      * intros [H|(i & H)]; [|exists (S i); exact H]. injection H as <- <- <-. exists 0. cbn. rewrite app_nil_r. repeat split; auto; lia.
      * intros ([|i] & A & B & C & D).
        -- left. cbn in B, D. rewrite app_nil_r in D. injection B as <-. subst. f_equal. lia.
        -- right. exists i; auto.
Qed.

Lemma skipn_cons_nth {A} (l : list A) i x : nth_error l i = Some x -> skipn i l = x :: skipn (S i) l.
Proof. revert i. induction l as [|y l IH]; intros [|i] H; cbn in *; try discriminate; [congruence|]. now apply IH. Qed.

(** Which codes there are. *)
Lemma codes_in lengths c s codes : lengths <> [] -> list_max lengths <= 63 -> (N.of_nat (length lengths) <= 65536)%N ->
  (kraft (list_max lengths) lengths <= 2 ^ N.of_nat (list_max lengths))%N ->
  huffman_codes lengths = Val codes ->
  (In (c, s) codes <-> exists i l, s = N.of_nat i /\ nth_error lengths i = Some l /\ l <> 0 /\
      is_bits c /\ length c = l /\ val_of c = (fcode l lengths + cnt l (firstn i lengths))%N).
Proof.
  intros Hne Hm HS K E. rewrite huffman_codes_spec in E by assumption. injection E as <-.
  rewrite kraft_upto in K by lia.
  assert (forall i l, nth_error lengths i = Some l -> l <> 0 ->
    (fcode l lengths + cnt l (firstn i lengths) < 2 ^ N.of_nat l)%N) as B.
  { intros i l Hi Hl. pose proof (nth_error_In _ _ Hi) as Hin.
    pose proof (proj1 (Forall_forall _ _) (list_max_le lengths) l Hin) as Hle. cbn in Hle.
    pose proof (upto_le l _ _ Hle K) as U. rewrite fcode_cnt in U by exact Hl.
    assert (cnt l (firstn i lengths) < cnt l lengths)%N; [|lia].
    rewrite <- (firstn_skipn i lengths) at 2. rewrite cnt_app.
    assert (1 <= cnt l (skipn i lengths))%N; [|lia].
    rewrite (skipn_cons_nth _ _ _ Hi), cnt_cons, Nat.eqb_refl. lia. }
  rewrite in_map_iff. split.
  - intros ([[l r] n] & H & Hin). injection H as <- <-. apply in_plan in Hin. destruct Hin as (i & A & C & D & F).
    cbn [app] in F. subst r. exists i, l. split; [lia|]. split; [exact C|]. split; [exact D|].
    split; [apply msb_bits|]. split; [apply msb_length|]. rewrite val_msb. apply N.mod_small. now apply B.
  - intros (i & l & A & C & D & F & G & H). exists (l, cnt l (firstn i lengths), s). split.
    + f_equal. apply (f_equal (fun v => msb l v)) in H. rewrite <- H. clear - F G.
      subst l. revert F. induction 1 as [|b c Hb Hc IH]; [reflexivity|]. cbn [length msb val_of].
      pose proof (val_bound c Hc) as V.
      f_equal.
      * unfold bit_of. destruct Hb; subst b.
        -- rewrite N.mul_0_l, N.add_0_l. rewrite (testbit_above _ _ _ V) by lia. reflexivity.
        -- rewrite N.mul_1_l. rewrite N.testbit_eqb.
           replace (2 ^ N.of_nat (length c) + val_of c)%N with (val_of c + 1 * 2 ^ N.of_nat (length c))%N by lia.
           rewrite N.div_add by (apply N.pow_nonzero; lia). rewrite N.div_small by exact V. reflexivity.
      * transitivity (msb (length c) (val_of c)); [|exact IH]. clear IH.
        assert (forall n, n <= length c -> msb n (b * 2 ^ N.of_nat (length c) + val_of c) = msb n (val_of c)) as X; [|now apply X].
        induction n as [|n IHn]; intros Hn; [reflexivity|]. cbn [msb]. rewrite IHn by lia. f_equal. unfold bit_of.
        destruct Hb; subst b; [now rewrite N.mul_0_l, N.add_0_l|]. rewrite N.mul_1_l.
        assert (N.testbit (2 ^ N.of_nat (length c) + val_of c) (N.of_nat n) = N.testbit (val_of c) (N.of_nat n)) as ->; [|reflexivity].
        rewrite <- (N.mod_pow2_bits_low (2 ^ N.of_nat (length c) + val_of c) (N.of_nat (length c))) by lia.
        replace (2 ^ N.of_nat (length c) + val_of c)%N with (val_of c + 1 * 2 ^ N.of_nat (length c))%N by lia.
        rewrite N.mod_add by (apply N.pow_nonzero; lia). now rewrite N.mod_small.
    + apply in_plan. exists i. split; [lia|]. auto.
Qed.

Lemma cnt_split lengths i l : nth_error lengths i = Some l -> (cnt l (firstn i lengths) + 1 <= cnt l lengths)%N.
Proof.
  intros Hi. rewrite <- (firstn_skipn i lengths) at 2. rewrite cnt_app, (skipn_cons_nth _ _ _ Hi), cnt_cons, Nat.eqb_refl. lia.
Qed.

(** Shorter codes come first, with room for every continuation of them. *)
Lemma codes_order lengths i j l k : nth_error lengths i = Some l -> nth_error lengths j = Some k ->
  l <> 0 -> l < k ->
  ((fcode l lengths + cnt l (firstn i lengths) + 1) * 2 ^ N.of_nat (k - l) <= fcode k lengths)%N.
Proof.
  intros Hi Hj Hl Hk. destruct k as [|k]; [lia|]. cbn [fcode].
  pose proof (upto_mono l k lengths ltac:(lia)) as M.
  replace (S k - l) with (S (k - l)) by lia. rewrite Nat2N.inj_succ, N.pow_succ_r by lia.
  assert (fcode l lengths + cnt l (firstn i lengths) + 1 <= upto l lengths)%N as B.
  { rewrite fcode_cnt by exact Hl. pose proof (cnt_split _ _ _ Hi). lia. }
  apply (N.mul_le_mono_r _ _ (2 ^ N.of_nat (k - l))) in B. revert M B. generalize (2 ^ N.of_nat (k - l))%N. intros p M B.
  replace ((fcode l lengths + cnt l (firstn i lengths) + 1) * (2 * p))%N
    with (2 * ((fcode l lengths + cnt l (firstn i lengths) + 1) * p))%N by ring. lia.
Qed.

(** The canonical code of symbol [i]: the Kraft sum, in units of its own length,
    of the symbols with shorter codes and of the earlier ones with equally long
    codes. *)
Definition shorter_sum (l : nat) (lengths : list nat) : N :=
  fold_right (fun x acc => ((if Nat.eqb x 0 then 0 else if Nat.ltb x l then 2 ^ N.of_nat (l - x) else 0) + acc)%N) 0%N lengths.
Lemma shorter_fcode l lengths : l <> 0 -> shorter_sum l lengths = fcode l lengths.
Proof.
  destruct l as [|l]; [contradiction|]. intros _. cbn [fcode]. induction lengths as [|x r IH]; [reflexivity|].
  cbn [shorter_sum upto fold_right]. fold (shorter_sum (S l) r). fold (upto l r). rewrite IH.
  destruct (Nat.eqb_spec x 0); [lia|]. destruct (Nat.ltb_spec x (S l)), (Nat.leb_spec x l); try lia.
  replace (S l - x) with (S (l - x)) by lia. rewrite Nat2N.inj_succ, N.pow_succ_r by lia. lia.
Qed.

Lemma firstn_cnt_lt lengths i j l : nth_error lengths i = Some l -> i < j ->
  (cnt l (firstn i lengths) + 1 <= cnt l (firstn j lengths))%N.
Proof.
  intros Hi Hj. replace j with (i + (j - i)) by lia.
  rewrite <- (firstn_skipn i lengths) at 2.
  assert (length (firstn i lengths) = i) as Li by (apply firstn_length_le, Nat.lt_le_incl, nth_error_Some; congruence).
  rewrite firstn_app, Li. replace (i + (j - i) - i) with (S (j - i - 1)) by lia.
  rewrite (skipn_cons_nth _ _ _ Hi). cbn [firstn]. rewrite cnt_app, cnt_cons, Nat.eqb_refl.
  rewrite (firstn_all2 (firstn i lengths)) by lia. lia.
Qed.

(** Equally long codes are consecutive, in symbol order. *)
Lemma codes_consecutive lengths i j l : nth_error lengths i = Some l -> i < j ->
  (forall m, i < m < j -> nth_error lengths m <> Some l) -> j <= length lengths ->
  cnt l (firstn j lengths) = (cnt l (firstn i lengths) + 1)%N.
Proof.
  intros Hi Hij Hb Hj. replace j with (S i + (j - S i)) by lia.
  assert (forall d, S i + d <= j -> cnt l (firstn (S i + d) lengths) = (cnt l (firstn i lengths) + 1)%N) as X; [|apply X; lia].
  assert (forall n x, nth_error lengths n = Some x -> firstn (S n) lengths = firstn n lengths ++ [x]) as F.
  { clear. induction lengths as [|y r IH]; intros [|n] x H; cbn in *; try discriminate; [congruence|]. f_equal. now apply IH. }
  induction d as [|d IH]; intros Hd.
  - rewrite Nat.add_0_r, (F _ _ Hi), cnt_app, cnt_cons, Nat.eqb_refl, cnt_nil. lia.
  - destruct (nth_error lengths (S i + d)) as [x|] eqn:E.
    + rewrite Nat.add_succ_r, (F _ _ E), cnt_app, IH, cnt_cons, cnt_nil by lia.
      destruct (Nat.eqb_spec l x); [|lia]. subst x. exfalso. apply (Hb (S i + d)); [lia|exact E].
    + apply nth_error_None in E. lia.
Qed.

Lemma codes_prefix_free lengths codes c d s t :
  lengths <> [] -> list_max lengths <= 63 -> (N.of_nat (length lengths) <= 65536)%N ->
  (kraft (list_max lengths) lengths <= 2 ^ N.of_nat (list_max lengths))%N ->
  huffman_codes lengths = Val codes -> In (c, s) codes -> In (d, t) codes -> prefix c d -> s = t /\ c = d.
Proof.
  intros Hne Hm HS K E Hc Hd [r ->].
  apply (codes_in lengths c s codes Hne Hm HS K E) in Hc. destruct Hc as (i & l & -> & Hi & Hl & Bc & Lc & Vc).
  apply (codes_in lengths (c ++ r) t codes Hne Hm HS K E) in Hd. destruct Hd as (j & k & -> & Hj & Hk & Bd & Ld & Vd).
  rewrite app_length in Ld. rewrite val_app in Vd.
  destruct r as [|b r].
  - cbn in Ld. assert (k = l) as Ek by lia. clear Ld. subst k. cbn [length N.of_nat val_of] in Vd.
    rewrite N.pow_0_r, N.mul_1_r, N.add_0_r in Vd. rewrite app_nil_r. split; [|reflexivity].
    destruct (lt_eq_lt_dec i j) as [[Hij|Hij]|Hij]; [|now subst|].
    + pose proof (firstn_cnt_lt _ _ _ _ Hi Hij). lia.
    + pose proof (firstn_cnt_lt _ _ _ _ Hj Hij). lia.
  - exfalso. cbn [length] in Ld. pose proof (codes_order _ _ _ _ _ Hi Hj Hl ltac:(lia)) as O.
    replace (k - l) with (length (b :: r)) in O by (cbn [length]; lia). rewrite <- Vc in O.
    unfold is_bits in Bd. apply Forall_app in Bd. destruct Bd as [_ Br]. pose proof (val_bound _ Br) as Vb.
    revert O Vb Vd. generalize (2 ^ N.of_nat (length (b :: r)))%N (val_of (b :: r)). intros p v O Vb Vd. lia.
Qed.

(** ** The decoding tree *)
Fixpoint codes_of (t : hnode) : list (list N * N) :=
  match t with
  | HEmpty => []
  | HLeaf v => [([], v)]
  | HBranch l r => map (fun '(c, v) => (0%N :: c, v)) (codes_of l) ++ map (fun '(c, v) => (1%N :: c, v)) (codes_of r)
  end.
Definition incomparable (c d : list N) : Prop := ~ prefix c d /\ ~ prefix d c.

Lemma prefix_cons b c d : prefix (b :: c) (b :: d) <-> prefix c d.
Proof. split; intros [r E]; exists r; [now injection E|cbn; now rewrite E]. Qed.
Lemma prefix_cons_ne a b c d : a <> b -> ~ prefix (a :: c) (b :: d).
Proof. intros H [r E]. injection E. congruence. Qed.

Fixpoint wfh (t : hnode) : Prop :=
  match t with
  | HBranch l r => wfh l /\ wfh r /\ codes_of (HBranch l r) <> []
  | _ => True
  end.

Lemma hinsert_empty c v : is_bits c -> exists t, hinsert HEmpty c v = Some t /\ codes_of t = [(c, v)] /\ wfh t.
Proof.
  induction 1 as [|b c Hb Hc IH]; cbn [hinsert]; [eexists; split; [reflexivity|]; split; [reflexivity|exact Logic.I]|].
  destruct IH as (t & E & C & W). rewrite E. cbn [option_map]. eexists. split; [reflexivity|].
  destruct Hb; subst b; cbn [N.eqb codes_of wfh]; rewrite C; cbn; repeat split; auto; discriminate.
Qed.

Lemma in_lift b c v (l : list (list N * N)) : In (b :: c, v) (map (fun '(c, v) => (b :: c, v)) l) <-> In (c, v) l.
Proof.
  rewrite in_map_iff. split.
  - intros ([d w] & E & H). injection E as -> ->. exact H.
  - intros H. exists (c, v). auto.
Qed.
Lemma in_lift_inv b d v (l : list (list N * N)) : In (d, v) (map (fun '(c, v) => (b :: c, v)) l) ->
  exists c, d = b :: c /\ In (c, v) l.
Proof. rewrite in_map_iff. intros ([c w] & E & H). injection E as <- ->. eauto. Qed.

Lemma hinsert_spec t : forall c v, wfh t -> is_bits c ->
  match hinsert t c v with
  | Some t' => wfh t' /\ Permutation (codes_of t') ((c, v) :: codes_of t) /\
               (forall d w, In (d, w) (codes_of t) -> incomparable c d)
  | None => exists d w, In (d, w) (codes_of t) /\ (prefix c d \/ prefix d c)
  end.
Proof.
  induction t as [|x|l IHl r IHr]; intros c v W B.
  - destruct (hinsert_empty c v B) as (t & -> & C & W'). rewrite C. split; [exact W'|]. split; [apply Permutation_refl|]. intros d w [].
  - destruct c as [|b c]; cbn [hinsert]; (exists [], x); (split; [now left|]).
    + left. exists []. reflexivity.
    + right. exists (b :: c). reflexivity.
  - destruct W as (Wl & Wr & Wn). destruct c as [|b c]; cbn [hinsert].
    + destruct (codes_of (HBranch l r)) as [|[d w] rest] eqn:E; [contradiction|].
      exists d, w. split; [now left|]. left. exists d. reflexivity.
    + inversion B as [|? ? Hb Hc]; subst. destruct Hb; subst b; cbn [N.eqb].
      * specialize (IHl c v Wl Hc). destruct (hinsert l c v) as [l'|]; cbn [option_map].
        -- destruct IHl as (W' & P & I). split; [|split].
           ++ cbn [wfh codes_of]. split; [exact W'|]. split; [exact Wr|].
              apply Permutation_sym in P. destruct (codes_of l') as [|[? ?] ?]; [|discriminate].
              apply Permutation_sym, Permutation_nil in P. discriminate.
           ++ cbn [codes_of]. apply (Permutation_map (fun '(c, v) => (0%N :: c, v))) in P.
              eapply Permutation_trans; [apply Permutation_app_tail; exact P|]. cbn [map app]. apply Permutation_refl.
           ++ intros d w H. cbn [codes_of] in H. apply in_app_or in H. destruct H as [H|H]; apply in_lift_inv in H; destruct H as (e & -> & H).
              ** destruct (I e w H) as [I1 I2]. split; rewrite prefix_cons; assumption.
              ** split; apply prefix_cons_ne; discriminate.
        -- destruct IHl as (d & w & H & D). exists (0%N :: d), w. split; [cbn [codes_of]; apply in_or_app; left; now apply in_lift|].
           rewrite !prefix_cons. exact D.
      * specialize (IHr c v Wr Hc). destruct (hinsert r c v) as [r'|]; cbn [option_map].
        -- destruct IHr as (W' & P & I). split; [|split].
           ++ cbn [wfh codes_of]. split; [exact Wl|]. split; [exact W'|].
              apply Permutation_sym in P. destruct (codes_of r') as [|[? ?] ?].
              ** apply Permutation_sym, Permutation_nil in P. discriminate.
              ** intros X. apply app_eq_nil in X. destruct X; discriminate.
           ++ cbn [codes_of]. apply (Permutation_map (fun '(c, v) => (1%N :: c, v))) in P.
              eapply Permutation_trans; [apply Permutation_app_head; exact P|]. cbn [map].
              apply Permutation_sym, Permutation_middle.
           ++ intros d w H. cbn [codes_of] in H. apply in_app_or in H. destruct H as [H|H]; apply in_lift_inv in H; destruct H as (e & -> & H).
              ** split; apply prefix_cons_ne; discriminate.
              ** destruct (I e w H) as [I1 I2]. split; rewrite prefix_cons; assumption.
        -- destruct IHr as (d & w & H & D). exists (1%N :: d), w. split; [cbn [codes_of]; apply in_or_app; right; now apply in_lift|].
           rewrite !prefix_cons. exact D.
Qed.

(** Pairwise incomparable codes. *)
Fixpoint prefix_free (l : list (list N * N)) : Prop :=
  match l with
  | [] => True
  | (c, _) :: r => (forall d w, In (d, w) r -> incomparable c d) /\ prefix_free r
  end.
Lemma incomparable_sym c d : incomparable c d -> incomparable d c.
Proof. intros [A B]. split; assumption. Qed.

Lemma hbuild_spec codes : Forall (fun p => is_bits (fst p)) codes -> forall t, wfh t ->
  match hbuild t codes with
  | Some t' => wfh t' /\ Permutation (codes_of t') (codes ++ codes_of t) /\ prefix_free codes /\
      (forall c v d w, In (c, v) codes -> In (d, w) (codes_of t) -> incomparable c d)
  | None => ~ (prefix_free codes /\ (forall c v d w, In (c, v) codes -> In (d, w) (codes_of t) -> incomparable c d))
  end.
Proof.
  induction codes as [|[c v] rest IH]; intros B t W; cbn [hbuild].
  - split; [exact W|]. split; [apply Permutation_refl|]. split; [exact Logic.I|]. intros c v d w [].
  - inversion B as [|? ? Bc Br]; subst. pose proof (hinsert_spec t c v W Bc) as H. destruct (hinsert t c v) as [t1|].
    + destruct H as (W1 & P1 & I1). specialize (IH Br t1 W1). destruct (hbuild t1 rest) as [t'|].
      * destruct IH as (W' & P' & F' & I'). split; [exact W'|]. split; [|split].
        -- eapply Permutation_trans; [exact P'|]. eapply Permutation_trans; [apply Permutation_app_head; exact P1|].
           cbn [app]. apply Permutation_sym, Permutation_middle.
        -- cbn [prefix_free]. split; [|exact F']. intros d w Hd. apply incomparable_sym. apply (I' d w c v Hd).
           apply (Permutation_in _ (Permutation_sym P1)). now left.
        -- intros c' v' d w [E|Hin] Hd.
           ++ injection E as <- <-. now apply (I1 d w).
           ++ apply (I' c' v' d w Hin). apply (Permutation_in _ (Permutation_sym P1)). now right.
      * intros (F & I). apply IH. destruct F as [F1 F2]. split; [exact F2|]. intros c' v' d w Hin Hd.
        apply (Permutation_in _ P1) in Hd. destruct Hd as [E|Hd].
        -- injection E as <- <-. apply incomparable_sym. now apply (F1 c' v').
        -- apply (I c' v' d w); [now right|exact Hd].
    + destruct H as (d & w & Hd & D). intros (F & I). destruct (I c v d w (or_introl eq_refl) Hd). tauto.
Qed.

(** Decoding: [read_n] reads that many digits. *)
Lemma parse_one_code t : forall c v s s', In (c, v) (codes_of t) -> read_n (length c) s = Some (c, s') ->
  parse_one t s = (POk v, s').
Proof.
  induction t as [|x|l IHl r IHr]; intros c v s s' Hin R.
  - destruct Hin.
  - destruct Hin as [E|[]]. injection E as <- <-. cbn in R. injection R as <-. reflexivity.
  - cbn [codes_of] in Hin. apply in_app_or in Hin. destruct Hin as [H|H]; apply in_lift_inv in H; destruct H as (e & -> & H);
      cbn [length read_n] in R; cbn [parse_one]; destruct (p_read_byte s) as [[b|e0|] s1]; try discriminate;
      destruct (read_n (length e) s1) as [[bs s2]|] eqn:R1; try discriminate; injection R as -> -> ->; cbn [N.eqb Pos.eqb].
    + now apply (IHl e).
    + now apply (IHr e).
Qed.
Lemma parse_one_inv t : forall v s s', parse_one t s = (POk v, s') ->
  exists c, In (c, v) (codes_of t) /\ read_n (length c) s = Some (c, s').
Proof.
  induction t as [|x|l IHl r IHr]; intros v s s' H; cbn [parse_one] in H.
  - destruct (p_read_byte s) as [[b|e0|] s1]; discriminate.
  - injection H as <- <-. exists []. split; [now left|reflexivity].
  - destruct (p_read_byte s) as [[b|e0|] s1] eqn:R; try discriminate.
    destruct (N.eqb_spec b 0) as [->|Hb]; [|destruct (N.eqb_spec b 1) as [->|Hb1]; [|discriminate]].
    + destruct (IHl _ _ _ H) as (c & Hin & Rc). exists (0%N :: c). split.
      * cbn [codes_of]. apply in_or_app. left. now apply in_lift.
      * cbn [length read_n]. rewrite R, Rc. reflexivity.
    + destruct (IHr _ _ _ H) as (c & Hin & Rc). exists (1%N :: c). split.
      * cbn [codes_of]. apply in_or_app. right. now apply in_lift.
      * cbn [length read_n]. rewrite R, Rc. reflexivity.
Qed.

(** ** A decoder is only ever built from a table that satisfies Kraft's
    inequality. *)
Definition weight (m : nat) (codes : list (list N * N)) : N :=
  fold_right (fun p acc => (2 ^ N.of_nat (m - length (fst p)) + acc)%N) 0%N codes.
Lemma weight_app m a b : weight m (a ++ b) = (weight m a + weight m b)%N.
Proof. induction a as [|x a IH]; [reflexivity|]. cbn [app weight fold_right]. fold (weight m (a ++ b)). fold (weight m a). rewrite IH. lia. Qed.
Lemma weight_perm m a b : Permutation a b -> weight m a = weight m b.
Proof. induction 1; cbn [weight fold_right]; fold (weight m); try congruence; try lia. unfold weight in *. lia. Qed.
Lemma weight_lift m b l : weight (S m) (map (fun '(c, v) => (b :: c, v)) l) = weight m l.
Proof.
  induction l as [|[c v] l IH]; [reflexivity|]. cbn [map weight fold_right fst length]. unfold weight in IH. rewrite IH.
  reflexivity.
Qed.
Lemma weight_tree t : forall m, (forall c v, In (c, v) (codes_of t) -> length c <= m) ->
  (weight m (codes_of t) <= 2 ^ N.of_nat m)%N.
Proof.
  induction t as [|x|l IHl r IHr]; intros m H.
  - cbn. apply N.le_0_l.
  - cbn. rewrite Nat.sub_0_r. lia.
  - cbn [codes_of] in *. destruct m as [|m].
    + assert (codes_of l = []) as El.
      { destruct (codes_of l) as [|[c v] q]; [reflexivity|]. specialize (H (0%N :: c) v). cbn in H. specialize (H (or_introl eq_refl)). lia. }
      assert (codes_of r = []) as Er.
      { destruct (codes_of r) as [|[c v] q]; [reflexivity|]. specialize (H (1%N :: c) v).
        assert (length (1%N :: c) <= 0) by (apply H, in_or_app; right; now left). cbn in *. lia. }
      rewrite El, Er. cbn. lia.
    + rewrite weight_app, !weight_lift.
      assert (weight m (codes_of l) <= 2 ^ N.of_nat m)%N.
      { apply IHl. intros c v Hc. assert (length (0%N :: c) <= S m) by (apply (H _ v), in_or_app; left; now apply in_lift). cbn in *. lia. }
      assert (weight m (codes_of r) <= 2 ^ N.of_nat m)%N.
      { apply IHr. intros c v Hc. assert (length (1%N :: c) <= S m) by (apply (H _ v), in_or_app; right; now apply in_lift). cbn in *. lia. }
      rewrite Nat2N.inj_succ, N.pow_succ_r by lia. lia.
Qed.

(** Every code has the requested length, whatever the table. *)
Lemma assign_lengths lengths : forall n next codes, assign n lengths next = Val codes ->
  Forall (fun p => is_bits (fst p)) codes /\ map (fun p => length (fst p)) codes = filter (fun l => negb (Nat.eqb l 0)) lengths.
Proof.
  induction lengths as [|l r IH]; intros n next codes; cbn [assign filter].
  - intros [= <-]. split; [constructor|reflexivity].
  - destruct (Nat.eqb_spec l 0); cbn [negb]; [apply IH|].
    unfold get. destruct (nth_error next l); [|discriminate]. cbn [obind].
    destruct (bit_range l n1) as [c|] eqn:E; [|discriminate]. apply bit_range_inv in E. cbn [obind].
    destruct (65535 <? n)%N; [discriminate|]. destruct (add64 n1 1); [|discriminate]. cbn [obind].
    destruct (set next l a) as [nx|]; [|discriminate]. cbn [obind].
    destruct (assign (n + 1) r nx) as [rest|] eqn:Er; [|discriminate]. cbn [obind]. intros [= <-].
    destruct (IH _ _ _ Er) as [A B]. subst c. split; [constructor; [apply msb_bits|exact A]|].
    cbn [map fst]. now rewrite msb_length, B.
Qed.
Lemma huffman_lengths lengths codes : huffman_codes lengths = Val codes ->
  Forall (fun p => is_bits (fst p)) codes /\ map (fun p => length (fst p)) codes = filter (fun l => negb (Nat.eqb l 0)) lengths.
Proof.
  unfold huffman_codes. destruct lengths as [|x r]; [discriminate|]. intros H.
  destruct (count_lengths _ _) as [a|]; [|discriminate]. cbn [obind] in H.
  destruct (set a 0 0%N) as [b|]; [|discriminate]. cbn [obind] in H.
  destruct (first_codes _ _ _ _ _) as [nx|]; [|discriminate]. cbn [obind] in H. now apply assign_lengths in H.
Qed.
Lemma kraft_weight m lengths codes :
  map (fun p => length (fst p)) codes = filter (fun l => negb (Nat.eqb l 0)) lengths -> kraft m lengths = weight m codes.
Proof.
  revert codes. induction lengths as [|l r IH]; intros codes; cbn [filter kraft fold_right].
  - destruct codes; [reflexivity|discriminate].
  - fold (kraft m r). destruct (Nat.eqb l 0); cbn [negb]; [intros H; rewrite <- (IH codes H); lia|].
    destruct codes as [|p q]; [discriminate|]. cbn [map]. intros [= E Eq]. cbn [weight fold_right]. fold (weight m q).
    rewrite E. now rewrite (IH q Eq).
Qed.

Lemma built_kraft lengths t : make_huffman_decoder lengths = Val (Some t) ->
  (kraft (list_max lengths) lengths <= 2 ^ N.of_nat (list_max lengths))%N.
Proof.
  unfold make_huffman_decoder. destruct (huffman_codes lengths) as [codes|] eqn:E; [|discriminate]. cbn [omap]. intros [= H].
  destruct (huffman_lengths _ _ E) as [B L]. pose proof (hbuild_spec codes B HEmpty Logic.I) as S. rewrite H in S.
  destruct S as (_ & P & _). cbn [codes_of] in P. rewrite app_nil_r in P.
  rewrite (kraft_weight _ _ _ L), <- (weight_perm _ _ _ P). apply weight_tree.
  intros c v Hc. apply (Permutation_in _ P) in Hc. apply (in_map (fun p => length (fst p))) in Hc. rewrite L in Hc. cbn [fst] in Hc.
  apply filter_In in Hc. destruct Hc as [Hc _]. exact (proj1 (Forall_forall _ _) (list_max_le lengths) _ Hc).
Qed.

Lemma prefix_free_nodup codes : (forall c s d t, In (c, s) codes -> In (d, t) codes -> prefix c d -> s = t /\ c = d) ->
  NoDup codes -> prefix_free codes.
Proof.
  induction codes as [|[c v] r IH]; intros H ND; [exact Logic.I|]. inversion ND; subst. cbn [prefix_free]. split.
  - intros d w Hd. split; intros P.
    + destruct (H c v d w (or_introl eq_refl) (or_intror Hd) P) as [-> ->]. contradiction.
    + destruct (H d w c v (or_intror Hd) (or_introl eq_refl) P) as [-> ->]. contradiction.
  - apply IH; [|assumption]. intros c0 s d t A B. apply H; now right.
Qed.

Lemma plan_nodup lengths : forall n done, NoDup (map snd (plan n done lengths)) /\ forall s, In s (map snd (plan n done lengths)) -> (n <= s)%N.
Proof.
  induction lengths as [|l r IH]; intros n done; cbn [plan].
  - split; [constructor|intros s []].
  - destruct (IH (n + 1)%N (done ++ [l])) as [A B]. destruct (Nat.eqb l 0).
    + split; [exact A|]. intros s Hs. specialize (B s Hs). lia.
    + cbn [map snd]. split.
      * constructor; [|exact A]. intros Hn. specialize (B n Hn). lia.
      * intros s [<-|Hs]; [lia|]. specialize (B s Hs). lia.
Qed.

Lemma kraft_built lengths : lengths <> [] -> list_max lengths <= 63 -> (N.of_nat (length lengths) <= 65536)%N ->
  (kraft (list_max lengths) lengths <= 2 ^ N.of_nat (list_max lengths))%N ->
  exists codes t, huffman_codes lengths = Val codes /\ make_huffman_decoder lengths = Val (Some t) /\
    Permutation (codes_of t) codes.
Proof.
  intros Hne Hm HS K. pose proof (huffman_codes_spec _ Hne Hm HS K) as E.
  eexists. destruct (make_huffman_decoder lengths) as [[t|]|] eqn:M; unfold make_huffman_decoder in M; rewrite E in M; cbn [omap] in M; [| |discriminate].
  - exists t. split; [exact E|]. split; [reflexivity|]. injection M as M.
    destruct (huffman_lengths _ _ E) as [B _]. pose proof (hbuild_spec _ B HEmpty Logic.I) as S. rewrite M in S.
    destruct S as (_ & P & _). cbn [codes_of] in P. now rewrite app_nil_r in P.
  - exfalso. injection M as M. destruct (huffman_lengths _ _ E) as [B _]. pose proof (hbuild_spec _ B HEmpty Logic.I) as S.
    rewrite M in S. apply S. split; [|intros c v d w _ []].
    apply prefix_free_nodup; [intros c s d t; now apply (codes_prefix_free lengths _ _ _ _ _ Hne Hm HS K E)|].
    apply (NoDup_map_inv snd). rewrite map_map.
    rewrite (map_ext _ snd) by (intros [[? ?] ?]; reflexivity). apply plan_nodup.
Qed.

(** ** Reordering by code values *)
Lemma reorder_loop_spec lengths : forall values new, NoDup values -> length lengths <= length values ->
  Forall (fun v => v < length new) values ->
  exists new', reorder_loop lengths values new = Val new' /\ length new' = length new /\
    (forall i v, nth_error values i = Some v -> i < length lengths -> nth_error new' v = nth_error lengths i) /\
    (forall v, ~ In v (firstn (length lengths) values) -> nth_error new' v = nth_error new v).
Proof.
  induction lengths as [|l r IH]; intros values new ND HL HF; cbn [reorder_loop].
  - exists new. repeat split; auto. cbn. lia.
  - destruct values as [|v vs]; [cbn in HL; lia|]. inversion ND; subst. inversion HF; subst.
    destruct (set_spec new v l) as (n1 & E & L1 & H1'); [assumption|]. rewrite E. cbn [obind].
    destruct (IH vs n1) as (n2 & E2 & L2 & A & B); [assumption|cbn in HL; lia|rewrite L1; assumption|].
    exists n2. split; [exact E2|]. split; [lia|]. split.
    + intros [|i] w Hw Hi; cbn [nth_error] in *.
      * injection Hw as <-. rewrite B; [rewrite H1', Nat.eqb_refl; reflexivity|]. intros X. apply H1. 
        rewrite <- (firstn_skipn (length r) vs). apply in_or_app. now left.
      * apply A; [exact Hw|cbn in Hi; lia].
    + intros w Hw. cbn [length firstn] in Hw. rewrite B by (intros X; apply Hw; now right). rewrite H1'.
      destruct (Nat.eqb_spec w v); [|reflexivity]. exfalso. apply Hw. now left.
Qed.
Lemma reorder_spec lengths values : NoDup values -> length lengths <= length values ->
  Forall (fun v => v < length values) values ->
  exists new, reorder lengths values = Val new /\ length new = length values /\
    forall i v, nth_error values i = Some v -> nth_error new v = Some (nth i lengths 0).
Proof.
  intros ND HL HF. unfold reorder.
  destruct (reorder_loop_spec lengths values (repeat 0 (length values)) ND HL) as (new & E & L & A & B).
  { rewrite repeat_length. exact HF. }
  exists new. rewrite repeat_length in L. split; [exact E|]. split; [exact L|]. intros i v Hi.
  destruct (lt_dec i (length lengths)) as [Hlt|Hge].
  - rewrite (A i v Hi Hlt). now apply nth_error_nth'.
  - rewrite nth_overflow by lia. rewrite B.
    + apply nth_error_repeat. exact (proj1 (Forall_forall _ _) HF v (nth_error_In _ _ Hi)).
    + intros X. apply In_nth_error in X. destruct X as [j Hj].
      assert (j < length lengths) as Hjl. { rewrite <- (firstn_length_le values HL). apply nth_error_Some. congruence. }
      assert (nth_error values j = Some v) as Hj'.
      { rewrite <- (firstn_skipn (length lengths) values). rewrite nth_error_app1; [exact Hj|rewrite firstn_length_le by exact HL; lia]. }
      assert (i = j); [|lia]. apply (proj1 (NoDup_nth_error values) ND i j); [apply nth_error_Some; congruence|congruence].
Qed.

Lemma codes_exist lengths codes : lengths <> [] -> list_max lengths <= 63 -> (N.of_nat (length lengths) <= 65536)%N ->
  (kraft (list_max lengths) lengths <= 2 ^ N.of_nat (list_max lengths))%N -> huffman_codes lengths = Val codes ->
  forall i l, nth_error lengths i = Some l -> l <> 0 -> exists c, In (c, N.of_nat i) codes /\ length c = l /\ is_bits c.
Proof.
  intros Hne Hm HS K E i l Hi Hl. rewrite huffman_codes_spec in E by assumption. injection E as <-.
  exists (msb l (fcode l lengths + cnt l (firstn i lengths))%N). split; [|split; [apply msb_length|apply msb_bits]].
  apply in_map_iff. exists (l, cnt l (firstn i lengths), N.of_nat i). split; [reflexivity|].
  apply (in_plan lengths). exists i. repeat split; auto; lia.
Qed.

Lemma long_panics l : 65 <= l -> huffman_codes [l] = Panic.
Proof.
  intros Hl. destruct (huffman_codes [l]) as [codes|] eqn:E; [|reflexivity]. exfalso.
  unfold huffman_codes in E. destruct (count_lengths _ _) as [a|]; [|discriminate]. cbn [obind] in E.
  destruct (set a 0 0%N) as [b|]; [|discriminate]. cbn [obind] in E.
  destruct (first_codes _ _ _ _ _) as [nx|]; [|discriminate]. cbn [obind assign] in E.
  destruct (Nat.eqb_spec l 0); [lia|]. unfold get in E. destruct (nth_error nx l); [|discriminate]. cbn [obind] in E.
  unfold bit_range in E. destruct (Nat.leb_spec l 64); [lia|]. discriminate.
Qed.

Lemma decoder_perm lengths codes t : huffman_codes lengths = Val codes -> make_huffman_decoder lengths = Val (Some t) ->
  Permutation (codes_of t) codes /\ prefix_free codes.
Proof.
  intros E M. unfold make_huffman_decoder in M. rewrite E in M. cbn [omap] in M. injection M as M.
  destruct (huffman_lengths _ _ E) as [B _]. pose proof (hbuild_spec _ B HEmpty Logic.I) as S. rewrite M in S.
  destruct S as (_ & P & F & _). cbn [codes_of] in P. rewrite app_nil_r in P. now split.
Qed.
Lemma decoder_codes lengths codes t : huffman_codes lengths = Val codes -> make_huffman_decoder lengths = Val (Some t) ->
  forall c v, In (c, v) codes -> In (c, v) (codes_of t).
Proof.
  intros E M c v H. destruct (decoder_perm _ _ _ E M) as [P _]. now apply (Permutation_in _ (Permutation_sym P)).
Qed.
Lemma decoder_codes_inv lengths codes t : huffman_codes lengths = Val codes -> make_huffman_decoder lengths = Val (Some t) ->
  forall c v, In (c, v) (codes_of t) -> In (c, v) codes.
Proof. intros E M c v H. destruct (decoder_perm _ _ _ E M) as [P _]. now apply (Permutation_in _ P). Qed.
Lemma built_prefix_free lengths codes t : huffman_codes lengths = Val codes -> make_huffman_decoder lengths = Val (Some t) ->
  forall c d v w, In (c, v) codes -> In (d, w) codes -> prefix c d -> c = d /\ v = w.
Proof.
  intros E M c d v w. destruct (decoder_perm _ _ _ E M) as [_ F]. clear E M. induction codes as [|[e x] r IH]; [intros []|].
  destruct F as [F1 F2]. intros [A|A] [B|B] P.
  - injection A as -> ->. injection B as -> ->. now split.
  - injection A as -> ->. destruct (F1 d w B). contradiction.
  - injection B as -> ->. destruct (F1 c v A). contradiction.
  - now apply IH.
Qed.
