(** The Huffman codes of the DEFLATE formats, tables with too many codes included. *)
From Coq Require Import String.
From Verif Require ByteSetModel ByteSetProofs.
From Verif Require Import Base BoundsModel DataModel NumericModel ParserModel HuffmanModel HuffmanProofs.
From Verif Require Import ValueModel FormatModel DecoderModel FormatSpec
  RecordModel TextModel RecordSpec RecordProofs DeflateModel DeflateSpec DeflateBits.
Open Scope nat_scope.

Lemma upto_mono_le k m lengths : k <= m -> (upto k lengths <= upto m lengths)%N.
Proof.
  intros H. etransitivity; [|apply (upto_mono k m lengths H)].
  assert (2 ^ N.of_nat (m - k) <> 0)%N by (apply N.pow_nonzero; lia). revert H0. generalize (2 ^ N.of_nat (m - k))%N (upto k lengths). intros; nia.
Qed.
(** As [HuffmanProofs.first_codes_spec] and what follows, with the sum bounded by the
    machine instead of by the lengths *)
Lemma first_codes_gen lengths bl m : m <= 63 -> (upto m lengths <= 2 ^ 62)%N ->
  (forall k, k <= m -> nth_error bl k = Some (if Nat.eqb k 0 then 0%N else cnt k lengths)) ->
  forall n bits next, bits + n = S m -> 1 <= bits -> length next = S m ->
  exists next', first_codes n bits (fcode (bits - 1) lengths) bl next = Val next' /\ length next' = length next /\
    forall k, (k < bits -> nth_error next' k = nth_error next k) /\
              (bits <= k <= m -> nth_error next' k = Some (fcode k lengths)).
Proof.
  intros Hm63 K Hbl. induction n as [|n IH]; intros bits next Hn H1 HL.
  - exists next. split; [reflexivity|]. split; [reflexivity|]. intros k. split; [reflexivity|lia].
  - cbn [first_codes]. unfold get. rewrite (Hbl (bits - 1)) by lia. cbn [obind].
    assert (fcode (bits - 1) lengths + (if Nat.eqb (bits - 1) 0 then 0%N else cnt (bits - 1) lengths) = upto (bits - 1) lengths)%N as Eu.
    { destruct (Nat.eqb_spec (bits - 1) 0) as [Z|Z]; [rewrite Z; cbn [fcode]; rewrite upto_0; reflexivity|].
      symmetry. now apply fcode_cnt. }
    assert (upto (bits - 1) lengths <= 2 ^ 62)%N as B.
    { etransitivity; [apply (upto_mono_le (bits - 1) m); lia|exact K]. }
    unfold add64. rewrite Eu. change w64 with (2 ^ 64)%N. 
    assert (2 ^ 62 < 2 ^ 64)%N by reflexivity. assert (2 * 2 ^ 62 < 2 ^ 64)%N by reflexivity.
    destruct (N.ltb_spec (upto (bits - 1) lengths) (2 ^ 64)); [|lia]. cbn [obind].
    assert ((N.shiftl (upto (bits - 1) lengths) 1 mod 2 ^ 64)%N = fcode bits lengths) as ->.
    { rewrite N.shiftl_mul_pow2, N.pow_1_r, N.mod_small by lia. destruct bits; [lia|]. cbn [fcode].
      rewrite Nat.sub_1_r, Nat.pred_succ. lia. }
    destruct (set_spec next bits (fcode bits lengths)) as (nx & E & L & Hx); [lia|]. rewrite E. cbn [obind].
    destruct (IH (S bits) nx) as (nx2 & E2 & L2 & Hn2); [lia|lia|lia|].
    replace (S bits - 1) with bits in E2 by lia. exists nx2. split; [exact E2|]. split; [lia|].
    intros k. destruct (Hn2 k) as [A B']. split.
    + intros Hk. rewrite A by lia. rewrite Hx. destruct (Nat.eqb_spec k bits); [lia|reflexivity].
    + intros Hk. destruct (Nat.eq_dec k bits) as [->|Hne]; [|apply B'; lia].
      rewrite A by lia. rewrite Hx. now rewrite Nat.eqb_refl.
Qed.
Lemma assign_gen all m : m <= 63 -> (upto m all <= 2 ^ 62)%N -> (N.of_nat (length all) <= 65536)%N ->
  forall lengths done next, all = done ++ lengths -> Forall (fun l => l <= m) lengths ->
  length next = S m ->
  (forall l, 1 <= l <= m -> nth_error next l = Some (fcode l all + cnt l done)%N) ->
  assign (N.of_nat (length done)) lengths next =
    Val (map (fun '(l, r, n) => (msb l (fcode l all + r), n)) (plan (N.of_nat (length done)) done lengths)).
Proof.
  intros Hm K HS. induction lengths as [|l rest IH]; intros done next Ha Hl HL Hn; [reflexivity|].
  inversion Hl as [|? ? Hl1 Hl2]; subst.
  assert (N.of_nat (length done) + 1 = N.of_nat (length (done ++ [l])))%N as Es by (rewrite app_length; cbn; lia).
  cbn [assign plan]. destruct (Nat.eqb_spec l 0) as [->|Hne].
  - rewrite Es. apply IH; auto; [now rewrite <- app_assoc|]. intros l Hl'. rewrite cnt_app, Hn by lia.
    unfold cnt at 3. cbn. destruct l; [lia|]. cbn. f_equal. lia.
  - unfold get. rewrite Hn by lia. cbn [obind]. rewrite bit_range_val by lia. cbn [obind].
    rewrite app_length in HS. cbn [length] in HS.
    destruct (N.ltb_spec 65535 (N.of_nat (length done))); [lia|].
    assert (fcode l (done ++ l :: rest) + cnt l done + 1 <= upto l (done ++ l :: rest))%N as B.
    { rewrite fcode_cnt by lia. rewrite cnt_app. unfold cnt at 3. cbn [count_occ]. destruct (Nat.eq_dec l l); [|congruence]. lia. }
    pose proof (upto_mono_le l m (done ++ l :: rest) Hl1) as B2.
    assert (2 ^ 62 < w64)%N as B4 by reflexivity.
    unfold add64. destruct (N.ltb_spec (fcode l (done ++ l :: rest) + cnt l done + 1) w64); [|lia]. cbn [obind].
    destruct (set_spec next l (fcode l (done ++ l :: rest) + cnt l done + 1)%N) as (nx & E & L & Hx); [lia|].
    rewrite E. cbn [obind]. rewrite Es. rewrite (IH (done ++ [l]) nx); [|now rewrite <- app_assoc|exact Hl2|lia|].
    + cbn [obind map]. reflexivity.
    + intros k Hk. rewrite Hx, cnt_app, cnt_cons, cnt_nil.
      destruct (Nat.eqb_spec k l) as [->|Hk2].
      * f_equal. lia.
      * rewrite Hn by lia. f_equal. lia.
Qed.
Lemma huffman_codes_gen lengths : lengths <> [] -> list_max lengths <= 63 -> (N.of_nat (length lengths) <= 65536)%N ->
  (upto (list_max lengths) lengths <= 2 ^ 62)%N ->
  huffman_codes lengths = Val (map (fun '(l, r, n) => (msb l (fcode l lengths + r), n)) (plan 0 [] lengths)).
Proof.
  intros Hne Hm HS K. unfold huffman_codes.
  destruct lengths as [|x0 r0]; [contradiction|]. set (lengths := x0 :: r0) in *.
  destruct (count_lengths_spec lengths (repeat 0%N (list_max lengths + 1))) as (bl & E & L & H).
  { rewrite repeat_length. lia. }
  { apply Forall_forall. intros x Hx. apply repeat_spec in Hx. subst. change w64 with 18446744073709551616%N. lia. }
  rewrite repeat_length in L. rewrite E. cbn [obind].
  destruct (set_spec bl 0 0%N) as (bl0 & E0 & L0 & H0); [lia|]. rewrite E0. cbn [obind].
  destruct (first_codes_gen lengths bl0 (list_max lengths) Hm K) with (n := list_max lengths) (bits := 1)
    (next := repeat 0%N (list_max lengths + 1)) as (nx & E1 & L1 & H1).
  { intros k Hk. rewrite H0. destruct (Nat.eqb_spec k 0); [reflexivity|].
    rewrite (H k 0%N); [reflexivity|]. apply nth_error_repeat. lia. }
  { lia. } { lia. } { rewrite repeat_length. lia. }
  cbn [Nat.sub fcode] in E1. rewrite E1. cbn [obind].
  change 0%N with (N.of_nat (length (@nil nat))) at 1.
  rewrite (assign_gen lengths (list_max lengths) Hm K HS lengths [] nx); [reflexivity|reflexivity|apply list_max_le| |].
  - rewrite L1, repeat_length. lia.
  - intros l Hl. destruct (H1 l) as [_ B]. rewrite B by lia. f_equal. unfold cnt. cbn. lia.
Qed.

(** Tables of the stream: at most 65536 symbols, code lengths at most 15 *)
Definition small (lens : list nat) : Prop := lens <> [] /\ Forall (fun l => l <= 15) lens /\ (N.of_nat (length lens) <= 65536)%N.
Lemma upto_small m lens : m <= 15 -> (upto m lens <= N.of_nat (length lens) * 2 ^ 15)%N.
Proof.
  intros Hm. induction lens as [|x r IH]; [cbn; lia|]. cbn [upto fold_right length]. fold (upto m r).
  assert ((if Nat.eqb x 0 then 0 else if Nat.leb x m then 2 ^ N.of_nat (m - x) else 0) <= 2 ^ 15)%N; [|lia].
  destruct (Nat.eqb x 0); [vm_compute; discriminate|]. destruct (x <=? m); [|vm_compute; discriminate]. apply N.pow_le_mono_r; lia.
Qed.
Lemma list_max_small lens : Forall (fun l => l <= 15) lens -> list_max lens <= 15.
Proof. intros H. apply List.list_max_le. exact H. Qed.
Lemma small_codes lens : small lens ->
  huffman_codes lens = Val (map (fun '(l, r, n) => (msb l (fcode l lens + r), n)) (plan 0 [] lens)).
Proof.
  intros (Hne & H15 & Hl). pose proof (list_max_small lens H15) as Hm. apply huffman_codes_gen; [assumption|lia|lia|].
  etransitivity; [apply upto_small; assumption|]. change (2 ^ 62)%N with 4611686018427387904%N. change (2 ^ 15)%N with 32768%N. lia.
Qed.
Lemma next_code_fcode lens l : l <> 0 -> next_code lens l = fcode l lens.
Proof.
  intros Hl. destruct l as [|l]; [contradiction|]. clear Hl. cbn [fcode]. induction l as [|l IH].
  - cbn [next_code]. rewrite upto_0. reflexivity.
  - cbn [next_code] in *. rewrite IH. rewrite upto_S. unfold bl_count, cnt. cbn [Nat.eqb]. lia.
Qed.
Lemma code_of_fcode lens sym l : l <> 0 -> code_of lens sym l = (fcode l lens + cnt l (firstn sym lens))%N.
Proof. intros Hl. unfold code_of. rewrite next_code_fcode by assumption. unfold bl_count, cnt. destruct (Nat.eqb_spec l 0); [contradiction|reflexivity]. Qed.
Lemma lsb_app a b : lsb_first (a ++ b) = (lsb_first a + 2 ^ N.of_nat (length a) * lsb_first b)%N.
Proof.
  induction a as [|x a IH]; [cbn [app lsb_first length]; change (2 ^ N.of_nat 0)%N with 1%N; lia|]. cbn [app lsb_first length]. rewrite IH, Nat2N.inj_succ, N.pow_succ_r by lia. ring.
Qed.
Lemma msb_first_val c : msb_first c = val_of c.
Proof.
  unfold msb_first. induction c as [|b c IH]; [reflexivity|]. cbn [rev val_of]. rewrite lsb_app, rev_length, IH. cbn [lsb_first]. ring.
Qed.
Lemma msb_val_of c : Forall isbit c -> msb (length c) (val_of c) = c.
Proof.
  intros Hb. assert (val_of (msb (length c) (val_of c)) = val_of c) as E.
  { rewrite val_msb. apply N.mod_small. now apply val_bound. }
  assert (G : forall a b, length a = length b -> is_bits a -> is_bits b -> val_of a = val_of b -> a = b).
  { clear. induction a as [|x a IH]; intros [|y b] Hl Ha Hb Hv; try discriminate; [reflexivity|].
    injection Hl as Hl. inversion Ha as [|? ? Hx Ha']; inversion Hb as [|? ? Hy Hb']; subst. cbn [val_of] in Hv. rewrite Hl in Hv.
    pose proof (val_bound a Ha') as Ba. pose proof (val_bound b Hb') as Bb. rewrite Hl in Ba.
    assert (x = y /\ val_of a = val_of b) as [-> Ev]; [|f_equal; now apply IH].
    revert Hv Ba Bb. generalize (2 ^ N.of_nat (length b))%N. intros p Hv Ba Bb. destruct Hx, Hy; subst; split; try reflexivity; lia. }
  apply G; [apply msb_length|apply msb_bits|exact Hb|exact E].
Qed.
(** Which codes there are *)
Lemma small_in lens codes c n : small lens -> huffman_codes lens = Val codes ->
  (In (c, n) codes <-> exists sym l, n = N.of_nat sym /\ nth_error lens sym = Some l /\ l <> 0 /\ length c = l /\ Forall isbit c /\
     msb_first c = (code_of lens sym l mod 2 ^ N.of_nat l)%N).
Proof.
  intros Hs E. rewrite (small_codes lens Hs) in E. injection E as <-. rewrite in_map_iff. split.
  - intros ([[l r] n'] & H & Hin). injection H as <- <-. apply in_plan in Hin as (i & -> & Hi & Hl & ->). cbn [app].
    exists i, l. split; [lia|]. split; [assumption|]. split; [assumption|]. split; [apply msb_length|]. split; [apply msb_bits|].
    rewrite msb_first_val, val_msb, code_of_fcode by assumption. reflexivity.
  - intros (sym & l & -> & Hi & Hl & Hc & Hb & Hv). exists (l, cnt l (firstn sym lens), N.of_nat sym). split.
    + f_equal. rewrite msb_first_val, code_of_fcode, <- val_msb in Hv by assumption.
      transitivity (msb (length c) (val_of c)); [|now apply msb_val_of]. rewrite Hv, Hc.
      pose proof (msb_val_of _ (msb_bits l (fcode l lens + cnt l (firstn sym lens)))) as X. rewrite msb_length in X. now symmetry.
    + apply in_plan. exists sym. split; [lia|]. auto.
Qed.

(** ** The format made of a table *)
Section Sem.
Context (M : fmodule) (strict : bool) (um fl : scope format -> format -> list N -> nat -> Prop) (bs : list N).
Context (Hbs : Forall isbit bs).
Notation R := (fun s f i j v => SemN M strict um fl s f bs i j v).
Lemma is_bit_sem s b i j v : isbit b -> (R s (is_bit b) i j v <-> nth_error bs i = Some b /\ j = S i /\ v = VU B8 b).
Proof.
  intros Hb. unfold is_bit. split.
  - intros H. inversion H; subst. match goal with A : nth_error bs i = Some ?x |- _ => assert (isbit x) as Hx by (rewrite Forall_forall in Hbs; eapply Hbs, nth_error_In; eauto) end.
    match goal with A : ByteSetModel.contains _ ?x = true |- _ => assert (x = b) as ->; [|auto] end.
    destruct Hb, Hx; subst; try reflexivity; match goal with A : ByteSetModel.contains _ _ = true |- _ => vm_compute in A; discriminate end.
  - intros (Hn & -> & ->). constructor; [assumption|]. destruct Hb; subst; reflexivity.
Qed.
Lemma code_chain s c : forall i j vs, i <= length bs -> Forall isbit c ->
  (Chain (R s) (map is_bit c) i j vs <-> at_pos bs i c /\ j = i + length c /\ vs = map (VU B8) c).
Proof.
  induction c as [|b c IH]; intros i j vs Hi Hc; cbn [map length].
  - rewrite Nat.add_0_r. split; [intros H; inversion H; subst; rewrite at_pos_nil; auto|]. intros (_ & -> & ->). constructor.
  - inversion Hc as [|? ? Hb Hc']; subst. rewrite at_pos_cons. split.
    + intros H. inversion H as [|? ? ? ? ? ? ? H1 H2]; subst. apply is_bit_sem in H1 as (Hn & -> & ->); [|assumption].
      assert (S i <= length bs) by (apply nth_error_Some; congruence). apply IH in H2 as (Hp & -> & ->); [|assumption..].
      repeat split; auto. lia.
    + intros ((Hn & Hp) & -> & ->). assert (S i <= length bs) by (apply nth_error_Some; congruence).
      econstructor; [apply is_bit_sem; eauto|]. apply IH; [assumption..|]. repeat split; auto. lia.
Qed.
Lemma huffman_reads lens g : small lens -> huffman_format lens = Val g ->
  (forall s i j v, i <= length bs -> R s g i j v -> exists sym, Symbol lens bs i j sym /\ coerce_mapped v = VU B16 (N.of_nat sym)) /\
  (forall s i j sym, Symbol lens bs i j sym -> exists v, R s g i j v /\ coerce_mapped v = VU B16 (N.of_nat sym)).
Proof.
  intros Hs Hg. unfold huffman_format in Hg. destruct (huffman_codes lens) as [codes|] eqn:E; [|discriminate]. injection Hg as <-. split.
  - intros s i j v Hi H. inversion H; subst. match goal with A : nth_error (map _ _) _ = Some ?f, B : SemN _ _ _ _ s ?f _ _ _ _ |- _ => rename A into Hn; rename B into Hv end.
    rewrite nth_error_map in Hn. destruct (nth_error codes k) as [[c n]|] eqn:Ek; [|discriminate]. injection Hn as <-. cbn [fst snd] in Hv.
    apply nth_error_In in Ek. apply (small_in lens codes c n Hs E) in Ek as (sym & l & -> & Hsy & Hl & Hc & Hb & Hm).
    inversion Hv; subst. match goal with A : SemN _ _ _ _ _ (FTuple _) _ _ _ _ |- _ => inversion A; subst end.
    match goal with A : Chain _ _ _ _ _ |- _ => apply code_chain in A as (Hp & -> & ->); [|assumption..] end.
    match goal with A : eval_lambda _ _ _ = _ |- _ => injection A as <- end.
    exists sym. split; [|reflexivity]. exists (length c), c. repeat split; auto.
  - intros s i j sym (l & c & Hsy & Hl & Hc & Hp & -> & Hm).
    pose proof (at_pos_bits _ _ _ Hbs Hp) as Hb.
    assert (In (c, N.of_nat sym) codes) as Hin by (apply (small_in lens codes c _ Hs E); exists sym, l; auto 10).
    apply In_nth_error in Hin as (k & Hk). eexists. split.
    + eapply SemUnion with (k := k); [rewrite nth_error_map, Hk; reflexivity|]. cbn [fst snd]. eapply SemMap; [|reflexivity].
      eapply SemTuple. apply code_chain; [apply at_pos_len in Hp; lia|assumption|]. rewrite <- Hc. eauto.
    + reflexivity.
Qed.
Lemma Symbol_len lens i j sym : Symbol lens bs i j sym -> i < j /\ j <= length bs.
Proof. intros (l & c & _ & Hl & Hc & Hp & -> & _). apply at_pos_len in Hp. lia. Qed.
End Sem.
