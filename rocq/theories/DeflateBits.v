(** Numbers and codes in the DEFLATE formats. *)
From Coq Require Import String.
From Verif Require ByteSetModel ByteSetProofs HuffmanModel HuffmanProofs HuffmanProps.
From Verif Require Import Base BoundsModel DataModel NumericModel ValueModel FormatModel DecoderModel FormatSpec
  RecordModel TextModel RecordSpec RecordProofs DeflateModel DeflateSpec.
Open Scope nat_scope.

Definition isbit (b : N) : Prop := (b = 0 \/ b = 1)%N.

Lemma Forall2_length_eq {A B} (R : A -> B -> Prop) l m : Forall2 R l m -> length l = length m.
Proof. induction 1; cbn; congruence. Qed.

(** ** Positions *)
Lemma bytes_at_pos bs i n l : bytes_at bs i n = Some l <-> length l = n /\ at_pos bs i l.
Proof.
  unfold bytes_at, at_pos. destruct (Nat.leb_spec (i + n) (length bs)) as [H|H].
  - split.
    + intros [= <-]. split; [rewrite firstn_length, skipn_length; lia|]. exists (firstn i bs), (skipn n (skipn i bs)).
      rewrite !firstn_skipn. split; [reflexivity|]. rewrite firstn_length. lia.
    + intros (<- & pre & post & -> & <-). f_equal. rewrite skipn_app, Nat.sub_diag, skipn_all. cbn [skipn app].
      now rewrite firstn_app, Nat.sub_diag, firstn_all, firstn_O, app_nil_r.
  - split; [discriminate|]. intros (<- & pre & post & -> & <-). rewrite !app_length in H. lia.
Qed.
Lemma at_pos_bits bs i l : Forall isbit bs -> at_pos bs i l -> Forall isbit l.
Proof. intros H (pre & post & -> & _). apply Forall_app in H as [_ H]. now apply Forall_app in H as [H _]. Qed.
Lemma at_pos_len bs i l : at_pos bs i l -> i + length l <= length bs.
Proof. intros (pre & post & -> & <-). rewrite !app_length. lia. Qed.
Lemma at_pos_cons bs i b l : at_pos bs i (b :: l) <-> nth_error bs i = Some b /\ at_pos bs (S i) l.
Proof.
  split.
  - intros (pre & post & -> & <-). split; [rewrite nth_error_app2, Nat.sub_diag by lia; reflexivity|].
    exists (pre ++ [b]), post. rewrite <- app_assoc. split; [reflexivity|]. rewrite app_length. cbn; lia.
  - intros (Hn & pre & post & -> & Hl). destruct (exists_last (l := pre)) as (p & b' & ->); [destruct pre; [discriminate|congruence]|].
    rewrite app_length in Hl. cbn in Hl. assert (length p = i) by lia. subst i.
    rewrite <- !app_assoc in Hn. rewrite nth_error_app2, Nat.sub_diag in Hn by lia. injection Hn as ->.
    exists p, post. split; [now rewrite <- app_assoc|reflexivity].
Qed.
Lemma at_pos_nil bs i : at_pos bs i [] <-> i <= length bs.
Proof.
  split; [intros H; apply at_pos_len in H; cbn in H; lia|]. intros H. exists (firstn i bs), (skipn i bs). cbn [app].
  split; [now rewrite firstn_skipn|]. rewrite firstn_length. lia.
Qed.
Lemma Num_len bs n i j x : Num bs n i j x -> j = i + n /\ j <= length bs.
Proof. intros (l & <- & H & -> & _). split; [reflexivity|]. now apply at_pos_len. Qed.
Lemma lsb_bound l : Forall isbit l -> (lsb_first l < 2 ^ N.of_nat (length l))%N.
Proof.
  induction 1 as [|b l Hb Hl IH]; [cbn; lia|]. cbn [lsb_first length]. rewrite Nat2N.inj_succ, N.pow_succ_r by lia.
  revert IH. generalize (2 ^ N.of_nat (length l))%N (lsb_first l). intros; destruct Hb; subst; lia.
Qed.
Lemma Num_bound bs n i j x : Forall isbit bs -> Num bs n i j x -> (x < 2 ^ N.of_nat n)%N.
Proof. intros H (l & <- & Hp & _ & ->). apply lsb_bound. eapply at_pos_bits; eauto. Qed.

(** ** Values of numbers *)
Lemma mapped_nominal v w n : coerce_mapped v = VU w n -> coerce_nominal v = VU w n.
Proof.
  revert v. fix IH 1. intros v. destruct v; cbn [coerce_mapped coerce_nominal]; intros H; try discriminate; try exact H; now apply IH.
Qed.
(** The shifted bits *)
Fixpoint ors (l : list N) : N := match l with [] => 0%N | [x] => x | x :: r => N.lor x (ors r) end.
Lemma ors_cons x r : r <> [] -> ors (x :: r) = N.lor x (ors r).
Proof. destruct r; [contradiction|reflexivity]. Qed.
Fixpoint join_ns (l : list N) : list N := match l with a :: b :: r => N.lor a b :: join_ns r | l => l end.
Lemma join_ns_ind (P : list N -> Prop) : P [] -> (forall a, P [a]) -> (forall a b r, P r -> P (a :: b :: r)) -> forall l, P l.
Proof. intros H0 H1 H2. fix IH 1. intros [|a [|b r]]; [exact H0|apply H1|apply H2, IH]. Qed.
Lemma join_ns_nil l : join_ns l = [] <-> l = [].
Proof. destruct l as [|a [|b r]]; cbn; split; congruence. Qed.
Lemma ors_join l : ors (join_ns l) = ors l.
Proof.
  induction l as [|a|a b r IH] using join_ns_ind; [reflexivity..|]. cbn [join_ns].
  destruct r as [|c r]; [reflexivity|]. rewrite !ors_cons by (rewrite ?join_ns_nil; discriminate). rewrite IH. symmetry. now rewrite N.lor_assoc.
Qed.
Lemma join_ns_len l : 2 <= length l -> length (join_ns l) < length l.
Proof.
  assert (G : forall l, length (join_ns l) <= length l).
  { clear. induction l as [|a|a b r IH] using join_ns_ind; cbn; lia. }
  destruct l as [|a [|b r]]; cbn; intros H; try lia. specialize (G r). lia.
Qed.
Section Values.
Context {D : Type} (w : bitwidth) (s : scope D).
Let is (e : expr) (n : N) : Prop := eval e s = Val (VU w n).
Lemma is_bitor a b x y : is a x -> is b y -> is (EArith ABitOr a b) (N.lor x y).
Proof. unfold is. intros Ha Hb. cbn [eval]. rewrite Ha, Hb. cbn. destruct w; reflexivity. Qed.
Lemma join_pairs_is es : forall ns, Forall2 is es ns -> Forall2 is (join_pairs es) (join_ns ns).
Proof.
  enough (G : forall k es ns, length es <= k -> Forall2 is es ns -> Forall2 is (join_pairs es) (join_ns ns)) by (intros; eapply G; eauto).
  induction k as [|k IH]; intros l ns Hk H.
  - destruct l; [|cbn in Hk; lia]. inversion H; subst. constructor.
  - destruct H as [|a x l' ns' Ha H]; [constructor|]. destruct H as [|b y l'' ns'' Hb H]; [repeat constructor; assumption|].
    cbn [join_pairs join_ns]. constructor; [now apply is_bitor|]. apply IH; [cbn in Hk; lia|assumption].
Qed.
Lemma balance_loop_is n : forall es ns, length es <= S n -> es <> [] -> Forall2 is es ns -> is (balance_loop n es) (ors ns).
Proof.
  induction n as [|n IH]; intros es ns Hl Hne H.
  - destruct H as [|a x l ns Ha H]; [contradiction|]. destruct H; [exact Ha|cbn in Hl; lia].
  - destruct H as [|a x l ns Ha H]; [contradiction|]. destruct H as [|b y l ns Hb H]; [exact Ha|].
    cbn [balance_loop]. rewrite <- ors_join. apply IH.
    + pose proof (join_pairs_is (a :: b :: l) (x :: y :: ns)) as G.
      assert (GL : length (join_pairs (a :: b :: l)) = length (join_ns (x :: y :: ns))).
      { apply Forall2_length_eq with (R := is). apply G. repeat constructor; assumption. }
      assert (HL : length l = length ns) by (now apply Forall2_length_eq with (R := is)).
      pose proof (join_ns_len (x :: y :: ns)) as G2. cbn [length] in *. lia.
    + cbn [join_pairs]. discriminate.
    + apply join_pairs_is. repeat constructor; assumption.
Qed.
End Values.

Fixpoint shifted (i : nat) (l : list N) : list N := match l with [] => [] | b :: r => (b * 2 ^ N.of_nat i)%N :: shifted (S i) r end.
Lemma ors_shifted l : forall i, Forall isbit l -> ors (shifted i l) = (lsb_first l * 2 ^ N.of_nat i)%N.
Proof.
  induction l as [|b l IH]; intros i H; [reflexivity|]. inversion H as [|? ? Hb Hl]; subst. cbn [shifted lsb_first].
  destruct l as [|c l].
  - cbn [shifted ors lsb_first]. lia.
  - rewrite ors_cons by (cbn; discriminate). rewrite IH by assumption. rewrite Nat2N.inj_succ, N.pow_succ_r by lia.
    set (m := lsb_first (c :: l)). replace (m * (2 * 2 ^ N.of_nat i))%N with (2 * m * 2 ^ N.of_nat i)%N by ring.
    rewrite <- !N.shiftl_mul_pow2, <- N.shiftl_lor. f_equal. destruct Hb; subst b; [rewrite N.lor_0_l, N.add_0_l; reflexivity|].
    destruct m; reflexivity.
Qed.
Lemma shifted_map l : forall i, shifted i l = map (fun k => (nth k l 0 * 2 ^ N.of_nat (i + k))%N) (seq 0 (length l)).
Proof.
  induction l as [|b l IH]; intros i; [reflexivity|]. cbn [shifted length seq map nth]. rewrite Nat.add_0_r. f_equal.
  rewrite IH, <- seq_shift, map_map. apply map_ext. intros k. f_equal. f_equal. lia.
Qed.
Lemma Forall2_map {A B C} (R : B -> C -> Prop) (f : A -> B) (g : A -> C) l : (forall a, In a l -> R (f a) (g a)) -> Forall2 R (map f l) (map g l).
Proof. induction l; cbn; constructor; auto. Qed.

(** The expressions of the two widths *)
Section BitsValue.
Context {D : Type} (s : scope D) (l : list N).
Context (Hs : get_value (intern "bits") s = Some (VTuple (map (VU B8) l))) (Hl : Forall isbit l).
Lemma proj_bit k : k < length l -> eval (ETupleProj (evar "bits") k) s = Val (VU B8 (nth k l 0%N)).
Proof.
  intros H. unfold evar. cbn [eval]. rewrite Hs. cbn [obind coerce_mapped tuple_proj]. rewrite nth_error_map.
  rewrite (nth_error_nth' l 0%N H). reflexivity.
Qed.
Lemma nth_bit k : isbit (nth k l 0%N).
Proof. destruct (Nat.lt_ge_cases k (length l)); [|rewrite nth_overflow by lia; now left]. rewrite Forall_forall in Hl. apply Hl, nth_In. lia. Qed.
Lemma shl_bit w e b k : eval e s = Val (VU w b) -> isbit b -> (N.of_nat k < nbits w)%N -> k <> 0 ->
  eval (EArith AShl e (EU w (N.of_nat k))) s = Val (VU w (b * 2 ^ N.of_nat k)).
Proof.
  intros He Hb Hk Hk0. cbn [eval]. rewrite He. cbn [omap obind coerce_mapped value_arith].
  assert (X : bw_eqb w w = true) by (destruct w; reflexivity). rewrite X. cbn [arith_apply]. unfold as_u32.
  assert (nbits w <= 64)%N by (destruct w; vm_compute; discriminate).
  rewrite N.mod_small by lia. destruct (N.ltb_spec (N.of_nat k) (nbits w)); [|lia]. cbn [omap obind].
  rewrite N.shiftl_mul_pow2. unfold modulus. rewrite N.mod_small; [reflexivity|].
  apply N.le_lt_trans with (2 ^ N.of_nat k)%N; [destruct Hb; subst b; lia|]. apply N.pow_lt_mono_r; lia.
Qed.
Lemma bits_value_u8_eval : 1 <= length l <= 8 -> eval (bits_value_u8 "bits" (length l)) s = Val (VU B8 (lsb_first l)).
Proof.
  intros Hn. unfold bits_value_u8. destruct (Nat.eqb_spec (length l) 0); [lia|]. destruct (Nat.eqb_spec (length l) 1) as [E|E].
  - rewrite proj_bit by lia. destruct l as [|b [|]]; try discriminate. cbn [nth lsb_first]. do 2 f_equal. lia.
  - unfold balanced_bitor. rewrite map_length, seq_length.
    replace (lsb_first l) with (ors (shifted 0 l)) by (rewrite ors_shifted by assumption; cbn; lia).
    apply (balance_loop_is B8).
    + rewrite map_length, seq_length. lia.
    + destruct (length l) as [|m]; [lia|]. discriminate.
    + rewrite shifted_map. apply Forall2_map. intros k Hk. apply in_seq in Hk. unfold shl_u8. cbn [Nat.add].
      destruct (Nat.eqb_spec k 0) as [->|]; [rewrite proj_bit by lia; do 2 f_equal; cbn; lia|].
      apply shl_bit; [apply proj_bit; lia|apply nth_bit| |assumption]. change (nbits B8) with 8%N. lia.
Qed.
Lemma as16 e b : eval e s = Val (VU B8 b) -> isbit b -> eval (EAs B16 e) s = Val (VU B16 b).
Proof. intros He Hb. cbn [eval]. rewrite He. cbn. unfold fit. destruct Hb; subst b; reflexivity. Qed.
Lemma bits_value_u16_eval : 1 <= length l <= 16 -> eval (bits_value_u16 "bits" (length l)) s = Val (VU B16 (lsb_first l)).
Proof.
  intros Hn. unfold bits_value_u16. destruct (Nat.eqb_spec (length l) 0); [lia|]. destruct (Nat.eqb_spec (length l) 1) as [E|E].
  - rewrite (as16 _ (nth 0 l 0%N)); [|apply proj_bit; lia|apply nth_bit]. destruct l as [|b [|]]; try discriminate. cbn [nth lsb_first]. do 2 f_equal. lia.
  - unfold balanced_bitor. rewrite map_length, seq_length.
    replace (lsb_first l) with (ors (shifted 0 l)) by (rewrite ors_shifted by assumption; cbn; lia).
    apply (balance_loop_is B16).
    + rewrite map_length, seq_length. lia.
    + destruct (length l) as [|m]; [lia|]. discriminate.
    + rewrite shifted_map. apply Forall2_map. intros k Hk. apply in_seq in Hk. unfold shl_u16. cbn [Nat.add].
      destruct (Nat.eqb_spec k 0) as [->|].
      { rewrite (as16 _ (nth 0 l 0%N)); [|apply proj_bit; lia|apply nth_bit]. do 2 f_equal. cbn; lia. }
      apply shl_bit; [apply as16; [apply proj_bit; lia|]; apply nth_bit|apply nth_bit| |assumption]. change (nbits B16) with 16%N. lia.
Qed.
End BitsValue.

(** ** Numbers *)
Section Sem.
Context (M : fmodule) (strict : bool) (um fl : scope format -> format -> list N -> nat -> Prop) (bs : list N).
Context (Hbs : Forall isbit bs).
Notation R := (fun s f i j v => SemN M strict um fl s f bs i j v).
Lemma bits_bytes : Forall (fun b => (b < 256)%N) bs.
Proof. eapply Forall_impl; [|exact Hbs]. intros b [-> | ->]; reflexivity. Qed.
(** [f] reads numbers of [n] bits. *)
Definition reads (w : bitwidth) (f : format) (n : nat) : Prop :=
  (forall s i j v, i <= length bs -> R s f i j v -> exists x, Num bs n i j x /\ coerce_mapped v = VU w x) /\
  (forall s i j x, Num bs n i j x -> exists v, R s f i j v /\ coerce_mapped v = VU w x).
Lemma bits_chain s n i j vs : Chain (R s) (repeat bit n) i j vs <->
  (n = 0 \/ i <= length bs) /\ exists l, length l = n /\ (n = 0 \/ at_pos bs i l) /\ j = i + n /\ vs = map (VU B8) l.
Proof.
  unfold bit. rewrite (bytes_chain _ _ _ _ _ bits_bytes). split.
  - intros (l & [->|H] & Hl & -> & ->).
    + split; [auto|]. exists l. repeat split; auto.
    + apply bytes_at_pos in H as [_ H]. split; [right; apply at_pos_len in H; lia|]. exists l. repeat split; auto.
  - intros (_ & l & Hl & [->|H] & -> & ->); exists l; repeat split; auto. right. now apply bytes_at_pos.
Qed.
Lemma Num_zero i : i <= length bs -> Num bs 0 i i 0%N.
Proof. intros H. exists []. repeat split; [now apply at_pos_nil|lia]. Qed.
Lemma tuple_bits n w body : n <> 0 ->
  (forall (s : scope format) l, get_value (intern "bits") s = Some (VTuple (map (VU B8) l)) -> Forall isbit l -> length l = n ->
     eval body s = Val (VU w (lsb_first l))) ->
  reads w (FMap (tuple_repeat n bit) (ELambda (intern "bits") body)) n.
Proof.
  intros Hn Hb. split.
  - intros s i j v Hi H. inversion H; subst. match goal with A : SemN _ _ _ _ _ (tuple_repeat _ _) _ _ _ _ |- _ => inversion A; subst end.
    match goal with A : Chain _ _ _ _ _ |- _ => apply bits_chain in A as (_ & l & Hl & [?|Hp] & -> & ->) end; [contradiction|].
    pose proof (at_pos_bits _ _ _ Hbs Hp) as Hlb.
    exists (lsb_first l). split; [exists l; auto|]. cbn [coerce_mapped].
    match goal with A : eval_lambda _ _ _ = _ |- _ => unfold eval_lambda, eval_value in A; rewrite (Hb _ l) in A; [injection A as <-|..] end; auto.
  - intros s i j x (l & Hl & Hp & -> & ->). pose proof (at_pos_bits _ _ _ Hbs Hp) as Hlb.
    exists (VMapped (VTuple (map (VU B8) l)) (VU w (lsb_first l))). split; [|reflexivity]. eapply SemMap.
    + eapply SemTuple. apply bits_chain. split; [right; apply at_pos_len in Hp; lia|]. exists l. repeat split; auto.
    + unfold eval_lambda, eval_value. rewrite (Hb _ l); auto.
Qed.
Lemma bits8_reads n : n <= 8 -> reads B8 (bits8 n) n.
Proof.
  intros H. unfold bits8. destruct (Nat.eqb_spec n 0) as [->|Hn].
  - split.
    + intros s i j v Hi Hv. inversion Hv; subst. exists 0%N. split; [now apply Num_zero|]. match goal with A : eval_value _ _ = _ |- _ => injection A as <- end. reflexivity.
    + intros s i j x (l & Hl & Hp & -> & ->). destruct l; [|discriminate]. exists (VU B8 0). split; [|reflexivity]. rewrite Nat.add_0_r. now constructor.
  - apply tuple_bits; [assumption|]. intros s l Hs Hlb <-. apply bits_value_u8_eval; auto. lia.
Qed.
Lemma bits16_reads n : n <= 16 -> reads B16 (bits16 n) n.
Proof.
  intros H. unfold bits16. destruct (Nat.eqb_spec n 0) as [->|Hn].
  - split.
    + intros s i j v Hi Hv. inversion Hv; subst. exists 0%N. split; [now apply Num_zero|]. match goal with A : eval_value _ _ = _ |- _ => injection A as <- end. reflexivity.
    + intros s i j x (l & Hl & Hp & -> & ->). destruct l; [|discriminate]. exists (VU B16 0). split; [|reflexivity]. rewrite Nat.add_0_r. now constructor.
  - apply tuple_bits; [assumption|]. intros s l Hs Hlb <-. apply bits_value_u16_eval; auto. lia.
Qed.
Lemma bit_reads : reads B8 bit 1.
Proof.
  split.
  - intros s i j v Hi Hv. apply (any_byte_sem _ _ _ _ _ bits_bytes) in Hv as (b & Hb & -> & ->). exists b. split; [|reflexivity].
    exists [b]. split; [reflexivity|]. split; [apply at_pos_cons; split; [assumption|]; apply at_pos_nil; apply nth_error_Some; congruence|].
    split; [lia|]. cbn. lia.
  - intros s i j x (l & Hl & Hp & -> & ->). destruct l as [|b [|]]; try discriminate. apply at_pos_cons in Hp as [Hb _].
    exists (VU B8 b). split; [|cbn; f_equal; lia]. apply (any_byte_sem _ _ _ _ _ bits_bytes). exists b. repeat split; auto. lia.
Qed.
(** The fixed distance codes *)
Lemma dist8_reads : 
  (forall s i j v, R s dist8 i j v -> exists d, FixedDistance bs i j d /\ coerce_mapped v = VU B8 (N.of_nat d)) /\
  (forall s i j d, FixedDistance bs i j d -> exists v, R s dist8 i j v /\ coerce_mapped v = VU B8 (N.of_nat d)).
Proof.
  assert (E : forall (s : scope format) l, length l = 5 -> Forall isbit l ->
    eval_lambda (ELambda (intern "bits") (dist_value_u8 "bits")) s (VSeq (Strict (map (VU B8) l))) = Val (VU B8 (msb_first l))).
  { intros s l Hl Hb. destruct l as [|a [|b [|c [|d [|e [|]]]]]]; try discriminate.
    repeat match goal with A : Forall _ (_ :: _) |- _ => inversion A; clear A; subst end.
    repeat match goal with A : isbit _ |- _ => destruct A; subst end; reflexivity. }
  split.
  - intros s i j v H. inversion H; subst. match goal with A : SemN _ _ _ _ _ (FRepeatCount _ _) _ _ _ _ |- _ => inversion A; subst end.
    match goal with A : eval_usize _ _ = _ |- _ => injection A as <- end. change (N.to_nat 5) with 5 in *.
    match goal with A : Chain _ _ _ _ _ |- _ => apply bits_chain in A as (_ & l & Hl & [?|Hp] & -> & ->) end; [discriminate|].
    pose proof (at_pos_bits _ _ _ Hbs Hp) as Hlb. rewrite (E _ l) in * by assumption.
    match goal with A : Val _ = Val _ |- _ => injection A as <- end.
    exists (N.to_nat (msb_first l)). cbn [coerce_mapped]. rewrite N2Nat.id. split; [|reflexivity]. exists l. rewrite N2Nat.id. auto.
  - intros s i j d (l & Hl & Hp & -> & Hd). pose proof (at_pos_bits _ _ _ Hbs Hp) as Hlb.
    eexists. split; [eapply SemMap; [eapply SemRepeatCount with (n := 5%N); [reflexivity|]|apply (E _ l); assumption]|].
    + apply bits_chain. split; [right; apply at_pos_len in Hp; lia|]. exists l. repeat split; auto.
    + cbn [coerce_mapped]. now rewrite Hd.
Qed.
End Sem.
