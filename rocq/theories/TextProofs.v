(** Proofs about the UTF-8 formats. *)
From Coq Require Import String.
From Verif Require ByteSetModel ByteSetProofs.
From Verif Require Import Base BoundsModel DataModel NumericModel ValueModel FormatModel DecoderModel FormatSpec
  RecordModel RecordProofs TextModel TextSpec.
Open Scope nat_scope.

(** ** Positions *)
Lemma at_nil buf i : i <= length buf -> at_ buf i [].
Proof. intros H. exists (firstn i buf), (skipn i buf). cbn. rewrite firstn_skipn, firstn_length. split; [reflexivity|lia]. Qed.
Lemma at_cons buf i b bs : at_ buf i (b :: bs) <-> nth_error buf i = Some b /\ at_ buf (S i) bs.
Proof.
  split.
  - intros (p & q & -> & <-). split.
    + rewrite nth_error_app2, Nat.sub_diag by lia. reflexivity.
    + exists (p ++ [b]), q. rewrite <- app_assoc, app_length. cbn. split; [reflexivity|lia].
  - intros (Hn & p & q & -> & Hl). assert (Hp : nth_error p i = Some b) by (rewrite nth_error_app1 in Hn by lia; exact Hn).
    apply nth_error_split in Hp as (p1 & p2 & -> & Hi). rewrite app_length in Hl. cbn in Hl. destruct p2; [|cbn in Hl; lia].
    exists p1, q. rewrite <- app_assoc. split; [reflexivity|exact Hi].
Qed.
Lemma at_app buf i a b : at_ buf i (a ++ b) <-> at_ buf i a /\ at_ buf (i + length a) b.
Proof.
  revert i. induction a as [|x a IH]; intros i; cbn [app length].
  - rewrite Nat.add_0_r. split; [|tauto]. intros H. split; [|exact H]. destruct H as (p & q & -> & <-). apply at_nil. rewrite !app_length. lia.
  - rewrite !at_cons, IH. replace (i + S (length a)) with (S i + length a) by lia. tauto.
Qed.
Lemma at_len buf i bs : at_ buf i bs -> i + length bs <= length buf.
Proof. intros (p & q & -> & <-). rewrite !app_length. lia. Qed.

(** ** Arithmetic *)
Lemma lor_low a b k : (b < 2 ^ k)%N -> N.lor (a * 2 ^ k) b = (a * 2 ^ k + b)%N.
Proof.
  intros H. rewrite <- N.shiftl_mul_pow2.
  assert (HL : N.land (N.shiftl a k) b = 0%N).
  { apply N.bits_inj_0. intros n. rewrite N.land_spec. destruct (N.ltb_spec n k).
    - now rewrite N.shiftl_spec_low.
    - rewrite <- (N.mod_small b (2 ^ k)) by exact H. rewrite N.mod_pow2_bits_high by lia. apply andb_false_r. }
  rewrite <- N.lxor_lor by exact HL. symmetry. now apply N.add_nocarry_lxor.
Qed.

(** ** Expressions *)
Section Eval.
Context {D : Type} (s : scope D).
Lemma ev_as32 e a : eval_value e s = Val (VU B8 a) -> (a < 256)%N -> eval_value (EAs B32 e) s = Val (VU B32 a).
Proof.
  intros H Ha. unfold eval_value in *. cbn [eval]. rewrite H. cbn [obind value_as]. unfold fit.
  destruct (N.ltb_spec a (modulus B32)) as [_|Hm]; [reflexivity|]. exfalso. assert (modulus B32 = 4294967296)%N by reflexivity. lia.
Qed.
Lemma ev_shl e a k : eval_value e s = Val (VU B32 a) -> (k < 32)%N -> (a * 2 ^ k < 4294967296)%N ->
  eval_value (EArith AShl e (EU B32 k)) s = Val (VU B32 (a * 2 ^ k)%N).
Proof.
  intros H Hk Ha. unfold eval_value in *. cbn [eval]. rewrite H. cbn [obind omap coerce_mapped value_arith bw_eqb arith_apply].
  assert (Ek : as_u32 k = k) by (unfold as_u32; apply N.mod_small; lia). cbv zeta. rewrite Ek.
  change (nbits B32) with 32%N. destruct (N.ltb_spec k 32) as [_|]; [|lia]. cbn [omap obind coerce_mapped].
  rewrite N.shiftl_mul_pow2. change (modulus B32) with 4294967296%N. rewrite N.mod_small by exact Ha. reflexivity.
Qed.
Lemma ev_or e1 e2 a b k : eval_value e1 s = Val (VU B32 (a * 2 ^ k)%N) -> eval_value e2 s = Val (VU B32 b) -> (b < 2 ^ k)%N ->
  eval_value (EArith ABitOr e1 e2) s = Val (VU B32 (a * 2 ^ k + b)%N).
Proof.
  intros H1 H2 Hb. unfold eval_value in *. cbn [eval]. rewrite H1. cbn [obind]. rewrite H2. cbn [obind omap coerce_mapped value_arith bw_eqb arith_apply].
  now rewrite lor_low.
Qed.
Lemma ev_shift2 e1 e0 a b : eval_value e1 s = Val (VU B8 a) -> eval_value e0 s = Val (VU B8 b) -> (a < 64)%N -> (b < 64)%N ->
  eval_value (shift6_2 e1 e0) s = Val (VU B32 (a * 64 + b)%N).
Proof. intros H1 H0 Ha Hb. apply (ev_or _ _ a b 6); [apply ev_shl; [apply ev_as32; [exact H1|lia]|lia|cbn; lia]|apply ev_as32; [exact H0|lia]|cbn; lia]. Qed.
Lemma ev_shift3 e2 e1 e0 c a b : eval_value e2 s = Val (VU B8 c) -> eval_value e1 s = Val (VU B8 a) -> eval_value e0 s = Val (VU B8 b) ->
  (c < 64)%N -> (a < 64)%N -> (b < 64)%N -> eval_value (shift6_3 e2 e1 e0) s = Val (VU B32 (c * 4096 + (a * 64 + b))%N).
Proof.
  intros H2 H1 H0 Hc Ha Hb. apply (ev_or _ _ c (a * 64 + b) 12).
  - apply ev_shl; [apply ev_as32; [exact H2|lia]|lia|change (2 ^ 12)%N with 4096%N; lia].
  - now apply ev_shift2.
  - change (2 ^ 12)%N with 4096%N. lia.
Qed.
Lemma ev_shift4 e3 e2 e1 e0 d c a b : eval_value e3 s = Val (VU B8 d) -> eval_value e2 s = Val (VU B8 c) -> eval_value e1 s = Val (VU B8 a) -> eval_value e0 s = Val (VU B8 b) ->
  (d < 64)%N -> (c < 64)%N -> (a < 64)%N -> (b < 64)%N -> eval_value (shift6_4 e3 e2 e1 e0) s = Val (VU B32 (d * 262144 + (c * 4096 + (a * 64 + b)))%N).
Proof.
  intros H3 H2 H1 H0 Hd Hc Ha Hb. apply (ev_or _ _ d (c * 4096 + (a * 64 + b)) 18).
  - apply ev_shl; [apply ev_as32; [exact H3|lia]|lia|change (2 ^ 18)%N with 262144%N; lia].
  - now apply ev_shift3.
  - change (2 ^ 18)%N with 262144%N. lia.
Qed.
(** A value that stands for a byte. *)
Definition u8v (v : value) (a : N) : Prop := coerce_mapped v = VU B8 a.
End Eval.
Section Eval2.
Context {D : Type} (s : scope D).
Local Ltac bound H := unfold eval_value, evar; cbn [eval]; match goal with |- omap _ (match ?g with _ => _ end) = _ => let r := eval cbv in g in change g with r end; cbn [omap obind]; f_equal; exact H.
Local Ltac open_tuple v := unfold eval_lambda, lambda_tuple, eval_value; cbn [eval];
  match goal with |- omap _ (obind (match ?g with _ => _ end) _) = _ => change g with (Some v) end; cbn [obind];
  match goal with |- context [vmatches ?v ?sc ?p] => let r := eval cbv in (vmatches v sc p) in change (vmatches v sc p) with r end; cbv iota;
  match goal with |- omap coerce_mapped (omap coerce_mapped (eval ?e ?sc)) = _ => change (omap coerce_mapped (eval e sc)) with (eval_value e sc) end.
Lemma ev_pair v1 v0 a b : u8v v1 a -> u8v v0 b -> (a < 64)%N -> (b < 64)%N ->
  eval_lambda (lambda_tuple ["x1"; "x0"]%string (shift6_2 (evar "x1") (evar "x0"))) s (VTuple [v1; v0]) = Val (VU B32 (a * 64 + b)%N).
Proof.
  intros H1 H0 Ha Hb. open_tuple (VTuple [v1; v0]). rewrite (ev_shift2 _ _ _ a b); [reflexivity|bound H1|bound H0|exact Ha|exact Hb].
Qed.
Lemma ev_triple k v2 v1 v0 c a b : u8v v2 c -> u8v v1 a -> u8v v0 b -> (c < 64)%N -> (a < 64)%N -> (b < 64)%N ->
  eval_lambda (lambda_tuple ["x2"; "x1"; "x0"]%string (shift6_3 (evar "x2") (evar "x1") (evar "x0"))) s (VBranch k (VTuple [v2; v1; v0])) =
  Val (VU B32 (c * 4096 + (a * 64 + b))%N).
Proof.
  intros H2 H1 H0 Hc Ha Hb. open_tuple (VBranch k (VTuple [v2; v1; v0])).
  rewrite (ev_shift3 _ _ _ _ c a b); [reflexivity|bound H2|bound H1|bound H0|exact Hc|exact Ha|exact Hb].
Qed.
Lemma ev_quad k v3 v2 v1 v0 d c a b : u8v v3 d -> u8v v2 c -> u8v v1 a -> u8v v0 b -> (d < 64)%N -> (c < 64)%N -> (a < 64)%N -> (b < 64)%N ->
  eval_lambda (lambda_tuple ["x3"; "x2"; "x1"; "x0"]%string (shift6_4 (evar "x3") (evar "x2") (evar "x1") (evar "x0"))) s (VBranch k (VTuple [v3; v2; v1; v0])) =
  Val (VU B32 (d * 262144 + (c * 4096 + (a * 64 + b)))%N).
Proof.
  intros H3 H2 H1 H0 Hd Hc Ha Hb. open_tuple (VBranch k (VTuple [v3; v2; v1; v0])).
  rewrite (ev_shift4 _ _ _ _ _ d c a b); [reflexivity|bound H3|bound H2|bound H1|bound H0|exact Hd|exact Hc|exact Ha|exact Hb].
Qed.
Lemma ev_mask n k b : nth_error dropmasks n = Some (N.ones k) ->
  eval_lambda (ELambda (intern "raw") (EArith ABitAnd (evar "raw") (EU B8 (nth n dropmasks 0%N)))) s (VU B8 b) = Val (VU B8 (b mod 2 ^ k)%N).
Proof.
  intros H. unfold eval_lambda, eval_value, evar. cbn [eval get_value]. rewrite N.eqb_refl. cbn [omap obind coerce_mapped value_arith bw_eqb arith_apply].
  rewrite (nth_error_nth _ _ _ H), N.land_ones. reflexivity.
Qed.
End Eval2.

(** ** The formats *)
Section Formats.
Context (strict : bool) (um fl : scope format -> format -> list N -> nat -> Prop) (buf : list N).
Hypothesis bytes : Forall (fun b => (b < 256)%N) buf.
Notation sem := (SemN text_module strict um fl).
Definition masked (b : N) (k : N) : value := VMapped (VU B8 b) (VU B8 (b mod 2 ^ k)%N).
(** One byte in [lo..hi], of which the low [k] bits are kept. *)
Definition piece (f : format) (lo hi k : N) : Prop := forall s i j v,
  sem s f buf i j v <-> exists b, nth_error buf i = Some b /\ (lo <= b <= hi)%N /\ j = S i /\ v = masked b k.
Lemma nth_byte i b : nth_error buf i = Some b -> (b < 256)%N.
Proof. intros H. apply nth_error_In in H. rewrite Forall_forall in bytes. now apply bytes. Qed.
Lemma piece_drop n k bs lo hi : nth_error dropmasks n = Some (N.ones k) ->
  (forall b, (b < 256)%N -> ByteSetModel.contains bs b = N.leb lo b && N.leb b hi) ->
  piece (drop_n_msb n (FByte bs)) lo hi k.
Proof.
  intros Hn Hc s i j v. unfold drop_n_msb. split.
  - intros H. inversion H; subst. match goal with A : SemN _ _ _ _ _ (FByte _) _ _ _ _ |- _ => inversion A; subst end.
    match goal with A : nth_error buf _ = Some ?b |- _ => pose proof (nth_byte _ _ A); exists b end.
    match goal with A : eval_lambda _ _ _ = _ |- _ => rewrite (ev_mask _ n k _ Hn) in A; injection A as <- end.
    match goal with A : ByteSetModel.contains _ _ = true |- _ => rewrite Hc in A by assumption; repeat split; auto; lia end.
  - intros (b & Hb & Hr & -> & ->). eapply SemMap; [constructor; [exact Hb|]|now apply ev_mask].
    rewrite Hc by (eapply nth_byte; eauto). lia.
Qed.
Lemma range_set lo hi b : (lo < 256 -> hi < 256 -> b < 256 -> ByteSetModel.contains (ByteSetModel.from_range_incl lo hi) b = N.leb lo b && N.leb b hi)%N.
Proof. intros. now apply ByteSetProofs.contains_from_range_incl. Qed.
Lemma one_set a b : (a < 256 -> b < 256 -> ByteSetModel.contains (ByteSetModel.from_list [a]) b = N.leb a b && N.leb b a)%N.
Proof. intros. rewrite ByteSetProofs.contains_from_list by (assumption || (constructor; [assumption|constructor])). cbn [existsb]. lia. Qed.
Lemma call_sem level it s i j v : get_item text_module level = Some it -> it_args it = [] -> it_views it = [] ->
  (sem s (call level) buf i j v <-> sem (SMulti SEmpty []) (it_format it) buf i j v).
Proof.
  intros Hi Ha Hv. split.
  - intros H. inversion H; subst. match goal with A : get_item _ _ = Some ?x |- _ => assert (x = it) by congruence; subst x end.
    match goal with A : call_scope _ _ _ = _ |- _ => rewrite Ha, Hv in A; cbn in A; injection A as <- end. assumption.
  - intros H. econstructor; [exact Hi| |exact H]. rewrite Ha, Hv. reflexivity.
Qed.
Lemma piece_tail : piece tail 128 191 6.
Proof.
  intros s i j v. unfold tail. rewrite (call_sem 0 (Item [] [] utf8_tail)) by reflexivity. cbn [it_format].
  apply piece_drop; [reflexivity|]. intros. now apply range_set.
Qed.
Lemma piece_range n k lo hi : nth_error dropmasks n = Some (N.ones k) -> (lo < 256)%N -> (hi < 256)%N -> piece (drop_n_msb n (byte_in lo hi)) lo hi k.
Proof. intros. apply piece_drop; [assumption|]. intros. now apply range_set. Qed.
Lemma piece_one n k a : nth_error dropmasks n = Some (N.ones k) -> (a < 256)%N -> piece (drop_n_msb n (is_byte_f a)) a a k.
Proof. intros. apply piece_drop; [assumption|]. intros. now apply one_set. Qed.
Lemma tuple2 f1 f0 l1 h1 k1 l0 h0 k0 : piece f1 l1 h1 k1 -> piece f0 l0 h0 k0 -> forall s i j v,
  sem s (FTuple [f1; f0]) buf i j v <->
  exists b1 b0, at_ buf i [b1; b0] /\ (l1 <= b1 <= h1)%N /\ (l0 <= b0 <= h0)%N /\ j = i + 2 /\ v = VTuple [masked b1 k1; masked b0 k0].
Proof.
  intros P1 P0 s i j v. split.
  - intros H. inversion H; subst. 
    match goal with A : Chain _ _ _ _ _ |- _ => inversion A as [|? ? ? ? ? ? ? C1 A0]; subst; inversion A0 as [|? ? ? ? ? ? ? C0 A1]; subst; inversion A1; subst end.
    apply P1 in C1 as (b1 & Hn1 & R1 & -> & ->). apply P0 in C0 as (b0 & Hn0 & R0 & -> & ->).
    exists b1, b0. rewrite !at_cons. repeat split; auto; try lia. apply at_nil. apply nth_error_Some. congruence.
  - intros (b1 & b0 & Ha & R1 & R0 & -> & ->). rewrite !at_cons in Ha. destruct Ha as (Hn1 & Hn0 & _). constructor.
    replace (i + 2) with (S (S i)) by lia.
    econstructor; [apply P1; eauto|]. econstructor; [apply P0; eauto|]. constructor.
Qed.
Lemma tuple3 f2 f1 f0 l2 h2 k2 l1 h1 k1 l0 h0 k0 : piece f2 l2 h2 k2 -> piece f1 l1 h1 k1 -> piece f0 l0 h0 k0 -> forall s i j v,
  sem s (FTuple [f2; f1; f0]) buf i j v <->
  exists b2 b1 b0, at_ buf i [b2; b1; b0] /\ (l2 <= b2 <= h2)%N /\ (l1 <= b1 <= h1)%N /\ (l0 <= b0 <= h0)%N /\ j = i + 3 /\
    v = VTuple [masked b2 k2; masked b1 k1; masked b0 k0].
Proof.
  intros P2 P1 P0 s i j v. split.
  - intros H. inversion H; subst. 
    match goal with A : Chain _ _ _ _ _ |- _ => inversion A as [|? ? ? ? ? ? ? C2 A2]; subst; inversion A2 as [|? ? ? ? ? ? ? C1 A0]; subst; inversion A0 as [|? ? ? ? ? ? ? C0 A1]; subst; inversion A1; subst end.
    apply P2 in C2 as (b2 & Hn2 & R2 & -> & ->). apply P1 in C1 as (b1 & Hn1 & R1 & -> & ->). apply P0 in C0 as (b0 & Hn0 & R0 & -> & ->).
    exists b2, b1, b0. rewrite !at_cons. repeat split; auto; try lia. apply at_nil. apply nth_error_Some. congruence.
  - intros (b2 & b1 & b0 & Ha & R2 & R1 & R0 & -> & ->). rewrite !at_cons in Ha. destruct Ha as (Hn2 & Hn1 & Hn0 & _). constructor.
    replace (i + 3) with (S (S (S i))) by lia.
    econstructor; [apply P2; eauto|]. econstructor; [apply P1; eauto|]. econstructor; [apply P0; eauto|]. constructor.
Qed.
Lemma tuple4 f3 f2 f1 f0 l3 h3 k3 l2 h2 k2 l1 h1 k1 l0 h0 k0 : piece f3 l3 h3 k3 -> piece f2 l2 h2 k2 -> piece f1 l1 h1 k1 -> piece f0 l0 h0 k0 -> forall s i j v,
  sem s (FTuple [f3; f2; f1; f0]) buf i j v <->
  exists b3 b2 b1 b0, at_ buf i [b3; b2; b1; b0] /\ (l3 <= b3 <= h3)%N /\ (l2 <= b2 <= h2)%N /\ (l1 <= b1 <= h1)%N /\ (l0 <= b0 <= h0)%N /\ j = i + 4 /\
    v = VTuple [masked b3 k3; masked b2 k2; masked b1 k1; masked b0 k0].
Proof.
  intros P3 P2 P1 P0 s i j v. split.
  - intros H. inversion H; subst. 
    match goal with A : Chain _ _ _ _ _ |- _ => inversion A as [|? ? ? ? ? ? ? C3 A3]; subst; inversion A3 as [|? ? ? ? ? ? ? C2 A2]; subst; inversion A2 as [|? ? ? ? ? ? ? C1 A0]; subst; inversion A0 as [|? ? ? ? ? ? ? C0 A1]; subst; inversion A1; subst end.
    apply P3 in C3 as (b3 & Hn3 & R3 & -> & ->). apply P2 in C2 as (b2 & Hn2 & R2 & -> & ->). apply P1 in C1 as (b1 & Hn1 & R1 & -> & ->). apply P0 in C0 as (b0 & Hn0 & R0 & -> & ->).
    exists b3, b2, b1, b0. rewrite !at_cons. repeat split; auto; try lia. apply at_nil. apply nth_error_Some. congruence.
  - intros (b3 & b2 & b1 & b0 & Ha & R3 & R2 & R1 & R0 & -> & ->). rewrite !at_cons in Ha. destruct Ha as (Hn3 & Hn2 & Hn1 & Hn0 & _). constructor.
    replace (i + 4) with (S (S (S (S i)))) by lia.
    econstructor; [apply P3; eauto|]. econstructor; [apply P2; eauto|]. econstructor; [apply P1; eauto|]. econstructor; [apply P0; eauto|]. constructor.
Qed.
Lemma union_inv fs s i j v : sem s (FUnion fs) buf i j v <-> exists k f w, nth_error fs k = Some f /\ sem s f buf i j w /\ v = VBranch k w.
Proof. split; [intros H; inversion H; subst; eauto 8|]. intros (k & f & w & Hk & Hs & ->). econstructor; eauto. Qed.
Lemma map_inv f e s i j v : sem s (FMap f e) buf i j v <-> exists w u, sem s f buf i j w /\ eval_lambda e s w = Val u /\ v = VMapped w u.
Proof. split; [intros H; inversion H; subst; eauto 8|]. intros (w & u & Hw & Hu & ->). econstructor; eauto. Qed.
End Formats.

(** ** Encoding *)
Lemma encode1 c : (c < 128)%N -> encode c = [c].
Proof. intros H. unfold encode. destruct (N.ltb_spec c 128); [reflexivity|lia]. Qed.
Lemma encode2 b1 b0 : (194 <= b1 <= 223 -> 128 <= b0 <= 191 ->
  let c := b1 mod 2 ^ 5 * 64 + b0 mod 2 ^ 6 in encode c = [b1; b0] /\ 128 <= c < 2048)%N.
Proof.
  intros H1 H0. cbv zeta. change (2 ^ 5)%N with 32%N. change (2 ^ 6)%N with 64%N.
  replace (b1 mod 32)%N with (b1 - 192)%N by lia. replace (b0 mod 64)%N with (b0 - 128)%N by lia.
  assert (128 <= (b1 - 192) * 64 + (b0 - 128) < 2048)%N by lia. split; [|assumption]. unfold encode.
  destruct (N.ltb_spec ((b1 - 192) * 64 + (b0 - 128)) 128); [lia|]. destruct (N.ltb_spec ((b1 - 192) * 64 + (b0 - 128)) 2048); [|lia].
  f_equal; [lia|]. f_equal. lia.
Qed.
Lemma encode3 b2 b1 b0 : (224 <= b2 <= 239 -> 128 <= b1 <= 191 -> 128 <= b0 <= 191 -> (b2 = 224 -> 160 <= b1) -> (b2 = 237 -> b1 <= 159) ->
  let c := b2 mod 2 ^ 4 * 4096 + (b1 mod 2 ^ 6 * 64 + b0 mod 2 ^ 6) in encode c = [b2; b1; b0] /\ 2048 <= c < 65536 /\ scalar c = true)%N.
Proof.
  intros H2 H1 H0 Hlo Hhi. cbv zeta. change (2 ^ 4)%N with 16%N. change (2 ^ 6)%N with 64%N.
  replace (b2 mod 16)%N with (b2 - 224)%N by lia. replace (b1 mod 64)%N with (b1 - 128)%N by lia. replace (b0 mod 64)%N with (b0 - 128)%N by lia.
  set (c := ((b2 - 224) * 4096 + ((b1 - 128) * 64 + (b0 - 128)))%N).
  assert (2048 <= c < 65536)%N by (unfold c; lia). split; [|split; [assumption|]].
  - unfold encode. destruct (N.ltb_spec c 128); [lia|]. destruct (N.ltb_spec c 2048); [lia|]. destruct (N.ltb_spec c 65536); [|lia].
    f_equal; [unfold c; lia|]. f_equal; [unfold c; lia|]. f_equal. unfold c; lia.
  - unfold scalar. destruct (N.ltb_spec c 55296); [reflexivity|]. cbn [orb]. unfold c in *. lia.
Qed.
Lemma encode4 b3 b2 b1 b0 : (240 <= b3 <= 244 -> 128 <= b2 <= 191 -> 128 <= b1 <= 191 -> 128 <= b0 <= 191 -> (b3 = 240 -> 144 <= b2) -> (b3 = 244 -> b2 <= 143) ->
  let c := b3 mod 2 ^ 3 * 262144 + (b2 mod 2 ^ 6 * 4096 + (b1 mod 2 ^ 6 * 64 + b0 mod 2 ^ 6)) in encode c = [b3; b2; b1; b0] /\ 65536 <= c < 1114112)%N.
Proof.
  intros H3 H2 H1 H0 Hlo Hhi. cbv zeta. change (2 ^ 3)%N with 8%N. change (2 ^ 6)%N with 64%N.
  replace (b3 mod 8)%N with (b3 - 240)%N by lia.
  replace (b2 mod 64)%N with (b2 - 128)%N by lia. replace (b1 mod 64)%N with (b1 - 128)%N by lia. replace (b0 mod 64)%N with (b0 - 128)%N by lia.
  set (c := ((b3 - 240) * 262144 + ((b2 - 128) * 4096 + ((b1 - 128) * 64 + (b0 - 128))))%N).
  assert (65536 <= c < 1114112)%N by (unfold c; lia). split; [|assumption].
  unfold encode. destruct (N.ltb_spec c 128); [lia|]. destruct (N.ltb_spec c 2048); [lia|]. destruct (N.ltb_spec c 65536); [lia|].
  f_equal; [unfold c; lia|]. f_equal; [unfold c; lia|]. f_equal; [unfold c; lia|]. f_equal. unfold c; lia.
Qed.

(** ** Characters *)
Section Chars.
Context (strict : bool) (um fl : scope format -> format -> list N -> nat -> Prop) (buf : list N).
Hypothesis bytes : Forall (fun b => (b < 256)%N) buf.
Notation sem := (SemN text_module strict um fl).
(** [f] describes the encodings of the numbers in [Q], whose values are given by [val]. *)
Definition codes (val : N -> value) (f : format) (Q : N -> bool) : Prop :=
  (forall s i j v, sem s f buf i j v -> exists c, Q c = true /\ at_ buf i (encode c) /\ j = i + length (encode c) /\ coerce_mapped v = val c) /\
  (forall s i c, Q c = true -> at_ buf i (encode c) -> exists v, sem s f buf i (i + length (encode c)) v /\ coerce_mapped v = val c).
Lemma ev_byte {D} (s : scope D) b : (b < 256)%N -> eval_lambda (ELambda (intern "byte") (EAs B32 (evar "byte"))) s (VU B8 b) = Val (VU B32 b).
Proof.
  intros Hb. unfold eval_lambda.
  change (omap coerce_mapped (eval_value (EAs B32 (evar "byte")) (SSingle s (intern "byte") (VU B8 b))) = Val (VU B32 b)) || idtac.
  rewrite (ev_as32 _ _ b); [reflexivity| |assumption]. unfold eval_value, evar. cbn [eval get_value]. rewrite N.eqb_refl. reflexivity.
Qed.
Lemma ascii_nz_spec b : (b < 256)%N -> ByteSetModel.contains ascii_nz b = N.leb 1 b && N.ltb b 128.
Proof.
  intros Hb. unfold ascii_nz. rewrite ByteSetProofs.contains_intersection, ByteSetProofs.contains_complement, ByteSetProofs.contains_singleton by lia.
  assert (HV : ByteSetModel.contains valid_ascii b = N.ltb b 128).
  { assert (HA : forallb (fun b => Bool.eqb (ByteSetModel.contains valid_ascii b) (N.ltb b 128)) (map N.of_nat (seq 0 256)) = true) by (vm_compute; reflexivity).
    rewrite forallb_forall in HA. apply Bool.eqb_prop, HA. apply in_map_iff. exists (N.to_nat b). split; [lia|]. apply in_seq. lia. }
  rewrite HV. lia.
Qed.
Lemma codes1 : codes (VU B32) utf8_1_nz (fun c => N.leb 1 c && N.ltb c 128).
Proof.
  unfold utf8_1_nz. split.
  - intros s i j v H. apply map_inv in H as (w & u & Hw & Hu & ->). inversion Hw; subst. pose proof (nth_byte _ bytes _ _ H0) as Hb.
    rewrite ev_byte in Hu by assumption. injection Hu as <-. rewrite ascii_nz_spec in * by assumption. exists b.
    rewrite encode1 by lia. cbn [length]. repeat split; auto; [|lia]. apply at_cons. split; [assumption|]. apply at_nil. apply nth_error_Some. congruence.
  - intros s i c Hc Ha. rewrite encode1 in * by lia. apply at_cons in Ha as (Ha & _). pose proof (nth_byte _ bytes _ _ Ha) as Hb.
    eexists. split; [apply map_inv; eexists _, _; split; [|split; [apply ev_byte; eassumption|reflexivity]]|reflexivity].
    replace (i + length [c]) with (S i) by (cbn; lia). constructor; [assumption|]. now rewrite ascii_nz_spec.
Qed.
Ltac two := apply tuple2; [apply piece_range; [assumption|reflexivity|reflexivity..]|apply piece_tail; assumption].
Lemma split2 c : (128 <= c < 2048 -> exists b1 b0, encode c = [b1; b0] /\ 194 <= b1 <= 223 /\ 128 <= b0 <= 191 /\ c = b1 mod 2 ^ 5 * 64 + b0 mod 2 ^ 6)%N.
Proof.
  intros H. exists (192 + c / 64)%N, (128 + c mod 64)%N. change (2 ^ 5)%N with 32%N. change (2 ^ 6)%N with 64%N. split; [|lia].
  unfold encode. destruct (N.ltb_spec c 128); [lia|]. destruct (N.ltb_spec c 2048); [|lia]. reflexivity.
Qed.
Lemma split3 c : (2048 <= c < 65536 -> scalar c = true -> exists b2 b1 b0, encode c = [b2; b1; b0] /\ 224 <= b2 <= 239 /\ 128 <= b1 <= 191 /\ 128 <= b0 <= 191 /\
  (b2 = 224 -> 160 <= b1) /\ (b2 = 237 -> b1 <= 159) /\ c = b2 mod 2 ^ 4 * 4096 + (b1 mod 2 ^ 6 * 64 + b0 mod 2 ^ 6))%N.
Proof.
  intros H Hs. exists (224 + c / 4096)%N, (128 + c / 64 mod 64)%N, (128 + c mod 64)%N. change (2 ^ 4)%N with 16%N. change (2 ^ 6)%N with 64%N.
  unfold scalar in Hs. split; [|lia].
  unfold encode. destruct (N.ltb_spec c 128); [lia|]. destruct (N.ltb_spec c 2048); [lia|]. destruct (N.ltb_spec c 65536); [|lia]. reflexivity.
Qed.
Lemma split4 c : (65536 <= c < 1114112 -> exists b3 b2 b1 b0, encode c = [b3; b2; b1; b0] /\ 240 <= b3 <= 244 /\ 128 <= b2 <= 191 /\ 128 <= b1 <= 191 /\ 128 <= b0 <= 191 /\
  (b3 = 240 -> 144 <= b2) /\ (b3 = 244 -> b2 <= 143) /\ c = b3 mod 2 ^ 3 * 262144 + (b2 mod 2 ^ 6 * 4096 + (b1 mod 2 ^ 6 * 64 + b0 mod 2 ^ 6)))%N.
Proof.
  intros H. exists (240 + c / 262144)%N, (128 + c / 4096 mod 64)%N, (128 + c / 64 mod 64)%N, (128 + c mod 64)%N. change (2 ^ 3)%N with 8%N. change (2 ^ 6)%N with 64%N.
  split; [|lia].
  unfold encode. destruct (N.ltb_spec c 128); [lia|]. destruct (N.ltb_spec c 2048); [lia|]. destruct (N.ltb_spec c 65536); [lia|]. reflexivity.
Qed.
Lemma masked_u8 b k : u8v (masked b k) (b mod 2 ^ k)%N.
Proof. reflexivity. Qed.
Lemma low b k : (k <= 6 -> b mod 2 ^ k < 64)%N.
Proof. intros H. apply N.lt_le_trans with (2 ^ k)%N; [apply N.mod_lt, N.pow_nonzero; lia|]. change 64%N with (2 ^ 6)%N. apply N.pow_le_mono_r; lia. Qed.
Lemma codes2 : codes (VU B32) utf8_2 (fun c => N.leb 128 c && N.ltb c 2048).
Proof.
  eassert (HT : forall s i j v, _ <-> _) by (apply (tuple2 strict um fl buf (drop_n_msb 3 (byte_in 194 223)) (tail) 194 223 5 128 191 6); [apply piece_range; [assumption|reflexivity..]|now apply piece_tail]).
  unfold utf8_2. split.
  - intros s i j v H. apply map_inv in H as (w & u & Hw & Hu & ->). apply HT in Hw as (b1 & b0 & Ha & R1 & R0 & -> & ->).
    rewrite (ev_pair _ _ _ _ _ (masked_u8 b1 5) (masked_u8 b0 6)) in Hu by (apply low; lia). injection Hu as <-.
    destruct (encode2 b1 b0 R1 R0) as (He & Hr). eexists. split; [|split; [rewrite He; exact Ha|split; [rewrite He; reflexivity|reflexivity]]]. lia.
  - intros s i c Hc Ha. destruct (split2 c ltac:(lia)) as (b1 & b0 & He & R1 & R0 & ->). rewrite He in *.
    eexists. split; [apply map_inv; eexists _, _; split; [apply HT; exists b1, b0; repeat split; eauto; lia|split; [apply (ev_pair _ _ _ _ _ (masked_u8 b1 5) (masked_u8 b0 6)); apply low; lia|reflexivity]]|reflexivity].
Qed.
Lemma codes3 : codes (VU B32) utf8_3 (fun c => N.leb 2048 c && N.ltb c 65536 && scalar c).
Proof.
  assert (HT : forall s i j v, sem s (FUnion [
    FTuple [drop_n_msb 4 (is_byte_f 224); drop_n_msb 2 (byte_in 160 191); tail];
    FTuple [drop_n_msb 4 (byte_in 225 236); tail; tail];
    FTuple [drop_n_msb 4 (is_byte_f 237); drop_n_msb 2 (byte_in 128 159); tail];
    FTuple [drop_n_msb 4 (byte_in 238 239); tail; tail]]) buf i j v <->
    exists b2 b1 b0, at_ buf i [b2; b1; b0] /\ (224 <= b2 <= 239 /\ 128 <= b1 <= 191 /\ 128 <= b0 <= 191 /\ (b2 = 224 -> 160 <= b1) /\ (b2 = 237 -> b1 <= 159))%N /\ j = i + 3 /\
    exists k, k = (if N.eqb b2 224 then 0 else if N.leb b2 236 then 1 else if N.eqb b2 237 then 2 else 3) /\ v = VBranch k (VTuple [masked b2 4; masked b1 6; masked b0 6])).
  { eassert (T0 : forall s i j v, _ <-> _) by (apply (tuple3 strict um fl buf (drop_n_msb 4 (is_byte_f 224)) (drop_n_msb 2 (byte_in 160 191)) (tail) 224 224 4 160 191 6 128 191 6); [apply piece_one; [assumption|reflexivity..]|apply piece_range; [assumption|reflexivity..]|now apply piece_tail]).
    eassert (T1 : forall s i j v, _ <-> _) by (apply (tuple3 strict um fl buf (drop_n_msb 4 (byte_in 225 236)) (tail) (tail) 225 236 4 128 191 6 128 191 6); [apply piece_range; [assumption|reflexivity..]|now apply piece_tail|now apply piece_tail]).
    eassert (T2 : forall s i j v, _ <-> _) by (apply (tuple3 strict um fl buf (drop_n_msb 4 (is_byte_f 237)) (drop_n_msb 2 (byte_in 128 159)) (tail) 237 237 4 128 159 6 128 191 6); [apply piece_one; [assumption|reflexivity..]|apply piece_range; [assumption|reflexivity..]|now apply piece_tail]).
    eassert (T3 : forall s i j v, _ <-> _) by (apply (tuple3 strict um fl buf (drop_n_msb 4 (byte_in 238 239)) (tail) (tail) 238 239 4 128 191 6 128 191 6); [apply piece_range; [assumption|reflexivity..]|now apply piece_tail|now apply piece_tail]).
    intros s i j v. rewrite union_inv. split.
    - intros (k & f & w & Hk & Hs & ->). destruct k as [|[|[|[|k]]]]; cbn in Hk; [injection Hk as <-..|destruct k; discriminate];
      [apply T0 in Hs|apply T1 in Hs|apply T2 in Hs|apply T3 in Hs]; destruct Hs as (b2 & b1 & b0 & Ha & R2 & R1 & R0 & -> & ->);
      exists b2, b1, b0; (split; [exact Ha|]); (split; [lia|]); (split; [reflexivity|]); eexists; (split; [|reflexivity]).
      + destruct (N.eqb_spec b2 224); [reflexivity|lia].
      + destruct (N.eqb_spec b2 224); [lia|]. destruct (N.leb_spec b2 236); [reflexivity|lia].
      + destruct (N.eqb_spec b2 224); [lia|]. destruct (N.leb_spec b2 236); [lia|]. destruct (N.eqb_spec b2 237); [reflexivity|lia].
      + destruct (N.eqb_spec b2 224); [lia|]. destruct (N.leb_spec b2 236); [lia|]. destruct (N.eqb_spec b2 237); [lia|reflexivity].
    - intros (b2 & b1 & b0 & Ha & R & -> & k & -> & ->). destruct (N.eqb_spec b2 224); [|destruct (N.leb_spec b2 236); [|destruct (N.eqb_spec b2 237)]].
      + eexists 0, _, _. split; [reflexivity|]. split; [|reflexivity]. apply T0. exists b2, b1, b0. repeat split; auto; lia.
      + eexists 1, _, _. split; [reflexivity|]. split; [|reflexivity]. apply T1. exists b2, b1, b0. repeat split; auto; lia.
      + eexists 2, _, _. split; [reflexivity|]. split; [|reflexivity]. apply T2. exists b2, b1, b0. repeat split; auto; lia.
      + eexists 3, _, _. split; [reflexivity|]. split; [|reflexivity]. apply T3. exists b2, b1, b0. repeat split; auto; lia. }
  unfold utf8_3. split.
  - intros s i j v H. apply map_inv in H as (w & u & Hw & Hu & ->). apply HT in Hw as (b2 & b1 & b0 & Ha & (R2 & R1 & R0 & L & G) & -> & k & _ & ->).
    rewrite (ev_triple _ _ _ _ _ _ _ _ (masked_u8 b2 4) (masked_u8 b1 6) (masked_u8 b0 6)) in Hu by (apply low; lia). injection Hu as <-.
    destruct (encode3 b2 b1 b0 R2 R1 R0 L G) as (He & Hr & Hs). eexists. split; [|split; [rewrite He; exact Ha|split; [rewrite He; reflexivity|reflexivity]]].
    rewrite Hs. lia.
  - intros s i c Hc Ha. apply andb_prop in Hc as (Hc & Hs). destruct (split3 c ltac:(lia) Hs) as (b2 & b1 & b0 & He & R2 & R1 & R0 & L & G & ->). rewrite He in *.
    eexists. split; [apply map_inv; eexists _, _; split; [apply HT; exists b2, b1, b0; split; [exact Ha|]; split; [auto|]; split; [reflexivity|]; eexists; split; reflexivity|
      split; [apply (ev_triple _ _ _ _ _ _ _ _ (masked_u8 b2 4) (masked_u8 b1 6) (masked_u8 b0 6)); apply low; lia|reflexivity]]|reflexivity].
Qed.
Lemma codes4 : codes (VU B32) utf8_4 (fun c => N.leb 65536 c && N.ltb c 1114112).
Proof.
  assert (HT : forall s i j v, sem s (FUnion [
    FTuple [drop_n_msb 5 (is_byte_f 240); drop_n_msb 2 (byte_in 144 191); tail; tail];
    FTuple [drop_n_msb 5 (byte_in 241 243); tail; tail; tail];
    FTuple [drop_n_msb 5 (is_byte_f 244); drop_n_msb 2 (byte_in 128 143); tail; tail]]) buf i j v <->
    exists b3 b2 b1 b0, at_ buf i [b3; b2; b1; b0] /\ (240 <= b3 <= 244 /\ 128 <= b2 <= 191 /\ 128 <= b1 <= 191 /\ 128 <= b0 <= 191 /\ (b3 = 240 -> 144 <= b2) /\ (b3 = 244 -> b2 <= 143))%N /\ j = i + 4 /\
    exists k, k = (if N.eqb b3 240 then 0 else if N.leb b3 243 then 1 else 2) /\ v = VBranch k (VTuple [masked b3 3; masked b2 6; masked b1 6; masked b0 6])).
  { eassert (T0 : forall s i j v, _ <-> _) by (apply (tuple4 strict um fl buf (drop_n_msb 5 (is_byte_f 240)) (drop_n_msb 2 (byte_in 144 191)) (tail) (tail) 240 240 3 144 191 6 128 191 6 128 191 6); [apply piece_one; [assumption|reflexivity..]|apply piece_range; [assumption|reflexivity..]|now apply piece_tail|now apply piece_tail]).
    eassert (T1 : forall s i j v, _ <-> _) by (apply (tuple4 strict um fl buf (drop_n_msb 5 (byte_in 241 243)) (tail) (tail) (tail) 241 243 3 128 191 6 128 191 6 128 191 6); [apply piece_range; [assumption|reflexivity..]|now apply piece_tail..]).
    eassert (T2 : forall s i j v, _ <-> _) by (apply (tuple4 strict um fl buf (drop_n_msb 5 (is_byte_f 244)) (drop_n_msb 2 (byte_in 128 143)) (tail) (tail) 244 244 3 128 143 6 128 191 6 128 191 6); [apply piece_one; [assumption|reflexivity..]|apply piece_range; [assumption|reflexivity..]|now apply piece_tail..]).
    intros s i j v. rewrite union_inv. split.
    - intros (k & f & w & Hk & Hs & ->). destruct k as [|[|[|k]]]; cbn in Hk; [injection Hk as <-..|destruct k; discriminate];
      [apply T0 in Hs|apply T1 in Hs|apply T2 in Hs]; destruct Hs as (b3 & b2 & b1 & b0 & Ha & R3 & R2 & R1 & R0 & -> & ->);
      exists b3, b2, b1, b0; (split; [exact Ha|]); (split; [lia|]); (split; [reflexivity|]); eexists; (split; [|reflexivity]).
      + destruct (N.eqb_spec b3 240); [reflexivity|lia].
      + destruct (N.eqb_spec b3 240); [lia|]. destruct (N.leb_spec b3 243); [reflexivity|lia].
      + destruct (N.eqb_spec b3 240); [lia|]. destruct (N.leb_spec b3 243); [lia|reflexivity].
    - intros (b3 & b2 & b1 & b0 & Ha & R & -> & k & -> & ->). destruct (N.eqb_spec b3 240); [|destruct (N.leb_spec b3 243)].
      + eexists 0, _, _. split; [reflexivity|]. split; [|reflexivity]. apply T0. exists b3, b2, b1, b0. repeat split; auto; lia.
      + eexists 1, _, _. split; [reflexivity|]. split; [|reflexivity]. apply T1. exists b3, b2, b1, b0. repeat split; auto; lia.
      + eexists 2, _, _. split; [reflexivity|]. split; [|reflexivity]. apply T2. exists b3, b2, b1, b0. repeat split; auto; lia. }
  unfold utf8_4. split.
  - intros s i j v H. apply map_inv in H as (w & u & Hw & Hu & ->). apply HT in Hw as (b3 & b2 & b1 & b0 & Ha & (R3 & R2 & R1 & R0 & L & G) & -> & k & _ & ->).
    rewrite (ev_quad _ _ _ _ _ _ _ _ _ _ (masked_u8 b3 3) (masked_u8 b2 6) (masked_u8 b1 6) (masked_u8 b0 6)) in Hu by (apply low; lia). injection Hu as <-.
    destruct (encode4 b3 b2 b1 b0 R3 R2 R1 R0 L G) as (He & Hr). eexists. split; [|split; [rewrite He; exact Ha|split; [rewrite He; reflexivity|reflexivity]]].
    lia.
  - intros s i c Hc Ha. destruct (split4 c ltac:(lia)) as (b3 & b2 & b1 & b0 & He & R3 & R2 & R1 & R0 & L & G & ->). rewrite He in *.
    eexists. split; [apply map_inv; eexists _, _; split; [apply HT; exists b3, b2, b1, b0; split; [exact Ha|]; split; [auto 8|]; split; [reflexivity|]; eexists; split; reflexivity|
      split; [apply (ev_quad _ _ _ _ _ _ _ _ _ _ (masked_u8 b3 3) (masked_u8 b2 6) (masked_u8 b1 6) (masked_u8 b0 6)); apply low; lia|reflexivity]]|reflexivity].
Qed.
Lemma ev_char {D} (s : scope D) w c : coerce_mapped w = VU B32 c -> scalar c = true ->
  eval_lambda (ELambda (intern "codepoint") (EAsChar (evar "codepoint"))) s w = Val (VChar c).
Proof.
  intros Hw Hc. unfold eval_lambda, evar, eval_value. cbn [eval get_value]. rewrite N.eqb_refl. cbn [omap obind]. rewrite Hw. unfold value_as_char.
  unfold scalar in Hc. assert (HL : N.ltb c 4294967296 = true) by lia. rewrite HL. unfold char_from_u32.
  destruct (N.ltb c 55296 || (N.leb 57344 c && N.leb c 1114111)) eqn:E; [reflexivity|]. lia.
Qed.
Lemma codes_union val fs Qs : Forall2 (codes val) fs Qs -> codes val (FUnion fs) (fun c => existsb (fun Q => Q c) Qs).
Proof.
  intros HF. split.
  - intros s i j v H. apply union_inv in H as (k & f & w & Hk & Hs & ->).
    assert (HQ : exists Q, In Q Qs /\ codes val f Q).
    { clear - HF Hk. revert k Hk. induction HF as [|? ? ? ? Hc HF IH]; intros [|k] Hk; cbn in Hk; try discriminate.
      - injection Hk as ->. eexists. split; [now left|eassumption].
      - destruct (IH k Hk) as (Q & HQ & Hc'). exists Q. split; [now right|assumption]. }
    destruct HQ as (Q & HQ & (Hc & _)). destruct (Hc _ _ _ _ Hs) as (c & HQc & Ha & Hj & Hv). exists c. split; [|auto].
    apply existsb_exists. eauto.
  - intros s i c Hc Ha. apply existsb_exists in Hc as (Q & HQ & Hc).
    assert (Hf : exists k f, nth_error fs k = Some f /\ codes val f Q).
    { clear - HF HQ. induction HF as [|? ? ? ? Hc HF IH]; [contradiction|]. destruct HQ as [->|HQ]; [exists 0; eexists; split; [reflexivity|assumption]|].
      destruct (IH HQ) as (k & f & Hk & Hc'). exists (S k), f. auto. }
    destruct Hf as (k & f & Hk & (_ & Hf)). destruct (Hf s i c Hc Ha) as (v & Hv & Hval). exists (VBranch k v). split; [econstructor; eauto|assumption].
Qed.
Lemma codes_item val level it Q : get_item text_module level = Some it -> it_args it = [] -> it_views it = [] -> codes val (it_format it) Q -> codes val (call level) Q.
Proof.
  intros Hi Ha Hv (H1 & H2). split.
  - intros s i j v H. rewrite (call_sem _ _ _ _ level it) in H by assumption. eauto.
  - intros s i c Hc Hat. destruct (H2 (SMulti SEmpty []) i c Hc Hat) as (v & Hs & Hval). exists v. split; [|assumption]. now apply (call_sem _ _ _ _ level it).
Qed.
Lemma codes_ext val f Q Q' : (forall c, Q c = Q' c) -> codes val f Q -> codes val f Q'.
Proof.
  intros E (H1 & H2). split.
  - intros s i j v H. destruct (H1 _ _ _ _ H) as (c & Hc & R). exists c. now rewrite <- E.
  - intros s i c Hc. apply H2. now rewrite E.
Qed.
Lemma codes_char_nz : codes VChar utf8_char_nz (fun c => scalar c && negb (N.eqb c 0)).
Proof.
  assert (HU : codes (VU B32) (FUnion [utf8_1_nz; utf8_2; utf8_3; utf8_4]) (fun c => scalar c && negb (N.eqb c 0))).
  { eapply codes_ext; [|apply codes_union; constructor; [exact codes1|constructor; [exact codes2|constructor; [exact codes3|constructor; [exact codes4|constructor]]]]].
    intros c. cbn [existsb]. unfold scalar. lia. }
  destruct HU as (H1 & H2). unfold utf8_char_nz. split.
  - intros s i j v H. apply map_inv in H as (w & u & Hw & Hu & ->). destruct (H1 _ _ _ _ Hw) as (c & Hc & Ha & Hj & Hv). exists c. repeat split; auto.
    apply andb_prop in Hc as (Hc & _). rewrite (ev_char _ _ c) in Hu by assumption. injection Hu as <-. reflexivity.
  - intros s i c Hc Ha. destruct (H2 s i c Hc Ha) as (w & Hw & Hval). exists (VMapped w (VChar c)). split; [|reflexivity].
    econstructor; [exact Hw|]. apply andb_prop in Hc as (Hc & _). now apply ev_char.
Qed.
Lemma codes_char : codes VChar utf8_char scalar.
Proof.
  unfold utf8_char. eapply codes_ext; [|apply codes_union; constructor; [|constructor; [|constructor]]].
  2: instantiate (1 := fun c => N.eqb c 0).
  3: { apply (codes_item _ 1 (Item [] [] utf8_char_nz)); [reflexivity..|]. exact codes_char_nz. }
  - intros c. cbn [existsb]. unfold scalar. lia.
  - split.
    + intros s i j v H. apply map_inv in H as (w & u & Hw & Hu & ->). inversion Hw; subst. pose proof (nth_byte _ bytes _ _ H0) as Hb.
      unfold is_byte_f in *. rewrite one_set in * by (assumption || lia). assert (b = 0%N) as -> by lia. exists 0%N. rewrite encode1 by lia. cbn in Hu. injection Hu as <-.
      repeat split; cbn; try lia. apply at_cons. split; [assumption|]. apply at_nil, nth_error_Some. congruence.
    + intros s i c Hc Ha. assert (c = 0%N) as -> by lia. rewrite encode1 in * by lia. apply at_cons in Ha as (Ha & _).
      eexists. split; [apply map_inv; eexists _, _; split; [|split; [cbn; reflexivity|reflexivity]]|reflexivity].
      replace (i + length [0%N]) with (S i) by (cbn; lia). unfold is_byte_f. apply SemByte; [exact Ha|]. rewrite one_set; reflexivity.
Qed.
Lemma codes_repeat f Q : codes VChar f Q ->
  (forall s i j v, sem s (FRepeat f) buf i j v -> i <= length buf -> exists cs vs, forallb Q cs = true /\ at_ buf i (encode_all cs) /\ j = i + length (encode_all cs) /\ v = VSeq (Strict vs) /\ Forall2 (fun v c => coerce_mapped v = VChar c) vs cs) /\
  (forall s i cs, forallb Q cs = true -> at_ buf i (encode_all cs) -> exists vs, sem s (FRepeat f) buf i (i + length (encode_all cs)) (VSeq (Strict vs)) /\ Forall2 (fun v c => coerce_mapped v = VChar c) vs cs).
Proof.
  intros (H1 & H2). split.
  - intros s i j v H. inversion H; subst. match goal with A : Chain _ _ _ _ _ |- _ => rename A into HC end. clear H.
    revert i j vs HC. induction n as [|n IH]; intros i j vs HC Hi; cbn in HC; inversion HC; subst.
    + exists [], []. split; [reflexivity|]. split; [now apply at_nil|]. split; [cbn; lia|]. split; [reflexivity|constructor].
    + match goal with A : SemN _ _ _ _ _ _ _ _ _ _ |- _ => destruct (H1 _ _ _ _ A) as (c & Hc & Ha & -> & Hv) end.
      match goal with A : Chain _ _ _ _ _ |- _ => destruct (IH _ _ _ A ltac:(apply at_len in Ha; lia)) as (cs & vs' & Hcs & Has & -> & [= ->] & HF) end.
      exists (c :: cs), (v :: vs'). cbn [forallb encode_all flat_map]. rewrite Hc, Hcs. repeat split; auto.
      * apply at_app. auto.
      * fold (encode_all cs). rewrite app_length. lia.
  - intros s i cs. revert i. induction cs as [|c cs IH]; intros i Hc Ha; cbn [forallb encode_all flat_map] in *.
    + exists []. split; [|constructor]. rewrite Nat.add_0_r. apply SemRepeat with (n := 0). constructor.
    + fold (encode_all cs) in *. apply andb_prop in Hc as (Hc & Hcs). apply at_app in Ha as (Ha & Has). destruct (IH _ Hcs Has) as (vs & Hs & HF).
      destruct (H2 s i c Hc Ha) as (v & Hv & Hval). inversion Hs; subst. exists (v :: vs). split; [|constructor; auto].
      apply SemRepeat with (n := S n). cbn [repeat]. rewrite app_length, Nat.add_assoc. econstructor; eauto.
Qed.
End Chars.
