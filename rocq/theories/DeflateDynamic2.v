(** Proofs about the deflate format: blocks with their own codes. *)
From Coq Require Import String.
From Verif Require ByteSetModel HuffmanModel HuffmanProofs.
From Verif Require Import Base BoundsModel DataModel NumericModel.
From Verif Require Import ValueModel FormatModel DecoderModel FormatSpec
  RecordModel TextModel RecordSpec RecordProofs DeflateModel DeflateSpec DeflateBits DeflateHuffman DeflateProofs DeflateBlocks DeflateDynamic.
Open Scope nat_scope.

Lemma lens_firstn n l : firstn n (lens_value l) = lens_value (firstn n l).
Proof. apply firstn_map. Qed.
Lemma lens_skipn n l : skipn n (lens_value l) = lens_value (skipn n l).
Proof. apply skipn_map. Qed.
Lemma eval_sub {D} (s : scope D) e a b l x y : eval e s = Val (VSeq (Strict (lens_value l))) -> eval a s = Val (VU B32 x) -> eval b s = Val (VU B32 y) ->
  N.to_nat x + N.to_nat y <= length l -> eval_value (ESubSeq e a b) s = Val (VSeq (Strict (lens_value (firstn (N.to_nat y) (skipn (N.to_nat x) l))))).
Proof.
  intros He Ha Hb Hl. unfold eval_value. cbn [eval]. rewrite He, Ha, Hb. cbn [obind omap seq_of get_sequence coerce_mapped unwrap_usize seq_sub sk_sub_seq].
  unfold seq_of. cbn [get_sequence coerce_mapped obind]. unfold seq_sub, sk_sub_seq. cbv zeta. rewrite lens_skipn.
  assert (E1 : length (lens_value l) = length l) by apply map_length. rewrite E1. destruct (Nat.leb_spec (N.to_nat x) (length l)); [|lia].
  assert (E2 : length (lens_value (skipn (N.to_nat x) l)) = length l - N.to_nat x) by (unfold lens_value; rewrite map_length; apply skipn_length). rewrite E2.
  destruct (Nat.leb_spec (N.to_nat y) (length l - N.to_nat x)); [|lia]. cbn [omap coerce_mapped]. now rewrite lens_firstn.
Qed.

Lemma some_first {A} (P : A -> Prop) n l : Forall P l -> Forall P (firstn n l).
Proof. intros H. revert n. induction H; intros [|n]; cbn [firstn]; constructor; auto. Qed.
Lemma some_rest {A} (P : A -> Prop) n l : Forall P l -> Forall P (skipn n l).
Proof. intros H. revert n. induction H; intros [|n]; cbn [skipn]; auto. Qed.
Lemma order_len ls : length (in_order ls) <= 19.
Proof. unfold in_order. rewrite map_length, seq_length. lia. Qed.
Section Sem.
Context (M : fmodule) (strict : bool) (um fl : scope format -> format -> list N -> nat -> Prop) (bs : list N).
Context (Hbs : Forall isbit bs).
Context (base : nat) (Hitems : forall k it, nth_error (deflate_items base) k = Some it -> get_item M (base + k) = Some it).
Notation sem := (sem M strict um fl bs).
Notation den := (den M strict um fl bs).

Lemma dyn_lens (s : scope format) x lens : get_value (intern x) s = Some (VSeq (Strict (lens_value lens))) -> dyn_lengths (DHuffman (evar x) None) s = Val lens.
Proof.
  intros Hx. unfold dyn_lengths. rewrite (eval_var x _ _ Hx). cbn [obind]. rewrite (vec_usize lens); [reflexivity|].
  unfold lens_value. induction lens; cbn [map]; constructor; [reflexivity|]. clear. induction lens; cbn [map]; constructor; [reflexivity|assumption].
Qed.
Definition codes_are (es : list element) (v : value) : Prop :=
  exists ts vs, v = VSeq (Strict vs) /\ Forall2 step_is ts vs /\ Forall step_fits ts /\ es = flat_map step_elements ts.
Lemma codes_den s lits dists : small lits -> small dists -> length lits <= 288 ->
  get_value (intern "distance-alphabet-code-lengths-value") s = Some (VSeq (Strict (lens_value dists))) ->
  get_value (intern "literal-length-alphabet-code-lengths-value") s = Some (VSeq (Strict (lens_value lits))) ->
  den s (FDynamic (intern "distance-alphabet-format") (DHuffman (evar "distance-alphabet-code-lengths-value") None)
       (FDynamic (intern "literal-length-alphabet-format") (DHuffman (evar "literal-length-alphabet-code-lengths-value") None)
         (code_records (intern "literal-length-alphabet-format") (length_record base))))
    (fun i j es => (strict = true -> not_too_many lits /\ not_too_many dists) /\ Elements false bs (Symbol lits bs) (Symbol dists bs) i j es) codes_are.
Proof.
  intros Hl Hd H288 Hgd Hgl. destruct (huffman_some _ Hl) as (gl & Egl). destruct (huffman_some _ Hd) as (gd & Egd).
  set (s1 := SDecoder s (intern "distance-alphabet-format") gd). set (s2 := SDecoder s1 (intern "literal-length-alphabet-format") gl).
  pose (ok := fun s : scope format => get_decoder (intern "literal-length-alphabet-format") s = Some gl /\ get_decoder (intern "distance-alphabet-format") s = Some gd).
  pose proof (dyn_lens s _ _ Hgd) as Dd.
  assert (Dl : dyn_lengths (DHuffman (evar "literal-length-alphabet-code-lengths-value") None) s1 = Val lits) by (eapply dyn_lens; exact Hgl).
  destruct (code_records_den M strict um fl bs Hbs base Hitems ok (Symbol lits bs) (Symbol dists bs) (intern "literal-length-alphabet-format")
    (FApply (intern "distance-alphabet-format")) (evar "distance-code") s2) as [A B].
  - split; intros; assumption.
  - intros s0 [_ H0]. destruct (apply_den M strict um fl bs Hbs s0 _ gd dists Hd Egd H0) as [C D].
    assert (Harg : forall d v, is B16 (N.of_nat d) v -> code_arg (evar "distance-code") d v).
    { intros d v Hv s' Hs'. unfold eval_value. rewrite (eval_var _ _ _ Hs'). cbn [omap]. now rewrite Hv. }
    split; [intros i j v Hi H; apply C in H as (d & Hd' & E); eauto|]. intros i j d Hd'. destruct (D _ _ _ Hd') as (v & Hv & E). eauto.
  - intros i j d H. apply (Symbol_len _ _ _ _ _ H).
  - intros s0 [H0 _]. eapply apply_den; [exact Hbs|exact Hl|exact Egl|exact H0].
  - intros i j sym H. split; [apply (Symbol_len _ _ _ _ _ H)|]. apply Symbol_table in H. lia.
  - split; reflexivity.
  - split.
    + intros i j v Hi H. apply (sem_dynamic M strict um fl bs base Hitems _ _ _ _ _ _ _ _ _ Dd Hd Egd) in H as [Kd H]. apply (sem_dynamic M strict um fl bs base Hitems _ _ _ _ _ _ _ _ _ Dl Hl Egl) in H as [Kl H].
      apply A in H as (es & HA & E); [|assumption]. exists es. split; [split; [auto|assumption]|exact E].
    + intros i j es [K H]. destruct (B _ _ _ H) as (v & Hv & E). exists v. split; [|exact E]. apply (sem_dynamic M strict um fl bs base Hitems _ _ _ _ _ _ _ _ _ Dd Hd Egd). split; [intros Et; apply (K Et)|].
      apply (sem_dynamic M strict um fl bs base Hitems _ _ _ _ _ _ _ _ _ Dl Hl Egl). split; [intros Et; apply (K Et)|exact Hv].
Qed.
Lemma Nums_bound n i j xs : Nums bs n i j xs -> Forall (fun x => (x < 2 ^ N.of_nat n)%N) xs.
Proof. intros H. induction H as [|i j k x xs Hx H IH]; constructor; [apply (Num_bound _ _ _ _ _ Hbs Hx)|assumption]. Qed.
(** The two tables of a block *)
Lemma tables_small lens total i j all nlit ndist : length lens <= 19 -> Lengths false bs lens total i j [] all -> total = nlit + ndist -> 0 < nlit -> 0 < ndist -> total <= 500 ->
  small (firstn nlit all) /\ small (firstn ndist (skipn nlit all)) /\ total <= length all /\ (i <= length bs -> j <= length bs).
Proof.
  intros Hlen HL -> Hn1 Hn2 Ht. pose proof (lengths_small M bs base Hitems _ _ _ _ _ _ HL (Forall_nil _)) as H15.
  apply (lengths_run M bs base Hitems) in HL as (ts & HR); [|assumption|constructor]. destruct (run_facts M bs Hbs base Hitems _ _ _ _ _ _ _ Hlen HR) as (_ & Hge & _ & Hp & Hle). cbn [length] in Hle. specialize (Hle ltac:(lia)).
  assert (Hsm : forall l, l <> [] -> Forall (fun l => l <= 15) l -> length l <= 700 -> small l).
  { intros l H1 H2 H3. split; [assumption|]. split; [assumption|]. lia. }
  split; [|split; [|split; assumption]].
  - apply Hsm; [|apply some_first, H15|rewrite firstn_length; lia]. intros E. apply (f_equal (@length nat)) in E. rewrite firstn_length in E. cbn [length] in E. lia.
  - apply Hsm; [|apply some_first, some_rest, H15|rewrite firstn_length, skipn_length; lia]. intros E. apply (f_equal (@length nat)) in E. rewrite firstn_length, skipn_length in E. cbn [length] in E. lia.
Qed.
Lemma eval_width {D} x (s : scope D) v n k : get_value (intern x) s = Some v -> is B8 n v -> (n < 256)%N -> (k < 1000)%N ->
  eval (EArith AAdd (EAs B32 (evar x)) (EU B32 k)) s = Val (VU B32 (n + k)).
Proof.
  intros Hx Hv Hn Hk. apply (eval_add B32 _ _ _ (VU B32 n) (VU B32 k)); [|reflexivity|reflexivity|reflexivity|change (modulus B32) with 4294967296%N; lia].
  eapply eval_as; [apply eval_var; exact Hx|exact Hv|change (modulus B32) with 4294967296%N; lia].
Qed.
Lemma eval_is {D} w x (s : scope D) v n : get_value (intern x) s = Some v -> is w n v -> eval_value (evar x) s = Val (VU w n).
Proof. intros Hx Hv. unfold eval_value. rewrite (eval_var _ _ _ Hx). cbn [omap]. now rewrite Hv. Qed.
Notation lld := "literal-length-distance-alphabet-code-lengths"%string.
Notation lldv := "literal-length-distance-alphabet-code-lengths-value"%string.
Notation litv := "literal-length-alphabet-code-lengths-value"%string.
Notation distv := "distance-alphabet-code-lengths-value"%string.
Notation cla := "code-length-alphabet-code-lengths"%string.
(** The scope after the first fields *)
Definition s3 v1 v2 v3 : scope format := SSingle (SSingle (SSingle (SMulti SEmpty []) (intern "hlit") v1) (intern "hdist") v2) (intern "hclen") v3.
Definition s5 v1 v2 v3 v4 v5 := SSingle (SSingle (s3 v1 v2 v3) (intern cla) v4) (intern lld) v5.
Definition s6 v1 v2 v3 v4 v5 v6 := SSingle (s5 v1 v2 v3 v4 v5) (intern lldv) v6.
Definition s8 v1 v2 v3 v4 v5 v6 v7 v8 := SSingle (SSingle (s6 v1 v2 v3 v4 v5 v6) (intern litv) v7) (intern distv) v8.
Lemma count_eval v1 v2 v3 n : is B8 n v3 -> (n < 16)%N -> eval_usize (EArith AAdd (evar "hclen") (EU B8 4)) (s3 v1 v2 v3) = Val (n + 4)%N.
Proof.
  intros Hv Hn. unfold eval_usize, eval_value. erewrite (eval_add B8 _ _ _ v3 (VU B8 4) n 4); [reflexivity|apply eval_var, get_same|reflexivity|exact Hv|reflexivity|change (modulus B8) with 256%N; lia].
Qed.
Lemma lld_in_place v1 v2 v3 hlit hdist ls vs : is B8 hlit v1 -> is B8 hdist v2 -> (hlit < 32)%N -> (hdist < 32)%N -> Forall2 (is B8) ls vs -> length ls <= 19 -> Forall (fun l => (l < 8)%N) ls ->
  den (SSingle (s3 v1 v2 v3) (intern cla) (VSeq (Strict vs))) (call_args (l_lld_lengths base) [evar "hlit"; evar "hdist"; evar cla])
    (fun i j all => (strict = true -> not_too_many (in_order (map N.to_nat ls))) /\ Lengths false bs (in_order (map N.to_nat ls)) (N.to_nat hlit + 257 + (N.to_nat hdist + 1)) i j [] all) lens_is.
Proof.
  intros H1 H2 Hl Hd HF Hlen Hb. eapply lld_den; eauto.
  - eapply eval_is; [|exact H1]. unfold s3. look. reflexivity.
  - eapply eval_is; [|exact H2]. unfold s3. look. reflexivity.
  - unfold eval_value. rewrite (eval_var cla _ (VSeq (Strict vs))) by apply get_same. reflexivity.
Qed.
Lemma value_in_place v1 v2 v3 v4 vs ts all : Forall2 cl_is ts vs -> Forall cl_fits ts -> expand [] ts = Some all ->
  eval_value (expand_lengths (evar lld)) (s5 v1 v2 v3 v4 (VSeq (Strict vs))) = Val (VSeq (Strict (lens_value all))).
Proof.
  intros HF Hf E. rewrite (expand_eval _ _ vs ts); [now rewrite E| |assumption|assumption]. unfold eval_value. rewrite (eval_var lld _ (VSeq (Strict vs))) by apply get_same. reflexivity.
Qed.
Lemma lits_in_place v1 v2 v3 v4 v5 hlit all : is B8 hlit v1 -> (hlit < 32)%N -> N.to_nat hlit + 257 <= length all ->
  eval_value (ESubSeq (evar lldv) (EU B32 0) (EArith AAdd (EAs B32 (evar "hlit")) (EU B32 257))) (s6 v1 v2 v3 v4 v5 (VSeq (Strict (lens_value all)))) =
    Val (VSeq (Strict (lens_value (firstn (N.to_nat hlit + 257) all)))).
Proof.
  intros Hv Hl Hlen. rewrite (eval_sub _ _ _ _ all 0 (hlit + 257)); [now replace (N.to_nat (hlit + 257)) with (N.to_nat hlit + 257) by lia| | | |].
  - apply eval_var, get_same.
  - reflexivity.
  - eapply eval_width; [|exact Hv|lia|lia]. unfold s6, s5, s3. look. reflexivity.
  - lia.
Qed.
Lemma dists_in_place v1 v2 v3 v4 v5 v7 hlit hdist all : is B8 hlit v1 -> is B8 hdist v2 -> (hlit < 32)%N -> (hdist < 32)%N -> N.to_nat hlit + 257 + (N.to_nat hdist + 1) <= length all ->
  eval_value (ESubSeq (evar lldv) (EArith AAdd (EAs B32 (evar "hlit")) (EU B32 257)) (EArith AAdd (EAs B32 (evar "hdist")) (EU B32 1)))
    (SSingle (s6 v1 v2 v3 v4 v5 (VSeq (Strict (lens_value all)))) (intern litv) v7) =
    Val (VSeq (Strict (lens_value (firstn (N.to_nat hdist + 1) (skipn (N.to_nat hlit + 257) all))))).
Proof.
  intros Hv Hv2 Hl Hl2 Hlen. rewrite (eval_sub _ _ _ _ all (hlit + 257) (hdist + 1)).
  - replace (N.to_nat (hlit + 257)) with (N.to_nat hlit + 257) by lia. now replace (N.to_nat (hdist + 1)) with (N.to_nat hdist + 1) by lia.
  - apply eval_var. unfold s6. look. reflexivity.
  - eapply eval_width; [|exact Hv|lia|lia]. unfold s6, s5, s3. look. reflexivity.
  - eapply eval_width; [|exact Hv2|lia|lia]. unfold s6, s5, s3. look. reflexivity.
  - lia.
Qed.
Lemma dynamic_inv i j es : Body false strict bs 2 i j es -> exists i1 i2 i3 i4 i5 hlit hdist hclen ls lens,
  Num bs 5 i i1 hlit /\ Num bs 5 i1 i2 hdist /\ Num bs 4 i2 i3 hclen /\ length ls = N.to_nat hclen + 4 /\ Nums bs 3 i3 i4 ls /\
  Lengths false bs (in_order (map N.to_nat ls)) (N.to_nat hlit + 257 + (N.to_nat hdist + 1)) i4 i5 [] lens /\
  (strict = true -> not_too_many (in_order (map N.to_nat ls)) /\ not_too_many (firstn (N.to_nat hlit + 257) lens) /\ not_too_many (firstn (N.to_nat hdist + 1) (skipn (N.to_nat hlit + 257) lens))) /\
  Elements false bs (Symbol (firstn (N.to_nat hlit + 257) lens) bs) (Symbol (firstn (N.to_nat hdist + 1) (skipn (N.to_nat hlit + 257) lens)) bs) i5 j es.
Proof. intros H. inversion H; subst. do 10 eexists. split; [eassumption|]. split; [eassumption|]. split; [eassumption|]. split; [eassumption|]. split; [eassumption|]. split; [eassumption|]. split; assumption. Qed.
Lemma dynamic_huffman_den s : den s (call (l_dynamic_huffman base)) (Body false strict bs 2) body_is.
Proof.
  assert (Hit : get_item M (l_dynamic_huffman base) = Some (dynamic_huffman base)) by (apply Hitems; reflexivity).
  assert (Hcall : forall i j v, sem s (call (l_dynamic_huffman base)) i j v <-> sem (SMulti SEmpty []) (it_format (dynamic_huffman base)) i j v).
  { intros i j v. unfold call. rewrite (sem_item _ _ _ _ _ s _ _ _ i j v Hit eq_refl). exact (ex_val _ (fun es => sem (SMulti SEmpty es) (it_format (dynamic_huffman base)) i j v)). }
  assert (H5 : forall i j x, Num bs 5 i j x -> (x < 32)%N) by (intros i j x H; exact (Num_bound _ _ _ _ _ Hbs H)).
  assert (H4 : forall i j x, Num bs 4 i j x -> (x < 16)%N) by (intros i j x H; exact (Num_bound _ _ _ _ _ Hbs H)).
  split.
  - intros i j v Hi H. apply Hcall in H. cbn [it_format dynamic_huffman] in H. apply record_sem in H as (rs & HF & ->); [|reflexivity].
    apply fields_cons in HF as (j1 & v1 & rs1 & A1 & HF & ->). apply fields_cons in HF as (j2 & v2 & rs2 & A2 & HF & ->). apply fields_cons in HF as (j3 & v3 & rs3 & A3 & HF & ->).
    apply fields_cons in HF as (j4 & v4 & rs4 & A4 & HF & ->). apply fields_cons in HF as (j5 & v5 & rs5 & A5 & HF & ->). apply fields_cons in HF as (j6 & v6 & rs6 & A6 & HF & ->).
    apply fields_cons in HF as (j7 & v7 & rs7 & A7 & HF & ->). apply fields_cons in HF as (j8 & v8 & rs8 & A8 & HF & ->). apply fields_cons in HF as (j9 & v9 & rs9 & A9 & HF & ->).
    apply fields_cons in HF as (j10 & v10 & rs10 & A10 & HF & ->). apply fields_nil in HF as [-> ->].
    cbn [snd fst] in A1, A2, A3, A4, A5, A6, A7, A8, A9, A10.
    apply bits8_den in A1 as (hlit & N1 & V1); [|assumption|lia|assumption]. pose proof (Num_len _ _ _ _ _ N1) as L1.
    apply bits8_den in A2 as (hdist & N2 & V2); [|assumption|lia|lia]. pose proof (Num_len _ _ _ _ _ N2) as L2.
    apply bits8_den in A3 as (hclen & N3 & V3); [|assumption|lia|lia]. pose proof (Num_len _ _ _ _ _ N3) as L3.
    pose proof (H5 _ _ _ N1) as B1. pose proof (H5 _ _ _ N2) as B2. pose proof (H4 _ _ _ N3) as B3.
    apply (count_den M strict um fl bs B8 3 _ _ _ (hclen + 4)) in A4 as (ls & (_ & Hll & Hls) & vs & -> & Hall); [|apply bits8_den; [assumption|lia]|exact (count_eval v1 v2 v3 hclen V3 B3)|lia].
    pose proof (Nums_len _ _ _ _ _ ltac:(apply L3) Hls) as L4.
    assert (Hl19 : length ls <= 19) by lia. pose proof (Nums_bound _ _ _ _ Hls : Forall (fun l => (l < 8)%N) ls) as Hb8.
    apply (lld_in_place v1 v2 v3 hlit hdist ls vs V1 V2 B1 B2 Hall Hl19 Hb8) in A5 as (all & [K5 HL] & ts & us & -> & HF5 & Hf5 & E5); [|assumption].
    destruct (tables_small (in_order (map N.to_nat ls)) _ _ _ _ (N.to_nat hlit + 257) (N.to_nat hdist + 1) (order_len _) HL eq_refl ltac:(lia) ltac:(lia) ltac:(lia)) as (Sl & Sd & Hlen & Hp). specialize (Hp L4).
    apply sem_compute in A6 as [-> A6]. pose proof (eq_trans (eq_sym (value_in_place v1 v2 v3 (VSeq (Strict vs)) us ts all HF5 Hf5 E5)) A6) as X6. injection X6 as <-.
    apply sem_compute in A7 as [-> A7]. pose proof (eq_trans (eq_sym (lits_in_place v1 v2 v3 (VSeq (Strict vs)) (VSeq (Strict us)) hlit all V1 B1 ltac:(lia))) A7) as X7. injection X7 as <-.
    apply sem_compute in A8 as [-> A8]. pose proof (eq_trans (eq_sym (dists_in_place v1 v2 v3 (VSeq (Strict vs)) (VSeq (Strict us)) _ hlit hdist all V1 V2 B1 B2 Hlen)) A8) as X8. injection X8 as <-.
    apply (codes_den _ _ _ Sl Sd) in A9 as (es & [K9 Hes] & cts & cvs & -> & HF9 & Hf9 & ->); [|rewrite firstn_length; lia|apply get_same|rewrite get_other by reflexivity; apply get_same|assumption].
    apply sem_compute in A10 as [-> A10]. rewrite (codes_values_eval M base Hitems _ (VSeq (Strict cvs)) cts cvs (get_same _ _ _) eq_refl HF9 Hf9) in A10. injection A10 as <-.
    exists (flat_map step_elements cts). split.
    + eapply Dynamic; [exact N1|exact N2|exact N3|rewrite Hll; apply N2Nat.inj_add|exact Hls|exact HL|intros Et; split; [exact (K5 Et)|exact (K9 Et)]|exact Hes].
    + eexists. split; [reflexivity|]. reflexivity.
  - intros i j es H. apply dynamic_inv in H as (i1 & i2 & i3 & i4 & i5 & hlit & hdist & hclen & ls & all & N1 & N2 & N3 & Hll & Hls & HL & HK & HE).
    pose proof (H5 _ _ _ N1) as B1. pose proof (H5 _ _ _ N2) as B2. pose proof (H4 _ _ _ N3) as B3. pose proof (Num_len _ _ _ _ _ N3) as L3.
    assert (Hl19 : length ls <= 19) by lia. pose proof (Nums_bound _ _ _ _ Hls : Forall (fun l => (l < 8)%N) ls) as Hb8.
    destruct (tables_small (in_order (map N.to_nat ls)) _ _ _ _ (N.to_nat hlit + 257) (N.to_nat hdist + 1) (order_len _) HL eq_refl ltac:(lia) ltac:(lia) ltac:(lia)) as (Sl & Sd & Hlen & _).
    destruct (proj2 (bits8_den M strict um fl bs Hbs 5 (SMulti SEmpty []) ltac:(lia)) _ _ _ N1) as (v1 & A1 & V1).
    destruct (proj2 (bits8_den M strict um fl bs Hbs 5 (SSingle (SMulti SEmpty []) (intern "hlit") v1) ltac:(lia)) _ _ _ N2) as (v2 & A2 & V2).
    destruct (proj2 (bits8_den M strict um fl bs Hbs 4 (SSingle (SSingle (SMulti SEmpty []) (intern "hlit") v1) (intern "hdist") v2) ltac:(lia)) _ _ _ N3) as (v3 & A3 & V3).
    destruct (proj2 (count_den M strict um fl bs B8 3 _ _ (s3 v1 v2 v3) (hclen + 4) (bits8_den M strict um fl bs Hbs 3 _ ltac:(lia)) (count_eval v1 v2 v3 hclen V3 B3)) i3 i4 ls) as (v4 & A4 & vs & -> & Hall); [split; [lia|]; split; [lia|exact Hls]|].
    destruct (proj2 (lld_in_place v1 v2 v3 hlit hdist ls vs V1 V2 B1 B2 Hall Hl19 Hb8) _ _ _ (conj (fun Et => proj1 (HK Et)) HL)) as (v5 & A5 & ts & us & -> & HF5 & Hf5 & E5).
    set (v6 := VSeq (Strict (lens_value all))). set (v7 := VSeq (Strict (lens_value (firstn (N.to_nat hlit + 257) all)))).
    set (v8 := VSeq (Strict (lens_value (firstn (N.to_nat hdist + 1) (skipn (N.to_nat hlit + 257) all))))).
    destruct (proj2 (codes_den (s8 v1 v2 v3 (VSeq (Strict vs)) (VSeq (Strict us)) v6 v7 v8) _ _ Sl Sd ltac:(rewrite firstn_length; lia) (get_same _ _ _) ltac:(unfold s8; rewrite get_other by reflexivity; apply get_same)) _ _ _ (conj (fun Et => proj2 (HK Et)) HE)) as (v9 & A9 & cts & cvs & -> & HF9 & Hf9 & ->).
    eexists. split.
    + apply Hcall. cbn [it_format dynamic_huffman]. apply record_sem; [reflexivity|]. eexists. split; [|reflexivity].
      eapply FieldsKept; [exact A1|]. eapply FieldsKept; [exact A2|]. eapply FieldsKept; [exact A3|]. eapply FieldsKept; [exact A4|]. eapply FieldsKept; [exact A5|].
      eapply FieldsKept; [apply sem_compute; split; [reflexivity|exact (value_in_place v1 v2 v3 (VSeq (Strict vs)) us ts all HF5 Hf5 E5)]|].
      eapply FieldsKept; [apply sem_compute; split; [reflexivity|exact (lits_in_place v1 v2 v3 (VSeq (Strict vs)) (VSeq (Strict us)) hlit all V1 B1 ltac:(lia))]|].
      eapply FieldsKept; [apply sem_compute; split; [reflexivity|exact (dists_in_place v1 v2 v3 (VSeq (Strict vs)) (VSeq (Strict us)) v7 hlit hdist all V1 V2 B1 B2 Hlen)]|].
      eapply FieldsKept; [exact A9|]. eapply FieldsKept; [apply sem_compute; split; [reflexivity|exact (codes_values_eval M base Hitems _ (VSeq (Strict cvs)) cts cvs (get_same _ _ _) eq_refl HF9 Hf9)]|]. constructor.
    + eexists. split; [reflexivity|]. reflexivity.
Qed.
End Sem.
