(** Proofs about the deflate format: the blocks and their data. *)
From Coq Require Import String.
From Verif Require ByteSetModel HuffmanModel HuffmanProofs DynProofs.
From Verif Require Import Base BoundsModel DataModel NumericModel.
From Verif Require Import ValueModel FormatModel DecoderModel FormatSpec
  RecordModel TextModel RecordSpec RecordProofs DeflateModel DeflateSpec DeflateBits DeflateHuffman DeflateProofs.
Open Scope nat_scope.

Section Sem.
Context (M : fmodule) (strict : bool) (um fl : scope format -> format -> list N -> nat -> Prop) (bs : list N).
Context (Hbs : Forall isbit bs).
Context (base : nat) (Hitems : forall k it, nth_error (deflate_items base) k = Some it -> get_item M (base + k) = Some it).
Notation sem := (sem M strict um fl bs).
Notation den := (den M strict um fl bs).
Notation Step := (Step bs).
Notation CopyAt := (CopyAt bs).
Notation DistanceFor := (DistanceFor bs).
(** The elements of a block *)
Definition step_elements (t : nat * option (N * N)) : list element :=
  match snd t with
  | Some p => [Copy (N.to_nat (fst p)) (N.to_nat (snd p))]
  | None => if Nat.ltb (fst t) 256 then [Literal (N.of_nat (fst t))] else []
  end.
Lemma steps_none b ts : flat_map step_elements ((b, None) :: ts) = (if Nat.ltb b 256 then [Literal (N.of_nat b)] else []) ++ flat_map step_elements ts.
Proof. reflexivity. Qed.
Lemma steps_some b p ts : flat_map step_elements ((b, Some p) :: ts) = Copy (N.to_nat (fst p)) (N.to_nat (snd p)) :: flat_map step_elements ts.
Proof. reflexivity. Qed.
Definition at_end (t : nat * option (N * N)) : bool := Nat.eqb (fst t) 256.
Lemma elements_run (litP distP : nat -> nat -> nat -> Prop) i j es : (forall i j sym, litP i j sym -> sym <= 287) ->
  (Elements false bs litP distP i j es <-> exists ts, Run (Step litP distP) at_end i j ts /\ es = flat_map step_elements ts).
Proof.
  intros Hb. split.
  - induction 1 as [i j H|i j k b es H Hlt HE (ts & Hr & ->)|i i1 i2 i3 i4 k sym x d y es H Hs Hx Hd Hlt Hy HE (ts & Hr & ->)|i j k sym es _ H Hs HE (ts & Hr & ->)].
    + exists [(256, None)]. split; [|reflexivity]. constructor; [|reflexivity]. exists j. split; [assumption|]. cbn. auto.
    + exists ((b, None) :: ts). split.
      * econstructor; [|unfold at_end; apply Nat.eqb_neq; cbn; lia|eassumption]. exists j. split; [assumption|]. cbn [fst snd].
        unfold is_length. destruct (Nat.leb_spec 257 b); [lia|]. split; reflexivity.
      * rewrite steps_none. destruct (Nat.ltb_spec b 256); [reflexivity|lia].
    + exists ((sym, Some (N.of_nat (length_start (sym - 257)) + x, N.of_nat (distance_start d + N.to_nat y))%N) :: ts). split.
      * econstructor; [|unfold at_end; apply Nat.eqb_neq; cbn; lia|eassumption]. exists i1. split; [assumption|]. cbn [fst snd].
        unfold is_length. destruct (Nat.leb_spec 257 sym); [|lia]. destruct (Nat.leb_spec sym 285); [|lia]. cbn [andb].
        eexists. split; [|reflexivity]. exists i2, i3, x, d. eexists. split; [assumption|]. split; [assumption|]. split; [|reflexivity]. split; [assumption|]. eauto.
      * rewrite steps_some. cbn [fst snd app]. f_equal. f_equal; lia.
    + exists ((sym, None) :: ts). split.
      * econstructor; [|unfold at_end; apply Nat.eqb_neq; cbn; lia|eassumption]. exists j. split; [assumption|]. cbn [fst snd].
        unfold is_length. destruct (Nat.leb_spec sym 285); [lia|]. rewrite andb_false_r. split; reflexivity.
      * rewrite steps_none. destruct (Nat.ltb_spec sym 256); [lia|reflexivity].
  - intros (ts & Hr & ->). induction Hr as [i j [sym e] (i1 & Hs & Ht) He|i j k [sym e] ts (i1 & Hs & Ht) He Hr IH]; cbn [fst snd] in *; unfold at_end in He; cbn [fst] in He.
    + apply Nat.eqb_eq in He. subst sym. cbn in Ht. destruct Ht as [-> ->]. cbn. now constructor.
    + apply Nat.eqb_neq in He. unfold is_length in Ht.
      destruct (Nat.leb_spec 257 sym) as [Hlo|Hlo]; [destruct (Nat.leb_spec sym 285) as [Hhi|Hhi]|]; cbn [andb] in Ht.
      * destruct Ht as (p & (i2 & i3 & x & d & dd & Hx & Hd & (Hd30 & y & Hy & ->) & ->) & ->). rewrite steps_some. cbn [fst snd app].
        replace (N.to_nat (N.of_nat (length_start (sym - 257)) + x)) with (length_start (sym - 257) + N.to_nat x) by lia. rewrite Nat2N.id. eapply ElementsCopy; eauto.
      * destruct Ht as [-> ->]. rewrite steps_none. destruct (Nat.ltb_spec sym 256); [lia|]. cbn [app]. eapply ElementsReserved; eauto.
      * destruct Ht as [-> ->]. rewrite steps_none. destruct (Nat.ltb_spec sym 256); [|lia]. cbn [app]. eapply ElementsLiteral; eauto.
Qed.

(** ** The values of elements *)
Definition elem_value (e : element) : value :=
  match e with
  | Literal b => VVariant (intern "literal") (VU B8 b)
  | Copy l d => VVariant (intern "reference") (VRecord [(intern "length", VU B16 (N.of_nat l)); (intern "distance", VU B16 (N.of_nat d))])
  end.
Lemma eval_match {D} h brs v (s s' : scope D) k b : eval h s = Val v -> first_match v s 0 brs = Some (k, s', b) -> eval (EMatch h brs) s = eval_value b s'.
Proof.
  intros Hh Hf. cbn [eval]. rewrite Hh. cbn [obind]. generalize dependent 0. induction brs as [|[p b'] r IH]; intros i Hf; [discriminate|]. cbn [first_match] in Hf.
  destruct (vmatches v s p); [injection Hf as _ <- <-; reflexivity|]. eapply IH; eassumption.
Qed.
Lemma eval_flat {D} x body a (s : scope D) v q T (f : T -> list value) ts : eval a s = Val v -> coerce_mapped v = VSeq (Strict q) ->
  Forall2 (fun t u => obind (eval_value body (SSingle s x u)) flat_elems = Val (f t)) ts q ->
  eval_value (EFlatMap (ELambda x body) a) s = Val (VSeq (Strict (flat_map f ts))).
Proof.
  intros Ha Hv H. unfold eval_value at 1. cbn [eval]. rewrite Ha. cbn [obind]. unfold seq_of. rewrite Hv. cbn [get_sequence obind vseq_list sk_to_list].
  enough (E : omapM (fun u => obind (omap coerce_mapped (eval body (SSingle s x u))) flat_elems) q = Val (map f ts)).
  { rewrite E. cbn [omap obind coerce_mapped]. rewrite flat_map_concat_map. reflexivity. }
  clear Hv. induction H as [|t u ts q H1 H2 IH]; [reflexivity|]. cbn [omapM map]. unfold eval_value in H1. rewrite H1. cbn [obind]. rewrite IH. reflexivity.
Qed.
Definition step_fits (t : nat * option (N * N)) : Prop :=
  fst t <= 287 /\ if is_length (fst t) then snd t <> None else snd t = None.
Lemma codes_values_eval {D} (s : scope D) cv ts vs : get_value (intern "codes") s = Some cv -> coerce_mapped cv = VSeq (Strict vs) ->
  Forall2 step_is ts vs -> Forall step_fits ts ->
  eval_value codes_values s = Val (VSeq (Strict (map elem_value (flat_map step_elements ts)))).
Proof.
  intros Hg Hv H Hf. rewrite flat_map_concat_map, concat_map, map_map, <- flat_map_concat_map.
  unfold codes_values. eapply eval_flat; [apply eval_var; exact Hg|exact Hv|].
  clear Hv. induction H as [|t v ts vs (fs & c & xv & Hv & Hc & Hci & Hx & Ho) HF IH]; [constructor|]. inversion Hf as [|? ? [H287 Hl] Hf']; subst. constructor; [|now apply IH].
  clear IH HF Hf Hf' Hg. set (s1 := SSingle s (intern "x") v).
  assert (Hp : eval (proj (evar "x") "code") s1 = Val c) by (eapply eval_proj; [apply eval_var, get_same|exact Hv|exact Hc]).
  pose proof (mapped_nominal _ _ _ Hci) as Hn. destruct t as [sym e]. cbn [fst snd] in *. unfold is_length in Hl.
  assert (Hfm : forall (B : Type) (b1 b2 b3 b4 : B), first_match c s1 0 [(PU B16 256, b1); (PInt (bnew 257 285), b2); (PInt (bnew 286 287), b3); (PWildcard, b4)] =
    if Nat.eqb sym 256 then Some (0, SMulti s1 [], b1) else if is_length sym then Some (1, SMulti s1 [], b2) else
    if Nat.leb 286 sym then Some (2, SMulti s1 [], b3) else Some (3, SMulti s1 [], b4)).
  { intros B b1 b2 b3 b4. cbn [first_match]. rewrite (vmatches_pu B16 (N.of_nat sym)) by exact Hn. rewrite !(vmatches_int B16 (N.of_nat sym)) by exact Hn. rewrite vmatches_wild.
    destruct (Nat.eqb_spec sym 256) as [->|H256]; [reflexivity|]. destruct (N.eqb_spec 256 (N.of_nat sym)); [lia|].
    unfold is_length. destruct (Nat.leb_spec 257 sym), (N.leb_spec 257 (N.of_nat sym)); try lia; destruct (Nat.leb_spec sym 285), (N.leb_spec (N.of_nat sym) 285); try lia; cbn [andb]; try reflexivity;
      destruct (Nat.leb_spec 286 sym), (N.leb_spec 286 (N.of_nat sym)), (N.leb_spec (N.of_nat sym) 287); try lia; reflexivity. }
  destruct (Nat.eqb_spec sym 256) as [->|H256].
  { cbn in Hl. subst e. unfold eval_value at 1. erewrite eval_match; [|exact Hp|rewrite Hfm; reflexivity]. reflexivity. }
  assert (H256' : Nat.eqb sym 256 = false) by (now apply Nat.eqb_neq).
  destruct (is_length sym) eqn:El.
  - unfold is_length in El. rewrite El in Hl. destruct e as [p|]; [|contradiction]. destruct Ho as (rv & Hrv & fs' & Hfs & Hlen & dv & Hdr & ds & Hds & Hd).
    unfold eval_value at 1. erewrite eval_match; [|exact Hp|rewrite Hfm; reflexivity].
    unfold reference_record, eval_value at 1. erewrite (eval_match (D := D)).
    2: { eapply eval_proj; [apply eval_var; look; reflexivity|exact Hv|exact Hx]. }
    2: { cbn [first_match]. unfold vmatches. replace (coerce_nominal xv) with (VOption (Some rv)); [reflexivity|].
         clear - Hrv. revert xv Hrv. fix IH 1. intros xv. destruct xv; cbn [coerce_mapped coerce_nominal]; intros H; try discriminate; try (now symmetry); now apply IH. }
    unfold eval_value. cbn [eval omapM map fst snd app]. unfold variant. cbn [eval omapM].
    erewrite (eval_proj (D := D) (evar "rec") "length"); [|apply eval_var; look; reflexivity|exact Hfs|exact Hlen].
    erewrite (eval_proj (D := D) (proj (evar "rec") "distance-record") "distance"); [|eapply eval_proj; [apply eval_var; look; reflexivity|exact Hfs|exact Hdr]|exact Hds|exact Hd].
    cbn. rewrite !N2Nat.id. reflexivity.
  - unfold is_length in El. rewrite El in Hl. subst e. destruct (Nat.leb_spec 286 sym) as [H286|H286].
    + unfold eval_value at 1. erewrite eval_match; [|exact Hp|rewrite Hfm; destruct (Nat.leb_spec 286 sym); [reflexivity|lia]].
      unfold step_elements. cbn [fst snd]. destruct (Nat.ltb_spec sym 256); [lia|]. reflexivity.
    + assert (sym < 256). { clear - El H256 H286. rewrite andb_false_iff, !Nat.leb_gt in El. lia. }
      unfold eval_value at 1. erewrite eval_match; [|exact Hp|rewrite Hfm; destruct (Nat.leb_spec 286 sym); [lia|reflexivity]].
      unfold eval_value. cbn [eval omapM]. unfold variant. cbn [eval omapM].
      change (omap coerce_mapped (eval (proj (evar "x") "code") (SMulti s1 []))) with (omap coerce_mapped (eval (proj (evar "x") "code") (SMulti s1 []))).
      erewrite (eval_proj (D := D) (evar "x") "code"); [|apply eval_var; look; apply get_same|exact Hv|exact Hc].
      cbn [omap obind]. rewrite Hci. cbn [value_as]. unfold fit. change (modulus B8) with 256%N. destruct (N.ltb_spec (N.of_nat sym) 256); [|lia].
      cbn [omap obind coerce_mapped flat_elems sk_to_list]. unfold step_elements. cbn [fst snd]. destruct (Nat.ltb_spec sym 256); [reflexivity|lia].
Qed.

(** ** Blocks of the first two types *)
Lemma fields_dropped s f fs i k rs : Fields sem s ((None, f) :: fs) i k rs -> exists j v, sem s f i j v /\ Fields sem s fs j k rs.
Proof. intros H. inversion H; subst. eauto. Qed.
Definition body_is (es : list element) (v : value) : Prop :=
  exists fs, coerce_mapped v = VRecord fs /\ assoc (intern "codes-values") fs = Some (VSeq (Strict (map elem_value es))).
Lemma count_den w n e f s c : den s f (Num bs n) (is w) -> eval_usize e s = Val c ->
  den s (FRepeatCount e f) (fun i j xs => i <= length bs /\ length xs = N.to_nat c /\ Nums bs n i j xs)
    (fun xs v => exists vs, v = VSeq (Strict vs) /\ Forall2 (is w) xs vs).
Proof.
  intros [A B] He. split.
  - intros i j v Hi H. inversion H; subst. match goal with X : eval_usize _ _ = Val ?m |- _ => rewrite He in X; injection X as <- end.
    match goal with X : Chain _ _ _ _ _ |- _ => rename X into HC end.
    enough (G : exists xs, (length xs = N.to_nat c /\ Nums bs n i j xs) /\ Forall2 (is w) xs vs) by (destruct G as (xs & G1 & G2); exists xs; split; [tauto|eauto]).
    change (Chain (sem s) (repeat f (N.to_nat c)) i j vs) in HC. clear He H. revert i vs Hi HC. induction (N.to_nat c) as [|m IH]; intros i vs Hi HC; cbn [repeat] in HC; inversion HC; subst.
    + exists []. repeat constructor.
    + match goal with X : sem _ _ _ _ _ |- _ => apply A in X as (x & Hx & Hv); [|assumption] end.
      match goal with X : Chain _ _ _ _ _ |- _ => apply IH in X as (xs & [Hl Hn] & Hall); [|apply (Num_len _ _ _ _ _ Hx)] end.
      exists (x :: xs). split; [split; [cbn; now rewrite Hl|econstructor; eassumption]|constructor; assumption].
  - intros i j xs (Hi & Hl & Hn).
    enough (G : exists vs, Chain (sem s) (repeat f (N.to_nat c)) i j vs /\ Forall2 (is w) xs vs) by (destruct G as (vs & G1 & G2); exists (VSeq (Strict vs)); split; [econstructor; [exact He|exact G1]|eauto]).
    rewrite <- Hl. clear - B Hn. induction Hn as [i|i j k x xs Hx Hn (vs & HC & Hall)]; [exists []; split; constructor|].
    destruct (B _ _ _ Hx) as (v & Hv & Hab). exists (v :: vs). cbn [repeat length]. split; [econstructor; eassumption|constructor; assumption].
Qed.
Lemma Nums_len n i j xs : i <= length bs -> Nums bs n i j xs -> j <= length bs.
Proof. intros Hi H. induction H as [|i j k x xs Hx H IH]; [assumption|]. apply IH. apply (Num_len _ _ _ _ _ Hx). Qed.
Definition StoredAt (i j : nat) (es : list element) : Prop := Body false strict bs 0 i j es.
Lemma stored_inv i j es : StoredAt i j es -> exists i0 i1 i2 len nlen bytes, i0 mod 8 = 0 /\ i <= i0 < i + 8 /\
    Num bs 16 i0 i1 len /\ Num bs 16 i1 i2 nlen /\ length bytes = N.to_nat len /\ Nums bs 8 i2 j bytes /\ es = map Literal bytes.
Proof. intros H. inversion H; subst. do 6 eexists. eauto 10. Qed.
Lemma uncompressed_den s : den s (call (l_uncompressed base)) StoredAt body_is.
Proof.
  assert (Hit : get_item M (l_uncompressed base) = Some uncompressed) by (apply Hitems; reflexivity).
  assert (Hcall : forall i j v, sem s (call (l_uncompressed base)) i j v <-> exists rs, Fields sem (SMulti SEmpty []) [
      (None, FAlign 8); (Some (intern "len", true), bits16 16); (Some (intern "nlen", true), bits16 16);
      (Some (intern "bytes", true), FRepeatCount (evar "len") (bits8 8));
      (Some (intern "codes-values", true), FCompute (EFlatMap (ELambda (intern "x") (ESeq [variant "literal" (evar "x")])) (evar "bytes")))] i j rs /\ v = record_value rs).
  { intros i j v. unfold call. rewrite (sem_item _ _ _ _ _ s _ _ _ i j v Hit eq_refl). cbn [combine it_args uncompressed]. unfold call_values. cbn [omapM].
    assert (E : forall s, sem s (it_format uncompressed) i j v <-> exists rs, Fields sem s [
      (None, FAlign 8); (Some (intern "len", true), bits16 16); (Some (intern "nlen", true), bits16 16);
      (Some (intern "bytes", true), FRepeatCount (evar "len") (bits8 8));
      (Some (intern "codes-values", true), FCompute (EFlatMap (ELambda (intern "x") (ESeq [variant "literal" (evar "x")])) (evar "bytes")))] i j rs /\ v = record_value rs).
    { intros s0. cbn [uncompressed it_format]. unfold record_auto.
      match goal with |- DeflateProofs.sem _ _ _ _ _ _ (record_ext ?l) _ _ _ <-> exists rs, Fields _ _ ?l' _ _ _ /\ _ => change l with l' end.
      unfold DeflateProofs.sem at 1. rewrite record_ext_sem; [reflexivity|]. cbn [no_reuse]. repeat (split || constructor); discriminate. }
    rewrite <- E. split; [intros (es & He & H); injection He as <-; exact H|]. intros H. eexists. split; [reflexivity|exact H]. }
  assert (Hev : forall (s0 : scope format) bytes vs, Forall2 (is B8) bytes vs ->
     eval_value (EFlatMap (ELambda (intern "x") (ESeq [variant "literal" (evar "x")])) (evar "bytes")) (SSingle s0 (intern "bytes") (VSeq (Strict vs))) =
       Val (VSeq (Strict (map elem_value (map Literal bytes))))).
  { intros s0 bytes vs H. rewrite map_map. replace (map (fun x => elem_value (Literal x)) bytes) with (flat_map (fun x => [elem_value (Literal x)]) bytes) by (clear; induction bytes as [|b bytes IH]; cbn [map flat_map app]; [reflexivity|now rewrite IH]).
    eapply eval_flat; [apply eval_var, get_same|reflexivity|]. clear - H. generalize (SSingle s0 (intern "bytes") (VSeq (Strict vs))). intros s1. induction H as [|b v bs vs H1 H2 IH]; [constructor|]. constructor; [|exact IH].
    unfold eval_value, variant. cbn [eval omapM]. rewrite (eval_var "x" _ v) by apply get_same. cbn [omap obind]. rewrite H1. reflexivity. }
  split.
  - intros i j v Hi H. apply Hcall in H as (rs & HF & ->). apply fields_dropped in HF as (j0 & v0 & H0 & HF).
    assert (Hal : (N.of_nat j0 mod 8 = 0)%N /\ i <= j0 /\ (N.of_nat j0 < N.of_nat i + 8)%N /\ j0 <= length bs) by (inversion H0; subst; auto).
    apply fields_cons in HF as (j1 & v1 & rs1 & H1 & HF & ->). apply fields_cons in HF as (j2 & v2 & rs2 & H2 & HF & ->).
    apply fields_cons in HF as (j3 & v3 & rs3 & H3 & HF & ->). apply fields_cons in HF as (j4 & v4 & rs4 & H4 & HF & ->). apply fields_nil in HF as [-> ->].
    apply bits16_den in H1 as (len & Hlen & Hv1); [|assumption|lia|tauto]. pose proof (Num_len _ _ _ _ _ Hlen) as Hb1.
    apply bits16_den in H2 as (nlen & Hnlen & Hv2); [|assumption|lia|lia]. pose proof (Num_len _ _ _ _ _ Hnlen) as Hb2.
    apply (count_den B8 8 _ _ _ len) in H3 as (bytes & (_ & Hl & Hn) & vs & -> & Hall); [|apply bits8_den; [assumption|lia]| |lia].
    2: { unfold eval_usize, eval_value. rewrite (eval_var "len" _ v1) by (look; reflexivity). cbn [omap obind]. now rewrite Hv1. }
    apply sem_compute in H4 as [-> H4]. rewrite (Hev _ bytes) in H4 by exact Hall. injection H4 as <-.
    exists (map Literal bytes). split.
    + eapply Stored with (i0 := j0); eauto; try lia.
    + eexists. split; [reflexivity|]. reflexivity.
  - intros i j es H. apply stored_inv in H as (i0 & i1 & i2 & len & nlen & bytes & Hal & Hi0 & Hlen & Hnlen & Hbl & Hbn & ->).
    pose proof (Num_len _ _ _ _ _ Hlen) as Hb1. pose proof (Num_len _ _ _ _ _ Hnlen) as Hb2.
    destruct (proj2 (bits16_den M strict um fl bs Hbs 16 (SMulti SEmpty []) ltac:(lia)) _ _ _ Hlen) as (v1 & H1 & Hv1).
    destruct (proj2 (bits16_den M strict um fl bs Hbs 16 (SSingle (SMulti SEmpty []) (intern "len") v1) ltac:(lia)) _ _ _ Hnlen) as (v2 & H2 & Hv2).
    set (s2 := SSingle (SSingle (SMulti (@SEmpty format) []) (intern "len") v1) (intern "nlen") v2).
    assert (He : eval_usize (evar "len") s2 = Val len).
    { unfold eval_usize, eval_value. rewrite (eval_var "len" _ v1) by (unfold s2; look; reflexivity). cbn [omap obind]. now rewrite Hv1. }
    destruct (proj2 (count_den B8 8 _ _ s2 len (bits8_den M strict um fl bs Hbs 8 _ ltac:(lia)) He) i2 j bytes) as (v3 & H3 & vs & -> & Hall); [split; [lia|]; split; assumption|].
    eexists. split.
    + apply Hcall. eexists. split; [|reflexivity]. eapply FieldsDropped; [apply SemAlign with (j := i0); lia|].
      eapply FieldsKept; [exact H1|]. eapply FieldsKept; [exact H2|]. eapply FieldsKept; [exact H3|]. eapply FieldsKept; [apply sem_compute; split; [reflexivity|apply Hev, Hall]|constructor].
    + eexists. split; [reflexivity|]. reflexivity.
Qed.

Lemma enough_small lens : small lens -> (not_too_many lens <-> enough_codes lens).
Proof.
  intros (_ & H15 & Hl). unfold enough_codes. split.
  - intros H. split; [eapply Forall_impl; [|exact H15]; cbn; intros; lia|]. split; [exact Hl|]. apply (DynProofs.kraft_down 63 15 lens ltac:(lia) H15). exact H.
  - intros (_ & _ & H). apply (DynProofs.kraft_down 63 15 lens ltac:(lia) H15) in H. exact H.
Qed.
Lemma dyn_of_lengths dy (s : scope format) lens : dyn_lengths dy s = Val lens -> dyn_format dy s = huffman_format lens.
Proof.
  destruct dy as [le ve]. cbn [dyn_lengths dyn_format]. destruct (obind (eval le s) value_to_vec_usize) as [l|]; cbn [obind]; [|discriminate].
  intros ->. reflexivity.
Qed.
Lemma sem_dynamic s x dy f i j v lens g : dyn_lengths dy s = Val lens -> small lens -> huffman_format lens = Val g ->
  sem s (FDynamic x dy f) i j v <-> (strict = true -> not_too_many lens) /\ sem (SDecoder s x g) f i j v.
Proof.
  intros Hl Hs Hg. pose proof (dyn_of_lengths _ _ _ Hl) as Hd. rewrite Hg in Hd. split.
  - intros H. inversion H; subst. match goal with A : dyn_format dy s = Val ?g' |- _ => rewrite Hd in A; injection A as <- end. split; [|assumption].
    intros Et. match goal with A : strict = true -> _ |- _ => destruct (A Et) as (ls & E & Hok) end. rewrite Hl in E. injection E as <-. now apply enough_small.
  - intros [H1 H2]. econstructor; [exact Hd| |exact H2]. intros Et. exists lens. split; [exact Hl|]. apply enough_small; auto.
Qed.
Lemma apply_den s x g lens : small lens -> huffman_format lens = Val g -> get_decoder x s = Some g ->
  den s (FApply x) (Symbol lens bs) (fun sym => is B16 (N.of_nat sym)).
Proof.
  intros Hs Hg Hx. destruct (huffman_reads M strict um fl bs Hbs lens g Hs Hg) as [A B]. split.
  - intros i j v Hi H. inversion H; subst. match goal with X : get_decoder x s = Some ?g' |- _ => rewrite Hx in X; injection X as <- end. eapply A; eauto.
  - intros i j sym H. destruct (B s i j sym H) as (v & Hv & E). exists v. split; [econstructor; eauto|exact E].
Qed.
Lemma code_records_den ok (litP distP : nat -> nat -> nat -> Prop) fmt code arg s :
  kept_inside ok -> (forall s, ok s -> den s code distP (code_arg arg)) -> (forall i j sym, distP i j sym -> j <= length bs) ->
  (forall s, ok s -> den s (FApply fmt) litP (fun sym => is B16 (N.of_nat sym))) -> (forall i j sym, litP i j sym -> j <= length bs /\ sym <= 287) ->
  ok s -> den s (code_records fmt (fun start extra => length_record_of base start extra code arg)) (Elements false bs litP distP)
    (fun es v => exists ts vs, v = VSeq (Strict vs) /\ Forall2 step_is ts vs /\ Forall step_fits ts /\ es = flat_map step_elements ts).
Proof.
  intros Hk Hcode HdP Hlit HlP Hok. unfold code_records.
  assert (Hfit : forall i j ts, Run (Step litP distP) at_end i j ts -> Forall step_fits ts).
  { assert (Hst : forall i j t, Step litP distP i j t -> step_fits t).
    { intros i j t (i1 & Hl & Ht). split; [eapply HlP; eassumption|]. destruct (is_length (fst t)); [destruct Ht as (p & _ & ->); discriminate|tauto]. }
    intros i j ts H. induction H; constructor; eauto. }
  destruct (until_last_den M strict um fl bs s (ELambda (intern "x") (EIntRel REq (EAs B16 (proj (evar "x") "code")) (EU B16 256))) _ _ _ at_end
    (code_record_den M strict um fl bs Hbs base Hitems ok litP distP fmt code arg s Hk Hcode HdP Hlit (fun i j sym H => proj1 (HlP i j sym H)) Hok)) as [A B].
  - intros i j t (i1 & Hl & Ht). destruct (is_length (fst t)); [|destruct Ht as [-> _]; eapply HlP; eassumption].
    destruct Ht as (p & (i2 & i3 & x & sym & d & _ & _ & (_ & y & Hy & _) & _) & _). apply (Num_len _ _ _ _ _ Hy).
  - intros i j t v (i1 & Hl & _) (fs & c & xv & Hv & Hc & Hci & _). pose proof (proj2 (HlP _ _ _ Hl)) as Hb. unfold lambda_bool, eval_lambda, eval_value. cbn [eval].
    erewrite (eval_proj (D := format) (evar "x") "code"); [|apply eval_var, get_same|exact Hv|exact Hc]. cbn [omap obind]. rewrite Hci. cbn [value_as]. unfold fit. change (modulus B16) with 65536%N.
    destruct (N.ltb_spec (N.of_nat (fst t)) 65536); [|lia]. cbn [omap obind coerce_mapped value_int_rel bw_eqb rel_apply unwrap_bool]. unfold at_end. f_equal.
    destruct (N.eqb_spec (N.of_nat (fst t)) 256), (Nat.eqb_spec (fst t) 256); lia.
  - split.
    + intros i j v Hi H. apply A in H as (ts & Hr & vs & -> & HF); [|assumption]. exists (flat_map step_elements ts). split; [apply elements_run; [apply HlP|eauto]|]. exists ts, vs. eauto.
    + intros i j es H. apply elements_run in H as (ts & Hr & ->); [|apply HlP]. destruct (B _ _ _ Hr) as (v & Hv & vs & -> & HF). eauto 10.
Qed.
(** ** The fixed codes *)
Lemma eval_lengths {D} l (s : scope D) : eval (ESeq (map (EU B8) l)) s = Val (VSeq (Strict (map (VU B8) l))).
Proof.
  cbn [eval]. enough (E : omapM (fun e => omap coerce_mapped (eval e s)) (map (EU B8) l) = Val (map (VU B8) l)) by (rewrite E; reflexivity).
  induction l as [|x l IH]; [reflexivity|]. cbn [map omapM eval omap obind coerce_mapped]. now rewrite IH.
Qed.
Lemma vec_usize ns vs : Forall2 (fun n v => is B8 (N.of_nat n) v) ns vs -> value_to_vec_usize (VSeq (Strict vs)) = Val ns.
Proof.
  cbn [value_to_vec_usize sk_to_list]. induction 1 as [|n v ns vs H H' IH]; [reflexivity|]. cbn [omapM]. rewrite H, IH. cbn [obind]. now rewrite Nat2N.id.
Qed.
Lemma huffman_some lens : small lens -> exists g, huffman_format lens = Val g.
Proof. intros H. unfold huffman_format. rewrite (small_codes lens H). cbn [omap obind]. eauto. Qed.
Lemma fixed_small : small fixed_lengths.
Proof.
  split; [discriminate|]. split; [|vm_compute; discriminate]. apply Forall_forall. assert (forallb (fun l => Nat.leb l 15) fixed_lengths = true) as H by (vm_compute; reflexivity).
  intros x Hx. apply Nat.leb_le. exact (proj1 (forallb_forall _ _) H x Hx).
Qed.
Lemma fixed_fits : not_too_many fixed_lengths.
Proof. vm_compute. discriminate. Qed.
Lemma fixed_dyn (s : scope format) : dyn_lengths (DHuffman fixed_code_lengths None) s = Val fixed_lengths.
Proof.
  unfold dyn_lengths.
  replace fixed_code_lengths with (ESeq (map (EU B8) (map N.of_nat fixed_lengths))).
  2: { reflexivity. }
  rewrite eval_lengths. cbn [obind]. rewrite (vec_usize fixed_lengths); [reflexivity|].
  rewrite map_map. generalize fixed_lengths. intros l. induction l; cbn [map]; constructor; [reflexivity|assumption].
Qed.
Lemma Symbol_table lens i j sym : Symbol lens bs i j sym -> sym < length lens.
Proof. intros (l & c & H & _). apply nth_error_Some. congruence. Qed.
Lemma fixed_huffman_den s : den s (call (l_fixed_huffman base)) (Body false strict bs 1) body_is.
Proof.
  assert (Hit : get_item M (l_fixed_huffman base) = Some (fixed_huffman base)) by (apply Hitems; reflexivity).
  destruct (huffman_some _ fixed_small) as (g & Hg).
  assert (Hcall : forall i j v, sem s (call (l_fixed_huffman base)) i j v <-> sem (SMulti SEmpty []) (it_format (fixed_huffman base)) i j v).
  { intros i j v. unfold call. rewrite (sem_item _ _ _ _ _ s _ _ _ i j v Hit eq_refl). cbn [combine it_args fixed_huffman]. unfold call_values. cbn [omapM].
    split; [intros (es & He & H); injection He as <-; exact H|]. intros H. eexists. split; [reflexivity|exact H]. }
  set (s1 := SMulti (@SEmpty format) []) in *.
  pose (ok := fun s : scope format => get_decoder (intern "format") s = Some g).
  assert (Hden : den s1 (FDynamic (intern "format") (DHuffman fixed_code_lengths None) (code_records (intern "format") (length_record_fixed base)))
      (Elements false bs (Symbol fixed_lengths bs) (FixedDistance bs))
      (fun es v => exists ts vs, v = VSeq (Strict vs) /\ Forall2 step_is ts vs /\ Forall step_fits ts /\ es = flat_map step_elements ts)).
  { destruct (code_records_den ok (Symbol fixed_lengths bs) (FixedDistance bs) (intern "format") dist8 (EAs B16 (evar "distance-code")) (SDecoder s1 (intern "format") g)) as [A B].
    - split; intros; assumption.
    - intros s0 _. destruct (dist8_reads M strict um fl bs Hbs) as [C D].
      assert (Harg : forall d v i j, FixedDistance bs i j d -> coerce_mapped v = VU B8 (N.of_nat d) -> code_arg (EAs B16 (evar "distance-code")) d v).
      { intros d v i j (c & Hc & Hp & _ & Hd) Hv s' Hs'. unfold eval_value. erewrite eval_as; [|apply eval_var; exact Hs'|exact Hv|]; [reflexivity|].
        change (modulus B16) with 65536%N. rewrite Hd. unfold msb_first. eapply N.lt_le_trans; [apply lsb_bound, Forall_rev, (at_pos_bits _ _ _ Hbs Hp)|]. rewrite rev_length, Hc. discriminate. }
      split; [intros i j v _ H; apply C in H as (d & Hd & E); eauto|]. intros i j d Hd. destruct (D s0 i j d Hd) as (v & Hv & E). eauto.
    - intros i j d (c & Hc & Hp & -> & _). apply at_pos_len in Hp. lia.
    - intros s0 H0. eapply apply_den; [exact fixed_small|exact Hg|exact H0].
    - intros i j sym H. split; [apply (Symbol_len _ _ _ _ _ H)|]. apply Symbol_table in H. change (length fixed_lengths) with 288 in H. lia.
    - reflexivity.
    - split.
      + intros i j v Hi H. apply (sem_dynamic _ _ _ _ _ _ _ _ _ (fixed_dyn s1) fixed_small Hg) in H as [_ H]. eapply A; eassumption.
      + intros i j es H. destruct (B _ _ _ H) as (v & Hv & E). exists v. split; [|exact E]. apply (sem_dynamic _ _ _ _ _ _ _ _ _ (fixed_dyn s1) fixed_small Hg). split; [intros _; exact fixed_fits|exact Hv]. }
  destruct Hden as [A B]. split.
  - intros i j v Hi H. apply Hcall in H. cbn [it_format fixed_huffman] in H. apply record_sem in H as (rs & HF & ->); [|reflexivity].
    apply fields_cons in HF as (j1 & v1 & rs1 & H1 & HF & ->). apply fields_cons in HF as (j2 & v2 & rs2 & H2 & HF & ->). apply fields_nil in HF as [-> ->].
    apply A in H1 as (es & Hes & ts & vs & -> & HF & Hfit & ->); [|assumption]. apply sem_compute in H2 as [-> H2]. cbn [fst] in H2.
    rewrite (codes_values_eval _ (VSeq (Strict vs)) ts vs (get_same _ _ _) eq_refl HF Hfit) in H2. injection H2 as <-.
    eexists. split; [constructor; exact Hes|]. eexists. split; [reflexivity|]. reflexivity.
  - intros i j es H. inversion H as [| ? ? ? HE |]; subst. destruct (B _ _ _ HE) as (v & Hv & ts & vs & -> & HF & Hfit & ->). eexists. split.
    + apply Hcall. cbn [it_format fixed_huffman]. apply record_sem; [reflexivity|]. eexists. split; [|reflexivity].
      eapply FieldsKept; [exact Hv|]. eapply FieldsKept; [apply sem_compute; split; [reflexivity|]; exact (codes_values_eval _ (VSeq (Strict vs)) ts vs (get_same _ _ _) eq_refl HF Hfit)|]. constructor.
    + eexists. split; [reflexivity|]. reflexivity.
Qed.
End Sem.
