(** Proofs about the deflate format: blocks, streams and the data they stand for. *)
From Coq Require Import String.
From Verif Require ByteSetModel HuffmanModel HuffmanProofs DataProofs.
From Verif Require Import Base BoundsModel DataModel NumericModel.
From Verif Require Import ValueModel FormatModel DecoderModel FormatSpec
  RecordModel TextModel RecordSpec RecordProofs DeflateModel DeflateSpec DeflateBits DeflateHuffman DeflateProofs DeflateBlocks DeflateDynamic DeflateDynamic2.
Open Scope nat_scope.

Definition bytes_value (l : list N) : list value := map (VU B8) l.

(** ** The bounds of elements *)
Definition elem_ok (e : element) : Prop :=
  match e with Literal _ => True | Copy l d => (N.of_nat l < 2 ^ 32)%N /\ 1 <= d /\ (N.of_nat d < 2 ^ 32)%N end.
Lemma length_table k : k < 29 -> (N.of_nat (length_start k) <= 258)%N /\ length_extra k <= 5.
Proof.
  assert (H : forallb (fun k => N.leb (N.of_nat (length_start k)) 258 && Nat.leb (length_extra k) 5) (seq 0 29) = true) by (vm_compute; reflexivity).
  intros Hk. rewrite forallb_forall in H. specialize (H k ltac:(apply in_seq; lia)). apply andb_true_iff in H as [A B]. apply N.leb_le in A. apply Nat.leb_le in B. auto.
Qed.
Lemma distance_table d : d < 30 -> (N.of_nat (distance_start d) <= 32768)%N /\ distance_extra d <= 13 /\ 1 <= distance_start d.
Proof.
  assert (H : forallb (fun d => N.leb (N.of_nat (distance_start d)) 32768 && (Nat.leb (distance_extra d) 13 && Nat.leb 1 (distance_start d))) (seq 0 30) = true) by (vm_compute; reflexivity).
  intros Hk. rewrite forallb_forall in H. specialize (H d ltac:(apply in_seq; lia)). apply andb_true_iff in H as [A B]. apply andb_true_iff in B as [B C]. apply N.leb_le in A. apply Nat.leb_le in B, C. auto.
Qed.
Section Bounds.
Context (bs : list N) (Hbs : Forall isbit bs).
Lemma elements_ok (lit dist : nat -> nat -> nat -> Prop) c i j es : (forall i j sym, lit i j sym -> j <= length bs) ->
  Elements c bs lit dist i j es -> Forall elem_ok es /\ j <= length bs.
Proof.
  intros Hl H. induction H as [i j H|i j k b es H Hb HE [IH Hk]|i i1 i2 i3 i4 k sym x d y es H Hs Hx Hd Hd30 Hy HE [IH Hk]|i j k sym es Hc H Hs HE IH].
  - split; [constructor|eauto].
  - split; [constructor; [exact I|assumption]|assumption].
  - split; [constructor; [|assumption]|assumption]. unfold elem_ok.
    destruct (length_table (sym - 257) ltac:(lia)) as [L1 L2]. destruct (distance_table d Hd30) as (D1 & D2 & D3).
    pose proof (Num_bound _ _ _ _ _ Hbs Hx) as Bx. pose proof (Num_bound _ _ _ _ _ Hbs Hy) as By.
    assert (Bx' : (x < 2 ^ 5)%N) by (eapply N.lt_le_trans; [exact Bx|apply N.pow_le_mono_r; lia]).
    assert (By' : (y < 2 ^ 13)%N) by (eapply N.lt_le_trans; [exact By|apply N.pow_le_mono_r; lia]).
    change (2 ^ 5)%N with 32%N in Bx'. change (2 ^ 13)%N with 8192%N in By'. change (2 ^ 32)%N with 4294967296%N.
    generalize dependent (length_start (sym - 257)). generalize dependent (distance_start d). clear - Bx' By'. intros a H1 H3 b H2.
    rewrite !Nat2N.inj_add, !N2Nat.id. lia.
  - exact IH.
Qed.
Lemma Nums_end n i j xs : Nums bs n i j xs -> i <= length bs -> j <= length bs.
Proof. intros H. induction H as [|i j k x xs Hx H IH]; [auto|]. intros _. apply IH. apply (Num_len _ _ _ _ _ Hx). Qed.
Lemma body_ok tb t i j es : Body false tb bs t i j es -> Forall elem_ok es /\ j <= length bs.
Proof.
  intros H. destruct H as [i i0 i1 i2 j len nlen bytes H1 H2 H3 H4 H5 H6 H7|i j es H|i i1 i2 i3 i4 i5 j hlit hdist hclen ls lens es H1 H2 H3 H4 H5 cls nlit ndist H6 lits dists H7 H8].
  - split; [apply Forall_map, Forall_forall; intros; exact I|]. eapply Nums_end; [exact H7|]. apply (Num_len _ _ _ _ _ H4).
  - eapply elements_ok; [|exact H]. intros i' j' sym HS. apply (Symbol_len _ _ _ _ _ HS).
  - eapply elements_ok; [|exact H8]. intros i' j' sym HS. apply (Symbol_len _ _ _ _ _ HS).
Qed.
End Bounds.

(** ** Writing the data *)
Lemma inflate_map {A B} (f : A -> B) hist start n : forall out, inflate_loop (map f hist) start n (map f out) = omap (map f) (inflate_loop hist start n out).
Proof.
  induction n as [|n IH]; intros out; [reflexivity|]. cbn [inflate_loop]. rewrite !map_length.
  assert (E : (if length out + start <? length hist then nth_error (map f hist) (length out + start) else nth_error (map f out) (length out + start - length hist)) =
    option_map f (if length out + start <? length hist then nth_error hist (length out + start) else nth_error out (length out + start - length hist))).
  { destruct (length out + start <? length hist); apply nth_error_map. }
  rewrite E. clear E. set (o := if length out + start <? length hist then nth_error hist _ else _). destruct o as [x|]; [|reflexivity]. cbn [option_map]. rewrite <- IH, map_app. reflexivity.
Qed.
Definition step_of {D} (s : scope D) (e : element) (out : list value) : outcome (list value) :=
  obind (eval_lambda (lambda_tuple ["buffer"; "symbol"]%string (EMatch (evar "symbol") [
    (PVariant (intern "literal") (PBinding (intern "b")), ESeq [evar "b"]);
    (PVariant (intern "reference") (PBinding (intern "r")),
      ESubSeqInflate (evar "buffer")
        (EArith ASub (ESeqLength (evar "buffer")) (EAs B32 (proj (evar "r") "distance")))
        (EAs B32 (proj (evar "r") "length")))])) s (VTuple [VSeq (Strict out); elem_value e]))
    (fun r => omap (fun t => out ++ sk_to_list t) (strict_seq r)).
Lemma eval_sub_inflate {D} a b c (s : scope D) q x y : eval a s = Val (VSeq (Strict q)) -> eval b s = x -> eval c s = Val (VU B32 y) ->
  eval_value (ESubSeqInflate a b c) s = obind (omap coerce_mapped x) (fun x => obind (unwrap_usize x) (fun x => omap (fun l => VSeq (Strict l)) (sub_seq_inflate q (N.to_nat x) (N.to_nat y)))).
Proof.
  intros Ha Hb Hc. unfold eval_value. cbn [eval]. rewrite Ha, Hb, Hc. cbn [obind omap seq_of get_sequence coerce_mapped]. unfold seq_of. cbn [get_sequence coerce_mapped obind].
  destruct x as [x|]; [|reflexivity]. cbn [omap obind]. destruct (unwrap_usize (coerce_mapped x)) as [x'|]; [|reflexivity]. cbn [obind unwrap_usize]. unfold seq_inflate. cbn [vseq_list sk_to_list].
  destruct (sub_seq_inflate q (N.to_nat x') (N.to_nat y)); reflexivity.
Qed.
Lemma eval_minus {D} a b (s : scope D) x y : eval a s = Val (VU B32 x) -> eval b s = Val (VU B32 y) -> eval (EArith ASub a b) s = if N.leb y x then Val (VU B32 (x - y)) else Panic.
Proof. intros Ha Hb. cbn [eval]. rewrite Ha, Hb. cbn [omap obind coerce_mapped value_arith bw_eqb arith_apply]. now destruct (N.leb y x). Qed.
Lemma step_spec {D} (s : scope D) e out : elem_ok e -> (N.of_nat (length out) < 2 ^ 32)%N ->
  step_of s e (bytes_value out) =
  match e with
  | Literal b => Val (bytes_value (out ++ [b]))
  | Copy l d => if Nat.leb d (length out) then omap (fun new => bytes_value (out ++ new)) (sub_seq_inflate out (length out - d) l) else Panic
  end.
Proof.
  intros He Hlen. unfold step_of. rewrite eval_lambda_pair.
  set (s1 := SMulti (SSingle s (intern "tuple_var") (VTuple [VSeq (Strict (bytes_value out)); elem_value e])) [(intern "buffer", EntVal (VSeq (Strict (bytes_value out)))); (intern "symbol", EntVal (elem_value e))]).
  assert (Hb : get_value (intern "buffer") s1 = Some (VSeq (Strict (bytes_value out)))) by reflexivity.
  assert (Hs : get_value (intern "symbol") s1 = Some (elem_value e)) by reflexivity.
  clearbody s1. clear s. unfold eval_value. destruct e as [b|l d]; cbn [elem_value] in Hs.
  - erewrite eval_match; [|apply eval_var; exact Hs|reflexivity]. cbn [fst snd map].
    unfold eval_value. cbn [eval omapM]. rewrite (eval_var "b" _ (VU B8 b)) by reflexivity. cbn [omap obind coerce_mapped strict_seq sk_to_list]. unfold bytes_value. now rewrite map_app.
  - destruct He as (He1 & He2 & He3).
    erewrite eval_match; [|apply eval_var; exact Hs|reflexivity]. cbn [fst snd map].
    set (r := VRecord [(intern "length", VU B16 (N.of_nat l)); (intern "distance", VU B16 (N.of_nat d))]).
    set (s2 := SMulti s1 [(intern "r", EntVal r)]). change (SMulti s1 _) with s2.
    assert (Hr : get_value (intern "r") s2 = Some r) by reflexivity. assert (Hb2 : get_value (intern "buffer") s2 = Some (VSeq (Strict (bytes_value out)))) by exact Hb. clearbody s2.
    assert (Hd : eval (EAs B32 (proj (evar "r") "distance")) s2 = Val (VU B32 (N.of_nat d))).
    { eapply eval_as; [eapply eval_proj; [apply eval_var; exact Hr|reflexivity|reflexivity]|reflexivity|exact He3]. }
    assert (Hl : eval (EAs B32 (proj (evar "r") "length")) s2 = Val (VU B32 (N.of_nat l))).
    { eapply eval_as; [eapply eval_proj; [apply eval_var; exact Hr|reflexivity|reflexivity]|reflexivity|exact He1]. }
    assert (Hn : eval (ESeqLength (evar "buffer")) s2 = Val (VU B32 (N.of_nat (length out)))).
    { cbn [eval]. rewrite (eval_var _ _ _ Hb2). unfold seq_of. cbn [obind omap get_sequence coerce_mapped vseq_len sk_len]. unfold as_u32, bytes_value. rewrite map_length, N.mod_small by exact Hlen. reflexivity. }
    rewrite (eval_sub_inflate _ _ _ _ _ _ _ (eval_var _ _ _ Hb2) (eval_minus _ _ _ _ _ Hn Hd) Hl).
    destruct (N.leb_spec (N.of_nat d) (N.of_nat (length out))), (Nat.leb_spec d (length out)); try lia; [|reflexivity].
    cbn [omap obind coerce_mapped unwrap_usize]. rewrite Nat2N.id. replace (N.to_nat (N.of_nat (length out) - N.of_nat d)) with (length out - d) by lia.
    unfold sub_seq_inflate, bytes_value. change (@nil value) with (map (VU B8) []). rewrite (inflate_map (VU B8)).
    destruct (inflate_loop out (length out - d) l []) as [new|]; [|reflexivity]. cbn [omap obind coerce_mapped strict_seq sk_to_list]. now rewrite map_app.
Qed.
Lemma step_longer {D} (s : scope D) e out out' : step_of s e out = Val out' -> length out <= length out'.
Proof.
  unfold step_of. destruct (eval_lambda _ _ _) as [r|]; [|discriminate]. cbn [obind]. destruct (strict_seq r) as [q|]; [|discriminate]. cbn [omap obind].
  intros H. injection H as <-. rewrite app_length. lia.
Qed.
Definition steps {D} (s : scope D) (out : list value) (es : list element) : outcome (list value) :=
  ofoldM (fun acc x => obind (eval_lambda (lambda_tuple ["buffer"; "symbol"]%string (EMatch (evar "symbol") [
    (PVariant (intern "literal") (PBinding (intern "b")), ESeq [evar "b"]);
    (PVariant (intern "reference") (PBinding (intern "r")),
      ESubSeqInflate (evar "buffer")
        (EArith ASub (ESeqLength (evar "buffer")) (EAs B32 (proj (evar "r") "distance")))
        (EAs B32 (proj (evar "r") "length")))])) s (VTuple [VSeq (Strict acc); x]))
    (fun r => omap (fun t => acc ++ sk_to_list t) (strict_seq r))) out (map elem_value es).
Lemma steps_cons {D} (s : scope D) out e es : steps s out (e :: es) = obind (step_of s e out) (fun out' => steps s out' es).
Proof. reflexivity. Qed.
Lemma steps_longer {D} (s : scope D) es : forall out out', steps s out es = Val out' -> length out <= length out'.
Proof.
  induction es as [|e es IH]; intros out out' H; [injection H as <-; auto|]. rewrite steps_cons in H. destruct (step_of s e out) as [o1|] eqn:E; [|discriminate]. cbn [obind] in H.
  apply step_longer in E. apply IH in H. lia.
Qed.
Lemma steps_writes {D} (s : scope D) es : forall out l, Forall elem_ok es -> steps s (bytes_value out) es = Val l -> (N.of_nat (length l) < 2 ^ 32)%N ->
  exists data, l = bytes_value data /\ Writes out es data.
Proof.
  induction es as [|e es IH]; intros out l Hok H Hl.
  - injection H as <-. exists out. split; [reflexivity|constructor].
  - inversion Hok as [|? ? He Hes]; subst. pose proof (steps_longer _ _ _ _ H) as Hm. unfold bytes_value in Hm. rewrite map_length in Hm.
    rewrite steps_cons, step_spec in H; [|assumption|lia]. destruct e as [b|len d].
    + cbn [obind] in H. apply IH in H as (data & -> & HW); [|assumption|assumption]. exists data. split; [reflexivity|now constructor].
    + destruct He as (_ & Hd1 & _). destruct (Nat.leb_spec d (length out)); [|discriminate].
      destruct (DataProofs.inflate_dist out d len ltac:(lia)) as (new & E & Hn & Hc). rewrite E in H. cbn [omap obind] in H. apply IH in H as (data & -> & HW); [|assumption|assumption].
      exists data. split; [reflexivity|]. eapply WritesCopy; [lia|exact Hn| |exact HW]. rewrite <- Hn. exact Hc.
Qed.
Lemma Writes_longer es out data : Writes out es data -> length out <= length data.
Proof. intros H. induction H; rewrite ?app_length in *; cbn [length] in *; lia. Qed.
Lemma writes_steps {D} (s : scope D) es out data : Writes out es data -> Forall elem_ok es -> (N.of_nat (length data) < 2 ^ 32)%N -> steps s (bytes_value out) es = Val (bytes_value data).
Proof.
  intros H. induction H as [out|out b es data HW IH|out len d new es data Hd Hn Hc HW IH]; intros Hok Hl; [reflexivity| |].
  - inversion Hok; subst. pose proof (Writes_longer _ _ _ HW) as Hm. rewrite app_length in Hm. rewrite steps_cons, step_spec; [|assumption|lia]. cbn [obind]. auto.
  - inversion Hok; subst. pose proof (Writes_longer _ _ _ HW) as Hm. rewrite app_length in Hm. rewrite steps_cons, step_spec; [|assumption|lia].
    destruct (Nat.leb_spec d (length out)); [|lia]. destruct (DataProofs.inflate_dist out d (length new) ltac:(lia)) as (new' & E & Hn' & Hc').
    assert (new' = new) as -> by (eapply DataProofs.copies_back_unique; [| |exact Hc'|exact Hc]; [lia|assumption]).
    rewrite E. cbn [omap obind]. auto.
Qed.
Lemma Writes_det es out d1 d2 : Writes out es d1 -> Writes out es d2 -> d1 = d2.
Proof.
  intros H. revert d2. induction H as [out|out b es data HW IH|out len d new es data Hd Hn Hc HW IH]; intros d2 H2; inversion H2; subst; auto.
  assert (new = new0) as <- by (eapply DataProofs.copies_back_unique; [exact Hd| |exact Hc|unfold DataProofs.copies_back; match goal with X : length new0 = _ |- _ => rewrite X end; assumption]; congruence).
  auto.
Qed.
Lemma eval_flat_list {D} x body t a (s : scope D) q : eval_value a s = Val (VSeq (Strict q)) ->
  eval_value (EFlatMapList (ELambda x body) t a) s = omap (fun l => VSeq (Strict l))
    (ofoldM (fun acc u => obind (eval_lambda (ELambda x body) s (VTuple [VSeq (Strict acc); u])) (fun r => omap (fun t => acc ++ sk_to_list t) (strict_seq r))) [] q).
Proof.
  intros Ha. unfold eval_value in Ha |- *. cbn [eval]. rewrite Ha. cbn [obind strict_seq sk_to_list]. unfold eval_lambda, eval_value.
  destruct (ofoldM _ [] q); reflexivity.
Qed.
Lemma inflate_eval {D} (s : scope D) es : get_value (intern "codes") s = Some (VSeq (Strict (map elem_value es))) ->
  eval_value inflate s = omap (fun l => VSeq (Strict l)) (steps s [] es).
Proof.
  intros H. unfold inflate, lambda_tuple. apply eval_flat_list. unfold eval_value. rewrite (eval_var "codes" _ _ H). reflexivity.
Qed.

(** ** Blocks *)
Section Sem.
Context (M : fmodule) (strict : bool) (um fl : scope format -> format -> list N -> nat -> Prop) (bs : list N).
Context (Hbs : Forall isbit bs).
Context (base : nat) (Hitems : forall k it, nth_error (deflate_items base) k = Some it -> get_item M (base + k) = Some it).
Notation sem := (sem M strict um fl bs).
Notation den := (den M strict um fl bs).

Definition BlockAt (i j : nat) (b : N * N * list element) : Prop :=
  let '(fin, t, es) := b in exists i1 i2, Num bs 1 i i1 fin /\ Num bs 2 i1 i2 t /\ Body false strict bs t i2 j es.
Definition block_is (b : N * N * list element) (v : value) : Prop :=
  let '(fin, t, es) := b in exists fs fv k c u, coerce_mapped v = VRecord fs /\ assoc (intern "final") fs = Some fv /\ is B8 fin fv /\
    assoc (intern "data") fs = Some (VBranch k (VVariant (intern c) u)) /\ In c ["uncompressed"; "fixed_huffman"; "dynamic_huffman"]%string /\ body_is es u.
Lemma sem_variant s l f i j v : sem s (FVariant l f) i j v <-> exists u, sem s f i j u /\ v = VVariant l u.
Proof. split; [intros H; inversion H; subst; eauto|]. intros (u & H & ->). now constructor. Qed.
Definition data_branches : list (pattern * format) :=
  [(PU B8 0, FVariant (intern "uncompressed") (call (l_uncompressed base)));
   (PU B8 1, FVariant (intern "fixed_huffman") (call (l_fixed_huffman base)));
   (PU B8 2, FVariant (intern "dynamic_huffman") (call (l_dynamic_huffman base)))].
Lemma data_den s t tv : get_value (intern "type") s = Some tv -> is B8 t tv ->
  den s (FMatch (evar "type") data_branches) (Body false strict bs t)
    (fun es v => exists k c u, v = VBranch k (VVariant (intern c) u) /\ In c ["uncompressed"; "fixed_huffman"; "dynamic_huffman"]%string /\ body_is es u).
Proof.
  intros Hg Ht. pose proof (mapped_nominal _ _ _ Ht) as Hn.
  assert (Hfm : first_match tv s 0 data_branches =
    if N.eqb 0 t then Some (0, SMulti s [], FVariant (intern "uncompressed") (call (l_uncompressed base))) else
    if N.eqb 1 t then Some (1, SMulti s [], FVariant (intern "fixed_huffman") (call (l_fixed_huffman base))) else
    if N.eqb 2 t then Some (2, SMulti s [], FVariant (intern "dynamic_huffman") (call (l_dynamic_huffman base))) else None).
  { unfold data_branches. cbn [first_match]. rewrite !(vmatches_pu B8 t) by exact Hn. destruct (N.eqb 0 t); [reflexivity|]. destruct (N.eqb 1 t); [reflexivity|]. destruct (N.eqb 2 t); reflexivity. }
  destruct (uncompressed_den M strict um fl bs Hbs base Hitems (SMulti s [])) as [A0 B0].
  destruct (fixed_huffman_den M strict um fl bs Hbs base Hitems (SMulti s [])) as [A1 B1].
  destruct (dynamic_huffman_den M strict um fl bs Hbs base Hitems (SMulti s [])) as [A2 B2].
  split.
  - intros i j v Hi H. apply sem_match in H as (w & k & s' & f & u & Ew & Hf & H & ->). rewrite (eval_var _ _ _ Hg) in Ew. injection Ew as <-. rewrite Hfm in Hf.
    destruct (N.eqb_spec 0 t) as [<-|_]; [|destruct (N.eqb_spec 1 t) as [<-|_]; [|destruct (N.eqb_spec 2 t) as [<-|_]; [|discriminate]]]; injection Hf as <- <- <-; apply sem_variant in H as (x & H & ->).
    + apply A0 in H as (es & He & Hv); [|assumption]. exists es. split; [exact He|]. exists 0, "uncompressed"%string, x. split; [reflexivity|]. split; [now left|exact Hv].
    + apply A1 in H as (es & He & Hv); [|assumption]. exists es. split; [exact He|]. exists 1, "fixed_huffman"%string, x. split; [reflexivity|]. split; [right; now left|exact Hv].
    + apply A2 in H as (es & He & Hv); [|assumption]. exists es. split; [exact He|]. exists 2, "dynamic_huffman"%string, x. split; [reflexivity|]. split; [right; right; now left|exact Hv].
  - intros i j es H. assert (Hcase : t = 0%N \/ t = 1%N \/ t = 2%N) by (destruct H; auto). destruct Hcase as [-> | [-> | ->]].
    + destruct (B0 _ _ _ H) as (x & Hx & Hv). eexists. split; [apply sem_match; do 5 eexists; split; [apply eval_var; exact Hg|]; split; [rewrite Hfm; reflexivity|]; split; [apply sem_variant; exists x; split; [exact Hx|reflexivity]|reflexivity]|].
      exists 0, "uncompressed"%string, x. split; [reflexivity|]. split; [now left|exact Hv].
    + destruct (B1 _ _ _ H) as (x & Hx & Hv). eexists. split; [apply sem_match; do 5 eexists; split; [apply eval_var; exact Hg|]; split; [rewrite Hfm; reflexivity|]; split; [apply sem_variant; exists x; split; [exact Hx|reflexivity]|reflexivity]|].
      exists 1, "fixed_huffman"%string, x. split; [reflexivity|]. split; [right; now left|exact Hv].
    + destruct (B2 _ _ _ H) as (x & Hx & Hv). eexists. split; [apply sem_match; do 5 eexists; split; [apply eval_var; exact Hg|]; split; [rewrite Hfm; reflexivity|]; split; [apply sem_variant; exists x; split; [exact Hx|reflexivity]|reflexivity]|].
      exists 2, "dynamic_huffman"%string, x. split; [reflexivity|]. split; [right; right; now left|exact Hv].
Qed.
Lemma bit_den s : den s bit (Num bs 1) (is B8).
Proof. apply reads_den, bit_reads. exact Hbs. Qed.
Lemma block_den s : den s (call (l_block base)) BlockAt block_is.
Proof.
  assert (Hit : get_item M (l_block base) = Some (block base)) by (apply Hitems; reflexivity).
  assert (Hcall : forall i j v, sem s (call (l_block base)) i j v <-> sem (SMulti SEmpty []) (it_format (block base)) i j v).
  { intros i j v. unfold call. rewrite (sem_item _ _ _ _ _ s _ _ _ i j v Hit eq_refl). exact (ex_val _ (fun es => sem (SMulti SEmpty es) (it_format (block base)) i j v)). }
  split.
  - intros i j v Hi H. apply Hcall in H. cbn [it_format block] in H. apply record_sem in H as (rs & HF & ->); [|reflexivity].
    apply fields_cons in HF as (j1 & v1 & rs1 & A1 & HF & ->). apply fields_cons in HF as (j2 & v2 & rs2 & A2 & HF & ->). apply fields_cons in HF as (j3 & v3 & rs3 & A3 & HF & ->). apply fields_nil in HF as [-> ->].
    cbn [snd fst] in A1, A2, A3.
    apply bit_den in A1 as (fin & N1 & V1); [|assumption]. pose proof (Num_len _ _ _ _ _ N1) as L1.
    apply bits8_den in A2 as (t & N2 & V2); [|assumption|lia|lia]. pose proof (Num_len _ _ _ _ _ N2) as L2.
    apply (data_den _ t v2 (get_same _ _ _) V2) in A3 as (es & HB & k & c & u & -> & Hc & Hu); [|lia].
    exists (fin, t, es). split; [exists j1, j2; auto|]. do 5 eexists. split; [reflexivity|]. split; [reflexivity|]. split; [exact V1|]. split; [reflexivity|]. auto.
  - intros i j [[fin t] es] (i1 & i2 & N1 & N2 & HB).
    destruct (proj2 (bit_den (SMulti SEmpty [])) _ _ _ N1) as (v1 & A1 & V1).
    destruct (proj2 (bits8_den M strict um fl bs Hbs 2 (SSingle (SMulti SEmpty []) (intern "final") v1) ltac:(lia)) _ _ _ N2) as (v2 & A2 & V2).
    destruct (proj2 (data_den (SSingle (SSingle (SMulti SEmpty []) (intern "final") v1) (intern "type") v2) t v2 (get_same _ _ _) V2) _ _ _ HB) as (v3 & A3 & k & c & u & -> & Hc & Hu).
    eexists. split.
    + apply Hcall. cbn [it_format block]. apply record_sem; [reflexivity|]. eexists. split; [|reflexivity].
      eapply FieldsKept; [exact A1|]. eapply FieldsKept; [exact A2|]. eapply FieldsKept; [exact A3|]. constructor.
    + do 5 eexists. split; [reflexivity|]. split; [reflexivity|]. split; [exact V1|]. split; [reflexivity|]. auto.
Qed.
Definition last_block (b : N * N * list element) : bool := N.eqb (fst (fst b)) 1.
Lemma block_ok i j b : BlockAt i j b -> Forall elem_ok (snd b) /\ j <= length bs /\ (fst (fst b) < 2)%N.
Proof.
  destruct b as [[fin t] es]. intros (i1 & i2 & H1 & H2 & H3). apply (body_ok bs Hbs) in H3 as [H3 H4]. split; [exact H3|]. split; [exact H4|]. exact (Num_bound _ _ _ _ _ Hbs H1).
Qed.
Lemma run_blocks i j es : Blocks false strict bs i j es <-> exists ts, Run BlockAt last_block i j ts /\ es = flat_map snd ts.
Proof.
  split.
  - intros H. induction H as [i i1 i2 j t es H1 H2 H3|i i1 i2 j k t es es' H1 H2 H3 H IH].
    + exists [(1%N, t, es)]. split; [apply RunLast; [exists i1, i2; auto|reflexivity]|]. cbn [flat_map snd]. now rewrite app_nil_r.
    + destruct IH as (ts & HR & ->). exists ((0%N, t, es) :: ts). split; [|reflexivity]. eapply RunMore; [exists i1, i2; eauto|reflexivity|exact HR].
  - intros (ts & HR & ->). induction HR as [i j [[fin t] es] (i1 & i2 & H1 & H2 & H3) Hp|i j k [[fin t] es] ts Hb Hp HR IH].
    + apply N.eqb_eq in Hp. cbn [fst] in Hp. subst fin. cbn [flat_map snd]. rewrite app_nil_r. eapply LastBlock; eassumption.
    + pose proof (block_ok _ _ _ Hb) as (_ & _ & Hf). unfold last_block in Hp. cbn [fst] in Hf, Hp. apply N.eqb_neq in Hp. assert (fin = 0%N) as -> by lia.
      destruct Hb as (i1 & i2 & H1 & H2 & H3). cbn [flat_map snd]. eapply MoreBlocks; eassumption.
Qed.
Lemma block_codes_eval {D} (s : scope D) ts vs : get_value (intern "blocks") s = Some (VSeq (Strict vs)) -> Forall2 block_is ts vs ->
  eval_value block_codes s = Val (VSeq (Strict (map elem_value (flat_map snd ts)))).
Proof.
  intros Hg HF. assert (E : map elem_value (flat_map snd ts) = flat_map (fun b : N * N * list element => map elem_value (snd b)) ts).
  { rewrite flat_map_concat_map, concat_map, map_map, <- flat_map_concat_map. reflexivity. }
  rewrite E. unfold block_codes. eapply eval_flat; [apply eval_var; exact Hg|reflexivity|].
  clear E Hg. induction HF as [|[[fin t] es] v ts vs (fs & fv & k & c & u & Hv & _ & _ & Hd & Hc & bf & Hu & Hcv) HF IH]; constructor; [|exact IH]. clear IH HF.
  set (s1 := SSingle s (intern "x") v).
  assert (Hp : eval (proj (evar "x") "data") s1 = Val (VBranch k (VVariant (intern c) u))) by (eapply eval_proj; [apply eval_var, get_same|exact Hv|exact Hd]).
  clearbody s1. cbn [map]. cbn [snd]. unfold eval_value at 1.
  assert (Hfm : exists n, first_match (VBranch k (VVariant (intern c) u)) s1 0 (map (fun c => (PVariant (intern c) (PBinding (intern "y")), proj (evar "y") "codes-values")) ["uncompressed"; "fixed_huffman"; "dynamic_huffman"]%string) =
    Some (n, SMulti s1 [(intern "y", EntVal u)], proj (evar "y") "codes-values")).
  { destruct Hc as [<- | [<- | [<- | []]]]; eexists; reflexivity. }
  destruct Hfm as (n & Hfm). erewrite eval_match; [|exact Hp|exact Hfm].
  assert (Ey : eval (proj (evar "y") "codes-values") (SMulti s1 [(intern "y", EntVal u)]) = Val (VSeq (Strict (map elem_value es)))).
  { eapply eval_proj; [apply eval_var; reflexivity|exact Hu|exact Hcv]. }
  unfold eval_value. rewrite Ey. reflexivity.
Qed.
(** The whole stream *)
Definition stream_is (es : list element) (v : value) : Prop :=
  exists fs l s, coerce_mapped v = VRecord fs /\ assoc (intern "inflate") fs = Some (VSeq (Strict l)) /\ steps (s : scope format) [] es = Val l.
Lemma stream_den s : 
  (forall i j v, i <= length bs -> sem s (deflate base) i j v -> exists es, Blocks false strict bs i j es /\ Forall elem_ok es /\ stream_is es v) /\
  (forall i j es, Blocks false strict bs i j es -> (exists data, Writes [] es data /\ (N.of_nat (length data) < 2 ^ 32)%N) -> exists v, sem s (deflate base) i j v /\ Forall elem_ok es /\ stream_is es v).
Proof.
  assert (Hit : get_item M (l_main base) = Some (deflate_main base)) by (apply Hitems; reflexivity).
  assert (Hcall : forall i j v, sem s (deflate base) i j v <-> sem (SMulti SEmpty []) (it_format (deflate_main base)) i j v).
  { intros i j v. unfold deflate, call. rewrite (sem_item _ _ _ _ _ s _ _ _ i j v Hit eq_refl). exact (ex_val _ (fun es => sem (SMulti SEmpty es) (it_format (deflate_main base)) i j v)). }
  assert (Hrun : den (SMulti SEmpty []) (FRepeatUntilLast (ELambda (intern "x") (EIntRel REq (proj (evar "x") "final") (EU B8 1))) (call (l_block base)))
    (Run BlockAt last_block) (fun ts v => exists vs, v = VSeq (Strict vs) /\ Forall2 block_is ts vs)).
  { apply until_last_den; [apply block_den|intros i j t H; apply (block_ok _ _ _ H)|].
    intros i j [[fin t] es] v _ (fs & fv & k & c & u & Hv & Hf & Hfi & _). unfold lambda_bool, eval_lambda, last_block. cbn [fst].
    set (s1 := SSingle (SMulti SEmpty []) (intern "x") v).
    assert (Ef : eval (proj (evar "x") "final") s1 = Val fv) by (eapply eval_proj; [apply eval_var, get_same|exact Hv|exact Hf]).
    clearbody s1. unfold eval_value. cbn [eval]. rewrite Ef. cbn [omap obind]. rewrite Hfi. cbn [coerce_mapped value_int_rel bw_eqb rel_apply omap obind unwrap_bool]. reflexivity. }
  destruct Hrun as [A B].
  assert (Hok : forall i j ts, Run BlockAt last_block i j ts -> Forall elem_ok (flat_map snd ts)).
  { intros i j ts H. induction H as [i j t Hb _|i j k t ts Hb _ HR IH]; cbn [flat_map]; apply Forall_app; (split; [apply (block_ok _ _ _ Hb)|]); [constructor|exact IH]. }
  split.
  - intros i j v Hi H. apply Hcall in H. cbn [it_format deflate_main] in H. apply record_sem in H as (rs & HF & ->); [|reflexivity].
    apply fields_cons in HF as (j1 & v1 & rs1 & A1 & HF & ->). apply fields_cons in HF as (j2 & v2 & rs2 & A2 & HF & ->). apply fields_cons in HF as (j3 & v3 & rs3 & A3 & HF & ->). apply fields_nil in HF as [-> ->].
    cbn [snd fst] in A1, A2, A3. apply A in A1 as (ts & HR & vs & -> & HV); [|assumption].
    apply sem_compute in A2 as [-> A2]. rewrite (block_codes_eval _ ts vs (get_same _ _ _) HV) in A2. injection A2 as <-.
    apply sem_compute in A3 as [-> A3]. rewrite (inflate_eval _ _ (get_same _ _ _)) in A3.
    destruct (steps _ [] (flat_map snd ts)) as [l|] eqn:El in A3; [|discriminate]. cbn [omap obind] in A3. injection A3 as <-.
    exists (flat_map snd ts). split; [apply run_blocks; eauto|]. split; [eapply Hok; exact HR|]. do 3 eexists. split; [reflexivity|]. split; [reflexivity|]. exact El.
  - intros i j es H (data & HW & Hl). apply run_blocks in H as (ts & HR & ->). destruct (B _ _ _ HR) as (v1 & A1 & vs & -> & HV).
    pose proof (Hok _ _ _ HR) as Hes.
    pose proof (fun s : scope format => writes_steps s _ [] _ HW Hes Hl) as Est.
    eexists. split.
    + apply Hcall. cbn [it_format deflate_main]. apply record_sem; [reflexivity|]. eexists. split; [|reflexivity].
      eapply FieldsKept; [exact A1|]. eapply FieldsKept; [apply sem_compute; split; [reflexivity|exact (block_codes_eval _ ts vs (get_same _ _ _) HV)]|].
      eapply FieldsKept; [apply sem_compute; split; [reflexivity|]|constructor]. rewrite (inflate_eval _ _ (get_same _ _ _)). change (@nil value) with (bytes_value []). rewrite Est. reflexivity.
    + split; [exact Hes|]. exists [(intern "blocks", VSeq (Strict vs)); (intern "codes", VSeq (Strict (map elem_value (flat_map snd ts)))); (intern "inflate", VSeq (Strict (bytes_value data)))], (bytes_value data), SEmpty.
      split; [reflexivity|]. split; [reflexivity|]. apply Est.
Qed.
End Sem.
