(** What the run-length format describes. *)
From Coq Require Import String.
From Verif Require Import Base BoundsModel DataModel NumericModel.
From Verif Require Import ValueModel FormatModel DecoderModel FormatSpec
  RecordModel TextModel RecordSpec RecordProofs RecordProps TextProofs DeflateModel DeflateSpec DeflateBits DeflateProofs DeflateBlocks DeflateProps GzipModel GzipSpec GzipProofs RleModel RleSpec.
Open Scope nat_scope.

Definition run_val (len char : string) (r : run_of) : value :=
  kept [(len, VU B8 (fst r)); (char, VU B8 (snd r)); ("buf", bytes_val (repeat (snd r) (N.to_nat (fst r))))]%string.
Definition rle_val (old : bool) (runs : list run_of) : value :=
  if old then VBranch 0 (VVariant (intern "old-style") (kept [("runs", VSeq (Strict (map (run_val "len" "char") runs))); ("data", bytes_val (decoded runs))]))%string
  else VBranch 1 (VVariant (intern "new-style") (kept [("data", bytes_val (decoded runs))]))%string.

Section Sems.
Context (M : fmodule) (strict : bool) (um fl : scope format -> format -> list N -> nat -> Prop).
Context (buf : list N) (Hbuf : Forall (fun b => (b < 256)%N) buf).
Notation sem := (sem M strict um fl buf).
Ltac field H k v rs Q := apply fields_cons in H as (k & v & rs & Q & H & ->).
Lemma copies_chain s e v : eval_value e s = Val v -> forall n i j vs,
  (Chain (fun f i j v => SemN M strict um fl s f buf i j v) (repeat (FCompute e) n) i j vs <-> j = i /\ vs = repeat v n).
Proof.
  intros He. induction n as [|n IH]; intros i j vs; cbn [repeat].
  - split; [intros H; inversion H; auto|intros (-> & ->); constructor].
  - rewrite chain_cons. split.
    + intros (k & w & ws & H1 & H2 & ->). apply sem_compute in H1 as [-> H1]. apply IH in H2 as [-> ->]. split; [reflexivity|]. f_equal. congruence.
    + intros (-> & ->). exists i, v, (repeat v n). split; [apply sem_compute; auto|]. split; [apply IH; auto|reflexivity].
Qed.
Lemma byte_eval {D} x (s : scope D) b : get_value (intern x) s = Some (VU B8 b) -> eval_value (evar x) s = Val (VU B8 b) /\ eval_usize (evar x) s = Val b.
Proof. intros H. unfold eval_usize, eval_value. rewrite (eval_var _ _ _ H). split; reflexivity. Qed.
Lemma map_repeat {A B} (f : A -> B) a n : map f (repeat a n) = repeat (f a) n.
Proof. induction n as [|n IH]; [reflexivity|]. cbn. now rewrite IH. Qed.
Lemma Bytes_pair i j (b c : N) : Bytes buf i j [b; c] <-> exists k, Bytes buf i k [b] /\ Bytes buf k j [c].
Proof. change [b; c] with ([b] ++ [c]). apply Bytes_app. Qed.
Lemma run_sem len char s i j v : distinct [intern len; intern char; intern "buf"] = true ->
  (sem s (it_format (run_item len char)) i j v <-> exists r, Bytes buf i j [fst r; snd r] /\ v = run_val len char r).
Proof.
  intros Hd. unfold run_item, it_format. rewrite record_sem by exact Hd. unfold all_kept, named. cbn [map fst snd].
  assert (Hlc : N.eqb (intern char) (intern len) = false). { cbn [distinct existsb] in Hd. apply andb_true_iff in Hd as [Hd _]. apply negb_true_iff in Hd. apply orb_false_iff in Hd as [Hd _]. now rewrite N.eqb_sym. }
  assert (G : forall b c, let s' := SSingle (SSingle s (intern len) (VU B8 b)) (intern char) (VU B8 c) in
    eval_usize (evar len) s' = Val b /\ eval_value (evar char) s' = Val (VU B8 c)).
  { intros b c s'. split; [apply byte_eval; unfold s'; rewrite get_other by exact Hlc; apply get_same|apply byte_eval, get_same]. }
  split.
  - intros (rs & H & ->). field H k1 v1 rs1 Q1. field H k2 v2 rs2 Q2. field H k3 v3 rs3 Q3. apply fields_nil in H as [-> ->].
    apply u8_sem in Q1 as (b & Q1 & ->); [|assumption]. apply u8_sem in Q2 as (c & Q2 & ->); [|assumption]. destruct (G b c) as [G1 G2]. inversion Q3; subst.
    match goal with A : eval_usize _ _ = Val _ |- _ => rewrite G1 in A; injection A as <- end.
    match goal with A : Chain _ _ _ _ _ |- _ => apply (copies_chain _ _ _ G2) in A as [-> ->] end.
    exists (b, c). split; [apply Bytes_pair; eauto|]. unfold run_val, bytes_val. cbn [fst snd]. now rewrite map_repeat.
  - intros ([b c] & H & ->). apply Bytes_pair in H as (k & H1 & H2). cbn [fst snd] in *. destruct (G b c) as [G1 G2]. eexists. split.
    apply fields_cons. do 3 eexists. split; [apply u8_sem; [assumption|]; eexists; split; [exact H1|reflexivity]|]. split; [|reflexivity].
    apply fields_cons. do 3 eexists. split; [apply u8_sem; [assumption|]; eexists; split; [exact H2|reflexivity]|]. split; [|reflexivity].
    apply fields_cons. do 3 eexists. split; [eapply SemRepeatCount; [exact G1|apply (copies_chain _ _ _ G2); auto]|]. split; [apply fields_nil; split; reflexivity|reflexivity].
    unfold run_val, bytes_val. cbn [fst snd]. rewrite map_repeat. reflexivity.
Qed.
Lemma runs_chain f len char s : (forall i j v, sem s f i j v <-> exists r, Bytes buf i j [fst r; snd r] /\ v = run_val len char r) ->
  forall n i j vs, i <= length buf -> (Chain (fun f i j v => SemN M strict um fl s f buf i j v) (repeat f n) i j vs <->
    exists runs, Bytes buf i j (encoded runs) /\ length runs = n /\ vs = map (run_val len char) runs).
Proof.
  intros Hf. induction n as [|n IH]; intros i j vs Hi; cbn [repeat].
  - split.
    + intros H. inversion H; subst. exists []. cbn [encoded flat_map]. rewrite Bytes_nil. auto.
    + intros (runs & H & Hn & ->). destruct runs; [|discriminate]. apply Bytes_nil in H as [_ ->]. constructor.
  - rewrite chain_cons. split.
    + intros (k & w & ws & H1 & H2 & ->). apply Hf in H1 as (r & H1 & ->). apply IH in H2 as (runs & H2 & Hn & ->); [|eapply Bytes_bound; eassumption].
      exists (r :: runs). split; [change (encoded (r :: runs)) with ([fst r; snd r] ++ encoded runs); apply Bytes_app; eauto|]. split; [cbn; congruence|reflexivity].
    + intros (runs & H & Hn & ->). destruct runs as [|r runs]; [discriminate|]. change (encoded (r :: runs)) with ([fst r; snd r] ++ encoded runs) in H. apply Bytes_app in H as (k & H1 & H2).
      exists k, (run_val len char r), (map (run_val len char) runs). split; [apply Hf; eauto|]. split; [|reflexivity]. apply IH; [eapply Bytes_bound; eassumption|]. exists runs. injection Hn as Hn. auto.
Qed.
Lemma expanded_sem x len char s runs i j v : distinct [intern len; intern char; intern "buf"] = true ->
  get_value (intern x) s = Some (VSeq (Strict (map (run_val len char) runs))) ->
  (sem s (expanded x) i j v <-> j = i /\ v = bytes_val (decoded runs)).
Proof.
  intros Hd Hg. unfold expanded, mk_ascii_string. rewrite sem_hint, sem_compute.
  assert (E : eval_value (EFlatMap (ELambda (intern "run") (proj (evar "run") "buf")) (evar x)) s = Val (bytes_val (decoded runs))).
  { unfold bytes_val, decoded. rewrite flat_map_concat_map, concat_map, map_map, <- flat_map_concat_map.
    eapply eval_flat; [apply eval_var; exact Hg|reflexivity|].
    clear Hg. generalize runs. clear runs. induction runs as [|r runs IH]; [constructor|]. cbn [map]. constructor; [|exact IH].
    assert (EP : eval (proj (evar "run") "buf") (SSingle s (intern "run") (run_val len char r)) = Val (bytes_val (repeat (snd r) (N.to_nat (fst r))))); [|unfold eval_value; rewrite EP; reflexivity].
    eapply eval_proj; [apply eval_var, get_same|reflexivity|]. cbn [map fst snd assoc]. cbn [distinct existsb] in Hd.
    apply andb_true_iff in Hd as [H1 H2]. apply andb_true_iff in H2 as [H2 _]. apply negb_true_iff in H1, H2. rewrite !orb_false_r in *. apply orb_false_iff in H1 as [_ H1].
    rewrite N.eqb_sym in H1, H2. now rewrite H1, H2, N.eqb_refl. }
  rewrite E. split; intros [-> H]; (split; [reflexivity|congruence]).
Qed.
Context (base : nat) (Hitems : forall k it, nth_error (rle_items base) k = Some it -> get_item M (base + k) = Some it).
Lemma old_run s i j v : sem s (call (l_old_run base)) i j v <-> exists r, Bytes buf i j [fst r; snd r] /\ v = run_val "len" "char" r.
Proof. rewrite (sem_call M strict um fl buf s _ (run_item "len" "char")); [apply run_sem; reflexivity|rewrite <- (Nat.add_0_r (l_old_run base)); apply (Hitems 0); reflexivity|reflexivity..]. Qed.
Lemma new_run s i j v : sem s (call (l_new_run base)) i j v <-> exists r, Bytes buf i j [fst r; snd r] /\ v = run_val "_len" "_char" r.
Proof. rewrite (sem_call M strict um fl buf s _ (run_item "_len" "_char")); [apply run_sem; reflexivity|apply (Hitems 2); reflexivity|reflexivity..]. Qed.
Lemma old_sem s i j v : i <= length buf -> (sem s (call (l_old base)) i j v <->
  exists runs, Bytes buf i j (encoded runs) /\ v = kept [("runs", VSeq (Strict (map (run_val "len" "char") runs))); ("data", bytes_val (decoded runs))]%string).
Proof.
  intros Hi. rewrite (sem_call M strict um fl buf s _ (old_style base)); [|apply (Hitems 1); reflexivity|reflexivity..]. unfold old_style, it_format. rewrite record_sem by reflexivity.
  unfold all_kept, named. cbn [map fst snd]. split.
  - intros (rs & H & ->). field H k1 v1 rs1 Q1. field H k2 v2 rs2 Q2. apply fields_nil in H as [-> ->]. inversion Q1; subst.
    match goal with A : Chain _ _ _ _ _ |- _ => apply (runs_chain _ "len" "char" _ (old_run _)) in A as (runs & HB & _ & ->); [|assumption] end.
    apply (expanded_sem "runs" "len" "char" _ runs) in Q2 as [-> ->]; [|reflexivity|apply get_same]. eauto.
  - intros (runs & H & ->). eexists. split.
    apply fields_cons. do 3 eexists. split; [eapply SemRepeat; apply (runs_chain _ "len" "char" _ (old_run _)); [assumption|]; eexists; split; [exact H|split; reflexivity]|]. split; [|reflexivity].
    apply fields_cons. do 3 eexists. split; [apply (expanded_sem "runs" "len" "char" _ runs); [reflexivity|apply get_same|auto]|]. split; [apply fields_nil; split; reflexivity|reflexivity]. reflexivity.
Qed.
Lemma new_sem s i j v : i <= length buf -> (sem s (call (l_new base)) i j v <->
  exists runs, Bytes buf i j (encoded runs) /\ v = kept [("data", bytes_val (decoded runs))]%string).
Proof.
  intros Hi. rewrite (sem_call M strict um fl buf s _ (new_style base)); [|apply (Hitems 3); reflexivity|reflexivity..]. unfold new_style, it_format, record_auto.
  cbn [map fst snd]. change (auto_label "_runs") with (Some (intern "_runs", false)). change (auto_label "data") with (Some (intern "data", true)).
  unfold DeflateProofs.sem at 1. rewrite record_ext_sem; [|cbn; repeat constructor; discriminate]. split.
  - intros (rs & H & ->). inversion H; subst. match goal with A : SemN _ _ _ _ _ (FRepeat _) _ _ _ _ |- _ => inversion A; subst end.
    match goal with A : Chain _ _ _ _ _ |- _ => apply (runs_chain _ "_len" "_char" _ (new_run _)) in A as (runs & HB & _ & ->); [|assumption] end.
    match goal with A : Fields _ _ _ _ _ _ |- _ => apply (fields_cons M strict um fl buf) in A as (k & w & rs' & Q & A & ->); apply (fields_nil M strict um fl buf) in A as [-> ->] end.
    apply (expanded_sem "_runs" "_len" "_char" _ runs) in Q as [-> ->]; [|reflexivity|apply get_same]. eauto.
  - intros (runs & H & ->). eexists. split.
    eapply FieldsLocal; [eapply SemRepeat; apply (runs_chain _ "_len" "_char" _ (new_run _)); [assumption|]; eexists; split; [exact H|split; reflexivity]|].
    apply (fields_cons M strict um fl buf). do 3 eexists. split; [apply (expanded_sem "_runs" "_len" "_char" _ runs); [reflexivity|apply get_same|auto]|]. split; [apply (fields_nil M strict um fl buf); split; reflexivity|reflexivity]. reflexivity.
Qed.
Lemma rle_sem s i j v : sem s (rle base) i j v <-> exists old runs, RunLength buf i j old runs /\ v = rle_val old runs.
Proof.
  unfold rle. rewrite (sem_call M strict um fl buf s _ (rle_main base)); [|apply (Hitems 4); reflexivity|reflexivity..]. unfold rle_main, it_format. unfold RunLength.
  assert (B : forall (b : N) l, Bytes buf i j (b :: l) <-> exists k, Bytes buf i k [b] /\ Bytes buf k j l) by (intros b l; change (b :: l) with ([b] ++ l); apply Bytes_app).
  split.
  - intros H. inversion H; subst.
    match goal with A : nth_error _ ?k = Some _ |- _ => destruct k as [|[|k]]; cbn [nth_error] in A; [injection A as <-|injection A as <-|destruct k; discriminate A] end.
    + match goal with A : SemN _ _ _ _ _ (FMonadSeq _ _) _ _ _ _ |- _ => apply (sem_then M strict um fl buf) in A as (k & w & A1 & A2) end.
      apply is_byte_sem in A1 as [A1 _]; [|assumption|reflexivity]. inversion A2; subst. match goal with A : SemN _ _ _ _ _ (call _) _ _ _ _ |- _ => apply old_sem in A as (runs & HB & ->); [|eapply Bytes_bound; eassumption] end.
      exists true, runs. split; [apply B; eauto|reflexivity].
    + match goal with A : SemN _ _ _ _ _ (FMonadSeq _ _) _ _ _ _ |- _ => apply (sem_then M strict um fl buf) in A as (k & w & A1 & A2) end.
      apply is_byte_sem in A1 as [A1 _]; [|assumption|reflexivity]. inversion A2; subst. match goal with A : SemN _ _ _ _ _ (call _) _ _ _ _ |- _ => apply new_sem in A as (runs & HB & ->); [|eapply Bytes_bound; eassumption] end.
      exists false, runs. split; [apply B; eauto|reflexivity].
  - intros ([|] & runs & H & ->); apply B in H as (k & H1 & H2).
    + eapply SemUnion with (k := 0); [reflexivity|]. apply (sem_then M strict um fl buf). exists k, (VU B8 0). split; [apply is_byte_sem; [assumption|reflexivity|auto]|]. constructor. apply old_sem; [eapply Bytes_bound; eassumption|eauto].
    + eapply SemUnion with (k := 1); [reflexivity|]. apply (sem_then M strict um fl buf). exists k, (VU B8 1). split; [apply is_byte_sem; [assumption|reflexivity|auto]|]. constructor. apply new_sem; [eapply Bytes_bound; eassumption|eauto].
Qed.
End Sems.
(** ** The encoder *)
Lemma encode_decoded data : decoded (encode data) = data.
Proof.
  induction data as [|b rest IH]; [reflexivity|]. cbn [encode]. destruct (encode rest) as [|[n c] runs]; [now rewrite <- IH|].
  destruct (N.eqb_spec b c) as [->|]; [destruct (N.ltb_spec n 255)|]; cbn [andb]; rewrite <- IH; [|reflexivity..].
  unfold decoded. cbn [flat_map fst snd]. now rewrite N.add_1_r, N2Nat.inj_succ.
Qed.
Lemma encode_bytes data : Forall (fun b => (b < 256)%N) data -> Forall (fun b => (b < 256)%N) (encoded (encode data)).
Proof.
  intros H. assert (G : Forall (fun r : run_of => (fst r < 256)%N /\ (snd r < 256)%N) (encode data)).
  { induction H as [|b rest Hb Hr IH]; [constructor|]. cbn [encode]. destruct (encode rest) as [|[n c] runs]; [repeat constructor; cbn; lia|].
    inversion IH as [|? ? [H1 H2] H3]; subst. cbn [fst snd] in *. destruct (N.eqb_spec b c) as [->|]; [destruct (N.ltb_spec n 255)|]; cbn [andb]; repeat (constructor; cbn; try lia); assumption. }
  induction G as [|[n c] runs [H1 H2] _ IH]; [constructor|]. cbn. constructor; [assumption|]. now constructor.
Qed.
