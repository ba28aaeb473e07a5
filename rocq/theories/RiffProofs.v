(** What the RIFF format describes. *)
From Coq Require Import String.
From Verif Require ByteSetModel ByteSetProofs.
From Verif Require Import Base BoundsModel DataModel NumericModel.
From Verif Require Import ValueModel FormatModel DecoderModel FormatSpec
  RecordModel TextModel RecordSpec RecordProofs RecordProps TextProofs DeflateModel DeflateSpec DeflateBits DeflateProofs DeflateProps GzipModel GzipSpec GzipProofs RiffModel RiffSpec.
Open Scope nat_scope.

(** ** Values *)
Definition code_val (code : list N) : value := VTuple (map (VU B8) code).
Definition pad_val (odd : bool) : value := VOption (if odd then Some (VU B8 0) else None).
(** The value of a chunk whose contents are [a], where [R] is their value *)
Definition chunk_is {A} (R : A -> value -> Prop) (code : list N) (a : A) (v : value) : Prop :=
  exists size data, v = kept [("tag", code_val code); ("length", int_val false B32 size); ("data", data);
      ("pad", pad_val (N.eqb (little size mod 2) 1))]%string /\ R a data.
Definition data_is (data : list N) (v : value) : Prop := v = bytes_val data.
Definition sub_is (c : chunk_of) (v : value) : Prop := chunk_is data_is (fst c) (snd c) v.
Definition form_is (file : riff_file) (v : value) : Prop :=
  exists vs, v = kept [("tag", code_val (r_form file)); ("chunks", VSeq (Strict vs))]%string /\ Forall2 sub_is (r_chunks file) vs.
Definition riff_is (file : riff_file) (v : value) : Prop := chunk_is form_is [82; 73; 70; 70]%N file v.

Definition bytes (buf : list N) : Prop := Forall (fun b => (b < 256)%N) buf.
Lemma bytes_firstn n buf : bytes buf -> bytes (firstn n buf).
Proof. intros H. apply Forall_forall. intros b Hb. unfold bytes in H. rewrite Forall_forall in H. apply H. rewrite <- (firstn_skipn n buf). apply in_or_app. now left. Qed.

Lemma odd_eval {D} (s : scope D) l : get_value (intern "length") s = Some (int_val false B32 l) ->
  eval_bool (is_odd (evar "length")) s = Val (N.eqb (little l mod 2) 1).
Proof.
  intros H. unfold eval_bool, eval_value, is_odd, expr_eq, rem. cbn [eval]. unfold eval_value. rewrite (eval_var _ _ _ H).
  reflexivity.
Qed.

Section Sems.
Context (M : fmodule) (strict : bool) (um fl : scope format -> format -> list N -> nat -> Prop).
Ltac field H k v rs Q := apply fields_cons in H as (k & v & rs & Q & H & ->).
Section Buf.
Context (buf : list N) (Hbuf : bytes buf).
Notation sem := (sem M strict um fl buf).
Lemma four_bytes i j l : Bytes buf i j l -> length l = 4 -> (number false l < 4294967296)%N.
Proof.
  intros H Hl. apply bytes_iff in H as [H _]. change 4294967296%N with (modulus B32). apply (uint_bound buf Hbuf B32 i l false). change (N.to_nat (nbits B32 / 8)) with 4. now rewrite Hl in H.
Qed.
Lemma code_sem s i j v : i <= length buf -> (sem s (tuple_repeat 4 ascii_char) i j v <-> exists l, Bytes buf i j l /\ length l = 4 /\ v = code_val l).
Proof.
  intros Hi. unfold tuple_repeat.
  assert (U : forall i j v, sem s ascii_char i j v <-> exists b, Bytes buf i j [b] /\ True /\ v = VU B8 b).
  { intros. unfold ascii_char. rewrite sem_hint, any_byte_f_sem by assumption. split; intros (b & H); exists b; tauto. }
  split.
  - intros H. inversion H; subst. match goal with A : Chain _ _ _ _ _ |- _ => apply (byte_chain M strict um fl buf ascii_char (fun _ => True) s U 4) in A as (l & Hl & Hn & _ & ->); [|assumption] end. eauto.
  - intros (l & H & Hl & ->). constructor. apply (byte_chain M strict um fl buf ascii_char (fun _ => True) s U 4); [assumption|]. exists l. split; [assumption|]. split; [assumption|]. split; [|reflexivity]. apply Forall_forall. auto.
Qed.
Lemma is_bytes_chain s l : bytes l -> forall i j vs, i <= length buf ->
  (Chain (fun f i j v => SemN M strict um fl s f buf i j v) (map is_byte_f l) i j vs <-> Bytes buf i j l /\ vs = map (VU B8) l).
Proof.
  induction 1 as [|b l Hb Hl IH]; intros i j vs Hi; cbn [map].
  - rewrite Bytes_nil. split; [intros H; inversion H; subst; auto|]. intros ((_ & ->) & ->). constructor.
  - rewrite chain_cons. change (b :: l) with ([b] ++ l). rewrite Bytes_app. split.
    + intros (k & v & ws & H1 & H2 & ->). apply is_byte_sem in H1 as [H1 ->]; [|assumption..]. apply IH in H2 as [H2 ->]; [|eapply Bytes_bound; eassumption]. eauto.
    + intros ((k & H1 & H2) & ->). exists k, (VU B8 b), (map (VU B8) l). split; [now apply is_byte_sem|]. split; [|reflexivity]. apply IH; [eapply Bytes_bound; eassumption|auto].
Qed.
Lemma is_bytes_sem l s i j v : bytes l -> i <= length buf -> (sem s (is_bytes l) i j v <-> Bytes buf i j l /\ v = code_val l).
Proof.
  intros Hl Hi. unfold is_bytes. split.
  - intros H. inversion H; subst. match goal with A : Chain _ _ _ _ _ |- _ => apply is_bytes_chain in A as [A ->]; [|assumption..] end. auto.
  - intros (H & ->). constructor. apply is_bytes_chain; auto.
Qed.
Lemma opaque_sem s i j v : i <= length buf -> (sem s opaque_bytes i j v <-> exists l, Bytes buf i j l /\ v = bytes_val l).
Proof.
  intros Hi. unfold opaque_bytes.
  assert (U : forall i j v, sem s u8_f i j v <-> exists b, Bytes buf i j [b] /\ True /\ v = VU B8 b).
  { intros. rewrite u8_sem by assumption. split; intros (b & H); exists b; tauto. }
  split.
  - intros H. inversion H; subst. match goal with A : Chain _ _ _ _ _ |- _ => apply (byte_chain M strict um fl buf u8_f (fun _ => True) s U) in A as (l & Hl & _ & _ & ->); [|assumption] end. eauto.
  - intros (l & H & ->). eapply SemRepeat with (n := length l). apply (byte_chain M strict um fl buf u8_f (fun _ => True) s U); [assumption|]. exists l. split; [assumption|]. split; [reflexivity|]. split; [|reflexivity]. apply Forall_forall. auto.
Qed.

(** ** A chunk *)
Section Chunk.
Context {A : Type} (Body : list N -> nat -> nat -> A -> Prop) (R : A -> value -> Prop) (T : list N -> Prop) (tag data : format).
Hypothesis Htag : forall s i j v, i <= length buf -> (sem s tag i j v <-> exists l, Bytes buf i j l /\ length l = 4 /\ T l /\ v = code_val l).
Lemma chunk_only s i j v : i <= length buf ->
  (forall s n k l w, i + 8 <= k -> k <= n -> n <= length buf -> SemN M strict um fl s data (firstn n buf) k l w -> exists a, Body (firstn n buf) k l a /\ R a w) ->
  sem s (chunk tag data) i j v -> exists code a, T code /\ Chunk strict Body buf i j code a /\ chunk_is R code a v.
Proof.
  intros Hi Hdata. unfold chunk. rewrite record_sem by reflexivity. unfold all_kept, named. cbn [map fst snd].
  intros (rs & H & ->). field H k1 v1 rs1 Q1. field H k2 v2 rs2 Q2. field H k3 v3 rs3 Q3. field H k4 v4 rs4 Q4. apply fields_nil in H as [-> ->].
  apply Htag in Q1 as (code & Q1 & Hc & HT & ->); [|assumption]. apply int_sem in Q2 as (size & Q2 & Hl & ->); [|assumption]. change (length size = 4) in Hl. pose proof (four_bytes _ _ _ Q2 Hl) as Hb.
  assert (k1 = i + 4) as -> by (destruct Q1 as [_ ->]; now rewrite Hc). assert (k2 = i + 8) as -> by (destruct Q2 as [_ ->]; rewrite Hl; lia).
  inversion Q3; subst. match goal with A : eval_usize _ _ = Val _ |- _ => rewrite (usize_int _ _ false B32 size) in A; [injection A as <-| |] end; [|apply get_same|unfold w64; lia].
  match goal with A : SemN _ _ _ _ _ data _ _ _ _ |- _ => apply Hdata in A as (a & HB & HR); [|lia..|assumption] end.
  unfold cond_maybe in Q4. match type of Q4 with DeflateProofs.sem _ _ _ _ _ ?s _ _ _ _ => pose proof (odd_eval s size ltac:(look; reflexivity)) as HO end.
  rewrite (sem_maybe M strict um fl buf _ _ _ _ _ _ _ HO) in Q4.
  exists code, a. split; [assumption|]. split.
  - exists size. eexists. split; [exact Q1|]. split; [exact Q2|]. split; [assumption|]. split; [exact HB|]. split; [assumption|]. clear HO. change (little size) with (number false size) in *.
    destruct (N.eqb (number false size mod 2) 1).
    + destruct Q4 as (w & Q4 & _). apply is_byte_sem in Q4 as [Q4 _]; [exact Q4|assumption|reflexivity].
    + apply Q4.
  - exists size, v3. split; [|assumption]. unfold pad_val, kept, record_value. cbn [map fst snd]. do 7 f_equal. clear HO. change (little size) with (number false size) in *. destruct (N.eqb (number false size mod 2) 1).
    + destruct Q4 as (w & Q4 & ->). apply is_byte_sem in Q4 as [_ ->]; [reflexivity|assumption|reflexivity].
    + apply Q4.
Qed.
Lemma chunk_all full s i j code a : (strict = true -> full = true) -> T code ->
  (forall s n k l a, i + 8 <= k -> k <= n -> n <= length buf -> Body (firstn n buf) k l a -> exists w, SemN M strict um fl s data (firstn n buf) k l w /\ R a w) ->
  Chunk full Body buf i j code a -> exists v, sem s (chunk tag data) i j v /\ chunk_is R code a v.
Proof.
  intros Hs HT Hdata (size & k & Q1 & Q2 & Hstop & HB & Hk & Q4). change (little size) with (number false size) in *.
  assert (Hc : length code = 4) by (destruct Q1 as [_ Q1]; lia). assert (Hl : length size = 4) by (destruct Q2 as [_ Q2]; lia). pose proof (four_bytes _ _ _ Q2 Hl) as Hb.
  pose proof (Bytes_bound _ _ _ _ Q1) as L1.
  destruct (Hdata (SSingle (SSingle s (intern "tag") (code_val code)) (intern "length") (int_val false B32 size)) _ _ _ _ (le_n _) (Nat.le_add_r _ _) Hstop HB) as (w & Hw & HR).
  exists (kept [("tag", code_val code); ("length", int_val false B32 size); ("data", w); ("pad", pad_val (N.eqb (little size mod 2) 1))]%string).
  split; [|exists size, w; auto]. unfold chunk. rewrite record_sem by reflexivity. unfold all_kept, named. cbn [map fst snd]. eexists. split.
  apply fields_cons. do 3 eexists. split; [apply Htag; [lia|]; eexists; split; [exact Q1|]; split; [exact Hc|]; split; [exact HT|reflexivity]|]. split; [|reflexivity].
  apply fields_cons. do 3 eexists. split; [apply int_sem; [assumption|]; eexists; split; [exact Q2|split; [exact Hl|reflexivity]]|]. split; [|reflexivity].
  apply fields_cons. do 3 eexists. split; [eapply SemSlice; [apply (usize_int _ _ false B32 size); [apply get_same|unfold w64; lia]|exact Hstop|exact Hw|intros Es; apply Hk; auto]|]. split; [|reflexivity].
  apply fields_cons. do 3 eexists. split; [|split; [apply fields_nil; split; reflexivity|reflexivity]].
  unfold cond_maybe. match goal with |- DeflateProofs.sem _ _ _ _ _ ?s _ _ _ _ => pose proof (odd_eval s size ltac:(look; reflexivity)) as HO end.
  rewrite (sem_maybe M strict um fl buf _ _ _ _ _ _ _ HO). change (little size) with (number false size).
  instantiate (1 := pad_val (N.eqb (number false size mod 2) 1)). destruct (N.eqb (number false size mod 2) 1).
  - eexists. split; [apply is_byte_sem; [assumption|reflexivity|]; split; [exact Q4|reflexivity]|reflexivity].
  - split; [exact Q4|reflexivity].
  - reflexivity.
Qed.
End Chunk.
End Buf.

(** ** Files *)
Context (base : nat) (Hitems : forall k it, nth_error (riff_items base) k = Some it -> get_item M (base + k) = Some it).
Lemma tag_sem buf s i j v : bytes buf -> i <= length buf -> (sem M strict um fl buf s (call (l_tag base)) i j v <-> exists l, Bytes buf i j l /\ length l = 4 /\ True /\ v = code_val l).
Proof.
  intros Hb Hi. rewrite (sem_call M strict um fl buf s _ any_tag); [|rewrite <- (Nat.add_0_r (l_tag base)); apply (Hitems 0); reflexivity|reflexivity..]. unfold any_tag, it_format. rewrite code_sem by assumption.
  split; intros (l & H); exists l; tauto.
Qed.
Lemma any_chunk_only buf s i j v : bytes buf -> i <= length buf -> sem M strict um fl buf s (call (l_chunk base)) i j v ->
  exists code data, Chunk strict Bytes buf i j code data /\ sub_is (code, data) v.
Proof.
  intros Hb Hi. rewrite (sem_call M strict um fl buf s _ (any_chunk base)); [|apply (Hitems 1); reflexivity|reflexivity..]. unfold any_chunk, it_format. intros H.
  apply (chunk_only buf Hb Bytes data_is (fun _ => True)) in H as (code & a & _ & HC & HR); [eauto|intros; now apply tag_sem|assumption|].
  intros s' n k l w _ Hk Hn H'. apply opaque_sem in H'; [exact H'|now apply bytes_firstn|rewrite firstn_length; lia].
Qed.
Lemma any_chunk_all full buf s i j code data : (strict = true -> full = true) -> bytes buf -> Chunk full Bytes buf i j code data ->
  exists v, sem M strict um fl buf s (call (l_chunk base)) i j v /\ sub_is (code, data) v.
Proof.
  intros Hs Hb H. destruct (chunk_all buf Hb Bytes data_is (fun _ => True) (call (l_tag base)) opaque_bytes) with (full := full) (s := @SMulti format SEmpty []) (i := i) (j := j) (code := code) (a := data) as (v & Hv & HR); auto.
  - intros; now apply tag_sem.
  - intros s' n k l a _ Hk Hn H'. exists (bytes_val a). split; [|reflexivity]. apply opaque_sem; [now apply bytes_firstn|rewrite firstn_length; lia|eauto].
  - exists v. split; [|exact HR]. rewrite (sem_call M strict um fl buf s _ (any_chunk base)); [exact Hv|apply (Hitems 1); reflexivity|reflexivity..].
Qed.
Lemma chunk_bound {A} full (Body : list N -> nat -> nat -> A -> Prop) buf i j code a : Chunk full Body buf i j code a -> j <= length buf.
Proof. intros (size & k & _ & _ & Hs & _ & _ & H). destruct (N.eqb (little size mod 2) 1); [eapply Bytes_bound; eassumption|lia]. Qed.
Lemma chunks_only buf s : bytes buf -> forall n i j vs, i <= length buf ->
  Chain (fun f i j v => SemN M strict um fl s f buf i j v) (repeat (call (l_chunk base)) n) i j vs -> exists cs, Chunks strict buf i j cs /\ Forall2 sub_is cs vs.
Proof.
  intros Hb. induction n as [|n IH]; intros i j vs Hi H; inversion H as [|? ? ? k ? ? ? H1 H2]; subst.
  - exists []. split; constructor.
  - apply any_chunk_only in H1 as (code & data & HC & HR); [|assumption..]. apply IH in H2 as (cs & HS & HF); [|eapply chunk_bound; eassumption].
    exists ((code, data) :: cs). split; [econstructor; eassumption|]. now constructor.
Qed.
Lemma chunks_all full buf s i j cs : (strict = true -> full = true) -> bytes buf -> Chunks full buf i j cs ->
  exists vs, Chain (fun f i j v => SemN M strict um fl s f buf i j v) (repeat (call (l_chunk base)) (length cs)) i j vs /\ Forall2 sub_is cs vs.
Proof.
  intros Hs Hb. induction 1 as [i|i j k code data rest HC HR (vs & IH & HF)]; [exists []; split; constructor|].
  destruct (any_chunk_all full buf s i j code data Hs Hb HC) as (v & Hv & HV). exists (v :: vs). split; [|now constructor]. cbn [length repeat]. econstructor; eassumption.
Qed.
Lemma form_only buf s i j v : bytes buf -> i <= length buf -> sem M strict um fl buf s (call (l_subchunks base)) i j v -> exists file, Form strict buf i j file /\ form_is file v.
Proof.
  intros Hb Hi. rewrite (sem_call M strict um fl buf s _ (subchunks base)); [|apply (Hitems 2); reflexivity|reflexivity..]. unfold subchunks, it_format. rewrite record_sem by reflexivity.
  unfold all_kept, named. cbn [map fst snd]. intros (rs & H & ->). field H k1 v1 rs1 Q1. field H k2 v2 rs2 Q2. apply fields_nil in H as [-> ->].
  apply tag_sem in Q1 as (form & Q1 & Hl & _ & ->); [|assumption..]. pose proof (Bytes_bound _ _ _ _ Q1) as L. assert (k1 = i + 4) as -> by (destruct Q1 as [_ ->]; now rewrite Hl).
  inversion Q2; subst. match goal with A : Chain _ _ _ _ _ |- _ => apply chunks_only in A as (cs & HS & HF); [|assumption..] end.
  exists (RiffFile form cs). split; [split; assumption|]. exists vs. split; [reflexivity|assumption].
Qed.
Lemma form_all full buf s i j file : (strict = true -> full = true) -> bytes buf -> Form full buf i j file ->
  exists v, sem M strict um fl buf s (call (l_subchunks base)) i j v /\ form_is file v.
Proof.
  intros Hs Hb (Q1 & Q2). pose proof (Bytes_bound _ _ _ _ Q1) as L. assert (Hl : length (r_form file) = 4) by (destruct Q1 as [_ Q1]; lia).
  destruct (chunks_all full buf (SSingle (SMulti SEmpty []) (intern "tag") (code_val (r_form file))) _ _ _ Hs Hb Q2) as (vs & HC & HF).
  exists (kept [("tag", code_val (r_form file)); ("chunks", VSeq (Strict vs))]%string). split; [|exists vs; auto].
  rewrite (sem_call M strict um fl buf s _ (subchunks base)); [|apply (Hitems 2); reflexivity|reflexivity..]. unfold subchunks, it_format. rewrite record_sem by reflexivity.
  unfold all_kept, named. cbn [map fst snd]. eexists. split.
  apply fields_cons. do 3 eexists. split; [apply tag_sem; [assumption|lia|]; eexists; split; [exact Q1|split; [exact Hl|split; [exact I|reflexivity]]]|]. split; [|reflexivity].
  apply fields_cons. do 3 eexists. split; [eapply SemRepeat; exact HC|]. split; [apply fields_nil; split; reflexivity|reflexivity]. reflexivity.
Qed.
Lemma word : bytes [82; 73; 70; 70]%N.
Proof. repeat constructor. Qed.
Lemma word_sem buf s i j v : bytes buf -> i <= length buf ->
  (sem M strict um fl buf s (is_bytes [82; 73; 70; 70]%N) i j v <-> exists l, Bytes buf i j l /\ length l = 4 /\ l = [82; 73; 70; 70]%N /\ v = code_val l).
Proof. intros Hb Hi. rewrite is_bytes_sem by (assumption || apply word). split; [intros (H & ->); eexists; split; [exact H|auto]|intros (l & H & _ & -> & ->); auto]. Qed.
Lemma riff_only buf s i j v : bytes buf -> i <= length buf -> sem M strict um fl buf s (riff base) i j v -> exists file, Riff strict buf i j file /\ riff_is file v.
Proof.
  intros Hb Hi. unfold riff. rewrite (sem_call M strict um fl buf s _ (riff_main base)); [|apply (Hitems 3); reflexivity|reflexivity..]. unfold riff_main, it_format. intros H.
  apply (chunk_only buf Hb (Form strict) form_is (fun l => l = [82; 73; 70; 70]%N)) in H as (code & a & -> & HC & HR); [eauto|intros; now apply word_sem|assumption|].
  intros s' n k l w _ Hk Hn H'. apply form_only in H'; [exact H'|now apply bytes_firstn|rewrite firstn_length; lia].
Qed.
Lemma riff_all full buf s i j file : (strict = true -> full = true) -> bytes buf -> Riff full buf i j file -> exists v, sem M strict um fl buf s (riff base) i j v /\ riff_is file v.
Proof.
  intros Hs Hb H. destruct (chunk_all buf Hb (Form full) form_is (fun l => l = [82; 73; 70; 70]%N) (is_bytes [82; 73; 70; 70]%N) (call (l_subchunks base))) with (full := full) (s := @SMulti format SEmpty []) (i := i) (j := j) (code := [82; 73; 70; 70]%N) (a := file) as (v & Hv & HR); auto.
  - intros; now apply word_sem.
  - intros s' n k l a _ Hk Hn H'. apply form_all with (full := full); [assumption|now apply bytes_firstn|assumption].
  - exists v. split; [|exact HR]. unfold riff. rewrite (sem_call M strict um fl buf s _ (riff_main base)); [exact Hv|apply (Hitems 3); reflexivity|reflexivity..].
Qed.
End Sems.
