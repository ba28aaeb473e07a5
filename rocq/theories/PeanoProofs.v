(** What the format of Peano numbers describes. *)
From Coq Require Import String.
From Verif Require Import Base BoundsModel DataModel NumericModel.
From Verif Require Import ValueModel FormatModel DecoderModel FormatSpec
  RecordModel TextModel RecordSpec RecordProofs RecordProps TextProofs DeflateModel DeflateSpec DeflateBits DeflateProofs DeflateBlocks DeflateProps GzipModel GzipSpec GzipProofs PeanoModel PeanoSpec.
Open Scope nat_scope.

Definition digit_val (n : nat) : value :=
  VMapped (VTuple [VSeq (Strict (map (VU B8) (repeat 83%N n))); VU B8 90]) (VU B32 (N.of_nat n)).
Definition peano_val (ns : list nat) : value := VSeq (Strict (map digit_val ns)).

Section Sems.
Context (M : fmodule) (um fl : scope format -> format -> list N -> nat -> Prop).
Context (buf : list N) (Hbuf : Forall (fun b => (b < 256)%N) buf).
Notation sem := (sem M false um fl buf).
Lemma mapped f e s i j v : sem s (FMap f e) i j v -> exists w u, sem s f i j w /\ eval_lambda e s w = Val u /\ v = VMapped w u.
Proof. intros H. inversion H; subst. unfold DeflateProofs.sem. eauto. Qed.
Lemma tupled fs s i j v : sem s (FTuple fs) i j v -> exists vs, Chain (fun f i j v => SemN M false um fl s f buf i j v) fs i j vs /\ v = VTuple vs.
Proof. intros H. inversion H; subst. eauto. Qed.
Lemma only_repeat (b : N) l : Forall (fun c => c = b) l -> l = repeat b (List.length l).
Proof. induction 1 as [|c l -> _ IH]; [reflexivity|]. cbn. now rewrite <- IH. Qed.
Lemma all_repeat (b : N) n : Forall (fun c => c = b) (repeat b n).
Proof. induction n; constructor; auto. Qed.
Lemma ss_chain s n i j vs : i <= List.length buf -> (Chain (fun f i j v => SemN M false um fl s f buf i j v) (repeat (is_byte_f 83) n) i j vs <->
  Bytes buf i j (repeat 83%N n) /\ vs = map (VU B8) (repeat 83%N n)).
Proof.
  intros Hi. rewrite (byte_chain M false um fl buf (is_byte_f 83) (fun b => b = 83%N) s); [| |exact Hi].
  - split.
    + intros (l & HB & Hl & Hp & ->). apply only_repeat in Hp. rewrite Hl in Hp. subst l. auto.
    + intros (HB & ->). exists (repeat 83%N n). split; [exact HB|]. split; [apply repeat_length|]. split; [apply all_repeat|reflexivity].
  - intros i' j' v. rewrite is_byte_sem; [|assumption|reflexivity]. split.
    + intros [H ->]. exists 83%N. auto.
    + intros (b & H & -> & ->). auto.
Qed.
Lemma count_eval (s : scope format) n z : n <= 9 ->
  eval_lambda (lambda_tuple ["s"; "_z"]%string (ESeqLength (evar "s"))) s (VTuple [VSeq (Strict (map (VU B8) (repeat 83%N n))); z]) = Val (VU B32 (N.of_nat n)).
Proof. intros H. do 10 (destruct n as [|n]; [reflexivity|]). lia. Qed.
Context (base : nat) (Hitems : forall k it, nth_error (peano_items base) k = Some it -> get_item M (base + k) = Some it).
Lemma digit_sem s i j v : i <= List.length buf -> (sem s (call (l_decimal base)) i j v <-> exists n, n <= 9 /\ Bytes buf i j (digit_bytes n) /\ v = digit_val n).
Proof.
  intros Hi. rewrite (sem_call M false um fl buf s _ peano_number); [|rewrite <- (Nat.add_0_r (l_decimal base)); apply (Hitems 0); reflexivity|reflexivity..].
  unfold peano_number, it_format, digit_bytes. split.
  - intros H. apply mapped in H as (w & u & H & He & ->). apply tupled in H as (vs & H & ->).
    apply chain_cons in H as (k & v1 & ws & H1 & H & ->). apply chain_cons in H as (k2 & v2 & ws2 & H2 & H & ->). inversion H; subst.
    apply is_byte_sem in H2 as [H2 ->]; [|assumption|reflexivity]. inversion H1; subst.
    match goal with A : Chain _ _ _ _ _ |- _ => apply ss_chain in A as [HB ->]; [|exact Hi] end.
    match goal with A : eval_usize (EU B16 0) _ = Val ?a, B : eval_usize (EU B16 9) _ = Val ?b |- _ => injection A as <-; injection B as <- end.
    exists n. assert (Hn : n <= 9) by lia. split; [exact Hn|]. split; [apply Bytes_app; eauto|].
    rewrite count_eval in He by exact Hn. injection He as <-. reflexivity.
  - intros (n & Hn & HB & ->). apply Bytes_app in HB as (k & H1 & H2). unfold digit_val. eapply SemMap; [|apply count_eval; exact Hn].
    apply SemTuple. apply chain_cons. do 3 eexists. split; [eapply (SemRepeatBetween _ _ _ _ _ _ _ _ 0%N 9%N n); [reflexivity..|lia|apply ss_chain; [exact Hi|]; split; [exact H1|reflexivity]]|].
    split; [|reflexivity]. apply chain_cons. do 3 eexists. split; [apply is_byte_sem; [assumption|reflexivity|]; split; [exact H2|reflexivity]|]. split; [constructor|reflexivity].
Qed.
Lemma digits_chain s : forall m i j vs, i <= List.length buf -> (Chain (fun f i j v => SemN M false um fl s f buf i j v) (repeat (call (l_decimal base)) m) i j vs <->
    exists ns, Forall (fun n => n <= 9) ns /\ Bytes buf i j (flat_map digit_bytes ns) /\ List.length ns = m /\ vs = map digit_val ns).
Proof.
  induction m as [|m IH]; intros i j vs Hi; cbn [repeat].
  - split.
    + intros H. inversion H; subst. exists []. cbn [flat_map]. rewrite Bytes_nil. repeat split; auto.
    + intros (ns & _ & H & Hn & ->). destruct ns; [|discriminate]. apply Bytes_nil in H as [_ ->]. constructor.
  - rewrite chain_cons. split.
    + intros (k & w & ws & H1 & H2 & ->). apply digit_sem in H1 as (n & Hn & H1 & ->); [|exact Hi]. apply IH in H2 as (ns & Hf & H2 & Hl & ->); [|eapply Bytes_bound; eassumption].
      exists (n :: ns). split; [now constructor|]. split; [cbn [flat_map]; apply Bytes_app; eauto|]. split; [cbn; congruence|reflexivity].
    + intros (ns & Hf & H & Hl & ->). destruct ns as [|n ns]; [discriminate|]. cbn [flat_map] in H. apply Bytes_app in H as (k & H1 & H2). inversion Hf; subst.
      exists k, (digit_val n), (map digit_val ns). split; [apply digit_sem; [exact Hi|]; eauto|]. split; [|reflexivity]. apply IH; [eapply Bytes_bound; eassumption|]. exists ns. injection Hl as Hl. auto.
Qed.
Lemma peano_sem s i j v : i <= List.length buf -> (sem s (peano base) i j v <-> exists ns, Digits buf i j ns /\ v = peano_val ns).
Proof.
  intros Hi. unfold peano. rewrite (sem_call M false um fl buf s _ (peano_sequence base)); [|apply (Hitems 1); reflexivity|reflexivity..].
  unfold peano_sequence, it_format, Digits. split.
  - intros H. inversion H; subst. match goal with A : Chain _ _ _ _ _ |- _ => apply (digits_chain _ (S n)) in A as (ns & Hf & HB & Hl & ->); [|exact Hi] end.
    exists ns. split; [|reflexivity]. split; [|auto]. intros ->. discriminate.
  - intros (ns & (Hne & Hf & HB) & ->). destruct ns as [|n ns]; [contradiction|]. eapply SemRepeat1. apply (digits_chain _ (S (List.length ns))); [exact Hi|]. exists (n :: ns). auto.
Qed.
End Sems.
