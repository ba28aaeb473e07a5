(** Property C84: Peano numbers. *)
From Coq Require Import String.
From Verif Require Import Base DataModel NumericModel ValueModel FormatModel MatchTreeModel DecoderModel
  FormatSpec ExactSpec CompileProofs DecoderProps FormatProps ExactProps SoundProofs RepeatProps NegativeProps RecordModel RecordSpec TextModel DeflateModel DeflateSpec DeflateProofs DeflateProps GzipModel GzipSpec GzipProofs GzipProps PeanoModel PeanoSpec PeanoProofs.
Open Scope nat_scope.

(** A module that has the two items of the format, from level [base]. *)
Definition has_peano (M : fmodule) (base : nat) : Prop :=
  forall k it, nth_error (peano_items base) k = Some it -> get_item M (base + k) = Some it.
(** The digits that a value says: each was mapped to its number. *)
Definition digits_of (v : value) (ns : list nat) : Prop :=
  exists vs, v = VSeq (Strict vs) /\ Forall2 (fun n w => coerce_mapped w = VU B32 (N.of_nat n)) ns vs.
Lemma peano_digits ns : digits_of (peano_val ns) ns.
Proof. eexists. split; [reflexivity|]. induction ns as [|n ns IH]; constructor; [reflexivity|exact IH]. Qed.

(** The format describes exactly the sequences of digits, and the value says them. *)
Theorem C84_describes : forall (M : fmodule) (base : nat) um fl buf s i j,
  has_peano M base -> Forall (fun b => (b < 256)%N) buf -> i <= List.length buf ->
  (forall v, SemN M false um fl s (peano base) buf i j v -> exists ns, Digits buf i j ns /\ digits_of v ns) /\
  (forall ns, Digits buf i j ns -> exists v, SemN M false um fl s (peano base) buf i j v /\ digits_of v ns).
Proof.
  intros M base um fl buf s i j Hr Hb Hi. pose proof (fun v => peano_sem M um fl buf Hb base Hr s i j v Hi) as H. split.
  - intros v Hv. apply H in Hv as (ns & HL & ->). exists ns. split; [exact HL|apply peano_digits].
  - intros ns HL. exists (peano_val ns). split; [apply H; eauto|apply peano_digits].
Qed.
(** A decoder that returns a value has read such digits. *)
Theorem C84_decoded : forall M base bld eqb, (forall a b, eqb a b = true -> a = b) -> forall fuel P pfuel input v c' es,
  has_peano M base -> Forall (fun b => (b < 256)%N) input ->
  compile_program bld eqb M fuel (peano base) = Some (COk P) -> run bld P pfuel (rc_new input) = ROk v c' es ->
  exists ns, Digits input 0 (roff c') ns /\ digits_of v ns.
Proof.
  intros M base bld eqb Heqb fuel P pfuel input v c' es Hg Hb HP Hr. pose proof (C25_belongs_partial bld eqb Heqb M _ _ _ _ _ _ _ _ HP Hr) as H.
  exact (proj1 (C84_describes _ _ _ _ _ _ _ _ Hg Hb (Nat.le_0_l _)) _ H).
Qed.
Print Assumptions C84_describes.
Print Assumptions C84_decoded.
(** Digits can be read in one way only. *)
Lemma digit_inj n : forall m l l', digit_bytes n ++ l = digit_bytes m ++ l' -> n = m /\ l = l'.
Proof.
  unfold digit_bytes. induction n as [|n IH]; intros [|m] l l' E; cbn in E; try discriminate E.
  - injection E as ->. auto.
  - injection E as E. apply IH in E as [-> ->]. auto.
Qed.
Theorem C84_one_reading : forall buf i j ns ms, Digits buf i j ns -> Digits buf i j ms -> ns = ms.
Proof.
  intros buf i j ns ms (_ & _ & H) (_ & _ & H'). pose proof (same_bytes _ _ _ _ _ H H') as E. clear H H'. revert ms E.
  induction ns as [|n ns IH]; intros [|m ms] E; cbn [flat_map] in E; try (now apply (f_equal (@List.length N)) in E; unfold digit_bytes in E; rewrite !app_length in E; cbn in E; lia); [reflexivity|].
  apply digit_inj in E as [-> E]. f_equal. now apply IH.
Qed.
Print Assumptions C84_one_reading.
Definition peano_module : fmodule := peano_items 0.
Lemma peano_compiles : exists t1 t2 d1 d2 e, compile_program (build_exec 60) no_eqb peano_module (N.to_nat 20000) (peano 0) =
  Some (COk [DCall 1 [] []; DUntil t1 (DCall 2 [] []); DMap (DTuple [DRepeatBetween t2 (EU B16 0) (EU B16 9) d1; d2]) e]).
Proof. do 5 eexists. vm_compute. reflexivity. Qed.
Lemma until_all p (s : scope decoder) (d : decoder) t (Q : value -> Prop) : (forall c v c' es, p s d c = ROk v c' es -> Q v) ->
  forall fuel c vs c' es, puntil p s d t fuel c = ROk vs c' es -> Forall Q vs.
Proof.
  intros HQ. induction fuel as [|fuel IH]; intros c vs c' es H; cbn [puntil] in H; [discriminate|].
  apply rbind_ok in H as (v & c1 & e1 & e2 & H1 & H2 & _). apply HQ in H1. destruct (tree_matches t c1) as [[|]|]; [injection H2 as <- _ _; auto| |discriminate].
  apply rmap_ok in H2 as (ws & H2 & ->). constructor; [exact H1|eapply IH; exact H2].
Qed.
Definition zero_or_nine (v : value) : Prop := exists vs z u, v = VMapped (VTuple [VSeq (Strict vs); z]) u /\ (vs = [] \/ N.of_nat (List.length vs) = 9%N).
Lemma peano_runs P : compile_program (build_exec 60) no_eqb peano_module (N.to_nat 20000) (peano 0) = Some (COk P) ->
  forall pfuel c v c' es, run (build_exec 60) P pfuel c = ROk v c' es -> exists vs, v = VSeq (Strict vs) /\ Forall zero_or_nine vs.
Proof.
  intros HP pfuel c v c' es H. destruct peano_compiles as (t1 & t2 & d1 & d2 & e & HP'). rewrite HP' in HP. injection HP as <-. clear HP'.
  set (P := [DCall 1 [] []; DUntil t1 (DCall 2 [] []); DMap (DTuple [DRepeatBetween t2 (EU B16 0) (EU B16 9) d1; d2]) e]) in H.
  assert (G : forall fuel s c v c' es, parse (build_exec 60) P fuel s (DCall 2 [] []) c = ROk v c' es -> zero_or_nine v).
  { clear. intros [|fuel] s c v c' es H; [discriminate|]. cbn [parse] in H. apply rlet_ok in H as (o & _ & H). destruct o as [s'|]; [|discriminate].
    cbn [nth_error P] in H. destruct fuel as [|fuel]; [discriminate|]. cbn [parse] in H.
    apply rbind_ok in H as (w & c1 & e1 & e2 & H & H' & _). apply rlet_ok in H' as (u & _ & H'). injection H' as <- _ _.
    destruct fuel as [|fuel]; [discriminate|]. cbn [parse] in H. apply rmap_ok in H as (ws & H & ->). cbn [map pseq] in H.
    apply rbind_ok in H as (v1 & c2 & e3 & e4 & H1 & H & _). apply rmap_ok in H as (ws' & H & ->). apply rbind_ok in H as (v2 & c3 & e5 & e6 & _ & H & _). injection H as <- _ _.
    destruct fuel as [|fuel]; [discriminate|]. cbn [parse] in H1. apply rlet_ok in H1 as (mn & _ & H1). apply rlet_ok in H1 as (mx & Emx & H1). cbv in Emx. injection Emx as <-.
    apply rmap_ok in H1 as (vs & H1 & ->). apply (between_all (build_exec 60) peano_module) in H1; [|apply N.le_0_l]. exists vs, v2, u. split; [reflexivity|]. destruct H1 as [[H1 _]|H1]; auto. }
  unfold run in H. cbn [P] in H. destruct pfuel as [|pfuel]; [discriminate|]. cbn [parse] in H. apply rlet_ok in H as (o & _ & H). destruct o as [s'|]; [|discriminate].
  cbn [nth_error] in H. destruct pfuel as [|pfuel]; [discriminate|]. cbn [parse] in H. apply rmap_ok in H as (vs & H & ->). exists vs. split; [reflexivity|].
  eapply until_all; [|exact H]. intros. eapply G; eassumption.
Qed.
(** What the decoder does: the digits that it returns are all 0 or 9. *)
Theorem C84_zero_or_nine : forall P, compile_program (build_exec 60) no_eqb peano_module (N.to_nat 20000) (peano 0) = Some (COk P) ->
  forall pfuel input v c' es, Forall (fun b => (b < 256)%N) input -> run (build_exec 60) P pfuel (rc_new input) = ROk v c' es ->
  exists ns, Digits input 0 (roff c') ns /\ digits_of v ns /\ Forall (fun n => n = 0 \/ n = 9) ns.
Proof.
  intros P HP pfuel input v c' es Hb Hr. pose proof (C25_belongs_partial (build_exec 60) no_eqb ltac:(discriminate) peano_module _ _ _ _ _ _ _ _ HP Hr) as H.
  apply (peano_sem peano_module _ _ input Hb 0 (fun k it H => H) _ _ _ _ (Nat.le_0_l _)) in H as (ns & HD & ->). exists ns. split; [exact HD|]. split; [apply peano_digits|].
  apply (peano_runs P HP) in Hr as (vs & Ev & Hz). injection Ev as <-. rewrite Forall_map in Hz. eapply Forall_impl; [|exact Hz].
  intros n (vs & z & u & E & Hl). injection E as <- _ _. rewrite map_length, repeat_length in Hl. destruct Hl as [Hl|Hl]; [|right; lia].
  left. destruct n; [reflexivity|discriminate].
Qed.
Print Assumptions C84_zero_or_nine.
Definition nine_zero : list N := repeat 83%N 9 ++ [90; 90]%N.
Example C84_nonvacuous : Digits nine_zero 0 11 [9; 0] /\ read_to (decode_file peano_module (peano 0) nine_zero) = Some 11.
Proof. split; [split; [discriminate|]; split; [repeat constructor|apply here; reflexivity]|vm_compute; reflexivity]. Qed.
(** A file of one digit is read only if the digit is 0 or 9: after each "S", the
    decoder looks ahead from where the digit starts, so it stops only at the bounds. *)
Theorem C84_reads_refuted : forall n, n <= 9 ->
  Digits (digit_bytes n) 0 (S n) [n] /\
  read_to (decode_file peano_module (peano 0) (digit_bytes n)) = if (n =? 0) || (n =? 9) then Some (S n) else None.
Proof.
  intros n Hn. split.
  - split; [discriminate|]. split; [now constructor|]. do 10 (destruct n as [|n]; [apply here; reflexivity|]). lia.
  - do 10 (destruct n as [|n]; [vm_compute; reflexivity|]). lia.
Qed.
Print Assumptions C84_reads_refuted.
