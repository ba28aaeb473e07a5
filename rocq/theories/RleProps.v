(** Property C82: run-length encoded texts. *)
From Coq Require Import String.
From Verif Require Import Base DataModel NumericModel ValueModel FormatModel MatchTreeModel DecoderModel
  FormatSpec ExactSpec CompileProofs DecoderProps FormatProps ExactProps NegativeProps RecordModel RecordSpec TextModel DeflateModel DeflateSpec DeflateProofs DeflateProps GzipModel GzipSpec GzipProofs GzipProps RleModel RleSpec RleProofs.
Open Scope nat_scope.

(** A module that has the five items of the format, from level [base]. *)
Definition has_rle (M : fmodule) (base : nat) : Prop :=
  forall k it, nth_error (rle_items base) k = Some it -> get_item M (base + k) = Some it.
(** The bytes a value says were encoded: the field "data" of the style, which it names. *)
Definition says (old : bool) (v : value) (data : list N) : Prop :=
  exists k fs, v = VBranch k (VVariant (intern (if old then "old-style" else "new-style")) (VRecord fs)) /\ assoc (intern "data") fs = Some (VSeq (Strict (map (VU B8) data))).
Lemma rle_says old runs : says old (rle_val old runs) (decoded runs).
Proof. destruct old; do 2 eexists; (split; [reflexivity|reflexivity]). Qed.

(** The format describes exactly the run-length encoded texts, and the value says what
    they encode. *)
Theorem C82_describes : forall (M : fmodule) (base : nat) (strict : bool) um fl buf s i j,
  has_rle M base -> Forall (fun b => (b < 256)%N) buf ->
  (forall v, SemN M strict um fl s (rle base) buf i j v -> exists old runs, RunLength buf i j old runs /\ v = rle_val old runs /\ says old v (decoded runs)) /\
  (forall old runs, RunLength buf i j old runs -> SemN M strict um fl s (rle base) buf i j (rle_val old runs) /\ says old (rle_val old runs) (decoded runs)).
Proof.
  intros M base strict um fl buf s i j Hr Hb. pose proof (rle_sem M strict um fl buf Hb base Hr s i j) as H. split.
  - intros v Hv. apply H in Hv as (old & runs & HL & ->). exists old, runs. split; [exact HL|]. split; [reflexivity|apply rle_says].
  - intros old runs HL. split; [apply H; eauto|apply rle_says].
Qed.
(** A decoder that returns a value has read a run-length encoded text. *)
Theorem C82_decoded : forall M base bld eqb, (forall a b, eqb a b = true -> a = b) -> forall fuel P pfuel input v c' es,
  has_rle M base -> Forall (fun b => (b < 256)%N) input ->
  compile_program bld eqb M fuel (rle base) = Some (COk P) -> run bld P pfuel (rc_new input) = ROk v c' es ->
  exists old runs, RunLength input 0 (roff c') old runs /\ v = rle_val old runs /\ says old v (decoded runs).
Proof.
  intros M base bld eqb Heqb fuel P pfuel input v c' es Hg Hb HP Hr. pose proof (C25_belongs_partial bld eqb Heqb M _ _ _ _ _ _ _ _ HP Hr) as H.
  exact (proj1 (C82_describes _ _ _ _ _ _ _ _ _ Hg Hb) _ H).
Qed.
Print Assumptions C82_describes.
Print Assumptions C82_decoded.

Definition rle_module : fmodule := rle_items 0.
Lemma rle_has : has_rle rle_module 0.
Proof. intros k it H. exact H. Qed.
Lemma rle_exact : exactb (build_exec 60) rle_module true 60 12 false (rle 0) NEmpty = true.
Proof. vm_compute. reflexivity. Qed.
Lemma rle_compiles : exists P, compile_program (build_exec 60) no_eqb rle_module (N.to_nat 20000) (rle 0) = Some (COk P).
Proof. apply compiled. vm_compute. reflexivity. Qed.
(** There is a decoder that reads every run-length encoded text, to its end, and
    returns what it encodes. *)
Theorem C82_reads : exists P, compile_program (build_exec 60) no_eqb rle_module (N.to_nat 20000) (rle 0) = Some (COk P) /\
  forall input old runs, Forall (fun b => (b < 256)%N) input -> (N.of_nat (length input) < 2 ^ 61)%N -> RunLength input 0 (length input) old runs ->
  exists pfuel v es, run (build_exec 60) P pfuel (rc_new input) = ROk v (RC input (length input)) es /\ v = rle_val old runs /\ says old v (decoded runs).
Proof.
  destruct rle_compiles as (P & HP). exists P. split; [exact HP|]. intros input old runs Hb Hi HM.
  destruct (proj2 (C82_describes rle_module 0 true anything anything input SEmpty 0 (length input) rle_has Hb) old runs HM) as (HS & HF).
  assert (Hu : usable input) by (split; [exact Hb|unfold w64; lia]).
  destruct (C26_decodes_partial (build_exec 60) ltac:(intros m fs n t; apply exec_follows) no_eqb ltac:(discriminate) rle_module true (fun _ => C26_codes 56) false 60 12 _ _ P input _ _ HP rle_exact Hu HS (or_intror eq_refl)) as (pfuel & es & Hr).
  exists pfuel, (rle_val old runs), es. auto.
Qed.
(** What an encoder writes is decoded to what it was given, in both styles. *)
Theorem C82_round_trip : exists P, compile_program (build_exec 60) no_eqb rle_module (N.to_nat 20000) (rle 0) = Some (COk P) /\
  forall (old : bool) data, Forall (fun b => (b < 256)%N) data ->
  let input := (if old then 0%N else 1%N) :: encoded (encode data) in (N.of_nat (length input) < 2 ^ 61)%N ->
  exists pfuel v es, run (build_exec 60) P pfuel (rc_new input) = ROk v (RC input (length input)) es /\ says old v data.
Proof.
  destruct C82_reads as (P & HP & H). exists P. split; [exact HP|]. intros old data Hd input Hl.
  destruct (H input old (encode data)) as (pfuel & v & es & Hr & _ & Hs); [|exact Hl| |].
  - unfold input. constructor; [destruct old; reflexivity|]. now apply encode_bytes.
  - unfold RunLength. fold input. split; [|reflexivity]. exists [], []. split; [now rewrite app_nil_r|reflexivity].
  - rewrite encode_decoded in Hs. eauto.
Qed.
(** A text can be read in one way only. *)
Lemma encoded_inj runs : forall runs', encoded runs = encoded runs' -> runs = runs'.
Proof. induction runs as [|[n c] runs IH]; intros [|[n' c'] runs'] E; try discriminate; [reflexivity|]. cbn in E. injection E as -> -> E. f_equal. now apply IH. Qed.
Theorem C82_one_reading : forall buf i j old old' runs runs', RunLength buf i j old runs -> RunLength buf i j old' runs' -> old = old' /\ runs = runs'.
Proof.
  intros buf i j old old' runs runs' H H'. pose proof (same_bytes _ _ _ _ _ H H') as E. injection E as E E'. split; [destruct old, old'; congruence|now apply encoded_inj].
Qed.
Print Assumptions C82_reads.
Print Assumptions C82_round_trip.
Print Assumptions C82_one_reading.

Definition aaab : list N := [1; 3; 97; 0; 120; 1; 98]%N.
Example C82_nonvacuous : RunLength aaab 0 7 false [(3, 97); (0, 120); (1, 98)]%N /\ decoded [(3, 97); (0, 120); (1, 98)]%N = [97; 97; 97; 98]%N /\
  read_to (decode_file rle_module (rle 0) aaab) = Some 7 /\ encode [97; 97; 97; 98]%N = [(3, 97); (1, 98)]%N.
Proof. split; [apply here; reflexivity|]. repeat split; vm_compute; reflexivity. Qed.
(** A text followed by a byte is refused, not read up to there. *)
Theorem C82_cut_refuted : exists input j, RunLength input 0 j false [(3, 97)]%N /\ read_to (decode_file rle_module (rle 0) input) = None.
Proof. exists [1; 3; 97; 1]%N, 3. split; [apply here; reflexivity|vm_compute; reflexivity]. Qed.
Print Assumptions C82_cut_refuted.
