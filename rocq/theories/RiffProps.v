(** Property C81: RIFF files. *)
From Coq Require Import String.
From Verif Require Import Base DataModel NumericModel ValueModel FormatModel MatchTreeModel DecoderModel
  FormatSpec ExactSpec CompileProofs DecoderProps FormatProps ExactProps NegativeProps RecordModel RecordSpec TextModel DeflateModel DeflateSpec DeflateProofs DeflateProps GzipModel GzipSpec GzipProofs GzipProps RiffModel RiffSpec RiffProofs.
Open Scope nat_scope.

(** A module that has the four items of the format, from level [base]. *)
Definition has_riff (M : fmodule) (base : nat) : Prop :=
  forall k it, nth_error (riff_items base) k = Some it -> get_item M (base + k) = Some it.

Section Props.
Context (M : fmodule) (base : nat).
Section Means.
Context (strict : bool) (um fl : scope format -> format -> list N -> nat -> Prop).
Notation means buf := (fun s f i j v => SemN M strict um fl s f buf i j v).
(** Whatever the format describes is a RIFF file, with its form type and its chunks;
    contents end where their length says if the semantics is strict. *)
Theorem C81_only_files : forall buf s i j v, has_riff M base -> Forall (fun b => (b < 256)%N) buf -> i <= length buf ->
  means buf s (riff base) i j v -> exists file, Riff strict buf i j file /\ riff_is file v.
Proof. intros buf s i j v Hr Hb Hi. exact (riff_only M strict um fl base Hr buf s i j v Hb Hi). Qed.
(** Every RIFF file is described, with that value. *)
Theorem C81_all_files : forall full buf s i j file, has_riff M base -> Forall (fun b => (b < 256)%N) buf -> (strict = true -> full = true) ->
  Riff full buf i j file -> exists v, means buf s (riff base) i j v /\ riff_is file v.
Proof. intros full buf s i j file Hr Hb Hs. exact (riff_all M strict um fl base Hr full buf s i j file Hs Hb). Qed.
End Means.
(** A decoder that returns a value has read a RIFF file; missing is that contents
    then always end where their length says. *)
Theorem C81_decoded_partial : forall bld eqb, (forall a b, eqb a b = true -> a = b) -> forall fuel P pfuel input v c' es,
  has_riff M base -> Forall (fun b => (b < 256)%N) input ->
  compile_program bld eqb M fuel (riff base) = Some (COk P) -> run bld P pfuel (rc_new input) = ROk v c' es ->
  exists file, Riff false input 0 (roff c') file /\ riff_is file v.
Proof.
  intros bld eqb Heqb fuel P pfuel input v c' es Hg Hb HP Hr. pose proof (C25_belongs_partial bld eqb Heqb M _ _ _ _ _ _ _ _ HP Hr) as H.
  exact (C81_only_files _ _ _ _ _ _ _ _ Hg Hb (Nat.le_0_l _) H).
Qed.
End Props.
Print Assumptions C81_only_files.
Print Assumptions C81_all_files.
Print Assumptions C81_decoded_partial.

(** ** The decoder *)
Definition riff_module : fmodule := riff_items 0.
Lemma riff_has : has_riff riff_module 0.
Proof. intros k it H. exact H. Qed.
Lemma riff_exact : exactb (build_exec 60) riff_module true 60 12 true (riff 0) NEmpty = true.
Proof. vm_compute. reflexivity. Qed.
Lemma riff_compiles : exists P, compile_program (build_exec 60) no_eqb riff_module (N.to_nat 20000) (riff 0) = Some (COk P).
Proof. apply compiled. vm_compute. reflexivity. Qed.
(** There is a decoder that reads every RIFF file, whatever follows it, and returns
    its form type and the codes and data of its chunks. *)
Theorem C81_reads : exists P, compile_program (build_exec 60) no_eqb riff_module (N.to_nat 20000) (riff 0) = Some (COk P) /\
  forall input j file, Forall (fun b => (b < 256)%N) input -> (N.of_nat (length input) < 2 ^ 61)%N -> Riff true input 0 j file ->
  exists pfuel v es, run (build_exec 60) P pfuel (rc_new input) = ROk v (RC input j) es /\ riff_is file v.
Proof.
  destruct riff_compiles as (P & HP). exists P. split; [exact HP|]. intros input j file Hb Hi HM.
  destruct (C81_all_files riff_module 0 true anything anything true input SEmpty 0 j file riff_has Hb (fun _ => eq_refl) HM) as (v & HS & HF).
  assert (Hu : usable input) by (split; [exact Hb|unfold w64; lia]).
  destruct (C26_decodes_partial (build_exec 60) ltac:(intros m fs n t; apply exec_follows) no_eqb ltac:(discriminate) riff_module true (fun _ => C26_codes 56) true 60 12 _ _ P input _ _ HP riff_exact Hu HS (or_introl eq_refl)) as (pfuel & es & Hr).
  exists pfuel, v, es. auto.
Qed.
Print Assumptions C81_reads.

(** ** One reading *)
Lemma chunk_det {A} (Body : list N -> nat -> nat -> A -> Prop) buf i j j' code code' a a' :
  (forall n k a a', n <= length buf -> Body (firstn n buf) k n a -> Body (firstn n buf) k n a' -> a = a') ->
  Chunk true Body buf i j code a -> Chunk true Body buf i j' code' a' -> j = j' /\ code = code' /\ a = a'.
Proof.
  intros Hd (size & k & Q1 & Q2 & Hs & HB & Hk & Q4) (size' & k' & Q1' & Q2' & Hs' & HB' & Hk' & Q4').
  pose proof (same_bytes _ _ _ _ _ Q1 Q1') as <-. pose proof (same_bytes _ _ _ _ _ Q2 Q2') as <-. rewrite (Hk eq_refl) in HB. rewrite (Hk' eq_refl) in HB'.
  split; [|split; [reflexivity|eapply Hd; eassumption]]. destruct (N.eqb (little size mod 2) 1); [|congruence]. destruct Q4 as [_ ->], Q4' as [_ ->]. reflexivity.
Qed.
Lemma chunk_moves {A} full (Body : list N -> nat -> nat -> A -> Prop) buf i j code a : Chunk full Body buf i j code a -> i + 8 <= j.
Proof. intros (size & k & _ & _ & _ & _ & _ & H). destruct (N.eqb (little size mod 2) 1); [destruct H as [_ H]; cbn [length] in H|]; lia. Qed.
Lemma chunks_moves full buf i j cs : Chunks full buf i j cs -> i <= j.
Proof. induction 1 as [|i j k code data rest HC _ IH]; [lia|]. apply chunk_moves in HC. lia. Qed.
Lemma chunks_det buf i j cs : Chunks true buf i j cs -> forall cs', Chunks true buf i j cs' -> cs = cs'.
Proof.
  induction 1 as [i|i j k code data rest HC HR IH]; intros cs' H'; inversion H' as [|? j' ? code' data' rest' HC' HR']; subst.
  - reflexivity.
  - exfalso. apply chunk_moves in HC'. apply chunks_moves in HR'. lia.
  - exfalso. apply chunk_moves in HC. apply chunks_moves in HR. lia.
  - destruct (chunk_det Bytes buf i j j' code code' data data') as (<- & <- & <-); [|assumption..|f_equal; auto]. intros n k0 a a' _ H1 H2. eapply same_bytes; eassumption.
Qed.
(** Where a RIFF file begins, one only begins, with one end, form type and chunks. *)
Theorem C81_one_reading : forall buf i j j' file file', Riff true buf i j file -> Riff true buf i j' file' -> j = j' /\ file = file'.
Proof.
  intros buf i j j' file file' H H'. assert (X : j = j' /\ [82; 73; 70; 70]%N = [82; 73; 70; 70]%N /\ file = file'); [|tauto]. apply (chunk_det (Form true) buf i j j' [82; 73; 70; 70]%N [82; 73; 70; 70]%N file file'); [|exact H|exact H'].
  clear. intros n k [form cs] [form' cs'] _ [H1 H2] [H1' H2']. cbn [r_form r_chunks] in *. f_equal; [eapply same_bytes; eassumption|eapply chunks_det; eassumption].
Qed.
Print Assumptions C81_one_reading.

(** ** Examples and refutations *)
(** A file of form type "WAVE" with a chunk "fmt " of three bytes and one of no bytes
    whose code is four bytes that are not ASCII, followed by another byte *)
Definition wave : list N :=
  [82; 73; 70; 70; 24; 0; 0; 0; 87; 65; 86; 69; 102; 109; 116; 32; 3; 0; 0; 0; 1; 2; 3; 0; 200; 201; 202; 203; 0; 0; 0; 0; 9]%N.
Definition wave_file : riff_file := RiffFile [87; 65; 86; 69]%N [([102; 109; 116; 32], [1; 2; 3]); ([200; 201; 202; 203], [])]%N.
Example C81_nonvacuous : Riff true wave 0 32 wave_file.
Proof.
  exists [24; 0; 0; 0]%N, 32. split; [apply here; reflexivity|]. split; [apply here; reflexivity|]. cbv zeta. change (0 + 8 + N.to_nat (little [24; 0; 0; 0]%N)) with 32.
  split; [vm_compute; repeat constructor|]. split; [|split; reflexivity]. split; [apply here; reflexivity|]. cbn [r_chunks wave_file].
  apply ChunksCons with (j := 24); [|apply ChunksCons with (j := 32); [|constructor]].
  - exists [3; 0; 0; 0]%N, 23. split; [apply here; reflexivity|]. split; [apply here; reflexivity|]. cbv zeta. change (0 + 8 + 4 + 8 + N.to_nat (little [3; 0; 0; 0]%N)) with 23.
    split; [vm_compute; repeat constructor|]. split; [apply here; reflexivity|]. split; [reflexivity|]. apply here; reflexivity.
  - exists [0; 0; 0; 0]%N, 32. split; [apply here; reflexivity|]. split; [apply here; reflexivity|]. cbv zeta. change (24 + 8 + N.to_nat (little [0; 0; 0; 0]%N)) with 32.
    split; [vm_compute; repeat constructor|]. split; [apply here; reflexivity|]. split; reflexivity.
Qed.
Example C81_decoded_nonvacuous : read_to (decode_file riff_module (riff 0) wave) = Some 32.
Proof. vm_compute. reflexivity. Qed.
(** Four-character codes need not be characters: the bytes called ASCII are any bytes. *)
Theorem C81_ascii_refuted : exists input file j, read_to (decode_file riff_module (riff 0) input) = Some j /\ Riff true input 0 j file /\
  ~ Forall (fun c => Forall (fun b => (b < 128)%N) (fst c)) (r_chunks file).
Proof.
  exists wave, wave_file, 32. split; [vm_compute; reflexivity|]. split; [exact C81_nonvacuous|]. intros H. inversion H as [|? ? _ H']; subst. inversion H' as [|? ? H'' _]; subst. inversion H''; subst. cbn in *. lia.
Qed.
(** A file whose last chunk is of odd length and lacks the zero byte after it is
    refused, though everything its lengths count is there. *)
Definition unpadded : list N := [82; 73; 70; 70; 13; 0; 0; 0; 87; 65; 86; 69; 102; 109; 116; 32; 1; 0; 0; 0; 7; 0]%N.
Theorem C81_unpadded_refuted : read_to (decode_file riff_module (riff 0) unpadded) = None /\
  Bytes unpadded 8 12 [87; 65; 86; 69]%N /\ Bytes unpadded 12 21 [102; 109; 116; 32; 1; 0; 0; 0; 7]%N /\ little [13; 0; 0; 0]%N = 13%N.
Proof. split; [vm_compute; reflexivity|]. split; [apply here; reflexivity|]. split; [apply here; reflexivity|]. reflexivity. Qed.
Print Assumptions C81_ascii_refuted.
Print Assumptions C81_unpadded_refuted.
