(** Property C68: decompression of deflate streams (RFC 1951). *)
From Coq Require Import String.
From Verif Require Import Base DataModel NumericModel ValueModel FormatModel MatchTreeModel DecoderModel
  FormatSpec ExactSpec CompileProofs DecoderProps FormatProps ExactProps NegativeProps RecordModel DeflateModel DeflateSpec DeflateBits DeflateHuffman DeflateProofs DeflateStream DeflateDet.
Open Scope nat_scope.

(** The field of a decoded stream that holds its data. *)
Definition holds_data (v : value) (data : list N) : Prop :=
  exists fs, coerce_mapped v = VRecord fs /\ assoc (intern "inflate") fs = Some (VSeq (Strict (map (VU B8) data))).
(** ... and its length, whatever it is made of *)
Definition data_length (v : value) (n : nat) : Prop :=
  exists fs l, coerce_mapped v = VRecord fs /\ assoc (intern "inflate") fs = Some (VSeq (Strict l)) /\ length l = n.
(** A module that has the eight items of the format, from level [base]. *)
Definition has_deflate (M : fmodule) (base : nat) : Prop :=
  forall k it, nth_error (deflate_items base) k = Some it -> get_item M (base + k) = Some it.
Definition four_gib : N := (2 ^ 32)%N.

Lemma bits_are_bits l : Forall isbit (bits_of l).
Proof.
  apply Forall_forall. intros b H. unfold bits_of in H. apply in_flat_map in H as (x & _ & H). apply in_map_iff in H as (i & <- & _). unfold isbit. destruct (N.testbit x (N.of_nat i)); auto.
Qed.
Lemma bits_inv M strict um fl s f buf i j v : SemN M strict um fl s (FBits f) buf i j v ->
  exists k, SemN M strict um fl s f (bits_of (skipn i buf)) 0 k v /\ j = i + (k + 7) / 8.
Proof. intros H. inversion H; subst. eauto. Qed.
Section Props.
Context (M : fmodule) (base : nat) (Hitems : has_deflate M base).
Section Means.
Context (strict : bool) (um fl : scope format -> format -> list N -> nat -> Prop).
Notation means bs := (fun s f i j v => SemN M strict um fl s f bs i j v).

(** Whatever the format describes is a stream, read leniently, and the data in the
    value are those the stream stands for. *)
Theorem C68_only_streams : forall bs s i j v, Forall isbit bs -> i <= length bs -> means bs s (deflate base) i j v ->
  exists n, data_length v n /\ ((N.of_nat n < four_gib)%N -> exists data, holds_data v data /\ Inflates false strict bs i j data).
Proof.
  intros bs s i j v Hb Hi H. destruct (stream_den M strict um fl bs Hb base Hitems s) as [A _].
  destruct (A _ _ _ Hi H) as (es & HB & Hok & fs & l & s' & Hv & Ha & Hs). exists (length l). split; [exists fs, l; auto|].
  intros Hl. change (@nil value) with (bytes_value []) in Hs. destruct (steps_writes s' es [] l Hok Hs Hl) as (data & -> & HW). exists data. split; [exists fs; auto|]. exists es. auto.
Qed.
(** Every stream, conforming or not, is described, with its data; if the semantics is
    strict, its tables must not have too many codes. *)
Theorem C68_all_streams : forall bs s i j data conform tables, Forall isbit bs -> (strict = true -> tables = true) ->
  Inflates conform tables bs i j data -> (N.of_nat (length data) < four_gib)%N ->
  exists v, means bs s (deflate base) i j v /\ holds_data v data.
Proof.
  intros bs s i j data conform tables Hb Ht H Hl. pose proof (Inflates_any _ _ _ _ _ _ _ Ht H) as H'.
  destruct H' as (es & HB & HW). destruct (stream_den M strict um fl bs Hb base Hitems s) as [_ B].
  destruct (B _ _ _ HB ltac:(exists data; auto)) as (v & Hv & Hok & fs & l & s' & Hf & Ha & Hs). exists v. split; [exact Hv|]. exists fs. split; [exact Hf|].
  change (@nil value) with (bytes_value []) in Hs. rewrite (writes_steps s' es [] data HW Hok Hl) in Hs. injection Hs as <-. exact Ha.
Qed.
End Means.
(** A decoder that returns a value has decompressed: of a conforming stream it returns
    the data, and has read the bytes that hold it and no more. *)
Section Decode.
Context (bld : fmodule -> list format -> next -> outcome (option mtree)) (eqb : next -> next -> bool).
Context (Heqb : forall a b, eqb a b = true -> a = b).
Theorem C68_decoded_partial : forall fuel P pfuel input v c' es,
  compile_program bld eqb M fuel (FBits (deflate base)) = Some (COk P) -> run bld P pfuel (rc_new input) = ROk v c' es ->
  (forall k data, Inflates true true (bits_of input) 0 k data -> (exists n, data_length v n /\ (N.of_nat n < four_gib)%N) ->
     holds_data v data /\ roff c' = (k + 7) / 8) /\
  (forall n, data_length v n -> (N.of_nat n < four_gib)%N ->
     exists k data, Inflates false false (bits_of input) 0 k data /\ holds_data v data /\ roff c' = (k + 7) / 8).
Proof.
  intros fuel P pfuel input v c' es HP Hr. pose proof (C25_belongs_partial bld eqb Heqb M _ _ _ _ _ _ _ _ HP Hr) as H.
  apply bits_inv in H as (k & HS & Er). cbn [skipn Nat.add] in HS, Er. rewrite Er.
  assert (G : forall n, data_length v n -> (N.of_nat n < four_gib)%N -> exists k0 data, Inflates false false (bits_of input) 0 k0 data /\ holds_data v data /\ (k + 7) / 8 = (k0 + 7) / 8).
  { intros n Hn Hl. destruct (C68_only_streams _ _ _ _ _ _ _ _ (bits_are_bits input) (Nat.le_0_l _) HS) as (n' & Hn' & G).
    assert (n' = n) as ->. { destruct Hn as (fs & l & E1 & E2 & <-), Hn' as (fs' & l' & E1' & E2' & <-). congruence. }
    destruct (G Hl) as (data & Hd & HI). exists k, data. auto. }
  split; [|exact G].
  intros k0 data HI (n & Hn & Hl). destruct (G n Hn Hl) as (k1 & data1 & HI1 & Hd1 & E). destruct (Inflates_det _ _ _ _ _ _ _ (bits_are_bits input) HI HI1) as [-> ->]. auto.
Qed.
(** Every conforming stream is accepted: if the lookahead is exact (see C26; this is
    shown below for the items alone), an input that begins with a conforming
    stream is decoded, to the data of the stream, and read up to its end. Missing:
    data of 4 GiB or more (see [four_gib]). *)
Theorem C68_accepted_partial : forall fuel P lfuel depth input k data,
  (forall m fs n t, bld m fs n = Val (Some t) -> Build LReal m fs n t) -> builds_codes bld ->
  exactb bld M true lfuel depth true (FBits (deflate base)) NEmpty = true ->
  compile_program bld eqb M fuel (FBits (deflate base)) = Some (COk P) ->
  usable input -> usable (bits_of input) ->
  Inflates true true (bits_of input) 0 k data -> (N.of_nat (length data) < four_gib)%N ->
  exists pfuel v es, run bld P pfuel (rc_new input) = ROk v (RC input ((k + 7) / 8)) es /\ holds_data v data.
Proof.
  intros fuel P lfuel depth input k data Hbld Hcodes HE HP Hu Hub HI Hl.
  destruct (C68_all_streams true anything anything _ SEmpty 0 k data true true (bits_are_bits input) (fun _ => eq_refl) HI Hl) as (v & Hv & Hd).
  assert (HS : Sem M true SEmpty (FBits (deflate base)) input 0 ((k + 7) / 8) v).
  { apply (SemBits M true anything anything SEmpty (deflate base) input 0 k v); [lia|exact Hv|]. intros _. exact Hub. }
  destruct (C26_decodes_partial bld Hbld eqb Heqb M true (fun _ => Hcodes) true lfuel depth _ fuel P input _ v HP HE Hu HS (or_introl eq_refl)) as (pfuel & es & Hr).
  exists pfuel, v, es. auto.
Qed.
End Decode.
End Props.
(** There is one way to read a conforming stream, even leniently. *)
Theorem C68_one_reading : forall bs i j j' data data' conform tables, Forall isbit bs ->
  Inflates true true bs i j data -> Inflates conform tables bs i j' data' -> j = j' /\ data = data'.
Proof. intros bs i j j' data data' conform tables Hb H H'. eapply (Inflates_det false); [exact Hb|exact H|]. eapply Inflates_any; [|exact H']. discriminate. Qed.
Print Assumptions C68_only_streams.
Print Assumptions C68_all_streams.
Print Assumptions C68_decoded_partial.
Print Assumptions C68_accepted_partial.
Print Assumptions C68_one_reading.

(** ** Examples and refutations *)
(** The compiled format at work, on the items alone *)
Definition decode_with (o : option (cres program)) (input : list N) : option (dres value) :=
  match o with Some (COk P) => Some (run (build_exec 60) P 600 (rc_new input)) | _ => None end.
Definition decoded (input : list N) : option (dres value) :=
  decode_with (compile_program (build_exec 60) no_eqb (deflate_items 0) (N.to_nat 20000) (FBits (deflate 0))) input.
Definition data_of (o : option (dres value)) : option (option value * nat) :=
  match o with Some (ROk (VRecord fs) c _) => Some (assoc (intern "inflate") fs, roff c) | _ => None end.
Definition as_data (l : list N) : option value := Some (VSeq (Strict (map (VU B8) l))).
Lemma items_alone : has_deflate (deflate_items 0) 0.
Proof. intros k it H. exact H. Qed.
(** The items alone compile, and their lookahead is exact. *)
Lemma deflate_exact : exactb (build_exec 60) (deflate_items 0) true 60 10 true (FBits (deflate 0)) NEmpty = true.
Proof. vm_compute. reflexivity. Qed.
Lemma deflate_compiles : exists P, compile_program (build_exec 60) no_eqb (deflate_items 0) (N.to_nat 20000) (FBits (deflate 0)) = Some (COk P).
Proof.
  assert (H : (fun r : option (cres program) => match r with Some (COk _) => true | _ => false end)
    (compile_program (build_exec 60) no_eqb (deflate_items 0) (N.to_nat 20000) (FBits (deflate 0))) = true) by (vm_compute; reflexivity).
  destruct (compile_program (build_exec 60) no_eqb (deflate_items 0) (N.to_nat 20000) (FBits (deflate 0))) as [[P| |]|]; try discriminate. eauto.
Qed.
(** There is a decoder that decompresses every conforming stream. *)
Theorem C68_inflates : exists P, compile_program (build_exec 60) no_eqb (deflate_items 0) (N.to_nat 20000) (FBits (deflate 0)) = Some (COk P) /\
  forall input k data, Forall (fun b => (b < 256)%N) input -> (N.of_nat (length input) < 2 ^ 61)%N ->
  Inflates true true (bits_of input) 0 k data -> (N.of_nat (length data) < four_gib)%N ->
  exists pfuel v es, run (build_exec 60) P pfuel (rc_new input) = ROk v (RC input ((k + 7) / 8)) es /\ holds_data v data.
Proof.
  destruct deflate_compiles as (P & HP). exists P. split; [exact HP|]. intros input k data Hb Hi HI Hl.
  eapply (C68_accepted_partial (deflate_items 0) 0 items_alone (build_exec 60) no_eqb ltac:(discriminate)); [|exact (C26_codes 56)|exact deflate_exact|exact HP| | |exact HI|exact Hl].
  - intros m fs n t. apply exec_follows.
  - split; [exact Hb|]. unfold w64. lia.
  - split.
    + eapply Forall_impl; [|exact (bits_are_bits input)]. intros b [-> | ->]; lia.
    + assert (E : length (bits_of input) = 8 * length input) by (clear; unfold bits_of; induction input as [|b l IH]; [reflexivity|]; cbn [flat_map]; rewrite app_length, map_length, seq_length, IH; cbn [length]; lia).
      rewrite E. unfold w64. lia.
Qed.
Print Assumptions C68_inflates.
(** What is decoded is a stream. *)
Lemma program_reads o input data n fuel : compile_program (build_exec 60) no_eqb (deflate_items 0) fuel (FBits (deflate 0)) = o ->
  data_of (decode_with o input) = Some (as_data data, n) -> (N.of_nat (length data) < four_gib)%N ->
  exists k, Inflates false false (bits_of input) 0 k data /\ n = (k + 7) / 8.
Proof.
  intros EP H Hl. destruct o as [[P| |]|]; try discriminate H. cbn [decode_with] in H. destruct (run (build_exec 60) P 600 (rc_new input)) as [v c' es| | |] eqn:Er; try discriminate H. destruct v; try discriminate H. cbn [data_of] in H.
  assert (Ha : assoc (intern "inflate") fs = as_data data) by congruence. assert (n = roff c') as -> by congruence. clear H.
  destruct (C68_decoded_partial (deflate_items 0) 0 items_alone (build_exec 60) no_eqb ltac:(discriminate) _ _ _ _ _ _ _ EP Er) as [_ D].
  destruct (D (length data)) as (k & data' & HI & (fs' & E1 & E2) & Hk); [exists fs, (map (VU B8) data); split; [reflexivity|]; split; [exact Ha|apply map_length]|exact Hl|].
  cbn [coerce_mapped] in E1. injection E1 as <-. unfold as_data in Ha. rewrite Ha in E2. injection E2 as E2. exists k. split; [|exact Hk].
  assert (data = data') as ->; [|exact HI]. clear - E2. revert data' E2. induction data as [|x l IH]; intros [|y m] E; try discriminate; [reflexivity|]. injection E as -> E. f_equal. auto.
Qed.
Lemma decoded_reads input data n : data_of (decoded input) = Some (as_data data, n) -> (N.of_nat (length data) < four_gib)%N ->
  exists k, Inflates false false (bits_of input) 0 k data /\ n = (k + 7) / 8.
Proof. exact (program_reads _ input data n (N.to_nat 20000) eq_refl). Qed.
Definition num_at (bs : list N) (n i : nat) : N := lsb_first (firstn n (skipn i bs)).
Lemma at_there bs i n : i + n <= length bs -> at_pos bs i (firstn n (skipn i bs)) /\ length (firstn n (skipn i bs)) = n.
Proof.
  intros H. split; [exists (firstn i bs), (skipn n (skipn i bs)); split; [now rewrite !firstn_skipn|]|]; rewrite firstn_length, ?skipn_length; lia.
Qed.
Lemma num_there bs n i : i + n <= length bs -> Num bs n i (i + n) (num_at bs n i).
Proof. intros H. destruct (at_there bs i n H) as [A B]. eexists. split; [exact B|]. split; [exact A|]. split; reflexivity. Qed.
Definition symbol_at (lens : list nat) (bs : list N) (i sym : nat) : bool :=
  match nth_error lens sym with
  | Some l => negb (Nat.eqb l 0) && (i + l <=? length bs) && N.eqb (msb_first (firstn l (skipn i bs))) (code_of lens sym l mod 2 ^ N.of_nat l)
  | None => false
  end.
Lemma symbol_there lens bs i sym : symbol_at lens bs i sym = true -> Symbol lens bs i (i + nth sym lens 0) sym.
Proof.
  unfold symbol_at. intros H. destruct (nth_error lens sym) as [l|] eqn:E; [|discriminate]. apply andb_true_iff in H as [H H3]. apply andb_true_iff in H as [H1 H2].
  apply N.eqb_eq in H3. apply Nat.leb_le in H2. apply negb_true_iff, Nat.eqb_neq in H1. destruct (at_there bs i l H2) as [A B].
  rewrite (nth_error_nth _ _ 0 E). exists l, (firstn l (skipn i bs)). auto 8.
Qed.
(** "ab" stored, and "abcabcabcabcx" compressed with the fixed codes, by zlib *)
Definition stored_ab : list N := [1; 2; 0; 253; 255; 97; 98]%N.
Definition fixed_abc : list N := [75; 76; 74; 78; 132; 161; 10; 0]%N.
Definition abc : list N := [97; 98; 99; 97; 98; 99; 97; 98; 99; 97; 98; 99; 120]%N.
Example C68_stored_nonvacuous : Inflates true true (bits_of stored_ab) 0 56 [97; 98]%N /\ data_of (decoded stored_ab) = Some (as_data [97; 98]%N, 7).
Proof.
  split; [|vm_compute; reflexivity]. set (bs := bits_of stored_ab). exists (map Literal [97; 98]%N). split; [|repeat constructor].
  apply LastBlock with (i1 := 1) (i2 := 3) (t := 0%N); [apply (num_there bs 1 0); vm_compute; repeat constructor|apply (num_there bs 2 1); vm_compute; repeat constructor|].
  apply Stored with (i0 := 8) (i1 := 24) (i2 := 40) (len := 2%N) (nlen := 65533%N); [reflexivity|lia| | |reflexivity|reflexivity|].
  - apply (num_there bs 16 8). vm_compute. repeat constructor.
  - apply (num_there bs 16 24). vm_compute. repeat constructor.
  - eapply NumsCons; [apply (num_there bs 8 40); vm_compute; repeat constructor|]. eapply NumsCons; [apply (num_there bs 8 48); vm_compute; repeat constructor|]. constructor.
Qed.
Example C68_fixed_nonvacuous : Inflates true true (bits_of fixed_abc) 0 62 abc /\ data_of (decoded fixed_abc) = Some (as_data abc, 8).
Proof.
  split; [|vm_compute; reflexivity]. set (bs := bits_of fixed_abc).
  exists [Literal 97%N; Literal 98%N; Literal 99%N; Literal 97%N; Copy 8 3; Literal 120%N]. split.
  - apply LastBlock with (i1 := 1) (i2 := 3) (t := 1%N); [apply (num_there bs 1 0); vm_compute; repeat constructor|apply (num_there bs 2 1); vm_compute; repeat constructor|].
    assert (S : forall i sym, symbol_at fixed_lengths bs i sym = true -> Symbol fixed_lengths bs i (i + nth sym fixed_lengths 0) sym) by (intros; now apply symbol_there).
    apply Fixed.
    apply (ElementsLiteral true bs _ _ 3 11 _ 97); [apply (S 3 97); vm_compute; reflexivity|lia|].
    apply (ElementsLiteral true bs _ _ 11 19 _ 98); [apply (S 11 98); vm_compute; reflexivity|lia|].
    apply (ElementsLiteral true bs _ _ 19 27 _ 99); [apply (S 19 99); vm_compute; reflexivity|lia|].
    apply (ElementsLiteral true bs _ _ 27 35 _ 97); [apply (S 27 97); vm_compute; reflexivity|lia|].
    apply (ElementsCopy true bs _ _ 35 42 42 47 47 _ 262 0 2 0); [apply (S 35 262); vm_compute; reflexivity|lia|apply (num_there bs 0 42); vm_compute; repeat constructor| |lia|apply (num_there bs 0 47); vm_compute; repeat constructor|].
    { destruct (at_there bs 42 5 ltac:(vm_compute; repeat constructor)) as [A B]. eexists. split; [exact B|]. split; [exact A|]. split; reflexivity. }
    apply (ElementsLiteral true bs _ _ 47 55 _ 120); [apply (S 47 120); vm_compute; reflexivity|lia|].
    apply ElementsEnd. apply (S 55 256). vm_compute. reflexivity.
  - do 4 apply WritesLiteral. cbn [app]. apply (WritesCopy _ 8 3 [98; 99; 97; 98; 99; 97; 98; 99]%N); [cbn; lia|reflexivity| |do 2 constructor].
    intros k Hk. do 8 (destruct k as [|k]; [reflexivity|]). lia.
Qed.
(** A block with its own codes, from zlib as well *)
Definition dynamic_abc : list N := [29; 133; 9; 13; 0; 0; 16; 64; 178; 162; 127; 135; 123; 204; 48; 18; 225; 226; 91; 121; 236; 24]%N.
Definition letters : list N := [98; 99; 97; 99; 98; 97; 98; 97; 97; 98; 97; 98; 97; 98; 98; 97; 98; 98; 97; 99; 99; 99; 98; 98; 98; 98; 98; 99; 99; 98; 97]%N.
Example C68_dynamic_nonvacuous : exists k, Inflates false false (bits_of dynamic_abc) 0 k letters /\ 22 = (k + 7) / 8.
Proof. apply decoded_reads; [vm_compute; reflexivity|reflexivity]. Qed.
(** ... and it conforms, so that the decoder is bound to accept it. *)
Example C68_dynamic_conforms : Inflates true true (bits_of dynamic_abc) 0 175 letters.
Proof.
  destruct C68_dynamic_nonvacuous as (k & (es & HB & HW) & _). pose proof (bits_are_bits dynamic_abc) as Hb.
  enough (H : exists es', Blocks true true (bits_of dynamic_abc) 0 175 es').
  { destruct H as (es' & H). destruct (Blocks_det false _ _ _ _ _ _ Hb H HB) as [_ ->]. exists es. auto. }
  clear. set (bs := bits_of dynamic_abc). eexists.
  apply LastBlock with (i1 := 1) (i2 := 3) (t := 2%N); [apply (num_there bs 1 0); vm_compute; repeat constructor|apply (num_there bs 2 1); vm_compute; repeat constructor|].
  set (cls := [3; 0; 1; 0; 4; 0; 0; 0; 0; 0; 0; 0; 0; 0; 0; 0; 4; 0; 2]). set (lens := (repeat 0 97 ++ [2; 2; 2] ++ repeat 0 156 ++ [4; 4; 4; 4; 2; 0; 2; 0; 2; 2])).
  set (lits := repeat 0 97 ++ [2; 2; 2] ++ repeat 0 156 ++ [4; 4; 4; 4]). set (dists := [2; 0; 2; 0; 2; 2]).
  assert (Sc : forall i sym, symbol_at cls bs i sym = true -> Symbol cls bs i (i + nth sym cls 0) sym) by (intros; now apply symbol_there).
  assert (Sl : forall i sym, symbol_at lits bs i sym = true -> Symbol lits bs i (i + nth sym lits 0) sym) by (intros; now apply symbol_there).
  assert (Sd : forall i sym, symbol_at dists bs i sym = true -> Symbol dists bs i (i + nth sym dists 0) sym) by (intros; now apply symbol_there).
  apply (Dynamic true true bs 3 8 13 17 65 115 175 3%N 5%N 12%N [4; 0; 2; 3; 0; 0; 0; 0; 0; 0; 0; 4; 0; 0; 0; 1]%N lens).
  - apply (num_there bs 5 3); vm_compute; repeat constructor.
  - apply (num_there bs 5 8); vm_compute; repeat constructor.
  - apply (num_there bs 4 13); vm_compute; repeat constructor.
  - reflexivity.
  - do 16 (eapply NumsCons; [apply num_there; vm_compute; repeat constructor|]). apply NumsNil.
  - change (Lengths true bs cls 266 65 115 [] lens).
    eapply (LengthsManyZeros true bs cls 266 65 67 74 115 86%N); [apply Nat.ltb_lt; vm_compute; reflexivity|apply (Sc 65 18); vm_compute; reflexivity|apply (num_there bs 7 67); vm_compute; repeat constructor|].
    eapply (LengthsOne true bs cls 266 74 75 115 2); [apply Nat.ltb_lt; vm_compute; reflexivity|apply (Sc 74 2); vm_compute; reflexivity|lia|].
    eapply (LengthsOne true bs cls 266 75 76 115 2); [apply Nat.ltb_lt; vm_compute; reflexivity|apply (Sc 75 2); vm_compute; reflexivity|lia|].
    eapply (LengthsOne true bs cls 266 76 77 115 2); [apply Nat.ltb_lt; vm_compute; reflexivity|apply (Sc 76 2); vm_compute; reflexivity|lia|].
    eapply (LengthsManyZeros true bs cls 266 77 79 86 115 127%N); [apply Nat.ltb_lt; vm_compute; reflexivity|apply (Sc 77 18); vm_compute; reflexivity|apply (num_there bs 7 79); vm_compute; repeat constructor|].
    eapply (LengthsManyZeros true bs cls 266 86 88 95 115 7%N); [apply Nat.ltb_lt; vm_compute; reflexivity|apply (Sc 86 18); vm_compute; reflexivity|apply (num_there bs 7 88); vm_compute; repeat constructor|].
    eapply (LengthsOne true bs cls 266 95 99 115 4); [apply Nat.ltb_lt; vm_compute; reflexivity|apply (Sc 95 4); vm_compute; reflexivity|lia|].
    match goal with |- Lengths _ _ _ _ _ _ ?d _ => change d with (removelast d ++ [last d 0]) end.
    eapply (LengthsRepeat true bs cls 266 99 103 105 115 0%N); [apply Nat.ltb_lt; vm_compute; reflexivity|apply (Sc 99 16); vm_compute; reflexivity|apply (num_there bs 2 103); vm_compute; repeat constructor|].
    eapply (LengthsOne true bs cls 266 105 106 115 2); [apply Nat.ltb_lt; vm_compute; reflexivity|apply (Sc 105 2); vm_compute; reflexivity|lia|].
    eapply (LengthsOne true bs cls 266 106 109 115 0); [apply Nat.ltb_lt; vm_compute; reflexivity|apply (Sc 106 0); vm_compute; reflexivity|lia|].
    eapply (LengthsOne true bs cls 266 109 110 115 2); [apply Nat.ltb_lt; vm_compute; reflexivity|apply (Sc 109 2); vm_compute; reflexivity|lia|].
    eapply (LengthsOne true bs cls 266 110 113 115 0); [apply Nat.ltb_lt; vm_compute; reflexivity|apply (Sc 110 0); vm_compute; reflexivity|lia|].
    eapply (LengthsOne true bs cls 266 113 114 115 2); [apply Nat.ltb_lt; vm_compute; reflexivity|apply (Sc 113 2); vm_compute; reflexivity|lia|].
    eapply (LengthsOne true bs cls 266 114 115 115 2); [apply Nat.ltb_lt; vm_compute; reflexivity|apply (Sc 114 2); vm_compute; reflexivity|lia|].
    match goal with |- Lengths _ _ _ _ _ _ ?d ?a => replace d with lens by (vm_compute; reflexivity) end. apply LengthsDone; [apply Nat.leb_le; vm_compute; reflexivity|intros _; vm_compute; reflexivity].
  - intros _. split; [|split]; vm_compute; discriminate.
  - change (firstn _ lens) with lits. change (firstn _ (skipn _ lens)) with dists.
    eapply (ElementsLiteral true bs _ _ 115 117 _ 98); [apply (Sl 115 98); vm_compute; reflexivity|lia|].
    eapply (ElementsLiteral true bs _ _ 117 119 _ 99); [apply (Sl 117 99); vm_compute; reflexivity|lia|].
    eapply (ElementsLiteral true bs _ _ 119 121 _ 97); [apply (Sl 119 97); vm_compute; reflexivity|lia|].
    eapply (ElementsLiteral true bs _ _ 121 123 _ 99); [apply (Sl 121 99); vm_compute; reflexivity|lia|].
    eapply (ElementsLiteral true bs _ _ 123 125 _ 98); [apply (Sl 123 98); vm_compute; reflexivity|lia|].
    eapply (ElementsLiteral true bs _ _ 125 127 _ 97); [apply (Sl 125 97); vm_compute; reflexivity|lia|].
    eapply (ElementsLiteral true bs _ _ 127 129 _ 98); [apply (Sl 127 98); vm_compute; reflexivity|lia|].
    eapply (ElementsLiteral true bs _ _ 129 131 _ 97); [apply (Sl 129 97); vm_compute; reflexivity|lia|].
    eapply (ElementsLiteral true bs _ _ 131 133 _ 97); [apply (Sl 131 97); vm_compute; reflexivity|lia|].
    eapply (ElementsCopy true bs _ _ 133 137 137 139 140 _ 258 0 4 0); [apply (Sl 133 258); vm_compute; reflexivity|lia|apply (num_there bs 0 137); vm_compute; repeat constructor|apply (Sd 137 4); vm_compute; reflexivity|lia|apply (num_there bs 1 139); vm_compute; repeat constructor|].
    eapply (ElementsLiteral true bs _ _ 140 142 _ 98); [apply (Sl 140 98); vm_compute; reflexivity|lia|].
    eapply (ElementsCopy true bs _ _ 142 146 146 148 148 _ 259 0 2 0); [apply (Sl 142 259); vm_compute; reflexivity|lia|apply (num_there bs 0 146); vm_compute; repeat constructor|apply (Sd 146 2); vm_compute; reflexivity|lia|apply (num_there bs 0 148); vm_compute; repeat constructor|].
    eapply (ElementsLiteral true bs _ _ 148 150 _ 99); [apply (Sl 148 99); vm_compute; reflexivity|lia|].
    eapply (ElementsLiteral true bs _ _ 150 152 _ 99); [apply (Sl 150 99); vm_compute; reflexivity|lia|].
    eapply (ElementsLiteral true bs _ _ 152 154 _ 99); [apply (Sl 152 99); vm_compute; reflexivity|lia|].
    eapply (ElementsLiteral true bs _ _ 154 156 _ 98); [apply (Sl 154 98); vm_compute; reflexivity|lia|].
    eapply (ElementsCopy true bs _ _ 156 160 160 162 162 _ 258 0 0 0); [apply (Sl 156 258); vm_compute; reflexivity|lia|apply (num_there bs 0 160); vm_compute; repeat constructor|apply (Sd 160 0); vm_compute; reflexivity|lia|apply (num_there bs 0 162); vm_compute; repeat constructor|].
    eapply (ElementsCopy true bs _ _ 162 166 166 168 169 _ 257 0 5 0); [apply (Sl 162 257); vm_compute; reflexivity|lia|apply (num_there bs 0 166); vm_compute; repeat constructor|apply (Sd 166 5); vm_compute; reflexivity|lia|apply (num_there bs 1 168); vm_compute; repeat constructor|].
    eapply (ElementsLiteral true bs _ _ 169 171 _ 97); [apply (Sl 169 97); vm_compute; reflexivity|lia|].
    apply ElementsEnd. apply (Sl 171 256). vm_compute. reflexivity.
Qed.

(** The format is lenient: the complement of the length of stored data is not looked
    at, and the reserved symbols 286 and 287 are passed over. *)
Theorem C68_complement_refuted : exists input, data_of (decoded input) = Some (as_data [97; 98]%N, 7) /\
  forall k data, ~ Inflates true true (bits_of input) 0 k data.
Proof.
  exists [1; 2; 0; 0; 0; 97; 98]%N. split; [vm_compute; reflexivity|]. set (bs := bits_of [1; 2; 0; 0; 0; 97; 98]%N). intros k data (es & HB & _).
  assert (N1 : Num bs 1 0 1 1) by (apply (num_there bs 1 0); vm_compute; repeat constructor).
  assert (N2 : Num bs 2 1 3 0) by (apply (num_there bs 2 1); vm_compute; repeat constructor).
  assert (N3 : Num bs 16 8 24 2) by (apply (num_there bs 16 8); vm_compute; repeat constructor).
  assert (N4 : Num bs 16 24 40 0) by (apply (num_there bs 16 24); vm_compute; repeat constructor).
  clearbody bs. inversion HB as [? ? ? ? ? ? A1 A2 A3|? ? ? ? ? ? ? ? A1 A2 A3 A4]; subst; destruct (Num_det _ _ _ _ _ _ _ N1 A1) as [<- E]; [|discriminate E].
  destruct (Num_det _ _ _ _ _ _ _ N2 A2) as [<- <-]. inversion A3 as [? i0 ? ? ? ? ? ? B1 B2 B3 B4 B5 B6 B7| |]; subst. assert (i0 = 8) as -> by lia.
  destruct (Num_det _ _ _ _ _ _ _ N3 B3) as [<- <-]. destruct (Num_det _ _ _ _ _ _ _ N4 B4) as [<- <-]. specialize (B5 eq_refl). discriminate B5.
Qed.
Theorem C68_reserved_refuted : exists input, data_of (decoded input) = Some (as_data [], 3) /\
  forall k data, ~ Inflates true true (bits_of input) 0 k data.
Proof.
  exists [27; 3; 0]%N. split; [vm_compute; reflexivity|]. intros k data HI.
  pose proof (bits_are_bits [27; 3; 0]%N) as Hb. set (bs := bits_of [27; 3; 0]%N) in *. destruct HI as (es & HB & _).
  assert (N1 : Num bs 1 0 1 1) by (apply (num_there bs 1 0); vm_compute; repeat constructor).
  assert (N2 : Num bs 2 1 3 1) by (apply (num_there bs 2 1); vm_compute; repeat constructor).
  assert (S : Symbol fixed_lengths bs 3 11 286) by (apply (symbol_there fixed_lengths bs 3 286); vm_compute; reflexivity).
  clearbody bs. inversion HB as [? ? ? ? ? ? A1 A2 A3|? ? ? ? ? ? ? ? A1 A2 A3 A4]; subst; destruct (Num_det _ _ _ _ _ _ _ N1 A1) as [<- E]; [|discriminate E].
  destruct (Num_det _ _ _ _ _ _ _ N2 A2) as [<- <-]. inversion A3 as [|? ? ? HE|]; subst.
  pose proof (Symbol_det bs fixed_lengths Hb DeflateBlocks.fixed_small DeflateBlocks.fixed_fits) as D.
  inversion HE as [? ? X|? ? ? ? ? X Y Z|? ? ? ? ? ? ? ? ? ? ? X Y|? ? ? ? ? Z X Y]; subst; try discriminate Z; destruct (D _ _ _ _ _ S X) as [_ E9]; lia.
Qed.
(** Malformed streams make the decoder panic: a copy of data before the start, and
    a first code length that says "the last one again". *)
Theorem C68_rejected_refuted : decoded [3; 2; 0]%N = Some RPanic /\
  decoded [5; 0; 2; 228; 255; 255; 255; 255; 255; 255; 255; 255; 255; 255; 255; 255; 255; 255; 255; 63]%N = Some RPanic.
Proof. split; vm_compute; reflexivity. Qed.
Print Assumptions C68_complement_refuted.
Print Assumptions C68_reserved_refuted.
Print Assumptions C68_rejected_refuted.
