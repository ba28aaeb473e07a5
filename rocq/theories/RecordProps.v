(** Properties C48 (records), C49 (merging and rewriting records), C50 (packed bit
    fields) and C51 (fixed-width integers). *)
From Coq Require Import String Ascii.
From Verif Require ByteSetModel.
From Verif Require Import Base BoundsModel DataModel NumericModel ValueModel FormatModel MatchTreeModel DecoderModel
  FormatSpec CompileProofs SoundProofs CompleteProofs ExactSpec DecoderProps FormatProps ExactProps RecordModel RecordSpec RecordProofs.
Open Scope nat_scope.

Section Props.
Context (M : fmodule) (strict : bool) (um fl : scope format -> format -> list N -> nat -> Prop).
(** What [f] describes in [buf], for any of the readings of FormatSpec. *)
Notation means buf := (fun s f i j v => SemN M strict um fl s f buf i j v).

(** ** C48 *)

(** A record decodes its fields in the order given, one after the other, each with
    the named ones before it in scope; its value has the kept fields and only
    those, in that order, with the values decoded for them. *)
Theorem C48_record : forall fs buf s i j v, no_reuse fs ->
  (means buf s (record_ext fs) i j v <-> exists rs, Fields (means buf) s fs i j rs /\ v = record_value rs).
Proof. intros. now apply record_ext_sem. Qed.
(** The older constructor keeps every field. *)
Theorem C48_all_kept : forall fs buf s i j v, NoDup (map fst fs) ->
  (means buf s (record fs) i j v <->
   exists rs, Fields (means buf) s (map (fun nf => (Some (fst nf, true), snd nf)) fs) i j rs /\ v = record_value rs /\ map fst rs = map fst fs).
Proof.
  intros fs buf s i j v Hd. change (record fs) with (record_ext (map (fun nf => (Some (fst nf, true), snd nf)) fs)).
  rewrite C48_record.
  - split; [|intros (rs & H1 & H2 & _); eauto]. intros (rs & HF & ->). exists rs. repeat split; auto.
    apply Fields_names in HF. revert HF. clear. revert rs. induction fs as [|[x f] fs IH]; intros [|[y v] rs]; cbn; try discriminate; [reflexivity|].
    intros [= -> H]. f_equal. now apply IH.
  - induction fs as [|[x f] fs IH]; [exact I|]. cbn [map fst] in Hd. inversion Hd; subst. cbn [map no_reuse fst snd]. split; [|auto].
    apply Forall_forall. intros g Hg. apply in_map_iff in Hg as ([y h] & <- & Hy). cbn. intros [= ->]. match goal with A : ~ In _ _ |- _ => apply A end.
    apply in_map_iff. now exists (x, h).
Qed.
(** How names are read: a name that starts with neither a hash nor an underscore is
    kept, one that starts with one underscore is local, one that starts with two is
    dropped, and one that starts with a hash is kept without its leading hashes. *)
Theorem C48_names : forall a s,
  (a <> "#"%char -> a <> "_"%char -> auto_label (String a s) = Some (intern (String a s), true)) /\
  (auto_label (String "#" s) = Some (intern (trim_hash s), true)) /\
  (a <> "_"%char -> auto_label (String "_" (String a s)) = Some (intern (String "_" (String a s)), false)) /\
  auto_label (String "_" (String "_" s)) = None.
Proof.
  intros a s. split; [|split; [|split]].
  - intros H1 H2. apply auto_ordinary. unfold ordinary. cbn [String.prefix].
    destruct (Ascii.ascii_dec "#" a); [congruence|]. destruct (Ascii.ascii_dec "_" a); [congruence|reflexivity].
  - unfold auto_label. cbn [String.prefix trim_hash]. destruct (Ascii.ascii_dec "#" "#"); [|congruence]. destruct s; reflexivity.
  - intros H. unfold auto_label. cbn [String.prefix]. destruct (Ascii.ascii_dec "#" "_"); [discriminate|].
    destruct (Ascii.ascii_dec "_" "_"); [|congruence]. destruct (Ascii.ascii_dec "_" a); [congruence|reflexivity].
  - unfold auto_label. cbn [String.prefix]. destruct (Ascii.ascii_dec "#" "_"); [discriminate|].
    destruct (Ascii.ascii_dec "_" "_"); [|congruence]. destruct s; reflexivity.
Qed.
(** No two names share a label. *)
Theorem C48_labels : forall a b, intern a = intern b -> a = b.
Proof. exact intern_inj. Qed.
(** The format with preliminary parts: all are decoded in order, each in the scope
    of the named ones before it, and the value is that of the last. *)
Theorem C48_pseudo : forall gs f buf s i j v,
  means buf s (chaining gs f) i j v <-> Steps (means buf) s gs f i j v.
Proof. intros. apply chaining_sem. Qed.

(** ** C49 *)

(** Looking up a field of a record finds the format of the kept field of that name. *)
Theorem C49_lookup : forall fs, all_different fs -> existsb kept fs = true ->
  exists r, to_record_format (record_ext fs) = Val r /\
    forall x, lookup_value_field r x =
      match find (fun f => match fst f with Some (y, true) => N.eqb y x | _ => false end) fs with Some f => Some (snd f, x) | None => None end.
Proof.
  intros fs Hd Hk. exists (map (fun f => (seen f, snd f)) fs). split; [now apply view_of_record|]. intros x. rewrite lookup_seen.
  clear. induction fs as [|[[[y []]|] f] fs IH]; cbn; try exact IH; [reflexivity|]. destruct (N.eqb y x); [reflexivity|exact IH].
Qed.
(** Merging records gives the record whose fields are those of all of them, in
    order: so they are decoded one record after the other, later records in the
    scope of the earlier ones. *)
Theorem C49_merge : forall fss, Forall all_different fss -> Forall (fun fs => existsb kept fs = true) fss ->
  merge_records (map record_ext fss) = Val (record_ext (List.concat fss)).
Proof. exact merge_seen. Qed.
Theorem C49_merge_two : forall fs gs buf s i k v, no_reuse (fs ++ gs) -> all_different fs -> all_different gs ->
  existsb kept fs = true -> existsb kept gs = true ->
  exists f, merge_records [record_ext fs; record_ext gs] = Val f /\
    (means buf s f i k v -> exists s' j rs1 rs2,
      Fields (means buf) s fs i j rs1 /\ Fields (means buf) s' gs j k rs2 /\ v = VRecord (rs1 ++ rs2)).
Proof.
  intros fs gs buf s i k v Hn Hf Hg Kf Kg. exists (record_ext (fs ++ gs)). split.
  - replace (fs ++ gs) with (List.concat [fs; gs]) by (cbn; now rewrite app_nil_r). apply (merge_seen [fs; gs]); repeat constructor; auto.
  - intros H. apply C48_record in H as (rs & HF & ->); [|assumption]. pose proof (Fields_names _ _ _ _ _ _ HF) as HN.
    apply Fields_app in HF as (s' & j & r1 & r2 & H1 & H2 & ->). exists s', j, r1, r2. repeat split; auto.
    unfold record_value. destruct (r1 ++ r2); [|reflexivity]. rewrite filter_app in HN. destruct (filter kept fs) eqn:E; [|discriminate].
    exfalso. clear - E Kf. induction fs as [|f fs IH]; [discriminate|]. cbn in *. destruct (kept f); [discriminate|auto].
Qed.
(** Rewriting a field of a record changes the first field of that name and nothing
    else; without such a field it changes nothing. *)
Theorem C49_remap : forall x g fs, remap_field x g (record_ext fs) = record_ext (change_first x g fs).
Proof. intros. unfold record_ext. cbn [remap_field]. f_equal. apply remap_chain. Qed.
Theorem C49_remap_none : forall x g fs, Forall (fun f => name_of f <> Some x) fs -> remap_field x g (record_ext fs) = record_ext fs.
Proof.
  intros x g fs H. rewrite C49_remap. f_equal. induction H as [|[[[y p]|] f] fs Hf Hs IH]; cbn [change_first]; [reflexivity| |exact (f_equal (cons _) IH)].
  destruct (N.eqb_spec y x) as [->|]; [now contradict Hf|exact (f_equal (cons _) IH)].
Qed.

(** ** C50 *)

(** A packed byte or 16-bit word is one byte (two bytes, most significant first);
    each field is the number, or the flag, made of its own bits counted from the
    most significant one. Missing: reserved bits are not checked (refuted below),
    and names are those that [record_auto] keeps as they are. *)
Theorem C50_u8_partial : forall fields f buf s i j v,
  bit_fields_u8 fields = Val f -> forallb wide fields = true ->
  forallb ordinary (names fields) = true -> NoDup (names fields) -> Forall (fun b => (b < 256)%N) buf ->
  (means buf s f i j v <->
   exists b, nth_error buf i = Some b /\ j = S i /\
     v = record_value (map (fun xv => (intern (fst xv), snd xv)) (bit_values B8 b 0 fields))).
Proof.
  intros fields f buf s i j v H Hw Ho Hd Hb. unfold bit_fields_u8 in H. rewrite (bit_fields_sem _ _ _ _ _ _ _ _ _ _ _ _ _ H); auto.
  - split.
    + intros (u & n & Hu & Hn & ->). apply any_byte_sem in Hu as (b & Hb' & -> & ->); [|assumption]. cbn in Hn. injection Hn as <-. eauto.
    + intros (b & Hb' & -> & ->). exists (VU B8 b), b. repeat split. apply any_byte_sem; eauto.
  - intros u i0 j0 Hu. apply any_byte_sem in Hu as (b & _ & _ & ->); [|assumption]. cbn. eauto.
Qed.
Theorem C50_u16_partial : forall fields f buf s i j v,
  bit_fields_u16 fields = Val f -> forallb wide fields = true ->
  forallb ordinary (names fields) = true -> NoDup (names fields) -> Forall (fun b => (b < 256)%N) buf ->
  (means buf s f i j v <->
   exists a b, nth_error buf i = Some a /\ nth_error buf (S i) = Some b /\ j = i + 2 /\
     v = record_value (map (fun xv => (intern (fst xv), snd xv)) (bit_values B16 (256 * a + b) 0 fields))).
Proof.
  intros fields f buf s i j v H Hw Ho Hd Hb. unfold bit_fields_u16 in H. rewrite (bit_fields_sem _ _ _ _ _ _ _ _ _ _ _ _ _ H); auto.
  - assert (E2 : forall i, bytes_at buf i 2 = match nth_error buf i, nth_error buf (S i) with Some a, Some b => Some [a; b] | _, _ => None end).
    { intros i0. rewrite bytes_at_S, bytes_at_S. destruct (nth_error buf i0) as [a|]; [|reflexivity].
      destruct (nth_error buf (S i0)) as [b|] eqn:Eb; [|reflexivity]. unfold bytes_at.
      assert (S i0 < length buf) by (apply nth_error_Some; congruence). destruct (S (S i0) + 0 <=? length buf) eqn:E; [reflexivity|]. apply Nat.leb_gt in E. lia. }
    assert (EN : forall a b, number true [a; b] = (256 * a + b)%N) by (intros; unfold number; cbn [rev app little]; lia).
    split.
    + intros (u & n & Hu & Hn & ->). apply uint_sem in Hu as (bs & Hbs & -> & ->); [|assumption]. change (N.to_nat (nbits B16 / 8)) with 2 in *.
      rewrite E2 in Hbs. destruct (nth_error buf i) as [a|]; [|discriminate]. destruct (nth_error buf (S i)) as [b|]; [|discriminate]. injection Hbs as <-.
      cbn [coerce_mapped] in Hn. rewrite EN in Hn. injection Hn as <-. exists a, b. auto.
    + intros (a & b & Ha & Hb' & -> & ->). exists (VMapped (VTuple (map (VU B8) [a; b])) (VU B16 (number true [a; b]))), (256 * a + b)%N.
      rewrite EN. repeat split. apply uint_sem; [assumption|]. exists [a; b]. change (N.to_nat (nbits B16 / 8)) with 2. rewrite E2, Ha, Hb', EN. auto.
  - intros u i0 j0 Hu. apply uint_sem in Hu as (bs & _ & _ & ->); [|assumption]. cbn. eauto.
Qed.
(** The constructor accepts exactly the layouts that fill the word, with no field
    as wide as the word, except for reserved bits that are not checked. *)
Theorem C50_layouts : forall w word fields, forallb wide fields = true ->
  ((exists f, bit_fields w word fields = Val f) <->
   total_width fields = nbits w /\
   forallb (fun b => match b with Reserved _ false => true | _ => N.ltb (field_width b) (nbits w) end) fields = true).
Proof.
  intros w word fields Hw. unfold bit_fields. destruct (N.eqb_spec (total_width fields) (nbits w)) as [E|E]; cbn [negb].
  - assert (EF : forallb (fun b => match b with Reserved _ false => true | _ => N.ltb (field_width b) (nbits w) end) fields =
      forallb (fun b => match b with FlagBit _ => N.ltb 1 (nbits w) | Reserved _ false => true | _ => N.ltb (field_width b) (nbits w) end) fields).
    { clear. induction fields as [|[] fields IH]; cbn; rewrite ?IH; reflexivity. }
    rewrite EF, <- (loop_defined w fields 0 0); [|lia|assumption].
    destruct (bit_fields_loop w fields 0 0) as [r|]; cbn; split.
    + intros _. split; [assumption|]. eauto.
    + intros _. eauto.
    + intros (f & H). discriminate.
    + intros (_ & r & H). discriminate.
  - split; [intros (f & H); discriminate|intros (H & _); contradiction].
Qed.

(** ** C51 *)

(** A fixed-width integer takes as many bytes as its width and is the number that
    they write, most or least significant byte first. *)
Theorem C51_unsigned : forall big w buf s i j v, Forall (fun b => (b < 256)%N) buf ->
  (means buf s (uint big w) i j v <->
   exists bs, bytes_at buf i (N.to_nat (nbits w / 8)) = Some bs /\ j = i + length bs /\
     v = VMapped (VTuple (map (VU B8) bs)) (VU w (number big bs)) /\ (number big bs < 2 ^ nbits w)%N).
Proof.
  intros big w buf s i j v Hb. rewrite uint_sem by assumption. split.
  - intros (bs & H & -> & ->). exists bs. rewrite (bytes_at_len _ _ _ _ H). pose proof (uint_bound buf Hb w i bs big H). auto.
  - intros (bs & H & -> & -> & _). exists bs. rewrite (bytes_at_len _ _ _ _ H). auto.
Qed.
(** The signed ones are big-endian and read the same bits as two's complement. *)
Theorem C51_signed : forall w buf s i j v, Forall (fun b => (b < 256)%N) buf ->
  (means buf s (sint w) i j v <->
   exists bs, bytes_at buf i (N.to_nat (nbits w / 8)) = Some bs /\ j = i + length bs /\
     v = VNumeric (TC (signed w (number true bs)) (Concrete (MR true w)))).
Proof.
  intros w buf s i j v Hb. unfold sint, map_numeric.
  assert (HC : forall u n, coerce_mapped u = VU w n -> tc_of_value u = NOk (TC (Z.of_N n) (Concrete (MR false w))) -> (n < modulus w)%N ->
    eval_value (ENumeric (NCast (MR true w) Bitwise (NVar (intern "raw")))) (SSingle s (intern "raw") u) =
    Val (VNumeric (TC (signed w n) (Concrete (MR true w))))).
  { intros u n Hu Ht Hn. unfold eval_value. cbn [eval neval]. unfold num_look. cbn [get_value]. rewrite N.eqb_refl, Ht. cbn [nbind].
    unfold cast_apply. cbn [tc_val tc_rep]. rewrite signed_cast by exact Hn. reflexivity. }
  assert (HW : forall i j u, means buf s (match w with B8 => u8_f | _ => uint true w end) i j u <->
    exists bs, bytes_at buf i (N.to_nat (nbits w / 8)) = Some bs /\ j = i + length bs /\
      coerce_mapped u = VU w (number true bs) /\ tc_of_value u = NOk (TC (Z.of_N (number true bs)) (Concrete (MR false w))) /\
      u = match w with B8 => VU B8 (number true bs) | _ => VMapped (VTuple (map (VU B8) bs)) (VU w (number true bs)) end).
  { intros i0 j0 u.
    assert (Hgen : w <> B8 -> (means buf s (uint true w) i0 j0 u <-> exists bs, bytes_at buf i0 (N.to_nat (nbits w / 8)) = Some bs /\ j0 = i0 + length bs /\
      coerce_mapped u = VU w (number true bs) /\ tc_of_value u = NOk (TC (Z.of_N (number true bs)) (Concrete (MR false w))) /\
      u = VMapped (VTuple (map (VU B8) bs)) (VU w (number true bs)))).
    { intros _. rewrite uint_sem by assumption. split.
      - intros (bs & H & -> & ->). exists bs. rewrite (bytes_at_len _ _ _ _ H). repeat split; auto.
      - intros (bs & H & -> & _ & _ & ->). exists bs. rewrite (bytes_at_len _ _ _ _ H). auto. }
    destruct w; [|apply Hgen; discriminate..]. change (N.to_nat (nbits B8 / 8)) with 1.
    assert (E1 : forall b, number true [b] = b) by (intros; unfold number; cbn [rev app little]; lia). split.
    - intros H. inversion H; subst. match goal with A : SemN _ _ _ _ _ any_byte_f _ _ _ _ |- _ => apply any_byte_sem in A as (b & Hb' & -> & ->); [|assumption] end.
      exists [b]. rewrite bytes_at_S, Hb', E1. unfold bytes_at. assert (i0 < length buf) by (apply nth_error_Some; congruence).
      destruct (S i0 + 0 <=? length buf) eqn:E; [|apply Nat.leb_gt in E; lia]. cbn. repeat split; auto. lia.
    - intros (bs & H & -> & _ & _ & ->). constructor. apply any_byte_sem; [assumption|]. rewrite bytes_at_S in H.
      destruct (nth_error buf i0) as [b|] eqn:Eb; [|discriminate]. unfold bytes_at in H. destruct (_ <=? _); [|discriminate]. cbn in H. injection H as <-.
      exists b. rewrite E1. cbn. repeat split; auto. lia. }
  split.
  - intros H. inversion H; subst. match goal with A : SemN _ _ _ _ s _ _ _ _ _ |- _ => apply HW in A as (bs & Hbs & -> & Hc & Ht & _) end.
    match goal with A : SemN _ _ _ _ _ (FCompute _) _ _ _ _ |- _ => inversion A; subst end.
    exists bs. repeat split; auto. match goal with A : eval_value _ _ = _ |- _ => erewrite HC in A; [|exact Hc|exact Ht|eapply uint_bound; eauto] end. congruence.
  - intros (bs & Hbs & -> & ->).
    apply SemLetFormat with (j := i + length bs) (w := match w with B8 => VU B8 (number true bs) | _ => VMapped (VTuple (map (VU B8) bs)) (VU w (number true bs)) end).
    + apply HW. exists bs. split; [exact Hbs|]. split; [reflexivity|]. destruct w; auto.
    + constructor. apply HC; [destruct w; reflexivity|destruct w; reflexivity|eapply uint_bound; eauto].
Qed.
End Props.
Print Assumptions C48_record.
Print Assumptions C48_all_kept.
Print Assumptions C48_names.
Print Assumptions C48_labels.
Print Assumptions C48_pseudo.
Print Assumptions C49_lookup.
Print Assumptions C49_merge.
Print Assumptions C49_merge_two.
Print Assumptions C49_remap.
Print Assumptions C49_remap_none.
Print Assumptions C50_u8_partial.
Print Assumptions C50_u16_partial.
Print Assumptions C50_layouts.
Print Assumptions C51_unsigned.
Print Assumptions C51_signed.

(** ** Decoding *)

(** What a compiled record returns. *)
Theorem C48_decoded_partial : forall bld eqb, (forall a b, eqb a b = true -> a = b) -> forall m fs fuel P pfuel input v c' es,
  no_reuse fs -> compile_program bld eqb m fuel (record_ext fs) = Some (COk P) ->
  run bld P pfuel (rc_new input) = ROk v c' es ->
  exists rs, Fields (fun s f i j v => Sem m false s f input i j v) SEmpty fs 0 (roff c') rs /\ v = record_value rs.
Proof.
  intros bld eqb Heqb m fs fuel P pfuel input v c' es Hn HP Hr. apply C48_record; [assumption|]. eapply C25_belongs_partial; eauto.
Qed.
Print Assumptions C48_decoded_partial.
(** Every input that starts with the bytes of an integer is decoded. *)
Theorem C51_decoded : forall big w input bs, usable input -> bytes_at input 0 (N.to_nat (nbits w / 8)) = Some bs ->
  exists P pfuel es, compile_program (build_exec 50) no_eqb [] 10 (uint big w) = Some (COk P) /\
    run (build_exec 50) P pfuel (rc_new input) = ROk (VMapped (VTuple (map (VU B8) bs)) (VU w (number big bs))) (RC input (length bs)) es.
Proof.
  intros big w input bs Hu Hbs.
  assert (HC : exists P, compile_program (build_exec 50) no_eqb [] 10 (uint big w) = Some (COk P)) by (destruct big, w; eexists; vm_compute; reflexivity).
  destruct HC as (P & HP). exists P.
  assert (HE : exactb (build_exec 50) [] false 50 10 true (uint big w) NEmpty = true) by (destruct big, w; vm_compute; reflexivity).
  assert (HS : Sem [] true SEmpty (uint big w) input 0 (length bs) (VMapped (VTuple (map (VU B8) bs)) (VU w (number big bs)))).
  { apply uint_sem; [apply Hu|]. exists bs. rewrite (bytes_at_len _ _ _ _ Hbs). auto. }
  destruct (C26_decodes_partial (build_exec 50) (exec_follows 50) no_eqb ltac:(discriminate) [] false ltac:(discriminate) _ _ _ _ _ _ _ _ _ HP HE Hu HS (or_introl eq_refl))
    as (pfuel & es & Hr). eauto.
Qed.
Print Assumptions C51_decoded.

(** ** Refutations and examples *)

(** A name given twice: both fields show the value decoded last. *)
Theorem C48_reuse_refuted : exists fs input rs,
  Fields (fun s f i j v => Sem [] true s f input i j v) SEmpty fs 0 2 rs /\
  exists v, outcome_of [] (record_ext fs) input = Some (ROk v (RC input 2) []) /\ v <> record_value rs.
Proof.
  exists [(Some (1%N, true), any_byte_f); (Some (1%N, true), any_byte_f)], [5; 6]%N, [(1%N, VU B8 5); (1%N, VU B8 6)]. split.
  - econstructor; [constructor; reflexivity|]. econstructor; [constructor; reflexivity|]. constructor.
  - eexists. split; [vm_compute; reflexivity|discriminate].
Qed.
(** A count that is not kept, as many bytes as it says, a dropped byte and a byte
    whose name starts with an underscore. *)
Definition ex_record : list (string * format) :=
  [("_n", u8_f); ("xs", FRepeatCount (EVar (intern "_n")) any_byte_f); ("__pad", any_byte_f); ("#_y", any_byte_f)]%string.
Example C48_nonvacuous : no_reuse (map (fun nf => (auto_label (fst nf), snd nf)) ex_record) /\
  outcome_of [] (record_auto ex_record) [2; 7; 8; 9; 10; 11]%N =
    Some (ROk (VRecord [(intern "xs", VSeq (Strict [VU B8 7; VU B8 8])); (intern "_y", VU B8 10)]) (RC [2; 7; 8; 9; 10; 11]%N 5) []).
Proof.
  split; [|vm_compute; reflexivity]. cbn [map no_reuse ex_record fst snd].
  change (auto_label "_n") with (Some (intern "_n", false)). change (auto_label "xs") with (Some (intern "xs", true)).
  change (auto_label "__pad") with (@None (label * bool)). change (auto_label "#_y") with (Some (intern "_y", true)).
  cbn [no_reuse]. repeat (split || constructor); discriminate.
Qed.
(** A record written by hand, with the captured name not that of the field. *)
Definition renamed : format :=
  FLetFormat u8_f 1%N (FLetFormat (FRepeatCount (EVar 1%N) any_byte_f) 3%N (FCompute (ERecord [(2%N, EVar 1%N); (3%N, EVar 3%N)]))).
(** Merging it alone makes it panic. *)
Theorem C49_renamed_refuted : exists f g input v c, merge_records [f] = Val g /\
  outcome_of [] f input = Some (ROk v c []) /\ outcome_of [] g input = Some RPanic.
Proof.
  exists renamed. eexists _, [1; 7]%N, _, _. split; [vm_compute; reflexivity|]. split; vm_compute; reflexivity.
Qed.
(** The order of the fields is lost, and a local value with the name of a later
    field becomes a field. *)
Theorem C49_order_refuted : exists f g input v c w, merge_records [f] = Val g /\
  outcome_of [] f input = Some (ROk v c []) /\ outcome_of [] g input = Some (ROk w c []) /\
  v = VRecord [(2%N, VU B8 7); (1%N, VU B8 1)] /\ w = VRecord [(1%N, VU B8 1); (2%N, VU B8 7)].
Proof.
  exists (FLetFormat any_byte_f 1%N (FLetFormat any_byte_f 2%N (FCompute (ERecord [(2%N, EVar 2%N); (1%N, EVar 1%N)])))).
  eexists _, [1; 7]%N, _, _, _. split; [vm_compute; reflexivity|]. split; [vm_compute; reflexivity|]. split; [vm_compute; reflexivity|]. split; reflexivity.
Qed.
Theorem C49_local_refuted : exists fs g input v c w, merge_records [record_ext fs] = Val g /\ no_reuse fs /\
  outcome_of [] (record_ext fs) input = Some (ROk v c []) /\ outcome_of [] g input = Some (ROk w c []) /\
  v = VRecord [(1%N, VU B8 7)] /\ w = VRecord [(1%N, VU B8 7); (1%N, VU B8 7)].
Proof.
  exists [(Some (1%N, false), any_byte_f); (Some (1%N, true), any_byte_f)].
  eexists _, [5; 7]%N, _, _, _. split; [vm_compute; reflexivity|]. split; [repeat constructor|].
  split; [vm_compute; reflexivity|]. split; [vm_compute; reflexivity|]. split; reflexivity.
Qed.
(** A record without any kept field, or with a computed one, cannot be merged. *)
Theorem C49_panics_refuted :
  (exists f input v c, f = record_ext [(None, any_byte_f)] /\ outcome_of [] f input = Some (ROk v c []) /\ merge_records [f] = Panic) /\
  (exists f input v c, f = FLetFormat any_byte_f 1%N (FCompute (ERecord [(1%N, EArith AAdd (EVar 1%N) (EU B8 1))])) /\
     outcome_of [] f input = Some (ROk v c []) /\ merge_records [f] = Panic).
Proof.
  split.
  - eexists _, [7]%N, _, _. split; [reflexivity|]. split; vm_compute; reflexivity.
  - eexists _, [7]%N, _, _. split; [reflexivity|]. split; vm_compute; reflexivity.
Qed.
Example C49_nonvacuous : let fs := [(Some (1%N, true), any_byte_f); (None, any_byte_f)] in let gs := [(Some (2%N, true), FRepeatCount (EVar 1%N) any_byte_f)] in
  no_reuse (fs ++ gs) /\ all_different fs /\ all_different gs /\
  exists f, merge_records [record_ext fs; record_ext gs] = Val f /\
    outcome_of [] f [1; 2; 3]%N = Some (ROk (VRecord [(1%N, VU B8 1); (2%N, VSeq (Strict [VU B8 3]))]) (RC [1; 2; 3]%N 3) []) /\
    remap_field 2%N (FVariant 9%N) f = record_ext (fs ++ [(Some (2%N, true), FVariant 9%N (FRepeatCount (EVar 1%N) any_byte_f))]).
Proof.
  cbv zeta. split; [repeat (constructor; try discriminate)|]. split; [repeat (constructor; try discriminate); intros x [= <-]; repeat constructor; discriminate|].
  split; [repeat (constructor; try discriminate)|]. eexists. split; [vm_compute; reflexivity|]. split; vm_compute; reflexivity.
Qed.
(** Reserved bits that are asked to be zero are never checked. *)
Theorem C50_reserved_refuted : exists fields f input v,
  bit_fields_u8 fields = Val f /\ zeros_hold B8 (nth 0 input 0%N) 0 fields = false /\
  outcome_of [] f input = Some (ROk v (RC input 1) []).
Proof.
  exists [FlagBit "a"; Reserved 7 true]. eexists _, [255]%N, _. split; [vm_compute; reflexivity|]. split; vm_compute; reflexivity.
Qed.
(** A field that fills the word is refused. *)
Theorem C50_whole_refuted : exists fields, total_width fields = 8%N /\ forallb wide fields = true /\ bit_fields_u8 fields = Panic.
Proof. exists [BitsField "all" 8]. split; [reflexivity|]. split; reflexivity. Qed.
Definition ex_bits : list bit_field := [FlagBit "a"; BitsField "b" 3; Reserved 2 true; BitsField "c" 2].
Example C50_nonvacuous : forallb wide ex_bits = true /\ forallb ordinary (names ex_bits) = true /\ NoDup (names ex_bits) /\
  exists f, bit_fields_u8 ex_bits = Val f /\ 
  outcome_of [] f [210]%N = Some (ROk (VRecord [(intern "a", VBool true); (intern "b", VU B8 5); (intern "c", VU B8 2)]) (RC [210]%N 1) []) /\
  map snd (bit_values B8 210 0 ex_bits) = [VBool true; VU B8 5; VU B8 2].
Proof.
  split; [reflexivity|]. split; [reflexivity|]. split; [repeat (constructor; [cbn; intuition discriminate|]); constructor|].
  eexists. split; [vm_compute; reflexivity|]. split; vm_compute; reflexivity.
Qed.
Example C51_nonvacuous :
  outcome_of [] (uint false B32) [1; 2; 3; 4; 5]%N = Some (ROk (VMapped (VTuple (map (VU B8) [1; 2; 3; 4]%N)) (VU B32 67305985)) (RC [1; 2; 3; 4; 5]%N 4) []) /\
  outcome_of [] (sint B16) [255; 254]%N = Some (ROk (VNumeric (TC (-2) (Concrete (MR true B16)))) (RC [255; 254]%N 2) []) /\
  number true [1; 2]%N = 258%N /\ signed B16 65534 = (-2)%Z.
Proof. repeat split; vm_compute; reflexivity. Qed.
Print Assumptions C48_reuse_refuted.
Print Assumptions C49_renamed_refuted.
Print Assumptions C49_order_refuted.
Print Assumptions C49_local_refuted.
Print Assumptions C49_panics_refuted.
Print Assumptions C50_reserved_refuted.
Print Assumptions C50_whole_refuted.
