(** What the zlib and gzip formats describe. *)
From Coq Require Import String.
From Verif Require ByteSetModel ByteSetProofs.
From Verif Require Import Base BoundsModel DataModel NumericModel.
From Verif Require Import ValueModel FormatModel DecoderModel FormatSpec
  RecordModel TextModel RecordSpec RecordProofs RecordProps TextProofs DeflateModel DeflateSpec DeflateBits DeflateProofs DeflateProps GzipModel GzipSpec.
Open Scope nat_scope.

(** ** Bytes at a position *)
Lemma bytes_iff buf i j l : Bytes buf i j l <-> bytes_at buf i (length l) = Some l /\ j = i + length l.
Proof.
  unfold Bytes, at_pos, bytes_at. split.
  - intros ((pre & post & -> & <-) & ->). split; [|reflexivity]. rewrite !app_length. destruct (Nat.leb_spec (length pre + length l) (length pre + (length l + length post))); [|lia].
    rewrite skipn_app, skipn_all, Nat.sub_diag. cbn [skipn app]. rewrite firstn_app, firstn_all, Nat.sub_diag. cbn [firstn]. now rewrite app_nil_r.
  - intros (H & ->). split; [|reflexivity]. destruct (Nat.leb_spec (i + length l) (length buf)); [|discriminate]. injection H as H.
    exists (firstn i buf), (skipn (length l) (skipn i buf)). split; [|rewrite firstn_length; lia].
    rewrite <- H at 1. now rewrite !firstn_skipn.
Qed.
Lemma app_same {A} (a c : list A) : forall b d, length a = length c -> a ++ b = c ++ d -> a = c.
Proof. revert c. induction a as [|x a IH]; intros [|y c] b d Hl E; try discriminate; [reflexivity|]. cbn in *. injection E as -> E. f_equal. injection Hl as Hl. eauto. Qed.
Lemma Bytes_app buf i j a b : Bytes buf i j (a ++ b) <-> exists k, Bytes buf i k a /\ Bytes buf k j b.
Proof.
  unfold Bytes, at_pos. split.
  - intros ((pre & post & -> & <-) & ->). exists (length pre + length a). split; [split; [exists pre, (b ++ post); split; [now rewrite <- app_assoc|reflexivity]|reflexivity]|].
    split; [exists (pre ++ a), post; split; [now rewrite <- !app_assoc|apply app_length]|rewrite app_length; lia].
  - intros (k & ((pre & post & E & <-) & ->) & ((pre' & post' & E' & El) & ->)). split; [|rewrite app_length; lia].
    exists pre, post'. split; [|reflexivity]. rewrite E' . rewrite E, app_assoc in E'.
    assert (pre' = pre ++ a) as ->.
    { eapply app_same; [|symmetry; exact E']. rewrite app_length. lia. }
    now rewrite <- !app_assoc.
Qed.
Lemma Bytes_one buf i j b : Bytes buf i j [b] <-> nth_error buf i = Some b /\ j = S i.
Proof.
  rewrite bytes_iff. cbn [length]. rewrite bytes_at_S. destruct (nth_error buf i) as [c|] eqn:E.
  - assert (i < length buf) by (apply nth_error_Some; congruence). unfold bytes_at. destruct (Nat.leb_spec (S i + 0) (length buf)); [|lia]. cbn [firstn].
    split; intros [H1 H2]; (split; [congruence|lia]).
  - split; intros [H1 _]; discriminate.
Qed.
Lemma Bytes_nil buf i j : Bytes buf i j [] <-> i <= length buf /\ j = i.
Proof. rewrite bytes_iff. unfold bytes_at. cbn [length firstn]. destruct (Nat.leb_spec (i + 0) (length buf)); split; intros [H1 H2]; try discriminate; (split; [first [reflexivity|lia]|lia]). Qed.
Lemma Bytes_bound buf i j l : Bytes buf i j l -> j <= length buf.
Proof. intros ((pre & post & -> & <-) & ->). rewrite !app_length. lia. Qed.
Lemma Bytes_firstn buf n i j l : n <= length buf -> (Bytes (firstn n buf) i j l <-> Bytes buf i j l /\ j <= n).
Proof.
  intros Hn. split.
  - intros H. pose proof (Bytes_bound _ _ _ _ H) as Hb. rewrite firstn_length in Hb. split; [|lia]. destruct H as ((pre & post & E & <-) & ->). split; [|reflexivity].
    exists pre, (post ++ skipn n buf). split; [|reflexivity]. rewrite <- (firstn_skipn n buf) at 1. now rewrite E, <- !app_assoc.
  - intros (((pre & post & E & <-) & ->) & Hj). split; [|reflexivity]. exists pre, (firstn (n - length pre - length l) post). split; [|reflexivity].
    rewrite E, !firstn_app. rewrite (firstn_all2 pre), (firstn_all2 l) by lia. now rewrite app_assoc.
Qed.

Section Sems.
Context (M : fmodule) (strict : bool) (um fl : scope format -> format -> list N -> nat -> Prop).
Section Buf.
Context (buf : list N) (Hbuf : Forall (fun b => (b < 256)%N) buf).
Notation sem := (sem M strict um fl buf).
Lemma any_byte_f_sem s i j v : sem s any_byte_f i j v <-> exists b, Bytes buf i j [b] /\ v = VU B8 b.
Proof. unfold sem. rewrite any_byte_sem by assumption. split; intros (b & H); exists b; rewrite Bytes_one in *; tauto. Qed.
Lemma sem_hint s f i j v : sem s (FHint f) i j v <-> sem s f i j v.
Proof. split; [intros H; inversion H; subst; assumption|]. intros H. now constructor. Qed.
Lemma u8_sem s i j v : sem s u8_f i j v <-> exists b, Bytes buf i j [b] /\ v = VU B8 b.
Proof. unfold u8_f. rewrite sem_hint. apply any_byte_f_sem. Qed.
Definition int_val (be : bool) (w : bitwidth) (l : list N) : value := VMapped (VTuple (map (VU B8) l)) (VU w (number be l)).
Lemma int_sem be w s i j v : sem s (uint be w) i j v <-> exists l, Bytes buf i j l /\ length l = N.to_nat (nbits w / 8) /\ v = int_val be w l.
Proof.
  unfold sem. rewrite uint_sem by assumption. split.
  - intros (l & H & -> & ->). pose proof (bytes_at_len _ _ _ _ H) as Hl. exists l. split; [|auto]. apply bytes_iff. now rewrite Hl.
  - intros (l & H & Hl & ->). apply bytes_iff in H as [H ->]. rewrite Hl in *. exists l. auto.
Qed.
Lemma is_byte_sem b s i j v : (b < 256)%N -> sem s (is_byte_f b) i j v <-> Bytes buf i j [b] /\ v = VU B8 b.
Proof.
  intros Hb. rewrite Bytes_one. unfold is_byte_f. split.
  - intros H. inversion H; subst. rewrite one_set in * by (try assumption; eapply nth_byte; eassumption).
    match goal with A : andb _ _ = true |- _ => apply andb_true_iff in A as [A1 A2]; apply N.leb_le in A1, A2 end. assert (b0 = b) as -> by lia. auto.
  - intros ((H & ->) & ->). constructor; [assumption|]. rewrite one_set by assumption. now rewrite N.leb_refl.
Qed.
Lemma not_zero_sem s i j v : sem s (not_byte_f 0) i j v <-> exists b, Bytes buf i j [b] /\ b <> 0%N /\ v = VU B8 b.
Proof.
  unfold not_byte_f.
  assert (E : forall b, (b < 256)%N -> ByteSetModel.contains (ByteSetModel.complement (ByteSetModel.from_list [0%N])) b = negb (N.eqb b 0)).
  { intros b Hb. rewrite ByteSetProofs.contains_complement, one_set by (assumption || lia). destruct (N.eqb_spec b 0) as [->|]; [reflexivity|]. destruct (N.leb_spec b 0); [lia|]. now rewrite andb_false_r. }
  split.
  - intros H. inversion H; subst. rewrite E in * by (eapply nth_byte; eassumption). exists b. rewrite Bytes_one. split; [auto|]. split; [|reflexivity]. destruct (N.eqb_spec b 0); [discriminate|assumption].
  - intros (b & H & Hb & ->). apply Bytes_one in H as [H ->]. constructor; [assumption|]. rewrite E by (eapply nth_byte; eassumption). destruct (N.eqb_spec b 0); [contradiction|reflexivity].
Qed.
(** A run of bytes of some kind *)
Lemma byte_chain (f : format) (p : N -> Prop) s : (forall i j v, sem s f i j v <-> exists b, Bytes buf i j [b] /\ p b /\ v = VU B8 b) ->
  forall n i j vs, i <= length buf -> (Chain (fun f i j v => SemN M strict um fl s f buf i j v) (repeat f n) i j vs <->
  exists l, Bytes buf i j l /\ length l = n /\ Forall p l /\ vs = map (VU B8) l).
Proof.
  intros Hf. induction n as [|n IH]; intros i j vs Hi; cbn [repeat].
  - split.
    + intros H. inversion H; subst. exists []. rewrite Bytes_nil. auto.
    + intros (l & H & Hl & _ & ->). destruct l; [|discriminate]. apply Bytes_nil in H as [_ ->]. constructor.
  - split.
    + intros H. inversion H as [|? ? ? k ? ? ? H1 H2]; subst. apply Hf in H1 as (b & Hb & Hp & ->). pose proof (Bytes_bound _ _ _ _ Hb). apply IH in H2 as (l & Hl & Hn & Ha & ->); [|assumption].
      exists (b :: l). split; [change (b :: l) with ([b] ++ l); apply Bytes_app; eauto|]. split; [cbn; congruence|]. split; [now constructor|reflexivity].
    + intros (l & H & Hl & Ha & ->). destruct l as [|b l]; [discriminate|]. change (b :: l) with ([b] ++ l) in H. apply Bytes_app in H as (k & H1 & H2). inversion Ha; subst.
      cbn [map]. econstructor; [apply Hf; eauto|]. pose proof (Bytes_bound _ _ _ _ H1). apply IH; [assumption|]. exists l. injection Hl as Hl. auto.
Qed.
Lemma sem_let s f x g i j v : sem s (FLetFormat f x g) i j v <-> exists k w, sem s f i k w /\ sem (SSingle s x w) g k j v.
Proof. split; [intros H; inversion H; subst; unfold DeflateProofs.sem; eauto|]. intros (k & w & H1 & H2). econstructor; eassumption. Qed.
Lemma sem_then s f g i j v : sem s (FMonadSeq f g) i j v <-> exists k w, sem s f i k w /\ sem s g k j v.
Proof. split; [intros H; inversion H; subst; unfold DeflateProofs.sem; eauto|]. intros (k & w & H1 & H2). econstructor; eassumption. Qed.
Lemma sem_maybe s e f i j v b : eval_bool e s = Val b ->
  (sem s (FMaybe e f) i j v <-> if b then exists w, sem s f i j w /\ v = VOption (Some w) else j = i /\ v = VOption None).
Proof.
  intros He. split.
  - intros H. inversion H; subst; rewrite He in *; match goal with A : Val _ = Val _ |- _ => injection A as -> end; unfold DeflateProofs.sem; eauto.
  - destruct b; [intros (w & H & ->); now constructor|]. intros (-> & ->). now constructor.
Qed.
Lemma sem_call s level it i j v : get_item M level = Some it -> it_args it = [] -> it_views it = [] ->
  (sem s (call level) i j v <-> sem (SMulti SEmpty []) (it_format it) i j v).
Proof.
  intros Hi Ha Hv. unfold call. rewrite (sem_item M strict um fl buf s level [] it i j v Hi Hv). rewrite Ha. cbn [combine call_values].
  split; [intros (es & E & H); injection E as <-; exact H|]. intros H. eexists. split; [reflexivity|exact H].
Qed.
Definition bytes_val (l : list N) : value := VSeq (Strict (map (VU B8) l)).
Lemma asciiz_sem s i j v : i <= length buf -> (sem s asciiz_string i j v <-> exists l, ZString buf i j l /\ v = bytes_val l).
Proof.
  intros Hi. unfold asciiz_string. rewrite sem_hint, sem_let. unfold ZString. split.
  - intros (k & w & H1 & H2). inversion H1; subst. match goal with A : Chain _ _ _ _ _ |- _ => apply (byte_chain _ (fun b => b <> 0%N) s (not_zero_sem s)) in A as (l & Hl & _ & Ha & ->); [|assumption] end.
    apply sem_then in H2 as (k' & w' & H2 & H3). apply is_byte_sem in H2 as [H2 _]; [|reflexivity]. apply sem_compute in H3 as [-> H3].
    unfold eval_value in H3. rewrite (eval_var _ _ (bytes_val l)) in H3 by apply get_same. injection H3 as <-.
    exists l. split; [|reflexivity]. split; [|assumption]. apply Bytes_app. eauto.
  - intros (l & (H & Ha) & ->). apply Bytes_app in H as (k & H1 & H2). exists k, (bytes_val l). split.
    + eapply SemRepeat. apply (byte_chain _ (fun b => b <> 0%N) s (not_zero_sem s)); [assumption|]. exists l. eauto.
    + apply sem_then. exists j, (VU B8 0). split; [now apply is_byte_sem|]. apply sem_compute. split; [reflexivity|]. unfold eval_value. rewrite (eval_var _ _ (bytes_val l)) by apply get_same. reflexivity.
Qed.
Lemma chain_cons s f fs i j vs : Chain (fun f i j v => SemN M strict um fl s f buf i j v) (f :: fs) i j vs <->
  exists k v ws, sem s f i k v /\ Chain (fun f i j v => SemN M strict um fl s f buf i j v) fs k j ws /\ vs = v :: ws.
Proof. split; [intros H; inversion H; subst; unfold DeflateProofs.sem; eauto 8|]. intros (k & v & ws & H1 & H2 & ->). econstructor; eassumption. Qed.
Lemma magic_sem s i j v : sem s (byte_seq [31; 139]%N) i j v <-> Bytes buf i j [31; 139]%N /\ v = bytes_val [31; 139]%N.
Proof.
  unfold byte_seq. cbn [map]. change [31%N; 139%N] with ([31%N] ++ [139%N]) at 1. rewrite Bytes_app. split.
  - intros H. inversion H; subst. match goal with A : Chain _ _ _ _ _ |- _ => rename A into HC end. clear H.
    apply chain_cons in HC as (k & v1 & ws & Q1 & HC & ->). apply chain_cons in HC as (k2 & v2 & ws2 & Q2 & HC & ->). inversion HC; subst.
    apply is_byte_sem in Q1 as [Q1 ->]; [|reflexivity]. apply is_byte_sem in Q2 as [Q2 ->]; [|reflexivity]. eauto.
  - intros ((k & H1 & H2) & ->). constructor. apply chain_cons. exists k, (VU B8 31), [VU B8 139]. split; [now apply is_byte_sem|]. split; [|reflexivity].
    apply chain_cons. exists j, (VU B8 139), []. split; [now apply is_byte_sem|]. split; [constructor|reflexivity].
Qed.

(** ** Headers and footers *)
Definition kept (l : list (string * value)) : value := VRecord (map (fun xv => (intern (fst xv), snd xv)) l).
Definition file_flags_val (b : N) : value :=
  kept [("fcomment", VBool (flag 4 b)); ("fname", VBool (flag 3 b)); ("fextra", VBool (flag 2 b)); ("fhcrc", VBool (flag 1 b)); ("ftext", VBool (flag 0 b))]%string.
Lemma file_flags_sem s i j v : sem s (it_format file_flags) i j v <-> exists b, Bytes buf i j [b] /\ v = file_flags_val b.
Proof.
  unfold file_flags, it_format. destruct (bit_fields_u8 file_flag_bits) as [f|] eqn:E; [|vm_compute in E; discriminate E]. cbn [laid_out].
  unfold DeflateProofs.sem. rewrite (C50_u8_partial M strict um fl file_flag_bits f buf s i j v E); [|reflexivity|reflexivity| |assumption].
  - split; intros (b & H); exists b; rewrite Bytes_one in *; [destruct H as (H & -> & ->)|destruct H as ((H & ->) & ->)]; auto.
  - cbn. repeat (constructor; [cbn; intuition discriminate|]). constructor.
Qed.
Definition header_val (cm flg : N) (mtime : list N) (xfl os : N) : value :=
  kept [("magic", bytes_val [31; 139]%N); ("method", VU B8 cm); ("file-flags", file_flags_val flg); ("timestamp", int_val false B32 mtime);
        ("compression-flags", VU B8 xfl); ("os-id", VU B8 os)]%string.
Section Gzip.
Context (dlevel base : nat) (Hitems : forall k it, nth_error (gzip_items dlevel base) k = Some it -> get_item M (base + k) = Some it).
Ltac field H k v rs Q := apply fields_cons in H as (k & v & rs & Q & H & ->).
Lemma header_sem s i j v : sem s (call (l_header base)) i j v <->
  exists cm flg mtime xfl os, Bytes buf i j ([31; 139; cm; flg]%N ++ mtime ++ [xfl; os]) /\ length mtime = 4 /\ v = header_val cm flg mtime xfl os.
Proof.
  rewrite (sem_call s _ (header base)); [|apply (Hitems 1); reflexivity|reflexivity..]. unfold header, it_format. rewrite record_sem by reflexivity.
  assert (HF : forall s i j v, sem s (call (l_file_flags base)) i j v <-> exists b, Bytes buf i j [b] /\ v = file_flags_val b).
  { intros s0 i0 j0 v0. rewrite (sem_call s0 _ file_flags); [apply file_flags_sem|rewrite <- (Nat.add_0_r (l_file_flags base)); apply (Hitems 0); reflexivity|reflexivity..]. }
  assert (EB : forall cm flg mtime xfl os, [31; 139; cm; flg]%N ++ mtime ++ [xfl; os] = [31; 139]%N ++ [cm] ++ [flg] ++ mtime ++ [xfl] ++ [os]) by reflexivity.
  unfold all_kept, named. cbn [map fst snd]. split.
  - intros (rs & H & ->). field H k1 v1 rs1 Q1. field H k2 v2 rs2 Q2. field H k3 v3 rs3 Q3. field H k4 v4 rs4 Q4. field H k5 v5 rs5 Q5. field H k6 v6 rs6 Q6. apply fields_nil in H as [-> ->].
    apply magic_sem in Q1 as [Q1 ->]. apply u8_sem in Q2 as (cm & Q2 & ->). apply HF in Q3 as (flg & Q3 & ->). apply int_sem in Q4 as (mtime & Q4 & Hl & ->).
    apply u8_sem in Q5 as (xfl & Q5 & ->). apply u8_sem in Q6 as (os & Q6 & ->). exists cm, flg, mtime, xfl, os. split; [|split; [exact Hl|reflexivity]].
    rewrite EB, !Bytes_app. exists k1. split; [assumption|]. rewrite !Bytes_app. exists k2. split; [assumption|]. rewrite !Bytes_app. exists k3. split; [assumption|]. rewrite !Bytes_app. exists k4. split; [assumption|]. rewrite Bytes_app. eauto.
  - intros (cm & flg & mtime & xfl & os & H & Hl & ->). rewrite EB in H.
    apply Bytes_app in H as (k1 & H1 & H). apply Bytes_app in H as (k2 & H2 & H). apply Bytes_app in H as (k3 & H3 & H). apply Bytes_app in H as (k4 & H4 & H). apply Bytes_app in H as (k5 & H5 & H6).
    eexists. split.
    apply fields_cons. do 3 eexists. split; [apply magic_sem; split; [exact H1|reflexivity]|]. split; [|reflexivity].
    apply fields_cons. do 3 eexists. split; [apply u8_sem; eexists; split; [exact H2|reflexivity]|]. split; [|reflexivity].
    apply fields_cons. do 3 eexists. split; [apply HF; eexists; split; [exact H3|reflexivity]|]. split; [|reflexivity].
    apply fields_cons. do 3 eexists. split; [apply int_sem; eexists; split; [exact H4|split; [exact Hl|reflexivity]]|]. split; [|reflexivity].
    apply fields_cons. do 3 eexists. split; [apply u8_sem; eexists; split; [exact H5|reflexivity]|]. split; [|reflexivity].
    apply fields_cons. do 3 eexists. split; [apply u8_sem; eexists; split; [exact H6|reflexivity]|]. split; [|reflexivity].
    apply fields_nil. auto. reflexivity.
Qed.
Definition footer_val (crc isize : list N) : value := kept [("crc", int_val false B32 crc); ("length", int_val false B32 isize)]%string.
Lemma footer_sem s i j v : sem s (call (l_footer base)) i j v <->
  exists crc isize, Bytes buf i j (crc ++ isize) /\ length crc = 4 /\ length isize = 4 /\ v = footer_val crc isize.
Proof.
  rewrite (sem_call s _ footer); [|apply (Hitems 2); reflexivity|reflexivity..]. unfold footer, it_format. rewrite record_sem by reflexivity.
  unfold all_kept, named. cbn [map fst snd]. split.
  - intros (rs & H & ->). field H k1 v1 rs1 Q1. field H k2 v2 rs2 Q2. apply fields_nil in H as [-> ->].
    apply int_sem in Q1 as (crc & Q1 & Hl & ->). apply int_sem in Q2 as (isize & Q2 & Hl2 & ->). exists crc, isize. split; [apply Bytes_app; eauto|]. auto.
  - intros (crc & isize & H & Hl & Hl2 & ->). apply Bytes_app in H as (k1 & H1 & H2). eexists. split.
    apply fields_cons. do 3 eexists. split; [apply int_sem; eexists; split; [exact H1|split; [exact Hl|reflexivity]]|]. split; [|reflexivity].
    apply fields_cons. do 3 eexists. split; [apply int_sem; eexists; split; [exact H2|split; [exact Hl2|reflexivity]]|]. split; [|reflexivity].
    apply fields_nil. auto. reflexivity.
Qed.
(** ** Optional parts *)
Lemma fname_sem s i j v : i <= length buf -> (sem s (call (l_fname base)) i j v <-> exists l, ZString buf i j l /\ v = bytes_val l).
Proof. intros Hi. rewrite (sem_call s _ fname); [|apply (Hitems 3); reflexivity|reflexivity..]. unfold fname, it_format. now apply asciiz_sem. Qed.
Definition comment_val (l : list N) : value := kept [("comment", bytes_val l)]%string.
Lemma fcomment_sem s i j v : i <= length buf -> (sem s (call (l_fcomment base)) i j v <-> exists l, ZString buf i j l /\ v = comment_val l).
Proof.
  intros Hi. rewrite (sem_call s _ fcomment); [|apply (Hitems 6); reflexivity|reflexivity..]. unfold fcomment, it_format. rewrite record_sem by reflexivity. unfold all_kept, named. cbn [map fst snd]. split.
  - intros (rs & H & ->). field H k1 v1 rs1 Q1. apply fields_nil in H as [-> ->]. apply asciiz_sem in Q1 as (l & Q1 & ->); [|assumption]. eauto.
  - intros (l & H & ->). eexists. split. apply fields_cons. do 3 eexists. split; [apply asciiz_sem; [assumption|]; eexists; split; [exact H|reflexivity]|]. split; [|reflexivity]. apply fields_nil. auto. reflexivity.
Qed.
Definition hcrc_val (l : list N) : value := kept [("crc", int_val false B16 l)]%string.
Lemma fhcrc_sem s i j v : sem s (call (l_fhcrc base)) i j v <-> exists l, HeaderCrc buf i j l /\ v = hcrc_val l.
Proof.
  rewrite (sem_call s _ fhcrc); [|apply (Hitems 7); reflexivity|reflexivity..]. unfold fhcrc, it_format. rewrite record_sem by reflexivity. unfold all_kept, named. cbn [map fst snd]. split.
  - intros (rs & H & ->). field H k1 v1 rs1 Q1. apply fields_nil in H as [-> ->]. apply int_sem in Q1 as (l & Q1 & Hl & ->). exists l. split; [split; assumption|reflexivity].
  - intros (l & (H & Hl) & ->). eexists. split. apply fields_cons. do 3 eexists. split; [apply int_sem; eexists; split; [exact H|split; [exact Hl|reflexivity]]|]. split; [|reflexivity]. apply fields_nil. auto. reflexivity.
Qed.
Definition subfield_val (si1 si2 : N) (len data : list N) : value :=
  kept [("si1", VU B8 si1); ("si2", VU B8 si2); ("len", int_val false B16 len); ("data", bytes_val data)]%string.
Lemma usize_int {D} x (s : scope D) be w l : get_value (intern x) s = Some (int_val be w l) -> (number be l < w64)%N -> eval_usize (evar x) s = Val (number be l).
Proof. intros H Hn. unfold eval_usize, eval_value. rewrite (eval_var _ _ _ H). cbn [omap obind int_val coerce_mapped unwrap_usize]. destruct w; try reflexivity. Qed.
Lemma two_bytes i j l : Bytes buf i j l -> length l = 2 -> (number false l < 65536)%N.
Proof.
  intros H Hl. apply bytes_iff in H as [H _]. change 65536%N with (modulus B16). apply (uint_bound buf Hbuf B16 i l false). change (N.to_nat (nbits B16 / 8)) with 2. now rewrite Hl in H.
Qed.
Lemma subfield_sem s i j v : sem s (call (l_subfield base)) i j v <->
  exists si1 si2 len data, Bytes buf i j ([si1; si2] ++ len ++ data) /\ length len = 2 /\ N.of_nat (length data) = little len /\ v = subfield_val si1 si2 len data.
Proof.
  rewrite (sem_call s _ fextra_subfield); [|apply (Hitems 4); reflexivity|reflexivity..]. unfold fextra_subfield, it_format. rewrite record_sem by reflexivity.
  assert (EB : forall si1 si2 len data, [si1; si2] ++ len ++ data = [si1] ++ [si2] ++ len ++ data :> list N) by reflexivity.
  assert (U : forall s i j v, sem s ascii_char i j v <-> exists b, Bytes buf i j [b] /\ v = VU B8 b) by (intros; unfold ascii_char; rewrite sem_hint; apply any_byte_f_sem).
  assert (U' : forall s i j v, sem s u8_f i j v <-> exists b, Bytes buf i j [b] /\ True /\ v = VU B8 b) by (intros; rewrite u8_sem; split; intros (b & H); exists b; tauto).
  unfold all_kept, named. cbn [map fst snd]. split.
  - intros (rs & H & ->). field H k1 v1 rs1 Q1. field H k2 v2 rs2 Q2. field H k3 v3 rs3 Q3. field H k4 v4 rs4 Q4. apply fields_nil in H as [-> ->].
    apply U in Q1 as (si1 & Q1 & ->). apply U in Q2 as (si2 & Q2 & ->). apply int_sem in Q3 as (len & Q3 & Hl & ->). change (length len = 2) in Hl. pose proof (two_bytes _ _ _ Q3 Hl) as Hb.
    inversion Q4; subst. match goal with A : Chain _ _ _ _ _ |- _ => apply (byte_chain _ (fun _ => True) _ (U' _)) in A as (data & Qd & Hd & _ & ->); [|eapply Bytes_bound; eassumption] end.
    match goal with A : eval_usize _ _ = Val _ |- _ => rewrite (usize_int _ _ false B16 len) in A; [injection A as <-| |] end; [|cbn [fst]; apply get_same|unfold w64; lia].
    exists si1, si2, len, data. split; [|split; [exact Hl|split; [rewrite Hd; apply N2Nat.id|reflexivity]]].
    rewrite EB, Bytes_app. exists k1. split; [assumption|]. rewrite Bytes_app. exists k2. split; [assumption|]. rewrite Bytes_app. eauto.
  - intros (si1 & si2 & len & data & H & Hl & Hd & ->). rewrite EB in H. apply Bytes_app in H as (k1 & H1 & H). apply Bytes_app in H as (k2 & H2 & H). apply Bytes_app in H as (k3 & H3 & H4).
    pose proof (two_bytes _ _ _ H3 Hl) as Hb. eexists. split.
    apply fields_cons. do 3 eexists. split; [apply U; eexists; split; [exact H1|reflexivity]|]. split; [|reflexivity].
    apply fields_cons. do 3 eexists. split; [apply U; eexists; split; [exact H2|reflexivity]|]. split; [|reflexivity].
    apply fields_cons. do 3 eexists. split; [apply int_sem; eexists; split; [exact H3|split; [exact Hl|reflexivity]]|]. split; [|reflexivity].
    apply fields_cons. do 3 eexists. split; [|split; [apply fields_nil; split; reflexivity|reflexivity]].
    eapply SemRepeatCount; [eapply usize_int; [cbn [fst]; apply get_same|unfold w64; lia]|].
    apply (byte_chain _ (fun _ => True) _ (U' _)); [eapply Bytes_bound; eassumption|]. exists data. split; [exact H4|]. split; [change (number false len) with (little len); rewrite <- Hd; now rewrite Nat2N.id|]. split; [|reflexivity]. apply Forall_forall. auto. reflexivity.
Qed.
End Gzip.
End Buf.

(** ** The extra field *)
Ltac field H k v rs Q := apply fields_cons in H as (k & v & rs & Q & H & ->).
Definition sub_is (sub : N * N * list N) (v : value) : Prop := exists len, v = subfield_val (fst (fst sub)) (snd (fst sub)) len (snd sub).
Definition extra_is (subs : list (N * N * list N)) (v : value) : Prop :=
  exists len vs, v = kept [("xlen", int_val false B16 len); ("subfields", VSeq (Strict vs))]%string /\ Forall2 sub_is subs vs.
Context (buf : list N) (Hbuf : Forall (fun b => (b < 256)%N) buf).
Notation sem := (sem M strict um fl buf).
Context (dlevel base : nat) (Hitems : forall k it, nth_error (gzip_items dlevel base) k = Some it -> get_item M (base + k) = Some it).
Lemma Hfirst n : Forall (fun b => (b < 256)%N) (firstn n buf).
Proof. apply Forall_forall. intros b Hb. rewrite Forall_forall in Hbuf. apply Hbuf. rewrite <- (firstn_skipn n buf). apply in_or_app. now left. Qed.
Lemma subfields_only s stop : stop <= length buf -> forall n i j vs,
  Chain (fun f i j v => SemN M strict um fl s f (firstn stop buf) i j v) (repeat (call (l_subfield base)) n) i j vs ->
  exists subs, Subfields buf stop i j subs /\ Forall2 sub_is subs vs.
Proof.
  intros Hs. induction n as [|n IH]; intros i j vs H; cbn [repeat] in H; inversion H as [|? ? ? k ? ? ? H1 H2]; subst.
  - exists []. split; constructor.
  - apply (subfield_sem _ (Hfirst stop) dlevel base Hitems) in H1 as (si1 & si2 & len & data & HB & Hl & Hd & ->).
    apply Bytes_firstn in HB as [HB Hk]; [|assumption]. apply IH in H2 as (subs & HS & HF). exists ((si1, si2, data) :: subs).
    split; [econstructor; eassumption|]. constructor; [exists len; reflexivity|assumption].
Qed.
Lemma subfields_all s stop i j subs : stop <= length buf -> Subfields buf stop i j subs ->
  exists vs, Chain (fun f i j v => SemN M strict um fl s f (firstn stop buf) i j v) (repeat (call (l_subfield base)) (length subs)) i j vs /\ Forall2 sub_is subs vs.
Proof.
  intros Hs. induction 1 as [i|i j k si1 si2 len data rest HB Hl Hd Hj HR (vs & IH & HF)]; [exists []; split; constructor|].
  exists (subfield_val si1 si2 len data :: vs). cbn [length repeat]. split; [|constructor; [exists len; reflexivity|assumption]].
  econstructor; [|exact IH]. apply (subfield_sem _ (Hfirst stop) dlevel base Hitems). exists si1, si2, len, data. rewrite Bytes_firstn by assumption. auto.
Qed.
Lemma fextra_only s i j v : sem s (call (l_fextra base)) i j v -> exists subs, Extra false buf i j subs /\ extra_is subs v.
Proof.
  rewrite (sem_call buf s _ (fextra base)); [|apply (Hitems 5); reflexivity|reflexivity..]. unfold fextra, it_format. rewrite record_sem by reflexivity.
  unfold all_kept, named. cbn [map fst snd]. intros (rs & H & ->). field H k1 v1 rs1 Q1. field H k2 v2 rs2 Q2. apply fields_nil in H as [-> ->].
  apply int_sem in Q1 as (len & Q1 & Hl & ->); [|assumption]. change (length len = 2) in Hl. pose proof (two_bytes buf Hbuf _ _ _ Q1 Hl) as Hb.
  inversion Q2; subst. match goal with A : eval_usize _ _ = Val _ |- _ => rewrite (usize_int _ _ false B16 len) in A; [injection A as <-| |] end; [|apply get_same|unfold w64; lia].
  match goal with A : SemN _ _ _ _ _ (FRepeat _) _ _ _ _ |- _ => inversion A; subst end.
  match goal with A : Chain _ _ _ _ _ |- _ => apply subfields_only in A as (subs & HS & HF); [|assumption] end.
  pose proof Q1 as [_ ->]. rewrite Hl in *. exists subs. split; [|exists len, vs; split; [reflexivity|exact HF]]. exists len. eexists. split; [exact Q1|]. split; [reflexivity|]. split; [assumption|]. split; [exact HS|discriminate].
Qed.
Lemma fextra_all conform s i j subs : (strict = true -> conform = true) -> Extra conform buf i j subs -> exists v, sem s (call (l_fextra base)) i j v /\ extra_is subs v.
Proof.
  intros Hc (len & k & HB & -> & Hj & HS & Hk). assert (Hl : length len = 2) by (destruct HB as [_ HB]; lia). pose proof (two_bytes buf Hbuf _ _ _ HB Hl) as Hb.
  destruct (subfields_all (SSingle (SMulti SEmpty []) (intern "xlen") (int_val false B16 len)) _ _ _ _ Hj HS) as (vs & HC & HF).
  exists (kept [("xlen", int_val false B16 len); ("subfields", VSeq (Strict vs))]%string). split; [|exists len, vs; auto].
  rewrite (sem_call buf s _ (fextra base)); [|apply (Hitems 5); reflexivity|reflexivity..]. unfold fextra, it_format. rewrite record_sem by reflexivity.
  unfold all_kept, named. cbn [map fst snd]. eexists. split.
  apply fields_cons. do 3 eexists. split; [apply int_sem; [assumption|]; eexists; split; [exact HB|split; [exact Hl|reflexivity]]|]. split; [|reflexivity].
  apply fields_cons. do 3 eexists. split; [|split; [apply fields_nil; split; reflexivity|reflexivity]].
  eapply SemSlice; [apply (usize_int _ _ false B16 len); [apply get_same|unfold w64; lia]|exact Hj|eapply SemRepeat; exact HC|]. intros Es. apply Hk. auto. reflexivity.
Qed.

(** ** Members *)
Lemma flag_eval {D} (s : scope D) cm flg mtime xfl os x b : get_value (intern "header") s = Some (header_val cm flg mtime xfl os) ->
  assoc (intern x) (match file_flags_val flg with VRecord fs => fs | _ => [] end) = Some (VBool b) ->
  eval_bool (record_lens (evar "header") ["file-flags"%string; x]) s = Val b.
Proof.
  intros H Hx. unfold eval_bool, eval_value, record_lens. cbn [fold_left].
  pose proof (eval_proj (evar "header") "file-flags" s _ _ (file_flags_val flg) (eval_var _ _ _ H) eq_refl eq_refl) as H1.
  rewrite (eval_proj _ x s _ _ (VBool b) H1 eq_refl Hx). reflexivity.
Qed.
Definition opt_is {A} (R : A -> value -> Prop) (o : option A) (v : value) : Prop :=
  match o with Some a => exists w, v = VOption (Some w) /\ R a w | None => v = VOption None end.
(** The value of a member *)
Definition member_is (m : member) (v : value) : Prop :=
  exists header extra name comment hcrc data footer,
    v = kept [("header", header); ("fextra", extra); ("fname", name); ("fcomment", comment); ("fhcrc", hcrc); ("data", data); ("footer", footer)]%string /\
    opt_is extra_is (m_extra m) extra /\ opt_is (fun l v => v = bytes_val l) (m_name m) name /\
    opt_is (fun l v => v = comment_val l) (m_comment m) comment /\ holds_data data (m_data m).
Definition member_length (v : value) (n : nat) : Prop :=
  exists fs d, v = VRecord fs /\ assoc (intern "data") fs = Some d /\ data_length d n.
Lemma bits_stream l : bits_of l = stream_bits l.
Proof.
  unfold bits_of, stream_bits. apply flat_map_ext. intros b. apply map_ext. intros k. rewrite <- N.testbit_spec'. now destruct (N.testbit b (N.of_nat k)).
Qed.
Lemma opt_only {A} (P : nat -> nat -> A -> Prop) (R : A -> value -> Prop) s e b f i j v : eval_bool e s = Val b ->
  (forall v, sem s f i j v -> exists a, P i j a /\ R a v) ->
  sem s (cond_maybe e f) i j v -> exists o, Optional b P i j o /\ opt_is R o v.
Proof.
  intros He H Hs. unfold cond_maybe in Hs. rewrite (sem_maybe buf s e f i j v b He) in Hs. unfold Optional. destruct b.
  - destruct Hs as (w & Hw & ->). destruct (H _ Hw) as (a & Ha & HR). exists (Some a). split; [eauto|]. cbn. eauto.
  - destruct Hs as (-> & ->). exists None. split; [auto|reflexivity].
Qed.
Lemma opt_all {A} (P : nat -> nat -> A -> Prop) (R : A -> value -> Prop) s e b f i j o : eval_bool e s = Val b ->
  (forall a, P i j a -> exists v, sem s f i j v /\ R a v) ->
  Optional b P i j o -> exists v, sem s (cond_maybe e f) i j v /\ opt_is R o v.
Proof.
  intros He H Ho. unfold Optional in Ho. destruct b.
  - destruct Ho as (a & -> & Ha). destruct (H _ Ha) as (w & Hw & HR). exists (VOption (Some w)). split; [|cbn; eauto]. unfold cond_maybe. rewrite (sem_maybe buf s e f i j _ true He). eauto.
  - destruct Ho as (-> & ->). exists (VOption None). split; [|reflexivity]. unfold cond_maybe. rewrite (sem_maybe buf s e f i i _ false He). auto.
Qed.
Lemma opt_bound {A} (P : nat -> nat -> A -> Prop) b i j o : i <= length buf -> (forall a, P i j a -> j <= length buf) -> Optional b P i j o -> j <= length buf.
Proof. intros Hi H. unfold Optional. destruct b; [intros (a & _ & Ha); eauto|intros (_ & ->); assumption]. Qed.
Lemma zstring_bound i j l : ZString buf i j l -> j <= length buf.
Proof. intros [H _]. eapply Bytes_bound; eassumption. Qed.
Context (Hdeflate : has_deflate M (dlevel - 7)) (H7 : 7 <= dlevel).
Lemma call_deflate : call dlevel = deflate (dlevel - 7).
Proof. unfold deflate, l_main. f_equal. clear - H7. lia. Qed.
Lemma single_only s i j v : i <= length buf -> sem s (gzip_single dlevel base) i j v ->
  exists n, member_length v n /\ ((N.of_nat n < four_gib)%N -> exists m, Member false strict buf i j m /\ member_is m v).
Proof.
  intros Hi. unfold gzip_single. rewrite record_sem by reflexivity. unfold all_kept, named. cbn [map fst snd].
  intros (rs & H & ->). field H k1 v1 rs1 Q1. field H k2 v2 rs2 Q2. field H k3 v3 rs3 Q3. field H k4 v4 rs4 Q4. field H k5 v5 rs5 Q5. field H k6 v6 rs6 Q6. field H k7 v7 rs7 Q7. apply fields_nil in H as [-> ->].
  apply (header_sem buf Hbuf dlevel base Hitems) in Q1 as (cm & flg & mtime & xfl & os & HB & Hm & ->). pose proof (Bytes_bound _ _ _ _ HB) as L1.
  assert (E1 : k1 = i + 10) by (destruct HB as [_ ->]; rewrite !app_length; cbn [length]; lia).
  apply (opt_only (Extra false buf) extra_is _ _ (flag 2 flg)) in Q2 as (o2 & O2 & R2); [|eapply flag_eval; [look; reflexivity|reflexivity]|intros v; apply fextra_only].
  assert (L2 : k2 <= length buf) by (eapply opt_bound; [exact L1| |exact O2]; intros a (len & k & _ & _ & Hk & _); assumption).
  apply (opt_only (ZString buf) (fun l v => v = bytes_val l) _ _ (flag 3 flg)) in Q3 as (o3 & O3 & R3); [|eapply flag_eval; [look; reflexivity|reflexivity]|intros v; apply fname_sem with (dlevel := dlevel); assumption].
  assert (L3 : k3 <= length buf) by (eapply opt_bound; [exact L2| |exact O3]; apply zstring_bound).
  apply (opt_only (ZString buf) (fun l v => v = comment_val l) _ _ (flag 4 flg)) in Q4 as (o4 & O4 & R4); [|eapply flag_eval; [look; reflexivity|reflexivity]|intros v; apply fcomment_sem with (dlevel := dlevel); assumption].
  assert (L4 : k4 <= length buf) by (eapply opt_bound; [exact L3| |exact O4]; apply zstring_bound).
  apply (opt_only (HeaderCrc buf) (fun l v => v = hcrc_val l) _ _ (flag 1 flg)) in Q5 as (o5 & O5 & R5); [|eapply flag_eval; [look; reflexivity|reflexivity]|intros v; apply fhcrc_sem with (dlevel := dlevel); assumption].
  assert (L5 : k5 <= length buf) by (eapply opt_bound; [exact L4| |exact O5]; intros a [Ha _]; eapply Bytes_bound; eassumption).
  apply bits_inv in Q6 as (k & Q6 & Ek). rewrite call_deflate in Q6. destruct (C68_only_streams M _ Hdeflate strict um fl _ _ _ _ _ (bits_are_bits _) (Nat.le_0_l _) Q6) as (n & Hn & HI).
  apply (footer_sem buf Hbuf dlevel base Hitems) in Q7 as (crc & isize & HB7 & Hc & Hz & ->).
  exists n. split; [eexists; exists v6; split; [reflexivity|]; split; [reflexivity|exact Hn]|]. intros Hlt. destruct (HI Hlt) as (data & Hd & HI').
  exists (GzMember o2 o3 o4 data). split.
  - subst k1. eapply MemberAt with (i4 := k5) (i5 := k6); try eassumption; try discriminate. exists k. split; [assumption|]. split; [rewrite <- bits_stream; exact HI'|assumption].
  - do 7 eexists. split; [reflexivity|]. auto.
Qed.
Lemma single_all conform tables s i j m : (strict = true -> conform = true /\ tables = true) -> (strict = true -> (8 * N.of_nat (length buf) < w64)%N) ->
  Member conform tables buf i j m -> (N.of_nat (length (m_data m)) < four_gib)%N -> exists v, sem s (gzip_single dlevel base) i j v /\ member_is m v.
Proof.
  intros Hs Hsize Hm Hlt. destruct Hm as [i k1 k2 k3 k4 k5 j cm flg mtime xfl os extra name comment hcrc data crc isize HB _ O2 O3 O4 O5 _ (k & Hk & HI & Ek) HB7 Hc Hz _]. cbn [m_data] in Hlt.
  assert (Hm4 : length mtime = 4) by (destruct HB as [_ HB]; rewrite !app_length in HB; cbn [length] in HB; lia). pose proof (Bytes_bound _ _ _ _ HB) as L1.
  set (s1 := SSingle s (intern "header") (header_val cm flg mtime xfl os)).
  destruct (opt_all (Extra conform buf) extra_is s1 (record_lens (evar "header") ["file-flags"; "fextra"]%string) (flag 2 flg) (call (l_fextra base)) _ _ _ ltac:(eapply flag_eval; [unfold s1; look; reflexivity|reflexivity]) ltac:(intros a; apply fextra_all; tauto) O2) as (v2 & Q2 & R2).
  assert (L2 : k1 <= length buf) by (eapply opt_bound; [exact L1| |exact O2]; intros a (len & k' & _ & _ & Hk' & _); assumption).
  set (s2 := SSingle s1 (intern "fextra") v2).
  destruct (opt_all (ZString buf) (fun l v => v = bytes_val l) s2 (record_lens (evar "header") ["file-flags"; "fname"]%string) (flag 3 flg) (call (l_fname base)) _ _ _ ltac:(eapply flag_eval; [unfold s2, s1; look; reflexivity|reflexivity]) ltac:(intros a Ha; exists (bytes_val a); split; [apply fname_sem with (dlevel := dlevel); eauto|reflexivity]) O3) as (v3 & Q3 & R3).
  assert (L3 : k2 <= length buf) by (eapply opt_bound; [exact L2| |exact O3]; apply zstring_bound).
  set (s3 := SSingle s2 (intern "fname") v3).
  destruct (opt_all (ZString buf) (fun l v => v = comment_val l) s3 (record_lens (evar "header") ["file-flags"; "fcomment"]%string) (flag 4 flg) (call (l_fcomment base)) _ _ _ ltac:(eapply flag_eval; [unfold s3, s2, s1; look; reflexivity|reflexivity]) ltac:(intros a Ha; exists (comment_val a); split; [apply fcomment_sem with (dlevel := dlevel); eauto|reflexivity]) O4) as (v4 & Q4 & R4).
  set (s4 := SSingle s3 (intern "fcomment") v4).
  destruct (opt_all (HeaderCrc buf) (fun l v => v = hcrc_val l) s4 (record_lens (evar "header") ["file-flags"; "fhcrc"]%string) (flag 1 flg) (call (l_fhcrc base)) _ _ _ ltac:(eapply flag_eval; [unfold s4, s3, s2, s1; look; reflexivity|reflexivity]) ltac:(intros a Ha; exists (hcrc_val a); split; [apply fhcrc_sem with (dlevel := dlevel); eauto|reflexivity]) O5) as (v5 & Q5 & R5).
  set (s5 := SSingle s4 (intern "fhcrc") v5).
  rewrite <- bits_stream in HI.
  destruct (C68_all_streams M _ Hdeflate strict um fl _ s5 0 k data conform tables (bits_are_bits _) (fun E => proj2 (Hs E)) HI Hlt) as (v6 & Q6 & Hd).
  eexists. split.
  - unfold gzip_single. rewrite record_sem by reflexivity. unfold all_kept, named. cbn [map fst snd]. eexists. split.
    apply fields_cons. do 3 eexists. split; [apply (header_sem buf Hbuf dlevel base Hitems); do 5 eexists; split; [exact HB|]; split; [exact Hm4|reflexivity]|]. split; [|reflexivity].
    apply fields_cons. do 3 eexists. split; [exact Q2|]. split; [|reflexivity].
    apply fields_cons. do 3 eexists. split; [exact Q3|]. split; [|reflexivity].
    apply fields_cons. do 3 eexists. split; [exact Q4|]. split; [|reflexivity].
    apply fields_cons. do 3 eexists. split; [exact Q5|]. split; [|reflexivity].
    apply fields_cons. exists k5, v6. eexists. split; [rewrite Ek, call_deflate; apply SemBits; [exact Hk|exact Q6|]|].
    { intros E. split; [eapply Forall_impl; [|exact (bits_are_bits (skipn k4 buf))]; intros b [-> | ->]; lia|].
      assert (EL : forall l, length (bits_of l) = 8 * length l) by (clear; unfold bits_of; induction l as [|b l IH]; [reflexivity|]; cbn [flat_map]; rewrite app_length, map_length, seq_length, IH; cbn [length]; lia).
      rewrite EL, skipn_length. specialize (Hsize E). lia. }
    split; [|reflexivity].
    apply fields_cons. do 3 eexists. split; [apply (footer_sem buf Hbuf dlevel base Hitems); do 2 eexists; split; [exact HB7|]; split; [exact Hc|]; split; [exact Hz|reflexivity]|]. split; [|reflexivity].
    apply fields_nil. auto. reflexivity.
  - do 7 eexists. split; [reflexivity|]. auto.
Qed.

(** ** Files *)
Lemma main_only s i j v : i <= length buf -> sem s (gzip base) i j v ->
  exists ws, v = VSeq (Strict ws) /\ ((forall w n, In w ws -> member_length w n -> (N.of_nat n < four_gib)%N) ->
    exists ms, Members false strict buf i j ms /\ Forall2 member_is ms ws).
Proof.
  intros Hi. unfold gzip. rewrite (sem_call buf s _ (gzip_main dlevel base)); [|apply (Hitems 8); reflexivity|reflexivity..]. unfold gzip_main, it_format. intros H. inversion H; subst. clear H.
  match goal with A : Chain _ _ _ _ _ |- _ => rename A into HC end. exists vs. split; [reflexivity|]. revert i Hi vs HC. induction n as [|n IH]; intros i Hi vs HC Hall.
  - apply chain_cons in HC as (k & v & ws & H1 & H2 & ->). inversion H2; subst. apply single_only in H1 as (n & Hn & H1); [|assumption].
    destruct (H1 (Hall _ _ (or_introl eq_refl) Hn)) as (m & Hm & Hv). exists [m]. split; [now constructor|]. repeat constructor. assumption.
  - change (repeat (gzip_single dlevel base) (S (S n))) with (gzip_single dlevel base :: repeat (gzip_single dlevel base) (S n)) in HC.
    apply chain_cons in HC as (k & v & ws & H1 & H2 & ->). apply single_only in H1 as (n0 & Hn & H1); [|assumption].
    destruct (H1 (Hall _ _ (or_introl eq_refl) Hn)) as (m & Hm & Hv).
    assert (Hk : k <= length buf) by (destruct Hm; eapply Bytes_bound; eassumption).
    destruct (IH k Hk ws H2) as (ms & Hms & HF); [intros w n1 Hin; apply Hall; now right|]. exists (m :: ms). split; [econstructor; eassumption|now constructor].
Qed.
Lemma main_all conform tables s i j ms : (strict = true -> conform = true /\ tables = true) -> (strict = true -> (8 * N.of_nat (length buf) < w64)%N) ->
  Members conform tables buf i j ms -> Forall (fun m => (N.of_nat (length (m_data m)) < four_gib)%N) ms ->
  exists ws, sem s (gzip base) i j (VSeq (Strict ws)) /\ Forall2 member_is ms ws.
Proof.
  intros Hs Hsize H Hall.
  enough (G : exists n ws, Chain (fun f i j v => SemN M strict um fl (SMulti SEmpty []) f buf i j v) (repeat (gzip_single dlevel base) (S n)) i j ws /\ Forall2 member_is ms ws).
  { destruct G as (n & ws & G & HF). exists ws. split; [|assumption]. unfold gzip. rewrite (sem_call buf s _ (gzip_main dlevel base)); [|apply (Hitems 8); reflexivity|reflexivity..]. unfold gzip_main, it_format. econstructor. exact G. }
  induction H as [i j m Hm|i j k m ms Hm H IH]; inversion Hall; subst.
  - destruct (single_all conform tables (SMulti SEmpty []) i j m Hs Hsize Hm) as (v & Hv & Hi); [assumption|]. exists 0, [v]. split; [|repeat constructor; assumption].
    cbn [repeat]. apply chain_cons. exists j, v, []. split; [assumption|]. split; [constructor|reflexivity].
  - destruct (single_all conform tables (SMulti SEmpty []) i j m Hs Hsize Hm) as (v & Hv & Hi); [assumption|]. destruct IH as (n & ws & HC & HF); [assumption|]. exists (S n), (v :: ws). split; [|constructor; assumption].
    change (repeat (gzip_single dlevel base) (S (S n))) with (gzip_single dlevel base :: repeat (gzip_single dlevel base) (S n)). apply chain_cons. exists j, v, ws. auto.
Qed.

(** ** zlib *)
Definition method_val (b : N) : value := kept [("compression-info", VU B8 ((b / 16) mod 16)); ("compression-method", VU B8 (b mod 16))]%string.
Definition zlib_flags_val (b : N) : value := kept [("flevel", VU B8 ((b / 64) mod 4)); ("fdict", VBool (flag 5 b)); ("fcheck", VU B8 (b mod 32))]%string.
Lemma method_sem s i j v : sem s method_and_flags i j v <-> exists b, Bytes buf i j [b] /\ (b mod 16 = 8)%N /\ v = method_val b.
Proof.
  unfold method_and_flags, where_lambda. destruct (bit_fields_u8 method_bits) as [f|] eqn:E; [|vm_compute in E; discriminate E]. cbn [laid_out].
  assert (HF : forall v, SemN M strict um fl s f buf i j v <-> exists b, Bytes buf i j [b] /\ v = method_val b).
  { intros u. rewrite (C50_u8_partial M strict um fl method_bits f buf s i j u E); [|reflexivity|reflexivity|repeat (constructor; [cbn; intuition discriminate|]); constructor|assumption].
    assert (EM : forall b, record_value (map (fun xv => (intern (fst xv), snd xv)) (bit_values B8 b 0 method_bits)) = method_val b).
    { intros b. unfold method_val, kept, method_bits, bit_values, bits_from. cbn [map fst snd record_value].
      change (nbits B8 - 0 - 4)%N with 4%N. change (nbits B8 - (0 + 4) - 4)%N with 0%N. change (2 ^ 4)%N with 16%N. change (2 ^ 0)%N with 1%N. now rewrite N.div_1_r. }
    split; intros (b & H); exists b; rewrite Bytes_one in *; rewrite EM in *; tauto. }
  set (e := ELambda (intern "method-info") (expr_eq (proj (evar "method-info") "compression-method") (EU B8 8))).
  assert (HL : forall b, lambda_bool e s (method_val b) = Val (N.eqb (b mod 16) 8)).
  { intros b. unfold lambda_bool, eval_lambda, e, eval_value. unfold expr_eq. cbn [eval].
    rewrite (eval_proj (evar "method-info") "compression-method" (SSingle s (intern "method-info") (method_val b)) (method_val b) _ (VU B8 (b mod 16)) (eval_var _ _ _ (get_same _ _ _)) eq_refl eq_refl). reflexivity. }
  split.
  - intros H. inversion H; subst. match goal with A : SemN _ _ _ _ _ f _ _ _ _ |- _ => apply HF in A as (b' & HB & ->) end.
    match goal with A : lambda_bool _ _ _ = _ |- _ => rewrite HL in A; injection A as <- end. exists b'. split; [assumption|]. split; [|reflexivity]. apply N.eqb_eq. auto.
  - intros (b & HB & Hb & ->). econstructor; [apply HF; eauto|apply HL|]. intros _. now apply N.eqb_eq.
Qed.
Lemma zlib_flags_sem s i j v : sem s (laid_out (bit_fields_u8 zlib_flag_bits)) i j v <-> exists b, Bytes buf i j [b] /\ v = zlib_flags_val b.
Proof.
  destruct (bit_fields_u8 zlib_flag_bits) as [f|] eqn:E; [|vm_compute in E; discriminate E]. cbn [laid_out]. unfold DeflateProofs.sem.
  rewrite (C50_u8_partial M strict um fl zlib_flag_bits f buf s i j v E); [|reflexivity|reflexivity|repeat (constructor; [cbn; intuition discriminate|]); constructor|assumption].
  assert (EM : forall b, record_value (map (fun xv => (intern (fst xv), snd xv)) (bit_values B8 b 0 zlib_flag_bits)) = zlib_flags_val b).
  { intros b. unfold zlib_flags_val, kept, zlib_flag_bits, bit_values, bits_from, flag. cbn [map fst snd record_value].
    change (nbits B8 - 0 - 2)%N with 6%N. change (nbits B8 - (0 + 2) - 1)%N with 5%N. change (nbits B8 - (0 + 2 + 1) - 5)%N with 0%N.
    change (2 ^ 6)%N with 64%N. change (2 ^ 2)%N with 4%N. change (2 ^ 1)%N with 2%N. change (2 ^ 0)%N with 1%N. change (2 ^ 5)%N with 32%N. now rewrite N.div_1_r. }
  split; intros (b & H); exists b; rewrite Bytes_one in *; rewrite EM in *; tauto.
Qed.
(** The value of a zlib stream *)
Definition zlib_is (data : list N) (v : value) : Prop :=
  exists method flags dict d adler,
    v = kept [("compression-method-flags", method); ("flags", flags); ("dict-id", dict); ("data", d); ("adler32", adler)]%string /\ holds_data d data.
Context (zlevel : nat) (Hzlib : get_item M zlevel = Some (zlib_main dlevel)).
Lemma dict_eval {D} (s : scope D) b : get_value (intern "flags") s = Some (zlib_flags_val b) -> eval_bool (has_dict (evar "flags")) s = Val (flag 5 b).
Proof.
  intros H. unfold eval_bool, eval_value, has_dict. rewrite (eval_proj (evar "flags") "fdict" s _ _ (VBool (flag 5 b)) (eval_var _ _ _ H) eq_refl eq_refl). reflexivity.
Qed.
Lemma four_sem be s i j v : sem s (uint be B32) i j v <-> exists l, (Bytes buf i j l /\ length l = 4) /\ v = int_val be B32 l.
Proof. rewrite int_sem by assumption. split; intros (l & H); exists l; change (N.to_nat (nbits B32 / 8)) with 4 in *; tauto. Qed.
Lemma zlib_only s i j v : sem s (call zlevel) i j v ->
  exists n, member_length v n /\ ((N.of_nat n < four_gib)%N -> exists data, Zlib false strict buf i j data /\ zlib_is data v).
Proof.
  rewrite (sem_call buf s _ _ i j v Hzlib eq_refl eq_refl). unfold zlib_main, it_format. rewrite record_sem by reflexivity. unfold all_kept, named. cbn [map fst snd].
  intros (rs & H & ->). field H k1 v1 rs1 Q1. field H k2 v2 rs2 Q2. field H k3 v3 rs3 Q3. field H k4 v4 rs4 Q4. field H k5 v5 rs5 Q5. apply fields_nil in H as [-> ->].
  apply method_sem in Q1 as (cmf & Q1 & Hcm & ->). apply zlib_flags_sem in Q2 as (flg & Q2 & ->).
  apply (opt_only (fun i j l => Bytes buf i j l /\ length l = 4) (fun l v => v = int_val true B32 l) _ _ (flag 5 flg)) in Q3 as (o3 & O3 & R3); [|apply dict_eval; look; reflexivity|intros v; apply four_sem].
  assert (L3 : k3 <= length buf) by (eapply opt_bound; [eapply Bytes_bound; exact Q2| |exact O3]; intros a [Ha _]; eapply Bytes_bound; eassumption).
  apply bits_inv in Q4 as (k & Q4 & Ek). rewrite call_deflate in Q4. destruct (C68_only_streams M _ Hdeflate strict um fl _ _ _ _ _ (bits_are_bits _) (Nat.le_0_l _) Q4) as (n & Hn & HI).
  apply four_sem in Q5 as (adler & (Q5 & Ha) & ->).
  exists n. split; [eexists; exists v4; split; [reflexivity|]; split; [reflexivity|exact Hn]|]. intros Hlt. destruct (HI Hlt) as (data & Hd & HI').
  exists data. split; [|do 5 eexists; split; [reflexivity|exact Hd]].
  assert (HB : Bytes buf i k2 ([cmf] ++ [flg])) by (apply Bytes_app; eauto). assert (k2 = i + 2) as -> by (destruct HB as [_ ->]; reflexivity).
  eapply (ZlibAt false strict buf i k3 k4 _ cmf flg o3 data adler HB Hcm); [discriminate|exact O3| |exact Q5|exact Ha|discriminate]. exists k. split; [assumption|]. split; [rewrite <- bits_stream; exact HI'|assumption].
Qed.
Lemma zlib_all conform tables s i j data : (strict = true -> tables = true) -> (strict = true -> (8 * N.of_nat (length buf) < w64)%N) ->
  Zlib conform tables buf i j data -> (N.of_nat (length data) < four_gib)%N -> exists v, sem s (call zlevel) i j v /\ zlib_is data v.
Proof.
  intros Hs Hsize Hz Hlt. destruct Hz as [i k3 k4 j cmf flg dictid data adler HB Hcm _ O3 (k & Hk & HI & Ek) HB5 Ha _].
  change [cmf; flg] with ([cmf] ++ [flg]) in HB. apply Bytes_app in HB as (k1 & H1 & H2).
  set (s2 := SSingle (SSingle (SMulti (@SEmpty format) []) (intern "compression-method-flags") (method_val cmf)) (intern "flags") (zlib_flags_val flg)).
  destruct (opt_all (fun i j l => Bytes buf i j l /\ length l = 4) (fun l v => v = int_val true B32 l) s2 (has_dict (evar "flags")) (flag 5 flg) (uint true B32) _ _ _
    ltac:(apply dict_eval; unfold s2; look; reflexivity) ltac:(intros a Hx; exists (int_val true B32 a); split; [apply four_sem; exists a; split; [exact Hx|reflexivity]|reflexivity]) O3) as (v3 & Q3 & R3).
  set (s3 := SSingle s2 (intern "dict-id") v3). rewrite <- bits_stream in HI.
  destruct (C68_all_streams M _ Hdeflate strict um fl _ s3 0 k data conform tables (bits_are_bits _) Hs HI Hlt) as (v4 & Q4 & Hd).
  eexists. split.
  - rewrite (sem_call buf s _ _ i j _ Hzlib eq_refl eq_refl). unfold zlib_main, it_format. rewrite record_sem by reflexivity. unfold all_kept, named. cbn [map fst snd]. eexists. split.
    apply fields_cons. do 3 eexists. split; [apply method_sem; eexists; split; [exact H1|]; split; [exact Hcm|reflexivity]|]. split; [|reflexivity].
    apply fields_cons. do 3 eexists. split; [apply zlib_flags_sem; eexists; split; [exact H2|reflexivity]|]. split; [|reflexivity].
    apply fields_cons. do 3 eexists. split; [exact Q3|]. split; [|reflexivity].
    apply fields_cons. exists k4, v4. eexists. split; [rewrite Ek, call_deflate; apply SemBits; [exact Hk|exact Q4|]|].
    { intros E. split; [eapply Forall_impl; [|exact (bits_are_bits (skipn k3 buf))]; intros b [-> | ->]; clear; lia|].
      assert (EL : forall l, length (bits_of l) = 8 * length l) by (clear; unfold bits_of; induction l as [|b l IH]; [reflexivity|]; cbn [flat_map]; rewrite app_length, map_length, seq_length, IH; cbn [length]; lia).
      rewrite EL, skipn_length. specialize (Hsize E). clear - Hsize. lia. }
    split; [|reflexivity].
    apply fields_cons. do 3 eexists. split; [apply four_sem; eexists; split; [split; [exact HB5|exact Ha]|reflexivity]|]. split; [|reflexivity].
    apply fields_nil. auto. reflexivity.
  - do 5 eexists. split; [reflexivity|]. assumption.
Qed.
End Sems.
