(** Property C52: UTF-8 text. *)
From Coq Require Import String.
From Verif Require ByteSetModel.
From Verif Require Import Base BoundsModel DataModel NumericModel ValueModel FormatModel MatchTreeModel DecoderModel
  FormatSpec CompileProofs SoundProofs CompleteProofs ExactSpec DecoderProps FormatProps ExactProps RecordModel TextModel TextSpec TextProofs.
Open Scope nat_scope.

(** No text has two encodings and no bytes encode two texts. *)
Lemma encode_cases c : scalar c = true ->
  (encode c = [c] /\ c < 128 \/
   (exists b1 b0, encode c = [b1; b0] /\ 194 <= b1 <= 223 /\ c = b1 mod 2 ^ 5 * 64 + b0 mod 2 ^ 6) \/
   (exists b2 b1 b0, encode c = [b2; b1; b0] /\ 224 <= b2 <= 239 /\ c = b2 mod 2 ^ 4 * 4096 + (b1 mod 2 ^ 6 * 64 + b0 mod 2 ^ 6)) \/
   (exists b3 b2 b1 b0, encode c = [b3; b2; b1; b0] /\ 240 <= b3 <= 244 /\
      c = b3 mod 2 ^ 3 * 262144 + (b2 mod 2 ^ 6 * 4096 + (b1 mod 2 ^ 6 * 64 + b0 mod 2 ^ 6))))%N.
Proof.
  intros Hc. destruct (N.ltb_spec c 128); [left; now rewrite encode1|right]. destruct (N.ltb_spec c 2048).
  { left. destruct (split2 c ltac:(lia)) as (b1 & b0 & E & R & _ & H'). eauto 8. }
  right. destruct (N.ltb_spec c 65536).
  { left. destruct (split3 c ltac:(lia) Hc) as (b2 & b1 & b0 & E & R & _ & _ & _ & _ & H'). eauto 8. }
  right. assert (c < 1114112)%N by (unfold scalar in Hc; lia).
  destruct (split4 c ltac:(lia)) as (b3 & b2 & b1 & b0 & E & R & _ & _ & _ & _ & _ & H'). eauto 10.
Qed.
Lemma encode_prefix c d r r' : scalar c = true -> scalar d = true -> encode c ++ r = encode d ++ r' -> c = d /\ r = r'.
Proof.
  intros Hc Hd.
  destruct (encode_cases c Hc) as [(E & H)|[(b1 & b0 & E & H & Ec)|[(b2 & b1 & b0 & E & H & Ec)|(b3 & b2 & b1 & b0 & E & H & Ec)]]]; rewrite E;
  (destruct (encode_cases d Hd) as [(E' & H')|[(d1 & d0 & E' & H' & Ed)|[(d2 & d1 & d0 & E' & H' & Ed)|(d3 & d2 & d1 & d0 & E' & H' & Ed)]]]); rewrite E';
  cbn [app]; intros Q; injection Q; clear Q; intros; first [split; [congruence|assumption] |
    exfalso; repeat match goal with X : context [N.modulo] |- _ => clear X end; clear Hc Hd; lia].
Qed.
Theorem C52_unique : forall cs ds, forallb scalar cs = true -> forallb scalar ds = true -> encode_all cs = encode_all ds -> cs = ds.
Proof.
  induction cs as [|c cs IH]; intros [|d ds] Hc Hd E; cbn [forallb encode_all flat_map] in *; [reflexivity| | |].
  - exfalso. unfold encode in E. destruct (N.ltb d 128); [|destruct (N.ltb d 2048); [|destruct (N.ltb d 65536)]]; discriminate.
  - exfalso. unfold encode in E. destruct (N.ltb c 128); [|destruct (N.ltb c 2048); [|destruct (N.ltb c 65536)]]; discriminate.
  - apply andb_prop in Hc as (Hc & Hcs). apply andb_prop in Hd as (Hd & Hds).
    destruct (encode_prefix c d _ _ Hc Hd E) as (-> & E'). f_equal. now apply IH.
Qed.
Print Assumptions C52_unique.

Section Props.
Context (strict : bool) (um fl : scope format -> format -> list N -> nat -> Prop).
Notation means buf := (fun s f i j v => SemN text_module strict um fl s f buf i j v).
(** The character format describes exactly the encodings of the Unicode scalar
    values: no overlong forms, no surrogates, nothing above U+10FFFF. *)
Theorem C52_char : forall buf s i j, Forall (fun b => (b < 256)%N) buf ->
  (forall v, means buf s utf8_char i j v -> exists c, scalar c = true /\ at_ buf i (encode c) /\ j = i + length (encode c) /\ is_char v c) /\
  (forall c, scalar c = true -> at_ buf i (encode c) -> j = i + length (encode c) -> exists v, means buf s utf8_char i j v /\ is_char v c).
Proof.
  intros buf s i j Hb. destruct (codes_char strict um fl buf Hb) as (H1 & H2). split; [intros v H; exact (H1 _ _ _ _ H)|].
  intros c Hc Ha ->. now apply H2.
Qed.
(** Text is any number of characters; the string without null characters likewise. *)
Theorem C52_text : forall buf s i j, Forall (fun b => (b < 256)%N) buf -> i <= length buf ->
  (forall v, means buf s utf8_text i j v -> exists cs, forallb scalar cs = true /\ at_ buf i (encode_all cs) /\ j = i + length (encode_all cs) /\ is_text v cs) /\
  (forall cs, forallb scalar cs = true -> at_ buf i (encode_all cs) -> j = i + length (encode_all cs) -> exists v, means buf s utf8_text i j v /\ is_text v cs).
Proof.
  intros buf s i j Hb Hi. destruct (codes_repeat strict um fl buf (call 2) scalar) as (H1 & H2).
  { apply (codes_item _ _ _ _ _ 2 (Item [] [] utf8_char)); [reflexivity..|]. now apply codes_char. }
  unfold utf8_text. split.
  - intros v H. rewrite (call_sem _ _ _ _ 5 (Item [] [] (call 4))) in H by reflexivity. cbn [it_format] in H.
    rewrite (call_sem _ _ _ _ 4 (Item [] [] (FRepeat (call 2)))) in H by reflexivity. cbn [it_format] in H.
    destruct (H1 _ _ _ _ H Hi) as (cs & vs & Hc & Ha & Hj & -> & HF). exists cs. repeat split; auto. exists vs. auto.
  - intros cs Hc Ha ->. destruct (H2 (SMulti SEmpty []) i cs Hc Ha) as (vs & Hs & HF). exists (VSeq (Strict vs)). split; [|exists vs; auto].
    rewrite (call_sem _ _ _ _ 5 (Item [] [] (call 4))) by reflexivity. cbn [it_format].
    rewrite (call_sem _ _ _ _ 4 (Item [] [] (FRepeat (call 2)))) by reflexivity. exact Hs.
Qed.
Theorem C52_zstr : forall buf s i j, Forall (fun b => (b < 256)%N) buf -> i <= length buf ->
  let ok cs := forallb (fun c => scalar c && negb (N.eqb c 0)) cs = true in
  (forall v, means buf s utf8_zstr i j v -> exists cs, ok cs /\ at_ buf i (encode_all cs) /\ j = i + length (encode_all cs) /\ is_text v cs) /\
  (forall cs, ok cs -> at_ buf i (encode_all cs) -> j = i + length (encode_all cs) -> exists v, means buf s utf8_zstr i j v /\ is_text v cs).
Proof.
  intros buf s i j Hb Hi ok. destruct (codes_repeat strict um fl buf (call 1) (fun c => scalar c && negb (N.eqb c 0))) as (H1 & H2).
  { apply (codes_item _ _ _ _ _ 1 (Item [] [] utf8_char_nz)); [reflexivity..|]. now apply codes_char_nz. }
  unfold utf8_zstr. split.
  - intros v H. rewrite (call_sem _ _ _ _ 3 (Item [] [] (FRepeat (call 1)))) in H by reflexivity. cbn [it_format] in H.
    destruct (H1 _ _ _ _ H Hi) as (cs & vs & Hc & Ha & Hj & -> & HF). exists cs. repeat split; auto. exists vs. auto.
  - intros cs Hc Ha ->. destruct (H2 (SMulti SEmpty []) i cs Hc Ha) as (vs & Hs & HF). exists (VSeq (Strict vs)). split; [|exists vs; auto].
    rewrite (call_sem _ _ _ _ 3 (Item [] [] (FRepeat (call 1)))) by reflexivity. exact Hs.
Qed.
End Props.
Print Assumptions C52_char.
Print Assumptions C52_text.
Print Assumptions C52_zstr.

(** ** Decoding *)
Notation text_program := (compile_program (build_exec 50) no_eqb text_module 50 utf8_text).
Lemma text_compiles : exists P, text_program = Some (COk P).
Proof.
  assert (H : (fun r : option (cres program) => match r with Some (COk _) => true | _ => false end) text_program = true) by (vm_compute; reflexivity).
  destruct text_program as [[P| |]|]; try discriminate. eauto.
Qed.
Lemma text_exact : exactb (build_exec 50) text_module false 50 20 false utf8_text NEmpty = true.
Proof. vm_compute. reflexivity. Qed.
(** The format compiles, and the encoding of any text is decoded, whole, to that text. *)
Theorem C52_decodes : forall cs, forallb scalar cs = true -> usable (encode_all cs) ->
  exists P fuel v es, text_program = Some (COk P) /\
    run (build_exec 50) P fuel (rc_new (encode_all cs)) = ROk v (RC (encode_all cs) (length (encode_all cs))) es /\ is_text v cs.
Proof.
  intros cs Hc Hu.
  destruct text_compiles as (P & HP). exists P.  pose proof text_exact as HE.
  destruct (C52_text true anything anything (encode_all cs) SEmpty 0 (length (encode_all cs)) (proj1 Hu) ltac:(lia)) as (_ & H).
  destruct (H cs Hc ltac:(exists [], []; rewrite app_nil_r; auto) eq_refl) as (v & HS & Ht).
  destruct (C26_decodes_partial (build_exec 50) (exec_follows 50) no_eqb ltac:(discriminate) text_module false ltac:(discriminate) _ _ _ _ _ _ _ _ _ HP HE Hu HS (or_intror eq_refl)) as (pfuel & es & Hr).
  exists pfuel, v, es. auto.
Qed.
(** Whatever is decoded is text: the bytes consumed are its encoding. *)
Theorem C52_only : forall P fuel input v c' es, text_program = Some (COk P) -> Forall (fun b => (b < 256)%N) input ->
  run (build_exec 50) P fuel (rc_new input) = ROk v c' es ->
  exists cs, forallb scalar cs = true /\ at_ input 0 (encode_all cs) /\ roff c' = length (encode_all cs) /\ is_text v cs.
Proof.
  intros P fuel input v c' es HP Hb Hr.
  destruct (C52_text false anything anything input SEmpty 0 (roff c') Hb ltac:(lia)) as (H & _). apply H. eapply C25_belongs_partial; [|exact HP|exact Hr].
  discriminate.
Qed.
(** So an input is read to its end exactly if it is well-formed UTF-8. *)
Theorem C52_valid : forall P input, text_program = Some (COk P) -> usable input ->
  ((exists cs, forallb scalar cs = true /\ input = encode_all cs) <->
   (exists fuel v es, run (build_exec 50) P fuel (rc_new input) = ROk v (RC input (length input)) es)).
Proof.
  intros P input HP Hu. split.
  - intros (cs & Hc & ->). destruct (C52_decodes cs Hc Hu) as (P' & fuel & v & es & HP' & Hr & _). assert (P' = P) by congruence. subst P'. eauto.
  - intros (fuel & v & es & Hr). destruct (C52_only _ _ _ _ _ _ HP (proj1 Hu) Hr) as (cs & Hc & (p & q & E & Hp) & Hl & _). cbn [roff] in Hl.
    exists cs. split; [assumption|]. destruct p; [|discriminate]. cbn in E. subst input. rewrite app_length in Hl. destruct q; [now rewrite app_nil_r|cbn in Hl; lia].
Qed.
Print Assumptions C52_decodes.
Print Assumptions C52_only.
Print Assumptions C52_valid.
Definition decoded (f : format) (input : list N) : option (dres value) :=
  match compile_program (build_exec 50) no_eqb text_module 50 f with Some (COk P) => Some (run (build_exec 50) P 100 (rc_new input)) | _ => None end.
(** One character of each length; the last of the one-byte, two-byte and three-byte
    ones; the last before and the first after the surrogates. *)
Example C52_nonvacuous : let cs := [65; 127; 128; 233; 2047; 2048; 8364; 55295; 57344; 65535; 65536; 128512; 1114111]%N in
  forallb scalar cs = true /\ usable (encode_all cs) /\ length (encode_all cs) = 35 /\
  exists v, decoded utf8_text (encode_all cs) = Some (ROk v (RC (encode_all cs) 35) []) /\ is_text v cs.
Proof.
  cbv zeta. split; [reflexivity|]. split; [split; [repeat (constructor; [reflexivity|]); constructor|vm_compute; reflexivity]|]. split; [reflexivity|].
  eexists. split; [vm_compute; reflexivity|]. eexists. split; [reflexivity|]. repeat (constructor; [reflexivity|]). constructor.
Qed.
(** Malformed bytes after some text end it without an error if they do not begin
    any character, and are an error otherwise. *)
Theorem C52_malformed_refuted :
  (exists v, decoded utf8_text [65; 192; 128]%N = Some (ROk v (RC [65; 192; 128]%N 1) [])) /\
  (exists e, decoded utf8_text [65; 195]%N = Some (RErr e)) /\ (exists e, decoded utf8_text [65; 237; 160; 128]%N = Some (RErr e)).
Proof. split; [|split]; eexists; vm_compute; reflexivity. Qed.
Print Assumptions C52_malformed_refuted.
