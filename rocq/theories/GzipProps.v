(** Property C69: gzip files (RFC 1952) and zlib streams (RFC 1950). *)
From Coq Require Import String.
From Verif Require Import Base DataModel NumericModel ValueModel FormatModel MatchTreeModel DecoderModel
  FormatSpec ExactSpec CompileProofs DecoderProps FormatProps ExactProps NegativeProps RecordModel RecordSpec TextModel DeflateModel DeflateSpec DeflateProofs DeflateProps GzipModel GzipSpec GzipProofs.
Open Scope nat_scope.

(** A module that has the nine items of the format, from level [base], and those of
    deflate from [dbase]. *)
Definition has_gzip (M : fmodule) (dbase base : nat) : Prop :=
  has_deflate M dbase /\ forall k it, nth_error (gzip_items (dbase + 7) base) k = Some it -> get_item M (base + k) = Some it.
Definition has_zlib (M : fmodule) (dbase level : nat) : Prop :=
  has_deflate M dbase /\ get_item M level = Some (zlib_main (dbase + 7)).
(** The data of a member, in its value, have length [n] ([member_length]); the data
    of deflate streams are faithful below 4 GiB (see C68). *)
Definition short (w : value) : Prop := forall n, member_length w n -> (N.of_nat n < four_gib)%N.
Definition short_data (data : list N) : Prop := (N.of_nat (length data) < four_gib)%N.

Section Props.
Context (M : fmodule) (dbase level : nat).
Section Means.
Context (strict : bool) (um fl : scope format -> format -> list N -> nat -> Prop).
Notation means buf := (fun s f i j v => SemN M strict um fl s f buf i j v).
Lemma dbase7 : dbase + 7 - 7 = dbase.
Proof. lia. Qed.

(** Whatever the gzip format describes is a sequence of members, read leniently, and
    its value has the extra fields, names, comments and data of the members. *)
Theorem C69_only_members : forall buf s i j v, has_gzip M dbase level -> Forall (fun b => (b < 256)%N) buf -> i <= length buf ->
  means buf s (gzip level) i j v ->
  exists ws, v = VSeq (Strict ws) /\
    (Forall short ws -> exists ms, Members false strict buf i j ms /\ Forall2 member_is ms ws).
Proof.
  intros buf s i j v [Hd Hg] Hb Hi H. rewrite <- dbase7 in Hd. destruct (main_only M strict um fl buf Hb (dbase + 7) level Hg Hd ltac:(lia) s i j v Hi H) as (ws & -> & G).
  exists ws. split; [reflexivity|]. intros Hs. apply G. intros w n Hin. rewrite Forall_forall in Hs. apply (Hs w Hin).
Qed.
(** Every sequence of members, conforming or not, is described, with that value; a
    strict semantics asks for conforming ones, in an input of less than 2^61 bytes. *)
Theorem C69_all_members : forall buf s i j ms conform tables, has_gzip M dbase level -> Forall (fun b => (b < 256)%N) buf ->
  (strict = true -> (conform = true /\ tables = true) /\ (N.of_nat (length buf) < 2 ^ 61)%N) ->
  Members conform tables buf i j ms -> Forall (fun m => short_data (m_data m)) ms ->
  exists ws, means buf s (gzip level) i j (VSeq (Strict ws)) /\ Forall2 member_is ms ws.
Proof.
  intros buf s i j ms conform tables [Hd Hg] Hb Hs H Hl. rewrite <- dbase7 in Hd.
  apply (main_all M strict um fl buf Hb (dbase + 7) level Hg Hd ltac:(lia) conform tables s i j ms); [tauto| |exact H|exact Hl].
  intros E. destruct (Hs E) as [_ Hn]. unfold w64. lia.
Qed.
(** The same for zlib streams *)
Theorem C69_only_zlib : forall buf s i j v, has_zlib M dbase level -> Forall (fun b => (b < 256)%N) buf ->
  means buf s (call level) i j v ->
  exists n, member_length v n /\ ((N.of_nat n < four_gib)%N -> exists data, Zlib false strict buf i j data /\ zlib_is data v).
Proof.
  intros buf s i j v [Hd Hz] Hb H. rewrite <- dbase7 in Hd. exact (zlib_only M strict um fl buf Hb (dbase + 7) Hd ltac:(lia) level Hz s i j v H).
Qed.
Theorem C69_all_zlib : forall buf s i j data conform tables, has_zlib M dbase level -> Forall (fun b => (b < 256)%N) buf ->
  (strict = true -> tables = true /\ (N.of_nat (length buf) < 2 ^ 61)%N) ->
  Zlib conform tables buf i j data -> short_data data -> exists v, means buf s (call level) i j v /\ zlib_is data v.
Proof.
  intros buf s i j data conform tables [Hd Hz] Hb Hs H Hl. rewrite <- dbase7 in Hd.
  apply (zlib_all M strict um fl buf Hb (dbase + 7) Hd ltac:(lia) level Hz conform tables s i j data); [tauto| |exact H|exact Hl].
  intros E. destruct (Hs E) as [_ Hn]. unfold w64. lia.
Qed.
End Means.
(** A decoder that returns a value has read members, leniently. *)
Theorem C69_decoded_partial : forall bld eqb, (forall a b, eqb a b = true -> a = b) -> forall fuel P pfuel input v c' es,
  has_gzip M dbase level -> Forall (fun b => (b < 256)%N) input ->
  compile_program bld eqb M fuel (gzip level) = Some (COk P) -> run bld P pfuel (rc_new input) = ROk v c' es ->
  exists ws, v = VSeq (Strict ws) /\
    (Forall short ws -> exists ms, Members false false input 0 (roff c') ms /\ Forall2 member_is ms ws).
Proof.
  intros bld eqb Heqb fuel P pfuel input v c' es Hg Hb HP Hr. pose proof (C25_belongs_partial bld eqb Heqb M _ _ _ _ _ _ _ _ HP Hr) as H.
  exact (C69_only_members _ _ _ _ _ _ _ _ Hg Hb (Nat.le_0_l _) H).
Qed.
End Props.
Print Assumptions C69_only_members.
Print Assumptions C69_all_members.
Print Assumptions C69_only_zlib.
Print Assumptions C69_all_zlib.
Print Assumptions C69_decoded_partial.

(** ** The decoders *)
Definition gzip_module : fmodule := deflate_items 0 ++ gzip_items 7 8.
Definition zlib_module : fmodule := deflate_items 0 ++ [zlib_main 7].
Lemma deflate_first rest : has_deflate (deflate_items 0 ++ rest) 0.
Proof. intros k it H. unfold get_item. rewrite nth_error_app1; [exact H|]. apply nth_error_Some. cbn [Nat.add]. congruence. Qed.
Lemma gzip_has : has_gzip gzip_module 0 8.
Proof. split; [apply deflate_first|]. intros k it H. exact H. Qed.
Lemma zlib_has : has_zlib zlib_module 0 8.
Proof. split; [apply deflate_first|]. reflexivity. Qed.
Lemma gzip_exact : exactb (build_exec 60) gzip_module true 60 12 false (gzip 8) NEmpty = true.
Proof. vm_compute. reflexivity. Qed.
Lemma zlib_exact : exactb (build_exec 60) zlib_module true 60 12 true (call 8) NEmpty = true.
Proof. vm_compute. reflexivity. Qed.
Definition compiles (r : option (cres program)) : bool := match r with Some (COk _) => true | _ => false end.
Lemma compiled r : compiles r = true -> exists P, r = Some (COk P).
Proof. destruct r as [[P| |]|]; try discriminate. eauto. Qed.
Lemma gzip_compiles : exists P, compile_program (build_exec 60) no_eqb gzip_module (N.to_nat 20000) (gzip 8) = Some (COk P).
Proof. apply compiled. vm_compute. reflexivity. Qed.
Lemma zlib_compiles : exists P, compile_program (build_exec 60) no_eqb zlib_module (N.to_nat 20000) (call 8) = Some (COk P).
Proof. apply compiled. vm_compute. reflexivity. Qed.
(** There is a decoder that reads every conforming gzip file to its end, and returns
    its members with their extra fields, names, comments and data. *)
Theorem C69_gunzips : exists P, compile_program (build_exec 60) no_eqb gzip_module (N.to_nat 20000) (gzip 8) = Some (COk P) /\
  forall input ms, Forall (fun b => (b < 256)%N) input -> (N.of_nat (length input) < 2 ^ 61)%N ->
  Members true true input 0 (length input) ms -> Forall (fun m => short_data (m_data m)) ms ->
  exists pfuel ws es, run (build_exec 60) P pfuel (rc_new input) = ROk (VSeq (Strict ws)) (RC input (length input)) es /\ Forall2 member_is ms ws.
Proof.
  destruct gzip_compiles as (P & HP). exists P. split; [exact HP|]. intros input ms Hb Hi HM Hl.
  destruct (C69_all_members gzip_module 0 8 true anything anything input SEmpty _ _ ms true true gzip_has Hb (fun _ => conj (conj eq_refl eq_refl) Hi) HM Hl) as (ws & HS & HF).
  assert (Hu : usable input) by (split; [exact Hb|unfold w64; lia]).
  destruct (C26_decodes_partial (build_exec 60) ltac:(intros m fs n t; apply exec_follows) no_eqb ltac:(discriminate) gzip_module true (fun _ => C26_codes 56) false 60 12 _ _ P input _ _ HP gzip_exact Hu HS (or_intror eq_refl)) as (pfuel & es & Hr).
  exists pfuel, ws, es. auto.
Qed.
(** ... and one that reads every conforming zlib stream, whatever follows it. *)
Theorem C69_zlib_inflates : exists P, compile_program (build_exec 60) no_eqb zlib_module (N.to_nat 20000) (call 8) = Some (COk P) /\
  forall input j data, Forall (fun b => (b < 256)%N) input -> (N.of_nat (length input) < 2 ^ 61)%N ->
  Zlib true true input 0 j data -> short_data data ->
  exists pfuel v es, run (build_exec 60) P pfuel (rc_new input) = ROk v (RC input j) es /\ zlib_is data v.
Proof.
  destruct zlib_compiles as (P & HP). exists P. split; [exact HP|]. intros input j data Hb Hi HM Hl.
  destruct (C69_all_zlib zlib_module 0 8 true anything anything input SEmpty _ _ data true true zlib_has Hb (fun _ => conj eq_refl Hi) HM Hl) as (v & HS & HF).
  assert (Hu : usable input) by (split; [exact Hb|unfold w64; lia]).
  destruct (C26_decodes_partial (build_exec 60) ltac:(intros m fs n t; apply exec_follows) no_eqb ltac:(discriminate) zlib_module true (fun _ => C26_codes 56) true 60 12 _ _ P input _ _ HP zlib_exact Hu HS (or_introl eq_refl)) as (pfuel & es & Hr).
  exists pfuel, v, es. auto.
Qed.
Print Assumptions C69_gunzips.
Print Assumptions C69_zlib_inflates.

(** ** Examples and refutations *)
(** "ab" stored, in a member with all optional parts and in one without *)
Definition stored (rest : list N) : list N := stored_ab ++ rest.
Lemma stored_inflates rest : Inflates true true (stream_bits (stored rest)) 0 56 [97; 98]%N.
Proof.
  rewrite <- bits_stream. assert (E : exists bs, bits_of (stored rest) = bits_of stored_ab ++ bs) by (exists (bits_of rest); apply flat_map_app). destruct E as (more & E). rewrite E. clear E.
  set (bs := bits_of stored_ab ++ more).
  assert (A : forall n i, i + n <= 56 -> Num bs n i (i + n) (num_at (bits_of stored_ab) n i)).
  { intros n i Hn. destruct (num_there (bits_of stored_ab) n i) as (l & Hl & (pre & post & E & Hp) & _ & Hx); [exact Hn|]. exists l. split; [exact Hl|]. split; [|auto].
    exists pre, (post ++ more). split; [|exact Hp]. unfold bs. now rewrite E, <- !app_assoc. }
  clearbody bs. exists (map Literal [97; 98]%N). split; [|repeat constructor].
  apply LastBlock with (i1 := 1) (i2 := 3) (t := 0%N); [apply (A 1 0); lia|apply (A 2 1); lia|].
  apply Stored with (i0 := 8) (i1 := 24) (i2 := 40) (len := 2%N) (nlen := 65533%N); [reflexivity|lia|apply (A 16 8); lia|apply (A 16 24); lia|reflexivity|reflexivity|].
  eapply NumsCons; [apply (A 8 40); lia|]. eapply NumsCons; [apply (A 8 48); lia|]. constructor.
Qed.
Definition member1 : list N :=
  [31; 139; 8; 30; 135; 214; 18; 0; 0; 3; 11; 0; 65; 80; 3; 0; 120; 121; 122; 81; 49; 0; 0; 97; 98; 46; 116; 120; 116; 0; 104; 105; 0; 79; 4]%N ++
  stored_ab ++ [109; 72; 131; 158; 2; 0; 0; 0]%N.
Definition member2 : list N := [31; 139; 8; 0; 0; 0; 0; 0; 0; 255]%N ++ stored_ab ++ [109; 72; 131; 158; 2; 0; 0; 0]%N.
Definition gzip_file : list N := member1 ++ member2.
Definition bytes_here (buf : list N) (i : nat) (l : list N) : bool := if list_eq_dec N.eq_dec (firstn (length l) (skipn i buf)) l then (i + length l <=? length buf) else false.
Lemma here buf i j l : bytes_here buf i l = true -> j = i + length l -> Bytes buf i j l.
Proof.
  unfold bytes_here. intros H ->. destruct (list_eq_dec N.eq_dec (firstn (length l) (skipn i buf)) l) as [E|]; [|discriminate]. apply Nat.leb_le in H. split; [|reflexivity]. rewrite <- E at 1.
  exists (firstn i buf), (skipn (length l) (skipn i buf)). split; [now rewrite !firstn_skipn|rewrite firstn_length; lia].
Qed.
Lemma same_bytes buf i j l l' : Bytes buf i j l -> Bytes buf i j l' -> l = l'.
Proof.
  intros ((pre & post & E & Hp) & ->) ((pre' & post' & E' & Hp') & El). rewrite E in E'.
  assert (pre = pre') as -> by (eapply app_same; [|exact E']; congruence). apply app_inv_head in E'. eapply app_same; [|exact E']. lia.
Qed.
Example C69_gzip_nonvacuous : Members true true gzip_file 0 (length gzip_file)
  [GzMember (Some [(65, 80, [120; 121; 122]); (81, 49, [])]) (Some [97; 98; 46; 116; 120; 116]) (Some [104; 105]) [97; 98];
   GzMember None None None [97; 98]]%N.
Proof.
  change (length gzip_file) with 75. apply MembersMore with (j := 50); [|apply MembersOne].
  - apply MemberAt with (i1 := 23) (i2 := 30) (i3 := 33) (i4 := 35) (i5 := 42) (cm := 8%N) (flg := 30%N) (mtime := [135; 214; 18; 0]%N) (xfl := 0%N) (os := 3%N)
      (hcrc := Some [79; 4]%N) (crc := [109; 72; 131; 158]%N) (isize := [2; 0; 0; 0]%N).
    + apply here; reflexivity.
    + intros _. split; reflexivity.
    + change (flag 2 30) with true. eexists. split; [reflexivity|]. exists [11; 0]%N, 23. split; [apply here; reflexivity|]. split; [reflexivity|]. split; [vm_compute; repeat constructor|]. split; [|reflexivity].
      eapply SubfieldsCons with (j := 19) (len := [3; 0]%N); [apply here; reflexivity|reflexivity|reflexivity|lia|].
      eapply SubfieldsCons with (j := 23) (len := [0; 0]%N); [apply here; reflexivity|reflexivity|reflexivity|lia|]. constructor.
    + eexists. split; [reflexivity|]. split; [apply here; reflexivity|]. repeat (constructor; [discriminate|]). constructor.
    + eexists. split; [reflexivity|]. split; [apply here; reflexivity|]. repeat (constructor; [discriminate|]). constructor.
    + eexists. split; [reflexivity|]. split; [apply here; reflexivity|reflexivity].
    + intros _ c h [= <-] Hh. assert (h = firstn 33 member1) as ->; [|vm_compute; reflexivity].
      eapply same_bytes; [exact Hh|]. apply here; reflexivity.
    + exists 56. split; [vm_compute; repeat constructor|]. split; [apply (stored_inflates (skipn 42 gzip_file))|reflexivity].
    + apply here; reflexivity.
    + reflexivity.
    + reflexivity.
    + intros _. split; vm_compute; reflexivity.
  - apply MemberAt with (i1 := 60) (i2 := 60) (i3 := 60) (i4 := 60) (i5 := 67) (cm := 8%N) (flg := 0%N) (mtime := [0; 0; 0; 0]%N) (xfl := 0%N) (os := 255%N)
      (hcrc := None) (crc := [109; 72; 131; 158]%N) (isize := [2; 0; 0; 0]%N); try (apply here; reflexivity); try (split; reflexivity); try reflexivity.
    + intros _ c h E. discriminate E.
    + exists 56. split; [vm_compute; repeat constructor|]. split; [apply (stored_inflates (skipn 67 gzip_file))|reflexivity].
Qed.
Definition zlib_ab : list N := [120; 156]%N ++ stored_ab ++ [1; 38; 0; 196]%N.
Example C69_zlib_nonvacuous : Zlib true true zlib_ab 0 13 [97; 98]%N.
Proof.
  apply ZlibAt with (i1 := 2) (i2 := 9) (cmf := 120%N) (flg := 156%N) (dictid := None) (adler := [1; 38; 0; 196]%N); try (apply here; reflexivity); try (split; reflexivity); try reflexivity.
  - intros _. split; [|split; reflexivity]. vm_compute. discriminate.
  - exists 56. split; [vm_compute; repeat constructor|]. split; [apply (stored_inflates (skipn 9 zlib_ab))|reflexivity].
Qed.

(** The formats do not check what they read: files with another method, with reserved
    flags, or with a wrong checksum are decoded like conforming ones. *)
Definition decode_file (m : fmodule) (f : format) (input : list N) : option (dres value) :=
  decode_with (compile_program (build_exec 60) no_eqb m (N.to_nat 20000) f) input.
Definition members_of (o : option (dres value)) : option (nat * nat) :=
  match o with Some (ROk (VSeq (Strict ws)) c _) => Some (length ws, roff c) | _ => None end.
Definition read_to (o : option (dres value)) : option nat := match o with Some (ROk _ c _) => Some (roff c) | _ => None end.
Definition with_header (method flags crc : N) : list N := [31; 139; method; flags; 0; 0; 0; 0; 0; 255]%N ++ stored_ab ++ [crc; 72; 131; 158; 2; 0; 0; 0]%N.
Example C69_decoded_nonvacuous : members_of (decode_file gzip_module (gzip 8) gzip_file) = Some (2, 75).
Proof. vm_compute. reflexivity. Qed.
Lemma ten_bytes input i j m : Members true true input i j m -> exists cm flg, Bytes input i (i + 4) [31; 139; cm; flg]%N /\ cm = 8%N /\ (flg < 32)%N.
Proof.
  assert (G : forall i j m, Member true true input i j m -> exists cm flg, Bytes input i (i + 4) [31; 139; cm; flg]%N /\ cm = 8%N /\ (flg < 32)%N).
  { intros i0 j0 m0 H. destruct H as [i0 i1 i2 i3 i4 i5 j0 cm flg mtime xfl os extra name comment hcrc data crc isize HB Hc]. destruct (Hc eq_refl) as [X1 X2]. exists cm, flg.
    apply Bytes_app in HB as (k & HB & _). split; [|auto]. destruct HB as [HB E]. split; [exact HB|]. cbn in *. lia. }
  intros H. destruct H; eauto.
Qed.
Theorem C69_lenient_refuted :
  (members_of (decode_file gzip_module (gzip 8) (with_header 7 0 109)) = Some (1, 25) /\ forall j ms, ~ Members true true (with_header 7 0 109) 0 j ms) /\
  (members_of (decode_file gzip_module (gzip 8) (with_header 8 224 109)) = Some (1, 25) /\ forall j ms, ~ Members true true (with_header 8 224 109) 0 j ms) /\
  (members_of (decode_file gzip_module (gzip 8) (with_header 8 0 110)) = Some (1, 25) /\ forall j ms, ~ Members true true (with_header 8 0 110) 0 j ms).
Proof.
  refine (conj (conj _ _) (conj (conj _ _) (conj _ _))); try (vm_compute; reflexivity).
  - intros j ms H. apply ten_bytes in H as (cm & flg & HB & -> & _). pose proof (same_bytes _ _ _ _ [31; 139; 7; 0]%N HB ltac:(apply here; reflexivity)) as E. discriminate E.
  - intros j ms H. apply ten_bytes in H as (cm & flg & HB & -> & Hf). pose proof (same_bytes _ _ _ _ [31; 139; 8; 224]%N HB ltac:(apply here; reflexivity)) as E. injection E as E. lia.
  - intros j ms H. set (buf := with_header 8 0 110) in *.
    assert (G : forall j m, Member true true buf 0 j m -> False); [|destruct H; eauto].
    clear. intros j m H. remember 0 as z eqn:Ez. destruct H as [i i1 i2 i3 i4 i5 j cm flg mtime xfl os extra name comment hcrc data crc isize HB Hc O2 O3 O4 O5 _ (k & _ & HI & Ek) HB5 Hl Hl' Hsum]. subst i.
    assert (E : [31; 139; cm; flg]%N ++ mtime ++ [xfl; os] = firstn 10 buf) by (eapply same_bytes; [exact HB|apply here; reflexivity]).
    assert (flg = 0%N) as ->. { change (firstn 10 buf) with ([31; 139; 8; 0]%N ++ [0; 0; 0; 0; 0; 255]%N) in E. cbn [app] in E. congruence. }
    change (Optional false (Extra true buf) (0 + 10) i1 extra) in O2. change (Optional false (ZString buf) i1 i2 name) in O3. change (Optional false (ZString buf) i2 i3 comment) in O4. change (Optional false (HeaderCrc buf) i3 i4 hcrc) in O5.
    destruct O2 as [_ ->], O3 as [_ ->], O4 as [_ ->], O5 as [_ ->].
    change (skipn (0 + 10) buf) with (stored [110; 72; 131; 158; 2; 0; 0; 0]%N) in HI. pose proof (stored_inflates [110; 72; 131; 158; 2; 0; 0; 0]%N) as HI'. rewrite <- bits_stream in HI, HI'.
    destruct (C68_one_reading _ _ _ _ _ _ _ _ (bits_are_bits _) HI' HI) as [<- <-]. apply Bytes_app in HB5 as (k & HB5 & _). subst i5.
    assert (Ek : k = 21) by (destruct HB5 as [_ ->]; rewrite Hl; reflexivity). subst k.
    assert (E' : crc = [110; 72; 131; 158]%N) by (eapply same_bytes; [exact HB5|apply here; reflexivity]). subst crc.
    destruct (Hsum eq_refl) as [X _]. vm_compute in X. discriminate X.
Qed.
(** ... and zlib streams with wrong check bits or a wrong checksum. *)
Definition zlib_with (flg adler : N) : list N := [120; flg]%N ++ stored_ab ++ [1; 38; 0; adler]%N.
Theorem C69_zlib_lenient_refuted :
  (read_to (decode_file zlib_module (call 8) (zlib_with 157 196)) = Some 13 /\ forall j data, ~ Zlib true true (zlib_with 157 196) 0 j data) /\
  (read_to (decode_file zlib_module (call 8) (zlib_with 156 197)) = Some 13 /\ forall j data, ~ Zlib true true (zlib_with 156 197) 0 j data).
Proof.
  refine (conj (conj _ _) (conj _ _)); try (vm_compute; reflexivity).
  - intros j data H. remember 0 as z eqn:Ez. destruct H as [i i1 i2 j cmf flg dictid data adler HB Hcm Hc O3 HI HB5 Hl Hsum]. subst i.
    pose proof (same_bytes _ _ _ _ [120; 157]%N HB ltac:(apply here; reflexivity)) as E. injection E as -> ->. destruct (Hc eq_refl) as (_ & X & _). vm_compute in X. discriminate X.
  - intros j data H. set (buf := zlib_with 156 197) in *. remember 0 as z eqn:Ez. destruct H as [i i1 i2 j cmf flg dictid data adler HB Hcm Hc O3 (k & _ & HI & Ek) HB5 Hl Hsum]. subst i.
    pose proof (same_bytes _ _ _ _ [120; 156]%N HB ltac:(apply here; reflexivity)) as E. injection E as -> ->. destruct O3 as [_ ->].
    change (skipn (0 + 2) buf) with (stored [1; 38; 0; 197]%N) in HI. pose proof (stored_inflates [1; 38; 0; 197]%N) as HI'. rewrite <- bits_stream in HI, HI'.
    destruct (C68_one_reading _ _ _ _ _ _ _ _ (bits_are_bits _) HI' HI) as [<- <-]. subst i2.
    assert (Ek : j = 13) by (destruct HB5 as [_ ->]; rewrite Hl; reflexivity). subst j.
    assert (E' : adler = [1; 38; 0; 197]%N) by (eapply same_bytes; [exact HB5|apply here; reflexivity]). subst adler.
    pose proof (Hsum eq_refl) as X. vm_compute in X. discriminate X.
Qed.
Print Assumptions C69_lenient_refuted.
Print Assumptions C69_zlib_lenient_refuted.
