(** The single operations of a generated parser against those of the interpreter. *)
From Coq Require Import String.
From Verif Require ByteSetModel ByteSetProofs.
From Verif Require Import Base BoundsModel DataModel NumericModel ValueModel FormatModel MatchTreeModel DecoderModel
  ParserModel ParserProofs ProgModel ProgProofs RecordModel CodegenModel CodegenSpec CodegenErase CodegenTree CodegenSim.
Open Scope nat_scope.

Section Ops.
Context (lossy : bool).
Notation sim := (sim lossy).

(** ** Reading, the end, the rest *)

Lemma sim_read md c st bs cr : sees md c st -> criterion_of bs = Val cr ->
  sim erases md
    (match rc_read_byte c with
     | None => RErr (KOverbyte (roff c))
     | Some (b, c') => if ByteSetModel.contains bs b then ROk (VU B8 b) c' [] else RErr (KUnexpected b bs (roff c'))
     end)
    (Bind Read (fun b => if satisfies cr b then Ret (VU B8 b) else Fail)) st.
Proof.
  intros Hs Ec. pose proof (read_sees _ _ _ Hs) as H. destruct (rc_read_byte c) as [[b c']|].
  - destruct H as (Hb & st' & E & Hs' & Hk & Hsb). rewrite <- (criterion_spec _ _ Ec b Hb).
    assert (Ex : exec (Bind Read (fun b => if satisfies cr b then Ret (VU B8 b) else Fail)) st =
      exec (if satisfies cr b then Ret (VU B8 b) else Fail) st') by (cbn [exec]; rewrite E; reflexivity).
    destruct (satisfies cr b).
    + left. four (VU B8 b) st'; auto; [constructor|apply grown_same; auto].
    + intros _. left. rewrite Ex. cbn [exec]. do 2 eexists. split; [reflexivity|]. intros _. apply left_same; auto.
  - destruct H as (e & st' & E & Hk). intros _. left. cbn [exec]. rewrite E. cbn [then_]. do 2 eexists. split; [reflexivity|].
    intros _. apply left_same; auto.
Qed.
Lemma read_none c : rc_read_byte c = None <-> length (rinput c) <= roff c.
Proof.
  unfold rc_read_byte. destruct (nth_error (rinput c) (roff c)) eqn:E.
  - split; [discriminate|]. intros H. apply nth_error_None in H. congruence.
  - split; auto. intros _. apply nth_error_None. auto.
Qed.
Lemma sim_finish md c st : sees md c st ->
  sim erases md (match rc_read_byte c with None => ROk VUnit c [] | Some (b, _) => RErr (KTrailing b (roff c)) end)
    (pmap (fun _ => VUnit) Finish) st.
Proof.
  intros Hs. apply sim_pmap. pose proof (remaining_sees _ _ _ Hs) as H. pose proof (read_none c) as Hn.
  assert (Ex : exec Finish st = if N.eqb (N.of_nat (length (rinput c) - roff c)) 0 then (POk tt, st) else (PErr (EIncomplete (N.of_nat (length (rinput c) - roff c))), st)).
  { cbn [exec]. unfold p_finish. rewrite H. destruct (N.of_nat (length (rinput c) - roff c)); reflexivity. }
  destruct (rc_read_byte c) as [[b c']|] eqn:E.
  - destruct (N.eqb_spec (N.of_nat (length (rinput c) - roff c)) 0) as [Z|Z]; [exfalso; assert (length (rinput c) <= roff c) by lia; apply Hn in H0; discriminate|].
    intros _. left. rewrite Ex. do 2 eexists. split; [reflexivity|]. intros _. apply left_refl.
  - destruct (N.eqb_spec (N.of_nat (length (rinput c) - roff c)) 0) as [Z|Z]; [|exfalso; assert (length (rinput c) <= roff c) by (apply Hn; auto); lia].
    left. four tt st; auto; [constructor; constructor|apply grown_refl].
Qed.
Lemma sim_skip_rem md c st : bits md = false -> sees md c st ->
  sim erases md (ROk VUnit (rc_skip_remainder c) []) (pmap (fun _ => VUnit) SkipRem) st.
Proof.
  intros Hb (Hm & Hsm & Hv & Hp). apply sim_pmap. left. unfold place in Hp. rewrite Hb in Hp.
  destruct Hp as (k & L & Hc & Hl & HkL & Hg & Hr & Hi & Hsk).
  four tt (set_cur st (current_limit st)); [reflexivity|constructor; constructor| |].
  - repeat split; auto; try apply Hsm. unfold place. rewrite Hb. exists L, L. cbn [set_cur pcur pbuf pstart pstk current_limit pmax].
    unfold current_limit in *. cbn [set_cur pcur pbuf pstart pstk pmax]. unfold rc_skip_remainder. cbn [rinput roff].
    repeat split; auto; lia.
  - apply grown_same; auto. intros s0 a E. rewrite Hc in E. discriminate.
Qed.
Lemma sim_pos md c st : bits md = false -> viewed md = false -> sees md c st ->
  sim erases md (ROk (VU B64 (N.of_nat (roff c))) c []) (pmap (VU B64) Offset) st.
Proof.
  intros Hb Hw Hs. assert (Hs' := Hs). destruct Hs' as (Hm & Hsm & Hv & Hp). apply sim_pmap. left. unfold place in Hp. rewrite Hb in Hp.
  destruct Hp as (k & L & Hc & Hl & HkL & Hg & Hr & Hi & Hsk). rewrite (Hv Hw) in Hr. cbn [N.to_nat] in Hr.
  four (N.of_nat k) st; auto; [cbn [exec]; unfold p_offset_u64; rewrite Hc; auto| |apply grown_refl].
  rewrite Hr. constructor.
Qed.

Lemma boff_gt_nat a b : boff_gt (Bytes (N.of_nat a)) (Bytes (N.of_nat b)) = negb (a <=? b).
Proof. rewrite boff_gt_bytes. destruct (Nat.leb_spec a b); simpl; [apply N.ltb_ge|apply N.ltb_lt]; lia. Qed.
(** Moving forward by [n]. *)
Lemma advance_sees md c st n k L :
  bits md = false -> sees md c st -> pcur st = Bytes (N.of_nat k) -> current_limit st = Bytes (N.of_nat L) -> (N.of_nat k + n < w64)%N ->
  try_increment n st = if (N.of_nat k + n <=? N.of_nat L)%N then (POk (pcur st), set_cur st (Bytes (N.of_nat k + n))) else (PErr EOverrun, st).
Proof.
  intros Hb Hs Hc Hl Hw. unfold try_increment. rewrite Hc. cbn [increment_by]. rewrite (proj2 (N.ltb_lt _ _) Hw), Hl, boff_gt_bytes.
  destruct (N.ltb_spec (N.of_nat L) (N.of_nat k + n)); destruct (N.leb_spec (N.of_nat k + n) (N.of_nat L)); auto; lia.
Qed.
Lemma moved_sees md c st n k L :
  bits md = false -> sees md c st -> pcur st = Bytes (N.of_nat k) -> current_limit st = Bytes (N.of_nat L) -> k + n <= L ->
  sees md (RC (rinput c) (roff c + n)) (set_cur st (Bytes (N.of_nat (k + n)))).
Proof.
  intros Hb (Hm & Hsm & Hv & Hp) Hc Hl Hn. unfold place in Hp. rewrite Hb in Hp.
  destruct Hp as (k' & L' & Hc' & Hl' & HkL & Hg & Hr & Hi & Hsk).
  rewrite Hc in Hc'. injection Hc' as Hk. apply Nat2N.inj in Hk. subst k'. rewrite Hl in Hl'. injection Hl' as HL. apply Nat2N.inj in HL. subst L'.
  repeat split; auto; try apply Hsm. unfold place. rewrite Hb. exists (k + n), L. cbn [set_cur pcur pbuf pstart pstk pmax rinput roff].
  unfold current_limit in *. cbn [set_cur pcur pbuf pstart pstk pmax rinput roff]. repeat split; auto; lia.
Qed.
Lemma sim_align md c st n : bits md = false -> viewed md = false -> sees md c st ->
  sim erases md
    (if N.eqb n 0 then RPanic
     else
       let skip := ((n - N.of_nat (roff c) mod n) mod n)%N in
       rlet (rc_split_at c skip) (fun o =>
         match o with
         | Some (_, c') => ROk VUnit c' []
         | None => RErr (KOverrun skip (roff c))
         end))
    (pmap (fun _ => VUnit) (Align n)) st.
Proof.
  intros Hb Hw Hs. assert (Hs' := Hs). destruct Hs' as (Hm & (Hby & Hsz) & Hv & Hp). unfold place in Hp. rewrite Hb in Hp.
  destruct Hp as (k & L & Hc & Hl & HkL & Hg & Hr & Hi & Hsk). rewrite (Hv Hw) in *. cbn [N.to_nat Nat.add] in Hr, Hi.
  destruct (N.eqb_spec n 0) as [Z|Z]; [exact I|]. cbv zeta.
  change ((n - N.of_nat (roff c) mod n) mod n)%N with (interp_skip n (N.of_nat (roff c))). rewrite Hr.
  destruct (interp_skip_spec n (N.of_nat k) Z) as [S1 S2].
  set (d := interp_skip n (N.of_nat k)) in *.
  unfold rc_split_at. rewrite Hr.
  destruct (N.leb_spec w64 (N.of_nat k + d)) as [O|O]; [exact I|].
  (* the parser moves as far *)
  assert (Ed : exec (Align n) st = p_advance_by d st).
  { cbn [exec]. unfold p_skip_align. rewrite (proj2 (N.eqb_neq _ _) Z), Hc.
    assert (El : (if (N.of_nat k mod n =? 0)%N then d = 0%N else ((N.of_nat k / n + 1) * n = N.of_nat k + d)%N)).
    { destruct (N.eqb_spec (N.of_nat k mod n) 0) as [M|M].
      - assert (d <= 0)%N; [|lia]. assert (N.of_nat k + d <= N.of_nat k)%N; [|lia].
        apply (least_multiple n (N.of_nat k) (N.of_nat k + d)); auto; lia.
      - destruct (next_multiple (N.of_nat k) n Z M) as [M1 M2]. apply align_agrees; auto; [lia|].
        intros m Hm1 Hm2. apply (least_multiple n (N.of_nat k)); auto. lia. }
    destruct (N.of_nat k mod n =? 0)%N.
    - cbn [obind]. unfold delta, checked_delta. cbn [is_bit_mode as_bytes fst]. rewrite N.leb_refl, N.sub_diag. rewrite El. reflexivity.
    - rewrite El. rewrite (proj2 (N.ltb_lt _ _) O). cbn [obind]. unfold delta, checked_delta. cbn [is_bit_mode as_bytes fst].
      destruct (N.leb_spec (N.of_nat k) (N.of_nat k + d)); [|lia]. replace (N.of_nat k + d - N.of_nat k)%N with d by lia. reflexivity. }
  apply sim_pmap. unfold p_advance_by in Ed. rewrite (advance_sees md c st d k L Hb Hs Hc Hl O) in Ed. rewrite Hi.
  destruct (N.leb_spec (N.of_nat k + d) (N.of_nat L)) as [B|B]; cbn [rlet].
  - left. four tt (set_cur st (Bytes (N.of_nat (k + N.to_nat d)))).
    + rewrite Ed. do 3 f_equal. lia.
    + constructor; constructor.
    + rewrite <- Hr at 1. apply (moved_sees md c st (N.to_nat d) k L); auto. lia.
    + apply grown_same; auto. intros s0 a E. rewrite Hc in E. discriminate.
  - intros _. left. rewrite Ed. do 2 eexists. split; [reflexivity|]. intros _. apply left_refl.
Qed.

(** ** Slices *)

Lemma sim_slice {A B} (R : A -> B -> Prop) md c st n (par : rctx -> dres A) (p : prog B) :
  bits md = false -> sees md c st ->
  (forall c' st', sees (in_slice md) c' st' -> sim R (in_slice md) (par c') p st') ->
  sim R md
    (rlet (rc_split_at c n) (fun o =>
       match o with
       | Some (slice, c') => rback c' (par slice)
       | None => RErr (KOverrun n (roff c))
       end)) (Slice n p) st.
Proof.
  intros Hb Hs K. assert (Hs' := Hs). destruct Hs' as (Hm & (Hby & Hsz) & Hv & Hp). unfold place in Hp. rewrite Hb in Hp.
  destruct Hp as (k & L & Hc & Hl & HkL & Hg & Hr & Hi & Hsk).
  unfold rc_split_at. destruct (N.leb_spec w64 (N.of_nat (roff c) + n)) as [O|O]; [exact I|].
  assert (Es : p_start_slice n st = if (N.of_nat (roff c) + n <=? N.of_nat (length (rinput c)))%N
    then (POk tt, set_stk st (LSlice (Bytes (N.of_nat k + n)) :: pstk st)) else (PErr EUnstackable, st)).
  { unfold p_start_slice. rewrite Hc. cbn [increment_by]. assert (W : (N.of_nat k + n < w64)%N) by lia. rewrite (proj2 (N.ltb_lt _ _) W), Hl, boff_gt_bytes.
    destruct (N.ltb_spec (N.of_nat L) (N.of_nat k + n)); destruct (N.leb_spec (N.of_nat (roff c) + n) (N.of_nat (length (rinput c)))); auto; lia. }
  destruct (N.leb_spec (N.of_nat (roff c) + n) (N.of_nat (length (rinput c)))) as [B'|B']; cbn [rlet].
  2: { intros _. left. cbn [exec]. rewrite Es. cbn [then_]. do 2 eexists. split; [reflexivity|]. intros _. apply left_refl. }
  set (st1 := set_stk st (LSlice (Bytes (N.of_nat k + n)) :: pstk st)) in *.
  assert (Hn : (N.of_nat k + n)%N = N.of_nat (k + N.to_nat n)) by lia.
  assert (Hs1 : sees (in_slice md) (RC (firstn (roff c + N.to_nat n) (rinput c)) (roff c)) st1).
  { repeat split; auto. unfold place. cbn [in_slice bits sliced]. rewrite Hb. exists k, (k + N.to_nat n).
    unfold st1. cbn [set_stk pcur pbuf pstart pstk pmax rinput roff]. unfold current_limit. cbn [set_stk pstk get_limit].
    rewrite Hn. split; auto. split; auto. split; [lia|]. split; [discriminate|]. split; auto.
    split; [rewrite firstn_length; lia|]. rewrite skipn_firstn_comm, Hsk, firstn_firstn. f_equal. lia. }
  specialize (K _ _ Hs1).
  assert (Ex : exec (Slice n p) st = then_ (exec p st1) (fun a s2 => then_ (p_end_slice s2) (fun _ s3 => (POk a, s3)))).
  { cbn [exec]. rewrite Es. reflexivity. }
  destruct (par (RC (firstn (roff c + N.to_nat n) (rinput c)) (roff c))) as [a c1 es|e| |]; cbn [rback]; auto.
  - destruct K as [(b & st' & E & HR & Hs' & [_ (al & Ha & Hk & _)])|[Lo E]].
    + left. four b (Pst (pbuf st) (pstart st) (Bytes (N.of_nat (k + N.to_nat n))) (pstk st) (pmax st)); auto.
      * rewrite Ex, E. cbn [then_]. unfold p_end_slice. rewrite Hk. unfold st1. cbn [set_stk pstk]. rewrite close_alts by auto.
        assert (G : boff_gt (pcur st') (Bytes (N.of_nat k + n)) = false).
        { destruct Hs' as (_ & _ & _ & Hp'). unfold place in Hp'. cbn [in_slice bits sliced] in Hp'. rewrite Hb in Hp'.
          destruct Hp' as (k1 & L1 & Hc1 & Hl1 & HkL1 & _). rewrite Hc1. unfold current_limit in Hl1. rewrite Hk, get_limit_alts in Hl1 by auto.
          unfold st1 in Hl1. cbn [set_stk pstk get_limit] in Hl1. injection Hl1 as Hl1. rewrite Hl1, boff_gt_nat.
          destruct (Nat.leb_spec k1 L1); auto. lia. }
        rewrite G. cbn [then_]. rewrite (restored p st st1 st' _ _ _ (frame_stk _ _) E). rewrite Hn. reflexivity.
      * change (Pst (pbuf st) (pstart st) (Bytes (N.of_nat (k + N.to_nat n))) (pstk st) (pmax st)) with (set_cur st (Bytes (N.of_nat (k + N.to_nat n)))).
        apply (moved_sees md c st (N.to_nat n) k L); auto. lia.
      * apply grown_same; auto. intros s0 x E0. rewrite Hc in E0. discriminate.
    + right. split; auto. rewrite Ex. destruct (exec p st1) as [[|e|] s']; try discriminate. reflexivity.
  - intros X. destruct (K X) as [(e2 & st' & E & Hq)|[Lo E]].
    + left. exists e2, st'. rewrite Ex, E. split; auto. intros Q. destruct (Hq Q) as (j & Hj & Ej).
      exists (j ++ [LSlice (Bytes (N.of_nat k + n))]). split; [apply Forall_app; split; auto; constructor; auto|]. rewrite Ej, <- app_assoc. reflexivity.
    + right. split; auto. rewrite Ex. destruct (exec p st1) as [[|e1|] s']; try discriminate. reflexivity.
Qed.

(** ** Bits *)

Lemma sees_rest md c st : bits md = false -> sliced md = false -> sees md c st ->
  exists k, pcur st = Bytes (N.of_nat k) /\ k <= length (pbuf st) /\ get_limit (pstk st) = None /\
    current_limit st = Bytes (N.of_nat (length (pbuf st))) /\
    roff c = N.to_nat (pstart st) + k /\ length (rinput c) = N.to_nat (pstart st) + length (pbuf st) /\
    skipn (roff c) (rinput c) = skipn k (pbuf st).
Proof.
  intros Hb Hsl (Hm & (Hby & Hsz) & Hv & Hp). unfold place in Hp. rewrite Hb in Hp.
  destruct Hp as (k & L & Hc & Hl & HkL & Hg & Hr & Hi & Hsk). specialize (Hg Hsl).
  assert (Hl' := Hl). unfold current_limit in Hl'. rewrite Hg, Hm in Hl'. injection Hl' as HL. apply Nat2N.inj in HL. subst L.
  exists k. repeat split; auto; try lia. rewrite Hr, skipn_add, Hsk, firstn_all. reflexivity.
Qed.
Lemma bits_read len a : a <= 8 * len ->
  (8 * len - a) / 8 <= len /\
  (if N.eqb (N.of_nat a mod 8) 0 then N.of_nat a / 8 else N.of_nat a / 8 + 1)%N = N.of_nat (len - (8 * len - a) / 8).
Proof.
  intros H. assert (H1 : (8 * len - a) / 8 <= len) by (apply Nat.div_le_upper_bound; lia). split; auto.
  pose proof (Nat.div_mod_eq (8 * len - a) 8) as D1. pose proof (Nat.mod_upper_bound (8 * len - a) 8) as D2.
  pose proof (N.div_mod (N.of_nat a) 8) as D3. pose proof (N.mod_lt (N.of_nat a) 8) as D4.
  revert D1 D2 D3 D4 H1. generalize ((8 * len - a) / 8) ((8 * len - a) mod 8) (N.of_nat a / 8)%N (N.of_nat a mod 8)%N.
  intros q r q' r' D1 D2 D3 D4 H1. specialize (D2 ltac:(discriminate)). specialize (D3 ltac:(discriminate)). specialize (D4 ltac:(discriminate)).
  destruct (N.eqb_spec r' 0); lia.
Qed.
Lemma sim_bits {A B} (R : A -> B -> Prop) md c st (par : rctx -> dres A) (p : prog B) :
  bits md = false -> sliced md = false -> sees md c st ->
  (forall c' st', sees (in_bits md) c' st' -> sim R (in_bits md) (par c') p st') ->
  sim R md
    (rlet (rc_remaining c) (fun rem =>
        rbind (par (rc_new (bits_of rem))) (fun v cb =>
          rlet (rc_remaining cb) (fun remb =>
            let bytes_remain := length remb / 8 in
            if length rem <? bytes_remain then RPanic
            else
              let bytes_read := N.of_nat (length rem - bytes_remain) in
              rlet (rc_split_at c bytes_read) (fun o =>
                match o with
                | Some (_, c') => ROk v c' []
                | None => RErr (KOverrun bytes_read (roff c))
                end))))) (BitsOf p) st.
Proof.
  intros Hb Hsl Hs K. destruct (sees_rest md c st Hb Hsl Hs) as (k & Hc & Hk & Hg & Hl & Hr & Hi & Hsk).
  assert (Hs' := Hs). destruct Hs' as (Hm & Hsm & Hv & _).
  unfold rc_remaining at 1. destruct (roff c <=? length (rinput c)) eqn:Hle; [|exact I]. cbn [rlet]. rewrite Hsk.
  set (st1 := set_cur st (Bits (N.of_nat k) 0)).
  assert (Hs1 : sees (in_bits md) (rc_new (bits_of (skipn k (pbuf st)))) st1).
  { repeat split; auto; try apply Hsm. unfold place. cbn [in_bits bits]. exists k, 0. unfold st1. cbn [set_cur pcur pbuf pstk rc_new rinput roff]. repeat split; auto; lia. }
  specialize (K _ _ Hs1).
  assert (Ex : exec (BitsOf p) st = then_ (exec p st1) (fun a s2 => then_ (p_escape_bits s2) (fun _ s3 => (POk a, s3)))).
  { cbn [exec]. unfold p_enter_bits. rewrite Hc. reflexivity. }
  destruct (par (rc_new (bits_of (skipn k (pbuf st))))) as [a cb es|e| |] eqn:Ep; cbn [rbind]; auto.
  - (* the interpreter finds its way back *)
    destruct K as [(b & st' & E & HR & Hs' & [Hsb (al & Ha & Hst & Hq)])|[Lo E]].
    + destruct (Hsb (N.of_nat k) 0%N eq_refl) as (a' & Ec').
      destruct Hs' as (Hm' & _ & _ & Hp'). unfold place in Hp'. cbn [in_bits bits] in Hp'.
      destruct Hp' as (s0 & a1 & Hc1 & Hs0 & Hl1 & Hr1 & Hi1 & Ha1). rewrite Ec' in Hc1. injection Hc1 as Hs0' Ha'. apply Nat2N.inj in Hs0'. subst s0 a'.
      pose proof (exec_frame _ _ _ _ _ E) as (F1 & F2 & F3). unfold st1 in F1, F2, F3. cbn [set_cur pbuf pstart pmax] in F1, F2, F3. rewrite F1 in *.
      unfold rc_remaining. rewrite Hr1, Hi1, length_bits, skipn_length. destruct (Nat.leb_spec a1 (8 * (length (pbuf st) - k))); [|lia]. cbn [rlet].
      rewrite skipn_length, length_bits, skipn_length. cbv zeta.
      destruct (bits_read (length (pbuf st) - k) a1 Ha1) as [H1 H2]. set (q := (8 * (length (pbuf st) - k) - a1) / 8) in *.
      destruct (Nat.ltb_spec (length (pbuf st) - k) q); [exact I|].
      unfold rc_split_at. destruct (N.leb_spec w64 (N.of_nat (roff c) + N.of_nat (length (pbuf st) - k - q))); [exact I|].
      destruct (N.leb_spec (N.of_nat (roff c) + N.of_nat (length (pbuf st) - k - q)) (N.of_nat (length (rinput c)))); [|lia]. cbn [rlet].
      left. exists b. exists (Pst (pbuf st) (pstart st) (Bytes (N.of_nat (k + (length (pbuf st) - k - q)))) (al ++ pstk st) (pmax st)).
      split; [|split; [exact HR|split]].
      * rewrite Ex, E. cbn [then_]. unfold p_escape_bits. rewrite Ec'. cbv zeta. cbn [then_]. unfold set_cur. rewrite Hst, F1, F2, F3. unfold st1. cbn [set_cur pstk].
        do 2 f_equal. f_equal. rewrite Nat2N.inj_add, <- H2. destruct (N.of_nat a1 mod 8 =? 0)%N; lia.
      * rewrite Nat2N.id.
        change (sees md (RC (rinput c) (roff c + (length (pbuf st) - k - q))) (set_stk (set_cur st (Bytes (N.of_nat (k + (length (pbuf st) - k - q))))) (al ++ pstk st))).
        apply sees_stk; [|cbn [set_cur pstk]; apply get_limit_alts; auto]. apply (moved_sees md c st _ k (length (pbuf st))); auto. lia.
      * split; [intros s0 x E0; rewrite Hc in E0; discriminate|]. exists al. repeat split; auto.
    + destruct (rlet _ _); cbn [sim CodegenSim.sim]; auto; try intros _; right; split; auto; rewrite Ex; destruct (exec p st1) as [[|e1|] s']; try discriminate; reflexivity.
  - intros X. destruct (K X) as [(e2 & st' & E & Hq)|[Lo E]].
    + left. exists e2, st'. rewrite Ex, E. split; auto.
    + right. split; auto. rewrite Ex. destruct (exec p st1) as [[|e1|] s']; try discriminate. reflexivity.
Qed.

(** ** Offsets *)

Lemma sim_offset_peek {A B} (R : A -> B -> Prop) md c st n (par : rctx -> dres A) (p : prog B) :
  bits md = false -> sliced md = false -> viewed md = false -> sees md c st -> (n < w64)%N ->
  (forall c' st', sees md c' st' -> sim R md (par c') p st') ->
  sim R md
    (match rc_seek_to c n with
     | Some c' => rback c (par c')
     | None => RErr (KSeekPastEnd n (length (rinput c)))
     end) (OffsetPeek n p) st.
Proof.
  intros Hb Hsl Hw Hs Hn K. destruct (sees_rest md c st Hb Hsl Hs) as (k & Hc & Hk & Hg & Hl & Hr & Hi & Hsk).
  assert (Hs' := Hs). destruct Hs' as (Hm & Hsm & Hv & Hp). specialize (Hv Hw). rewrite Hv in Hr, Hi. cbn [N.to_nat Nat.add] in Hr, Hi.
  unfold rc_seek_to. rewrite Hi.
  assert (Hsk0 : rinput c = pbuf st).
  { unfold place in Hp. rewrite Hb in Hp. destruct Hp as (k' & L & _ & Hl' & _ & _ & _ & _ & E). rewrite Hl in Hl'. injection Hl' as HL. apply Nat2N.inj in HL. subst L.
    rewrite Hv in E. cbn [N.to_nat skipn] in E. rewrite firstn_all in E. exact E. }
  assert (Hin : forall l, get_limit (l :: pstk st) = None -> (n <= N.of_nat (length (pbuf st)))%N ->
    sees md (RC (rinput c) (N.to_nat n)) (Pst (pbuf st) (pstart st) (Bytes n) (l :: pstk st) (pmax st))).
  { intros l Hgl Hle. repeat split; auto; try apply Hsm. unfold place. rewrite Hb. exists (N.to_nat n), (length (pbuf st)).
    cbn [pcur pbuf pstart pstk rinput roff]. unfold current_limit. cbn [pcur pbuf pstart pstk pmax]. rewrite Hgl, Hm, Hv, N2Nat.id. cbn [N.to_nat Nat.add skipn].
    rewrite firstn_all. repeat split; auto; lia. }
  assert (Es : p_advance_or_seek n st = if (n <? N.of_nat k)%N
     then (POk false, Pst (pbuf st) (pstart st) (Bytes n) (LSeek false (pcur st) :: pstk st) (pmax st))
     else if (n <=? N.of_nat (length (pbuf st)))%N then (POk true, Pst (pbuf st) (pstart st) (Bytes n) (LPeek (pcur st) :: pstk st) (pmax st))
     else (PErr EOverrun, set_stk st (LPeek (pcur st) :: pstk st))).
  { unfold p_advance_or_seek. rewrite Hv. assert (Z : (n <? 0)%N = false) by (apply N.ltb_ge; lia). rewrite Z, N.sub_0_r, Hc.
    unfold checked_delta. cbn [is_bit_mode as_bytes fst].
    destruct (N.leb_spec (N.of_nat k) n) as [G|G]; destruct (N.ltb_spec n (N.of_nat k)) as [G'|G']; try lia.
    - unfold try_increment. cbn [set_stk pcur]. rewrite Hc. cbn [increment_by]. replace (N.of_nat k + (n - N.of_nat k))%N with n by lia.
      rewrite (proj2 (N.ltb_lt _ _) Hn). unfold current_limit. cbn [set_stk pstk get_limit pmax]. rewrite Hg, Hm, boff_gt_bytes.
      destruct (N.ltb_spec (N.of_nat (length (pbuf st))) n); destruct (N.leb_spec n (N.of_nat (length (pbuf st)))); try lia;
        unfold set_cur, set_stk; cbn [pbuf pstart pstk pmax pcur]; rewrite ?Hm, ?Hv, ?Hc; reflexivity.
    - unfold seek_to_offset. rewrite Hm, boff_gt_bytes. destruct (N.ltb_spec (N.of_nat (length (pbuf st))) n); [lia|].
      rewrite Hc. cbn [is_bit_mode]. rewrite Hg. rewrite ?Hm, ?Hv. reflexivity. }
  destruct (N.leb_spec n (N.of_nat (length (pbuf st)))) as [G|G].
  - destruct (N.ltb_spec n (N.of_nat k)) as [G'|G'].
    + apply (sim_restoring lossy R md _ c p (OffsetPeek n p) st (Pst (pbuf st) (pstart st) (Bytes n) (LSeek false (pcur st) :: pstk st) (pmax st)) (LSeek false (pcur st))); auto.
      * repeat split.
      * cbn [exec]. rewrite Es. reflexivity.
    + apply (sim_restoring lossy R md _ c p (OffsetPeek n p) st (Pst (pbuf st) (pstart st) (Bytes n) (LPeek (pcur st) :: pstk st) (pmax st)) (LPeek (pcur st))); auto.
      * repeat split.
      * cbn [exec]. rewrite Es. reflexivity.
  - destruct (N.ltb_spec n (N.of_nat k)) as [G'|G']; [lia|]. intros _. left. cbn [exec]. rewrite Es. cbn [then_]. do 2 eexists. split; [reflexivity|].
    intros _. exists [LPeek (pcur st)]. split; [constructor; auto|reflexivity].
Qed.

(** ** Views *)

Definition view_result (st : pst) (x : outcome (rctx + derr)) (p : prog view) : Prop :=
  match x with
  | Val (inl c) => exists w, exec p st = (POk w, st) /\ view_related c (view_in w)
  | Val (inr _) => exists e, exec p st = (PErr e, st)
  | Panic => True
  end.
Lemma gen_view_spec (s : scope decoder) (sg : env) st v : scopes_related s sg -> tidy_view v = true ->
  view_result st (eval_view s v) (gen_view sg v).
Proof.
  intros [H1 H2]. induction v as [x|b IH e]; intros Ht; cbn [eval_view gen_view].
  - destruct (get_view x s) as [c|] eqn:E; [|exact I]. destruct (H2 _ _ E) as (cg & -> & Hr). exists (view_out cg). split; [reflexivity|].
    unfold view_in, view_out. cbn [fst snd]. rewrite Nat2N.id. destruct cg; exact Hr.
  - cbn [tidy_view] in Ht. apply andb_prop in Ht as [Ht1 Ht2]. specialize (IH Ht1).
    pose proof (eval_usize_related s sg H1 e Ht2) as He. unfold eval_usize at 1 in He.
    destruct (obind (eval_value e s) unwrap_usize) as [off|]; [|exact I]. destruct (He off eq_refl) as (off' & Eo & <-). cbn [obind].
    destruct (eval_view s b) as [[c|err]|]; cbn [obind]; [| |exact I].
    + destruct IH as (w & Ew & (R1 & R2 & R3 & R4)). unfold rc_split_at. destruct (N.leb_spec w64 (N.of_nat (roff c) + off)) as [O|O]; [exact I|].
      unfold view_in in R1, R2, R4. cbn [roff rinput] in R1, R2, R4.
      assert (Hlen : length (fst w) = length (rinput c) - roff c) by (rewrite <- R2, skipn_length; auto).
      assert (Ex : exec (Bind (gen_view sg b) (fun w => plet (eval_usize e sg) (fun off => match view_offset (fst w) (snd w) off with Some w' => Ret w' | None => Fail end))) st
        = exec (match view_offset (fst w) (snd w) off with Some w' => Ret w' | None => Fail end) st).
      { cbn [exec]. rewrite Ew. cbn [then_]. rewrite Eo. reflexivity. }
      assert (Ev : view_offset (fst w) (snd w) off = if (N.of_nat (length (fst w)) <? off)%N then None else Some (skipn (N.to_nat off) (fst w), (snd w + off)%N)) by reflexivity.
      rewrite Ev in Ex.
      destruct (N.leb_spec (N.of_nat (roff c) + off) (N.of_nat (length (rinput c)))) as [G|G]; cbn [obind view_result].
      * destruct (N.ltb_spec (N.of_nat (length (fst w))) off); [lia|]. exists (skipn (N.to_nat off) (fst w), (snd w + off)%N).
        split; [etransitivity; [exact Ex|reflexivity]|]. unfold view_in, view_related. cbn [fst snd roff rinput].
        rewrite skipn_add, R2. repeat split; try lia; apply (small_skipn _ _ R4).
      * destruct (N.ltb_spec (N.of_nat (length (fst w))) off); [|lia]. exists ERejected. etransitivity; [exact Ex|reflexivity].
    + destruct IH as (e' & Ee). exists e'. cbn [exec]. rewrite Ee. reflexivity.
Qed.
Lemma sim_with_view {A B} (R : A -> B -> Prop) md (s : scope decoder) (sg : env) st v k k' :
  scopes_related s sg -> tidy_view v = true ->
  (forall c w, view_related c (view_in w) -> sim R md (k c) (k' w) st) ->
  sim R md (with_view s v k) (Bind (gen_view sg v) k') st.
Proof.
  intros Hs Ht K. pose proof (gen_view_spec s sg st v Hs Ht) as H. unfold with_view. destruct (eval_view s v) as [[c|err]|]; cbn [rlet]; [| |exact I].
  - destruct H as (w & Ew & Hr). eapply sim_after; eauto.
  - destruct H as (e & Ee). eapply sim_failed; eauto. apply left_refl.
Qed.
Lemma gen_views_spec (s : scope decoder) (sg : env) st vs : scopes_related s sg -> forallb (fun v => tidy_view (snd v)) vs = true ->
  match call_views s vs with
  | Val (inl l) => exists l', exec (gen_views sg vs) st = (POk l', st) /\ Forall2 entry_related l l'
  | Val (inr _) => exists e, exec (gen_views sg vs) st = (PErr e, st)
  | Panic => True
  end.
Proof.
  intros Hs. induction vs as [|[x v] vs IH]; intros Ht.
  - exists []. split; [reflexivity|constructor].
  - cbn [forallb snd] in Ht. apply andb_prop in Ht as [Ht1 Ht2]. specialize (IH Ht2).
    pose proof (gen_view_spec s sg st v Hs Ht1) as H.
    change (call_views s ((x, v) :: vs)) with (obind (eval_view s v) (fun o =>
        match o with
        | inr e => Val (inr e)
        | inl c => omap (fun o => match o with inl l => inl ((x, EntView c) :: l) | inr e => inr e end) (call_views s vs)
        end)). cbn [gen_views exec].
    destruct (eval_view s v) as [[c|err]|]; cbn [obind]; [| |exact I].
    + destruct H as (w & Ew & Hr). rewrite Ew. cbn [then_ exec].
      destruct (call_views s vs) as [[l|e]|]; cbn [omap]; [| |exact I].
      * destruct IH as (l' & El & Hl). rewrite El. cbn [then_ exec]. eexists. split; [reflexivity|]. constructor; auto. split; auto.
      * destruct IH as (e' & El). rewrite El. cbn [then_]. eauto.
    + destruct H as (e & Ee). rewrite Ee. cbn [then_]. eauto.
Qed.
Lemma call_values_related (s : scope decoder) (sg : env) es : scopes_related s sg -> forallb (fun e => tidy (snd e)) es = true ->
  orel (Forall2 entry_related) (call_values s es) (call_values sg es).
Proof.
  intros [H1 _] Ht. unfold call_values. apply orel_mapM_same. intros [x e] Hin. rewrite forallb_forall in Ht. specialize (Ht _ Hin).
  apply orel_map with (R := erases); [apply eval_value_related; auto|]. intros v w Hv. split; auto.
Qed.

Lemma sees_of_view md c w : view_related c (view_in w) -> sees (in_view md) c (parser_of_view (fst w) (snd w)).
Proof.
  intros (R1 & R2 & R3 & R4). unfold view_in in *. cbn [roff rinput] in *. repeat split; auto; try apply R4; [discriminate|].
  unfold place. cbn [in_view bits sliced parser_of_view pcur pbuf pstart pstk]. exists 0, (length (fst w)). unfold current_limit. cbn [parser_of_view pstk pmax get_limit].
  assert (Hlen : length (fst w) = length (rinput c) - roff c) by (rewrite <- R2, skipn_length; auto).
  rewrite <- R1, R2, firstn_all. repeat split; auto; lia.
Qed.
Lemma sees_of_buffer md l : small l -> sees (in_buffer md) (rc_new l) (parser_new l).
Proof.
  intros H. repeat split; auto; try apply H. unfold place. cbn [in_buffer bits sliced parser_new parser_of_view pcur pbuf pstart pstk rc_new rinput roff].
  exists 0, (length l). unfold current_limit. cbn [parser_of_view pstk pmax get_limit]. cbn [N.to_nat Nat.add skipn]. rewrite firstn_all. repeat split; auto; lia.
Qed.
(** Another buffer: the parser itself stays where it is. *)
Lemma sim_on_view {A B} (R : A -> B -> Prop) md md' r c buf start (p : prog B) st :
  exact md' = exact md -> sees md c st -> sim R md' r p (parser_of_view buf start) -> sim R md (rback c r) (OnView buf start p) st.
Proof.
  intros X Hs H.
  assert (Ex : exec (OnView buf start p) st = (fst (exec p (parser_of_view buf start)), st)).
  { cbn [exec]. destruct (exec p (parser_of_view buf start)); reflexivity. }
  destruct r as [a c1 es|e| |]; cbn [rback]; auto.
  - destruct H as [(b & st' & E & HR & Hs' & Hg)|[L E]].
    + left. four b st; auto; [rewrite Ex, E; reflexivity|apply grown_refl].
    + right. split; auto. rewrite Ex. auto.
  - intros Y. rewrite <- X in Y. destruct (H Y) as [(e2 & st' & E & _)|[L E]].
    + left. exists e2, st. rewrite Ex, E. split; auto. intros _. apply left_refl.
    + right. split; auto. rewrite Ex. auto.
Qed.
Lemma sim_let_view {A B} (R : A -> B -> Prop) md c st r (k : view -> prog B) : bits md = false -> sliced md = false -> sees md c st ->
  (forall w, view_related c (view_in w) -> sim R md r (k w) st) -> sim R md r (Bind GetView k) st.
Proof.
  intros Hb Hsl Hs K. destruct (sees_rest md c st Hb Hsl Hs) as (k0 & Hc & Hk & Hg & Hl & Hr & Hi & Hsk).
  assert (Hs' := Hs). destruct Hs' as (Hm & Hsm & Hv & _).
  apply (sim_after lossy R md r GetView k (skipn k0 (pbuf st), (pstart st + N.of_nat k0)%N)).
  - cbn [exec]. unfold p_view. rewrite Hc. cbn [as_bytes]. unfold view_offset.
    destruct (N.ltb_spec (N.of_nat (length (pbuf st))) (N.of_nat k0)); [lia|]. rewrite Nat2N.id. reflexivity.
  - apply K. unfold view_related, view_in. cbn [fst snd roff rinput]. rewrite Hsk. repeat split; try lia; apply (small_skipn _ _ Hsm).
Qed.

(** Reading from a view. *)
Lemma read_n_u8 n : forall c, match DecoderModel.read_n read_u8 n c with
  | ROk vs c' _ => n <= length (rinput c) - roff c /\ vs = map (VU B8) (firstn n (skipn (roff c) (rinput c))) | RErr _ => length (rinput c) < roff c + n | _ => False end.
Proof.
  induction n as [|n IH]; intros c; cbn [DecoderModel.read_n].
  - split; [lia|reflexivity].
  - unfold read_u8 at 1, rc_read_byte. destruct (nth_error (rinput c) (roff c)) as [b|] eqn:E.
    + cbn [rbind]. specialize (IH (RC (rinput c) (roff c + 1))). cbn [rinput roff] in IH.
      destruct (DecoderModel.read_n read_u8 n (RC (rinput c) (roff c + 1))) as [vs c' es|e| |]; cbn [rmap]; auto; try lia.
      destruct IH as [I1 ->]. assert (roff c < length (rinput c)) by (apply nth_error_Some; congruence). split; [lia|].
      rewrite (skipn_add (roff c) 1). destruct (skipn (roff c) (rinput c)) as [|b' l] eqn:F.
      * pose proof (skipn_length (roff c) (rinput c)) as G. rewrite F in G. cbn [length] in G. lia.
      * destruct (skipn_S_nth _ _ _ _ F) as [G _]. assert (b' = b) by congruence. subst. reflexivity.
    + cbn [rbind]. apply nth_error_None in E. lia.
Qed.
Lemma map_erases (w : bitwidth) l : Forall2 erases (map (VU w) l) (map (VU w) l).
Proof. induction l; simpl; constructor; auto. constructor. Qed.
Lemma sim_capture md c st n (cv : rctx) w : exact md = false -> sees md c st -> view_related cv (view_in w) ->
  sim erases md (rback c (rmap (fun vs => VSeq (Strict vs)) (DecoderModel.read_n read_u8 (N.to_nat n) cv)))
    (plet (view_read_len (fst w) n) (fun l => Ret (vlist (map (VU B8) l)))) st.
Proof.
  intros X Hs (R1 & R2 & R3 & R4). unfold view_in in *. cbn [roff rinput] in *. pose proof (read_n_u8 (N.to_nat n) cv) as H.
  assert (Hlen : length (fst w) = length (rinput cv) - roff cv) by (rewrite <- R2, skipn_length; auto).
  destruct (DecoderModel.read_n read_u8 (N.to_nat n) cv) as [vs c' es|e| |]; cbn [rmap rback]; try exact I.
  - destruct H as [H ->]. unfold view_read_len. destruct (N.leb_spec n (N.of_nat (length (fst w)))); [|lia]. cbn [plet]. rewrite R2.
    apply sim_ok; auto. constructor. apply map_erases.
  - intros Y. congruence.
Qed.

Definition size_of (w : bitwidth) : nat := N.to_nat (nbits w / 8).
Lemma read_base_at k c : (bw_eqb (bk_width k) B8 || bk_be k) = true -> roff c <= length (rinput c) ->
  read_base k c = if roff c + size_of (bk_width k) <=? length (rinput c)
    then ROk (VU (bk_width k) (from_be_bytes (firstn (size_of (bk_width k)) (skipn (roff c) (rinput c))))) (RC (rinput c) (roff c + size_of (bk_width k))) []
    else match read_base k c with RErr e => RErr e | _ => RPanic end.
Proof.
  intros Hk Hr. destruct (Nat.leb_spec (roff c + size_of (bk_width k)) (length (rinput c))) as [G|G].
  - unfold read_base. destruct (bk_width k) eqn:Ew; cbn [bw_eqb orb] in Hk.
    + unfold rc_read_byte. change (size_of B8) with 1 in *. destruct (skipn (roff c) (rinput c)) as [|b l] eqn:F.
      { pose proof (skipn_length (roff c) (rinput c)) as L. rewrite F in L. cbn [length] in L. lia. }
      destruct (skipn_S_nth _ _ _ _ F) as [-> _]. cbn [firstn]. unfold from_be_bytes. cbn [fold_left]. rewrite N.mul_0_r, N.add_0_l. reflexivity.
    + rewrite Hk. unfold rc_read_be. change (N.to_nat (nbits B16 / 8)) with (size_of B16). destruct (Nat.leb_spec (roff c + size_of B16) (length (rinput c))); [reflexivity|lia].
    + rewrite Hk. unfold rc_read_be. change (N.to_nat (nbits B32 / 8)) with (size_of B32). destruct (Nat.leb_spec (roff c + size_of B32) (length (rinput c))); [reflexivity|lia].
    + rewrite Hk. unfold rc_read_be. change (N.to_nat (nbits B64 / 8)) with (size_of B64). destruct (Nat.leb_spec (roff c + size_of B64) (length (rinput c))); [reflexivity|lia].
  - unfold read_base. destruct (bk_width k) eqn:Ew; cbn [bw_eqb orb] in Hk.
    + unfold rc_read_byte. change (size_of B8) with 1 in *. rewrite (proj2 (nth_error_None _ _)) by lia. reflexivity.
    + rewrite Hk. unfold rc_read_be. change (N.to_nat (nbits B16 / 8)) with (size_of B16). destruct (Nat.leb_spec (roff c + size_of B16) (length (rinput c))); [lia|reflexivity].
    + rewrite Hk. unfold rc_read_be. change (N.to_nat (nbits B32 / 8)) with (size_of B32). destruct (Nat.leb_spec (roff c + size_of B32) (length (rinput c))); [lia|reflexivity].
    + rewrite Hk. unfold rc_read_be. change (N.to_nat (nbits B64 / 8)) with (size_of B64). destruct (Nat.leb_spec (roff c + size_of B64) (length (rinput c))); [lia|reflexivity].
Qed.
Lemma read_n_base k n : (bw_eqb (bk_width k) B8 || bk_be k) = true -> forall c, roff c <= length (rinput c) ->
  match DecoderModel.read_n (read_base k) n c with
  | ROk vs c' _ => roff c + n * size_of (bk_width k) <= length (rinput c) /\ vs = be_chunks (bk_width k) n (skipn (roff c) (rinput c))
  | RErr _ => length (rinput c) < roff c + n * size_of (bk_width k)
  | _ => True
  end.
Proof.
  intros Hk. induction n as [|n IH]; intros c Hr; cbn [DecoderModel.read_n].
  - split; [lia|reflexivity].
  - rewrite (read_base_at k c Hk Hr). destruct (Nat.leb_spec (roff c + size_of (bk_width k)) (length (rinput c))) as [G|G].
    + cbn [rbind]. specialize (IH (RC (rinput c) (roff c + size_of (bk_width k)))). cbn [rinput roff] in IH. specialize (IH G).
      destruct (DecoderModel.read_n (read_base k) n (RC (rinput c) (roff c + size_of (bk_width k)))) as [vs c' es|e| |]; cbn [rmap]; auto; try lia.
      destruct IH as [I1 ->]. split; [lia|]. cbn [be_chunks]. fold (size_of (bk_width k)). rewrite (skipn_add (roff c)). reflexivity.
    + destruct (read_base k c); cbn [rbind]; auto. lia.
Qed.
Lemma be_chunks_erases w n : forall l, Forall2 erases (be_chunks w n l) (be_chunks w n l).
Proof. induction n; intros l; cbn [be_chunks]; constructor; auto. constructor. Qed.
Lemma read_array_spec k n w : (bw_eqb (bk_width k) B8 || bk_be k) = true ->
  read_array k n w = if N.to_nat n * size_of (bk_width k) <=? length (fst w) then Ret (vlist (be_chunks (bk_width k) (N.to_nat n) (fst w))) else Fail.
Proof.
  intros Hk. unfold read_array, size_of. destruct (bk_width k) eqn:Ew; cbn [bw_eqb orb] in Hk; rewrite ?Hk.
  - change (N.to_nat (nbits B8 / 8)) with 1. destruct (N.leb_spec n (N.of_nat (length (fst w)))); destruct (Nat.leb_spec (N.to_nat n * 1) (length (fst w))); auto; lia.
  - change (nbits B16 / 8)%N with 2%N. change (N.to_nat 2) with 2. destruct (N.leb_spec (n * 2) (N.of_nat (length (fst w)))); destruct (Nat.leb_spec (N.to_nat n * 2) (length (fst w))); auto; lia.
  - change (nbits B32 / 8)%N with 4%N. change (N.to_nat 4) with 4. destruct (N.leb_spec (n * 4) (N.of_nat (length (fst w)))); destruct (Nat.leb_spec (N.to_nat n * 4) (length (fst w))); auto; lia.
  - change (nbits B64 / 8)%N with 8%N. change (N.to_nat 8) with 8. destruct (N.leb_spec (n * 8) (N.of_nat (length (fst w)))); destruct (Nat.leb_spec (N.to_nat n * 8) (length (fst w))); auto; lia.
Qed.
Lemma sim_read_array md c st n k (cv : rctx) w : (bw_eqb (bk_width k) B8 || bk_be k) = true -> sees md c st -> view_related cv (view_in w) ->
  sim erases md (rback c (rmap (fun vs => VSeq (Strict vs)) (DecoderModel.read_n (read_base k) (N.to_nat n) cv))) (read_array k n w) st.
Proof.
  intros Hk Hs (R1 & R2 & R3 & R4). unfold view_in in *. cbn [roff rinput] in *. pose proof (read_n_base k (N.to_nat n) Hk cv R3) as H.
  assert (Hlen : length (fst w) = length (rinput cv) - roff cv) by (rewrite <- R2, skipn_length; auto).
  rewrite read_array_spec by auto.
  destruct (DecoderModel.read_n (read_base k) (N.to_nat n) cv) as [vs c' es|e| |]; cbn [rmap rback]; try exact I.
  - destruct H as [H ->]. destruct (Nat.leb_spec (N.to_nat n * size_of (bk_width k)) (length (fst w))); [|lia]. rewrite R2.
    apply sim_ok; auto. constructor. apply be_chunks_erases.
  - destruct (Nat.leb_spec (N.to_nat n * size_of (bk_width k)) (length (fst w))); [lia|]. apply sim_err.
Qed.
End Ops.
