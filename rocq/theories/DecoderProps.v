(** Properties of the decoding interpreter that hold for every decoder program:
    C21 (cursor), C23 (slices), C24 (position restored), C31 (bit formats). *)
From Verif Require ByteSetModel.
From Verif Require Import Base BoundsModel DataModel NumericModel ValueModel FormatModel MatchTreeModel DecoderModel DecoderProofs.
Open Scope nat_scope.

Section Props.
(** Any construction of lookahead trees, any program, any equality of continuations. *)
Context (bld : fmodule -> list format -> next -> outcome (option mtree)) (P : program).
Context (eqb : next -> next -> bool) (m : fmodule).

(** ** C21 *)

(** A successful decode leaves the cursor in the same input, not before where it
    started and not past the end. *)
Theorem C21_cursor : forall fuel s d c v c' es,
  roff c <= length (rinput c) ->
  parse bld P fuel s d c = ROk v c' es ->
  rinput c' = rinput c /\ roff c <= roff c' /\ roff c' <= length (rinput c).
Proof.
  intros fuel s d c v c' es Hc H. pose proof (parse_adv bld P fuel s d c Hc) as Ha. rewrite H in Ha. exact Ha.
Qed.

(** The same for a whole program. *)
Theorem C21_run : forall fuel input v c' es,
  run bld P fuel (rc_new input) = ROk v c' es -> rinput c' = input /\ roff c' <= length input.
Proof.
  intros fuel input v c' es H. unfold run in H. destruct P as [|d P'] eqn:E; [discriminate|]. rewrite <- E in H.
  assert (Hc : roff (rc_new input) <= length (rinput (rc_new input))) by (cbn; lia).
  destruct (C21_cursor _ _ _ _ _ _ _ Hc H) as (H1 & _ & H2). now split.
Qed.

(** ** C23 *)

(** The decoder of a slice: what it does is determined by its size [k], and by
    what the inner decoder [d'] does on the first [k] remaining bytes. *)
Theorem C23_slice : forall e a n st d st' s c k fuel,
  compile_format bld eqb m (FSlice e a) n st = COk (d, st') ->
  eval_usize e s = Val k ->
  (N.of_nat (roff c) + k < w64)%N ->
  exists d', compile_format bld eqb m a NEmpty st = COk (d', st') /\
  if roff c + N.to_nat k <=? length (rinput c) then
    match parse bld P fuel s d' (RC (firstn (roff c + N.to_nat k) (rinput c)) (roff c)) with
    | ROk v _ es => parse bld P (S fuel) s d c = ROk v (RC (rinput c) (roff c + N.to_nat k)) es
    | o => parse bld P (S fuel) s d c = o
    end
  else parse bld P (S fuel) s d c = RErr (KOverrun k (roff c)).
Proof.
  intros e a n st d st' s c k fuel Hd Hk Hw. cbn [compile_format] in Hd. unfold cmap, cbind in Hd.
  destruct (compile_format bld eqb m a NEmpty st) as [[d' st1]| |] eqn:E; try discriminate.
  injection Hd as <- <-. exists d'. split; [reflexivity|]. cbn [parse]. rewrite Hk. cbn [rlet].
  unfold rc_split_at. destruct (N.leb_spec w64 (N.of_nat (roff c) + k)); [lia|].
  destruct (Nat.leb_spec (roff c + N.to_nat k) (length (rinput c)));
    destruct (N.leb_spec (N.of_nat (roff c) + k) (N.of_nat (length (rinput c)))); try lia; cbn [rlet].
  - destruct (parse bld P fuel s d' _); reflexivity.
  - reflexivity.
Qed.

(** Success means that exactly the size of the slice was consumed. *)
Theorem C23_exact : forall e a n st d st' s c fuel v c' es,
  compile_format bld eqb m (FSlice e a) n st = COk (d, st') ->
  parse bld P fuel s d c = ROk v c' es ->
  exists k, eval_usize e s = Val k /\ rinput c' = rinput c /\ N.of_nat (roff c') = (N.of_nat (roff c) + k)%N /\
    roff c' <= length (rinput c).
Proof.
  intros e a n st d st' s c fuel v c' es Hd Hp. cbn [compile_format] in Hd. unfold cmap, cbind in Hd.
  destruct (compile_format bld eqb m a NEmpty st) as [[d' st1]| |] eqn:E; try discriminate.
  injection Hd as <- <-. destruct fuel as [|fuel]; [discriminate|]. cbn [parse] in Hp.
  destruct (eval_usize e s) as [k|]; [|discriminate]. exists k. split; [reflexivity|]. cbn [rlet] in Hp.
  destruct (rc_split_at c k) as [[[sl c1]|]|] eqn:Es; try discriminate. cbn [rlet] in Hp.
  apply split_at_spec in Es as (-> & -> & Hl). destruct (parse bld P fuel s d' _); try discriminate.
  injection Hp as _ <- _. cbn. repeat split; lia.
Qed.

(** Whatever follows the slice has no influence on its value, its errors or
    whether it succeeds. *)
Theorem C23_independent : forall e a n st d st' s k fuel i pre rest1 rest2,
  compile_format bld eqb m (FSlice e a) n st = COk (d, st') ->
  eval_usize e s = Val k -> (N.of_nat i + k < w64)%N ->
  N.of_nat (length pre) = (N.of_nat i + k)%N ->
  match parse bld P fuel s d (RC (pre ++ rest1) i), parse bld P fuel s d (RC (pre ++ rest2) i) with
  | ROk v1 c1 es1, ROk v2 c2 es2 => v1 = v2 /\ es1 = es2 /\ roff c1 = roff c2
  | o1, o2 => o1 = o2
  end.
Proof.
  intros e a n st d st' s k fuel i pre r1 r2 Hd Hk Hw Hl. destruct fuel as [|fuel]; [reflexivity|].
  destruct (C23_slice e a n st d st' s (RC (pre ++ r1) i) k fuel Hd Hk Hw) as (d1 & E1 & H1).
  destruct (C23_slice e a n st d st' s (RC (pre ++ r2) i) k fuel Hd Hk Hw) as (d2 & E2 & H2).
  rewrite E1 in E2. injection E2 as <-. cbn [rinput roff] in *.
  assert (El : i + N.to_nat k = length pre) by lia. rewrite El in *.
  rewrite app_length in H1, H2.
  destruct (Nat.leb_spec (length pre) (length pre + length r1)); [|lia].
  destruct (Nat.leb_spec (length pre) (length pre + length r2)); [|lia].
  rewrite firstn_app, Nat.sub_diag, firstn_O, firstn_all, app_nil_r in H1, H2.
  destruct (parse bld P fuel s d1 (RC pre i)); rewrite H1, H2; auto.
Qed.

(** ** C24 *)

(** The formats that look at the input, or at other inputs, without consuming. *)
Definition looks_only (f : format) : bool :=
  match f with
  | FPeek _ | FPeekNot _ | FWithView _ _ | FParseFromView _ _ | FDecodeBytes _ _ | FWithRelativeOffset _ _ _
  | FCompute _ | FPos | FPhantom _ | FEndOfInput => true
  | _ => false
  end.

(** They leave the position unchanged. *)
Theorem C24_position : forall f n st d st' s c fuel v c' es,
  looks_only f = true ->
  compile_format bld eqb m f n st = COk (d, st') ->
  parse bld P fuel s d c = ROk v c' es -> c' = c.
Proof.
  intros f n st d st' s c fuel v c' es Hf Hd Hp. destruct fuel as [|fuel]; [discriminate|].
  assert (Hb : forall A (r : dres A) v, rback c r = ROk v c' es -> c' = c)
    by (intros A r w; destruct r; try discriminate; now intros [= _ <- _]).
  assert (Hl : forall A B (x : outcome A) (k : A -> dres B) w, rlet x k = ROk w c' es -> exists a, x = Val a /\ k a = ROk w c' es)
    by (intros A B x k w; destruct x as [x|]; [|discriminate]; intros E; exists x; auto).
  assert (Hv : forall A v (k : rctx -> dres A) w, with_view s v k = ROk w c' es -> exists w', k w' = ROk w c' es)
    by (intros A ve k w H; apply Hl in H as ([w'|] & _ & H); [eauto|discriminate]).
  destruct f; try discriminate; cbn [compile_format] in Hd; unfold cmap, cbind, cret, check_lookahead in Hd;
    repeat match type of Hd with
    | context [match ?x with _ => _ end] => destruct x eqn:?; try discriminate
    end; injection Hd; intros; subst; cbn [parse] in Hp;
    repeat match goal with
    | H : rlet _ _ = ROk _ _ _ |- _ => apply Hl in H as (? & ? & H)
    | H : with_view _ _ _ = ROk _ _ _ |- _ => apply Hv in H as (? & H)
    | H : rback _ _ = ROk _ _ _ |- _ => now apply Hb in H
    end; try (now injection Hp).
  - destruct (rc_read_byte c) as [[? ?]|]; [discriminate|]. now injection Hp.
  - destruct (parse bld P fuel s d0 c); try discriminate. now injection Hp.
  - destruct (N.ltb _ _); [|discriminate]. destruct (rc_seek_to _ _); [|discriminate]. now apply Hb in Hp.
  - unfold rbind in Hp. destruct (parse bld P fuel s d0 _) as [w cw ew| | |]; try discriminate.
    destruct (rc_read_byte cw) as [[? ?]|]; now injection Hp.
Qed.

(** A negative peek succeeds exactly when what it forbids fails, and fails exactly
    when that succeeds; a peek succeeds exactly when what it requires does. *)
Theorem C24_peek_not : forall a n st d st' s c fuel,
  compile_format bld eqb m (FPeekNot a) n st = COk (d, st') ->
  exists d' st1, compile_format bld eqb m a NEmpty st1 = COk (d', st') /\
  ((exists v c' es, parse bld P (S fuel) s d c = ROk v c' es) <-> (exists e, parse bld P fuel s d' c = RErr e)) /\
  ((exists e, parse bld P (S fuel) s d c = RErr e) <-> (exists v c' es, parse bld P fuel s d' c = ROk v c' es)).
Proof.
  intros a n st d st' s c fuel Hd. cbn [compile_format] in Hd. unfold cbind at 1 in Hd.
  destruct (check_lookahead m a st) as [[u st1]| |]; try discriminate. unfold cmap, cbind in Hd.
  destruct (compile_format bld eqb m a NEmpty st1) as [[d' st2]| |] eqn:E; try discriminate.
  injection Hd as <- <-. exists d', st1. split; [exact E|]. cbn [parse].
  destruct (parse bld P fuel s d' c); split; split; (intros (? & ? & ? & H) || intros (? & H)); try discriminate; eauto.
Qed.
Theorem C24_peek : forall a n st d st' s c fuel,
  compile_format bld eqb m (FPeek a) n st = COk (d, st') ->
  exists d', compile_format bld eqb m a NEmpty st = COk (d', st') /\
  forall v, (exists c' es, parse bld P (S fuel) s d c = ROk v c' es) <-> (exists c' es, parse bld P fuel s d' c = ROk v c' es).
Proof.
  intros a n st d st' s c fuel Hd. cbn [compile_format] in Hd. unfold cmap, cbind in Hd.
  destruct (compile_format bld eqb m a NEmpty st) as [[d' st2]| |] eqn:E; try discriminate.
  injection Hd as <- <-. exists d'. split; [reflexivity|]. cbn [parse]. intros v.
  destruct (parse bld P fuel s d' c); split; intros (? & ? & H); try discriminate; cbn in *.
  - injection H as <- _ _. eauto.
  - injection H as <- _ _. eauto.
Qed.

(** ** C31 *)

(** The input seen by a bit format: each byte gives eight bits, the least
    significant one first. *)
Theorem C31_lsb_first : forall l i j, i < length l -> j < 8 ->
  nth_error (bits_of l) (8 * i + j) = Some (if N.testbit (nth i l 0%N) (N.of_nat j) then 1%N else 0%N).
Proof.
  induction l as [|b l IH]; intros i j Hi Hj; cbn [length] in Hi; [lia|].
  unfold bits_of. cbn [flat_map]. fold (bits_of l).
  assert (Hl : length (map (fun i => if N.testbit b (N.of_nat i) then 1%N else 0%N) (seq 0 8)) = 8) by now rewrite map_length, seq_length.
  destruct i as [|i].
  - rewrite nth_error_app1 by (rewrite Hl; lia). rewrite Nat.mul_0_r, Nat.add_0_l.
    erewrite map_nth_error; [reflexivity|].
    rewrite (nth_error_nth' _ 0) by now rewrite seq_length. now rewrite seq_nth.
  - rewrite nth_error_app2 by (rewrite Hl; lia). rewrite Hl.
    replace (8 * S i + j - 8) with (8 * i + j) by lia. cbn [nth]. apply IH; lia.
Qed.
Theorem C31_length : forall l, length (bits_of l) = 8 * length l.
Proof.
  induction l as [|b l IH]; [reflexivity|]. unfold bits_of in *. cbn [flat_map].
  rewrite app_length, map_length, seq_length, IH. cbn [length]. lia.
Qed.

(** A bit format decodes the bits of the remaining bytes; using [k] bits consumes
    [k/8] bytes rounded up. It fails, panics or loops exactly as its content does. *)
Theorem C31_bits : forall a n st d st' s c fuel,
  compile_format bld eqb m (FBits a) n st = COk (d, st') ->
  roff c <= length (rinput c) -> (N.of_nat (length (rinput c)) < w64)%N ->
  exists d', compile_format bld eqb m a NEmpty st = COk (d', st') /\
  match parse bld P fuel s d' (RC (bits_of (skipn (roff c) (rinput c))) 0) with
  | ROk v cb es =>
    parse bld P (S fuel) s d c = ROk v (RC (rinput c) (roff c + (roff cb + 7) / 8)) es /\
    roff c + (roff cb + 7) / 8 <= length (rinput c)
  | o => parse bld P (S fuel) s d c = o
  end.
Proof.
  intros a n st d st' s c fuel Hd Hc Hw. cbn [compile_format] in Hd. unfold cmap, cbind in Hd.
  destruct (compile_format bld eqb m a NEmpty st) as [[d' st2]| |] eqn:E; try discriminate.
  injection Hd as <- <-. exists d'. split; [reflexivity|].
  assert (Hrc : rc_remaining c = Val (skipn (roff c) (rinput c)))
    by (unfold rc_remaining; destruct (Nat.leb_spec (roff c) (length (rinput c))); [reflexivity|lia]).
  cbn [parse]. rewrite Hrc. cbn [rlet]. unfold rc_new. set (rem := skipn (roff c) (rinput c)).
  assert (Hrem : length rem = length (rinput c) - roff c) by (unfold rem; apply skipn_length).
  pose proof (C31_length rem) as Hb8.
  pose proof (parse_adv bld P fuel s d' (RC (bits_of rem) 0)) as Ha.
  destruct (parse bld P fuel s d' (RC (bits_of rem) 0)) as [v cb es| | |]; try reflexivity.
  assert (Hr : in_range (RC (bits_of rem) 0)) by (unfold in_range; cbn; lia).
  destruct (Ha Hr) as (E1 & _ & E2). cbn [rinput roff] in E1, E2.
  cbn [rbind]. unfold rc_remaining. rewrite E1. rewrite Hb8 in E2 |- *.
  destruct (Nat.leb_spec (roff cb) (8 * length rem)); [|lia]. cbn [rlet]. rewrite skipn_length, Hb8.
  generalize dependent (length rem). intros L. intros.
  destruct (Nat.ltb_spec L ((8 * L - roff cb) / 8)); [lia|].
  unfold rc_split_at.
  assert (Hk : L - (8 * L - roff cb) / 8 = (roff cb + 7) / 8) by lia. rewrite Hk.
  assert (Hk' : roff c + (roff cb + 7) / 8 <= length (rinput c)) by lia.
  generalize dependent ((roff cb + 7) / 8). intros K. intros.
  destruct (N.leb_spec w64 (N.of_nat (roff c) + N.of_nat K)); [lia|].
  destruct (N.leb_spec (N.of_nat (roff c) + N.of_nat K) (N.of_nat (length (rinput c)))); [|lia].
  cbn [rlet]. rewrite Nnat.Nat2N.id. split; [reflexivity|assumption].
Qed.
End Props.

Print Assumptions C21_cursor.
Print Assumptions C21_run.
Print Assumptions C23_slice.
Print Assumptions C23_exact.
Print Assumptions C23_independent.
Print Assumptions C24_position.
Print Assumptions C24_peek_not.
Print Assumptions C24_peek.
Print Assumptions C31_lsb_first.
Print Assumptions C31_length.
Print Assumptions C31_bits.

(** ** Concrete cases *)

(** Compile a format on its own and run it. *)
Definition no_eqb (_ _ : next) : bool := false.
Definition go (f : format) (input : list N) : option (dres value) :=
  match compile_program (build_exec 50) no_eqb [] 10 f with
  | Some (COk P) => Some (run (build_exec 50) P 50 (rc_new input))
  | _ => None
  end.
Definition any_byte : format := FByte ByteSetModel.full.
Definition byte_is (b : N) : format := FByte (ByteSetModel.insert ByteSetModel.empty b).
Definition byte_not (b : N) : format := FByte (ByteSetModel.difference ByteSetModel.full (ByteSetModel.insert ByteSetModel.empty b)).

(** A two-byte slice whose content only uses one byte, then a byte. *)
Example C23_example :
  go (FTuple [FSlice (EU B8 2) any_byte; any_byte]) [7; 8; 9; 10]%N =
  Some (ROk (VTuple [VU B8 7; VU B8 9]) (RC [7; 8; 9; 10]%N 3) []) /\
  go (FTuple [FSlice (EU B8 5) any_byte; any_byte]) [7; 8; 9; 10]%N = Some (RErr (KOverrun 5 0)).
Proof. split; vm_compute; reflexivity. Qed.
Example C24_example :
  go (FTuple [FPeek (FTuple [any_byte; any_byte]); any_byte]) [7; 8]%N =
  Some (ROk (VTuple [VTuple [VU B8 7; VU B8 8]; VU B8 7]) (RC [7; 8]%N 1) []) /\
  go (FTuple [FPeekNot (byte_is 7); any_byte]) [8]%N = Some (ROk (VTuple [VTuple []; VU B8 8]) (RC [8]%N 1) []) /\
  go (FTuple [FPeekNot (byte_is 7); any_byte]) [7]%N = Some (RErr (KFail 0)).
Proof. repeat split; vm_compute; reflexivity. Qed.
(** Nine bits of 0x06 0x01: 0,1,1,0,0,0,0,0 then 1; two bytes are consumed. *)
Example C31_example :
  go (FBits (FRepeatCount (EU B8 9) any_byte)) [6; 1; 5]%N =
  Some (ROk (VSeq (Strict (map (VU B8) [0; 1; 1; 0; 0; 0; 0; 0; 1]%N))) (RC [6; 1; 5]%N 2) []).
Proof. vm_compute; reflexivity. Qed.
