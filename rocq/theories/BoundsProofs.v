From Verif Require Import Base BoundsModel.
Open Scope N_scope.

(** [within b n]: [n] is one of the numbers described by [b]. *)
Definition within (b : bounds) (n : N) : Prop :=
  bmin b <= n /\ match bmax b with Some m => n <= m | None => True end.

Lemma bcontains_within b n : bcontains b n = true <-> within b n.
Proof. unfold bcontains, within. destruct (bmax b); lia. Qed.
Lemma within_any n : within bany n.
Proof. unfold within; cbn; lia. Qed.

Lemma badd_sound a b x y : within a x -> within b y -> x + y < w64 -> within (badd a b) (x + y).
Proof.
  intros [Ha1 Ha2] [Hb1 Hb2] Hlt. unfold badd, checked_add.
  destruct (N.ltb_spec (bmin a + bmin b) w64); [|cbn [unwrap_or_any]; apply within_any].
  cbn [unwrap_or_any]. split; cbn [bmin bmax]; [lia|].
  destruct (bmax a) as [m1|], (bmax b) as [m2|]; try exact I.
  destruct (N.ltb_spec (m1 + m2) w64); [lia|exact I].
Qed.
Lemma bsub_sound a b x y : within a x -> within b y -> within (bsub a b) (x - y).
Proof.
  intros [Ha1 Ha2] [Hb1 Hb2]. unfold bsub. split; cbn [bmin bmax].
  - destruct (bmax b); lia.
  - destruct (bmax a); cbn [option_map]; [lia|exact I].
Qed.
Lemma bmul_sound a b x y : within a x -> within b y -> x * y < w64 -> within (bmul a b) (x * y).
Proof.
  intros [Ha1 Ha2] [Hb1 Hb2] Hlt. unfold bmul, checked_mul.
  destruct (N.ltb_spec (bmin a * bmin b) w64); [|cbn [unwrap_or_any]; apply within_any].
  cbn [unwrap_or_any]. split; cbn [bmin bmax]; [now apply N.mul_le_mono|].
  destruct (bmax a) as [m1|], (bmax b) as [m2|]; try exact I.
  destruct (N.ltb_spec (m1 * m2) w64); [now apply N.mul_le_mono|exact I].
Qed.
Lemma div_mono a b c d : a <= b -> d <= c -> d <> 0 -> a / c <= b / d.
Proof.
  intros H1 H2 H3. transitivity (b / c); [apply N.div_le_mono; lia|].
  apply N.div_le_compat_l; lia.
Qed.
Lemma bdiv_sound a b x y : within a x -> within b y -> y <> 0 -> within (bdiv a b) (x / y).
Proof.
  intros [Ha1 Ha2] [Hb1 Hb2] Hy. unfold bdiv, checked_div.
  assert (match option_map (fun m1 => m1 / N.max (bmin b) 1) (bmax a) with
          | Some m => x / y <= m | None => True end) as Hmax.
  { destruct (bmax a) as [m1|]; cbn [option_map]; [|exact I]. apply div_mono; lia. }
  destruct (bmax b) as [m2|].
  - destruct (N.eqb_spec m2 0); cbn [unwrap_or_any]; [apply within_any|].
    split; cbn [bmin bmax]; [|exact Hmax]. apply div_mono; lia.
  - cbn [unwrap_or_any]. split; cbn [bmin bmax]; [apply N.le_0_l|exact Hmax].
Qed.
Lemma as_exact_some b n : as_exact b = Some n -> b = bexact n.
Proof.
  destruct b as [mn [m|]]; cbn; [|discriminate]. destruct (N.eqb_spec m mn); [|discriminate].
  intros [= <-]. subst. reflexivity.
Qed.
Lemma brem_sound a b x y : within a x -> within b y -> y <> 0 ->
  exists r, brem a b = Val r /\ within r (x mod y).
Proof.
  intros Ha Hb Hy. unfold brem.
  destruct (as_exact b) as [y'|] eqn:Eb; [|eexists; split; [reflexivity|apply within_any]].
  apply as_exact_some in Eb as ->. unfold within in Hb. cbn in Hb. assert (y' = y) as -> by lia.
  destruct (as_exact a) as [x'|] eqn:Ea; [|eexists; split; [reflexivity|apply within_any]].
  apply as_exact_some in Ea as ->. unfold within in Ha. cbn in Ha. assert (x' = x) as -> by lia.
  destruct (N.eqb_spec y 0); [contradiction|]. eexists; split; [reflexivity|]. split; cbn; lia.
Qed.
Lemma bunion_sound a b x : within a x \/ within b x -> within (bunion a b) x.
Proof.
  unfold within, bunion; cbn [bmin bmax]. destruct (bmax a), (bmax b); lia.
Qed.
Lemma bclamp_sound b lo hi : lo <= hi ->
  exists r, bclamp b lo hi = Val r /\
    forall x, (lo <= x <= hi /\ within b x) <-> exists c, r = Some c /\ within c x.
Proof.
  intros Hle. unfold bclamp. destruct (N.ltb_spec hi lo); [lia|]. eexists. split; [reflexivity|].
  intros x. unfold within.
  destruct (bmax b) as [m|].
  - destruct (N.ltb_spec (N.min m hi) (N.max lo (bmin b))).
    + split; [lia|]. intros (c & Hc & _). discriminate.
    + split; [intros Hx; eexists; split; [reflexivity|cbn [bmin bmax]; lia]|].
      intros (c & [= <-] & Hc). cbn [bmin bmax] in Hc. lia.
  - destruct (N.ltb_spec hi (N.max lo (bmin b))).
    + split; [lia|]. intros (c & Hc & _). discriminate.
    + split; [intros Hx; eexists; split; [reflexivity|cbn [bmin bmax]; lia]|].
      intros (c & [= <-] & Hc). cbn [bmin bmax] in Hc. lia.
Qed.
Lemma bits_to_bytes_sound b x : within b x -> within (bits_to_bytes b) ((x + 7) / 8).
Proof.
  intros [H1 H2]. unfold bits_to_bytes, div_ceil8. split; cbn [bmin bmax].
  - apply N.div_le_mono; lia.
  - destruct (bmax b); cbn [option_map]; [apply N.div_le_mono; lia|exact I].
Qed.

(** *** Shifts *)
Lemma bshl_sound a b x y : within a x -> within b y -> x * 2 ^ y < w64 -> y < 64 ->
  (forall m1 m2, bmax a = Some m1 -> bmax b = Some m2 -> m1 * 2 ^ m2 < w64) ->
  within (bshl a b) (x * 2 ^ y).
Proof.
  intros [Ha1 Ha2] [Hb1 Hb2] Hlt Hy Hmax. unfold bshl, bchecked_shl, to_u32.
  destruct (N.ltb_spec (bmin b) 4294967296); [|cbn; apply within_any].
  unfold checked_shl at 1.
  destruct (N.ltb_spec (bmin b) 64); [|cbn; apply within_any].
  assert (bmin a * 2 ^ bmin b <= x * 2 ^ y) as Hmin.
  { apply N.mul_le_mono; [exact Ha1|]. apply N.pow_le_mono_r; lia. }
  rewrite N.shiftl_mul_pow2, N.mod_small by lia.
  destruct (bmax a) as [m1|] eqn:Ea, (bmax b) as [m2|] eqn:Eb;
    try (cbn [unwrap_or_any]; split; cbn [bmin bmax]; [exact Hmin|exact I]).
  destruct (N.ltb_spec m2 4294967296); [|cbn; apply within_any].
  unfold checked_shl. cbn [unwrap_or_any]. split; cbn [bmin bmax]; [exact Hmin|].
  destruct (N.ltb_spec m2 64); [|exact I].
  rewrite N.shiftl_mul_pow2, N.mod_small by (apply Hmax; reflexivity).
  apply N.mul_le_mono; [exact Ha2|]. apply N.pow_le_mono_r; lia.
Qed.
Lemma bshr_sound a b x y : within a x -> within b y -> within (bshr a b) (x / 2 ^ y).
Proof.
  intros [Ha1 Ha2] [Hb1 Hb2]. unfold bshr, bchecked_shr, to_u32, checked_shr.
  assert (match (if bmin b <? 64 then match bmax a with Some m1 => Some (N.shiftr m1 (bmin b)) | None => None end else None) with
          | Some m => x / 2 ^ y <= m | None => True end) as Hmax.
  { destruct (bmin b <? 64); [|exact I]. destruct (bmax a) as [m1|]; [|exact I].
    rewrite N.shiftr_div_pow2. apply div_mono; [exact Ha2| |].
    - apply N.pow_le_mono_r; lia.
    - apply N.pow_nonzero; lia. }
  assert (forall mn, mn <= x / 2 ^ y -> within (unwrap_or_any (if bmin b <? 4294967296 then
     Some (Bnd mn match bmax a with Some m1 => if bmin b <? 64 then Some (N.shiftr m1 (bmin b)) else None | None => None end) else None)) (x / 2 ^ y)) as Hfin.
  { intros mn Hmn. destruct (bmin b <? 4294967296); [|apply within_any].
    cbn [unwrap_or_any]. split; cbn [bmin bmax]; [exact Hmn|].
    destruct (bmax a), (bmin b <? 64); try exact I; exact Hmax. }
  destruct (bmax b) as [m2|].
  - destruct (N.ltb_spec m2 4294967296); [|apply within_any].
    destruct (N.ltb_spec m2 64); [|apply within_any].
    destruct (bmin b <? 4294967296) eqn:E; (specialize (Hfin (N.shiftr (bmin a) m2)); rewrite ?E in Hfin; apply Hfin;
      rewrite N.shiftr_div_pow2; apply div_mono; [exact Ha1|apply N.pow_le_mono_r; lia|apply N.pow_nonzero; lia]).
  - destruct (bmin b <? 4294967296) eqn:E; (specialize (Hfin 0); rewrite ?E in Hfin; apply Hfin, N.le_0_l).
Qed.

(** *** Bitwise bounds *)
Definition subbits (a b : N) : Prop := forall i, N.testbit a i = true -> N.testbit b i = true.
Lemma subbits_le a b : subbits a b -> a <= b.
Proof.
  intros H. apply N.ldiff_le. apply N.bits_inj. intros i. rewrite N.ldiff_spec, N.bits_0.
  destruct (N.testbit a i) eqn:E; [|reflexivity]. rewrite (H i E). reflexivity.
Qed.

Lemma sig_bits_pow x : x < 2 ^ sig_bits x.
Proof.
  unfold sig_bits. destruct (N.eqb_spec x 0) as [->|Hnz]; [reflexivity|].
  rewrite N.add_1_r. apply N.log2_spec. lia.
Qed.
Lemma sig_bits_mono x y : x <= y -> sig_bits x <= sig_bits y.
Proof.
  intros H. unfold sig_bits. destruct (N.eqb_spec x 0), (N.eqb_spec y 0); try lia.
  apply N.add_le_mono_r. now apply N.log2_le_mono.
Qed.
Lemma significant_bits_sound b x : within b x -> within (significant_bits b) (sig_bits x).
Proof.
  intros [H1 H2]. split; cbn [bmin bmax significant_bits].
  - now apply sig_bits_mono.
  - destruct (bmax b); cbn [option_map]; [now apply sig_bits_mono|exact I].
Qed.
Lemma sig_bits_le x n : x < 2 ^ n -> sig_bits x <= n.
Proof.
  intros H. unfold sig_bits. destruct (N.eqb_spec x 0); [lia|].
  apply N.log2_lt_pow2 in H; lia.
Qed.

Lemma mod_pow_bit a n i : N.testbit (a mod 2 ^ n) i = (i <? n) && N.testbit a i.
Proof.
  destruct (N.ltb_spec i n); cbn [andb].
  - now apply N.mod_pow2_bits_low.
  - now apply N.mod_pow2_bits_high.
Qed.

(** The common prefix [k] together with the low part describes every member. *)
Lemma bitwise_spec b : bmin b < w64 ->
  match bmax b with Some m => bmin b <= m < w64 | None => True end ->
  exists k lo, bitwise_bounds b = Val (k, lo) /\
    (bmax lo = None <-> bmax b = None) /\
    (as_exact lo = None <-> as_exact b = None) /\
    (as_exact b <> None -> lo = bexact 0) /\
    (forall m, bmax lo = Some m -> exists m', bmax b = Some m' /\ m <= m') /\
    (forall x, within b x -> exists r, within lo r /\ N.land k r = 0 /\ x = N.lor k r).
Proof.
  intros Hmin Hmax. unfold bitwise_bounds. destruct b as [mn [mx|]]; cbn [bmin bmax] in *.
  2:{ exists 0, (Bnd mn None). split; [reflexivity|]. cbn. split; [tauto|]. split; [tauto|].
      split; [congruence|]. split; [congruence|]. intros x Hx. exists x. split; [exact Hx|].
      split; reflexivity. }
  assert (forall (r : outcome (N * bounds)), r = Val (0, Bnd mn (Some mx)) -> mn <> mx ->
    exists k lo, r = Val (k, lo) /\
    (bmax lo = None <-> Some mx = None) /\ (as_exact lo = None <-> as_exact (Bnd mn (Some mx)) = None) /\
    (as_exact (Bnd mn (Some mx)) <> None -> lo = bexact 0) /\
    (forall m, bmax lo = Some m -> exists m', Some mx = Some m' /\ m <= m') /\
    (forall x, within (Bnd mn (Some mx)) x -> exists r, within lo r /\ N.land k r = 0 /\ x = N.lor k r)) as Htriv.
  { intros r -> Hne. exists 0, (Bnd mn (Some mx)). split; [reflexivity|]. cbn. split; [intuition congruence|].
    split; [tauto|]. destruct (N.eqb_spec mx mn); [lia|]. split; [congruence|].
    split; [intros m [= <-]; exists mx; split; [reflexivity|lia]|].
    intros x Hx. exists x. split; [exact Hx|].
    split; reflexivity. }
  destruct (N.eqb_spec mn mx) as [->|Hne].
  { exists mx, (bexact 0). split; [reflexivity|]. cbn. rewrite N.eqb_refl.
    split; [intuition congruence|]. split; [intuition congruence|]. split; [reflexivity|].
    split; [intros m [= <-]; exists mx; split; [reflexivity|lia]|].
    intros x Hx. unfold within in Hx. cbn in Hx. exists 0. unfold within; cbn.
    rewrite N.land_0_r, N.lor_0_r. lia. }
  unfold nbits_exact, as_exact at 1. cbn [significant_bits bmin bmax option_map].
  destruct (N.eqb_spec (sig_bits mx) (sig_bits mn)) as [Heq|]; [|now apply Htriv].
  set (nb := sig_bits mx) in *. set (mb := sig_bits (N.lxor mx mn)).
  assert (mx < 2 ^ nb) as Hmx by apply sig_bits_pow.
  assert (mn < 2 ^ nb) as Hmn by (rewrite Heq; apply sig_bits_pow).
  assert (N.lxor mx mn < 2 ^ mb) as Hxor by apply sig_bits_pow.
  assert (mb <= nb) as Hle.
  { apply sig_bits_le. apply lt_pow2_bits. intros i Hi. rewrite N.lxor_spec.
    rewrite (testbit_above mx nb i), (testbit_above mn nb i) by assumption. reflexivity. }
  destruct (N.ltb_spec nb mb); [lia|].
  destruct (N.eqb_spec (nb - mb) 0); [now apply Htriv|].
  assert (N.land (N.shiftl (N.shiftl 1 (nb - mb) - 1) mb) mx = mx / 2 ^ mb * 2 ^ mb) as Hk.
  { rewrite <- N.shiftr_div_pow2, <- N.shiftl_mul_pow2. apply N.bits_inj. intros i.
    rewrite N.land_spec. replace (N.shiftl 1 (nb - mb) - 1) with (N.ones (nb - mb)) by (rewrite N.ones_equiv, N.shiftl_1_l; lia).
    destruct (N.lt_ge_cases i mb) as [Hi|Hi].
    - now rewrite !N.shiftl_spec_low by exact Hi.
    - rewrite !N.shiftl_spec_high' by exact Hi. rewrite N.shiftr_spec'. replace (i - mb + mb) with i by lia.
      destruct (N.lt_ge_cases i nb) as [Hi2|Hi2].
      + rewrite N.ones_spec_low by lia. reflexivity.
      + rewrite (testbit_above mx nb i) by assumption. apply andb_false_r. }
  assert (forall z, N.land z (N.shiftl 1 mb - 1) = z mod 2 ^ mb) as Hlo.
  { intros z. replace (N.shiftl 1 mb - 1) with (N.ones mb) by (rewrite N.ones_equiv, N.shiftl_1_l; lia).
    apply N.land_ones. }
  rewrite Hk, !Hlo.
  assert (mx / 2 ^ mb = mn / 2 ^ mb) as Hq.
  { rewrite <- !N.shiftr_div_pow2. apply N.bits_inj. intros i. rewrite !N.shiftr_spec'.
    assert (N.testbit (N.lxor mx mn) (i + mb) = false) as Hb by (apply (testbit_above _ mb); [exact Hxor|lia]).
    rewrite N.lxor_spec in Hb. destruct (N.testbit mx (i + mb)), (N.testbit mn (i + mb)); cbn in Hb; congruence. }
  assert (2 ^ mb <> 0) as Hp by (apply N.pow_nonzero; lia).
  pose proof (N.div_mod mx _ Hp) as Dx. pose proof (N.div_mod mn _ Hp) as Dn.
  eexists _, _. split; [reflexivity|].
  assert (mn mod 2 ^ mb <> mx mod 2 ^ mb) as Hmods.
  { intros E. apply Hne. rewrite Dx, Dn, Hq, E. reflexivity. }
  cbn [bmax bnew]. split; [intuition congruence|]. unfold as_exact, bnew; cbn [bmax bmin].
  split; [|split; [|split]].
  - destruct (N.eqb_spec (mx mod 2 ^ mb) (mn mod 2 ^ mb)), (N.eqb_spec mx mn); try congruence; split; congruence.
  - destruct (N.eqb_spec mx mn); congruence.
  - intros m [= <-]. exists mx. split; [reflexivity|]. apply N.mod_le. exact Hp.
  - intros x [Hx1 Hx2]. cbn [bmin bmax] in Hx1, Hx2.
    pose proof (N.div_mod x _ Hp) as Dxx.
    assert (x / 2 ^ mb = mx / 2 ^ mb) as Hqx.
    { apply N.le_antisymm; [apply N.div_le_mono; assumption|]. rewrite Hq. apply N.div_le_mono; assumption. }
    exists (x mod 2 ^ mb). split; [|split].
    + unfold within; cbn [bmin bmax]. rewrite Hqx in Dxx. rewrite Hq in Dx, Dxx.
      clear - Dx Dn Dxx Hx1 Hx2. revert Dx Dn Dxx.
      generalize (2 ^ mb * (mn / 2 ^ mb)) (x mod 2 ^ mb) (mx mod 2 ^ mb) (mn mod 2 ^ mb). intros; lia.
    + apply N.bits_inj. intros i. rewrite N.land_spec, N.bits_0, mod_pow_bit, <- N.shiftl_mul_pow2.
      destruct (N.ltb_spec i mb); [now rewrite N.shiftl_spec_low|apply andb_false_r].
    + rewrite <- Hqx. apply N.bits_inj. intros i. rewrite N.lor_spec, mod_pow_bit, <- N.shiftl_mul_pow2, <- N.shiftr_div_pow2.
      destruct (N.ltb_spec i mb) as [Hi|Hi].
      * now rewrite N.shiftl_spec_low.
      * rewrite N.shiftl_spec_high', N.shiftr_spec' by exact Hi. replace (i - mb + mb) with i by lia. now rewrite orb_false_r.
Qed.

Lemma mask_spec x : x < 2 ^ 63 -> exists k, mask x = Val k /\ forall r, r <= x -> subbits r k.
Proof.
  intros Hx. unfold mask. destruct (N.eqb_spec x 0) as [->|Hnz].
  { exists 0. split; [reflexivity|]. intros r Hr. replace r with 0 by lia. intros i Hi. exact Hi. }
  assert (N.log2 x < 63) as Hl by (apply N.log2_lt_pow2; lia).
  destruct (N.ltb_spec (N.log2 x + 1) 64); [|lia]. eexists. split; [reflexivity|].
  intros r Hr i Hi.
  replace (N.shiftl 1 (N.log2 x + 1) - 1) with (N.ones (N.log2 x + 1)) by (rewrite N.ones_equiv, N.shiftl_1_l; lia).
  destruct (N.lt_ge_cases i (N.log2 x + 1)) as [Hlt|Hge]; [now apply N.ones_spec_low|].
  rewrite (testbit_above r (N.log2 x + 1)) in Hi; [discriminate| |exact Hge].
  apply N.le_lt_trans with x; [exact Hr|]. rewrite N.add_1_r. apply N.log2_spec. lia.
Qed.

Lemma lor_subbits a b c d : subbits a c -> subbits b d -> subbits (N.lor a b) (N.lor c d).
Proof.
  intros H1 H2 i. rewrite !N.lor_spec, !orb_true_iff. intros [H|H]; [left; now apply H1|right; now apply H2].
Qed.

Definition small (b : bounds) : Prop :=
  bmin b < 2 ^ 63 /\ match bmax b with Some m => m < 2 ^ 63 | None => True end.

Lemma small_wf b x : small b -> within b x ->
  bmin b < w64 /\ match bmax b with Some m => bmin b <= m < w64 | None => True end.
Proof.
  intros [H1 H2] [H3 H4]. change (2 ^ 63) with 9223372036854775808 in *. unfold w64.
  split; [lia|]. destruct (bmax b); [lia|exact I].
Qed.

Lemma lor_le_l a b : a <= N.lor a b.
Proof. apply subbits_le. intros i Hi. rewrite N.lor_spec, Hi. reflexivity. Qed.

Lemma bbitor_sound a b x y : small a -> small b -> within a x -> within b y ->
  exists r, bbitor a b = Val r /\ within r (N.lor x y).
Proof.
  intros Hsa Hsb Ha Hb.
  destruct (small_wf a x Hsa Ha) as [Wa1 Wa2]. destruct (small_wf b y Hsb Hb) as [Wb1 Wb2].
  destruct (bitwise_spec a Wa1 Wa2) as (k1 & la & E1 & _ & _ & _ & M1 & D1).
  destruct (bitwise_spec b Wb1 Wb2) as (k2 & lb & E2 & _ & _ & _ & M2 & D2).
  destruct (D1 x Ha) as (r1 & [R1a R1b] & _ & ->). destruct (D2 y Hb) as (r2 & [R2a R2b] & _ & ->).
  assert (N.max (bmin a) (bmin b) <= N.lor (N.lor k1 r1) (N.lor k2 r2)) as Hmin.
  { pose proof (lor_le_l (N.lor k1 r1) (N.lor k2 r2)) as L1.
    pose proof (lor_le_l (N.lor k2 r2) (N.lor k1 r1)) as L2. rewrite (N.lor_comm (N.lor k2 r2)) in L2.
    destruct Ha as [Ha _], Hb as [Hb _]. lia. }
  unfold bbitor. rewrite E1. cbn [obind]. rewrite E2. cbn [obind].
  destruct (bmax la) as [m1|] eqn:Ela; [|eexists; split; [reflexivity|split; cbn [bmin bmax]; [exact Hmin|exact I]]].
  destruct (bmax lb) as [m2|] eqn:Elb; [|eexists; split; [reflexivity|split; cbn [bmin bmax]; [exact Hmin|exact I]]].
  destruct (M1 m1 eq_refl) as (m1' & Em1 & Hm1). destruct (M2 m2 eq_refl) as (m2' & Em2 & Hm2).
  destruct Hsa as [_ Hsa], Hsb as [_ Hsb]. rewrite Em1 in Hsa. rewrite Em2 in Hsb.
  destruct (mask_spec m1 ltac:(eapply N.le_lt_trans; eassumption)) as (x1 & -> & S1). destruct (mask_spec m2 ltac:(eapply N.le_lt_trans; eassumption)) as (x2 & -> & S2).
  cbn [obind]. eexists. split; [reflexivity|]. split; cbn [bmin bmax]; [exact Hmin|].
  apply subbits_le. intros i. rewrite !N.lor_spec, !orb_true_iff.
  specialize (S1 r1 R1b i). specialize (S2 r2 R2b i). tauto.
Qed.

(** [BitAnd] is right unless exactly one operand is exact and the low part of
    the other one starts at 0. *)
Definition bitand_ok (a b : bounds) : Prop :=
  (as_exact a = None <-> as_exact b = None).

Lemma bbitand_sound a b x y : small a -> small b -> bitand_ok a b -> within a x -> within b y ->
  exists r, bbitand a b = Val r /\ within r (N.land x y).
Proof.
  intros Hsa Hsb Hok Ha Hb.
  destruct (small_wf a x Hsa Ha) as [Wa1 Wa2]. destruct (small_wf b y Hsb Hb) as [Wb1 Wb2].
  destruct (bitwise_spec a Wa1 Wa2) as (k1 & la & E1 & _ & X1 & Z1 & M1 & D1).
  destruct (bitwise_spec b Wb1 Wb2) as (k2 & lb & E2 & _ & X2 & Z2 & M2 & D2).
  destruct (D1 x Ha) as (r1 & [R1a R1b] & _ & ->). destruct (D2 y Hb) as (r2 & [R2a R2b] & _ & ->).
  assert (N.land k1 k2 <= N.land (N.lor k1 r1) (N.lor k2 r2)) as Hmin.
  { apply subbits_le. intros i. rewrite !N.land_spec, !N.lor_spec, !andb_true_iff, !orb_true_iff. tauto. }
  unfold bbitand. rewrite E1. cbn [obind]. rewrite E2. cbn [obind].
  destruct (bmax la) as [m1|] eqn:Ela; [|eexists; split; [reflexivity|split; cbn [bmin bmax]; [exact Hmin|exact I]]].
  destruct (bmax lb) as [m2|] eqn:Elb; [|eexists; split; [reflexivity|split; cbn [bmin bmax]; [exact Hmin|exact I]]].
  assert (as_exact la = if m1 =? bmin la then Some m1 else None) as Eea by (unfold as_exact; now rewrite Ela).
  assert (as_exact lb = if m2 =? bmin lb then Some m2 else None) as Eeb by (unfold as_exact; now rewrite Elb).
  rewrite (N.eqb_sym (bmin la)), (N.eqb_sym (bmin lb)).
  destruct (M1 m1 eq_refl) as (m1' & Em1 & Hm1). destruct (M2 m2 eq_refl) as (m2' & Em2 & Hm2).
  destruct Hsa as [_ Hsa], Hsb as [_ Hsb]. rewrite Em1 in Hsa. rewrite Em2 in Hsb.
  unfold bitand_ok in Hok.
  assert (as_exact la = None <-> as_exact lb = None) as Hbal by tauto.
  destruct (m1 =? bmin la) eqn:Q1, (m2 =? bmin lb) eqn:Q2.
  - (* both exact *)
    assert (la = bexact 0) as Hla by (apply Z1; intros HN; apply X1 in HN; rewrite Eea in HN; discriminate).
    assert (lb = bexact 0) as Hlb by (apply Z2; intros HN; apply X2 in HN; rewrite Eeb in HN; discriminate).
    rewrite Hla in Ela. rewrite Hlb in Elb. cbn in Ela, Elb.
    injection Ela as <-. injection Elb as <-. replace r1 with 0 by lia. replace r2 with 0 by lia.
    cbn [omap]. eexists. split; [reflexivity|]. unfold blend_bits. rewrite !N.land_0_r, !N.land_0_l, !N.lor_0_r.
    split; cbn [bmin bmax]; lia.
  - rewrite Eea, Eeb in Hbal. destruct Hbal as [_ Hbal]. specialize (Hbal eq_refl). discriminate.
  - rewrite Eea, Eeb in Hbal. destruct Hbal as [Hbal _]. specialize (Hbal eq_refl). discriminate.
  - destruct (mask_spec m1 ltac:(eapply N.le_lt_trans; eassumption)) as (x1 & -> & S1). destruct (mask_spec m2 ltac:(eapply N.le_lt_trans; eassumption)) as (x2 & -> & S2).
    cbn [obind omap]. eexists. split; [reflexivity|]. split; cbn [bmin bmax]; [exact Hmin|].
    apply subbits_le. intros i. unfold blend_bits.
    rewrite !N.lor_spec, !N.land_spec, !N.lor_spec, !orb_true_iff, !andb_true_iff, !orb_true_iff.
    specialize (S1 r1 R1b i). specialize (S2 r2 R2b i). tauto.
Qed.

Lemma bbitand_refuted : exists a b x y, small a /\ small b /\ within a x /\ within b y /\
  exists r, bbitand a b = Val r /\ ~ within r (N.land x y).
Proof.
  exists (bexact 5), (bnew 0 255), 5, 5. unfold small, within. cbn [bmin bmax bexact bnew].
  repeat split; try reflexivity; try lia. exists (Bnd 0 (Some 0)). split; [vm_compute; reflexivity|].
  cbn. lia.
Qed.
Lemma bshl_refuted : exists a b x y, within a x /\ within b y /\ x * 2 ^ y < w64 /\ y < 64 /\
  ~ within (bshl a b) (x * 2 ^ y).
Proof.
  exists (bnew 0 (2 ^ 63)), (bexact 1), 1, 1. unfold within. cbn [bmin bmax bnew bexact].
  repeat split; try (vm_compute; congruence). vm_compute. intuition congruence.
Qed.
Lemma bbitor_refuted : exists a b x y, bmin a < w64 /\ bmin b < w64 /\
  within a x /\ within b y /\ x < w64 /\ y < w64 /\ bbitor a b = Panic.
Proof.
  exists (bnew 0 (2 ^ 63)), (bexact 1), 1, 1. unfold within. cbn [bmin bmax bnew bexact].
  repeat split; try (vm_compute; congruence).
Qed.
Lemma brem_refuted : exists a b, (exists x, within a x) /\ (exists y, within b y) /\ brem a b = Panic.
Proof. exists (bexact 3), (bexact 0). repeat split; [exists 3|exists 0]; unfold within; cbn; lia. Qed.

(** *** Exact operands give exact results *)
Lemma exact_results x y : x < w64 -> y < w64 ->
  (x + y < w64 -> badd (bexact x) (bexact y) = bexact (x + y)) /\
  (bsub (bexact x) (bexact y) = bexact (x - y)) /\
  (x * y < w64 -> bmul (bexact x) (bexact y) = bexact (x * y)) /\
  (y <> 0 -> bdiv (bexact x) (bexact y) = bexact (x / y)) /\
  (y <> 0 -> brem (bexact x) (bexact y) = Val (bexact (x mod y))) /\
  (y < 64 -> x * 2 ^ y < w64 -> bshl (bexact x) (bexact y) = bexact (x * 2 ^ y)) /\
  (y < 64 -> bshr (bexact x) (bexact y) = bexact (x / 2 ^ y)) /\
  bbitand (bexact x) (bexact y) = Val (bexact (N.land x y)).
Proof.
  intros Hx Hy. repeat match goal with |- _ /\ _ => split end.
  - intros H. unfold badd, checked_add. cbn [bexact bmin bmax]. destruct (N.ltb_spec (x + y) w64); [reflexivity|lia].
  - reflexivity.
  - intros H. unfold bmul, checked_mul. cbn [bexact bmin bmax]. destruct (N.ltb_spec (x * y) w64); [reflexivity|lia].
  - intros H. unfold bdiv, checked_div. cbn [bexact bmin bmax option_map].
    destruct (N.eqb_spec y 0); [lia|]. cbn [unwrap_or_any]. now rewrite N.max_l by lia.
  - intros H. unfold brem, as_exact. cbn [bexact bmin bmax]. rewrite !N.eqb_refl.
    destruct (N.eqb_spec y 0); [lia|reflexivity].
  - intros H H2. unfold bshl, bchecked_shl, to_u32, checked_shl. cbn [bexact bmin bmax].
    destruct (N.ltb_spec y 4294967296); [|lia]. destruct (N.ltb_spec y 64); [|lia].
    cbn [unwrap_or_any]. rewrite N.shiftl_mul_pow2, N.mod_small by exact H2. reflexivity.
  - intros H. unfold bshr, bchecked_shr, to_u32, checked_shr. cbn [bexact bmin bmax].
    destruct (N.ltb_spec y 4294967296); [|lia]. destruct (N.ltb_spec y 64); [|lia].
    cbn [unwrap_or_any]. rewrite N.shiftr_div_pow2. reflexivity.
  - unfold bbitand, bitwise_bounds, obind. cbn [bexact bmin bmax]. rewrite !N.eqb_refl. cbn [bmax bmin bexact].
    cbn [N.eqb omap]. unfold blend_bits. rewrite !N.land_0_r, !N.lor_0_r. reflexivity.
Qed.
Lemma contains_spec b n : bcontains b n = true <->
  bmin b <= n /\ (forall m, bmax b = Some m -> n <= m).
Proof.
  rewrite bcontains_within. unfold within. destruct (bmax b) as [m|].
  - split; intros [H1 H2]; (split; [exact H1|]); [intros m' [= <-]; exact H2|now apply H2].
  - split; intros [H1 H2]; (split; [exact H1|]); [discriminate|exact I].
Qed.
Lemma arith_sound a b x y : within a x -> within b y ->
  (x + y < w64 -> within (badd a b) (x + y)) /\
  within (bsub a b) (x - y) /\
  (x * y < w64 -> within (bmul a b) (x * y)) /\
  (y <> 0 -> within (bdiv a b) (x / y)) /\
  (y <> 0 -> exists r, brem a b = Val r /\ within r (x mod y)) /\
  within (bshr a b) (x / 2 ^ y).
Proof.
  intros Ha Hb. repeat match goal with |- _ /\ _ => split end; intros.
  - now apply badd_sound.
  - now apply bsub_sound.
  - now apply bmul_sound.
  - now apply bdiv_sound.
  - now apply brem_sound.
  - now apply bshr_sound.
Qed.
