(** Properties C38-C41: numeric expressions and machine-integer operations. *)
From Verif Require Import Base BoundsModel NumericModel NumericProofs.
Open Scope Z_scope.

(** ** Specification *)

(** [z] is a value of the Rust integer type with signedness [s] and [2^bits]
    values. *)
Definition fits (r : mrep) (z : Z) : Prop :=
  let m := 2 ^ bw_bits (bit_width r) in
  if is_signed r then - (m / 2) <= z < m / 2 else 0 <= z < m.
Definition fits_rep (r : numrep) (z : Z) : Prop :=
  match r with Auto => True | Concrete m => fits m z end.

(** The meaning of a numeric expression: a mathematical integer and the
    representation it is meant for. [env] gives the variables. *)
Inductive Means (env : label -> option (Z * numrep)) : nexpr -> Z -> numrep -> Prop :=
| m_const z r : Means env (NConst (TC z r)) z r
| m_var x z r : env x = Some (z, r) -> Means env (NVar x) z r
| m_bin op out l r x y z rx ry ro :
    Means env l x rx -> Means env r y ry ->
    match op with
    | NAdd => z = x + y
    | NSub => z = x - y
    | NMul => z = x * y
    | NDiv => y <> 0 /\ z = Z.quot x y
    | NRem => 0 < y /\ z = Z.rem x y
    end ->
    match out with
    | Some m => ro = Concrete m
    | None => (rx = ry /\ ro = rx) \/ (rx = Auto /\ ro = ry) \/ (ry = Auto /\ ro = rx)
    end ->
    Means env (NBin op out l r) z ro
| m_un op out e x z rx :
    Means env e x rx ->
    z = match op with NNegate => - x | NAbs => Z.abs x | NSucc => x + 1 | NPred => x - 1 end ->
    Means env (NUn op out e) z (match out with Some m => Concrete m | None => rx end)
| m_arith out e x rx : Means env e x rx -> Means env (NCast out Arithmetic e) x (Concrete out)
| m_bits out e x r z :
    Means env e x (Concrete r) -> fits r x ->
    fits out z -> z mod 2 ^ bw_bits (bit_width out) = x mod 2 ^ bw_bits (bit_width out) ->
    Means env (NCast out Bitwise e) z (Concrete out)
| m_bits_wide out e x r :
    Means env e x (Concrete r) -> ~ fits r x -> (forall z, fits r z -> fits out z) ->
    Means env (NCast out Bitwise e) x (Concrete out)
| m_bits_auto out e x : Means env e x Auto -> Means env (NCast out Bitwise e) x (Concrete out).

Definition look_of (env : label -> option (Z * numrep)) : label -> nres tconst :=
  fun x => match env x with Some (z, r) => NOk (TC z r) | None => NErr UnknownVar end.

Lemma fits_in r z : in_rep r z = true <-> fits r z.
Proof.
  rewrite in_rep_iff. unfold fits. destruct r as [[] []]; cbn [is_signed bit_width bw_bits as_bounds zmin zmax];
  match goal with |- context [2 ^ ?k] => let v := eval vm_compute in (2 ^ k) in change (2 ^ k) with v end;
  try match goal with |- context [?a / 2] => let v := eval vm_compute in (a / 2) in change (a / 2) with v end; lia.
Qed.

(** ** C38: numeric expressions denote integers *)

Theorem C38_eval_exact env e z r :
  neval (look_of env) e = NOk (TC z r) <-> Means env e z r.
Proof.
  split.
  - revert z r. induction e as [[z0 r0]|op out l IHl q IHr|op out e IH|out sem e IH|x]; intros z r H; cbn [neval] in H.
    + injection H as <- <-. constructor.
    + destruct (neval (look_of env) l) as [[x rx]|?|]; try discriminate. cbn [nbind] in H.
      destruct (neval (look_of env) q) as [[y ry]|?|]; try discriminate. cbn [nbind] in H.
      unfold bin_apply in H. cbn [tc_val tc_rep] in H.
      econstructor; [now apply IHl|now apply IHr| |].
      * destruct op; cbn [nbind] in H.
        1-3: match type of H with nbind ?a _ = _ => destruct a; try discriminate end; cbn [nbind] in H; congruence.
        -- destruct (y =? 0) eqn:E; cbn [nbind] in H; try discriminate.
           match type of H with nbind ?a _ = _ => destruct a; try discriminate end; cbn [nbind] in H.
           split; [lia|congruence].
        -- destruct (0 <? y) eqn:E; cbn [nbind] in H; try discriminate.
           match type of H with nbind ?a _ = _ => destruct a; try discriminate end; cbn [nbind] in H.
           split; [lia|congruence].
      * match type of H with nbind ?a _ = _ => destruct a; try discriminate end; cbn [nbind] in H.
        destruct out as [m|]; cbn [nbind] in H; [congruence|].
        destruct (numrep_eqb rx ry || numrep_eqb ry Auto) eqn:E; cbn [nbind] in H.
        -- apply orb_true_iff in E. rewrite !numrep_eqb_eq in E. destruct E; [left|right; right]; split; congruence.
        -- destruct (numrep_eqb rx Auto) eqn:E2; cbn [nbind] in H; try discriminate.
           apply numrep_eqb_eq in E2. right; left. split; congruence.
    + destruct (neval (look_of env) e) as [[x rx]|?|]; try discriminate. cbn [nbind] in H.
      unfold un_apply in H. cbn [tc_val tc_rep] in H. injection H as <- <-.
      eapply m_un; [now apply IH|]. reflexivity.
    + destruct (neval (look_of env) e) as [[x rx]|?|]; try discriminate. cbn [nbind] in H.
      unfold cast_apply in H. cbn [tc_val tc_rep] in H.
      destruct sem; cbn [nbind] in H.
      * injection H as <- <-. eapply m_arith. now apply IH.
      * destruct rx as [|rx].
        -- cbn in H. injection H as <- <-. apply m_bits_auto. now apply IH.
        -- destruct (in_rep rx x) eqn:E.
           ++ rewrite bitwise_cast_ok in H by exact E. cbn in H. injection H as <- <-.
              eapply m_bits; [now apply IH|now apply fits_in| |apply as_cast_congr].
              apply fits_in, as_cast_in.
           ++ rewrite bitwise_cast_bad in H by exact E.
              destruct (is_superset out rx) eqn:E2; cbn in H; [|discriminate].
              injection H as <- <-. eapply m_bits_wide; [now apply IH| |].
              ** rewrite <- fits_in. congruence.
              ** intros w. rewrite <- !fits_in. now apply is_superset_iff.
    + unfold look_of in H. destruct (env x) as [[z' r']|] eqn:E; [|discriminate].
      injection H as -> ->. now constructor.
  - induction 1 as [z r|x z r E|op out l q x y z rx ry ro H1 IH1 H2 IH2 Hop Hrep|op out e x z rx H IH Ez|out e x rx H IH|out e x r z H IH Hx Hz Hc|out e x r H IH Hx Hs|out e x H IH];
      cbn [neval].
    + reflexivity.
    + unfold look_of. now rewrite E.
    + rewrite IH1, IH2. cbn [nbind]. unfold bin_apply. cbn [tc_val tc_rep].
      assert (Hr : forall raw : Z, nbind
         match out with
         | Some rep => NOk (Concrete rep)
         | None => if numrep_eqb rx ry || numrep_eqb ry Auto then NOk rx
                   else if numrep_eqb rx Auto then NOk ry else NErr Ambiguous
         end (fun rep => NOk (TC raw rep)) = NOk (TC raw ro)).
      { intros raw. destruct out as [m|]; [subst; reflexivity|].
        destruct Hrep as [[-> ->]|[[-> ->]|[-> ->]]].
        - rewrite (proj2 (numrep_eqb_eq ry ry) eq_refl). reflexivity.
        - destruct (numrep_eqb Auto ry || numrep_eqb ry Auto) eqn:E; cbn [nbind]; [|reflexivity].
          apply orb_true_iff in E. rewrite !numrep_eqb_eq in E. destruct E as [<-| ->]; reflexivity.
        - cbn [numrep_eqb]. rewrite orb_true_r. reflexivity. }
      destruct op; cbn [nbind].
      * subst. apply Hr.
      * subst. apply Hr.
      * subst. apply Hr.
      * destruct Hop as [Hy ->]. apply Z.eqb_neq in Hy. rewrite Hy. cbn [nbind]. apply Hr.
      * destruct Hop as [Hy ->]. apply Z.ltb_lt in Hy. rewrite Hy. cbn [nbind]. apply Hr.
    + rewrite IH. cbn [nbind]. unfold un_apply. cbn [tc_val tc_rep]. now rewrite Ez.
    + rewrite IH. reflexivity.
    + rewrite IH. cbn [nbind]. unfold cast_apply. cbn [tc_val tc_rep].
      apply fits_in in Hx. rewrite bitwise_cast_ok by exact Hx. cbn.
      rewrite (in_rep_congr_unique out (as_cast out x) z); [reflexivity|apply as_cast_in|now apply fits_in|].
      now rewrite as_cast_congr.
    + rewrite IH. cbn [nbind]. unfold cast_apply. cbn [tc_val tc_rep].
      rewrite bitwise_cast_bad.
      2:{ rewrite <- fits_in in Hx. now destruct (in_rep r x). }
      rewrite (proj2 (is_superset_iff out r)); [reflexivity|].
      intros w. rewrite !fits_in. apply Hs.
    + rewrite IH. reflexivity.
Qed.
Print Assumptions C38_eval_exact.

(** Strict evaluation computes the same value, fails in the same cases, and its
    flag says whether every sub-expression has a representable value. *)
Theorem C38_strict_value look e v b :
  neval_strict look e = NOk (v, b) -> neval look e = NOk v.
Proof. intros H. pose proof (strict_agrees look e) as A. now rewrite H in A. Qed.
Print Assumptions C38_strict_value.

Theorem C38_strict_total look e v :
  neval look e = NOk v -> exists b, neval_strict look e = NOk (v, b).
Proof. exact (strict_of_eval look e v). Qed.
Print Assumptions C38_strict_total.

Theorem C38_strict_flag look e v b :
  neval_strict look e = NOk (v, b) ->
  (b = true <-> forall s, subterm s e -> exists w, neval look s = NOk w /\ fits_rep (tc_rep w) (tc_val w)).
Proof.
  intros H. rewrite (strict_flag look e v b H). unfold all_repr.
  assert (E : forall w, is_representable w = true <-> fits_rep (tc_rep w) (tc_val w)).
  { intros [z [|r]]; cbn; [tauto|]. unfold is_representable. cbn. apply fits_in. }
  split; intros A s Hs; destruct (A s Hs) as (w & H1 & H2); exists w; split; auto; now apply E.
Qed.
Print Assumptions C38_strict_flag.

(** The scope is only consulted for the variables that are reported. *)
Theorem C38_vars look1 look2 e :
  (forall x, In x (iter_vars e) -> look1 x = look2 x) -> neval look1 e = neval look2 e.
Proof. exact (neval_look_ext look1 look2 e). Qed.
Print Assumptions C38_vars.

(** Evaluation is meant to return an error on bad input; a bitwise cast of an
    unrepresentable intermediate panics instead. *)
Theorem C38_no_panic_refuted :
  exists e, neval void_look e = NPanic.
Proof.
  exists (NCast rI8 Bitwise (NUn NSucc None (NConst (TC 255 (Concrete rU8))))). reflexivity.
Qed.
Print Assumptions C38_no_panic_refuted.

Example C38_example :
  let env := fun x => if (x =? 7)%N then Some (200, Concrete rU8) else None in
  neval (look_of env) (NCast rI8 Bitwise (NBin NAdd None (NVar 7%N) (NConst (TC 50 Auto)))) = NOk (TC (-6) (Concrete rI8))
  /\ neval_strict (look_of env) (NBin NAdd None (NVar 7%N) (NConst (TC 100 Auto))) = NOk (TC 300 (Concrete rU8), false)
  /\ neval_strict (look_of env) (NBin NRem (Some rU16) (NVar 7%N) (NConst (TC 6 Auto))) = NOk (TC 2 (Concrete rU16), true).
Proof. vm_compute. repeat split; reflexivity. Qed.

(** ** C39: bitwise casts are machine casts *)

Theorem C39_bitwise_cast z rin rout :
  fits rin z ->
  exists w, bitwise_cast z (Concrete rin) rout = Val w /\ fits rout w /\
            w mod 2 ^ bw_bits (bit_width rout) = z mod 2 ^ bw_bits (bit_width rout).
Proof.
  intros H. apply fits_in in H. exists (as_cast rout z). rewrite bitwise_cast_ok by exact H.
  repeat split; [apply fits_in, as_cast_in|apply as_cast_congr].
Qed.
Print Assumptions C39_bitwise_cast.

(** The result is determined by that description. *)
Theorem C39_unique rout w1 w2 :
  fits rout w1 -> fits rout w2 ->
  w1 mod 2 ^ bw_bits (bit_width rout) = w2 mod 2 ^ bw_bits (bit_width rout) -> w1 = w2.
Proof. rewrite <- !fits_in. apply in_rep_congr_unique. Qed.
Print Assumptions C39_unique.

Example C39_example :
  bitwise_cast 255 (Concrete rU8) rI8 = Val (-1) /\ bitwise_cast (-1) (Concrete rI8) rU64 = Val 18446744073709551615
  /\ bitwise_cast 40000 (Concrete rU32) rI16 = Val (-25536) /\ fits rU32 40000.
Proof. vm_compute. repeat split; try reflexivity; intro; discriminate. Qed.

(** ** C40: inclusion between representations *)

Theorem C40_superset a b : is_superset a b = true <-> (forall z, fits b z -> fits a z).
Proof.
  rewrite is_superset_iff. split; intros H z; specialize (H z); rewrite !fits_in in *; exact H.
Qed.
Print Assumptions C40_superset.

Theorem C40_encompasses a b :
  rep_encompasses a b = Val true <-> (forall z, fits b z -> fits a z).
Proof.
  rewrite encompasses_superset, <- C40_superset. split; [congruence|intros ->; reflexivity].
Qed.
Print Assumptions C40_encompasses.

Theorem C40_encompasses_total a b : exists x, rep_encompasses a b = Val x.
Proof. rewrite encompasses_superset. eauto. Qed.
Print Assumptions C40_encompasses_total.

(** Unifying two non-empty intervals gives the smallest interval around both. *)
Theorem C40_unify a b :
  zmin a <= zmax a -> zmin b <= zmax b ->
  exists u, zb_unify a b = Val u /\
    (forall z, zb_contains a z = true \/ zb_contains b z = true -> zb_contains u z = true) /\
    (forall u', (forall z, zb_contains a z = true \/ zb_contains b z = true -> zb_contains u' z = true) ->
       forall z, zb_contains u z = true -> zb_contains u' z = true).
Proof.
  intros Ha Hb. eexists. split; [now apply zb_unify_spec|]. unfold zb_contains. cbn [zmin zmax]. split.
  - intros z Hz. lia.
  - intros u' H z Hz.
    pose proof (H (zmin a)) as H1. pose proof (H (zmax a)) as H2.
    pose proof (H (zmin b)) as H3. pose proof (H (zmax b)) as H4. lia.
Qed.
Print Assumptions C40_unify.

Example C40_example :
  is_superset rI32 rU16 = true /\ is_superset rI32 rU32 = false /\ is_superset rU64 rI8 = false
  /\ zb_unify (ZB 3 10) (ZB (-4) 7) = Val (ZB (-4) 10).
Proof. vm_compute. auto. Qed.

(** ** C41: operations between machine types are exact *)

(** What an operation should return at output type [o]: nothing for division by
    zero, the number when it is a value of [o], and otherwise a marker carrying the
    exact number. *)
Definition exact_result (o : mrep) (z : option Z) (res : meval) : Prop :=
  match z with
  | None => res = MNaN
  | Some z => (fits o z /\ res = MDirect z) \/ (~ fits o z /\ res = MIndirect z)
  end.
Definition math (op : nbinop) (x y : Z) : option Z :=
  match op with
  | NAdd => Some (x + y)
  | NSub => Some (x - y)
  | NMul => Some (x * y)
  | NDiv => if y =? 0 then None else Some (Z.quot x y)
  | NRem => if y =? 0 then None else Some (Z.rem x y)
  end.

Lemma exact_unary o z : exact_result o (Some z) (unary_result o z).
Proof.
  unfold exact_result, unary_result. destruct (in_rep o z) eqn:E.
  - left. split; [now apply fits_in|reflexivity].
  - right. split; [|reflexivity]. rewrite <- fits_in. congruence.
Qed.
Lemma exact_bin op o x y : exact_result o (math op x y) (machine_result op o x y).
Proof.
  unfold machine_result. change (big_op op x y) with (math op x y).
  destruct (math op x y) as [z|]; [apply exact_unary|reflexivity].
Qed.

(** Every binary function the library provides, except dividing the least
    signed value by -1. *)
Theorem C41_binary_partial op l r o x y :
  In (l, r, o) bin_table -> fits l x -> fits r y ->
  (match op with NDiv | NRem => ~ (is_signed o = true /\ x = - 2 ^ (bw_bits (bit_width o) - 1) /\ y = -1) | _ => True end) ->
  exact_result o (math op x y) (bin_fn op o x y).
Proof.
  intros Hin Hx Hy Hex. rewrite (bin_fn_ok op l r o x y Hin); [apply exact_bin|now apply fits_in|now apply fits_in|].
  intros Hq (Hs & Hm & Hn).
  assert (E : zmin (as_bounds o) = - 2 ^ (bw_bits (bit_width o) - 1)).
  { destruct o as [[] []]; cbn in Hs; try discriminate; vm_compute; reflexivity. }
  rewrite E in Hm. destruct op; cbn in Hq; try discriminate; apply Hex; auto.
Qed.
Print Assumptions C41_binary_partial.

Theorem C41_quotient_refuted :
  exists op l r o x y, In (l, r, o) bin_table /\ fits l x /\ fits r y /\
    ~ exact_result o (math op x y) (bin_fn op o x y).
Proof.
  exists NRem, rI8, rI8, rI8, (-128), (-1). repeat split; try (vm_compute; intro; discriminate).
  - apply in_or_app. left. vm_compute. tauto.
  - cbn. intros [[_ H]|[_ H]]; vm_compute in H; discriminate.
Qed.
Print Assumptions C41_quotient_refuted.

(** Operations without a dedicated function go through big integers. *)
Theorem C41_fallback op o x y : exact_result o (math op x y) (bin_fallback op o x y).
Proof. rewrite bin_fallback_ok. apply exact_bin. Qed.
Print Assumptions C41_fallback.

(** Negation; [checks] says whether overflow checks are compiled in. Negating
    the least value at its own type is the exception. *)
Theorem C41_negate_partial checks r x :
  fits r x ->
  (In r [rI8; rI16; rI32; rI64] -> x <> - 2 ^ (bw_bits (bit_width r) - 1) ->
     exists v, neg_as_signed checks r x = Val v /\ exact_result r (Some (- x)) v) /\
  (forall o, In (r, o) to_signed_table ->
     exists v, neg_as_signed checks o x = Val v /\ exact_result o (Some (- x)) v) /\
  (forall o, In (r, o) signed_unsigned_table ->
     exists v, neg_into_unsigned checks r o x = Val v /\ exact_result o (Some (- x)) v) /\
  (forall o, is_signed r = false -> is_signed o = false ->
     exact_result o (Some (- x)) (neg_unsigned_unsigned x)).
Proof.
  intros Hx. apply fits_in in Hx. repeat split; intros.
  - eexists. split; [apply neg_same_ok; [exact H|exact Hx|]|apply exact_unary].
    cbn in H. destruct H as [<-|[<-|[<-|[<-|[]]]]]; cbn in *; lia.
  - eexists. split; [eapply neg_to_signed_ok; eassumption|apply exact_unary].
  - eexists. split; [eapply neg_into_unsigned_ok; eassumption|apply exact_unary].
  - rewrite (neg_unsigned_ok r o x) by assumption. apply exact_unary.
Qed.
Print Assumptions C41_negate_partial.

(** With checks it panics, without it returns the wrong sign. *)
Theorem C41_negate_refuted :
  neg_as_signed true rI8 (-128) = Panic /\
  exists v, neg_as_signed false rI8 (-128) = Val v /\ ~ exact_result rI8 (Some 128) v.
Proof.
  split; [reflexivity|]. eexists. split; [reflexivity|]. cbn. intros [[_ H]|[_ H]]; vm_compute in H; discriminate.
Qed.
Print Assumptions C41_negate_refuted.

(** Absolute values: always exact when overflow wraps, and exact except on the
    least value when overflow panics. *)
Theorem C41_abs_partial checks r x :
  fits r x ->
  (checks = false \/ is_signed r = false \/ x <> - 2 ^ (bw_bits (bit_width r) - 1)) ->
  (In r [rI8; rI16; rI32; rI64] ->
     exists v, abs_same checks r x = Val v /\ exact_result r (Some (Z.abs x)) v) /\
  (forall o, In (r, o) to_signed_table ->
     exists v, abs_as_signed checks o x = Val v /\ exact_result o (Some (Z.abs x)) v) /\
  (forall o, In (r, o) signed_unsigned_table ->
     exists v, abs_signed_unsigned checks r o x = Val v /\ exact_result o (Some (Z.abs x)) v) /\
  (forall o, In (r, o) abs_unsigned_table ->
     exact_result o (Some (Z.abs x)) (abs_unsigned_unsigned o x)).
Proof.
  intros Hx Hc. apply fits_in in Hx.
  assert (Hc' : checks = false \/ x <> zmin (as_bounds r) \/ is_signed r = false).
  { destruct Hc as [Hc|[Hc|Hc]]; [tauto|tauto|]. destruct r as [[] []]; cbn in *; tauto. }
  repeat split; intros.
  - eexists. split; [|apply exact_unary]. destruct (abs_same_ok r x H Hx) as [H1 H2].
    destruct checks; [|exact H1]. apply H2. destruct Hc' as [?|[?|Hs]]; try congruence.
    cbn in H. destruct H as [<-|[<-|[<-|[<-|[]]]]]; cbn in Hs; discriminate.
  - eexists. split; [eapply abs_to_signed_ok; eassumption|apply exact_unary].
  - eexists. split; [|apply exact_unary]. destruct (abs_signed_unsigned_ok r o x H Hx) as [H1 H2].
    destruct checks; [|exact H1]. apply H2. destruct Hc' as [?|[?|Hs]]; try congruence.
    cbn in H. repeat (destruct H as [E|H]; [injection E as <- <-; cbn in Hs; discriminate|]). destruct H.
  - rewrite (abs_unsigned_ok r o x) by assumption. apply exact_unary.
Qed.
Print Assumptions C41_abs_partial.

Theorem C41_abs_refuted : abs_same true rI16 (-32768) = Panic /\ abs_signed_unsigned true rI16 rU16 (-32768) = Panic.
Proof. split; reflexivity. Qed.
Print Assumptions C41_abs_refuted.

Theorem C41_casts r o x :
  fits r x ->
  (In (r, o) direct_cast_table -> exact_result o (Some x) (direct_cast o x)) /\
  exact_result o (Some x) (attempt_cast o x).
Proof.
  intros Hx. apply fits_in in Hx. split.
  - intros H. rewrite (direct_cast_ok r o x H Hx). apply exact_unary.
  - rewrite attempt_cast_ok. apply exact_unary.
Qed.
Print Assumptions C41_casts.

(** The direct casts and the fallible ones together cover every pair of
    different types, and the direct ones are exactly those that cannot fail. *)
Theorem C41_cast_tables r o :
  r <> o ->
  ((In (r, o) direct_cast_table <-> (forall z, fits r z -> fits o z)) /\
   (In (r, o) attempt_cast_table <-> ~ (forall z, fits r z -> fits o z))).
Proof.
  intros Hne. rewrite <- C40_superset.
  assert (H1 : In (r, o) direct_cast_table <-> is_superset o r = true).
  { split.
    - intros H. assert (T : forallb (fun p => is_superset (snd p) (fst p)) direct_cast_table = true) by (vm_compute; reflexivity).
      rewrite forallb_forall in T. exact (T _ H).
    - destruct r as [[] []], o as [[] []]; cbn; intros; try discriminate; try congruence; tauto. }
  assert (H2 : In (r, o) attempt_cast_table <-> is_superset o r = false).
  { split.
    - intros H. assert (T : forallb (fun p => negb (is_superset (snd p) (fst p))) attempt_cast_table = true) by (vm_compute; reflexivity).
      rewrite forallb_forall in T. specialize (T _ H). cbn in T. now apply negb_true_iff in T.
    - destruct r as [[] []], o as [[] []]; cbn; intros; try discriminate; try congruence; tauto. }
  rewrite H1, H2. destruct (is_superset o r); split; split; congruence.
Qed.
Print Assumptions C41_cast_tables.

Example C41_example :
  bin_fn NAdd rU8 200 100 = MIndirect 300 /\ bin_fn NSub rI16 5 (-7) = MDirect 12 /\ bin_fn NDiv rI64 (-7) 2 = MDirect (-3)
  /\ In (rU8, rI8, rI16) bin_table /\ neg_into_unsigned true rI8 rU8 (-128) = Val (MDirect 128)
  /\ abs_same false rI8 (-128) = Val (MIndirect 128).
Proof. repeat split; try (vm_compute; reflexivity). apply in_or_app. right. apply in_or_app. right. vm_compute. tauto. Qed.
