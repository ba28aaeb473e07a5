(** C33 (name lookup), C34 (shadowing analysis), C35 (pattern matching),
    C36 (integer operations), C06 (static bounds of expressions) and C42 (values
    stay in range). Specifications used: [bindings] (the bindings of a scope,
    newest first), [free] (the free variables of an expression), [Matches] (what
    a pattern means), [erase] (forget all wrappers), [wfv] (a value in range),
    all in ValueProofs.v / ValueWfProofs.v. *)
From Verif Require Import Base BoundsModel BoundsProofs DataModel NumericModel NumericProofs ValueModel ValueProofs ValueWfProofs.
Open Scope nat_scope.

(** ** C33 *)

Theorem C33_value {D} (s : scope D) x :
  (forall v, get_value x s = Some v <->
     exists newer older, bindings s = newer ++ (x, BVal v) :: older /\ forall w, ~ In (x, BVal w) newer) /\
  (get_value x s = None <-> forall w, ~ In (x, BVal w) (bindings s)).
Proof.
  split.
  - intros v. rewrite get_value_sel, first_sel_some. split.
    + intros (nw & b & od & H & Hb & Hn). destruct b; try discriminate. injection Hb as ->. exists nw, od. split; [exact H|].
      intros w Hw. apply Hn in Hw. discriminate.
    + intros (nw & od & H & Hn). exists nw, (BVal v), od. repeat split; auto. intros [w|d|c] Hw; auto. now apply Hn in Hw.
  - rewrite get_value_sel, first_sel_none. split; intros H b Hb.
    + apply H in Hb. discriminate.
    + destruct b; auto. now apply H in Hb.
Qed.
Print Assumptions C33_value.
Theorem C33_decoder {D} (s : scope D) x :
  (forall d, get_decoder x s = Some d <->
     exists newer older, bindings s = newer ++ (x, BDec d) :: older /\ forall w, ~ In (x, BDec w) newer) /\
  (get_decoder x s = None <-> forall w, ~ In (x, BDec w) (bindings s)).
Proof.
  split.
  - intros v. rewrite get_decoder_sel, first_sel_some. split.
    + intros (nw & b & od & H & Hb & Hn). destruct b; try discriminate. injection Hb as ->. exists nw, od. split; [exact H|].
      intros w Hw. apply Hn in Hw. discriminate.
    + intros (nw & od & H & Hn). exists nw, (BDec v), od. repeat split; auto. intros [w|d|c] Hw; auto. now apply Hn in Hw.
  - rewrite get_decoder_sel, first_sel_none. split; intros H b Hb.
    + apply H in Hb. discriminate.
    + destruct b; auto. now apply H in Hb.
Qed.
Print Assumptions C33_decoder.
Theorem C33_view {D} (s : scope D) x :
  (forall c, get_view x s = Some c <->
     exists newer older, bindings s = newer ++ (x, BView c) :: older /\ forall w, ~ In (x, BView w) newer) /\
  (get_view x s = None <-> forall w, ~ In (x, BView w) (bindings s)).
Proof.
  split.
  - intros v. rewrite get_view_sel, first_sel_some. split.
    + intros (nw & b & od & H & Hb & Hn). destruct b; try discriminate. injection Hb as ->. exists nw, od. split; [exact H|].
      intros w Hw. apply Hn in Hw. discriminate.
    + intros (nw & od & H & Hn). exists nw, (BView v), od. repeat split; auto. intros [w|d|c] Hw; auto. now apply Hn in Hw.
  - rewrite get_view_sel, first_sel_none. split; intros H b Hb.
    + apply H in Hb. discriminate.
    + destruct b; auto. now apply H in Hb.
Qed.
Print Assumptions C33_view.
(** The listing of all bindings has every binding, newest first. *)
Theorem C33_listing {D} (s : scope D) :
  get_bindings s = map (fun b => (fst b, match snd b with BVal v => SEVal v | BDec d => SEDec d | BView c => SEView (roff c) end)) (bindings s).
Proof. exact (get_bindings_spec s). Qed.
Print Assumptions C33_listing.

(** A variable, a decoder and a view of the same name do not hide one another,
    and the last entry pushed by a pattern wins. *)
Example C33_example :
  let s := SMulti (SDecoder (SView (SSingle (D := nat) SEmpty 7%N (VBool true)) 7%N (RC [1%N] 0)) 7%N 5)
             [(8%N, EntVal (VU B8 1)); (8%N, EntVal (VU B8 2)); (7%N, EntView (RC [1%N] 1))] in
  get_value 7%N s = Some (VBool true) /\ get_decoder 7%N s = Some 5 /\ get_view 7%N s = Some (RC [1%N] 1)
  /\ get_value 8%N s = Some (VU B8 2) /\ get_value 9%N s = None /\ length (bindings s) = 6.
Proof. repeat split. Qed.

(** ** C34 *)

(** The value of an expression is determined by its free variables. *)
Theorem C34_free_variables {D1 D2} e (s1 : scope D1) (s2 : scope D2) :
  (forall x, free x e -> get_value x s1 = get_value x s2) -> eval e s1 = eval e s2.
Proof. exact (eval_ext e s1 s2). Qed.
Print Assumptions C34_free_variables.
(** The analysis never reports a name that is not free. *)
Theorem C34_reported_is_free x e : is_shadowed_by x e = true -> free x e.
Proof. exact (shadow_free x e). Qed.
Print Assumptions C34_reported_is_free.
(** The claim, for expressions without a record that has a field of the name
    in question. Missing: such records (refuted below). *)
Theorem C34_conservative_partial {D} x e (s1 s2 : scope D) :
  is_shadowed_by x e = false -> no_field x e ->
  (forall y, y <> x -> get_value y s1 = get_value y s2) -> eval e s1 = eval e s2.
Proof.
  intros Hs Hf H. apply eval_ext. intros y Hy. apply H. intros ->. rewrite (free_shadow x e Hf Hy) in Hs. discriminate.
Qed.
Print Assumptions C34_conservative_partial.
(** Record fields are not in scope of one another, but the analysis stops at a
    field named like the variable. *)
Theorem C34_conservative_refuted : exists x e (s1 s2 : scope unit),
  is_shadowed_by x e = false /\ (forall y, y <> x -> get_value y s1 = get_value y s2) /\ eval e s1 <> eval e s2.
Proof.
  exists 1%N, (ERecord [(1%N, EU B8 1); (2%N, EVar 1%N)]), (SSingle SEmpty 1%N (VU B8 3)), (SSingle SEmpty 1%N (VU B8 4)).
  split; [reflexivity|split].
  - intros y Hy. cbn [get_value]. destruct (N.eqb_spec 1 y); [congruence|reflexivity].
  - vm_compute. congruence.
Qed.
Print Assumptions C34_conservative_refuted.
Example C34_example :
  let e := EMatch (EVar 2%N) [(PBinding 1%N, EArith AAdd (EVar 1%N) (EVar 3%N)); (PWildcard, EU B8 0)] in
  is_shadowed_by 1%N e = false /\ no_field 1%N e /\ is_shadowed_by 3%N e = true /\
  eval e (SSingle (SSingle (SSingle (D := unit) SEmpty 1%N (VU B8 9)) 2%N (VU B8 5)) 3%N (VU B8 6)) = Val (VU B8 11).
Proof. repeat split. Qed.

(** ** C35 *)

(** Matching is the declarative relation: bindings in order, literals equal,
    integer ranges by number, sequences and tuples element by element. *)
Theorem C35_matching_meaning p v bs : matches_inner p v [] = Some bs <-> Matches p v bs.
Proof. exact (matches_iff p v bs). Qed.
Print Assumptions C35_matching_meaning.
(** Wrappers around the matched value are invisible to every pattern. *)
Theorem C35_outer_wrappers {D} (s : scope D) p v w :
  coerce_nominal v = coerce_nominal w -> vmatches v s p = vmatches w s p.
Proof. unfold vmatches. now intros ->. Qed.
Print Assumptions C35_outer_wrappers.
(** The claim for patterns that do not test below the outermost constructor: the
    match is the match of the value without any wrapper, with bindings that are
    equal up to wrappers. Missing: deeper tests (refuted below). *)
Theorem C35_provenance_partial p v : shallow p ->
  option_map erase_binds (matches_inner p (coerce_nominal v) []) = matches_inner p (erase v) [].
Proof. exact (shallow_erase p v). Qed.
Print Assumptions C35_provenance_partial.
(** Two values that differ only in a wrapper inside a tuple are told apart. *)
Theorem C35_provenance_refuted : exists (s : scope unit) p v w,
  erase v = erase w /\ vmatches v s p <> None /\ vmatches w s p = None.
Proof.
  exists SEmpty, (PTuple [PU B8 1]), (VTuple [VU B8 1]), (VTuple [VBranch 0 (VU B8 1)]).
  repeat split. vm_compute. discriminate.
Qed.
Print Assumptions C35_provenance_refuted.
Example C35_example :
  let v := VBranch 1 (VMapped (VU B8 0) (VTuple [VBranch 0 (VU B8 7); VChar 65%N])) in
  let p := PTuple [PBinding 1%N; PWildcard] in
  shallow p /\ matches_inner p (coerce_nominal v) [] = Some [(1%N, VBranch 0 (VU B8 7))] /\
  Matches (PSeq [PInt (bnew 1 9); PZConst 4]) (VSeq (Strict [VU B16 3; VUsize 4])) [].
Proof.
  split; [|split].
  - repeat constructor.
  - reflexivity.
  - apply matches_iff. reflexivity.
Qed.

(** ** C36 *)

(** The mathematical result of an operator, [None] when there is none. *)
Definition math_op (op : arith_op) (x y : N) : option N :=
  match op with
  | AAdd => Some (x + y)%N
  | ASub => if N.ltb x y then None else Some (x - y)%N
  | AMul => Some (x * y)%N
  | ADiv => if N.eqb y 0 then None else Some (x / y)%N
  | ARem => if N.eqb y 0 then None else Some (x mod y)%N
  | ABitAnd => Some (N.land x y)
  | ABitOr => Some (N.lor x y)
  | AShl => Some (x * 2 ^ y)%N
  | AShr => Some (x / 2 ^ y)%N
  | ABoolOr | ABoolAnd => None
  end.
(** The mathematical result when it is representable at width [w], else failure. *)
Definition checked (w : bitwidth) (o : option N) : outcome N :=
  match o with Some z => if N.ltb z (2 ^ nbits w) then Val z else Panic | None => Panic end.

Lemma apply_exact w op x y : (x < 2 ^ nbits w)%N -> (y < 2 ^ nbits w)%N ->
  (op <> AShl /\ op <> AShr) \/
  ((y < nbits w)%N /\ (op = AShl -> x * 2 ^ y < 2 ^ nbits w)%N) ->
  arith_apply w op x y = checked w (math_op op x y).
Proof.
  intros Hx Hy Hs. pose proof (fun z => wf_arith_apply w op x y z Hx Hy) as Hr.
  assert (G : forall z, arith_apply w op x y = Val z -> math_op op x y = Some z -> arith_apply w op x y = checked w (math_op op x y)).
  { intros z E1 E2. rewrite E2, E1. cbn [checked]. specialize (Hr z E1). destruct (N.ltb_spec z (2 ^ nbits w)); [reflexivity|lia]. }
  destruct op; cbn [arith_apply math_op] in *; try reflexivity.
  - destruct (N.leb_spec y x), (N.ltb_spec x y); try lia; [eapply G; reflexivity|reflexivity].
  - destruct (N.eqb y 0); [reflexivity|eapply G; reflexivity].
  - destruct (N.eqb y 0); [reflexivity|eapply G; reflexivity].
  - eapply G; reflexivity.
  - eapply G; reflexivity.
  - destruct Hs as [[C _]|[H1 H2]]; [congruence|]. specialize (H2 eq_refl). pose proof (nbits_le w).
    unfold as_u32 in *. rewrite (N.mod_small y) in * by lia. destruct (N.ltb_spec y (nbits w)); [|lia].
    rewrite N.shiftl_mul_pow2, (N.mod_small (x * 2 ^ y)) in * by exact H2. eapply G; reflexivity.
  - destruct Hs as [[_ C]|[H1 _]]; [congruence|]. pose proof (nbits_le w).
    unfold as_u32 in *. rewrite (N.mod_small y) in * by lia. destruct (N.ltb_spec y (nbits w)); [|lia].
    rewrite N.shiftr_div_pow2 in *. eapply G; reflexivity.
Qed.
Definition int_op (op : arith_op) : Prop := op <> ABoolOr /\ op <> ABoolAnd.
(** Exact or fails. Shifts are restricted to amounts below the width and, on the
    left, to results that are representable. Missing: those shifts (refuted below). *)
Theorem C36_arith_partial w op x y : (x < 2 ^ nbits w)%N -> (y < 2 ^ nbits w)%N -> int_op op ->
  (op <> AShl /\ op <> AShr) \/ ((y < nbits w)%N /\ (op = AShl -> x * 2 ^ y < 2 ^ nbits w)%N) ->
  value_arith op (VU w x) (VU w y) = omap (VU w) (checked w (math_op op x y)).
Proof.
  intros Hx Hy [N1 N2] Hs. rewrite <- (apply_exact w op x y Hx Hy Hs).
  assert (R : bw_eqb w w = true) by now apply bw_eqb_eq. destruct op; cbn [value_arith]; try congruence; now rewrite R.
Qed.
Print Assumptions C36_arith_partial.
Theorem C36_arith_usize_partial op x y : (x < 2 ^ 64)%N -> (y < 2 ^ 64)%N -> int_op op ->
  (op <> AShl /\ op <> AShr) \/ ((y < 64)%N /\ (op = AShl -> x * 2 ^ y < 2 ^ 64)%N) ->
  value_arith op (VUsize x) (VUsize y) = omap VUsize (checked B64 (math_op op x y)).
Proof.
  intros Hx Hy [N1 N2] Hs. rewrite <- (apply_exact B64 op x y Hx Hy Hs).
  destruct op; cbn [value_arith]; congruence.
Qed.
Print Assumptions C36_arith_usize_partial.
(** Left shift drops bits without failing. *)
Theorem C36_shl_refuted : exists w x y v,
  (x < 2 ^ nbits w)%N /\ (y < nbits w)%N /\ value_arith AShl (VU w x) (VU w y) = Val v /\ v <> VU w (x * 2 ^ y).
Proof. exists B8, 200%N, 1%N, (VU B8 144). repeat split; try (vm_compute; reflexivity). vm_compute. congruence. Qed.
Print Assumptions C36_shl_refuted.
(** Shift amounts are truncated to 32 bits, so a shift by [2^32] does nothing. *)
Theorem C36_shift_amount_refuted : exists x y,
  (x < 2 ^ 64)%N /\ (y < 2 ^ 64)%N /\
  value_arith AShl (VU B64 x) (VU B64 y) = Val (VU B64 x) /\ (x * 2 ^ 64 <= x * 2 ^ y)%N /\ (x <> 0)%N /\
  value_arith AShr (VU B64 x) (VU B64 y) = Val (VU B64 x).
Proof.
  exists 1%N, (2 ^ 32)%N. split; [vm_compute; reflexivity|]. split; [vm_compute; reflexivity|].
  split; [vm_compute; reflexivity|]. split; [|split; [discriminate|vm_compute; reflexivity]].
  rewrite !N.mul_1_l. apply N.pow_le_mono_r; [discriminate|]. vm_compute. congruence.
Qed.
Print Assumptions C36_shift_amount_refuted.

(** Increment, decrement and negation. *)
Theorem C36_unary w n b : (n < 2 ^ nbits w)%N ->
  value_unary UIntSucc (VU w n) = omap (VU w) (checked w (Some (n + 1)%N)) /\
  value_unary UIntPred (VU w n) = omap (VU w) (checked w (math_op ASub n 1)) /\
  value_unary UBoolNot (VBool b) = Val (VBool (negb b)).
Proof.
  intros Hn. repeat split. cbn [value_unary unary_apply math_op].
  destruct (N.eqb_spec n 0), (N.ltb_spec n 1); try lia; [reflexivity|]. cbn [checked].
  destruct (N.ltb_spec (n - 1) (2 ^ nbits w)); [reflexivity|lia].
Qed.
Print Assumptions C36_unary.

Definition rel_holds (r : int_rel) (a b : Z) : Prop :=
  match r with
  | REq => a = b | RNe => a <> b | RGt => (a > b)%Z | RGte => (a >= b)%Z | RLt => (a < b)%Z | RLte => (a <= b)%Z
  end.
Lemma rel_apply_holds r a b : rel_apply r a b = true <-> rel_holds r (Z.of_N a) (Z.of_N b).
Proof. destruct r; cbn; lia. Qed.
Lemma tc_rel_holds r a b : tc_rel r a b = true <-> rel_holds r (tc_val a) (tc_val b).
Proof. unfold tc_rel. destruct r, (Z.compare_spec (tc_val a) (tc_val b)); cbn; split; intros; try discriminate; try lia; try reflexivity. Qed.
Lemma get_as_unsigned_val w c n : get_as_unsigned w c = Some n -> tc_val c = Z.of_N n.
Proof.
  unfold get_as_unsigned, try_into.
  assert (L : (0 <= zmin (as_bounds (MR false w)))%Z) by (destruct w; vm_compute; congruence).
  assert (G : option_map Z.to_N (if zb_contains (as_bounds (MR false w)) (tc_val c) then Some (tc_val c) else None) = Some n -> tc_val c = Z.of_N n);
    [|destruct (tc_rep c) as [|r]; [exact G|]].
  - destruct (zb_contains (as_bounds (MR false w)) (tc_val c)) eqn:E; cbn [option_map]; [|discriminate].
    intros [= <-]. apply zb_contains_iff in E. lia.
  - destruct (mrep_eqb r (MR false w)), (is_representable c); try discriminate. exact G.
Qed.
(** Comparisons, whatever the mixture of representations: a result is the
    mathematical one, and machine integers of one width always have a result. *)
Theorem C36_comparisons r u v :
  (forall w, value_int_rel r u v = Val w ->
     exists a b t, num_of u = Some a /\ num_of v = Some b /\ w = VBool t /\ (t = true <-> rel_holds r a b)) /\
  (forall w a b, u = VU w a -> v = VU w b -> value_int_rel r u v <> Panic) /\
  (forall a b, u = VUsize a -> v = VUsize b -> value_int_rel r u v <> Panic) /\
  (forall a b, u = VNumeric a -> v = VNumeric b -> value_int_rel r u v <> Panic).
Proof.
  repeat split.
  - intros w H. destruct u, v; try discriminate; cbn [value_int_rel] in H.
    + destruct (bw_eqb w0 w1); [|discriminate]. injection H as <-. do 3 eexists. repeat split; apply rel_apply_holds.
    + destruct (get_as_unsigned w0 c) eqn:E; [|discriminate]. apply get_as_unsigned_val in E. injection H as <-. do 3 eexists. repeat split; rewrite E; apply rel_apply_holds.
    + injection H as <-. do 3 eexists. repeat split; apply rel_apply_holds.
    + destruct (get_as_unsigned w0 c) eqn:E; [|discriminate]. apply get_as_unsigned_val in E. injection H as <-. do 3 eexists. repeat split; rewrite E; apply rel_apply_holds.
    + injection H as <-. do 3 eexists. repeat split; apply tc_rel_holds.
  - intros w a b -> ->. cbn. rewrite (proj2 (bw_eqb_eq w w) eq_refl). discriminate.
  - intros a b -> ->. discriminate.
  - intros a b -> ->. discriminate.
Qed.
Print Assumptions C36_comparisons.

(** Conversions keep the number or fail. *)
Theorem C36_conversions w v n : native_num v = Some n ->
  value_as w v = omap (VU w) (checked w (Some n)).
Proof. destruct v; cbn; try discriminate; intros [= ->]; reflexivity. Qed.
Print Assumptions C36_conversions.
(** Conversion to a character: the scalar value itself, the replacement character
    for 32-bit numbers that are not one, failure above. *)
Theorem C36_as_char v n : native_num v = Some n -> wfv v ->
  value_as_char v =
    if N.leb 4294967296 n then Panic
    else if ((N.leb 55296 n && N.leb n 57343) || N.ltb 1114111 n)%bool then Val (VChar 65533) else Val (VChar n).
Proof.
  assert (G : forall n, (if N.ltb n 4294967296 then Val (VChar (match char_from_u32 n with Some c => c | None => replacement_char end)) else Panic) =
     if N.leb 4294967296 n then Panic
     else if ((N.leb 55296 n && N.leb n 57343) || N.ltb 1114111 n)%bool then Val (VChar 65533) else Val (VChar n)).
  { intros m. destruct (N.ltb_spec m 4294967296), (N.leb_spec 4294967296 m); try lia; [|reflexivity].
    unfold char_from_u32. destruct (N.ltb m 55296 || _)%bool eqn:E1, ((N.leb 55296 m && _) || _)%bool eqn:E2; try reflexivity; lia. }
  destruct v as [|w m| |m| | | | | | | | | | | | |]; cbn [native_num]; try discriminate; intros [= ->] Hw.
  - destruct w; cbn [value_as_char]; try apply G. change (n < 256)%N in Hw.
    destruct (N.leb_spec 4294967296 n); [lia|]. destruct ((N.leb 55296 n && _) || _)%bool eqn:E2; [lia|reflexivity].
  - cbn [value_as_char]. apply G.
Qed.
Print Assumptions C36_as_char.
(** Byte composition. *)
Theorem C36_bytes a b c d e f g h :
  let B n := VU B8 n in
  value_from_bytes true B16 (VTuple [B a; B b]) = Val (VU B16 (a * 2 ^ 8 + b)) /\
  value_from_bytes false B16 (VTuple [B a; B b]) = Val (VU B16 (a + b * 2 ^ 8)) /\
  value_from_bytes true B32 (VTuple [B a; B b; B c; B d]) = Val (VU B32 (a * 2 ^ 24 + b * 2 ^ 16 + c * 2 ^ 8 + d)) /\
  value_from_bytes false B32 (VTuple [B a; B b; B c; B d]) = Val (VU B32 (a + b * 2 ^ 8 + c * 2 ^ 16 + d * 2 ^ 24)) /\
  value_from_bytes true B64 (VTuple [B a; B b; B c; B d; B e; B f; B g; B h]) =
    Val (VU B64 (a * 2 ^ 56 + b * 2 ^ 48 + c * 2 ^ 40 + d * 2 ^ 32 + e * 2 ^ 24 + f * 2 ^ 16 + g * 2 ^ 8 + h)) /\
  value_from_bytes false B64 (VTuple [B a; B b; B c; B d; B e; B f; B g; B h]) =
    Val (VU B64 (a + b * 2 ^ 8 + c * 2 ^ 16 + d * 2 ^ 24 + e * 2 ^ 32 + f * 2 ^ 40 + g * 2 ^ 48 + h * 2 ^ 56)).
Proof.
  cbv zeta. unfold value_from_bytes. cbn [unwrap_tuple obind bytes_of option_map length].
  repeat match goal with |- context [N.to_nat ?x] => let y := eval vm_compute in (N.to_nat x) in change (N.to_nat x) with y end.
  cbn [Nat.eqb]. unfold from_be_bytes, from_le_bytes. cbn [fold_left fold_right].
  repeat match goal with |- context [(2 ^ ?x)%N] => let y := eval vm_compute in (2 ^ x)%N in change (2 ^ x)%N with y end.
  repeat split; do 2 f_equal; lia.
Qed.
Print Assumptions C36_bytes.
(** The length operator: exact below [2^32] elements, wrong (not failing) above. *)
Theorem C36_seq_length_partial {D} e (s : scope D) v q : eval e s = Val v -> seq_of v = Val q -> (vseq_len q < 2 ^ 32)%N ->
  eval (ESeqLength e) s = Val (VU B32 (vseq_len q)).
Proof. intros H1 H2 H3. cbn [eval]. rewrite H1. cbn [obind]. rewrite H2. cbn [omap]. unfold as_u32. now rewrite N.mod_small. Qed.
Print Assumptions C36_seq_length_partial.
Theorem C36_seq_length_refuted : exists e n, (n > 0)%N /\
  eval e (SEmpty (D := unit)) = Val (VEnumFromTo 0 n) /\ eval (ESeqLength e) (SEmpty (D := unit)) = Val (VU B32 0).
Proof. exists (EEnumFromTo (EU B64 0) (EU B64 (2 ^ 32))), (2 ^ 32)%N. repeat split; vm_compute; reflexivity. Qed.
Print Assumptions C36_seq_length_refuted.
Example C36_example :
  value_arith AAdd (VU B8 200) (VU B8 100) = Panic /\ value_arith AAdd (VU B16 200) (VU B16 100) = Val (VU B16 300) /\
  value_arith AShr (VU B8 200) (VU B8 3) = Val (VU B8 25) /\ value_int_rel RLt (VU B8 3) (VNumeric (TC 7 Auto)) = Val (VBool true) /\
  value_as B8 (VU B32 256) = Panic /\ value_as_char (VU B32 55300) = Val (VChar 65533).
Proof. repeat split. Qed.

(** ** C06 *)

(** [evaluates_to e s n]: evaluating [e] succeeds with a value used as the
    unsigned number [n]. For expressions with no bit operation the claim holds
    as it stands... *)
Fixpoint no_bitops (e : expr) : Prop :=
  match e with
  | EAs _ a | EUnary _ a => no_bitops a
  | EArith op a b => op <> AShl /\ op <> AShr /\ op <> ABitOr /\ op <> ABitAnd /\ no_bitops a /\ no_bitops b
  | _ => True
  end.
Theorem C06_arithmetic {D} e (s : scope D) n b : no_bitops e ->
  evaluates_to e s n -> expr_bounds e = Val b -> (bmin b <= n)%N /\ (forall m, bmax b = Some m -> (n <= m)%N).
Proof.
  intros Ht Hn Hb. apply contains_spec, bcontains_within. eapply expr_bounds_sound; eauto. clear Hn Hb n b.
  induction e; cbn in *; auto. destruct Ht as (N1 & N2 & N3 & N4 & T1 & T2). repeat split; auto. destruct op; tauto.
Qed.
Print Assumptions C06_arithmetic.
(** ... and with the bit operators under the conditions of [tame]: shift amounts
    below [2^32] and no bit lost on the left, bounds below [2^63] for [|] and [&],
    and no [&] of an exactly known with a not exactly known operand. Missing:
    those cases (refuted below). *)
Theorem C06_bounds_partial {D} e (s : scope D) n b : tame e s ->
  evaluates_to e s n -> expr_bounds e = Val b -> (bmin b <= n)%N /\ (forall m, bmax b = Some m -> (n <= m)%N).
Proof. intros Ht Hn Hb. apply contains_spec, bcontains_within. eapply expr_bounds_sound; eauto. Qed.
Print Assumptions C06_bounds_partial.

(** [5 & (x as u8)] *)
Theorem C06_bitand_refuted : exists e (s : scope unit) n b,
  evaluates_to e s n /\ expr_bounds e = Val b /\ bcontains b n = false.
Proof.
  exists (EArith ABitAnd (EU B8 5) (EAs B8 (EVar 1%N))), (SSingle SEmpty 1%N (VU B8 5)), 5%N, (Bnd 0 (Some 0%N)).
  split; [exists (VU B8 5); split; vm_compute; reflexivity|split; vm_compute; reflexivity].
Qed.
Print Assumptions C06_bitand_refuted.
(** [200u8 << 1] *)
Theorem C06_shl_refuted : exists e (s : scope unit) n b,
  evaluates_to e s n /\ expr_bounds e = Val b /\ bcontains b n = false.
Proof.
  exists (EArith AShl (EU B8 200) (EU B8 1)), SEmpty, 144%N, (bexact 400).
  split; [exists (VU B8 144); split; vm_compute; reflexivity|split; vm_compute; reflexivity].
Qed.
Print Assumptions C06_shl_refuted.
(** [4u64 >> (y + 1)] with [y = 2^32 - 1] *)
Theorem C06_shr_refuted : exists e (s : scope unit) n b,
  evaluates_to e s n /\ expr_bounds e = Val b /\ bcontains b n = false.
Proof.
  exists (EArith AShr (EU B64 4) (EUnary UIntSucc (EVar 1%N))), (SSingle SEmpty 1%N (VU B64 4294967295)), 4%N, (Bnd 0 (Some 2%N)).
  split; [exists (VU B64 4); split; vm_compute; reflexivity|split; vm_compute; reflexivity].
Qed.
Print Assumptions C06_shr_refuted.
(** Computing the bounds can itself panic, e.g. [x | 2^63]. *)
Theorem C06_no_panic_refuted : exists e (s : scope unit) n, evaluates_to e s n /\ expr_bounds e = Panic.
Proof.
  exists (EArith ABitOr (EAs B64 (EVar 1%N)) (EU B64 1)), (SSingle SEmpty 1%N (VU B8 4)), 5%N.
  split; [|vm_compute; reflexivity]. exists (VU B64 5). split; vm_compute; reflexivity.
Qed.
Print Assumptions C06_no_panic_refuted.
Example C06_example :
  let e := EArith ABitOr (EArith AMul (EAs B8 (EVar 1%N)) (EU B8 2)) (EU B8 1) in
  let s := SSingle (D := unit) SEmpty 1%N (VU B16 100) in
  tame e s /\ evaluates_to e s 201%N /\ expr_bounds e = Val (Bnd 1 (Some 511%N)).
Proof.
  cbv zeta. split; [|split].
  - cbn [tame]. split; [split; [exact I|split; exact I]|split; [exact I|]].
    intros ba bb H1 H2. vm_compute in H1, H2. injection H1 as <-. injection H2 as <-.
    unfold small. vm_compute. split; split; reflexivity.
  - exists (VU B8 201). split; vm_compute; reflexivity.
  - vm_compute. reflexivity.
Qed.

(** ** C42 *)

Theorem C42_in_range {D} e (s : scope D) v :
  wfe e -> (forall x u, get_value x s = Some u -> wfv u) -> eval e s = Val v -> wfv v.
Proof. intros He Hs H. exact (proj1 (eval_wf e) D s v He Hs H). Qed.
Print Assumptions C42_in_range.
(** Pattern matching hands out parts of the matched value only. *)
Theorem C42_matching {D} (s s' : scope D) p v :
  (forall x u, get_value x s = Some u -> wfv u) -> wfv v -> vmatches v s p = Some s' ->
  forall x u, get_value x s' = Some u -> wfv u.
Proof. exact (wfs_matches s s' p v). Qed.
Print Assumptions C42_matching.
Example C42_example :
  let e := EFlatMap (ELambda 2%N (ESeq [EAsChar (EVar 2%N); EArith AShl (EVar 2%N) (EU B8 1)])) (EVar 1%N) in
  let s := SSingle (D := unit) SEmpty 1%N (VSeq (Strict [VU B8 200; VU B8 3])) in
  wfe e /\ wfs s /\ eval e s = Val (VSeq (Strict [VChar 200; VU B8 144; VChar 3; VU B8 6])).
Proof.
  cbv zeta. split; [|split].
  - vm_compute. intuition congruence.
  - intros x u. cbn [get_value]. destruct (N.eqb 1 x); [|discriminate]. intros [= <-]. vm_compute. intuition congruence.
  - vm_compute. reflexivity.
Qed.
