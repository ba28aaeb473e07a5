(** C57, C58: the text of generated expressions is read by Rust as what was meant,
    and computes what the interpreter computes. *)
From Coq Require Import String.
From Verif Require Import Base NumericModel ValueModel RecordModel PrintModel PrintSpec PrintReadProofs PrintProofs PrintEmbedProofs.
Open Scope nat_scope.

(** ** C57: reading back *)

(** A text is an expression in one way at most. *)
Theorem C57_unambiguous w e e' : parses_as w e -> parses_as w e' -> e = e'.
Proof. apply reads_unique. Qed.
(** Whatever the surroundings, a printable expression is printed as text that is
    read as that expression, and as no other. *)
Theorem C57_read_back_partial e : printable e = true -> forall p e', parses_as (show p e) e' <-> e' = e.
Proof.
  intros H p e'. assert (R : parses_as (show p e) e).
  { rewrite <- (printable_same e H) at 2. eapply reads_down; [|apply (prints_back e (printable_weaker e H))]. lia. }
  split; [intros R'; exact (C57_unambiguous _ _ _ R' R)|intros ->; exact R].
Qed.
(** With sums, bitwise or logical operations nested on the right, and with slices,
    the text is read as an expression of the same meaning, for every meaning that
    allows these operations to be regrouped. *)
Theorem C57_read_back_grouping_partial e : printable_up_to_grouping e = true -> forall p, exists r,
  (forall e', parses_as (show p e) e' <-> e' = r) /\
  (forall D (m : meaning D), regroupable m -> denote m r = denote m e).
Proof.
  intros H p. exists (regrouped e). split.
  - assert (R : parses_as (show p e) (regrouped e)) by (eapply reads_down; [|apply (prints_back e H)]; lia).
    intros e'. split; [intros R'; exact (C57_unambiguous _ _ _ R' R)|intros ->; exact R].
  - intros D m Hm. now apply denote_regrouped.
Qed.

(** ** C58: values *)

(** The text made of a format expression is read in one way; where the interpreter
    has a value for the expression, what Rust computes from the text is that value,
    if it computes one. *)
Theorem C58_same_value_partial (s : scope value) trace e x p :
  arithmetic e = true -> embed trace e = Some x ->
  (forall y v, In y (variables e) -> eval_value (EVar y) s = Val v -> machine_value v) ->
  exists r, (forall e', parses_as (show p x) e' <-> e' = r) /\
    forall v v', eval_value e s = Val v -> rust_eval (fun y => eval_value (EVar y) s) r = Val v' -> v' = v.
Proof.
  intros Ha He Hv. destruct (C57_read_back_grouping_partial x (embed_printable _ _ _ He Ha) p) as (r & Hr & Hm).
  exists r. split; [exact Hr|]. intros v v' Hi Hg.
  unfold rust_eval in Hg. rewrite (Hm _ _ (rust_regroupable _)) in Hg. fold (rust_eval (fun y => eval_value (EVar y) s) x) in Hg.
  destruct (agree_values s trace e x Hv Ha He v Hi) as (_ & [G|[G _]]); rewrite G in Hg; congruence.
Qed.
(** ... and it computes one when shifts are by constants below [2^32]. *)
Theorem C58_value_partial (s : scope value) trace e x p :
  arithmetic e = true -> shifts_by_constants e = true -> embed trace e = Some x ->
  (forall y v, In y (variables e) -> eval_value (EVar y) s = Val v -> machine_value v) ->
  exists r, (forall e', parses_as (show p x) e' <-> e' = r) /\
    forall v, eval_value e s = Val v -> rust_eval (fun y => eval_value (EVar y) s) r = Val v.
Proof.
  intros Ha Hs He Hv. destruct (C57_read_back_grouping_partial x (embed_printable _ _ _ He Ha) p) as (r & Hr & Hm).
  exists r. split; [exact Hr|]. intros v Hi.
  unfold rust_eval. rewrite (Hm _ _ (rust_regroupable _)). fold (rust_eval (fun y => eval_value (EVar y) s) x).
  destruct (agree_values s trace e x Hv Ha He v Hi) as (_ & [G|[_ G]]); [exact G|congruence].
Qed.

(** ** What does not hold *)

(** Printing and reading [e] gives [e']. *)
Definition read_as (e e' : rexpr) : Prop := forall r, parses_as (to_fragment e) r <-> r = e'.
Lemma read_as_printed e e' : printable e' = true -> to_fragment e = to_fragment e' -> read_as e e'.
Proof. intros H E r. rewrite E. exact (C57_read_back_partial e' H Atomic r). Qed.
Lemma read_as_paren e e' : printable e' = true -> to_fragment e = sym "(" :: to_fragment e' ++ [sym ")"] -> read_as e e'.
Proof.
  intros H E r. assert (R : parses_as (to_fragment e) e').
  { rewrite E. eapply (reads_down 14 0); [lia|]. apply R_parentheses. now apply (C57_read_back_partial e' H Atomic). }
  split; [intros R'; exact (C57_unambiguous _ _ _ R' R)|intros ->; exact R].
Qed.
Lemma not_read e : (forall n, match parse (40 + n) 0 (to_fragment e) with Some (_, []) => False | _ => True end) ->
  forall r, ~ parses_as (to_fragment e) r.
Proof.
  intros H r Hr. pose proof (found_exact 0 _ _ [] ltac:(lia) (proj1 all_found _ _ _ Hr) I I) as (n & E).
  specialize (H n). rewrite app_nil_r in E. rewrite E in H by lia. exact H.
Qed.
Definition xa : rexpr := XName (intern "a").
Definition xb : rexpr := XName (intern "b").
Definition xc : rexpr := XName (intern "c").

(** [a / (b / c)], [a - (b - c)], [a << (b << c)] and [a % (b / c)] lose their
    parentheses, and are read as other computations. *)
Theorem C57_right_operand_refuted :
  read_as (XBin ODiv xa (XBin ODiv xb xc)) (XBin ODiv (XBin ODiv xa xb) xc) /\
  read_as (XBin OSub xa (XBin OSub xb xc)) (XBin OSub (XBin OSub xa xb) xc) /\
  read_as (XBin OSub xa (XBin OAdd xb xc)) (XBin OAdd (XBin OSub xa xb) xc) /\
  read_as (XBin OShl xa (XBin OShl xb xc)) (XBin OShl (XBin OShl xa xb) xc) /\
  read_as (XBin ORem xa (XBin ODiv xb xc)) (XBin ODiv (XBin ORem xa xb) xc).
Proof. do 4 (split; [solve [apply read_as_printed; vm_compute; reflexivity | apply read_as_paren; vm_compute; reflexivity]|]). solve [apply read_as_printed; vm_compute; reflexivity | apply read_as_paren; vm_compute; reflexivity]. Qed.
(** A logical operation under a comparison loses its parentheses: [(a && b) == c]
    is read as [a && (b == c)]. *)
Theorem C57_logical_operand_refuted : read_as (XBin OEq (XBin OAnd xa xb) xc) (XBin OAnd xa (XBin OEq xb xc)).
Proof.
  assert (N : forall n l, l <= 14 -> reads l [TId n] (XName n)) by (intros n l Hl; eapply reads_down; [exact Hl|constructor]).
  assert (R : parses_as (to_fragment (XBin OEq (XBin OAnd xa xb) xc)) (XBin OAnd xa (XBin OEq xb xc))).
  { eapply (reads_down 14 0); [lia|]. apply (R_parentheses [TId (intern "a"); sym "&&"; TId (intern "b"); sym "=="; TId (intern "c")]).
    eapply (reads_down 3 0); [lia|]. apply (R_left [TId (intern "a")] xa OAnd [TId (intern "b"); sym "=="; TId (intern "c")]);
      [reflexivity|intros [E|E]; discriminate E|apply N; cbn; lia|].
    apply (R_compare [TId (intern "b")] xb OEq [TId (intern "c")]); [reflexivity|intros [E|E]; discriminate E| |]; apply N; cbn; lia. }
  intros r. split; [intros R'; exact (C57_unambiguous _ _ _ R' R)|intros ->; exact R].
Qed.
(** Comparisons of comparisons become text that is no expression. *)
Theorem C57_comparisons_refuted : forall r, ~ parses_as (to_fragment (XBin OEq (XBin OEq xa xb) xc)) r.
Proof. apply not_read. intros n. vm_compute. exact I. Qed.
(** [( *a).b], [( *a).b()], [( *a)[b]], [(&a)?] and a call of a field lose their
    parentheses too. *)
Theorem C57_receiver_refuted :
  read_as (XField (XDeref xa) (intern "b")) (XDeref (XField xa (intern "b"))) /\
  read_as (XMethod (XDeref xa) (intern "b") []) (XDeref (XMethod xa (intern "b") [])) /\
  read_as (XIndex (XDeref xa) xb) (XDeref (XIndex xa xb)) /\
  read_as (XTry (XBorrow xa)) (XBorrow (XTry xa)) /\
  read_as (XCall (XField xa (intern "b")) []) (XMethod xa (intern "b") []).
Proof. do 4 (split; [solve [apply read_as_printed; vm_compute; reflexivity | apply read_as_paren; vm_compute; reflexivity]|]). solve [apply read_as_printed; vm_compute; reflexivity | apply read_as_paren; vm_compute; reflexivity]. Qed.
(** A range from a range becomes text that is no expression. *)
Theorem C57_range_refuted : forall r, ~ parses_as (to_fragment (XRange (XRange xa xb) xc)) r.
Proof. apply not_read. intros n. vm_compute. exact I. Qed.

(** The interpreter's value, and that of the generated text *)
Definition generated_value (e : expr) (o : outcome value) : Prop := exists x r,
  embed 0 e = Some x /\ read_as x r /\ rust_eval (fun y => eval_value (EVar y) (@SEmpty value)) r = o.
Definition interpreted_value (e : expr) : outcome value := eval_value e (@SEmpty value).
Definition n8 (n : N) : expr := EU B8 n.
(** [8 / (4 / 2)] is 4 for the interpreter and 1 in generated code; [7 % (5 % 3)] is
    1 and 2; [1 << (1 << 2)] is 16 and 8. *)
Theorem C58_right_operand_refuted :
  (let e := EArith ADiv (n8 8) (EArith ADiv (n8 4) (n8 2)) in
   interpreted_value e = Val (VU B8 4) /\ generated_value e (Val (VU B8 1))) /\
  (let e := EArith ARem (n8 7) (EArith ARem (n8 5) (n8 3)) in
   interpreted_value e = Val (VU B8 1) /\ generated_value e (Val (VU B8 2))) /\
  (let e := EArith AShl (n8 1) (EArith AShl (n8 1) (n8 2)) in
   interpreted_value e = Val (VU B8 16) /\ generated_value e (Val (VU B8 8))).
Proof.
  cbv zeta. split; [|split]; (split; [vm_compute; reflexivity|]).
  - exists (XBin ODiv (XLit (LInt B8 8)) (XBin ODiv (XLit (LInt B8 4)) (XLit (LInt B8 2)))),
      (XBin ODiv (XBin ODiv (XLit (LInt B8 8)) (XLit (LInt B8 4))) (XLit (LInt B8 2))).
    split; [reflexivity|]. split; [apply read_as_printed|]; vm_compute; reflexivity.
  - exists (XBin ORem (XLit (LInt B8 7)) (XBin ORem (XLit (LInt B8 5)) (XLit (LInt B8 3)))),
      (XBin ORem (XBin ORem (XLit (LInt B8 7)) (XLit (LInt B8 5))) (XLit (LInt B8 3))).
    split; [reflexivity|]. split; [apply read_as_printed|]; vm_compute; reflexivity.
  - exists (XBin OShl (XLit (LInt B8 1)) (XBin OShl (XLit (LInt B8 1)) (XLit (LInt B8 2)))),
      (XBin OShl (XBin OShl (XLit (LInt B8 1)) (XLit (LInt B8 1))) (XLit (LInt B8 2))).
    split; [reflexivity|]. split; [apply read_as_printed|]; vm_compute; reflexivity.
Qed.
(** [16 * (16 * 0)] is 0 for the interpreter, and overflows in generated code. *)
Theorem C58_product_refuted :
  let e := EArith AMul (n8 16) (EArith AMul (n8 16) (n8 0)) in
  interpreted_value e = Val (VU B8 0) /\ generated_value e Panic.
Proof.
  split; [vm_compute; reflexivity|].
  exists (XBin OMul (XLit (LInt B8 16)) (XBin OMul (XLit (LInt B8 16)) (XLit (LInt B8 0)))),
    (XBin OMul (XBin OMul (XLit (LInt B8 16)) (XLit (LInt B8 16))) (XLit (LInt B8 0))).
  split; [reflexivity|]. split; [apply read_as_printed|]; vm_compute; reflexivity.
Qed.
(** The interpreter shifts by the amount modulo [2^32]; generated code panics. *)
Theorem C58_shift_refuted :
  let e := EArith AShl (EU B64 1) (EU B64 4294967296) in
  interpreted_value e = Val (VU B64 1) /\ generated_value e Panic.
Proof.
  split; [vm_compute; reflexivity|].
  exists (XBin OShl (XLit (LInt B64 1)) (XLit (LInt B64 4294967296))), (XBin OShl (XLit (LInt B64 1)) (XLit (LInt B64 4294967296))).
  split; [reflexivity|]. split; [apply read_as_printed|]; vm_compute; reflexivity.
Qed.
(** Where the interpreter panics, generated code may go on: 300 as an 8-bit number
    is 44, and the right operand of [&&] is not evaluated when the left is false. *)
Theorem C58_panics_refuted :
  (let e := EAs B8 (EU B16 300) in interpreted_value e = Panic /\ generated_value e (Val (VU B8 44))) /\
  (let e := EArith ABoolAnd (EBool false) (EIntRel REq (EArith ADiv (n8 1) (n8 0)) (n8 1)) in
   interpreted_value e = Panic /\ generated_value e (Val (VBool false))).
Proof.
  cbv zeta. split; (split; [vm_compute; reflexivity|]).
  - exists (XCast (XLit (LInt B16 300)) (intern "u8")), (XCast (XLit (LInt B16 300)) (intern "u8")).
    split; [reflexivity|]. split; [apply read_as_printed|]; vm_compute; reflexivity.
  - set (x := XBin OAnd (XLit (LBool false)) (XBin OEq (XBin ODiv (XLit (LInt B8 1)) (XLit (LInt B8 0))) (XLit (LInt B8 1)))).
    exists x, x. split; [reflexivity|]. split; [apply read_as_printed|]; vm_compute; reflexivity.
Qed.

(** ** The hypotheses are met *)

(** A sum with a difference on its right is not printable; the same the other way
    round is, under a product, a comparison, casts, calls and a closure. *)
Example C57_nonvacuous :
  let e := XNot (XBin OLt (XBin OMul (XBin OAdd xa (XBin OSub xb xc)) (XCast (XBin OShr xa xb) (intern "u16")))
                          (XBin OBitOr (XTry (XMethod (XTuple [xa; XClosure (intern "x") (XDeref (XField xb (intern "g")))]) (intern "f") [XIndex xa (XRange xb (XBin OAdd xc xa))])) xb)) in
  printable e = false /\
  let e' := XNot (XBin OLt (XBin OMul (XBin OAdd (XBin OSub xb xc) xa) (XCast (XBin OShr xa xb) (intern "u16")))
                          (XBin OBitOr (XTry (XMethod (XTuple [xa; XClosure (intern "x") (XDeref (XField xb (intern "g")))]) (intern "f") [XIndex xa (XRange xb (XBin OAdd xc xa))])) xb)) in
  printable e' = true /\
  printable_up_to_grouping (XSlice xa (XBin OAdd xa (XBin OAdd xb xc)) (XCall xb [XBin OAnd xa (XBin OAnd xb (XBin OOr xa xc))])) = true.
Proof. cbv zeta. repeat split; vm_compute; reflexivity. Qed.
Example C58_nonvacuous :
  let x := intern "x" in let y := intern "y" in
  let s := SSingle (SSingle (@SEmpty value) x (VMapped (VU B8 1) (VU B16 600))) y (VU B16 7) in
  let e := EArith ABoolAnd (EIntRel RLt (EArith AAdd (EVar x) (EArith AAdd (EArith AMul (EVar y) (EU B16 3)) (EU B16 1))) (EU B16 1000))
             (EUnary UBoolNot (EIntRel RGte (EAs B8 (EArith ABitAnd (EArith AShr (EVar x) (EU B16 3)) (EArith ASub (EUnary UIntSucc (EVar y)) (EU B16 1)))) (EU B8 9))) in
  arithmetic e = true /\ shifts_by_constants e = true /\ (exists r, embed 5 e = Some r) /\
  (forall z v, In z (variables e) -> eval_value (EVar z) s = Val v -> machine_value v) /\
  eval_value e s = Val (VBool true).
Proof.
  cbv zeta. split; [vm_compute; reflexivity|]. split; [vm_compute; reflexivity|]. split; [eexists; vm_compute; reflexivity|]. split.
  - intros z v Hz E. cbn [variables app In] in Hz. repeat (destruct Hz as [<-|Hz]); try contradiction;
      vm_compute in E; injection E as <-; left; eexists _, _; reflexivity.
  - vm_compute. reflexivity.
Qed.

Print Assumptions C57_unambiguous.
Print Assumptions C57_read_back_partial.
Print Assumptions C57_read_back_grouping_partial.
Print Assumptions C58_same_value_partial.
Print Assumptions C58_value_partial.
Print Assumptions C57_right_operand_refuted.
Print Assumptions C57_logical_operand_refuted.
Print Assumptions C57_comparisons_refuted.
Print Assumptions C57_receiver_refuted.
Print Assumptions C57_range_refuted.
Print Assumptions C58_right_operand_refuted.
Print Assumptions C58_product_refuted.
Print Assumptions C58_shift_refuted.
Print Assumptions C58_panics_refuted.
