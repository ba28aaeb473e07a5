(** C80: the machine types given to a numeric expression. *)
From Verif Require Import Base BoundsModel NumericModel NumericProps ValueModel BaseSetModel UnifyModel UnifyProps NumCodeModel NumCodeSpec NumCodeProps NumInferModel NumInferSpec NumInferProofs NumInferSound.
Open Scope nat_scope.

(** ** Which types *)

(** An expression is given types exactly if there is only one right way to give it
    types, and then those, whatever the order of the hash tables. *)
Theorem C80_exact ho e te : infer_types ho e = Some te <-> only_typing e te.
Proof. exact (infer_types_only ho e te). Qed.
Print Assumptions C80_exact.

(** If the engine reports an error there is no right way at all. *)
Theorem C80_error ho e : infer_num ho e engine0 = EErr -> forall te, nerase te = e -> ~ well_typed te.
Proof.
  intros E te <- W. pose proof (infer_spec ho (nerase te) engine0 engine0_ewf) as S. rewrite E in S.
  apply (S (assigned te)); [apply engine0_sat|]. cbn [engine0 ecs length]. rewrite (assigned_build _ W). exact W.
Qed.
Print Assumptions C80_error.

(** No assertion of the engine fails and no index is out of range. *)
Theorem C80_no_panic ho e : infer_num ho e engine0 <> EPanic.
Proof. exact (infer_never_panics ho e). Qed.
Print Assumptions C80_no_panic.

(** An expression that declares a representation is of that type. *)
Lemma declared_type te d : well_typed te -> declared (nerase te) = Some d -> ntype te = d.
Proof.
  destruct te as [t c|t s op out l r|t s op out a|t s out sem a|t x]; cbn [well_typed nerase declared ntype].
  - destruct (tc_rep c); intros W E; congruence.
  - intros [_ [M [L [R _]]]] E. destruct out as [m|]; [injection E as <-; apply M; reflexivity|].
    unfold operand_ok in *. destruct (declared (nerase l)) as [dl|]; [injection E as <-; symmetry; apply L; reflexivity|].
    rewrite E in R. symmetry. apply R. reflexivity.
  - intros [_ [M [L _]]] E. destruct out as [m|]; [injection E as <-; apply M; reflexivity|].
    unfold operand_ok in *. rewrite E in L. symmetry. apply L. reflexivity.
  - intros [_ [-> _]] E. congruence.
  - intros [].
Qed.
Theorem C80_declared ho e te d : infer_types ho e = Some te -> declared e = Some d -> ntype te = d.
Proof. intros H. apply C80_exact in H. destruct H as [<- [W _]]. apply declared_type. exact W. Qed.
Print Assumptions C80_declared.

(** ** What the typed expression computes *)

Lemma typed_follows vr te : well_typed te -> Follows vr te (rep_of (declared (nerase te))).
Proof.
  induction te as [t c|t s op out l IHl r IHr|t s op out a IHa|t s out sem a IHa|t x]; cbn [well_typed nerase declared].
  - destruct c as [z [|p]]; cbn; intro H; apply f_const; [left|right]; congruence.
  - intros [-> [M [L [R [Wl Wr]]]]]. specialize (IHl Wl). specialize (IHr Wr). destruct out as [m|].
    + rewrite (M m eq_refl) in *. exact (f_bin_to vr m op l r _ _ IHl IHr).
    + assert (TL : ntype l = t). { unfold operand_ok in L. destruct (declared (nerase l)) as [d|] eqn:E; [|exact L]. rewrite <- (L eq_refl). exact (declared_type _ _ Wl E). }
      assert (TR : ntype r = t). { unfold operand_ok in R. destruct (declared (nerase r)) as [d|] eqn:E; [|exact R]. rewrite <- (R eq_refl). exact (declared_type _ _ Wr E). }
      pose proof (f_bin vr t op l r _ _ IHl IHr TL TR) as F. destruct (declared (nerase l)); exact F.
  - intros [-> [M [L Wa]]]. specialize (IHa Wa). destruct out as [m|].
    + rewrite (M m eq_refl) in *. exact (f_un_to vr m op a _ IHa).
    + apply f_un; [exact IHa|]. unfold operand_ok in L. destruct (declared (nerase a)) as [d|] eqn:E; [|exact L]. rewrite <- (L eq_refl). exact (declared_type _ _ Wa E).
  - intros [-> [-> [L Wa]]]. apply (f_cast vr out sem a _ (IHa Wa)). intro E. apply L. destruct (declared (nerase a)); [discriminate|reflexivity].
  - intros [].
Qed.
(** The value of the typed expression, where every part is a value of its type, is what
    the interpreter computes of the expression, and the representation is the declared
    one. *)
Theorem C80_value ho e te env look z : infer_types ho e = Some te ->
  (Computes false env te z <->
   neval (look_of look) e = NOk (TC z (rep_of (declared e))) /\
   forall p, part p te -> exists w r, neval (look_of look) (nerase p) = NOk (TC w r) /\ fits (ntype p) w).
Proof.
  intros H. apply C80_exact in H. destruct H as [<- [W _]].
  refine (C70_interpreter (fun _ => Auto) env look te _ z (typed_follows _ te W) _). discriminate.
Qed.
Print Assumptions C80_value.

(** ** Statements that are false *)

(** A constant is not compared with the representation it declares. *)
Theorem C80_constants_refuted : exists e t c, tc_rep c = Concrete t /\ ~ holds t (tc_val c) /\
  forall ho, infer_types ho e = Some (TConst t c).
Proof.
  exists (NConst (TC 300 (Concrete rU8))), rU8, (TC 300 (Concrete rU8)). split; [reflexivity|]. split; [unfold holds; cbn; lia|].
  intro ho. vm_compute. reflexivity.
Qed.
Print Assumptions C80_constants_refuted.
(** An expression can have right types and be given none: where there are several, none
    is preferred. *)
Theorem C80_several_refuted : exists e te, nerase te = e /\ well_typed te /\ forall ho, infer_types ho e = None.
Proof.
  exists (NBin NAdd None (NConst (TC 1 Auto)) (NConst (TC 2 Auto))),
    (TBin rU8 (rU8, rU8, rU8) NAdd None (TConst rU8 (TC 1 Auto)) (TConst rU8 (TC 2 Auto))).
  split; [reflexivity|]. split; [|intro ho; vm_compute; reflexivity].
  cbn. unfold holds, operand_ok. cbn. intuition (try lia; discriminate).
Qed.
Print Assumptions C80_several_refuted.
(** The engine can succeed although there are no right types: that a number below zero
    and one of 64 bits have no common type shows only when the types are read. *)
Theorem C80_success_refuted : exists e, (forall te, nerase te = e -> ~ well_typed te) /\
  forall ho, exists st x, infer_num ho e engine0 = EOk st x.
Proof.
  exists (NBin NAdd None (NConst (TC (-1) Auto)) (NConst (TC 9223372036854775808 Auto))). split.
  - intros te E W. destruct te as [|t s op out l r| | |]; try discriminate. cbn in E. injection E as -> -> El Er.
    destruct l as [tl cl| | | |]; try discriminate. destruct r as [tr cr| | | |]; try discriminate. cbn in El, Er. injection El as ->. injection Er as ->.
    cbn in W. unfold operand_ok in W. cbn in W. destruct W as [_ [_ [-> [-> [H1 H2]]]]]. unfold holds in *. destruct t as [[] []]; cbn in *; lia.
  - intro ho. do 2 eexists. vm_compute. reflexivity.
Qed.
Print Assumptions C80_success_refuted.
(** Whether two variables can be equated depends on the order they are given in: a
    debug assertion on a variable and an alias of a later one tests the wrong one.
    Inference of expressions never comes to it (C80_no_panic). *)
Theorem C80_equate_refuted ho : exists st, ewf st /\ unite ho 0 2 st = EPanic /\ exists st', unite ho 2 0 st = EOk st' tt.
Proof.
  destruct (unite ho 1 2 (new_nvar (new_nvar (new_nvar engine0)))) as [st []| |] eqn:E; [| |].
  - exists st. split.
    + assert (W : ewf (new_nvar (new_nvar (new_nvar engine0)))) by (do 3 apply new_ewf; apply engine0_ewf).
      destruct (unite_spec ho (new_nvar (new_nvar (new_nvar engine0))) 1 2 W eq_refl eq_refl ltac:(lia)) as [S _].
      rewrite E in S. apply S.
    + vm_compute in E. injection E as <-. split; [vm_compute; reflexivity|].
      assert (P : shuffle ho [2] = [2]).
      { pose proof (Permutation.Permutation_sym (shuffle_perm ho _ [2])) as P. apply Permutation.Permutation_length_1_inv in P. exact P. }
      unfold unite. cbn -[shuffle]. unfold recanonicalize. cbn -[shuffle]. rewrite P. eexists. reflexivity.
  - vm_compute in E. discriminate.
  - vm_compute in E. discriminate.
Qed.
Print Assumptions C80_equate_refuted.

(** A sum of constants without a representation, one too great for a signed type, under
    a cast, and added to a constant that has one. *)
Example C80_nonvacuous ho :
  let e := NBin NMul (Some rI64) (NConst (TC 3 (Concrete rU8))) (NBin NAdd None (NConst (TC (-7) Auto)) (NUn NAbs None (NConst (TC 2 Auto)))) in
  let te := TBin rI64 (rU8, rI64, rI64) NMul (Some rI64) (TConst rU8 (TC 3 (Concrete rU8)))
    (TBin rI64 (rI64, rI64, rI64) NAdd None (TConst rI64 (TC (-7) Auto)) (TUn rI64 (rI64, rI64) NAbs None (TConst rI64 (TC 2 Auto)))) in
  infer_types ho e = Some te /\ only_typing e te /\
  infer_types ho (NBin NAdd None (NConst (TC 1 Auto)) (NConst (TC 9223372036854775808 Auto))) =
    Some (TBin rU64 (rU64, rU64, rU64) NAdd None (TConst rU64 (TC 1 Auto)) (TConst rU64 (TC 9223372036854775808 Auto))).
Proof.
  intros e te.
  assert (U : only_typing e te).
  { split; [reflexivity|]. split; [cbn; unfold holds, operand_ok; cbn; intuition (try lia; try discriminate; congruence)|].
    intros te' E W. destruct te' as [|t s op out l r| | |]; try discriminate. cbn in E. injection E as -> -> El Er.
    destruct l as [tl cl| | | |]; try discriminate. cbn in El. injection El as ->.
    destruct r as [|t2 s2 op2 out2 l2 r2| | |]; try discriminate. cbn in Er. injection Er as -> -> El2 Er2.
    destruct l2 as [tl2 cl2| | | |]; try discriminate. cbn in El2. injection El2 as ->.
    destruct r2 as [| |t3 s3 op3 out3 a3| |]; try discriminate. cbn in Er2. injection Er2 as -> -> E3.
    destruct a3 as [t4 c4| | | |]; try discriminate. cbn in E3. injection E3 as ->.
    cbn in W. unfold operand_ok in W. cbn in W.
    destruct W as [-> [M [_ [-> [-> [-> [_ [-> [-> [_ [-> [_ [-> _]]]]]]]]]]]]]. rewrite (M _ eq_refl). reflexivity. }
  split; [apply C80_exact; exact U|]. split; [exact U|]. vm_compute. reflexivity.
Qed.
