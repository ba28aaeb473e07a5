(** C70: the code that is generated for numeric expressions. *)
From Coq Require Import String.
From Verif Require Import Base NumericModel NumericProps NumCodeModel NumCodeSpec NumCodeProofs.
From Verif Require UnifyModel UnifySpec UnifyProps InferModel InferProps NumCodeElab.
Open Scope Z_scope.

(** ** Whether there is code *)

(** The code of an expression is accepted by the compiler exactly when it uses no
    operation for which code is missing, and then it has the type of the expression. *)
Theorem C70_compiles vt e : well_signed vt e ->
  (rtype vt (synthesize e) = Some (ntype e) <-> available e) /\ (forall t, rtype vt (synthesize e) = Some t -> t = ntype e).
Proof.
  intros W. destruct (compiles vt e W) as [A B]. split; [split; [intros H; apply (B _ H)|exact A]|]. intros t H. apply (B _ H).
Qed.
Print Assumptions C70_compiles.

(** ** What the code returns *)

(** A value that the code returns is the value of the expression. *)
Theorem C70_returns vt env checks e z :
  well_signed vt e -> rtype vt (synthesize e) = Some (ntype e) -> (forall x t, vt x = Some t -> fits t (env x)) ->
  checks = true \/ nowhere own_negation e ->
  rrun checks env (synthesize e) = RRet z -> Computes true env e z.
Proof. intros W T V C. apply (proj1 (C70_compiles vt e W)) in T. exact (run_sound vt env checks e W T V C z). Qed.
Print Assumptions C70_returns.

(** The value of an expression is returned by the code. *)
Theorem C70_computes vt env checks e z :
  well_signed vt e -> rtype vt (synthesize e) = Some (ntype e) ->
  checks = false \/ nowhere unsigned_abs e ->
  Computes false env e z -> rrun checks env (synthesize e) = RRet z.
Proof. intros W T C. apply (proj1 (C70_compiles vt e W)) in T. exact (run_complete vt env checks e W T C z). Qed.
Print Assumptions C70_computes.

(** The code panics only where a machine integer is negated that has no negation. *)
Theorem C70_no_panic vt env checks e :
  well_signed vt e -> rtype vt (synthesize e) = Some (ntype e) -> (forall x t, vt x = Some t -> fits t (env x)) ->
  checks = false \/ nowhere may_overflow e ->
  rrun checks env (synthesize e) <> RCrash /\ (forall z, rrun checks env (synthesize e) = RRet z -> fits (ntype e) z).
Proof. intros W T V C. apply (proj1 (C70_compiles vt e W)) in T. exact (own_sub vt env checks e W T V C). Qed.
Print Assumptions C70_no_panic.

(** ** The interpreter *)

(** The value of a tree is what the interpreter computes for the expression, when
    everything it computes on the way is a value of the type of that part. *)
Theorem C70_interpreter vr env look e rep z :
  Follows vr e rep -> (forall x p, vr x = Concrete p -> look x = Some (env x, Concrete p)) ->
  (Computes false env e z <->
   neval (look_of look) (nerase e) = NOk (TC z rep) /\
   forall p, part p e -> exists w r, neval (look_of look) (nerase p) = NOk (TC w r) /\ fits (ntype p) w).
Proof.
  intros F L. split.
  - intros H. split; [apply C38_eval_exact; eapply computes_means; eassumption|]. intros p Hp. destruct (computes_parts vr env look L e rep z p F H Hp) as (w & r & M & Fw).
    exists w, r. split; [now apply C38_eval_exact|exact Fw].
  - intros (H & P). eapply means_computes; [exact L|exact F| |apply C38_eval_exact; exact H]. intros p Hp. destruct (P p Hp) as (w & r & M & Fw). exists w, r. split; [now apply C38_eval_exact|exact Fw].
Qed.
Print Assumptions C70_interpreter.

(** The code returns what the interpreter computes. *)
Theorem C70_same_value vt env look checks e rep z :
  well_signed vt e -> Follows (fun x => match vt x with Some p => Concrete p | None => Auto end) e rep ->
  rtype vt (synthesize e) = Some (ntype e) ->
  (forall x p, vt x = Some p -> look x = Some (env x, Concrete p) /\ fits p (env x)) ->
  nowhere may_overflow e -> nowhere signed_remainder e ->
  (rrun checks env (synthesize e) = RRet z <->
   neval (look_of look) (nerase e) = NOk (TC z rep) /\
   forall p, part p e -> exists w r, neval (look_of look) (nerase p) = NOk (TC w r) /\ fits (ntype p) w).
Proof.
  intros W F T V N1 N2.
  assert (O : nowhere own_negation e).
  { clear - N1. induction e as [t c|t s op out l IHl r IHr|t s op out e IH|t s out sem e IH|t x]; cbn [nowhere] in *; try (cbn; tauto).
    destruct N1 as (N & N1). split; [|auto]. intros H. apply N. destruct op; try destruct H. cbn. split; congruence. }
  assert (A : nowhere unsigned_abs e).
  { clear - N1. induction e as [t c|t s op out l IHl r IHr|t s op out e IH|t s out sem e IH|t x]; cbn [nowhere] in *; try (cbn; tauto).
    destruct N1 as (N & N1). split; [|auto]. intros H. apply N. destruct op; cbn in H |- *; tauto. }
  rewrite <- (C70_interpreter (fun x => match vt x with Some p => Concrete p | None => Auto end) env look e rep z F).
  - split; [|intros H; eapply C70_computes; eauto]. intros H. apply unsigned_rem; [exact N2|]. eapply C70_returns; eauto. intros x t X. now apply V.
  - intros x p X. destruct (vt x) as [q|] eqn:E; [|discriminate X]. injection X as <-. now apply V.
Qed.
Print Assumptions C70_same_value.

(** ** The types of the trees *)

(** The tree made for an expression is well signed and follows the representations of
    the expression, whatever types that meet what inference asks of them are given to
    its variables. *)
Theorem C70_inferred s ho n G e g v rep g1 :
  InferModel.gen_num (InferModel.engine ho n) G e g = Some ((v, rep), g1) ->
  Forall (UnifySpec.meets s) (InferModel.reqs g1) -> UnifySpec.proper_history 0 (rev (InferModel.reqs g1)) ->
  let ty u := match s u with UnifySpec.GInt p => Some p | _ => None end in
  let vt x := match InferModel.ulook x G with Some u => ty u | None => None end in
  exists t r, elab_tree ty e (InferModel.nv g) = Some (t, InferModel.nv g1) /\ nerase t = e /\ v = InferModel.nv g /\ s v = UnifySpec.GInt (ntype t) /\
    well_signed vt t /\ Follows (fun x => match vt x with Some p => Concrete p | None => Auto end) t r.
Proof.
  intros E M P ty vt. destruct (NumCodeElab.made_track s _ (InferProps.engine_sound ho n s) e G g (v, rep) g1 E (conj M P)) as (_ & Ev & t & r & E1 & E2 & E3 & E4 & _).
  cbn in Ev. exists t, r. split; [exact E1|]. split; [eapply elab_erase; exact E1|]. split; [exact Ev|]. split; [rewrite Ev; exact E2|]. split; [exact E3|exact E4].
Qed.
Print Assumptions C70_inferred.

(** ** Examples *)

(** [(x + 1 : u16) / 3 as u8], negated into [i32], for a byte [x]: widened, divided by
    a fallback into a narrower type, and by a function for signed types. *)
Definition ex_vt (x : label) : option mrep := if N.eqb x 0%N then Some rU8 else None.
Definition ex_sum : ntree := TBin rU16 (rU8, rU16, rU16) NAdd (Some rU16) (TVar rU8 0%N) (TConst rU16 (TC 1 Auto)).
Definition ex_div : ntree := TBin rU16 (rU16, rU16, rU16) NDiv None ex_sum (TConst rU16 (TC 3 Auto)).
Definition ex_cast : ntree := TCast rU8 (rU16, rU8) rU8 Arithmetic ex_div.
Definition ex_tree : ntree := TUn rI32 (rU8, rI32) NNegate (Some rI32) ex_cast.
Lemma ex_follows : Follows (fun x => match ex_vt x with Some p => Concrete p | None => Auto end) ex_tree (Concrete rI32).
Proof.
  refine (f_un_to _ rI32 NNegate ex_cast (Concrete rU8) (f_cast _ rU8 Arithmetic ex_div (Concrete rU16) _ _)); [|discriminate].
  refine (f_bin _ rU16 NDiv ex_sum (TConst rU16 (TC 3 Auto)) (Concrete rU16) Auto _ _ _ _); [|apply f_const; auto|reflexivity|reflexivity].
  refine (f_bin_to _ rU16 NAdd (TVar rU8 0%N) (TConst rU16 (TC 1 Auto)) (Concrete rU8) Auto _ _); [apply f_var; reflexivity|apply f_const; auto].
Qed.
Lemma ex_nowhere : nowhere may_overflow ex_tree /\ nowhere signed_remainder ex_tree.
Proof. cbn. intuition discriminate. Qed.
Example C70_nonvacuous :
  well_signed ex_vt ex_tree /\ rtype ex_vt (synthesize ex_tree) = Some rI32 /\
  synthesize ex_tree = RInvoke1 "neg_u8_i32" (RInvoke1 "cast_u16_u8" (RInvoke2 "div_u16" (RInvoke2 "add_u8_u16_u16" (RLocal 0%N) (RLiteral 1 rU16)) (RLiteral 3 rU16))) /\
  rrun true (fun _ => 255) (synthesize ex_tree) = RRet (-85) /\
  neval (look_of (fun _ => Some (255, Concrete rU8))) (nerase ex_tree) = NOk (TC (-85) (Concrete rI32)).
Proof. split; [cbn; repeat split; reflexivity|]. split; [vm_compute; reflexivity|]. split; [vm_compute; reflexivity|]. split; vm_compute; reflexivity. Qed.

(** The tree of [x + 1 : u16] is made from the requests for it, where [x] is a byte. *)
Definition ex_g : InferModel.gst := InferModel.GS 1 [UnifyModel.RType 0 (UnifyModel.UInt rU8); UnifyModel.RNew] [].
Definition ex_s : UnifySpec.assignment := fun v => UnifySpec.GInt (if existsb (Nat.eqb v) [0%nat; 2%nat] then rU8 else rU16).
Definition ex_rs : list UnifyModel.request :=
  let any := BaseSetModel.IZ (repeat (Some 7%nat) 8) in
  [UnifyModel.RPair 1 3; UnifyModel.RType 1 (UnifyModel.UInt rU16); UnifyModel.RIntset 3 any; UnifyModel.RIntset 3 any; UnifyModel.RNew;
   UnifyModel.RPair 2 0; UnifyModel.RIntset 2 any; UnifyModel.RNew; UnifyModel.RIntset 1 any; UnifyModel.RNew;
   UnifyModel.RType 0 (UnifyModel.UInt rU8); UnifyModel.RNew].
Example C70_inferred_nonvacuous :
  InferModel.gen_num (InferModel.engine UnifyProps.in_order 60) [(0%N, 0%nat)] (nerase ex_sum) ex_g = Some ((1%nat, Concrete rU16), InferModel.GS 4 ex_rs []) /\
  Forall (UnifySpec.meets ex_s) ex_rs /\ UnifySpec.proper_history 0 (rev ex_rs) /\
  elab_tree (fun u => match ex_s u with UnifySpec.GInt p => Some p | _ => None end) (nerase ex_sum) 1 = Some (ex_sum, 4%nat).
Proof.
  split; [vm_compute; reflexivity|]. split; [|split; [|reflexivity]].
  - unfold ex_rs. cbv zeta. repeat (apply Forall_cons; [first [exact I|reflexivity|(eexists; split; [|reflexivity]); eexists; reflexivity]|]). apply Forall_nil.
  - vm_compute. repeat match goal with |- _ /\ _ => split end; try exact I; try reflexivity; repeat constructor.
Qed.

(** ** Where it fails *)

(** What the interpreter computes for an expression of one variable, whose value is
    [x] of type [p] *)
Definition interprets (p : mrep) (x : Z) (e : ntree) (z : Z) (t : mrep) : Prop :=
  neval (look_of (fun _ => Some (x, Concrete p))) (nerase e) = NOk (TC z (Concrete t)).
Definition of_one (p : mrep) (e : ntree) : Prop :=
  well_signed (fun _ => Some p) e /\ exists rep, Follows (fun _ => Concrete p) e rep.

(** The sum of an [u64] and a byte, as an [u64], calls a function that does not exist. *)
Theorem C70_wide_refuted : exists p e z, of_one p e /\ interprets p 7 e z (ntype e) /\ fits (ntype e) z /\
  synthesize e = RInvoke2 "add_u64_u8_u64" (RLocal 0%N) (RLiteral 1 rU8) /\ rtype (fun _ => Some p) (synthesize e) = None.
Proof.
  exists rU64, (TBin rU64 (rU64, rU8, rU64) NAdd (Some rU64) (TVar rU64 0%N) (TConst rU8 (TC 1 (Concrete rU8)))), 8.
  split; [split; [cbn; auto|]|].
  - exists (Concrete rU64). refine (f_bin_to _ rU64 NAdd (TVar rU64 0%N) (TConst rU8 (TC 1 (Concrete rU8))) (Concrete rU64) (Concrete rU8) _ _); [apply f_var; reflexivity|apply f_const; auto].
  - split; [vm_compute; reflexivity|]. split; [apply fits_in; reflexivity|]. split; vm_compute; reflexivity.
Qed.
Print Assumptions C70_wide_refuted.
(** So does the negation of a byte as an [i8]. *)
Theorem C70_negate_refuted : exists p e z, of_one p e /\ interprets p 7 e z (ntype e) /\ fits (ntype e) z /\
  synthesize e = RInvoke1 "neg_u8_i8" (RLocal 0%N) /\ rtype (fun _ => Some p) (synthesize e) = None.
Proof.
  exists rU8, (TUn rI8 (rU8, rI8) NNegate (Some rI8) (TVar rU8 0%N)), (-7).
  split; [split; [cbn; auto|]|].
  - exists (Concrete rI8). refine (f_un_to _ rI8 NNegate (TVar rU8 0%N) (Concrete rU8) _). apply f_var; reflexivity.
  - split; [vm_compute; reflexivity|]. split; [apply fits_in; reflexivity|]. split; vm_compute; reflexivity.
Qed.
Print Assumptions C70_negate_refuted.
(** No expression with a successor or a predecessor compiles. *)
Theorem C70_successor_refuted vt t i out op e : op = NSucc \/ op = NPred -> well_signed vt (TUn t i op out e) -> rtype vt (synthesize (TUn t i op out e)) = None.
Proof.
  intros Ho W. destruct (rtype vt _) as [u|] eqn:E; [|reflexivity]. exfalso. destruct (compiles vt _ W) as [_ B]. destruct (B _ E) as [A _]. cbn in A. destruct A as [A _]. apply A. destruct Ho as [-> | ->]; exact I.
Qed.
Print Assumptions C70_successor_refuted.
(** A remainder by a negative number is a value of the code and an error of the
    interpreter. *)
Theorem C70_remainder_refuted : exists p e, of_one p e /\ rtype (fun _ => Some p) (synthesize e) = Some (ntype e) /\
  (forall checks, rrun checks (fun _ => 7) (synthesize e) = RRet 1) /\
  exists err, neval (look_of (fun _ => Some (7, Concrete p))) (nerase e) = NErr err.
Proof.
  exists rI16, (TBin rI16 (rI16, rI16, rI16) NRem None (TVar rI16 0%N) (TConst rI16 (TC (-2) Auto))).
  split; [split; [cbn; auto|]|].
  - exists (Concrete rI16). refine (f_bin _ rI16 NRem (TVar rI16 0%N) (TConst rI16 (TC (-2) Auto)) (Concrete rI16) Auto _ _ _ _); [apply f_var; reflexivity|apply f_const; auto|reflexivity|reflexivity].
  - split; [vm_compute; reflexivity|]. split; [intros []; vm_compute; reflexivity|]. eexists. vm_compute. reflexivity.
Qed.
Print Assumptions C70_remainder_refuted.
(** Without overflow checks the negation of the least number of a type is itself. *)
Theorem C70_own_negation_refuted : exists p e, of_one p e /\ rtype (fun _ => Some p) (synthesize e) = Some (ntype e) /\
  rrun false (fun _ => -128) (synthesize e) = RRet (-128) /\ rrun true (fun _ => -128) (synthesize e) = RCrash /\ interprets p (-128) e 128 p.
Proof.
  exists rI8, (TUn rI8 (rI8, rI8) NNegate None (TVar rI8 0%N)).
  split; [split; [cbn; auto|]|].
  - exists (Concrete rI8). refine (f_un _ rI8 NNegate (TVar rI8 0%N) (Concrete rI8) _ _); [apply f_var; reflexivity|reflexivity].
  - split; [vm_compute; reflexivity|]. split; [vm_compute; reflexivity|]. split; vm_compute; reflexivity.
Qed.
Print Assumptions C70_own_negation_refuted.
(** With overflow checks the absolute value of the least number panics, although the
    result is a value of its type. *)
Theorem C70_absolute_refuted : exists p e, of_one p e /\ rtype (fun _ => Some p) (synthesize e) = Some (ntype e) /\
  rrun true (fun _ => -128) (synthesize e) = RCrash /\ interprets p (-128) e 128 (ntype e) /\ fits (ntype e) 128.
Proof.
  exists rI8, (TUn rU8 (rI8, rU8) NAbs (Some rU8) (TVar rI8 0%N)).
  split; [split; [cbn; auto|]|].
  - exists (Concrete rU8). refine (f_un_to _ rU8 NAbs (TVar rI8 0%N) (Concrete rI8) _). apply f_var; reflexivity.
  - split; [vm_compute; reflexivity|]. split; [vm_compute; reflexivity|]. split; [vm_compute; reflexivity|]. apply fits_in. reflexivity.
Qed.
Print Assumptions C70_absolute_refuted.
