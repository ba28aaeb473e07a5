(** C63: the types of the typed trees that code is generated from. *)
From Verif Require ByteSetModel.
From Verif Require Import Base BoundsModel DataModel NumericModel BaseSetModel BaseSetSpec UnifyModel UnifyAlias UnifyComplete UnifyRequests UnifyProps ReifyModel ReifySpec ReifyProps
  TypeModel ValueModel ValueProofs ValueWfProofs FormatModel MatchTreeModel DecoderModel FormatSpec MatchBoundsProofs UnifySpec UnifyBase InferModel InferSpec.
From Verif Require Import TypeSpec FormatProps ExactProps InferSafe InferWf InferProofs InferProps ElabModel ElabSpec ElabLock ElabProofs.
From Verif Require Import ReifySpec.
Open Scope nat_scope.

Lemma rest_fw ask ds (D1 : forall k it tys, nth_error ds k = Some (it, tys) -> forallb definite tys = true)
  (D2 : forall k it tys, nth_error ds k = Some (it, tys) -> everywhere (fun g => tidy_node ds g = true) (it_format it)) d : forall ks n, fw n (gen_rest ask ds d ks) (fun _ _ => True).
Proof.
  induction ks as [|k ks IH]; intros n; cbn [gen_rest]; [apply fw_ret; auto|]. intros g vs g1 W L E. destruct (nget k (lvls g)); [exact (IH n g vs g1 W L E)|].
  revert g vs g1 W L E. change (fw n (let* it := glift (nth_error ds k) in let* v := gen_format ask ds (gen_level ask ds d) (Ctx [] [] []) (it_format (fst it)) in let* vs := gen_rest ask ds d ks in gret (v :: vs)) (fun _ _ => True)).
  destruct (nth_error ds k) as [[it tys]|] eqn:En; [|intros g v g1 _ _ E; discriminate E]. cbn [glift].
  change (fw n (let* v := gen_format ask ds (gen_level ask ds d) (Ctx [] [] []) (it_format it) in let* vs := gen_rest ask ds d ks in gret (v :: vs)) (fun _ _ => True)).
  eapply fw_bind; [apply (proj1 (format_fw ask ds D1 _ (level_fw ask ds D1 D2 d) (it_format it)) (D2 _ _ _ En)); split; constructor|intros n1 v L1 V1].
  eapply fw_bind; [apply IH|intros n2 vs L2 _]. apply fw_ret. auto.
Qed.
Lemma module_proper ask ds depth f r g :
  (forall k it tys, nth_error ds k = Some (it, tys) -> forallb definite tys = true /\ everywhere (fun g => tidy_node ds g = true) (it_format it)) ->
  everywhere (fun g => tidy_node ds g = true) f ->
  gen_module ask ds depth f (GS 0 [] []) = Some (r, g) -> proper_history 0 (rev (reqs g)).
Proof.
  intros Hd Hf E. assert (W : wfg (GS 0 [] [])) by (split; [exact I|split; [reflexivity|constructor]]).
  assert (D1 : forall k it tys, nth_error ds k = Some (it, tys) -> forallb definite tys = true) by (intros; eapply Hd; eassumption).
  assert (D2 : forall k it tys, nth_error ds k = Some (it, tys) -> everywhere (fun g => tidy_node ds g = true) (it_format it)) by (intros; eapply Hd; eassumption).
  assert (K : fw 0 (gen_module ask ds depth f) (fun _ _ => True)).
  { eapply fw_bind; [apply (proj1 (format_fw ask ds D1 _ (level_fw ask ds D1 D2 depth) f) Hf); split; constructor|intros n1 v L1 V1].
    eapply fw_bind; [apply (rest_fw ask ds D1 D2)|intros n2 vs L2 _]. apply fw_ret. auto. }
  destruct (K _ _ _ W (le_n _) E) as ((W1 & _) & _). exact W1.
Qed.

(** ** C63 *)

Section Trees.
Context (ho : hash_order) (n depth : nat).

(** The numbers that elaboration gives to the nodes of the trees are those of the
    variables of inference: the roots have the variables of the format and of the
    levels that it does not call. *)
Theorem C63_lockstep_partial : forall ds f v vs rs t ts,
  simple_module ds -> simple_format f ->
  module_requests ho n depth ds f = Some (v, vs, rs) -> elab_module ds depth f = Some (t, ts) ->
  top t = v /\ map top ts = vs.
Proof.
  intros ds f v vs rs t ts Hm Hf E F. unfold module_requests in E. unfold elab_module in F. destruct (gen_module _ _ _ _ _) as [[r g]|] eqn:Eg; [|discriminate E]. injection E as -> <-.
  match type of F with match ?o with _ => _ end = _ => destruct o as [[r' st]|] eqn:Ef; [|discriminate F] end. injection F as ->.
  assert (J : inv (GS 0 [] []) (ES 0 [])) by (split; [reflexivity|constructor]).
  destruct (module_lock (engine ho n) ds Hm depth f Hf _ _ _ _ _ _ J Eg Ef) as (_ & K1 & K2). cbn [fst snd] in *. split; [congruence|]. clear - K2. induction K2; cbn; [reflexivity|]. now f_equal.
Qed.
(** Whatever types the requests allow the variables to have, the trees with the types of
    the variables for the numbers are derivations: of the format and of all levels,
    those it calls ([L]) and the others ([ks]). Missing: modules and formats that are
    not tidy, and accumulators declared with unions. *)
Theorem C63_types_partial : forall ds f v vs rs t ts s,
  tidy_module ds -> tidy_format ds f -> simple_module ds -> simple_format f ->
  module_requests ho n depth ds f = Some (v, vs, rs) -> elab_module ds depth f = Some (t, ts) ->
  Forall (meets s) rs ->
  exists L ks, af ds L [] [] f (tmap s t) (s v) /\ module_trees ds L /\
    Forall2 (fun k t => exists it tys, nth_error ds k = Some (it, tys) /\ af ds L [] [] (it_format it) t (top t)) ks (map (tmap s) ts) /\
    forall k, k < length ds -> In k ks \/ exists t, L k t.
Proof.
  intros ds f v vs rs t ts s Hm Hf Sm Sf E F M. unfold module_requests in E. unfold elab_module in F. destruct (gen_module _ _ _ _ _) as [[r g]|] eqn:Eg; [|discriminate E]. injection E as -> <-.
  match type of F with match ?o with _ => _ end = _ => destruct o as [[r' st]|] eqn:Ef; [|discriminate F] end. injection F as ->.
  eapply elab_rules; [intros; eapply engine_sound; eassumption| | |exact Sm|exact Hf|exact Sf|exact Eg|exact Ef| |].
  - intros k it tys Hk. apply (Hm _ _ _ Hk).
  - intros k it tys Hk. apply (Hm _ _ _ Hk).
  - rewrite Forall_forall in *. intros x Hr. apply M. rewrite <- in_rev. exact Hr.
  - eapply module_proper; [|exact Hf|exact Eg]. intros k it tys Hk. destruct (Hm _ _ _ Hk) as (H1 & H2 & H3). auto.
Qed.
(** So are the trees with the types that are reported for the numbers, if nothing is
    left to be resolved and all variables get types. *)
Theorem C63_reported_partial : forall ds f v vs rs t ts st (r : nat -> avt),
  tidy_module ds -> tidy_format ds f -> simple_module ds -> simple_format f ->
  module_requests ho n depth ds f = Some (v, vs, rs) -> elab_module ds depth f = Some (t, ts) ->
  perform_all ho n rs empty_state = UOk st tt -> again st = false ->
  (forall x, x < length (cons st) -> reify ho n st (UVar x) = ReifyModel.ROk (r x)) ->
  let s := fun x => plain (r x) in
  exists L ks, af ds L [] [] f (tmap s t) (s v) /\ module_trees ds L /\
    Forall2 (fun k t => exists it tys, nth_error ds k = Some (it, tys) /\ af ds L [] [] (it_format it) t (top t)) ks (map (tmap s) ts) /\
    forall k, k < length ds -> In k ks \/ exists t, L k t.
Proof.
  intros ds f v vs rs t ts st r Hm Hf Sm Sf E F Ep A Hr s. eapply C63_types_partial; try eassumption.
  apply (C61_reported_meets_partial ho n rs st) with (ho' := ho) (n' := n); try assumption.
  unfold module_requests in E. destruct (gen_module _ _ _ _ _) as [[x g]|] eqn:Eg; [|discriminate E]. injection E as -> <-.
  eapply module_proper; [|exact Hf|exact Eg]. intros k it tys Hk. destruct (Hm _ _ _ Hk) as (H1 & H2 & H3). auto.
Qed.
End Trees.
(** A derivation is for the type at its root, and every part of it has the type at its
    own root by the rules of [InferSpec]. *)
Theorem C63_derivations : forall ds L f G D t T, af ds L G D f t T -> module_trees ds L ->
  top t = T /\ exists L', ftype ds L' G (map (fun d : label * gtree => (fst d, top (snd d))) D) f T /\ module_types ds L' /\ forall k u, L k u -> L' k (top u).
Proof.
  intros ds L f G D t T A M. destruct (af_type ds L f G D t T A) as [A1 A2]. split; [exact A2|]. exists (fun k T => exists t, L k t /\ top t = T). split; [exact A1|]. split; [now apply trees_types|]. eauto.
Qed.

(** ** Examples *)

Example C63_nonvacuous : simple_module inferred_module /\ simple_format inferred_format /\
  exists v vs rs st r,
    module_requests in_order 60 5 inferred_module inferred_format = Some (v, vs, rs) /\ perform_all in_order 60 rs empty_state = UOk st tt /\ again st = false /\
    (forall x, x < length (cons st) -> reify in_order 60 st (UVar x) = ReifyModel.ROk (r x)) /\
    exists t, elab_module inferred_module 5 inferred_format = Some (t, []) /\
      let u8 := GU B8 in let bs := GUnion [(20%N, GTuple []); (21%N, u8)] in let R := GRecord [(1%N, u8); (2%N, GSeq bs)] in
      tmap (fun x => plain (r x)) t =
        Tn R [Tn u8 [];
              Tn R [Tn (GSeq bs) [Tn u8 []; Tn (GSeq bs) [Tn u8 []; Tn bs [Tn u8 []; Tn u8 [Tn bs [Tn u8 []; Tn u8 []; Tn bs [Tn (GTuple []) []]; Tn u8 []; Tn bs [Tn u8 []]]]]]];
                    Tn R [Tn R [Tn u8 []; Tn (GSeq bs) []]]]].
Proof.
  split; [|split].
  - intros [|k] it H; cbn in H; [|destruct k; discriminate]. injection H as <-. intros g Hg; cbn in Hg; repeat (destruct Hg as [<-|Hg]; [reflexivity|]); contradiction.
  - intros g Hg; cbn in Hg; repeat (destruct Hg as [<-|Hg]; [reflexivity|]); contradiction.
  - set (q := module_requests in_order 60 5 inferred_module inferred_format). set (rs := match q with Some x => snd x | None => [] end).
    set (st := match perform_all in_order 60 rs empty_state with UOk st _ => st | _ => empty_state end).
    exists 0, [], rs, st, (fun x => match reify in_order 60 st (UVar x) with ReifyModel.ROk a => a | _ => ABool end).
    split; [vm_compute; reflexivity|]. split; [vm_compute; reflexivity|]. split; [vm_compute; reflexivity|]. split.
    { intros x Hx. assert (K : exists a, reify in_order 60 st (UVar x) = ReifyModel.ROk a) by (revert x Hx; apply all_reported; vm_compute; reflexivity). destruct K as (a & ->). reflexivity. }
    eexists. split; [vm_compute; reflexivity|]. vm_compute. reflexivity.
Qed.

(** ** Where it fails *)

(** An accumulator declared with a union inside another type takes a variable in
    inference that elaboration does not count: all later nodes get the types of others.
    Here the sequence that is folded gets the type of the accumulator's contents. *)
Theorem C63_accum_refuted : exists f v rs st r t,
  tidy_format [] f /\ module_requests in_order 60 5 [] f = Some (v, [], rs) /\ elab_module [] 5 f = Some (t, []) /\
  perform_all in_order 60 rs empty_state = UOk st tt /\ again st = false /\
  (forall x, x < length (cons st) -> reify in_order 60 st (UVar x) = ReifyModel.ROk (r x)) /\
  forall L T, ~ af [] L [] [] f (tmap (fun x => plain (r x)) t) T.
Proof.
  set (f := FCompute (ELeftFold (ELambda 1%N (ETupleProj (EVar 1%N) 0)) (ELiftOption None) (TOption (TUnion [(7%N, TTuple [])])) (ESeq [EU B8 1]))).
  set (q := module_requests in_order 60 5 [] f). set (rs := match q with Some x => snd x | None => [] end).
  set (st := match perform_all in_order 60 rs empty_state with UOk st _ => st | _ => empty_state end).
  exists f, 0, rs, st, (fun x => match reify in_order 60 st (UVar x) with ReifyModel.ROk a => a | _ => ABool end). eexists.
  split; [intros g Hg; cbn in Hg; repeat (destruct Hg as [<-|Hg]; [reflexivity|]); contradiction|].
  split; [vm_compute; reflexivity|]. split; [vm_compute; reflexivity|]. split; [vm_compute; reflexivity|]. split; [vm_compute; reflexivity|]. split.
  { intros x Hx. assert (K : exists a, reify in_order 60 st (UVar x) = ReifyModel.ROk a) by (revert x Hx; apply all_reported; vm_compute; reflexivity). destruct K as (a & ->). reflexivity. }
  intros L T H. match type of H with af _ _ _ _ _ ?t _ => let x := eval vm_compute in t in change t with x in H end.
  inversion H; subst. match goal with X : an _ (ELeftFold _ _ _ _) _ _ |- _ => inversion X; subst end. match goal with X : an _ (ESeq _) _ _ |- _ => inversion X end.
Qed.
(** A sequence without formats has a type, and no tree. *)
Theorem C63_empty_refuted : exists f T, typecheck in_order 60 5 [] f = Some (Some T) /\ forall depth, elab_module [] depth f = None.
Proof. exists (FUnion [FSequence []; FRepeat any_byte]). eexists. split; [vm_compute; reflexivity|]. intros depth. reflexivity. Qed.
(** So has an item that applies a dynamic format of its caller. *)
Theorem C63_apply_refuted : exists ds f T, typecheck in_order 60 5 ds f = Some (Some T) /\ forall depth, elab_module ds depth f = None.
Proof.
  exists [(Item [] [] (FApply 3%N), [])], (FDynamic 3%N (DHuffman (ESeq [EU B8 1]) None) (FItemVar 0 [] [])). eexists. split; [vm_compute; reflexivity|]. intros [|[|depth]]; reflexivity.
Qed.
(** An item with parameters that is not called has no type, and leaves the module
    without one, though the format has one. *)
Theorem C63_uncalled_refuted : exists ds f T, typecheck in_order 60 5 ds f = Some (Some T) /\ forall ho n depth, module_requests ho n depth ds f = None.
Proof.
  exists [(Item [1%N] [] (FCompute (EVar 1%N)), [TBase TBool])], FEndOfInput. eexists. split; [vm_compute; reflexivity|]. intros ho n depth. reflexivity.
Qed.

Print Assumptions C63_lockstep_partial.
Print Assumptions C63_types_partial.
Print Assumptions C63_reported_partial.
Print Assumptions C63_derivations.
Print Assumptions C63_accum_refuted.
Print Assumptions C63_empty_refuted.
Print Assumptions C63_apply_refuted.
Print Assumptions C63_uncalled_refuted.
