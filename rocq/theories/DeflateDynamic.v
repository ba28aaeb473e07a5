(** Proofs about the deflate format: code lengths and blocks with their own codes. *)
From Coq Require Import String.
From Verif Require ByteSetModel HuffmanModel HuffmanProofs.
From Verif Require Import Base BoundsModel DataModel NumericModel.
From Verif Require Import ValueModel FormatModel DecoderModel FormatSpec
  RecordModel TextModel RecordSpec RecordProofs DeflateModel DeflateSpec DeflateBits DeflateHuffman DeflateProofs DeflateBlocks.
Open Scope nat_scope.

(** ** Expanding code lengths *)
Definition last_opt (l : list nat) : option nat := match rev l with [] => None | x :: _ => Some x end.
Lemma last_opt_snoc l x : last_opt (l ++ [x]) = Some x.
Proof. unfold last_opt. now rewrite rev_app_distr. Qed.
Lemma last_opt_some l x : last_opt l = Some x -> exists l', l = l' ++ [x].
Proof.
  unfold last_opt. intros H. destruct (rev l) as [|y r] eqn:E; [discriminate|]. injection H as ->. exists (rev r).
  rewrite <- (rev_involutive l), E. reflexivity.
Qed.
Lemma last_opt_repeat l x n : n <> 0 -> last_opt (l ++ repeat x n) = Some x.
Proof.
  intros Hn. destruct n as [|n]; [contradiction|]. replace (repeat x (S n)) with (repeat x n ++ [x]); [rewrite app_assoc; apply last_opt_snoc|].
  clear. induction n as [|n IH]; [reflexivity|]. cbn [repeat app]. rewrite IH. reflexivity.
Qed.
(** What a symbol adds after [done]. *)
Definition added (done : list nat) (t : nat * N) : option (list nat) :=
  if Nat.eqb (fst t) 16 then option_map (fun l => repeat l (3 + N.to_nat (snd t))) (last_opt done)
  else if Nat.eqb (fst t) 17 then Some (repeat 0 (3 + N.to_nat (snd t)))
  else if Nat.eqb (fst t) 18 then Some (repeat 0 (11 + N.to_nat (snd t)))
  else Some [fst t].
Fixpoint expand (done : list nat) (ts : list (nat * N)) : option (list nat) :=
  match ts with
  | [] => Some done
  | t :: r => match added done t with Some l => expand (done ++ l) r | None => None end
  end.
Lemma expand_app done a b : expand done (a ++ b) = match expand done a with Some d => expand d b | None => None end.
Proof. revert done. induction a as [|t a IH]; intros done; [reflexivity|]. cbn [app expand]. destruct (added done t); [apply IH|reflexivity]. Qed.
Definition extra_width (sym : nat) : nat := if Nat.eqb sym 16 then 2 else if Nat.eqb sym 17 then 3 else if Nat.eqb sym 18 then 7 else 0.

Definition cl_is (t : nat * N) (v : value) : Prop :=
  exists fs c x, coerce_mapped v = VRecord fs /\ assoc (intern "code") fs = Some c /\ is B16 (N.of_nat (fst t)) c /\
    assoc (intern "extra") fs = Some x /\ is B8 (snd t) x.
Definition cl_fits (t : nat * N) : Prop := fst t < 19 /\ (snd t < 128)%N.
Definition lens_value (l : list nat) : list value := map (fun n => VU B8 (N.of_nat n)) l.
Definition last_value (done : list nat) : value := VOption (option_map (fun n => VU B8 (N.of_nat n)) (last_opt done)).
Lemma lens_repeat n k : lens_value (repeat n k) = repeat (VU B8 (N.of_nat n)) k.
Proof. unfold lens_value. induction k as [|k IH]; [reflexivity|]. cbn [repeat map]. now rewrite IH. Qed.

Lemma mapped_idem v : coerce_mapped (coerce_mapped v) = coerce_mapped v.
Proof. revert v. fix IH 1. intros v. destruct v; cbn [coerce_mapped]; try reflexivity; apply IH. Qed.
Lemma eval_value_idem {D} e (s : scope D) : omap coerce_mapped (eval_value e s) = eval_value e s.
Proof. unfold eval_value. destruct (eval e s); cbn [omap]; [now rewrite mapped_idem|reflexivity]. Qed.
Lemma eval_lambda_pair {D} a b body (s : scope D) u v : eval_lambda (lambda_tuple [a; b] body) s (VTuple [u; v]) =
  eval_value body (SMulti (SSingle s (intern "tuple_var") (VTuple [u; v])) [(intern a, EntVal u); (intern b, EntVal v)]).
Proof.
  unfold lambda_tuple, eval_lambda. rewrite <- (eval_value_idem body). unfold eval_value at 1. f_equal.
Qed.
Lemma eval_pair {D} a b (s : scope D) x y : eval_value a s = Val x -> eval_value b s = Val y -> eval_value (ETuple [a; b]) s = Val (VTuple [x; y]).
Proof. unfold eval_value. intros Ha Hb. cbn [eval omapM]. rewrite Ha, Hb. reflexivity. Qed.
Lemma eval_pair_panic {D} a b (s : scope D) : eval_value b s = Panic -> eval_value (ETuple [a; b]) s = Panic.
Proof. unfold eval_value. intros Hb. cbn [eval omapM]. rewrite Hb. destruct (omap coerce_mapped (eval a s)); reflexivity. Qed.
Lemma eval_dup {D} a b (s : scope D) w n y : eval_value a s = Val (VU w n) -> eval_value b s = Val y -> eval_value (EDup a b) s = Val (VSeq (Dup (N.to_nat n) y)).
Proof. unfold eval_value. intros Ha Hb. cbn [eval]. rewrite Ha, Hb. reflexivity. Qed.
(** One step of the expansion *)
Lemma expand_step {D} (s : scope D) t v done : cl_is t v -> cl_fits t ->
  obind (eval_lambda expand_cl_code s (VTuple [last_value done; v])) accum_pair =
  match added done t with Some l => Val (last_value (done ++ l), lens_value l) | None => Panic end.
Proof.
  intros (fs & c & x & Hv & Hc & Hci & Hx & Hxi) [H19 H128]. destruct t as [sym n]. cbn [fst snd] in *.
  unfold expand_cl_code. rewrite eval_lambda_pair. cbv zeta.
  set (s1 := SMulti (SSingle s (intern "tuple_var") (VTuple [last_value done; v])) [(intern "last-symbol", EntVal (last_value done)); (intern "cl-code-extra", EntVal v)]).
  assert (Hl : get_value (intern "last-symbol") s1 = Some (last_value done)) by reflexivity.
  assert (He : get_value (intern "cl-code-extra") s1 = Some v) by reflexivity.
  clearbody s1. clear s.
  assert (Hcode : eval (EAs B8 (proj (evar "cl-code-extra") "code")) s1 = Val (VU B8 (N.of_nat sym))).
  { eapply eval_as; [eapply eval_proj; [apply eval_var; exact He|exact Hv|exact Hc]|exact Hci|]. change (modulus B8) with 256%N. lia. }
  assert (Hextra : forall k s2, get_value (intern "cl-code-extra") s2 = Some v -> (k <= 11)%N ->
     eval (D := D) (EAs B32 (EArith AAdd (proj (evar "cl-code-extra") "extra") (EU B8 k))) s2 = Val (VU B32 (n + k))).
  { intros k s2 Hs2 Hk. eapply eval_as; [eapply eval_add; [eapply eval_proj; [apply eval_var; exact Hs2|exact Hv|exact Hx]|reflexivity|exact Hxi|reflexivity|]|reflexivity|].
    - change (modulus B8) with 256%N. lia.
    - change (modulus B32) with 4294967296%N. lia. }
  match goal with |- obind (eval_value (EMatch _ [(_, ?a); (_, ?b); (_, ?c); (_, ?d)]) _) _ = _ => set (e16 := a); set (e17 := b); set (e18 := c); set (ev := d) end.
  assert (Hfm : exists k, first_match (VU B8 (N.of_nat sym)) s1 0 [(PU B8 16, e16); (PU B8 17, e17); (PU B8 18, e18); (PBinding (intern "v"), ev)] =
     if Nat.eqb sym 16 then Some (k, SMulti s1 [], e16) else if Nat.eqb sym 17 then Some (k, SMulti s1 [], e17) else
     if Nat.eqb sym 18 then Some (k, SMulti s1 [], e18) else Some (k, SMulti s1 [(intern "v", EntVal (VU B8 (N.of_nat sym)))], ev)).
  { clear. cbn [first_match]. rewrite !(vmatches_pu B8 (N.of_nat sym)) by reflexivity.
    destruct (Nat.eqb_spec sym 16) as [->|H16]; [eexists; reflexivity|]. destruct (N.eqb_spec 16 (N.of_nat sym)); [lia|].
    destruct (Nat.eqb_spec sym 17) as [->|H17]; [eexists; reflexivity|]. destruct (N.eqb_spec 17 (N.of_nat sym)); [lia|].
    destruct (Nat.eqb_spec sym 18) as [->|H18]; [eexists; reflexivity|]. destruct (N.eqb_spec 18 (N.of_nat sym)); [lia|]. eexists. reflexivity. }
  destruct Hfm as (k & Hfm).
  assert (Hem : forall s' b, first_match (VU B8 (N.of_nat sym)) s1 0 [(PU B8 16, e16); (PU B8 17, e17); (PU B8 18, e18); (PBinding (intern "v"), ev)] = Some (k, s', b) ->
     eval_value (EMatch (EAs B8 (proj (evar "cl-code-extra") "code")) [(PU B8 16, e16); (PU B8 17, e17); (PU B8 18, e18); (PBinding (intern "v"), ev)]) s1 = eval_value b s').
  { intros s' b Hf. rewrite <- (eval_value_idem b). unfold eval_value at 1. f_equal. eapply eval_match; [exact Hcode|exact Hf]. }
  unfold added. cbn [fst snd].
  assert (Hdup : forall k b y, (k <= 11)%N -> eval_value b (SMulti s1 []) = Val y ->
     eval_value (EDup (EAs B32 (EArith AAdd (proj (evar "cl-code-extra") "extra") (EU B8 k))) b) (SMulti s1 []) = Val (VSeq (Dup (N.to_nat (n + k)) y))).
  { intros k' b y Hk Hb. eapply eval_dup; [unfold eval_value; rewrite Hextra by assumption; reflexivity|exact Hb]. }
  destruct (Nat.eqb_spec sym 16) as [->|H16].
  - rewrite (Hem _ _ Hfm). unfold e16.
    assert (Hlv : eval_value (evar "last-symbol") (SMulti s1 []) = Val (last_value done)) by (unfold eval_value; rewrite (eval_var "last-symbol" _ (last_value done)) by exact Hl; reflexivity).
    destruct (last_opt done) as [l|] eqn:El; cbn [option_map].
    + rewrite (eval_pair _ _ _ (last_value done) (VSeq (Dup (N.to_nat (n + 3)) (VU B8 (N.of_nat l))))); [|exact Hlv|].
      * cbn [obind accum_pair unwrap_tuple sk_to_list]. rewrite lens_repeat. unfold last_value. rewrite last_opt_repeat by lia. rewrite El. replace (N.to_nat (n + 3)) with (3 + N.to_nat n) by lia. reflexivity.
      * apply Hdup; [lia|]. unfold expr_unwrap. rewrite <- eval_value_idem. unfold eval_value at 1.
        erewrite eval_match; [|apply eval_var; exact Hl|unfold last_value; rewrite El; reflexivity].
        unfold eval_value. erewrite (eval_var "x") by (apply get_bound). reflexivity.
    + rewrite eval_pair_panic; [reflexivity|]. unfold eval_value at 1. cbn [eval expr_unwrap]. unfold evar at 2. cbn [eval]. change (get_value (intern "last-symbol") (SMulti s1 [])) with (get_value (intern "last-symbol") s1).
      rewrite Hl. cbn [obind]. unfold last_value. rewrite El. cbn [option_map vmatches matches_inner coerce_nominal omap]. destruct (obind _ unwrap_usize); reflexivity.
  - destruct (Nat.eqb_spec sym 17) as [->|H17]; [|destruct (Nat.eqb_spec sym 18) as [->|H18]].
    + rewrite (Hem _ _ Hfm). unfold e17. rewrite (eval_pair _ _ _ (VOption (Some (VU B8 0))) (VSeq (Dup (N.to_nat (n + 3)) (VU B8 0)))); [|reflexivity|apply Hdup; [lia|reflexivity]].
      cbn [obind accum_pair unwrap_tuple sk_to_list]. rewrite lens_repeat. unfold last_value. rewrite last_opt_repeat by lia. replace (N.to_nat (n + 3)) with (3 + N.to_nat n) by lia. reflexivity.
    + rewrite (Hem _ _ Hfm). unfold e18. rewrite (eval_pair _ _ _ (VOption (Some (VU B8 0))) (VSeq (Dup (N.to_nat (n + 11)) (VU B8 0)))); [|reflexivity|apply Hdup; [lia|reflexivity]].
      cbn [obind accum_pair unwrap_tuple sk_to_list]. rewrite lens_repeat. unfold last_value. rewrite last_opt_repeat by lia. replace (N.to_nat (n + 11)) with (11 + N.to_nat n) by lia. reflexivity.
    + rewrite (Hem _ _ Hfm). unfold ev.
      rewrite (eval_pair _ _ _ (VOption (Some (VU B8 (N.of_nat sym)))) (VSeq (Strict [VU B8 (N.of_nat sym)]))); [|reflexivity|reflexivity].
      cbn [obind accum_pair unwrap_tuple sk_to_list]. unfold last_value. rewrite last_opt_snoc. reflexivity.
Qed.
Lemma expand_eval {D} e (s : scope D) vs ts : eval_value e s = Val (VSeq (Strict vs)) -> Forall2 cl_is ts vs -> Forall cl_fits ts ->
  eval_value (expand_lengths e) s = match expand [] ts with Some l => Val (VSeq (Strict (lens_value l))) | None => Panic end.
Proof.
  intros He HF Hf. unfold expand_lengths, eval_value at 1. cbn [eval]. unfold eval_value in He. rewrite He. cbn [obind strict_seq omap coerce_mapped sk_to_list].
  set (step := fun (st : value * list value) x => _).
  assert (Hstep : forall st x, step st x = obind (obind (eval_lambda expand_cl_code s (VTuple [fst st; x])) accum_pair) (fun pr => Val (fst pr, snd st ++ snd pr))).
  { intros st x. unfold step, eval_lambda, eval_value. match goal with |- obind ?m _ = obind (obind ?m' _) _ => change m' with m; destruct m; reflexivity end. }
  enough (E : forall done, ofoldM step (last_value done, lens_value done) vs = match expand done ts with Some l => Val (last_value l, lens_value l) | None => Panic end).
  { change (VOption None) with (last_value []). change (@nil value) with (lens_value []). rewrite E. destruct (expand [] ts); reflexivity. }
  clearbody step. clear He. induction HF as [|t v ts vs Ht HF IH]; intros done; [reflexivity|]. inversion Hf as [|? ? Hft Hf']; subst. cbn [ofoldM expand].
  rewrite Hstep. cbn [fst]. rewrite (expand_step s t v done Ht Hft). destruct (added done t) as [l|]; [|reflexivity]. cbn [obind fst snd].
  replace (lens_value done ++ lens_value l) with (lens_value (done ++ l)) by (unfold lens_value; apply map_app). now apply IH.
Qed.

Section Sem.
Context (M : fmodule) (strict : bool) (um fl : scope format -> format -> list N -> nat -> Prop) (bs : list N).
Context (Hbs : Forall isbit bs).
Context (base : nat) (Hitems : forall k it, nth_error (deflate_items base) k = Some it -> get_item M (base + k) = Some it).
Notation sem := (sem M strict um fl bs).
Notation den := (den M strict um fl bs).

(** ** The symbols of code lengths *)
Definition CL (lens : list nat) (i j : nat) (t : nat * N) : Prop :=
  exists i1, Symbol lens bs i i1 (fst t) /\ Num bs (extra_width (fst t)) i1 j (snd t).
Lemma CL_fits lens i j t : length lens <= 19 -> CL lens i j t -> cl_fits t /\ j <= length bs.
Proof.
  intros Hl (i1 & Hs & Hn). apply Symbol_table in Hs. pose proof (Num_len _ _ _ _ _ Hn) as Hj. split; [|tauto]. split; [lia|].
  apply (Num_bound _ _ _ _ _ Hbs) in Hn. eapply N.lt_le_trans; [exact Hn|]. change 128%N with (2 ^ 7)%N. apply N.pow_le_mono_r; [lia|].
  unfold extra_width. repeat destruct (Nat.eqb _ _); lia.
Qed.
Definition cl_record : format := record (named [
  ("code", FApply (intern "code-length-alphabet-format"));
  ("extra", FMatch (EAs B8 (evar "code"))
     [(PU B8 16, bits8 2); (PU B8 17, bits8 3); (PU B8 18, bits8 7); (PWildcard, FCompute (EU B8 0))])])%string.
Lemma cl_record_den s lens g : small lens -> length lens <= 19 -> huffman_format lens = Val g ->
  get_decoder (intern "code-length-alphabet-format") s = Some g -> den s cl_record (CL lens) cl_is.
Proof.
  intros Hs Hlen Hg Hd. pose proof (apply_den M strict um fl bs Hbs s _ g lens Hs Hg Hd) as [A B]. unfold cl_record.
  set (brs := [(PU B8 16, bits8 2); (PU B8 17, bits8 3); (PU B8 18, bits8 7); (PWildcard, FCompute (EU B8 0))]).
  assert (Hfm : forall sym s0, exists k f, first_match (VU B8 (N.of_nat sym)) s0 0 brs = Some (k, SMulti s0 [], f) /\ den (SMulti s0 []) f (fun i j x => i <= length bs /\ Num bs (extra_width sym) i j x) (is B8)).
  { intros sym s0. unfold brs. cbn [first_match]. rewrite !(vmatches_pu B8 (N.of_nat sym)) by reflexivity. rewrite vmatches_wild.
    assert (Hb : forall n, n <= 8 -> den (SMulti s0 []) (bits8 n) (fun i j x => i <= length bs /\ Num bs n i j x) (is B8)).
    { intros n Hn. destruct (bits8_den M strict um fl bs Hbs n (SMulti s0 []) Hn) as [C D]. split; [intros i j v Hi H; apply C in H as (x & Hx & Hv); eauto|]. intros i j x [_ H]. eauto. }
    unfold extra_width.
    destruct (Nat.eqb_spec sym 16) as [->|H16]; [do 2 eexists; split; [reflexivity|apply Hb; lia]|]. destruct (N.eqb_spec 16 (N.of_nat sym)); [lia|].
    destruct (Nat.eqb_spec sym 17) as [->|H17]; [do 2 eexists; split; [reflexivity|apply Hb; lia]|]. destruct (N.eqb_spec 17 (N.of_nat sym)); [lia|].
    destruct (Nat.eqb_spec sym 18) as [->|H18]; [do 2 eexists; split; [reflexivity|apply Hb; lia]|]. destruct (N.eqb_spec 18 (N.of_nat sym)); [lia|].
    do 2 eexists. split; [reflexivity|]. split.
    - intros i j v Hi H. apply sem_compute in H as [-> H]. injection H as <-. exists 0%N. split; [|reflexivity]. split; [assumption|]. now apply Num_zero.
    - intros i j x [Hi (l & Hl & _ & -> & ->)]. destruct l; [|discriminate]. exists (VU B8 0). split; [apply sem_compute; split; [lia|reflexivity]|reflexivity]. }
  assert (Hev : forall s0 sym v i j, Symbol lens bs i j sym -> is B16 (N.of_nat sym) v -> eval (D := format) (EAs B8 (evar "code")) (SSingle s0 (intern "code") v) = Val (VU B8 (N.of_nat sym))).
  { intros s0 sym v i j Hsy Hv. apply Symbol_table in Hsy. eapply eval_as; [apply eval_var, get_same|exact Hv|]. change (modulus B8) with 256%N. lia. }
  split.
  - intros i j v Hi H. apply record_sem in H as (rs & HF & ->); [|reflexivity].
    apply fields_cons in HF as (j1 & v1 & rs1 & H1 & HF & ->). apply fields_cons in HF as (j2 & v2 & rs2 & H2 & HF & ->). apply fields_nil in HF as [-> ->].
    apply A in H1 as (sym & Hsym & Hv1); [|assumption]. apply sem_match in H2 as (w & k & s' & f & u & He & Hf & Hu & ->). cbn [fst] in *.
    rewrite (Hev _ _ _ _ _ Hsym Hv1) in He. injection He as <-. destruct (Hfm sym (SSingle s (intern "code") v1)) as (k' & f' & E & [C D]).
    pose proof (eq_trans (eq_sym E) Hf) as Hq. injection Hq as <- <- <-. apply C in Hu as (x & [_ Hx] & Hux); [|apply (Symbol_len _ _ _ _ _ Hsym)].
    exists (sym, x). split; [exists j1; auto|]. do 3 eexists. split; [reflexivity|]. split; [reflexivity|]. split; [exact Hv1|]. split; [reflexivity|exact Hux].
  - intros i j [sym x] (i1 & Hsym & Hx). cbn [fst snd] in *. destruct (B _ _ _ Hsym) as (v1 & H1 & Hv1).
    destruct (Hfm sym (SSingle s (intern "code") v1)) as (k & f & E & [C D]). destruct (D i1 j x) as (u & Hu & Hux); [split; [apply (Symbol_len _ _ _ _ _ Hsym)|assumption]|].
    eexists. split.
    + apply record_sem; [reflexivity|]. eexists. split; [|reflexivity]. eapply FieldsKept; [exact H1|]. eapply FieldsKept; [|constructor].
      apply sem_match. do 5 eexists. split; [apply (Hev _ _ _ _ _ Hsym Hv1)|]. split; [exact E|]. split; [exact Hu|reflexivity].
    + do 3 eexists. split; [reflexivity|]. split; [reflexivity|]. split; [exact Hv1|]. split; [reflexivity|exact Hux].
Qed.
(** ** ... until there are enough *)
Inductive CLRun (lens : list nat) (total : nat) : list nat -> nat -> nat -> list (nat * N) -> list nat -> Prop :=
| CLDone done i : total <= length done -> CLRun lens total done i i [] done
| CLMore done i j k t l ts all : length done < total -> CL lens i j t -> added done t = Some l -> CLRun lens total (done ++ l) j k ts all ->
    CLRun lens total done i k (t :: ts) all.
Lemma lengths_run lens total i j done all : length lens <= 19 -> Forall (fun l => l <= 15) done ->
  (Lengths false bs lens total i j done all <-> exists ts, CLRun lens total done i j ts all).
Proof.
  intros Hlen Hdone. split.
  - intros H. clear Hdone. induction H as [i done Ht Hc|i j k sym done all Ht Hs Hlt HL (ts & Hr)|i i1 j k x la done all Ht Hs Hx HL (ts & Hr)|i i1 j k x done all Ht Hs Hx HL (ts & Hr)|i i1 j k x done all Ht Hs Hx HL (ts & Hr)].
    + exists []. now constructor.
    + exists ((sym, 0%N) :: ts). eapply CLMore with (j := j) (l := [sym]); [assumption| | |assumption].
      * exists j. split; [assumption|]. cbn [fst snd]. unfold extra_width. destruct (Nat.eqb_spec sym 16), (Nat.eqb_spec sym 17), (Nat.eqb_spec sym 18); try lia. apply Num_zero. apply (Symbol_len _ _ _ _ _ Hs).
      * unfold added. cbn [fst snd]. destruct (Nat.eqb_spec sym 16), (Nat.eqb_spec sym 17), (Nat.eqb_spec sym 18); try lia. reflexivity.
    + exists ((16, x) :: ts). eapply CLMore with (j := j); [assumption|exists i1; auto| |rewrite <- app_assoc; exact Hr]. unfold added. cbn [fst snd Nat.eqb]. now rewrite last_opt_snoc.
    + exists ((17, x) :: ts). eapply CLMore with (j := j); [assumption|exists i1; auto|reflexivity|exact Hr].
    + exists ((18, x) :: ts). eapply CLMore with (j := j); [assumption|exists i1; auto|reflexivity|exact Hr].
  - intros (ts & H). induction H as [done i Ht|done i j k [sym x] l ts all Ht (i1 & Hs & Hx) Ha HR IH].
    + constructor; [assumption|discriminate].
    + cbn [fst snd] in *. unfold added in Ha. cbn [fst snd] in Ha. unfold extra_width in Hx. pose proof (Symbol_table _ _ _ _ _ Hs) as Hb.
      destruct (Nat.eqb_spec sym 16) as [->|H16].
      { destruct (last_opt done) as [la|] eqn:El; [|discriminate]. injection Ha as <-. apply last_opt_some in El as (d & ->).
        eapply LengthsRepeat; [assumption|eassumption|eassumption|]. rewrite <- app_assoc in IH. apply IH.
        apply Forall_app in Hdone as [H1 H2]. inversion H2; subst. apply Forall_app. split; [assumption|]. constructor; [assumption|]. apply Forall_forall. intros y Hy. apply (repeat_spec (3 + N.to_nat x) la) in Hy. now subst y. }
      assert (Hz : forall n, Forall (fun l => l <= 15) (done ++ repeat 0 n)).
      { intros n. apply Forall_app. split; [assumption|]. apply Forall_forall. intros y Hy. apply repeat_spec in Hy. subst y. lia. }
      destruct (Nat.eqb_spec sym 17) as [->|H17]; [injection Ha as <-; eapply LengthsZeros; [eassumption..|apply IH, (Hz (3 + N.to_nat x))]|].
      destruct (Nat.eqb_spec sym 18) as [->|H18]; [injection Ha as <-; eapply LengthsManyZeros; [eassumption..|apply IH, (Hz (11 + N.to_nat x))]|]. injection Ha as <-.
      destruct Hx as (c & Hc & _ & -> & _). rewrite Nat.add_0_r in *. eapply LengthsOne; [assumption|eassumption|lia|]. apply IH. apply Forall_app. split; [assumption|]. constructor; [lia|constructor].
Qed.
Lemma added_length done t l : cl_fits t -> added done t = Some l -> length l <= 138.
Proof.
  intros [_ Hx] Ha. unfold added in Ha. destruct t as [sym x]. cbn [fst snd] in *.
  destruct (Nat.eqb sym 16); [destruct (last_opt done); [|discriminate]; injection Ha as <-; cbn [length Nat.add repeat]; rewrite repeat_length; lia|].
  destruct (Nat.eqb sym 17); [injection Ha as <-; cbn [length Nat.add repeat]; rewrite repeat_length; lia|].
  destruct (Nat.eqb sym 18); [injection Ha as <-; cbn [length Nat.add repeat]; rewrite repeat_length; lia|]. injection Ha as <-. cbn. lia.
Qed.
Lemma run_facts lens total done i j ts all : length lens <= 19 -> CLRun lens total done i j ts all ->
  expand done ts = Some all /\ total <= length all /\ Forall cl_fits ts /\ (i <= length bs -> j <= length bs) /\ (length done <= total + 138 -> length all <= total + 138).
Proof.
  intros Hl H. induction H as [done i Ht|done i j k t l ts all Ht Hc Ha HR (E & Hlen & Hf & Hp & Hu)]; [repeat split; auto|].
  destruct (CL_fits _ _ _ _ Hl Hc) as [Hft Hj]. pose proof (added_length _ _ _ Hft Ha). cbn [expand]. rewrite Ha. rewrite app_length in Hu.
  refine (conj E (conj Hlen (conj _ (conj _ _)))); [constructor; assumption|auto|intros _; apply Hu; lia].
Qed.
Lemma lengths_small lens total i j done all : Lengths false bs lens total i j done all -> Forall (fun l => l <= 15) done -> Forall (fun l => l <= 15) all.
Proof.
  assert (Hz : forall done y n, Forall (fun l => l <= 15) done -> y <= 15 -> Forall (fun l => l <= 15) (done ++ repeat y n)).
  { intros d y n Hd Hy. apply Forall_app. split; [assumption|]. apply Forall_forall. intros z H. apply repeat_spec in H. now subst z. }
  intros H. induction H as [|i j k sym done all Ht Hs Hlt HL IH|i i1 j k x la done all Ht Hs Hx HL IH|i i1 j k x done all Ht Hs Hx HL IH|i i1 j k x done all Ht Hs Hx HL IH]; intros Hd; auto.
  - apply IH, Forall_app. split; [assumption|]. constructor; [lia|constructor].
  - apply IH. rewrite app_assoc. apply (Hz _ la (3 + N.to_nat x)); [assumption|]. apply Forall_app in Hd as [_ Hd]. now inversion Hd.
  - apply IH, (Hz done 0 (3 + N.to_nat x)); [assumption|lia].
  - apply IH, (Hz done 0 (11 + N.to_nat x)); [assumption|lia].
Qed.
(** ** The lengths of the code of lengths *)
Lemma order_ok : forallb (fun sym => match nth_error order (position sym order) with Some y => Nat.eqb y sym | None => false end) (seq 0 19) = true.
Proof. vm_compute. reflexivity. Qed.
Lemma reorder_in_order ls : length ls <= 19 -> HuffmanModel.reorder ls order = Val (in_order ls).
Proof.
  intros Hl. destruct (HuffmanProofs.reorder_spec ls order) as (new & E & L & H).
  - unfold order. repeat constructor; cbn; intuition discriminate.
  - exact Hl.
  - apply Forall_forall. assert (forallb (fun v => Nat.ltb v (length order)) order = true) as Q by (vm_compute; reflexivity). intros x Hx. apply Nat.ltb_lt. exact (proj1 (forallb_forall _ _) Q x Hx).
  - rewrite E. f_equal. change (length order) with 19 in L.
    assert (Hn : forall sym, sym < 19 -> nth_error new sym = Some (nth (position sym order) ls 0)).
    { intros sym Hs. pose proof (proj1 (forallb_forall _ _) order_ok sym) as Q. rewrite in_seq in Q. specialize (Q ltac:(lia)). cbn beta in Q.
      destruct (nth_error order (position sym order)) as [y|] eqn:Ey; [|discriminate]. apply Nat.eqb_eq in Q. subst y. now apply H. }
    apply nth_ext with (d := 0) (d' := 0); [unfold in_order; now rewrite map_length, seq_length|]. intros n Hlt. rewrite L in Hlt.
    rewrite (nth_error_nth _ _ _ (Hn n Hlt)). symmetry. apply nth_error_nth. unfold in_order. rewrite nth_error_map.
    rewrite (nth_error_nth' (seq 0 19) 0) by (rewrite seq_length; exact Hlt). rewrite seq_nth by exact Hlt. reflexivity.
Qed.
Lemma in_order_small ls : Forall (fun l => l <= 15) ls -> small (in_order ls) /\ length (in_order ls) = 19.
Proof.
  intros H. split; [|reflexivity]. split; [discriminate|]. split; [|vm_compute; discriminate].
  apply Forall_forall. intros x Hx. unfold in_order in Hx. apply in_map_iff in Hx as (sym & <- & _).
  destruct (Nat.lt_ge_cases (position sym order) (length ls)) as [Hlt|Hge]; [|rewrite nth_overflow; lia]. rewrite Forall_forall in H. apply H, nth_In. assumption.
Qed.

(** ** The code lengths of a block *)
Definition lens_is (all : list nat) (v : value) : Prop :=
  exists ts vs, v = VSeq (Strict vs) /\ Forall2 cl_is ts vs /\ Forall cl_fits ts /\ expand [] ts = Some all.
Definition enough : expr := ELambda (intern "y")
  (EIntRel RGte (ESeqLength (expand_lengths (evar "y"))) (EArith AAdd (EAs B32 (EArith AAdd (evar "hlit") (evar "hdist"))) (EU B32 258))).
Lemma enough_eval (s : scope format) hlit hdist ts vs :
  get_value (intern "hlit") s = Some (VU B8 hlit) -> get_value (intern "hdist") s = Some (VU B8 hdist) -> (hlit < 32)%N -> (hdist < 32)%N ->
  Forall2 cl_is ts vs -> Forall cl_fits ts -> (forall l, expand [] ts = Some l -> length l < 1000) ->
  lambda_bool enough s (VSeq (Strict vs)) =
  match expand [] ts with Some l => Val (Nat.leb (N.to_nat hlit + 257 + (N.to_nat hdist + 1)) (length l)) | None => Panic end.
Proof.
  intros Hl Hd Hlb Hdb HF Hf Hlen. unfold lambda_bool, enough, eval_lambda. set (s1 := SSingle s (intern "y") (VSeq (Strict vs))).
  pose proof (expand_eval (evar "y") s1 vs ts ltac:(unfold eval_value; rewrite (eval_var "y" _ (VSeq (Strict vs))) by apply get_same; reflexivity) HF Hf) as He.
  assert (Hsum : eval (EArith AAdd (EAs B32 (EArith AAdd (evar "hlit") (evar "hdist"))) (EU B32 258)) s1 = Val (VU B32 (hlit + hdist + 258))).
  { apply (eval_add B32 _ _ _ (VU B32 (hlit + hdist)) (VU B32 258)); [|reflexivity|reflexivity|reflexivity|change (modulus B32) with 4294967296%N; lia].
    apply (eval_as B32 B8 _ _ (VU B8 (hlit + hdist))); [|reflexivity|change (modulus B32) with 4294967296%N; lia].
    eapply eval_add; [apply eval_var; exact Hl|apply eval_var; exact Hd|reflexivity|reflexivity|change (modulus B8) with 256%N; lia]. }
  unfold eval_value at 1. set (b := EArith AAdd _ _) in *. set (a := expand_lengths (evar "y")) in *. cbn [eval]. rewrite Hsum. clearbody a b. unfold eval_value in He.
  destruct (expand [] ts) as [l|].
  - destruct (eval a s1) as [va|]; [|discriminate]. cbn [omap] in He. injection He as He. cbn [obind]. unfold seq_of. rewrite He.
    cbn [get_sequence omap obind coerce_mapped vseq_len sk_len value_int_rel bw_eqb rel_apply unwrap_bool]. f_equal. specialize (Hlen l eq_refl).
    unfold lens_value, as_u32. rewrite map_length. rewrite N.mod_small by lia.
    match goal with |- context [N.leb ?x ?y] => destruct (N.leb_spec x y) end; match goal with |- context [Nat.leb ?x ?y] => destruct (Nat.leb_spec x y) end; lia.
  - destruct (eval a s1) as [va|]; [discriminate|]. reflexivity.
Qed.
Lemma until_enough s f lens total : length lens <= 19 -> den s f (CL lens) cl_is -> 0 < total -> total <= 500 ->
  (forall ts vs, Forall2 cl_is ts vs -> Forall cl_fits ts -> (forall l, expand [] ts = Some l -> length l < 1000) ->
     lambda_bool enough s (VSeq (Strict vs)) = match expand [] ts with Some l => Val (Nat.leb total (length l)) | None => Panic end) ->
  den s (FRepeatUntilSeq enough f) (fun i j all => Lengths false bs lens total i j [] all) lens_is.
Proof.
  intros Hlens [A B] Htot Htot' Hen. split.
  - intros i j v Hi H. inversion H; subst. match goal with X : Chain _ _ _ _ _, Y : StopsAt _ _ _ |- _ => rename X into HC; rename Y into HS end.
    change (Chain (sem s) (repeat f n) i j vs) in HC. clear H.
    enough (G : forall tacc acc done, Forall2 cl_is tacc acc -> Forall cl_fits tacc -> expand [] tacc = Some done -> length done < total ->
       StopsAt (fun acc v => lambda_bool enough s (VSeq (Strict (acc ++ [v])))) acc vs ->
       exists ts all, CLRun lens total done i j ts all /\ Forall2 cl_is ts vs).
    { destruct (G [] [] [] (Forall2_nil _) (Forall_nil _) eq_refl Htot HS) as (ts & all & HR & HF). exists all. split; [apply lengths_run; [assumption|constructor|eauto]|].
      destruct (run_facts _ _ _ _ _ _ _ Hlens HR) as (E & _ & Hf & _). exists ts, vs. auto. }
    clear HS. revert i Hi n HC. induction vs as [|v vs IH]; intros i Hi n HC tacc acc done HFa Hfa Ed Hlt HS; [inversion HS|].
    destruct n as [|n]; [inversion HC|]. cbn [repeat] in HC. inversion HC as [|? ? ? j1 ? ? ? H1 H2]; subst.
    apply A in H1 as (t & Ht & Hab); [|assumption]. destruct (CL_fits _ _ _ _ Hlens Ht) as [Hft Hj1].
    assert (HFa' : Forall2 cl_is (tacc ++ [t]) (acc ++ [v])) by (apply Forall2_app; [assumption|repeat constructor; assumption]).
    assert (Hfa' : Forall cl_fits (tacc ++ [t])) by (apply Forall_app; split; [assumption|constructor; [exact Hft|constructor]]).
    assert (Ee : expand [] (tacc ++ [t]) = match added done t with Some l => Some (done ++ l) | None => None end).
    { rewrite expand_app, Ed. cbn [expand]. destruct (added done t); reflexivity. }
    assert (Hstop : lambda_bool enough s (VSeq (Strict (acc ++ [v]))) = match added done t with Some l => Val (Nat.leb total (length (done ++ l))) | None => Panic end).
    { rewrite (Hen _ _ HFa' Hfa').
      - rewrite Ee. destruct (added done t); reflexivity.
      - intros l El. rewrite Ee in El. destruct (added done t) as [l'|] eqn:Ea; [|discriminate]. injection El as <-. apply added_length in Ea; [|assumption]. rewrite app_length. lia. }
    destruct (added done t) as [l|] eqn:Ea; [|inversion HS; congruence].
    inversion HS as [? ? Hv|? ? ? Hv HS']; subst.
    + rewrite Hstop in Hv. injection Hv as Hv. apply Nat.leb_le in Hv. inversion H2; subst. exists [t], (done ++ l). split; [|repeat constructor; assumption].
      eapply CLMore; [assumption|eassumption|eassumption|]. now constructor.
    + rewrite Hstop in Hv. injection Hv as Hv. apply Nat.leb_gt in Hv.
      destruct (IH j1 Hj1 n H2 (tacc ++ [t]) (acc ++ [v]) (done ++ l) HFa' Hfa' Ee Hv HS') as (ts & all & HR & HF).
      exists (t :: ts), all. split; [eapply CLMore; eassumption|constructor; assumption].
  - intros i j all H. apply lengths_run in H as (ts & HR); [|assumption|constructor]. destruct (run_facts _ _ _ _ _ _ _ Hlens HR) as (E & _ & Hf & _).
    enough (G : forall tacc acc done, Forall2 cl_is tacc acc -> Forall cl_fits tacc -> expand [] tacc = Some done -> length done < total -> CLRun lens total done i j ts all ->
       exists vs, Chain (sem s) (repeat f (length ts)) i j vs /\ Forall2 cl_is ts vs /\ StopsAt (fun acc v => lambda_bool enough s (VSeq (Strict (acc ++ [v])))) acc vs).
    { destruct (G [] [] [] (Forall2_nil _) (Forall_nil _) eq_refl Htot HR) as (vs & HC & HF & HS). exists (VSeq (Strict vs)). split; [econstructor; [exact HC|exact HS]|]. exists ts, vs. auto. }
    clear HR E Hf. revert i. induction ts as [|t ts IH]; intros i tacc acc done HFa Hfa Ed Hlt HR; inversion HR as [|? ? j1 ? ? l ? ? _ Ht Ea HR']; subst; [lia|].
    destruct (CL_fits _ _ _ _ Hlens Ht) as [Hft Hj1]. destruct (B _ _ _ Ht) as (v & Hv & Hab).
    assert (HFa' : Forall2 cl_is (tacc ++ [t]) (acc ++ [v])) by (apply Forall2_app; [assumption|repeat constructor; assumption]).
    assert (Hfa' : Forall cl_fits (tacc ++ [t])) by (apply Forall_app; split; [assumption|constructor; [exact Hft|constructor]]).
    assert (Ee : expand [] (tacc ++ [t]) = Some (done ++ l)) by (rewrite expand_app, Ed; cbn [expand]; now rewrite Ea).
    assert (Hstop : lambda_bool enough s (VSeq (Strict (acc ++ [v]))) = Val (Nat.leb total (length (done ++ l)))).
    { rewrite (Hen _ _ HFa' Hfa'); rewrite Ee; [reflexivity|]. intros l' [= <-]. apply added_length in Ea; [|assumption]. rewrite app_length. lia. }
    destruct (Nat.leb_spec total (length (done ++ l))) as [Hge|Hless].
    + inversion HR'; subst; [|lia]. exists [v]. cbn [length repeat]. split; [econstructor; [exact Hv|constructor]|]. split; [repeat constructor; assumption|]. now constructor.
    + destruct (IH j1 (tacc ++ [t]) (acc ++ [v]) (done ++ l) HFa' Hfa' Ee Hless HR') as (vs & HC & HF & HS). exists (v :: vs). cbn [length repeat].
      split; [econstructor; eassumption|]. split; [constructor; assumption|]. constructor; assumption.
Qed.
Lemma ex_val {A} (x : A) P : (exists y, Val x = Val y /\ P y) <-> P x.
Proof. split; [intros (y & [= <-] & H); exact H|]. intros H. exists x. auto. Qed.
Lemma call_three {D} (s : scope D) x1 x2 x3 e1 e2 e3 v1 v2 v3 : eval_value e1 s = Val v1 -> eval_value e2 s = Val v2 -> eval_value e3 s = Val v3 ->
  call_values s [(x1, e1); (x2, e2); (x3, e3)] = Val [(x1, EntVal v1); (x2, EntVal v2); (x3, EntVal v3)].
Proof. intros H1 H2 H3. unfold call_values. cbn [omapM]. rewrite H1, H2, H3. reflexivity. Qed.
Lemma lld_den s e1 e2 e3 hlit hdist ls vs : eval_value e1 s = Val (VU B8 hlit) -> eval_value e2 s = Val (VU B8 hdist) -> eval_value e3 s = Val (VSeq (Strict vs)) ->
  (hlit < 32)%N -> (hdist < 32)%N -> Forall2 (is B8) ls vs -> length ls <= 19 -> Forall (fun l => (l < 8)%N) ls ->
  den s (call_args (l_lld_lengths base) [e1; e2; e3])
    (fun i j all => (strict = true -> not_too_many (in_order (map N.to_nat ls))) /\ Lengths false bs (in_order (map N.to_nat ls)) (N.to_nat hlit + 257 + (N.to_nat hdist + 1)) i j [] all) lens_is.
Proof.
  intros H1 H2 H3 Hl Hd HF Hlen Hb. assert (Hit : get_item M (l_lld_lengths base) = Some lld_alphabet_code_lengths) by (apply Hitems; reflexivity).
  unfold call_args. set (s1 := SMulti (@SEmpty format) [(intern "hlit", EntVal (VU B8 hlit)); (intern "hdist", EntVal (VU B8 hdist)); (intern "code-length-alphabet-code-lengths", EntVal (VSeq (Strict vs)))]).
  assert (Hcall : forall i j v, sem s (FItemVar (l_lld_lengths base) [e1; e2; e3] []) i j v <-> sem s1 (it_format lld_alphabet_code_lengths) i j v).
  { intros i j v. rewrite (sem_item _ _ _ _ _ s _ _ _ i j v Hit eq_refl).
    assert (E : call_values s (combine (it_args lld_alphabet_code_lengths) [e1; e2; e3]) = Val [(intern "hlit", EntVal (VU B8 hlit)); (intern "hdist", EntVal (VU B8 hdist)); (intern "code-length-alphabet-code-lengths", EntVal (VSeq (Strict vs)))]) by (apply call_three; assumption).
    rewrite E. exact (ex_val _ (fun es => sem (SMulti SEmpty es) (it_format lld_alphabet_code_lengths) i j v)). }
  set (lens := in_order (map N.to_nat ls)).
  assert (H15 : Forall (fun l => l <= 15) (map N.to_nat ls)) by (apply Forall_map; eapply Forall_impl; [|exact Hb]; cbn beta; intros; lia).
  destruct (in_order_small _ H15) as [Hsm Hln]. fold lens in Hsm, Hln. destruct (huffman_some _ Hsm) as (g & Hg).
  assert (Hdyn : dyn_lengths (DHuffman (evar "code-length-alphabet-code-lengths") (Some (ESeq (map (EU B8) cla_code_lengths)))) s1 = Val lens).
  { unfold dyn_lengths. rewrite (eval_var "code-length-alphabet-code-lengths" _ (VSeq (Strict vs))) by reflexivity. cbn [obind]. rewrite (vec_usize (map N.to_nat ls)).
    - cbn [obind]. rewrite eval_lengths. cbn [obind]. rewrite (vec_usize order); [|unfold order, cla_code_lengths; repeat constructor]. cbn [obind].
      rewrite reorder_in_order by (rewrite map_length; exact Hlen). reflexivity.
    - clear - HF. induction HF as [|n v ns vs H HF IH]; constructor; [now rewrite N2Nat.id|assumption]. }
  set (s2 := SDecoder s1 (intern "code-length-alphabet-format") g).
  destruct (until_enough s2 cl_record lens (N.to_nat hlit + 257 + (N.to_nat hdist + 1))) as [A B]; try lia.
  - eapply cl_record_den; [exact Hsm|lia|exact Hg|reflexivity].
  - intros ts us HF' Hf Hlt. apply enough_eval; auto.
  - split.
    + intros i j v Hi H. apply Hcall in H. cbn [it_format lld_alphabet_code_lengths] in H. apply (sem_dynamic M strict um fl bs base Hitems _ _ _ _ _ _ _ _ _ Hdyn Hsm Hg) in H as [Ht H]. apply A in H as (all & HA & E); [|assumption]. exists all. split; [split; assumption|exact E].
    + intros i j all [Ht H]. destruct (B _ _ _ H) as (v & Hv & E). exists v. split; [|exact E]. apply Hcall. cbn [it_format lld_alphabet_code_lengths]. apply (sem_dynamic M strict um fl bs base Hitems _ _ _ _ _ _ _ _ _ Hdyn Hsm Hg). split; [exact Ht|exact Hv].
Qed.
End Sem.
