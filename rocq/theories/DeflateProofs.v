(** What the DEFLATE formats describe. *)
From Coq Require Import String.
From Verif Require ByteSetModel HuffmanModel HuffmanProofs.
From Verif Require Import Base BoundsModel DataModel NumericModel.
From Verif Require Import ValueModel FormatModel DecoderModel FormatSpec
  RecordModel TextModel RecordSpec RecordProofs DeflateModel DeflateSpec DeflateBits DeflateHuffman.
Open Scope nat_scope.

(** ** Scopes and evaluation *)
Lemma get_same {D} x (s : scope D) v : get_value x (SSingle s x v) = Some v.
Proof. cbn. now rewrite N.eqb_refl. Qed.
Lemma get_other {D} x y (s : scope D) v : N.eqb y x = false -> get_value x (SSingle s y v) = get_value x s.
Proof. intros H. cbn. now rewrite H. Qed.
Lemma get_multi {D} x (s : scope D) : get_value x (SMulti s []) = get_value x s.
Proof. reflexivity. Qed.
Lemma get_dec {D} x y (s : scope D) d : get_value x (SDecoder s y d) = get_value x s.
Proof. reflexivity. Qed.
Lemma get_bound {D} x (s : scope D) v : get_value x (SMulti s [(x, EntVal v)]) = Some v.
Proof. cbn. now rewrite N.eqb_refl. Qed.
Lemma get_unbound {D} x y (s : scope D) v : N.eqb y x = false -> get_value x (SMulti s [(y, EntVal v)]) = get_value x s.
Proof. intros H. cbn. now rewrite H. Qed.
Ltac look := repeat first [rewrite get_same | rewrite get_bound | rewrite get_multi | rewrite get_dec | rewrite get_other by reflexivity | rewrite get_unbound by reflexivity].
Ltac look_in H := repeat first [rewrite get_same in H | rewrite get_bound in H | rewrite get_multi in H | rewrite get_dec in H | rewrite get_other in H by reflexivity | rewrite get_unbound in H by reflexivity].
Lemma eval_var {D} x (s : scope D) v : get_value (intern x) s = Some v -> eval (evar x) s = Val v.
Proof. intros H. unfold evar. cbn [eval]. now rewrite H. Qed.
Lemma eval_proj {D} e x (s : scope D) v fs u : eval e s = Val v -> coerce_mapped v = VRecord fs -> assoc (intern x) fs = Some u -> eval (proj e x) s = Val u.
Proof. intros H Hv Hu. unfold proj. cbn [eval]. rewrite H. cbn [obind]. rewrite Hv. cbn [record_proj]. now rewrite Hu. Qed.
Lemma eval_as {D} w w' e (s : scope D) v n : eval e s = Val v -> coerce_mapped v = VU w' n -> (n < modulus w)%N -> eval (EAs w e) s = Val (VU w n).
Proof. intros H Hv Hn. cbn [eval]. rewrite H. cbn [omap obind]. rewrite Hv. cbn [value_as]. unfold fit. destruct (N.ltb_spec n (modulus w)); [reflexivity|lia]. Qed.
Lemma eval_add {D} w a b (s : scope D) v u x y : eval a s = Val v -> eval b s = Val u -> coerce_mapped v = VU w x -> coerce_mapped u = VU w y ->
  (x + y < modulus w)%N -> eval (EArith AAdd a b) s = Val (VU w (x + y)).
Proof.
  intros Ha Hb Hv Hu Hn. cbn [eval]. rewrite Ha, Hb. cbn [omap obind]. rewrite Hv, Hu. cbn [value_arith].
  assert (bw_eqb w w = true) as -> by (destruct w; reflexivity). cbn [arith_apply]. unfold fit. destruct (N.ltb_spec (x + y) (modulus w)); [reflexivity|lia].
Qed.
Lemma vmatches_pu {D} w n m v (s : scope D) : coerce_nominal v = VU w n -> vmatches v s (PU w m) = if N.eqb m n then Some (SMulti s []) else None.
Proof.
  intros H. unfold vmatches. rewrite H. cbn [matches_inner]. assert (bw_eqb w w = true) as -> by (destruct w; reflexivity).
  cbn [andb]. destruct (N.eqb m n); reflexivity.
Qed.
Lemma vmatches_int {D} w n a b v (s : scope D) : coerce_nominal v = VU w n ->
  vmatches v s (PInt (bnew a b)) = if (N.leb a n && N.leb n b)%bool then Some (SMulti s []) else None.
Proof. intros H. unfold vmatches. rewrite H. cbn [matches_inner native_num]. unfold bcontains, bnew. cbn [bmin bmax]. destruct (_ && _)%bool; reflexivity. Qed.
Lemma vmatches_wild {D} v (s : scope D) : vmatches v s PWildcard = Some (SMulti s []).
Proof. reflexivity. Qed.
(** A table of branches *)
Lemma first_match_table {D Dc E} w n v (s : scope D) (key : E -> N) (F : E -> Dc) rest : coerce_nominal v = VU w n -> forall tbl i,
  (exists e k, In e tbl /\ key e = n /\ first_match v s i (map (fun e => (PU w (key e), F e)) tbl ++ rest) = Some (k, SMulti s [], F e)) \/
  ((forall e, In e tbl -> key e <> n) /\
   first_match v s i (map (fun e => (PU w (key e), F e)) tbl ++ rest) = first_match v s (i + length tbl) rest).
Proof.
  intros Hv. induction tbl as [|e tbl IH]; intros i.
  - right. split; [intros e []|]. cbn [map app length]. now rewrite Nat.add_0_r.
  - cbn [map app first_match]. rewrite (vmatches_pu w n) by assumption. destruct (N.eqb_spec (key e) n) as [E1|E1].
    + left. exists e, i. split; [now left|]. auto.
    + destruct (IH (S i)) as [(e' & k & Hin & Hk & ->)|[Hn ->]].
      * left. exists e', k. split; [now right|]. auto.
      * right. split; [intros e' [->|Hin]; auto|]. cbn [length]. f_equal. lia.
Qed.

Section Sem.
Context (M : fmodule) (strict : bool) (um fl : scope format -> format -> list N -> nat -> Prop) (bs : list N).
Context (Hbs : Forall isbit bs).
Definition sem (s : scope format) (f : format) (i j : nat) (v : value) : Prop := SemN M strict um fl s f bs i j v.
(** In scope [s], the format [f] describes the things [t] such that [P i j t], with
    values related to them by [abs]. *)
Definition den {T} (s : scope format) (f : format) (P : nat -> nat -> T -> Prop) (abs : T -> value -> Prop) : Prop :=
  (forall i j v, i <= length bs -> sem s f i j v -> exists t, P i j t /\ abs t v) /\
  (forall i j t, P i j t -> exists v, sem s f i j v /\ abs t v).
Definition is (w : bitwidth) (x : N) (v : value) : Prop := coerce_mapped v = VU w x.
Lemma reads_den w f n s : reads M strict um fl bs w f n -> den s f (Num bs n) (is w).
Proof. intros [A B]. split; intros; eauto. Qed.
Lemma bits8_den n s : n <= 8 -> den s (bits8 n) (Num bs n) (is B8).
Proof. intros. now apply reads_den, bits8_reads. Qed.
Lemma bits16_den n s : n <= 16 -> den s (bits16 n) (Num bs n) (is B16).
Proof. intros. now apply reads_den, bits16_reads. Qed.

(** ** Records *)
Fixpoint distinct (l : list label) : bool := match l with [] => true | x :: r => negb (existsb (N.eqb x) r) && distinct r end.
Lemma distinct_nodup l : distinct l = true -> NoDup l.
Proof.
  induction l as [|x r IH]; cbn [distinct]; [constructor|]. intros H. apply andb_true_iff in H as [H1 H2]. constructor; [|auto].
  intros Hin. apply negb_true_iff in H1. rewrite <- not_true_iff_false, existsb_exists in H1. apply H1. exists x. split; [assumption|apply N.eqb_refl].
Qed.
Definition all_kept (fs : list (label * format)) : list rfield := map (fun nf => (Some (fst nf, true), snd nf)) fs.
Lemma record_sem fs s i j v : distinct (map fst fs) = true ->
  (sem s (record fs) i j v <-> exists rs, Fields sem s (all_kept fs) i j rs /\ v = record_value rs).
Proof.
  intros H. apply distinct_nodup in H. change (record fs) with (record_ext (all_kept fs)). unfold sem. rewrite record_ext_sem; [reflexivity|].
  clear - H. unfold all_kept. induction fs as [|[x f] fs IH]; cbn in *; [exact I|]. inversion H as [|? ? H1 H2]; subst. split; [|now apply IH].
  apply Forall_forall. intros g Hg. apply in_map_iff in Hg as ([y g'] & <- & Hin). cbn. intros [= ->]. apply H1. apply in_map_iff. exists (x, g'). auto.
Qed.
Lemma fields_cons s x f fs i k rs : Fields sem s ((Some (x, true), f) :: fs) i k rs <->
  exists j v rs', sem s f i j v /\ Fields sem (SSingle s x v) fs j k rs' /\ rs = (x, v) :: rs'.
Proof.
  split; [intros H; inversion H; subst; eauto 10|]. intros (j & v & rs' & H1 & H2 & ->). econstructor; eauto.
Qed.
Lemma fields_nil s i k rs : Fields sem s [] i k rs <-> rs = [] /\ k = i.
Proof. split; [intros H; inversion H; auto|]. intros [-> ->]. constructor. Qed.

Lemma sem_compute s e i j v : sem s (FCompute e) i j v <-> j = i /\ eval_value e s = Val v.
Proof. split; [intros H; inversion H; subst; auto|]. intros [-> H]. now constructor. Qed.
Lemma sem_match s e br i j v : sem s (FMatch e br) i j v <->
  exists w k s' f u, eval e s = Val w /\ first_match w s 0 br = Some (k, s', f) /\ sem s' f i j u /\ v = VBranch k u.
Proof.
  split; [intros H; inversion H; subst; eauto 10|]. intros (w & k & s' & f & u & H1 & H2 & H3 & ->). econstructor; eauto.
Qed.
Lemma sem_item s level args it i j v : get_item M level = Some it -> it_views it = [] ->
  (sem s (FItemVar level args []) i j v <->
   exists es, call_values s (combine (it_args it) args) = Val es /\ sem (SMulti SEmpty es) (it_format it) i j v).
Proof.
  intros Hi Hv. split.
  - intros H. inversion H; subst. match goal with A : get_item M level = Some ?x |- _ => rewrite Hi in A; injection A as <- end.
    match goal with A : call_scope _ _ _ = _ |- _ => unfold call_scope in A; rewrite Hv in A; cbn [combine call_views omap obind] in A end.
    destruct (call_values s (combine (it_args it) args)) as [es|]; [|discriminate]. cbn [omap obind] in *.
    match goal with A : Val _ = Val _ |- _ => injection A as <- end. rewrite app_nil_r in *. eauto.
  - intros (es & He & H). econstructor; [exact Hi| |exact H]. unfold call_scope. rewrite Hv, He. cbn. now rewrite app_nil_r.
Qed.

(** ** Loops *)
(** Things up to the first one that satisfies [p]. *)
Inductive Run {T} (P : nat -> nat -> T -> Prop) (p : T -> bool) : nat -> nat -> list T -> Prop :=
| RunLast i j t : P i j t -> p t = true -> Run P p i j [t]
| RunMore i j k t ts : P i j t -> p t = false -> Run P p j k ts -> Run P p i k (t :: ts).
Lemma until_last_den {T} s e f (P : nat -> nat -> T -> Prop) abs p :
  den s f P abs -> (forall i j t, P i j t -> j <= length bs) ->
  (forall i j t v, P i j t -> abs t v -> lambda_bool e s v = Val (p t)) ->
  den s (FRepeatUntilLast e f) (Run P p) (fun ts v => exists vs, v = VSeq (Strict vs) /\ Forall2 abs ts vs).
Proof.
  intros [A B] HP Hp. split.
  - intros i j v Hi H. inversion H; subst. clear H.
    match goal with X : Chain _ _ _ _ _, Y : StopsAt _ _ _ |- _ => rename X into HC; rename Y into HS end.
    change (Chain (sem s) (repeat f n) i j vs) in HC.
    enough (G : exists ts, Run P p i j ts /\ Forall2 abs ts vs) by (destruct G as (ts & G1 & G2); eauto).
    revert n i Hi HC. induction HS as [acc v Hv|acc v vs Hv HS IH]; intros n i Hi HC.
    + destruct n as [|n]; [inversion HC|]. cbn [repeat] in HC. inversion HC as [|? ? ? j1 ? ? ? H1 H2]; subst. inversion H2; subst.
      apply A in H1 as (t & Ht & Hab); [|assumption]. exists [t]. rewrite (Hp _ _ _ _ Ht Hab) in Hv. injection Hv as Hv.
      split; [now constructor|]. repeat constructor; assumption.
    + destruct n as [|n]; [inversion HC|]. cbn [repeat] in HC. inversion HC as [|? ? ? j1 ? ? ? H1 H2]; subst.
      apply A in H1 as (t & Ht & Hab); [|assumption]. rewrite (Hp _ _ _ _ Ht Hab) in Hv. injection Hv as Hv.
      apply IH in H2 as (ts & Hts & Hall); [|eapply HP; eassumption]. exists (t :: ts). split; [econstructor; eassumption|constructor; assumption].
  - intros i j ts Hr.
    enough (G : exists vs, Chain (sem s) (repeat f (length ts)) i j vs /\ Forall2 abs ts vs /\ forall acc, StopsAt (fun _ v => lambda_bool e s v) acc vs).
    { destruct G as (vs & G1 & G2 & G3). exists (VSeq (Strict vs)). split; [|eauto]. econstructor; [exact G1|]. apply G3. }
    induction Hr as [i j t Ht Hpt|i j k t ts Ht Hpt Hr (vs & G1 & G2 & G3)].
    + destruct (B _ _ _ Ht) as (v & Hv & Hab). exists [v]. cbn [repeat length]. split; [econstructor; [exact Hv|constructor]|].
      split; [repeat constructor; assumption|]. intros acc. constructor. now rewrite (Hp _ _ _ _ Ht Hab), Hpt.
    + destruct (B _ _ _ Ht) as (v & Hv & Hab). exists (v :: vs). cbn [repeat length]. split; [econstructor; eassumption|].
      split; [constructor; assumption|]. intros acc. constructor; [now rewrite (Hp _ _ _ _ Ht Hab), Hpt|]. apply G3.
Qed.

(** ** Distances and lengths *)
Context (base : nat) (Hitems : forall k it, nth_error (deflate_items base) k = Some it -> get_item M (base + k) = Some it).

Definition distance_is (d : N) (v : value) : Prop :=
  exists fs, coerce_mapped v = VRecord fs /\ assoc (intern "distance") fs = Some (VU B16 d).
Lemma distance_record0_den s x st : (x <= 13)%N -> (st <= 32768)%N ->
  den s (call_args base [EU B8 x; EU B16 st]) (fun i j d => exists y, Num bs (N.to_nat x) i j y /\ d = (st + y)%N) distance_is.
Proof.
  intros Hx Hst. assert (Hit : get_item M base = Some distance_record0) by (rewrite <- (Nat.add_0_r base); apply Hitems; reflexivity).
  unfold call_args.
  assert (Hcall : forall i j v, sem s (FItemVar base [EU B8 x; EU B16 st] []) i j v <->
    sem (SMulti SEmpty [(intern "extra-bits", EntVal (VU B8 x)); (intern "start", EntVal (VU B16 st))]) (it_format distance_record0) i j v).
  { intros i j v. rewrite (sem_item s base _ _ i j v Hit eq_refl). split; [intros (es & He & H); injection He as <-; exact H|]. intros H. eexists. split; [reflexivity|exact H]. }
  set (s1 := SMulti SEmpty [(intern "extra-bits", EntVal (VU B8 x)); (intern "start", EntVal (VU B16 st))]) in *.
  assert (Hm : exists k, first_match (VU B8 x) s1 0 (map (fun n => (PU B8 (N.of_nat n), bits16 n)) (seq 0 14)) = Some (k, SMulti s1 [], bits16 (N.to_nat x))).
  { destruct (first_match_table B8 x (VU B8 x) s1 N.of_nat bits16 [] eq_refl (seq 0 14) 0) as [(e & k & Hin & He & E)|[Hn _]].
    - rewrite app_nil_r in E. exists k. rewrite E. subst x. now rewrite Nat2N.id.
    - exfalso. apply (Hn (N.to_nat x)); [apply in_seq; lia|apply N2Nat.id]. }
  assert (Hev : forall v y, is B16 y v -> (y < 8192)%N -> eval_value (EArith AAdd (evar "start") (evar "distance-extra-bits")) (SSingle s1 (intern "distance-extra-bits") v) = Val (VU B16 (st + y))).
  { intros v y Hv Hy. unfold eval_value. rewrite (eval_add B16 _ _ _ (VU B16 st) v st y); [reflexivity| | |reflexivity|exact Hv|].
    - apply eval_var. rewrite get_other by reflexivity. reflexivity.
    - apply eval_var. apply get_same.
    - change (modulus B16) with 65536%N. lia. }
  destruct Hm as (k & Hm). assert (Hb16 : N.to_nat x <= 16) by lia.
  assert (Hyb : forall i j y, Num bs (N.to_nat x) i j y -> (y < 8192)%N).
  { intros i j y Hy. apply (Num_bound _ _ _ _ _ Hbs) in Hy. rewrite N2Nat.id in Hy. apply N.lt_le_trans with (1 := Hy). change 8192%N with (2 ^ 13)%N. apply N.pow_le_mono_r; lia. }
  split.
  - intros i j v Hi H. apply Hcall in H. apply record_sem in H as (rs & HF & ->); [|reflexivity].
    apply fields_cons in HF as (j1 & v1 & rs1 & H1 & HF & ->). apply fields_cons in HF as (j2 & v2 & rs2 & H2 & HF & ->). apply fields_nil in HF as [-> ->].
    apply sem_match in H1 as (w & k' & s' & f & u & He & Hf & H1 & ->). cbn [snd] in He. injection He as <-.
    rewrite Hm in Hf. injection Hf as <- <- <-. apply bits16_den in H1 as (y & Hy & Hu); [|assumption..].
    apply sem_compute in H2 as [-> H2]. cbn [fst] in H2. rewrite (Hev _ y) in H2; [|exact Hu|eapply Hyb; eassumption]. injection H2 as <-.
    exists (st + y)%N. split; [eauto|]. eexists. split; [reflexivity|]. reflexivity.
  - intros i j d (y & Hy & ->). destruct (proj2 (bits16_den (N.to_nat x) (SMulti s1 []) Hb16) i j y Hy) as (u & Hu & Hiu).
    eexists. split.
    + apply Hcall. apply record_sem; [reflexivity|]. eexists. split; [|reflexivity].
      apply fields_cons. do 3 eexists. split; [apply sem_match; do 5 eexists; split; [reflexivity|]; split; [exact Hm|]; split; [exact Hu|reflexivity]|]. split; [|reflexivity].
      apply fields_cons. do 3 eexists. split; [apply sem_compute; split; [reflexivity|]; cbn [fst]; apply (Hev _ y); [exact Hiu|eapply Hyb; eassumption]|]. split; [|reflexivity].
      apply fields_nil. auto.
    + eexists. split; [reflexivity|]. reflexivity.
Qed.
Lemma table_ok : forallb (fun e => N.eqb (snd (fst e)) (N.of_nat (distance_extra (N.to_nat (fst (fst e))))) &&
    N.eqb (snd e) (N.of_nat (distance_start (N.to_nat (fst (fst e))))) && N.ltb (fst (fst e)) 30) distance_table = true.
Proof. vm_compute. reflexivity. Qed.
Lemma table_all : forallb (fun d => existsb (fun e => N.eqb (fst (fst e)) (N.of_nat d)) distance_table) (seq 0 30) = true.
Proof. vm_compute. reflexivity. Qed.
(** A distance, given its symbol *)
Definition DistanceFor (sym i j : nat) (d : N) : Prop :=
  sym < 30 /\ exists y, Num bs (distance_extra sym) i j y /\ d = N.of_nat (distance_start sym + N.to_nat y).
Lemma distance_record_den s arg sym : eval_value arg s = Val (VU B16 (N.of_nat sym)) ->
  den s (call_args (l_distance_record base) [arg]) (DistanceFor sym) distance_is.
Proof.
  intros Harg. assert (Hit : get_item M (l_distance_record base) = Some (distance_record base)) by (apply Hitems; reflexivity).
  unfold call_args.
  set (s1 := SMulti (@SEmpty format) [(intern "distance-code", EntVal (VU B16 (N.of_nat sym)))]).
  assert (Hcall : forall i j v, sem s (FItemVar (l_distance_record base) [arg] []) i j v <-> sem s1 (it_format (distance_record base)) i j v).
  { intros i j v. rewrite (sem_item s _ _ _ i j v Hit eq_refl). cbn [distance_record it_args combine call_values omapM]. unfold call_values. cbn [omapM].
    rewrite Harg. cbn [omap obind]. split; [intros (es & He & H); injection He as <-; exact H|]. intros H. eexists. split; [reflexivity|exact H]. }
  pose proof (proj1 (forallb_forall _ _) table_ok) as Hok.
  assert (Hsem : forall i j v, sem s1 (it_format (distance_record base)) i j v <->
     exists e k u, In e distance_table /\ fst (fst e) = N.of_nat sym /\
       first_match (VU B8 (N.of_nat sym)) s1 0 (map (fun e => (PU B8 (fst (fst e)), call_args (l_distance_record0 base) [EU B8 (snd (fst e)); EU B16 (snd e)])) distance_table ++
     [(PInt (bnew 30 31), FFail)]) = Some (k, SMulti s1 [], call_args (l_distance_record0 base) [EU B8 (snd (fst e)); EU B16 (snd e)]) /\
       sem (SMulti s1 []) (call_args (l_distance_record0 base) [EU B8 (snd (fst e)); EU B16 (snd e)]) i j u /\ v = VBranch k u).
  { intros i j v. cbn [distance_record it_format]. rewrite sem_match. split.
    - intros (w & k & s' & f & u & He & Hf & Hu & ->).
      cbn [eval] in He. unfold evar in He. cbn [eval] in He. unfold s1 in He at 1. rewrite get_bound in He. cbn [omap obind coerce_mapped value_as] in He.
      unfold fit in He. destruct (N.ltb_spec (N.of_nat sym) (modulus B8)); [|discriminate]. injection He as <-.
      destruct (first_match_table B8 (N.of_nat sym) (VU B8 (N.of_nat sym)) s1 (fun e => fst (fst e))
        (fun e => call_args (l_distance_record0 base) [EU B8 (snd (fst e)); EU B16 (snd e)]) [(PInt (bnew 30 31), FFail)] eq_refl distance_table 0)
        as [(e & k' & Hin & Hk & E)|[Hn E]].
      + rewrite E in Hf. injection Hf as <- <- <-. exists e, k', u. auto 10.
      + exfalso. rewrite E in Hf. cbn [first_match] in Hf. rewrite (vmatches_int B8 (N.of_nat sym)) in Hf by reflexivity.
        destruct (_ && _)%bool; [|discriminate]. injection Hf as <- <- <-. inversion Hu.
    - intros (e & k & u & Hin & Hk & Hf & Hu & ->). specialize (Hok e Hin). apply andb_true_iff in Hok as [_ Hlt]. apply N.ltb_lt in Hlt.
      do 5 eexists. split; [|split; [exact Hf|split; [exact Hu|reflexivity]]].
      eapply eval_as; [apply eval_var, get_bound|reflexivity|]. change (modulus B8) with 256%N. lia. }
  assert (Hden : forall e, In e distance_table -> fst (fst e) = N.of_nat sym ->
    den (SMulti s1 []) (call_args (l_distance_record0 base) [EU B8 (snd (fst e)); EU B16 (snd e)]) (DistanceFor sym) distance_is).
  { intros [[c x] st] Hin He. cbn [fst snd] in *. specialize (Hok _ Hin). cbn [fst snd] in Hok. apply andb_true_iff in Hok as [Hok Hlt]. apply andb_true_iff in Hok as [Hx Hst].
    apply N.eqb_eq in Hx, Hst. apply N.ltb_lt in Hlt. subst c. rewrite Nat2N.id in *.
    assert (Hb : (x <= 13 /\ st <= 32768)%N).
    { assert (Q : forallb (fun e => N.leb (snd (fst e)) 13 && N.leb (snd e) 32768) distance_table = true) by (vm_compute; reflexivity).
      apply (proj1 (forallb_forall _ _) Q) in Hin. cbn [fst snd] in Hin. apply andb_true_iff in Hin as [A B]. apply N.leb_le in A, B. auto. }
    destruct (distance_record0_den (SMulti s1 []) x st (proj1 Hb) (proj2 Hb)) as [A B]. subst x st. rewrite Nat2N.id in *. split.
    - intros i j v Hi H. apply A in H as (d & (y & Hy & ->) & Hd); [|assumption]. exists (N.of_nat (distance_start sym) + y)%N. split; [|assumption].
      split; [lia|]. exists y. split; [assumption|]. lia.
    - intros i j d (_ & y & Hy & ->). apply B. exists y. split; [assumption|]. lia. }
  split.
  - intros i j v Hi H. apply Hcall, Hsem in H as (e & k & u & Hin & Hk & _ & Hu & ->). apply (Hden e Hin Hk) in Hu as (d & Hd & Hab); [|assumption].
    exists d. split; [assumption|]. exact Hab.
  - intros i j d Hd. pose proof Hd as [Hlt _].
    pose proof (proj1 (forallb_forall _ _) table_all sym) as Hex. rewrite in_seq in Hex. specialize (Hex ltac:(lia)). apply existsb_exists in Hex as (e & Hin & Hk). apply N.eqb_eq in Hk.
    destruct (first_match_table B8 (N.of_nat sym) (VU B8 (N.of_nat sym)) s1 (fun e => fst (fst e))
        (fun e => call_args (l_distance_record0 base) [EU B8 (snd (fst e)); EU B16 (snd e)]) [(PInt (bnew 30 31), FFail)] eq_refl distance_table 0)
        as [(e' & k' & Hin' & Hk' & E)|[Hn E]]; [|exfalso; eapply Hn; eassumption].
    destruct (proj2 (Hden e' Hin' Hk') i j d Hd) as (u & Hu & Hab). exists (VBranch k' u). split; [|exact Hab].
    apply Hcall, Hsem. exists e', k', u. auto 10.
Qed.

(** What holds in the scopes inside a format. *)
Definition kept_inside (ok : scope format -> Prop) : Prop :=
  (forall s x v, ok s -> ok (SSingle s x v)) /\ (forall s, ok s -> ok (SMulti s [])).
Definition CopyAt (start extra : nat) (distP : nat -> nat -> nat -> Prop) (i j : nat) (p : N * N) : Prop :=
  exists i1 i2 x sym d, Num bs extra i i1 x /\ distP i1 i2 sym /\ DistanceFor sym i2 j d /\ p = ((N.of_nat start + x)%N, d).
Definition copy_is (p : N * N) (v : value) : Prop :=
  exists fs, coerce_mapped v = VRecord fs /\ assoc (intern "length") fs = Some (VU B16 (fst p)) /\
    exists dv, assoc (intern "distance-record") fs = Some dv /\ distance_is (snd p) dv.
Definition code_arg (arg : expr) (sym : nat) (v : value) : Prop :=
  forall s', get_value (intern "distance-code") s' = Some v -> eval_value (D := format) arg s' = Val (VU B16 (N.of_nat sym)).
Lemma length_record_den ok distP start extra code arg s :
  kept_inside ok -> (forall s, ok s -> den s code distP (code_arg arg)) -> (forall i j sym, distP i j sym -> j <= length bs) ->
  extra <= 8 -> start <= 258 -> ok s ->
  den s (length_record_of base start extra code arg) (CopyAt start extra distP) copy_is.
Proof.
  intros [Hk1 Hk2] Hcode HdP Hextra Hstart Hok. unfold length_record_of.
  assert (Hev : forall s0 v y, is B8 y v -> (y < 256)%N -> eval_value (D := format) (EArith AAdd (EU B16 (N.of_nat start)) (EAs B16 (evar "length-extra-bits"))) (SSingle s0 (intern "length-extra-bits") v) = Val (VU B16 (N.of_nat start + y))).
  { intros s0 v y Hv Hy. unfold eval_value. rewrite (eval_add (D := format) B16 _ _ _ (VU B16 (N.of_nat start)) (VU B16 y) (N.of_nat start) y); [reflexivity|reflexivity| |reflexivity|reflexivity|].
    - eapply eval_as; [apply eval_var, get_same|exact Hv|]. change (modulus B16) with 65536%N. lia.
    - change (modulus B16) with 65536%N. lia. }
  assert (Hyb : forall i j y, Num bs extra i j y -> (y < 256)%N).
  { intros i j y Hy. apply (Num_bound _ _ _ _ _ Hbs) in Hy. apply N.lt_le_trans with (1 := Hy). change 256%N with (2 ^ 8)%N. apply N.pow_le_mono_r; lia. }
  split.
  - intros i j v Hi H. apply record_sem in H as (rs & HF & ->); [|reflexivity].
    apply fields_cons in HF as (j1 & v1 & rs1 & H1 & HF & ->). apply fields_cons in HF as (j2 & v2 & rs2 & H2 & HF & ->).
    apply fields_cons in HF as (j3 & v3 & rs3 & H3 & HF & ->). apply fields_cons in HF as (j4 & v4 & rs4 & H4 & HF & ->). apply fields_nil in HF as [-> ->].
    cbn [snd fst named map] in *.
    apply bits8_den in H1 as (x & Hx & Hv1); [|assumption..].
    apply sem_compute in H2 as [-> H2]. rewrite (Hev _ _ x Hv1) in H2 by (eapply Hyb; eassumption). injection H2 as <-.
    pose proof (Num_len _ _ _ _ _ Hx) as Hl.
    apply Hcode in H3 as (sym & Hsym & Hv3); [|auto|tauto].
    apply (distance_record_den _ _ sym) in H4 as (d & Hd & Hv4); [|apply Hv3, get_same|eapply HdP; eassumption].
    exists ((N.of_nat start + x)%N, d). split; [do 5 eexists; eauto|].
    eexists. split; [reflexivity|]. split; [reflexivity|]. exists v4. split; [reflexivity|exact Hv4].
  - intros i j p (i1 & i2 & x & sym & d & Hx & Hsym & Hd & ->).
    destruct (proj2 (bits8_den extra s Hextra) _ _ _ Hx) as (v1 & H1 & Hv1).
    set (s2 := SSingle (SSingle s (intern "length-extra-bits") v1) (intern "length") (VU B16 (N.of_nat start + x))).
    destruct (proj2 (Hcode s2 ltac:(unfold s2; auto)) _ _ _ Hsym) as (v3 & H3 & Hv3).
    destruct (proj2 (distance_record_den (SSingle s2 (intern "distance-code") v3) arg sym ltac:(apply Hv3, get_same)) _ _ _ Hd) as (v4 & H4 & Hv4).
    eexists. split.
    + apply record_sem; [reflexivity|]. eexists. split; [|reflexivity].
      apply fields_cons. do 3 eexists. split; [exact H1|]. split; [|reflexivity].
      apply fields_cons. do 3 eexists. split; [apply sem_compute; split; [reflexivity|apply (Hev _ _ x Hv1); eapply Hyb; eassumption]|]. split; [|reflexivity].
      apply fields_cons. do 3 eexists. split; [exact H3|]. split; [|reflexivity].
      apply fields_cons. do 3 eexists. split; [exact H4|]. split; [|reflexivity].
      apply fields_nil. auto.
    + eexists. split; [reflexivity|]. split; [reflexivity|]. exists v4. split; [reflexivity|exact Hv4].
Qed.

(** ** Symbols and what follows them *)
Definition is_length (sym : nat) : bool := Nat.leb 257 sym && Nat.leb sym 285.
Definition Step (litP distP : nat -> nat -> nat -> Prop) (i j : nat) (t : nat * option (N * N)) : Prop :=
  exists i1, litP i i1 (fst t) /\
    if is_length (fst t) then exists p, CopyAt (length_start (fst t - 257)) (length_extra (fst t - 257)) distP i1 j p /\ snd t = Some p
    else j = i1 /\ snd t = None.
Definition step_is (t : nat * option (N * N)) (v : value) : Prop :=
  exists fs cv xv, coerce_mapped v = VRecord fs /\ assoc (intern "code") fs = Some cv /\ is B16 (N.of_nat (fst t)) cv /\
    assoc (intern "extra") fs = Some xv /\
    match snd t with Some p => exists rv, coerce_mapped xv = VOption (Some rv) /\ copy_is p rv | None => coerce_mapped xv = VOption None end.
Lemma length_table_ok : forallb (fun e => let k := N.to_nat (fst (fst e)) in N.ltb (fst (fst e)) 1000 && is_length k &&
    Nat.eqb (snd (fst e)) (length_start (k - 257)) && Nat.eqb (snd e) (length_extra (k - 257)) && Nat.leb (snd e) 8 && Nat.leb (snd (fst e)) 258) length_table = true.
Proof. vm_compute. reflexivity. Qed.
Lemma length_table_all : forallb (fun k => existsb (fun e => N.eqb (fst (fst e)) (N.of_nat k)) length_table) (seq 257 29) = true.
Proof. vm_compute. reflexivity. Qed.
Lemma code_record_den ok litP distP fmt code arg s :
  kept_inside ok -> (forall s, ok s -> den s code distP (code_arg arg)) -> (forall i j sym, distP i j sym -> j <= length bs) ->
  (forall s, ok s -> den s (FApply fmt) litP (fun sym => is B16 (N.of_nat sym))) -> (forall i j sym, litP i j sym -> j <= length bs) ->
  ok s -> den s (code_record fmt (fun start extra => length_record_of base start extra code arg)) (Step litP distP) step_is.
Proof.
  intros Hkept Hcode HdP Hlit HlP Hok. pose proof Hkept as [Hk1 Hk2]. unfold code_record.
  set (F := fun e : N * nat * nat => FLiftedOption (Some (length_record_of base (snd (fst e)) (snd e) code arg))).
  set (rest := [(PInt (bnew 286 287), FLiftedOption None); (PWildcard, FLiftedOption None)]).
  pose proof (proj1 (forallb_forall _ _) length_table_ok) as Htab. cbn beta zeta in Htab.
  assert (Hden : forall e sym s0, In e length_table -> fst (fst e) = N.of_nat sym -> ok s0 ->
     den s0 (length_record_of base (snd (fst e)) (snd e) code arg) (CopyAt (length_start (sym - 257)) (length_extra (sym - 257)) distP) copy_is).
  { intros [[c st] x] sym s0 Hin Hc Hs0. cbn [fst snd] in *. specialize (Htab _ Hin). cbn [fst snd] in Htab. subst c. rewrite Nat2N.id in Htab.
    rewrite !andb_true_iff in Htab. destruct Htab as [[[[[_ _] H1] H2] H3] H4]. apply Nat.eqb_eq in H1, H2. apply Nat.leb_le in H3, H4. rewrite <- H1, <- H2.
    now apply (length_record_den ok). }
  assert (Hnone : forall w n (s0 : scope format), coerce_nominal w = VU B16 n -> exists k, first_match w s0 (0 + length length_table) rest = Some (k, SMulti s0 [], FLiftedOption None)).
  { intros w n s0 Hw. unfold rest. cbn [first_match]. rewrite (vmatches_int (D := format) B16 n) by exact Hw. destruct (_ && _)%bool; [eauto|]. rewrite vmatches_wild. eauto. }
  split.
  - intros i j v Hi H. apply record_sem in H as (rs & HF & ->); [|reflexivity].
    apply fields_cons in HF as (j1 & v1 & rs1 & H1 & HF & ->). apply fields_cons in HF as (j2 & v2 & rs2 & H2 & HF & ->). apply fields_nil in HF as [-> ->].
    cbn [snd fst] in *. apply Hlit in H1 as (sym & Hsym & Hv1); [|assumption..].
    apply sem_match in H2 as (w & k & s' & f & u & He & Hf & Hu & ->). rewrite (eval_var _ _ v1) in He by apply get_same. injection He as <-.
    pose proof (mapped_nominal _ _ _ Hv1) as Hn.
    destruct (first_match_table B16 (N.of_nat sym) v1 (SSingle s (intern "code") v1) (fun e => fst (fst e)) F rest Hn length_table 0)
      as [(e & k' & Hin & Hk & E)|[Hnot E]].
    + pose proof (eq_trans (eq_sym E) Hf) as Hq. injection Hq as <- <- <-. inversion Hu; subst.
      match goal with A : SemN _ _ _ _ _ (length_record_of _ _ _ _ _) _ _ _ _ |- _ => apply (Hden e sym) in A as (p & Hp & Hab); [|assumption|assumption|auto|eapply HlP; eassumption] end.
      exists (sym, Some p). split.
      * exists j1. split; [assumption|]. cbn [fst snd]. specialize (Htab _ Hin). rewrite !andb_true_iff in Htab. destruct Htab as [[[[[_ Hl] _] _] _] _].
        rewrite Hk, Nat2N.id in Hl. rewrite Hl. eauto.
      * eexists. exists v1. eexists. split; [reflexivity|]. split; [reflexivity|]. split; [exact Hv1|]. split; [reflexivity|]. cbn [snd]. eexists. split; [reflexivity|exact Hab].
    + destruct (Hnone _ _ (SSingle s (intern "code") v1) Hn) as (k' & Ek). pose proof (eq_trans (eq_sym Ek) (eq_trans (eq_sym E) Hf)) as Hq. injection Hq as <- <- <-. inversion Hu; subst.
      exists (sym, None). split.
      * eexists. split; [exact Hsym|]. cbn [fst snd]. destruct (is_length sym) eqn:El; [|auto]. exfalso. unfold is_length in El. rewrite andb_true_iff, !Nat.leb_le in El.
        pose proof (proj1 (forallb_forall _ _) length_table_all sym) as Hex. rewrite in_seq in Hex. specialize (Hex ltac:(lia)). apply existsb_exists in Hex as (e & Hin & Hk). apply N.eqb_eq in Hk.
        exact (Hnot e Hin Hk).
      * eexists. exists v1. eexists. split; [reflexivity|]. split; [reflexivity|]. split; [exact Hv1|]. split; [reflexivity|]. reflexivity.
  - intros i j [sym x] (i1 & Hsym & Hrest). cbn [fst snd] in *.
    destruct (proj2 (Hlit s Hok) _ _ _ Hsym) as (v1 & H1 & Hv1). pose proof (mapped_nominal _ _ _ Hv1) as Hn.
    enough (G : exists k f u, first_match v1 (SSingle s (intern "code") v1) 0 (map (fun e => (PU B16 (fst (fst e)), F e)) length_table ++ rest) = Some (k, SMulti (SSingle s (intern "code") v1) [], f) /\
       sem (SMulti (SSingle s (intern "code") v1) []) f i1 j u /\ match x with Some p => exists rv, coerce_mapped u = VOption (Some rv) /\ copy_is p rv | None => coerce_mapped u = VOption None end).
    { destruct G as (k & f & u & Ef & Hu & Hab). eexists. split.
      - apply record_sem; [reflexivity|]. eexists. split; [|reflexivity].
        apply fields_cons. do 3 eexists. split; [exact H1|]. split; [|reflexivity].
        apply fields_cons. do 3 eexists. split; [apply sem_match; do 5 eexists; split; [apply eval_var, get_same|]; split; [exact Ef|]; split; [exact Hu|reflexivity]|]. split; [|reflexivity].
        apply fields_nil. auto.
      - eexists. exists v1. eexists. split; [reflexivity|]. split; [reflexivity|]. split; [exact Hv1|]. split; [reflexivity|]. exact Hab. }
    destruct (first_match_table B16 (N.of_nat sym) v1 (SSingle s (intern "code") v1) (fun e => fst (fst e)) F rest Hn length_table 0)
      as [(e & k' & Hin & Hk & E)|[Hnot E]].
    + specialize (Htab _ Hin). rewrite !andb_true_iff in Htab. destruct Htab as [[[[[_ Hl] _] _] _] _]. rewrite Hk, Nat2N.id in Hl. rewrite Hl in Hrest.
      destruct Hrest as (p & Hp & ->). destruct (proj2 (Hden e sym (SMulti (SSingle s (intern "code") v1) []) Hin Hk ltac:(auto)) _ _ _ Hp) as (rv & Hrv & Hab).
      exists k', (F e), (VOption (Some rv)). split; [exact E|]. split; [now constructor|]. exists rv. split; [reflexivity|exact Hab].
    + destruct (is_length sym) eqn:El.
      * exfalso. unfold is_length in El. rewrite andb_true_iff, !Nat.leb_le in El.
        pose proof (proj1 (forallb_forall _ _) length_table_all sym) as Hex. rewrite in_seq in Hex. specialize (Hex ltac:(lia)). apply existsb_exists in Hex as (e & Hin & Hk). apply N.eqb_eq in Hk.
        exact (Hnot e Hin Hk).
      * destruct Hrest as [-> ->]. destruct (Hnone _ _ (SSingle s (intern "code") v1) Hn) as (k' & Ek). exists k', (FLiftedOption None), (VOption None).
        split; [now rewrite E|]. split; [constructor|reflexivity].
Qed.
End Sem.
