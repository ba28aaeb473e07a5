(** What the format of tagged numbers describes. *)
From Coq Require Import String.
From Verif Require Import Base BoundsModel DataModel NumericModel.
From Verif Require Import ValueModel FormatModel DecoderModel FormatSpec
  RecordModel TextModel RecordSpec RecordProofs RecordProps TextProofs DeflateModel DeflateSpec DeflateBits DeflateProofs DeflateBlocks DeflateProps GzipModel GzipSpec GzipProofs RiffModel RiffProofs NumsModel NumsSpec.
Open Scope nat_scope.

Definition inner_val (x : written) : value :=
  if w_signed x then VNumeric (TC (number_of x) (Concrete (MR true (w_width x))))
  else match w_width x with B8 => VU B8 (number true (w_bytes x)) | w => int_val true w (w_bytes x) end.
Definition num_val (x : written) : value := VBranch (N.to_nat (tag_of x)) (VVariant (intern (name_of x)) (inner_val x)).
Definition nums_val (xs : list written) : value := kept [("values", VSeq (Strict (map num_val xs)))]%string.

Section Sems.
Context (M : fmodule) (strict : bool) (um fl : scope format -> format -> list N -> nat -> Prop).
Context (buf : list N) (Hbuf : Forall (fun b => (b < 256)%N) buf).
Notation sem := (sem M strict um fl buf).
Definition inner (sg : bool) (w : bitwidth) : format := if sg then sint w else match w with B8 => u8_f | _ => uint true w end.
Lemma size_bytes w : N.to_nat (nbits w / 8) = size_of w.
Proof. destruct w; reflexivity. Qed.
Lemma inner_sem sg w s i j v : sem s (inner sg w) i j v <-> exists bs, Bytes buf i j bs /\ length bs = size_of w /\ v = inner_val (Written sg w bs).
Proof.
  destruct sg.
  - cbn [inner]. unfold DeflateProofs.sem. rewrite C51_signed by assumption. rewrite size_bytes. split.
    + intros (bs & H & -> & ->). pose proof (bytes_at_len _ _ _ _ H) as Hl. exists bs. split; [apply bytes_iff; rewrite Hl; auto|]. split; [assumption|reflexivity].
    + intros (bs & H & Hl & ->). apply bytes_iff in H as [H ->]. exists bs. rewrite Hl in *. auto.
  - assert (G : forall w, w <> B8 -> sem s (uint true w) i j v <-> exists bs, Bytes buf i j bs /\ length bs = size_of w /\ v = int_val true w bs).
    { intros w' _. rewrite int_sem by assumption. now rewrite size_bytes. }
    destruct w; cbn [inner]; [|apply G; discriminate..]. rewrite u8_sem by assumption. unfold inner_val. cbn [w_signed w_width w_bytes size_of]. split.
    + intros (b & H & ->). exists [b]. split; [assumption|]. split; [reflexivity|]. unfold number. cbn. f_equal. lia.
    + intros (bs & H & Hl & ->). destruct bs as [|b [|]]; try discriminate. exists b. split; [assumption|]. unfold number. cbn. f_equal. lia.
Qed.
Context (base : nat) (Hitems : forall k it, nth_error (nums_items base) k = Some it -> get_item M (base + k) = Some it).
Definition branch (sg : bool) (w : bitwidth) : string * format :=
  (name_of (Written sg w []), FMonadSeq (is_byte_f (tag_of (Written sg w []))) (inner sg w)).
Definition kinds : list (bool * bitwidth) := [(false, B8); (false, B16); (false, B32); (false, B64); (true, B8); (true, B16); (true, B32); (true, B64)].
Lemma num_branches : it_format num_value = alts (map (fun k => branch (fst k) (snd k)) kinds).
Proof. reflexivity. Qed.
Lemma branch_sem sg w s i j v : sem s (snd (branch sg w)) i j v <->
  exists bs, Bytes buf i j (tag_of (Written sg w bs) :: bs) /\ length bs = size_of w /\ v = inner_val (Written sg w bs).
Proof.
  unfold branch. cbn [snd]. rewrite sem_then.
  assert (Ht : forall bs, tag_of (Written sg w bs) = tag_of (Written sg w [])) by reflexivity.
  assert (Hb : (tag_of (Written sg w []) < 256)%N) by (destruct sg, w; reflexivity). split.
  - intros (k & u & H1 & H2). apply is_byte_sem in H1 as [H1 _]; [|assumption..]. apply inner_sem in H2 as (bs & H2 & Hl & ->). exists bs. split; [|auto].
    rewrite Ht. change (tag_of (Written sg w []) :: bs) with ([tag_of (Written sg w [])] ++ bs). apply Bytes_app. eauto.
  - intros (bs & H & Hl & ->). rewrite Ht in H. change (tag_of (Written sg w []) :: bs) with ([tag_of (Written sg w [])] ++ bs) in H. apply Bytes_app in H as (k & H1 & H2).
    exists k. eexists. split; [apply is_byte_sem; [assumption..|split; [exact H1|reflexivity]]|]. apply inner_sem. eauto.
Qed.
Lemma union_inv s fs i j v : sem s (FUnion fs) i j v -> exists k f u, nth_error fs k = Some f /\ sem s f i j u /\ v = VBranch k u.
Proof. intros H. inversion H; subst. unfold DeflateProofs.sem. eauto 6. Qed.
Lemma num_sem s i j v : sem s (call (l_num base)) i j v <-> exists x, fits x /\ Bytes buf i j (tag_of x :: w_bytes x) /\ v = num_val x.
Proof.
  rewrite (sem_call M strict um fl buf s _ num_value); [|rewrite <- (Nat.add_0_r (l_num base)); apply (Hitems 0); reflexivity|reflexivity..]. rewrite num_branches. unfold alts. split.
  - intros H. apply union_inv in H as (k & f & u & HN & H & ->). rewrite !map_map in HN. rewrite nth_error_map in HN.
    destruct (nth_error kinds k) as [[sg w]|] eqn:Hk; [|discriminate]. injection HN as <-. cbn [fst snd] in *.
    inversion H; subst.
    match goal with A : SemN _ _ _ _ _ (FMonadSeq _ _) _ _ _ _ |- _ => apply (branch_sem sg w) in A as (bs & HB & Hl & ->) end.
    exists (Written sg w bs). split; [exact Hl|]. split; [exact HB|]. unfold num_val. f_equal.
    do 8 (destruct k as [|k]; [injection Hk as <- <-; reflexivity|]). destruct k; discriminate Hk.
  - intros ([sg w bs] & Hf & HB & ->). unfold num_val.
    assert (Hk : nth_error kinds (N.to_nat (tag_of (Written sg w bs))) = Some (sg, w)) by (destruct sg, w; reflexivity).
    eapply SemUnion; [rewrite !map_map, nth_error_map, Hk; reflexivity|]. cbn [fst snd]. apply SemVariant. apply (branch_sem sg w). exists bs. auto.
Qed.
Lemma nums_chain s : forall n i j vs, i <= length buf -> (Chain (fun f i j v => SemN M strict um fl s f buf i j v) (repeat (call (l_num base)) n) i j vs <->
    exists xs, Forall fits xs /\ Bytes buf i j (flat_map (fun x => tag_of x :: w_bytes x) xs) /\ length xs = n /\ vs = map num_val xs).
Proof.
  induction n as [|n IH]; intros i j vs Hi; cbn [repeat].
  - split.
    + intros H. inversion H; subst. exists []. cbn [flat_map]. rewrite Bytes_nil. repeat split; auto.
    + intros (xs & _ & H & Hn & ->). destruct xs; [|discriminate]. apply Bytes_nil in H as [_ ->]. constructor.
  - rewrite chain_cons. split.
    + intros (k & w & ws & H1 & H2 & ->). apply num_sem in H1 as (x & Hx & H1 & ->). apply IH in H2 as (xs & Hf & H2 & Hn & ->); [|eapply Bytes_bound; eassumption].
      exists (x :: xs). split; [now constructor|]. split; [cbn [flat_map]; apply Bytes_app; eauto|]. split; [cbn; congruence|reflexivity].
    + intros (xs & Hf & H & Hn & ->). destruct xs as [|x xs]; [discriminate|]. cbn [flat_map] in H. apply Bytes_app in H as (k & H1 & H2). inversion Hf; subst.
      exists k, (num_val x), (map num_val xs). split; [apply num_sem; eauto|]. split; [|reflexivity]. apply IH; [eapply Bytes_bound; eassumption|]. exists xs. injection Hn as Hn. auto.
Qed.
Lemma nums_sem s i j v : i <= length buf -> (sem s (nums base) i j v <-> exists xs, Numbers buf i j xs /\ v = nums_val xs).
Proof.
  intros Hi. unfold nums. rewrite (sem_call M strict um fl buf s _ (nums_main base)); [|apply (Hitems 1); reflexivity|reflexivity..]. unfold nums_main, it_format, record_auto.
  cbn [map fst snd]. change (auto_label "__magic") with (@None (label * bool)). change (auto_label "values") with (Some (intern "values", true)).
  assert (Hm : Forall (fun b => (b < 256)%N) [78; 85; 77; 83]%N) by (repeat constructor).
  unfold DeflateProofs.sem at 1. rewrite record_ext_sem; [|cbn; repeat constructor; discriminate]. unfold Numbers. split.
  - intros (rs & H & ->). inversion H; subst.
    match goal with A : SemN _ _ _ _ _ (is_bytes _) _ _ _ _ |- _ => apply is_bytes_sem in A as [A _]; [|assumption..]; rename A into HB end.
    match goal with A : Fields _ _ _ _ _ _ |- _ => apply (fields_cons M strict um fl buf) in A as (k & w & rs' & Q & A & ->); apply (fields_nil M strict um fl buf) in A as [-> ->] end.
    inversion Q; subst. match goal with A : Chain _ _ _ _ _ |- _ => apply nums_chain in A as (xs & Hf & HX & _ & ->); [|eapply Bytes_bound; eassumption] end.
    exists xs. split; [|reflexivity]. split; [exact Hf|]. apply Bytes_app. eauto.
  - intros (xs & (Hf & H) & ->). apply Bytes_app in H as (k & H1 & H2). eexists. split.
    eapply FieldsDropped; [apply is_bytes_sem; [assumption..|]; split; [exact H1|reflexivity]|].
    apply (fields_cons M strict um fl buf). do 3 eexists. split; [eapply SemRepeat; apply nums_chain; [eapply Bytes_bound; eassumption|]; exists xs; split; [exact Hf|]; split; [exact H2|]; split; reflexivity|].
    split; [apply (fields_nil M strict um fl buf); split; reflexivity|reflexivity]. reflexivity.
Qed.
End Sems.
