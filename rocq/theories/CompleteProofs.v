(** Completeness: a compiled decoder accepts what its format describes, when the
    lookahead is exact. *)
From Verif Require ByteSetModel HuffmanModel.
From Verif Require Import Base BoundsModel DataModel NumericModel ValueModel ValueProofs FormatModel MatchTreeModel
  DecoderModel DecoderProofs FormatSpec FormatInd LookaheadSpec ExactSpec CompileProofs SoundProofs MatchBoundsProofs MatchTreeProofs LookaheadProofs.
Open Scope nat_scope.

Section Exact.
Context (bld : fmodule -> list format -> next -> outcome (option mtree)) (m : fmodule).
(** The lookahead for branches [fs] before [n] never gives up, knowing ([o = false])
    or not that the input ends after [n]. *)
Definition decided (o : bool) (fs : list format) (n : next) : Prop := Safe m (strict_look o) max_depth (start fs n).
(** Whether formats made while decoding are allowed. *)
Context (dyn : bool).
(** Same for the items of the module, by level. *)
Context (X : bool -> nat -> next -> Prop).
(** Everywhere in [f] followed by [n] the lookahead is decided. *)
Fixpoint Exact (o : bool) (f : format) (n : next) {struct f} : Prop :=
  match f with
  | FItemVar level _ _ =>
    exists it dep, get_item m level = Some it /\ depends_on_next bld m (item_depends bld m) (it_format it) = Val dep /\
      if dep then X o level n else X true level NEmpty
  | FUnion fs =>
    decided o fs n /\ (fix all (l : list format) : Prop := match l with [] => True | g :: r => Exact o g n /\ all r end) fs
  | FTuple fs | FSequence fs =>
    (fix all (l : list format) : Prop := match l with [] => True | g :: r => Exact o g (NSequence r n) /\ all r end) fs
  | FRepeat a => decided o [FTuple [a; FRepeat a]; FEmpty] n /\ Exact o a (NRepeat a n)
  | FRepeat1 a => decided o [FEmpty; FTuple [a; FRepeat a]] n /\ Exact o a (NRepeat a n)
  | FRepeatCount _ a | FRepeatUntilLast _ a | FRepeatUntilSeq _ a | FAccumUntil _ _ _ _ a | FForEach _ _ a => Exact o a (NRepeat a n)
  | FMaybe _ a | FPeek a | FBits a | FWithRelativeOffset _ _ a | FParseFromView _ a => Exact true a NEmpty
  | FSlice _ a | FDecodeBytes _ a => Exact false a NEmpty
  | FVariant _ a | FMap a _ | FWhere a _ _ | FLet _ _ a | FHint a | FLiftedOption (Some a) | FLetView _ a | FPermit a _ => Exact o a n
  | FMatch _ bs =>
    (fix all (l : list (pattern * format)) : Prop := match l with [] => True | (_, g) :: r => Exact o g n /\ all r end) bs
  | FLetFormat a _ b | FMonadSeq a b => Exact o a (NCat b n) /\ Exact o b n
  | FDynamic _ _ a => dyn = true /\ Exact o a n
  | FApply _ => dyn = true
  | FFail | FEndOfInput | FAlign _ | FByte _ | FUnionNondet _ | FRepeatBetween _ _ _ | FPeekNot _ | FCompute _ | FPos
  | FSkipRemainder | FLiftedOption None | FWithView _ _ | FPhantom _ => True
  end.
End Exact.

Lemma dyn_format_lengths {D} dy (s : scope D) : dyn_format dy s = obind (dyn_lengths dy s) huffman_format.
Proof. destruct dy as [a [b|]]; cbn [dyn_format dyn_lengths]; now destruct (obind (eval a s) value_to_vec_usize). Qed.

Section Complete.
Context (bld : fmodule -> list format -> next -> outcome (option mtree)) (P : program) (m : fmodule) (dyn : bool).
Context (Hbld : forall fs n t, bld m fs n = Val (Some t) -> Build LReal m fs n t).
Context (Call : nat -> next -> nat -> Prop) (HL : linked bld m P Call).
Context (X : bool -> nat -> next -> Prop).
Context (HX : forall o l n it i, X o l n -> Call l n i -> get_item m l = Some it -> Exact bld m dyn X o (it_format it) n).
Notation Exact := (Exact bld m dyn X).
Notation parse := (parse bld P).

(** With enough fuel. *)
Definition runs (s : scope decoder) (d : decoder) (buf : list N) (i j : nat) (v : value) : Prop :=
  exists F es, forall k, F <= k -> parse k s d (RC buf i) = ROk v (RC buf j) es.
(** The decoders in scope, and the formats they are made of: they can be made when
    the table allows it, and decode what the format describes. *)
Context (drel : decoder -> format -> Prop).
Context (Hmade : dyn = true -> forall ls g, enough_codes ls -> huffman_format ls = Val g -> exists d, compile_one bld g = COk d /\ drel d g).
Context (Hdecodes : dyn = true -> forall d g, drel d g -> forall s s' buf i j v, usable buf -> i <= length buf -> Sem m true s g buf i j v -> runs s' d buf i j v).
Lemma runs_range s d buf i j v : i <= length buf -> runs s d buf i j v -> j <= length buf.
Proof.
  intros Hi (F & es & H). pose proof (parse_adv bld P F s d (RC buf i) Hi) as Ha. rewrite H in Ha by lia. apply Ha.
Qed.
Lemma runs_step s d buf i j v :
  (exists F es, forall k, F <= k -> parse (S k) s d (RC buf i) = ROk v (RC buf j) es) -> runs s d buf i j v.
Proof.
  intros (F & es & H). exists (S F), es. intros [|k] Hk; [lia|]. apply H. lia.
Qed.

Lemma pseq_runs buf l i j vs : Chain (fun sd i j v => runs (fst sd) (snd sd) buf i j v) l i j vs ->
  exists F es, forall k, F <= k -> pseq (parse k) l (RC buf i) = ROk vs (RC buf j) es.
Proof.
  intros C. induction C as [i|[s d] l i j k v vs (F & es & H) C (F' & es' & IH)].
  - exists 0, []. reflexivity.
  - exists (Nat.max F F'), (es' ++ es). intros k0 Hk. cbn [pseq]. cbn [fst snd] in H. rewrite H by lia. cbn [rbind].
    rewrite IH by lia. reflexivity.
Qed.
Section Loop.
Context (buf : list N) (s : scope decoder) (d : decoder) (t : mtree).
Definition goes (w : nat) {A} (_ : A) (i j : nat) (v : value) : Prop := runs s d buf i j v /\ tree_matches t (RC buf i) = Some w.
Lemma pwhile_runs {A} (l : list A) i j vs : Chain (goes 0) l i j vs -> tree_matches t (RC buf j) = Some 1 ->
  exists F es, forall k k', F <= k -> F <= k' -> pwhile (parse k) s d t k' (RC buf i) = ROk vs (RC buf j) es.
Proof.
  intros C Hj. induction C as [i|a l i j k v vs [(F & es & H) HT] C IH].
  - exists 1, []. intros k [|k'] Hk Hk'; [lia|]. cbn [pwhile]. now rewrite Hj.
  - destruct (IH Hj) as (F' & es' & IH'). exists (S (Nat.max F F')), (es' ++ es). intros k0 [|k'] Hk Hk'; [lia|].
    cbn [pwhile]. rewrite HT, H by lia. cbn [rbind]. rewrite IH' by lia. reflexivity.
Qed.
Lemma puntil_runs {A} (l : list A) i i1 j v vs : runs s d buf i i1 v -> Chain (goes 1) l i1 j vs -> tree_matches t (RC buf j) = Some 0 ->
  exists F es, forall k k', F <= k -> F <= k' -> puntil (parse k) s d t k' (RC buf i) = ROk (v :: vs) (RC buf j) es.
Proof.
  intros (F & es & H) C Hj. revert i v F es H. induction C as [i1|a l i1 i2 j v1 vs [(F1 & es1 & H1) HT] C IH]; intros i v F es H.
  - exists (S F), ([] ++ es). intros k [|k'] Hk Hk'; [lia|]. cbn [puntil]. rewrite H by lia. cbn [rbind]. now rewrite Hj.
  - destruct (IH Hj i1 v1 F1 es1 H1) as (F' & es' & IH'). exists (S (Nat.max F F')), (es' ++ es).
    intros k0 [|k'] Hk Hk'; [lia|]. cbn [puntil]. rewrite H by lia. cbn [rbind]. rewrite HT, IH' by lia. reflexivity.
Qed.
Lemma puntil_done_runs stop {A} (l : list A) i j vs : Chain (fun _ i j v => runs s d buf i j v) l i j vs ->
  forall acc, StopsAt stop acc vs ->
  exists F es, forall k k', F <= k -> F <= k' -> puntil_done (parse k) s d stop acc k' (RC buf i) = ROk (acc ++ vs) (RC buf j) es.
Proof.
  intros C. induction C as [i|a l i j k v vs (F & es & H) C IH]; intros acc HS; inversion HS as [? ? Hs|? ? ? Hs HS']; subst.
  - inversion C; subst. exists (S F), ([] ++ es). intros k0 [|k'] Hk Hk'; [lia|]. cbn [puntil_done]. rewrite H by lia. cbn [rbind].
    rewrite Hs. reflexivity.
  - destruct (IH _ HS') as (F' & es' & IH'). exists (S (Nat.max F F')), (es' ++ es). intros k0 [|k'] Hk Hk'; [lia|].
    cbn [puntil_done]. rewrite H by lia. cbn [rbind]. rewrite Hs. cbn [rlet]. rewrite IH' by lia. now rewrite <- app_assoc.
Qed.
Lemma paccum_runs stop upd {A} (l : list A) i j vs : Chain (fun _ i j v => runs s d buf i j v) l i j vs ->
  forall acc dn acc', AccumTo stop upd acc dn vs acc' ->
  exists F es, forall k k', F <= k -> F <= k' -> paccum (parse k) s d stop upd acc dn k' (RC buf i) = ROk (acc', dn ++ vs) (RC buf j) es.
Proof.
  intros C. induction C as [i|a l i j k v vs (F & es & H) C IH]; intros acc dn acc' HS; inversion HS as [? ? Hs|? ? ? ? ? ? Hs Hu HS']; subst.
  - exists 1, []. intros k0 [|k'] Hk Hk'; [lia|]. cbn [paccum]. rewrite Hs. cbn [rlet]. now rewrite app_nil_r.
  - destruct (IH _ _ _ HS') as (F' & es' & IH'). exists (S (Nat.max F F')), (es' ++ es). intros k0 [|k'] Hk Hk'; [lia|].
    cbn [paccum]. rewrite Hs. cbn [rlet]. rewrite H by lia. cbn [rbind]. rewrite Hu. cbn [rlet]. rewrite IH' by lia. now rewrite <- app_assoc.
Qed.
End Loop.

(** ** Lookahead *)

Lemma decided_picks o fs n t i f buf p j : decided m o fs n -> bld m fs n = Val (Some t) -> usable buf ->
  nth_error fs i = Some f -> matched m f buf p j -> follows m o n buf j -> tree_matches t (RC buf p) = Some i.
Proof.
  intros HS HB [Hb _] Hi Hj Hf. unfold tree_matches. cbn [roff rinput]. apply Hbld in HB.
  assert (Hm : mode (strict_look o) o) by now destruct o.
  assert (Hw : strict_look o <> LWeak) by now destruct o.
  apply (tree_picks m _ o buf Hm Hw Hb _ _ _ HB _ HS i (NCat f n)); [now apply in_start|]. cbn. eauto.
Qed.

Lemma chain_matched {A} (R : A -> nat -> nat -> value -> Prop) (g : A -> format) buf l i j vs :
  (forall a i j v, R a i j v -> matched m (g a) buf i j) -> Chain R l i j vs -> matched_seq m (map g l) buf i j.
Proof.
  intros H C. induction C as [|a l i j k v vs Ha C IH]; cbn; [reflexivity|]. exists j. eauto.
Qed.
Lemma map_repeat {A B} (g : A -> B) a n : map g (repeat a n) = repeat (g a) n.
Proof. induction n; cbn; congruence. Qed.
Lemma chain_length {A} (R : A -> nat -> nat -> value -> Prop) l i j vs : Chain R l i j vs -> length vs = length l.
Proof. induction 1; cbn; congruence. Qed.

Lemma repeat_goes w s f buf s' d t n o :
  decided m o (if Nat.eqb w 0 then [FTuple [f; FRepeat f]; FEmpty] else [FEmpty; FTuple [f; FRepeat f]]) n ->
  bld m (if Nat.eqb w 0 then [FTuple [f; FRepeat f]; FEmpty] else [FEmpty; FTuple [f; FRepeat f]]) n = Val (Some t) ->
  w <= 1 -> usable buf ->
  forall c i j vs, Chain (fun f i j v => Sem m true s f buf i j v /\ runs s' d buf i j v) (repeat f c) i j vs ->
  follows m o n buf j ->
  Chain (goes buf s' d t w) (repeat f c) i j vs /\ tree_matches t (RC buf j) = Some (1 - w).
Proof.
  intros HD HB Hw Hu. induction c as [|c IH]; intros i j vs C Hf; inversion C as [|? ? ? j1 ? v vs' [H1 H2] C']; subst.
  - split; [constructor|].
    apply (decided_picks o _ n t (1 - w) FEmpty buf j j HD HB Hu); auto.
    + destruct w as [|[|]]; [reflexivity|reflexivity|lia].
    + exists SEmpty, (VTuple []). constructor. constructor.
  - destruct (IH _ _ _ C' Hf) as [G T]. split; [|exact T]. econstructor; [|exact G]. split; [exact H2|].
    apply (decided_picks o _ n t w (FTuple [f; FRepeat f]) buf i j HD HB Hu); auto.
    + destruct w as [|[|]]; [reflexivity|reflexivity|lia].
    + exists s, (VTuple [v; VSeq (Strict vs')]). constructor. econstructor; [exact H1|]. econstructor; [|constructor].
      apply (SemRepeat m true anything anything s f c). eapply Chain_mono; [|exact C']. intros a0 ? ? ? _ [Ha0 _]. exact Ha0.
Qed.

Lemma length_bits l : length (bits_of l) = 8 * length l.
Proof.
  unfold bits_of. induction l as [|b l IH]; [reflexivity|]. cbn [flat_map]. rewrite app_length, map_length, seq_length, IH. cbn [length]. lia.
Qed.
Lemma read_n_runs k rd n : (forall c j v, Elem k (rinput c) tt (roff c) j v -> rd c = ROk v (RC (rinput c) j) []) ->
  forall c j vs, Chain (Elem k (rinput c)) (repeat tt n) (roff c) j vs -> read_n rd n c = ROk vs (RC (rinput c) j) [].
Proof.
  intros Hrd. induction n as [|n IH]; intros c j vs C; inversion C as [|? ? ? ? ? ? ? H C']; subst; cbn [read_n].
  - now destruct c.
  - rewrite (Hrd _ _ _ H). cbn [rbind]. rewrite (IH (RC (rinput c) j0) j vs0 C'). reflexivity.
Qed.
Lemma read_byte_at c : rc_read_byte c = match nth_error (rinput c) (roff c) with Some b => Some (b, RC (rinput c) (roff c + 1)) | None => None end.
Proof. reflexivity. Qed.
Lemma elem_u8 be c j v : Elem (BK B8 be) (rinput c) tt (roff c) j v -> read_u8 c = ROk v (RC (rinput c) j) [].
Proof.
  intros H. inversion H as [? bs Hb Hw]; subst. cbn [bk_width] in *. change (N.to_nat (nbits B8 / 8)) with 1 in *.
  unfold bytes_at in Hb. destruct (Nat.leb_spec (roff c + 1) (length (rinput c))); [|discriminate]. injection Hb as <-.
  unfold read_u8. rewrite read_byte_at.
  destruct (nth_error (rinput c) (roff c)) as [b|] eqn:E; [|apply nth_error_None in E; lia].
  destruct (nth_skip _ _ _ E) as (r & ->). reflexivity.
Qed.
Lemma elem_base k c j v : Elem k (rinput c) tt (roff c) j v -> read_base k c = ROk v (RC (rinput c) j) [].
Proof.
  destruct k as [w be]. intros H. unfold read_base. cbn [bk_width bk_be].
  destruct w; [now apply (elem_u8 be)| | |];
    (inversion H as [? bs Hb Hw]; subst; cbn [bk_width bk_be] in *; destruct Hw as [Hw| ->]; [discriminate|];
     unfold bytes_at in Hb; unfold rc_read_be; destruct (Nat.leb _ _); [|discriminate]; injection Hb as <-; reflexivity).
Qed.
Lemma align_unique (i j n : N) : n <> 0%N -> (j mod n = 0)%N -> (i <= j)%N -> (j < i + n)%N -> ((n - i mod n) mod n = j - i)%N.
Proof.
  intros Hn Hj Hij Hlt. destruct (align_arith i n Hn) as [A1 A2]. set (k := ((n - i mod n) mod n)%N) in *.
  assert (E : ((j - i) mod n = k mod n)%N).
  { apply N.mod_divide in Hj; [|exact Hn]. apply N.mod_divide in A1; [|exact Hn].
    destruct Hj as [a Ha], A1 as [b Hb].
    destruct (N.le_ge_cases (i + k) j) as [L|L].
    - replace (j - i)%N with (k + (a - b) * n)%N; [apply N.mod_add, Hn|]. rewrite N.mul_sub_distr_r. lia.
    - replace k with ((j - i) + (b - a) * n)%N at 1; [symmetry; apply N.mod_add, Hn|]. rewrite N.mul_sub_distr_r. lia. }
  rewrite (N.mod_small (j - i) n), (N.mod_small k n) in E by lia. now symmetry.
Qed.
Lemma usable_firstn k buf : usable buf -> usable (firstn k buf).
Proof.
  intros [H1 H2]. split; [|rewrite firstn_length; lia].
  rewrite <- (firstn_skipn k buf) in H1. now apply Forall_app in H1.
Qed.
Lemma split_at_ok buf i n : usable buf -> i + N.to_nat n <= length buf ->
  rc_split_at (RC buf i) n = Val (Some (RC (firstn (i + N.to_nat n) buf) i, RC buf (i + N.to_nat n))).
Proof.
  intros [_ Hu] H. unfold rc_split_at. cbn [roff rinput].
  destruct (N.leb_spec w64 (N.of_nat i + n)); [lia|]. destruct (N.leb_spec (N.of_nat i + n) (N.of_nat (length buf))); [reflexivity|lia].
Qed.

Ltac start := apply runs_step; cbn [DecoderModel.parse].
Ltac one F es := exists F, es; intros k0 Hk0.

Definition complete_at s f buf i j v : Prop := forall o n d s',
  Comp bld m Call f n d -> Exact o f n -> srel drel s' s -> usable buf -> i <= length buf -> follows m o n buf j ->
  runs s' d buf i j v.
Definition Exact_tuple (o : bool) (fs : list format) (n : next) : Prop :=
  (fix all (l : list format) : Prop := match l with [] => True | g :: r => Exact o g (NSequence r n) /\ all r end) fs.
Lemma tuple_runs s s' buf o n : srel drel s' s -> usable buf -> forall fs i j vs,
  Chain (fun f i j v => Sem m true s f buf i j v /\ complete_at s f buf i j v) fs i j vs ->
  forall ds, CTup (Comp bld m Call) fs n ds -> Exact_tuple o fs n -> i <= length buf -> follows m o n buf j ->
  Chain (fun sd i j v => runs (fst sd) (snd sd) buf i j v) (map (pair s') ds) i j vs.
Proof.
  intros Hs Hu fs i j vs C. induction C as [i|f fs i j k v vs [H1 H2] C IH]; intros ds HT HE Hi Hf; inversion HT; subst; cbn [map].
  - constructor.
  - destruct HE as [E1 E2].
    assert (HR3 : runs s' d buf i j v).
    { eapply H2; eauto. cbn. exists k. split; [|exact Hf]. rewrite <- (map_id fs). eapply chain_matched; [|exact C].
      intros a ? ? ? [Ha _]. eexists _, _; exact Ha. }
    econstructor; [exact HR3|]. eapply IH; eauto. eapply runs_range; eauto.
Qed.
Lemma elems_runs s s' buf o n f d : srel drel s' s -> usable buf -> Comp bld m Call f (NRepeat f n) d -> Exact o f (NRepeat f n) ->
  forall c i j vs, Chain (fun f i j v => Sem m true s f buf i j v /\ complete_at s f buf i j v) (repeat f c) i j vs ->
  i <= length buf -> follows m o n buf j ->
  Chain (fun f i j v => Sem m true s f buf i j v /\ runs s' d buf i j v) (repeat f c) i j vs.
Proof.
  intros Hs Hu HC HE c. induction c as [|c IH]; intros i j vs C Hi Hf; inversion C as [|? ? ? j1 ? v vs' [H1 H2] C']; subst; [constructor|].
  assert (HR3 : runs s' d buf i j1 v).
  { eapply H2; eauto. cbn. exists c, j. split; [|exact Hf]. rewrite <- (map_id (repeat f c)). eapply chain_matched; [|exact C'].
    intros a ? ? ? [Ha _]. eexists _, _; exact Ha. }
  cbn [repeat]. econstructor; [split; eassumption|]. apply IH; auto. eapply runs_range; eauto.
Qed.

Theorem complete : forall s f buf i j v, Sem m true s f buf i j v -> forall o n d s',
  Comp bld m Call f n d -> Exact o f n -> srel drel s' s -> usable buf -> i <= length buf -> follows m o n buf j ->
  runs s' d buf i j v.
Proof.
  apply (Sem_ind' m true anything anything complete_at); try discriminate.
  - intros s level args views it sf' buf i j v Hit Hcs HS IH o n d s' HC HE Hs Hu Hi Hf.
    inversion HC; subst. rename it0 into it'. match goal with H : Call _ _ _ |- _ => rename H into Hcall end.
    cbn [CompleteProofs.Exact] in HE. destruct HE as (it2 & dep2 & Hit2 & Hdep2 & HXx).
    replace it' with it in * by congruence. replace it2 with it in * by congruence. replace dep2 with dep in * by congruence.
    destruct (HL _ _ _ Hcall) as (it3 & d' & Hit3 & Hd' & Hc'). replace it3 with it in * by congruence.
    pose proof (srel_call drel s' s (combine (it_args it) args) (combine (it_views it) views) Hs) as Hcs'. rewrite Hcs in Hcs'.
    destruct (call_scope s' _ _) as [[s1|]|] eqn:E1; try contradiction.
    assert (Hr : runs s1 d' buf i j v).
    { destruct dep.
      - apply (IH o n); auto. eapply HX; eauto.
      - apply (IH true NEmpty); auto; [eapply HX; eauto|now left]. }
    destruct Hr as (F & es & Hr). start. one F es. rewrite E1. cbn [rlet]. rewrite Hd'. now apply Hr.
  - intros s buf i Hl o n d s' HC HE Hs Hu Hi Hf. inversion HC; subst. start. one 0 (@nil derr). rewrite read_byte_at. cbn [rinput roff].
    destruct (nth_error buf i) eqn:E; [|reflexivity]. assert (i < length buf) by (apply nth_error_Some; congruence). lia.
  - intros s k buf i j Hk Hm Hij Hlt Hj o n d s' HC HE Hs Hu Hi Hf. inversion HC; subst. start. one 0 (@nil derr).
    destruct (N.eqb_spec k 0); [contradiction|]. cbn [roff]. cbv zeta.
    rewrite (align_unique (N.of_nat i) (N.of_nat j) k) by (exact Hm || (clear Hm; lia)).
    clear Hm. rewrite split_at_ok by (auto; lia). cbn [rlet]. do 2 f_equal. lia.
  - intros s bs buf i b Hb Hc o n d s' HC HE Hs Hu Hi Hf. inversion HC; subst. start. one 0 (@nil derr).
    rewrite read_byte_at. cbn [rinput roff]. rewrite Hb, Hc. do 2 f_equal. lia.
  - intros s l f buf i j v HS IH o n d s' HC HE Hs Hu Hi Hf. inversion HC; subst.
    match goal with H : Comp _ _ _ f _ _ |- _ => destruct (IH _ _ _ _ H HE Hs Hu Hi Hf) as (F & es & Hr) end.
    start. one F es. now rewrite Hr by lia.
  - (* union *)
    intros s fs k f buf i j v Hk HS IH o n d s' HC HE Hs Hu Hi Hf. inversion HC; subst. cbn [CompleteProofs.Exact] in HE. destruct HE as [HD HE].
    match goal with F : Forall2 _ fs ds |- _ => rename F into F2 end.
    match goal with F : bld _ _ _ = _ |- _ => rename F into HB end.
    assert (Hd : exists d, nth_error ds k = Some d /\ Comp bld m Call f n d /\ Exact o f n).
    { clear - F2 Hk HE. revert k Hk. induction F2 as [|g dg fs ds Hg F2 IHF]; intros [|k] Hk; try discriminate; cbn in Hk.
      - injection Hk as ->. exists dg. split; [reflexivity|]. split; [exact Hg|]. apply HE.
      - cbn [nth_error]. apply IHF; [|exact Hk]. apply HE. }
    destruct Hd as (d' & Hd & Hc & Hx). destruct (IH _ _ _ _ Hc Hx Hs Hu Hi Hf) as (F & es & Hr).
    start. one F es. rewrite (decided_picks o fs n t k f buf i j HD HB Hu Hk) by (eauto; eexists _, _; eassumption).
    rewrite Hd. now rewrite Hr by lia.
  - intros s fs buf i j vs C o n d s' HC HE Hs Hu Hi Hf. inversion HC; subst.
    match goal with H : CTup _ _ _ _ |- _ => destruct (pseq_runs _ _ _ _ _ (tuple_runs s s' buf o n Hs Hu fs i j vs C ds H HE Hi Hf)) as (F & es & Hr) end.
    start. one F es. now rewrite Hr by lia.
  - intros s fs buf i j vs C o n d s' HC HE Hs Hu Hi Hf. inversion HC; subst.
    match goal with H : CTup _ _ _ _ |- _ => destruct (pseq_runs _ _ _ _ _ (tuple_runs s s' buf o n Hs Hu fs i j vs C ds H HE Hi Hf)) as (F & es & Hr) end.
    start. one F es. now rewrite Hr by lia.
  - (* repeat *)
    intros s f c buf i j vs C o n d s' HC HE Hs Hu Hi Hf. inversion HC; subst. cbn [CompleteProofs.Exact] in HE. destruct HE as [HD HE].
    match goal with H : Comp _ _ _ f _ _, HB : bld _ _ _ = _ |- _ =>
      pose proof (elems_runs s s' buf o n f _ Hs Hu H HE c i j vs C Hi Hf) as C';
      destruct (repeat_goes 0 s f buf s' _ t n o HD HB ltac:(lia) Hu c i j vs C' Hf) as [G T];
      destruct (pwhile_runs buf s' _ t _ _ _ _ G T) as (F & es & Hr) end.
    start. one F es. now rewrite Hr by lia.
  - (* repeat1 *)
    intros s f c buf i j vs C o n d s' HC HE Hs Hu Hi Hf. inversion HC; subst. cbn [CompleteProofs.Exact] in HE. destruct HE as [HD HE].
    match goal with H : Comp _ _ _ f _ _, HB : bld _ _ _ = _ |- _ =>
      pose proof (elems_runs s s' buf o n f _ Hs Hu H HE (S c) i j vs C Hi Hf) as C';
      inversion C' as [|? ? ? j1 ? v1 vs1 [HS1 HR1] C'']; subst;
      destruct (repeat_goes 1 s f buf s' _ t n o HD HB ltac:(lia) Hu c j1 j vs1 C'' Hf) as [G T];
      destruct (puntil_runs buf s' _ t _ i j1 j v1 vs1 HR1 G T) as (F & es & Hr) end.
    start. one F es. now rewrite Hr by lia.
  - (* repeat count *)
    intros s e f c buf i j vs He C o n d s' HC HE Hs Hu Hi Hf. inversion HC; subst. cbn [CompleteProofs.Exact] in HE.
    match goal with H : Comp _ _ _ f _ ?d |- _ =>
      pose proof (elems_runs s s' buf o n f _ Hs Hu H HE _ i j vs C Hi Hf) as C'; rename d into d1 end.
    assert (C2 : Chain (fun sd i j v => runs (fst sd) (snd sd) buf i j v) (repeat (s', d1) (N.to_nat c)) i j vs).
    { clear - C'. revert i vs C'. induction (N.to_nat c); intros i vs C'; inversion C' as [|? ? ? ? ? ? ? [? ?] ?]; subst; cbn; econstructor; eauto. }
    destruct (pseq_runs _ _ _ _ _ C2) as (F & es & Hr).
    start. one F es. rewrite (srel_usize drel s' s), He by assumption. cbn [rlet]. now rewrite Hr by lia.
  - intros s e f c buf i j vs C HSt o n d s' HC HE Hs Hu Hi Hf. inversion HC; subst. cbn [CompleteProofs.Exact] in HE.
    match goal with H : Comp _ _ _ f _ ?d |- _ =>
      pose proof (elems_runs s s' buf o n f _ Hs Hu H HE _ i j vs C Hi Hf) as C'; rename d into d1 end.
    destruct (puntil_done_runs buf s' d1 (fun _ v => lambda_bool e s' v) (repeat f c) i j vs) with (acc := @nil value) as (F & es & Hr).
    { eapply Chain_mono; [|exact C']. intros a ? ? ? _ [_ Ha]. exact Ha. }
    { eapply StopsAt_ext; [|exact HSt]. intros. symmetry. now apply (srel_lambda_bool drel). }
    start. one F es. now rewrite Hr by lia.
  - intros s e f c buf i j vs C HSt o n d s' HC HE Hs Hu Hi Hf. inversion HC; subst. cbn [CompleteProofs.Exact] in HE.
    match goal with H : Comp _ _ _ f _ ?d |- _ =>
      pose proof (elems_runs s s' buf o n f _ Hs Hu H HE _ i j vs C Hi Hf) as C'; rename d into d1 end.
    destruct (puntil_done_runs buf s' d1 (fun acc v => lambda_bool e s' (VSeq (Strict (acc ++ [v])))) (repeat f c) i j vs) with (acc := @nil value) as (F & es & Hr).
    { eapply Chain_mono; [|exact C']. intros a ? ? ? _ [_ Ha]. exact Ha. }
    { eapply StopsAt_ext; [|exact HSt]. intros. symmetry. now apply (srel_lambda_bool drel). }
    start. one F es. now rewrite Hr by lia.
  - intros s fd fu e0 ty f c buf i j vs acc0 acc H0 C HSt o n d s' HC HE Hs Hu Hi Hf. inversion HC; subst. cbn [CompleteProofs.Exact] in HE.
    match goal with H : Comp _ _ _ f _ ?d |- _ =>
      pose proof (elems_runs s s' buf o n f _ Hs Hu H HE _ i j vs C Hi Hf) as C'; rename d into d1 end.
    destruct (paccum_runs buf s' d1 (fun a vs => lambda_bool fd s' (VTuple [a; VSeq (Strict vs)])) (fun a v => eval_lambda fu s' (VTuple [a; v]))
      (repeat f c) i j vs) with (acc := acc0) (dn := @nil value) (acc' := acc) as (F & es & Hr).
    { eapply Chain_mono; [|exact C']. intros a ? ? ? _ [_ Ha]. exact Ha. }
    { eapply AccumTo_ext; [| |exact HSt]; intros; symmetry; [now apply (srel_lambda_bool drel)|now apply (srel_lambda drel)]. }
    start. one F es. rewrite (srel_eval_value drel s' s), H0 by assumption. cbn [rlet]. now rewrite Hr by lia.
  - (* for each *)
    intros s e x f l buf i j vs He C o n d s' HC HE Hs Hu Hi Hf. inversion HC; subst. cbn [CompleteProofs.Exact] in HE.
    match goal with H : Comp _ _ _ f _ ?d |- _ => rename H into HCf; rename d into d1 end.
    assert (C2 : Chain (fun sd i j v => runs (fst sd) (snd sd) buf i j v) (map (fun v => (SSingle s' x v, d1)) l) i j vs).
    { clear He. revert Hi Hf. induction C as [i|a l i j k v vs [H1 H2] C IH]; intros Hi Hf; cbn [map]; [constructor|].
      assert (HR3 : runs (SSingle s' x a) d1 buf i j v).
      { eapply H2; eauto; [now constructor|]. cbn. exists (length l), k. split; [|exact Hf].
        replace (repeat f (length l)) with (map (fun _ : value => f) l) by (clear; induction l; cbn; congruence).
        eapply chain_matched; [|exact C]. intros a' ? ? ? [Ha _]. eexists _, _; exact Ha. }
      econstructor; [exact HR3|]. apply IH; auto. eapply runs_range; eauto. }
    destruct (pseq_runs _ _ _ _ _ C2) as (F & es & Hr).
    start. one F es. unfold eval_list in He. rewrite (srel_eval_value drel s' s), He by assumption. cbn [rlet]. now rewrite Hr by lia.
  - intros s e f buf i He o n d s' HC HE Hs Hu Hi Hf. inversion HC; subst. start. one 0 (@nil derr).
    rewrite (srel_bool drel s' s) by assumption. now rewrite He.
  - intros s e f buf i j v He HS IH o n d s' HC HE Hs Hu Hi Hf. inversion HC; subst. cbn [CompleteProofs.Exact] in HE.
    match goal with H : Comp _ _ _ f _ _ |- _ => destruct (IH true _ _ _ H HE Hs Hu Hi) as (F & es & Hr); [now left|] end.
    start. one F es. rewrite (srel_bool drel s' s) by assumption. rewrite He. cbn [rlet]. now rewrite Hr by lia.
  - (* peek *)
    intros s f buf i j v HS IH o n d s' HC HE Hs Hu Hi Hf. inversion HC; subst. cbn [CompleteProofs.Exact] in HE.
    match goal with H : Comp _ _ _ f _ _ |- _ => destruct (IH true _ _ _ H HE Hs Hu Hi) as (F & es & Hr); [now left|] end.
    start. one F es. now rewrite Hr by lia.
  - (* slice *)
    intros s e f k buf i j v He Hl HS IH Hj o n d s' HC HE Hs Hu Hi Hf. inversion HC; subst. cbn [CompleteProofs.Exact] in HE.
    specialize (Hj eq_refl). subst j.
    match goal with H : Comp _ _ _ f _ _ |- _ => destruct (IH false _ _ _ H HE Hs (usable_firstn _ _ Hu)) as (F & es & Hr) end.
    { rewrite firstn_length. lia. }
    { right. rewrite firstn_length. lia. }
    start. one F es. rewrite (srel_usize drel s' s), He by assumption. cbn [rlet]. rewrite split_at_ok by assumption. cbn [rlet].
    now rewrite Hr by lia.
  - (* bits *)
    intros s f buf i k v Hl HS IH Hub o n d s' HC HE Hs Hu Hi Hf. inversion HC; subst. cbn [CompleteProofs.Exact] in HE.
    match goal with H : Comp _ _ _ f _ _ |- _ => destruct (IH true _ _ _ H HE Hs (Hub eq_refl)) as (F & es & Hr); [lia|now left|] end.
    assert (Hk : k <= length (bits_of (skipn i buf))) by (eapply (runs_range _ _ _ 0); [lia|eexists _, _; exact Hr]).
    start. one F ([] ++ es). unfold rc_remaining at 1. cbn [roff rinput].
    destruct (Nat.leb_spec i (length buf)); [|lia]. cbn [rlet]. unfold rc_new. rewrite Hr by lia. cbn [rbind].
    unfold rc_remaining. cbn [roff rinput]. destruct (Nat.leb_spec k (length (bits_of (skipn i buf)))); [|lia]. cbn [rlet]. cbv zeta.
    repeat rewrite ?skipn_length, ?length_bits. repeat rewrite ?skipn_length, ?length_bits in Hk.
    set (L := length buf - i) in *.
    destruct (Nat.ltb_spec L ((8 * L - k) / 8)); [lia|].
    rewrite split_at_ok by (auto; lia). cbn [rlet]. cbn [app]. replace (N.to_nat (N.of_nat (L - (8 * L - k) / 8))) with ((k + 7) / 8); [reflexivity|]. rewrite Nat2N.id. clear - Hk. clearbody L. lia.
  - intros s e1 e2 f n1 n2 buf i j v H1 H2 Hlt Hle HS IH o n d s' HC HE Hs Hu Hi Hf. inversion HC; subst. cbn [CompleteProofs.Exact] in HE.
    match goal with H : Comp _ _ _ f _ _ |- _ => destruct (IH true _ _ _ H HE Hs Hu) as (F & es & Hr); [lia|now left|] end.
    start. one F es. rewrite !(srel_usize drel s' s), H1, H2 by assumption. cbn [rlet].
    destruct (N.ltb_spec (n1 + n2) w64); [|lia]. unfold rc_seek_to. cbn [rinput].
    destruct (N.leb_spec (n1 + n2) (N.of_nat (length buf))); [|lia]. now rewrite Hr by lia.
  - intros s f e buf i j v w HS IH He o n d s' HC HE Hs Hu Hi Hf. inversion HC; subst. cbn [CompleteProofs.Exact] in HE.
    match goal with H : Comp _ _ _ f _ _ |- _ => destruct (IH _ _ _ _ H HE Hs Hu Hi Hf) as (F & es & Hr) end.
    start. one F ([] ++ es). rewrite Hr by lia. cbn [rbind]. rewrite (srel_lambda drel s' s), He by assumption. reflexivity.
  - intros s f e hard b buf i j v HS IH He Hb o n d s' HC HE Hs Hu Hi Hf. inversion HC; subst. cbn [CompleteProofs.Exact] in HE.
    match goal with H : Comp _ _ _ f _ _ |- _ => destruct (IH _ _ _ _ H HE Hs Hu Hi Hf) as (F & es & Hr) end.
    start. one F ((if b then [] else [KBadWhere v]) ++ es). rewrite Hr by lia. cbn [rbind]. rewrite (srel_lambda_bool drel s' s), He by assumption.
    cbn [rlet]. destruct b; [reflexivity|]. destruct hard; [discriminate (Hb eq_refl)|reflexivity].
  - intros s e buf i v He o n d s' HC HE Hs Hu Hi Hf. inversion HC; subst. start. one 0 (@nil derr).
    rewrite (srel_eval_value drel s' s), He by assumption. reflexivity.
  - intros s x e f buf i j v w He HS IH o n d s' HC HE Hs Hu Hi Hf. inversion HC; subst. cbn [CompleteProofs.Exact] in HE.
    match goal with H : Comp _ _ _ f _ _ |- _ => destruct (IH _ _ _ (SSingle s' x w) H HE) as (F & es & Hr); auto; [now constructor|] end.
    start. one F es. rewrite (srel_eval_value drel s' s), He by assumption. cbn [rlet]. now rewrite Hr by lia.
  - (* match *)
    intros s e bs w k s1 f buf i j v He Hm HS IH o n d s' HC HE Hs Hu Hi Hf. inversion HC; subst. cbn [CompleteProofs.Exact] in HE.
    match goal with F : Forall2 _ bs ds |- _ => rename F into F2 end.
    assert (F3 : Forall2 (fun b d => fst b = fst d /\ (Comp bld m Call (snd d) n (snd b) /\ Exact o (snd d) n)) ds bs).
    { clear - F2 HE. induction F2 as [|[p g] [p' dg] bs ds [E Hg] F2 IHF]; constructor; cbn in *; [intuition auto|tauto]. }
    pose proof (srel_first_match drel (fun d f => Comp bld m Call f n d /\ Exact o f n) s' s w Hs ds bs 0 F3) as Hfm. rewrite Hm in Hfm.
    destruct (first_match w s' 0 ds) as [[[k' s1'] d1]|] eqn:Em; [|contradiction]. destruct Hfm as (-> & Hs1 & Hc1 & He1).
    destruct (IH _ _ _ _ Hc1 He1 Hs1 Hu Hi Hf) as (F & es & Hr).
    start. one F es. rewrite (srel_eval drel s' s), He by assumption. cbn [rlet]. rewrite Em. now rewrite Hr by lia.
  - (* dynamic *)
    intros s x dy g f buf i j v Eg Hls HS IH o n d s' HC HE Hs Hu Hi Hf. inversion HC; subst. cbn [CompleteProofs.Exact] in HE. destruct HE as [Ed HE].
    destruct (Hls eq_refl) as (ls & El & Hok). rewrite dyn_format_lengths, El in Eg. cbn [obind] in Eg.
    destruct (Hmade Ed ls g Hok Eg) as (dg & Hc & Hr).
    match goal with H : Comp _ _ _ f _ _ |- _ => destruct (IH _ _ _ (SDecoder s' x dg) H HE) as (F & es & Hp); auto; [now constructor|] end.
    start. one F es. rewrite (srel_dyn drel s' s), dyn_format_lengths, El by assumption. cbn [obind]. rewrite Eg. cbn [rlet]. rewrite Hc. now rewrite Hp by lia.
  - (* apply *)
    intros s x g buf i j v Eg HS IH o n d s' HC HE Hs Hu Hi Hf. inversion HC; subst. cbn [CompleteProofs.Exact] in HE.
    pose proof (srel_decoder drel s' s Hs x) as Hd. rewrite Eg in Hd. destruct (get_decoder x s') as [dg|] eqn:E; [|contradiction].
    destruct (Hdecodes HE dg g Hd s s' buf i j v Hu Hi HS) as (F & es & Hp). start. one F es. rewrite E. now apply Hp.
  - intros s buf i o n d s' HC HE Hs Hu Hi Hf. inversion HC; subst. start. one 0 (@nil derr). reflexivity.
  - intros s buf i Hl o n d s' HC HE Hs Hu Hi Hf. inversion HC; subst. start. one 0 (@nil derr). reflexivity.
  - (* decode bytes *)
    intros s e f bytes buf i j v He HS IH Hst o n d s' HC HE Hs Hu Hi Hf. inversion HC; subst. cbn [CompleteProofs.Exact] in HE.
    destruct (Hst eq_refl) as [Hub ->].
    match goal with H : Comp _ _ _ f _ _ |- _ => destruct (IH false _ _ _ H HE Hs Hub) as (F & es & Hr) end; [lia|now right|].
    start. one F ([] ++ es). unfold eval_bytes in He. rewrite (srel_eval_value drel s' s), He by assumption. cbn [rlet]. unfold rc_new.
    rewrite Hr by lia. cbn [rbind]. rewrite read_byte_at. cbn [rinput roff].
    now rewrite (proj2 (nth_error_None bytes (length bytes))) by lia.
  - intros s f x g buf i j k v w HS1 IH1 HS2 IH2 o n d s' HC HE Hs Hu Hi Hf. inversion HC; subst. cbn [CompleteProofs.Exact] in HE. destruct HE as [E1 E2].
    match goal with H : Comp _ _ _ f _ _ |- _ => destruct (IH1 _ _ _ _ H E1 Hs Hu Hi) as (F & es & Hr) end.
    { cbn. exists k. split; [eexists _, _; eassumption|exact Hf]. }
    assert (Hj : j <= length buf) by (eapply runs_range; [exact Hi|eexists _, _; exact Hr]).
    match goal with H : Comp _ _ _ g _ _ |- _ => destruct (IH2 _ _ _ (SSingle s' x w) H E2) as (F' & es' & Hr'); auto; [now constructor|] end.
    start. one (Nat.max F F') (es' ++ es). rewrite Hr by lia. cbn [rbind]. rewrite Hr' by lia. reflexivity.
  - intros s f g buf i j k v w HS1 IH1 HS2 IH2 o n d s' HC HE Hs Hu Hi Hf. inversion HC; subst. cbn [CompleteProofs.Exact] in HE. destruct HE as [E1 E2].
    match goal with H : Comp _ _ _ f _ _ |- _ => destruct (IH1 _ _ _ _ H E1 Hs Hu Hi) as (F & es & Hr) end.
    { cbn. exists k. split; [eexists _, _; eassumption|exact Hf]. }
    assert (Hj : j <= length buf) by (eapply runs_range; [exact Hi|eexists _, _; exact Hr]).
    match goal with H : Comp _ _ _ g _ _ |- _ => destruct (IH2 _ _ _ _ H E2 Hs) as (F' & es' & Hr'); auto end.
    start. one (Nat.max F F') (es' ++ es). rewrite Hr by lia. cbn [rbind]. rewrite Hr' by lia. reflexivity.
  - intros s f buf i j v HS IH o n d s' HC HE Hs Hu Hi Hf. inversion HC; subst. eapply IH; eauto.
  - intros s buf i o n d s' HC HE Hs Hu Hi Hf. inversion HC; subst. start. one 0 (@nil derr). reflexivity.
  - intros s f buf i j v HS IH o n d s' HC HE Hs Hu Hi Hf. inversion HC; subst. cbn [CompleteProofs.Exact] in HE.
    match goal with H : Comp _ _ _ f _ _ |- _ => destruct (IH _ _ _ _ H HE Hs Hu Hi Hf) as (F & es & Hr) end.
    start. one F es. now rewrite Hr by lia.
  - intros s x f buf i j v HS IH o n d s' HC HE Hs Hu Hi Hf. inversion HC; subst. cbn [CompleteProofs.Exact] in HE.
    match goal with H : Comp _ _ _ f _ _ |- _ => destruct (IH _ _ _ (SView s' x (RC buf i)) H HE) as (F & es & Hr); auto; [now constructor|] end.
    start. one F es. now rewrite Hr by lia.
  - intros s ve e k w buf i j vs He Hw C o n d s' HC HE Hs Hu Hi Hf. inversion HC; subst. start. one 0 (@nil derr).
    rewrite (srel_usize drel s' s), He by assumption. cbn [rlet]. unfold with_view. rewrite (proj1 (srel_eval_view drel s' s ve Hs)), Hw. cbn [rlet].
    rewrite (read_n_runs _ read_u8 _ (elem_u8 true) w j vs C). reflexivity.
  - intros s ve e k w bk buf i j vs He Hw C o n d s' HC HE Hs Hu Hi Hf. inversion HC; subst. start. one 0 (@nil derr).
    rewrite (srel_usize drel s' s), He by assumption. cbn [rlet]. unfold with_view. rewrite (proj1 (srel_eval_view drel s' s ve Hs)), Hw. cbn [rlet].
    rewrite (read_n_runs _ (read_base bk) _ (elem_base bk) w j vs C). reflexivity.
  - intros s ve w buf i Hw o n d s' HC HE Hs Hu Hi Hf. inversion HC; subst. start. one 0 (@nil derr).
    unfold with_view. rewrite (proj1 (srel_eval_view drel s' s ve Hs)), Hw. reflexivity.
  - intros s ve f w buf i j v Hw HS IH Hst o n d s' HC HE Hs Hu Hi Hf. inversion HC; subst. cbn [CompleteProofs.Exact] in HE.
    destruct (srel_eval_view drel s' s ve Hs) as [Ev Er]. rewrite <- Ev in Hw.
    match goal with H : Comp _ _ _ f _ _ |- _ => destruct (IH true _ _ _ H HE Hs (Hst eq_refl) (Er _ Hw)) as (F & es & Hr); [now left|] end.
    start. one F es. unfold with_view. rewrite Hw. cbn [rlet]. destruct w as [wi wo]. cbn [rinput roff] in Hr. now rewrite Hr by lia.
  - intros s f buf i o n d s' HC HE Hs Hu Hi Hf. inversion HC; subst. start. one 0 (@nil derr). reflexivity.
  - intros s f e buf i j v HS IH o n d s' HC HE Hs Hu Hi Hf. inversion HC; subst. cbn [CompleteProofs.Exact] in HE.
    match goal with H : Comp _ _ _ f _ _ |- _ => destruct (IH _ _ _ _ H HE Hs Hu Hi Hf) as (F & es & Hr) end.
    start. one F es. now rewrite Hr by lia.
Qed.
End Complete.

(** ** The executable check *)

Lemma exact_step_sound bld m dyn lfuel xb (X : bool -> nat -> next -> Prop) : (forall o l n, xb o l n = true -> X o l n) ->
  forall f o n, exact_step bld m dyn lfuel xb o f n = true -> Exact bld m dyn X o f n.
Proof.
  intros HX.
  assert (HD : forall o fs n, decidedb m lfuel o fs n = true -> decided m o fs n).
  { intros o fs n H. unfold decidedb in H. destruct (build (strict_look o) m lfuel fs n) as [[t|]|] eqn:E; try discriminate.
    eapply grow_safe. exact E. }
  intros f. induction f using format_ind'; intros oo nx H1; cbn [exact_step] in H1; cbn [Exact]; try exact I; try discriminate;
    rewrite ?andb_true_iff in H1; try (match type of H1 with _ /\ _ => destruct H1 as [HA1 HA2]; split; auto end); auto.
  - destruct (get_item m l) as [it|]; [|discriminate].
    destruct (depends_on_next _ _ _ _) as [dep|] eqn:E; [|discriminate]. exists it, dep. split; [reflexivity|]. split; [exact E|].
    destruct dep; auto.
  - clear HA1. revert HA2. match goal with F : Forall _ fs |- _ => induction F; intros HA end; [exact I|]. apply andb_true_iff in HA as [? ?]. split; [auto|now apply IHForall].
  - revert H1. match goal with F : Forall _ fs |- _ => induction F; intros HA end; [exact I|]. apply andb_true_iff in HA as [? ?]. split; [auto|now apply IHForall].
  - revert H1. match goal with F : Forall _ fs |- _ => induction F; intros HA end; [exact I|]. apply andb_true_iff in HA as [? ?]. split; [auto|now apply IHForall].
  - revert H1. match goal with F : Forall _ bs |- _ => induction F as [|[? ?] ? ?]; intros HA end; [exact I|]. apply andb_true_iff in HA as [? ?]. split; [auto|now apply IHForall].
Qed.

Section ExactB.
Context (bld : fmodule -> list format -> next -> outcome (option mtree)) (m : fmodule) (dyn : bool).
Definition checked (o : bool) (level : nat) (n : next) : Prop :=
  exists lfuel depth it, get_item m level = Some it /\ exactb bld m dyn lfuel depth o (it_format it) n = true.
Lemma exactb_sound_gen (X : bool -> nat -> next -> Prop) : (forall o l n, checked o l n -> X o l n) ->
  forall lfuel depth o f n, exactb bld m dyn lfuel depth o f n = true -> Exact bld m dyn X o f n.
Proof.
  intros HX lfuel [|depth] o f n H; [discriminate|]. cbn [exactb] in H. eapply exact_step_sound; [|exact H].
  intros o1 l n1 H1. cbn beta in H1. destruct (get_item m l) as [it|] eqn:E; [|discriminate]. apply HX. exists lfuel, depth, it. auto.
Qed.
Lemma checked_closed o l n it : checked o l n -> get_item m l = Some it -> Exact bld m dyn checked o (it_format it) n.
Proof. intros (lf & dp & it' & E & H) E'. replace it with it' by congruence. eapply exactb_sound_gen; eauto. Qed.
End ExactB.

(** ** Regular formats *)

Section Regular.
Context (bld : fmodule -> list format -> next -> outcome (option mtree)) (m : fmodule).
Context (Hbld : forall fs n t, bld m fs n = Val (Some t) -> Build LReal m fs n t).
(** What is compiled without its continuation is exact without it. *)
Definition alone (g : format) : Prop :=
  match g with
  | FMaybe _ a | FParseFromView _ a => exists lfuel depth, exactb bld m false lfuel depth true a NEmpty = true
  | FItemVar level _ _ =>
    forall it, get_item m level = Some it -> depends_on_next bld m (item_depends bld m) (it_format it) = Val false ->
      exists lfuel depth, exactb bld m false lfuel depth true (it_format it) NEmpty = true
  | FDynamic _ _ _ | FApply _ => False
  | _ => True
  end.
Context (HM : module_wide (fun g => regular m g /\ alone g) m).
Context (Call : nat -> next -> nat -> Prop) (P : program) (HL : linked bld m P Call).
Definition item_exact (o : bool) (level : nat) (n : next) : Prop := o = false /\ regular_next m n \/ checked bld m false o level n.

Lemma regular_decided fs n t : Forall (everywhere (regular m)) fs -> regular_next m n -> bld m fs n = Val (Some t) -> decided m false fs n.
Proof.
  intros Hfs Hn HB. apply Hbld in HB. eapply regular_safe; [| |exact HB].
  - intros k it Hk g Hg. now apply (HM k it Hk).
  - intros i0 n0 Hin. unfold start in Hin. apply in_map_iff in Hin as ([k g] & E & Hin). injection E as <- <-.
    cbn. split; [|exact Hn]. rewrite Forall_forall in Hfs. apply Hfs.
    assert (E : forall l a, In (k, g) (enumerate a l) -> In g l).
    { clear - k. induction l as [|y l IH]; intros a H; cbn in *; [destruct H|]. destruct H as [H|H]; [injection H as _ ->; now left|right; eauto]. }
    eapply E; eauto.
Qed.
Definition good_node (g : format) : Prop := regular m g /\ alone g.
Lemma good_sub {f g} : everywhere good_node f -> (forall x, In x (subs g) -> In x (subs f)) -> everywhere good_node g.
Proof. intros H Hs x Hx. auto. Qed.
Lemma good_reg f : everywhere good_node f -> everywhere (regular m) f.
Proof. intros H g Hg. now apply (H g Hg). Qed.

Lemma loop_regular f : everywhere (regular m) f -> Forall (everywhere (regular m)) [FTuple [f; FRepeat f]; FEmpty].
Proof.
  intros H. constructor; [|constructor; [|constructor]].
  - intros g Hg. cbn in Hg. rewrite app_nil_r in Hg. destruct Hg as [<-|Hg]; [exact I|]. apply in_app_or in Hg as [Hg|[<-|Hg]]; [now apply H|exact I|now apply H].
  - intros g [<-|[]]. exact I.
Qed.
Ltac sub_in := let x := fresh in let Hx := fresh in intros x Hx; cbn [subs]; right; auto; fail.
Lemma regular_exact f : forall n d, Comp bld m Call f n d -> everywhere good_node f -> regular_next m n ->
  Exact bld m false item_exact false f n.
Proof.
  induction f using format_ind'; intros nx dd HC Hg Hn; inversion HC; subst; cbn [Exact]; try exact I;
    try (eapply IHf; [eassumption| |assumption || exact I]; eapply good_sub; [exact Hg|]; sub_in; fail);
    try (eapply IHf; [eassumption|eapply good_sub; [exact Hg|]; sub_in|]; cbn; split; [apply good_reg; eapply good_sub; [exact Hg|]; sub_in|assumption]; fail).
  all: pose proof (everywhere_self _ _ Hg) as [Hr0 Ha0]; try contradiction.
  - (* item *)
    exists it, dep. split; [assumption|]. split; [assumption|]. destruct dep.
    + now left.
    + right. cbn in Ha0. destruct (Ha0 it) as (lf & dp & E); auto. exists lf, dp, it. auto.
  - split.
    + eapply regular_decided; [|exact Hn|eassumption]. apply Forall_forall. intros g0 Hin. apply good_reg. eapply good_sub; [exact Hg|].
      intros y Hy. cbn [subs]. right. apply in_flat_map. eauto.
    + match goal with F : Forall2 _ fs ds |- _ => rename F into F2 end.
      assert (Hs : forall g0, In g0 fs -> everywhere good_node g0).
      { intros g0 Hin. eapply good_sub; [exact Hg|]. intros y Hy. cbn [subs]. right. apply in_flat_map. eauto. }
      clear - F2 H Hs Hn. induction F2 as [|g0 d0 fs ds Hc F2 IHF]; [exact I|]. inversion H; subst. split.
      * eauto using in_eq.
      * apply IHF; auto. intros. apply Hs. now right.
  - assert (Hs : forall g0, In g0 fs -> everywhere good_node g0).
    { intros g0 Hin. eapply good_sub; [exact Hg|]. intros y Hy. cbn [subs]. right. apply in_flat_map. eauto. }
    match goal with F : CTup _ _ _ _ |- _ => rename F into F2 end.
    clear - F2 H Hs Hn. induction F2 as [|g0 gs n0 d0 ds Hc F2 IHF]; [exact I|]. inversion H; subst. split.
    + eapply H2; eauto using in_eq. cbn. split; [|exact Hn]. apply Forall_forall. intros y Hy. apply good_reg, Hs. now right.
    + apply IHF; auto. intros. apply Hs. now right.
  - assert (Hs : forall g0, In g0 fs -> everywhere good_node g0).
    { intros g0 Hin. eapply good_sub; [exact Hg|]. intros y Hy. cbn [subs]. right. apply in_flat_map. eauto. }
    match goal with F : CTup _ _ _ _ |- _ => rename F into F2 end.
    clear - F2 H Hs Hn. induction F2 as [|g0 gs n0 d0 ds Hc F2 IHF]; [exact I|]. inversion H; subst. split.
    + eapply H2; eauto using in_eq. cbn. split; [|exact Hn]. apply Forall_forall. intros y Hy. apply good_reg, Hs. now right.
    + apply IHF; auto. intros. apply Hs. now right.
  - assert (Hf : everywhere good_node f) by (eapply good_sub; [exact Hg|]; sub_in). split.
    + eapply regular_decided; [|exact Hn|eassumption]. apply loop_regular. now apply good_reg.
    + eapply IHf; [eassumption|exact Hf|]. cbn. split; [now apply good_reg|exact Hn].
  - assert (Hf : everywhere good_node f) by (eapply good_sub; [exact Hg|]; sub_in). split.
    + eapply regular_decided; [|exact Hn|eassumption]. apply Forall_rev with (l := [FTuple [f; FRepeat f]; FEmpty]). apply loop_regular. now apply good_reg.
    + eapply IHf; [eassumption|exact Hf|]. cbn. split; [now apply good_reg|exact Hn].
  - destruct Ha0 as (lf & dp & E). eapply exactb_sound_gen; [|exact E]. intros. now right.
  - assert (Hs : forall b0, In b0 bs -> everywhere good_node (snd b0)).
    { intros b0 Hin. eapply good_sub; [exact Hg|]. intros y Hy. cbn [subs]. right. apply in_flat_map. exists b0. split; [exact Hin|]. destruct b0; exact Hy. }
    match goal with F : Forall2 _ bs ds |- _ => rename F into F2 end.
    clear - F2 H Hs Hn. induction F2 as [|[p0 g0] d0 fs ds [_ Hc] F2 IHF]; [exact I|]. inversion H; subst. split.
    + cbn in *. eapply H2; eauto. apply (Hs (p0, g0)). now left.
    + apply IHF; auto. intros. apply Hs. now right.
  - assert (Hf1 : everywhere good_node f1) by (eapply good_sub; [exact Hg|]; intros y Hy; cbn [subs]; right; apply in_or_app; now left).
    assert (Hf2 : everywhere good_node f2) by (eapply good_sub; [exact Hg|]; intros y Hy; cbn [subs]; right; apply in_or_app; now right).
    split; [|eauto]. eapply IHf1; eauto; cbn; (split; [now apply good_reg|exact Hn]).
  - assert (Hf1 : everywhere good_node f1) by (eapply good_sub; [exact Hg|]; intros y Hy; cbn [subs]; right; apply in_or_app; now left).
    assert (Hf2 : everywhere good_node f2) by (eapply good_sub; [exact Hg|]; intros y Hy; cbn [subs]; right; apply in_or_app; now right).
    split; [|eauto]. eapply IHf1; eauto; cbn; (split; [now apply good_reg|exact Hn]).
  - destruct Ha0 as (lf & dp & E). eapply exactb_sound_gen; [|exact E]. intros. now right.
Qed.
Lemma item_exact_closed o l n it i : item_exact o l n -> Call l n i -> get_item m l = Some it -> Exact bld m false item_exact o (it_format it) n.
Proof.
  intros [[-> Hn]|(lf & dp & it' & E & H)] Hc Hit.
  - destruct (HL _ _ _ Hc) as (it' & d & Hit' & _ & HC). replace it' with it in * by congruence.
    eapply regular_exact; eauto.
  - replace it with it' by congruence. eapply exactb_sound_gen; [|exact H]. intros. now right.
Qed.
End Regular.
