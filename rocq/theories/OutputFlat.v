(** Proofs about the flat listing. *)
From Verif Require ByteSetModel.
From Verif Require Import Base BoundsModel DataModel NumericModel ValueModel FormatModel DecoderModel
  FormatSpec FormatInd RecordModel RecordSpec RecordProofs OutputModel OutputSpec OutputProofs.
Open Scope nat_scope.

Lemma lines_total {A} (w : nat -> A -> option (list nat)) l :
  Forall (fun x => exists n lines, forall fuel, n <= fuel -> w fuel x = Some lines) l ->
  exists n lines, forall fuel, n <= fuel -> lines_of (w fuel) l = Some lines.
Proof.
  induction 1 as [|x l (n & a & Ha) _ (m & b & Hb)]; [exists 0, []; reflexivity|].
  exists (Nat.max n m), (a ++ b). intros fuel Hf. cbn [lines_of].
  rewrite Ha by lia. rewrite Hb by lia. reflexivity.
Qed.

Lemma first_match_at {D Dc} (w : value) (s : scope D) (bs : list (pattern * Dc)) : forall k0 k s' f,
  first_match w s k0 bs = Some (k, s', f) -> k0 <= k /\ exists p, nth_error bs (k - k0) = Some (p, f).
Proof.
  induction bs as [|[p d] bs IH]; intros k0 k s' f; cbn [first_match]; [discriminate|].
  destruct (vmatches w s p).
  - intros [= -> _ ->]. split; [lia|]. exists p. now rewrite Nat.sub_diag.
  - intros H. apply IH in H as (Hk & q & Hq). split; [lia|]. exists q.
    replace (k - k0) with (S (k - S k0)) by lia. exact Hq.
Qed.
Section Flat.
Context (M : fmodule) (kind : format -> hint) (titled : nat -> bool).
Context (strict : bool) (um fl : scope format -> format -> list N -> nat -> Prop).
Context (Hitems : forall it g, In it M -> Within (looked_at kind) g (it_format it) -> listable kind g).

Definition ok (f : format) : Prop := forall g, Within (looked_at kind) g f -> listable kind g.
Definition writes (v : value) (f : format) : Prop :=
  exists n lines, forall fuel, n <= fuel -> write_flat M kind titled fuel v f = Some lines.
Definition W (f : format) (v : value) : Prop := ok f -> writes v f.

Lemma ok_part g f : ok f -> In g (looked_at kind f) -> ok g.
Proof. intros H Hg h Hh. apply H. eapply WithinPart; eassumption. Qed.
Lemma ok_here f : ok f -> listable kind f.
Proof. intros H. apply H. constructor. Qed.

Lemma writes_step v f v' f' :
  (forall fuel, write_flat M kind titled (S fuel) v f = write_flat M kind titled fuel v' f') ->
  writes v' f' -> writes v f.
Proof.
  intros E (n & lines & H). exists (S n), lines. intros [|fuel] Hf; [lia|]. rewrite E. apply H. lia.
Qed.
Lemma writes_now v f lines : (forall fuel, write_flat M kind titled (S fuel) v f = Some lines) -> writes v f.
Proof. intros E. exists 1, lines. intros [|fuel] Hf; [lia|]. apply E. Qed.
Lemma writes_list {A} v f (w : nat -> A -> option (list nat)) l :
  (forall fuel, write_flat M kind titled (S fuel) v f = lines_of (w fuel) l) ->
  Forall (fun x => exists n lines, forall fuel, n <= fuel -> w fuel x = Some lines) l ->
  writes v f.
Proof.
  intros E H. apply lines_total in H as (n & lines & H). exists (S n), lines.
  intros [|fuel] Hf; [lia|]. rewrite E. apply H. lia.
Qed.

Lemma chain_formats (R : format -> nat -> nat -> value -> Prop) fs i j vs :
  Chain (fun f i j v => R f i j v /\ W f v) fs i j vs -> Forall ok fs ->
  Forall (fun vf => exists n lines, forall fuel, n <= fuel ->
    match snd vf with Some f => write_flat M kind titled fuel (fst vf) f | None => None end = Some lines)
    (with_formats vs fs).
Proof.
  induction 1 as [|f fs i j k v vs [_ Hf] _ IH]; intros Ho; [constructor|].
  inversion Ho; subst. cbn [with_formats]. constructor; [|now apply IH]. cbn [fst snd]. now apply Hf.
Qed.
Lemma chain_same_format {A} (R : A -> nat -> nat -> value -> Prop) f l i j vs :
  Chain (fun a i j v => R a i j v /\ W f v) l i j vs -> ok f ->
  Forall (fun v => exists n lines, forall fuel, n <= fuel -> write_flat M kind titled fuel v f = Some lines) vs.
Proof. induction 1 as [|a l i j k v vs [_ Hf] _ IH]; intros Ho; constructor; [now apply Hf|now apply IH]. Qed.
Lemma chain_repeat (R : format -> nat -> nat -> value -> Prop) f n i j vs :
  Chain (fun a i j v => R a i j v /\ W a v) (repeat f n) i j vs -> ok f ->
  Forall (fun v => exists n lines, forall fuel, n <= fuel -> write_flat M kind titled fuel v f = Some lines) vs.
Proof.
  intros H Ho. remember (repeat f n) as l eqn:E. revert n E.
  induction H as [|a l i j k v vs [_ Hf] _ IH]; intros [|n] E; try discriminate; [constructor..|].
  injection E as -> ->. constructor; [now apply Hf|eapply IH; reflexivity].
Qed.

Notation SemW := (fun buf s f i j v => SemN M strict um fl s f buf i j v /\ W f v).
Definition P (s : scope format) (f : format) (buf : list N) (i j : nat) (v : value) : Prop :=
  W f v /\
  forall (pre : list (label * value)) fs, f = chain_record (map (fun xv => (fst xv, EVar (fst xv))) pre) fs -> no_reuse fs ->
    Forall (fun xv => Forall (fun g => name_of g <> Some (fst xv)) fs) pre ->
    Forall (fun xv => get_value (fst xv) s = Some (snd xv)) pre ->
    exists rs, Fields (SemW buf) s fs i j rs /\ v = record_value (pre ++ rs).

Lemma P_plain s f buf i j v : W f v ->
  (forall (pre : list (label * value)) fs, f <> chain_record (map (fun xv => (fst xv, EVar (fst xv))) pre) fs) ->
  P s f buf i j v.
Proof. intros H Hn. split; [exact H|]. intros pre fs E. destruct (Hn pre fs E). Qed.

Lemma fields_found R (s : scope format) fs i j rs : Fields R s fs i j rs ->
  Forall (fun xv => exists f s i j, In (Some (fst xv, true), f) fs /\ R s f i j (snd xv)) rs.
Proof.
  induction 1 as [|s f fs i j k v rs H Hs IH|s x f fs i j k v rs H Hs IH|s x f fs i j k v rs H Hs IH].
  - constructor.
  - eapply Forall_impl; [|exact IH]. intros a (g & s' & i' & j' & Hg & Hr). exists g, s', i', j'. split; [right|]; assumption.
  - eapply Forall_impl; [|exact IH]. intros a (g & s' & i' & j' & Hg & Hr). exists g, s', i', j'. split; [right|]; assumption.
  - constructor.
    + exists f, s, i, j. split; [left; reflexivity|exact H].
    + eapply Forall_impl; [|exact IH]. intros a (g & s' & i' & j' & Hg & Hr). exists g, s', i', j'. split; [right|]; assumption.
Qed.
Lemma lookup_found fs x f : all_different fs -> In (Some (x, true), f) fs ->
  lookup_value_field (map (fun f => (seen f, snd f)) fs) x = Some (f, x).
Proof.
  induction fs as [|[[[y p]|] g] fs IH]; intros Hd Hf; [destruct Hf| |].
  - cbn [all_different] in Hd. destruct Hd as [H1 H2]. specialize (H1 y eq_refl).
    destruct Hf as [Hf|Hf].
    + injection Hf as -> -> ->. cbn. now rewrite N.eqb_refl.
    + rewrite Forall_forall in H1. specialize (H1 _ Hf). cbn in H1.
      cbn [map seen fst snd]. destruct p; cbn [lookup_value_field]; [|now apply IH].
      destruct (N.eqb_spec y x) as [->|]; [now contradict H1|]. now apply IH.
  - destruct Hf as [Hf|Hf]; [discriminate|]. cbn. apply IH; [apply Hd|exact Hf].
Qed.

Lemma reading_P s f buf i j v : SemN M strict um fl s f buf i j v -> P s f buf i j v.
Proof.
  assert (NC : forall f, match f with FLetFormat _ _ _ | FMonadSeq _ _ | FCompute _ => False | _ => True end ->
     forall (pre : list (label * value)) fs, f <> chain_record (map (fun xv : label * value => (fst xv, EVar (fst xv))) pre) fs).
  { intros g Hg pre fs E. destruct fs as [|[[[x p]|] h] fs]; cbn [chain_record] in E;
      [destruct (map (fun xv : label * value => (fst xv, EVar (fst xv))) pre)| |]; subst g; exact Hg. }
  assert (C1 : forall f v v' f', In f' (looked_at kind f) ->
     (forall fuel, write_flat M kind titled (S fuel) v f = write_flat M kind titled fuel v' f') -> W f' v' -> W f v).
  { intros g w w' g' Hin E H Ho. eapply writes_step; [exact E|]. apply H. eapply ok_part; eassumption. }
  apply Sem_ind'; clear s f buf i j v; intros;
    repeat match goal with H : P _ _ _ _ _ _ |- _ => destruct H as [? ?] end;
    try (apply P_plain; [|apply NC; exact I]);
    try (intros Ho; eapply writes_now; intros fuel; reflexivity);
    try (match goal with H : W ?g ?w |- W _ _ => refine (C1 _ _ w g _ _ H); [left; reflexivity|intros fuel; reflexivity] end);
    try (intros Ho; exfalso; exact (ok_here _ Ho)).
  - intros Ho. destruct (titled level) eqn:Et.
    + eapply writes_now. intros fuel. cbn [write_flat]. rewrite Et. reflexivity.
    + eapply writes_step; [intros fuel; cbn [write_flat]; rewrite Et, H; reflexivity|].
      apply H2. intros g Hg. eapply Hitems; [|exact Hg]. eapply nth_error_In. exact H.
  - intros Ho. eapply writes_step; [intros fuel; cbn [write_flat]; rewrite N.eqb_refl; reflexivity|].
    match goal with H : W _ _ |- _ => apply H end. eapply ok_part; [exact Ho|left; reflexivity].
  - intros Ho. eapply writes_step; [intros fuel; cbn [write_flat]; rewrite H; reflexivity|].
    match goal with H : W _ _ |- _ => apply H end. eapply ok_part; [exact Ho|]. cbn. eapply nth_error_In; eassumption.
  - intros Ho. eapply writes_step; [intros fuel; cbn [write_flat]; rewrite H1; reflexivity|].
    match goal with H : W _ _ |- _ => apply H end. eapply ok_part; [exact Ho|]. cbn. eapply nth_error_In; eassumption.
  - intros Ho. eapply writes_list; [intros fuel; reflexivity|]. eapply (chain_formats (fun f i j v => SemN M strict um fl s f buf i j v)).
    + eapply Chain_impl; [|eassumption]. intros a i0 j0 v0 [X [Y _]]. exact (conj X Y).
    + apply Forall_forall. intros g Hg. eapply ok_part; [exact Ho|exact Hg].
  - intros Ho. eapply writes_list; [intros fuel; reflexivity|]. eapply (chain_formats (fun f i j v => SemN M strict um fl s f buf i j v)).
    + eapply Chain_impl; [|eassumption]. intros a i0 j0 v0 [X [Y _]]. exact (conj X Y).
    + apply Forall_forall. intros g Hg. eapply ok_part; [exact Ho|exact Hg].
  - intros Ho. eapply writes_list; [intros fuel; reflexivity|]. eapply (chain_repeat (fun f i j v => SemN M strict um fl s f buf i j v)).
    + eapply Chain_impl; [|eassumption]. intros a i0 j0 v0 [X [Y _]]. exact (conj X Y).
    + eapply ok_part; [exact Ho|left; reflexivity].
  - intros Ho. eapply writes_list; [intros fuel; reflexivity|]. eapply (chain_repeat (fun f i j v => SemN M strict um fl s f buf i j v)).
    + eapply Chain_impl; [|eassumption]. intros a i0 j0 v0 [X [Y _]]. exact (conj X Y).
    + eapply ok_part; [exact Ho|left; reflexivity].
  - intros Ho. eapply writes_list; [intros fuel; reflexivity|]. eapply (chain_repeat (fun f i j v => SemN M strict um fl s f buf i j v)).
    + eapply Chain_impl; [|eassumption]. intros a i0 j0 v0 [X [Y _]]. exact (conj X Y).
    + eapply ok_part; [exact Ho|left; reflexivity].
  - intros Ho. eapply writes_list; [intros fuel; reflexivity|]. eapply (chain_repeat (fun f i j v => SemN M strict um fl s f buf i j v)).
    + eapply Chain_impl; [|eassumption]. intros a i0 j0 v0 [X [Y _]]. exact (conj X Y).
    + eapply ok_part; [exact Ho|left; reflexivity].
  - intros Ho. eapply writes_list; [intros fuel; reflexivity|]. eapply (chain_repeat (fun f i j v => SemN M strict um fl s f buf i j v)).
    + eapply Chain_impl; [|eassumption]. intros a i0 j0 v0 [X [Y _]]. exact (conj X Y).
    + eapply ok_part; [exact Ho|left; reflexivity].
  - intros Ho. eapply writes_list; [intros fuel; reflexivity|]. eapply (chain_repeat (fun f i j v => SemN M strict um fl s f buf i j v)).
    + eapply Chain_impl; [|eassumption]. intros a i0 j0 v0 [X [Y _]]. exact (conj X Y).
    + eapply ok_part; [exact Ho|left; reflexivity].
  - intros Ho. eapply writes_list; [intros fuel; reflexivity|]. eapply (chain_repeat (fun f i j v => SemN M strict um fl s f buf i j v)).
    + eapply Chain_impl; [|eassumption]. intros a i0 j0 v0 [X [Y _]]. exact (conj X Y).
    + eapply ok_part; [exact Ho|left; reflexivity].
  - intros Ho. eapply writes_list; [intros fuel; reflexivity|].
    eapply (chain_same_format (fun v0 i j v => SemN M strict um fl (SSingle s x v0) f buf i j v)).
    + eapply Chain_impl; [|eassumption]. intros a i0 j0 v0 [X [Y _]]. exact (conj X Y).
    + eapply ok_part; [exact Ho|left; reflexivity].
  - split; [intros Ho; eapply writes_now; intros fuel; reflexivity|].
    intros pre fs E Hn Hpre Hs.
    assert (Hsem : SemN M strict um fl s (FCompute e) buf i i v) by (constructor; assumption).
    destruct fs as [|[[[x p]|] g] fs]; cbn [chain_record] in E; [|discriminate|discriminate].
    pose proof (proj1 (chain_fields M strict um fl buf [] pre s i i v I Hpre Hs)) as C.
    cbn [chain_record] in C. rewrite <- E in C. destruct (C Hsem) as (rs & HF & ->).
    inversion HF; subst. exists []. split; [constructor|reflexivity].
  - intros Ho. destruct (first_match_at _ _ _ _ _ _ _ H0) as (_ & p & Hb). rewrite Nat.sub_0_r in Hb.
    eapply writes_step; [intros fuel; cbn [write_flat]; rewrite Hb; reflexivity|].
    match goal with H : W _ _ |- _ => apply H end. eapply ok_part; [exact Ho|]. cbn [looked_at made_of].
    apply nth_error_In in Hb. apply in_map_iff. eexists. split; [|exact Hb]. reflexivity.
  - split; [match goal with H : W g ?w |- W _ _ => refine (C1 _ _ w g _ _ H); [left; reflexivity|intros fuel; reflexivity] end|].
    match goal with A : forall (pre : list (label * value)) fs, g = _ -> _ |- _ => rename A into IHg end.
    intros pre fs E Hn Hpre Hs.
    destruct fs as [|[[[y p]|] h] fs]; cbn [chain_record] in E;
      [destruct (map (fun xv : label * value => (fst xv, EVar (fst xv))) pre); discriminate| |discriminate].
    injection E as -> -> E.
    assert (Hx : Forall (fun xv => get_value (fst xv) (SSingle s y w) = Some (snd xv)) pre).
    { rewrite Forall_forall in *. intros [z u] Hy. specialize (Hpre _ Hy). specialize (Hs _ Hy).
      cbn [fst snd get_value] in *. inversion Hpre as [|? ? Hne Hr]; subst.
      destruct (N.eqb_spec y z) as [->|]; [now contradict Hne|assumption]. }
    assert (Hpre' : Forall (fun xv => Forall (fun g => name_of g <> Some (fst xv)) fs) pre).
    { eapply Forall_impl; [|exact Hpre]. intros a Ha. now inversion Ha. }
    destruct p.
    + destruct Hn as [Hn1 Hn2].
      destruct (IHg (pre ++ [(y, w)]) fs) as (rs & HF & ->).
      * rewrite map_app. exact E.
      * exact Hn2.
      * apply Forall_app. split; [exact Hpre'|]. constructor; [exact Hn1|constructor].
      * apply Forall_app. split; [exact Hx|]. constructor; [|constructor]. cbn [fst snd get_value]. now rewrite N.eqb_refl.
      * exists ((y, w) :: rs). rewrite <- app_assoc. split; [|reflexivity].
        eapply FieldsKept; [|exact HF]. split; assumption.
    + destruct (IHg pre fs E Hn Hpre' Hx) as (rs & HF & ->). exists rs. split; [|reflexivity].
      eapply FieldsLocal; [|exact HF]. split; assumption.
  - split; [match goal with H : W g ?w |- W _ _ => refine (C1 _ _ w g _ _ H); [left; reflexivity|intros fuel; reflexivity] end|].
    match goal with A : forall (pre : list (label * value)) fs, g = _ -> _ |- _ => rename A into IHg end.
    intros pre fs E Hn Hpre Hs.
    destruct fs as [|[[[y p]|] h] fs]; cbn [chain_record] in E;
      [destruct (map (fun xv : label * value => (fst xv, EVar (fst xv))) pre); discriminate|discriminate|].
    injection E as -> E.
    assert (Hpre' : Forall (fun xv => Forall (fun g => name_of g <> Some (fst xv)) fs) pre).
    { eapply Forall_impl; [|exact Hpre]. intros a Ha. now inversion Ha. }
    destruct (IHg pre fs E Hn Hpre' Hs) as (rs & HF & ->). exists rs. split; [|reflexivity].
    eapply FieldsDropped; [|exact HF]. split; eassumption.
  - intros Ho. destruct (kind f) as [old| | |] eqn:Ek.
    2,3,4: eapply writes_step; [intros fuel; cbn [write_flat]; rewrite Ek; reflexivity|];
      match goal with H : W _ _ |- _ => apply H end; eapply ok_part; [exact Ho|]; cbn [looked_at made_of]; rewrite Ek; left; reflexivity.
    pose proof (ok_here _ Ho) as Hr. cbn [listable] in Hr. rewrite Ek in Hr.
    destruct Hr as (fs & -> & Hd & Hk & _).
    match goal with A : forall (pre : list (label * value)) fs0, chain_record [] fs = _ -> _ |- _ => rename A into IHg end.
    destruct (IHg [] fs eq_refl (different_no_reuse _ Hd) (Forall_nil _) (Forall_nil _)) as (rs & HF & ->).
    pose proof (fields_found _ _ _ _ _ _ HF) as HX.
    assert (Hv : record_value ([] ++ rs) = VRecord rs).
    { apply Fields_names in HF. destruct rs; [|reflexivity]. exfalso. cbn in HF. symmetry in HF.
      apply map_eq_nil in HF. clear - HF Hk. induction fs as [|f fs IH]; [discriminate|]. cbn in *.
      destruct (kept f); [discriminate|auto]. }
    rewrite Hv.
    apply (writes_list _ _ (fun fuel lv =>
      match lookup_value_field (map (fun f => (seen f, snd f)) fs) (fst lv) with
      | Some (f, _) => write_flat M kind titled fuel (snd lv) f
      | None => None
      end) rs).
    + intros fuel. cbn [write_flat]. rewrite Ek, chain_view by assumption. reflexivity.
    + eapply Forall_impl; [|exact HX]. intros [x v] (g & s' & i' & j' & Hin & _ & Hw). cbn [fst snd] in *.
      rewrite (lookup_found _ _ _ Hd Hin). apply Hw. eapply ok_part; [exact Ho|].
      cbn [looked_at made_of]. rewrite Ek, chain_view by assumption.
      apply in_map_iff. exists (seen (Some (x, true), g), g). split; [reflexivity|]. apply filter_In. split; [|reflexivity].
      apply in_map_iff. exists (Some (x, true), g). split; [reflexivity|exact Hin].
Qed.
End Flat.

(** ** Coverage *)

Lemma untitled_nth titled M : forall n level,
  nth_error (untitled_from n titled M) level =
  match nth_error M level with
  | Some it => Some (if titled (n + level) then Item (it_args it) (it_views it) FFail else it)
  | None => None
  end.
Proof.
  induction M as [|it M IH]; intros n [|level]; cbn [untitled_from nth_error]; try reflexivity.
  - now rewrite Nat.add_0_r.
  - rewrite IH. now rewrite Nat.add_succ_r.
Qed.

Section Covered.
Context (M : fmodule) (titled : nat -> bool).
Context (strict : bool) (um fl : scope format -> format -> list N -> nat -> Prop).
Context (Hitems : forall it g, In it M -> Within all_parts g (it_format it) -> reads_itself g).
Definition own (f : format) : Prop := forall g, Within all_parts g f -> reads_itself g.
Lemma own_part g f : own f -> In g (all_parts f) -> own g.
Proof. intros H Hg h Hh. apply H. eapply WithinPart; eassumption. Qed.
Definition still (f : format) (i j : nat) : Prop :=
  forall fuel, covered M titled fuel f = Some true -> own f -> j = i.

Lemma chain_still {A} (R : A -> nat -> nat -> value -> Prop) (g : A -> format) l i j vs :
  Chain (fun a i j v => R a i j v /\ still (g a) i j) l i j vs ->
  forall fuel, Forall (fun a => covered M titled fuel (g a) = Some true /\ own (g a)) l -> j = i.
Proof.
  induction 1 as [|a l i j k v vs [_ Ha] _ IH]; intros fuel HF; [reflexivity|].
  inversion HF as [|? ? [H1 H2] H3]; subst. specialize (IH _ H3). specialize (Ha _ H1 H2). lia.
Qed.

Lemma covered_still s f buf i j v : SemN (untitled titled M) strict um fl s f buf i j v -> still f i j.
Proof.
  intros H. refine (Sem_ind' (untitled titled M) strict um fl (fun s f buf i j v => still f i j) _ _ _ _ _ _ _ _ _ _ _ _ _ _ _ _ _ _ _ _ _ _ _ _ _ _ _ _ _ _ _ _ _ _ _ _ _ _ _ _ _ _ _ _ _ _ _ s f buf i j v H);
    clear s f buf i j v H; intros;
    intros [|fuel] Hc Ho; try discriminate; cbn [covered] in Hc;
    try discriminate; try reflexivity;
    try (exfalso; exact (Ho _ (WithinHere _ _)));
    try (match goal with H : still ?g i ?j |- _ => refine (H _ Hc _); eapply own_part; [exact Ho|left; reflexivity] end).
  all: try (apply all_some_true in Hc).
  all: try (match goal with HC : Chain _ (repeat ?g _) ?a ?b _ |- ?b = ?a =>
      refine (chain_still _ (fun x => x) _ _ _ _ HC fuel _);
      apply Forall_forall; intros y Hy; apply repeat_spec in Hy; subst y;
      split; [exact Hc|]; eapply own_part; [exact Ho|left; reflexivity] end).
  all: try (match goal with HC : Chain _ ?l ?a ?b _ |- ?b = ?a =>
      refine (chain_still _ (fun x => x) _ _ _ _ HC fuel _);
      apply Forall_forall; intros y Hy; split; [exact (proj1 (Forall_forall _ _) Hc y Hy)|];
      eapply own_part; [exact Ho|exact Hy] end).
  all: try (match goal with H : still ?g ?a ?b, N : nth_error _ _ = Some ?g |- ?b = ?a =>
      apply nth_error_In in N; refine (H _ (proj1 (Forall_forall _ _) Hc _ N) _);
      eapply own_part; [exact Ho|exact N] end).
  - unfold get_item, untitled in *. rewrite untitled_nth in H. cbn [Nat.add] in H.
    destruct (nth_error M level) as [it0|] eqn:Ei; [|discriminate]. injection H as <-.
    destruct (titled level).
    + cbn [it_format] in H1. inversion H1.
    + refine (H2 _ Hc _). intros g Hg. exact (Hitems _ _ (nth_error_In _ _ Ei) Hg).
  - match goal with HC : Chain _ ?l ?a ?b _ |- ?b = ?a =>
      refine (chain_still _ (fun _ : value => f) _ _ _ _ HC fuel _) end.
    apply Forall_forall. intros y _. split; [exact Hc|]. eapply own_part; [exact Ho|left; reflexivity].
  - rewrite (H1 _ Hc) by (eapply own_part; [exact Ho|left; reflexivity]).
    change ((0 + 7) / 8) with 0. lia.
  - apply first_match_at in H0. destruct H0 as [_ [p N]]. apply nth_error_In in N.
    refine (H2 _ (proj1 (Forall_forall _ _) Hc _ N) _).
    eapply own_part; [exact Ho|]. exact (in_map snd _ _ N).
  - destruct (covered M titled fuel f) as [[|]|] eqn:Ef; try discriminate.
    rewrite (H2 _ Hc) by (eapply own_part; [exact Ho|right; left; reflexivity]).
    refine (H0 _ Ef _). eapply own_part; [exact Ho|left; reflexivity].
  - destruct (covered M titled fuel f) as [[|]|] eqn:Ef; try discriminate.
    rewrite (H2 _ Hc) by (eapply own_part; [exact Ho|right; left; reflexivity]).
    refine (H0 _ Ef _). eapply own_part; [exact Ho|left; reflexivity].
Qed.
End Covered.

(** More fuel does not change whether a format is covered. *)
Lemma all_some_mono {A} (p q : A -> option bool) l b :
  (forall x c, In x l -> p x = Some c -> q x = Some c) -> all_some p l = Some b -> all_some q l = Some b.
Proof.
  induction l as [|x l IH]; intros H; cbn [all_some]; [exact (fun E => E)|].
  destruct (p x) as [[|]|] eqn:E; try discriminate; rewrite (H x _ (or_introl eq_refl) E).
  - apply IH. intros y c Hy. apply H. now right.
  - exact (fun E => E).
Qed.
Lemma covered_mono M titled fuel : forall f b,
  covered M titled fuel f = Some b -> forall n, fuel <= n -> covered M titled n f = Some b.
Proof.
  induction fuel as [|fuel IH]; [discriminate|]. intros f b H [|n] Hn; [lia|].
  apply le_S_n in Hn.
  destruct f; cbn [covered] in H |- *; eauto;
    try (eapply all_some_mono; [|exact H]; intros; cbn beta in *; eauto; fail).
  - destruct (titled level); [exact H|]. destruct (get_item M level); [eauto|exact H].
  - destruct (covered M titled fuel f1) as [[|]|] eqn:E; try discriminate; rewrite (IH _ _ E _ Hn); eauto.
  - destruct (covered M titled fuel f1) as [[|]|] eqn:E; try discriminate; rewrite (IH _ _ E _ Hn); eauto.
  - match goal with o : option format |- _ => destruct o; eauto end.
Qed.
