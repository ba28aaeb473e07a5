(** Generated parsers follow the interpreter. *)
From Coq Require Import String Ascii Decimal DecimalString.
From Verif Require ByteSetModel ByteSetProofs.
From Verif Require Import Base BoundsModel DataModel NumericModel ValueModel FormatModel MatchTreeModel DecoderModel
  ParserModel ParserProofs ProgModel ProgProofs RecordModel SoundProofs CodegenModel CodegenSpec CodegenErase CodegenTree CodegenSim CodegenOps.
Open Scope nat_scope.

(** ** Names *)

Lemma reserved_arg i : reserved (n_arg i) = true.
Proof.
  unfold reserved. apply orb_true_intro. left. apply orb_true_intro. right. unfold n_arg.
  generalize (NilZero.string_of_uint (Nat.to_uint i)). intros r. apply N.eqb_eq.
  assert (E : intern ("arg" ++ r)%string = (intern "arg" + intern r * 257 ^ 3)%N).
  { cbn [intern append]. change (257 ^ 3)%N with (257 * 257 * 257)%N. generalize (intern r). intros n.
    change (N_of_ascii "a"%char) with 97%N. change (N_of_ascii "r"%char) with 114%N. change (N_of_ascii "g"%char) with 103%N. lia. }
  rewrite E, N.mod_add by discriminate. apply N.mod_small. reflexivity.
Qed.
Lemma reserved_ix i : reserved (n_ix i) = true.
Proof.
  unfold reserved. apply orb_true_intro. right. unfold n_ix.
  generalize (NilZero.string_of_uint (Nat.to_uint i)). intros r. apply N.eqb_eq.
  assert (E : intern ("ix" ++ r)%string = (intern "ix" + intern r * 257 ^ 2)%N).
  { cbn [intern append]. change (257 ^ 2)%N with (257 * 257)%N. generalize (intern r). intros n.
    change (N_of_ascii "i"%char) with 105%N. change (N_of_ascii "x"%char) with 120%N. lia. }
  rewrite E, N.mod_add by discriminate. apply N.mod_small. reflexivity.
Qed.

(** ** Loops *)

Definition appended (acc vs ws : list value) : Prop := exists ws', ws = acc ++ ws' /\ Forall2 erases vs ws'.
Lemma appended_nil acc : appended acc [] acc.
Proof. exists []. rewrite app_nil_r. split; auto. Qed.
Lemma appended_cons acc v w vs ws : erases v w -> appended (acc ++ [w]) vs ws -> appended acc (v :: vs) ws.
Proof. intros Hv (ws' & -> & H). exists (w :: ws'). rewrite <- app_assoc. split; auto. Qed.
Lemma appended_list vs ws : appended [] vs ws -> erases (VSeq (Strict vs)) (vlist ws).
Proof. intros (ws' & -> & H). constructor. auto. Qed.

Section Loops.
Context (lossy : bool) (md : mode).
Notation sim := (sim lossy).
Context (pa : scope decoder -> decoder -> rctx -> dres value) (g : env -> decoder -> prog value).
Implicit Types (s : scope decoder) (sg : env).
Definition agrees (d : decoder) : Prop := forall s sg c st, scopes_related s sg -> sees md c st -> sim erases md (pa s d c) (g sg d) st.

Lemma sim_terms name : (forall i, reserved (name i) = true) -> forall ds, Forall agrees ds -> forall i s sg c st,
  scopes_related s sg -> sees md c st -> sim (Forall2 erases) md (pseq pa (map (pair s) ds) c) (gen_terms g name i sg ds) st.
Proof.
  intros Hn ds. induction 1 as [|d ds Hd Hds IH]; intros i s sg c st Hs Hc; cbn [map pseq gen_terms].
  - apply sim_ok; auto.
  - eapply sim_bind; [apply Hd; eauto|]. intros v w c' st' Hv Hc' _.
    apply (sim_map lossy (Forall2 erases) (Forall2 erases) md (cons v) (cons w)); [constructor; auto|].
    apply IH; auto. apply sr_reserved; auto.
Qed.

Context (d : decoder) (Hd : agrees d).
Lemma sr_loop s sg acc : scopes_related s sg -> scopes_related s (in_loop acc sg).
Proof. intros H. apply sr_reserved; auto. Qed.
Lemma sim_count n : forall acc s sg c st, scopes_related s sg -> sees md c st ->
  sim (appended acc) md (pseq pa (repeat (s, d) n) c) (gen_count g sg d n acc) st.
Proof.
  induction n as [|n IH]; intros acc s sg c st Hs Hc; cbn [repeat pseq gen_count].
  - apply sim_ok; auto. apply appended_nil.
  - eapply sim_bind; [apply Hd; auto; apply sr_loop; auto|]. intros v w c' st' Hv Hc' _. apply sim_rmap.
    eapply sim_mono; [|apply IH; eauto]. intros vs ws. apply appended_cons; auto.
Qed.
Lemma sim_each x l l' : Forall2 erases l l' -> forall acc s sg c st, scopes_related s sg -> sees md c st ->
  sim (appended acc) md (pseq pa (map (fun v => (SSingle s x v, d)) l) c) (gen_each g sg d x l' acc) st.
Proof.
  induction 1 as [|v w l l' Hvw Hl IH]; intros acc s sg c st Hs Hc; cbn [map pseq gen_each].
  - apply sim_ok; auto. apply appended_nil.
  - eapply sim_bind; [apply Hd; auto; apply sr_single; auto; apply sr_loop; auto|]. intros v' w' c' st' Hv Hc' _. apply sim_rmap.
    eapply sim_mono; [|apply IH; eauto]. intros vs ws. apply appended_cons; auto.
Qed.

Lemma rest_cases c : skipn (roff c) (rinput c) = [] /\ length (rinput c) - roff c = 0 \/
  exists b w, skipn (roff c) (rinput c) = b :: w /\ length (rinput c) - roff c <> 0.
Proof.
  pose proof (skipn_length (roff c) (rinput c)) as H. destruct (skipn (roff c) (rinput c)) as [|b w]; cbn [length] in H.
  - left. split; auto.
  - right. exists b, w. split; auto. lia.
Qed.
Lemma end_tree acc brs c : skipn (roff c) (rinput c) = [] -> tree_matches (MT acc brs) c = acc.
Proof. unfold tree_matches. intros ->. reflexivity. Qed.
Lemma sim_head {A B} (R : A -> B -> Prop) r (k : N -> prog B) c st : sees md c st ->
  sim R md r (k (N.of_nat (length (rinput c) - roff c))) st -> sim R md r (Bind Remaining k) st.
Proof. intros Hc H. eapply sim_after; eauto. cbn [exec]. apply remaining_sees with (1 := Hc). Qed.

Lemma sim_while t : loop_tree t = true -> goes_on_at_end t = false -> (exact md = true -> stops_at_end t = true) ->
  forall fuel acc s sg c st, scopes_related s sg -> sees md c st ->
  sim (appended acc) md (pwhile pa s d t fuel c) (gen_while g sg d t fuel acc) st.
Proof.
  intros Ht Hg Hx. induction fuel as [|fuel IH]; intros acc s sg c st Hs Hc; [exact I|]. cbn [pwhile gen_while].
  apply (sim_head _ _ _ c st Hc). destruct (rest_cases c) as [[Hw Hz]|(b & w & Hw & Hz)].
  - rewrite Hz. change (N.eqb (N.of_nat 0) 0) with true. cbv iota. destruct t as [a brs]. rewrite end_tree by auto. destruct a as [[|i]|].
    + discriminate.
    + apply sim_ok; auto. apply appended_nil.
    + intros X. specialize (Hx X). discriminate.
  - destruct (N.eqb_spec (N.of_nat (length (rinput c) - roff c)) 0) as [Z|Z]; [lia|].
    pose proof (invoke_loop_spec md t c st b w Hw Hc Ht) as Hi. destruct (tree_matches t c) as [[|i]|].
    + eapply sim_after; [exact Hi|]. cbn [Nat.eqb]. eapply sim_bind; [apply Hd; auto; apply sr_reserved; auto; apply sr_loop; auto|].
      intros v v' c' st' Hv Hc' _. apply sim_rmap. eapply sim_mono; [|apply IH; eauto]. intros vs ws. apply appended_cons; auto.
    + eapply sim_after; [exact Hi|]. cbn [Nat.eqb]. apply sim_ok; auto. apply appended_nil.
    + destruct Hi as (e & st' & E & Ek). eapply sim_failed; [exact E|]. exists [LPeek (pcur st)]. split; [constructor; auto|exact Ek].
Qed.

(** A loop that must go on at least once; only its successes are followed. *)
Lemma goes_on_branch acc brs bs b : goes_on (MT acc brs) bs = true -> In b (ByteSetModel.iter bs) ->
  exists i, branch_for b brs = Some (MT (Some (S i)) []).
Proof.
  unfold goes_on. generalize (ByteSetModel.iter bs). intros l Hg Hin. rewrite forallb_forall in Hg. specialize (Hg b Hin).
  destruct (branch_for b brs) as [[[[|i]|] [|? ?]]|]; try discriminate. eauto.
Qed.
Lemma goes_on_tree t bs c b w : goes_on t bs = true -> skipn (roff c) (rinput c) = b :: w -> (b < 256)%N -> ByteSetModel.contains bs b = true ->
  exists i, tree_matches t c = Some (S i).
Proof.
  intros Hg Hw Hb Hin. unfold tree_matches. rewrite Hw. destruct t as [acc brs].
  destruct (goes_on_branch acc brs bs b Hg (proj2 (ByteSetProofs.in_iter bs b) (conj Hb Hin))) as (i & Ei). cbn [mt_matches].
  assert (E : first_branch b (fun t' => mt_matches t' w) brs = match branch_for b brs with Some t' => Some (mt_matches t' w) | None => None end).
  { clear. induction brs as [|[bs t] brs IH]; cbn [first_branch branch_for]; auto. destruct (ByteSetModel.contains bs b); auto. }
  rewrite E, Ei. exists i. destruct w; reflexivity.
Qed.
Lemma sim_until t bs : exact md = false -> loop_tree t = true -> goes_on t bs = true ->
  (forall s c v c' es, pa s d c = ROk v c' es -> exists b w, skipn (roff c) (rinput c) = b :: w /\ ByteSetModel.contains bs b = true) ->
  forall fuel acc s sg c st, scopes_related s sg -> sees md c st ->
  sim (appended acc) md (puntil pa s d t fuel c) (gen_until g sg d t (S fuel) acc) st.
Proof.
  intros X Ht Hg Hst. induction fuel as [|fuel IH]; intros acc s sg c st Hs Hc; [exact I|]. cbn [puntil].
  change (gen_until g sg d t (S (S fuel)) acc) with (Bind Remaining (fun n =>
      if N.eqb n 0 then Ret acc
      else Bind (invoke_tree t) (fun ix =>
        if Nat.eqb ix 0 then match acc with [] => Fail | _ => Ret acc end
        else Bind (g (SSingle (in_loop acc sg) n_matching_ix (VUsize (N.of_nat ix))) d) (fun v => gen_until g sg d t (S fuel) (acc ++ [v]))))).
  destruct (pa s d c) as [v c' es|e| |] eqn:Ep; cbn [rbind]; try exact I; [|intros Y; congruence].
  destruct (Hst _ _ _ _ _ Ep) as (b & w & Hw & Hin).
  assert (Hb : (b < 256)%N).
  { pose proof (read_sees _ _ _ Hc) as R. unfold rc_read_byte in R. destruct (skipn_S_nth _ _ _ _ Hw) as [En _]. rewrite En in R. apply R. }
  destruct (goes_on_tree t bs c b w Hg Hw Hb Hin) as (i & Ei).
  apply (sim_head _ _ _ c st Hc). destruct (N.eqb_spec (N.of_nat (length (rinput c) - roff c)) 0) as [Z|Z].
  { pose proof (skipn_length (roff c) (rinput c)) as L. rewrite Hw in L. cbn [length] in L. lia. }
  pose proof (invoke_loop_spec md t c st b w Hw Hc Ht) as Hi. rewrite Ei in Hi.
  apply (sim_after lossy _ md _ _ _ (S i) st Hi). cbn [Nat.eqb].
  change (match (match tree_matches t c' with
      | None => RErr (KNoValidBranch (roff c'))
      | Some O => ROk [v] c' []
      | Some (S _) => rmap (cons v) (puntil pa s d t fuel c')
      end) with ROk b0 c'0 es' => ROk b0 c'0 (es' ++ es) | RErr e => RErr e | RPanic => RPanic | RFuel => RFuel end)
    with (rbind (ROk v c' es) (fun v c' => match tree_matches t c' with
      | None => RErr (KNoValidBranch (roff c'))
      | Some O => ROk [v] c' []
      | Some (S _) => rmap (cons v) (puntil pa s d t fuel c')
      end)).
  rewrite <- Ep. eapply sim_bind; [apply Hd; auto; apply sr_reserved; auto; apply sr_loop; auto|].
  clear v c' es Ep. intros v v' c' st' Hv Hc' _.
  destruct (tree_matches t c') as [[|j]|] eqn:Et; [| |intros Y; congruence].
  - (* the last one *)
    cbn [gen_until]. apply (sim_head _ _ _ c' st' Hc'). destruct (rest_cases c') as [[Hw' Hz]|(b' & w' & Hw' & Hz)].
    + rewrite Hz. change (N.eqb (N.of_nat 0) 0) with true. cbv iota. apply sim_ok; auto. exists [v']. split; auto.
    + destruct (N.eqb_spec (N.of_nat (length (rinput c') - roff c')) 0) as [Z'|Z']; [lia|].
      pose proof (invoke_loop_spec md t c' st' b' w' Hw' Hc' Ht) as Hi'. rewrite Et in Hi'. eapply sim_after; [exact Hi'|]. cbn [Nat.eqb].
      assert (E : match acc ++ [v'] with [] => Fail | _ :: _ => Ret (acc ++ [v']) end = Ret (acc ++ [v'])) by (destruct acc; reflexivity).
      rewrite E. apply sim_ok; auto. exists [v']. split; auto.
  - apply sim_rmap. eapply sim_mono; [|apply IH; eauto]. intros vs ws. apply appended_cons; auto.
Qed.

Lemma sim_until_done stop stop' : (forall s sg acc acc' v v', scopes_related s sg -> Forall2 erases acc acc' -> erases v v' ->
    orel eq (stop s acc v) (stop' sg acc' v')) ->
  forall (gl : nat -> env -> list value -> prog (list value)),
  (forall sg acc, gl 0 sg acc = Boom) ->
  (forall fuel sg acc, gl (S fuel) sg acc = Bind (g (in_loop acc sg) d) (fun v => plet (stop' sg acc v) (fun b : bool =>
        if b then Ret (acc ++ [v]) else gl fuel sg (acc ++ [v])))) ->
  forall fuel acc acc' s sg c st, scopes_related s sg -> Forall2 erases acc acc' -> sees md c st ->
  sim (Forall2 erases) md (puntil_done pa s d (stop s) acc fuel c) (gl fuel sg acc') st.
Proof.
  intros Hstop gl H0 HS. induction fuel as [|fuel IH]; intros acc acc' s sg c st Hs Ha Hc; [exact I|]. cbn [puntil_done]. rewrite HS.
  eapply sim_bind; [apply Hd; auto; apply sr_loop; auto|]. intros v v' c' st' Hv Hc' _.
  assert (Ha' : Forall2 erases (acc ++ [v]) (acc' ++ [v'])) by (apply Forall2_app; auto).
  eapply sim_let; [apply Hstop; eauto|]. intros b b' <-. destruct b; [apply sim_ok; auto|]. apply IH; auto.
Qed.
Lemma sim_accum fd fu : tidy fd = true -> tidy fu = true -> forall fuel a a' vs vs' s sg c st,
  scopes_related s sg -> erases a a' -> Forall2 erases vs vs' -> sees md c st ->
  sim pair_related md (paccum pa s d (fun a vs => lambda_bool fd s (VTuple [a; VSeq (Strict vs)])) (fun a v => eval_lambda fu s (VTuple [a; v])) a vs fuel c)
    (gen_accum g sg d fd fu fuel a' vs') st.
Proof.
  intros Hfd Hfu. induction fuel as [|fuel IH]; intros a a' vs vs' s sg c st Hs Ha Hvs Hc; [exact I|]. cbn [paccum gen_accum]. cbv zeta.
  assert (Hs' : scopes_related s (in_unfold a' vs' sg)) by (apply sr_reserved; auto; apply sr_reserved; auto).
  eapply sim_let; [eapply lambda_bool_related; [apply Hs'|auto|]; repeat constructor; auto|]. intros b b' <-. destruct b.
  - apply sim_ok; auto. split; auto.
  - eapply sim_bind; [apply Hd; auto|]. intros v v' c' st' Hv Hc' _.
    assert (Hs'' : scopes_related s (SSingle (in_unfold a' vs' sg) n_elem v')) by (apply sr_reserved; auto).
    eapply sim_let; [eapply eval_lambda_related; [apply Hs''|auto|]; repeat constructor; eauto|]. intros a2 a2' Ha2. apply IH; auto.
    apply Forall2_app; auto.
Qed.
End Loops.

(** ** The first byte *)

Section Main.
Context (bld : fmodule -> list format -> next -> outcome (option mtree)).
Context (P : program).

Definition begins (bs : byteset) (c : rctx) : Prop := exists b w, skipn (roff c) (rinput c) = b :: w /\ ByteSetModel.contains bs b = true.
Lemma both_some {A} (a b : option A) f x : both a b f = Some x -> exists y z, a = Some y /\ b = Some z /\ x = f y z.
Proof. destruct a, b; try discriminate. intros [= <-]. eauto. Qed.
Lemma begins_branch (st : decoder -> option byteset) ds bs : fold_right (fun d acc => both (st d) acc ByteSetModel.union) (Some ByteSetModel.empty) ds = Some bs ->
  forall i d, nth_error ds i = Some d -> exists bs', st d = Some bs' /\ (forall c, begins bs' c -> begins bs c).
Proof.
  revert bs. induction ds as [|d0 ds IH]; intros bs E i d Hn; [destruct i; discriminate|]. cbn [fold_right] in E.
  apply both_some in E as (y & z & Ey & Ez & ->). destruct i as [|i]; cbn [nth_error] in Hn.
  - injection Hn as <-. exists y. split; auto. intros c (b & w & Hw & Hb). exists b, w. split; auto. rewrite ByteSetProofs.contains_union, Hb. reflexivity.
  - destruct (IH z Ez i d Hn) as (bs' & Es & Hc). exists bs'. split; auto. intros c Hb. destruct (Hc c Hb) as (b & w & Hw & Hb'). exists b, w. split; auto.
    rewrite ByteSetProofs.contains_union, Hb'. apply orb_true_r.
Qed.
Lemma starts_sound n : forall fuel s d c v c' es bs, parse bld P fuel s d c = ROk v c' es -> starts P n d = Some bs -> begins bs c.
Proof.
  induction n as [|n IH]; intros fuel s d c v c' es bs H E; [discriminate|].
  destruct fuel as [|fuel]; [discriminate|]. destruct d; cbn [starts] in E; try discriminate; cbn [parse] in H.
  - apply rlet_ok in H as ([s'|e] & _ & H); [|discriminate]. destruct (nth_error P n0); [|discriminate]. eapply IH; eauto.
  - injection E as <-. destruct (rc_read_byte c) as [[b c1]|] eqn:Er; [|discriminate]. destruct (ByteSetModel.contains bs0 b) eqn:Ec; [|discriminate].
    unfold rc_read_byte in Er. destruct (nth_error (rinput c) (roff c)) eqn:En; [|discriminate]. injection Er as -> _.
    destruct (skipn (roff c) (rinput c)) as [|b' w] eqn:F.
    + apply skipn_nil_nth in F. congruence.
    + exists b', w. split; auto. destruct (skipn_S_nth _ _ _ _ F) as [G _]. assert (b' = b) by congruence. subst; auto.
  - inv_r. eapply IH; eauto.
  - destruct (tree_matches t c) as [i|]; [|discriminate]. destruct (nth_error ds i) as [d|] eqn:En; [|discriminate]. inv_r.
    destruct (begins_branch _ _ _ E i d En) as (bs' & Es & Hb). apply Hb. eapply IH; eauto.
  - destruct ds as [|d ds]; [discriminate|]. cbn [map pseq] in H. inv_r. eapply IH; eauto.
  - destruct ds as [|d ds]; [discriminate|]. cbn [map pseq] in H. inv_r. eapply IH; eauto.
  - inv_r. eapply IH; eauto.
  - inv_r. eapply IH; eauto.
  - inv_r. eapply IH; eauto.
  - inv_r. eapply IH; eauto.
  - inv_r. eapply IH; eauto.
  - destruct o as [d|]; [|discriminate]. inv_r. eapply IH; eauto.
  - eapply IH; eauto.
Qed.

(** ** Decoders *)

Context (lossy : bool) (callee : mode -> nat -> bool).
Hypothesis Hclosed : closed P lossy callee.
Notation sim := (sim lossy).
Notation supported := (supported P lossy callee).

Lemma modulus_64 : modulus B64 = w64.
Proof. reflexivity. Qed.
Lemma coerce_mapped_u w n : coerce_mapped (VU w n) = VU w n.
Proof. reflexivity. Qed.
Lemma value_as_u w v u : value_as w v = Val u -> exists n, u = VU w n.
Proof.
  intros E. unfold value_as in E. destruct v; try discriminate; (destruct (fit w _); [|discriminate]; cbn [omap] in E; injection E as <-; eauto).
Qed.
Lemma wide_value (s : scope decoder) e v : wide e = true -> eval_value e s = Val v -> exists n, v = VU B64 n.
Proof.
  intros Hw E. unfold eval_value in E. destruct e; try discriminate; cbn [wide] in Hw; destruct w; try discriminate; cbn [eval] in E.
  - cbn [omap] in E. rewrite coerce_mapped_u in E. injection E as <-. eauto.
  - match type of E with omap _ ?o = _ => destruct o as [x|] eqn:Ex; [|discriminate] end. cbn [omap] in E.
    match type of Ex with obind ?o _ = _ => destruct o as [y|]; [|discriminate] end. cbn [obind] in Ex.
    apply value_as_u in Ex as (n & ->). rewrite coerce_mapped_u in E. injection E as <-. eauto.
Qed.
Lemma target_spec b b' o o' x y : erases b b' -> erases o o' -> unwrap_usize b = Val x -> unwrap_usize o = Val y -> (x + y < w64)%N ->
  target b' o' = Val (x + y)%N \/ (target b' o' = Panic /\ ~ ((exists n, b = VU B64 n) /\ exists n, o = VU B64 n)).
Proof.
  intros Hb Ho Eb Eo Hlt. assert (Hf : fit B64 (x + y) = Val (x + y)%N) by (unfold fit; rewrite modulus_64, (proj2 (N.ltb_lt _ _) Hlt); reflexivity).
  destruct (orel_leaf_usize _ _ Hb x Eb) as (x' & Ex & <-). destruct (orel_leaf_usize _ _ Ho y Eo) as (y' & Ey & <-).
  assert (Hgen : obind (unwrap_usize b') (fun x => obind (unwrap_usize o') (fun y => fit B64 (x + y))) = Val (x + y)%N) by (rewrite Ex, Ey; cbn [obind]; exact Hf).
  destruct b'; try (left; exact Hgen). destruct o'; try (left; exact Hgen). unfold target. cbn [unwrap_usize] in Ex, Ey. injection Ex as ->. injection Ey as ->.
  destruct (bw_eqb w w0) eqn:Ew.
  - destruct (fit w (x + y)) as [z|] eqn:F.
    + left. unfold fit in F. destruct (x + y <? modulus w)%N; [|discriminate]. injection F as <-. reflexivity.
    + right. split; auto. intros ((n1 & ->) & (n2 & ->)). inversion Hb; subst. congruence.
  - right. split; auto. intros ((n1 & ->) & (n2 & ->)). inversion Hb; subst. inversion Ho; subst. discriminate.
Qed.
Lemma addressable_small l : addressable l = true -> small l.
Proof.
  unfold addressable. intros H. apply andb_prop in H as [H1 H2]. split; [|apply N.ltb_lt; exact H2].
  apply Forall_forall. intros b Hin. rewrite forallb_forall in H1. apply N.ltb_lt. exact (H1 b Hin).
Qed.
Lemma sequence_related v w : erases v w ->
  orel (Forall2 erases) (match get_sequence v with Some q => Val (vseq_list q) | None => Panic end)
    (match get_sequence w with Some q => Val (vseq_list q) | None => Panic end).
Proof.
  intros H. destruct (get_sequence v) as [q|] eqn:E; [|apply orel_panic]. destruct (erases_get_sequence _ _ _ H E) as (r & -> & Hr).
  apply orel_val. apply erases_vseq_list; auto.
Qed.
Lemma bytes_related v w : erases v w ->
  orel eq (match get_sequence v with Some q => omapM get_as_u8 (vseq_list q) | None => Panic end)
    (match get_sequence w with Some q => omapM get_as_u8 (vseq_list q) | None => Panic end).
Proof.
  intros H. destruct (get_sequence v) as [q|] eqn:E; [|apply orel_panic]. destruct (erases_get_sequence _ _ _ H E) as (r & -> & Hr).
  intros l El. destruct (orel_mapM erases eq get_as_u8 get_as_u8 _ _ (erases_vseq_list _ _ Hr) (fun a b _ Hab => orel_leaf_u8 a b Hab) l El) as (l' & -> & Hl).
  exists l'. split; auto. clear - Hl. induction Hl; congruence.
Qed.
Lemma alts_supported_eq md ds :
  (fix alts (ds : list decoder) : bool :=
      match ds with
      | [] => false
      | [d] => supported md d
      | d :: r => supported (tried md) d && alts r
      end) ds = alts_supported supported md ds.
Proof. reflexivity. Qed.

Lemma follows : forall fuel md s sg d c st, supported md d = true -> scopes_related s sg -> sees md c st ->
  sim erases md (parse bld P fuel s d c) (gen P fuel sg d) st.
Proof.
  induction fuel as [|fuel IH]; intros md s sg d c st Hd Hs Hc; [exact I|].
  assert (Hag : forall md d, supported md d = true -> agrees lossy md (parse bld P fuel) (gen P fuel) d)
    by (intros md0 d0 H0 s0 sg0 c0 st0 Hs0 Hc0; apply IH; auto).
  assert (Hall : forall md ds, forallb (supported md) ds = true -> Forall (agrees lossy md (parse bld P fuel) (gen P fuel)) ds).
  { intros md0 ds H0. apply Forall_forall. intros d0 Hin. apply Hag. rewrite forallb_forall in H0. auto. }
  assert (Hs1 := proj1 Hs).
  destruct d; cbn [CodegenSpec.supported] in Hd; cbn [parse gen]; try discriminate.
  - (* call *)
    apply andb_prop in Hd as [Hd Hvs]. apply andb_prop in Hd as [Hn Hes].
    unfold call_scope. pose proof (call_values_related s sg es Hs Hes) as Hv. destruct (call_values s es) as [l|]; [|exact I].
    destruct (Hv l eq_refl) as (l' & -> & Hl). cbn [obind plet].
    pose proof (gen_views_spec s sg st vs Hs Hvs) as Hw. destruct (call_views s vs) as [[m|e]|]; cbn [omap rlet]; [| |exact I].
    + destruct Hw as (m' & Em & Hm). eapply sim_after; [exact Em|]. destruct (nth_error P n) as [d'|] eqn:En; [|exact I].
      apply IH; auto; [exact (Hclosed md n d' Hn En)|]. apply sr_multi. apply Forall2_app; auto.
    + destruct Hw as (e' & Ee). eapply sim_failed; [exact Ee|apply left_refl].
  - apply andb_prop in Hd as [H1 H2]. apply negb_true_iff in H1, H2. apply sim_pos; auto.
  - apply sim_err.
  - apply sim_finish; auto.
  - apply andb_prop in Hd as [H1 H2]. apply negb_true_iff in H1, H2. apply sim_align; auto.
  - destruct (usable_crit _ Hd) as (cr & Ec). rewrite Ec. cbn [plet]. apply sim_read; auto.
  - apply sim_map with (R := erases); [constructor; auto|]. apply IH; auto.
  - (* alternatives *)
    apply andb_prop in Hd as [Hq Hd]. apply negb_true_iff in Hq. rewrite alts_supported_eq in Hd.
    destruct ds as [|d ds]; [discriminate|].
    pose proof (sim_alts lossy supported (parse bld P fuel) (gen P fuel) md c st Hq Hc (fun md0 d0 s0 sg0 st0 H1 H2 H3 => IH md0 s0 sg0 d0 c st0 H1 H2 H3)
      ds d s sg 0 Hd Hs false ltac:(discriminate)) as H. cbv zeta in H.
    assert (Ex : exec (Alts (gen_alts (gen P fuel) sg d ds)) st = exec_branches (gen_alts (gen P fuel) sg d ds) (alt_start false st)) by reflexivity.
    destruct (ppar (parse bld P fuel) 0 s (d :: ds) c) as [a c' es|e| |]; try exact I; cbn [CodegenSim.sim]; unfold lost; rewrite Ex; auto.
    intros X. destruct (H X) as [(e2 & st' & E)|L]; [left|right; auto]. exists e2, st'. split; auto. rewrite Hq. discriminate.
  - (* branch *)
    apply andb_prop in Hd as [Ht Hds]. pose proof (invoke_spec md t c st Hc Ht) as Hi. destruct (tree_matches t c) as [i|].
    + eapply sim_after; [exact Hi|]. destruct (nth_error ds i) as [d|] eqn:En; [|exact I]. apply sim_rmap.
      apply sim_mono with (R := erases); [constructor; auto|]. apply IH; auto; [|apply sr_reserved; auto].
      rewrite forallb_forall in Hds. apply Hds. eapply nth_error_In; eauto.
    + destruct Hi as (e & st' & E & Ek). eapply sim_failed; [exact E|]. exists [LPeek (pcur st)]. split; [constructor; auto|exact Ek].
  - apply sim_map with (R := Forall2 erases); [constructor; auto|]. apply sim_terms; auto. apply reserved_arg.
  - apply sim_map with (R := Forall2 erases); [constructor; auto|]. apply sim_terms; auto. apply reserved_ix.
  - (* while *)
    apply andb_prop in Hd as [Hd Hd4]. apply andb_prop in Hd as [Hd Hd3]. apply andb_prop in Hd as [Hd1 Hd2]. apply negb_true_iff in Hd2.
    apply sim_map with (R := appended []); [apply appended_list|]. apply sim_while; auto. intros X. rewrite X in Hd3. exact Hd3.
  - (* until *)
    apply andb_prop in Hd as [Hd Hd4]. apply andb_prop in Hd as [Hd Hd3]. apply andb_prop in Hd as [Hd1 Hd2]. apply negb_true_iff in Hd1.
    destruct (starts P (S (length P)) d) as [bs|] eqn:Est; [|discriminate].
    apply sim_map with (R := appended []); [apply appended_list|]. apply (sim_until lossy md _ _ d (Hag _ _ Hd4) t bs); auto.
    intros s0 c0 v c' es E. exact (starts_sound _ _ _ _ _ _ _ _ _ E Est).
  - (* count *)
    apply andb_prop in Hd as [He Hd]. eapply sim_let; [eapply eval_usize_related; eauto|]. intros n n' <-.
    apply sim_map with (R := appended []); [apply appended_list|]. apply sim_count; auto.
  - (* until last *)
    apply andb_prop in Hd as [He Hd]. apply sim_map with (R := Forall2 erases); [constructor; auto|].
    apply (sim_until_done lossy md _ _ d (Hag _ _ Hd) (fun s _ v => lambda_bool e s v) (fun sg acc v => lambda_bool e (SSingle (in_loop acc sg) n_next_elem v) v))
      with (gl := fun fuel sg acc => gen_until_last (gen P _) sg d e fuel acc); auto.
    intros s0 sg0 acc acc' v v' Hs0 _ Hv. eapply lambda_bool_related; auto. apply vr_reserved; auto. apply sr_loop; auto.
  - (* until seq *)
    apply andb_prop in Hd as [He Hd]. apply sim_map with (R := Forall2 erases); [constructor; auto|].
    apply (sim_until_done lossy md _ _ d (Hag _ _ Hd) (fun s acc v => lambda_bool e s (VSeq (Strict (acc ++ [v]))))
       (fun sg acc v => lambda_bool e (SSingle (in_loop (acc ++ [v]) sg) n_next_elem v) (vlist (acc ++ [v]))))
      with (gl := fun fuel sg acc => gen_until_seq (gen P _) sg d e fuel acc); auto.
    intros s0 sg0 acc acc' v v' Hs0 Ha Hv. eapply lambda_bool_related; auto; [apply vr_reserved; auto; apply sr_loop; auto|].
    constructor. apply Forall2_app; auto.
  - (* maybe *)
    apply andb_prop in Hd as [He Hd]. eapply sim_let; [eapply eval_bool_related; eauto|]. intros b b' <-. destruct b.
    + apply sim_map with (R := erases); [constructor; auto|]. apply IH; auto. apply sr_reserved; auto.
    + apply sim_ok; auto. constructor.
  - apply sim_peek; auto.
  - (* peek not *)
    apply andb_prop in Hd as [Hq Hd]. apply negb_true_iff in Hq. apply sim_pmap.
    apply (sim_peek_not lossy erases); auto. constructor; constructor.
  - (* slice *)
    apply andb_prop in Hd as [Hd Hd3]. apply andb_prop in Hd as [Hd1 Hd2]. apply negb_true_iff in Hd1.
    eapply sim_let; [eapply eval_usize_related; eauto|]. intros n n' <-. apply sim_slice; auto. intros c' st' Hc'. apply IH; auto. apply sr_reserved; auto.
  - (* bits *)
    apply andb_prop in Hd as [Hd Hd3]. apply andb_prop in Hd as [Hd1 Hd2]. apply negb_true_iff in Hd1, Hd2.
    apply sim_bits; auto.
  - (* relative offset *)
    apply andb_prop in Hd as [Hd H7]. apply andb_prop in Hd as [Hd H6]. apply andb_prop in Hd as [Hd H5]. apply andb_prop in Hd as [Hd H4].
    apply andb_prop in Hd as [Hd H3]. apply andb_prop in Hd as [H1 H2]. apply negb_true_iff in H1, H2, H3.
    unfold eval_usize.
    pose proof (eval_value_related s sg Hs1 base H4) as Hb. pose proof (eval_value_related s sg Hs1 off H5) as Ho.
    destruct (eval_value base s) as [vb|] eqn:Eb; [|exact I]. destruct (Hb vb eq_refl) as (wb & -> & Hvb).
    destruct (unwrap_usize vb) as [b|] eqn:Ub; cbn [obind rlet]; [|rewrite Ub; exact I]. rewrite Ub. cbn [rlet].
    destruct (eval_value off s) as [vo|] eqn:Eo; [|exact I]. destruct (Ho vo eq_refl) as (wo & -> & Hvo).
    cbn [obind]. destruct (unwrap_usize vo) as [o|] eqn:Uo; cbn [rlet]; [|exact I].
    destruct (N.ltb_spec (b + o) w64) as [Hlt|Hlt]; [|exact I].
    destruct (target_spec vb wb vo wo b o Hvb Hvo Ub Uo Hlt) as [->|[-> Hnw]]; cbn [plet].
    + apply sim_offset_peek; auto. intros c' st' Hc'. apply IH; auto. apply sr_reserved; auto. apply sr_reserved; auto.
    + apply orb_prop in H6 as [El|Hw]; [apply sim_boom; [exact El|reflexivity]|]. exfalso. apply andb_prop in Hw as [W1 W2].
      apply Hnw. split; [apply (wide_value s base)|apply (wide_value s off)]; auto.
  - (* map *)
    apply andb_prop in Hd as [He Hd]. eapply sim_bind; [apply IH; eauto|]. intros v w c' st' Hv Hc' _.
    eapply sim_let; [eapply eval_lambda_related; eauto|]. intros v' w' Hv'. apply sim_ok; auto. constructor; auto.
  - (* where *)
    apply andb_prop in Hd as [He Hd]. eapply sim_bind; [apply IH; eauto|]. intros v w c' st' Hv Hc' _.
    eapply sim_let; [eapply lambda_bool_related; [|eauto|eauto]; apply vr_reserved; auto|]. intros b b' <-.
    destruct b; [apply sim_ok; auto|]. destruct strict; [apply sim_err|apply sim_ok; auto].
  - eapply sim_let; [eapply eval_value_related; eauto|]. intros v w Hv. apply sim_ok; auto.
  - apply andb_prop in Hd as [He Hd]. eapply sim_let; [eapply eval_value_related; eauto|]. intros v w Hv. apply IH; auto. apply sr_single; auto.
  - (* match *)
    apply andb_prop in Hd as [He Hbs]. eapply sim_let; [eapply eval_related; eauto|]. intros v w Hv.
    assert (Hsh : forallb (fun b : pattern * decoder => shallow (fst b)) bs = true).
    { apply forallb_forall. intros b Hin. rewrite forallb_forall in Hbs. specialize (Hbs b Hin). apply andb_prop in Hbs as [H1 _]. exact H1. }
    pose proof (first_match_related bs v w s sg Hsh Hv Hs 0) as Hf. destruct (first_match v s 0 bs) as [[[i s'] d]|]; [|exact I].
    destruct Hf as (sg' & -> & Hs' & Hin). apply sim_rmap. apply sim_mono with (R := erases); [constructor; auto|]. apply IH; auto.
    apply in_map_iff in Hin as ([p0 d0] & <- & Hin). rewrite forallb_forall in Hbs. specialize (Hbs _ Hin). apply andb_prop in Hbs as [_ H2]. exact H2.
  - (* for each *)
    apply andb_prop in Hd as [He Hd]. eapply sim_let; [eapply orel_bind; [eapply eval_value_related; eauto|]; intros a b Hab; apply sequence_related; exact Hab|].
    intros l l' Hl. apply sim_map with (R := appended []); [apply appended_list|]. apply sim_each; auto.
  - apply negb_true_iff in Hd. apply sim_skip_rem; auto.
  - (* bytes *)
    apply andb_prop in Hd as [Hd Hd3]. apply andb_prop in Hd as [Hl He].
    eapply sim_let; [eapply orel_bind; [eapply eval_value_related; eauto|]; intros a b Hab; apply bytes_related; exact Hab|].
    intros l l' <-. destruct (addressable l) eqn:Ea; [|apply sim_boom; [exact Hl|reflexivity]].
    assert (Hsim := IH (in_buffer md) s sg d (rc_new l) (parser_new l) Hd3 Hs (sees_of_buffer md l (addressable_small l Ea))).
    apply (sim_on_view lossy erases md (in_buffer md) _ c l 0 _ st eq_refl Hc) in Hsim.
    destruct (parse bld P fuel s d (rc_new l)) as [v c' es|e'| |]; cbn [rback rbind] in *; auto. destruct (rc_read_byte c') as [[b c'']|]; exact Hsim.
  - (* from view *)
    apply andb_prop in Hd as [Hv Hd]. apply sim_with_view; auto. intros cv w Hr. apply (sim_on_view lossy erases md (in_view md)); auto.
    apply IH; auto. apply sees_of_view; auto.
  - apply andb_prop in Hd as [H1 H2]. eapply sim_bind; [apply IH; eauto|]. intros v w c' st' Hv Hc' _. apply IH; auto. apply sr_single; auto.
  - apply andb_prop in Hd as [H1 H2]. eapply sim_bind; [apply IH; eauto|]. intros v w c' st' Hv Hc' _. apply IH; auto.
  - (* accumulate *)
    apply andb_prop in Hd as [Hd H4]. apply andb_prop in Hd as [Hd H3]. apply andb_prop in Hd as [H1 H2].
    eapply sim_let; [eapply eval_value_related; eauto|]. intros a a' Ha.
    apply sim_map with (R := pair_related); [intros [x y] [x' y'] [Hx Hy]; cbn [fst snd] in *; repeat constructor; auto|]. apply sim_accum; auto.
  - destruct o as [d|].
    + apply sim_map with (R := erases); [constructor; auto|]. apply IH; auto.
    + apply sim_ok; auto. constructor.
  - (* let view *)
    apply andb_prop in Hd as [Hd H3]. apply andb_prop in Hd as [H1 H2]. apply negb_true_iff in H1, H2. apply (sim_let_view lossy erases md c); auto.
    intros w Hr. apply IH; auto. apply sr_view; auto.
  - (* capture *)
    apply andb_prop in Hd as [Hd H3]. apply andb_prop in Hd as [H1 H2]. apply negb_true_iff in H1.
    pose proof (eval_usize_related s sg Hs1 len H3) as He. destruct (eval_usize len s) as [n|]; [|exact I]. destruct (He n eq_refl) as (n' & En & <-). cbn [rlet].
    apply sim_with_view; auto. intros cv w Hr. rewrite En. cbn [plet]. apply sim_capture; auto.
  - apply andb_prop in Hd as [Hd H3]. apply andb_prop in Hd as [H1 H2].
    pose proof (eval_usize_related s sg Hs1 len H2) as He. destruct (eval_usize len s) as [n|]; [|exact I]. destruct (He n eq_refl) as (n' & En & <-). cbn [rlet].
    apply sim_with_view; auto. intros cv w Hr. rewrite En. cbn [plet]. apply sim_read_array; auto.
  - apply sim_with_view; auto. intros cv w Hr. apply sim_ok; auto. rewrite (proj1 Hr). unfold view_in. cbn [roff]. constructor.
  - apply sim_ok; auto. constructor.
Qed.
End Main.
