(** Proofs about the parser runtime. *)
From Verif Require Import Base ParserModel.
Open Scope N_scope.

(** ** Specification vocabulary *)
(** The byte a position points into. *)
Definition byte_of (o : boff) : N := fst (as_bytes o).
(** The slices that are open and not hidden by a random-access seek. *)
Fixpoint open_slices (st : list lens) : list boff :=
  match st with
  | [] => []
  | LSlice e :: r => e :: open_slices r
  | LSeek t _ :: r => if t then open_slices r else []
  | _ :: r => open_slices r
  end.

Definition lim (m : boff) (st : list lens) : boff :=
  match get_limit st with Some e => e | None => m end.

Lemma boff_gt_false x y : boff_gt x y = false -> byte_of x <= byte_of y.
Proof.
  unfold boff_gt, boff_cmp, byte_of. destruct (as_bytes x) as [n1 o1], (as_bytes y) as [n2 o2]. cbn.
  destruct (N.compare_spec n1 n2); lia.
Qed.

Lemma byte_of_bytes n : byte_of (Bytes n) = n.
Proof. reflexivity. Qed.

Lemma byte_mono_incr o d o' : increment_by o d = Val o' -> byte_of o <= byte_of o'.
Proof.
  unfold increment_by, byte_of. destruct o as [n|s a].
  - destruct (n + d <? w64); intros [= <-]; cbn; lia.
  - destruct (a + d <? w64); intros [= <-]; cbn. lia.
Qed.

(** The first byte no bit of which has been passed. *)
Definition ceil_of (o : boff) : N :=
  match o with Bytes n => n | Bits s a => s + (a + 7) / 8 end.
Lemma ceil_byte o : byte_of o <= ceil_of o <= byte_of o + 1.
Proof. destruct o; unfold byte_of; cbn; lia. Qed.

Lemma ceil_mono_incr o d o' : increment_by o d = Val o' -> ceil_of o <= ceil_of o'.
Proof.
  unfold increment_by. destruct o as [n|s a].
  - destruct (n + d <? w64); intros [= <-]; cbn; lia.
  - destruct (a + d <? w64); intros [= <-]; cbn. lia.
Qed.

Lemma byte_abs o : byte_of o * 8 <= abs_bit_offset o.
Proof. destruct o as [n|s a]; unfold byte_of; cbn; lia. Qed.

(** ** The invariant kept by every operation *)
Fixpoint wf_stk (m : boff) (st : list lens) : Prop :=
  match st with
  | [] => True
  | LSlice e :: r => byte_of e <= byte_of (lim m r) /\ wf_stk m r
  | LSeek t c :: r => t = false /\ ceil_of c <= byte_of (lim m r) + 1 /\ wf_stk m r
  | LAlts c :: r | LPeek c :: r | LPeekNot c :: r => ceil_of c <= byte_of (lim m r) + 1 /\ wf_stk m r
  end.

Definition Inv (buf : list N) (start : N) (s : pst) : Prop :=
  pbuf s = buf /\ pstart s = start /\ pmax s = Bytes (N.of_nat (length buf)) /\
  wf_stk (pmax s) (pstk s) /\ ceil_of (pcur s) <= byte_of (lim (pmax s) (pstk s)) + 1.

Lemma lim_max m st : wf_stk m st -> byte_of (lim m st) <= byte_of m.
Proof.
  induction st as [|l r IH]; unfold lim; cbn [get_limit wf_stk].
  - lia.
  - destruct l; intros H.
    + now apply IH. 
    + now apply IH.
    + now apply IH.
    + destruct H as (-> & _). lia.
    + destruct H as [H H']. specialize (IH H'). lia.
Qed.

Lemma lim_slices m st : wf_stk m st -> forall e, In e (open_slices st) -> byte_of (lim m st) <= byte_of e.
Proof.
  induction st as [|l r IH]; cbn [open_slices wf_stk]; [contradiction|].
  destruct l; intros H e He.
  - apply (IH (proj2 H) e He).
  - apply (IH (proj2 H) e He).
  - apply (IH (proj2 H) e He).
  - destruct H as (-> & _). destruct He.
  - destruct He as [<-|He]; [unfold lim; cbn; lia|].
    unfold lim at 1. cbn [get_limit]. specialize (IH (proj2 H) e He). lia.
Qed.

Lemma current_limit_lim s : current_limit s = lim (pmax s) (pstk s).
Proof. reflexivity. Qed.

Lemma try_increment_cases d s r s' : try_increment d s = (r, s') ->
  match r with
  | POk old => old = pcur s /\ exists a, increment_by (pcur s) d = Val a /\
                 byte_of a <= byte_of (current_limit s) /\ s' = set_cur s a
  | _ => s' = s
  end.
Proof.
  unfold try_increment. destruct (increment_by (pcur s) d) as [a|] eqn:E; [|intros [= <- <-]; reflexivity].
  destruct (boff_gt a (current_limit s)) eqn:G; intros [= <- <-]; [reflexivity|].
  split; [reflexivity|]. exists a. split; [reflexivity|]. split; [now apply boff_gt_false|reflexivity].
Qed.

Lemma inv_new buf start : Inv buf start (parser_of_view buf start).
Proof. repeat split. cbn. lia. Qed.

Lemma inv_set_cur buf start s o : Inv buf start s ->
  ceil_of o <= byte_of (lim (pmax s) (pstk s)) + 1 -> Inv buf start (set_cur s o).
Proof. intros (A & B & C & D & E) H. repeat split; assumption. Qed.

Lemma inv_incr buf start d s r s' : Inv buf start s -> try_increment d s = (r, s') -> Inv buf start s'.
Proof.
  intros I E. apply try_increment_cases in E. destruct r; [|now subst|now subst].
  destruct E as (_ & b & Ea & Hb & ->). apply inv_set_cur; [exact I|].
  rewrite current_limit_lim in Hb. pose proof (ceil_byte b). lia.
Qed.

Lemma lim_push_pass m st l :
  match l with LSlice _ | LSeek _ _ => False | _ => True end -> lim m (l :: st) = lim m st.
Proof. destruct l; intros H; try contradiction; reflexivity. Qed.

Lemma inv_push buf start s l : Inv buf start s ->
  match l with LSlice _ | LSeek _ _ => False | LAlts c | LPeek c | LPeekNot c => c = pcur s end ->
  Inv buf start (set_stk s (l :: pstk s)).
Proof.
  intros (A & B & C & D & E) H. unfold Inv. cbn [pbuf pstart pmax pstk pcur set_stk].
  assert (lim (pmax s) (l :: pstk s) = lim (pmax s) (pstk s)) as L by (apply lim_push_pass; destruct l; auto; contradiction).
  rewrite L. repeat split; auto. destruct l; try contradiction; subst; cbn; auto.
Qed.

Lemma wf_restore m st c r : wf_stk m st -> stack_restore st = Some (c, r) ->
  wf_stk m r /\ ceil_of c <= byte_of (lim m r) + 1.
Proof.
  induction st as [|l st IH]; cbn; [discriminate|].
  destruct l; cbn; intros H; try (apply IH; tauto).
  - intros [= <- <-]. tauto.
  - intros [= <- <-]. tauto.
Qed.
Lemma wf_recover m st c r : wf_stk m st -> stack_recover st = Some (c, r) ->
  wf_stk m r /\ ceil_of c <= byte_of (lim m r) + 1.
Proof.
  induction st as [|l st IH]; cbn; [discriminate|].
  destruct l; cbn; intros H; try (apply IH; tauto).
  - intros [= <- <-]. tauto.
  - intros [= <- <-]. tauto.
Qed.
Lemma wf_close m cur st r rest : wf_stk m st -> close_slice_stk cur st = (r, rest) ->
  match r with
  | POk e => wf_stk m rest /\ byte_of e <= byte_of (lim m rest)
  | _ => rest = []
  end.
Proof.
  induction st as [|l st IH]; cbn; [intros _ [= <- <-]; reflexivity|].
  destruct l; cbn; intros H; try (intros [= <- <-]; reflexivity).
  - apply IH. tauto.
  - destruct (boff_gt cur endpoint); intros [= <- <-]; [reflexivity|tauto].
Qed.

Lemma inv_empty buf start s : Inv buf start s -> Inv buf start (set_stk s []).
Proof.
  intros (A & B & C & D & E). repeat split; auto. cbn [pcur set_stk pmax pstk lim get_limit].
  apply lim_max in D. lia.
Qed.

Lemma inv_recover buf start s r s' : Inv buf start s -> p_recover s = (r, s') -> Inv buf start s'.
Proof.
  intros I. unfold p_recover. destruct (stack_recover (pstk s)) as [[c k]|] eqn:R; intros [= <- <-].
  - destruct I as (A & B & C & D & E). destruct (wf_recover _ _ _ _ D R). repeat split; auto.
  - now apply inv_empty.
Qed.

Lemma drop_some {A} (r : pres A * pst) s' : drop r = Some s' -> snd r = s'.
Proof. destruct r as [[|e|] k]; cbn; congruence. Qed.

Lemma inv_step buf start o s s' : Inv buf start s -> step o s = Some s' -> Inv buf start s'.
Proof.
  intros I H. destruct o; cbn [step] in H; apply drop_some in H; subst s'.
  - unfold p_read_byte. destruct (try_increment 1 s) as [r k] eqn:E.
    pose proof (inv_incr _ _ _ _ _ _ I E). destruct r; [|exact H|exact H].
    destruct (as_bytes a) as [ix sb]. destruct (nth_error (pbuf k) (N.to_nat ix)); [|exact H].
    destruct sb; exact H.
  - unfold p_advance_by. destruct (try_increment n s) as [r k] eqn:E.
    pose proof (inv_incr _ _ _ _ _ _ I E). destruct r; exact H.
  - unfold p_advance_or_seek. destruct (n <? pstart s); [exact I|].
    destruct (checked_delta (pcur s) (Bytes (n - pstart s))) as [[d|]|]; [| |exact I].
    + destruct (try_increment d (set_stk s (LPeek (pcur s) :: pstk s))) as [r k] eqn:E.
      assert (Inv buf start k) as K.
      { eapply inv_incr; [|exact E]. apply inv_push; [exact I|reflexivity]. }
      destruct r; exact K.
    + unfold seek_to_offset. destruct (boff_gt (Bytes (n - pstart s)) (pmax s)) eqn:G; [exact I|].
      destruct (is_bit_mode (pcur s)); [exact I|].
      assert (forall t, match get_limit (pstk s) with Some m => boff_lt t m && false | None => false end = false) as T.
      { intros t. destruct (get_limit (pstk s)); [apply andb_false_r|reflexivity]. }
      rewrite T. cbn [snd]. apply boff_gt_false in G.
      destruct I as (A & B & C & D & E). unfold Inv. cbn [pbuf pstart pmax pstk pcur].
      repeat split; auto. unfold lim. cbn [get_limit ceil_of]. rewrite byte_of_bytes in G. lia.
  - cbn. apply inv_set_cur; [exact I|]. rewrite current_limit_lim. pose proof (ceil_byte (lim (pmax s) (pstk s))). lia.
  - unfold p_skip_align. destruct (n =? 0); [exact I|].
    destruct (obind _ _); [|exact I]. unfold p_advance_by. destruct (try_increment a s) as [r k] eqn:E.
    pose proof (inv_incr _ _ _ _ _ _ I E). destruct r; exact H.
  - unfold p_enter_bits. destruct (pcur s) as [n|] eqn:C; [|exact I]. apply inv_set_cur; [exact I|].
    destruct I as (_ & _ & _ & _ & E). rewrite C in E. cbn in *. lia.
  - unfold p_escape_bits. destruct (pcur s) as [n|st a] eqn:C; [exact I|]. cbn [snd].
    apply inv_set_cur; [exact I|].
    destruct I as (_ & _ & _ & _ & E). rewrite C in E. cbn [ceil_of] in *.
    destruct (N.eqb_spec (a mod 8) 0); lia.
  - unfold p_start_slice. destruct (increment_by (pcur s) n) as [e|] eqn:Ei; [|exact I].
    destruct (boff_gt e (current_limit s)) eqn:G; [exact I|]. cbn [snd].
    apply boff_gt_false in G. rewrite current_limit_lim in G.
    destruct I as (A & B & C & D & E). unfold Inv. cbn [pbuf pstart pmax pstk pcur set_stk].
    repeat split; auto. unfold lim. cbn [get_limit].
    pose proof (ceil_mono_incr _ _ _ Ei). pose proof (ceil_byte e). lia.
  - unfold p_end_slice. destruct (close_slice_stk (pcur s) (pstk s)) as [r k] eqn:Ec.
    pose proof (wf_close _ _ _ _ _ (proj1 (proj2 (proj2 (proj2 I)))) Ec) as W.
    destruct r; cbn [snd]; [|subst; now apply inv_empty|subst; now apply inv_empty].
    destruct I as (A & B & C & D & E), W as [W1 W2]. repeat split; auto. cbn [pcur pstk pmax].
    pose proof (ceil_byte a). lia.
  - apply inv_push; [exact I|reflexivity].
  - unfold p_close_peek. destruct (stack_restore (pstk s)) as [[c k]|] eqn:R; cbn [snd].
    + destruct I as (A & B & C & D & E). destruct (wf_restore _ _ _ _ D R). repeat split; auto.
    + now apply inv_empty.
  - apply inv_push; [exact I|reflexivity].
  - unfold p_close_peek_not. destruct (p_recover s) eqn:R. eapply inv_recover; eauto.
  - apply inv_push; [exact I|reflexivity].
  - unfold p_next_alt. destruct (p_recover s) as [r k] eqn:R.
    pose proof (inv_recover _ _ _ _ _ I R) as K. destruct r; [|exact K|exact K].
    destruct is_last; [exact K|]. apply inv_push; [exact K|reflexivity].
  - unfold p_remaining. destruct (delta _ _); exact I.
  - unfold p_finish, p_remaining. destruct (delta _ _) as [[|]|]; exact I.
  - unfold p_view. destruct (as_bytes (pcur s)) as [k [|]]; [exact I|].
    destruct (view_offset (pbuf s) (pstart s) k); exact I.
Qed.

Lemma inv_run buf start h s s' : Inv buf start s -> run h s = Some s' -> Inv buf start s'.
Proof.
  revert s; induction h as [|o h IH]; intros s I; cbn; [now intros [= <-]|].
  destruct (step o s) as [k|] eqn:E; [|discriminate]. apply IH. eapply inv_step; eauto.
Qed.

(** ** C14 *)
Lemma shift_testbit byte i : N.shiftr (N.land byte (N.shiftl 1 i)) i = N.b2n (N.testbit byte i).
Proof.
  apply N.bits_inj. intros j. rewrite N.shiftr_spec', N.land_spec.
  destruct (N.eq_dec j 0) as [->|Hj].
  - rewrite N.add_0_l, N.shiftl_spec_high' by lia. rewrite N.sub_diag.
    replace (N.testbit 1 0) with true by reflexivity. rewrite andb_true_r.
    destruct (N.testbit byte i); reflexivity.
  - rewrite N.shiftl_spec_high' by lia. replace (j + i - i) with j by lia.
    assert (forall b : bool, N.testbit (N.b2n b) j = false) as F.
    { intros b. apply (testbit_above _ 1); [destruct b; cbn; lia|lia]. }
    rewrite F. change 1 with (N.b2n true). rewrite F. apply andb_false_r.
Qed.

Lemma read_byte_ok buf start h s b s' :
  run h (parser_of_view buf start) = Some s -> p_read_byte s = (POk b, s') ->
  match pcur s with
  | Bytes ix => nth_error buf (N.to_nat ix) = Some b /\ pcur s' = Bytes (ix + 1) /\
                forall e, In e (open_slices (pstk s)) -> (ix + 1) * 8 <= abs_bit_offset e
  | Bits k i => exists byte, nth_error buf (N.to_nat (k + i / 8)) = Some byte /\
                b = N.b2n (N.testbit byte (i mod 8)) /\ pcur s' = Bits k (i + 1) /\
                forall e, In e (open_slices (pstk s)) -> k + i / 8 <= byte_of e
  end.
Proof.
  intros R H. pose proof (inv_run _ _ _ _ _ (inv_new buf start) R) as I.
  unfold p_read_byte in H. destruct (try_increment 1 s) as [r k] eqn:E.
  apply try_increment_cases in E. destruct r as [old|e|]; [|discriminate|discriminate].
  destruct E as (-> & a & Ea & Hb & ->). destruct I as (A & B & C & D & I). rewrite current_limit_lim in Hb.
  cbn [pbuf set_cur] in H. rewrite A in H.
  destruct (pcur s) as [ix|st i]; cbn [increment_by] in Ea; cbn [as_bytes] in H.
  - destruct (ix + 1 <? w64); [|discriminate]. injection Ea as <-.
    destruct (nth_error buf (N.to_nat ix)) as [byte|] eqn:Eb; [|discriminate].
    injection H as <- <-. split; [reflexivity|]. split; [reflexivity|]. intros e He.
    pose proof (lim_slices _ _ D e He). pose proof (byte_abs e). rewrite byte_of_bytes in Hb. lia.
  - destruct (i + 1 <? w64); [|discriminate]. injection Ea as <-.
    destruct (nth_error buf (N.to_nat (st + i / 8))) as [byte|] eqn:Eb; [|discriminate].
    injection H as <- <-. exists byte. split; [reflexivity|]. split; [apply shift_testbit|]. split; [reflexivity|].
    intros e He. pose proof (lim_slices _ _ D e He). unfold byte_of in Hb at 1. cbn [as_bytes fst] in Hb. lia.
Qed.

(** ** Byte-mode histories: a tighter invariant *)
Definition in_bytes (o : boff) : Prop := is_bit_mode o = false.
Definition lens_off (l : lens) : boff :=
  match l with LAlts c | LPeek c | LPeekNot c | LSeek _ c | LSlice c => c end.
Fixpoint wfb (m : boff) (st : list lens) : Prop :=
  match st with
  | [] => True
  | l :: r => in_bytes (lens_off l) /\ byte_of (lens_off l) <= byte_of (lim m r) /\
              match l with LSeek t _ => t = false | _ => True end /\ wfb m r
  end.
Definition InvB (buf : list N) (start : N) (s : pst) : Prop :=
  pbuf s = buf /\ pstart s = start /\ pmax s = Bytes (N.of_nat (length buf)) /\
  wfb (pmax s) (pstk s) /\ in_bytes (pcur s) /\ byte_of (pcur s) <= byte_of (lim (pmax s) (pstk s)).

Lemma in_bytes_eq o : in_bytes o -> o = Bytes (byte_of o).
Proof. destruct o; [reflexivity|discriminate]. Qed.

Lemma limb m st : in_bytes m -> wfb m st -> in_bytes (lim m st) /\ byte_of (lim m st) <= byte_of m.
Proof.
  intros Hm. induction st as [|l r IH]; unfold lim; cbn [get_limit wfb].
  - intros _. split; [exact Hm|lia].
  - intros (H1 & H2 & H3 & H4). specialize (IH H4). destruct l; cbn [lens_off] in *; try exact IH.
    + subst. split; [exact Hm|lia].
    + split; [exact H1|lia].
Qed.

Lemma incr_bytes o d o' : in_bytes o -> increment_by o d = Val o' -> o' = Bytes (byte_of o + d).
Proof. destruct o; [|discriminate]. intros _. cbn. destruct (_ <? _); congruence. Qed.

Lemma invb_new buf start : InvB buf start (parser_of_view buf start).
Proof. repeat split. cbn. lia. Qed.

Lemma invb_incr buf start d s r s' : InvB buf start s -> try_increment d s = (r, s') -> InvB buf start s'.
Proof.
  intros I E. apply try_increment_cases in E. destruct r; [|now subst|now subst].
  destruct E as (_ & b & Ea & Hb & ->). destruct I as (A & B & C & D & F & G).
  rewrite current_limit_lim in Hb. apply (incr_bytes _ _ _ F) in Ea. subst b. repeat split; auto.
Qed.
Lemma invb_push buf start s l : InvB buf start s -> lens_off l = pcur s ->
  match l with LSlice _ | LSeek _ _ => False | _ => True end ->
  InvB buf start (set_stk s (l :: pstk s)).
Proof.
  intros (A & B & C & D & F & G) H K. unfold InvB. cbn [pbuf pstart pmax pstk pcur set_stk wfb].
  rewrite H. rewrite (lim_push_pass _ _ _ K). repeat split; auto. destruct l; auto; contradiction.
Qed.
Lemma wfb_restore m st c r : wfb m st -> stack_restore st = Some (c, r) ->
  wfb m r /\ in_bytes c /\ byte_of c <= byte_of (lim m r).
Proof.
  induction st as [|l st IH]; cbn; [discriminate|].
  destruct l; cbn; intros H; try (apply IH; tauto); intros [= <- <-]; tauto.
Qed.
Lemma wfb_recover m st c r : wfb m st -> stack_recover st = Some (c, r) ->
  wfb m r /\ in_bytes c /\ byte_of c <= byte_of (lim m r).
Proof.
  induction st as [|l st IH]; cbn; [discriminate|].
  destruct l; cbn; intros H; try (apply IH; tauto); intros [= <- <-]; tauto.
Qed.
Lemma wfb_close m cur st r rest : wfb m st -> close_slice_stk cur st = (r, rest) ->
  match r with
  | POk e => wfb m rest /\ in_bytes e /\ byte_of e <= byte_of (lim m rest)
  | _ => rest = []
  end.
Proof.
  induction st as [|l st IH]; cbn; [intros _ [= <- <-]; reflexivity|].
  destruct l; cbn; intros H; try (intros [= <- <-]; reflexivity).
  - apply IH. tauto.
  - destruct (boff_gt cur endpoint); intros [= <- <-]; [reflexivity|tauto].
Qed.
Lemma invb_empty buf start s : InvB buf start s -> InvB buf start (set_stk s []).
Proof.
  intros (A & B & C & D & F & G). repeat split; auto.
  destruct (limb (pmax s) (pstk s)) as [_ L]; [rewrite C; reflexivity|exact D|]. cbn in *. lia.
Qed.
Lemma invb_recover buf start s r s' : InvB buf start s -> p_recover s = (r, s') -> InvB buf start s'.
Proof.
  intros I. unfold p_recover. destruct (stack_recover (pstk s)) as [[c k]|] eqn:R; intros [= <- <-].
  - destruct I as (A & B & C & D & F & G). destruct (wfb_recover _ _ _ _ D R) as (? & ? & ?). repeat split; auto.
  - now apply invb_empty.
Qed.
Lemma boff_gt_bytes x y : boff_gt (Bytes x) (Bytes y) = (y <? x).
Proof. unfold boff_gt, boff_cmp. cbn. destruct (N.compare_spec x y); destruct (N.ltb_spec y x); lia || reflexivity. Qed.

Lemma invb_step buf start o s s' : o <> OpEnterBits -> InvB buf start s -> step o s = Some s' -> InvB buf start s'.
Proof.
  intros NB I H. destruct o; cbn [step] in H; apply drop_some in H; subst s'; try contradiction.
  - unfold p_read_byte. destruct (try_increment 1 s) as [r k] eqn:E.
    pose proof (invb_incr _ _ _ _ _ _ I E). destruct r; [|exact H|exact H].
    destruct (as_bytes a) as [ix sb]. destruct (nth_error (pbuf k) (N.to_nat ix)); [|exact H].
    destruct sb; exact H.
  - unfold p_advance_by. destruct (try_increment n s) as [r k] eqn:E.
    pose proof (invb_incr _ _ _ _ _ _ I E). destruct r; exact H.
  - unfold p_advance_or_seek. destruct (n <? pstart s); [exact I|].
    destruct (checked_delta (pcur s) (Bytes (n - pstart s))) as [[d|]|]; [| |exact I].
    + destruct (try_increment d (set_stk s (LPeek (pcur s) :: pstk s))) as [r k] eqn:E.
      assert (InvB buf start k) as K.
      { eapply invb_incr; [|exact E]. apply invb_push; [exact I|reflexivity|exact Logic.I]. }
      destruct r; exact K.
    + unfold seek_to_offset. destruct (boff_gt (Bytes (n - pstart s)) (pmax s)) eqn:G; [exact I|].
      destruct (is_bit_mode (pcur s)) eqn:BM; [exact I|].
      assert (forall t, match get_limit (pstk s) with Some m => boff_lt t m && false | None => false end = false) as T.
      { intros t. destruct (get_limit (pstk s)); [apply andb_false_r|reflexivity]. }
      rewrite T. cbn [snd]. apply boff_gt_false in G.
      destruct I as (A & B & C & D & F & E). unfold InvB. cbn [pbuf pstart pmax pstk pcur wfb lens_off].
      repeat split; auto.
  - cbn. destruct I as (A & B & C & D & F & E). rewrite current_limit_lim.
    destruct (limb (pmax s) (pstk s)) as [L _]; [rewrite C; reflexivity|exact D|].
    repeat split; auto. cbn [pcur set_cur pmax pstk]. lia.
  - unfold p_skip_align. destruct (n =? 0); [exact I|].
    destruct (obind _ _); [|exact I]. unfold p_advance_by. destruct (try_increment a s) as [r k] eqn:E.
    pose proof (invb_incr _ _ _ _ _ _ I E). destruct r; exact H.
  - unfold p_escape_bits. destruct I as (A & B & C & D & F & E). pose proof F as F'.
    apply in_bytes_eq in F. rewrite F. repeat split; auto.
  - unfold p_start_slice. destruct (increment_by (pcur s) n) as [e|] eqn:Ei; [|exact I].
    destruct (boff_gt e (current_limit s)) eqn:G; [exact I|]. cbn [snd].
    apply boff_gt_false in G. rewrite current_limit_lim in G.
    destruct I as (A & B & C & D & F & E). apply (incr_bytes _ _ _ F) in Ei.
    unfold InvB. cbn [pbuf pstart pmax pstk pcur set_stk wfb lens_off].
    repeat split; auto; [subst; reflexivity|]. unfold lim. cbn [get_limit]. subst. rewrite byte_of_bytes. lia.
  - unfold p_end_slice. destruct (close_slice_stk (pcur s) (pstk s)) as [r k] eqn:Ec.
    pose proof (wfb_close _ _ _ _ _ (proj1 (proj2 (proj2 (proj2 I)))) Ec) as W.
    destruct r; cbn [snd]; [|subst; now apply invb_empty|subst; now apply invb_empty].
    destruct I as (A & B & C & D & F & E), W as (W1 & W2 & W3). repeat split; auto.
  - apply invb_push; [exact I|reflexivity|exact Logic.I].
  - unfold p_close_peek. destruct (stack_restore (pstk s)) as [[c k]|] eqn:R; cbn [snd].
    + destruct I as (A & B & C & D & F & E). destruct (wfb_restore _ _ _ _ D R) as (? & ? & ?). repeat split; auto.
    + now apply invb_empty.
  - apply invb_push; [exact I|reflexivity|exact Logic.I].
  - unfold p_close_peek_not. destruct (p_recover s) eqn:R. eapply invb_recover; eauto.
  - apply invb_push; [exact I|reflexivity|exact Logic.I].
  - unfold p_next_alt. destruct (p_recover s) as [r k] eqn:R.
    pose proof (invb_recover _ _ _ _ _ I R) as K. destruct r; [|exact K|exact K].
    destruct is_last; [exact K|]. apply invb_push; [exact K|reflexivity|exact Logic.I].
  - unfold p_remaining. destruct (delta _ _); exact I.
  - unfold p_finish, p_remaining. destruct (delta _ _) as [[|]|]; exact I.
  - unfold p_view. destruct (as_bytes (pcur s)) as [k [|]]; [exact I|].
    destruct (view_offset (pbuf s) (pstart s) k); exact I.
Qed.

Lemma invb_run buf start h s s' : ~ In OpEnterBits h -> InvB buf start s -> run h s = Some s' -> InvB buf start s'.
Proof.
  revert s; induction h as [|o h IH]; intros s NB I; cbn; [now intros [= <-]|].
  destruct (step o s) as [k|] eqn:E; [|discriminate]. apply IH; [intros X; apply NB; now right|].
  eapply invb_step; eauto. intros ->. apply NB. now left.
Qed.

(** ** C18 *)
Lemma remaining_bytes buf start s : InvB buf start s ->
  exists c l, pcur s = Bytes c /\ current_limit s = Bytes l /\ c <= l <= N.of_nat (length buf) /\
    p_remaining s = (POk (l - c), s).
Proof.
  intros (A & B & C & D & F & E). destruct (limb (pmax s) (pstk s)) as [L1 L2]; [rewrite C; reflexivity|exact D|].
  exists (byte_of (pcur s)), (byte_of (lim (pmax s) (pstk s))).
  pose proof (in_bytes_eq _ F) as F'. pose proof (in_bytes_eq _ L1) as L'.
  split; [exact F'|]. split; [rewrite current_limit_lim; exact L'|].
  split; [rewrite C in *; rewrite byte_of_bytes in L2; lia|].
  unfold p_remaining, delta, checked_delta. rewrite current_limit_lim. rewrite F, L1.
  unfold byte_of in *. cbv zeta.
  destruct (N.leb_spec (fst (as_bytes (pcur s))) (fst (as_bytes (lim (pmax s) (pstk s))))); [reflexivity|lia].
Qed.

Lemma try_increment_bytes s c l d : pcur s = Bytes c -> current_limit s = Bytes l -> c + d < w64 ->
  try_increment d s = if l <? c + d then (PErr EOverrun, s) else (POk (Bytes c), set_cur s (Bytes (c + d))).
Proof.
  intros Hc Hl Hd. unfold try_increment. rewrite Hc, Hl. cbn [increment_by].
  destruct (N.ltb_spec (c + d) w64); [|lia]. rewrite boff_gt_bytes. now destruct (l <? c + d).
Qed.

Lemma remaining_spec buf start h s :
  N.of_nat (length buf) + 1 < w64 -> ~ In OpEnterBits h -> run h (parser_of_view buf start) = Some s ->
  exists r, p_remaining s = (POk r, s) /\
    (forall d, fst (p_advance_by d s) = POk tt <-> d <= r) /\
    (r = 0 <-> fst (p_read_byte s) = PErr EOverrun) /\
    (r = 0 <-> fst (p_finish s) = POk tt).
Proof.
  intros Hb NB R. pose proof (invb_run _ _ _ _ _ NB (invb_new buf start) R) as I.
  destruct (remaining_bytes _ _ _ I) as (c & l & Hc & Hl & Hr & E). exists (l - c). split; [exact E|]. split; [|split].
  - intros d. unfold p_advance_by. destruct (N.lt_ge_cases (c + d) w64) as [Hd|Hd].
    + rewrite (try_increment_bytes _ _ _ _ Hc Hl Hd). destruct (N.ltb_spec l (c + d)); cbn; split; try congruence; lia.
    + unfold try_increment. rewrite Hc. cbn [increment_by]. destruct (N.ltb_spec (c + d) w64); [lia|].
      cbn. split; [congruence|lia].
  - unfold p_read_byte. rewrite (try_increment_bytes _ _ _ 1 Hc Hl) by lia.
    destruct (N.ltb_spec l (c + 1)); cbn; [split; [reflexivity|lia]|].
    split; [lia|]. destruct I as (A & _). rewrite A.
    destruct (nth_error buf (N.to_nat c)); cbn; discriminate.
  - unfold p_finish. rewrite E. destruct (l - c) eqn:X; cbn; split; congruence || lia.
Qed.

(** ** C17 *)
Fixpoint read_n (n : nat) (s : pst) : option (list N * pst) :=
  match n with
  | O => Some ([], s)
  | S k => match p_read_byte s with
           | (POk b, s') => match read_n k s' with Some (bs, s'') => Some (b :: bs, s'') | None => None end
           | _ => None
           end
  end.

Lemma nth_error_lt {A} (l : list A) i : (i < length l)%nat -> exists x, nth_error l i = Some x.
Proof. intros H. destruct (nth_error l i) eqn:E; [eauto|]. apply nth_error_None in E. lia. Qed.

Lemma read_n_bits n : forall s k i L,
  pcur s = Bits k i -> current_limit s = Bytes L -> L <= N.of_nat (length (pbuf s)) ->
  k * 8 + i + N.of_nat n <= L * 8 -> L * 8 < w64 ->
  exists bits, read_n n s = Some (bits, set_cur s (Bits k (i + N.of_nat n))) /\ length bits = n /\
    forall j, (j < n)%nat -> exists byte,
      nth_error (pbuf s) (N.to_nat (k + (i + N.of_nat j) / 8)) = Some byte /\
      nth_error bits j = Some (N.b2n (N.testbit byte ((i + N.of_nat j) mod 8))).
Proof.
  induction n as [|n IH]; intros s k i L Hc Hl HL Hn Hw.
  - exists []. cbn [read_n]. split; [|split; [reflexivity|intros j Hj; lia]].
    f_equal. f_equal. destruct s; cbn in *. unfold set_cur; cbn. subst. now rewrite N.add_0_r.
  - cbn [read_n].
    destruct (nth_error_lt (pbuf s) (N.to_nat (k + i / 8))) as [byte Hbyte]; [lia|].
    assert (p_read_byte s = (POk (N.b2n (N.testbit byte (i mod 8))), set_cur s (Bits k (i + 1)))) as E.
    { unfold p_read_byte, try_increment. rewrite Hc, Hl. cbn [increment_by].
      destruct (N.ltb_spec (i + 1) w64); [|lia].
      assert (boff_gt (Bits k (i + 1)) (Bytes L) = false) as ->.
      { unfold boff_gt, boff_cmp. cbn [as_bytes].
        destruct (N.compare_spec (k + (i + 1) / 8) L); try reflexivity. lia. }
      cbn [as_bytes pbuf set_cur]. rewrite Hbyte. now rewrite shift_testbit. }
    rewrite E. destruct (IH (set_cur s (Bits k (i + 1))) k (i + 1) L) as (bits & Eb & Lb & Hb);
      [reflexivity|exact Hl|exact HL|lia|exact Hw|].
    rewrite Eb. eexists. split; [|split].
    + f_equal. f_equal. unfold set_cur. cbn. f_equal. f_equal. lia.
    + cbn. now rewrite Lb.
    + intros [|j] Hj.
      * exists byte. cbn [nth_error N.of_nat]. rewrite N.add_0_r. split; [exact Hbyte|reflexivity].
      * destruct (Hb j) as (by' & H1 & H2); [lia|]. exists by'. cbn [pbuf set_cur] in H1.
        replace (i + N.of_nat (S j)) with (i + 1 + N.of_nat j) by lia. split; [exact H1|exact H2].
Qed.

Lemma bits_spec s k L n :
  pcur s = Bytes k -> current_limit s = Bytes L -> L <= N.of_nat (length (pbuf s)) ->
  k * 8 + N.of_nat n <= L * 8 -> L * 8 < w64 ->
  exists s1 bits s2 s3,
    p_enter_bits s = (POk tt, s1) /\ read_n n s1 = Some (bits, s2) /\ length bits = n /\
    (forall j, (j < n)%nat -> exists byte,
      nth_error (pbuf s) (N.to_nat (k + N.of_nat j / 8)) = Some byte /\
      nth_error bits j = Some (N.b2n (N.testbit byte (N.of_nat j mod 8)))) /\
    p_escape_bits s2 = (POk (N.of_nat n), s3) /\
    pstk s3 = pstk s /\ pcur s3 = Bytes (k + (N.of_nat n + 7) / 8).
Proof.
  intros Hc Hl HL Hn Hw.
  destruct (read_n_bits n (set_cur s (Bits k 0)) k 0 L eq_refl Hl HL) as (bits & E & Lb & H); [lia|exact Hw|].
  exists (set_cur s (Bits k 0)), bits. eexists. eexists.
  split; [unfold p_enter_bits; rewrite Hc; reflexivity|]. split; [exact E|]. split; [exact Lb|].
  split; [intros j Hj; destruct (H j Hj) as (byte & H1 & H2); rewrite N.add_0_l in *; eauto|].
  split; [reflexivity|]. split; [reflexivity|]. cbn [pcur set_cur]. f_equal. rewrite N.add_0_l.
  destruct (N.eqb_spec (N.of_nat n mod 8) 0); lia.
Qed.

(** ** C19 *)
Definition pos_of (o : boff) : N := match o with Bytes n => n | Bits _ a => a end.
Definition same_mode (x y : boff) : Prop :=
  match x, y with Bytes _, Bytes _ => True | Bits a _, Bits b _ => a = b | _, _ => False end.

Lemma next_multiple k n : n <> 0 -> k mod n <> 0 ->
  ((k / n + 1) * n) mod n = 0 /\ k < (k / n + 1) * n < k + n.
Proof.
  intros Hn Hm. split; [apply N.mod_mul; exact Hn|].
  pose proof (N.div_mod k n Hn). pose proof (N.mod_lt k n Hn).
  revert H Hm H0. generalize (k / n) (k mod n). intros q r E Hr Hlt.
  rewrite N.mul_add_distr_r, N.mul_1_l. rewrite (N.mul_comm q n). revert E. generalize (n * q). intros; lia.
Qed.

Lemma least_multiple n k a : n <> 0 -> k <= a < k + n -> a mod n = 0 -> forall m, k <= m -> m mod n = 0 -> a <= m.
Proof.
  intros Hn Ha Ham m Hm Hmm. destruct (N.le_gt_cases a m); [assumption|exfalso].
  apply N.mod_divide in Ham, Hmm; try exact Hn. destruct Ham as [x ->], Hmm as [y ->].
  assert (y < x) by (apply N.mul_lt_mono_pos_r with n; lia).
  assert ((y + 1) * n <= x * n) by (apply N.mul_le_mono_r; lia).
  rewrite N.mul_add_distr_r in *. lia.
Qed.

Lemma align_spec n s s' : p_skip_align n s = (POk tt, s') ->
  pstk s' = pstk s /\ same_mode (pcur s) (pcur s') /\ pos_of (pcur s') mod n = 0 /\
  pos_of (pcur s) <= pos_of (pcur s') /\
  forall m, pos_of (pcur s) <= m -> m mod n = 0 -> pos_of (pcur s') <= m.
Proof.
  unfold p_skip_align. destruct (N.eqb_spec n 0) as [|Hn]; [discriminate|].
  assert (forall d, p_advance_by d s = (POk tt, s') -> exists a, increment_by (pcur s) d = Val a /\ s' = set_cur s a) as P.
  { intros d. unfold p_advance_by. destruct (try_increment d s) as [r k] eqn:E. apply try_increment_cases in E.
    destruct r; try discriminate. destruct E as (_ & b & E & _ & ->). intros [= <-]. eauto. }
  destruct (pcur s) as [k|st k] eqn:C; cbn [increment_by] in P.
  - destruct (N.eqb_spec (k mod n) 0) as [Z|Z].
    + cbn [obind delta checked_delta is_bit_mode as_bytes fst]. rewrite N.leb_refl. intros E.
      destruct (P _ E) as (a & Ea & ->). replace (k + (k - k)) with k in Ea by lia.
      destruct (k <? w64); [|discriminate]. injection Ea as <-. cbn. repeat split; auto; lia.
    + destruct (next_multiple k n Hn Z) as (M1 & M2).
      destruct (N.ltb_spec ((k / n + 1) * n) w64); [|discriminate].
      revert M1 M2 H. generalize ((k / n + 1) * n). intros a M1 M2 Hw.
      cbn [obind delta checked_delta is_bit_mode as_bytes fst]. destruct (N.leb_spec k a); [|lia]. intros E.
      destruct (P _ E) as (o & Ea & ->). replace (k + (a - k)) with a in Ea by lia.
      destruct (a <? w64); [|discriminate]. injection Ea as <-. cbn.
      split; [reflexivity|]. split; [auto|]. split; [exact M1|]. split; [lia|].
      apply (least_multiple n k a); auto; lia.
  - destruct (N.eqb_spec (k mod n) 0) as [Z|Z].
    + cbn [obind delta checked_delta is_bit_mode abs_bit_offset]. rewrite N.leb_refl. intros E.
      destruct (P _ E) as (a & Ea & ->). rewrite N.sub_diag, N.add_0_r in Ea.
      destruct (k <? w64); [|discriminate]. injection Ea as <-. cbn. repeat split; auto; lia.
    + destruct (next_multiple k n Hn Z) as (M1 & M2).
      destruct (N.ltb_spec ((k / n + 1) * n) w64); [|discriminate].
      revert M1 M2 H. generalize ((k / n + 1) * n). intros a M1 M2 Hw.
      cbn [obind delta checked_delta is_bit_mode abs_bit_offset]. destruct (N.leb_spec (st * 8 + k) (st * 8 + a)); [|lia]. intros E.
      destruct (P _ E) as (o & Ea & ->). replace (k + (st * 8 + a - (st * 8 + k))) with a in Ea by lia.
      destruct (a <? w64); [|discriminate]. injection Ea as <-. cbn.
      split; [reflexivity|]. split; [auto|]. split; [exact M1|]. split; [lia|].
      apply (least_multiple n k a); auto; lia.
Qed.

(** The interpreter's amount (decoder.rs:1198 [skip]), in Rust [usize] arithmetic
    [(n - (offset % n)) % n]. *)
Definition interp_skip (n offset : N) : N := (n - offset mod n) mod n.

Lemma interp_skip_spec n k : n <> 0 ->
  (k + interp_skip n k) mod n = 0 /\ interp_skip n k < n.
Proof.
  intros Hn. unfold interp_skip. pose proof (N.mod_lt k n Hn) as Hlt. split; [|apply N.mod_lt; exact Hn].
  rewrite N.add_mod_idemp_r by exact Hn. rewrite (N.div_mod k n Hn) at 1.
  revert Hlt. generalize (k mod n) (k / n). intros r q Hlt.
  replace (n * q + r + (n - r)) with ((q + 1) * n) by (rewrite N.mul_add_distr_r, (N.mul_comm n q); lia).
  apply N.mod_mul; exact Hn.
Qed.

Lemma align_agrees n k a : n <> 0 -> k <= a -> a mod n = 0 ->
  (forall m, k <= m -> m mod n = 0 -> a <= m) -> a = k + interp_skip n k.
Proof.
  intros Hn Hk Ha Hl. destruct (interp_skip_spec n k Hn) as [S1 S2].
  pose proof (Hl _ (N.le_add_r _ _) S1) as H1.
  apply N.le_antisymm; [exact H1|].
  destruct (N.le_gt_cases (k + interp_skip n k) a); [assumption|exfalso].
  assert (k + interp_skip n k <= a) by (apply (least_multiple n k (k + interp_skip n k)); auto; lia). lia.
Qed.
