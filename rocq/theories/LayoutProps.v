(** C71, C72 and C73: what the code generator works out about the types it declares. *)
From Coq Require Import String.
From Verif Require Import Base LayoutModel LayoutSpec LayoutProofs LayoutMemo LayoutTotal.
Open Scope nat_scope.
Open Scope string_scope.

Lemma nth_related {A B} (R : A -> B -> Prop) l m :
  Forall2 R l m ->
  forall ix b, nth_error m ix = Some b -> exists a, nth_error l ix = Some a /\ R a b.
Proof.
  induction 1 as [|x y l m H _ IH]; intros [|ix] b Hb; try discriminate.
  - injection Hb as <-. exists x. split; [reflexivity|exact H].
  - apply IH. exact Hb.
Qed.

(** ** C71: which types are [Copy], and how values are taken out of places *)

(** Whatever was asked before, a declared type is answered to be [Copy] exactly when Rust's
    rule makes it so. *)
Theorem C71_copy defs c fuel ix r c' :
  reachable defs c -> answer fuel defs (QCopy ix) c = Ans r c' ->
  exists b, r = AFlag b /\ (b = true <-> copyable defs (YLocal ix)).
Proof.
  intros Hc E. pose proof (answer_good defs fuel (QCopy ix) c (reachable_inv _ _ Hc)) as H.
  rewrite E in H. destruct H as [_ H]. destruct r; try contradiction. eauto.
Qed.
Print Assumptions C71_copy.

(** And it is answered, when the type is one a value can have. *)
Theorem C71_copy_total defs ix :
  structural defs (YLocal ix) ->
  exists n, forall fuel c, n <= fuel -> reachable defs c ->
    exists r c', answer fuel defs (QCopy ix) c = Ans r c'.
Proof.
  intros Hs. destruct (structural_done defs _ Hs) as [n Hn]. exists n. intros fuel c Hf Hc.
  destruct (d_copy _ _ _ (Hn fuel Hf) c (reachable_inv _ _ Hc)) as (b & c' & E).
  cbn [copy_type] in E. cbn [answer]. unfold bind. rewrite E. cbn. eauto.
Qed.
Print Assumptions C71_copy_total.

(** The [derive]s of the generated file: a type is declared [Copy] exactly when all its
    parts, declared types among them, are. *)
Theorem C71_derive defs fuel flags c' :
  derives fuel defs fresh = Ans flags c' ->
  length flags = length defs /\
  forall ix b, nth_error flags ix = Some b -> b = true <-> copyable defs (YLocal ix).
Proof.
  intros E.
  pose proof (good_map defs (copy_def (get_copy fuel defs))
                (fun d b => b = true <-> Forall (copyable defs) (parts d)) defs) as G.
  assert (HF : Forall (fun d => good defs (copy_def (get_copy fuel defs) d)
                (fun b => b = true <-> Forall (copyable defs) (parts d))) defs).
  { apply Forall_forall. intros d _. apply copy_def_good, get_copy_good. }
  specialize (G HF fresh (inv_fresh defs)). unfold derives in E. rewrite E in G.
  destruct G as [_ G]. split.
  - clear - G. induction G; cbn; congruence.
  - intros ix b Hb.
    assert (exists d, nth_error defs ix = Some d /\
              (b = true <-> Forall (copyable defs) (parts d))) as (d & Hd & ->).
    { exact (nth_related _ _ _ G ix b Hb). }
    symmetry. apply copyable_local. exact Hd.
Qed.
Print Assumptions C71_derive.

Theorem C71_derive_total defs :
  (forall ix, ix < length defs -> structural defs (YLocal ix)) ->
  exists n, forall fuel, n <= fuel -> exists flags c', derives fuel defs fresh = Ans flags c'.
Proof.
  intros Hs.
  assert (exists n, forall fuel, n <= fuel ->
            Forall (fun d => ends defs (copy_def (get_copy fuel defs) d)) defs) as [n Hn].
  { assert (H : forall ds, incl ds defs -> exists n, forall fuel, n <= fuel ->
      Forall (fun d => ends defs (copy_def (get_copy fuel defs) d)) ds).
    { induction ds as [|d ds IH]; intros Hi; [exists 0; constructor|].
      destruct IH as [n Hn]; [intros x Hx; apply Hi; right; exact Hx|].
      assert (Hd : In d defs) by (apply Hi; left; reflexivity).
      apply In_nth_error in Hd as [ix Hd].
      assert (Hst : structural defs (YLocal ix)).
      { apply Hs. apply nth_error_Some. congruence. }
      inversion Hst as [| | | | | |? d' Hd' Hp| | |]; subst.
      assert (d' = d) by congruence. subst.
      assert (exists m, forall fuel, m <= fuel -> Forall (done defs fuel) (parts d)) as [m Hm].
      { clear - Hp. induction Hp as [|t ts Ht _ [m IH]]; [exists 0; constructor|].
        destruct (structural_done defs _ Ht) as [k Hk]. exists (Nat.max k m).
        intros fuel Hf. constructor; [apply Hk; lia|apply IH; lia]. }
      exists (Nat.max n m). intros fuel Hf. constructor.
      - apply def_done. apply Hm. lia.
      - apply Hn. lia. }
    apply H. intros x Hx. exact Hx. }
  exists n. intros fuel Hf.
  apply (ends_map defs _ (fun d b => b = true <-> Forall (copyable defs) (parts d)) defs
           (Hn fuel Hf)); [|apply inv_fresh].
  apply Forall_forall. intros d _. apply copy_def_good, get_copy_good.
Qed.
Print Assumptions C71_derive_total.

(** No answer depends on what was asked before. *)
Theorem C71_history defs c1 c2 fuel1 fuel2 q r1 r2 c1' c2' :
  reachable defs c1 -> reachable defs c2 ->
  answer fuel1 defs q c1 = Ans r1 c1' -> answer fuel2 defs q c2 = Ans r2 c2' ->
  (forall ix, q <> QWidth ix) -> r1 = r2.
Proof.
  intros H1 H2 E1 E2 Hq.
  pose proof (answer_good defs fuel1 q c1 (reachable_inv _ _ H1)) as G1.
  pose proof (answer_good defs fuel2 q c2 (reachable_inv _ _ H2)) as G2.
  rewrite E1 in G1. rewrite E2 in G2. destruct G1 as [_ G1], G2 as [_ G2].
  destruct q, r1, r2; try contradiction; cbn in G1, G2; f_equal.
  - destruct b, b0; try reflexivity; exfalso.
    + assert (false = true) by (apply G2, G1; reflexivity). discriminate.
    + assert (false = true) by (apply G1, G2; reflexivity). discriminate.
  - eapply spare_det; eassumption.
  - eapply sized_det; eassumption.
  - destruct (Hq ix). reflexivity.
  - eapply aligned_det; eassumption.
Qed.
Print Assumptions C71_history.

(** Taking out a value: it is copied in place only if it is [Copy] and not a reference; it is
    dereferenced only if it is a reference to a [Copy] value. *)
Theorem C71_resolve defs fuel l t c k c' :
  reachable defs c -> holds defs l t -> shared t = true ->
  resolve fuel defs l c = Ans k c' ->
  match k with
  | Copied => copyable defs t /\ forall b u, t <> YBorrow b u
  | Deref => exists u, t = YBorrow false u /\ copyable defs u
  | Cloned => True
  end.
Proof.
  intros Hc Hl Hs E. apply expand_holds in Hl. unfold resolve in E. rewrite Hl in E.
  pose proof (solve_shared defs _ t (get_copy_good defs fuel) Hs c (reachable_inv _ _ Hc)) as G.
  unfold bind in E. destruct (solve_type _ t c) as [s c1| |]; try discriminate.
  destruct G as [_ [G1 G2]]. unfold ret in E. injection E as <- _.
  destruct s as [b r]. cbn [fst snd] in *. destruct b; [|exact I]. destruct r.
  - destruct G2 as [G2 _]. destruct (G2 eq_refl) as [u ->]. exists u. split; [reflexivity|].
    destruct (G1 eq_refl) as [_ G]. eapply G. reflexivity.
  - destruct (G1 eq_refl) as [G _]. split; [exact G|]. intros b u ->.
    destruct b; [discriminate|]. destruct G2 as [_ G2].
    assert (false = true) by (apply G2; eauto). discriminate.
Qed.
Print Assumptions C71_resolve.

(** And it is cloned only if need be: a value with no references in it is copied exactly when
    it is [Copy], and one behind a reference dereferenced exactly when it is. *)
Theorem C71_resolve_owned defs fuel l t c k c' :
  reachable defs c -> holds defs l t -> owned_type t = true ->
  resolve fuel defs l c = Ans k c' ->
  (k = Copied <-> copyable defs t) /\ (k = Cloned <-> ~ copyable defs t).
Proof.
  intros Hc Hl Hs E. apply expand_holds in Hl. unfold resolve in E. rewrite Hl in E.
  pose proof (solve_owned defs _ t (get_copy_good defs fuel) Hs c (reachable_inv _ _ Hc)) as G.
  unfold bind in E. destruct (solve_type _ t c) as [s c1| |]; try discriminate.
  destruct G as [_ [G1 G2]]. unfold ret in E. injection E as <- _.
  destruct s as [b r]. cbn [fst snd] in *. subst r. destruct b.
  - assert (copyable defs t) by (apply G1; reflexivity).
    split; split; auto; try discriminate. intros H'. contradiction.
  - assert (~ copyable defs t) by (intros H; apply G1 in H; discriminate).
    split; split; auto; try discriminate. intros H'. contradiction.
Qed.
Print Assumptions C71_resolve_owned.
Theorem C71_resolve_borrowed defs fuel l u c k c' :
  reachable defs c -> holds defs l (YBorrow false u) -> owned_type u = true ->
  resolve fuel defs l c = Ans k c' ->
  (k = Deref <-> copyable defs u) /\ (k = Cloned <-> ~ copyable defs u).
Proof.
  intros Hc Hl Hs E. apply expand_holds in Hl. unfold resolve in E. rewrite Hl in E.
  cbn [solve_type] in E.
  pose proof (solve_owned defs _ u (get_copy_good defs fuel) Hs c (reachable_inv _ _ Hc)) as G.
  unfold bind in E. destruct (solve_type _ u c) as [s c1| |]; try discriminate.
  destruct G as [_ [G1 G2]]. unfold ret in E. cbn [fst snd] in E. injection E as <- _.
  destruct s as [b r]. cbn [fst snd] in *. destruct b.
  - assert (copyable defs u) by (apply G1; reflexivity).
    split; split; auto; try discriminate. intros H'. contradiction.
  - assert (~ copyable defs u) by (intros H; apply G1 in H; discriminate).
    split; split; auto; try discriminate. intros H'. contradiction.
Qed.
Print Assumptions C71_resolve_borrowed.
Theorem C71_resolve_total defs l t :
  holds defs l t -> structural defs t -> owned_type t = true ->
  exists n, forall fuel c, n <= fuel -> reachable defs c ->
    exists k c', resolve fuel defs l c = Ans k c'.
Proof.
  intros Hl Hs Ho. destruct (solve_ends defs t Hs) as [n Hn]. exists n. intros fuel c Hf Hc.
  apply expand_holds in Hl. unfold resolve. rewrite Hl.
  destruct (Hn fuel Hf Ho c (reachable_inv _ _ Hc)) as (s & c' & E).
  unfold bind. rewrite E. cbn. eauto.
Qed.
Print Assumptions C71_resolve_total.

(** Some declarations: [struct Pair { a: u8, b: u32 }], [struct Header<'a> { pair: Pair,
    name: &'a [u8], note: Option<char> }], [enum Body { Empty, Small(Pair), Large(Vec<u8>, bool) }]
    and [struct File { header: Header, body: Body }] *)
Definition u8t := YPrim (QUnsigned M8).
Definition u32t := YPrim (QUnsigned M32).
Definition ex_defs : list rdef :=
  [RStruct [("a", u8t); ("b", u32t)];
   RStruct [("pair", YLocal 0); ("name", YBorrow false (YRawSlice u8t));
            ("note", YOption (YPrim QChar))];
   REnum [XUnit; XTuple [YLocal 0]; XTuple [YVec u8t; YPrim QBool]];
   RStruct [("header", YLocal 1); ("body", YLocal 2)]].
Definition flags_of {A} (a : ans A) : option A :=
  match a with Ans x _ => Some x | _ => None end.

Example C71_nonvacuous :
  flags_of (derives 4 ex_defs fresh) = Some [true; true; false; false] /\
  (forall ix, ix < 4 -> structural ex_defs (YLocal ix)) /\
  copyable ex_defs (YLocal 1) /\ ~ copyable ex_defs (YLocal 3) /\
  flags_of (answers 4 ex_defs [QSize 3; QCopy 3; QCopy 2; QAlign 1; QCopy 1] fresh)
    = Some [ANumber 64; AFlag false; AFlag false; ANumber 8; AFlag true].
Proof.
  assert (H0 : structural ex_defs (YLocal 0))
    by (eapply st_local; [reflexivity|]; repeat constructor).
  assert (H1 : structural ex_defs (YLocal 1)).
  { eapply st_local; [reflexivity|]. cbn. constructor; [exact H0|]. repeat constructor. }
  assert (H2 : structural ex_defs (YLocal 2)).
  { eapply st_local; [reflexivity|]. cbn. constructor; [exact H0|]. repeat constructor. }
  refine (conj eq_refl (conj _ (conj _ (conj _ eq_refl)))).
  - intros [|[|[|[|ix]]]] Hix; auto; [|lia].
    eapply st_local; [reflexivity|]. cbn. repeat constructor; assumption.
  - eapply cp_local; [reflexivity|]. cbn. constructor; [|repeat constructor].
    eapply cp_local; [reflexivity|]. cbn. repeat constructor.
  - intros H. inversion H as [| | | | | |? d Hd Hp| | |]; subst. injection Hd as <-.
    cbn in Hp. inversion Hp as [|? ? _ Hp']; subst. inversion Hp' as [|? ? Hb _]; subst.
    inversion Hb as [| | | | | |? d Hd' Hq| | |]; subst. injection Hd' as <-. cbn in Hq.
    inversion Hq as [|? ? _ Hq']; subst. inversion Hq' as [|? ? Hv _]; subst. inversion Hv.
Qed.
(** the place [x.header.pair], [x] a [File], [y.note] and [*y] behind a reference to a
    [Header], and an element of a vector of files *)
Definition ex_place := LField "pair" (LField "header" (LGround (YLocal 3))).
Example C71_resolve_nonvacuous :
  holds ex_defs ex_place (YLocal 0) /\
  flags_of (resolve 4 ex_defs ex_place fresh) = Some Copied /\
  flags_of (resolve 4 ex_defs (LField "body" (LGround (YLocal 3))) fresh) = Some Cloned /\
  flags_of (resolve 4 ex_defs
    (LParam (LField "note" (LGround (YBorrow false (YLocal 1))))) fresh) = Some Copied /\
  flags_of (resolve 4 ex_defs (LGround (YBorrow false (YLocal 1))) fresh) = Some Deref /\
  flags_of (resolve 4 ex_defs (LElem (LGround (YBorrow false (YVec (YLocal 3))))) fresh)
    = Some Cloned.
Proof.
  split; [|repeat split].
  eapply (hd_field ex_defs _ (YLocal 1) 1 _ "pair" (YLocal 0) []);
    [|constructor|reflexivity|reflexivity|intros []].
  eapply (hd_field ex_defs _ (YLocal 3) 3 _ "header" (YLocal 1) []);
    [constructor|constructor|reflexivity|reflexivity|intros []].
Qed.

(** A result is taken to be [Copy] when its value is, whatever its error is. *)
Theorem C71_result_refuted :
  exists defs fuel l t c',
    holds defs l t /\ resolve fuel defs l fresh = Ans Copied c' /\ ~ copyable defs t.
Proof.
  exists [], 1, (LGround (YResult u8t (YVec u8t))), (YResult u8t (YVec u8t)), fresh.
  split; [constructor|]. split; [reflexivity|]. intros H. inversion H; subst.
  match goal with H : copyable _ (YVec _) |- _ => inversion H end.
Qed.
Print Assumptions C71_result_refuted.

(** A type that contains itself other than in a vector is analysed for ever. *)
Theorem C71_recursive_refuted :
  forall fuel, answer fuel [RStruct [("next", YOption (YLocal 0))]] (QCopy 0) fresh = Unfinished.
Proof.
  assert (H : forall fuel,
    get_copy fuel [RStruct [("next", YOption (YLocal 0))]] 0 fresh = Unfinished).
  { induction fuel as [|fuel IH]; [reflexivity|]. cbn. cbn in IH. unfold bind.
    cbn [get_copy] in *. rewrite IH. reflexivity. }
  intros fuel. cbn [answer]. unfold bind. rewrite H. reflexivity.
Qed.
Print Assumptions C71_recursive_refuted.

(** ** C72: sizes and alignments *)

(** Rounding up to a power of two *)
Theorem C72_aligned_size size k :
  let a := (2 ^ k)%N in
  N.divide a (aligned_size size a) /\ (size <= aligned_size size a)%N /\
  forall z, N.divide a z -> (size <= z)%N -> (aligned_size size a <= z)%N.
Proof. intros a. apply aligned_size_least. exists k. reflexivity. Qed.
Print Assumptions C72_aligned_size.

(** The alignment answered is the largest of the parts' *)
Theorem C72_align defs c fuel ix r c' :
  reachable defs c -> answer fuel defs (QAlign ix) c = Ans r c' ->
  exists a, r = ANumber a /\ aligned defs (YLocal ix) a /\ (a = 1 \/ a = 2 \/ a = 4 \/ a = 8)%N.
Proof.
  intros Hc E. pose proof (answer_good defs fuel (QAlign ix) c (reachable_inv _ _ Hc)) as H.
  rewrite E in H. destruct H as [_ H]. destruct r; try contradiction.
  exists n. split; [reflexivity|]. split; [exact H|]. eapply aligned_cases. exact H.
Qed.
Print Assumptions C72_align.

(** The size answered is the size of the type: of a struct, the least number of bytes its
    fields can be laid out in, in any order. *)
Theorem C72_size defs c fuel ix r c' :
  reachable defs c -> answer fuel defs (QSize ix) c = Ans r c' ->
  exists s, r = ANumber s /\ sized defs (YLocal ix) s /\
            forall a, aligned defs (YLocal ix) a -> N.divide a s.
Proof.
  intros Hc E. pose proof (answer_good defs fuel (QSize ix) c (reachable_inv _ _ Hc)) as H.
  rewrite E in H. destruct H as [_ H]. destruct r; try contradiction.
  exists n. split; [reflexivity|]. split; [exact H|]. eapply sized_divide. exact H.
Qed.
Print Assumptions C72_size.

(** There is one size and one alignment of a type. *)
Theorem C72_unique defs t s s' a a' :
  (sized defs t s -> sized defs t s' -> s = s') /\
  (aligned defs t a -> aligned defs t a' -> a = a').
Proof. split; intros; [eapply sized_det|eapply aligned_det]; eassumption. Qed.
Print Assumptions C72_unique.

Theorem C72_niches defs c fuel ix r c' :
  reachable defs c -> answer fuel defs (QNiches ix) c = Ans r c' ->
  exists n, r = ANumber n /\ spare defs (YLocal ix) n.
Proof.
  intros Hc E. pose proof (answer_good defs fuel (QNiches ix) c (reachable_inv _ _ Hc)) as H.
  rewrite E in H. destruct H as [_ H]. destruct r; try contradiction. eauto.
Qed.
Print Assumptions C72_niches.

Theorem C72_total defs ix :
  structural defs (YLocal ix) ->
  exists n, forall fuel c, n <= fuel -> reachable defs c ->
    (exists r c', answer fuel defs (QSize ix) c = Ans r c') /\
    (exists r c', answer fuel defs (QAlign ix) c = Ans r c') /\
    (exists r c', answer fuel defs (QNiches ix) c = Ans r c').
Proof.
  intros Hs. destruct (structural_done defs _ Hs) as [n Hn]. exists n. intros fuel c Hf Hc.
  pose proof (Hn fuel Hf) as D. pose proof (reachable_inv _ _ Hc) as Hi.
  destruct (d_size _ _ _ D c Hi) as (s & c1 & E1). destruct (d_align _ _ _ D c Hi) as (a & c2 & E2).
  destruct (d_niches _ _ _ D c Hi) as (k & c3 & E3).
  cbn [size_type align_type niches_type] in *. cbn [answer]. unfold bind. rewrite E1, E2, E3.
  unfold ret. split; [|split]; do 2 eexists; reflexivity.
Qed.
Print Assumptions C72_total.

Example C72_nonvacuous :
  flags_of (answers 4 ex_defs [QSize 0; QAlign 0; QSize 1; QSize 2; QAlign 2; QNiches 0; QSize 3]
              fresh)
    = Some [ANumber 8; ANumber 4; ANumber 24; ANumber 40; ANumber 8; ANumber 0; ANumber 64] /\
  least_layout [(1, 1); (4, 4)]%N 4 8.
Proof.
  split; [vm_compute; reflexivity|].
  refine (parts_size_least [(1, 1); (4, 4)]%N 4 _ _).
  - repeat constructor; cbn; [exists 0%N|exists 1%N|exists 2%N|exists 1%N]; reflexivity.
  - apply (max1_largest [1; 4]%N).
Qed.

(** The size answered for an enum is not the least possible: the tag of
    [enum E { A(u8, u32) , B }] fits beside its first field. *)
Theorem C72_enum_size_refuted :
  exists defs s slots,
    flags_of (answer 2 defs (QSize 0) fresh) = Some (ANumber s) /\
    defs = [REnum [XTuple [u8t; u32t]; XUnit]] /\
    map snd slots = [(1, 1); (1, 1); (4, 4)]%N /\ laid_out slots 8 4 /\ (8 < s)%N.
Proof.
  exists [REnum [XTuple [u8t; u32t]; XUnit]], 12%N, [(0, (1, 1)); (1, (1, 1)); (4, (4, 4))]%N.
  split; [reflexivity|]. split; [reflexivity|]. split; [reflexivity|]. split; [|reflexivity].
  split; [|split].
  - intros o s a H. cbn in H. destruct H as [H | [H | [H | []]]]; injection H as <- <- <-.
    + split; [exists 0%N; reflexivity|]. split; [discriminate|exists 4%N; reflexivity].
    + split; [exists 1%N; reflexivity|]. split; [discriminate|exists 4%N; reflexivity].
    + split; [exists 1%N; reflexivity|]. split; [discriminate|exists 1%N; reflexivity].
  - repeat (first [apply FOP_nil|apply FOP_cons|apply Forall_nil|apply Forall_cons]);
      left; vm_compute; discriminate.
  - exists 2%N. reflexivity.
Qed.
Print Assumptions C72_enum_size_refuted.

(** More niches are counted for a [char] than there are 32-bit numbers that are not Unicode
    scalar values. *)
Theorem C72_char_niches_refuted :
  let scalar_values := (0xD800 + (0x110000 - 0xE000))%N in
  (2 ^ 32 - scalar_values < prim_niches QChar)%N.
Proof. reflexivity. Qed.
Print Assumptions C72_char_niches_refuted.

(** No niche is counted for an enum without contents, though its one byte has only as many
    values as it has variants: an [Option] of it is answered to be larger than it. *)
Theorem C72_plain_enum_refuted :
  flags_of (answers 3 [REnum [XUnit; XUnit]; RStruct [("x", YOption (YLocal 0))]]
              [QSize 0; QNiches 0; QSize 1] fresh) = Some [ANumber 1; ANumber 0; ANumber 2].
Proof. reflexivity. Qed.
Print Assumptions C72_plain_enum_refuted.

(** ** C73: read widths *)

(** A width is answered exactly when it is the only number of bytes a value can be read
    from. *)
Theorem C73_width defs c fuel ix r c' :
  reachable defs c -> answer fuel defs (QWidth ix) c = Ans r c' ->
  exists w, r = AWidth w /\
    forall n, as_fixed w = Some n <-> (forall m, takes defs (YLocal ix) m <-> m = n).
Proof.
  intros Hc E. pose proof (answer_good defs fuel (QWidth ix) c (reachable_inv _ _ Hc)) as H.
  rewrite E in H. destruct H as [_ H]. destruct r; try contradiction.
  exists w. split; [reflexivity|]. cbn in H. intros n. destruct w as [d | k]; cbn in *.
  - split; [discriminate|]. intros Hn. destruct H as (x & y & Hd & H1 & H2).
    apply Hn in H1. apply Hn in H2. congruence.
  - split.
    + intros E'. injection E' as <-. exact H.
    + intros Hn. f_equal. apply Hn. apply H. reflexivity.
Qed.
Print Assumptions C73_width.

Theorem C73_total defs ix :
  structural defs (YLocal ix) -> (forall jx, nth_error defs jx <> Some (REnum [])) ->
  exists n, forall fuel c, n <= fuel -> reachable defs c ->
    exists r c', answer fuel defs (QWidth ix) c = Ans r c'.
Proof.
  intros Hs Hi. destruct (structural_done defs _ Hs) as [n Hn]. exists n. intros fuel c Hf Hc.
  destruct (d_width _ _ _ (Hn fuel Hf) Hi c (reachable_inv _ _ Hc)) as (w & c' & E).
  cbn [width_type] in E. cbn [answer]. unfold bind. rewrite E. cbn. eauto.
Qed.
Print Assumptions C73_total.

(** [struct Pair], an enum whose variants are all eight bytes, and one whose are not *)
Definition ex_widths : list rdef :=
  [RStruct [("a", u8t); ("b", u32t)];
   REnum [XTuple [YPrim (QUnsigned M64)];
          XTuple [YLocal 0; YSigned M16; u8t; YPhantom (YVec u8t)]];
   REnum [XTuple [YLocal 0]; XUnit]].
Example C73_nonvacuous :
  flags_of (answers 3 ex_widths [QWidth 1; QWidth 0; QWidth 2; QWidth 1] fresh)
    = Some [AWidth (Fixed 8); AWidth (Fixed 5); AWidth (Varying true); AWidth (Fixed 8)] /\
  takes ex_widths (YLocal 2) 5 /\ takes ex_widths (YLocal 2) 0.
Proof.
  split; [reflexivity|]. split.
  - eapply tk_enum; [reflexivity|left; reflexivity|]. cbn.
    refine (tks_cons ex_widths _ _ 5%N 0%N _ (tks_nil _)).
    eapply tk_struct; [reflexivity|]. cbn.
    refine (tks_cons ex_widths _ _ 1%N 4%N (tk_unsigned _ M8) _).
    refine (tks_cons ex_widths _ _ 4%N 0%N (tk_unsigned _ M32) (tks_nil _)).
  - eapply tk_enum; [reflexivity|right; left; reflexivity|]. constructor.
Qed.

(** The width of an enum without variants is not answered: the program panics. *)
Theorem C73_empty_enum_refuted :
  answer 1 [REnum []] (QWidth 0) fresh = Panics.
Proof. reflexivity. Qed.
Print Assumptions C73_empty_enum_refuted.
