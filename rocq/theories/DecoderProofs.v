(** Lemmas about the decoding interpreter alone, for arbitrary decoder programs. *)
From Verif Require ByteSetModel HuffmanModel.
From Verif Require Import Base BoundsModel DataModel NumericModel ValueModel FormatModel MatchTreeModel DecoderModel.
Open Scope nat_scope.

(** ** More fuel changes nothing *)

Definition rle {A} (r r' : dres A) : Prop := r = RFuel \/ r = r'.
Lemma rle_refl {A} (r : dres A) : rle r r. Proof. now right. Qed.
Lemma rle_fuel {A} (r : dres A) : rle RFuel r. Proof. now left. Qed.
Lemma rbind_le {A B} (r r' : dres A) (k k' : A -> rctx -> dres B) :
  rle r r' -> (forall a c, rle (k a c) (k' a c)) -> rle (rbind r k) (rbind r' k').
Proof.
  intros [->| ->] Hk; [now left|]. destruct r' as [a c es| | |]; try apply rle_refl. cbn.
  destruct (Hk a c) as [->| ->]; [now left|now right].
Qed.
Lemma rmap_le {A B} (f : A -> B) r r' : rle r r' -> rle (rmap f r) (rmap f r').
Proof. intros [->| ->]; [now left|now right]. Qed.
Lemma rback_le {A} c (r r' : dres A) : rle r r' -> rle (rback c r) (rback c r').
Proof. intros [->| ->]; [now left|now right]. Qed.
Lemma rlet_le {A B} (x : outcome A) (k k' : A -> dres B) : (forall a, rle (k a) (k' a)) -> rle (rlet x k) (rlet x k').
Proof. intros H. destruct x; cbn; [apply H|apply rle_refl]. Qed.
Lemma with_view_le {D A} (s : scope D) v (k k' : rctx -> dres A) :
  (forall c, rle (k c) (k' c)) -> rle (with_view s v k) (with_view s v k').
Proof. intros H. apply rlet_le. intros [c|e]; [apply H|apply rle_refl]. Qed.

Section LoopsMono.
Context {Sc Dc : Type} (p q : Sc -> Dc -> rctx -> dres value).
Context (Hpq : forall s d c, rle (p s d c) (q s d c)).
Lemma pseq_le l : forall c, rle (pseq p l c) (pseq q l c).
Proof.
  induction l as [|[s d] l IH]; intros c; [apply rle_refl|]. cbn [pseq].
  apply rbind_le; [apply Hpq|]. intros. apply rmap_le, IH.
Qed.
Lemma ppar_le s ds c : forall i, rle (ppar p i s ds c) (ppar q i s ds c).
Proof.
  induction ds as [|d ds IH]; intros i; [apply rle_refl|]. cbn [ppar].
  destruct (Hpq s d c) as [->| ->]; [now left|].
  destruct (q s d c); try apply rle_refl. apply IH.
Qed.
Context (s : Sc) (d : Dc) (t : mtree).
Lemma pwhile_le n : forall m c, n <= m -> rle (pwhile p s d t n c) (pwhile q s d t m c).
Proof.
  induction n as [|n IH]; intros m c Hm; [apply rle_fuel|]. destruct m as [|m]; [lia|]. cbn [pwhile].
  destruct (tree_matches t c) as [[|k]|]; try apply rle_refl.
  apply rbind_le; [apply Hpq|]. intros. apply rmap_le, IH. lia.
Qed.
Lemma puntil_le n : forall m c, n <= m -> rle (puntil p s d t n c) (puntil q s d t m c).
Proof.
  induction n as [|n IH]; intros m c Hm; [apply rle_fuel|]. destruct m as [|m]; [lia|]. cbn [puntil].
  apply rbind_le; [apply Hpq|]. intros v c'. destruct (tree_matches t c') as [[|k]|]; try apply rle_refl.
  apply rmap_le, IH. lia.
Qed.
Lemma pbetween_le mn mx c0 n : forall len m c, n <= m -> rle (pbetween p s d t mn mx c0 len n c) (pbetween q s d t mn mx c0 len m c).
Proof.
  induction n as [|n IH]; intros len m c Hm; [apply rle_fuel|]. destruct m as [|m]; [lia|]. cbn [pbetween].
  destruct (tree_matches t c0) as [k|]; try apply rle_refl.
  destruct (Nat.eqb k 0 || N.eqb (N.of_nat len) mx); [apply rle_refl|].
  apply rbind_le; [apply Hpq|]. intros. apply rmap_le, IH. lia.
Qed.
Lemma puntil_done_le stop n : forall acc m c, n <= m -> rle (puntil_done p s d stop acc n c) (puntil_done q s d stop acc m c).
Proof.
  induction n as [|n IH]; intros acc m c Hm; [apply rle_fuel|]. destruct m as [|m]; [lia|]. cbn [puntil_done].
  apply rbind_le; [apply Hpq|]. intros v c'. apply rlet_le. intros [|]; [apply rle_refl|]. apply IH. lia.
Qed.
Lemma paccum_le stop upd n : forall acc vs m c, n <= m -> rle (paccum p s d stop upd acc vs n c) (paccum q s d stop upd acc vs m c).
Proof.
  induction n as [|n IH]; intros acc vs m c Hm; [apply rle_fuel|]. destruct m as [|m]; [lia|]. cbn [paccum].
  apply rlet_le. intros [|]; [apply rle_refl|].
  apply rbind_le; [apply Hpq|]. intros v c'. apply rlet_le. intros acc'. apply IH. lia.
Qed.
End LoopsMono.

Section Parse.
Context (bld : fmodule -> list format -> next -> outcome (option mtree)) (P : program).
Notation parse := (parse bld P).

Lemma parse_le n : forall m s d c, n <= m -> rle (parse n s d c) (parse m s d c).
Proof.
  induction n as [|n IH]; intros m s d c Hm; [apply rle_fuel|]. destruct m as [|m]; [lia|].
  assert (Hp : forall s d c, rle (parse n s d c) (parse m s d c)) by (intros; apply IH; lia).
  assert (Hn : n <= m) by lia.
  cbn [DecoderModel.parse]. destruct d; try apply rle_refl;
    try (apply rmap_le; apply Hp); try (apply rback_le; apply Hp).
  - apply rlet_le. intros [s'|e]; [|apply rle_refl]. destruct (nth_error P n0); [apply Hp|apply rle_refl].
  - now apply ppar_le.
  - destruct (tree_matches t c); [|apply rle_refl]. destruct (nth_error ds n0); [|apply rle_refl]. apply rmap_le, Hp.
  - now apply rmap_le, pseq_le.
  - now apply rmap_le, pseq_le.
  - apply rmap_le, pwhile_le; auto.
  - apply rmap_le, puntil_le; auto.
  - apply rlet_le. intros k. now apply rmap_le, pseq_le.
  - apply rmap_le, puntil_done_le; auto.
  - apply rmap_le, puntil_done_le; auto.
  - apply rlet_le. intros [|]; [|apply rle_refl]. apply rmap_le, Hp.
  - destruct (Hp s d c) as [->| ->]; [now left|apply rle_refl].
  - apply rlet_le. intros k. apply rlet_le. intros [[sl c']|]; [|apply rle_refl]. apply rback_le, Hp.
  - apply rlet_le. intros rem. apply rbind_le; [apply Hp|]. intros. apply rle_refl.
  - apply rlet_le. intros b. apply rlet_le. intros o. destruct (N.ltb (b + o) w64); [|apply rle_refl].
    destruct (rc_seek_to c (b + o)); [|apply rle_refl]. apply rback_le, Hp.
  - apply rbind_le; [apply Hp|]. intros. apply rle_refl.
  - apply rbind_le; [apply Hp|]. intros. apply rle_refl.
  - apply rlet_le. intros v. apply Hp.
  - apply rlet_le. intros v. destruct (first_match v s 0 bs) as [[[i s'] d']|]; [|apply rle_refl]. apply rmap_le, Hp.
  - apply rlet_le. intros f. destruct (compile_one bld f); [apply Hp|apply rle_refl|apply rle_refl].
  - destruct (get_decoder x s); [apply Hp|apply rle_refl].
  - apply rlet_le. intros mn. apply rlet_le. intros mx. apply rmap_le, pbetween_le; auto.
  - apply rlet_le. intros l. now apply rmap_le, pseq_le.
  - apply rlet_le. intros bytes. apply rbind_le; [apply Hp|]. intros. apply rle_refl.
  - apply with_view_le. intros w. apply rback_le, Hp.
  - apply rbind_le; [apply Hp|]. intros. apply Hp.
  - apply rbind_le; [apply Hp|]. intros. apply Hp.
  - apply rlet_le. intros acc. apply rmap_le, paccum_le; auto.
  - destruct o; [|apply rle_refl]. apply rmap_le, Hp.
  - apply Hp.
  - destruct (Hp s d c) as [->| ->]; [now left|apply rle_refl].
Qed.
Lemma parse_mono n m s d c : n <= m -> parse n s d c <> RFuel -> parse m s d c = parse n s d c.
Proof. intros Hm Hf. destruct (parse_le n m s d c Hm) as [E|E]; [contradiction|now symmetry]. Qed.
Lemma parse_det n m s d c : parse n s d c <> RFuel -> parse m s d c <> RFuel -> parse n s d c = parse m s d c.
Proof.
  intros Hn Hm. destruct (Nat.le_ge_cases n m) as [L|L].
  - symmetry. now apply parse_mono.
  - now apply parse_mono.
Qed.

(** ** C21: the cursor after a success *)

Definition in_range (c : rctx) : Prop := roff c <= length (rinput c).
(** The cursor [c'] is in the same buffer, not before [c] and not past the end. *)
Definition advances (c c' : rctx) : Prop := rinput c' = rinput c /\ roff c <= roff c' /\ roff c' <= length (rinput c).
Definition radv {A} (c : rctx) (r : dres A) : Prop := match r with ROk _ c' _ => advances c c' | _ => True end.

Lemma advances_refl c : in_range c -> advances c c.
Proof. unfold in_range, advances. auto. Qed.
Lemma advances_range c c' : advances c c' -> in_range c'.
Proof. intros (E & _ & H). unfold in_range. now rewrite E. Qed.
Lemma advances_trans a b c : advances a b -> advances b c -> advances a c.
Proof. intros (E & H1 & H2) (E' & H3 & H4). unfold advances. rewrite E in *. rewrite E'. repeat split; auto; lia. Qed.
Lemma radv_trans {A} a b (r : dres A) : advances a b -> radv b r -> radv a r.
Proof. intros H. destruct r; cbn; auto. intros H'. eapply advances_trans; eauto. Qed.
Lemma radv_bind {A B} c (r : dres A) (k : A -> rctx -> dres B) :
  radv c r -> (forall a c', advances c c' -> radv c' (k a c')) -> radv c (rbind r k).
Proof.
  intros Hr Hk. destruct r as [a c' es| | |]; cbn; auto. specialize (Hk a c' Hr).
  destruct (k a c'); cbn; auto. eapply advances_trans; eauto.
Qed.
Lemma radv_bind' {A B} c (r : dres A) (k : A -> rctx -> dres B) : (forall a c', radv c (k a c')) -> radv c (rbind r k).
Proof. intros Hk. destruct r as [a c' es| | |]; cbn; auto. specialize (Hk a c'). destruct (k a c'); auto. Qed.
Lemma radv_map {A B} c (f : A -> B) r : radv c r -> radv c (rmap f r).
Proof. destruct r; auto. Qed.
Lemma radv_back {A} c c' (r : dres A) : advances c c' -> radv c (rback c' r).
Proof. intros H. destruct r; cbn; auto. Qed.
Lemma radv_let {A B} c (x : outcome A) (k : A -> dres B) : (forall a, x = Val a -> radv c (k a)) -> radv c (rlet x k).
Proof. intros H. destruct x; cbn; auto. Qed.
Lemma radv_view {D A} c (s : scope D) v (k : rctx -> dres A) : (forall w, radv c (k w)) -> radv c (with_view s v k).
Proof. intros H. apply radv_let. intros [w|e] _; cbn; auto. Qed.

Lemma read_byte_adv c b c' : rc_read_byte c = Some (b, c') -> advances c c' /\ roff c' = S (roff c) /\ nth_error (rinput c) (roff c) = Some b.
Proof.
  unfold rc_read_byte. destruct (nth_error (rinput c) (roff c)) eqn:E; [|discriminate]. intros [= <- <-].
  assert (roff c < length (rinput c)) by (apply nth_error_Some; congruence).
  repeat split; cbn; lia || reflexivity.
Qed.
Lemma split_at_spec c n sl c' : rc_split_at c n = Val (Some (sl, c')) ->
  c' = RC (rinput c) (roff c + N.to_nat n) /\ sl = RC (firstn (roff c + N.to_nat n) (rinput c)) (roff c) /\
  roff c + N.to_nat n <= length (rinput c).
Proof.
  unfold rc_split_at. destruct (w64 <=? N.of_nat (roff c) + n)%N; [discriminate|].
  destruct (N.leb_spec (N.of_nat (roff c) + n) (N.of_nat (length (rinput c)))); [|discriminate].
  intros [= <- <-]. repeat split; auto. lia.
Qed.
Lemma split_at_adv c n sl c' : rc_split_at c n = Val (Some (sl, c')) -> advances c c'.
Proof. intros H. apply split_at_spec in H as (-> & _ & H). unfold advances; cbn. repeat split; lia. Qed.

Section LoopsAdv.
Context {Sc Dc : Type} (p : Sc -> Dc -> rctx -> dres value).
Context (Hp : forall s d c, in_range c -> radv c (p s d c)).
Lemma pseq_adv l : forall c, in_range c -> radv c (pseq p l c).
Proof.
  induction l as [|[s d] l IH]; intros c Hc; [now apply advances_refl|]. cbn [pseq].
  apply radv_bind; [now apply Hp|]. intros v c' Hc'. apply radv_map, IH. eapply advances_range; eauto.
Qed.
Lemma ppar_adv s ds c : in_range c -> forall i, radv c (ppar p i s ds c).
Proof.
  intros Hc. induction ds as [|d ds IH]; intros i; cbn [ppar]; [exact I|].
  pose proof (Hp s d c Hc) as H. destruct (p s d c); cbn; auto.
Qed.
Context (s : Sc) (d : Dc) (t : mtree).
Lemma pwhile_adv n : forall c, in_range c -> radv c (pwhile p s d t n c).
Proof.
  induction n as [|n IH]; intros c Hc; [exact I|]. cbn [pwhile].
  destruct (tree_matches t c) as [[|k]|]; cbn; auto; [|now apply advances_refl].
  apply radv_bind; [now apply Hp|]. intros v c' Hc'. apply radv_map, IH. eapply advances_range; eauto.
Qed.
Lemma puntil_adv n : forall c, in_range c -> radv c (puntil p s d t n c).
Proof.
  induction n as [|n IH]; intros c Hc; [exact I|]. cbn [puntil].
  apply radv_bind; [now apply Hp|]. intros v c' Hc'. apply advances_range in Hc'.
  destruct (tree_matches t c') as [[|k]|]; cbn; auto; [now apply advances_refl|]. now apply radv_map, IH.
Qed.
Lemma pbetween_adv mn mx c0 n : forall len c, in_range c -> radv c (pbetween p s d t mn mx c0 len n c).
Proof.
  induction n as [|n IH]; intros len c Hc; [exact I|]. cbn [pbetween].
  destruct (tree_matches t c0) as [k|]; cbn; auto.
  destruct (Nat.eqb k 0 || N.eqb (N.of_nat len) mx).
  - destruct (N.ltb (N.of_nat len) mn); cbn; auto. now apply advances_refl.
  - apply radv_bind; [now apply Hp|]. intros v c' Hc'. apply radv_map, IH. eapply advances_range; eauto.
Qed.
Lemma puntil_done_adv stop n : forall acc c, in_range c -> radv c (puntil_done p s d stop acc n c).
Proof.
  induction n as [|n IH]; intros acc c Hc; [exact I|]. cbn [puntil_done].
  apply radv_bind; [now apply Hp|]. intros v c' Hc'. apply advances_range in Hc'.
  apply radv_let. intros [|] _; [now apply advances_refl|]. now apply IH.
Qed.
Lemma paccum_adv stop upd n : forall acc vs c, in_range c -> radv c (paccum p s d stop upd acc vs n c).
Proof.
  induction n as [|n IH]; intros acc vs c Hc; [exact I|]. cbn [paccum].
  apply radv_let. intros [|] _; [now apply advances_refl|].
  apply radv_bind; [now apply Hp|]. intros v c' Hc'. apply advances_range in Hc'.
  apply radv_let. intros acc' _. now apply IH.
Qed.
End LoopsAdv.

Lemma parse_adv n : forall s d c, in_range c -> radv c (parse n s d c).
Proof.
  induction n as [|n IH]; intros s d c Hc; [exact I|].
  pose proof (advances_refl c Hc) as Hr.
  cbn [DecoderModel.parse]. destruct d; try exact I; try exact Hr;
    try (apply radv_map; now apply IH); try (apply radv_back; exact Hr).
  - apply radv_let. intros [s'|e] _; cbn; auto. destruct (nth_error P n0); cbn; auto.
  - destruct (rc_read_byte c) as [[b ?]|]; cbn; auto.
  - destruct (N.eqb n0 0); cbn; auto.
    apply radv_let. intros [[sl c']|] H; cbn; auto. eapply split_at_adv; eauto.
  - destruct (rc_read_byte c) as [[b c']|] eqn:E; cbn; auto. apply read_byte_adv in E as (Ha & _).
    destruct (ByteSetModel.contains bs b); cbn; auto.
  - now apply ppar_adv.
  - destruct (tree_matches t c); cbn; auto. destruct (nth_error ds n0); cbn; auto. now apply radv_map, IH.
  - now apply radv_map, pseq_adv.
  - now apply radv_map, pseq_adv.
  - now apply radv_map, pwhile_adv.
  - now apply radv_map, puntil_adv.
  - apply radv_let. intros k _. now apply radv_map, pseq_adv.
  - now apply radv_map, puntil_done_adv.
  - now apply radv_map, puntil_done_adv.
  - apply radv_let. intros [|] _; cbn; auto. now apply radv_map, IH.
  - destruct (parse n s d c); cbn; auto.
  - apply radv_let. intros k _. apply radv_let. intros [[sl c']|] H; cbn; auto.
    apply radv_back. eapply split_at_adv; eauto.
  - apply radv_let. intros rem _. apply radv_bind'. intros v cb. apply radv_let. intros remb _.
    destruct (length rem <? length remb / 8); [exact I|]. apply radv_let.
    intros [[sl c']|] E; [eapply split_at_adv; eauto|exact I].
  - apply radv_let. intros b _. apply radv_let. intros o _. destruct (N.ltb (b + o) w64); cbn; auto.
    destruct (rc_seek_to c (b + o)); cbn; auto. now apply radv_back.
  - apply radv_bind; [now apply IH|]. intros v c' Hc'. apply radv_let. intros. apply advances_refl. eapply advances_range; eauto.
  - apply radv_bind; [now apply IH|]. intros v c' Hc'. apply radv_let. intros b _. apply advances_range in Hc'.
    destruct b; [|destruct strict]; cbn; auto using advances_refl.
  - apply radv_let. intros v _. exact Hr.
  - apply radv_let. intros v _. now apply IH.
  - apply radv_let. intros v _. destruct (first_match v s 0 bs) as [[[i s'] d']|]; cbn; auto. now apply radv_map, IH.
  - apply radv_let. intros f _. destruct (compile_one bld f); cbn; auto.
  - destruct (get_decoder x s); cbn; auto.
  - apply radv_let. intros mn _. apply radv_let. intros mx _. now apply radv_map, pbetween_adv.
  - apply radv_let. intros l _. now apply radv_map, pseq_adv.
  - unfold rc_skip_remainder, advances; cbn. unfold in_range in Hc. repeat split; auto.
  - apply radv_let. intros bytes _. destruct (parse n s d (rc_new bytes)) as [v c' es| | |]; cbn; auto.
    destruct (rc_read_byte c') as [[b ?]|]; cbn; auto.
  - apply radv_view. intros w. now apply radv_back.
  - apply radv_bind; [now apply IH|]. intros v c' Hc'. apply IH. eapply advances_range; eauto.
  - apply radv_bind; [now apply IH|]. intros v c' Hc'. apply IH. eapply advances_range; eauto.
  - apply radv_let. intros acc _. now apply radv_map, paccum_adv.
  - destruct o; cbn; auto. now apply radv_map, IH.
  - now apply IH.
  - apply radv_let. intros k _. apply radv_view. intros w. now apply radv_back.
  - apply radv_let. intros k0 _. apply radv_view. intros w. now apply radv_back.
  - apply radv_view. intros w. exact Hr.
  - pose proof (IH s d c Hc) as H. destruct (parse n s d c) as [v c' es|er| |]; cbn; auto.
    destruct (eval_value e s); cbn; auto.
Qed.
End Parse.
