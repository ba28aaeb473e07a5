(** Proofs about deflate streams: there is one way to read a conforming stream. *)
From Verif Require HuffmanModel HuffmanProofs.
From Verif Require Import Base DeflateModel DeflateSpec DeflateBits DeflateHuffman DeflateProofs DeflateBlocks DeflateDynamic DeflateDynamic2 DeflateStream.
Open Scope nat_scope.

Lemma at_pos_skip bs i l : at_pos bs i l -> exists post, skipn i bs = l ++ post.
Proof. intros (pre & post & -> & <-). exists post. rewrite skipn_app, skipn_all, Nat.sub_diag. reflexivity. Qed.
Lemma app_prefix {A} (a : list A) : forall b x y, a ++ x = b ++ y -> length a <= length b -> exists r, b = a ++ r.
Proof.
  induction a as [|u a IH]; intros b x y E H; [exists b; reflexivity|]. destruct b as [|w b]; [cbn in H; lia|]. injection E as -> E. cbn [length] in H.
  destruct (IH b x y E ltac:(lia)) as (r & ->). exists r. reflexivity.
Qed.
Lemma at_pos_prefix bs i a b : at_pos bs i a -> at_pos bs i b -> length a <= length b -> exists r, b = a ++ r.
Proof. intros Ha Hb H. apply at_pos_skip in Ha as (x & Ha), Hb as (y & Hb). eapply app_prefix; [|exact H]. rewrite <- Ha. exact Hb. Qed.
Lemma at_pos_same bs i a b : at_pos bs i a -> at_pos bs i b -> length a = length b -> a = b.
Proof.
  intros Ha Hb H. destruct (at_pos_prefix _ _ _ _ Ha Hb ltac:(lia)) as (r & ->). rewrite app_length in H. destruct r; [now rewrite app_nil_r|cbn in H; lia].
Qed.
Lemma Num_det bs n i j j' x x' : Num bs n i j x -> Num bs n i j' x' -> j = j' /\ x = x'.
Proof. intros (l & H1 & H2 & -> & ->) (l' & H1' & H2' & -> & ->). split; [reflexivity|]. now rewrite (at_pos_same _ _ _ _ H2 H2') by congruence. Qed.
Lemma Nums_det bs n i j j' xs xs' : Nums bs n i j xs -> Nums bs n i j' xs' -> length xs = length xs' -> j = j' /\ xs = xs'.
Proof.
  intros H. revert j' xs'. induction H as [i|i j k x xs Hx H IH]; intros j' xs' H' Hl; inversion H'; subst; try discriminate Hl; [auto|].
  match goal with A : Num bs n i _ _ |- _ => destruct (Num_det _ _ _ _ _ _ _ Hx A) as [-> ->] end. injection Hl as Hl.
  match goal with A : Nums bs n _ j' _ |- _ => destruct (IH _ _ A Hl) as [-> ->] end. auto.
Qed.
Lemma kraft_scale m lens : m <= 15 -> Forall (fun l => l <= m) lens -> HuffmanProofs.kraft 15 lens = (2 ^ N.of_nat (15 - m) * HuffmanProofs.kraft m lens)%N.
Proof.
  intros Hm H. induction H as [|l lens Hl H IH]; [cbn; lia|]. unfold HuffmanProofs.kraft in *. cbn [fold_right]. rewrite IH. destruct (Nat.eqb l 0); [lia|].
  rewrite N.mul_add_distr_l. f_equal. rewrite <- N.pow_add_r. f_equal. lia.
Qed.
Lemma Symbol_det bs lens : Forall isbit bs -> small lens -> not_too_many lens -> forall i j j' x x', Symbol lens bs i j x -> Symbol lens bs i j' x' -> j = j' /\ x = x'.
Proof.
  intros Hbs Hs Hk i j j' x x' (l & c & H1 & H2 & H3 & H4 & -> & H6) (l' & c' & H1' & H2' & H3' & H4' & -> & H6').
  pose proof Hs as (Hne & H15 & Hlen). pose proof (list_max_small _ H15) as Hm.
  assert (K : (HuffmanProofs.kraft (list_max lens) lens <= 2 ^ N.of_nat (list_max lens))%N).
  { change (HuffmanProofs.kraft 15 lens <= 2 ^ 15)%N in Hk. rewrite (kraft_scale (list_max lens)) in Hk; [|exact Hm|now apply List.list_max_le].
    replace (2 ^ 15)%N with (2 ^ N.of_nat (15 - list_max lens) * 2 ^ N.of_nat (list_max lens))%N in Hk by (rewrite <- N.pow_add_r; f_equal; lia).
    apply N.mul_le_mono_pos_l in Hk; [exact Hk|]. pose proof (N.pow_nonzero 2 (N.of_nat (15 - list_max lens))). lia. }
  pose proof (small_codes lens Hs) as E. set (codes := map _ _) in E. clearbody codes.
  assert (I1 : In (c, N.of_nat x) codes) by (apply (small_in lens codes _ _ Hs E); exists x, l; repeat (split; [first [reflexivity|assumption|eapply at_pos_bits; eassumption]|]); assumption).
  assert (I2 : In (c', N.of_nat x') codes) by (apply (small_in lens codes _ _ Hs E); exists x', l'; repeat (split; [first [reflexivity|assumption|eapply at_pos_bits; eassumption]|]); assumption).
  assert (G : N.of_nat x = N.of_nat x' /\ c = c').
  { destruct (Nat.le_ge_cases (length c) (length c')) as [L|L].
    - apply (HuffmanProofs.codes_prefix_free lens codes c c' _ _ Hne ltac:(lia) Hlen K E I1 I2). exact (at_pos_prefix _ _ _ _ H4 H4' L).
    - destruct (HuffmanProofs.codes_prefix_free lens codes c' c _ _ Hne ltac:(lia) Hlen K E I2 I1 (at_pos_prefix _ _ _ _ H4' H4 L)) as [A B]. auto. }
  destruct G as [G1 G2]. split; [rewrite <- H3, <- H3', G2; reflexivity|lia].
Qed.
Lemma FixedDistance_det bs i j j' d d' : FixedDistance bs i j d -> FixedDistance bs i j' d' -> j = j' /\ d = d'.
Proof.
  intros (c & H1 & H2 & -> & H4) (c' & H1' & H2' & -> & H4'). rewrite (at_pos_same _ _ _ _ H2 H2') in H4 by congruence. split; [reflexivity|lia].
Qed.
Definition determined (P : nat -> nat -> nat -> Prop) : Prop := forall i j j' x x', P i j x -> P i j' x' -> j = j' /\ x = x'.
Lemma Elements_det bs (lit dist : nat -> nat -> nat -> Prop) i j j' es es' : determined lit -> determined dist ->
  Elements true bs lit dist i j es -> Elements false bs lit dist i j' es' -> j = j' /\ es = es'.
Proof.
  intros Hl Hd H. revert j' es'. induction H as [i j H|i j k b es H Hb HE IH|i i1 i2 i3 i4 k sym x d y es H Hs Hx Hdd Hd30 Hy HE IH|i j k sym es Hc H Hs HE IH]; intros j' es' H'; [| | |discriminate].
  - inversion H' as [? ? A|? ? ? ? ? A B C|? ? ? ? ? ? ? ? ? ? ? A B|? ? ? ? ? ? A B]; subst; destruct (Hl _ _ _ _ _ H A) as [-> E]; try lia. auto.
  - inversion H' as [? ? A|? ? ? ? ? A B C|? ? ? ? ? ? ? ? ? ? ? A B|? ? ? ? ? ? A B]; subst; destruct (Hl _ _ _ _ _ H A) as [-> E]; try lia. subst. destruct (IH _ _ C) as [-> ->]. auto.
  - inversion H' as [? ? A|? ? ? ? ? A B C|? ? ? ? ? ? ? ? ? ? ? A B A1 A2 A3 A4 A5|? ? ? ? ? ? A B]; subst; destruct (Hl _ _ _ _ _ H A) as [-> E]; try lia. subst.
    destruct (Num_det _ _ _ _ _ _ _ Hx A1) as [-> ->]. destruct (Hd _ _ _ _ _ Hdd A2) as [-> ->]. destruct (Num_det _ _ _ _ _ _ _ Hy A4) as [-> ->]. destruct (IH _ _ A5) as [-> ->]. auto.
Qed.
Lemma Lengths_det bs lens total i j j' done all all' : Forall isbit bs -> small lens -> not_too_many lens ->
  Lengths true bs lens total i j done all -> Lengths false bs lens total i j' done all' -> j = j' /\ all = all'.
Proof.
  intros Hbs Hs Hk H. pose proof (Symbol_det bs lens Hbs Hs Hk) as Hd. revert j' all'.
  induction H as [i done Ht Hc|i j k sym done all Hlt HS H16 HL IH|i i1 j k x last done all Hlt HS Hx HL IH|i i1 j k x done all Hlt HS Hx HL IH|i i1 j k x done all Hlt HS Hx HL IH]; intros j' all' H'.
  - inversion H'; subst; try lia. auto.
  - inversion H' as [? ? A|? ? ? ? ? ? A B C D|? ? ? ? ? ? ? ? A B C D E|? ? ? ? ? ? ? A B C D|? ? ? ? ? ? ? A B C D]; subst; try lia; destruct (Hd _ _ _ _ _ HS B) as [-> E0]; try lia; subst; eauto.
  - inversion H' as [? ? A|? ? ? ? ? ? A B C D|? ? ? ? ? ? ? ? A B C D E F|? ? ? ? ? ? ? A B C D|? ? ? ? ? ? ? A B C D]; subst; try lia; destruct (Hd _ _ _ _ _ HS B) as [-> E0]; try lia.
    match goal with X : _ ++ [_] = _ ++ [_] |- _ => apply app_inj_tail in X as [-> ->] end. destruct (Num_det _ _ _ _ _ _ _ Hx C) as [-> ->]. eauto.
  - inversion H' as [? ? A|? ? ? ? ? ? A B C D|? ? ? ? ? ? ? ? A B C D E F|? ? ? ? ? ? ? A B C D|? ? ? ? ? ? ? A B C D]; subst; try lia; destruct (Hd _ _ _ _ _ HS B) as [-> E0]; try lia.
    destruct (Num_det _ _ _ _ _ _ _ Hx C) as [-> ->]. eauto.
  - inversion H' as [? ? A|? ? ? ? ? ? A B C D|? ? ? ? ? ? ? ? A B C D E F|? ? ? ? ? ? ? A B C D|? ? ? ? ? ? ? A B C D]; subst; try lia; destruct (Hd _ _ _ _ _ HS B) as [-> E0]; try lia.
    destruct (Num_det _ _ _ _ _ _ _ Hx C) as [-> ->]. eauto.
Qed.
(** What is read strictly is read leniently. *)
Lemma Elements_lax bs lit dist i j es : Elements true bs lit dist i j es -> Elements false bs lit dist i j es.
Proof. intros H. induction H; [now constructor|econstructor; eassumption|econstructor; eassumption|discriminate]. Qed.
Lemma Lengths_lax bs lens total i j done all : Lengths true bs lens total i j done all -> Lengths false bs lens total i j done all.
Proof. intros H. induction H; [constructor; [assumption|discriminate]|eapply LengthsOne|eapply LengthsRepeat|eapply LengthsZeros|eapply LengthsManyZeros]; eassumption. Qed.
Lemma Body_lax ta tb bs t i j es : (tb = true -> ta = true) -> Body true ta bs t i j es -> Body false tb bs t i j es.
Proof.
  intros Ht H. destruct H; [eapply Stored; try eassumption; discriminate|constructor; now apply Elements_lax|].
  eapply Dynamic; try eassumption; [apply Lengths_lax; eassumption|auto|apply Elements_lax; eassumption].
Qed.
Lemma Blocks_lax ta tb bs i j es : (tb = true -> ta = true) -> Blocks true ta bs i j es -> Blocks false tb bs i j es.
Proof. intros Ht H. induction H; [eapply LastBlock|eapply MoreBlocks]; try eassumption; eapply Body_lax; eassumption. Qed.

Lemma Body_det tb bs t i j j' es es' : Forall isbit bs -> Body true true bs t i j es -> Body false tb bs t i j' es' -> j = j' /\ es = es'.
Proof.
  intros Hbs H H'. destruct H as [i i0 i1 i2 j len nlen bytes H1 H2 H3 H4 H5 H6 H7|i j es H|i i1 i2 i3 i4 i5 j hlit hdist hclen ls lens es H1 H2 H3 H4 H5 cls nlit ndist H6 lits dists H7 H8].
  - apply (stored_inv _ bs) in H' as (i0' & i1' & i2' & len' & nlen' & bytes' & A1 & A2 & A3 & A4 & A5 & A6 & ->).
    assert (i0 = i0') as <- by (clear - H1 H2 A1 A2; lia).
    destruct (Num_det _ _ _ _ _ _ _ H3 A3) as [-> ->]. destruct (Num_det _ _ _ _ _ _ _ H4 A4) as [-> _]. destruct (Nums_det _ _ _ _ _ _ _ H7 A6) as [-> ->]; [congruence|]. auto.
  - inversion H' as [|? ? ? HE|]; subst. eapply Elements_det; [| |exact H|exact HE]; [exact (Symbol_det bs _ Hbs fixed_small fixed_fits)|intros ? ? ? ? ?; apply FixedDistance_det].
  - apply (dynamic_inv _ bs) in H' as (i1' & i2' & i3' & i4' & i5' & hlit' & hdist' & hclen' & ls' & lens' & A1 & A2 & A3 & A4 & A5 & A6 & _ & A7).
    destruct (Num_det _ _ _ _ _ _ _ H1 A1) as [<- <-]. destruct (Num_det _ _ _ _ _ _ _ H2 A2) as [<- <-]. destruct (Num_det _ _ _ _ _ _ _ H3 A3) as [<- <-].
    destruct (Nums_det _ _ _ _ _ _ _ H5 A5) as [<- <-]; [congruence|]. destruct (H7 eq_refl) as (K1 & K2 & K3).
    assert (H8' : Forall (fun l => l <= 15) (map N.to_nat ls)).
    { pose proof (Nums_bound bs Hbs _ _ _ _ H5) as Hb. apply Forall_map. eapply Forall_impl; [|exact Hb]. intros a Ha. cbn in Ha. change (2 ^ N.of_nat 3)%N with 8%N in Ha. lia. }
    destruct (in_order_small (deflate_items 0) 0 (fun k it H => H) _ H8') as [Sc _].
    destruct (Lengths_det _ _ _ _ _ _ _ _ _ Hbs Sc K1 H6 A6) as [<- <-].
    pose proof (Num_bound _ _ _ _ _ Hbs H1) as B1. pose proof (Num_bound _ _ _ _ _ Hbs H2) as B2. change (2 ^ N.of_nat 5)%N with 32%N in B1, B2.
    destruct (tables_small (deflate_items 0) bs Hbs 0 (fun k it H => H) (in_order (map N.to_nat ls)) _ _ _ _ nlit ndist (order_len _) A6 eq_refl ltac:(unfold nlit; lia) ltac:(unfold ndist; lia) ltac:(unfold nlit, ndist; lia)) as (Sl & Sd & _).
    eapply Elements_det; [| |exact H8|exact A7]; [exact (Symbol_det bs _ Hbs Sl K2)|exact (Symbol_det bs _ Hbs Sd K3)].
Qed.
Lemma Blocks_det tb bs i j j' es es' : Forall isbit bs -> Blocks true true bs i j es -> Blocks false tb bs i j' es' -> j = j' /\ es = es'.
Proof.
  intros Hbs H. revert j' es'. induction H as [i i1 i2 j t es H1 H2 H3|i i1 i2 j k t es es0 H1 H2 H3 H IH]; intros j' es' H'.
  - inversion H' as [? ? ? ? ? ? A1 A2 A3|? ? ? ? ? ? ? ? A1 A2 A3 A4]; subst; destruct (Num_det _ _ _ _ _ _ _ H1 A1) as [<- E]; [|discriminate E].
    destruct (Num_det _ _ _ _ _ _ _ H2 A2) as [<- <-]. eapply Body_det; eassumption.
  - inversion H' as [? ? ? ? ? ? A1 A2 A3|? ? ? ? ? ? ? ? A1 A2 A3 A4]; subst; destruct (Num_det _ _ _ _ _ _ _ H1 A1) as [<- E]; [discriminate E|].
    destruct (Num_det _ _ _ _ _ _ _ H2 A2) as [<- <-]. destruct (Body_det _ _ _ _ _ _ _ _ Hbs H3 A3) as [<- <-]. destruct (IH _ _ A4) as [<- <-]. auto.
Qed.
Lemma Inflates_lax ta tb bs i j data : (tb = true -> ta = true) -> Inflates true ta bs i j data -> Inflates false tb bs i j data.
Proof. intros Ht (es & H & HW). exists es. split; [eapply Blocks_lax; eassumption|exact HW]. Qed.
Lemma Inflates_any c ta tb bs i j data : (tb = true -> ta = true) -> Inflates c ta bs i j data -> Inflates false tb bs i j data.
Proof.
  destruct c; [apply Inflates_lax|]. intros Ht (es & H & HW). exists es. split; [|exact HW]. clear HW.
  assert (G : forall t i j es, Body false ta bs t i j es -> Body false tb bs t i j es).
  { intros t i0 j0 es0 HB. destruct HB; [eapply Stored; eassumption|constructor; assumption|]. eapply Dynamic; try eassumption; auto. }
  induction H; [eapply LastBlock|eapply MoreBlocks]; eauto.
Qed.
Lemma Inflates_det tb bs i j j' data data' : Forall isbit bs -> Inflates true true bs i j data -> Inflates false tb bs i j' data' -> j = j' /\ data = data'.
Proof. intros Hbs (es & H & HW) (es' & H' & HW'). destruct (Blocks_det _ _ _ _ _ _ _ Hbs H H') as [<- <-]. split; [reflexivity|]. eapply Writes_det; eassumption. Qed.
