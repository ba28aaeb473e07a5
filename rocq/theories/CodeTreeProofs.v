(** Lookahead trees for the formats made of Huffman tables: they are built whenever
    the codes are prefix free. *)
From Verif Require ByteSetModel HuffmanModel HuffmanProofs.
From Verif Require Import Base BoundsModel DataModel NumericModel ValueModel FormatModel MatchTreeModel DecoderModel ExactSpec.
Open Scope nat_scope.

Definition bit (b : bool) : N := if b then 1%N else 0%N.
Definition bset (b : bool) : byteset := ByteSetModel.insert ByteSetModel.empty (bit b).
Definition code := list bool.
Fixpoint comparable (c d : code) : bool :=
  match c, d with
  | [], _ | _, [] => true
  | a :: c', b :: d' => Bool.eqb a b && comparable c' d'
  end.
Fixpoint free (cs : list code) : Prop :=
  match cs with [] => True | c :: r => Forall (fun d => comparable c d = false) r /\ free r end.

(** What is left of a branch of the union *)
Inductive left (lk : look) : next -> code -> Prop :=
| LeftSeq c : left lk (NSequence (map (fun b => is_bit (bit b)) c) NEmpty) c
| LeftAll c e : c <> [] -> left lk (NCat (FMap (FTuple (map (fun b => is_bit (bit b)) c)) e) NEmpty) c.
Lemma left_step lk fuel n b c : left lk n (b :: c) -> exists n', from_next [] lk (S (S (S (S fuel)))) n = Val (s_branch (bset b) n') /\ left lk n' c.
Proof. intros H. inversion H; subst; eexists; (split; [reflexivity|constructor]). Qed.

(** The level after some of the branches: those that go on with each bit, in order *)
Inductive sorted : list (byteset * lbranch) -> lbranch -> lbranch -> Prop :=
| SNone : sorted [] [] []
| SZero l : l <> [] -> sorted [(bset false, l)] l []
| SOne l : l <> [] -> sorted [(bset true, l)] [] l
| SZeroOne l l' : l <> [] -> l' <> [] -> sorted [(bset false, l); (bset true, l')] l l'
| SOneZero l l' : l <> [] -> l' <> [] -> sorted [(bset true, l'); (bset false, l)] l l'.
Definition put (b b' : bool) (l : lbranch) (x : nat * next) : lbranch := if Bool.eqb b b' then l ++ [x] else l.
Lemma snoc_ne {A} (l : list A) x : l ++ [x] <> [].
Proof. destruct l; discriminate. Qed.
Lemma merge_sorted br l l' ix b n : sorted br l l' ->
  sorted (merge_branch ix br (bset b, n)) (put b false l (ix, n)) (put b true l' (ix, n)).
Proof.
  intros H. destruct H, b; cbn [put Bool.eqb app];
    unfold merge_branch, add_branch; cbn [split_loop fst snd];
    repeat match goal with
    | |- context [ByteSetModel.is_empty ?x] => let y := eval vm_compute in (ByteSetModel.is_empty x) in change (ByteSetModel.is_empty x) with y; cbv iota beta
    | |- context [ByteSetModel.intersection ?x ?z] => let y := eval vm_compute in (ByteSetModel.intersection x z) in
        let w := eval vm_compute in (bset true) in let w0 := eval vm_compute in (bset false) in
        first [constr_eq y w; change (ByteSetModel.intersection x z) with (bset true) | constr_eq y w0; change (ByteSetModel.intersection x z) with (bset false)]
    end; cbn [app]; try (constructor; auto using snoc_ne; fail); try (constructor; try assumption; try discriminate; apply snoc_ne).
Qed.
Definition tails (b : bool) (cs : list code) : list code :=
  flat_map (fun c => match c with x :: r => if Bool.eqb x b then [r] else [] | [] => [] end) cs.
Definition lefts (lk : look) : lbranch -> list code -> Prop := Forall2 (fun x c => left lk (snd x) c).
Lemma tails_incomparable b c cs : Forall (fun d => comparable (b :: c) d = false) cs -> Forall (fun d => comparable c d = false) (tails b cs).
Proof.
  induction 1 as [|d cs H HF IH]; [constructor|]. unfold tails. cbn [flat_map]. apply Forall_app. split; [|exact IH].
  destruct d as [|x d]; [discriminate|]. cbn [comparable] in H. destruct (Bool.eqb_spec x b) as [->|]; [|constructor].
  rewrite Bool.eqb_reflx in H. repeat constructor. exact H.
Qed.
Lemma tails_free b cs : free cs -> free (tails b cs).
Proof.
  induction cs as [|c cs IH]; [auto|]. intros [H HF]. unfold tails. cbn [flat_map]. destruct c as [|x c]; [now apply IH|].
  destruct (Bool.eqb_spec x b) as [->|]; [|now apply IH]. cbn [app free]. split; [now apply tails_incomparable|now apply IH].
Qed.
Lemma tails_length b n cs : Forall (fun c => length c <= S n) cs -> Forall (fun c => length c <= n) (tails b cs).
Proof.
  induction 1 as [|c cs H HF IH]; [constructor|]. unfold tails. cbn [flat_map]. apply Forall_app. split; [|exact IH].
  destruct c as [|x c]; [constructor|]. destruct (Bool.eqb x b); constructor; [cbn in H; lia|constructor].
Qed.
Lemma merge_all_left lk fuel nexts cs : lefts lk nexts cs -> Forall (fun c => c <> []) cs ->
  forall br l0 l1 cs0 cs1, sorted br l0 l1 -> lefts lk l0 cs0 -> lefts lk l1 cs1 ->
  exists br' l0' l1', merge_all lk [] (S (S (S (S fuel)))) (Level None br) nexts = Val (Some (Level None br')) /\ sorted br' l0' l1' /\
    lefts lk l0' (cs0 ++ tails false cs) /\ lefts lk l1' (cs1 ++ tails true cs).
Proof.
  induction 1 as [|[ix n] c nexts cs Hl H IH]; intros Hne br l0 l1 cs0 cs1 Hs H0 H1.
  - exists br, l0, l1. cbn [tails flat_map merge_all]. rewrite !app_nil_r. auto.
  - inversion Hne as [|? ? Hc Hne']; subst. destruct c as [|b c]; [contradiction|]. cbn [snd] in Hl.
    destruct (left_step lk fuel n b c Hl) as (n' & E & Hl'). cbn [merge_all]. rewrite E. cbn [obind merge_step s_branch s_acc s_br fold_left l_br l_acc].
    unfold merge_step. cbn [s_acc s_br s_branch fold_left l_br l_acc].
    destruct (IH Hne' _ _ _ (if Bool.eqb b false then cs0 ++ [c] else cs0) (if Bool.eqb b true then cs1 ++ [c] else cs1) (merge_sorted br l0 l1 ix b n' Hs)) as (br' & l0' & l1' & E' & Hs' & H0' & H1').
    + unfold put. destruct (Bool.eqb b false); [|exact H0]. apply Forall2_app; [exact H0|]. constructor; [exact Hl'|constructor].
    + unfold put. destruct (Bool.eqb b true); [|exact H1]. apply Forall2_app; [exact H1|]. constructor; [exact Hl'|constructor].
    + exists br', l0', l1'. split; [exact E'|]. split; [exact Hs'|]. unfold tails in *. cbn [flat_map].
      destruct b; cbn [Bool.eqb app] in *; rewrite <- app_assoc in *; auto.
Qed.
Lemma accepts_none l : accepts l = None -> exists x y r, l = x :: y :: r.
Proof. destruct l as [|[i n] [|y r]]; [discriminate|cbn; discriminate|]. eauto. Qed.
Lemma grow_left lk fuel : forall depth nexts cs, lefts lk nexts cs -> free cs -> Forall (fun c => length c <= depth) cs ->
  exists t, grow lk [] (S (S (S (S fuel)))) depth nexts = Val (Some t).
Proof.
  induction depth as [|depth IH]; intros nexts cs HL Hf Hd; cbn [grow]; destruct (accepts nexts) as [t|] eqn:Ea; eauto;
    apply accepts_none in Ea as (x & y & r & ->); inversion HL as [|? c ? cs1 Hx HL1]; subst; inversion HL1 as [|? d ? cs2 Hy HL2]; subst.
  - inversion Hd as [|? ? Hc]; subst. destruct c; [|cbn in Hc; lia]. destruct Hf as [Hf _]. inversion Hf; subst. discriminate.
  - assert (Hne : Forall (fun c => c <> []) (c :: d :: cs2)).
    { destruct Hf as [Hf1 [Hf2 _]]. apply Forall_forall. intros z Hz ->. destruct Hz as [->|Hz].
      - inversion Hf1; subst; discriminate.
      - rewrite Forall_forall in Hf1. specialize (Hf1 _ Hz). destruct c; discriminate. }
    destruct (merge_all_left lk fuel _ _ HL Hne [] [] [] [] [] SNone (Forall2_nil _) (Forall2_nil _)) as (br & l0 & l1 & E & Hs & H0 & H1).
    cbn [app] in H0, H1. rewrite E. cbn [obind l_acc l_br].
    destruct (IH _ _ H0 (tails_free _ _ Hf) (tails_length _ _ _ Hd)) as (t0 & E0). destruct (IH _ _ H1 (tails_free _ _ Hf) (tails_length _ _ _ Hd)) as (t1 & E1).
    destruct Hs; cbn [grow_branches]; rewrite ?E0, ?E1; cbn [obind omap option_map]; eauto.
Qed.

(** ** Huffman tables *)
Definition spell (c : list N) : code := map (fun b => N.eqb b 1) c.
Lemma spell_bits c : HuffmanProofs.is_bits c -> map (fun b => is_bit (bit b)) (spell c) = map is_bit c.
Proof. induction 1 as [|b c H HF IH]; [reflexivity|]. cbn [spell map]. fold (spell c). rewrite IH. destruct H as [-> | ->]; reflexivity. Qed.
Lemma spell_comparable c : forall d, HuffmanProofs.is_bits c -> HuffmanProofs.is_bits d -> comparable (spell c) (spell d) = true -> HuffmanProofs.prefix c d \/ HuffmanProofs.prefix d c.
Proof.
  induction c as [|a c IH]; intros d Hc Hd H; [left; exists d; reflexivity|]. destruct d as [|b d]; [right; exists (a :: c); reflexivity|].
  inversion Hc as [|? ? Ha Hc']; inversion Hd as [|? ? Hb Hd']; subst. cbn [spell map comparable] in H. apply andb_true_iff in H as [E H].
  assert (a = b) as -> by (destruct Ha as [-> | ->], Hb as [-> | ->]; try reflexivity; discriminate).
  destruct (IH d Hc' Hd' H) as [P|P]; [left|right]; now apply HuffmanProofs.prefix_cons.
Qed.
Lemma spell_free codes : Forall (fun c => HuffmanProofs.is_bits (fst c)) codes -> HuffmanProofs.prefix_free codes -> free (map (fun c => spell (fst c)) codes).
Proof.
  induction 1 as [|[c v] codes Hc H IH]; [exact (fun _ => I)|]. intros [H1 H2]. cbn [map free fst]. split; [|now apply IH].
  apply Forall_forall. intros z Hz. apply in_map_iff in Hz as ([d w] & <- & Hd). cbn [fst]. destruct (comparable (spell c) (spell d)) eqn:E; [|reflexivity].
  assert (Hd' : HuffmanProofs.is_bits d) by (rewrite Forall_forall in H; exact (H _ Hd)). cbn [fst] in Hc.
  destruct (H1 d w Hd) as [N1 N2]. destruct (spell_comparable c d Hc Hd' E); contradiction.
Qed.
Lemma codes_built lk fuel codes : Forall (fun c => HuffmanProofs.is_bits (fst c) /\ 1 <= length (fst c) <= max_depth) codes -> HuffmanProofs.prefix_free codes ->
  exists t, build lk [] (S (S (S (S fuel)))) (branches codes) NEmpty = Val (Some t).
Proof.
  intros HF HP. unfold build. apply grow_left with (cs := map (fun c => spell (fst c)) codes).
  - unfold start, branches. clear HP. generalize 0 at 1. induction HF as [|[c v] codes [Hb Hl] HF IH]; intros k; cbn [map enumerate]; constructor; [|apply IH].
    cbn [fst snd] in *. rewrite <- (spell_bits c Hb). constructor. destruct c; [cbn in Hl; lia|discriminate].
  - apply spell_free; [|exact HP]. eapply Forall_impl; [|exact HF]. intros c H. apply H.
  - apply Forall_forall. intros z Hz. apply in_map_iff in Hz as (c & <- & Hc). unfold spell. rewrite map_length. rewrite Forall_forall in HF. apply (HF _ Hc).
Qed.
