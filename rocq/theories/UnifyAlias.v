(** Lemmas on the tables of the unification engine: maps, aliases, merging. *)
From Coq Require Import Permutation.
From Verif Require Import Base BoundsModel NumericModel ValueModel BaseSetModel BaseSetSpec BaseSetProofs UnifyModel UnifySpec.
Open Scope nat_scope.

(** ** Lists and maps *)
Lemma sn_length {A} (l : list A) i x : length (set_nth i x l) = length l.
Proof. revert i. induction l as [|a l IH]; intros [|i]; cbn; auto. Qed.
Lemma sn_same {A} (l : list A) i x : i < length l -> nth_error (set_nth i x l) i = Some x.
Proof. revert i. induction l as [|a l IH]; intros [|i]; cbn; intros; try lia; auto. apply IH. lia. Qed.
Lemma sn_other {A} (l : list A) i j x : i <> j -> nth_error (set_nth i x l) j = nth_error l j.
Proof. revert i j. induction l as [|a l IH]; intros [|i] [|j]; cbn; intros; auto; try lia. Qed.
Lemma sn_get {A} (l : list A) i j x :
  nth_error (set_nth i x l) j = if i =? j then (match nth_error l j with Some _ => Some x | None => None end) else nth_error l j.
Proof.
  destruct (Nat.eqb_spec i j) as [->|N].
  - destruct (nth_error l j) eqn:E.
    + apply sn_same. apply nth_error_Some. congruence.
    + apply nth_error_None. rewrite sn_length. apply nth_error_None. exact E.
  - apply sn_other. exact N.
Qed.

Lemma mem_nat_in i l : mem_nat i l = true <-> In i l.
Proof.
  unfold mem_nat. rewrite existsb_exists. split.
  - intros [x [I E]]. apply Nat.eqb_eq in E. subst. exact I.
  - intro I. exists i. split; [exact I|apply Nat.eqb_refl].
Qed.
Lemma mem_nat_out i l : mem_nat i l = false <-> ~ In i l.
Proof. rewrite <- mem_nat_in. destruct (mem_nat i l); intuition congruence. Qed.

Lemma mget_in {A} k (m : list (N * A)) a : mget k m = Some a -> In (k, a) m.
Proof.
  induction m as [|[k' a'] m IH]; cbn; [discriminate|]. destruct (N.eqb_spec k k') as [->|]; auto.
  intro E. injection E as ->. auto.
Qed.
Lemma mget_none {A} k (m : list (N * A)) : mget k m = None -> forall a, ~ In (k, a) m.
Proof.
  induction m as [|[k' a'] m IH]; cbn; intros E a [I|I] || idtac; auto.
  - injection I as -> ->. rewrite N.eqb_refl in E. discriminate.
  - destruct (k =? k')%N; [discriminate|]. exact (IH E a I).
Qed.
Lemma mget_insert {A} k (a : A) m k' : mget k' (minsert k a m) = if (k' =? k)%N then Some a else mget k' m.
Proof.
  induction m as [|[k0 a0] m IH]; cbn; auto.
  destruct (N.eqb_spec k k0) as [->|NE].
  - cbn. destruct (k' =? k0)%N; reflexivity.
  - destruct (k <? k0)%N; cbn.
    + reflexivity.
    + rewrite IH. destruct (N.eqb_spec k' k0) as [->|]; auto. destruct (N.eqb_spec k0 k); congruence.
Qed.
Lemma minsert_in {A} k (a : A) m x : In x (minsert k a m) -> x = (k, a) \/ In x m.
Proof.
  induction m as [|[k0 a0] m IH]; cbn; [intuition|].
  destruct (k =? k0)%N; [cbn; intuition|]. destruct (k <? k0)%N; cbn; intuition.
Qed.
Lemma minsert_new {A} k (a : A) m : In (k, a) (minsert k a m).
Proof. apply mget_in. rewrite mget_insert, N.eqb_refl. reflexivity. Qed.
Lemma minsert_old {A} k (a : A) m k' a' : In (k', a') m ->
  In (k', a') (minsert k a m) \/ (k' = k /\ mget k m = Some a').
Proof.
  induction m as [|[k0 a0] m IH]; cbn; [tauto|].
  destruct (N.eqb_spec k k0) as [->|NE].
  - intros [E|I]; [injection E as <- <-; auto|cbn; auto].
  - destruct (k <? k0)%N; cbn.
    + intuition.
    + intros [E|I]; [auto|]. destruct (IH I) as [H|H]; auto.
Qed.

Lemma vget_set id vm m id' : vget id' (vset id vm m) = if id' =? id then Some vm else vget id' m.
Proof.
  induction m as [|[k a] m IH]; cbn.
  - destruct (id' =? id); reflexivity.
  - destruct (Nat.eqb_spec id k) as [->|N]; cbn.
    + destruct (id' =? k); reflexivity.
    + rewrite IH. destruct (Nat.eqb_spec id' k) as [->|]; auto. destruct (Nat.eqb_spec k id); congruence.
Qed.
Lemma vget_remove id m id' : vget id' (vremove id m) = if id' =? id then None else vget id' m.
Proof.
  unfold vremove. induction m as [|[k a] m IH]; cbn.
  - destruct (id' =? id); reflexivity.
  - destruct (Nat.eqb_spec id k) as [->|N]; cbn.
    + rewrite IH. destruct (Nat.eqb_spec id' k); reflexivity.
    + rewrite IH. destruct (Nat.eqb_spec id' k) as [->|]; auto. destruct (Nat.eqb_spec k id); congruence.
Qed.

(** ** Accessors *)
Lemma cons_set_cons i c st j : get_cons (set_cons i c st) j =
  if i =? j then (match get_cons st j with Some _ => Some c | None => None end) else get_cons st j.
Proof. apply sn_get. Qed.
Lemma als_set_als i a st j : get_als (set_als i a st) j =
  if i =? j then (match get_als st j with Some _ => Some a | None => None end) else get_als st j.
Proof. apply sn_get. Qed.
Lemma canon_set_cons i c st : canonical (set_cons i c st) = canonical st. Proof. reflexivity. Qed.
Lemma canon_set_vms m st : canonical (set_vms m st) = canonical st. Proof. reflexivity. Qed.
Lemma canon_note b st : canonical (note_again b st) = canonical st. Proof. reflexivity. Qed.
Lemma note_false st : note_again false st = st. Proof. destruct st; reflexivity. Qed.

(** ** Aliases *)
Record awf (st : state) : Prop := {
  a_back : forall i j, get_als st i = Some (BackRef j) -> exists fwd, get_als st j = Some (Canonical fwd) /\ In i fwd;
  a_fwd : forall i fwd k, get_als st i = Some (Canonical fwd) -> In k fwd -> get_als st k = Some (BackRef i);
  a_nodup : forall i fwd, get_als st i = Some (Canonical fwd) -> NoDup fwd }.

Lemma canon_idem st v c : awf st -> canonical st v = Some c -> canonical st c = Some c.
Proof.
  intros W E. unfold canonical in *. destruct (get_als st v) as [[|j|fwd]|] eqn:A; try discriminate; injection E as <-.
  - rewrite A. reflexivity.
  - destruct (a_back _ W _ _ A) as [fwd [B _]]. rewrite B. reflexivity.
  - rewrite A. reflexivity.
Qed.
Lemma canon_range st v : v < length (als st) -> exists c, canonical st v = Some c.
Proof.
  intro L. unfold canonical, get_als. destruct (nth_error (als st) v) as [[]|] eqn:E; eauto.
  apply nth_error_None in E. lia.
Qed.
Lemma canon_lt st v c : canonical st v = Some c -> v < length (als st).
Proof. unfold canonical, get_als. intro E. apply nth_error_Some. destruct (nth_error (als st) v); congruence. Qed.

(** The state after two canonical variables were merged, before their constraints
    are. *)
Record merged (lo hi : nat) (st st1 : state) : Prop := {
  m_cons : cons st1 = cons st;
  m_len : length (als st1) = length (als st);
  m_vms : vms st1 = vms st;
  m_next : next_vm st1 = next_vm st;
  m_again : again st1 = again st;
  m_lo : canonical st lo = Some lo;
  m_hi : canonical st hi = Some hi;
  m_ne : lo <> hi;
  m_canon : forall x, canonical st1 x = match canonical st x with
              | Some c => if c =? hi then Some lo else Some c
              | None => None
              end;
  m_awf : awf st1 }.

Lemma canon_self st i : awf st -> canonical st i = Some i -> get_als st i = Some Ground \/ exists fwd, get_als st i = Some (Canonical fwd).
Proof.
  intros W. unfold canonical. destruct (get_als st i) as [[|j|fwd]|] eqn:A; intro E; try discriminate; eauto.
  injection E as ->. destruct (a_back _ W _ _ A) as [fwd [B _]]. congruence.
Qed.

(** One variable with no members is repointed. *)
Lemma repoint_spec lo hi st : awf st -> canonical st lo = Some lo -> get_als st hi = Some Ground -> lo <> hi ->
  exists st1, repoint lo hi st = Some st1 /\ merged lo hi st st1.
Proof.
  intros W L H N. unfold repoint. rewrite H.
  assert (Lset : get_als (set_als hi (BackRef lo) st) lo = get_als st lo).
  { rewrite als_set_als. destruct (Nat.eqb_spec hi lo); congruence. }
  rewrite Lset.
  assert (G : exists a a' fwd, get_als st lo = Some a /\ add_forward_ref hi a = Some a' /\ a' = Canonical fwd /\
     NoDup fwd /\ (forall k, In k fwd <-> k = hi \/ exists f0, a = Canonical f0 /\ In k f0)).
  { destruct (canon_self _ _ W L) as [A|[fwd A]]; rewrite A.
    - exists Ground, (Canonical [hi]), [hi]. repeat split; auto. repeat constructor; auto.
      + intros [->|[]]; auto.
      + intros [->|[f0 [C _]]]; [left; reflexivity|discriminate].
    - exists (Canonical fwd), (Canonical (if mem_nat hi fwd then fwd else hi :: fwd)), (if mem_nat hi fwd then fwd else hi :: fwd).
      assert (~ In hi fwd) as NI. { intro I. rewrite (a_fwd _ W _ _ _ A I) in H. discriminate. }
      cbn [add_forward_ref]. rewrite (proj2 (mem_nat_out _ _) NI).
      repeat split; auto.
      + constructor; auto. exact (a_nodup _ W _ _ A).
      + intros [->|I]; eauto.
      + intros [->|[f0 [E I]]]; [left; reflexivity|right]. injection E as <-. exact I. }
  destruct G as [a [a' [fwd [A [Ad [-> [ND MEM]]]]]]]. rewrite A, Ad.
  eexists; split; [reflexivity|].
  set (st1 := set_als lo (Canonical fwd) (set_als hi (BackRef lo) st)).
  assert (GA : forall x, get_als st1 x = if lo =? x then Some (Canonical fwd) else if hi =? x then Some (BackRef lo) else get_als st x).
  { intro x. unfold st1. rewrite !als_set_als. destruct (Nat.eqb_spec lo x) as [<-|N1].
    - destruct (Nat.eqb_spec hi lo); [congruence|]. rewrite A. reflexivity.
    - destruct (Nat.eqb_spec hi x) as [<-|]; [rewrite H|]; reflexivity. }
  assert (CL : forall x, canonical st x = Some lo <-> x = lo \/ exists f0, a = Canonical f0 /\ In x f0).
  { intro x. split.
    - unfold canonical. destruct (get_als st x) as [[|j|f]|] eqn:E; intro K; try discriminate; injection K as ->; auto.
      destruct (a_back _ W _ _ E) as [f0 [B I]]. rewrite A in B. injection B as ->. eauto.
    - intros [->|[f0 [-> I]]]; [exact L|]. unfold canonical. rewrite (a_fwd _ W _ _ _ A I). reflexivity. }
  assert (CH : forall x, canonical st x = Some hi <-> x = hi).
  { intro x. split; [|intros ->; unfold canonical; rewrite H; reflexivity].
    unfold canonical. destruct (get_als st x) as [[|j|f]|] eqn:E; intro K; try discriminate; injection K as ->; auto.
    destruct (a_back _ W _ _ E) as [f0 [B I]]. congruence. }
  constructor; try reflexivity; auto.
  - unfold st1. cbn. rewrite !sn_length. reflexivity.
  - apply CH. reflexivity.
  - intro x. unfold canonical at 1. rewrite GA.
    destruct (Nat.eqb_spec lo x) as [<-|N1].
    + rewrite L. destruct (Nat.eqb_spec lo hi); congruence.
    + destruct (Nat.eqb_spec hi x) as [<-|N2].
      * rewrite (proj2 (CH hi) eq_refl), Nat.eqb_refl. reflexivity.
      * fold (canonical st x). destruct (canonical st x) as [c|] eqn:E; auto.
        destruct (Nat.eqb_spec c hi) as [->|]; auto. apply CH in E. congruence.
  - constructor.
    + intros i j. rewrite GA. destruct (Nat.eqb_spec lo i) as [<-|N1]; [discriminate|].
      destruct (Nat.eqb_spec hi i) as [<-|N2].
      * intro E. injection E as <-. exists fwd. rewrite GA, Nat.eqb_refl. split; auto. apply MEM. auto.
      * intro E. destruct (a_back _ W _ _ E) as [f0 [B I]]. rewrite GA.
        destruct (Nat.eqb_spec lo j) as [<-|N3].
        -- exists fwd. split; auto. apply MEM. right. rewrite A in B. injection B as ->. eauto.
        -- destruct (Nat.eqb_spec hi j) as [<-|N4]; [congruence|]. eauto.
    + intros i f k. rewrite GA. destruct (Nat.eqb_spec lo i) as [<-|N1].
      * intro E. injection E as <-. intro I. rewrite GA. apply MEM in I. destruct I as [->|[f0 [-> I]]].
        -- destruct (Nat.eqb_spec lo hi); [congruence|]. rewrite Nat.eqb_refl. reflexivity.
        -- pose proof (a_fwd _ W _ _ _ A I) as B. destruct (Nat.eqb_spec lo k) as [<-|]; [congruence|].
           destruct (Nat.eqb_spec hi k) as [<-|]; [congruence|]. exact B.
      * destruct (Nat.eqb_spec hi i) as [<-|N2]; [discriminate|]. intros E I. pose proof (a_fwd _ W _ _ _ E I) as B.
        rewrite GA. destruct (Nat.eqb_spec lo k) as [<-|]; [|destruct (Nat.eqb_spec hi k) as [<-|]; [congruence|exact B]].
        unfold canonical in L. rewrite B in L. injection L as ->. congruence.
    + intros i f. rewrite GA. destruct (Nat.eqb_spec lo i) as [<-|N1]; [intro E; injection E as <-; exact ND|].
      destruct (Nat.eqb_spec hi i) as [<-|N2]; [discriminate|]. apply (a_nodup _ W).
Qed.

(** Repointing the members of a class one by one. *)
Lemma repoint_all_spec lo : forall l st f0, NoDup l -> ~ In lo l ->
  (get_als st lo = Some Ground /\ f0 = [] \/ get_als st lo = Some (Canonical f0)) ->
  (forall k, In k l -> ~ In k f0) -> NoDup f0 ->
  (forall k, In k l -> exists a, get_als st k = Some a) ->
  exists st1 f1, repoint_all lo l st = Some st1 /\
    (l = [] /\ st1 = st /\ f1 = f0 \/ get_als st1 lo = Some (Canonical f1)) /\
    (forall k, In k f1 <-> In k f0 \/ In k l) /\ NoDup f1 /\
    cons st1 = cons st /\ vms st1 = vms st /\ next_vm st1 = next_vm st /\ again st1 = again st /\
    length (als st1) = length (als st) /\
    (forall x, x <> lo -> get_als st1 x = if mem_nat x l then Some (BackRef lo) else get_als st x).
Proof.
  induction l as [|k l IH]; intros st f0 ND NL A DIS NF EX; cbn [repoint_all].
  - exists st, f0. repeat split; auto; intros; try tauto.
  - inversion ND; subst.
    assert (EA : exists x, get_als st lo = Some x /\ contains_fwd_ref x k = false /\ add_forward_ref k x = Some (Canonical (k :: f0))).
    { destruct A as [[A ->]|A]; rewrite A; eexists; (split; [reflexivity|]); cbn; auto.
      assert (~ In k f0) by (apply DIS; left; reflexivity). split; [now apply mem_nat_out|].
      rewrite (proj2 (mem_nat_out _ _)) by assumption. reflexivity. }
    destruct EA as [x [Ex [Ec Ea]]]. rewrite Ex, Ec. unfold repoint.
    destruct (EX k (or_introl eq_refl)) as [ak Ek]. rewrite Ek.
    rewrite als_set_als. destruct (Nat.eqb_spec k lo) as [->|NK]; [destruct NL; left; reflexivity|].
    rewrite Ex, Ea.
    set (st' := set_als lo (Canonical (k :: f0)) (set_als k (BackRef lo) st)).
    assert (GA : forall y, get_als st' y = if lo =? y then Some (Canonical (k :: f0)) else if k =? y then Some (BackRef lo) else get_als st y).
    { intro y. unfold st'. rewrite !als_set_als. destruct (Nat.eqb_spec lo y) as [<-|N1].
      - destruct (Nat.eqb_spec k lo); [congruence|]. rewrite Ex. reflexivity.
      - destruct (Nat.eqb_spec k y) as [<-|]; [rewrite Ek|]; reflexivity. }
    destruct (IH st' (k :: f0)) as [st1 [f1 [R [B [M [NF1 [C1 [C2 [C3 [C4 [C5 C6]]]]]]]]]]]; auto.
    + intro I. apply NL. right. exact I.
    + right. rewrite GA, Nat.eqb_refl. reflexivity.
    + intros j I [->|J]; [contradiction|]. apply (DIS j); auto. right. exact I.
    + constructor; auto. apply DIS. left. reflexivity.
    + intros j I. rewrite GA. destruct (lo =? j); eauto. destruct (k =? j); eauto. apply EX. right. exact I.
    + exists st1, f1. split; [exact R|]. split.
      { right. destruct B as [[-> [-> ->]]|B]; [rewrite GA, Nat.eqb_refl; reflexivity|exact B]. }
      split. { intro j. rewrite M. cbn. tauto. }
      split; [exact NF1|]. split; [rewrite C1; reflexivity|]. split; [rewrite C2; reflexivity|].
      split; [rewrite C3; reflexivity|]. split; [rewrite C4; reflexivity|]. split.
      { rewrite C5. unfold st'. cbn. rewrite !sn_length. reflexivity. }
      intros y NY. rewrite C6 by exact NY. rewrite GA. destruct (Nat.eqb_spec lo y); [congruence|].
      cbn [mem_nat existsb]. destruct (Nat.eqb_spec y k) as [->|].
      * rewrite Nat.eqb_refl. cbn. destruct (mem_nat k l); reflexivity.
      * cbn. fold (mem_nat y l). destruct (Nat.eqb_spec k y); [congruence|]. reflexivity.
Qed.

Lemma recanonicalize_spec ho lo hi st : awf st -> canonical st lo = Some lo -> canonical st hi = Some hi -> lo <> hi ->
  exists st1, recanonicalize ho lo hi st = Some st1 /\ merged lo hi st st1.
Proof.
  intros W L H N. unfold recanonicalize.
  assert (AH : exists fh ah, get_als st hi = Some ah /\ fwd_refs ah = fh /\ NoDup fh /\
     (forall x, canonical st x = Some hi <-> x = hi \/ In x fh) /\ (forall x, In x fh -> get_als st x = Some (BackRef hi))).
  { destruct (canon_self _ _ W H) as [A|[fwd A]].
    - exists [], Ground. split; [exact A|]. split; [reflexivity|]. split; [constructor|]. split; [|intros x []].
      intro x. split; [|intros [->|[]]; exact H]. unfold canonical.
      destruct (get_als st x) as [[|j|f]|] eqn:E; intro K; try discriminate; injection K as ->; auto.
      destruct (a_back _ W _ _ E) as [f0 [B I]]. congruence.
    - exists fwd, (Canonical fwd). split; [exact A|]. split; [reflexivity|]. split; [exact (a_nodup _ W _ _ A)|].
      split; [|intros x; apply (a_fwd _ W _ _ _ A)]. intro x. split.
      + unfold canonical. destruct (get_als st x) as [[|j|f]|] eqn:E; intro K; try discriminate; injection K as ->; auto.
        destruct (a_back _ W _ _ E) as [f0 [B I]]. rewrite A in B. injection B as ->. auto.
      + intros [->|I]; [exact H|]. unfold canonical. rewrite (a_fwd _ W _ _ _ A I). reflexivity. }
  destruct AH as [fh [ah [A [<- [NDh [CH BH]]]]]]. rewrite A. remember (fwd_refs ah) as fh eqn:Efh.
  assert (AL : exists fl, (get_als st lo = Some Ground /\ fl = [] \/ get_als st lo = Some (Canonical fl)) /\ NoDup fl /\
     (forall x, canonical st x = Some lo <-> x = lo \/ In x fl) /\ (forall x, In x fl -> get_als st x = Some (BackRef lo))).
  { destruct (canon_self _ _ W L) as [B|[fwd B]].
    - exists []. split; [auto|]. split; [constructor|]. split; [|intros x []].
      intro x. split; [|intros [->|[]]; exact L]. unfold canonical.
      destruct (get_als st x) as [[|j|f]|] eqn:E; intro K; try discriminate; injection K as ->; auto.
      destruct (a_back _ W _ _ E) as [f0 [B' I]]. congruence.
    - exists fwd. split; [auto|]. split; [exact (a_nodup _ W _ _ B)|].
      split; [|intros x; apply (a_fwd _ W _ _ _ B)]. intro x. split.
      + unfold canonical. destruct (get_als st x) as [[|j|f]|] eqn:E; intro K; try discriminate; injection K as ->; auto.
        destruct (a_back _ W _ _ E) as [f0 [B' I]]. rewrite B in B'. injection B' as ->. auto.
      + intros [->|I]; [exact L|]. unfold canonical. rewrite (a_fwd _ W _ _ _ B I). reflexivity. }
  destruct AL as [fl [AL [NDl [CL BL]]]].
  pose proof (shuffle_perm ho _ fh) as PM.
  assert (IN : forall x, In x (shuffle ho fh) <-> In x fh) by (intro x; split; apply Permutation_in; [|symmetry]; exact PM).
  set (st0 := set_als hi (BackRef lo) st).
  assert (G0 : forall x, get_als st0 x = if hi =? x then Some (BackRef lo) else get_als st x).
  { intro x. unfold st0. rewrite als_set_als. destruct (Nat.eqb_spec hi x) as [<-|]; [rewrite A|]; reflexivity. }
  destruct (repoint_all_spec lo (shuffle ho fh) st0 fl) as [st1 [f1 [R [B [M [NF1 [C1 [C2 [C3 [C4 [C5 C6]]]]]]]]]]].
  { eapply Permutation_NoDup; [symmetry; exact PM|exact NDh]. }
  { rewrite IN. intro I. apply BH in I. unfold canonical in L. rewrite I in L. congruence. }
  { rewrite G0. destruct (Nat.eqb_spec hi lo); [congruence|]. exact AL. }
  { intros k I J. apply IN in I. apply BH in I. apply BL in J. congruence. }
  { exact NDl. }
  { intros k I. apply IN in I. rewrite G0. destruct (hi =? k); eauto. }
  rewrite R.
  assert (HNfh : ~ In hi fh).
  { intro I. apply BH in I. destruct (canon_self _ _ W H) as [K|[f K]]; congruence. }
  assert (NHl : ~ In hi f1).
  { rewrite M, IN. intros [I|I]; [apply BL in I|contradiction]; unfold canonical in H; rewrite I in H; congruence. }
  assert (EA : exists x, get_als st1 lo = Some x /\ add_forward_ref hi x = Some (Canonical (hi :: f1))).
  { destruct B as [[E [-> ->]]|B].
    - rewrite G0. destruct (Nat.eqb_spec hi lo); [congruence|]. destruct AL as [[AL ->]|AL]; rewrite AL; eexists; (split; [reflexivity|]); cbn; auto.
      rewrite (proj2 (mem_nat_out _ _)); auto.
    - rewrite B. eexists; split; [reflexivity|]. cbn. rewrite (proj2 (mem_nat_out _ _)); auto. }
  destruct EA as [x [E1 E2]]. rewrite E1, E2. eexists; split; [reflexivity|].
  set (st2 := set_als lo (Canonical (hi :: f1)) st1).
  assert (GA : forall y, get_als st2 y = if lo =? y then Some (Canonical (hi :: f1)) else if hi =? y then Some (BackRef lo)
                 else if mem_nat y fh then Some (BackRef lo) else get_als st y).
  { intro y. unfold st2. rewrite als_set_als. destruct (Nat.eqb_spec lo y) as [<-|N1]; [rewrite E1; reflexivity|].
    rewrite C6 by congruence. assert (mem_nat y (shuffle ho fh) = mem_nat y fh) as ->.
    { destruct (mem_nat y fh) eqn:EM; [apply mem_nat_in; apply IN; now apply mem_nat_in|]. apply mem_nat_out. rewrite IN. now apply mem_nat_out. }
    rewrite G0. destruct (Nat.eqb_spec hi y) as [<-|]; auto. destruct (mem_nat hi fh); reflexivity. }
  assert (LF : forall x, In x fl -> In x fh -> False). { intros y I J. apply BL in I. apply BH in J. congruence. }
  assert (LNfh : ~ In lo fh). { intro I. apply BH in I. unfold canonical in L. rewrite I in L. congruence. }
  assert (LNfl : ~ In lo fl). { intro I. apply BL in I. destruct AL as [[AL _]|AL]; congruence. }
  assert (HNfl : ~ In hi fl). { intro I. apply BL in I. unfold canonical in H. rewrite I in H. congruence. }
  constructor; auto.
  - unfold st2. cbn. rewrite sn_length, C5. unfold st0. cbn. apply sn_length.
  - intro y. unfold canonical at 1. rewrite GA.
    destruct (Nat.eqb_spec lo y) as [<-|N1]. { rewrite L. destruct (Nat.eqb_spec lo hi); congruence. }
    destruct (Nat.eqb_spec hi y) as [<-|N2]. { rewrite H, Nat.eqb_refl. reflexivity. }
    destruct (mem_nat y fh) eqn:EM.
    + apply mem_nat_in in EM. rewrite (proj2 (CH y) (or_intror EM)), Nat.eqb_refl. reflexivity.
    + apply mem_nat_out in EM. fold (canonical st y). destruct (canonical st y) as [c|] eqn:E; auto.
      destruct (Nat.eqb_spec c hi) as [->|]; auto. apply CH in E. destruct E; [congruence|contradiction].
  - constructor.
    + intros i j. rewrite GA. destruct (Nat.eqb_spec lo i) as [<-|N1]; [discriminate|].
      destruct (Nat.eqb_spec hi i) as [<-|N2].
      { intro E. injection E as <-. exists (hi :: f1). rewrite GA, Nat.eqb_refl. split; auto. left. reflexivity. }
      destruct (mem_nat i fh) eqn:EM.
      { intro E. injection E as <-. exists (hi :: f1). rewrite GA, Nat.eqb_refl. split; auto. right. apply M. right. apply IN. now apply mem_nat_in. }
      apply mem_nat_out in EM. intro E. destruct (a_back _ W _ _ E) as [f0 [B' I]].
      assert (canonical st i = Some j) as CI by (unfold canonical; rewrite E; reflexivity).
      rewrite GA. destruct (Nat.eqb_spec lo j) as [<-|N3].
      { exists (hi :: f1). split; auto. right. apply M. left. apply CL in CI. destruct CI; [congruence|assumption]. }
      destruct (Nat.eqb_spec hi j) as [<-|N4]. { apply CH in CI. destruct CI; [congruence|contradiction]. }
      destruct (mem_nat j fh) eqn:EJ; [|eauto]. apply mem_nat_in in EJ. apply BH in EJ. congruence.
    + intros i f k. rewrite GA. destruct (Nat.eqb_spec lo i) as [<-|N1].
      * intro E. injection E as <-. intros [<-|I]; rewrite GA.
        { destruct (Nat.eqb_spec lo hi); [congruence|]. rewrite Nat.eqb_refl. reflexivity. }
        apply M in I. rewrite IN in I. destruct (Nat.eqb_spec lo k) as [<-|]; [destruct I; contradiction|].
        destruct (Nat.eqb_spec hi k) as [<-|]; [destruct I; contradiction|].
        destruct I as [I|I]; [|rewrite (proj2 (mem_nat_in _ _) I); reflexivity].
        destruct (mem_nat k fh) eqn:EK; [reflexivity|]. apply BL. exact I.
      * destruct (Nat.eqb_spec hi i) as [<-|N2]; [discriminate|]. destruct (mem_nat i fh); [discriminate|]. intros E I.
        pose proof (a_fwd _ W _ _ _ E I) as B'. rewrite GA.
        destruct (Nat.eqb_spec lo k) as [<-|]. { unfold canonical in L. rewrite B' in L. congruence. }
        destruct (Nat.eqb_spec hi k) as [<-|]. { unfold canonical in H. rewrite B' in H. congruence. }
        destruct (mem_nat k fh) eqn:EK; [|exact B']. apply mem_nat_in in EK. apply BH in EK. congruence.
    + intros i f. rewrite GA. destruct (Nat.eqb_spec lo i) as [<-|N1]; [intro E; injection E as <-; constructor; auto|].
      destruct (Nat.eqb_spec hi i) as [<-|N2]; [discriminate|]. destruct (mem_nat i fh); [discriminate|]. apply (a_nodup _ W).
Qed.

(** Which classes are merged. *)
Lemma merge_of_spec st v1 v2 c1 c2 : awf st -> canonical st v1 = Some c1 -> canonical st v2 = Some c2 ->
  match merge_of st v1 v2 with
  | Done => c1 = c2
  | Repoint lo hi => get_als st hi = Some Ground /\ lo <> hi /\ (lo = c1 /\ hi = c2 \/ lo = c2 /\ hi = c1)
  | Recanon lo hi => lo <> hi /\ (lo = c1 /\ hi = c2 \/ lo = c2 /\ hi = c1)
  | MPanic => False
  end.
Proof.
  intros W E1 E2. unfold merge_of.
  assert (NE : forall i j, get_als st i = Some (BackRef j) -> match get_als st j with Some (Canonical (_ :: _)) => true | _ => false end = true).
  { intros i j A. destruct (a_back _ W _ _ A) as [f [B I]]. rewrite B. destruct f; [destruct I|reflexivity]. }
  assert (HB : forall i j, get_als st i = Some (BackRef j) -> match get_als st j with Some a => contains_fwd_ref a i | None => false end = true).
  { intros i j A. destruct (a_back _ W _ _ A) as [f [B I]]. rewrite B. cbn. now apply mem_nat_in. }
  assert (HN : forall i j, get_als st i <> Some (BackRef j) -> match get_als st j with Some a => contains_fwd_ref a i | None => false end = false).
  { intros i j A. destruct (get_als st j) as [[|k|f]|] eqn:B; cbn; auto. apply mem_nat_out. intro I. apply A. exact (a_fwd _ W _ _ _ B I). }
  destruct (Nat.eqb_spec v1 v2) as [->|N].
  { rewrite E1 in E2. injection E2 as ->. unfold canonical in E1. destruct (get_als st v2); [reflexivity|discriminate]. }
  unfold canonical in E1, E2.
  destruct (get_als st v1) as [[|j1|f1]|] eqn:A1; try discriminate; injection E1 as <-;
  destruct (get_als st v2) as [[|j2|f2]|] eqn:A2; try discriminate; injection E2 as <-.
  - destruct (v1 <? v2); auto.
  - assert (j2 <> v1). { intros ->. destruct (a_back _ W _ _ A2) as [f [B _]]. congruence. }
    destruct (Nat.ltb_spec j2 v1); [repeat split; auto; lia|]. destruct (Nat.ltb_spec v1 j2); [|lia].
    rewrite (NE _ _ A2). rewrite (HN v1 j2) by (rewrite A1; discriminate). cbn. repeat split; auto.
  - pose proof (HN v1 v2 ltac:(rewrite A1; discriminate)) as K. cbv zeta beta. rewrite A2 in *. rewrite K. destruct (v1 <? v2); auto.
  - assert (j1 <> v2). { intros ->. destruct (a_back _ W _ _ A1) as [f [B _]]. congruence. }
    destruct (Nat.ltb_spec j1 v2); [repeat split; auto; lia|]. destruct (Nat.ltb_spec v2 j1); [|lia].
    rewrite (NE _ _ A1). rewrite (HN v2 j1) by (rewrite A2; discriminate). cbn. repeat split; auto.
  - destruct (Nat.ltb_spec j1 j2); [repeat split; auto; lia|]. destruct (Nat.ltb_spec j2 j1); [repeat split; auto; lia|].
    assert (j1 = j2) as -> by lia. rewrite (HB _ _ A1), (HB _ _ A2). reflexivity.
  - destruct (mem_nat v1 f2) eqn:EM; destruct (Nat.eqb_spec j1 v2) as [->|N1].
    + reflexivity.
    + apply mem_nat_in in EM. pose proof (a_fwd _ W _ _ _ A2 EM). congruence.
    + apply mem_nat_out in EM. destruct (a_back _ W _ _ A1) as [f [B I]]. rewrite A2 in B. injection B as <-. contradiction.
    + destruct (j1 <? v2); auto.
  - pose proof (HN v2 v1 ltac:(rewrite A2; discriminate)) as K. cbv zeta beta. rewrite A1 in *. rewrite K. destruct (v2 <? v1); auto.
  - destruct (mem_nat v2 f1) eqn:EM; destruct (Nat.eqb_spec j2 v1) as [->|N1].
    + reflexivity.
    + apply mem_nat_in in EM. pose proof (a_fwd _ W _ _ _ A1 EM). congruence.
    + apply mem_nat_out in EM. destruct (a_back _ W _ _ A2) as [f [B I]]. rewrite A1 in B. injection B as <-. contradiction.
    + destruct (v1 <? j2); auto.
  - destruct (v1 <? v2); auto.
Qed.

Lemma is_aliased_spec st v w cv cw : awf st -> canonical st v = Some cv -> canonical st w = Some cw ->
  exists b, is_aliased st v w = Some b /\ (b = true -> cv = cw) /\ (b = false -> cv <> cw).
Proof.
  intros W E1 E2. unfold is_aliased. destruct (Nat.eqb_spec v w) as [->|N].
  { exists true. split; [reflexivity|]. split; [congruence|discriminate]. }
  unfold canonical in E1, E2.
  destruct (get_als st v) as [[|j1|f1]|] eqn:A1; try discriminate; injection E1 as <-;
  destruct (get_als st w) as [[|j2|f2]|] eqn:A2; try discriminate; injection E2 as <-;
    eexists; (split; [reflexivity|]); split; try discriminate; try congruence; intros E.
  - intros <-. destruct (a_back _ W _ _ A2) as [f [B _]]. congruence.
  - intros ->. destruct (a_back _ W _ _ A1) as [f [B _]]. congruence.
  - now apply Nat.eqb_eq.
  - now apply Nat.eqb_neq.
  - now apply Nat.eqb_eq.
  - now apply Nat.eqb_neq.
  - now apply Nat.eqb_eq in E.
  - apply Nat.eqb_neq in E. congruence.
Qed.
