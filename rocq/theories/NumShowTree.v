(** Reading the tokens of a shown numeric expression. *)
From Coq Require Import Ascii String DecimalString DecimalPos DecimalN.
From Verif Require Import Base BoundsModel DataModel NumericModel FragModel ShowModel NumShowModel NumShowSpec.
Open Scope nat_scope.

Inductive tok :=
| TOpen | TClose
| TBin (op : nbinop) (out : option mrep)
| TUn (op : nunop) (out : option mrep)
| TAs (sem : castsem) (out : mrep)
| TConst (t : text) (r : numrep)
| TVar (t : text).

Definition tok_text (t : tok) : text :=
  match t with
  | TOpen => str "("
  | TClose => str ")"
  | TBin op out => compile_bin_op op out
  | TUn op out => compile_unary_op op out
  | TAs sem out => str (cast_token sem) ++ str (rep_name out)
  | TConst t r => t ++ str (numrep_name r)
  | TVar t => t
  end.
Definition texts (ts : list tok) : text := flat_map tok_text ts.

Definition wrap (ts : list tok) (current cutoff : precedence) : list tok :=
  match relate current cutoff with
  | Disjoint | Superior => TOpen :: ts ++ [TClose]
  | Congruent | Inferior => ts
  end.

Section Tree.
Context (name : label -> text).
Hypothesis name_inj : forall x y, name x = name y -> x = y.

Fixpoint toks (e : nexpr) (p : precedence) : list tok :=
  match e with
  | NConst c => [TConst (decz (tc_val c)) (tc_rep c)]
  | NBin op out l r => wrap (toks l (bin_prec op) ++ TBin op out :: toks r (bin_prec op)) p (bin_prec op)
  | NUn op out e => wrap (TUn op out :: toks e (un_prec op)) p (un_prec op)
  | NCast out sem e => wrap (toks e CAST ++ [TAs sem out]) p CAST
  | NVar x => [TVar (name x)]
  end.

Lemma texts_app a b : texts (a ++ b) = texts a ++ texts b.
Proof. unfold texts. apply flat_map_app. Qed.
Lemma texts_wrap ts p q : texts (wrap ts p q) = parens (texts ts) p q.
Proof.
  unfold wrap, parens. destruct (relate p q); try reflexivity;
    unfold texts; cbn [flat_map]; rewrite flat_map_app; cbn [flat_map]; now rewrite app_nil_r.
Qed.
Lemma texts_toks e : forall p, texts (toks e p) = numeric_text name e p.
Proof.
  induction e as [c|op out l IHl r IHr|op out e IH|out sem e IH|x]; intros p; cbn [toks numeric_text].
  - cbn. now rewrite app_nil_r.
  - rewrite texts_wrap, texts_app. cbn [texts flat_map]. fold (texts (toks r (bin_prec op))). now rewrite IHl, IHr.
  - rewrite texts_wrap. cbn [texts flat_map]. fold (texts (toks e (un_prec op))). now rewrite IH.
  - rewrite texts_wrap, texts_app, IH. cbn [texts flat_map]. now rewrite app_nil_r.
  - cbn. now rewrite app_nil_r.
Qed.

(** ** The canonical grouping *)
Definition additive (op : nbinop) : bool := match op with NAdd | NSub => true | _ => false end.
Definition operator := (nbinop * option mrep)%type.
(** What was read of a sum before the present term, and that term *)
Definition state := (option (nexpr * operator) * nexpr)%type.
Definition bin (o : operator) (a b : nexpr) : nexpr := NBin (fst o) (snd o) a b.
Definition close (s : state) : nexpr :=
  match fst s with None => snd s | Some (a, o) => bin o a (snd s) end.
Definition feed (s : option (state * operator)) (x : nexpr) : state :=
  match s with
  | None => (None, x)
  | Some (st, o) => if additive (fst o) then (Some (close st, o), x) else (fst st, bin o (snd st) x)
  end.
Definition bare (p q : precedence) : bool :=
  match relate p q with Disjoint | Superior => false | _ => true end.
Fixpoint absorb (e : nexpr) (p : precedence) (s : option (state * operator)) : state :=
  match e with
  | NBin op out l r =>
      let q := bin_prec op in
      if bare p q then absorb r q (Some (absorb l q s, (op, out)))
      else feed s (close (absorb r q (Some (absorb l q None, (op, out)))))
  | NUn op out e => feed s (NUn op out (close (absorb e Top None)))
  | NCast out sem e => feed s (NCast out sem (close (absorb e Top None)))
  | _ => feed s e
  end.
Definition canon (e : nexpr) : nexpr := close (absorb e Top None).

(** ** Reading *)
Inductive goal := Group | Item | Prefixed | Casts (x : nexpr) | Pend (s : option (state * operator)) | Tail (s : state).
Definition is_step (op : nunop) : bool := match op with NSucc | NPred => true | _ => false end.
Definition starts_step (ts : list tok) : bool := match ts with TUn op _ :: _ => is_step op | _ => false end.
Definition starts_as (ts : list tok) : bool := match ts with TAs _ _ :: _ => true | _ => false end.
Definition starts_bin (ts : list tok) : bool := match ts with TBin _ _ :: _ => true | _ => false end.
Inductive Reads : goal -> list tok -> nexpr -> list tok -> Prop :=
| R_step op out ts e r : is_step op = true -> Reads Group ts e r -> Reads Group (TUn op out :: ts) (NUn op out e) r
| R_group ts e r : starts_step ts = false -> Reads (Pend None) ts e r -> Reads Group ts e r
| R_pend s ts x ts1 e r : Reads Item ts x ts1 -> Reads (Tail (feed s x)) ts1 e r -> Reads (Pend s) ts e r
| R_bin s op out ts e r : Reads (Pend (Some (s, (op, out)))) ts e r -> Reads (Tail s) (TBin op out :: ts) e r
| R_end s ts : starts_bin ts = false -> Reads (Tail s) ts (close s) ts
| R_item ts x ts1 y r : Reads Prefixed ts x ts1 -> Reads (Casts x) ts1 y r -> Reads Item ts y r
| R_cast x sem out ts y r : Reads (Casts (NCast out sem x)) ts y r -> Reads (Casts x) (TAs sem out :: ts) y r
| R_nocast x ts : starts_as ts = false -> Reads (Casts x) ts x ts
| R_prefix op out ts x r : is_step op = false -> Reads Prefixed ts x r -> Reads Prefixed (TUn op out :: ts) (NUn op out x) r
| R_const z rep ts : Reads Prefixed (TConst (decz z) rep :: ts) (NConst (TC z rep)) ts
| R_var x ts : Reads Prefixed (TVar (name x) :: ts) (NVar x) ts
| R_paren ts e r : Reads Group ts e (TClose :: r) -> Reads Prefixed (TOpen :: ts) e r.

Lemma decimal_inj m n : decimal m = decimal n -> m = n.
Proof.
  unfold decimal, str. intros H.
  assert (K : forall a b, map N_of_ascii (list_ascii_of_string a) = map N_of_ascii (list_ascii_of_string b) -> a = b).
  { induction a as [|c a IH]; intros [|d b]; cbn [list_ascii_of_string map]; intros E; try discriminate E; [reflexivity|].
    injection E as E1 E2. rewrite (IH b E2). f_equal.
    rewrite <- (ascii_N_embedding c), <- (ascii_N_embedding d). now rewrite E1. }
  apply K in H. apply DecimalN.Unsigned.to_uint_inj.
  assert (Z : forall k, N.to_uint k <> Decimal.Nil) by (intros []; [discriminate|apply DecimalPos.Unsigned.to_uint_nonnil]).
  pose proof (NilZero.usu (N.to_uint m) (Z m)) as A. pose proof (NilZero.usu (N.to_uint n) (Z n)) as B.
  rewrite H in A. congruence.
Qed.
Lemma digits_empty u : forallb digit (str (NilEmpty.string_of_uint u)) = true.
Proof. induction u; [reflexivity|..]; unfold str in *; cbn [NilEmpty.string_of_uint list_ascii_of_string map forallb]; now rewrite IHu. Qed.
Lemma decimal_digits n : forallb digit (decimal n) = true /\ decimal n <> [].
Proof.
  unfold decimal, NilZero.string_of_uint. pose proof (digits_empty (N.to_uint n)) as H.
  destruct (N.to_uint n) as [|u|u|u|u|u|u|u|u|u|u]; (split; [first [exact H|reflexivity]|discriminate]).
Qed.
Lemma decz_inj a b : decz a = decz b -> a = b.
Proof.
  assert (K : forall n r, decimal n <> str "-" ++ r).
  { intros n r E. destruct (decimal_digits n) as [D _]. rewrite E in D. discriminate D. }
  unfold decz. destruct (a <? 0)%Z eqn:A, (b <? 0)%Z eqn:B; intros H.
  - apply app_inv_head in H. apply decimal_inj in H. lia.
  - symmetry in H. now apply K in H.
  - now apply K in H.
  - apply decimal_inj in H. lia.
Qed.

Lemma reads_det g ts e r : Reads g ts e r -> forall e' r', Reads g ts e' r' -> e = e' /\ r = r'.
Proof.
  induction 1 as [op out ts e r S H IH|ts e r S H IH|s ts x ts1 e r H1 IH1 H2 IH2|s op out ts e r H IH|s ts S
                 |ts x ts1 y r H1 IH1 H2 IH2|x sem out ts y r H IH|x ts S|op out ts x r S H IH|z rep ts|x ts|ts e r H IH];
    intros e' r' H'.
  - inversion H'; subst.
    + destruct (IH _ _ ltac:(eassumption)) as [-> ->]. auto.
    + cbn in *. congruence.
  - inversion H'; subst.
    + cbn in *. congruence.
    + apply IH. assumption.
  - inversion H'; subst. destruct (IH1 _ _ ltac:(eassumption)) as [-> ->]. apply IH2. assumption.
  - inversion H'; subst; [|discriminate]. apply IH. assumption.
  - inversion H'; subst; [discriminate|]. auto.
  - inversion H'; subst. destruct (IH1 _ _ ltac:(eassumption)) as [-> ->]. apply IH2. assumption.
  - inversion H'; subst; [|discriminate]. apply IH. assumption.
  - inversion H'; subst; [discriminate|]. auto.
  - inversion H'; subst. destruct (IH _ _ ltac:(eassumption)) as [-> ->]. auto.
  - inversion H' as [| | | | | | | | |z' rep' ts' E| |]; subst. apply decz_inj in E || idtac.
    split; [|reflexivity]. f_equal. f_equal. first [now apply decz_inj|auto].
  - inversion H'; subst. split; [|reflexivity]. f_equal. symmetry. apply name_inj. assumption.
  - inversion H'; subst. destruct (IH _ _ ltac:(eassumption)) as [-> E]. injection E as ->. auto.
Qed.

Definition tight (p : precedence) : bool :=
  match p with ArithInfix _ | Mono MPostfix => true | _ => false end.
Lemma tight_bin op : tight (bin_prec op) = true.
Proof. now destruct op. Qed.
Lemma no_step e : forall p r, tight p = true -> starts_step (toks e p ++ r) = false.
Proof.
  induction e as [c|op out l IHl rr IHr|op out e IH|out sem e IH|x]; intros p r T; cbn [toks]; try reflexivity.
  - unfold wrap. destruct (relate p (bin_prec op)); try reflexivity; rewrite <- app_assoc; apply IHl, tight_bin.
  - destruct p as [| |[]|[]| | | | |]; try discriminate T; destruct op; reflexivity.
  - unfold wrap. destruct (relate p CAST); try reflexivity; rewrite <- app_assoc; now apply IH.
Qed.

Definition stops (r : list tok) : bool := negb (starts_as r) && negb (starts_bin r).
Lemma toks_reads e :
  (forall r, Reads Prefixed (toks e UNARY ++ r) (canon e) r) /\
  (forall r y r2, Reads (Casts (canon e)) r y r2 -> Reads Item (toks e CAST ++ r) y r2) /\
  (forall op s r y r2, starts_as r = false -> Reads (Tail (absorb e (bin_prec op) s)) r y r2 ->
     Reads (Pend s) (toks e (bin_prec op) ++ r) y r2) /\
  (forall r, stops r = true -> Reads Group (toks e Top ++ r) (canon e) r) /\
  toks e INVOKE = toks e Top.
Proof.
  assert (ST : forall r, stops r = true -> starts_as r = false /\ starts_bin r = false).
  { intros r H. unfold stops in H. now destruct (starts_as r), (starts_bin r). }
  (* what is read as a prefixed item at every precedence *)
  assert (A : forall ts x, (forall r, Reads Prefixed (ts ++ r) x r) -> starts_step ts = false -> ts <> [] ->
    (forall r y r2, Reads (Casts x) r y r2 -> Reads Item (ts ++ r) y r2) /\
    (forall s r y r2, starts_as r = false -> Reads (Tail (feed s x)) r y r2 -> Reads (Pend s) (ts ++ r) y r2) /\
    (forall r, stops r = true -> Reads Group (ts ++ r) x r)).
  { intros ts x H S N.
    assert (B : forall r y r2, Reads (Casts x) r y r2 -> Reads Item (ts ++ r) y r2).
    { intros r y r2 K. exact (R_item _ _ _ _ _ (H r) K). }
    assert (C : forall s r y r2, starts_as r = false -> Reads (Tail (feed s x)) r y r2 -> Reads (Pend s) (ts ++ r) y r2).
    { intros s r y r2 K1 K2. apply (R_pend s _ x r); [|exact K2]. apply B. now apply R_nocast. }
    refine (conj B (conj C _)). intros r K. apply ST in K as [K1 K2]. apply R_group.
    - destruct ts; [contradiction|exact S].
    - apply C; [exact K1|]. exact (R_end (None, x) r K2). }
  (* what is put into parentheses *)
  assert (W : forall ts x, (forall r, stops r = true -> Reads Group (ts ++ r) x r) ->
    forall r, Reads Prefixed ((TOpen :: ts ++ [TClose]) ++ r) x r).
  { intros ts x H r. cbn [app]. rewrite <- app_assoc. apply R_paren. now apply H. }
  induction e as [[z rep]|op out l IHl rr IHr|op out e IH|out sem e IH|x].
  - destruct (A [TConst (decz z) rep] (NConst (TC z rep))) as [H1 [H2 H3]];
      [intros r; apply R_const|reflexivity|discriminate|].
    refine (conj _ (conj H1 (conj _ (conj H3 eq_refl)))); [intros r; apply R_const|]. intros op. exact H2.
  - destruct IHl as [_ [_ [Pl _]]], IHr as [_ [_ [Pr _]]].
    assert (G : forall r, stops r = true -> Reads Group (toks (NBin op out l rr) Top ++ r) (canon (NBin op out l rr)) r).
    { intros r K. apply ST in K as [K1 K2]. apply R_group.
      - cbn [toks]. replace (wrap _ Top (bin_prec op)) with (toks l (bin_prec op) ++ TBin op out :: toks rr (bin_prec op)) by (now destruct op).
        rewrite <- app_assoc. apply no_step, tight_bin.
      - cbn [toks]. replace (wrap _ Top (bin_prec op)) with (toks l (bin_prec op) ++ TBin op out :: toks rr (bin_prec op)) by (now destruct op).
        rewrite <- app_assoc. apply Pl; [reflexivity|]. cbn [app]. apply R_bin. apply Pr; [exact K1|].
        unfold canon. cbn [absorb]. replace (bare Top (bin_prec op)) with true by (now destruct op).
        now apply R_end. }
    pose proof (W _ _ G) as GW.
    destruct (A _ _ GW) as [H1 [H2 _]]; [reflexivity|discriminate|].
    assert (EU : toks (NBin op out l rr) UNARY = TOpen :: toks (NBin op out l rr) Top ++ [TClose]) by (now destruct op).
    assert (EC : toks (NBin op out l rr) CAST = TOpen :: toks (NBin op out l rr) Top ++ [TClose]) by (now destruct op).
    refine (conj _ (conj _ (conj _ (conj G _)))).
    + rewrite EU. exact GW.
    + rewrite EC. exact H1.
    + intros op' s r y r2 K1 K2. cbn [absorb] in K2. destruct (bare (bin_prec op') (bin_prec op)) eqn:B.
      * replace (toks (NBin op out l rr) (bin_prec op')) with (toks l (bin_prec op) ++ TBin op out :: toks rr (bin_prec op)).
        2:{ cbn [toks]. unfold wrap. unfold bare in B. now destruct (relate (bin_prec op') (bin_prec op)). }
        rewrite <- app_assoc. apply Pl; [reflexivity|]. cbn [app]. apply R_bin. now apply Pr.
      * replace (toks (NBin op out l rr) (bin_prec op')) with (TOpen :: toks (NBin op out l rr) Top ++ [TClose]).
        2:{ cbn [toks]. replace (wrap _ Top (bin_prec op)) with (toks l (bin_prec op) ++ TBin op out :: toks rr (bin_prec op)) by (now destruct op).
            unfold wrap. unfold bare in B. now destruct (relate (bin_prec op') (bin_prec op)). }
        apply H2; [exact K1|]. unfold canon. cbn [absorb]. replace (bare Top (bin_prec op)) with true by (now destruct op).
        exact K2.
    + now destruct op.
  - destruct IH as [U [_ [_ [G E]]]]. destruct (is_step op) eqn:S.
    + assert (GG : forall r, stops r = true -> Reads Group (toks (NUn op out e) Top ++ r) (canon (NUn op out e)) r).
      { intros r K. replace (toks (NUn op out e) Top) with (TUn op out :: toks e Top).
        2:{ destruct op; try discriminate S; cbn [toks un_prec]; rewrite E; reflexivity. }
        cbn [app]. apply R_step; [exact S|]. now apply G. }
      pose proof (W _ _ GG) as GW. destruct (A _ _ GW) as [H1 [H2 _]]; [reflexivity|discriminate|].
      assert (EQ : forall p, tight p = true \/ p = UNARY -> toks (NUn op out e) p = TOpen :: toks (NUn op out e) Top ++ [TClose]).
      { intros p [T| ->]; destruct op; try discriminate S; try reflexivity; destruct p as [| |[]|[]| | | | |]; try discriminate T; reflexivity. }
      refine (conj _ (conj _ (conj _ (conj GG _)))).
      * rewrite EQ by (right; reflexivity). exact GW.
      * rewrite EQ by (left; reflexivity). exact H1.
      * intros op'. rewrite EQ by (left; apply tight_bin). exact H2.
      * destruct op; try discriminate S; reflexivity.
    + destruct (A (TUn op out :: toks e UNARY) (canon (NUn op out e))) as [H1 [H2 H3]].
      * intros r. cbn [app]. apply R_prefix; [exact S|apply U].
      * exact S.
      * discriminate.
      * assert (EQ : forall p, tight p = true \/ p = UNARY \/ p = Top \/ p = INVOKE -> toks (NUn op out e) p = TUn op out :: toks e UNARY).
        { intros p [T|[-> |[-> | ->]]]; destruct op; try discriminate S; try reflexivity; destruct p as [| |[]|[]| | | | |]; try discriminate T; reflexivity. }
        refine (conj _ (conj _ (conj _ (conj _ _)))).
        -- rewrite EQ by tauto. intros r. cbn [app]. apply R_prefix; [exact S|apply U].
        -- rewrite EQ by tauto. exact H1.
        -- intros op'. rewrite EQ by (left; apply tight_bin). exact H2.
        -- rewrite EQ by tauto. exact H3.
        -- rewrite !EQ by tauto. reflexivity.
  - destruct IH as [_ [C _]].
    assert (I : forall r y r2, Reads (Casts (canon (NCast out sem e))) r y r2 ->
      Reads Item ((toks e CAST ++ [TAs sem out]) ++ r) y r2).
    { intros r y r2 K. rewrite <- app_assoc. apply C. cbn [app]. now apply R_cast. }
    assert (P : forall s r y r2, starts_as r = false -> Reads (Tail (feed s (canon (NCast out sem e)))) r y r2 ->
      Reads (Pend s) ((toks e CAST ++ [TAs sem out]) ++ r) y r2).
    { intros s r y r2 K1 K2. eapply R_pend; [apply I; now apply R_nocast|exact K2]. }
    assert (G : forall r, stops r = true -> Reads Group ((toks e CAST ++ [TAs sem out]) ++ r) (canon (NCast out sem e)) r).
    { intros r K. apply ST in K as [K1 K2]. apply R_group; [rewrite <- app_assoc; now apply no_step|].
      apply P; [exact K1|]. exact (R_end (None, _) r K2). }
    refine (conj (W _ _ G) (conj I (conj _ (conj G eq_refl)))).
    intros [] s r y r2; exact (P s r y r2).
  - destruct (A [TVar (name x)] (NVar x)) as [H1 [H2 H3]];
      [intros r; apply R_var|reflexivity|discriminate|].
    refine (conj _ (conj H1 (conj _ (conj H3 eq_refl)))); [intros r; apply R_var|]. intros op. exact H2.
Qed.

Lemma toks_canon e e' : toks e Top = toks e' Top -> canon e = canon e'.
Proof.
  intros E. destruct (toks_reads e) as [_ [_ [_ [G _]]]], (toks_reads e') as [_ [_ [_ [G' _]]]].
  specialize (G [] eq_refl). specialize (G' [] eq_refl). rewrite E in G.
  exact (proj1 (reads_det _ _ _ _ G _ _ G')).
Qed.

(** ** The canonical grouping is a regrouping *)
Definition acc_of (s : option (state * operator)) : option (nexpr * operator) :=
  match s with
  | None => None
  | Some (st, o) => if additive (fst o) then Some (close st, o) else fst st
  end.
Definition term_of (s : option (state * operator)) (e : nexpr) : nexpr :=
  match s with
  | None => e
  | Some (st, o) => if additive (fst o) then e else bin o (snd st) e
  end.
Definition fitting (op : nbinop) (s : option (state * operator)) : bool :=
  match s with None => true | Some (_, o) => additive (fst o) || chained (fst o) op end.
Lemma feed_parts s x : feed s x = (acc_of s, term_of s x).
Proof. destruct s as [[st o]|]; [|reflexivity]. unfold feed, acc_of, term_of. now destruct (additive (fst o)). Qed.
Lemma close_regrouped a t t' : Regrouped t t' -> Regrouped (close (a, t)) (close (a, t')).
Proof. intros H. destruct a as [[a o]|]; [|exact H]. apply NG_bin; [apply NG_refl|exact H]. Qed.
Lemma term_regrouped s t t' : Regrouped t t' -> Regrouped (term_of s t) (term_of s t').
Proof.
  intros H. destruct s as [[st o]|]; [|exact H]. unfold term_of. destruct (additive (fst o)); [exact H|].
  apply NG_bin; [apply NG_refl|exact H].
Qed.

Lemma absorb_regrouped e :
  Regrouped (canon e) e /\
  (forall op s, additive op = false -> fitting op s = true ->
     exists t, absorb e (bin_prec op) s = (acc_of s, t) /\ Regrouped t (term_of s e)) /\
  (forall op s, additive op = true -> fitting op s = true ->
     Regrouped (close (absorb e (bin_prec op) s)) (close (acc_of s, term_of s e))).
Proof.
  (* what is read as one item *)
  assert (A : forall f, Regrouped (canon f) f -> (forall p s, absorb f p s = feed s (canon f)) ->
    (forall op s, additive op = false -> fitting op s = true ->
      exists t, absorb f (bin_prec op) s = (acc_of s, t) /\ Regrouped t (term_of s f)) /\
    (forall op s, additive op = true -> fitting op s = true ->
      Regrouped (close (absorb f (bin_prec op) s)) (close (acc_of s, term_of s f)))).
  { intros f R E. split; intros op s Ha Hf; rewrite E, feed_parts.
    - exists (term_of s (canon f)). split; [reflexivity|]. now apply term_regrouped.
    - apply close_regrouped. now apply term_regrouped. }
  induction e as [c|op out l IHl r IHr|op out e IH|out sem e IH|x].
  - refine (conj (NG_refl _) (A _ (NG_refl _) _)). reflexivity.
  - destruct IHl as [_ [Ml Al]], IHr as [_ [Mr Ar]].
    assert (FM : forall s, additive op = false -> fitting op s = true ->
      exists t, absorb r (bin_prec op) (Some (absorb l (bin_prec op) s, (op, out))) = (acc_of s, t) /\
                Regrouped t (term_of s (NBin op out l r))).
    { intros s Ha Hf. destruct (Ml op s Ha Hf) as [t1 [E1 R1]]. rewrite E1.
      destruct (Mr op (Some ((acc_of s, t1), (op, out))) Ha) as [t2 [E2 R2]].
      { cbn [fitting fst]. rewrite Ha. now destruct op. }
      exists t2. split.
      - refine (eq_trans E2 _). cbn [acc_of fst]. now rewrite Ha.
      - eapply NG_trans; [exact R2|]. cbn [term_of fst snd]. rewrite Ha. unfold bin at 1. cbn [fst snd].
        eapply NG_trans; [apply NG_bin; [exact R1|apply NG_refl]|].
        destruct s as [[st o]|]; [|apply NG_refl]. cbn [term_of]. destruct (additive (fst o)) eqn:Ho; [apply NG_refl|].
        cbn [fitting] in Hf. rewrite Ho in Hf. cbn [orb] in Hf. unfold bin. now apply NG_rotate. }
    assert (FA : forall s, additive op = true -> fitting op s = true ->
      Regrouped (close (absorb r (bin_prec op) (Some (absorb l (bin_prec op) s, (op, out)))))
                (close (acc_of s, term_of s (NBin op out l r)))).
    { intros s Ha Hf. eapply NG_trans; [apply (Ar op _ Ha)|].
      { cbn [fitting fst]. now rewrite Ha. }
      cbn [acc_of term_of fst snd]. rewrite Ha. unfold close at 1. cbn [fst snd bin].
      eapply NG_trans; [apply NG_bin; [exact (Al op s Ha Hf)|apply NG_refl]|].
      destruct s as [[st o]|]; [|apply NG_refl]. cbn [fitting] in Hf.
      assert (Ho : additive (fst o) = true).
      { destruct (additive (fst o)) eqn:Ho; [reflexivity|]. cbn [orb] in Hf. destruct (fst o), op; discriminate. }
      cbn [acc_of term_of]. rewrite Ho. unfold close at 1 3. cbn [fst snd]. unfold bin.
      apply NG_rotate. destruct (fst o), op; try discriminate; reflexivity. }
    assert (R : Regrouped (canon (NBin op out l r)) (NBin op out l r)).
    { unfold canon. cbn [absorb]. replace (bare Top (bin_prec op)) with true by (now destruct op).
      destruct (additive op) eqn:Ha.
      - exact (FA None eq_refl eq_refl).
      - destruct (FM None eq_refl eq_refl) as [t [E K]]. rewrite E. exact K. }
    assert (NB : forall p, bare p (bin_prec op) = false -> forall s, absorb (NBin op out l r) p s = feed s (canon (NBin op out l r))).
    { intros p B s. unfold canon. cbn [absorb]. rewrite B. replace (bare Top (bin_prec op)) with true by (now destruct op). reflexivity. }
    refine (conj R (conj _ _)); intros op' s Ha Hf; destruct (bare (bin_prec op') (bin_prec op)) eqn:B.
    + cbn [absorb]. rewrite B.
      assert (Ho : additive op = false) by (destruct op', op; try discriminate; reflexivity).
      apply FM; [exact Ho|]. destruct s as [[st o]|]; [|reflexivity]. cbn [fitting] in *.
      destruct (additive (fst o)) eqn:Ho'; [reflexivity|]. cbn [orb] in *.
      destruct (fst o), op', op; try discriminate; reflexivity.
    + rewrite (NB _ B), feed_parts. eexists. split; [reflexivity|]. now apply term_regrouped.
    + cbn [absorb]. rewrite B.
      assert (Hs : forall q, fitting q s = true).
      { intros q. destruct s as [[st o]|]; [|reflexivity]. cbn [fitting] in *. destruct (additive (fst o)) eqn:Ho'; [reflexivity|].
        cbn [orb] in Hf. destruct (fst o), op'; discriminate. }
      destruct (additive op) eqn:Ho.
      * now apply FA.
      * destruct (FM s eq_refl (Hs op)) as [t [E K]]. rewrite E. now apply close_regrouped.
    + rewrite (NB _ B), feed_parts. apply close_regrouped. now apply term_regrouped.
  - destruct IH as [R _].
    assert (K : Regrouped (canon (NUn op out e)) (NUn op out e)) by (apply NG_un; exact R).
    refine (conj K (A _ K _)). reflexivity.
  - destruct IH as [R _].
    assert (K : Regrouped (canon (NCast out sem e)) (NCast out sem e)) by (apply NG_cast; exact R).
    refine (conj K (A _ K _)). reflexivity.
  - refine (conj (NG_refl _) (A _ (NG_refl _) _)). reflexivity.
Qed.

Lemma toks_regrouped e e' : toks e Top = toks e' Top -> Regrouped e e'.
Proof.
  intros E. apply toks_canon in E. eapply NG_trans; [apply NG_sym, (proj1 (absorb_regrouped e))|].
  rewrite E. apply absorb_regrouped.
Qed.

(** ... and leaves what is grouped to the left. *)
Definition free (s : option (state * operator)) (e : nexpr) : bool :=
  match s, e with Some (_, o), NBin o' _ _ _ => negb (chained (fst o) o') | _, _ => true end.
Definition in_sum (s : option (state * operator)) : bool :=
  match s with Some (_, o) => additive (fst o) | None => true end.
Lemma absorb_left e : to_the_left e = true ->
  canon e = e /\
  (forall op s, additive op = false -> fitting op s = true -> in_sum s || free s e = true ->
     absorb e (bin_prec op) s = feed s e) /\
  (forall op s, additive op = true -> in_sum s = true -> free s e = true ->
     close (absorb e (bin_prec op) s) = close (feed s e)).
Proof.
  assert (A : forall f, canon f = f -> (forall p s, absorb f p s = feed s (canon f)) ->
    canon f = f /\
    (forall op s, additive op = false -> fitting op s = true -> in_sum s || free s f = true ->
       absorb f (bin_prec op) s = feed s f) /\
    (forall op s, additive op = true -> in_sum s = true -> free s f = true ->
       close (absorb f (bin_prec op) s) = close (feed s f))).
  { intros f C E. refine (conj C (conj _ _)); intros op s _ _ _; now rewrite E, C. }
  induction e as [c|op out l IHl r IHr|op out e IH|out sem e IH|x]; intros L.
  - now apply A.
  - cbn [to_the_left] in L. apply andb_prop in L as [L Lf]. apply andb_prop in L as [Ll Lr].
    destruct (IHl Ll) as [_ [Ml Al]], (IHr Lr) as [_ [Mr Ar]]. clear IHl IHr A.
    assert (RF : forall st, free (Some (st, (op, out))) r = true) by (intros st; destruct r; (reflexivity || exact Lf)).
    assert (CO : chained op op = true) by (now destruct op).
    assert (FM : forall s, additive op = false -> in_sum s = true ->
      absorb r (bin_prec op) (Some (absorb l (bin_prec op) s, (op, out))) = feed s (NBin op out l r)).
    { intros s Ha Hs. rewrite (Ml op s Ha).
      - rewrite (Mr op _ Ha); [|cbn [fitting fst]; now rewrite CO, orb_true_r|now rewrite RF, orb_true_r].
        cbn [feed fst snd]. rewrite Ha. destruct s as [[st o]|]; [|reflexivity]. cbn [feed]. cbn [in_sum] in Hs. now rewrite Hs.
      - destruct s as [[st o]|]; [|reflexivity]. cbn [fitting]. cbn [in_sum] in Hs. now rewrite Hs.
      - now rewrite Hs. }
    assert (FA : additive op = true ->
      close (absorb r (bin_prec op) (Some (absorb l (bin_prec op) None, (op, out)))) = NBin op out l r).
    { intros Ha. rewrite (Ar op _ Ha); [|exact Ha|apply RF]. cbn [feed fst]. rewrite Ha. unfold close at 1. cbn [fst snd].
      rewrite (Al op None Ha eq_refl); [reflexivity|]. now destruct l. }
    assert (C : canon (NBin op out l r) = NBin op out l r).
    { unfold canon. cbn [absorb]. replace (bare Top (bin_prec op)) with true by (now destruct op).
      destruct (additive op) eqn:Ha; [now apply FA|]. now rewrite (FM None). }
    assert (NB : forall p, bare p (bin_prec op) = false -> forall s, absorb (NBin op out l r) p s = feed s (NBin op out l r)).
    { intros p B s. rewrite <- C at 2. unfold canon. cbn [absorb]. rewrite B. replace (bare Top (bin_prec op)) with true by (now destruct op). reflexivity. }
    refine (conj C (conj _ _)); intros op' s Ha Hs Hf; (destruct (bare (bin_prec op') (bin_prec op)) eqn:B; [|now rewrite (NB _ B)]);
      cbn [absorb]; rewrite B.
    + apply FM; [destruct op', op; try discriminate; reflexivity|].
      destruct s as [[st [o u]]|]; [|reflexivity]. cbn [in_sum fitting free fst] in *.
      destruct o, op', op; try discriminate; reflexivity.
    + destruct (additive op) eqn:Ho; [|now rewrite FM].
      destruct s as [[st [o u]]|]; [|now apply FA]. cbn [in_sum free fst] in *. destruct o, op; discriminate.
  - apply A; [|reflexivity]. destruct (IH L) as [C _]. change (NUn op out (canon e) = NUn op out e). now rewrite C.
  - apply A; [|reflexivity]. destruct (IH L) as [C _]. change (NCast out sem (canon e) = NCast out sem e). now rewrite C.
  - now apply A.
Qed.

(** What the canonical grouping makes is grouped to the left. *)
Definition heads (e : nexpr) : option nbinop := match e with NBin o _ _ _ => Some o | _ => None end.
Definition alike (e f : nexpr) : bool :=
  match heads e, heads f with Some o, Some o' => chained o' o | None, None => true | _, _ => false end.
Definition headed (op : nbinop) (e : nexpr) : bool := match heads e with Some o => chained o op | None => false end.
Lemma bin_left o a b : to_the_left a = true -> to_the_left b = true ->
  headed (fst o) b = false -> to_the_left (bin o a b) = true.
Proof.
  intros A B H. unfold bin. cbn [to_the_left]. rewrite A, B. cbn [andb]. destruct b; try reflexivity.
  unfold headed in H. cbn [heads] in H. destruct (fst o), op; try discriminate H; reflexivity.
Qed.
Lemma canon_grouped e :
  (to_the_left (canon e) = true /\ alike e (canon e) = true) /\
  (forall op s, additive op = false -> fitting op s = true ->
     match s with Some (st, o) => additive (fst o) = false -> to_the_left (snd st) = true | None => True end ->
     exists t, absorb e (bin_prec op) s = (acc_of s, t) /\ to_the_left t = true /\
               (if in_sum s then alike e t else headed op t) = true) /\
  (forall op s, additive op = true -> in_sum s = true ->
     match s with Some (st, _) => to_the_left (close st) = true | None => True end ->
     to_the_left (close (absorb e (bin_prec op) s)) = true /\
     match s with Some _ => headed op (close (absorb e (bin_prec op) s)) = true | None => alike e (close (absorb e (bin_prec op) s)) = true end).
Proof.
  (* what is read as one item *)
  assert (B : forall f op s, additive op = false -> fitting op s = true ->
    match s with Some (st, o) => additive (fst o) = false -> to_the_left (snd st) = true | None => True end ->
    to_the_left (canon f) = true -> alike f (canon f) = true -> headed op f = false -> absorb f (bin_prec op) s = feed s (canon f) ->
    exists t, absorb f (bin_prec op) s = (acc_of s, t) /\ to_the_left t = true /\ (if in_sum s then alike f t else headed op t) = true).
  { intros f op s Ha Hf Hs L K N E. exists (term_of s (canon f)). rewrite E, feed_parts. split; [reflexivity|].
    destruct s as [[st o]|]; [|split; assumption]. cbn [in_sum term_of fitting] in *.
    destruct (additive (fst o)) eqn:Ho; [split; assumption|]. cbn [orb] in Hf. split.
    - apply bin_left; [now apply Hs|exact L|]. unfold alike, headed in *.
      destruct (heads f) as [o1|], (heads (canon f)) as [o2|]; try discriminate K; try reflexivity.
      destruct (fst o), op, o1, o2; try discriminate; reflexivity.
    - unfold headed. cbn [heads bin]. exact Hf. }
  assert (A : forall f, heads f = None -> to_the_left (canon f) = true -> heads (canon f) = None ->
    (forall p s, absorb f p s = feed s (canon f)) ->
    (to_the_left (canon f) = true /\ alike f (canon f) = true) /\
    (forall op s, additive op = false -> fitting op s = true ->
       match s with Some (st, o) => additive (fst o) = false -> to_the_left (snd st) = true | None => True end ->
       exists t, absorb f (bin_prec op) s = (acc_of s, t) /\ to_the_left t = true /\
                 (if in_sum s then alike f t else headed op t) = true) /\
    (forall op s, additive op = true -> in_sum s = true ->
       match s with Some (st, _) => to_the_left (close st) = true | None => True end ->
       to_the_left (close (absorb f (bin_prec op) s)) = true /\
       match s with Some _ => headed op (close (absorb f (bin_prec op) s)) = true | None => alike f (close (absorb f (bin_prec op) s)) = true end)).
  { intros f H1 L H2 E. assert (K : alike f (canon f) = true) by (unfold alike; now rewrite H1, H2).
    refine (conj (conj L K) (conj _ _)).
    - intros op s Ha Hf Hs. apply B; auto. unfold headed. now rewrite H1.
    - intros op s Ha Hs Hl. rewrite E. destruct s as [[st o]|]; [|now split]. cbn [feed in_sum] in *. rewrite Hs.
      unfold close. cbn [fst snd]. fold (close st). split.
      + apply bin_left; [exact Hl|exact L|]. unfold headed. now rewrite H2.
      + unfold headed. cbn [heads bin]. destruct (fst o), op; try discriminate; reflexivity. }
  induction e as [c|op out l IHl r IHr|op out e IH|out sem e IH|x].
  - now apply A.
  - destruct IHl as [_ [Ml Al]], IHr as [_ [Mr Ar]]. clear A.
    assert (CO : chained op op = true) by (now destruct op).
    assert (FM : forall s, additive op = false -> fitting op s = true ->
      match s with Some (st, o) => additive (fst o) = false -> to_the_left (snd st) = true | None => True end ->
      exists t, absorb r (bin_prec op) (Some (absorb l (bin_prec op) s, (op, out))) = (acc_of s, t) /\
                to_the_left t = true /\ headed op t = true).
    { intros s Ha Hf Hs. destruct (Ml op s Ha Hf Hs) as [t1 [E1 [L1 _]]]. rewrite E1.
      destruct (Mr op (Some ((acc_of s, t1), (op, out))) Ha) as [t2 [E2 [L2 H2]]].
      - cbn [fitting fst]. now rewrite CO, orb_true_r.
      - intros _. exact L1.
      - exists t2. split; [|split; [exact L2|]].
        + refine (eq_trans E2 _). cbn [acc_of fst]. now rewrite Ha.
        + cbn [in_sum fst] in H2. now rewrite Ha in H2. }
    assert (FA : forall s, additive op = true -> in_sum s = true ->
      match s with Some (st, _) => to_the_left (close st) = true | None => True end ->
      to_the_left (close (absorb r (bin_prec op) (Some (absorb l (bin_prec op) s, (op, out))))) = true /\
      headed op (close (absorb r (bin_prec op) (Some (absorb l (bin_prec op) s, (op, out))))) = true).
    { intros s Ha Hs Hl. apply (Ar op (Some (absorb l (bin_prec op) s, (op, out))) Ha); [exact Ha|].
      now apply Al. }
    assert (C : to_the_left (canon (NBin op out l r)) = true /\ headed op (canon (NBin op out l r)) = true).
    { unfold canon. cbn [absorb]. replace (bare Top (bin_prec op)) with true by (now destruct op).
      destruct (additive op) eqn:Ha.
      - now apply FA.
      - destruct (FM None eq_refl eq_refl I) as [t [E [L H]]]. rewrite E. now split. }
    assert (HA : forall t, headed op t = true -> alike (NBin op out l r) t = true).
    { intros t H. unfold alike, headed in *. cbn [heads]. destruct (heads t); [exact H|discriminate H]. }
    assert (NB : forall p, bare p (bin_prec op) = false -> forall s, absorb (NBin op out l r) p s = feed s (canon (NBin op out l r))).
    { intros p Hb s. unfold canon. cbn [absorb]. rewrite Hb. replace (bare Top (bin_prec op)) with true by (now destruct op). reflexivity. }
    refine (conj (conj (proj1 C) (HA _ (proj2 C))) (conj _ _)).
    + intros op' s Ha Hf Hs. destruct (bare (bin_prec op') (bin_prec op)) eqn:Hb.
      * cbn [absorb]. rewrite Hb.
        assert (Ho : additive op = false) by (destruct op', op; try discriminate; reflexivity).
        destruct (FM s Ho) as [t [E [L H]]]; [|exact Hs|].
        { destruct s as [[st o]|]; [|reflexivity]. cbn [fitting] in *. destruct (fst o), op', op; try discriminate; reflexivity. }
        exists t. split; [exact E|]. split; [exact L|]. destruct (in_sum s); [now apply HA|].
        unfold headed in *. destruct (heads t) as [o|]; [|discriminate H]. destruct o, op', op; try discriminate; reflexivity.
      * apply B; auto; [exact (proj1 C)|exact (HA _ (proj2 C))|].
        unfold headed. cbn [heads]. destruct op', op; try discriminate; reflexivity.
    + intros op' s Ha Hs Hl.
      assert (Hb : bare (bin_prec op') (bin_prec op) = true) by (destruct op', op; try discriminate; reflexivity).
      cbn [absorb]. rewrite Hb. destruct (additive op) eqn:Ho.
      * destruct (FA s eq_refl Hs Hl) as [L H]. split; [exact L|]. destruct s as [[st o]|]; [|now apply HA].
        revert H. unfold headed. generalize (heads (close (absorb r (bin_prec op) (Some (absorb l (bin_prec op) (Some (st, o)), (op, out)))))).
        intros [o1|] H; [|discriminate H]. destruct o1, op', op; try discriminate; reflexivity.
      * destruct (FM s eq_refl) as [t [E [L H]]].
        { destruct s as [[st o]|]; [|reflexivity]. cbn [fitting in_sum] in *. now rewrite Hs. }
        { destruct s as [[st o]|]; [|exact I]. cbn [in_sum] in Hs. congruence. }
        rewrite E. destruct s as [[st o]|]; [|split; [exact L|now apply HA]]. cbn [acc_of in_sum] in *. rewrite Hs.
        unfold close. cbn [fst snd]. fold (close st). split.
        -- apply bin_left; [exact Hl|exact L|]. unfold headed in *. destruct (heads t) as [o1|]; [|reflexivity].
           destruct (fst o), op, o1; try discriminate; reflexivity.
        -- unfold headed. cbn [heads bin]. destruct (fst o), op'; try discriminate; reflexivity.
  - apply A; try reflexivity. exact (proj1 (proj1 IH)).
  - apply A; try reflexivity. exact (proj1 (proj1 IH)).
  - now apply A.
Qed.

(** Regrouping does not change the text. *)
Lemma regrouped_toks e e' : Regrouped e e' -> forall p, toks e p = toks e' p.
Proof.
  induction 1 as [e|e f H IH|e f g H1 IH1 H2 IH2|o u o' u' a b c C|o u a a' b b' H1 IH1 H2 IH2|o u a a' H IH|u s a a' H IH]; intros p.
  - reflexivity.
  - now rewrite IH.
  - now rewrite IH1, IH2.
  - assert (E : bin_prec o' = bin_prec o) by (destruct o, o'; try discriminate; reflexivity).
    cbn [toks]. rewrite E. f_equal. replace (wrap (toks a (bin_prec o) ++ TBin o u :: toks b (bin_prec o)) (bin_prec o) (bin_prec o))
      with (toks a (bin_prec o) ++ TBin o u :: toks b (bin_prec o)) by (now destruct o).
    replace (wrap (toks b (bin_prec o) ++ TBin o' u' :: toks c (bin_prec o)) (bin_prec o) (bin_prec o))
      with (toks b (bin_prec o) ++ TBin o' u' :: toks c (bin_prec o)) by (now destruct o).
    now rewrite <- app_assoc.
  - cbn [toks]. now rewrite IH1, IH2.
  - cbn [toks]. now rewrite IH.
  - cbn [toks]. now rewrite IH.
Qed.
End Tree.
