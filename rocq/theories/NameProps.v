(** * C64, C65: names of generated types and functions *)
From Coq Require Import String Ascii Bool List Arith Lia Permutation.
From Verif Require Import NameModel NameSpec NameProofs.
Import ListNotations.
Open Scope list_scope.
Open Scope nat_scope.

(** ** C64: names of types *)

(** A history that leaves no more than it entered never meets a panic, whatever
    the order in which the renamings are gone through. *)
Theorem C64_total : forall ops vs, visits [] ops vs ->
  exists ans g, run new_gen ops = Some (ans, g) /\ length ans = length vs /\
    forall order, Permutation order (remap g) -> exists t l, finish g order = Some (t, l).
Proof.
  intros ops vs V. destruct (run_new ops vs V) as [ans [g [E [I [A _]]]]].
  exists ans, g. split; [exact E|]. split; [clear - A; induction A; cbn [length]; congruence|].
  intros order P. destruct (finish_spec g vs order I P) as [t [l [c [F _]]]]. exists t, l. exact F.
Qed.

(** The answers to two requests for one declaration give the same name and the
    same index, and say that the declaration is new if and only if it was not
    asked for before; requests for different declarations get different indices. *)
Theorem C64_stable : forall ops vs ans g, visits [] ops vs -> run new_gen ops = Some (ans, g) ->
  (forall i j d p q a b,
    nth_error vs i = Some (d, p) -> nth_error vs j = Some (d, q) ->
    nth_error ans i = Some a -> nth_error ans j = Some b ->
    fst a = fst b /\ fst (snd a) = fst (snd b)) /\
  (forall i j d d' p q a b,
    nth_error vs i = Some (d, p) -> nth_error vs j = Some (d', q) ->
    nth_error ans i = Some a -> nth_error ans j = Some b ->
    fst (snd a) = fst (snd b) -> d = d') /\
  (forall i d p a,
    nth_error vs i = Some (d, p) -> nth_error ans i = Some a ->
    (snd (snd a) = true <-> ~ exists q, In (d, q) (firstn i vs))).
Proof.
  intros ops vs ans g V E. destruct (run_inv _ _ _ _ V E) as [I [A F]]. refine (conj _ (conj _ F)).
  - intros i j d p q a b Hi Hj Ha Hb.
    destruct (Forall2_nth _ _ _ _ _ _ A Hi Ha) as [p1 [K1 N1]].
    destruct (Forall2_nth _ _ _ _ _ _ A Hj Hb) as [p2 [K2 N2]]. cbn [fst] in K1, K2.
    rewrite K1 in K2. injection K2 as E1 E2. subst p2. split; [|exact E1].
    exact (named_fun _ _ _ _ N1 N2).
  - intros i j d d' p q a b Hi Hj Ha Hb Hab.
    destruct (Forall2_nth _ _ _ _ _ _ A Hi Ha) as [p1 [K1 _]].
    destruct (Forall2_nth _ _ _ _ _ _ A Hj Hb) as [p2 [K2 _]]. cbn [fst] in K1, K2.
    apply (known_index g vs _ _ _ I) in K1, K2. rewrite Hab in K1. congruence.
Qed.

(** Every declaration that was asked for, and no other, is emitted, once; and
    renaming the name given as an answer gives the name that the declaration is
    emitted under, at the position that the answer says. *)
Theorem C64_references : forall ops vs ans g order t l,
  visits [] ops vs -> run new_gen ops = Some (ans, g) -> Permutation order (remap g) ->
  finish g order = Some (t, l) ->
  NoDup (map fst l) /\ (forall d, In d (map fst l) <-> exists p, In (d, p) vs) /\
  (forall i d p nm ix new,
    nth_error vs i = Some (d, p) -> nth_error ans i = Some (nm, (ix, new)) ->
    nth_error l ix = Some (d, rebind t nm)).
Proof.
  intros ops vs ans g order t l V E P F. destruct (run_inv _ _ _ _ V E) as [I [A _]].
  destruct (finish_spec g vs order I P) as [t' [l' [c [F' [G [M L]]]]]].
  rewrite F in F'. injection F' as <- <-. rewrite M. refine (conj (i_decls _ _ I) (conj _ _)).
  - intros d. split.
    + intros H. apply in_map_iff in H. destruct H as [[d' [ix p]] [Hd H]]. cbn in Hd. subst d'.
      apply (in_known _ _ _ (i_decls _ _ I)) in H. exists p. exact (proj1 (i_orig _ _ I _ _ _ H)).
    + intros [p H]. destruct (i_all _ _ I _ _ H) as [v K].
      exact (in_map fst _ _ (known_in _ _ _ K)).
  - intros i d p nm ix new Hi Ha.
    destruct (Forall2_nth _ _ _ _ _ _ A Hi Ha) as [p0 [K N]]. cbn [fst snd] in K, N.
    pose proof (known_index g vs _ _ _ I K) as X. rewrite <- M in X.
    destruct (nth_error l ix) as [[d' n]|] eqn:Hn.
    + pose proof (map_nth_error fst _ _ Hn) as X'. rewrite X in X'. injection X' as <-.
      pose proof (nth_error_In _ _ Hn) as Hin. apply L in Hin.
      destruct Hin as [ix' [p' [k [q [K' [N' [Q [T _]]]]]]]].
      rewrite K in K'. injection K' as <- <-. rewrite (named_fun _ _ _ _ N N').
      unfold rebind. rewrite T. reflexivity.
    + exfalso. apply nth_error_None in Hn. assert (ix < length (map fst l)) as Hlt.
      { apply nth_error_Some. rewrite X. discriminate. } rewrite map_length in Hlt. lia.
Qed.

(** If no two declarations were asked for in the same place, and no place is
    spelt like a name with a mark, then different declarations are emitted
    under different names, ... *)
Theorem C64_distinct_partial : forall ops vs ans g order t l,
  visits [] ops vs -> one_each vs -> unmarked vs ->
  run new_gen ops = Some (ans, g) -> Permutation order (remap g) -> finish g order = Some (t, l) ->
  forall d d' n, In (d, n) l -> In (d', n) l -> d = d'.
Proof.
  intros ops vs ans g order t l V O U E P F d d' n Hd Hd'. destruct (run_inv _ _ _ _ V E) as [I _].
  destruct (finish_spec g vs order I P) as [t' [l' [c [F' [G [M L]]]]]].
  rewrite F in F'. injection F' as <- <-.
  apply L in Hd, Hd'.
  destruct Hd as [ix [p0 [k [q [K [N [Q [_ Nq]]]]]]]].
  destruct Hd' as [ix' [p0' [k' [q' [K' [N' [Q' [_ Nq']]]]]]]].
  destruct (i_remap _ _ I _ _ Q) as [d1 [ix1 [p1 [K1 [N1 H1]]]]].
  destruct (i_remap _ _ I _ _ Q') as [d2 [ix2 [p2 [K2 [N2 H2]]]]].
  pose proof (owner g vs d1 d ix1 ix p1 p0 k I O U K1 N1 K N) as ->.
  pose proof (owner g vs d2 d' ix2 ix' p2 p0' k' I O U K2 N2 K' N') as ->.
  assert (q = q').
  { apply (named_inj c q q' n); [| |exact Nq|exact Nq'].
    - exact (unmarked_name vs d q U H1 (proj2 (i_reg _ _ I _ _ H1))).
    - exact (unmarked_name vs d' q' U H2 (proj2 (i_reg _ _ I _ _ H2))). }
  subst q'. exact (O _ _ _ H1 H2).
Qed.

(** ... each after one of the places it was asked for in. *)
Theorem C64_called_partial : forall ops vs ans g order t l,
  visits [] ops vs -> one_each vs -> unmarked vs ->
  run new_gen ops = Some (ans, g) -> Permutation order (remap g) -> finish g order = Some (t, l) ->
  forall d n, In (d, n) l -> exists p, In (d, p) vs /\ called p n.
Proof.
  intros ops vs ans g order t l V O U E P F d n Hd. destruct (run_inv _ _ _ _ V E) as [I _].
  destruct (finish_spec g vs order I P) as [t' [l' [c [F' [G [M L]]]]]].
  rewrite F in F'. injection F' as <- <-.
  apply L in Hd. destruct Hd as [ix [p0 [k [q [K [N [Q [_ [h [i [_ [_ ->]]]]]]]]]]]].
  destruct (i_remap _ _ I _ _ Q) as [d1 [ix1 [p1 [K1 [N1 H1]]]]].
  pose proof (owner g vs d1 d ix1 ix p1 p0 k I O U K1 N1 K N) as ->.
  exists q. split; [exact H1|]. rewrite synthesize_spelling, (proj2 (i_reg _ _ I _ _ H1)).
  apply dedup_called.
Qed.

(** A declaration that was asked for right under a name given to a format is
    emitted under such a name, if no two places of one declaration are spelt alike. *)
Theorem C64_given_name_partial : forall ops vs ans g order t l,
  visits [] ops vs -> one_each vs -> unmarked vs ->
  (forall d p q, In (d, p) vs -> In (d, q) vs -> spelling p = spelling q -> p = q) ->
  run new_gen ops = Some (ans, g) -> Permutation order (remap g) -> finish g order = Some (t, l) ->
  forall d n given, In (d, n) l -> In (d, [Explicit given]) vs ->
  exists given', In (d, [Explicit given']) vs /\ called [Explicit given'] n.
Proof.
  intros ops vs ans g order t l V O U A E P F d n given Hd Hg.
  pose proof (run_own_explicit ops vs ans g V (conj O (conj U A)) E) as W.
  destruct (run_inv _ _ _ _ V E) as [I _].
  destruct (finish_spec g vs order I P) as [t' [l' [c [F' [G [M L]]]]]].
  rewrite F in F'. injection F' as <- <-.
  apply L in Hd. destruct Hd as [ix [p0 [k [q [K [N [Q [_ [h [i [_ [_ ->]]]]]]]]]]]].
  destruct (i_remap _ _ I _ _ Q) as [d1 [ix1 [p1 [K1 [N1 H1]]]]].
  pose proof (owner g vs d1 d ix1 ix p1 p0 k I O U K1 N1 K N) as ->.
  destruct (W d ix p0 k q _ K N Q Hg (ex_intro _ given eq_refl)) as [given' ->].
  exists given'. split; [exact H1|]. rewrite synthesize_spelling. apply dedup_called.
Qed.

(** A declaration is not named after a dead end (a place of the elaborator that has
    no label of its own, shown as [POISON]) if it was asked for anywhere else, under the same condition. *)
Theorem C64_dead_end_partial : forall ops vs ans g order t l,
  visits [] ops vs -> one_each vs -> unmarked vs ->
  (forall d p q, In (d, p) vs -> In (d, q) vs -> spelling p = spelling q -> p = q) ->
  run new_gen ops = Some (ans, g) -> Permutation order (remap g) -> finish g order = Some (t, l) ->
  forall d n p, In (d, n) l -> In (d, p) vs -> ~ (exists r, p = r ++ [DeadEnd]) ->
  exists q, In (d, q) vs /\ ~ (exists r, q = r ++ [DeadEnd]) /\ called q n.
Proof.
  intros ops vs ans g order t l V O U A E P F d n p Hd Hp Lp.
  pose proof (run_own_live ops vs ans g V (conj O (conj U A)) E) as W.
  destruct (run_inv _ _ _ _ V E) as [I _].
  destruct (finish_spec g vs order I P) as [t' [l' [c [F' [G [M L]]]]]].
  rewrite F in F'. injection F' as <- <-.
  apply L in Hd. destruct Hd as [ix [p0 [k [q [K [N [Q [_ [h [i [_ [_ ->]]]]]]]]]]]].
  destruct (i_remap _ _ I _ _ Q) as [d1 [ix1 [p1 [K1 [N1 H1]]]]].
  pose proof (owner g vs d1 d ix1 ix p1 p0 k I O U K1 N1 K N) as ->.
  exists q. split; [exact H1|]. split; [exact (W d ix p0 k q p K N Q Hp Lp)|].
  rewrite synthesize_spelling, (proj2 (i_reg _ _ I _ _ H1)). apply dedup_called.
Qed.

(** A check for the absence of marks. *)
Lemma unmarked_check vs :
  forallb (fun v => chars (fun c => negb (Ascii.eqb c "X")) (spelling (snd v))) vs = true -> unmarked vs.
Proof.
  intros H d p s n Hin _ E. rewrite forallb_forall in H. specialize (H _ Hin). cbn [snd] in H.
  rewrite E in H. unfold marked in H. rewrite !chars_append in H.
  rewrite !andb_true_iff in H. destruct H as [_ [H _]]. discriminate H.
Qed.

(** A record first met in a field of [main], then as the format [header]; a
    second one in [main] itself; a third in [main.body], spelt like the fourth. *)
Definition ops_example : list op :=
  [OPush (Explicit "main");
     OPush (RecordField "head"); ORequest 0; OEscape;
     OPush (RecordField "body"); ORequest 2;
       OPush (Positional 0); ORequest 4; OIncrement;
         OPush (Explicit "header"); ORequest 0; OEscape; OEscape; OEscape;
     ORequest 1;
     OPush (Explicit "main_body"); ORequest 3; OEscape;
   OEscape]%string.

Definition visits_example : list (decl * path) :=
  [(0, [Explicit "main"; RecordField "head"]);
   (2, [Explicit "main"; RecordField "body"]);
   (4, [Explicit "main"; RecordField "body"; Positional 0]);
   (0, [Explicit "header"]);
   (1, [Explicit "main"]);
   (3, [Explicit "main_body"])]%string.

Lemma place_check p q :
  (if path_eq_dec (trim p) q then true else false) = true -> place p q.
Proof. destruct (path_eq_dec (trim p) q) as [<-|]; [intros _; apply trim_place|discriminate]. Qed.

Lemma visits_leave p' p a ops vs : p' = p ++ [a] -> visits p ops vs -> visits p' (OEscape :: ops) vs.
Proof. intros ->. apply VLeave. Qed.

Lemma visits_next p' p n ops vs : p' = p ++ [Positional n] ->
  visits (p ++ [Positional (S n)]) ops vs -> visits p' (OIncrement :: ops) vs.
Proof. intros ->. apply VNext. Qed.

Ltac visit :=
  repeat first
    [ apply VEnd
    | apply VEnter; cbn [app]
    | apply VAsk; [apply place_check; vm_compute; reflexivity|]
    | match goal with |- visits ?p (OEscape :: _) _ =>
        let q := eval vm_compute in (removelast p) in
        let a := eval vm_compute in (last p DeadEnd) in
        apply (visits_leave p q a); [reflexivity|]
      end
    | match goal with |- visits ?p (OIncrement :: _) _ =>
        let q := eval vm_compute in (removelast p) in
        let a := eval vm_compute in (last p DeadEnd) in
        match a with Positional ?n => apply (visits_next p q n); [reflexivity|]; cbn [app] end
      end ].

Lemma visits_example_ok : visits [] ops_example visits_example.
Proof. unfold ops_example, visits_example. visit. Qed.

Example C64_nonvacuous :
  visits [] ops_example visits_example /\ one_each visits_example /\ unmarked visits_example /\
  (forall d p q, In (d, p) visits_example -> In (d, q) visits_example -> spelling p = spelling q -> p = q) /\
  exists ans g t, run new_gen ops_example = Some (ans, g) /\
    finish g (remap g) = Some (t,
      [(0, "header"); (2, "main_body"); (4, "main_body_ix0"); (1, "main"); (3, "main_body__dupX1")])%string.
Proof.
  refine (conj visits_example_ok (conj _ (conj _ (conj _ _)))).
  - intros d d' p H H'. unfold visits_example in H, H'. cbn [In] in H, H'.
    repeat (destruct H as [H|H]; [injection H as <- <-;
      repeat (destruct H' as [H'|H']; [solve [discriminate H'|injection H' as <-; reflexivity]|]); contradiction|]).
    contradiction.
  - apply unmarked_check. vm_compute. reflexivity.
  - intros d p q H H' E. unfold visits_example in H, H'. cbn [In] in H, H'.
    repeat (destruct H as [H|H]; [injection H as <- <-;
      repeat (destruct H' as [H'|H']; [solve [discriminate H'|injection H' as <-; (reflexivity || discriminate E)]|]); contradiction|]).
    contradiction.
  - eexists _, _, _. split; vm_compute; reflexivity.
Qed.

(** A declaration met at a dead end, then in a field, then at a dead end there. *)
Definition ops_dead : list op :=
  [OPush (Explicit "main");
     OPush DeadEnd; ORequest 0; OEscape;
     OPush (RecordField "head"); ORequest 0;
       OPush DeadEnd; ORequest 0; OEscape; OEscape;
   OEscape]%string.

Definition visits_dead : list (decl * path) :=
  [(0, [Explicit "main"; DeadEnd]);
   (0, [Explicit "main"; RecordField "head"]);
   (0, [Explicit "main"; RecordField "head"; DeadEnd])]%string.

Example C64_dead_end_nonvacuous :
  visits [] ops_dead visits_dead /\ one_each visits_dead /\ unmarked visits_dead /\
  (forall d p q, In (d, p) visits_dead -> In (d, q) visits_dead -> spelling p = spelling q -> p = q) /\
  exists ans g t, run new_gen ops_dead = Some (ans, g) /\
    finish g (remap g) = Some (t, [(0, "main_head")])%string.
Proof.
  refine (conj _ (conj _ (conj _ (conj _ _)))).
  - unfold ops_dead, visits_dead. visit.
  - intros d d' p H H'. unfold visits_dead in H, H'. cbn [In] in H, H'.
    repeat (destruct H as [H|H]; [injection H as <- <-;
      repeat (destruct H' as [H'|H']; [solve [discriminate H'|injection H' as <-; reflexivity]|]); contradiction|]).
    contradiction.
  - apply unmarked_check. vm_compute. reflexivity.
  - intros d p q H H' E. unfold visits_dead in H, H'. cbn [In] in H, H'.
    repeat (destruct H as [H|H]; [injection H as <- <-;
      repeat (destruct H' as [H'|H']; [solve [discriminate H'|injection H' as <-; (reflexivity || discriminate E)]|]); contradiction|]).
    contradiction.
  - eexists _, _, _. split; vm_compute; reflexivity.
Qed.

(** Without the first condition this fails.  The arguments of a call are all
    elaborated in one place, so two records of different types that are passed
    to one format are emitted under one name. *)
Theorem C64_place_refuted :
  ~ forall ops vs ans g order t l,
    visits [] ops vs -> unmarked vs ->
    run new_gen ops = Some (ans, g) -> Permutation order (remap g) -> finish g order = Some (t, l) ->
    forall d d' n, In (d, n) l -> In (d', n) l -> d = d'.
Proof.
  intros H.
  set (ops := [OPush (Explicit "f"); OPush DeadEnd; ORequest 0; ORequest 1; OEscape; OEscape]%string).
  assert (V : visits [] ops [(0, [Explicit "f"; DeadEnd]); (1, [Explicit "f"; DeadEnd])]%string)
    by (unfold ops; visit).
  assert (X : 0 = 1); [|discriminate X].
  eapply H with (order := _) (n := "f_POISON"%string).
  - exact V.
  - apply unmarked_check. vm_compute. reflexivity.
  - vm_compute. reflexivity.
  - apply Permutation_refl.
  - vm_compute. reflexivity.
  - left. reflexivity.
  - right. left. reflexivity.
Qed.

(** Nor without the second: the second place spelt [a_b] is called like a format
    that has that very name. *)
Theorem C64_mark_refuted :
  ~ forall ops vs ans g order t l,
    visits [] ops vs -> one_each vs ->
    run new_gen ops = Some (ans, g) -> Permutation order (remap g) -> finish g order = Some (t, l) ->
    forall d d' n, In (d, n) l -> In (d', n) l -> d = d'.
Proof.
  intros H.
  set (ops := [OPush (Explicit "a_b"); ORequest 0; OEscape;
               OPush (Explicit "a"); OPush (RecordField "b"); ORequest 1; OEscape; OEscape;
               OPush (Explicit "a_b__dupX1"); ORequest 2; OEscape]%string).
  assert (V : visits [] ops [(0, [Explicit "a_b"]); (1, [Explicit "a"; RecordField "b"]);
                             (2, [Explicit "a_b__dupX1"])]%string) by (unfold ops; visit).
  assert (X : 1 = 2); [|discriminate X].
  eapply H with (order := _) (n := "a_b__dupX1"%string).
  - exact V.
  - intros d d' p Hd Hd'. cbn [In] in Hd, Hd'.
    repeat (destruct Hd as [Hd|Hd]; [injection Hd as <- <-;
      repeat (destruct Hd' as [Hd'|Hd']; [solve [discriminate Hd'|injection Hd' as <-; reflexivity]|]); contradiction|]).
    contradiction.
  - vm_compute. reflexivity.
  - apply Permutation_refl.
  - vm_compute. reflexivity.
  - right. left. reflexivity.
  - right. right. left. reflexivity.
Qed.

(** ** C65: labels printed as identifiers, and names of functions *)

(** What is printed for a label has none of the characters [-], [.], blank and
    tab, does not start with a digit, and is none of the reserved words. *)
Theorem C65_printable : forall s,
  chars (fun c => negb (existsb (Ascii.eqb c) ["-"; "."; " "; "009"]%char)) (sanitize s) = true /\
  (forall c s', sanitize s = String c s' -> digit c = false) /\
  ~ In (sanitize s) reserved.
Proof.
  intros s. pose proof (sanitize_valid s) as V. rewrite all_valid_0 in V. apply andb_true_iff in V.
  destruct V as [V1 V2]. refine (conj _ (conj _ (sanitize_free s))).
  - eapply chars_mono; [|exact V1]. intros c. unfold usable. cbn [existsb].
    destruct (ascii_dec c "-") as [->|N1]; [discriminate|].
    destruct (ascii_dec c ".") as [->|N2]; [discriminate|].
    destruct (ascii_dec c " ") as [->|N3]; [discriminate|].
    destruct (ascii_dec c "009") as [->|N4]; [discriminate|]. intros _.
    apply Ascii.eqb_neq in N1, N2, N3, N4. rewrite N1, N2, N3, N4. reflexivity.
  - intros c s' E. rewrite E in V2. cbn [starts_digit] in V2. apply negb_true_iff in V2. exact V2.
Qed.

(** Printing what was printed changes nothing; and identifiers are printed as
    they are, unless they are reserved words. *)
Theorem C65_settled : forall s,
  sanitize (sanitize s) = sanitize s /\
  (identifier s = true -> ~ In s reserved -> sanitize s = s).
Proof.
  intros s. split.
  - apply sanitize_fixed; [apply sanitize_valid|apply sanitize_free].
  - intros H. apply sanitize_fixed. exact (identifier_valid s H).
Qed.

(** Different identifiers stay different. *)
Theorem C65_apart_partial : forall s t,
  identifier s = true -> identifier t = true -> sanitize s = sanitize t -> s = t.
Proof. exact sanitize_inj. Qed.

(** So if all places are spelt as identifiers, the types are also printed under
    different names. *)
Theorem C65_types_partial : forall ops vs ans g order t l,
  visits [] ops vs -> one_each vs -> unmarked vs ->
  (forall d p, In (d, p) vs -> identifier (spelling p) = true) ->
  run new_gen ops = Some (ans, g) -> Permutation order (remap g) -> finish g order = Some (t, l) ->
  forall d d' n n', In (d, n) l -> In (d', n') l -> sanitize n = sanitize n' -> d = d'.
Proof.
  intros ops vs ans g order t l V O U Id E P F d d' n n' Hd Hd' S.
  assert (X : forall d n, In (d, n) l -> identifier n = true).
  { intros d0 n0 H. destruct (C64_called_partial _ _ _ _ _ _ _ V O U E P F d0 n0 H) as [p [Hp C]].
    specialize (Id d0 p Hp). destruct C as [->|[m [_ ->]]]; [exact Id|].
    unfold marked. destruct (spelling p) as [|c s]; [discriminate Id|]. cbn [identifier append] in *.
    rewrite !chars_append. apply andb_true_iff in Id. destruct Id as [I1 I2]. rewrite I1, I2.
    cbn [andb]. apply andb_true_iff. split; [reflexivity|].
    eapply chars_mono; [|apply decimal_digits]. intros a Ha. rewrite Ha. apply orb_true_r. }
  apply (C64_distinct_partial _ _ _ _ _ _ _ V O U E P F d d' n Hd).
  rewrite (C65_apart_partial n n' (X _ _ Hd) (X _ _ Hd') S). exact Hd'.
Qed.

(** The functions of a program have different names, and are printed under
    them, if no type is called like a function from the start. *)
Theorem C65_functions_partial : forall t fns,
  (forall i, lookup ("Decoder" ++ decimal i)%string t = None) ->
  length (function_names t fns) = length fns /\ NoDup (function_names t fns) /\
  map sanitize (function_names t fns) = function_names t fns.
Proof.
  intros t fns H. split; [unfold function_names; rewrite map_length; apply seq_length|].
  split; [exact (function_names_distinct t fns H)|exact (function_names_printed t fns H)].
Qed.

Example C65_nonvacuous :
  sanitize "opentype.main" = "opentype_main"%string /\ sanitize "9 - x" = "_9_x"%string /\
  sanitize "type" = "r#type"%string /\ identifier "main_body_ix0" = true /\
  (forall d p, In (d, p) visits_example -> identifier (spelling p) = true) /\
  function_names [("main", "main"); ("main_head", "header")]%string
    [Some "main"; None; Some "main_head"; Some "main"; Some "png.x"]%string =
  ["Decoder_main"; "Decoder1"; "Decoder_header"; "Decoder3"; "Decoder_png_x"]%string /\
  (forall i, lookup ("Decoder" ++ decimal i)%string [("main", "main"); ("main_head", "header")]%string = None).
Proof.
  refine (conj eq_refl (conj eq_refl (conj eq_refl (conj eq_refl (conj _ (conj eq_refl _)))))).
  - intros d p H. unfold visits_example in H. cbn [In] in H.
    repeat (destruct H as [H|H]; [injection H as <- <-; reflexivity|]). contradiction.
  - intros i. cbn [lookup]. unfold decoder_fname. cbn [append].
    repeat (destruct (string_dec _ _) as [H|_]; [discriminate H|]). reflexivity.
Qed.

(** In general different labels may be printed alike, and so may the types of
    two formats that are called [a.b] and [a_b]. *)
Theorem C65_apart_refuted :
  ~ forall ops vs ans g order t l,
    visits [] ops vs -> one_each vs -> unmarked vs ->
    run new_gen ops = Some (ans, g) -> Permutation order (remap g) -> finish g order = Some (t, l) ->
    forall d d' n n', In (d, n) l -> In (d', n') l -> sanitize n = sanitize n' -> d = d'.
Proof.
  intros H.
  set (ops := [OPush (Explicit "a.b"); ORequest 0; OEscape; OPush (Explicit "a_b"); ORequest 1; OEscape]%string).
  assert (V : visits [] ops [(0, [Explicit "a.b"]); (1, [Explicit "a_b"])]%string) by (unfold ops; visit).
  assert (X : 0 = 1); [|discriminate X].
  eapply H with (order := _) (n := "a.b"%string) (n' := "a_b"%string).
  - exact V.
  - intros d d' p Hd Hd'. cbn [In] in Hd, Hd'.
    repeat (destruct Hd as [Hd|Hd]; [injection Hd as <- <-;
      repeat (destruct Hd' as [Hd'|Hd']; [solve [discriminate Hd'|injection Hd' as <-; reflexivity]|]); contradiction|]).
    contradiction.
  - apply unmarked_check. vm_compute. reflexivity.
  - vm_compute. reflexivity.
  - apply Permutation_refl.
  - vm_compute. reflexivity.
  - left. reflexivity.
  - right. left. reflexivity.
  - vm_compute. reflexivity.
Qed.

(** [self], [Self], [super] and [crate] are printed as raw identifiers, which
    Rust does not allow for these words. *)
Theorem C65_raw_refuted :
  exists s, In s ["self"; "Self"; "super"; "crate"]%string /\ sanitize s = ("r#" ++ s)%string.
Proof. exists "self"%string. split; [left; reflexivity|reflexivity]. Qed.

Print Assumptions C64_total.
Print Assumptions C64_stable.
Print Assumptions C64_references.
Print Assumptions C64_distinct_partial.
Print Assumptions C64_called_partial.
Print Assumptions C64_given_name_partial.
Print Assumptions C64_dead_end_partial.
Print Assumptions C64_place_refuted.
Print Assumptions C64_mark_refuted.
Print Assumptions C65_printable.
Print Assumptions C65_settled.
Print Assumptions C65_apart_partial.
Print Assumptions C65_types_partial.
Print Assumptions C65_functions_partial.
Print Assumptions C65_apart_refuted.
Print Assumptions C65_raw_refuted.
