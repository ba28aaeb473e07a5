(** Rust's grammar, as given in PrintSpec, reads a text in at most one way: a
    parser that finds every reading. *)
From Coq Require Import String.
From Verif Require Import Base NumericModel ValueModel RecordModel PrintModel PrintSpec.
Open Scope nat_scope.

Scheme reads_mind := Induction for reads Sort Prop
  with items_mind := Induction for reads_items Sort Prop.
Combined Scheme reads_mutind from reads_mind, items_mind.

(** ** A parser *)

Definition all_infix : list infix :=
  [OEq; ONe; OLt; OLe; OGt; OGe; ODiv; ORem; OAdd; OSub; OMul; OShl; OShr; OBitOr; OBitAnd; OOr; OAnd].
Definition infix_of (t : token) : option infix :=
  match t with TSym s => find (fun op => String.eqb (symbol op) s) all_infix | _ => None end.
Lemma infix_of_token op : infix_of (sym (symbol op)) = Some op.
Proof. destruct op; reflexivity. Qed.

Definition is (s : string) (t : token) : bool := match t with TSym s' => String.eqb s s' | _ => false end.
Definition starts (s : string) (w : list token) : bool := match w with t :: _ => is s t | [] => false end.
Definition prefix_of (w : list token) : option ((rexpr -> rexpr) * list token) :=
  match w with
  | TSym s :: r =>
    if String.eqb s "*" then Some (XDeref, r) else if String.eqb s "&" then Some (XBorrow, r)
    else if String.eqb s "&mut" then Some (XBorrowMut, r) else if String.eqb s "!" then Some (XNot, r) else None
  | _ => None
  end.
(** Where a token continues an expression *)
Definition level_of (t : token) : option nat :=
  match infix_of t with
  | Some op => Some (strength op)
  | None => if is ".." t then Some 1 else if is "as" t then Some 11
            else if is "." t || is "(" t || is "[" t || is "?" t then Some 13 else None
  end.

Definition closed {A} (s : string) (x : option (A * list token)) : option (A * list token) :=
  match x with Some (a, h :: r) => if is s h then Some (a, r) else None | _ => None end.

Fixpoint parse (m l : nat) (t : list token) {struct m} : option (rexpr * list token) :=
  match m with
  | O => None
  | S m =>
    match l with
    | 0 => if starts "|" t then
             match t with
             | _ :: TId x :: _ :: r => match parse m 0 r with Some (e, r') => Some (XClosure x e, r') | None => None end
             | _ => None
             end
           else parse m 1 t
    | 12 => match prefix_of t with
            | Some (c, r) => match parse m 12 r with Some (e, r') => Some (c e, r') | None => None end
            | None => parse m 13 t
            end
    | 14 => match t with
            | TId n :: r => Some (XName n, r)
            | TLit n :: r => Some (XLit n, r)
            | h :: r =>
              if is "(" h then
                match items m r with
                | Some (es, c :: r') =>
                  if is ")" c then Some (match es with [e] => e | _ => XTuple es end, r')
                  else if is "," c && starts ")" r' then Some (XTuple es, tl r') else None
                | _ => None
                end
              else if is "[" h then match closed "]" (items m r) with Some (es, r') => Some (XArray es, r') | None => None end
              else None
            | _ => None
            end
    | _ => match parse m (S l) t with Some (e, r) => cont m l e r | None => None end
    end
  end
with cont (m l : nat) (e : rexpr) (t : list token) {struct m} : option (rexpr * list token) :=
  match m with
  | O => None
  | S m =>
    match t with
    | [] => Some (e, t)
    | h :: r =>
      match l with
      | 13 =>
        if is "." h then
          match r with
          | TId n :: r =>
            if starts "(" r then match closed ")" (items m (tl r)) with Some (es, r') => cont m 13 (XMethod e n es) r' | None => None end
            else cont m 13 (XField e n) r
          | _ => None
          end
        else if is "(" h then match closed ")" (items m r) with Some (es, r') => cont m 13 (XCall e es) r' | None => None end
        else if is "[" h then match closed "]" (parse m 0 r) with Some (i, r') => cont m 13 (XIndex e i) r' | None => None end
        else if is "?" h then cont m 13 (XTry e) r
        else Some (e, t)
      | 11 =>
        if is "as" h then
          match r with
          | TTy ty :: r => if starts "<" r || starts "<<" r then None else cont m 11 (XCast e ty) r
          | _ => None
          end
        else Some (e, t)
      | 1 =>
        if is ".." h then match parse m 2 r with Some (b, r') => Some (XRange e b, r') | None => None end
        else Some (e, t)
      | 0 | 12 | 14 => Some (e, t)
      | _ =>
        match infix_of h with
        | Some op =>
          if Nat.eqb (strength op) l then
            match parse m (S l) r with
            | Some (b, r') => if comparison op then Some (XBin op e b, r') else cont m l (XBin op e b) r'
            | None => None
            end
          else Some (e, t)
        | None => Some (e, t)
        end
      end
    end
  end
with items (m : nat) (t : list token) {struct m} : option (list rexpr * list token) :=
  match m with
  | O => None
  | S m =>
    if starts ")" t || starts "]" t then Some ([], t)
    else match parse m 0 t with
         | Some (e, r) =>
           if starts "," r && negb (starts ")" (tl r)) then
             match items m (tl r) with Some (es, r') => Some (e :: es, r') | None => None end
           else Some ([e], r)
         | None => None
         end
  end.

Example parse_example :
  parse 200 0 (show Top (XBin OAdd (XName 1%N) (XBin OMul (XName 2%N) (XCall (XName 3%N) [XName 4%N; XName 5%N]))))
  = Some (XBin OAdd (XName 1%N) (XBin OMul (XName 2%N) (XCall (XName 3%N) [XName 4%N; XName 5%N])), []).
Proof. vm_compute. reflexivity. Qed.

(** ** Eventually *)

Definition ev {A} (f : nat -> option A) (x : A) : Prop := exists n, forall m, n <= m -> f m = Some x.
Lemma ev_now {A} (x : A) : ev (fun _ => Some x) x.
Proof. exists 0. reflexivity. Qed.
Lemma ev_succ {A} (f g : nat -> option A) x : ev f x -> (forall m, g (S m) = f m) -> ev g x.
Proof. intros (n & H) E. exists (S n). intros [|m] Hm; [lia|]. rewrite E. apply H. lia. Qed.
Lemma ev_eq {A} (f g : nat -> option A) x : ev f x -> (forall m, f m = g m) -> ev g x.
Proof. intros (n & H) E. exists n. intros m Hm. now rewrite <- E, H. Qed.
Lemma ev_bind {A B} (f : nat -> option A) (g : nat -> A -> option B) x y :
  ev f x -> ev (fun m => g m x) y -> ev (fun m => match f m with Some a => g m a | None => None end) y.
Proof.
  intros (n & H) (n' & H'). exists (n + n'). intros m Hm. rewrite H by lia. apply H'. lia.
Qed.
Lemma ev_fun {A} (f : nat -> option A) x y : ev f x -> ev f y -> x = y.
Proof. intros (n & H) (n' & H'). specialize (H (n + n')). specialize (H' (n + n')). rewrite H in H' by lia. now injection (H' ltac:(lia)). Qed.

(** ** First and last tokens *)

Definition primary_start (t : token) : bool :=
  match t with TId _ | TLit _ => true | TSym s => String.eqb s "(" || String.eqb s "[" | _ => false end.
Definition start_ok (l : nat) (t : token) : bool :=
  primary_start t
  || (Nat.leb l 12 && (is "*" t || is "&" t || is "&mut" t || is "!" t))
  || (Nat.leb l 0 && is "|" t).
Lemma start_weaker l l' t : l' <= l -> start_ok l t = true -> start_ok l' t = true.
Proof.
  unfold start_ok. intros Hl H. apply orb_prop in H as [H|H]; [apply orb_prop in H as [H|H]|].
  - now rewrite H.
  - apply andb_prop in H as (H1 & H2). rewrite H2. apply Nat.leb_le in H1. replace (Nat.leb l' 12) with true; [|symmetry; apply Nat.leb_le; lia]. now rewrite orb_true_r.
  - apply andb_prop in H as (H1 & H2). rewrite H2. apply Nat.leb_le in H1. replace (Nat.leb l' 0) with true; [|symmetry; apply Nat.leb_le; lia]. now rewrite orb_true_r.
Qed.
Lemma reads_start : forall l w e, reads l w e -> exists t r, w = t :: r /\ start_ok l t = true.
Proof.
  apply (reads_mind (fun l w e _ => exists t r, w = t :: r /\ start_ok l t = true) (fun _ _ _ => True)); auto;
  try (intros; eexists; eexists; split; [reflexivity|reflexivity]).
  - intros l w e _ (t & r & -> & H). exists t, r. split; [reflexivity|]. revert H. apply start_weaker. lia.
  - intros w x n wa args _ (t & r & -> & H) _ _. eexists t, _. split; [reflexivity|exact H].
  - intros w x n _ (t & r & -> & H). eexists t, _. split; [reflexivity|exact H].
  - intros w f wa args _ (t & r & -> & H) _ _ _. eexists t, _. split; [reflexivity|exact H].
  - intros w x wi i _ (t & r & -> & H) _ _. eexists t, _. split; [reflexivity|exact H].
  - intros w x _ (t & r & -> & H). eexists t, _. split; [reflexivity|exact H].
  - intros w x t0 _ (t & r & -> & H). eexists t, _. split; [reflexivity|exact H].
  - intros wa a op wb b _ _ _ (t & r & -> & H) _ _. eexists t, _. split; [reflexivity|exact H].
  - intros wa a op wb b _ _ _ (t & r & -> & H) _ _. eexists t, _. split; [reflexivity|]. revert H. apply start_weaker. lia.
  - intros wa a wb b _ (t & r & -> & H) _ _. eexists t, _. split; [reflexivity|]. revert H. apply start_weaker. lia.
Qed.

Lemma reads_le : forall l w e, reads l w e -> l <= 14.
Proof.
  apply (reads_mind (fun l w e _ => l <= 14) (fun _ _ _ => True)); intros; try exact I; try lia; destruct op; cbn in *; lia.
Qed.

Lemma is_true s t : is s t = true -> t = TSym s.
Proof. destruct t; try discriminate. cbn. intros H. apply String.eqb_eq in H. now subst. Qed.

(** ** The parser finds every reading *)

Definition follows_ok (l : nat) (w rest : list token) : Prop :=
  match rest with
  | [] => True
  | t :: _ =>
    match level_of t with None => True | Some k => k < l \/ (k = l /\ l <> 4 /\ l <> 1) end
    /\ (ends_in_type w -> is "<" t = false /\ is "<<" t = false)
    /\ (ends_in_field w -> is "(" t = false)
  end.
Definition stops (l : nat) (rest : list token) : Prop :=
  match rest with
  | [] => True
  | t :: _ => match level_of t with None => True | Some k => k < l end
  end.

Lemma cont_stops l e rest : l <= 14 -> stops l rest -> forall m, cont (S m) l e rest = Some (e, rest).
Proof.
  intros Hl Hs m. destruct rest as [|t r]; [reflexivity|]. cbn [stops] in Hs. unfold level_of in Hs.
  cbn [cont].
  destruct (infix_of t) as [op|] eqn:Eop.
  { assert (Ht : t = sym (symbol op)).
    { destruct t; try discriminate. unfold infix_of in Eop. apply find_some in Eop as (_ & E). apply String.eqb_eq in E. now subst. }
    subst t.
    destruct l as [|[|[|[|[|[|[|[|[|[|[|[|[|[|[|l]]]]]]]]]]]]]]]; try lia; destruct op; cbn in *; try lia; reflexivity. }
  destruct l as [|[|[|[|[|[|[|[|[|[|[|[|[|[|[|l]]]]]]]]]]]]]]]; try lia; try reflexivity.
  - destruct (is ".." t); [lia|reflexivity].
  - destruct (is ".." t) eqn:E1; [apply is_true in E1; subst t; reflexivity|]. destruct (is "as" t); [lia|reflexivity].
  - destruct (is ".." t) eqn:E1; [apply is_true in E1; subst t; reflexivity|].
    destruct (is "as" t) eqn:E2; [apply is_true in E2; subst t; reflexivity|].
    destruct (is "." t); [cbn in Hs; lia|]. destruct (is "(" t); [cbn in Hs; lia|]. destruct (is "[" t); [cbn in Hs; lia|]. destruct (is "?" t); [cbn in Hs; lia|]. reflexivity.
Qed.
Lemma ev_stops l e rest : l <= 14 -> stops l rest -> ev (fun m => cont m l e rest) (e, rest).
Proof. intros Hl Hs. exists 1. intros [|m] Hm; [lia|]. now apply cont_stops. Qed.

Lemma follows_stops l w rest : follows_ok l w rest -> stops (S l) rest.
Proof. destruct rest as [|t r]; [auto|]. cbn. intros (H & _). destruct (level_of t); lia. Qed.
Lemma follows_mono l l' w w' rest : l < l' -> follows_ok l w rest ->
  (ends_in_type w' -> ends_in_type w) -> (ends_in_field w' -> ends_in_field w) -> follows_ok l' w' rest.
Proof.
  intros Hl. destruct rest as [|t r]; [auto|]. cbn. intros (H & Ht & Hf) Et Ef. split; [destruct (level_of t); lia|]. auto.
Qed.
Lemma type_app u w : ends_in_type w -> ends_in_type (u ++ w).
Proof. intros (v & t & ->). exists (u ++ v), t. now rewrite app_assoc. Qed.
Lemma field_app u w : ends_in_field w -> ends_in_field (u ++ w).
Proof. intros (v & n & ->). exists (u ++ v), n. now rewrite app_assoc. Qed.
Lemma type_cons u w : ends_in_type w -> ends_in_type (u :: w).
Proof. exact (type_app [u] w). Qed.
Lemma field_cons u w : ends_in_field w -> ends_in_field (u :: w).
Proof. exact (field_app [u] w). Qed.

Definition found (l : nat) (w : list token) (e : rexpr) : Prop := forall rest x,
  follows_ok l w rest -> ev (fun m => cont m l e rest) x -> ev (fun m => parse m l (w ++ rest)) x.
(** What may follow a list of items *)
Definition closes (es : list rexpr) (rest : list token) : Prop :=
  starts ")" rest = true \/ starts "]" rest = true
  \/ (exists e r, es = [e] /\ rest = sym "," :: sym ")" :: r).
Definition found_items (w : list token) (es : list rexpr) : Prop := forall rest,
  closes es rest -> ev (fun m => items m (w ++ rest)) (es, rest).

Lemma found_exact l w e rest : l <= 14 -> found l w e -> follows_ok l w rest -> stops l rest ->
  ev (fun m => parse m l (w ++ rest)) (e, rest).
Proof. intros Hl H Hf Hs. apply H; [exact Hf|]. now apply ev_stops. Qed.
(** Text inside brackets *)
Lemma found_inner w e rest : found 0 w e -> (starts ")" rest = true \/ starts "]" rest = true \/ starts "," rest = true) ->
  ev (fun m => parse m 0 (w ++ rest)) (e, rest).
Proof.
  intros H Hr. assert (Hh : exists s r, rest = TSym s :: r /\ (s = ")" \/ s = "]" \/ s = ",")%string).
  { destruct rest as [|t r]; [destruct Hr as [Hr|[Hr|Hr]]; discriminate|].
    destruct Hr as [Hr|[Hr|Hr]]; apply is_true in Hr; subst t; eexists _, _; split; auto. }
  destruct Hh as (s & r & -> & Hs). apply found_exact; auto; [lia| |]; destruct Hs as [->|[->| ->]]; cbn; auto.
Qed.

Definition loops (l : nat) : Prop := l <> 0 /\ l <> 12 /\ l < 14.
Lemma parse_loop l m t : loops l ->
  parse (S m) l t = match parse m (S l) t with Some (e, r) => cont m l e r | None => None end.
Proof.
  intros (H0 & H1 & H2). destruct l as [|[|[|[|[|[|[|[|[|[|[|[|[|[|l]]]]]]]]]]]]]]; try lia; reflexivity.
Qed.
Lemma primary_cases t : primary_start t = true ->
  (exists n, t = TId n) \/ (exists n, t = TLit n) \/ t = sym "(" \/ t = sym "[".
Proof.
  destruct t as [n|n|n|s]; cbn; eauto; [discriminate|]. intros H. apply orb_prop in H as [H|H]; apply String.eqb_eq in H; subst; auto.
Qed.
Lemma start_one t : start_ok 1 t = true -> is "|" t = false.
Proof.
  unfold start_ok. intros H. apply orb_prop in H as [H|H]; [apply orb_prop in H as [H|H]|].
  - apply primary_cases in H as [(n & ->)|[(n & ->)|[-> | ->]]]; reflexivity.
  - apply andb_prop in H as (_ & H). repeat (apply orb_prop in H as [H|H]); apply is_true in H; subst; reflexivity.
  - discriminate.
Qed.
Lemma start_thirteen t r : start_ok 13 t = true -> prefix_of (t :: r) = None.
Proof.
  unfold start_ok. cbn [Nat.leb andb]. rewrite !orb_false_r. intros H.
  apply primary_cases in H as [(n & ->)|[(n & ->)|[-> | ->]]]; reflexivity.
Qed.
Lemma start_item w e : reads 0 w e -> forall rest, starts ")" (w ++ rest) = false /\ starts "]" (w ++ rest) = false.
Proof.
  intros H rest. apply reads_start in H as (t & r & -> & H). cbn. unfold start_ok in H.
  apply orb_prop in H as [H|H]; [apply orb_prop in H as [H|H]|].
  - apply primary_cases in H as [(n & ->)|[(n & ->)|[-> | ->]]]; auto.
  - apply andb_prop in H as (_ & H). repeat (apply orb_prop in H as [H|H]); apply is_true in H; subst; auto.
  - apply andb_prop in H as (_ & H). apply is_true in H; subst; auto.
Qed.
Lemma found_stronger l w e : reads (S l) w e -> found (S l) w e -> found l w e.
Proof.
  intros Hr IH rest x Hf Hx. pose proof (reads_le _ _ _ Hr) as Hl.
  assert (E : ev (fun m => parse m (S l) (w ++ rest)) (e, rest)).
  { apply found_exact; auto.
    - eapply follows_mono; [|exact Hf| |]; auto.
    - eapply follows_stops; eauto. }
  destruct (Nat.eq_dec l 0) as [->|H0]; [|destruct (Nat.eq_dec l 12) as [->|H12]].
  - assert (x = (e, rest)). { eapply ev_fun; [exact Hx|]. exists 1. intros [|m] Hm; [lia|]. destruct rest; reflexivity. } subst x.
    apply (ev_succ _ _ _ E). intros m. apply reads_start in Hr as (t & r & -> & Ht). cbn [parse app].
    unfold starts. now rewrite (start_one t Ht).
  - assert (x = (e, rest)). { eapply ev_fun; [exact Hx|]. exists 1. intros [|m] Hm; [lia|]. destruct rest; reflexivity. } subst x.
    apply (ev_succ _ _ _ E). intros m. apply reads_start in Hr as (t & r & -> & Ht). cbn [parse app].
    now rewrite (start_thirteen t _ Ht).
  - assert (L : loops l) by (unfold loops; lia).
    apply (ev_succ (fun m => match parse m (S l) (w ++ rest) with Some (e, r) => cont m l e r | None => None end)); [|intros m; now apply parse_loop].
    exact (ev_bind _ (fun m (p : rexpr * list token) => let (e, r) := p in cont m l e r) (e, rest) x E Hx).
Qed.

Lemma items_one w e rest : reads 0 w e -> found 0 w e -> closes [e] rest -> ev (fun m => items m (w ++ rest)) ([e], rest).
Proof.
  intros Hr H Hc. destruct (start_item w e Hr rest) as (S1 & S2).
  assert (Hr' : starts ")" rest = true \/ starts "]" rest = true \/ starts "," rest = true).
  { destruct Hc as [Hc|[Hc|(e' & r & _ & ->)]]; auto. }
  pose proof (found_inner w e rest H Hr') as E.
  apply (ev_succ (fun m => match parse m 0 (w ++ rest) with
    | Some (e, r) => if starts "," r && negb (starts ")" (tl r)) then
             match items m (tl r) with Some (es, r') => Some (e :: es, r') | None => None end
           else Some ([e], r)
    | None => None end)).
  - apply (ev_bind _ (fun m (p : rexpr * list token) => let (e, r) := p in
       if starts "," r && negb (starts ")" (tl r)) then
             match items m (tl r) with Some (es, r') => Some (e :: es, r') | None => None end
           else Some ([e], r)) (e, rest) _ E).
    exists 0. intros m _.
    replace (starts "," rest && negb (starts ")" (tl rest))) with false; [reflexivity|].
    destruct Hc as [Hc|[Hc|(e' & r & _ & ->)]]; [| |reflexivity];
      (destruct rest as [|t r]; [discriminate|]; apply is_true in Hc; subst t; reflexivity).
  - intros m. cbn [items]. now rewrite S1, S2.
Qed.
Lemma items_more w e ws es : reads 0 w e -> found 0 w e -> reads_items ws es -> found_items ws es -> es <> [] ->
  found_items (w ++ sym "," :: ws) (e :: es).
Proof.
  intros Hr H Hi HI Hne rest Hc. rewrite <- app_assoc. cbn [app].
  destruct (start_item w e Hr (sym "," :: ws ++ rest)) as (S1 & S2).
  assert (E : ev (fun m => parse m 0 (w ++ sym "," :: ws ++ rest)) (e, sym "," :: ws ++ rest)) by (apply found_inner; auto).
  assert (Hc' : closes es rest).
  { destruct Hc as [Hc|[Hc|(e' & r & He & _)]]; [left; auto|right; left; auto|]. injection He as _ He. contradiction. }
  assert (Hs : starts ")" (ws ++ rest) = false).
  { destruct Hi; [contradiction|exact (proj1 (start_item _ _ H0 _))|]. rewrite <- app_assoc. exact (proj1 (start_item _ _ H0 _)). }
  apply (ev_succ (fun m => match parse m 0 (w ++ sym "," :: ws ++ rest) with
    | Some (e, r) => if starts "," r && negb (starts ")" (tl r)) then
             match items m (tl r) with Some (es, r') => Some (e :: es, r') | None => None end
           else Some ([e], r)
    | None => None end)); [|intros m; cbn [items]; now rewrite S1, S2].
  apply (ev_bind _ (fun m (p : rexpr * list token) => let (e, r) := p in
       if starts "," r && negb (starts ")" (tl r)) then
             match items m (tl r) with Some (es, r') => Some (e :: es, r') | None => None end
           else Some ([e], r)) (e, sym "," :: ws ++ rest) _ E).
  cbn [tl]. replace (starts "," (sym "," :: ws ++ rest) && negb (starts ")" (ws ++ rest))) with true; [|now rewrite Hs].
  apply (ev_bind _ (fun _ (p : list rexpr * list token) => let (es, r') := p in Some (e :: es, r')) (es, rest) _ (HI rest Hc')).
  apply ev_now.
Qed.

Definition fixed (l : nat) : Prop := l = 0 \/ l = 12 \/ l = 14.
Lemma cont_fixed l e rest x : fixed l -> ev (fun m => cont m l e rest) x -> x = (e, rest).
Proof.
  intros Hl Hx. eapply ev_fun; [exact Hx|]. exists 1. intros [|m] Hm; [lia|].
  destruct Hl as [->|[->| ->]]; destruct rest; reflexivity.
Qed.
Lemma ev_closed {A} s (f : nat -> option (A * list token)) a r :
  ev f (a, sym s :: r) -> ev (fun m => closed s (f m)) (a, r).
Proof. intros (n & H). exists n. intros m Hm. rewrite H by exact Hm. cbn. now rewrite String.eqb_refl. Qed.

Lemma found_paren w e : reads 0 w e -> found 0 w e -> found 14 (sym "(" :: w ++ [sym ")"]) e.
Proof.
  intros Hr H rest x _ Hx. apply cont_fixed in Hx; [|right; auto]. subst x. cbn [app]. rewrite <- app_assoc. cbn [app].
  assert (E : ev (fun m => items m (w ++ sym ")" :: rest)) ([e], sym ")" :: rest)) by (apply items_one; auto; left; reflexivity).
  destruct E as (n & E). exists (S n). intros [|m] Hm; [lia|]. cbn [parse]. cbn [is sym String.eqb]. rewrite E by lia. reflexivity.
Qed.
Lemma found_one w e : reads 0 w e -> found 0 w e -> found 14 (sym "(" :: w ++ [sym ","; sym ")"]) (XTuple [e]).
Proof.
  intros Hr H rest x _ Hx. apply cont_fixed in Hx; [|right; auto]. subst x. cbn [app]. rewrite <- app_assoc. cbn [app].
  assert (E : ev (fun m => items m (w ++ sym "," :: sym ")" :: rest)) ([e], sym "," :: sym ")" :: rest)).
  { apply items_one; auto. right; right. eauto. }
  destruct E as (n & E). exists (S n). intros [|m] Hm; [lia|]. cbn [parse]. cbn [is sym String.eqb]. rewrite E by lia. reflexivity.
Qed.
Lemma found_tuple w es : found_items w es -> length es <> 1 -> found 14 (sym "(" :: w ++ [sym ")"]) (XTuple es).
Proof.
  intros H Hes rest x _ Hx. apply cont_fixed in Hx; [|right; auto]. subst x. cbn [app]. rewrite <- app_assoc. cbn [app].
  destruct (H (sym ")" :: rest) ltac:(left; reflexivity)) as (n & E).
  exists (S n). intros [|m] Hm; [lia|]. cbn [parse]. cbn [is sym String.eqb]. rewrite E by lia.
  destruct es as [|e [|e' es]]; [reflexivity|cbn in Hes; lia|reflexivity].
Qed.
Lemma found_array w es : found_items w es -> found 14 (sym "[" :: w ++ [sym "]"]) (XArray es).
Proof.
  intros H rest x _ Hx. apply cont_fixed in Hx; [|right; auto]. subst x. cbn [app]. rewrite <- app_assoc. cbn [app].
  destruct (H (sym "]" :: rest) ltac:(right; left; reflexivity)) as (n & E).
  exists (S n). intros [|m] Hm; [lia|]. cbn [parse]. cbn [is sym String.eqb]. rewrite E by lia. reflexivity.
Qed.

(** A postfix operator, its text and what it makes of what precedes it *)
Lemma found_postfix w x suffix y : found 13 w x -> (exists s r, suffix = sym s :: r /\ level_of (sym s) = Some 13 /\ (s = "(" -> ~ ends_in_field w)%string) ->
  (forall rest z, follows_ok 13 (w ++ suffix) rest -> ev (fun m => cont m 13 y rest) z -> ev (fun m => cont m 13 x (suffix ++ rest)) z) ->
  found 13 (w ++ suffix) y.
Proof.
  intros H (s & r & -> & Hl & Hn) Hc rest z Hf Hz. rewrite <- app_assoc. apply H; [|apply Hc; auto].
  cbn [follows_ok app]. rewrite Hl. split; [right; lia|]. split.
  - intros _. split; [destruct (is "<" (sym s)) eqn:E|destruct (is "<<" (sym s)) eqn:E]; auto;
      apply is_true in E; injection E as ->; discriminate.
  - intros He. destruct (is "(" (sym s)) eqn:E; auto. apply is_true in E. injection E as ->. exfalso. now apply Hn.
Qed.
Lemma found_method w x n wa args : found 13 w x -> found_items wa args ->
  found 13 (w ++ sym "." :: TId n :: sym "(" :: wa ++ [sym ")"]) (XMethod x n args).
Proof.
  intros H Ha. apply (found_postfix w x); auto; [eexists _, _; repeat split; discriminate|].
  intros rest z _ Hz. cbn [app]. rewrite <- app_assoc. cbn [app].
  apply (ev_succ (fun m => match closed ")" (items m (wa ++ sym ")" :: rest)) with Some (es, r') => cont m 13 (XMethod x n es) r' | None => None end)); [|reflexivity].
  apply (ev_bind _ (fun m (p : list rexpr * list token) => let (es, r') := p in cont m 13 (XMethod x n es) r') (args, rest)); [|exact Hz].
  apply ev_closed, Ha. left; reflexivity.
Qed.
Lemma found_field w x n : found 13 w x -> found 13 (w ++ [sym "."; TId n]) (XField x n).
Proof.
  intros H. apply (found_postfix w x); auto; [eexists _, _; repeat split; discriminate|].
  intros rest z Hf Hz. cbn [app].
  apply (ev_succ (fun m => cont m 13 (XField x n) rest)); [exact Hz|]. intros m. cbn [cont]. cbn [is sym String.eqb].
  cbn - [starts]. replace (starts "(" rest) with false; [reflexivity|].
  destruct rest as [|t r]; [reflexivity|]. destruct Hf as (_ & _ & Hf). symmetry. apply Hf. now exists w, n.
Qed.
Lemma found_call w f wa args : found 13 w f -> ~ ends_in_field w -> found_items wa args ->
  found 13 (w ++ sym "(" :: wa ++ [sym ")"]) (XCall f args).
Proof.
  intros H Hn Ha. apply (found_postfix w f); auto; [eexists _, _; repeat split; auto|].
  intros rest z _ Hz. cbn [app]. rewrite <- app_assoc. cbn [app].
  apply (ev_succ (fun m => match closed ")" (items m (wa ++ sym ")" :: rest)) with Some (es, r') => cont m 13 (XCall f es) r' | None => None end)); [|reflexivity].
  apply (ev_bind _ (fun m (p : list rexpr * list token) => let (es, r') := p in cont m 13 (XCall f es) r') (args, rest)); [|exact Hz].
  apply ev_closed, Ha. left; reflexivity.
Qed.
Lemma found_index w x wi i : found 13 w x -> found 0 wi i -> found 13 (w ++ sym "[" :: wi ++ [sym "]"]) (XIndex x i).
Proof.
  intros H Hi. apply (found_postfix w x); auto; [eexists _, _; repeat split; discriminate|].
  intros rest z _ Hz. cbn [app]. rewrite <- app_assoc. cbn [app].
  apply (ev_succ (fun m => match closed "]" (parse m 0 (wi ++ sym "]" :: rest)) with Some (i, r') => cont m 13 (XIndex x i) r' | None => None end)); [|reflexivity].
  apply (ev_bind _ (fun m (p : rexpr * list token) => let (i, r') := p in cont m 13 (XIndex x i) r') (i, rest)); [|exact Hz].
  apply ev_closed, found_inner; auto.
Qed.
Lemma found_try w x : found 13 w x -> found 13 (w ++ [sym "?"]) (XTry x).
Proof.
  intros H. apply (found_postfix w x); auto; [eexists _, _; repeat split; discriminate|].
  intros rest z _ Hz. exact (ev_succ _ _ _ Hz (fun m => eq_refl)).
Qed.
Lemma found_prefix s c w x : (forall r, prefix_of (sym s :: r) = Some (c, r)) -> found 12 w x -> found 12 (sym s :: w) (c x).
Proof.
  intros Hc H rest z Hf Hz. apply cont_fixed in Hz; [|right; auto]. subst z. cbn [app].
  assert (E : ev (fun m => parse m 12 (w ++ rest)) (x, rest)).
  { apply found_exact; [lia|exact H| |].
    - destruct rest as [|t r]; [exact I|]. destruct Hf as (Hl & Ht & Hn). split; [exact Hl|]. split; intros E; [apply Ht, type_cons, E|apply Hn, field_cons, E].
    - destruct rest as [|t r]; [exact I|]. destruct Hf as (Hl & _). cbn. unfold level_of in *.
      destruct (infix_of t) as [op|]; [destruct op; cbn in *; lia|]. destruct (is ".." t); [lia|]. destruct (is "as" t); [lia|].
      destruct (is "." t || is "(" t || is "[" t || is "?" t); [lia|exact I]. }
  apply (ev_succ (fun m => match parse m 12 (w ++ rest) with Some (e, r') => Some (c e, r') | None => None end)).
  - exact (ev_bind _ (fun _ (p : rexpr * list token) => let (e, r') := p in Some (c e, r')) (x, rest) _ E (ev_now _)).
  - intros m. cbn [parse]. now rewrite Hc.
Qed.
Lemma found_cast w x t : found 11 w x -> found 11 (w ++ [sym "as"; TTy t]) (XCast x t).
Proof.
  intros H rest z Hf Hz. rewrite <- app_assoc. apply H.
  - cbn. repeat split; auto. right; lia.
  - apply (ev_succ (fun m => cont m 11 (XCast x t) rest)); [exact Hz|]. intros m. cbn - [starts].
    replace (starts "<" rest || starts "<<" rest) with false; [reflexivity|].
    destruct rest as [|h r]; [reflexivity|]. destruct Hf as (_ & Hf & _). destruct (Hf ltac:(exists (w ++ [sym "as"]), t; now rewrite <- app_assoc)) as (E1 & E2).
    cbn [starts]. now rewrite E1, E2.
Qed.
Lemma infix_level op : level_of (sym (symbol op)) = Some (strength op).
Proof. destruct op; reflexivity. Qed.
Lemma not_angle op : ~ angle op -> is "<" (sym (symbol op)) = false /\ is "<<" (sym (symbol op)) = false.
Proof. unfold angle. intros H. destruct op; try (split; reflexivity); exfalso; apply H; auto. Qed.
Lemma not_paren op : is "(" (sym (symbol op)) = false.
Proof. destruct op; reflexivity. Qed.
Lemma cont_infix m op e r :
  cont (S m) (strength op) e (sym (symbol op) :: r)
  = match parse m (S (strength op)) r with
    | Some (b, r') => if comparison op then Some (XBin op e b, r') else cont m (strength op) (XBin op e b) r'
    | None => None
    end.
Proof. destruct op; reflexivity. Qed.
Lemma angle_dec op : {angle op} + {~ angle op}.
Proof. unfold angle. destruct op; auto; right; intros [H|H]; discriminate. Qed.
Lemma found_left wa a op wb b : comparison op = false -> (angle op -> ~ ends_in_type wa) ->
  found (strength op) wa a -> found (S (strength op)) wb b -> found (strength op) (wa ++ sym (symbol op) :: wb) (XBin op a b).
Proof.
  intros Hc Ha H1 H2 rest z Hf Hz. rewrite <- app_assoc. cbn [app]. apply H1.
  - cbn [follows_ok]. rewrite infix_level. split; [right; destruct op; try discriminate; cbn; lia|].
    split; [|intros _; apply not_paren]. intros E. apply not_angle. intros A. exact (Ha A E).
  - apply (ev_succ (fun m => match parse m (S (strength op)) (wb ++ rest) with
      | Some (b, r') => if comparison op then Some (XBin op a b, r') else cont m (strength op) (XBin op a b) r'
      | None => None end)); [|intros m; apply cont_infix].
    apply (ev_bind _ (fun m (p : rexpr * list token) => let (b, r') := p in
      if comparison op then Some (XBin op a b, r') else cont m (strength op) (XBin op a b) r') (b, rest)).
    + apply found_exact; [destruct op; cbn; lia|exact H2| |eapply follows_stops; exact Hf].
      eapply follows_mono; [|exact Hf| |]; [lia| |]; intros E; [apply type_app, type_cons, E|apply field_app, field_cons, E].
    + rewrite Hc. exact Hz.
Qed.
Lemma found_compare wa a op wb b : comparison op = true -> (angle op -> ~ ends_in_type wa) ->
  found (S (strength op)) wa a -> found (S (strength op)) wb b -> found (strength op) (wa ++ sym (symbol op) :: wb) (XBin op a b).
Proof.
  intros Hc Ha H1 H2 rest z Hf Hz. rewrite <- app_assoc. cbn [app].
  assert (L : loops (strength op)) by (destruct op; unfold loops; cbn; lia).
  assert (S4 : strength op = 4) by (destruct op; try discriminate; reflexivity).
  assert (z = (XBin op a b, rest)).
  { eapply ev_fun; [exact Hz|]. apply ev_stops; [lia|]. destruct rest as [|t r]; [exact I|]. destruct Hf as (Hf & _). cbn. destruct (level_of t); [lia|exact I]. } subst z.
  apply (ev_succ (fun m => match parse m (S (strength op)) (wa ++ sym (symbol op) :: wb ++ rest) with Some (e, r) => cont m (strength op) e r | None => None end));
    [|intros m; now apply parse_loop].
  apply (ev_bind _ (fun m (p : rexpr * list token) => let (e, r) := p in cont m (strength op) e r) (a, sym (symbol op) :: wb ++ rest)).
  - apply found_exact; [lia|exact H1| |].
    + cbn [follows_ok]. rewrite infix_level. split; [lia|]. split; [|intros _; apply not_paren]. intros E. apply not_angle. intros A. exact (Ha A E).
    + cbn [stops]. rewrite infix_level. lia.
  - apply (ev_succ (fun m => match parse m (S (strength op)) (wb ++ rest) with
      | Some (b, r') => if comparison op then Some (XBin op a b, r') else cont m (strength op) (XBin op a b) r'
      | None => None end)); [|intros m; apply cont_infix].
    apply (ev_bind _ (fun m (p : rexpr * list token) => let (b, r') := p in
      if comparison op then Some (XBin op a b, r') else cont m (strength op) (XBin op a b) r') (b, rest)).
    + apply found_exact; [lia|exact H2| |eapply follows_stops; exact Hf].
      eapply follows_mono; [|exact Hf| |]; [lia| |]; intros E; [apply type_app, type_cons, E|apply field_app, field_cons, E].
    + rewrite Hc. apply ev_now.
Qed.
Lemma found_range wa a wb b : found 2 wa a -> found 2 wb b -> found 1 (wa ++ sym ".." :: wb) (XRange a b).
Proof.
  intros H1 H2 rest z Hf Hz. rewrite <- app_assoc. cbn [app].
  assert (z = (XRange a b, rest)).
  { eapply ev_fun; [exact Hz|]. apply ev_stops; [lia|]. destruct rest as [|t r]; [exact I|]. destruct Hf as (Hf & _). cbn. destruct (level_of t); [lia|exact I]. } subst z.
  apply (ev_succ (fun m => match parse m 2 (wa ++ sym ".." :: wb ++ rest) with Some (e, r) => cont m 1 e r | None => None end)); [|reflexivity].
  apply (ev_bind _ (fun m (p : rexpr * list token) => let (e, r) := p in cont m 1 e r) (a, sym ".." :: wb ++ rest)).
  - apply found_exact; [lia|exact H1| |]; cbn; [repeat split; auto|auto].
  - apply (ev_succ (fun m => match parse m 2 (wb ++ rest) with Some (b, r') => Some (XRange a b, r') | None => None end)); [|reflexivity].
    apply (ev_bind _ (fun m (p : rexpr * list token) => let (b, r') := p in Some (XRange a b, r')) (b, rest)); [|apply ev_now].
    apply found_exact; [lia|exact H2| |eapply follows_stops; exact Hf].
    eapply follows_mono; [|exact Hf| |]; [lia| |]; intros E; [apply type_app, type_cons, E|apply field_app, field_cons, E].
Qed.
Lemma found_closure v w e : found 0 w e -> found 0 (sym "|" :: TId v :: sym "|" :: w) (XClosure v e).
Proof.
  intros H rest z Hf Hz. apply cont_fixed in Hz; [|left; auto]. subst z. cbn [app].
  apply (ev_succ (fun m => match parse m 0 (w ++ rest) with Some (e, r') => Some (XClosure v e, r') | None => None end)); [|reflexivity].
  apply (ev_bind _ (fun _ (p : rexpr * list token) => let (e, r') := p in Some (XClosure v e, r')) (e, rest)); [|apply ev_now].
  apply found_exact; [lia|exact H| |].
  - destruct rest as [|t r]; [exact I|]. destruct Hf as (Hl & Ht & Hn). split; [exact Hl|].
    split; intros E; [apply Ht|apply Hn]; [do 3 apply type_cons|do 3 apply field_cons]; exact E.
  - destruct rest as [|t r]; [exact I|]. destruct Hf as (Hl & _). cbn. unfold level_of in *.
    destruct (infix_of t) as [op|]; [destruct op; cbn in *; lia|]. destruct (is ".." t); [lia|]. destruct (is "as" t); [lia|].
    destruct (is "." t || is "(" t || is "[" t || is "?" t); [lia|exact I].
Qed.

Theorem all_found : (forall l w e, reads l w e -> found l w e) /\ (forall w es, reads_items w es -> found_items w es).
Proof.
  apply (reads_mutind (fun l w e _ => found l w e) (fun w es _ => found_items w es)); intros.
  - now apply found_stronger.
  - intros rest x _ Hx. apply cont_fixed in Hx; [|right; auto]. subst x. exact (ev_succ _ _ _ (ev_now _) (fun m => eq_refl)).
  - intros rest x _ Hx. apply cont_fixed in Hx; [|right; auto]. subst x. exact (ev_succ _ _ _ (ev_now _) (fun m => eq_refl)).
  - now apply found_paren.
  - now apply found_one.
  - now apply found_tuple.
  - now apply found_array.
  - now apply found_method.
  - now apply found_field.
  - now apply found_call.
  - now apply found_index.
  - now apply found_try.
  - now apply (found_prefix "*" XDeref).
  - now apply (found_prefix "&" XBorrow).
  - now apply (found_prefix "&mut" XBorrowMut).
  - now apply (found_prefix "!" XNot).
  - now apply found_cast.
  - now apply found_left.
  - now apply found_compare.
  - now apply found_range.
  - now apply found_closure.
  - intros rest Hc. exists 1. intros [|m] Hm; [lia|]. cbn [items app].
    destruct Hc as [->|[->|(e & r & H & _)]]; [reflexivity|rewrite orb_true_r; reflexivity|discriminate].
  - intros rest Hc. now apply items_one.
  - now apply items_more.
Qed.
(** A text is read in one way at most. *)
Theorem reads_unique l w e e' : reads l w e -> reads l w e' -> e = e'.
Proof.
  intros H H'. pose proof (reads_le _ _ _ H) as Hl. apply (proj1 all_found) in H. apply (proj1 all_found) in H'.
  pose proof (found_exact l w e [] Hl H I I) as E. pose proof (found_exact l w e' [] Hl H' I I) as E'.
  pose proof (ev_fun _ _ _ E E') as Q. congruence.
Qed.
