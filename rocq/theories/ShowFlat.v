(** What is shown as sequences of operands and operators, and how these are grouped. *)
From Coq Require Import Ascii String.
From Verif Require Import Base BoundsModel DataModel NumericModel ValueModel FragModel ShowModel ShowSpec ShowLex.
Open Scope nat_scope.

Definition wraps (p c : precedence) : bool := match relate p c with Disjoint | Superior => true | _ => false end.
(** The precedence operands are shown at, and the one of the operator itself *)
Definition within (o : infix) : precedence :=
  match o with
  | Range => FUN_APPLICATION | Times => MUL | Divide | Remainder => DIV_REM | ShiftL | ShiftR => BIT_SHIFT
  | Plus | Minus | Concat => ADD_SUB | AndB | AndL => BITAND | OrB | OrL => BITOR
  | Equal | Unequal => EQUALITY | Less | Greater | AtMost | AtLeast => COMPARE
  end.
Definition outer (o : infix) : precedence :=
  match o with
  | Range => FUN_APPLICATION | Times => MUL | Divide | Remainder => DIV_REM | ShiftL | ShiftR => BIT_SHIFT
  | Plus | Minus | Concat => ADD_SUB | AndB => BITAND | AndL => LOGICAL_AND | OrB => BITOR | OrL => LOGICAL_OR
  | Equal | Unequal | Less | Greater | AtMost | AtLeast => COMPARE
  end.
Definition cutoff (x : shown) : precedence :=
  match x with
  | XWord _ | XHidden _ | XVariant _ _ => Atomic
  | XProj _ _ => Projection
  | XApply _ _ _ => FUN_APPLICATION
  | XInfix o _ _ => outer o
  | XMatch _ | XBind _ _ _ => MATCH
  | XArrow _ _ => ARROW
  end.
Definition paren (f : fl) : fl := FSeq (BParen f) [] [].
Definition wrap (p c : precedence) (f : fl) : fl := if wraps p c then paren f else f.
Definition base_of (f : fl) : fl := match f with FSeq b _ _ => b | f => f end.
Definition join (f : fl) (o : infix) (g : fl) : fl :=
  match f, g with
  | FSeq b ps l, FSeq c qs m => FSeq b ps (l ++ (o, (c, qs)) :: m)
  | f, _ => f
  end.
Fixpoint flat (p : precedence) (x : shown) : fl :=
  wrap p (cutoff x)
    (match x with
     | XWord t => FSeq (BWord t) [] []
     | XHidden k => FSeq (BHidden k) [] []
     | XVariant l x => FSeq (BVariant l (flat Top x)) [] []
     | XProj x l => match flat Projection x with FSeq b ps m => FSeq b (ps ++ [l]) m | f => f end
     | XApply op args x => FSeq (BApply op (map (flat Top) args) (base_of (flat Atomic x))) [] []
     | XInfix o x y => join (flat (within o) x) o (flat (within o) y)
     | XMatch x => FMatch (flat MATCH x)
     | XBind t x y => FBind t (flat Top x) (flat p y)
     | XArrow v x => FArrow v (flat ARROW x)
     end).
(** What is inside the parentheses, if there are any *)
Definition body (p : precedence) (x : shown) : fl :=
  match x with
  | XWord t => FSeq (BWord t) [] []
  | XHidden k => FSeq (BHidden k) [] []
  | XVariant l x => FSeq (BVariant l (flat Top x)) [] []
  | XProj x l => match flat Projection x with FSeq b ps m => FSeq b (ps ++ [l]) m | f => f end
  | XApply op args x => FSeq (BApply op (map (flat Top) args) (base_of (flat Atomic x))) [] []
  | XInfix o x y => join (flat (within o) x) o (flat (within o) y)
  | XMatch x => FMatch (flat MATCH x)
  | XBind t x y => FBind t (flat Top x) (flat p y)
  | XArrow v x => FArrow v (flat ARROW x)
  end.
Lemma flat_eq p x : flat p x = wrap p (cutoff x) (body p x).
Proof. destruct x; reflexivity. Qed.

Section ShownInd.
Context (Q : shown -> Prop).
Context (H1 : forall t, Q (XWord t)) (H2 : forall k, Q (XHidden k)) (H3 : forall l x, Q x -> Q (XVariant l x))
  (H4 : forall x l, Q x -> Q (XProj x l)) (H5 : forall op args x, Forall Q args -> Q x -> Q (XApply op args x))
  (H6 : forall o x y, Q x -> Q y -> Q (XInfix o x y)) (H7 : forall x, Q x -> Q (XMatch x))
  (H8 : forall t x y, Q x -> Q y -> Q (XBind t x y)) (H9 : forall v x, Q x -> Q (XArrow v x)).
Fixpoint shown_ind' (x : shown) : Q x :=
  let go := fix go (l : list shown) : Forall Q l :=
    match l with [] => Forall_nil _ | x :: l => Forall_cons x (shown_ind' x) (go l) end in
  match x with
  | XWord t => H1 t | XHidden k => H2 k | XVariant l x => H3 l x (shown_ind' x) | XProj x l => H4 x l (shown_ind' x)
  | XApply op args x => H5 op args x (go args) (shown_ind' x) | XInfix o x y => H6 o x y (shown_ind' x) (shown_ind' y)
  | XMatch x => H7 x (shown_ind' x) | XBind t x y => H8 t x y (shown_ind' x) (shown_ind' y) | XArrow v x => H9 v x (shown_ind' x)
  end.
End ShownInd.

(** ** Grouping *)

Definition rank (o : infix) : nat :=
  match o with
  | Range => 10 | Times => 9 | Divide | Remainder => 8 | ShiftL | ShiftR => 7 | Plus | Minus | Concat => 6
  | AndB => 5 | OrB => 4 | AndL => 3 | OrL => 2 | Equal | Unequal => 1 | Less | Greater | AtMost | AtLeast => 0
  end.
Lemma bare_rank o o' : wraps (within o) (outer o') = false -> rank o <= rank o'.
Proof. destruct o, o'; cbn; intros H; first [discriminate H | lia]. Qed.
Lemma bare_chained o o' : wraps (within o) (outer o') = false -> rank o = rank o' -> chained o o' = true.
Proof. destruct o, o'; cbn; intros H H'; first [discriminate H | discriminate H' | reflexivity]. Qed.
Lemma chained_eq o o' : chained o o' = true ->
  within o = within o' /\ outer o = outer o' /\ rank o = rank o' /\ wraps (within o) (outer o') = false /\ chained o' o = true.
Proof. destruct o, o'; cbn; intros H; first [discriminate H | repeat split]. Qed.
Lemma chained_trans o o' o'' : chained o o' = true -> chained o' o'' = true -> chained o o'' = true.
Proof. destruct o, o', o''; cbn; intros H H'; first [discriminate H | discriminate H' | reflexivity]. Qed.

Definition is_seq (f : fl) : bool := match f with FSeq _ _ _ => true | _ => false end.
Definition rest (f : fl) : list (infix * (fl * list text)) := match f with FSeq _ _ l => l | _ => [] end.
Definition projs (f : fl) : list text := match f with FSeq _ ps _ => ps | _ => [] end.

Lemma wraps_calculus o : wraps (within o) MATCH = true /\ wraps (within o) ARROW = true.
Proof. destruct o; split; reflexivity. Qed.

(** At the precedences of operands there are only sequences; of at least that rank. *)
Lemma within_seq x : (forall o, is_seq (flat (within o) x) = true /\ Forall (fun e => rank o <= rank (fst e)) (rest (flat (within o) x))) /\
  (is_seq (flat Projection x) = true /\ rest (flat Projection x) = []) /\
  (is_seq (flat Atomic x) = true /\ rest (flat Atomic x) = [] /\ projs (flat Atomic x) = []).
Proof.
  induction x as [t|k|l x IH|x l IH|op args x _ IH|o x y IHx IHy|x IH|t x y IHx IHy|v x IH] using shown_ind';
    (split; [intros oo|split]); rewrite flat_eq; unfold wrap; cbn [cutoff].
  all: try (match goal with |- context[wraps ?a ?b] => replace (wraps a b) with true by reflexivity end; now repeat split).
  all: try (match goal with |- context[wraps (within ?o) ?b] => replace (wraps (within o) b) with true by (destruct o; reflexivity) end; repeat split; constructor).
  all: try (match goal with |- context[wraps ?a Atomic] => replace (wraps a Atomic) with false by (try destruct oo; reflexivity) end; repeat split; constructor).
  - replace (wraps (within oo) Projection) with false by (destruct oo; reflexivity). cbn [body]. destruct IH as (_ & [I1 I2] & _).
    destruct (flat Projection x); try discriminate I1. cbn [rest] in I2. subst. repeat split; constructor.
  - replace (wraps Projection Projection) with false by reflexivity. cbn [body]. destruct IH as (_ & [I1 I2] & _).
    destruct (flat Projection x); try discriminate I1. cbn [rest] in I2. subst. repeat split; constructor.
  - destruct (wraps (within oo) FUN_APPLICATION); repeat split; constructor.
  - destruct (wraps (within oo) (outer o)) eqn:E; [repeat split; constructor|]. apply bare_rank in E. cbn [body].
    destruct (proj1 IHx o) as [X1 X2], (proj1 IHy o) as [Y1 Y2].
    destruct (flat (within o) x), (flat (within o) y); try discriminate. cbn [join rest is_seq] in *. split; [reflexivity|].
    apply Forall_app. split; [|constructor; [exact E|]]; eapply Forall_impl; try eassumption; cbn beta; intros e He; lia.
  - replace (wraps Projection (outer o)) with true by (destruct o; reflexivity). now repeat split.
  - replace (wraps Atomic (outer o)) with true by (destruct o; reflexivity). now repeat split.
Qed.

(** ** Regrouping does not show *)
Lemma regrouped_flat x y : Regrouped x y -> cutoff x = cutoff y /\ (forall p, flat p x = flat p y) .
Proof.
  induction 1 as [x|x y _ [C F]|x y z _ [C1 F1] _ [C2 F2]|o o' x y z H|l x y _ [C F]|x y l _ [C F]|op a x y _ [C F]|op a b x y z _ [C F]
    |o x x' y y' _ [C1 F1] _ [C2 F2]|x y _ [C F]|t x x' y y' _ [C1 F1] _ [C2 F2]|v x y _ [C F]].
  all: try (split; [congruence|intros p; congruence]).
  all: try (split; [reflexivity|intros p; rewrite !flat_eq; cbn [body cutoff]; rewrite ?F, ?F1, ?F2; reflexivity]).
  - apply chained_eq in H as (H1 & H2 & _ & H3 & H4). split; [cbn; now symmetry|]. intros p. rewrite !flat_eq. cbn [cutoff]. rewrite H2. f_equal.
    cbn [body]. rewrite (flat_eq _ (XInfix o x y)), (flat_eq _ (XInfix o' y z)). unfold wrap. cbn [cutoff body].
    rewrite <- H1, H2. rewrite H3.
    destruct (proj1 (within_seq x) o) as [X _], (proj1 (within_seq y) o) as [Y _], (proj1 (within_seq z) o) as [Z _].
    destruct (flat (within o) x), (flat (within o) y), (flat (within o) z); try discriminate. cbn [join]. now rewrite <- app_assoc.
  - split; [reflexivity|]. intros p. rewrite !flat_eq. cbn [cutoff body]. now rewrite !map_app, !map_cons, F.
Qed.

(** ** Grouping to the left *)
Lemma left_keep o x y : to_the_left x = true -> to_the_left y = true ->
  match y with XInfix o' _ _ => negb (chained o o') | _ => true end = true -> exists z, to_the_left z = true /\ Regrouped (XInfix o x y) z.
Proof. intros Hx Hy H. exists (XInfix o x y). split; [|apply RG_refl]. cbn [to_the_left]. now rewrite Hx, Hy, H. Qed.
Lemma left_infix o x y : to_the_left x = true -> to_the_left y = true -> exists z, to_the_left z = true /\ Regrouped (XInfix o x y) z.
Proof.
  revert o x. induction y as [t|k|l y IH|y l IH|op args y _ IH|o' y z IHy IHz|y IH|t y z IHx IHy|v y IH] using shown_ind'; intros o x Hx Hy;
    try (apply left_keep; [exact Hx|exact Hy|reflexivity]).
  destruct (chained o o') eqn:E.
  - cbn [to_the_left] in Hy. apply andb_prop in Hy as [Hy H3]. apply andb_prop in Hy as [H1 H2].
    destruct (IHy o x Hx H1) as (w & Hw & Rw). exists (XInfix o' w z). split.
    + cbn [to_the_left]. now rewrite Hw, H2, H3.
    + eapply RG_trans; [apply RG_sym, RG_rotate; exact E|]. apply RG_infix; [exact Rw|apply RG_refl].
  - exists (XInfix o x (XInfix o' y z)). split; [|apply RG_refl]. cbn [to_the_left] in *. now rewrite Hx, Hy, E.
Qed.
Lemma left_args op x a b b' : Forall2 Regrouped b b' -> Regrouped (XApply op (a ++ b) x) (XApply op (a ++ b') x).
Proof.
  intros H. revert a. induction H as [|y y' b b' H Hb IH]; intros a; [apply RG_refl|].
  eapply RG_trans; [apply RG_args; exact H|]. specialize (IH (a ++ [y'])). rewrite <- !app_assoc in IH. exact IH.
Qed.
Lemma left_form x : exists z, to_the_left z = true /\ Regrouped x z.
Proof.
  induction x as [t|k|l x (z & Hz & Rz)|x l (z & Hz & Rz)|op args x IHa (z & Hz & Rz)|o x y (z & Hz & Rz) (z' & Hz' & Rz')|x (z & Hz & Rz)|t x y (z & Hz & Rz) (z' & Hz' & Rz')|v x (z & Hz & Rz)] using shown_ind'.
  - exists (XWord t). split; [reflexivity|apply RG_refl].
  - exists (XHidden k). split; [reflexivity|apply RG_refl].
  - exists (XVariant l z). split; [exact Hz|now constructor].
  - exists (XProj z l). split; [exact Hz|now constructor].
  - assert (K : exists args', forallb to_the_left args' = true /\ Forall2 Regrouped args args').
    { induction IHa as [|a args (a' & Ha & Ra) _ (args' & Hs & Rs)]; [exists []; split; [reflexivity|constructor]|].
      exists (a' :: args'). split; [cbn; now rewrite Ha, Hs|now constructor]. }
    destruct K as (args' & Hs & Rs). exists (XApply op args' z). split; [cbn; now rewrite Hs, Hz|].
    eapply RG_trans; [apply RG_apply; exact Rz|]. apply (left_args op z [] args args' Rs).
  - destruct (left_infix o z z' Hz Hz') as (w & Hw & Rw). exists w. split; [exact Hw|].
    eapply RG_trans; [|exact Rw]. now apply RG_infix.
  - exists (XMatch z). split; [exact Hz|now constructor].
  - exists (XBind t z z'). split; [cbn; now rewrite Hz, Hz'|now constructor].
  - exists (XArrow v z). split; [exact Hz|now constructor].
Qed.

(** The operators on the right of the last operator are of greater rank, if chains are
    grouped to the left. *)
Lemma right_rank o y : match y with XInfix o' _ _ => negb (chained o o') | _ => true end = true ->
  Forall (fun e => rank o < rank (fst e)) (rest (flat (within o) y)).
Proof.
  intros H. rewrite flat_eq. unfold wrap. destruct (wraps (within o) (cutoff y)) eqn:E; [constructor|].
  destruct y as [t|k|l y|y l|op args y|o' y z|y|t y z|v y]; cbn [body rest]; try constructor.
  - destruct (within_seq y) as (_ & [I1 I2] & _). destruct (flat Projection y); try discriminate I1. cbn [rest] in I2. subst. constructor.
  - cbn [cutoff] in E. assert (K : rank o < rank o').
    { destruct (Nat.eq_dec (rank o) (rank o')) as [K|K]; [|apply bare_rank in E; lia]. rewrite (bare_chained o o' E K) in H. discriminate. }
    destruct (proj1 (within_seq y) o') as [X1 X2], (proj1 (within_seq z) o') as [Y1 Y2].
    destruct (flat (within o') y), (flat (within o') z); try discriminate. cbn [join rest] in *.
    apply Forall_app. split; [|constructor; [exact K|]]; eapply Forall_impl; try eassumption; cbn beta; intros e He; lia.
Qed.
Lemma split_unique (A : Type) k (l1 l2 m1 m2 : list (infix * A)) a b c d :
  rank a = k -> rank b = k -> Forall (fun e => k < rank (fst e)) m1 -> Forall (fun e => k < rank (fst e)) m2 ->
  l1 ++ (a, c) :: m1 = l2 ++ (b, d) :: m2 -> l1 = l2 /\ a = b /\ c = d /\ m1 = m2.
Proof.
  intros Ha Hb. revert l2. induction l1 as [|x l1 IH]; intros [|y l2] H1 H2 E; cbn [app] in E.
  - injection E as -> -> ->. now repeat split.
  - exfalso. injection E as _ ->. rewrite Forall_app in H1. destruct H1 as [_ H1]. inversion_clear H1. cbn in *. lia.
  - exfalso. injection E as _ <-. rewrite Forall_app in H2. destruct H2 as [_ H2]. inversion_clear H2. cbn in *. lia.
  - injection E as -> E. destruct (IH l2 H1 H2 E) as (-> & -> & -> & ->). now repeat split.
Qed.

Lemma flat_body p p' x y : flat p x = flat p' y -> body p x = body p' y \/ body p x = paren (body p' y) \/ body p' y = paren (body p x).
Proof.
  rewrite !flat_eq. unfold wrap. destruct (wraps p (cutoff x)), (wraps p' (cutoff y)); auto.
  intros H. injection H as H. auto.
Qed.
Lemma body_paren p x f : body p x <> paren f.
Proof.
  unfold paren. destruct x as [t|k|l y|y l|op args y|o y z|y|t y z|v y]; cbn [body]; try discriminate.
  - destruct (flat Projection y); try discriminate. intros H. injection H as _ H _. now destruct ps.
  - destruct (proj1 (within_seq y) o) as [X1 _], (proj1 (within_seq z) o) as [Y1 _].
    destruct (flat (within o) y), (flat (within o) z); try discriminate. cbn [join]. intros H. injection H as _ _ H. now destruct rest0.
Qed.

Fixpoint nodes (x : shown) : nat :=
  match x with
  | XWord _ | XHidden _ => 1
  | XVariant _ x | XProj x _ | XMatch x | XArrow _ x => S (nodes x)
  | XApply _ args x => S (list_sum (map nodes args) + nodes x)
  | XInfix _ x y | XBind _ x y => S (nodes x + nodes y)
  end.
Lemma body_proj p x l : exists b ps, flat Projection x = FSeq b ps [] /\ body p (XProj x l) = FSeq b (ps ++ [l]) [].
Proof.
  cbn [body]. destruct (within_seq x) as (_ & [I1 I2] & _). destruct (flat Projection x) as [| | | | |b ps m| | |]; try discriminate I1.
  cbn [rest] in I2. subst. now exists b, ps.
Qed.
Lemma body_infix p o x y : exists b ps l c qs m, flat (within o) x = FSeq b ps l /\ flat (within o) y = FSeq c qs m /\
  body p (XInfix o x y) = FSeq b ps (l ++ (o, (c, qs)) :: m).
Proof.
  cbn [body]. destruct (proj1 (within_seq x) o) as [X1 _], (proj1 (within_seq y) o) as [Y1 _].
  destruct (flat (within o) x) as [| | | | |b ps l| | |]; try discriminate X1. destruct (flat (within o) y) as [| | | | |c qs m| | |]; try discriminate Y1.
  exists b, ps, l, c, qs, m. now repeat split.
Qed.
Lemma atom_flat x y : base_of (flat Atomic x) = base_of (flat Atomic y) -> flat Atomic x = flat Atomic y.
Proof.
  destruct (within_seq x) as (_ & _ & X1 & X2 & X3), (within_seq y) as (_ & _ & Y1 & Y2 & Y3).
  destruct (flat Atomic x); try discriminate X1. destruct (flat Atomic y); try discriminate Y1. cbn [rest projs base_of] in *. congruence.
Qed.

Definition simple (x : shown) : bool := match x with XProj _ _ | XInfix _ _ _ => false | _ => true end.
Lemma simple_body p x : simple x = true -> match body p x with FSeq _ ps l => ps = [] /\ l = [] | _ => True end.
Proof. destruct x; intros H; try discriminate H; cbn; auto. Qed.

Lemma left_inj_n n : forall x y p p', nodes x < n -> to_the_left x = true -> to_the_left y = true -> flat p x = flat p' y -> x = y.
Proof.
  induction n as [|n IH]; intros x y p p' Hn Lx Ly E; [lia|].
  assert (B : body p x = body p' y).
  { apply flat_body in E as [E|[E|E]]; auto; now apply body_paren in E. }
  clear E. destruct (simple x) eqn:Sx, (simple y) eqn:Sy.
  - destruct x as [t|k|l x|x l|op args x|o x1 x2|x|t x1 x2|v x]; destruct y as [t'|k'|l' y|y l'|op' args' y|o' y1 y2|y|t' y1 y2|v' y];
      try discriminate Sx; try discriminate Sy; cbn [body] in B; try discriminate B; cbn [to_the_left nodes] in *.
    + now injection B as ->.
    + now injection B as ->.
    + injection B as -> B. f_equal. apply (IH x y Top Top); auto; lia.
    + injection B as -> B1 B2. apply andb_prop in Lx as [L1 L2]. apply andb_prop in Ly as [L1' L2'].
      apply atom_flat in B2. f_equal; [|apply (IH x y Atomic Atomic); auto; lia].
      assert (Hn' : list_sum (map nodes args) < n) by lia. clear Hn B2 Sx Sy.
      revert args' L1' B1. induction args as [|a args IHa]; intros [|a' args'] L1' B1; cbn [map] in B1; try discriminate B1; [reflexivity|].
      injection B1 as B1 B3. cbn [forallb] in L1, L1'. apply andb_prop in L1 as [L1 L3]. apply andb_prop in L1' as [L1' L3'].
      cbn [map list_sum fold_right] in Hn'. f_equal; [apply (IH a a' Top Top); auto; lia|].
      apply IHa; auto. unfold list_sum. lia.
    + injection B as B. f_equal. apply (IH x y MATCH MATCH); auto; lia.
    + injection B as -> B1 B2. apply andb_prop in Lx as [L1 L2]. apply andb_prop in Ly as [L1' L2'].
      f_equal; [apply (IH x1 y1 Top Top)|apply (IH x2 y2 p p')]; auto; lia.
    + injection B as -> B. f_equal. apply (IH x y ARROW ARROW); auto; lia.
  - exfalso. apply (simple_body p) in Sx. rewrite B in Sx. destruct y; try discriminate Sy.
    + destruct (body_proj p' y l) as (b & ps & _ & K). rewrite K in Sx. destruct Sx as [Sx _]. now destruct ps.
    + destruct (body_infix p' o y1 y2) as (b & ps & l & c & qs & m & _ & _ & K). rewrite K in Sx. destruct Sx as [_ Sx]. now destruct l.
  - exfalso. apply (simple_body p') in Sy. rewrite <- B in Sy. destruct x; try discriminate Sx.
    + destruct (body_proj p x l) as (b & ps & _ & K). rewrite K in Sy. destruct Sy as [Sy _]. now destruct ps.
    + destruct (body_infix p o x1 x2) as (b & ps & l & c & qs & m & _ & _ & K). rewrite K in Sy. destruct Sy as [_ Sy]. now destruct l.
  - destruct x as [t|k|l x|x l|op args x|o x1 x2|x|t x1 x2|v x]; try discriminate Sx;
      destruct y as [t'|k'|l' y|y l'|op' args' y|o' y1 y2|y|t' y1 y2|v' y]; try discriminate Sy; cbn [to_the_left nodes] in *.
    + destruct (body_proj p x l) as (b & ps & F & K), (body_proj p' y l') as (b' & ps' & F' & K'). rewrite K, K' in B.
      injection B as -> B. apply app_inj_tail in B as [-> ->]. f_equal. apply (IH x y Projection Projection); auto; [lia|congruence].
    + exfalso. destruct (body_proj p x l) as (b & ps & F & K), (body_infix p' o' y1 y2) as (b' & ps' & m1 & c & qs & m & _ & _ & K').
      rewrite K, K' in B. injection B as _ _ B. now destruct m1.
    + exfalso. destruct (body_proj p' y l') as (b & ps & F & K), (body_infix p o x1 x2) as (b' & ps' & m1 & c & qs & m & _ & _ & K').
      rewrite K, K' in B. injection B as _ _ B. now destruct m1.
    + apply andb_prop in Lx as [Lx L3]. apply andb_prop in Lx as [L1 L2]. apply andb_prop in Ly as [Ly L3']. apply andb_prop in Ly as [L1' L2'].
      destruct (body_infix p o x1 x2) as (b & ps & l & c & qs & m & F1 & F2 & K), (body_infix p' o' y1 y2) as (b' & ps' & l' & c' & qs' & m' & F1' & F2' & K').
      rewrite K, K' in B. injection B as -> -> B.
      pose proof (right_rank o x2 L3) as M. pose proof (right_rank o' y2 L3') as M'. rewrite F2 in M. rewrite F2' in M'. cbn [rest] in M, M'.
      pose proof (proj2 (proj1 (within_seq x1) o)) as R. pose proof (proj2 (proj1 (within_seq y1) o')) as R'. rewrite F1 in R. rewrite F1' in R'. cbn [rest] in R, R'.
      assert (A : forall e, In e (l ++ (o, (c, qs)) :: m) -> rank o <= rank (fst e)).
      { rewrite Forall_forall in M, R. intros e He. apply in_app_or in He as [He|[<-|He]]; [now apply R|reflexivity|apply M in He; lia]. }
      assert (A' : forall e, In e (l' ++ (o', (c', qs')) :: m') -> rank o' <= rank (fst e)).
      { rewrite Forall_forall in M', R'. intros e He. apply in_app_or in He as [He|[<-|He]]; [now apply R'|reflexivity|apply M' in He; lia]. }
      assert (Q : rank o = rank o').
      { apply Nat.le_antisymm.
        - apply (A (o', (c', qs'))). rewrite B. apply in_or_app. right. now left.
        - apply (A' (o, (c, qs))). rewrite <- B. apply in_or_app. right. now left. }
      rewrite <- Q in M'. destruct (split_unique _ (rank o) _ _ _ _ _ _ _ _ eq_refl (eq_sym Q) M M' B) as (-> & -> & Ec & ->). injection Ec as -> ->.
      f_equal; [apply (IH x1 y1 (within o') (within o'))|apply (IH x2 y2 (within o') (within o'))]; auto; try lia; congruence.
Qed.
Lemma left_inj x y p p' : to_the_left x = true -> to_the_left y = true -> flat p x = flat p' y -> x = y.
Proof. apply (left_inj_n (S (nodes x))). lia. Qed.
Lemma flat_regrouped x y p p' : flat p x = flat p' y -> Regrouped x y.
Proof.
  intros E. destruct (left_form x) as (x' & Lx & Rx), (left_form y) as (y' & Ly & Ry).
  assert (x' = y') as <-.
  { apply (left_inj x' y' p p' Lx Ly). rewrite <- (proj2 (regrouped_flat x x' Rx)), <- (proj2 (regrouped_flat y y' Ry)). exact E. }
  eapply RG_trans; [exact Rx|]. now apply RG_sym.
Qed.
