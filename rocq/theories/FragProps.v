(** C76 and C77: the text of fragments, and the drawing of values as trees. *)
From Coq Require Import Ascii String DecimalString.
From Verif Require Import Base BoundsModel DataModel NumericModel ValueModel FragModel FragSpec FragProofs FragDraw FragRead.
Open Scope nat_scope.

(** ** C76: fragments *)

(** Fragments read as what they were put together from. *)
Theorem C76_concatenation f g h :
  render (cat f g) = render f ++ render g /\
  render (append f g) = render f ++ render g /\
  render (delimit f g h) = render g ++ render f ++ render h /\
  render (group f) = render f /\
  render (cat_break f) = render f ++ [newline].
Proof.
  unfold append, delimit, cat_break, group. rewrite !render_cat, <- !app_assoc. repeat split; reflexivity.
Qed.
(** A sequence reads as its elements with the separator between each two, whatever was
    simplified. *)
Theorem C76_sequence l sep :
  render (seq l sep) = joined (match sep with Some f => render f | None => [] end) (map render l).
Proof. apply render_seq. Qed.
(** A fragment is called vacuous exactly when it reads as nothing, if its atoms do not. *)
Theorem C76_vacuous f : atoms_shown f -> (is_vacuous f = true <-> render f = []).
Proof. intros H. split; [apply vacuous_nil|now apply nil_vacuous]. Qed.
(** So a separator is put exactly between two texts that are there. *)
Theorem C76_intervene f sep g : atoms_shown f -> atoms_shown g ->
  render (intervene f sep g) =
  match render f, render g with [], t => t | t, [] => t | t, u => t ++ render sep ++ u end.
Proof. apply render_intervene. Qed.
(** Atoms that read as nothing are taken for something. *)
Theorem C76_atoms_refuted : exists f sep g,
  render f = [] /\ is_vacuous f = false /\ render (intervene f sep g) <> render g.
Proof.
  exists (GAtom []), (GChar 44%N), (GChar 65%N). refine (conj _ (conj _ _)); [reflexivity|reflexivity|discriminate].
Qed.

(** What is called a single line is one: no line ends, or only at the end where this is
    allowed. Missing: the converse (refuted below). *)
Theorem C76_single_line_partial f final : atoms_one_line f -> is_single_line final f = true ->
  if final then one_line_ended (render f) else one_line (render f).
Proof. intros H E. destruct (single_line_sound f H). destruct final; auto. Qed.
Theorem C76_single_line_refuted : exists f,
  atoms_one_line f /\ one_line_ended (render f) /\ is_single_line true f = false.
Proof.
  exists (GSeq None [GChar newline; GEmpty]). refine (conj _ (conj _ _)).
  - intros t H. apply part_seq in H. destruct H as [H|[(j & H & _)|(f & [<-|[<-|[]]] & H)]]; inversion H.
  - right. exists []. split; [reflexivity|intros []].
  - reflexivity.
Qed.
(** What is called fit for a line is what has neither line ends nor symbols. *)
Theorem C76_inline f : atoms_one_line f -> as_constructed f ->
  (fits_inline f = true <-> one_line (render f) /\ forall s, ~ Part (GSymbol s) f).
Proof.
  intros H1 H2. split.
  - intros E. split; [now apply fits_text|now apply fits_symbols].
  - intros [A B]. now apply fits_complete.
Qed.
(** Texts fit for the line are put on it, which is then ended; others below it. *)
Theorem C76_join f g h : atoms_one_line g -> as_constructed g ->
  (one_line (render g) /\ (forall s, ~ Part (GSymbol s) g) ->
     render (join_with_wsp f g) = render f ++ str " " ++ render g ++ [newline] /\
     render (join_with_wsp_eol f g h) = render f ++ str " " ++ render g ++ [newline]) /\
  (~ (one_line (render g) /\ (forall s, ~ Part (GSymbol s) g)) ->
     render (join_with_wsp f g) = render f ++ [newline] ++ render g /\
     render (join_with_wsp_eol f g h) = render f ++ render h ++ [newline] ++ render g).
Proof.
  intros H1 H2. pose proof (C76_inline g H1 H2) as I. unfold join_with_wsp, join_with_wsp_eol, cat_break.
  destruct (fits_inline g); rewrite !render_cat, <- !app_assoc; split; intros X; try (split; reflexivity).
  - exfalso. apply X, I. reflexivity.
  - apply I in X. discriminate.
Qed.

(** Whatever the history of a builder, it ends with all that was put in, in order. *)
Theorem C76_builder bs : render (finalize (built bs)) = flat_map put_in bs.
Proof. apply built_text. Qed.
(** With a separator, this stands between each two pieces. Missing: that empty fragments are
    put in (refuted below). *)
Theorem C76_separated_partial bs sep :
  Forall (fun o => match o with BAppend f | BPush f => render f <> [] | BRenew => True end) bs ->
  render (finalize_with_sep (built bs) sep) = joined (render sep) (filter nonempty (pieces [] bs)).
Proof.
  intros H. unfold built. change (fold_left _ bs new_builder) with (fold_left step bs new_builder).
  rewrite built_pieces; [reflexivity|exact H|]. split; [constructor|discriminate].
Qed.
(** An empty fragment is left out if it is pushed after something appended, but is a piece of
    its own if pushed after another: there are two separators in turn. *)
Theorem C76_separated_refuted : exists f g sep,
  render (finalize_with_sep (built [BPush f; BPush GEmpty; BPush g]) sep) = render f ++ render sep ++ render sep ++ render g /\
  render (finalize_with_sep (built [BAppend f; BPush GEmpty; BPush g]) sep) = render f ++ render sep ++ render g /\
  render sep <> [].
Proof.
  exists (GChar 65%N), (GChar 66%N), (GChar 44%N). refine (conj _ (conj _ _)); [reflexivity|reflexivity|discriminate].
Qed.

(** A sequence of a group, an empty string and a symbol *)
Definition ex_fragment : fragment :=
  seq [group (cat (GString (str "ab")) (GAtom (str "7"))); GString []; GSymbol Elbow] (Some (GChar 44%N)).
Example C76_nonvacuous :
  atoms_shown ex_fragment /\ atoms_one_line ex_fragment /\ as_constructed ex_fragment /\
  render ex_fragment = str "ab7,," ++ symbol_text Elbow /\
  is_single_line true ex_fragment = true /\ fits_inline ex_fragment = false /\ is_vacuous ex_fragment = false.
Proof.
  assert (HA : forall t, Part (GAtom t) ex_fragment -> t = str "7").
  { intros t H. apply part_seq in H. destruct H as [H|[(j & [= <-] & H)|(f & [<-|[<-|[<-|[]]]] & H)]]; try (inversion H; fail).
    inversion H as [|? ? H'| | | |]; subst. inversion H' as [| | ? ? ? X| ? ? ? X| |]; subst; inversion X. reflexivity. }
  refine (conj _ (conj _ (conj _ _))).
  - intros t H. rewrite (HA t H). discriminate.
  - intros t H. rewrite (HA t H). intros [X|[]]. discriminate.
  - intros s l H. apply part_seq in H. destruct H as [H|[(j & [= <-] & H)|(f & [<-|[<-|[<-|[]]]] & H)]]; try (inversion H; fail).
    + injection H as -> ->. split; discriminate.
    + inversion H as [|? ? H'| | | |]; subst. inversion H' as [| | ? ? ? X| ? ? ? X| |]; subst; inversion X.
  - repeat split.
Qed.

(** ** C77: drawings of values *)

(** The text printed for a value is the drawing of what is shown of it, below the columns it is
    printed under. *)
Theorem C77_drawing show index name :
  (forall v, one_line (show v)) -> (forall l, one_line (name l)) ->
  forall v g, render (compile_value show index name v g) = draw (margin g) (shown show index name v).
Proof. intros H1 H2 v g. apply (compile_shown show index name H1 H2 v g). Qed.
(** A tree can be read off its drawing. *)
Theorem C77_legible m n n' : legible n -> legible n' -> draw m n = draw m n' -> n = n'.
Proof. apply draw_unique. Qed.
(** So the texts printed for two values are equal only if the same is shown of them. *)
Theorem C77_distinct show index name :
  (forall v, one_line (show v)) -> (forall l, one_line (name l) /\ ~ In 32%N (name l)) ->
  (forall i, one_line (index i) /\ ~ In 32%N (index i)) ->
  forall v v' g, render (compile_value show index name v g) = render (compile_value show index name v' g) ->
    shown show index name v = shown show index name v'.
Proof.
  intros H1 H2 H3 v v' g E. rewrite !(C77_drawing show index name H1 (fun l => proj1 (H2 l))) in E.
  eapply C77_legible; [| |exact E]; now apply shown_legible.
Qed.
(** All elements of a sequence of up to eleven are shown; of a longer one the first ten, a mark
    and the last. *)
Theorem C77_preview show index name vs :
  let parts := map (fun iv => Some (index (fst iv), shown show index name (snd iv))) (combine (List.seq 0 (length vs)) vs) in
  vs <> [] ->
  shown show index name (VSeq (Strict vs)) =
  Node (if length vs <=? 11 then parts else firstn 10 parts ++ [None] ++ skipn (length vs - 1) parts).
Proof.
  intros parts H. cbn [shown]. destruct vs as [|v vs]; [congruence|]. cbn [map seq_node]. f_equal.
  unfold previewed. rewrite <- (map_cons (shown show index name) v vs), map_length.
  replace (map Some (combine (map index (List.seq 0 (length (v :: vs)))) (map (shown show index name) (v :: vs)))) with parts; [reflexivity|].
  unfold parts. generalize (v :: vs). intros l. generalize 0. induction l as [|x l IH]; intros k; [reflexivity|].
  cbn. now rewrite IH.
Qed.

(** Names with spaces make drawings ambiguous. *)
Theorem C77_names_refuted : exists n n', n <> n' /\ draw [] n = draw [] n'.
Proof.
  exists (Node [Some (str "a", Leaf (str "b := c"))]), (Node [Some (str "a := b", Leaf (str "c"))]).
  split; [discriminate|reflexivity].
Qed.

Definition ex_show (v : value) : text :=
  match v with VU _ n | VUsize n => str (NilZero.string_of_uint (N.to_uint n)) | _ => [] end.
Definition ex_index (i : nat) : text := ex_show (VUsize (N.of_nat i)).
Definition ex_name (l : label) : text := if (l <? 10)%N then [97 + l]%N else str "__".
(** What is shown does not tell tuples from sequences, nor how long ones differ in the middle. *)
Theorem C77_shown_refuted :
  (exists vs, shown ex_show ex_index ex_name (VTuple vs) = shown ex_show ex_index ex_name (VSeq (Strict vs)) /\ vs <> []) /\
  exists vs ws, vs <> ws /\
    shown ex_show ex_index ex_name (VSeq (Strict vs)) = shown ex_show ex_index ex_name (VSeq (Strict ws)).
Proof.
  split.
  - exists [VU B8 1; VU B8 2]. split; [vm_compute; reflexivity|discriminate].
  - exists (repeat (VU B8 0) 12), (repeat (VU B8 0) 10 ++ [VU B8 1; VU B8 0]). split; [discriminate|vm_compute; reflexivity].
Qed.

(** A record of a tuple, a hidden field and an optional sequence, below a branch *)
Definition ex_value : value :=
  VRecord [(0%N, VTuple [VU B8 1; VU B16 20]); (12%N, VU B8 3);
           (1%N, VBranch 1 (VOption (Some (VSeq (Strict [VVariant 2%N (VU B8 4)])))));
           (3%N, VRecord [(4%N, VBool true); (5%N, VBool false); (6%N, VMapped (VU B8 1) (VBool true))])].
Example C77_nonvacuous :
  render (compile_value ex_show ex_index ex_name ex_value [CBranch]) =
  (let nl := [newline] in let P := symbol_text Pipe in let V := symbol_text Vacuum in
   let J := symbol_text Junction in let E := symbol_text Elbow in
   P ++ J ++ str "a :=" ++ nl ++
   P ++ P ++ J ++ str "0 := 1" ++ nl ++
   P ++ P ++ E ++ str "1 := 20" ++ nl ++
   P ++ J ++ str "b :=" ++ nl ++
   P ++ P ++ E ++ str "some :=" ++ nl ++
   P ++ P ++ V ++ E ++ str "0 := { c := 4 }" ++ nl ++
   P ++ E ++ str "d := bool-flags[e|g]" ++ nl).
Proof. vm_compute. reflexivity. Qed.
(** The hypotheses on texts are met by texts of one line without spaces. *)
Definition ex_show_line (v : value) : text := match v with VU _ n => [48 + n mod 10]%N | _ => str "x" end.
Example C77_hypotheses :
  (forall v, one_line (ex_show_line v)) /\
  (forall l, one_line (ex_name l) /\ ~ In 32%N (ex_name l)) /\
  (forall i : nat, let t := repeat 49%N i in one_line t /\ ~ In 32%N t) /\
  render (compile_value ex_show_line (repeat 49%N) ex_name (VU B8 7) []) <>
  render (compile_value ex_show_line (repeat 49%N) ex_name (VU B8 8) []).
Proof.
  refine (conj _ (conj _ (conj _ _))).
  - intros v H. destruct v; cbn [ex_show_line] in H; try change (str "x") with [120%N] in H;
      destruct H as [H|[]]; revert H; unfold newline; first [discriminate|lia].
  - intros l. unfold ex_name. change (str "__") with [95; 95]%N.
    destruct (l <? 10)%N; split; intros H.
    + destruct H as [H|[]]. unfold newline in H. lia.
    + destruct H as [H|[]]. lia.
    + destruct H as [H|[H|[]]]; discriminate.
    + destruct H as [H|[H|[]]]; discriminate.
  - intros i. split; intros H; apply repeat_spec in H; discriminate.
  - vm_compute. discriminate.
Qed.

Print Assumptions C76_concatenation.
Print Assumptions C76_sequence.
Print Assumptions C76_vacuous.
Print Assumptions C76_intervene.
Print Assumptions C76_atoms_refuted.
Print Assumptions C76_single_line_partial.
Print Assumptions C76_single_line_refuted.
Print Assumptions C76_inline.
Print Assumptions C76_join.
Print Assumptions C76_builder.
Print Assumptions C76_separated_partial.
Print Assumptions C76_separated_refuted.
Print Assumptions C77_drawing.
Print Assumptions C77_legible.
Print Assumptions C77_distinct.
Print Assumptions C77_preview.
Print Assumptions C77_names_refuted.
Print Assumptions C77_shown_refuted.
