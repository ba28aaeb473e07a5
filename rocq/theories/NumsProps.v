(** Property C83: files of tagged numbers. *)
From Coq Require Import String.
From Verif Require Import Base DataModel NumericModel ValueModel FormatModel MatchTreeModel DecoderModel
  FormatSpec ExactSpec CompileProofs DecoderProps FormatProps ExactProps NegativeProps RecordModel RecordSpec TextModel DeflateModel DeflateSpec DeflateProofs DeflateProps GzipModel GzipSpec GzipProofs GzipProps RiffModel NumsModel NumsSpec NumsProofs.
Open Scope nat_scope.

(** A module that has the two items of the format, from level [base]. *)
Definition has_nums (M : fmodule) (base : nat) : Prop :=
  forall k it, nth_error (nums_items base) k = Some it -> get_item M (base + k) = Some it.
(** A value is that of a tagged number: it has the name of its kind, and the number as an
    integer of its signedness and width. *)
Definition is_written (x : written) (v : value) : Prop :=
  exists k u, v = VBranch k (VVariant (intern (name_of x)) u) /\
    if w_signed x then u = VNumeric (TC (number_of x) (Concrete (MR true (w_width x))))
    else exists n, coerce_mapped u = VU (w_width x) n /\ number_of x = Z.of_N n.
(** The numbers that the value of a file says *)
Definition lists (v : value) (xs : list written) : Prop :=
  exists vs, v = VRecord [(intern "values", VSeq (Strict vs))] /\ Forall2 is_written xs vs.
Lemma num_is x : is_written x (num_val x).
Proof.
  destruct x as [sg w bs]. unfold is_written, num_val, inner_val, number_of. cbn [w_signed w_width w_bytes]. do 2 eexists. split; [reflexivity|].
  destruct sg; [reflexivity|]. exists (number true bs). split; [destruct w; reflexivity|reflexivity].
Qed.
Lemma nums_lists xs : lists (nums_val xs) xs.
Proof. exists (map num_val xs). split; [reflexivity|]. induction xs as [|x xs IH]; constructor; [apply num_is|exact IH]. Qed.

(** The format describes exactly the files of tagged numbers, and the value says the
    numbers, in order. *)
Theorem C83_describes : forall (M : fmodule) (base : nat) (strict : bool) um fl buf s i j,
  has_nums M base -> Forall (fun b => (b < 256)%N) buf -> i <= length buf ->
  (forall v, SemN M strict um fl s (nums base) buf i j v -> exists xs, Numbers buf i j xs /\ lists v xs) /\
  (forall xs, Numbers buf i j xs -> exists v, SemN M strict um fl s (nums base) buf i j v /\ lists v xs).
Proof.
  intros M base strict um fl buf s i j Hr Hb Hi. pose proof (fun v => nums_sem M strict um fl buf Hb base Hr s i j v Hi) as H. split.
  - intros v Hv. apply H in Hv as (xs & HL & ->). exists xs. split; [exact HL|apply nums_lists].
  - intros xs HL. exists (nums_val xs). split; [apply H; eauto|apply nums_lists].
Qed.
(** A decoder that returns a value has read such a file. *)
Theorem C83_decoded : forall M base bld eqb, (forall a b, eqb a b = true -> a = b) -> forall fuel P pfuel input v c' es,
  has_nums M base -> Forall (fun b => (b < 256)%N) input ->
  compile_program bld eqb M fuel (nums base) = Some (COk P) -> run bld P pfuel (rc_new input) = ROk v c' es ->
  exists xs, Numbers input 0 (roff c') xs /\ lists v xs.
Proof.
  intros M base bld eqb Heqb fuel P pfuel input v c' es Hg Hb HP Hr. pose proof (C25_belongs_partial bld eqb Heqb M _ _ _ _ _ _ _ _ HP Hr) as H.
  exact (proj1 (C83_describes _ _ _ _ _ _ _ _ _ Hg Hb (Nat.le_0_l _)) _ H).
Qed.
Print Assumptions C83_describes.
Print Assumptions C83_decoded.

Definition nums_module : fmodule := nums_items 0.
Lemma nums_has : has_nums nums_module 0.
Proof. intros k it H. exact H. Qed.
Lemma nums_exact : exactb (build_exec 60) nums_module true 60 12 false (nums 0) NEmpty = true.
Proof. vm_compute. reflexivity. Qed.
Lemma nums_compiles : exists P, compile_program (build_exec 60) no_eqb nums_module (N.to_nat 20000) (nums 0) = Some (COk P).
Proof. apply compiled. vm_compute. reflexivity. Qed.
(** There is a decoder that reads every such file, to its end, and returns its numbers. *)
Theorem C83_reads : exists P, compile_program (build_exec 60) no_eqb nums_module (N.to_nat 20000) (nums 0) = Some (COk P) /\
  forall input xs, Forall (fun b => (b < 256)%N) input -> (N.of_nat (length input) < 2 ^ 61)%N -> Numbers input 0 (length input) xs ->
  exists pfuel v es, run (build_exec 60) P pfuel (rc_new input) = ROk v (RC input (length input)) es /\ lists v xs.
Proof.
  destruct nums_compiles as (P & HP). exists P. split; [exact HP|]. intros input xs Hb Hi HM.
  destruct (proj2 (C83_describes nums_module 0 true anything anything input SEmpty 0 (length input) nums_has Hb (Nat.le_0_l _)) xs HM) as (v & HS & HF).
  assert (Hu : usable input) by (split; [exact Hb|unfold w64; lia]).
  destruct (C26_decodes_partial (build_exec 60) ltac:(intros m fs n t; apply exec_follows) no_eqb ltac:(discriminate) nums_module true (fun _ => C26_codes 56) false 60 12 _ _ P input _ _ HP nums_exact Hu HS (or_intror eq_refl)) as (pfuel & es & Hr).
  exists pfuel, v, es. auto.
Qed.
(** A file can be read in one way only. *)
Lemma tag_kind x y : tag_of x = tag_of y -> w_signed x = w_signed y /\ w_width x = w_width y.
Proof. destruct x as [[|] [| | |] ?], y as [[|] [| | |] ?]; cbn; intros E; try discriminate E; auto. Qed.
Theorem C83_one_reading : forall buf i j xs ys, Numbers buf i j xs -> Numbers buf i j ys -> xs = ys.
Proof.
  intros buf i j xs ys [Fx Hx] [Fy Hy]. pose proof (same_bytes _ _ _ _ _ Hx Hy) as E. apply app_inv_head in E. clear Hx Hy. revert ys Fy E.
  induction Fx as [|x xs Hx _ IH]; intros [|y ys] Fy E; try discriminate; [reflexivity|]. inversion Fy as [|? ? Hy Fy']; subst. cbn [flat_map app] in E. injection E as Et E.
  apply tag_kind in Et as [E1 E2]. unfold fits in *. assert (El : length (w_bytes x) = length (w_bytes y)) by congruence.
  pose proof (app_same _ _ _ _ El E) as Eb. rewrite Eb in E. apply app_inv_head in E. f_equal; [|now apply IH]. destruct x, y; cbn in *; congruence.
Qed.
Print Assumptions C83_reads.
Print Assumptions C83_one_reading.

(** 258, -2 and 200 *)
Definition three : list N := [78; 85; 77; 83; 1; 1; 2; 4; 254; 0; 200]%N.
Definition three_numbers : list written := [Written false B16 [1; 2]; Written true B8 [254]; Written false B8 [200]]%N.
Example C83_nonvacuous : Numbers three 0 11 three_numbers /\ map number_of three_numbers = [258; -2; 200]%Z /\
  read_to (decode_file nums_module (nums 0) three) = Some 11.
Proof. split; [split; [repeat constructor|apply here; reflexivity]|]. split; vm_compute; reflexivity. Qed.
